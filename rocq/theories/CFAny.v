(** * CFAny: what the constructor makes of any list of coefficients, up to sign. *)

From Coq Require Import ZArith Znumtheory Reals Lia Lra Bool List Arith.
From Coquelicot Require Import Coquelicot.
From Verif Require Import Base Ext ModelBlock ModelCF Spec SpecCF NumFacts Transfer SurdCore RatioFacts SurdArith CFCore CFSeq CFIter CFBasic CFSurd CFNew CFSigned.
Import ListNotations.
Open Scope Z_scope.

(** the coefficients [rev] (last one first) applied to the quotient p/q *)
Fixpoint evp (rev : list Z) (x : Z * Z) : Z * Z :=
  match rev with nil => x | v :: rest => evp rest (v * fst x + snd x, fst x) end.
Definition absp (x y : Z * Z) : Prop := Z.abs (fst x) = Z.abs (fst y) /\ Z.abs (snd x) = Z.abs (snd y).
Lemma absp_refl x : absp x x. Proof. split; reflexivity. Qed.
Lemma absp_trans x y z : absp x y -> absp y z -> absp x z.
Proof. unfold absp. intros [? ?] [? ?]. split; congruence. Qed.
Lemma absp_eq x y : x = y -> absp x y. Proof. intros ->. apply absp_refl. Qed.
Lemma evp_scale c rev : forall x, evp rev (c * fst x, c * snd x) = (c * fst (evp rev x), c * snd (evp rev x)).
Proof.
  induction rev as [|v r IH]; intros x; [reflexivity|]. cbn [evp fst snd].
  replace (v * (c * fst x) + c * snd x) with (c * fst (v * fst x + snd x, fst x)) by (cbn [fst]; ring).
  replace (c * fst x) with (c * snd (v * fst x + snd x, fst x)) by reflexivity. apply IH.
Qed.
Lemma evp_sign c rev p q p' q' : c = 1 \/ c = -1 -> p' = c * p -> q' = c * q -> absp (evp rev (p, q)) (evp rev (p', q')).
Proof.
  intros C -> ->. pose proof (evp_scale c rev (p, q)) as E. cbn [fst snd] in E. rewrite E. unfold absp. cbn [fst snd]. split; nia.
Qed.
Lemma sgnb_cases b : sgnb b = 1 \/ sgnb b = -1. Proof. destruct b; cbn; auto. Qed.
Lemma sgnb_negb b : sgnb (negb b) = - sgnb b. Proof. destruct b; reflexivity. Qed.
Lemma sgnb_sq b : sgnb b * sgnb b = 1. Proof. destruct b; reflexivity. Qed.

Definition goodA (rev : list Z) : Prop := match rev with nil => True | v :: r => 0 <= v /\ (r = nil \/ wfr r) end.
Lemma wfr_goodA r : r = nil \/ wfr r -> goodA r.
Proof. intros [->|W]; [exact I|]. destruct r as [|v r]; [exact I|]. split; [eapply wfr_hd; eauto|]. destruct r; [auto|]. right. apply wfr_tail in W; [tauto|discriminate]. Qed.
Lemma wfr_tail' v r : wfr (v :: r) -> r = nil \/ wfr r.
Proof. destruct r; [auto|]. intros W. apply wfr_tail in W; [tauto|discriminate]. Qed.
Lemma wfr_push v r : 1 <= v -> r = nil \/ wfr r -> wfr (v :: r).
Proof. intros H [->|W]; [cbn; lia|apply wfr_cons; auto]. Qed.

Section Any.
Context (g : cfg) (t : ity).

Lemma absorb_any n : forall rev ng nv a st, (length rev <= n)%nat -> rev = nil \/ wfr rev \/ (exists r, rev = 0 :: r /\ (r = nil \/ wfr r)) -> a < 0 -> new_absorb g t ng nv rev a = Ok st ->
  goodA (s_rev st) /\ forall p q, absp (evp rev (a * p + sgnb ng * q, p)) (evp (s_rev st) (sgnb (s_negate st) * p, q)).
Proof.
  induction n as [|n IH]; intros rev ng nv a st Hl W Ha H; (destruct rev as [|am1 rest]; [discriminate|]); [cbn in Hl; lia|].
  assert (Wr : 0 <= am1 /\ (rest = nil \/ wfr rest)).
  { destruct W as [W|[W|(r & W & Wr)]]; [discriminate| |inversion W; subst; auto with zarith]. split; [eapply wfr_hd; eauto|eapply wfr_tail'; eauto]. }
  destruct Wr as [H0 Wr]. cbn [new_absorb] in H. destruct (dassert g (0 <=? am1)); [|discriminate|discriminate]. cbn [bind] in H.
  pose proof (sgnb_cases ng) as Sg. pose proof (sgnb_sq ng) as Sq. destruct (Z.eqb_spec am1 1) as [->|N1].
  - destruct rest as [|am2 rest2].
    + destruct (lift2 (subT t) (lift2 _ _ _) _) as [x| |] eqn:E; [|discriminate|discriminate]. cbn [bind] in H. apply lift_sub2 in E. inversion H; subst st. cbn [s_rev s_negate].
      split; [cbn; lia|]. intros p q. rewrite sgnb_negb. cbn [evp fst snd]. subst x. unfold absp. cbn [fst snd]. destruct Sg as [-> | ->]; lia.
    + destruct (lift2 (addT t) _ _) as [y| |] eqn:Ey; [|discriminate|discriminate]. cbn [bind] in H. apply lift_add in Ey.
      destruct (lift2 (subT t) (lift2 _ _ _) _) as [x| |] eqn:E; [|discriminate|discriminate]. cbn [bind] in H. apply lift_sub2 in E. inversion H; subst st. cbn [s_rev s_negate].
      destruct Wr as [Wr|Wr]; [discriminate|]. pose proof (wfr_hd _ _ Wr). split.
      * split; [lia|]. right. apply wfr_push; [lia|]. eapply wfr_tail'; eauto.
      * intros p q. rewrite sgnb_negb. cbn [evp fst snd]. subst x y. apply (evp_sign (sgnb ng)); [auto| |]; destruct Sg as [-> | ->]; ring.
  - destruct (Z.eqb_spec am1 0) as [->|N0].
    + destruct rest as [|am2 rest2].
      * destruct (lift2 (subT t) _ _) as [x| |] eqn:E; [|discriminate|discriminate]. cbn [bind] in H. apply lift_sub in E. inversion H; subst st. cbn [s_rev s_negate].
        split; [cbn; lia|]. intros p q. rewrite sgnb_negb. cbn [evp fst snd]. subst x. unfold absp. cbn [fst snd]. destruct Sg as [-> | ->]; lia.
      * destruct Wr as [Wr|Wr]; [discriminate|]. pose proof (wfr_hd _ _ Wr). pose proof (wfr_tail' _ _ Wr) as W2.
        destruct (lift2 (addT t) _ _) as [nt| |] eqn:E; [|discriminate|discriminate]. cbn [bind] in H. apply lift_add in E.
        assert (K : forall p q, evp (0 :: am2 :: rest2) (a * p + sgnb ng * q, p) = evp rest2 (nt * p + sgnb ng * q, p)).
        { intros p q. cbn [evp fst snd]. f_equal. subst nt. f_equal; ring. }
        destruct (Z.ltb_spec nt 0) as [Hn|Hn].
        -- destruct (IH rest2 ng nv nt st ltac:(cbn in Hl; lia) ltac:(tauto) Hn H) as [G V]. split; [auto|]. intros p q. rewrite K. apply V.
        -- inversion H; subst st. cbn [s_rev s_negate]. split; [split; auto|]. intros p q. rewrite K. cbn [evp fst snd].
           apply (evp_sign (sgnb ng)); [auto| |]; destruct Sg as [-> | ->]; ring.
    + destruct (dassert g (1 <? am1)); [|discriminate|discriminate]. cbn [bind] in H.
      destruct (lift2 (subT t) (Ok am1) _) as [y| |] eqn:Ey; [|discriminate|discriminate]. cbn [bind] in H. apply lift_sub in Ey.
      destruct (lift2 (subT t) (lift2 _ _ _) _) as [x| |] eqn:E; [|discriminate|discriminate]. cbn [bind] in H. apply lift_sub2 in E. inversion H; subst st. cbn [s_rev s_negate].
      split; [split; [lia|]; right; apply wfr_push; [lia|]; right; apply wfr_push; [lia|auto]|].
      intros p q. rewrite sgnb_negb. cbn [evp fst snd]. subst x y. apply (evp_sign (sgnb ng)); [auto| |]; destruct Sg as [-> | ->]; ring.
Qed.

Lemma step_any st a st' : goodA (s_rev st) -> new_step g t st a = Ok st' ->
  goodA (s_rev st') /\ forall p q, absp (evp (s_rev st) (sgnb (s_negate st) * (a * p + q), p)) (evp (s_rev st') (sgnb (s_negate st') * p, q)).
Proof.
  destruct st as [ng nv rev]. cbn [s_rev s_negate]. intros G H. unfold new_step in H.
  destruct (if ng then lift2 (subT t) (Ok 0) (Ok a) else Ok a) as [a'| |] eqn:Ea; [|discriminate|discriminate]. cbn [bind] in H. apply flip_ok in Ea.
  pose proof (sgnb_cases ng) as Sg. pose proof (sgnb_sq ng) as Sq.
  assert (K : forall p q, sgnb ng * (a * p + q) = a' * p + sgnb ng * q) by (intros; rewrite Ea; ring).
  destruct rev as [|last rest].
  - destruct (Z.ltb_spec a' 0).
    + destruct (lift2 (subT t) _ _) as [x| |] eqn:E; [|discriminate|discriminate]. cbn [bind] in H. apply lift_sub in E. inversion H; subst st'. cbn [s_rev s_negate].
      split; [cbn; split; [lia|auto]|]. intros p q. rewrite K, sgnb_negb. cbn [evp fst snd]. subst x. unfold absp. cbn [fst snd]. clear Ea K. destruct Sg as [-> | ->]; lia.
    + inversion H; subst st'. cbn [s_rev s_negate]. split; [cbn; split; [lia|auto]|]. intros p q. rewrite K. cbn [evp fst snd]. unfold absp. cbn [fst snd]. clear Ea K. destruct Sg as [-> | ->]; lia.
  - destruct G as [G0 G]. destruct (Z.eqb_spec a' 0) as [Z0|Nz].
    + rewrite Z0 in *. destruct (Z.eqb_spec last 0) as [->|Nl]; inversion H; subst st'; cbn [s_rev s_negate].
      * split; [apply wfr_goodA; auto|]. intros p q. rewrite K. cbn [evp fst snd]. apply (evp_sign (sgnb ng)); [auto| |]; clear Ea K; destruct Sg as [-> | ->]; ring.
      * split; [split; [lia|]; right; apply wfr_push; [lia|auto]|]. intros p q. rewrite K. cbn [evp fst snd]. apply (evp_sign (sgnb ng)); [auto| |]; clear Ea K; destruct Sg as [-> | ->]; ring.
    + destruct (Z.ltb_spec a' 0) as [Neg|Pos].
      * destruct (absorb_any (length (last :: rest)) (last :: rest) ng nv a' st' (Nat.le_refl _)) as [G' V]; auto.
        { destruct (Z.eq_dec last 0) as [->|]; [right; right; exists rest; auto|]. right; left. apply wfr_push; [lia|auto]. }
        split; [auto|]. intros p q. rewrite K. apply V.
      * destruct rest as [|am2 rest2].
        -- inversion H; subst st'. cbn [s_rev s_negate]. split; [split; [lia|]; right; cbn; lia|]. intros p q. rewrite K. cbn [evp fst snd].
           unfold absp; cbn [fst snd]; clear Ea K; destruct Sg as [-> | ->]; lia.
        -- destruct G as [G|G]; [discriminate|]. pose proof (wfr_hd _ _ G). destruct (Z.eqb_spec last 0) as [->|Nl].
           ++ destruct (lift2 (addT t) _ _) as [x| |] eqn:E; [|discriminate|discriminate]. cbn [bind] in H. apply lift_add in E. inversion H; subst st'. cbn [s_rev s_negate].
              split; [split; [lia|]; eapply wfr_tail'; eauto|]. intros p q. rewrite K. cbn [evp fst snd]. subst x. apply (evp_sign (sgnb ng)); [auto| |]; clear Ea K; destruct Sg as [-> | ->]; ring.
           ++ inversion H; subst st'. cbn [s_rev s_negate]. split; [split; [lia|]; right; apply wfr_push; [lia|auto]|].
              intros p q. rewrite K. cbn [evp fst snd]. apply (evp_sign (sgnb ng)); [auto| |]; clear Ea K; destruct Sg as [-> | ->]; ring.
Qed.

Lemma loop_any l : forall st st', goodA (s_rev st) -> new_loop g t st l = Ok st' ->
  goodA (s_rev st') /\ absp (evp (s_rev st) (sgnb (s_negate st) * fst (quotient l), snd (quotient l))) (evp (s_rev st') (1, 0)).
Proof.
  induction l as [|a l IH]; intros st st' G H.
  - inversion H; subst st'. split; [auto|]. cbn [quotient fst snd]. apply (evp_sign (sgnb (s_negate st))); [apply sgnb_cases| |ring].
    rewrite Z.mul_1_r, sgnb_sq. reflexivity.
  - cbn [new_loop] in H. destruct (new_step g t st a) as [st1| |] eqn:E; [|discriminate|discriminate]. cbn [bind] in H.
    destruct (step_any st a st1 G E) as [G1 V1]. destruct (IH st1 st' G1 H) as [G' V']. split; [auto|].
    cbn [quotient]. destruct (quotient l) as [p q] eqn:Eq. cbn [fst snd] in *. eapply absp_trans; [apply V1|exact V'].
Qed.

Lemma trim_any n : forall rest last r, (length rest <= n)%nat -> new_trim t last rest = Ok r -> 0 <= last -> rest = nil \/ wfr rest ->
  (r = nil /\ snd (evp (last :: rest) (1, 0)) = 0) \/
  exists v r', r = v :: r' /\ 0 <= v /\ (r' = nil \/ wfr r') /\ (r' <> nil -> 2 <= v) /\ evp r (1, 0) = evp (last :: rest) (1, 0).
Proof.
  induction n as [|n IH]; intros rest last r Hl H H0 W.
  - destruct rest; [|cbn in Hl; lia]. inversion H; subst. right. exists last, nil. split; [auto|]. split; [auto|]. split; [auto|]. split; [congruence|auto].
  - destruct rest as [|y rest1].
    { inversion H; subst. right. exists last, nil. split; [auto|]. split; [auto|]. split; [auto|]. split; [congruence|auto]. }
    destruct W as [W|W]; [discriminate|]. pose proof (wfr_hd _ _ W). pose proof (wfr_tail' _ _ W) as W1. cbn [new_trim] in H.
    destruct (Z.eqb_spec last 0) as [->|N0].
    + destruct rest1 as [|z rest2].
      * inversion H; subst. left. split; [auto|]. reflexivity.
      * destruct W1 as [W1|W1]; [discriminate|]. pose proof (wfr_hd _ _ W1). pose proof (wfr_tail' _ _ W1) as W2.
        assert (E : evp (0 :: y :: z :: rest2) (1, 0) = evp (z :: rest2) (1, 0)) by (cbn [evp fst snd]; f_equal; f_equal; ring).
        rewrite E. apply (IH rest2 z r); auto. cbn in Hl. lia.
    + destruct (Z.eqb_spec last 1) as [->|N1].
      * destruct (lift2 (addT t) _ _) as [y'| |] eqn:Ey; [|discriminate|discriminate]. cbn [bind] in H. apply lift_add in Ey.
        assert (E : evp (1 :: y :: rest1) (1, 0) = evp (y' :: rest1) (1, 0)) by (cbn [evp fst snd]; f_equal; subst y'; f_equal; ring).
        rewrite E. apply (IH rest1 y' r); auto; [cbn in Hl; lia|lia].
      * inversion H; subst. right. exists last, (y :: rest1). split; [auto|]. split; [auto|]. split; [auto|]. split; [intros; lia|auto].
Qed.
End Any.

(** the quotient is the value *)
Lemma evr_quot rev : forall p q, wfr rev -> 0 < p -> 0 < q -> let x := evp rev (p, q) in 0 < fst x /\ 0 < snd x /\ evr rev (IZR p / IZR q) = (IZR (fst x) / IZR (snd x))%R.
Proof.
  induction rev as [|v rev IH]; intros p q W Hp Hq x; [contradiction|]. subst x. cbn [evp fst snd evr].
  assert (P : (IZR p <> 0)%R) by (apply not_0_IZR; lia). assert (Q : (IZR q <> 0)%R) by (apply not_0_IZR; lia). pose proof (wfr_hd _ _ W).
  assert (E : (IZR v + / (IZR p / IZR q) = IZR (v * p + q) / IZR p)%R) by (rewrite plus_IZR, mult_IZR; field; auto). rewrite E.
  destruct rev as [|v2 rev]; [cbn [evp evr fst snd]; split; [nia|split; [auto|auto]]|]. apply wfr_tail in W; [|discriminate]. apply IH; [tauto|nia|auto].
Qed.
Lemma cfl_quot v r : 0 <= v -> r = nil \/ wfr r -> (r <> nil -> 1 <= v) -> let x := evp (v :: r) (1, 0) in 0 < snd x /\ 0 <= fst x /\ evr r (IZR v) = (IZR (fst x) / IZR (snd x))%R.
Proof.
  intros Hv [->|W] H1 x; subst x; cbn [evp fst snd].
  - cbn [evr]. split; [lia|]. split; [lia|]. replace (v * 1 + 0) with v by ring. field.
  - assert (N : r <> nil) by (destruct r; [contradiction|discriminate]). specialize (H1 N).
    destruct (evr_quot r v 1 W ltac:(lia) ltac:(lia)) as (A & B & E). replace (v * 1 + 0) with v by ring. split; [auto|]. split; [lia|]. rewrite <- E. apply evr_congr. field.
Qed.

Lemma Rabs_quot p q p' q' : Z.abs p = Z.abs p' -> Z.abs q = Z.abs q' -> Rabs (IZR p / IZR q) = Rabs (IZR p' / IZR q').
Proof.
  intros Hp Hq. unfold Rdiv. rewrite !Rabs_mult, !Rabs_inv, <- !abs_IZR. rewrite Hp, Hq. reflexivity.
Qed.

Lemma cf_new_magnitude g t a b y : fits t 1 = true -> fitl t a -> cf_new g t a nil b = Ok y -> snd (quotient a) <> 0 ->
  canonical y /\ finite y /\ Rabs (cf_val y) = Rabs (IZR (fst (quotient a)) / IZR (snd (quotient a))).
Proof.
  intros F1 Fa H Hq. assert (Na : a <> nil) by (intros ->; cbn in Hq; lia).
  destruct (new_loop_ok g t _ _ _ _ H Na) as [st Hst]. pose proof (loop_fit g t _ _ _ Hst F1 Fa ltac:(constructor)) as Fst.
  destruct (loop_any g t a (NSt b None nil) st I Hst) as [G V]. cbn [s_rev s_negate evp] in V.
  destruct (s_rev st) as [|v r] eqn:Er; [exfalso; destruct V as [_ V]; cbn in V; lia|]. destruct G as [Hv W].
  assert (H' : (let! (negv, rev) := new_finish t (s_negative st) (v :: r) nil in
      let! neg := match negv with Some b => Ok b | None => Ok (s_negate st) end in
      let! a' := mapM (to_unsigned t) (List.rev rev) in Ok (CF a' nil neg)) = Ok y).
  { unfold cf_new in H. destruct a; [congruence|]. rewrite Hst in H. cbn [bind] in H. rewrite Er in H. exact H. }
  clear H. unfold new_finish in H'. destruct (new_trim t v r) as [rev| |] eqn:Et; [|discriminate|discriminate]. cbn [bind] in H'.
  pose proof (trim_fit _ _ _ _ Et Fst) as Fr.
  destruct (trim_any t (length r) r v rev (Nat.le_refl _) Et Hv W) as [[_ E0]|(v' & r' & -> & Hv' & W' & P2 & E)].
  { exfalso. destruct V as [_ V]. rewrite E0 in V. cbn in V. lia. }
  rewrite <- E in V. destruct (cfl_quot v' r' Hv' W' ltac:(intros K; specialize (P2 K); lia)) as (Q & P & Vq).
  assert (Wr : wfr (v' :: r')) by (destruct W' as [->|W']; [cbn; lia|apply wfr_cons; [|auto]; assert (r' <> nil) by (intros ->; contradiction); specialize (P2 H); lia]).
  destruct (wfr_rev _ Wr) as (a0 & rest & Erev & A0 & Prest).
  set (negv := match v' :: r' with [0] => Some false | _ => s_negative st end) in *.
  destruct (match negv with Some b => Ok b | None => Ok (s_negate st) end) as [neg| |] eqn:En; [|discriminate|discriminate]. cbn [bind] in H'.
  destruct (mapM (to_unsigned t) (List.rev (v' :: r'))) as [al| |] eqn:Em; [|discriminate|discriminate]. cbn [bind] in H'.
  apply mapM_unsigned in Em; [|unfold fitl; apply Forall_rev; exact Fr|rewrite Erev; constructor; [auto|eapply List.Forall_impl; [|exact Prest]; cbn; intros; lia]].
  inversion H'; subst y al. clear H'.
  split; [|split; [reflexivity|]].
  - unfold canonical, wfcf. cbn [a_coeffs p_coeffs negative]. rewrite Erev.
    split; [split; [auto|split; [auto|constructor]]|]. rewrite <- Erev. split.
    + intros _ L. cbn [List.rev]. rewrite last_last. rewrite rev_length in L. cbn [length] in L.
      assert (2 <= v'); [|lia]. apply P2. intros ->. cbn in L. lia.
    + intros E0 _. destruct r' as [|z r']; [|apply (f_equal (@length Z)) in E0; rewrite rev_length in E0; discriminate].
      cbn in E0. inversion E0; subst v'. subst negv. inversion En; auto.
  - unfold cf_val. cbn [a_coeffs p_coeffs negative]. rewrite cfl_rev, Vq. rewrite Rabs_mult.
    replace (Rabs (IZR (sgnb neg))) with 1%R by (destruct neg; cbn [sgnb]; [rewrite Rabs_left|rewrite Rabs_pos_eq]; lra).
    rewrite Rmult_1_l. symmetry. destruct V as [V1 V2]. cbn [fst snd] in V1, V2. apply Rabs_quot; [|auto].
    rewrite <- V1. rewrite Z.abs_mul. destruct b; cbn [sgnb]; lia.
Qed.
