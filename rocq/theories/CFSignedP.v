(** * CFSignedP: the constructor on coefficients of any sign followed by a period. *)

From Coq Require Import ZArith Znumtheory Reals Lia Lra Bool List Arith.
From Coquelicot Require Import Coquelicot.
From Verif Require Import Base Ext ModelBlock ModelCF Spec SpecCF NumFacts Transfer SurdCore RatioFacts SurdArith CFCore CFSeq CFIter CFBasic CFSurd CFNew CFSigned.
Import ListNotations.
Open Scope Z_scope.

Lemma Rinv_small w : (w < -1 \/ 1 < w)%R -> (-1 < / w < 1)%R.
Proof.
  intros [Hw|Hw].
  - assert (E : (/ w = - / (- w))%R) by (rewrite Rinv_opp; ring). rewrite E.
    assert (0 < / - w < 1)%R; [|lra]. split; [apply Rinv_0_lt_compat; lra|]. rewrite <- Rinv_1. apply Rinv_lt_contravar; lra.
  - split; [assert (0 < / w)%R by (apply Rinv_0_lt_compat; lra); lra|]. rewrite <- Rinv_1. apply Rinv_lt_contravar; lra.
Qed.
Lemma steepb v : 2 <= Z.abs v -> (IZR v <= -2 \/ 2 <= IZR v)%R.
Proof. intros. destruct (Z.le_ge_cases v 0); [left; apply IZR_le; lia|right; apply IZR_le; lia]. Qed.

(** the coefficients [l] followed by 1/i, as a reciprocal *)
Fixpoint tli (l : list Z) (i : R) : R := match l with nil => i | a :: l => (/ (IZR a + tli l i))%R end.
Lemma tli_bound l i : List.Forall (fun v => 2 <= Z.abs v) l -> (-1 < i < 1)%R -> (-1 < tli l i < 1)%R.
Proof.
  induction l as [|a l IH]; intros F Hi; [exact Hi|]. inversion F as [|? ? Ha Fl]; subst. specialize (IH Fl Hi). cbn [tli].
  apply Rinv_small. destruct (steepb a Ha); lra.
Qed.
Lemma tli_inj l i j : List.Forall (fun v => 2 <= Z.abs v) l -> (-1 < i < 1)%R -> (-1 < j < 1)%R -> tli l i = tli l j -> i = j.
Proof.
  induction l as [|a l IH]; intros F Hi Hj E; [exact E|]. inversion F as [|? ? Ha Fl]; subst. cbn [tli] in E. apply IH; auto.
  pose proof (tli_bound l i Fl Hi). pose proof (tli_bound l j Fl Hj). apply (f_equal Rinv) in E. rewrite !Rinv_inv in E. lra.
Qed.

Section Step.
Context (g : cfg) (t : ity).

Lemma step_sign s ng rev a st : okst s rev -> 2 <= Z.abs a -> new_step g t (NSt ng (Some s) rev) a = Ok st -> s_negate st = (a <? 0).
Proof.
  intros O Ha H. unfold new_step in H.
  destruct (if ng then lift2 (subT t) (Ok 0) (Ok a) else Ok a) as [a'| |] eqn:Ea; [|discriminate|discriminate]. cbn [bind] in H. apply flip_ok in Ea.
  pose proof O as (W & (v & r & Er & Hv) & O1). rewrite Er in H.
  destruct (Z.eqb_spec a' 0); [destruct ng; cbn [sgnb] in Ea; lia|]. destruct (Z.ltb_spec a' 0) as [Neg|Pos].
  - rewrite <- Er in H. apply absorb_eq in H; [|auto]. subst st. cbn [s_negate]. destruct ng; cbn [sgnb negb] in *; symmetry; [apply Z.ltb_ge|apply Z.ltb_lt]; lia.
  - assert (H' : Ok (NSt ng (Some s) (a' :: rev)) = Ok st).
    { rewrite Er. destruct r as [|am2 r]; [exact H|]. destruct (Z.eqb_spec v 0); [lia|]. exact H. }
    inversion H'; subst st. cbn [s_negate]. destruct ng; cbn [sgnb negb] in *; symmetry; [apply Z.ltb_lt|apply Z.ltb_ge]; lia.
Qed.

Lemma loop_signed l : forall s ng rev st, okst s rev -> List.Forall (fun v => 2 <= Z.abs v) l -> new_loop g t (NSt ng (Some s) rev) l = Ok st ->
  exists ng' rev', st = NSt ng' (Some s) rev' /\ okst s rev' /\ ng' = match l with nil => ng | _ => last l 0 <? 0 end /\
    forall i, (-1 < i < 1)%R -> evi rev' (sg ng' * i) = evi rev (sg ng * tli l i).
Proof.
  induction l as [|a l IH]; intros s ng rev st O F H.
  - inversion H; subst. exists ng, rev. split; [auto|]. split; [auto|]. split; [auto|]. intros. reflexivity.
  - cbn [new_loop] in H. destruct (new_step g t (NSt ng (Some s) rev) a) as [st1| |] eqn:E; [|discriminate|discriminate]. cbn [bind] in H.
    inversion F as [|? ? Ha Fl]; subst. pose proof (step_sign s ng rev a st1 O Ha E) as S1.
    destruct (signed_step g t s ng rev a st1 O Ha E) as (ng1 & rev1 & -> & O1 & V1). cbn [s_negate] in S1.
    destruct (IH _ _ _ _ O1 Fl H) as (ng' & rev' & -> & O' & L' & V'). exists ng', rev'. split; [auto|]. split; [auto|]. split.
    + destruct l as [|a2 l]; [cbn [last]; congruence|]. exact L'.
    + intros i Hi. rewrite V' by auto. rewrite V1 by (apply tli_bound; auto). destruct O as (_ & (v & r & -> & _) & _). cbn [evi evr tli].
      apply evr_congr. f_equal. rewrite Rinv_mult. f_equal. unfold sg. destruct ng; cbn [sgnb]; field.
Qed.

Lemma start_signed a0 l b st : steep_coeffs (a0 :: l) b -> (l = nil -> a0 <> 0) -> new_loop g t (NSt b None nil) (a0 :: l) = Ok st ->
  exists v r s, s_rev st = v :: r /\ s_negative st = Some s /\ wfr (v :: r) /\ 1 <= v /\ s_negate st = (last (a0 :: l) 0 <? 0) /\
    forall i, (-1 < i < 1)%R -> (sg s * evr r (IZR v + sg (s_negate st) * i) = sg b * (IZR a0 + tli l i))%R.
Proof.
  intros D N0 H. destruct D as [D F]. cbn [new_loop] in H.
  destruct (new_step g t (NSt b None nil) a0) as [st1| |] eqn:E; [|discriminate|discriminate]. cbn [bind] in H.
  unfold new_step in E. destruct (if b then lift2 (subT t) (Ok 0) (Ok a0) else Ok a0) as [a'| |] eqn:Ea; [|discriminate|discriminate]. cbn [bind] in E. apply flip_ok in Ea.
  rewrite <- Ea in D. assert (Va : IZR a' = (sg b * IZR a0)%R) by (rewrite Ea, mult_IZR; reflexivity).
  assert (Fin : forall s ng rev, okst s rev -> new_loop g t (NSt ng (Some s) rev) l = Ok st -> (l = nil -> ng = (a0 <? 0)) ->
    (forall i, (-1 < i < 1)%R -> (sg s * evi rev (sg ng * i) = sg b * (IZR a0 + i))%R) ->
    exists v r s, s_rev st = v :: r /\ s_negative st = Some s /\ wfr (v :: r) /\ 1 <= v /\ s_negate st = (last (a0 :: l) 0 <? 0) /\
      forall i, (-1 < i < 1)%R -> (sg s * evr r (IZR v + sg (s_negate st) * i) = sg b * (IZR a0 + tli l i))%R).
  { intros s ng rev O L Hg V. destruct (loop_signed l s ng rev st O F L) as (ng' & rev' & -> & (W' & (v & r & -> & Hv) & _) & Hn & V').
    exists v, r, s. cbn [s_rev s_negative s_negate]. split; [auto|]. split; [auto|]. split; [auto|]. split; [auto|]. split.
    - destruct l as [|a1 l]; [cbn [last]; rewrite Hn; auto|exact Hn].
    - intros i Hi. rewrite <- (V (tli l i)) by (apply tli_bound; auto). rewrite <- V' by auto. reflexivity. }
  destruct (Z.ltb_spec a' 0) as [Neg|Pos].
  - destruct (lift2 (subT t) (Ok 0) (Ok a')) as [m| |] eqn:Em; [|discriminate|discriminate]. cbn [bind] in E. apply lift_sub in Em. inversion E; subst st1.
    apply (Fin true (negb b) [m]); auto.
    + split; [cbn; lia|]. split; [exists m, nil; split; [auto|lia]|]. intros E1. inversion E1. lia.
    + intros _. destruct b; cbn [sgnb negb] in *; symmetry; [apply Z.ltb_ge|apply Z.ltb_lt]; lia.
    + intros i _. cbn [evi evr]. rewrite sg_negb. replace (IZR m) with (- IZR a')%R by (rewrite <- opp_IZR; f_equal; lia). rewrite Va. unfold sg. destruct b; cbn [sgnb]; ring.
  - destruct (Z.eqb_spec a' 0) as [Z0|Nz].
    + inversion E; subst st1. subst a'. assert (A0 : a0 = 0) by (destruct b; cbn [sgnb] in Z0; lia). subst a0. replace (sgnb b * 0) with 0 in * by ring.
      destruct l as [|a1 l]; [exfalso; apply (N0 eq_refl); auto|]. cbn [new_loop] in H.
      destruct (new_step g t (NSt b None [0]) a1) as [st2| |] eqn:E2; [|discriminate|discriminate]. cbn [bind] in H.
      inversion F as [|? ? Ha1 Fl]; subst. unfold new_step in E2.
      destruct (if b then lift2 (subT t) (Ok 0) (Ok a1) else Ok a1) as [a1'| |] eqn:Ea1; [|discriminate|discriminate]. cbn [bind] in E2. apply flip_ok in Ea1.
      assert (Va1 : IZR a1' = (sg b * IZR a1)%R) by (rewrite Ea1, mult_IZR; reflexivity).
      assert (Ba : a1' <= -2 \/ 2 <= a1') by (destruct b; cbn [sgnb] in Ea1; lia).
      assert (Fin2 : forall s ng v, 2 <= v -> new_loop g t (NSt ng (Some s) [v; 0]) l = Ok st -> ng = (a1 <? 0) -> (forall i, (-1 < i < 1)%R -> (sg s * / (IZR v + sg ng * i) = sg b * / (IZR a1 + i))%R) ->
        exists v r s, s_rev st = v :: r /\ s_negative st = Some s /\ wfr (v :: r) /\ 1 <= v /\ s_negate st = (last (0 :: a1 :: l) 0 <? 0) /\
          forall i, (-1 < i < 1)%R -> (sg s * evr r (IZR v + sg (s_negate st) * i) = sg b * (IZR 0 + tli (a1 :: l) i))%R).
      { intros s ng v Hv L Hg V.
        assert (O : okst s [v; 0]) by (split; [cbn; lia|]; split; [exists v, [0]; split; [auto|lia]|discriminate]).
        destruct (loop_signed l s ng [v; 0] st O Fl L) as (ng' & rev' & -> & (W' & (v' & r & -> & Hv') & _) & Hn & V').
        exists v', r, s. cbn [s_rev s_negative s_negate]. split; [auto|]. split; [auto|]. split; [auto|]. split; [auto|]. split.
        - change (last (0 :: a1 :: l) 0) with (last (a1 :: l) 0). destruct l as [|a2 l]; [cbn [last]; rewrite Hn; auto|exact Hn].
        - intros i Hi. specialize (V' i Hi). cbn [evi] in V'. rewrite V'. cbn [evr tli]. rewrite !Rplus_0_l. apply V. apply tli_bound; auto. }
      destruct (Z.eqb_spec a1' 0); [lia|]. destruct (Z.ltb_spec a1' 0).
      * cbn [new_absorb Z.eqb] in E2. destruct (dassert g (0 <=? 0)); [|discriminate|discriminate]. cbn [bind] in E2.
        destruct (lift2 (subT t) (Ok 0) (Ok a1')) as [m| |] eqn:Em; [|discriminate|discriminate]. cbn [bind] in E2. apply lift_sub in Em. inversion E2; subst st2.
        apply (Fin2 true (negb b) m); [lia|auto| |].
        { destruct b; cbn [sgnb negb] in *; symmetry; [apply Z.ltb_ge|apply Z.ltb_lt]; lia. }
        intros i Hi. rewrite sg_negb. replace (IZR m) with (- (sg b * IZR a1))%R by (rewrite <- Va1, <- opp_IZR; f_equal; lia).
        unfold sg. destruct b; cbn [sgnb].
        -- replace (- (-1 * IZR a1) + - -1 * i)%R with (IZR a1 + i)%R by ring. ring.
        -- replace (- (1 * IZR a1) + - (1) * i)%R with (- (IZR a1 + i))%R by ring. rewrite Rinv_opp. ring.
      * inversion E2; subst st2. destruct (Z.ltb_spec a1' 0); [lia|].
        apply (Fin2 false b a1'); [lia|auto| |].
        { destruct b; cbn [sgnb negb] in *; symmetry; [apply Z.ltb_lt|apply Z.ltb_ge]; lia. }
        intros i Hi. rewrite Va1. unfold sg. destruct b; cbn [sgnb].
        -- replace (-1 * IZR a1 + -1 * i)%R with (- (IZR a1 + i))%R by ring. rewrite Rinv_opp. ring.
        -- replace (1 * IZR a1 + 1 * i)%R with (IZR a1 + i)%R by ring. ring.
    + inversion E; subst st1. apply (Fin false b [a']); auto.
      * split; [cbn; lia|]. split; [exists a', nil; split; [auto|lia]|auto].
      * intros _. destruct b; cbn [sgnb negb] in *; symmetry; [apply Z.ltb_lt|apply Z.ltb_ge]; lia.
      * intros i _. cbn [evi evr]. rewrite Va. unfold sg. destruct b; cbn [sgnb]; ring.
Qed.
End Step.

(** ** The value of coefficients of any sign followed by a period *)
Fixpoint evl (l : list Z) (w : R) : R := match l with nil => w | a :: l => (IZR a + / evl l w)%R end.
Fixpoint nz (l : list Z) (w : R) : Prop := match l with nil => True | a :: l => evl l w <> 0%R /\ nz l w end.
Lemma evl_tli l w : (/ evl l w)%R = tli l (/ w).
Proof. induction l as [|a l IH]; [reflexivity|]. cbn [evl tli]. rewrite IH. reflexivity. Qed.
Lemma evl_steep l w : List.Forall (fun v => 2 <= Z.abs v) l -> (1 < w)%R -> nz l w /\ (evl l w < -1 \/ 1 < evl l w)%R.
Proof.
  induction l as [|a l IH]; intros F Hw; [cbn; auto|]. inversion F as [|? ? Ha Fl]; subst. destruct (IH Fl Hw) as [Z B]. cbn [nz evl].
  split; [split; [lra|auto]|]. pose proof (Rinv_small _ B). destruct (steepb a Ha); lra.
Qed.
Lemma lim_list l : forall f (w : R), (forall k, (k < length l)%nat -> f k = nth k l 1) -> is_lim_seq (cut (shiftn (length l) f)) w -> nz l w -> is_lim_seq (cut f) (evl l w).
Proof.
  induction l as [|a l IH]; intros f w Hf L N; [exact L|]. destruct N as [N0 N]. cbn [evl length shiftn] in *.
  apply is_lim_seq_incr_1. eapply is_lim_seq_ext; [intros k; symmetry; apply cut_S|].
  rewrite (Hf 0%nat) by lia. apply is_lim_seq_plus'; [apply is_lim_seq_const|].
  apply (is_lim_seq_inv _ (evl l w)); [|intros E; inversion E; congruence].
  apply IH; auto. intros k Hk. unfold shift. rewrite Hf by lia. reflexivity.
Qed.
Lemma period_gt1 p : p <> nil -> List.Forall (fun v => 1 <= v) p -> (1 < lim (pseq p))%R.
Proof.
  intros N F. destruct (pseq_cpos p N F) as [HC H1]. rewrite lim_step by auto. apply IZR_le in H1.
  pose proof (lim_ge1_shift _ HC) as L. assert (0 < / lim (shift (pseq p)))%R by (apply Rinv_0_lt_compat; lra). lra.
Qed.
Lemma steep_val a0 l p b : p <> nil -> List.Forall (fun v => 1 <= v) p -> List.Forall (fun v => 2 <= Z.abs v) l ->
  cf_val (CF (a0 :: l) p b) = (sg b * (IZR a0 + tli l (/ lim (pseq p))))%R.
Proof.
  intros Hp Pp F. set (x := CF (a0 :: l) p b). assert (Fx : ~ finite x) by exact Hp.
  rewrite cf_val_inf by auto. cbn [negative x]. unfold sg. f_equal.
  assert (Sh : forall k, shiftn (length (a0 :: l)) (cseq x) k = pseq p k).
  { intros k. rewrite shiftn_at. apply (cseq_p x k Fx). }
  destruct (pseq_cpos p Hp Pp) as [Cp P1]. pose proof (period_gt1 p Hp Pp) as G1. destruct (evl_steep l _ F G1) as [N B].
  assert (L : is_lim_seq (cut (cseq x)) (evl (a0 :: l) (lim (pseq p)))).
  { apply lim_list.
    - intros k Hk. apply (cseq_a x). exact Hk.
    - eapply is_lim_seq_ext; [intros k; symmetry; apply cut_ext; exact Sh|]. apply cut_lim. auto.
    - cbn [nz]. split; [lra|auto]. }
  apply lim_unique in L. rewrite L. cbn [evl]. rewrite evl_tli. reflexivity.
Qed.

(** the constructor is exact if the last aperiodic coefficient is positive, wrong if it is negative *)
Lemma cf_new_signed_periodic g t a p b y : fits t 1 = true -> fitl t a -> fitl t p -> steep_coeffs a b -> a <> [0] -> p <> nil -> List.Forall (fun v => 1 <= v) p ->
  cf_new g t a p b = Ok y -> canonical y /\ p_coeffs y = p /\ (cf_val y = cf_val (CF a p b) <-> 0 < last a 0).
Proof.
  intros F1 Fa Fp D N0 Hp Pp H. destruct a as [|a0 l]; [contradiction|]. assert (Na : a0 :: l <> nil) by discriminate.
  destruct (new_loop_ok g t _ _ _ _ H Na) as [st Hst]. pose proof (loop_fit g t _ _ _ Hst F1 Fa ltac:(constructor)) as Fst.
  destruct (start_signed g t a0 l b st D ltac:(congruence) Hst) as (v & r & s & Er & Es & W & Hv & Hn & V).
  rewrite Er in Fst. destruct (finish_ok g t (a0 :: l) p b st v r s y Na Hst Er (or_introl Es) W (fun _ => Hv) Pp Fst Fp H) as (C & P & Vy).
  split; [auto|]. split; [exact P|]. pose proof (period_gt1 p Hp Pp) as G1. pose proof (Rinv_small _ (or_intror G1)) as Bi.
  destruct p as [|p0 p]; [congruence|]. set (pl := p0 :: p) in *. rewrite steep_val; auto; [|exact (proj2 D)].
  assert (E : cf_val y = (sg b * (IZR a0 + tli l (sg (s_negate st) * / lim (pseq pl))))%R).
  { rewrite <- V by (apply sg_bound; auto). rewrite Vy. unfold sg at 1. f_equal. cbn [evr]. apply evr_congr. f_equal.
    rewrite <- Rmult_assoc, sg_sq. ring. }
  rewrite E. assert (L0 : last (a0 :: l) 0 <> 0).
  { destruct l as [|a1 l]; [cbn [last]; congruence|]. change (last (a0 :: a1 :: l) 0) with (last (a1 :: l) 0). destruct D as [_ D].
    rewrite Forall_forall in D. specialize (D (last (a1 :: l) 0)). cbn beta in D.
    assert (In (last (a1 :: l) 0) (a1 :: l)).
    { destruct (exists_last (l := a1 :: l) ltac:(discriminate)) as (l' & z & ->). rewrite last_last. apply in_app_iff. right. left. reflexivity. }
    specialize (D H0). lia. }
  rewrite Hn. destruct (Z.ltb_spec (last (a0 :: l) 0) 0) as [Ln|Ln].
  - split; [|lia]. intros K. exfalso. assert (K2 : tli l (sg true * / lim (pseq pl)) = tli l (/ lim (pseq pl))).
    { unfold sg in K at 1 3. destruct b; cbn [sgnb] in K; lra. }
    apply tli_inj in K2; [|exact (proj2 D)|apply sg_bound; auto|auto]. unfold sg in K2. cbn [sgnb] in K2.
    assert (0 < / lim (pseq pl))%R by (apply Rinv_0_lt_compat; lra). lra.
  - split; [lia|]. intros _. unfold sg at 2. cbn [sgnb]. rewrite Rmult_1_l. reflexivity.
Qed.

Lemma cf_new_signed_periodic_total g a p b : steep_coeffs a b -> p <> nil -> List.Forall (fun v => 1 <= v) p -> returns (cf_new g BigI a p b).
Proof.
  intros D Hp Pp. assert (Na : a <> nil) by (destruct a; [contradiction|discriminate]).
  destruct (cf_new_signed_total g a b D) as [y0 H0]. destruct (new_loop_ok g BigI _ _ _ _ H0 Na) as [st Hst].
  destruct (signed_start g BigI a b st D Hst) as [(v & r & s & Er & Es & W & Hv & V)|[-> ->]].
  - apply (finish_total g a p b st v r Na Hst Er W (fun _ => Hv) Pp).
  - apply (finish_total g [0] p b _ 0 nil Na Hst eq_refl); [cbn; lia|congruence|auto].
Qed.
