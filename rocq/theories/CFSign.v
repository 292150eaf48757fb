(** * CFSign: when the constructor returns, and when the sign is right, in terms of the values of the prefixes. *)

From Coq Require Import ZArith Znumtheory Reals Lia Lra Bool List Arith.
From Coquelicot Require Import Coquelicot.
From Verif Require Import Base Ext ModelBlock ModelCF Spec SpecCF NumFacts Transfer SurdCore RatioFacts SurdArith CFCore CFSeq CFIter CFBasic CFSurd CFNew CFSigned CFAny.
Import ListNotations.
Open Scope Z_scope.

Definition scaled (c : Z) (x y : Z * Z) : Prop := fst x = c * fst y /\ snd x = c * snd y.
Lemma scaled_evp c rev p q p' q' : p' = c * p -> q' = c * q -> scaled c (evp rev (p', q')) (evp rev (p, q)).
Proof. intros -> ->. pose proof (evp_scale c rev (p, q)) as E. cbn [fst snd] in E. rewrite E. split; reflexivity. Qed.
Definition unit (c : Z) : Prop := c = 1 \/ c = -1.

(** the state after at least one coefficient *)
Definition alive (rev : list Z) : Prop := rev <> nil /\ goodA rev.
Definition num (rev : list Z) : Z := fst (evp rev (1, 0)).
Definition den (rev : list Z) : Z := snd (evp rev (1, 0)).

Lemma evp_app l f z : evp (l ++ [f]) z = (f * fst (evp l z) + snd (evp l z), fst (evp l z)).
Proof. revert z. induction l as [|v l IH]; intros z; [reflexivity|]. cbn [app evp]. apply IH. Qed.
Lemma evp_nonneg rev : List.Forall (fun v => 0 <= v) rev -> forall x, 0 <= fst x -> 0 <= snd x -> 0 <= fst (evp rev x) /\ 0 <= snd (evp rev x).
Proof. induction 1 as [|v rev Hv _ IH]; intros x H1 H2; [auto|]. cbn [evp]. apply IH; cbn [fst snd]; nia. Qed.
Lemma goodA_nonneg rev : goodA rev -> List.Forall (fun v => 0 <= v) rev.
Proof. destruct rev as [|v r]; [constructor|]. intros [H [->|W]]; constructor; auto. apply wfr_nonneg; auto. Qed.
Lemma alive_num rev : alive rev -> 0 <= num rev /\ 0 <= den rev.
Proof. intros [_ G]. apply evp_nonneg; [apply goodA_nonneg; auto|cbn; lia|cbn; lia]. Qed.
Lemma alive_first rev : alive rev -> 1 <= last rev 0 -> den rev <= num rev.
Proof.
  intros [N G] H. destruct (exists_last N) as (l & f & ->). rewrite last_last in H. apply goodA_nonneg in G. apply Forall_app in G. destruct G as [G _].
  unfold num, den. rewrite evp_app. cbn [fst snd]. destruct (evp_nonneg l G (1, 0)) as [A B]; [cbn; lia|cbn; lia|]. nia.
Qed.
Lemma last_cons2 (v w : Z) r : last (v :: w :: r) 0 = last (w :: r) 0. Proof. reflexivity. Qed.

Section Sign.
Context (g : cfg) (t : ity).

(** the alternatives of one step: the sign flag is kept, and the first coefficient stays positive, or it is cleared
    and the magnitude has dropped below one *)
Definition outcome (s : bool) (rev : list Z) (nv : bool) (rev' : list Z) : Prop :=
  (nv = s /\ (1 <= last rev 0 -> 1 <= last rev' 0 \/ num rev' = 0)) \/ (nv = false /\ num rev' < den rev').

Lemma absorb_first ng s rev a st : wfr rev -> rev <> [0] -> a < 0 -> new_absorb g t ng (Some s) rev a = Ok st ->
  exists ng' nv rev', st = NSt ng' (Some nv) rev' /\ alive rev' /\
    (exists c, unit c /\ forall p q, scaled c (evp rev (a * p + sgnb ng * q, p)) (evp rev' (sgnb ng' * p, q))) /\ outcome s rev nv rev'.
Proof.
  intros W N0 Ha H. destruct rev as [|am1 rest]; [contradiction|]. cbn [new_absorb] in H.
  destruct (dassert g (0 <=? am1)); [|discriminate|discriminate]. cbn [bind] in H.
  pose proof (sgnb_cases ng) as Sg. pose proof (wfr_hd _ _ W) as H0. pose proof (wfr_tail' _ _ W) as Wr.
  destruct (Z.eqb_spec am1 1) as [->|N1].
  - destruct rest as [|am2 rest2].
    + destruct (lift2 (subT t) (lift2 _ _ _) _) as [x| |] eqn:E; [|discriminate|discriminate]. cbn [bind] in H. apply lift_sub2 in E. inversion H; subst st.
      exists (negb ng), false, [x; 1; 0]. split; [reflexivity|]. split; [split; [discriminate|cbn; lia]|]. split.
      * exists (sgnb ng). split; [exact Sg|]. intros p q. rewrite sgnb_negb. cbn [evp fst snd]. subst x. unfold scaled. cbn [fst snd]. destruct Sg as [-> | ->]; split; ring.
      * right. split; [reflexivity|]. unfold num, den. cbn [evp fst snd]. lia.
    + destruct (lift2 (addT t) _ _) as [y| |] eqn:Ey; [|discriminate|discriminate]. cbn [bind] in H. apply lift_add in Ey.
      destruct (lift2 (subT t) (lift2 _ _ _) _) as [x| |] eqn:E; [|discriminate|discriminate]. cbn [bind] in H. apply lift_sub2 in E. inversion H; subst st.
      destruct Wr as [Wr|Wr]; [discriminate|]. pose proof (wfr_hd _ _ Wr).
      exists (negb ng), s, (x :: y :: rest2). split; [reflexivity|]. split; [split; [discriminate|split; [lia|]; right; apply wfr_push; [lia|]; eapply wfr_tail'; eauto]|]. split.
      * exists (sgnb ng). split; [exact Sg|]. intros p q. rewrite sgnb_negb. cbn [evp fst snd]. apply scaled_evp; subst x y; destruct Sg as [-> | ->]; ring.
      * left. split; [reflexivity|]. intros L. left. destruct rest2; [cbn; lia|]. exact L.
  - destruct (Z.eqb_spec am1 0) as [->|Nz].
    + exfalso. destruct rest; [congruence|]. apply wfr_tail in W; [|discriminate]. lia.
    + destruct (dassert g (1 <? am1)); [|discriminate|discriminate]. cbn [bind] in H.
      destruct (lift2 (subT t) (Ok am1) _) as [y| |] eqn:Ey; [|discriminate|discriminate]. cbn [bind] in H. apply lift_sub in Ey.
      destruct (lift2 (subT t) (lift2 _ _ _) _) as [x| |] eqn:E; [|discriminate|discriminate]. cbn [bind] in H. apply lift_sub2 in E. inversion H; subst st.
      exists (negb ng), s, (x :: 1 :: y :: rest). split; [reflexivity|].
      split; [split; [discriminate|split; [lia|]; right; apply wfr_push; [lia|]; right; apply wfr_push; [lia|auto]]|]. split.
      * exists (sgnb ng). split; [exact Sg|]. intros p q. rewrite sgnb_negb. cbn [evp fst snd]. apply scaled_evp; subst x y; destruct Sg as [-> | ->]; ring.
      * left. split; [reflexivity|]. intros L. left. destruct rest; [cbn; lia|]. exact L.
Qed.

Lemma num_pair am2 : num [0; am2; 0] = 0.
Proof. unfold num. cbn [evp fst snd]. ring. Qed.

Lemma step_first ng s rev a st : alive rev -> num rev <> 0 -> new_step g t (NSt ng (Some s) rev) a = Ok st ->
  exists ng' nv rev', st = NSt ng' (Some nv) rev' /\ alive rev' /\
    (exists c, unit c /\ forall p q, scaled c (evp rev (sgnb ng * (a * p + q), p)) (evp rev' (sgnb ng' * p, q))) /\ outcome s rev nv rev'.
Proof.
  intros [Nn G] A H. unfold new_step in H.
  destruct (if ng then lift2 (subT t) (Ok 0) (Ok a) else Ok a) as [a'| |] eqn:Ea; [|discriminate|discriminate]. cbn [bind] in H. apply flip_ok in Ea.
  pose proof (sgnb_cases ng) as Sg. pose proof (sgnb_sq ng) as Sq.
  assert (K : forall p q, sgnb ng * (a * p + q) = a' * p + sgnb ng * q) by (intros; rewrite Ea; ring). clear Ea.
  destruct rev as [|l0 rest]; [congruence|]. destruct G as [G0 G].
  assert (N0 : l0 = 0 -> rest <> nil) by (intros -> ->; apply A; reflexivity).
  destruct (Z.eqb_spec a' 0) as [Z0|Nz].
  - rewrite Z0 in *. destruct (Z.eqb_spec l0 0) as [->|Nl]; inversion H; subst st.
    + specialize (N0 eq_refl). exists ng, s, rest. split; [reflexivity|]. split; [split; [auto|apply wfr_goodA; auto]|]. split.
      * exists (sgnb ng). split; [exact Sg|]. intros p q. rewrite K. cbn [evp fst snd]. apply scaled_evp; clear K; destruct Sg as [-> | ->]; ring.
      * left. split; [reflexivity|]. intros L. left. destruct rest; [congruence|]. exact L.
    + exists ng, s, (0 :: l0 :: rest). split; [reflexivity|]. split; [split; [discriminate|split; [lia|]; right; apply wfr_push; [lia|auto]]|]. split.
      * exists (sgnb ng). split; [exact Sg|]. intros p q. rewrite K. cbn [evp fst snd]. apply scaled_evp; clear K; destruct Sg as [-> | ->]; ring.
      * left. split; [reflexivity|]. intros L. left. exact L.
  - destruct (Z.ltb_spec a' 0) as [Neg|Pos].
    + destruct (Z.eq_dec l0 0) as [->|Nl].
      * specialize (N0 eq_refl). destruct rest as [|am2 rest2]; [congruence|]. destruct G as [G|G]; [discriminate|]. pose proof (wfr_hd _ _ G). pose proof (wfr_tail' _ _ G) as W2.
        cbn [new_absorb] in H. destruct (dassert g (0 <=? 0)); [|discriminate|discriminate]. cbn [bind] in H. change (0 =? 1) with false in H. change (0 =? 0) with true in H. cbv iota in H.
        destruct (lift2 (addT t) _ _) as [nt| |] eqn:E; [|discriminate|discriminate]. cbn [bind] in H. apply lift_add in E.
        assert (K2 : forall p q, evp (0 :: am2 :: rest2) (a' * p + sgnb ng * q, p) = evp rest2 (nt * p + sgnb ng * q, p)).
        { intros p q. cbn [evp fst snd]. f_equal. subst nt. f_equal; ring. }
        destruct (Z.ltb_spec nt 0) as [Hn|Hn].
        -- destruct rest2 as [|z rest2]; [discriminate|]. destruct W2 as [W2|W2]; [discriminate|].
           assert (Nz0 : z :: rest2 <> [0]) by (intros Q; rewrite Q in *; apply A; apply num_pair).
           destruct (absorb_first ng s (z :: rest2) nt st W2 Nz0 Hn H) as (ng' & nv & rev' & -> & Al & (c & Uc & V) & O).
           exists ng', nv, rev'. split; [reflexivity|]. split; [auto|]. split.
           ++ exists c. split; [auto|]. intros p q. rewrite K, K2. apply V.
           ++ exact O.
        -- inversion H; subst st. exists ng, s, (nt :: rest2). split; [reflexivity|]. split; [split; [discriminate|split; auto]|]. split.
           ++ exists (sgnb ng). split; [exact Sg|]. intros p q. rewrite K, K2. cbn [evp fst snd]. apply scaled_evp; clear K K2; destruct Sg as [-> | ->]; ring.
           ++ left. split; [reflexivity|]. intros L. destruct rest2 as [|z rest2].
              ** destruct (Z.eq_dec nt 0) as [->|]; [right; reflexivity|left; cbn; lia].
              ** left. exact L.
      * assert (W : wfr (l0 :: rest)) by (apply wfr_push; [lia|auto]).
        destruct (absorb_first ng s (l0 :: rest) a' st W) as (ng' & nv & rev' & -> & Al & (c & Uc & V) & O); auto.
        { intros Q. inversion Q. lia. }
        exists ng', nv, rev'. split; [reflexivity|]. split; [auto|]. split; [|exact O]. exists c. split; [auto|]. intros p q. rewrite K. apply V.
    + destruct rest as [|am2 rest2].
      * inversion H; subst st. exists ng, s, [a'; l0]. split; [reflexivity|]. split; [split; [discriminate|split; [lia|]; right; cbn; lia]|]. split.
        -- exists (sgnb ng). split; [exact Sg|]. intros p q. rewrite K. cbn [evp fst snd]. unfold scaled. cbn [fst snd]. clear K; destruct Sg as [-> | ->]; split; ring.
        -- left. split; [reflexivity|]. intros L. left. exact L.
      * destruct G as [G|G]; [discriminate|]. pose proof (wfr_hd _ _ G). destruct (Z.eqb_spec l0 0) as [->|Nl].
        -- destruct (lift2 (addT t) _ _) as [x| |] eqn:E; [|discriminate|discriminate]. cbn [bind] in H. apply lift_add in E. inversion H; subst st.
           exists ng, s, (x :: rest2). split; [reflexivity|]. split; [split; [discriminate|split; [lia|]; eapply wfr_tail'; eauto]|]. split.
           ++ exists (sgnb ng). split; [exact Sg|]. intros p q. rewrite K. cbn [evp fst snd]. subst x. apply scaled_evp; clear K; destruct Sg as [-> | ->]; ring.
           ++ left. split; [reflexivity|]. intros L. left. destruct rest2; [cbn; lia|]. exact L.
        -- inversion H; subst st. exists ng, s, (a' :: l0 :: am2 :: rest2). split; [reflexivity|].
           split; [split; [discriminate|split; [lia|]; right; apply wfr_push; [lia|auto]]|]. split.
           ++ exists (sgnb ng). split; [exact Sg|]. intros p q. rewrite K. cbn [evp fst snd]. apply scaled_evp; clear K; destruct Sg as [-> | ->]; ring.
           ++ left. split; [reflexivity|]. intros L. left. exact L.
Qed.

(** ** The whole list *)

Definition below (l : list Z) : Prop := Z.abs (fst (quotient l)) < Z.abs (snd (quotient l)).
Lemma quotient_evp pr : quotient (List.rev pr) = evp pr (1, 0).
Proof.
  assert (K : forall l x, evp (List.rev l) x = fold_right (fun a z => (a * fst z + snd z, fst z)) x l).
  { induction l as [|a l IH]; intros x; [reflexivity|]. cbn [List.rev]. rewrite evp_app, IH. reflexivity. }
  assert (Q : forall l, quotient l = fold_right (fun a z => (a * fst z + snd z, fst z)) (1, 0) l).
  { induction l as [|a l IH]; [reflexivity|]. cbn [quotient fold_right]. rewrite IH. destruct (fold_right _ _ l); reflexivity. }
  rewrite Q, <- K, rev_involutive. reflexivity.
Qed.

Definition flags (s0 : bool) (pr : list Z) (nv : bool) (rev : list Z) : Prop :=
  (nv = s0 /\ 1 <= last rev 0 /\ forall n, ~ below (firstn n (List.rev pr))) \/
  (nv = false /\ exists n, below (firstn n (List.rev pr))) \/ num rev = 0.
Definition inv (b s0 : bool) (pr : list Z) (st : nst) : Prop := exists ng nv rev c, st = NSt ng (Some nv) rev /\ alive rev /\ unit c /\
  (forall x y, sgnb b * fst (evp pr (x, y)) = c * sgnb s0 * fst (evp rev (sgnb ng * x, y)) /\ snd (evp pr (x, y)) = c * snd (evp rev (sgnb ng * x, y))) /\
  flags s0 pr nv rev.

Lemma unit_abs c x : unit c -> Z.abs (c * x) = Z.abs x. Proof. intros [-> | ->]; lia. Qed.
Lemma unit_sgnb b : unit (sgnb b). Proof. exact (sgnb_cases b). Qed.
Lemma unit_mul c d : unit c -> unit d -> unit (c * d). Proof. intros [-> | ->] [-> | ->]; [left|right|right|left]; reflexivity. Qed.

Lemma evp_unit c rev : unit c -> evp rev (c, 0) = (c * num rev, c * den rev).
Proof. intros _. pose proof (evp_scale c rev (1, 0)) as E. cbn [fst snd] in E. rewrite Z.mul_1_r, Z.mul_0_r in E. exact E. Qed.

(** what the relation says about the prefix itself *)
Lemma inv_prefix b s0 pr rev ng c : alive rev -> unit c ->
  (forall x y, sgnb b * fst (evp pr (x, y)) = c * sgnb s0 * fst (evp rev (sgnb ng * x, y)) /\ snd (evp pr (x, y)) = c * snd (evp rev (sgnb ng * x, y))) ->
  Z.abs (fst (evp pr (1, 0))) = num rev /\ Z.abs (snd (evp pr (1, 0))) = den rev /\
  sgnb b * fst (evp pr (1, 0)) * snd (evp pr (1, 0)) = sgnb s0 * (num rev * den rev).
Proof.
  intros Al Uc V. destruct (alive_num _ Al) as [An Ad]. destruct (V 1 0) as [V1 V2]. rewrite Z.mul_1_r, (evp_unit (sgnb ng)) in V1, V2 by apply unit_sgnb. cbn [fst snd] in V1, V2.
  clear V. set (P := fst (evp pr (1, 0))) in *. set (Q := snd (evp pr (1, 0))) in *. set (A := num rev) in *. set (C := den rev) in *. clearbody P Q A C.
  pose proof (unit_sgnb b) as Ub. pose proof (unit_sgnb ng) as Un. pose proof (unit_sgnb s0) as Us.
  split; [|split].
  - unfold unit in *. set (B := sgnb b) in *. set (S1 := sgnb s0) in *. set (N1 := sgnb ng) in *. clearbody B S1 N1. clear V2.
    destruct Ub, Un, Us, Uc; subst; lia.
  - rewrite V2, unit_abs, unit_abs by auto. lia.
  - replace (sgnb b * P * Q) with ((sgnb b * P) * Q) by ring. rewrite V1, V2.
    replace (c * sgnb s0 * (sgnb ng * A) * (c * (sgnb ng * C))) with ((c * c) * (sgnb ng * sgnb ng) * (sgnb s0 * (A * C))) by ring.
    rewrite sgnb_sq. replace (c * c) with 1 by (destruct Uc as [-> | ->]; reflexivity). ring.
Qed.

Lemma firstn_snoc (n : nat) (l : list Z) a : firstn n (l ++ [a]) = firstn n l \/ firstn n (l ++ [a]) = l ++ [a].
Proof.
  destruct (le_lt_dec n (length l)) as [H|H].
  - left. rewrite firstn_app. replace (n - length l)%nat with 0%nat by lia. cbn. rewrite app_nil_r. reflexivity.
  - right. apply firstn_all2. rewrite app_length. cbn. lia.
Qed.
Lemma firstn_ext (n : nat) (l : list Z) a : exists m, firstn m (l ++ [a]) = firstn n l.
Proof.
  exists (Nat.min n (length l)). rewrite firstn_app. replace (Nat.min n (length l) - length l)%nat with 0%nat by lia. cbn. rewrite app_nil_r.
  destruct (le_lt_dec n (length l)) as [H|H]; [rewrite Nat.min_l by lia; reflexivity|]. rewrite Nat.min_r by lia. rewrite firstn_all, firstn_all2 by lia. reflexivity.
Qed.

Lemma inv_step b s0 pr st a st' : inv b s0 pr st -> fst (evp pr (1, 0)) <> 0 -> new_step g t st a = Ok st' -> inv b s0 (a :: pr) st'.
Proof.
  intros (ng & nv & rev & c & -> & Al & Uc & V & F) P0 H.
  destruct (inv_prefix _ _ _ _ _ _ Al Uc V) as (Ep & _ & _). assert (A0 : num rev <> 0) by lia.
  destruct (step_first ng nv rev a st' Al A0 H) as (ng' & nv' & rev' & -> & Al' & (c' & Uc' & V') & O).
  assert (V2 : forall x y, sgnb b * fst (evp (a :: pr) (x, y)) = (c * c') * sgnb s0 * fst (evp rev' (sgnb ng' * x, y)) /\ snd (evp (a :: pr) (x, y)) = (c * c') * snd (evp rev' (sgnb ng' * x, y))).
  { intros x y. cbn [evp fst snd]. destruct (V (a * x + y) x) as [V1 V3]. destruct (V' x y) as [V4 V5]. rewrite V1, V3, V4, V5. split; ring. }
  assert (Ucc : unit (c * c')) by (apply unit_mul; auto).
  exists ng', nv', rev', (c * c'). split; [reflexivity|]. split; [auto|]. split; [auto|]. split; [exact V2|].
  destruct (inv_prefix _ _ _ _ _ _ Al' Ucc V2) as (Ep' & Eq' & _).
  assert (Bl : below (List.rev (a :: pr)) <-> num rev' < den rev') by (unfold below; rewrite quotient_evp, Ep', Eq'; reflexivity).
  assert (Snoc : List.rev (a :: pr) = List.rev pr ++ [a]) by reflexivity.
  unfold flags. destruct F as [(-> & L & B)|[(-> & n & B)|F]]; [| |contradiction].
  - destruct O as [(-> & O)|(-> & O)].
    + destruct (O L) as [L'|Z0]; [|right; right; exact Z0]. left. split; [reflexivity|]. split; [exact L'|]. intros n.
      pose proof (alive_first _ Al' L') as Le. rewrite Snoc in *. destruct (firstn_snoc n (List.rev pr) a) as [-> | ->]; [apply B|]. intros K. apply Bl in K. lia.
    + right; left. split; [reflexivity|]. exists (length (List.rev (a :: pr))). rewrite firstn_all. apply Bl. exact O.
  - right; left. split; [destruct O as [(-> & _)|(-> & _)]; reflexivity|]. destruct (firstn_ext n (List.rev pr) a) as [m Em]. exists m. rewrite Snoc, Em. exact B.
Qed.

Lemma inv_loop b s0 l : forall pr st st', inv b s0 pr st -> (forall n, (n < length l)%nat -> fst (quotient (List.rev pr ++ firstn n l)) <> 0) -> new_loop g t st l = Ok st' -> inv b s0 (List.rev l ++ pr) st'.
Proof.
  induction l as [|a l IH]; intros pr st st' I N H; [inversion H; subst; exact I|]. cbn [new_loop] in H.
  destruct (new_step g t st a) as [st1| |] eqn:E; [|discriminate|discriminate]. cbn [bind] in H.
  assert (P0 : fst (evp pr (1, 0)) <> 0) by (rewrite <- quotient_evp; specialize (N 0%nat ltac:(cbn; lia)); cbn [firstn] in N; rewrite app_nil_r in N; exact N).
  pose proof (inv_step b s0 pr st a st1 I P0 E) as I1. specialize (IH (a :: pr) st1 st' I1). cbn [List.rev]. rewrite <- app_assoc. cbn [app]. apply IH; [|exact H].
  intros n Hn. specialize (N (Datatypes.S n) ltac:(cbn; lia)). cbn [firstn] in N. cbn [List.rev]. rewrite <- app_assoc. exact N.
Qed.

Lemma inv_start b a0 st : a0 <> 0 -> new_step g t (NSt b None nil) a0 = Ok st -> inv b (sgnb b * a0 <? 0) [a0] st.
Proof.
  intros N H. unfold new_step in H.
  destruct (if b then lift2 (subT t) (Ok 0) (Ok a0) else Ok a0) as [a'| |] eqn:Ea; [|discriminate|discriminate]. cbn [bind] in H. apply flip_ok in Ea.
  pose proof (unit_sgnb b) as Ub. rewrite <- Ea. assert (N' : a' <> 0) by (destruct Ub as [U|U]; rewrite U in Ea; lia).
  assert (B : forall n, ~ below (firstn n (List.rev [a0]))).
  { intros n. unfold below. destruct n as [|n]; [cbn; lia|]. cbn [List.rev app firstn]. rewrite firstn_nil. cbn [quotient fst snd]. lia. }
  destruct (Z.ltb_spec a' 0).
  - destruct (lift2 (subT t) _ _) as [x| |] eqn:E; [|discriminate|discriminate]. cbn [bind] in H. apply lift_sub in E. inversion H; subst st.
    exists (negb b), true, [x], (- sgnb b). split; [reflexivity|]. split; [split; [discriminate|split; [lia|auto]]|].
    split; [destruct Ub as [-> | ->]; [right|left]; reflexivity|]. split.
    + intros p q. rewrite sgnb_negb. cbn [evp fst snd sgnb]. subst x. subst a'. clear -Ub. destruct Ub as [-> | ->]; split; ring.
    + left. split; [reflexivity|]. split; [cbn; lia|exact B].
  - destruct (Z.eqb_spec a' 0); [contradiction|]. inversion H; subst st.
    exists b, false, [a'], (sgnb b). split; [reflexivity|]. split; [split; [discriminate|split; [lia|auto]]|]. split; [exact Ub|]. split.
    + intros p q. cbn [evp fst snd sgnb]. subst a'. clear -Ub. destruct Ub as [-> | ->]; split; ring.
    + left. split; [reflexivity|]. split; [cbn; lia|exact B].
Qed.

Lemma new_inv b a0 l st : a0 <> 0 -> (forall n, (n <= length l)%nat -> fst (quotient (firstn n (a0 :: l))) <> 0) -> new_loop g t (NSt b None nil) (a0 :: l) = Ok st ->
  inv b (sgnb b * a0 <? 0) (List.rev (a0 :: l)) st.
Proof.
  intros N0 N H. cbn [new_loop] in H. destruct (new_step g t (NSt b None nil) a0) as [st1| |] eqn:E; [|discriminate|discriminate]. cbn [bind] in H.
  pose proof (inv_start b a0 st1 N0 E) as I1. cbn [List.rev]. apply (inv_loop b _ l [a0] st1 st I1); [|exact H].
  intros n Hn. cbn [List.rev app]. apply (N (Datatypes.S n)). lia.
Qed.

(** the sign of the result *)
Lemma new_negative a b y st nv : fits t 1 = true -> fitl t a -> a <> nil -> new_loop g t (NSt b None nil) a = Ok st -> s_negative st = Some nv ->
  cf_new g t a nil b = Ok y -> negative y = nv \/ a_coeffs y = [0].
Proof.
  intros F1 Fa Na Hst Hs H. unfold cf_new in H. destruct a as [|a0 a]; [congruence|]. rewrite Hst in H. cbn [bind] in H.
  destruct (s_rev st) as [|v r]; [discriminate|]. unfold new_finish in H. destruct (new_trim t v r) as [rev| |]; [|discriminate|discriminate]. cbn [bind] in H.
  rewrite Hs in H.
  assert (D : rev = [0] \/ match rev with [0] => Some false | _ => Some nv end = Some nv) by (destruct rev as [|[] []]; auto).
  destruct D as [->|D].
  - right. cbn [bind List.rev app mapM] in H. destruct (to_unsigned t 0) as [z| |] eqn:Ez; [|discriminate|discriminate]. cbn [bind] in H. inversion H; subst y. cbn [a_coeffs].
    unfold to_unsigned in Ez. destruct t; cbn in Ez; inversion Ez; reflexivity.
  - left. rewrite D in H. cbn [bind] in H. destruct (mapM _ _); [|discriminate|discriminate]. cbn [bind mapM] in H. inversion H; subst y. reflexivity.
Qed.
End Sign.

(** ** Arbitrary precision: the only failure *)

Section Big.
Context (g : cfg).

Lemma dassert_true c : c = true -> dassert g c = Ok tt.
Proof. intros ->. unfold dassert. destruct (dbg g); reflexivity. Qed.

Lemma absorb_first_total ng nv rev a : wfr rev -> rev <> [0] -> returns (new_absorb g BigI ng nv rev a).
Proof.
  intros W N0. destruct rev as [|am1 rest]; [contradiction|]. cbn [new_absorb]. pose proof (wfr_hd _ _ W).
  rewrite dassert_true by (apply Z.leb_le; lia). cbn [bind]. destruct (Z.eqb_spec am1 1) as [->|N1].
  - destruct rest; eexists; reflexivity.
  - destruct (Z.eqb_spec am1 0) as [->|Nz].
    + exfalso. destruct rest; [congruence|]. apply wfr_tail in W; [|discriminate]. lia.
    + rewrite dassert_true by (apply Z.ltb_lt; lia). eexists; reflexivity.
Qed.

Lemma step_outcome ng s rev a : alive rev -> num rev <> 0 ->
  returns (new_step g BigI (NSt ng (Some s) rev) a) \/
  (new_step g BigI (NSt ng (Some s) rev) a = Panic PUnwrap /\ exists m, rev = [0; m] /\ m + sgnb ng * a < 0).
Proof.
  intros [Nn G] A. unfold new_step. destruct (flip_total ng a) as (a' & -> & Ea). cbn [bind]. rewrite <- Ea. clear Ea.
  destruct rev as [|l0 rest]; [congruence|]. destruct G as [G0 G].
  assert (N0 : l0 = 0 -> rest <> nil) by (intros -> ->; apply A; reflexivity).
  destruct (Z.eqb_spec a' 0) as [Z0|Nz]; [left; destruct (l0 =? 0); eexists; reflexivity|].
  destruct (Z.ltb_spec a' 0) as [Neg|Pos].
  - destruct (Z.eq_dec l0 0) as [->|Nl].
    + specialize (N0 eq_refl). destruct rest as [|am2 rest2]; [congruence|]. destruct G as [G|G]; [discriminate|]. pose proof (wfr_tail' _ _ G) as W2.
      cbn [new_absorb]. rewrite dassert_true by reflexivity. cbn [bind]. change (0 =? 1) with false. change (0 =? 0) with true. cbv iota.
      change (lift2 (addT BigI) (Ok am2) (Ok a')) with (@Ok Z (am2 + a')). cbn [bind]. destruct (Z.ltb_spec (am2 + a') 0) as [Hn|Hn].
      * destruct rest2 as [|z rest2]; [right; split; [reflexivity|]; exists am2; auto|]. left. destruct W2 as [W2|W2]; [discriminate|].
        apply absorb_first_total; [exact W2|]. intros Q; rewrite Q in *; apply A; apply num_pair.
      * left. eexists; reflexivity.
    + left. apply absorb_first_total; [apply wfr_push; [lia|auto]|]. intros Q. inversion Q. lia.
  - left. destruct rest as [|am2 rest2]; [eexists; reflexivity|]. destruct (l0 =? 0); eexists; reflexivity.
Qed.

Lemma loop_outcome b s0 l : forall pr st, inv b s0 pr st -> (forall n, (n < length l)%nat -> fst (quotient (List.rev pr ++ firstn n l)) <> 0) ->
  returns (new_loop g BigI st l) \/
  (new_loop g BigI st l = Panic PUnwrap /\ exists n, let x := quotient (List.rev pr ++ firstn n l) in sgnb s0 * (sgnb b * fst x * snd x) < 0).
Proof.
  induction l as [|a l IH]; intros pr st I N; [left; eexists; reflexivity|]. cbn [new_loop].
  assert (P0 : fst (evp pr (1, 0)) <> 0) by (rewrite <- quotient_evp; specialize (N 0%nat ltac:(cbn; lia)); cbn [firstn] in N; rewrite app_nil_r in N; exact N).
  pose proof I as (ng & nv & rev & c & Est & Al & Uc & V & F). destruct (inv_prefix _ _ _ _ _ _ Al Uc V) as (Ep & _ & _).
  assert (A0 : num rev <> 0) by lia. rewrite Est. destruct (step_outcome ng nv rev a Al A0) as [[st1 E]|(E & m & Er & Hm)].
  - rewrite E. cbn [bind]. rewrite <- Est in E. pose proof (inv_step g BigI b s0 pr st a st1 I P0 E) as I1.
    destruct (IH (a :: pr) st1 I1) as [R|(R & n & Q)].
    + intros n Hn. specialize (N (Datatypes.S n) ltac:(cbn; lia)). cbn [firstn] in N. cbn [List.rev]. rewrite <- app_assoc. exact N.
    + left. exact R.
    + right. split; [exact R|]. exists (Datatypes.S n). cbn [firstn]. cbn [List.rev] in Q. rewrite <- app_assoc in Q. exact Q.
  - right. rewrite E. split; [reflexivity|]. exists 1%nat. cbn [firstn]. change (List.rev pr ++ [a]) with (List.rev (a :: pr)). rewrite quotient_evp. cbv zeta. cbn [evp fst snd].
    destruct (V (a * 1 + 0) 1) as [V1 V2]. rewrite V1, V2, Er. cbn [evp fst snd].
    replace (m * (0 * (sgnb ng * (a * 1 + 0)) + 1) + sgnb ng * (a * 1 + 0)) with (m + sgnb ng * a) by ring.
    replace (0 * (sgnb ng * (a * 1 + 0)) + 1) with 1 by ring.
    replace (sgnb s0 * (c * sgnb s0 * (m + sgnb ng * a) * (c * 1))) with ((c * c) * (sgnb s0 * sgnb s0) * (m + sgnb ng * a)) by ring.
    rewrite sgnb_sq. replace (c * c) with 1 by (destruct Uc as [-> | ->]; reflexivity). lia.
Qed.

Lemma finish_any a b st : a <> nil -> new_loop g BigI (NSt b None nil) a = Ok st -> snd (quotient a) <> 0 -> returns (cf_new g BigI a nil b).
Proof.
  intros Na Hst Hq. destruct (loop_any g BigI a (NSt b None nil) st I Hst) as [G V]. cbn [s_rev s_negate evp] in V.
  destruct (s_rev st) as [|v r] eqn:Er; [exfalso; destruct V as [_ V]; cbn in V; lia|]. destruct G as [Hv W].
  unfold cf_new. destruct a as [|a0 a]; [congruence|]. rewrite Hst. cbn [bind]. rewrite Er. unfold new_finish.
  destruct (trim_total r v) as [rev Et]. rewrite Et. cbn [bind].
  destruct (trim_any BigI (length r) r v rev (Nat.le_refl _) Et Hv W) as [[_ E0]|(v' & r' & -> & Hv' & W' & P2 & E)].
  { exfalso. destruct V as [_ V]. rewrite E0 in V. cbn [snd] in V. lia. }
  assert (F : List.Forall (fun v => 0 <= v) (v' :: r')) by (constructor; [auto|]; destruct W' as [->|W']; [constructor|apply wfr_nonneg; auto]).
  rewrite mapM_total by (apply Forall_rev; exact F).
  destruct (match v' :: r' with [0] => Some false | _ => s_negative st end); eexists; reflexivity.
Qed.
End Big.

(** the prefixes of a list the loop has consumed *)
Lemma new_prefix g t b a0 l st n : a0 <> 0 -> (forall n, (n <= length l)%nat -> fst (quotient (firstn n (a0 :: l))) <> 0) -> new_loop g t (NSt b None nil) (a0 :: l) = Ok st ->
  0 <= sgnb (sgnb b * a0 <? 0) * (sgnb b * fst (quotient (firstn n (a0 :: l))) * snd (quotient (firstn n (a0 :: l)))).
Proof.
  intros N0 N H. destruct n as [|n]; [cbn; lia|]. cbn [firstn].
  rewrite <- (firstn_skipn n l) in H. change (a0 :: firstn n l ++ skipn n l) with ((a0 :: firstn n l) ++ skipn n l) in H. rewrite new_loop_app in H.
  destruct (new_loop g t (NSt b None nil) (a0 :: firstn n l)) as [st1| |] eqn:E; [|discriminate|discriminate].
  assert (N' : forall m, (m <= length (firstn n l))%nat -> fst (quotient (firstn m (a0 :: firstn n l))) <> 0).
  { intros m Hm. pose proof Hm as Hm'. rewrite firstn_length in Hm'. specialize (N m ltac:(lia)). destruct m as [|m]; [exact N|]. cbn [firstn] in *. rewrite firstn_firstn. rewrite Nat.min_l by lia. exact N. }
  destruct (new_inv g t b a0 (firstn n l) st1 N0 N' E) as (ng & nv & rev & c & _ & Al & Uc & V & _).
  destruct (inv_prefix _ _ _ _ _ _ Al Uc V) as (_ & _ & S3). rewrite <- quotient_evp, rev_involutive in S3. rewrite S3.
  destruct (alive_num _ Al). replace (sgnb (sgnb b * a0 <? 0) * (sgnb (sgnb b * a0 <? 0) * (num rev * den rev))) with ((sgnb (sgnb b * a0 <? 0) * sgnb (sgnb b * a0 <? 0)) * (num rev * den rev)) by ring.
  rewrite sgnb_sq. nia.
Qed.

Lemma first_sign b a0 : a0 <> 0 -> a0 = sgnb b * sgnb (sgnb b * a0 <? 0) * Z.abs a0 /\ 0 < Z.abs a0.
Proof. intros N. split; [|lia]. destruct b; cbn [sgnb]; destruct (Z.ltb_spec (-1 * a0) 0); destruct (Z.ltb_spec (1 * a0) 0); cbn [sgnb]; lia. Qed.

Lemma new_outcome g b a0 l : a0 <> 0 -> (forall n, (n <= length l)%nat -> fst (quotient (firstn n (a0 :: l))) <> 0) -> snd (quotient (a0 :: l)) <> 0 ->
  (returns (cf_new g BigI (a0 :: l) nil b) /\ forall n, 0 <= a0 * (fst (quotient (firstn n (a0 :: l))) * snd (quotient (firstn n (a0 :: l))))) \/
  (cf_new g BigI (a0 :: l) nil b = Panic PUnwrap /\ exists n, a0 * (fst (quotient (firstn n (a0 :: l))) * snd (quotient (firstn n (a0 :: l)))) < 0).
Proof.
  intros N0 N Hq. destruct (first_sign b a0 N0) as [Fs Fp].
  assert (E1 : exists st1, new_step g BigI (NSt b None nil) a0 = Ok st1).
  { unfold new_step. destruct (flip_total b a0) as (a' & -> & _). cbn [bind]. destruct (a' <? 0); eexists; reflexivity. }
  destruct E1 as [st1 E1]. pose proof (inv_start g BigI b a0 st1 N0 E1) as I1. set (s0 := sgnb b * a0 <? 0) in *.
  destruct (loop_outcome g b s0 l [a0] st1 I1) as [[st R]|(R & n & Q)].
  - intros n Hn. apply (N (Datatypes.S n)). lia.
  - left. assert (H : new_loop g BigI (NSt b None nil) (a0 :: l) = Ok st) by (cbn [new_loop]; rewrite E1; exact R).
    split; [eapply finish_any; eauto; discriminate|]. intros n. pose proof (new_prefix g BigI b a0 l st n N0 N H) as K. fold s0 in K.
    set (P := fst _) in *. set (Q := snd (quotient (firstn n (a0 :: l)))) in *. clearbody P Q s0. rewrite Fs.
    replace (sgnb b * sgnb s0 * Z.abs a0 * (P * Q)) with (Z.abs a0 * (sgnb s0 * (sgnb b * P * Q))) by ring. nia.
  - right. split; [unfold cf_new; cbn [new_loop]; rewrite E1; cbn [bind]; rewrite R; reflexivity|]. exists (Datatypes.S n). cbn [firstn]. cbn [List.rev app] in Q.
    cbv zeta in Q. set (P := fst _) in *. set (Q' := snd (quotient (a0 :: firstn n l))) in *. clearbody P Q' s0. rewrite Fs.
    replace (sgnb b * sgnb s0 * Z.abs a0 * (P * Q')) with (Z.abs a0 * (sgnb s0 * (sgnb b * P * Q'))) by ring. nia.
Qed.

(** the sign *)
Lemma cfl_nonneg y : wfcf y -> (0 <= cfl (a_coeffs y))%R.
Proof.
  intros W. unfold wfcf in W. destruct (a_coeffs y) as [|a0 rest]; [contradiction|]. destruct W as (H0 & Hr & _). pose proof (IZR_le 0 a0 H0) as R0.
  destruct rest as [|a1 rest]; [exact R0|]. rewrite cfl_cons by discriminate. pose proof (cfl_ge1 (a1 :: rest) ltac:(discriminate) Hr).
  pose proof (Rinv_0_lt_compat (cfl (a1 :: rest)) ltac:(lra)). lra.
Qed.
Lemma cf_val_sign y : canonical y -> finite y -> cf_val y = (IZR (sgnb (negative y)) * Rabs (cf_val y))%R.
Proof.
  intros [W _] F. unfold cf_val. unfold finite in F. rewrite F. rewrite Rabs_mult.
  replace (Rabs (IZR (sgnb (negative y)))) with 1%R by (destruct (negative y); cbn [sgnb]; [rewrite Rabs_left|rewrite Rabs_pos_eq]; lra).
  rewrite Rmult_1_l. f_equal. symmetry. apply Rabs_pos_eq. apply cfl_nonneg; auto.
Qed.

Lemma new_sign_iff g t b a0 l y : fits t 1 = true -> fitl t (a0 :: l) -> a0 <> 0 ->
  (forall n, (n <= length l)%nat -> fst (quotient (firstn n (a0 :: l))) <> 0) -> snd (quotient (a0 :: l)) <> 0 -> cf_new g t (a0 :: l) nil b = Ok y ->
  let v := (IZR (sgnb b) * (IZR (fst (quotient (a0 :: l))) / IZR (snd (quotient (a0 :: l)))))%R in
  (cf_val y = v <-> fst (quotient (a0 :: l)) = 0 \/ 0 < sgnb b * a0 \/ forall n, ~ below (firstn n (a0 :: l))) /\ (cf_val y = v \/ cf_val y = (- v)%R).
Proof.
  intros F1 Fa N0 N Hq H v. destruct (cf_new_magnitude g t (a0 :: l) b y F1 Fa H Hq) as (Cn & Fi & Mg).
  destruct (new_loop_ok g t _ _ _ _ H ltac:(discriminate)) as [st Hst].
  destruct (new_inv g t b a0 l st N0 N Hst) as (ng & nv & rev & c & Est & Al & Uc & V & Fl).
  destruct (inv_prefix _ _ _ _ _ _ Al Uc V) as (Ep & Eq & _). rewrite <- quotient_evp, rev_involutive in Ep, Eq.
  pose proof (new_prefix g t b a0 l st (Datatypes.S (length l)) N0 N Hst) as Sg. rewrite firstn_all2 in Sg by (cbn; lia).
  assert (Ng : negative y = nv \/ a_coeffs y = [0]) by (eapply new_negative; eauto; [discriminate|rewrite Est; reflexivity]).
  pose proof (cf_val_sign y Cn Fi) as Vs. rewrite Mg in Vs. rewrite rev_involutive in Fl || idtac.
  set (P := fst (quotient (a0 :: l))) in *. set (Q := snd (quotient (a0 :: l))) in *. set (s0 := sgnb b * a0 <? 0) in *.
  assert (Q0 : IZR Q <> 0%R) by (apply not_0_IZR; auto).
  assert (Vv : v = (IZR (sgnb s0) * Rabs (IZR P / IZR Q))%R).
  { subst v. assert (K : (0 <= IZR (sgnb s0) * (IZR (sgnb b) * (IZR P / IZR Q)))%R).
    { replace (IZR (sgnb s0) * (IZR (sgnb b) * (IZR P / IZR Q)))%R with (IZR (sgnb s0 * (sgnb b * P * Q)) * (/ IZR Q * / IZR Q))%R by (rewrite !mult_IZR; field; auto).
      apply Rmult_le_pos; [apply IZR_le; exact Sg|]. apply Rle_0_sqr. }
    set (w := (IZR P / IZR Q)%R) in *. clearbody w s0. clear -K. destruct b, s0; cbn [sgnb] in *; unfold Rabs; destruct (Rcase_abs w); lra. }
  assert (Pm : (IZR (sgnb (negative y)) = 1 \/ IZR (sgnb (negative y)) = -1)%R) by (destruct (negative y); cbn [sgnb]; auto).
  assert (Ps : (IZR (sgnb s0) = 1 \/ IZR (sgnb s0) = -1)%R) by (destruct s0; cbn [sgnb]; auto).
  split; [|rewrite Vs, Vv; destruct Pm as [-> | ->], Ps as [-> | ->]; [left|right|right|left]; ring].
  destruct (Z.eq_dec P 0) as [P0|P0].
  { split; [auto|]. intros _. rewrite Vs, Vv, P0. replace (IZR 0 / IZR Q)%R with 0%R by (field; auto). rewrite Rabs_R0. ring. }
  assert (Pr : (Rabs (IZR P / IZR Q) <> 0)%R) by (apply Rabs_no_R0; unfold Rdiv; apply Rmult_integral_contrapositive; split; [apply not_0_IZR; auto|apply Rinv_neq_0_compat; auto]).
  assert (Ng' : negative y = nv).
  { destruct Ng as [Ng|Ng]; [auto|]. exfalso. apply Pr. rewrite <- Mg. unfold cf_val. unfold finite in Fi. rewrite Fi, Ng. cbn [cfl]. rewrite Rmult_0_r. apply Rabs_R0. }
  assert (Iff : cf_val y = v <-> nv = s0).
  { rewrite Vs, Vv, Ng'. split; [|intros ->; reflexivity]. intros E. apply Rmult_eq_reg_r in E; [|exact Pr]. apply eq_IZR in E. destruct nv, s0; cbn in E; congruence. }
  rewrite Iff. unfold flags in Fl. destruct Fl as [(-> & _ & B)|[(-> & n & B)|F]].
  - split; [|reflexivity]. intros _. right; right. intros n. specialize (B n). rewrite rev_involutive in B || idtac. exact B.
  - rewrite rev_involutive in B || idtac. subst s0. destruct (Z.ltb_spec (sgnb b * a0) 0) as [L|L].
    + split; [discriminate|]. intros [K|[K|K]]; [contradiction|lia|]. exfalso. exact (K n B).
    + split; [|reflexivity]. intros _. right; left. assert (sgnb b * a0 <> 0) by (destruct (sgnb_cases b) as [-> | ->]; lia). lia.
  - exfalso. apply P0. lia.
Qed.
