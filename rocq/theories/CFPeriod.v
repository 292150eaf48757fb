(** * CFPeriod: coefficients of any sign before a period: when the constructor is exact. *)

From Coq Require Import ZArith Znumtheory Reals Lia Lra Bool List Arith.
From Coquelicot Require Import Coquelicot.
From Verif Require Import Base Ext ModelBlock ModelCF Spec SpecCF NumFacts Transfer SurdCore RatioFacts SurdArith CFCore CFSeq CFIter CFBasic CFSurd CFNew CFSigned CFSignedP CFAny CFSign CFSign0.
Import ListNotations.
Open Scope Z_scope.

Definition irr (w : R) : Prop := forall n d, d <> 0 -> w <> (IZR n / IZR d)%R.
Lemma irr_nz w : irr w -> w <> 0%R.
Proof. intros H E. apply (H 0 1); [lia|]. rewrite E. field. Qed.
Lemma irr_inv w : irr w -> irr (/ w).
Proof.
  intros H n d Hd E. pose proof (irr_nz w H) as W. assert (D : IZR d <> 0%R) by (apply not_0_IZR; auto).
  destruct (Z.eq_dec n 0) as [->|N].
  - assert (/ w = 0)%R by (rewrite E; field; auto). revert H0. apply Rinv_neq_0_compat. auto.
  - assert (N' : IZR n <> 0%R) by (apply not_0_IZR; auto). apply (H d n N). rewrite <- (Rinv_inv w), E. field. auto.
Qed.
Lemma irr_add v w : irr w -> irr (IZR v + w).
Proof.
  intros H n d Hd E. assert (D : IZR d <> 0%R) by (apply not_0_IZR; auto). apply (H (n - v * d) d Hd).
  replace w with ((IZR v + w) - IZR v)%R by ring. rewrite E, minus_IZR, mult_IZR. field. auto.
Qed.
Lemma irr_lin c d w : irr w -> (IZR c * w + IZR d)%R = 0%R -> c = 0 /\ d = 0.
Proof.
  intros H E. destruct (Z.eq_dec c 0) as [->|N].
  - split; [auto|]. rewrite Rmult_0_l, Rplus_0_l in E. apply eq_IZR. exact E.
  - exfalso. assert (N' : IZR c <> 0%R) by (apply not_0_IZR; auto). apply (H (- d) c N). rewrite opp_IZR.
    replace w with ((IZR c * w + IZR d - IZR d) / IZR c)%R by (field; auto). rewrite E. field. auto.
Qed.

(** the transformation of a list of coefficients *)
Lemma evp_lin rev : forall x y, evp rev (x, y) = (x * fst (evp rev (1, 0)) + y * fst (evp rev (0, 1)), x * snd (evp rev (1, 0)) + y * snd (evp rev (0, 1))).
Proof.
  induction rev as [|v r IH]; intros x y; [cbn; f_equal; ring|]. cbn [evp fst snd].
  rewrite (IH (v * x + y) x), (IH (v * 1 + 0) 1), (IH (v * 0 + 1) 0). cbn [fst snd]. f_equal; ring.
Qed.
Lemma evp_det rev : unit (fst (evp rev (1, 0)) * snd (evp rev (0, 1)) - fst (evp rev (0, 1)) * snd (evp rev (1, 0))).
Proof.
  induction rev as [|v r IH]; [left; reflexivity|]. cbn [evp fst snd]. rewrite (evp_lin r (v * 1 + 0) 1), (evp_lin r (v * 0 + 1) 0). cbn [fst snd].
  set (a := fst (evp r (1, 0))) in *. set (b := fst (evp r (0, 1))) in *. set (c := snd (evp r (1, 0))) in *. set (d := snd (evp r (0, 1))) in *. clearbody a b c d.
  unfold unit in *. destruct IH; [right|left]; lia.
Qed.
Lemma evr_frac rev : forall w, irr w -> (IZR (snd (evp rev (1%Z, 0%Z))) * w + IZR (snd (evp rev (0%Z, 1%Z))) <> 0)%R /\
  evr rev w = ((IZR (fst (evp rev (1%Z, 0%Z))) * w + IZR (fst (evp rev (0%Z, 1%Z)))) / (IZR (snd (evp rev (1%Z, 0%Z))) * w + IZR (snd (evp rev (0%Z, 1%Z)))))%R.
Proof.
  induction rev as [|v r IH]; intros w H.
  - cbn. split; [lra|]. field.
  - cbn [evp fst snd evr]. destruct (IH (IZR v + / w)%R (irr_add v _ (irr_inv w H))) as [N E]. pose proof (irr_nz w H) as W.
    rewrite (evp_lin r (v * 1 + 0) 1), (evp_lin r (v * 0 + 1) 0). cbn [fst snd].
    set (a := fst (evp r (1, 0))) in *. set (b := fst (evp r (0, 1))) in *. set (c := snd (evp r (1, 0))) in *. set (d := snd (evp r (0, 1))) in *. clearbody a b c d.
    rewrite !plus_IZR, !mult_IZR, !plus_IZR, !mult_IZR.
    assert (N2 : (((IZR v * 1 + 0) * IZR c + 1 * IZR d) * w + ((IZR v * 0 + 1) * IZR c + 0 * IZR d) = (IZR c * (IZR v + / w) + IZR d) * w)%R) by (field; auto).
    assert (N3 : (((IZR v * 1 + 0) * IZR a + 1 * IZR b) * w + ((IZR v * 0 + 1) * IZR a + 0 * IZR b) = (IZR a * (IZR v + / w) + IZR b) * w)%R) by (field; auto).
    rewrite N2, N3, E. split; [apply Rmult_integral_contrapositive; auto|]. set (X := (IZR a * (IZR v + / w) + IZR b)%R). set (Y := (IZR c * (IZR v + / w) + IZR d)%R) in *. clearbody X Y. field. auto.
Qed.
Lemma evr_irr rev : forall w, irr w -> irr (evr rev w).
Proof. induction rev as [|v r IH]; intros w H; [exact H|]. cbn [evr]. apply IH. apply irr_add. apply irr_inv. exact H. Qed.

Lemma evl_evr l : forall w, evl l w = evr (List.rev l) w.
Proof.
  assert (K : forall r v w, evr (r ++ [v]) w = (IZR v + / evr r w)%R) by (induction r as [|u r IH]; intros v w; [reflexivity|cbn [app evr]; apply IH]).
  induction l as [|v l IH]; intros w; [reflexivity|]. cbn [evl List.rev]. rewrite K, IH. reflexivity.
Qed.
Lemma evl_nz l : forall w, irr w -> nz l w.
Proof.
  induction l as [|v l IH]; intros w H; [exact I|]. cbn [nz]. split; [|auto]. rewrite evl_evr. apply irr_nz. apply evr_irr. exact H.
Qed.

(** the value of any coefficients followed by a positive period *)
Lemma pseq_irr p : p <> nil -> List.Forall (fun v => 1 <= v) p -> irr (lim (pseq p)).
Proof. intros N F n d Hd. apply lim_irrational; [|exact Hd]. apply pseq_cpos; auto. Qed.
Lemma any_val a p b : p <> nil -> List.Forall (fun v => 1 <= v) p -> cf_val (CF a p b) = (IZR (sgnb b) * evr (List.rev a) (lim (pseq p)))%R.
Proof.
  intros Hp Pp. set (x := CF a p b). assert (Fx : ~ finite x) by exact Hp. rewrite cf_val_inf by auto. cbn [negative x]. f_equal.
  assert (Sh : forall k, shiftn (length a) (cseq x) k = pseq p k) by (intros k; rewrite shiftn_at; apply (cseq_p x k Fx)).
  destruct (pseq_cpos p Hp Pp) as [Cp P1]. pose proof (pseq_irr p Hp Pp) as Ir.
  assert (L : is_lim_seq (cut (cseq x)) (evl a (lim (pseq p)))).
  { apply lim_list.
    - intros k Hk. apply (cseq_a x). exact Hk.
    - eapply is_lim_seq_ext; [intros k; symmetry; apply cut_ext; exact Sh|]. apply cut_lim. auto.
    - apply evl_nz. exact Ir. }
  apply lim_unique in L. rewrite L. apply evl_evr.
Qed.

(** the square of a purely periodic fraction is irrational *)
Lemma period_shape p : p <> nil -> List.Forall (fun v => 1 <= v) p ->
  let A := fst (evp p (1, 0)) in let B := fst (evp p (0, 1)) in let C := snd (evp p (1, 0)) in let D := snd (evp p (0, 1)) in
  1 <= B <= A /\ 0 <= D <= C /\ 1 <= C /\ D < A.
Proof.
  induction p as [|f p IH] using rev_ind; [congruence|]. intros _ F. apply Forall_app in F. destruct F as [F Ff]. inversion Ff as [|? ? Hf _]; subst. cbn zeta.
  rewrite !evp_app. cbn [fst snd]. destruct p as [|f2 p]; [cbn; lia|]. specialize (IH ltac:(discriminate) F). cbn zeta in IH.
  set (a := fst (evp (f2 :: p) (1, 0))) in *. set (b := fst (evp (f2 :: p) (0, 1))) in *. set (c := snd (evp (f2 :: p) (1, 0))) in *. set (d := snd (evp (f2 :: p) (0, 1))) in *. clearbody a b c d.
  clear -IH Hf. nia.
Qed.
Lemma pseq_fix p : p <> nil -> List.Forall (fun v => 1 <= v) p -> lim (pseq p) = evr (List.rev p) (lim (pseq p)).
Proof.
  intros N F. destruct (pseq_cpos p N F) as [HC H1]. rewrite (lim_ev _ (length p) HC) at 1. rewrite (lim_ext (shiftn (length p) (pseq p)) (pseq p)).
  - rewrite ev_evr, map_nth_seq; [reflexivity|]. intros; apply pseq_nth; auto.
  - intros k. rewrite shiftn_at. apply pseq_period. auto.
Qed.
Lemma pseq_square p n d : p <> nil -> List.Forall (fun v => 1 <= v) p -> d <> 0 -> (IZR d * (lim (pseq p) * lim (pseq p)) <> IZR n)%R.
Proof.
  intros N F Hd E. pose proof (pseq_irr p N F) as Ir. pose proof (pseq_fix p N F) as Fx. set (w := lim (pseq p)) in *.
  destruct (evr_frac (List.rev p) w Ir) as [Nd Ev]. rewrite Ev in Fx at 1.
  assert (Nr : List.rev p <> nil) by (intros K; apply (f_equal (@length Z)) in K; rewrite rev_length in K; destruct p; [congruence|discriminate]).
  destruct (period_shape (List.rev p) Nr ltac:(apply Forall_rev; auto)) as (_ & _ & _ & K).
  set (A := fst (evp (List.rev p) (1, 0))) in *. set (B := fst (evp (List.rev p) (0, 1))) in *. set (C := snd (evp (List.rev p) (1, 0))) in *. set (D := snd (evp (List.rev p) (0, 1))) in *. clearbody w A B C D.
  assert (Q : (IZR C * (w * w) + IZR D * w = IZR A * w + IZR B)%R).
  { assert (M : (w * (IZR C * w + IZR D) = IZR A * w + IZR B)%R) by (rewrite Fx at 1; field; auto). lra. }
  destruct (irr_lin (d * (A - D)) (B * d - C * n) w Ir) as [Z1 _]; [|nia].
  rewrite mult_IZR, !minus_IZR, !mult_IZR. rewrite <- E.
  replace (IZR d * (IZR A - IZR D) * w + (IZR B * IZR d - IZR C * (IZR d * (w * w))))%R with (IZR d * ((IZR A * w + IZR B) - (IZR C * (w * w) + IZR D * w)))%R by ring.
  rewrite Q. ring.
Qed.

(** ** The constructor *)
Definition num2 (rev : list Z) : Z := fst (evp rev (0, 1)).
Definition den2 (rev : list Z) : Z := snd (evp rev (0, 1)).
Lemma rev_removelast (l : list Z) z r : List.rev l = z :: r -> removelast l = List.rev r.
Proof.
  intros E. assert (K : l = List.rev r ++ [z]) by (rewrite <- (rev_involutive l), E; reflexivity). rewrite K, removelast_last. reflexivity.
Qed.
Lemma evp_previous l : l <> nil -> evp (List.rev l) (0, 1) = quotient (removelast l).
Proof.
  intros N. destruct (List.rev l) as [|z r] eqn:E; [exfalso; apply N; rewrite <- (rev_involutive l), E; reflexivity|].
  rewrite (rev_removelast _ _ _ E), quotient_evp. cbn [evp fst snd]. replace (z * 0 + 1) with 1 by ring. reflexivity.
Qed.
Lemma alive_num2 rev : alive rev -> 0 <= num2 rev /\ 0 <= den2 rev.
Proof. intros [_ G]. apply evp_nonneg; [apply goodA_nonneg; auto|cbn; lia|cbn; lia]. Qed.

Section Per.
Context (g : cfg) (t : ity).

Lemma finish_period a p b ng nv rev y : a <> nil -> new_loop g t (NSt b None nil) a = Ok (NSt ng (Some nv) rev) -> goodA rev -> p <> nil -> List.Forall (fun v => 1 <= v) p ->
  fitl t rev -> fitl t p -> cf_new g t a p b = Ok y -> y = CF (List.rev rev) p nv.
Proof.
  intros Na El G Np Pp Fr Fp H. destruct p as [|p0 p]; [congruence|]. unfold cf_new in H. destruct a as [|a0 a]; [congruence|]. rewrite El in H. cbn [bind s_rev s_negative s_negate] in H.
  assert (H' : (let! a' := mapM (to_unsigned t) (List.rev rev) in let! p' := mapM (to_unsigned t) (p0 :: p) in Ok (CF a' p' nv)) = Ok y) by (destruct rev; exact H).
  clear H. destruct (mapM (to_unsigned t) (List.rev rev)) as [ws| |] eqn:Em; [|discriminate|discriminate].
  apply mapM_unsigned in Em; [|apply Forall_rev; auto|apply Forall_rev; apply goodA_nonneg; auto]. subst ws. cbn [bind] in H'.
  destruct (mapM (to_unsigned t) (p0 :: p)) as [ws| |] eqn:Em; [|discriminate|discriminate].
  apply mapM_unsigned in Em; [|auto|revert Pp; apply Forall_impl; intros; lia]. subst ws. cbn [bind] in H'. congruence.
Qed.

(** canonical exactly if the last two beginnings grow *)
Lemma wf_iff rev p nv : alive rev -> 0 < num rev * num2 rev + den rev * den2 rev -> p <> nil -> List.Forall (fun v => 1 <= v) p ->
  (canonical (CF (List.rev rev) p nv) <-> num2 rev + den2 rev < num rev + den rev).
Proof.
  intros [N G] A Np Pp. destruct rev as [|v r]; [congruence|]. destruct G as [Hv G].
  assert (E : num (v :: r) + den (v :: r) = v * (num r + den r) + (num2 r + den2 r) /\ num2 (v :: r) + den2 (v :: r) = num r + den r).
  { unfold num, den, num2, den2. cbn [evp fst snd]. rewrite (evp_lin r (v * 1 + 0) 1), (evp_lin r (v * 0 + 1) 0). cbn [fst snd]. lia. }
  assert (P2 : forall r, List.Forall (fun v => 0 <= v) r -> 0 < num r + den r /\ 0 < num2 r + den2 r).
  { intros r0 F. destruct (evp_nonneg r0 F (1, 0)) as [X1 X2]; [cbn; lia|cbn; lia|]. destruct (evp_nonneg r0 F (0, 1)) as [Y1 Y2]; [cbn; lia|cbn; lia|].
    pose proof (evp_det r0) as D. unfold num, den, num2, den2. set (a := fst (evp r0 (1, 0))) in *. set (b := fst (evp r0 (0, 1))) in *. set (c := snd (evp r0 (1, 0))) in *. set (d := snd (evp r0 (0, 1))) in *. clearbody a b c d.
    clear -X1 X2 Y1 Y2 D. destruct D; nia. }
  assert (Fr : List.Forall (fun v => 0 <= v) r) by (destruct G as [->|G]; [constructor|apply wfr_nonneg; auto]). destruct (P2 r Fr) as [R1 R2].
  destruct E as [E1 E2]. rewrite E1, E2. destruct (Z.eq_dec v 0) as [->|Nv].
  - replace (0 * (num r + den r) + (num2 r + den2 r)) with (num2 r + den2 r) by ring. split.
    + intros [W _]. exfalso. unfold wfcf in W. cbn [a_coeffs List.rev] in W. destruct r as [|u r]; [cbn in A; lia|]. clear -W.
      destruct (List.rev (u :: r) ++ [0]) as [|a0 rest] eqn:El; [exact W|]. destruct W as (_ & W & _).
      destruct (List.rev (u :: r)) as [|c0 cs] eqn:Er; [apply (f_equal (@length Z)) in Er; rewrite rev_length in Er; discriminate|].
      inversion El; subst rest. apply Forall_app in W. destruct W as [_ W]. inversion W. lia.
    + intros L. exfalso. destruct r as [|u r]; [cbn in A; lia|].
      assert (E3 : num (u :: r) + den (u :: r) = u * (num r + den r) + (num2 r + den2 r) /\ num2 (u :: r) + den2 (u :: r) = num r + den r).
      { unfold num, den, num2, den2. cbn [evp fst snd]. rewrite (evp_lin r (u * 1 + 0) 1), (evp_lin r (u * 0 + 1) 0). cbn [fst snd]. lia. }
      destruct E3 as [E3 E4]. inversion Fr as [|? ? Fu Fr']; subst. destruct (P2 r Fr') as [R3 R4].
      destruct (Z.eq_dec u 0) as [->|Nu]; [|clear -L E3 E4 Nu Fu R3 R4; nia]. destruct G as [G|G]; [discriminate|].
      destruct r as [|z r]; [cbn in A; lia|]. apply wfr_tail in G; [lia|discriminate].
  - split; [intros _; clear -Nv Hv R1 R2; nia|]. intros _. assert (W : wfr (v :: r)) by (apply wfr_push; [lia|auto]).
    destruct (wfr_rev _ W) as (a0 & rest & Erev & A0 & Prest).
    split; [|split]; unfold wfcf; cbn [a_coeffs p_coeffs negative]; [rewrite Erev; auto| |]; intros; congruence.
Qed.

Lemma period_core b a p y ng nv s0 rev c : fits t 1 = true -> fitl t a -> fitl t p -> a <> nil -> p <> nil -> List.Forall (fun v => 1 <= v) p -> cf_new g t a p b = Ok y ->
  new_loop g t (NSt b None nil) a = Ok (NSt ng (Some nv) rev) -> alive rev -> unit c ->
  (forall x y, sgnb b * fst (evp (List.rev a) (x, y)) = c * sgnb s0 * fst (evp rev (sgnb ng * x, y)) /\ snd (evp (List.rev a) (x, y)) = c * snd (evp rev (sgnb ng * x, y))) ->
  let P := fst (quotient a) in let Q := snd (quotient a) in
  let P' := fst (quotient (removelast a)) in let Q' := snd (quotient (removelast a)) in P * P' + Q * Q' <> 0 ->
  p_coeffs y = p /\ (canonical y <-> Z.abs P' + Z.abs Q' < Z.abs P + Z.abs Q) /\
  (Rabs (cf_val y) = Rabs (cf_val (CF a p b)) <-> 0 < P * P' + Q * Q') /\
  (cf_val y = cf_val (CF a p b) <-> 0 < P * P' + Q * Q' /\ nv = s0).
Proof.
  intros F1 Fa Fp Na Np Pp H Hst Al Uc V P Q P' Q' Nz.
  pose proof (loop_fit g t _ _ _ Hst F1 Fa ltac:(constructor)) as Fst. cbn [s_rev] in Fst.
  pose proof (finish_period a p b ng nv rev y Na Hst (proj2 Al) Np Pp Fst Fp H) as Ey.
  destruct (alive_num _ Al) as [A0 C0]. destruct (alive_num2 _ Al) as [B0 D0].
  assert (VP : sgnb b * P = c * sgnb s0 * (sgnb ng * num rev) /\ Q = c * (sgnb ng * den rev)).
  { destruct (V 1 0) as [V1 V2]. rewrite Z.mul_1_r, (evp_unit (sgnb ng)) in V1, V2 by apply unit_sgnb. cbn [fst snd] in V1, V2. rewrite <- quotient_evp, rev_involutive in V1, V2. split; [exact V1|exact V2]. }
  assert (VP' : sgnb b * P' = c * sgnb s0 * num2 rev /\ Q' = c * den2 rev).
  { destruct (V 0 1) as [V1 V2]. rewrite Z.mul_0_r in V1, V2. rewrite (evp_previous a) in V1, V2 by exact Na. split; [exact V1|exact V2]. }
  pose proof (unit_sgnb b) as Ub. pose proof (unit_sgnb ng) as Un. pose proof (unit_sgnb s0) as Us.
  destruct VP as [VP VQ]. destruct VP' as [VP' VQ'].
  assert (A1 : Z.abs P = num rev /\ Z.abs P' = num2 rev /\ Z.abs Q = den rev /\ Z.abs Q' = den2 rev).
  { clear -VP VQ VP' VQ' Ub Un Us Uc A0 B0 C0 D0. rewrite VQ, VQ'.
    set (A := num rev) in *. set (B := num2 rev) in *. set (C := den rev) in *. set (D := den2 rev) in *. set (e := sgnb b) in *. set (f := sgnb ng) in *. set (h := sgnb s0) in *. clearbody A B C D e f h P P'.
    unfold unit in *. destruct Ub, Un, Us, Uc; subst; lia. }
  destruct A1 as (EP & EP' & EQ & EQ').
  assert (PP : P * P' + Q * Q' = sgnb ng * (num rev * num2 rev + den rev * den2 rev)).
  { replace (P * P') with ((sgnb b * sgnb b) * (P * P')) by (rewrite sgnb_sq; ring). replace (sgnb b * sgnb b * (P * P')) with ((sgnb b * P) * (sgnb b * P')) by ring. rewrite VP, VP', VQ, VQ'.
    replace (c * sgnb s0 * (sgnb ng * num rev) * (c * sgnb s0 * num2 rev)) with ((c * c) * (sgnb s0 * sgnb s0) * (sgnb ng * (num rev * num2 rev))) by ring.
    replace (c * (sgnb ng * den rev) * (c * den2 rev)) with ((c * c) * (sgnb ng * (den rev * den2 rev))) by ring.
    rewrite sgnb_sq. replace (c * c) with 1 by (destruct Uc as [-> | ->]; reflexivity). ring. }
  assert (Gp : 0 < num rev * num2 rev + den rev * den2 rev).
  { rewrite PP in Nz. assert (num rev * num2 rev + den rev * den2 rev <> 0) by (intros K; apply Nz; rewrite K; ring). pose proof (Z.mul_nonneg_nonneg _ _ A0 B0). pose proof (Z.mul_nonneg_nonneg _ _ C0 D0). lia. }
  split; [rewrite Ey; reflexivity|]. split; [rewrite Ey, EP, EP', EQ, EQ'; apply wf_iff; auto|].
  assert (Sg : 0 < P * P' + Q * Q' <-> ng = false).
  { rewrite PP. clear -Gp. set (z := num rev * num2 rev + den rev * den2 rev) in *. clearbody z. destruct ng; cbn [sgnb]; split; intros K; [exfalso; lia|discriminate|reflexivity|lia]. }
  rewrite Sg. rewrite Ey. rewrite !any_val by auto. rewrite rev_involutive.
  pose proof (pseq_irr p Np Pp) as Ir. pose proof (period_gt1 p Np Pp) as G1.
  destruct (evr_frac rev _ Ir) as [Nd1 Ev1]. destruct (evr_frac (List.rev a) _ Ir) as [Nd2 Ev2].
  rewrite (evp_previous a) in Nd2, Ev2 by exact Na. rewrite <- quotient_evp, rev_involutive in Nd2, Ev2.
  rewrite Ev1, Ev2. pose proof (evp_det rev) as Dt. pose proof (pseq_square p (num2 rev * den2 rev) (num rev * den rev) Np Pp) as Sq.
  fold (num rev) in *. fold (num2 rev) in *. fold (den rev) in *. fold (den2 rev) in *. fold P in Ev2, Nd2 |- *. fold Q in Ev2, Nd2 |- *. fold P' in Ev2, Nd2 |- *. fold Q' in Ev2, Nd2 |- *. set (w := lim (pseq p)) in *. clearbody w.
  clear V Hst H Fst Fa Fp PP Sg Nz.
  assert (Dt' : (IZR (num rev) * IZR (den2 rev) - IZR (num2 rev) * IZR (den rev) <> 0)%R).
  { rewrite <- !mult_IZR, <- minus_IZR. apply not_0_IZR. destruct Dt; lia. }
  assert (Sq' : (IZR (num rev) * IZR (den rev) * (w * w) <> IZR (num2 rev) * IZR (den2 rev))%R).
  { rewrite <- !mult_IZR. destruct (Z.eq_dec (num rev * den rev) 0) as [Z0|Nz]; [|apply Sq; exact Nz].
    rewrite Z0, Rmult_0_l. intros K. apply (IZR_neq 0 (num2 rev * den2 rev)); [|exact K]. intros K2. clear -Z0 K2 Gp Dt A0 B0 C0 D0.
    set (A := num rev) in *. set (B := num2 rev) in *. set (C := den rev) in *. set (D := den2 rev) in *. clearbody A B C D. unfold unit in Dt. symmetry in K2.
    apply Z.mul_eq_0 in Z0. apply Z.mul_eq_0 in K2. destruct Z0 as [-> | ->], K2 as [-> | ->]; lia. }
  pose proof (IZR_le _ _ A0) as A0'. pose proof (IZR_le _ _ B0) as B0'. pose proof (IZR_le _ _ C0) as C0'. pose proof (IZR_le _ _ D0) as D0'.
  apply (f_equal IZR) in VP. apply (f_equal IZR) in VP'. rewrite !mult_IZR in VP'. rewrite (mult_IZR (sgnb b) P), (mult_IZR (c * sgnb s0) (sgnb ng * num rev)), (mult_IZR (sgnb ng) (num rev)), (mult_IZR c (sgnb s0)) in VP.
  assert (VQr : IZR Q = (IZR c * (IZR (sgnb ng) * IZR (den rev)))%R) by (rewrite VQ, !mult_IZR; reflexivity).
  assert (VQr' : IZR Q' = (IZR c * IZR (den2 rev))%R) by (rewrite VQ', !mult_IZR; reflexivity).
  assert (Val : (IZR (sgnb b) * ((IZR P * w + IZR P') / (IZR Q * w + IZR Q')) =
     IZR (sgnb s0) * ((IZR (sgnb ng) * (IZR (num rev) * w) + IZR (num2 rev)) / (IZR (sgnb ng) * (IZR (den rev) * w) + IZR (den2 rev))))%R).
  { unfold Rdiv. rewrite <- Rmult_assoc. replace (IZR (sgnb b) * (IZR P * w + IZR P'))%R with (IZR (sgnb b) * IZR P * w + IZR (sgnb b) * IZR P')%R by ring. rewrite VP, VP'.
    rewrite VQr, VQr' in *. clear -Uc Nd2. destruct Uc as [-> | ->]; field.
    - intros K; apply Nd2; lra.
    - split; intros K; apply Nd2; lra. }
  rewrite Val. assert (Nd3 : (IZR (sgnb ng) * (IZR (den rev) * w) + IZR (den2 rev) <> 0)%R).
  { intros K. apply Nd2. rewrite VQr, VQr'. replace (IZR c * (IZR (sgnb ng) * IZR (den rev)) * w + IZR c * IZR (den2 rev))%R with (IZR c * (IZR (sgnb ng) * (IZR (den rev) * w) + IZR (den2 rev)))%R by ring. rewrite K. ring. }
  assert (Un2 : forall f, (Rabs (IZR (sgnb f)) = 1)%R) by (intros f; destruct f; cbn [sgnb]; [rewrite Rabs_left|rewrite Rabs_pos_eq]; lra).
  rewrite !Rabs_mult, !Un2, !Rmult_1_l.
  clear -A0' B0' C0' D0' Dt' Sq' Nd1 Nd3 G1 Un2. set (A := IZR (num rev)) in *. set (B := IZR (num2 rev)) in *. set (C := IZR (den rev)) in *. set (D := IZR (den2 rev)) in *. clearbody A B C D.
  assert (CD : (0 < C * w + D)%R) by (assert (0 <= C * w)%R by (apply Rmult_le_pos; lra); lra).
  assert (AB : (0 < A * w + B)%R).
  { assert (0 <= A * w)%R by (apply Rmult_le_pos; lra). destruct (Rle_lt_or_eq_dec _ _ A0') as [K|K]; [assert (0 < A * w)%R by (apply Rmult_lt_0_compat; lra); lra|].
    destruct (Rle_lt_or_eq_dec _ _ B0') as [K2|K2]; [lra|]. exfalso. apply Dt'. rewrite <- K, <- K2. ring. }
  assert (M0 : (0 < (A * w + B) / (C * w + D))%R) by (apply Rdiv_lt_0_compat; auto).
  destruct ng; cbn [sgnb] in *.
  - assert (K : Rabs ((A * w + B) / (C * w + D)) <> Rabs ((-1 * (A * w) + B) / (-1 * (C * w) + D))).
    { intros K. apply Rsqr_eq_asb_1 in K. unfold Rsqr in K.
      assert (K2 : ((A * w + B) * (A * w + B) * ((-1 * (C * w) + D) * (-1 * (C * w) + D)) = (-1 * (A * w) + B) * (-1 * (A * w) + B) * ((C * w + D) * (C * w + D)))%R).
      { replace ((A * w + B) * (A * w + B) * ((-1 * (C * w) + D) * (-1 * (C * w) + D)))%R with ((A * w + B) / (C * w + D) * ((A * w + B) / (C * w + D)) * (((C * w + D) * (C * w + D)) * ((-1 * (C * w) + D) * (-1 * (C * w) + D))))%R by (field; lra).
        rewrite K. field. intros Q3; apply Nd3; lra. }
      assert (K3 : (4 * w * (A * D - B * C) * (A * C * (w * w) - B * D) = 0)%R) by (ring_simplify; ring_simplify in K2; lra).
      apply Rmult_integral in K3. destruct K3 as [K3|K3]; [|lra]. apply Rmult_integral in K3. destruct K3 as [K3|K3]; lra. }
    split; [split; [contradiction|discriminate]|]. split; [|intros [? _]; discriminate]. intros E. exfalso. apply K.
    apply (f_equal Rabs) in E. rewrite !Rabs_mult, !Un2, !Rmult_1_l in E. exact E.
  - rewrite !Rmult_1_l. split; [split; auto|]. split; [|intros [_ ->]; reflexivity]. intros E. split; [reflexivity|]. apply Rmult_eq_reg_r in E; [|lra]. apply eq_IZR in E. destruct nv, s0; cbn in E; congruence.
Qed.

Lemma new_period_iff b a0 l p y : fits t 1 = true -> fitl t (a0 :: l) -> fitl t p -> a0 <> 0 ->
  (forall n, fst (quotient (firstn n (a0 :: l))) <> 0) -> p <> nil -> List.Forall (fun v => 1 <= v) p -> cf_new g t (a0 :: l) p b = Ok y ->
  let P := fst (quotient (a0 :: l)) in let Q := snd (quotient (a0 :: l)) in
  let P' := fst (quotient (removelast (a0 :: l))) in let Q' := snd (quotient (removelast (a0 :: l))) in
  p_coeffs y = p /\ (canonical y <-> Z.abs P' + Z.abs Q' < Z.abs P + Z.abs Q) /\
  (Rabs (cf_val y) = Rabs (cf_val (CF (a0 :: l) p b)) <-> 0 < P * P' + Q * Q') /\
  (cf_val y = cf_val (CF (a0 :: l) p b) <-> 0 < P * P' + Q * Q' /\ (0 < sgnb b * a0 \/ forall n, ~ below (firstn n (a0 :: l)))).
Proof.
  intros F1 Fa Fp N0 N Np Pp H P Q P' Q'. assert (Na : a0 :: l <> nil) by discriminate. destruct (new_loop_ok g t _ _ _ _ H Na) as [st Hst].
  destruct (new_inv g t b a0 l st N0 (fun n _ => N n) Hst) as (ng & nv & rev & c & Est & Al & Uc & V & Fl). rewrite Est in Hst.
  destruct (inv_prefix _ _ _ _ _ _ Al Uc V) as (Ep & _ & _). rewrite <- quotient_evp, rev_involutive in Ep. fold P in Ep.
  assert (P0 : P <> 0) by (specialize (N (length (a0 :: l))); rewrite firstn_all in N; exact N).
  assert (P0' : P' <> 0) by (specialize (N (pred (length (a0 :: l)))); rewrite <- removelast_firstn_len in N; exact N).
  assert (Nz : P * P' + Q * Q' <> 0).
  { destruct (V 1 0) as [V1 V2]. destruct (V 0 1) as [V3 V4]. rewrite Z.mul_1_r, (evp_unit (sgnb ng)) in V1, V2 by apply unit_sgnb. rewrite Z.mul_0_r in V3, V4. cbn [fst snd] in V1, V2.
    rewrite <- quotient_evp, rev_involutive in V1, V2. rewrite (evp_previous (a0 :: l) Na) in V3, V4. fold P in V1. fold Q in V2. fold P' in V3. fold Q' in V4. fold (num2 rev) in V3. fold (den2 rev) in V4.
    destruct (alive_num _ Al) as [A0 C0]. destruct (alive_num2 _ Al) as [B0 D0]. pose proof (unit_sgnb b) as Ub. pose proof (unit_sgnb ng) as Un. set (s0 := sgnb b * a0 <? 0) in *. pose proof (unit_sgnb s0) as Us.
    rewrite V2, V4. clear V2 V4 V Fl N. clearbody P P' s0. set (A := num rev) in *. set (B := num2 rev) in *. set (C := den rev) in *. set (D := den2 rev) in *. set (e := sgnb b) in *. set (f := sgnb ng) in *. set (h := sgnb s0) in *. clearbody A B C D e f h.
    assert (M : 0 <= C * D) by nia. clear -V1 V3 Ub Un Us Uc A0 B0 M P0 P0'.
    replace (c * (f * C) * (c * D)) with ((c * c) * f * (C * D)) by ring. set (m := C * D) in *. clearbody m.
    assert (EA : Z.abs P = A) by (unfold unit in *; destruct Ub as [-> | ->], Un as [-> | ->], Us as [-> | ->], Uc as [-> | ->]; lia).
    assert (EB : Z.abs P' = B) by (unfold unit in *; destruct Ub as [-> | ->], Us as [-> | ->], Uc as [-> | ->]; lia).
    assert (AB : 0 < A * B) by (apply Z.mul_pos_pos; lia).
    assert (PP : P * P' = f * (A * B)).
    { replace (P * P') with ((e * P) * (e * P')) by (destruct Ub as [-> | ->]; ring). rewrite V1, V3. destruct Us as [-> | ->], Uc as [-> | ->]; ring. }
    rewrite PP. replace (c * c) with 1 by (destruct Uc as [-> | ->]; reflexivity). set (n := A * B) in *. clearbody n. destruct Un as [-> | ->]; lia. }
  destruct (period_core b (a0 :: l) p y ng nv _ rev c F1 Fa Fp Na Np Pp H Hst Al Uc V Nz) as (R1 & R2 & R3 & R4). fold P Q P' Q' in R2, R3, R4.
  split; [exact R1|]. split; [exact R2|]. split; [exact R3|]. rewrite R4.
  assert (Fl1 : nv = (sgnb b * a0 <? 0) <-> (0 < sgnb b * a0 \/ forall n, ~ below (firstn n (a0 :: l)))); [|rewrite Fl1; reflexivity].
  unfold flags in Fl. rewrite rev_involutive in Fl. destruct Fl as [(-> & _ & Bl)|[(-> & n & Bl)|Fz]]; [| |lia].
  - split; auto.
  - destruct (Z.ltb_spec (sgnb b * a0) 0) as [L|L].
    + split; [discriminate|]. intros [K|K]; [lia|]. exfalso. exact (K n Bl).
    + split; [|reflexivity]. intros _. left. assert (sgnb b * a0 <> 0) by (destruct (unit_sgnb b) as [-> | ->]; lia). lia.
Qed.

Lemma new_period0_iff b a1 l p y : fits t 1 = true -> fitl t (0 :: a1 :: l) -> fitl t p -> a1 <> 0 ->
  (forall n, (2 <= n)%nat -> fst (quotient (firstn n (0 :: a1 :: l))) <> 0) -> p <> nil -> List.Forall (fun v => 1 <= v) p -> cf_new g t (0 :: a1 :: l) p b = Ok y ->
  let P := fst (quotient (0 :: a1 :: l)) in let Q := snd (quotient (0 :: a1 :: l)) in
  let P' := fst (quotient (removelast (0 :: a1 :: l))) in let Q' := snd (quotient (removelast (0 :: a1 :: l))) in
  p_coeffs y = p /\ (canonical y <-> Z.abs P' + Z.abs Q' < Z.abs P + Z.abs Q) /\
  (Rabs (cf_val y) = Rabs (cf_val (CF (0 :: a1 :: l) p b)) <-> 0 < P * P' + Q * Q') /\
  (cf_val y = cf_val (CF (0 :: a1 :: l) p b) <-> 0 < P * P' + Q * Q' /\ (0 < sgnb b * a1 \/ ~ fell (0 :: a1 :: l))).
Proof.
  intros F1 Fa Fp N0 N Np Pp H P Q P' Q'. assert (Na : 0 :: a1 :: l <> nil) by discriminate. destruct (new_loop_ok g t _ _ _ _ H Na) as [st Hst].
  destruct (new_inv0 g t b a1 l st N0 (fun n Hn => N n (proj1 Hn)) Hst) as (ng & nv & rev & c & Est & Al & Uc & V & Fl). rewrite Est in Hst.
  destruct (inv_prefix _ _ _ _ _ _ Al Uc V) as (Ep & _ & _). rewrite <- quotient_evp, rev_involutive in Ep. fold P in Ep.
  assert (P0 : P <> 0) by (specialize (N (length (0 :: a1 :: l)) ltac:(cbn; lia)); rewrite firstn_all in N; exact N).
  assert (P0' : P' <> 0 \/ (l = nil /\ P' = 0)).
  { destruct l as [|a2 l]; [right; split; reflexivity|]. left. specialize (N (pred (length (0 :: a1 :: a2 :: l))) ltac:(cbn; lia)). rewrite <- removelast_firstn_len in N. exact N. }
  assert (Nz : P * P' + Q * Q' <> 0).
  { destruct P0' as [P0'|[-> P0']].
    2:{ rewrite P0'. subst Q Q'. cbn. lia. }
    destruct (V 1 0) as [V1 V2]. destruct (V 0 1) as [V3 V4]. rewrite Z.mul_1_r, (evp_unit (sgnb ng)) in V1, V2 by apply unit_sgnb. rewrite Z.mul_0_r in V3, V4. cbn [fst snd] in V1, V2.
    rewrite <- quotient_evp, rev_involutive in V1, V2. rewrite (evp_previous (0 :: a1 :: l) Na) in V3, V4. fold P in V1. fold Q in V2. fold P' in V3. fold Q' in V4. fold (num2 rev) in V3. fold (den2 rev) in V4.
    destruct (alive_num _ Al) as [A0 C0]. destruct (alive_num2 _ Al) as [B0 D0]. pose proof (unit_sgnb b) as Ub. pose proof (unit_sgnb ng) as Un. set (s0 := sgnb b * a1 <? 0) in *. pose proof (unit_sgnb s0) as Us.
    rewrite V2, V4. clear V2 V4 V Fl N. clearbody P P' s0. set (A := num rev) in *. set (B := num2 rev) in *. set (C := den rev) in *. set (D := den2 rev) in *. set (e := sgnb b) in *. set (f := sgnb ng) in *. set (h := sgnb s0) in *. clearbody A B C D e f h.
    assert (M : 0 <= C * D) by nia. clear -V1 V3 Ub Un Us Uc A0 B0 M P0 P0'.
    replace (c * (f * C) * (c * D)) with ((c * c) * f * (C * D)) by ring. set (m := C * D) in *. clearbody m.
    assert (EA : Z.abs P = A) by (unfold unit in *; destruct Ub as [-> | ->], Un as [-> | ->], Us as [-> | ->], Uc as [-> | ->]; lia).
    assert (EB : Z.abs P' = B) by (unfold unit in *; destruct Ub as [-> | ->], Us as [-> | ->], Uc as [-> | ->]; lia).
    assert (AB : 0 < A * B) by (apply Z.mul_pos_pos; lia).
    assert (PP : P * P' = f * (A * B)).
    { replace (P * P') with ((e * P) * (e * P')) by (destruct Ub as [-> | ->]; ring). rewrite V1, V3. destruct Us as [-> | ->], Uc as [-> | ->]; ring. }
    rewrite PP. replace (c * c) with 1 by (destruct Uc as [-> | ->]; reflexivity). set (n := A * B) in *. clearbody n. destruct Un as [-> | ->]; lia. }
  destruct (period_core b (0 :: a1 :: l) p y ng nv _ rev c F1 Fa Fp Na Np Pp H Hst Al Uc V Nz) as (R1 & R2 & R3 & R4). fold P Q P' Q' in R2, R3, R4.
  split; [exact R1|]. split; [exact R2|]. split; [exact R3|]. rewrite R4. assert (Sb : sgnb b * a1 <> 0) by (destruct (sgnb_cases b) as [-> | ->]; lia).
  assert (Fl1 : nv = (sgnb b * a1 <? 0) <-> (0 < sgnb b * a1 \/ ~ fell (0 :: a1 :: l))); [|rewrite Fl1; reflexivity].
  unfold flags0 in Fl. rewrite rev_involutive in Fl. destruct Fl as [(-> & _ & B)|[(-> & _ & _ & B)|[(-> & B)|F]]].
  - split; [|reflexivity]. intros _. right. intros (i & j & Hij & A & _). apply (B i); [lia|exact A].
  - split; [|reflexivity]. intros _. right. exact B.
  - destruct (Z.ltb_spec (sgnb b * a1) 0) as [L|L].
    + split; [discriminate|]. intros [K|K]; [lia|]. exfalso. exact (K B).
    + split; [|reflexivity]. intros _. left. lia.
  - exfalso. apply P0. lia.
Qed.
End Per.

Lemma new_period_outcome g b a0 l p : a0 <> 0 -> (forall n, (n <= length l)%nat -> fst (quotient (firstn n (a0 :: l))) <> 0) -> p <> nil -> List.Forall (fun v => 1 <= v) p ->
  (returns (cf_new g BigI (a0 :: l) p b) /\ forall n, 0 <= a0 * (fst (quotient (firstn n (a0 :: l))) * snd (quotient (firstn n (a0 :: l))))) \/
  (cf_new g BigI (a0 :: l) p b = Panic PUnwrap /\ exists n, a0 * (fst (quotient (firstn n (a0 :: l))) * snd (quotient (firstn n (a0 :: l)))) < 0).
Proof.
  intros N0 N Np Pp. destruct (first_sign b a0 N0) as [Fs Fp].
  assert (E1 : exists st1, new_step g BigI (NSt b None nil) a0 = Ok st1).
  { unfold new_step. destruct (flip_total b a0) as (a' & -> & _). cbn [bind]. destruct (a' <? 0); eexists; reflexivity. }
  destruct E1 as [st1 E1]. pose proof (inv_start g BigI b a0 st1 N0 E1) as I1. set (s0 := sgnb b * a0 <? 0) in *.
  destruct (loop_outcome g b s0 l [a0] st1 I1) as [[st R]|(R & n & Q)].
  - intros n Hn. apply (N (Datatypes.S n)). lia.
  - left. assert (H : new_loop g BigI (NSt b None nil) (a0 :: l) = Ok st) by (cbn [new_loop]; rewrite E1; exact R).
    split.
    { destruct (new_inv g BigI b a0 l st N0 N H) as (ng & nv & rev & c & -> & [_ Ga] & _). unfold cf_new. rewrite H. cbn [bind s_rev s_negative s_negate].
      destruct p as [|p0 p]; [congruence|].
      assert (K : returns (let! a' := mapM (to_unsigned BigI) (List.rev rev) in let! p' := mapM (to_unsigned BigI) (p0 :: p) in Ok (CF a' p' nv))).
      { rewrite !mapM_total; [eexists; reflexivity|revert Pp; apply Forall_impl; intros; lia|apply Forall_rev; apply goodA_nonneg; auto]. }
      destruct rev; exact K. }
    intros n. pose proof (new_prefix g BigI b a0 l st n N0 N H) as K. fold s0 in K.
    set (P := fst _) in *. set (Q := snd (quotient (firstn n (a0 :: l)))) in *. clearbody P Q s0. rewrite Fs.
    replace (sgnb b * sgnb s0 * Z.abs a0 * (P * Q)) with (Z.abs a0 * (sgnb s0 * (sgnb b * P * Q))) by ring. nia.
  - right. split; [unfold cf_new; cbn [new_loop]; rewrite E1; cbn [bind]; rewrite R; reflexivity|]. exists (Datatypes.S n). cbn [firstn]. cbn [List.rev app] in Q.
    cbv zeta in Q. set (P := fst _) in *. set (Q' := snd (quotient (a0 :: firstn n l))) in *. clearbody P Q' s0. rewrite Fs.
    replace (sgnb b * sgnb s0 * Z.abs a0 * (P * Q')) with (Z.abs a0 * (sgnb s0 * (sgnb b * P * Q'))) by ring. nia.
Qed.

Lemma new_period0_outcome g b a1 l p : a1 <> 0 -> (forall n, (2 <= n <= S (length l))%nat -> fst (quotient (firstn n (0 :: a1 :: l))) <> 0) -> p <> nil -> List.Forall (fun v => 1 <= v) p ->
  (returns (cf_new g BigI (0 :: a1 :: l) p b) /\ forall n, 0 <= a1 * (fst (quotient (firstn n (0 :: a1 :: l))) * snd (quotient (firstn n (0 :: a1 :: l))))) \/
  (cf_new g BigI (0 :: a1 :: l) p b = Panic PUnwrap /\ exists n, a1 * (fst (quotient (firstn n (0 :: a1 :: l))) * snd (quotient (firstn n (0 :: a1 :: l)))) < 0).
Proof.
  intros N0 N Np Pp. destruct (first_sign b a1 N0) as [Fs Fp].
  assert (E1 : exists st1, new_loop g BigI (NSt b None nil) [0; a1] = Ok st1).
  { assert (S0 : new_step g BigI (NSt b None nil) 0 = Ok (NSt b None [0])) by (unfold new_step; destruct b; reflexivity).
    cbn [new_loop]. rewrite S0. cbn [bind]. unfold new_step. destruct (flip_total b a1) as (a' & -> & _). cbn [bind]. change (0 =? 0) with true. cbv iota.
    destruct (a' =? 0); [eexists; reflexivity|]. destruct (a' <? 0); [|eexists; reflexivity].
    cbn [new_absorb]. rewrite dassert_true by reflexivity. eexists; reflexivity. }
  destruct E1 as [st1 E1]. pose proof (inv0_start g BigI b a1 st1 N0 E1) as I1. set (s0 := sgnb b * a1 <? 0) in *.
  assert (App : new_loop g BigI (NSt b None nil) (0 :: a1 :: l) = new_loop g BigI st1 l) by (change (0 :: a1 :: l) with ([0; a1] ++ l); rewrite new_loop_app, E1; reflexivity).
  destruct (loop0_outcome g b s0 l [a1; 0] st1 I1 ltac:(discriminate)) as [[st R]|(R & n & Q)].
  - intros n Hn. apply (N (Datatypes.S (Datatypes.S n))). lia.
  - left. assert (H : new_loop g BigI (NSt b None nil) (0 :: a1 :: l) = Ok st) by (rewrite App; exact R).
    split.
    { destruct (new_inv0 g BigI b a1 l st N0 N H) as (ng & nv & rev & c & -> & [_ Ga] & _). unfold cf_new. rewrite H. cbn [bind s_rev s_negative s_negate].
      destruct p as [|p0 p]; [congruence|].
      assert (K : returns (let! a' := mapM (to_unsigned BigI) (List.rev rev) in let! p' := mapM (to_unsigned BigI) (p0 :: p) in Ok (CF a' p' nv))).
      { rewrite !mapM_total; [eexists; reflexivity|revert Pp; apply Forall_impl; intros; lia|apply Forall_rev; apply goodA_nonneg; auto]. }
      destruct rev; exact K. }
    intros n. pose proof (new_prefix0 g BigI b a1 l st n N0 N H) as K. fold s0 in K.
    set (P := fst _) in *. set (Q := snd (quotient (firstn n (0 :: a1 :: l)))) in *. clearbody P Q s0. rewrite Fs.
    replace (sgnb b * sgnb s0 * Z.abs a1 * (P * Q)) with (Z.abs a1 * (sgnb s0 * (sgnb b * P * Q))) by ring. nia.
  - right. split; [unfold cf_new; rewrite App, R; reflexivity|]. exists (Datatypes.S (Datatypes.S n)). cbn [firstn]. cbn [List.rev app] in Q.
    cbv zeta in Q. set (P := fst _) in *. set (Q' := snd (quotient (0 :: a1 :: firstn n l))) in *. clearbody P Q' s0. rewrite Fs.
    replace (sgnb b * sgnb s0 * Z.abs a1 * (P * Q')) with (Z.abs a1 * (sgnb s0 * (sgnb b * P * Q'))) by ring. nia.
Qed.
