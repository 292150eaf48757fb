(** * SurdVieta: the formula behind from_equation, sum and product of the two roots, and the way back from a surd to its equation. *)

From Coq Require Import ZArith Znumtheory Reals Lia Lra Bool List Arith.
From Coquelicot Require Import Coquelicot.
From Verif Require Import Base Ext ModelBlock ModelSurd Spec SpecLaw Transfer NumFacts RatioFacts SurdCore SurdArith SurdOrd SurdRound SurdTotal SurdMisc SurdConv SurdLaws SurdRoots ClaimsSurd.
Open Scope Z_scope.

Lemma equation_formula g t a b c s : lowest a -> lowest b -> lowest c -> rval a <> 0%R ->
  surd_from_equation g t a b c = Ok (Some s) ->
  sval s = ((rcsqrt (rval b * rval b - 4 * rval a * rval c) - qC b) / (RtoC 2 * qC a))%C.
Proof.
  intros La Lb Lc Ha H. pose proof (lowest_okd _ La) as Oa. pose proof (lowest_okd _ Lb) as Ob. pose proof (lowest_okd _ Lc) as Oc.
  apply rle_surd_from_equation in H. unfold surd_from_equation in H.
  unfold ratio_is_zero in H. destruct (Z.eqb_spec (numer a) 0) as [Ea|Ea]; [exfalso; apply Ha; apply rval_zero; auto|].
  autorewrite with bigi in H. stepH H. apply ratio_mul_ok in E; auto. destruct E as (V1 & L1).
  destruct (ratio_of_spec ((1 + 1) * (1 + 1))) as [Vf Lf]. destruct (ratio_of_spec (1 + 1)) as [Vt Lt].
  stepH H. apply ratio_mul_ok in E; auto. destruct E as (V2 & L2).
  stepH H. apply ratio_mul_ok in E; auto. destruct E as (V3 & L3).
  stepH H. apply ratio_sub_ok in E; auto. destruct E as (V4 & L4).
  destruct (negb (cplx g) && ratio_is_negative a3); [discriminate|].
  stepH H. apply ratio_mul_ok in E; auto. destruct E as (V5 & L5).
  stepH H. apply ratio_neg_ok in E; auto. destruct E as (V6 & L6 & O6).
  stepH H. apply ratio_recip_ok in E; auto. destruct E as (_ & V7 & L7 & O7).
  stepH H. apply ratio_mul_ok in E; auto. destruct E as (V8 & L8).
  stepH H. apply surd_from_rationals_ok in E; auto; [|apply L4]. inversion H; subst. clear H.
  destruct E as (V & N). rewrite Vt in V5. rewrite Vf in V2. rewrite V1, V3, V2 in V4. rewrite V5 in V7. rewrite V6, V7 in V8.
  assert (Ef : IZR ((1 + 1) * (1 + 1)) = 4%R) by reflexivity. assert (Et : IZR (1 + 1) = 2%R) by reflexivity. rewrite Ef in *. rewrite Et in *.
  unfold qC in *. rewrite V8, V7 in V. rewrite <- V4. set (w := rcsqrt (rval a3)) in *.
  set (A := rval a) in *. set (B := rval b) in *. rewrite V.
  replace (RtoC (- B * / (2 * A))) with (- RtoC B / (RtoC 2 * RtoC A))%C.
  2:{ rewrite <- RtoC_opp, <- RtoC_mult, <- RtoC_div by lra. reflexivity. }
  replace (RtoC (/ (2 * A))) with (/ (RtoC 2 * RtoC A))%C.
  2:{ rewrite <- RtoC_mult, <- RtoC_inv by lra. reflexivity. }
  field. split; intros X; apply RtoC_inj in X; lra.
Qed.

Lemma rcsqrt_scale k r : (0 <= k)%R -> rcsqrt (k * k * IZR r) = (RtoC k * csqrt r)%C.
Proof.
  intros Hk. rewrite <- rcsqrt_IZR. unfold rcsqrt. destruct (Req_dec k 0) as [->|E].
  - rewrite Rmult_0_l, Rmult_0_l. destruct (Rlt_dec 0 0); [lra|]. rewrite sqrt_0. destruct (Rlt_dec (IZR r) 0); unfold Cmult, RtoC; cbn [fst snd]; f_equal; ring.
  - assert (K : (0 < k * k)%R) by nra. destruct (Rlt_dec (IZR r) 0) as [L|L]; destruct (Rlt_dec (k * k * IZR r) 0) as [M|M]; try nra.
    + replace (- (k * k * IZR r))%R with (k * k * - IZR r)%R by ring. rewrite sqrt_mult by nra. rewrite sqrt_square by auto.
      unfold Cmult, RtoC; cbn [fst snd]; f_equal; ring.
    + rewrite sqrt_mult by nra. rewrite sqrt_square by auto. apply RtoC_mult.
Qed.

Lemma sconj_fval s : sconj s = fval (c0 (coeffs s)) (- c1 (coeffs s)) (c2 (coeffs s)) (discr s).
Proof. unfold sconj, parts, fval. rewrite ZtoC_opp. f_equal. ring. Qed.

(** trace and norm *)
Lemma two_C : RtoC 2 = ZtoC 2. Proof. reflexivity. Qed.

Lemma back_root g t s nb n s' : normal g s -> lowest nb -> lowest n -> qC nb = (- (sval s + sconj s))%C -> qC n = (sval s * sconj s)%C ->
  surd_from_equation g t (Ratio 1 1) nb n = Ok (Some s') ->
  sval s' = if 0 <=? c1 (coeffs s) then sval s else sconj s.
Proof.
  intros N Lb Ln Hb Hn H. assert (L1 : lowest (Ratio 1 1)) by (split; cbn; lia).
  assert (R1 : rval (Ratio 1 1) = 1%R) by (unfold rval; cbn; lra).
  rewrite (equation_formula g t _ nb n s' L1 Lb Ln ltac:(rewrite R1; lra) H).
  pose proof N as (Hc & _). destruct s as [[a b c] r]. unfold parts in Hc. cbn [coeffs c0 c1 c2 discr] in *.
  assert (C0 : IZR c <> 0%R) by (apply not_0_IZR; lia). assert (Cp : (0 < IZR c)%R) by (apply IZR_lt; lia).
  rewrite sval_fval, sconj_fval in Hb, Hn |- *. cbn [coeffs c0 c1 c2 discr] in *.
  assert (ZC : ZtoC c <> RtoC 0) by (apply ZtoC_neq0; lia).
  assert (Vb : rval nb = (- (2 * IZR a / IZR c))%R).
  { apply RtoC_inj. unfold qC in Hb. rewrite Hb. unfold fval. rewrite ZtoC_opp, RtoC_opp, RtoC_div, RtoC_mult by auto. fold (ZtoC a) (ZtoC c).
    rewrite two_C. change (ZtoC 2) with (ZtoC (1 + 1)). rewrite ZtoC_add, ZtoC_1. field. auto. }
  assert (Vn : rval n = ((IZR a * IZR a - IZR b * IZR b * IZR r) / (IZR c * IZR c))%R).
  { apply RtoC_inj. unfold qC in Hn. rewrite Hn. unfold fval. rewrite ZtoC_opp. rewrite RtoC_div, RtoC_minus, !RtoC_mult by (apply Rmult_integral_contrapositive; auto).
    fold (ZtoC a) (ZtoC b) (ZtoC c) (ZtoC r). rewrite <- (csqrt_sq r). field. auto. }
  rewrite R1, Vn. unfold qC. rewrite R1, Vb.
  replace (- (2 * IZR a / IZR c) * - (2 * IZR a / IZR c) - 4 * 1 * ((IZR a * IZR a - IZR b * IZR b * IZR r) / (IZR c * IZR c)))%R
    with ((2 * IZR (Z.abs b) / IZR c) * (2 * IZR (Z.abs b) / IZR c) * IZR r)%R.
  2:{ rewrite abs_IZR. replace (2 * Rabs (IZR b) / IZR c * (2 * Rabs (IZR b) / IZR c))%R with (4 * (Rabs (IZR b) * Rabs (IZR b)) / (IZR c * IZR c))%R by (field; auto).
      rewrite <- Rabs_mult, Rabs_pos_eq by apply Rle_0_sqr. field. auto. }
  rewrite rcsqrt_scale.
  2:{ apply Rmult_le_pos; [|left; apply Rinv_0_lt_compat; auto]. apply Rmult_le_pos; [lra|]. apply IZR_le. lia. }
  rewrite RtoC_opp, !RtoC_div, !RtoC_mult by auto. fold (ZtoC a) (ZtoC (Z.abs b)) (ZtoC c).
  assert (Z2 : RtoC 2 <> RtoC 0) by (intros X; apply RtoC_inj in X; lra).
  destruct (Z.leb_spec 0 b) as [B|B].
  - rewrite Z.abs_eq by auto. unfold fval. field. auto.
  - rewrite Z.abs_neq by lia. unfold fval. field. auto.
Qed.

Lemma vieta g t a b c s : lowest a -> lowest b -> lowest c -> surd_from_equation g t a b c = Ok (Some s) -> ~ rational_num (sval s) ->
  (sval s + sconj s = - (qC b / qC a))%C /\ (sval s * sconj s = qC c / qC a)%C /\ qC a <> RtoC 0 /\ sconj s <> sval s.
Proof.
  intros La Lb Lc H I. destruct (surd_from_equation_ok g t a b c s La Lb Lc H) as (N & E & _).
  assert (A0 : rval a <> 0%R).
  { intros A0. apply I. pose proof (lowest_okd _ La) as Oa. pose proof (lowest_okd _ Lb) as Ob. pose proof (lowest_okd _ Lc) as Oc.
    apply rle_surd_from_equation in H. unfold surd_from_equation, ratio_is_zero in H. destruct (Z.eqb_spec (numer a) 0) as [Ea|Ea]; [|exfalso; apply Ea; apply rval_zero; auto].
    destruct (numer b =? 0); [discriminate|]. stepH H. apply ratio_neg_ok in E0; auto. stepH H. apply ratio_div_ok in E1; [|tauto|auto]. inversion H; subst.
    rewrite (proj1 (surd_of_ratio_spec g a1 ltac:(tauto))). apply qC_rational. tauto. }
  assert (Ac : qC a <> RtoC 0) by (unfold qC; intros X; apply RtoC_inj in X; auto).
  pose proof (normal_okc _ _ N) as Hc. unfold okc in Hc. assert (Hr : ~ square (discr s)).
  { apply (normal_irr_ns g s N). destruct (is_rational s) eqn:K; [|auto]. exfalso. apply I. apply (normal_is_rational g s N). auto. }
  assert (B0 : c1 (coeffs s) <> 0).
  { intros B0. apply I. rewrite sval_fval, B0, fval_b0. exists (c0 (coeffs s)), (c2 (coeffs s)). auto. }
  rewrite sconj_fval, sval_fval in *. set (x := c0 (coeffs s)) in *. set (y := c1 (coeffs s)) in *. set (z := c2 (coeffs s)) in *. set (r := discr s) in *.
  assert (Zz : ZtoC z <> RtoC 0) by (apply ZtoC_neq0; auto).
  pose proof (lowest_okd _ La) as Oa. pose proof (lowest_okd _ Lb) as Ob. pose proof (lowest_okd _ Lc) as Oc.
  rewrite !qC_eq in * by auto.
  set (a1 := numer a) in *. set (a2 := denom a) in *. set (b1 := numer b) in *. set (b2 := denom b) in *. set (d1 := numer c) in *. set (d2 := denom c) in *.
  assert (Za : ZtoC a2 <> RtoC 0) by (apply ZtoC_neq0; exact Oa). assert (Zb : ZtoC b2 <> RtoC 0) by (apply ZtoC_neq0; exact Ob). assert (Zc : ZtoC d2 <> RtoC 0) by (apply ZtoC_neq0; exact Oc).
  assert (Zy : ZtoC y <> RtoC 0) by (apply ZtoC_neq0; auto).
  assert (Za1 : ZtoC a1 <> RtoC 0). { intros X. apply Ac. rewrite X. field. auto. }
  assert (K : (ZtoC (a1 * (x * x + y * y * r) * b2 * d2 + b1 * x * z * a2 * d2 + d1 * z * z * a2 * b2) + ZtoC (a1 * 2 * x * y * b2 * d2 + b1 * y * z * a2 * d2) * csqrt r = RtoC 0)%C).
  { transitivity ((ZtoC a1 / ZtoC a2 * (fval x y z r * fval x y z r) + ZtoC b1 / ZtoC b2 * fval x y z r + ZtoC d1 / ZtoC d2) * (ZtoC z * ZtoC z * ZtoC a2 * ZtoC b2 * ZtoC d2))%C.
    - unfold fval. repeat rewrite ?ZtoC_add, ?ZtoC_mul. rewrite <- (csqrt_sq r) at 1. change (ZtoC 2) with (ZtoC (1 + 1)). rewrite ZtoC_add, ZtoC_1. field. auto.
    - rewrite E. ring. }
  apply csqrt_indep in K; auto. destruct K as [K1 K2].
  assert (T : 2 * a1 * x * b2 + b1 * z * a2 = 0). { assert (y * d2 * (2 * a1 * x * b2 + b1 * z * a2) = 0) by lia. apply Z.mul_eq_0 in H0. destruct H0 as [H0|H0]; [|auto]. apply Z.mul_eq_0 in H0. unfold okd in Oc. fold d2 in Oc. lia. }
  assert (Nm : a1 * (x * x - y * y * r) * d2 = d1 * z * z * a2).
  { assert (b2 * (a1 * (x * x - y * y * r) * d2 - d1 * z * z * a2) = 0).
    { replace (b2 * (a1 * (x * x - y * y * r) * d2 - d1 * z * z * a2)) with
        (x * d2 * (2 * a1 * x * b2 + b1 * z * a2) - (a1 * (x * x + y * y * r) * b2 * d2 + b1 * x * z * a2 * d2 + d1 * z * z * a2 * b2)) by ring. rewrite T, K1. ring. }
    apply Z.mul_eq_0 in H0. unfold okd in Ob. fold b2 in Ob. destruct H0; lia. }
  apply (f_equal ZtoC) in T, Nm. rewrite !ZtoC_add, !ZtoC_mul in T. repeat rewrite ?ZtoC_mul, ?ZtoC_sub in Nm. change (ZtoC 2) with (RtoC 2) in T. change (ZtoC 0) with (RtoC 0) in T.
  assert (D : fval x (- y) z r <> fval x y z r).
  { intros D. unfold fval in D. rewrite ZtoC_opp in D. assert (K : (ZtoC 0 + ZtoC (2 * y) * csqrt r = RtoC 0)%C).
    { transitivity (ZtoC z * ((ZtoC x + ZtoC y * csqrt r) / ZtoC z - (ZtoC x + - ZtoC y * csqrt r) / ZtoC z))%C.
      - change (2 * y) with ((1 + 1) * y). rewrite ZtoC_mul, ZtoC_add, ZtoC_1. change (ZtoC 0) with (RtoC 0). field. auto.
      - rewrite D. ring. }
    apply csqrt_indep in K; auto. lia. }
  unfold fval in D |- *. rewrite ZtoC_opp in D |- *. split; [|split; [|split; [exact Ac|exact D]]].
  - assert (T' : (ZtoC b1 * ZtoC z * ZtoC a2 = - (RtoC 2 * ZtoC a1 * ZtoC x * ZtoC b2))%C).
    { transitivity (RtoC 2 * ZtoC a1 * ZtoC x * ZtoC b2 + ZtoC b1 * ZtoC z * ZtoC a2 - RtoC 2 * ZtoC a1 * ZtoC x * ZtoC b2)%C; [ring|]. rewrite T. ring. }
    transitivity (- ((ZtoC b1 * ZtoC z * ZtoC a2) / (ZtoC b2 * ZtoC a1 * ZtoC z)))%C; [|field; auto]. rewrite T'. rewrite two_C. change (ZtoC 2) with (ZtoC (1 + 1)). rewrite ZtoC_add, ZtoC_1. field. auto.
  - transitivity (ZtoC d1 * ZtoC z * ZtoC z * ZtoC a2 / (ZtoC d2 * ZtoC a1 * ZtoC z * ZtoC z))%C; [|field; auto].
    rewrite <- Nm, <- (csqrt_sq r). field. auto.
Qed.

Lemma surd_conj_normal g t s s' : normal g s -> surd_conj t s = Ok s' -> sval s' = sconj s /\ normal g s'.
Proof. intros N H. apply surd_conj_ok in H. destruct H as [V P]. split; [auto|]. apply (normal_conj g s); auto. Qed.

Lemma conj_imaginary g s : normal g s -> imaginary (sval s) -> imaginary (sconj s).
Proof.
  intros N [I1 I2]. pose proof (normal_okc _ _ N) as Hc. unfold okc in Hc. rewrite sconj_fval. rewrite sval_fval in I1, I2.
  destruct s as [[a b c] r]. cbn [coeffs c0 c1 c2 discr] in *. assert (C0 : IZR c <> 0%R) by (apply not_0_IZR; auto).
  assert (E : forall y, fval a y c r = ((RtoC (IZR a) + RtoC (IZR y) * rcsqrt (IZR r)) * RtoC (/ IZR c))%C).
  { intros y. unfold fval, ZtoC, Cdiv. rewrite rcsqrt_IZR, RtoC_inv by auto. reflexivity. }
  rewrite E in *. clear E. unfold rcsqrt in *. destruct (Rlt_dec (IZR r) 0) as [L|L]; unfold imaginary, Cmult, Cplus, RtoC in *; cbn [fst snd] in *.
  - rewrite opp_IZR. split; [etransitivity; [|exact I1]; ring|]. intros X. apply I2. apply Ropp_eq_0_compat in X. etransitivity; [|exact X]. ring.
  - exfalso. apply I2. ring.
Qed.
