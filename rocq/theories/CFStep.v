(** * CFStep: splitting off the integer part and inverting the rest drops one coefficient; fractions of rationals. *)

From Coq Require Import ZArith Reals Lia Lra Bool List Arith.
From Coquelicot Require Import Coquelicot.
From Verif Require Import Base Ext ModelBlock ModelSurd ModelCF ModelConv Spec SpecCF NumFacts RatioFacts SurdCore SurdArith SurdOrd SurdRound SurdTotal SurdMisc SurdRoots CFCore CFSeq CFIter CFBasic CFRound CFShort CFArith CFOfSurd CFWide ClaimsSurd ClaimsCF ClaimsApi.
Import ListNotations.
Open Scope Z_scope.

Lemma rr_Z n : rational_real (IZR n).
Proof. exists n, 1. split; [lia|]. field. Qed.
Lemma rr_add x y : rational_real x -> rational_real y -> rational_real (x + y).
Proof. intros Hx Hy. replace (x + y)%R with (x - (0 - y))%R by ring. apply rr_sub; auto. apply rr_sub; auto. apply rr_Z. Qed.
Lemma rr_mul x y : rational_real x -> rational_real y -> rational_real (x * y).
Proof.
  intros Hx Hy. destruct (Req_dec y 0) as [->|E]; [rewrite Rmult_0_r; apply rr_Z|].
  replace (x * y)%R with (x / (1 / y))%R by (field; auto). apply rr_div; auto; [apply rr_div; auto; apply rr_Z|].
  unfold Rdiv. rewrite Rmult_1_l. apply Rinv_neq_0_compat; auto.
Qed.

Lemma conjugate_irr x xc : conjugate x xc -> ~ rational_real xc.
Proof. intros (I & S & _) R. apply I. replace x with (x + xc - xc)%R by ring. apply rr_sub; auto. Qed.

Lemma conjugate_step x xc n : conjugate x xc -> conjugate (/ (x - IZR n)) (/ (xc - IZR n)).
Proof.
  intros C. pose proof (conjugate_irr x xc C) as Ic. destruct C as (I & S & P).
  assert (Dx : (x - IZR n <> 0)%R). { intros E. apply I. replace x with (IZR n) by lra. apply rr_Z. }
  assert (Dc : (xc - IZR n <> 0)%R). { intros E. apply Ic. replace xc with (IZR n) by lra. apply rr_Z. }
  assert (Q : rational_real ((x - IZR n) * (xc - IZR n))).
  { replace ((x - IZR n) * (xc - IZR n))%R with (x * xc - IZR n * (x + xc) + IZR n * IZR n)%R by ring.
    apply rr_add; [|apply rr_mul; apply rr_Z]. apply rr_sub; auto. apply rr_mul; auto. apply rr_Z. }
  assert (Q0 : ((x - IZR n) * (xc - IZR n) <> 0)%R) by (apply Rmult_integral_contrapositive; auto).
  split; [|split].
  - intros R. apply I. replace x with (1 / (/ (x - IZR n)) + IZR n)%R by (unfold Rdiv; rewrite Rmult_1_l, Rinv_inv; ring). apply rr_add; [|apply rr_Z]. apply rr_div; auto; [apply rr_Z|].
    apply Rinv_neq_0_compat; auto.
  - replace (/ (x - IZR n) + / (xc - IZR n))%R with ((x + xc - (IZR n + IZR n)) / ((x - IZR n) * (xc - IZR n)))%R by (field; auto).
    apply rr_div; auto. apply rr_sub; auto. apply rr_add; apply rr_Z.
  - replace (/ (x - IZR n) * / (xc - IZR n))%R with (1 / ((x - IZR n) * (xc - IZR n)))%R by (field; auto). apply rr_div; auto. apply rr_Z.
Qed.

Lemma domain_step x n : (0 < x)%R -> isfloor x n -> cf_domain x -> cf_domain (/ (x - IZR n)).
Proof.
  intros Px F (xc & C & m & Fm & B & _). rewrite Rabs_pos_eq in Fm by lra. pose proof (isfloor_unique x m n Fm F) as ->. specialize (B ltac:(lra)).
  exists (/ (xc - IZR n)). pose proof (conjugate_step x xc n C) as C'. split; [auto|].
  assert (I : x <> IZR n). { intros ->. apply (proj1 C). apply rr_Z. }
  unfold isfloor in F. assert (Py : (1 < / (x - IZR n))%R). { rewrite <- Rinv_1. apply Rinv_lt_contravar; lra. }
  assert (Nc : (/ (xc - IZR n) < 0)%R) by (apply Rinv_lt_0_compat; lra).
  destruct (archimed (/ (x - IZR n))) as [A1 A2]. exists (up (/ (x - IZR n)) - 1). rewrite Rabs_pos_eq by lra. unfold isfloor. rewrite minus_IZR.
  assert (K : 1 <= up (/ (x - IZR n)) - 1). { assert (1 < up (/ (x - IZR n))) by (apply lt_IZR; lra). lia. }
  apply IZR_le in K. rewrite minus_IZR in K. split; [lra|]. split; intros; lra.
Qed.

Lemma step_tail X Y x n : wfcf X -> ~ finite X -> cf_val X = x -> wfcf Y -> ~ finite Y -> (0 < x)%R -> isfloor x n -> cf_val Y = (/ (x - IZR n))%R ->
  negative X = false /\ negative Y = false /\ coeff_at X 0 = Some n /\ forall k, coeff_at Y k = coeff_at X (S k).
Proof.
  intros WX FX VX WY FY Px F VY. rewrite (cf_val_inf X FX) in VX. rewrite (cf_val_inf Y FY) in VY.
  pose proof (wfcf_cpos X WX) as CX. pose proof (wfcf_cpos Y WY) as CY. pose proof (cpos_shift _ CX) as CS.
  assert (Pos : forall f, cpos f -> (0 < lim f)%R).
  { intros f Cf. rewrite lim_step by auto. pose proof (lim_gt1_shift _ Cf). assert (0 < / lim (shift f))%R by (apply Rinv_0_lt_compat; lra).
    pose proof (proj1 Cf) as C0. apply IZR_le in C0. lra. }
  pose proof (Pos _ CX). pose proof (Pos _ CY). pose proof (lim_gt1_shift _ CX) as G. pose proof (lim_step _ CX) as E.
  assert (NX : negative X = false). { destruct (negative X); [|auto]. cbn [sgnb] in VX. lra. }
  rewrite NX in VX. cbn [sgnb] in VX. rewrite Rmult_1_l in VX.
  assert (Pi : (0 < / lim (shift (cseq X)) < 1)%R). { split; [apply Rinv_0_lt_compat; lra|]. rewrite <- Rinv_1. apply Rinv_lt_contravar; lra. }
  assert (En : n = cseq X 0). { apply (isfloor_unique x); auto. unfold isfloor. lra. }
  assert (Ey : (/ (x - IZR n))%R = lim (shift (cseq X))).
  { subst n. replace (x - IZR (cseq X 0))%R with (/ lim (shift (cseq X)))%R by lra. apply Rinv_inv. }
  assert (NY : negative Y = false). { destruct (negative Y); [|auto]. cbn [sgnb] in VY. lra. }
  rewrite NY in VY. cbn [sgnb] in VY. rewrite Rmult_1_l in VY.
  split; [auto|]. split; [auto|]. rewrite coeff_cseq by auto. split; [congruence|]. intros k. rewrite !coeff_cseq by auto. f_equal.
  change (cseq X (S k)) with (shift (cseq X) k). apply (lim_inj k); auto. congruence.
Qed.

Lemma step_value g t s x v d r : normal g s -> sval s = RtoC x -> ~ rational_real x -> surd_floor g t s = Ok v -> surd_sub g t s v = Ok d -> surd_recip g t d = Ok r ->
  exists n, v = surd_of_int n /\ isfloor x n /\ normal g r /\ sval r = RtoC (/ (x - IZR n)).
Proof.
  intros N V I Hv Hd Hr. destruct (floor_is g t s x v N V Hv) as (n & -> & F). exists n. split; [auto|]. split; [auto|].
  destruct (surd_of_int_spec g n) as [Vn Nn]. apply surd_sub_ok in Hd; auto using normal_wf. destruct Hd as [Vd Nd].
  apply surd_recip_ok in Hr; [|apply (normal_okc g); auto]. destruct Hr as (D0 & Vr & Nr). split; [auto|].
  rewrite Vr, Vd, V, Vn. unfold ZtoC. rewrite <- RtoC_minus, RtoC_inv; auto.
  intros E. apply I. replace x with (IZR n) by lra. apply rr_Z.
Qed.

(** ** Fractions of rational numbers *)

Lemma canonical_of_ratio t z s w : canonical z -> lowest s -> cf_of_ratio t s = Ok w -> cf_val z = rval s -> z = w.
Proof.
  intros C L Hw V. destruct (cf_of_ratio_ok t s w L Hw) as (Cw & Fw & Vw).
  assert (Fz : finite z). { destruct (p_coeffs z) eqn:P; [exact P|]. exfalso. apply (fin_inf_differ w z (proj1 Cw) (proj1 C) Fw); [unfold finite; rewrite P; discriminate|congruence]. }
  apply L_C30_unique; auto. congruence.
Qed.

Lemma ratio_sized t u p x : lowest p -> ratio_sfit u p -> cf_of_ratio t p = Ok x -> wfcf x /\ finite x /\ cf_val x = rval p /\ surd_sized u x.
Proof.
  intros L S H. destruct (cf_of_ratio_ok t p x L H) as (C & F & V). split; [apply C|]. split; [auto|]. split; [auto|]. split; [|intros K; contradiction].
  intros _ r Lr Vr. assert (r = p) as -> by (apply lowest_unique; auto; congruence). auto.
Qed.
