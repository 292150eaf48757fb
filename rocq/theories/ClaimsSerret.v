(** * ClaimsSerret: proofs of the property theorems in PropsSerret.v. *)

From Coq Require Import ZArith Reals Lia Lra Bool List Arith.
From Coquelicot Require Import Coquelicot.
From Verif Require Import Base Ext ModelSurd ModelBlock ModelCF ModelConv ModelGen Spec SpecCF SpecGen SpecSerret NumFacts SurdCore SurdArith SurdMisc SurdDecide CFPeriod CFShort CFArith CFAny GenSound GenStored ClaimsSurd ClaimsApi CFSerret GenSerret.
From Verif Require Import CFCore CFSeq.
Import ListNotations.
Open Scope Z_scope.

Lemma uni_equiv x y : irr x -> (uni x y <-> equivalent x y).
Proof.
  intros I. split; intros (a & b & c & d & D & E); exists a, b, c, d; (split; [exact D|]);
    (assert (N : (IZR c * x + IZR d)%R <> 0%R) by (intros Z; apply (irr_lin _ _ _ I) in Z; destruct Z as [-> ->]; lia)).
  - rewrite <- E. field. exact N.
  - rewrite E. field. exact N.
Qed.

Lemma equiv_eqv x y : irr x -> irr y -> (equivalent x y <-> eqv x y).
Proof. intros I J. rewrite <- (uni_equiv x y I). split; [apply uni_eqv; auto|apply eqv_uni; auto]. Qed.

Lemma L_C99_fractions : forall x y, wfcf x -> wfcf y -> ~ finite x -> ~ finite y -> (equivalent (cf_val x) (cf_val y) <-> same_tail x y).
Proof. intros x y Wx Wy Fx Fy. rewrite (equiv_eqv _ _ (cf_irr x Wx Fx) (cf_irr y Wy Fy)). apply eqv_tails; auto. Qed.

Lemma L_C99_surds : forall g h t u fuel fuel' s r v w x y, fits t 1 = true -> fits u 1 = true -> normal g s -> normal h r -> sval s = RtoC v -> sval r = RtoC w ->
  cf_domain v -> cf_domain w -> surd_to_cf g t fuel s = Ok (Some x) -> surd_to_cf h u fuel' r = Ok (Some y) ->
  (equivalent v w <-> rotation (p_coeffs x) (p_coeffs y)).
Proof.
  intros g h t u fuel fuel' s r v w x y F1 F2 Ns Nr Vs Vr Dv Dw Hx Hy.
  destruct (surd_to_cf_dom g t fuel s v x F1 Ns Vs Dv Hx) as ((Wx & _) & Fx & Ex). destruct (surd_to_cf_dom h u fuel' r w y F2 Nr Vr Dw Hy) as ((Wy & _) & Fy & Ey).
  rewrite <- Ex at 1. rewrite <- Ey at 1. rewrite (equiv_eqv _ _ (cf_irr x Wx Fx) (cf_irr y Wy Fy)), eqv_tails by auto. apply tails_rot; auto.
  - intros z Wz Fz Ez. apply (surd_to_cf_short g t fuel s v x F1 Ns Vs Dv Hx z Wz Fz). congruence.
  - intros z Wz Fz Ez. apply (surd_to_cf_short h u fuel' r w y F2 Nr Vr Dw Hy z Wz Fz). congruence.
Qed.

Lemma L_C99_operations : forall g t t' u fuel fuel' s r k v w x y, fits t 1 = true -> fits u 1 = true -> normal g s -> sval s = RtoC v -> sval r = RtoC w ->
  surd_neg t' s = Ok r \/ surd_recip g t' s = Ok r \/ surd_add_int g t' s k = Ok r \/ surd_sub_int g t' s k = Ok r ->
  cf_domain v -> cf_domain w -> surd_to_cf g t fuel s = Ok (Some x) -> surd_to_cf g u fuel' r = Ok (Some y) ->
  rotation (p_coeffs x) (p_coeffs y).
Proof.
  intros g t t' u fuel fuel' s r k v w x y F1 F2 Ns Vs Vr H Dv Dw Hx Hy. pose proof (normal_okc g s Ns) as Oc.
  assert (K : normal g r /\ equivalent v w).
  { destruct H as [H|[H|[H|H]]].
    - apply surd_neg_ok in H. destruct H as [E Pn]. split; [exact (normal_neg g s r Ns Pn)|]. rewrite Vs, Vr, <- RtoC_opp in E. apply RtoC_inj in E.
      exists (-1), 0, 0, 1. split; [reflexivity|]. rewrite E. field.
    - apply surd_recip_ok in H; [|exact Oc]. destruct H as (Nz & E & N). split; [exact N|].
      assert (Vn : v <> 0%R) by (intros Z; apply Nz; rewrite Vs, Z; reflexivity). rewrite Vs, Vr, <- RtoC_inv in E by exact Vn. apply RtoC_inj in E.
      exists 0, 1, 1, 0. split; [reflexivity|]. rewrite E. field. exact Vn.
    - apply surd_add_int_ok in H; auto. destruct H as [E N]. split; [exact N|]. rewrite Vs, Vr in E. unfold ZtoC in E. rewrite <- RtoC_plus in E. apply RtoC_inj in E.
      exists 1, k, 0, 1. split; [rewrite Z.mul_0_r; reflexivity|]. rewrite E. field.
    - apply surd_sub_int_ok in H; auto. destruct H as [E N]. split; [exact N|]. rewrite Vs, Vr in E. unfold ZtoC in E. rewrite <- RtoC_minus in E. apply RtoC_inj in E.
      exists 1, (- k), 0, 1. split; [rewrite Z.mul_0_r; reflexivity|]. rewrite E, opp_IZR. field. }
  destruct K as [Nr K]. apply (L_C99_surds g g t u fuel fuel' s r v w x y); auto.
Qed.

Lemma L_C99_homo : forall I (inext : I -> res (option Z * I)) it f e a b c d, e = 1 \/ e = -1 ->
  yields inext it f -> (forall n, (1 <= n)%nat -> 1 <= e * f n) -> Z.abs (a * d - b * c) = 1 ->
  exists h i j e', (e' = 1 \/ e' = -1) /\ (forall n, h (i + n)%nat = e' * f (j + n)%nat) /\
    (forall n, exists fuel, forall fuel', (fuel <= fuel')%nat -> nth_item (homo_next BigI inext fuel') n (icf_homo it a b c d) = Ok (Some (h n))) /\
    (forall t fuel n v, nth_item (homo_next t inext fuel) n (icf_homo it a b c d) = Ok (Some v) -> v = h n).
Proof. intros I inext it f e a b c d He Y L D. exact (homo_meets inext e it f a b c d He Y L D). Qed.

Lemma L_C99_homo_stored : forall u x a b c d, wfcf x -> ~ finite x -> coeffs_fit u x -> Z.abs (a * d - b * c) = 1 ->
  exists i j e, (e = 1 \/ e = -1) /\
    (forall n v, coeff_at x (j + n) = Some v -> exists fuel, forall fuel', (fuel <= fuel')%nat -> nth_item (homo_next BigI (signed_next u) fuel') (i + n) (icf_homo (cf_coeffs x) a b c d) = Ok (Some (e * v))) /\
    (forall t fuel n v w, coeff_at x (j + n) = Some v -> nth_item (homo_next t (signed_next u) fuel) (i + n) (icf_homo (cf_coeffs x) a b c d) = Ok (Some w) -> w = e * v).
Proof.
  intros u x a b c d W F Ft D.
  destruct (homo_meets (signed_next u) (sgnb (negative x)) _ (sseq x) a b c d (sgnb_cases _) (stored_yields u x Ft F) (proj2 (stored_signed x W)) D) as (h & i & j & e & He & M & G & A).
  exists i, j, (e * sgnb (negative x)). split; [destruct He as [-> | ->], (sgnb_cases (negative x)) as [-> | ->]; auto|].
  assert (K : forall n v, coeff_at x (j + n) = Some v -> h (i + n)%nat = e * sgnb (negative x) * v).
  { intros n v E. rewrite M. unfold sseq. rewrite coeff_cseq in E by exact F. assert (cseq x (j + n) = v) by congruence. subst v. ring. }
  split.
  - intros n v E. rewrite <- (K n v E). apply G.
  - intros t fuel n v w E H. rewrite <- (K n v E). eapply A. exact H.
Qed.
