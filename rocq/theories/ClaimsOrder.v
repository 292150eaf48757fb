(** * ClaimsOrder: proofs of the property theorems in PropsOrder.v. *)

From Coq Require Import ZArith Reals Lia Lra Bool List Arith.
From Coquelicot Require Import Coquelicot.
From Verif Require Import Base Ext ModelSurd ModelBlock ModelCF ModelConv Spec SpecCF SpecOrder NumFacts SurdCore SurdArith SurdMisc SurdDecide CFArith CFBasic ClaimsSurd CFOrder.
Import ListNotations.
Open Scope Z_scope.

Lemma L_C101_order : forall x y, canonical x -> canonical y -> ((cf_val x < cf_val y)%R <-> comes_before x y).
Proof. exact val_order. Qed.

Lemma L_C101_equal : forall x y, canonical x -> canonical y ->
  (cf_val x = cf_val y <-> negative x = negative y /\ forall n, coeff_at x n = coeff_at y n).
Proof.
  intros x y Cx Cy. split.
  - intros E. pose proof (val_order x y Cx Cy) as A. pose proof (val_order y x Cy Cx) as B. rewrite E in A, B. unfold comes_before in A, B.
    assert (N : negative x = negative y) by (destruct (negative x), (negative y); try reflexivity; exfalso; [apply (Rlt_irrefl (cf_val y)), A|apply (Rlt_irrefl (cf_val y)), B]; exact I).
    split; [exact N|]. rewrite <- N in A, B.
    assert (NA : ~ precedes x y /\ ~ precedes y x) by (destruct (negative x); split; intros P; apply (Rlt_irrefl (cf_val y)); tauto).
    destruct (three x y Cx Cy) as [P|[P|P]]; tauto.
  - intros (N & H). rewrite !val_mag, N, (mag_same x y H). reflexivity.
Qed.

Lemma L_C101_place : forall x y n a b, canonical x -> canonical y -> negative x = false -> negative y = false ->
  (forall k, (k < n)%nat -> coeff_at x k = coeff_at y k) -> coeff_at x n = Some a -> coeff_at y n = Some b -> a < b ->
  if Nat.even n then (cf_val x < cf_val y)%R else (cf_val y < cf_val x)%R.
Proof.
  intros x y n a b Cx Cy Nx Ny A Hx Hy L. destruct (Nat.even n) eqn:E; apply val_order; auto; unfold comes_before; rewrite Nx, Ny; exists n; rewrite E, Hx, Hy; cbn [below]; (split; [|exact L]); auto.
  intros k Hk. symmetry. auto.
Qed.

Lemma L_C101_surds : forall g h t u fuel fuel' s r v w x y, fits t 1 = true -> fits u 1 = true -> normal g s -> normal h r -> sval s = RtoC v -> sval r = RtoC w ->
  cf_wide v -> cf_wide w -> surd_to_cf g t fuel s = Ok (Some x) -> surd_to_cf h u fuel' r = Ok (Some y) ->
  ((v < w)%R <-> comes_before x y).
Proof.
  intros g h t u fuel fuel' s r v w x y F1 F2 Ns Nr Vs Vr Dv Dw Hx Hy.
  destruct (surd_to_cf_wide g t fuel s v x F1 Ns Vs Dv Hx) as (Cx & _ & Ex). destruct (surd_to_cf_wide h u fuel' r w y F2 Nr Vr Dw Hy) as (Cy & _ & Ey).
  rewrite <- Ex, <- Ey. apply val_order; auto.
Qed.

Lemma L_C101_difference : forall g t t' t'' u fuel fuel' s r d b v w x y, fits t 1 = true -> fits u 1 = true -> normal g s -> normal g r -> sval s = RtoC v -> sval r = RtoC w ->
  cf_wide v -> cf_wide w -> surd_to_cf g t fuel s = Ok (Some x) -> surd_to_cf g u fuel' r = Ok (Some y) ->
  surd_sub g t' s r = Ok d -> surd_is_positive g t'' d = Ok b -> (b = true <-> comes_before y x).
Proof.
  intros g t t' t'' u fuel fuel' s r d b v w x y F1 F2 Ns Nr Vs Vr Dv Dw Hx Hy Hd Hb.
  rewrite <- (L_C101_surds g g u t fuel' fuel r s w v y x F2 F1 Nr Ns Vr Vs Dw Dv Hy Hx).
  apply surd_sub_ok in Hd; [|apply normal_wf; exact Ns|apply normal_wf; exact Nr]. destruct Hd as [E N]. rewrite Vs, Vr, <- RtoC_minus in E.
  rewrite (L_C09_is_positive g t'' d (v - w) b N E Hb). lra.
Qed.
