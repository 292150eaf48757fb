(** * ClaimsHomo: proofs of the property theorems in PropsHomo.v. *)

From Coq Require Import ZArith Reals Lia Lra Bool List Arith.
From Coquelicot Require Import Coquelicot.
From Verif Require Import Base Ext ModelBlock ModelCF ModelGen Spec SpecCF SpecGen NumFacts CFCore CFSeq CFAny GenSound GenConv GenTail GenLive GenMisc GenCont GenBihomo GenStored GenHomo ClaimsGen.
Import ListNotations.
Open Scope Z_scope.

Lemma L_C79_homo : forall I (inext : I -> res (option Z * I)) it f x e a b c d, e = 1 \/ e = -1 ->
  yields inext it f -> (forall n, (1 <= n)%nat -> 1 <= e * f n) -> cconverges f x -> a * d - b * c <> 0 ->
  exists h, cconverges h ((IZR a * x + IZR b) / (IZR c * x + IZR d)) /\
    (exists m z, irrational z /\ forall n, cf_digit z n (h (m + n)%nat)) /\
    (forall n, exists fuel, forall fuel', (fuel <= fuel')%nat -> nth_item (homo_next BigI inext fuel') n (icf_homo it a b c d) = Ok (Some (h n))) /\
    (forall t fuel n v, nth_item (homo_next t inext fuel) n (icf_homo it a b c d) = Ok (Some v) -> v = h n).
Proof. intros I inext it f x e a b c d He Y L C D. exact (homo_spells_any inext e it f x a b c d He Y L C D). Qed.

Lemma L_C79_homo_stored : forall u x a b c d, wfcf x -> ~ finite x -> coeffs_fit u x -> a * d - b * c <> 0 ->
  exists h, cconverges h ((IZR a * cf_val x + IZR b) / (IZR c * cf_val x + IZR d)) /\
    (exists m z, irrational z /\ forall n, cf_digit z n (h (m + n)%nat)) /\
    (forall n, exists fuel, forall fuel', (fuel <= fuel')%nat -> nth_item (homo_next BigI (signed_next u) fuel') n (icf_homo (cf_coeffs x) a b c d) = Ok (Some (h n))) /\
    (forall t fuel n v, nth_item (homo_next t (signed_next u) fuel) n (icf_homo (cf_coeffs x) a b c d) = Ok (Some v) -> v = h n).
Proof.
  intros u x a b c d W F Ft D.
  exact (homo_spells_any (signed_next u) (sgnb (negative x)) _ (sseq x) _ a b c d (sgnb_cases _) (stored_yields u x Ft F) (proj2 (stored_signed x W)) (stored_converges x W F) D).
Qed.

Lemma L_C79_simplify : forall I (inext : I -> res (option (Z * Z) * I)) it f x, yields inext it f -> gpositive f -> gconverges f x -> irrational x ->
  exists h, cconverges h x /\ (forall n, cf_digit x n (h n)) /\
    (forall n, exists fuel, forall fuel', (fuel <= fuel')%nat -> nth_item (simp_next BigI inext fuel') n (gcf_simplify it) = Ok (Some (h n))) /\
    (forall t fuel n v, nth_item (simp_next t inext fuel) n (gcf_simplify it) = Ok (Some v) -> v = h n).
Proof.
  intros I inext it f x Y P C Ix. exists (digit x). split; [apply digits_converge; auto|]. split; [intros n; apply digit_spec; auto|].
  assert (A : forall t fuel n v, nth_item (simp_next t inext fuel) n (gcf_simplify it) = Ok (Some v) -> v = digit x n).
  { intros t fuel n v H. eapply cf_digit_unique; [eapply L_C41_simplify; eauto|apply digit_spec; auto]. }
  split; [|exact A]. intros n. destruct (L_C41_returns I inext it f x n Y P C Ix) as (F & v & K). exists F. intros F' HF. rewrite (K F' HF). do 2 f_equal. exact (A _ _ _ _ (K F' HF)).
Qed.

Lemma L_C79_coefficients_converge : forall x f, irrational x -> (forall n, cf_digit x n (f n)) -> cconverges f x.
Proof. exact digits_converge_any. Qed.

Lemma L_C79_coefficients_exist : forall x, irrational x -> exists f, forall n, cf_digit x n (f n).
Proof. intros x Ix. exists (digit x). intros n. apply digit_spec; auto. Qed.

Lemma L_C79_coefficients_determine : forall x y f, irrational x -> irrational y -> (forall n, cf_digit x n (f n)) -> (forall n, cf_digit y n (f n)) -> x = y.
Proof. exact digits_determine. Qed.

Lemma homo_wild_case : yields (from_fn root2) O root2 /\ (forall n, (1 <= n)%nat -> 1 <= 1 * root2 n) /\ cconverges root2 (sqrt 2) /\ irrational (sqrt 2).
Proof.
  split; [apply from_fn_yields|]. split; [intros n Hn; apply (proj2 root2_signed n Hn)|]. split; [apply root2_conv|].
  destruct (signed_converges 1 root2 (or_introl eq_refl) (proj2 root2_signed)) as (y & Cy & Iy). rewrite (cconverges_unique _ _ _ root2_conv Cy). exact Iy.
Qed.
