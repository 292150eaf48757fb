(** * ClaimsBack: proofs of the property theorems in PropsBack.v. *)

From Coq Require Import ZArith Reals Lia Bool List Arith.
From Verif Require Import Base Ext ModelSurd ModelBlock ModelCF ModelConv Spec SpecCF SpecBack CFBack.
Import ListNotations.
Open Scope Z_scope.

Lemma L_C35_outcome : forall g x, wfcf x -> returns (surd_of_cf g BigU x) \/ surd_of_cf g BigU x = Panic PIncompatible.
Proof.
  intros g x W. apply (surd_of_cf_any g x W).
Qed.

Lemma L_C35_returns_unless : forall g x, wfcf x -> ~ finite x -> ~ two_squares (period_discr (p_coeffs x)) -> returns (surd_of_cf g BigU x).
Proof.
  intros g x W F T. apply (proj2 (surd_of_cf_any g x W)); auto.
Qed.

Lemma L_C35_squarefree : forall g x, wfcf x -> ~ finite x -> (forall k, 2 < k -> ~ (k * k | period_discr (p_coeffs x))) -> returns (surd_of_cf g BigU x).
Proof.
  intros g x W F T. apply (proj2 (surd_of_cf_any g x W)); auto. intros (k & m & Hk & Hm & G & Dk & Dm).
  destruct (Z.eq_dec k 2) as [->|Nk]; [|apply (T k); [lia|auto]]. destruct (Z.eq_dec m 2) as [->|Nm]; [discriminate G|]. apply (T m); [lia|auto].
Qed.
