(** * ClaimsPrincipal: proofs of the property theorems in PropsPrincipal.v. *)

From Coq Require Import ZArith Reals Lia Lra Bool List Arith.
From Coquelicot Require Import Coquelicot.
From Verif Require Import Base Ext ModelSurd Spec SpecPlaces SurdPlaces.
Open Scope Z_scope.

Lemma L_C110_right : forall g t x y, normal g x -> principal_root g t x = Ok (SqOk y) -> normal g y /\ (sval y * sval y)%C = sval x /\ principal (sval y).
Proof. exact principal_sound. Qed.

Lemma L_C110_unique : forall u v : C, (u * u)%C = (v * v)%C -> principal u -> principal v -> u = v.
Proof. exact principal_unique. Qed.

Lemma L_C110_complete : forall g x v, normal g x -> over_root (discr x) v -> (v * v)%C = sval x -> principal v -> exists y, principal_root g BigI x = Ok (SqOk y) /\ sval y = v.
Proof. exact principal_complete. Qed.

Lemma L_C110_err : forall g t x d k, normal g x -> principal_root g t x = Ok (SqErr d k) -> sval d = sval x /\ (k = EComplex <-> cplx g = false /\ exists v, (v < 0)%R /\ sval x = RtoC v).
Proof. exact principal_err. Qed.

Lemma L_C110_returns : forall g x, normal g x -> returns (principal_root g BigI x).
Proof. exact principal_total. Qed.
