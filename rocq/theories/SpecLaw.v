(** * SpecLaw: vocabulary for the laws of arithmetic. *)

From Coq Require Import ZArith Reals.
From Coquelicot Require Import Coquelicot.
From Verif Require Import Base ModelSurd Spec.
Open Scope Z_scope.

(** No square of an integer other than 1 divides [r] *)
Definition squarefree (r : Z) : Prop := forall k, (k * k | r) -> k = 1 \/ k = -1.

(** The surds (a + b sqrt r)/c in normal form over the given root, the rational ones included *)
Definition in_field (g : cfg) (r : Z) (s : surd) : Prop :=
  normal g s /\ (discr s = r \/ rational_num (sval s)).
