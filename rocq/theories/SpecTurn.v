(** * SpecTurn: which number comes out of the operators of continued fractions (C33, C36). *)

From Coq Require Import Arith Reals.
From Verif Require Import Base ModelCF Spec SpecCF.

(** [w] is the number [v], or [v] is irrational and between 0 and its conjugate and [w] is the conjugate, or [v] without its
    sign *)
Definition turned (v w : R) : Prop :=
  w = v \/ exists vc, conjugate v vc /\ between0 v vc /\ (w = vc \/ (v < 0)%R /\ w = (- v)%R).

(** How a computation of the number [v] ends: if [v] is irrational it returns, or loops forever, and never panics; if [v] is
    rational it panics *)
Definition settles (v : R) (m : nat -> res cf) : Prop :=
  (~ rational_real v -> (exists n0, forall fuel, (n0 <= fuel)%nat -> returns (m fuel)) \/ forall fuel, m fuel = Hang) /\
  (rational_real v -> exists n0, forall fuel, (n0 <= fuel)%nat -> m fuel = Panic PDebugAssert \/ m fuel = Panic PDivZero).
