(** * SpecUnit: what the theorems about units of quadratic integers (C98) speak of. *)

From Coq Require Import ZArith.
From Verif Require Import Base Ext ModelInt.

(** The program u * u * ... * u with k + 1 factors, computed from the left *)
Fixpoint qint_power (g : cfg) (t : ity) (u : qint) (k : nat) : res qint :=
  match k with
  | O => Ok u
  | S k => let! p := qint_power g t u k in qint_mul g t p u
  end.
