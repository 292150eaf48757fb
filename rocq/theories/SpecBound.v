(** * SpecBound: the measures used to state sizes and running times. *)

From Coq Require Import ZArith List.
From Verif Require Import Base ModelSurd.
Open Scope Z_scope.

(** Fibonacci numbers: 0, 1, 1, 2, 3, 5, ... *)
Fixpoint fib (n : nat) : Z :=
  match n with
  | O => 0
  | S m => match m with O => 1 | S k => fib m + fib k end
  end.

(** For the surd (a + b sqrt r)/c: the integer part of |b c| sqrt r *)
Definition root_size (s : surd) : Z :=
  Z.sqrt (c1 (coeffs s) * c1 (coeffs s) * (c2 (coeffs s) * c2 (coeffs s)) * discr s).
(** and the bound on the period of its continued fraction *)
Definition period_bound (s : surd) : nat := Z.to_nat (root_size s * (root_size s + 1)).
