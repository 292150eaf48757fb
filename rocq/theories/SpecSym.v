(** * SpecSym: the numbers named by the properties of the symbolic constants (C45-C48). *)

From Coq Require Import Reals.
From Coquelicot Require Import Coquelicot.
From Verif Require Import Base.
Open Scope R_scope.

(** harmonic numbers 1 + 1/2 + ... + 1/n *)
Fixpoint harm (n : nat) : R := match n with O => 0 | S m => harm m + / INR (S m) end.

(** binomial coefficients, by Pascal's rule *)
Fixpoint binom (n k : nat) : nat :=
  match n, k with
  | _, O => 1%nat
  | O, S _ => O
  | S m, S j => (binom m j + binom m (S j))%nat
  end.

(** Euler's constant: the limit of harm n - ln n *)
Definition euler_gamma : R := real (Lim_seq (fun n => harm (S n) - ln (INR (S n)))).

(** the sum over k = 0 .. n of C(n,k)^2 k! *)
Definition binom_sum (n : nat) : R := sum_f_R0 (fun k => INR (binom n k) ^ 2 * INR (fact k)) n.

(** the sum over k = 0 .. n of C(n,k)^2 k! (2 H_(n-k) - H_k) *)
Definition binom_harm_sum (n : nat) : R := sum_f_R0 (fun k => INR (binom n k) ^ 2 * INR (fact k) * (2 * harm (n - k) - harm k)) n.

(** [s'] is the state of an iterator in state [s] after [n] items *)
Fixpoint after {A I : Type} (next : I -> res (option A * I)) (n : nat) (s s' : I) : Prop :=
  match n with O => s = s' | S m => exists a s1, next s = Ok (Some a, s1) /\ after next m s1 s' end.
