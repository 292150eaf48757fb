(** * SpecEuclid: divisibility, and Euclid's algorithm as a program over the crate's operators. *)

From Coq Require Import ZArith Reals Bool.
From Coquelicot Require Import Coquelicot.
From Verif Require Import Base Ext ModelSurd ModelInt Spec SpecInt.
Open Scope Z_scope.

(** [y] divides [x] in the Gaussian integers *)
Definition gdivides (y x : C) : Prop := exists z : qco, x = (gval z * y)%C.

(** [y] divides [x] in the ring of all n + m * omega d *)
Definition rdivides (d : Z) (y x : C) : Prop := exists n m : Z, x = ((ZtoC n + ZtoC m * omega d) * y)%C.

(** A well-formed number of that ring: a plain integer, or stored over the root d *)
Definition over (g : cfg) (d : Z) (x : qint) : Prop :=
  wfq g x /\ (q1 (qcoeffs x) <> 0 -> qdiscr x = d).

(** Client program: gcd of Gaussian integers with the crate's [%] (at most [fuel] rounds) *)
Fixpoint gauss_gcd (t : ity) (fuel : nat) (x y : qco) : res qco :=
  match fuel with
  | O => Hang
  | S fuel => if (q0 y =? 0) && (q1 y =? 0) then Ok x else let! r := gauss_rem t x y in gauss_gcd t fuel y r
  end.

(** Client program: the same for quadratic integers, with a remainder function to choose *)
Fixpoint qint_gcd (rem : qint -> qint -> res qint) (fuel : nat) (x y : qint) : res qint :=
  match fuel with
  | O => Hang
  | S fuel => if qint_is_zero y then Ok x else let! r := rem x y in qint_gcd rem fuel y r
  end.

(** The remainder written with [/], [*] and [-] *)
Definition qint_rem_by_div (g : cfg) (t : ity) (x y : qint) : res qint :=
  let! q := qint_div g t x y in
  let! p := qint_mul g t q y in
  qint_sub g t x p.
