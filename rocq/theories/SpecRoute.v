(** * SpecRoute: the coefficients of a surd computed by hand, with the operations on surds. *)

From Coq Require Import ZArith.
From Verif Require Import Base ModelSurd.
Open Scope Z_scope.

(** Coefficient number [n]: take the integer part [floor()], subtract it, take the reciprocal, go on *)
Fixpoint by_hand (g : cfg) (t : ity) (n : nat) (s : surd) : res surd :=
  let! f := surd_floor g t s in
  match n with
  | O => Ok f
  | S n => let! d := surd_sub g t s f in let! r := surd_recip g t d in by_hand g t n r
  end.
