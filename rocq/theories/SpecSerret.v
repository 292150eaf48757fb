(** * SpecSerret: what the theorems about equivalent numbers (C99) speak of. *)

From Coq Require Import ZArith Reals List.
From Verif Require Import Base Ext ModelCF Spec SpecCF.
Open Scope Z_scope.

(** [y] = (a [x] + b) / (c [x] + d) for integers a, b, c, d of determinant 1 or -1 *)
Definition equivalent (x y : R) : Prop :=
  exists a b c d, Z.abs (a * d - b * c) = 1 /\ y = ((IZR a * x + IZR b) / (IZR c * x + IZR d))%R.

(** From some place on the coefficients are the same *)
Definition same_tail (x y : cf) : Prop := exists i j, forall n, coeff_at x (i + n) = coeff_at y (j + n).

(** The same list, begun at another place *)
Definition rotation (l l' : list Z) : Prop := exists l1 l2, l = l1 ++ l2 /\ l' = l2 ++ l1.
