(** * SpecOrder: what the theorems about comparing coefficients (C101) speak of. *)

From Coq Require Import ZArith Arith.
From Verif Require Import Base Ext ModelCF Spec SpecCF.
Open Scope Z_scope.

(** A coefficient that is missing, because the fraction has ended, counts as infinitely large *)
Definition below (a b : option Z) : Prop :=
  match a, b with
  | Some a, Some b => a < b
  | Some _, None => True
  | None, _ => False
  end.

(** At the first place where the coefficients differ, those of [x] are smaller if the number of the place is even,
    and larger if it is odd *)
Definition precedes (x y : cf) : Prop :=
  exists n, (forall k, (k < n)%nat -> coeff_at x k = coeff_at y k) /\
    if Nat.even n then below (coeff_at x n) (coeff_at y n) else below (coeff_at y n) (coeff_at x n).

(** The same with signs *)
Definition comes_before (x y : cf) : Prop :=
  match negative x, negative y with
  | false, false => precedes x y
  | true, true => precedes y x
  | true, false => True
  | false, true => False
  end.
