(** * SpecCalc: programs on top of the library that C106 speaks of. *)

From Coq Require Import ZArith List Bool Reals.
From Verif Require Import Base Ext ModelSurd ModelBlock ModelCF ModelConv Spec SpecCF SpecRecipe SpecReturn SpecRebase SpecCompare.
Import ListNotations.
Open Scope Z_scope.

(** The conversions of C102 and C103, with rational numbers going through Ratio:

      if s.is_rational() { ContinuedFraction::from(s.to_rational().value()) } else { ... }
      if x.is_rational() { QuadraticSurd::from(x.to_rational().value()) } else { ... } *)
Definition convert_all (g : cfg) (t : ity) (fuel : nat) (s : surd) : res (option cf) :=
  if is_rational s then
    let! q := surd_to_rational g t s in
    let! z := cf_of_ratio t (approx_value q) in
    Ok (Some z)
  else convert_any g t fuel s.

Definition return_all (g : cfg) (u : ity) (x : cf) : res surd :=
  match p_coeffs x with
  | nil => let! q := cf_to_rational u x in Ok (surd_of_ratio (approx_value q))
  | _ :: _ => return_any g u x
  end.

(** Calculating with continued fractions through surds *)
Section Calc.
Context (g : cfg) (u : ity).
Local Notation t := (sty u).

Definition calc (op : surd -> surd -> res surd) (fuel : nat) (x y : cf) : res (option cf) :=
  let! a := return_all g u x in
  let! b := return_all g u y in
  let! s := op a b in
  convert_all g t fuel s.

Definition order_fractions (fuel : nat) (x y : cf) : res comparison :=
  let! a := return_all g u x in
  let! b := return_all g u y in
  order_surds g t fuel a b.

End Calc.

(** the signed type holds the numbers that occur when [x] is made into a surd *)
Definition held (u : ity) (x : cf) : Prop :=
  (finite x -> forall r, lowest r -> rval r = cf_val x -> ratio_sfit u r) /\ (~ finite x -> sfit u (cont (p_coeffs x))).

(** Two numbers of one field: one is rational, or one is a rational linear expression in the other *)
Definition one_field (v w : R) : Prop :=
  rational_real v \/ rational_real w \/ exists p q, rational_real p /\ rational_real q /\ w = (p + q * v)%R.
