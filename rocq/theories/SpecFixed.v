(** * SpecFixed: programs on top of the library that C107 speaks of. *)

From Coq Require Import ZArith List Bool.
From Verif Require Import Base Ext ModelSurd.
Open Scope Z_scope.

(** The product and the quotient of two imaginary numbers have the wrong sign (C04, C05), and zero divided by an
    irrational number panics. A caller can put this right:

      fn imaginary(s) { s.is_pure() && s.is_complex() }
      fn mul(l, r) { let p = l * r; if imaginary(l) && imaginary(r) { -p } else { p } }
      fn div(l, r) { if l.is_zero() { return l } let p = l / r; if imaginary(l) && imaginary(r) { -p } else { p } } *)
Section Fixed.
Context (g : cfg) (t : ity).

Definition is_imaginary (s : surd) : bool := is_pure s && is_complex s.

Definition mul_fixed (l r : surd) : res surd :=
  let! p := surd_mul g t l r in
  if is_imaginary l && is_imaginary r then surd_neg t p else Ok p.

Definition div_fixed (l r : surd) : res surd :=
  if surd_is_zero l then Ok l
  else
    let! p := surd_div g t l r in
    if is_imaginary l && is_imaginary r then surd_neg t p else Ok p.

(** The second surd written with the root of the first one, as in C105, for complex surds as well *)
Definition rebase_fixed (l r : surd) : res surd :=
  if is_rational l || is_rational r then Ok r
  else
    let! lc := surd_conj t l in
    let! a := surd_sub g t l lc in
    let! rc := surd_conj t r in
    let! b := surd_sub g t r rc in
    let! k := div_fixed b a in
    let! q := mul_fixed k a in
    let! h := surd_add g t r rc in
    let! w := surd_add g t h q in
    surd_div_int g t w 2.

Definition add_all (l r : surd) : res surd := let! r := rebase_fixed l r in surd_add g t l r.
Definition sub_all (l r : surd) : res surd := let! r := rebase_fixed l r in surd_sub g t l r.
Definition mul_all (l r : surd) : res surd := let! r := rebase_fixed l r in mul_fixed l r.
Definition div_all (l r : surd) : res surd := let! r := rebase_fixed l r in div_fixed l r.

End Fixed.
