(** * SpecEqual: programs on top of the library that C108 speaks of. *)

From Coq Require Import ZArith List Bool.
From Verif Require Import Base Ext ModelSurd SpecFixed.
Open Scope Z_scope.

(** == takes a surd for equal to the conjugate of an equal one with another root (C08). A caller can tell them apart by
    the quotient of the differences to their conjugates, which is 1 or -1:

      fn equal(l, r) {
        if l != r { return false }
        if l.is_rational() || r.is_rational() { return true }
        div(r - r.conj(), l - l.conj()).is_one()
      } *)
Section Equal.
Context (g : cfg) (t : ity).

Definition equal_fixed (l r : surd) : res bool :=
  let! b := surd_eq t l r in
  if negb b then Ok false
  else if is_rational l || is_rational r then Ok true
  else
    let! lc := surd_conj t l in
    let! a := surd_sub g t l lc in
    let! rc := surd_conj t r in
    let! b := surd_sub g t r rc in
    let! k := div_fixed g t b a in
    Ok (surd_is_one k).

(** Rounding with floor() alone, since trunc() is wrong for some numbers (C11):

      fn ceil(s) { -(-s).floor() }
      fn trunc(s) { if s.is_negative() { ceil(s) } else { s.floor() } }
      fn fract(s) { s - trunc(s) }
      fn round(s) { (s + Ratio::new(1, 2)).floor() } *)
Definition ceil_fixed (s : surd) : res surd :=
  let! m := surd_neg t s in
  let! f := surd_floor g t m in
  surd_neg t f.
Definition trunc_fixed (s : surd) : res surd :=
  let! b := surd_is_negative g t s in
  if b then ceil_fixed s else surd_floor g t s.
Definition fract_fixed (s : surd) : res surd :=
  let! n := trunc_fixed s in surd_sub g t s n.
Definition round_fixed (s : surd) : res surd :=
  let! h := surd_add_ratio g t s (Ratio 1 2) in surd_floor g t h.

End Equal.
