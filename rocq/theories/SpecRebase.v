(** * SpecRebase: a program on top of the library that C105 speaks of. *)

From Coq Require Import ZArith List Bool.
From Verif Require Import Base Ext ModelSurd.
Open Scope Z_scope.

(** The operators panic for two surds of one field unless one root is a square times the other (C06). A caller can
    write the second surd with the root of the first one, and then use the operators:

      fn rebase(l, r) {
        if l.is_rational() || r.is_rational() { return r }
        let (a, b) = (l - l.conj(), r - r.conj());
        ((r + r.conj()) + (b / a) * a) / 2
      } *)
Section Rebase.
Context (g : cfg) (t : ity).

Definition rebase (l r : surd) : res surd :=
  if is_rational l || is_rational r then Ok r
  else
    let! lc := surd_conj t l in
    let! a := surd_sub g t l lc in
    let! rc := surd_conj t r in
    let! b := surd_sub g t r rc in
    let! k := surd_div g t b a in
    let! q := surd_mul g t k a in
    let! h := surd_add g t r rc in
    let! w := surd_add g t h q in
    surd_div_int g t w 2.

Definition add_any (l r : surd) : res surd := let! r := rebase l r in surd_add g t l r.
Definition sub_any (l r : surd) : res surd := let! r := rebase l r in surd_sub g t l r.
Definition mul_any (l r : surd) : res surd := let! r := rebase l r in surd_mul g t l r.
(** zero divided by an irrational number panics (C05), so zero is returned before *)
Definition div_any (l r : surd) : res surd :=
  if surd_is_zero l then Ok l else let! r := rebase l r in surd_div g t l r.

End Rebase.
