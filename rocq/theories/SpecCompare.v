(** * SpecCompare: a program on top of the library that C104 speaks of. *)

From Coq Require Import ZArith List Bool.
From Verif Require Import Base Ext ModelSurd.
Import ListNotations.
Open Scope Z_scope.

(** The library has no order on surds, and surds with unlike roots cannot be subtracted. A caller can compare them
    with floor() and recip():

      fn cmp(s, r) {
        let (v, w) = (s.floor(), r.floor());
        if v.to_integer() < w.to_integer() { return Less } else if v.to_integer() > w.to_integer() { return Greater }
        let (d, e) = (s - v, r - w);
        match (d.is_zero(), e.is_zero()) { (true, true) => Equal, (true, false) => Less, (false, true) => Greater,
                                           (false, false) => cmp(e.recip(), d.recip()) }
      } *)
Section Compare.
Context (g : cfg) (t : ity).

Fixpoint compare_surds (fuel : nat) (s r : surd) : res comparison :=
  match fuel with
  | O => Hang
  | S fuel =>
    let! v := surd_floor g t s in
    let! w := surd_floor g t r in
    let! n := surd_to_integer g t v in
    let! m := surd_to_integer g t w in
    match approx_value n ?= approx_value m with
    | Lt => Ok Lt
    | Gt => Ok Gt
    | Eq =>
      let! d := surd_sub g t s v in
      let! e := surd_sub g t r w in
      match surd_is_zero d, surd_is_zero e with
      | true, true => Ok Eq
      | true, false => Ok Lt
      | false, true => Ok Gt
      | false, false =>
        let! d := surd_recip g t d in
        let! e := surd_recip g t e in
        compare_surds fuel e d
      end
    end
  end.

(** On two equal irrational numbers that loop never ends. A test with == first helps; == also holds for a surd and
    the conjugate of an equal one with another root (C08), which differ in the sign of s - s.conj():

      fn order(s, r) {
        if s == r && (s - s.conj()).is_negative() == (r - r.conj()).is_negative() { return Equal }
        cmp(s, r)
      } *)
Definition leans (s : surd) : res bool :=
  let! c := surd_conj t s in
  let! d := surd_sub g t s c in
  surd_is_negative g t d.

Definition order_surds (fuel : nat) (s r : surd) : res comparison :=
  let! q := surd_eq t s r in
  if q then
    let! i := leans s in
    let! j := leans r in
    if Bool.eqb i j then Ok Eq else compare_surds fuel s r
  else compare_surds fuel s r.

End Compare.

(** what the answers mean *)
From Coq Require Import Reals.
Definition is_order (c : comparison) (x y : R) : Prop :=
  match c with Lt => (x < y)%R | Eq => x = y | Gt => (y < x)%R end.
