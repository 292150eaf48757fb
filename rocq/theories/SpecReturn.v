(** * SpecReturn: a program on top of the library that C103 speaks of. *)

From Coq Require Import ZArith List.
From Verif Require Import Base Ext ModelSurd ModelBlock ModelCF ModelConv.
Import ListNotations.
Open Scope Z_scope.

(** The conversion of a continued fraction to a surd can panic if there are more than two coefficients before the
    period. A caller can get round this by converting only the last of them with the period, and putting the others
    in front one by one:

      let mut s = QuadraticSurd::from(ContinuedFraction::new(vec![last], period, false));
      for a in others.rev() { s = s.recip() + a; }
      if x.is_negative() { s = -s; } *)
Section Return.
Context (g : cfg) (u : ity).
Local Notation t := (sty u).

Fixpoint climb (l : list Z) (s : surd) : res surd :=
  match l with
  | nil => Ok s
  | a :: l =>
    let! r := surd_recip g t s in
    let! s := surd_add_int g t r a in
    climb l s
  end.

Definition return_any (x : cf) : res surd :=
  let! l := mapM (chk t) (a_coeffs x) in
  let! p := mapM (chk t) (p_coeffs x) in
  match List.rev l with
  | nil => Panic PUnwrap
  | a :: l =>
    let! z := cf_new g t [a] p false in
    let! s := surd_of_cf g u z in
    let! s := climb l s in
    if negative x then surd_neg t s else Ok s
  end.

End Return.
