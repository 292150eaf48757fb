(** * SpecRecipe: a program on top of the library that C102 speaks of. *)

From Coq Require Import ZArith List.
From Verif Require Import Base Ext ModelSurd ModelBlock ModelCF ModelConv.
Import ListNotations.
Open Scope Z_scope.

(** The conversion of a surd to a continued fraction gives wrong answers or none for numbers between 0 and their
    conjugate. A caller can get round this with the other functions of the library:

      while !s.conj().is_negative() { let n = s.floor(); out.push(n.to_integer().value()); s = (s - n).recip(); }

    and then convert [s], which is converted correctly, and put [out] before its coefficients. *)
Section Recipe.
Context (g : cfg) (t : ity).

Fixpoint unroll (fuel : nat) (s : surd) : res (list Z * surd) :=
  match fuel with
  | O => Hang
  | S fuel =>
    let! c := surd_conj t s in
    let! b := surd_is_negative g t c in
    if b then Ok (nil, s)
    else
      let! v := surd_floor g t s in
      let! n := surd_to_integer g t v in
      let! d := surd_sub g t s v in
      let! r := surd_recip g t d in
      let! (l, q) := unroll fuel r in
      Ok (approx_value n :: l, q)
  end.

(** for non-negative surds *)
Definition convert_up (fuel : nat) (s : surd) : res (option cf) :=
  let! (l, q) := unroll fuel s in
  let! y := surd_to_cf g t fuel q in
  match y with
  | None => Ok None
  | Some y =>
    let! a := mapM (chk t) (l ++ a_coeffs y) in
    let! p := mapM (chk t) (p_coeffs y) in
    let! z := cf_new g t a p false in
    Ok (Some z)
  end.

(** for all surds *)
Definition convert_any (fuel : nat) (s : surd) : res (option cf) :=
  let! b := surd_is_negative g t s in
  if b then
    let! s' := surd_neg t s in
    let! z := convert_up fuel s' in
    Ok (option_map cf_neg z)
  else convert_up fuel s.

End Recipe.
