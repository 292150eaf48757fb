(** * SpecPlaces: programs on top of the library that C110 and C111 speak of. *)

From Coq Require Import ZArith Reals List Bool.
From Verif Require Import Base Ext ModelSurd.
Import ListNotations.
Open Scope Z_scope.

(** from_sqrt() need not return the principal root (C16). A caller changes the sign of a negative one:

      fn principal_root(s) {
        let y = QuadraticSurd::from_sqrt(s)?;
        if !y.is_complex() && y.is_negative() { Ok(-y) } else { Ok(y) }
      } *)
Section Digits.
Context (g : cfg) (t : ity).

Definition principal_root (s : surd) : res (sqrt_result surd) :=
  let! q := from_sqrt_surd g t s in
  match q with
  | SqErr d k => Ok (SqErr d k)
  | SqOk y =>
    if is_complex y then Ok (SqOk y)
    else
      let! b := surd_is_negative g t y in
      if b then (let! z := surd_neg t y in Ok (SqOk z)) else Ok (SqOk y)
  end.

(** The integer part and n digits after the point to a base:

      fn digits(base, n, mut s) {
        let mut l = vec![];
        for k in 0..=n {
          let d = s.floor().to_integer().value();
          l.push(d);
          if k < n { s = (s - d) * base }
        }
        l
      } *)
Fixpoint digits (base : Z) (n : nat) (s : surd) : res (list Z) :=
  let! f := surd_floor g t s in
  let! d := surd_to_integer g t f in
  let d := approx_value d in
  match n with
  | O => Ok [d]
  | S n' =>
    let! m := surd_sub_int g t s d in
    let! m := surd_mul_int g t m base in
    let! l := digits base n' m in
    Ok (d :: l)
  end.

End Digits.

(** The number written by an integer part and digits to a base *)
Fixpoint digits_val (base : Z) (l : list Z) : R :=
  match l with
  | [] => 0%R
  | d :: l' => (IZR d + digits_val base l' / IZR base)%R
  end.
