(** * Ext: the parts of num-rational 0.4 the crate calls (not in /repo; trusted).

    [Ratio<T>] is a numerator and a denominator.  The operations follow the
    published source of num-rational 0.4: every operation that combines ratios
    ends in [Ratio::new], which reduces to lowest terms with a positive
    denominator and panics on a zero denominator. *)

From Coq Require Import ZArith Bool.
From Verif Require Import Base.
Open Scope Z_scope.

Record ratio := Ratio { numer : Z; denom : Z }.

Section Ratio.
Context (t : ity).
Local Notation "x ⊕ y" := (lift2 (addT t) x y) (at level 50, left associativity).
Local Notation "x ⊖ y" := (lift2 (subT t) x y) (at level 50, left associativity).
Local Notation "x ⊗ y" := (lift2 (mulT t) x y) (at level 40, left associativity).
Local Notation "x ⊘ y" := (lift2 (quotT t) x y) (at level 40, left associativity).
Local Notation "# x" := (@Ok Z x) (at level 5, format "# x").

(** Ratio::new = new_raw followed by reduce *)
Definition ratio_new (n d : Z) : res ratio :=
  if d =? 0 then Panic PZeroDenom
  else if n =? 0 then Ok (Ratio 0 1)
  else if n =? d then Ok (Ratio 1 1)
  else
    let! g := gcdT t n d in
    let! n := #n ⊘ #g in
    let! d := #d ⊘ #g in
    if d <? 0 then
      let! n := #0 ⊖ #n in let! d := #0 ⊖ #d in Ok (Ratio n d)
    else Ok (Ratio n d).

(** Ratio::from(T) *)
Definition ratio_of (n : Z) : ratio := Ratio n 1.

Definition ratio_arith (op : Z -> Z -> res Z) (x y : ratio) : res ratio :=
  if denom x =? denom y then
    let! n := op (numer x) (numer y) in ratio_new n (denom y)
  else
    let! l := lcmT t (denom x) (denom y) in
    let! ln := #(numer x) ⊗ (#l ⊘ #(denom x)) in
    let! rn := #(numer y) ⊗ (#l ⊘ #(denom y)) in
    let! n := op ln rn in
    ratio_new n l.
Definition ratio_add (x y : ratio) : res ratio := ratio_arith (addT t) x y.
Definition ratio_sub (x y : ratio) : res ratio := ratio_arith (subT t) x y.

(** Ratio op T *)
Definition ratio_add_int (x : ratio) (k : Z) : res ratio :=
  let! n := #(numer x) ⊕ (#(denom x) ⊗ #k) in ratio_new n (denom x).
Definition ratio_sub_int (x : ratio) (k : Z) : res ratio :=
  let! n := #(numer x) ⊖ (#(denom x) ⊗ #k) in ratio_new n (denom x).

Definition ratio_mul (x y : ratio) : res ratio :=
  let! gad := gcdT t (numer x) (denom y) in
  let! gbc := gcdT t (denom x) (numer y) in
  let! n := (#(numer x) ⊘ #gad) ⊗ (#(numer y) ⊘ #gbc) in
  let! d := (#(denom x) ⊘ #gbc) ⊗ (#(denom y) ⊘ #gad) in
  ratio_new n d.
Definition ratio_mul_int (x : ratio) (k : Z) : res ratio :=
  let! g := gcdT t (denom x) k in
  let! n := #(numer x) ⊗ (#k ⊘ #g) in
  let! d := #(denom x) ⊘ #g in
  ratio_new n d.
Definition ratio_div (x y : ratio) : res ratio :=
  let! gac := gcdT t (numer x) (numer y) in
  let! gbd := gcdT t (denom x) (denom y) in
  let! n := (#(numer x) ⊘ #gac) ⊗ (#(denom y) ⊘ #gbd) in
  let! d := (#(denom x) ⊘ #gbd) ⊗ (#(numer y) ⊘ #gac) in
  ratio_new n d.
Definition ratio_div_int (x : ratio) (k : Z) : res ratio :=
  let! g := gcdT t (numer x) k in
  let! n := #(numer x) ⊘ #g in
  let! d := #(denom x) ⊗ (#k ⊘ #g) in
  ratio_new n d.

Definition ratio_neg (x : ratio) : res ratio :=
  let! n := negT t (numer x) in Ok (Ratio n (denom x)).
Definition ratio_recip (x : ratio) : res ratio :=
  if numer x =? 0 then Panic PDivZero
  else if 0 <? numer x then Ok (Ratio (denom x) (numer x))
  else let! n := #0 ⊖ #(denom x) in let! d := #0 ⊖ #(numer x) in Ok (Ratio n d).

Definition ratio_is_zero (x : ratio) : bool := numer x =? 0.
Definition ratio_is_integer (x : ratio) : bool := denom x =? 1.
Definition ratio_is_negative (x : ratio) : bool :=
  ((numer x <? 0) && (0 <? denom x)) || ((0 <? numer x) && (denom x <? 0)).
(** Ratio::to_integer: numerator divided by denominator, truncated *)
Definition ratio_to_integer (x : ratio) : res Z := #(numer x) ⊘ #(denom x).
End Ratio.
