(** * WrapExt: the functions of Ext.v with wrapping arithmetic (release builds).

    A copy of Ext.v in which [+], [-], [*], unary minus, abs and gcd come from WrapBase.v: each
    definition [f_w] is the text of [f] with the names of the copied functions suffixed by [_w].
    Types and functions without integer arithmetic are shared with Ext.v. *)

From Coq Require Import ZArith Bool.
From Verif Require Import Base Ext WrapBase.
Open Scope Z_scope.

Section Ratio.
Context (t : ity).
Local Notation "x ⊕ y" := (lift2 (addT_w t) x y) (at level 50, left associativity).
Local Notation "x ⊖ y" := (lift2 (subT_w t) x y) (at level 50, left associativity).
Local Notation "x ⊗ y" := (lift2 (mulT_w t) x y) (at level 40, left associativity).
Local Notation "x ⊘ y" := (lift2 (quotT t) x y) (at level 40, left associativity).
Local Notation "# x" := (@Ok Z x) (at level 5, format "# x").
(** Ratio::new = new_raw followed by reduce *)
Definition ratio_new_w (n d : Z) : res ratio :=
  if d =? 0 then Panic PZeroDenom
  else if n =? 0 then Ok (Ratio 0 1)
  else if n =? d then Ok (Ratio 1 1)
  else
    let! g := gcdT_w t n d in
    let! n := #n ⊘ #g in
    let! d := #d ⊘ #g in
    if d <? 0 then
      let! n := #0 ⊖ #n in let! d := #0 ⊖ #d in Ok (Ratio n d)
    else Ok (Ratio n d).

Definition ratio_arith_w (op : Z -> Z -> res Z) (x y : ratio) : res ratio :=
  if denom x =? denom y then
    let! n := op (numer x) (numer y) in ratio_new_w n (denom y)
  else
    let! l := lcmT_w t (denom x) (denom y) in
    let! ln := #(numer x) ⊗ (#l ⊘ #(denom x)) in
    let! rn := #(numer y) ⊗ (#l ⊘ #(denom y)) in
    let! n := op ln rn in
    ratio_new_w n l.

Definition ratio_add_w (x y : ratio) : res ratio := ratio_arith_w (addT_w t) x y.

Definition ratio_sub_w (x y : ratio) : res ratio := ratio_arith_w (subT_w t) x y.

(** Ratio op T *)
Definition ratio_add_int_w (x : ratio) (k : Z) : res ratio :=
  let! n := #(numer x) ⊕ (#(denom x) ⊗ #k) in ratio_new_w n (denom x).

Definition ratio_sub_int_w (x : ratio) (k : Z) : res ratio :=
  let! n := #(numer x) ⊖ (#(denom x) ⊗ #k) in ratio_new_w n (denom x).

Definition ratio_mul_w (x y : ratio) : res ratio :=
  let! gad := gcdT_w t (numer x) (denom y) in
  let! gbc := gcdT_w t (denom x) (numer y) in
  let! n := (#(numer x) ⊘ #gad) ⊗ (#(numer y) ⊘ #gbc) in
  let! d := (#(denom x) ⊘ #gbc) ⊗ (#(denom y) ⊘ #gad) in
  ratio_new_w n d.

Definition ratio_mul_int_w (x : ratio) (k : Z) : res ratio :=
  let! g := gcdT_w t (denom x) k in
  let! n := #(numer x) ⊗ (#k ⊘ #g) in
  let! d := #(denom x) ⊘ #g in
  ratio_new_w n d.

Definition ratio_div_w (x y : ratio) : res ratio :=
  let! gac := gcdT_w t (numer x) (numer y) in
  let! gbd := gcdT_w t (denom x) (denom y) in
  let! n := (#(numer x) ⊘ #gac) ⊗ (#(denom y) ⊘ #gbd) in
  let! d := (#(denom x) ⊘ #gbd) ⊗ (#(numer y) ⊘ #gac) in
  ratio_new_w n d.

Definition ratio_div_int_w (x : ratio) (k : Z) : res ratio :=
  let! g := gcdT_w t (numer x) k in
  let! n := #(numer x) ⊘ #g in
  let! d := #(denom x) ⊗ (#k ⊘ #g) in
  ratio_new_w n d.

Definition ratio_neg_w (x : ratio) : res ratio :=
  let! n := negT_w t (numer x) in Ok (Ratio n (denom x)).

Definition ratio_recip_w (x : ratio) : res ratio :=
  if numer x =? 0 then Panic PDivZero
  else if 0 <? numer x then Ok (Ratio (denom x) (numer x))
  else let! n := #0 ⊖ #(denom x) in let! d := #0 ⊖ #(numer x) in Ok (Ratio n d).

(** Ratio::to_integer: numerator divided by denominator, truncated *)
Definition ratio_to_integer_w (x : ratio) : res Z := #(numer x) ⊘ #(denom x).
End Ratio.
