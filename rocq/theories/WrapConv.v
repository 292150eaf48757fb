(** * WrapConv: the functions of ModelConv.v with wrapping arithmetic (release builds).

    A copy of ModelConv.v in which [+], [-], [*], unary minus, abs and gcd come from WrapBase.v: each
    definition [f_w] is the text of [f] with the names of the copied functions suffixed by [_w].
    Types and functions without integer arithmetic are shared with ModelConv.v. *)

From Coq Require Import ZArith Bool List.
From Verif Require Import Base Ext ModelSurd ModelBlock ModelCF ModelConv WrapBase WrapExt WrapSurd WrapBlock WrapCF.
Import ListNotations.
Open Scope Z_scope.

Section ToCF.
Context (g : cfg) (t : ity).
Local Notation "x ⊕ y" := (lift2 (addT_w t) x y) (at level 50, left associativity).
Local Notation "x ⊖ y" := (lift2 (subT_w t) x y) (at level 50, left associativity).
Local Notation "x ⊗ y" := (lift2 (mulT_w t) x y) (at level 40, left associativity).
Local Notation "x ⊘ y" := (lift2 (quotT t) x y) (at level 40, left associativity).
Local Notation "x ⊚ y" := (lift2 (remT t) x y) (at level 40, left associativity).
Local Notation "⊝ x" := (lift1 (negT_w t) x) (at level 35, right associativity).
Local Notation "# x" := (@Ok Z x) (at level 5, format "# x").
(** surd.rs:856-864  rho: returns the coefficient and the new (p, q) *)
Definition rho_w (d rd p q : Z) : res (Z * Z * Z) :=
  let! s := #rd ⊕ #p in
  let! a := div_floorT t s q in
  let! p' := #a ⊗ #q ⊖ #p in
  let! q' := (#d ⊖ #p' ⊗ #p') ⊘ #q in
  Ok (a, p', q').

(** surd.rs:869-870: is (p, q) reduced?  Rust's [&&] is short-circuiting. *)
Definition is_reduced_pq_w (rd p q : Z) : res bool :=
  if p <=? rd then
    let! s := #p ⊕ #q in
    if rd <? s then
      let! e := #q ⊖ #p in Ok (e <=? rd)
    else Ok false
  else Ok false.

(** surd.rs:866-873: the aperiodic coefficients; [first] is [a_coeffs.len() == 0] *)
Fixpoint aper_loop_w (fuel : nat) (first : bool) (d rd p q : Z) : res (list Z * Z * Z) :=
  match fuel with
  | O => Hang
  | S fuel =>
    let! stop := if first then Ok false else is_reduced_pq_w rd p q in
    if stop : bool then Ok (nil, p, q)
    else
      let! (a, p', q') := rho_w d rd p q in
      let! (l, pe, qe) := aper_loop_w fuel false d rd p' q' in
      Ok (a :: l, pe, qe)
  end.

(** surd.rs:875-883: the periodic coefficients *)
Fixpoint per_loop_w (fuel : nat) (d rd ip iq p q : Z) : res (list Z) :=
  match fuel with
  | O => Hang
  | S fuel =>
    let! (a, p', q') := rho_w d rd p q in
    if (p' =? ip) && (q' =? iq) then Ok [a]
    else let! l := per_loop_w fuel d rd ip iq p' q' in Ok (a :: l)
  end.

(** surd.rs:831-886  quadsurd_to_contfrac *)
Definition quadsurd_to_contfrac_w (fuel : nat) (a b c r : Z) (neg : bool) : res cf :=
  let! _ := dassert g (negb (c =? 0) && negb (r <? 0)) in
  let! _ :=
    if dbg g then
      let! s := sqrtT r in
      let! ss := #s ⊗ #s in
      dassert g (negb (ss =? r))
    else Ok tt in
  let! d := #r ⊗ #b ⊗ #b in
  let! (p, q) :=
    if b <? 0 then let! p := ⊝ #a in let! q := ⊝ #c in Ok (p, q)
    else Ok (a, c) in
  let! m := (#d ⊖ #p ⊗ #p) ⊚ #q in
  let! (d, p, q) :=
    if negb (m =? 0) then
      let! d := #d ⊗ #q ⊗ #q in
      let! p := #p ⊗ #q in
      let! q := #q ⊗ #q in
      Ok (d, p, q)
    else Ok (d, p, q) in
  let! rd := sqrtT d in
  let! (al, p, q) := aper_loop_w fuel true d rd p q in
  let! pl := per_loop_w fuel d rd p q p q in
  cf_new_w g t al pl neg.

(** surd.rs:891-917  TryFrom<QuadraticSurd<T>>; [None] is [Err(())] *)
Definition surd_to_cf_w (fuel : nat) (s : surd) : res (option cf) :=
  if discr s <? 0 then Ok None
  else
    let! n := surd_is_negative_w g t s in
    let 'Surd (SCo a b c) r := s in
    if n : bool then
      let! a := ⊝ #a in
      let! b := ⊝ #b in
      let! x := quadsurd_to_contfrac_w fuel a b c r true in Ok (Some x)
    else
      let! x := quadsurd_to_contfrac_w fuel a b c r false in Ok (Some x).

(** surd.rs:922-934  Computable for QuadraticSurd *)
Definition surd_approximated_w (fuel : nat) (s : surd) (limit : Z) : res (approx ratio) :=
  let! o := surd_to_cf_w fuel s in
  let! x := unwrap o in
  cf_approximated_w (uty t) fuel x limit.
End ToCF.

Section FromCF.
Context (g : cfg) (u : ity).
Let t := sty u.
Local Notation "x ⊕ y" := (lift2 (addT_w u) x y) (at level 50, left associativity).
Local Notation "x ⊗ y" := (lift2 (mulT_w u) x y) (at level 40, left associativity).
Local Notation "# x" := (@Ok Z x) (at level 5, format "# x").
(** surd.rs:784-791 and 808-815: the loop over the remaining coefficients *)
Fixpoint mobius_loop_w (l : list Z) (a b c d : Z) : res (Z * Z * Z * Z) :=
  match l with
  | nil => Ok (a, b, c, d)
  | v :: l =>
    let! nc := #v ⊗ #c ⊕ #a in
    let! nd := #v ⊗ #d ⊕ #b in
    mobius_loop_w l c d nc nd
  end.

(** surd.rs:780-782: start of the loop; [piter.next().unwrap()] *)
Definition mobius_w (l : list Z) : res (Z * Z * Z * Z) :=
  match List.rev l with
  | nil => Panic PUnwrap
  | v :: l => mobius_loop_w l 0 1 1 v
  end.

(** surd.rs:765-829  From<ContinuedFraction<T>> for QuadraticSurd<U> *)
Definition surd_of_cf_w (s : cf) : res surd :=
  if cf_is_rational s then
    let! r := cf_last_convergent_w u s in Ok (surd_of_ratio r)
  else
    let! (a, b, c, d) := mobius_w (p_coeffs s) in
    let! db := subT_w t (to_signed u d) (to_signed u a) in
    let! nb := negT_w t (to_signed u b) in
    let! ps := surd_from_equation_w g t (ratio_of (to_signed u c)) (ratio_of db) (ratio_of nb) in
    let! psurd := unwrap ps in
    let! sd :=
      if Nat.eqb (length (a_coeffs s)) 1 then Ok psurd
      else
        let! (a, b, c, d) := mobius_w (tl (a_coeffs s)) in
        let! x := surd_mul_int_w g t psurd (to_signed u a) in
        let! x := surd_add_int_w g t x (to_signed u b) in
        let! y := surd_mul_int_w g t psurd (to_signed u c) in
        let! y := surd_add_int_w g t y (to_signed u d) in
        surd_div_w g t x y in
    match a_coeffs s with
    | nil => Panic PUnwrap
    | a0 :: _ =>
      let! sd := surd_add_int_w g t sd (to_signed u a0) in
      if negative s then surd_neg_w t sd else Ok sd
    end.

(** [Self::try_from(..).unwrap()] *)
Definition back_w (fuel : nat) (s : surd) : res cf :=
  let! o := surd_to_cf_w g t fuel s in unwrap o.

(** simple.rs:777-794, 796-813 *)
Definition cf_mul_int_w (fuel : nat) (x : cf) (k : Z) : res cf :=
  if cf_is_rational x then
    let! r := cf_to_rational_w u x in
    let! r := ratio_mul_int_w t (approx_value r) k in
    cf_of_ratio_w t r
  else
    let! s := surd_of_cf_w x in let! s := surd_mul_int_w g t s k in back_w fuel s.

Definition cf_div_int_w (fuel : nat) (x : cf) (k : Z) : res cf :=
  if cf_is_rational x then
    let! r := cf_to_rational_w u x in
    let! r := ratio_div_int_w t (approx_value r) k in
    cf_of_ratio_w t r
  else
    let! s := surd_of_cf_w x in let! s := surd_div_int_w g t s k in back_w fuel s.

(** simple.rs:815-834: operators with a Ratio on the right *)
Definition cf_op_ratio_w (rop : ratio -> ratio -> res ratio) (sop : surd -> ratio -> res surd)
    (fuel : nat) (x : cf) (q : ratio) : res cf :=
  if cf_is_rational x then
    let! r := cf_to_rational_w u x in
    let! r := rop (approx_value r) q in
    cf_of_ratio_w t r
  else
    let! s := surd_of_cf_w x in let! s := sop s q in back_w fuel s.

Definition cf_add_ratio_w := cf_op_ratio_w (ratio_add_w t) (surd_add_ratio_w g t).

Definition cf_sub_ratio_w := cf_op_ratio_w (ratio_sub_w t) (surd_sub_ratio_w g t).

Definition cf_mul_ratio_w := cf_op_ratio_w (ratio_mul_w t) (surd_mul_ratio_w g t).

Definition cf_div_ratio_w := cf_op_ratio_w (ratio_div_w t) (surd_div_ratio_w g t).

(** simple.rs:836-856: operators between two continued fractions *)
Definition cf_op_cf_w (rop : ratio -> ratio -> res ratio) (sopr : surd -> ratio -> res surd)
    (sop : surd -> surd -> res surd) (fuel : nat) (x y : cf) : res cf :=
  if cf_is_rational y then
    let! q := cf_to_rational_w u y in cf_op_ratio_w rop sopr fuel x (approx_value q)
  else
    let! s := surd_of_cf_w x in
    let! r := surd_of_cf_w y in
    let! s := sop s r in back_w fuel s.

Definition cf_add_w := cf_op_cf_w (ratio_add_w t) (surd_add_ratio_w g t) (surd_add_w g t).

Definition cf_sub_w := cf_op_cf_w (ratio_sub_w t) (surd_sub_ratio_w g t) (surd_sub_w g t).

Definition cf_mul_w := cf_op_cf_w (ratio_mul_w t) (surd_mul_ratio_w g t) (surd_mul_w g t).

Definition cf_div_w := cf_op_cf_w (ratio_div_w t) (surd_div_ratio_w g t) (surd_div_w g t).
End FromCF.
