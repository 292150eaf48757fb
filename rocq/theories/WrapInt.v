(** * WrapInt: the functions of ModelInt.v with wrapping arithmetic (release builds).

    A copy of ModelInt.v in which [+], [-], [*], unary minus, abs and gcd come from WrapBase.v: each
    definition [f_w] is the text of [f] with the names of the copied functions suffixed by [_w].
    Types and functions without integer arithmetic are shared with ModelInt.v. *)

From Coq Require Import ZArith Bool List.
From Verif Require Import Base Ext ModelSurd ModelInt WrapBase WrapExt WrapSurd.
Import ListNotations.
Open Scope Z_scope.

Section QInt.
Context (g : cfg) (t : ity).
Local Notation "x ⊕ y" := (lift2 (addT_w t) x y) (at level 50, left associativity).
Local Notation "x ⊖ y" := (lift2 (subT_w t) x y) (at level 50, left associativity).
Local Notation "x ⊗ y" := (lift2 (mulT_w t) x y) (at level 40, left associativity).
Local Notation "x ⊘ y" := (lift2 (quotT t) x y) (at level 40, left associativity).
Local Notation "x ⊚ y" := (lift2 (remT t) x y) (at level 40, left associativity).
Local Notation "⊝ x" := (lift1 (negT_w t) x) (at level 35, right associativity).
Local Notation "# x" := (@Ok Z x) (at level 5, format "# x").
(** integer.rs:8-11 *)
Definition four_w : res Z := #1 ⊕ #1 ⊕ #1 ⊕ #1.

(** integer.rs:13-37: M0 for -1 (v = 0 mod 4), M1 for 0, M23 for 1 *)
Definition mod4d2_w (v : Z) : res mod4 :=
  let! m := #v ⊚ four_w in
  if m =? 0 then Ok M0
  else if v <? 0 then
    let! m2 := (four_w ⊕ #m) ⊘ (#1 ⊕ #1) in
    Ok (if m2 =? 1 then M23 else M1)
  else
    let! m2 := #m ⊘ (#1 ⊕ #1) in
    Ok (if m2 =? 1 then M23 else M1).

(** integer.rs:39-49 *)
Definition div_rem_round_w (x y : Z) : res (Z * Z) :=
  let! two := #1 ⊕ #1 in
  let! ay := absT_w t y in
  let! offset := #ay ⊘ #two ⊗ #(Z.sgn x) in
  let! s := #x ⊕ #offset in
  let! (q, r) := div_remT t s y in
  let! r := #r ⊖ #offset in
  Ok (q, r).

Definition qco_add_int_w (l : qco) (k : Z) : res qco :=
  let! a := #(q0 l) ⊕ #k in Ok (QCo a (q1 l)).

Definition qco_add_w (l r : qco) : res qco :=
  let! a := #(q0 l) ⊕ #(q0 r) in let! b := #(q1 l) ⊕ #(q1 r) in Ok (QCo a b).

Definition qco_sub_int_w (l : qco) (k : Z) : res qco :=
  let! a := #(q0 l) ⊖ #k in Ok (QCo a (q1 l)).

Definition qco_sub_w (l r : qco) : res qco :=
  let! a := #(q0 l) ⊖ #(q0 r) in let! b := #(q1 l) ⊖ #(q1 r) in Ok (QCo a b).

Definition qco_mul_int_w (l : qco) (k : Z) : res qco :=
  let! a := #(q0 l) ⊗ #k in let! b := #(q1 l) ⊗ #k in Ok (QCo a b).

Definition qco_div_int_w (l : qco) (k : Z) : res qco :=
  let! (a, _) := div_rem_round_w (q0 l) k in
  let! (b, _) := div_rem_round_w (q1 l) k in
  Ok (QCo a b).

Definition qco_rem_int_w (l : qco) (k : Z) : res qco :=
  let! (_, a) := div_rem_round_w (q0 l) k in
  let! (_, b) := div_rem_round_w (q1 l) k in
  Ok (QCo a b).

(** integer.rs:131-147  norm_ref, 223-225 norm *)
Definition qco_norm_w (l : qco) (d : Z) : res Z :=
  if d =? 0 then #(q0 l) ⊗ #(q0 l)
  else
    let! m := mod4d2_w d in
    match m with
    | M1 => #(q0 l) ⊗ #(q0 l) ⊕ #(q0 l) ⊗ #(q1 l)
              ⊕ #(q1 l) ⊗ #(q1 l) ⊗ ((#1 ⊖ #d) ⊘ four_w)
    | M23 => #(q0 l) ⊗ #(q0 l) ⊖ #(q1 l) ⊗ #(q1 l) ⊗ #d
    | M0 => Panic PUnreachable
    end.

(** integer.rs:187-200 *)
Definition qco_mul_w (l r : qco) (d : Z) : res qco :=
  let! m := mod4d2_w d in
  match m with
  | M1 =>
    let! a := #(q0 l) ⊗ #(q0 r) ⊕ #(q1 l) ⊗ #(q1 r) ⊗ ((#d ⊖ #1) ⊘ four_w) in
    let! b := #(q0 l) ⊗ #(q1 r) ⊕ #(q1 l) ⊗ (#(q0 r) ⊕ #(q1 r)) in
    Ok (QCo a b)
  | M23 =>
    let! a := #(q0 l) ⊗ #(q0 r) ⊕ #(q1 l) ⊗ #(q1 r) ⊗ #d in
    let! b := #(q0 l) ⊗ #(q1 r) ⊕ #(q1 l) ⊗ #(q0 r) in
    Ok (QCo a b)
  | M0 => Panic PUnreachable
  end.

(** integer.rs:149-177 *)
Definition qco_div_rem_w (l r : qco) (d : Z) : res (qco * qco) :=
  let! m := mod4d2_w d in
  let! (a, b) :=
    match m with
    | M1 =>
      let! a := #(q0 l) ⊗ #(q0 r) ⊕ #(q0 l) ⊗ #(q1 r)
                  ⊖ #(q1 l) ⊗ #(q1 r) ⊗ ((#d ⊖ #1) ⊘ four_w) in
      let! b := #(q1 l) ⊗ #(q0 r) ⊖ #(q0 l) ⊗ #(q1 r) in
      Ok (a, b)
    | M23 =>
      let! a := #(q0 l) ⊗ #(q0 r) ⊖ #(q1 l) ⊗ #(q1 r) ⊗ #d in
      let! b := #(q1 l) ⊗ #(q0 r) ⊖ #(q0 l) ⊗ #(q1 r) in
      Ok (a, b)
    | M0 => Panic PUnreachable
    end in
  let! n := qco_norm_w r d in
  let! (aq, ar) := div_rem_round_w a n in
  let! (bq, br) := div_rem_round_w b n in
  let! p := qco_mul_w r (QCo ar br) d in
  let! rem := qco_div_int_w p n in
  Ok (QCo aq bq, rem).

(** integer.rs:202-204 *)
Definition qco_div_w (l r : qco) (d : Z) : res qco :=
  let! (q, _) := qco_div_rem_w l r d in Ok q.

(** integer.rs:207-221 *)
Definition qco_conj_w (l : qco) (d : Z) : res qco :=
  if d =? 0 then Ok l
  else
    let! m := mod4d2_w d in
    match m with
    | M1 => let! a := #(q0 l) ⊕ #(q1 l) in let! b := ⊝ #(q1 l) in Ok (QCo a b)
    | M23 => let! b := ⊝ #(q1 l) in Ok (QCo (q0 l) b)
    | M0 => Panic PUnreachable
    end.

(** integer.rs:273-308  from_coeffs *)
Definition qint_from_coeffs_w (co : qco) (d : Z) : res qint :=
  if negb (cplx g) && (d <? 0) then Panic PNegRoot
  else
    let! m := #d ⊚ four_w in
    if m =? 0 then Panic PMod4
    else
      let 'QCo a b := co in
      let! ad := absT_w t d in
      let! root := sqrtT ad in
      let! rr := #root ⊗ #root in
      let! (a, b, r) :=
        if rr =? d then
          if d <? 0 then
            let! b := #b ⊗ #root in let! m1 := ⊝ #1 in Ok (a, b, m1)
          else
            let! a := #a ⊕ #b ⊗ #root in Ok (a, 0, 0)
        else Ok (a, b, d) in
      if (b =? 0) || (r =? 0) then Ok (QInt (QCo a 0) 0)
      else Ok (QInt (QCo a b) r).

(** integer.rs:251-257: the loop removing factors 4 from the root.
    [fuel] is the binary length of r, which bounds the number of iterations. *)
Fixpoint remove4_w (fuel : nat) (b r : Z) : res (Z * Z) :=
  match fuel with
  | O => Hang
  | S fuel =>
    let! m := #r ⊚ four_w in
    if m =? 0 then
      let! r := #r ⊘ four_w in
      let! b := #b ⊕ #b in
      remove4_w fuel b r
    else Ok (b, r)
  end.

(** integer.rs:246-267  new *)
Definition qint_new_w (a b r : Z) : res qint :=
  let! (b, r) :=
    if 0 <? r then remove4_w (S (Z.to_nat (Z.log2 r))) b r else Ok (b, r) in
  let! m := mod4d2_w r in
  match m with
  | M1 =>
    let! y := #b ⊕ #b in
    let! x := #a ⊖ #b in
    qint_from_coeffs_w (QCo x y) r
  | M23 => qint_from_coeffs_w (QCo a b) r
  | M0 => Panic PUnreachable
  end.

(** integer.rs:310-320 *)
Definition qint_conj_w (x : qint) : res qint :=
  let! co := qco_conj_w (qcoeffs x) (qdiscr x) in Ok (QInt co (qdiscr x)).

Definition qint_norm_w (x : qint) : res Z := qco_norm_w (qcoeffs x) (qdiscr x).

Definition qint_is_pure_w (x : qint) : res bool :=
  let! m := mod4d2_w (qdiscr x) in
  match m with
  | M1 =>
    let! s := #(q0 (qcoeffs x)) ⊕ #(q0 (qcoeffs x)) ⊕ #(q1 (qcoeffs x)) in
    Ok (s =? 0)
  | M23 => Ok (q1 (qcoeffs x) =? 0)
  | M0 => Panic PUnreachable
  end.

(** integer.rs:341-350  parts_doubled *)
Definition qint_parts_doubled_w (x : qint) : res (Z * Z) :=
  let 'QCo a b := qcoeffs x in
  let! m := mod4d2_w (qdiscr x) in
  match m with
  | M1 => let! u := #a ⊕ #a ⊕ #b in Ok (u, b)
  | M23 => let! u := #a ⊕ #a in let! v := #b ⊕ #b in Ok (u, v)
  | M0 => Panic PUnreachable
  end.

(** integer.rs:357-385  reduce_root_hinted *)
Definition qint_reduce_root_hinted_w (x : qint) (hint : Z) : res qint :=
  let! hint := absT_w t hint in
  if (hint =? 0) || (hint =? 1) || (hint <? 0) then Ok x
  else
    let! (quo, rem) := div_remT t (qdiscr x) hint in
    if rem =? 0 then
      let! root := sqrtT hint in
      let! rr := #root ⊗ #root in
      if rr =? hint then
        let! m := mod4d2_w (qdiscr x) in
        match m with
        | M1 =>
          let! scale := (#root ⊖ #1) ⊘ (#1 ⊕ #1) in
          let! a := #(q0 (qcoeffs x)) ⊖ #(q1 (qcoeffs x)) ⊗ #scale in
          let! b := #(q1 (qcoeffs x)) ⊗ #root in
          qint_from_coeffs_w (QCo a b) quo
        | M23 =>
          let! b := #(q1 (qcoeffs x)) ⊗ #root in
          qint_from_coeffs_w (QCo (q0 (qcoeffs x)) b) quo
        | M0 => Panic PUnreachable
        end
      else Ok x
    else Ok x.

(** integer.rs:388-396 *)
Definition qint_neg_w (x : qint) : res qint :=
  let! a := ⊝ #(q0 (qcoeffs x)) in
  let! b := ⊝ #(q1 (qcoeffs x)) in
  Ok (QInt (QCo a b) (qdiscr x)).

(** integer.rs:398-428 (not complex), 430-458 (complex) *)
Definition qint_reduce_bin_op_w (l r : qint) : res (option (qint * qint)) :=
  if cplx g then
    if xorb (qdiscr l <? 0) (qdiscr r <? 0) then Ok None
    else
      let! al := absT_w t (qdiscr l) in
      let! ar := absT_w t (qdiscr r) in
      let! (l, r) :=
        if ar <? al then
          let! hint := #(qdiscr l) ⊘ #(qdiscr r) in
          let! l := qint_reduce_root_hinted_w l hint in Ok (l, r)
        else if al <? ar then
          let! hint := #(qdiscr r) ⊘ #(qdiscr l) in
          let! r := qint_reduce_root_hinted_w r hint in Ok (l, r)
        else Ok (l, r) in
      Ok (if qdiscr l =? qdiscr r then Some (l, r) else None)
  else
    let! _ := dassert g (negb (qdiscr l =? 0)) in
    let! _ := dassert g (negb (qdiscr r =? 0)) in
    let! (l, r) :=
      if qdiscr r <? qdiscr l then
        let! hint := #(qdiscr l) ⊘ #(qdiscr r) in
        let! l := qint_reduce_root_hinted_w l hint in Ok (l, r)
      else if qdiscr l <? qdiscr r then
        let! hint := #(qdiscr r) ⊘ #(qdiscr l) in
        let! r := qint_reduce_root_hinted_w r hint in Ok (l, r)
      else Ok (l, r) in
    Ok (if qdiscr l =? qdiscr r then Some (l, r) else None).

(** integer.rs:460-469 *)
Definition qint_reduce_bin_op_unwrap_w (l r : qint) : res (qint * qint) :=
  let! o := qint_reduce_bin_op_w l r in
  match o with Some p => Ok p | None => Panic PIncompatible end.

(** integer.rs:471-489  PartialEq::eq *)
Definition qint_eq_w (l r : qint) : res bool :=
  if qdiscr l =? qdiscr r then Ok (qco_eqb (qcoeffs l) (qcoeffs r))
  else if (qdiscr l =? 0) || (qdiscr r =? 0) then Ok false
  else
    let! (la, lb) := qint_parts_doubled_w l in
    let! (ra, rb) := qint_parts_doubled_w r in
    if la =? ra then
      let! u := #lb ⊗ #lb ⊗ #(qdiscr l) in
      let! v := #rb ⊗ #rb ⊗ #(qdiscr r) in
      Ok (u =? v)
    else Ok false.

(** integer.rs:675-685: One::is_one is not overridden; the default of num-traits compares with one() *)
Definition qint_is_one_w (x : qint) : res bool := qint_eq_w x qint_one.

Definition qint_add_int_w (x : qint) (k : Z) : res qint :=
  let! co := qco_add_int_w (qcoeffs x) k in Ok (QInt co (qdiscr x)).

Definition qint_sub_int_w (x : qint) (k : Z) : res qint :=
  let! co := qco_sub_int_w (qcoeffs x) k in Ok (QInt co (qdiscr x)).

Definition qint_mul_int_w (x : qint) (k : Z) : res qint :=
  if k =? 0 then Ok qint_zero
  else let! co := qco_mul_int_w (qcoeffs x) k in Ok (QInt co (qdiscr x)).

Definition qint_div_int_w (x : qint) (k : Z) : res qint :=
  let! co := qco_div_int_w (qcoeffs x) k in Ok (QInt co (qdiscr x)).

Definition qint_rem_int_w (x : qint) (k : Z) : res qint :=
  let! co := qco_rem_int_w (qcoeffs x) k in Ok (QInt co (qdiscr x)).

(** integer.rs:502-519 *)
Definition qint_add_w (l r : qint) : res qint :=
  if qint_is_rational r then qint_add_int_w l (q0 (qcoeffs r))
  else if qint_is_rational l then qint_add_int_w r (q0 (qcoeffs l))
  else
    let! (l, r) := qint_reduce_bin_op_unwrap_w l r in
    let! co := qco_add_w (qcoeffs l) (qcoeffs r) in
    qint_from_coeffs_w co (qdiscr r).

(** integer.rs:530-547 *)
Definition qint_sub_w (l r : qint) : res qint :=
  if qint_is_rational r then qint_sub_int_w l (q0 (qcoeffs r))
  else if qint_is_rational l then
    let! s := qint_sub_int_w r (q0 (qcoeffs l)) in qint_neg_w s
  else
    let! (l, r) := qint_reduce_bin_op_unwrap_w l r in
    let! co := qco_sub_w (qcoeffs l) (qcoeffs r) in
    qint_from_coeffs_w co (qdiscr r).

(** integer.rs:566-589 *)
Definition qint_mul_w (l r : qint) : res qint :=
  if qint_is_rational r then qint_mul_int_w l (q0 (qcoeffs r))
  else if qint_is_rational l then qint_mul_int_w r (q0 (qcoeffs l))
  else
    let! (l, r) := qint_reduce_bin_op_unwrap_w l r in
    let! co := qco_mul_w (qcoeffs l) (qcoeffs r) (qdiscr l) in
    qint_from_coeffs_w co (qdiscr r).

(** integer.rs:604-628 *)
Definition qint_div_w (l r : qint) : res qint :=
  if qint_is_rational r then qint_div_int_w l (q0 (qcoeffs r))
  else if qint_is_rational l then
    let! co := qco_div_w (qcoeffs l) (qcoeffs r) (qdiscr r) in
    qint_from_coeffs_w co (qdiscr r)
  else
    let! (l, r) := qint_reduce_bin_op_unwrap_w l r in
    let! co := qco_div_w (qcoeffs l) (qcoeffs r) (qdiscr l) in
    qint_from_coeffs_w co (qdiscr r).

(** integer.rs:643-657; a rational right operand is handled with [/], as in the source *)
Definition qint_rem_w (l r : qint) : res qint :=
  if qint_is_rational r then qint_div_int_w l (q0 (qcoeffs r))
  else
    let! (l, r) := qint_reduce_bin_op_unwrap_w l r in
    let! (_, co) := qco_div_rem_w (qcoeffs l) (qcoeffs r) (qdiscr l) in
    qint_from_coeffs_w co (qdiscr r).

(** surd.rs:567-576  QuadraticSurd::to_quadint *)
Definition surd_to_quadint_w (s : surd) : res (approx qint) :=
  let 'Surd (SCo a b c) r := s in
  if is_quadint s then let! q := qint_new_w a b r in Ok (Exact q)
  else
    let! x := #a ⊘ #c in
    let! y := #b ⊘ #c in
    let! q := qint_new_w x y r in
    Ok (Approximated q).

Definition gauss_conj_w (x : qco) : res qco :=
  let! b := ⊝ #(q1 x) in Ok (QCo (q0 x) b).

Definition gauss_norm_w (x : qco) : res Z := #(q0 x) ⊗ #(q0 x) ⊕ #(q1 x) ⊗ #(q1 x).

Definition gauss_add_w (x y : qco) : res qco := qco_add_w x y.

Definition gauss_sub_w (x y : qco) : res qco := qco_sub_w x y.

Definition gauss_mul_w (x y : qco) : res qco :=
  let! d := ⊝ #1 in qco_mul_w x y d.

Definition gauss_div_w (x y : qco) : res qco :=
  let! d := ⊝ #1 in qco_div_w x y d.

Definition gauss_rem_w (x y : qco) : res qco :=
  let! d := ⊝ #1 in let! (_, r) := qco_div_rem_w x y d in Ok r.
End QInt.
