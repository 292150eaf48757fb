(** * ModelInt: model of /repo/src/quadratic/integer.rs
    (QuadraticIntCoeffs, QuadraticInt, GaussianInt). *)

From Coq Require Import ZArith Bool List.
From Verif Require Import Base Ext ModelSurd.
Import ListNotations.
Open Scope Z_scope.

(** integer.rs:59-60  QuadraticIntCoeffs<T>(pub T, pub T) *)
Record qco := QCo { q0 : Z; q1 : Z }.

(** integer.rs:236-240  QuadraticInt<T> { coeffs, discr } *)
Record qint := QInt { qcoeffs : qco; qdiscr : Z }.

(** The three possible answers of mod4d2 (integer.rs:13-37): -1, 0, 1 *)
Inductive mod4 := M0 | M1 | M23.

Section QInt.
Context (g : cfg) (t : ity).
Local Notation "x ⊕ y" := (lift2 (addT t) x y) (at level 50, left associativity).
Local Notation "x ⊖ y" := (lift2 (subT t) x y) (at level 50, left associativity).
Local Notation "x ⊗ y" := (lift2 (mulT t) x y) (at level 40, left associativity).
Local Notation "x ⊘ y" := (lift2 (quotT t) x y) (at level 40, left associativity).
Local Notation "x ⊚ y" := (lift2 (remT t) x y) (at level 40, left associativity).
Local Notation "⊝ x" := (lift1 (negT t) x) (at level 35, right associativity).
Local Notation "# x" := (@Ok Z x) (at level 5, format "# x").

(** integer.rs:8-11 *)
Definition four : res Z := #1 ⊕ #1 ⊕ #1 ⊕ #1.

(** integer.rs:13-37: M0 for -1 (v = 0 mod 4), M1 for 0, M23 for 1 *)
Definition mod4d2 (v : Z) : res mod4 :=
  let! m := #v ⊚ four in
  if m =? 0 then Ok M0
  else if v <? 0 then
    let! m2 := (four ⊕ #m) ⊘ (#1 ⊕ #1) in
    Ok (if m2 =? 1 then M23 else M1)
  else
    let! m2 := #m ⊘ (#1 ⊕ #1) in
    Ok (if m2 =? 1 then M23 else M1).

(** integer.rs:39-49 *)
Definition div_rem_round (x y : Z) : res (Z * Z) :=
  let! two := #1 ⊕ #1 in
  let! ay := absT t y in
  let! offset := #ay ⊘ #two ⊗ #(Z.sgn x) in
  let! s := #x ⊕ #offset in
  let! (q, r) := div_remT t s y in
  let! r := #r ⊖ #offset in
  Ok (q, r).

(** ** Coefficients, integer.rs:68-125 *)
Definition qco_add_int (l : qco) (k : Z) : res qco :=
  let! a := #(q0 l) ⊕ #k in Ok (QCo a (q1 l)).
Definition qco_add (l r : qco) : res qco :=
  let! a := #(q0 l) ⊕ #(q0 r) in let! b := #(q1 l) ⊕ #(q1 r) in Ok (QCo a b).
Definition qco_sub_int (l : qco) (k : Z) : res qco :=
  let! a := #(q0 l) ⊖ #k in Ok (QCo a (q1 l)).
Definition qco_sub (l r : qco) : res qco :=
  let! a := #(q0 l) ⊖ #(q0 r) in let! b := #(q1 l) ⊖ #(q1 r) in Ok (QCo a b).
Definition qco_mul_int (l : qco) (k : Z) : res qco :=
  let! a := #(q0 l) ⊗ #k in let! b := #(q1 l) ⊗ #k in Ok (QCo a b).
Definition qco_div_int (l : qco) (k : Z) : res qco :=
  let! (a, _) := div_rem_round (q0 l) k in
  let! (b, _) := div_rem_round (q1 l) k in
  Ok (QCo a b).
Definition qco_rem_int (l : qco) (k : Z) : res qco :=
  let! (_, a) := div_rem_round (q0 l) k in
  let! (_, b) := div_rem_round (q1 l) k in
  Ok (QCo a b).

(** integer.rs:131-147  norm_ref, 223-225 norm *)
Definition qco_norm (l : qco) (d : Z) : res Z :=
  if d =? 0 then #(q0 l) ⊗ #(q0 l)
  else
    let! m := mod4d2 d in
    match m with
    | M1 => #(q0 l) ⊗ #(q0 l) ⊕ #(q0 l) ⊗ #(q1 l)
              ⊕ #(q1 l) ⊗ #(q1 l) ⊗ ((#1 ⊖ #d) ⊘ four)
    | M23 => #(q0 l) ⊗ #(q0 l) ⊖ #(q1 l) ⊗ #(q1 l) ⊗ #d
    | M0 => Panic PUnreachable
    end.

(** integer.rs:187-200 *)
Definition qco_mul (l r : qco) (d : Z) : res qco :=
  let! m := mod4d2 d in
  match m with
  | M1 =>
    let! a := #(q0 l) ⊗ #(q0 r) ⊕ #(q1 l) ⊗ #(q1 r) ⊗ ((#d ⊖ #1) ⊘ four) in
    let! b := #(q0 l) ⊗ #(q1 r) ⊕ #(q1 l) ⊗ (#(q0 r) ⊕ #(q1 r)) in
    Ok (QCo a b)
  | M23 =>
    let! a := #(q0 l) ⊗ #(q0 r) ⊕ #(q1 l) ⊗ #(q1 r) ⊗ #d in
    let! b := #(q0 l) ⊗ #(q1 r) ⊕ #(q1 l) ⊗ #(q0 r) in
    Ok (QCo a b)
  | M0 => Panic PUnreachable
  end.

(** integer.rs:149-177 *)
Definition qco_div_rem (l r : qco) (d : Z) : res (qco * qco) :=
  let! m := mod4d2 d in
  let! (a, b) :=
    match m with
    | M1 =>
      let! a := #(q0 l) ⊗ #(q0 r) ⊕ #(q0 l) ⊗ #(q1 r)
                  ⊖ #(q1 l) ⊗ #(q1 r) ⊗ ((#d ⊖ #1) ⊘ four) in
      let! b := #(q1 l) ⊗ #(q0 r) ⊖ #(q0 l) ⊗ #(q1 r) in
      Ok (a, b)
    | M23 =>
      let! a := #(q0 l) ⊗ #(q0 r) ⊖ #(q1 l) ⊗ #(q1 r) ⊗ #d in
      let! b := #(q1 l) ⊗ #(q0 r) ⊖ #(q0 l) ⊗ #(q1 r) in
      Ok (a, b)
    | M0 => Panic PUnreachable
    end in
  let! n := qco_norm r d in
  let! (aq, ar) := div_rem_round a n in
  let! (bq, br) := div_rem_round b n in
  let! p := qco_mul r (QCo ar br) d in
  let! rem := qco_div_int p n in
  Ok (QCo aq bq, rem).

(** integer.rs:202-204 *)
Definition qco_div (l r : qco) (d : Z) : res qco :=
  let! (q, _) := qco_div_rem l r d in Ok q.

(** integer.rs:207-221 *)
Definition qco_conj (l : qco) (d : Z) : res qco :=
  if d =? 0 then Ok l
  else
    let! m := mod4d2 d in
    match m with
    | M1 => let! a := #(q0 l) ⊕ #(q1 l) in let! b := ⊝ #(q1 l) in Ok (QCo a b)
    | M23 => let! b := ⊝ #(q1 l) in Ok (QCo (q0 l) b)
    | M0 => Panic PUnreachable
    end.

(** ** QuadraticInt *)

(** integer.rs:273-308  from_coeffs *)
Definition qint_from_coeffs (co : qco) (d : Z) : res qint :=
  if negb (cplx g) && (d <? 0) then Panic PNegRoot
  else
    let! m := #d ⊚ four in
    if m =? 0 then Panic PMod4
    else
      let 'QCo a b := co in
      let! ad := absT t d in
      let! root := sqrtT ad in
      let! rr := #root ⊗ #root in
      let! (a, b, r) :=
        if rr =? d then
          if d <? 0 then
            let! b := #b ⊗ #root in let! m1 := ⊝ #1 in Ok (a, b, m1)
          else
            let! a := #a ⊕ #b ⊗ #root in Ok (a, 0, 0)
        else Ok (a, b, d) in
      if (b =? 0) || (r =? 0) then Ok (QInt (QCo a 0) 0)
      else Ok (QInt (QCo a b) r).

(** integer.rs:251-257: the loop removing factors 4 from the root.
    [fuel] is the binary length of r, which bounds the number of iterations. *)
Fixpoint remove4 (fuel : nat) (b r : Z) : res (Z * Z) :=
  match fuel with
  | O => Hang
  | S fuel =>
    let! m := #r ⊚ four in
    if m =? 0 then
      let! r := #r ⊘ four in
      let! b := #b ⊕ #b in
      remove4 fuel b r
    else Ok (b, r)
  end.

(** integer.rs:246-267  new *)
Definition qint_new (a b r : Z) : res qint :=
  let! (b, r) :=
    if 0 <? r then remove4 (S (Z.to_nat (Z.log2 r))) b r else Ok (b, r) in
  let! m := mod4d2 r in
  match m with
  | M1 =>
    let! y := #b ⊕ #b in
    let! x := #a ⊖ #b in
    qint_from_coeffs (QCo x y) r
  | M23 => qint_from_coeffs (QCo a b) r
  | M0 => Panic PUnreachable
  end.

(** integer.rs:310-320 *)
Definition qint_conj (x : qint) : res qint :=
  let! co := qco_conj (qcoeffs x) (qdiscr x) in Ok (QInt co (qdiscr x)).
Definition qint_norm (x : qint) : res Z := qco_norm (qcoeffs x) (qdiscr x).

(** integer.rs:321-332 *)
Definition qint_is_rational (x : qint) : bool := q1 (qcoeffs x) =? 0.
Definition qint_is_pure (x : qint) : res bool :=
  let! m := mod4d2 (qdiscr x) in
  match m with
  | M1 =>
    let! s := #(q0 (qcoeffs x)) ⊕ #(q0 (qcoeffs x)) ⊕ #(q1 (qcoeffs x)) in
    Ok (s =? 0)
  | M23 => Ok (q1 (qcoeffs x) =? 0)
  | M0 => Panic PUnreachable
  end.

(** integer.rs:341-350  parts_doubled *)
Definition qint_parts_doubled (x : qint) : res (Z * Z) :=
  let 'QCo a b := qcoeffs x in
  let! m := mod4d2 (qdiscr x) in
  match m with
  | M1 => let! u := #a ⊕ #a ⊕ #b in Ok (u, b)
  | M23 => let! u := #a ⊕ #a in let! v := #b ⊕ #b in Ok (u, v)
  | M0 => Panic PUnreachable
  end.

(** integer.rs:357-385  reduce_root_hinted *)
Definition qint_reduce_root_hinted (x : qint) (hint : Z) : res qint :=
  let! hint := absT t hint in
  if (hint =? 0) || (hint =? 1) || (hint <? 0) then Ok x
  else
    let! (quo, rem) := div_remT t (qdiscr x) hint in
    if rem =? 0 then
      let! root := sqrtT hint in
      let! rr := #root ⊗ #root in
      if rr =? hint then
        let! m := mod4d2 (qdiscr x) in
        match m with
        | M1 =>
          let! scale := (#root ⊖ #1) ⊘ (#1 ⊕ #1) in
          let! a := #(q0 (qcoeffs x)) ⊖ #(q1 (qcoeffs x)) ⊗ #scale in
          let! b := #(q1 (qcoeffs x)) ⊗ #root in
          qint_from_coeffs (QCo a b) quo
        | M23 =>
          let! b := #(q1 (qcoeffs x)) ⊗ #root in
          qint_from_coeffs (QCo (q0 (qcoeffs x)) b) quo
        | M0 => Panic PUnreachable
        end
      else Ok x
    else Ok x.

(** integer.rs:388-396 *)
Definition qint_neg (x : qint) : res qint :=
  let! a := ⊝ #(q0 (qcoeffs x)) in
  let! b := ⊝ #(q1 (qcoeffs x)) in
  Ok (QInt (QCo a b) (qdiscr x)).

(** integer.rs:398-428 (not complex), 430-458 (complex) *)
Definition qint_reduce_bin_op (l r : qint) : res (option (qint * qint)) :=
  if cplx g then
    if xorb (qdiscr l <? 0) (qdiscr r <? 0) then Ok None
    else
      let! al := absT t (qdiscr l) in
      let! ar := absT t (qdiscr r) in
      let! (l, r) :=
        if ar <? al then
          let! hint := #(qdiscr l) ⊘ #(qdiscr r) in
          let! l := qint_reduce_root_hinted l hint in Ok (l, r)
        else if al <? ar then
          let! hint := #(qdiscr r) ⊘ #(qdiscr l) in
          let! r := qint_reduce_root_hinted r hint in Ok (l, r)
        else Ok (l, r) in
      Ok (if qdiscr l =? qdiscr r then Some (l, r) else None)
  else
    let! _ := dassert g (negb (qdiscr l =? 0)) in
    let! _ := dassert g (negb (qdiscr r =? 0)) in
    let! (l, r) :=
      if qdiscr r <? qdiscr l then
        let! hint := #(qdiscr l) ⊘ #(qdiscr r) in
        let! l := qint_reduce_root_hinted l hint in Ok (l, r)
      else if qdiscr l <? qdiscr r then
        let! hint := #(qdiscr r) ⊘ #(qdiscr l) in
        let! r := qint_reduce_root_hinted r hint in Ok (l, r)
      else Ok (l, r) in
    Ok (if qdiscr l =? qdiscr r then Some (l, r) else None).

(** integer.rs:460-469 *)
Definition qint_reduce_bin_op_unwrap (l r : qint) : res (qint * qint) :=
  let! o := qint_reduce_bin_op l r in
  match o with Some p => Ok p | None => Panic PIncompatible end.

Definition qco_eqb (x y : qco) : bool := (q0 x =? q0 y) && (q1 x =? q1 y).

(** integer.rs:471-489  PartialEq::eq *)
Definition qint_eq (l r : qint) : res bool :=
  if qdiscr l =? qdiscr r then Ok (qco_eqb (qcoeffs l) (qcoeffs r))
  else if (qdiscr l =? 0) || (qdiscr r =? 0) then Ok false
  else
    let! (la, lb) := qint_parts_doubled l in
    let! (ra, rb) := qint_parts_doubled r in
    if la =? ra then
      let! u := #lb ⊗ #lb ⊗ #(qdiscr l) in
      let! v := #rb ⊗ #rb ⊗ #(qdiscr r) in
      Ok (u =? v)
    else Ok false.

(** integer.rs:659-685 *)
Definition qint_zero : qint := QInt (QCo 0 0) 0.
Definition qint_is_zero (x : qint) : bool := (q0 (qcoeffs x) =? 0) && (q1 (qcoeffs x) =? 0).
Definition qint_one : qint := QInt (QCo 1 0) 0.
(** integer.rs:675-685: One::is_one is not overridden; the default of num-traits compares with one() *)
Definition qint_is_one (x : qint) : res bool := qint_eq x qint_one.

(** ** Arithmetic with integers, integer.rs:493-501, 521-529, 549-565, 591-603, 630-642 *)
Definition qint_add_int (x : qint) (k : Z) : res qint :=
  let! co := qco_add_int (qcoeffs x) k in Ok (QInt co (qdiscr x)).
Definition qint_sub_int (x : qint) (k : Z) : res qint :=
  let! co := qco_sub_int (qcoeffs x) k in Ok (QInt co (qdiscr x)).
Definition qint_mul_int (x : qint) (k : Z) : res qint :=
  if k =? 0 then Ok qint_zero
  else let! co := qco_mul_int (qcoeffs x) k in Ok (QInt co (qdiscr x)).
Definition qint_div_int (x : qint) (k : Z) : res qint :=
  let! co := qco_div_int (qcoeffs x) k in Ok (QInt co (qdiscr x)).
Definition qint_rem_int (x : qint) (k : Z) : res qint :=
  let! co := qco_rem_int (qcoeffs x) k in Ok (QInt co (qdiscr x)).

(** ** Arithmetic between quadratic integers *)

(** integer.rs:502-519 *)
Definition qint_add (l r : qint) : res qint :=
  if qint_is_rational r then qint_add_int l (q0 (qcoeffs r))
  else if qint_is_rational l then qint_add_int r (q0 (qcoeffs l))
  else
    let! (l, r) := qint_reduce_bin_op_unwrap l r in
    let! co := qco_add (qcoeffs l) (qcoeffs r) in
    qint_from_coeffs co (qdiscr r).

(** integer.rs:530-547 *)
Definition qint_sub (l r : qint) : res qint :=
  if qint_is_rational r then qint_sub_int l (q0 (qcoeffs r))
  else if qint_is_rational l then
    let! s := qint_sub_int r (q0 (qcoeffs l)) in qint_neg s
  else
    let! (l, r) := qint_reduce_bin_op_unwrap l r in
    let! co := qco_sub (qcoeffs l) (qcoeffs r) in
    qint_from_coeffs co (qdiscr r).

(** integer.rs:566-589 *)
Definition qint_mul (l r : qint) : res qint :=
  if qint_is_rational r then qint_mul_int l (q0 (qcoeffs r))
  else if qint_is_rational l then qint_mul_int r (q0 (qcoeffs l))
  else
    let! (l, r) := qint_reduce_bin_op_unwrap l r in
    let! co := qco_mul (qcoeffs l) (qcoeffs r) (qdiscr l) in
    qint_from_coeffs co (qdiscr r).

(** integer.rs:604-628 *)
Definition qint_div (l r : qint) : res qint :=
  if qint_is_rational r then qint_div_int l (q0 (qcoeffs r))
  else if qint_is_rational l then
    let! co := qco_div (qcoeffs l) (qcoeffs r) (qdiscr r) in
    qint_from_coeffs co (qdiscr r)
  else
    let! (l, r) := qint_reduce_bin_op_unwrap l r in
    let! co := qco_div (qcoeffs l) (qcoeffs r) (qdiscr l) in
    qint_from_coeffs co (qdiscr r).

(** integer.rs:643-657; a rational right operand is handled with [/], as in the source *)
Definition qint_rem (l r : qint) : res qint :=
  if qint_is_rational r then qint_div_int l (q0 (qcoeffs r))
  else
    let! (l, r) := qint_reduce_bin_op_unwrap l r in
    let! (_, co) := qco_div_rem (qcoeffs l) (qcoeffs r) (qdiscr l) in
    qint_from_coeffs co (qdiscr r).

(** surd.rs:567-576  QuadraticSurd::to_quadint *)
Definition surd_to_quadint (s : surd) : res (approx qint) :=
  let 'Surd (SCo a b c) r := s in
  if is_quadint s then let! q := qint_new a b r in Ok (Exact q)
  else
    let! x := #a ⊘ #c in
    let! y := #b ⊘ #c in
    let! q := qint_new x y r in
    Ok (Approximated q).

(** ** GaussianInt (feature "complex"), integer.rs:691-774.
    A GaussianInt wraps a QuadraticIntCoeffs. *)
Definition gauss_conj (x : qco) : res qco :=
  let! b := ⊝ #(q1 x) in Ok (QCo (q0 x) b).
Definition gauss_norm (x : qco) : res Z := #(q0 x) ⊗ #(q0 x) ⊕ #(q1 x) ⊗ #(q1 x).
Definition gauss_add (x y : qco) : res qco := qco_add x y.
Definition gauss_sub (x y : qco) : res qco := qco_sub x y.
Definition gauss_mul (x y : qco) : res qco :=
  let! d := ⊝ #1 in qco_mul x y d.
Definition gauss_div (x y : qco) : res qco :=
  let! d := ⊝ #1 in qco_div x y d.
Definition gauss_rem (x y : qco) : res qco :=
  let! d := ⊝ #1 in let! (_, r) := qco_div_rem x y d in Ok r.

End QInt.
