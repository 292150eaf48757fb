(** * ModelSurd: model of /repo/src/quadratic/surd.rs (QuadraticSurd).

    Conversions to and from continued fractions are in ModelConv.v,
    formatting in ModelFmt.v. *)

From Coq Require Import ZArith Bool List.
From Verif Require Import Base Ext.
Import ListNotations.
Open Scope Z_scope.

(** surd.rs:26-27  QuadraticSurdCoeffs<T>(pub T, pub T, pub T) *)
Record sco := SCo { c0 : Z; c1 : Z; c2 : Z }.

(** surd.rs:193-197  QuadraticSurd<T> { coeffs, discr } *)
Record surd := Surd { coeffs : sco; discr : Z }.

(** surd.rs:200-206  new_raw *)
Definition new_raw (a b c r : Z) : surd := Surd (SCo a b c) r.

(** surd.rs:208-211 parts, 712-717 Into<(T,T,T,T)> *)
Definition parts (s : surd) : Z * Z * Z * Z :=
  (c0 (coeffs s), c1 (coeffs s), c2 (coeffs s), discr s).

Section Surd.
Context (g : cfg) (t : ity).
Local Notation "x ⊕ y" := (lift2 (addT t) x y) (at level 50, left associativity).
Local Notation "x ⊖ y" := (lift2 (subT t) x y) (at level 50, left associativity).
Local Notation "x ⊗ y" := (lift2 (mulT t) x y) (at level 40, left associativity).
Local Notation "x ⊘ y" := (lift2 (quotT t) x y) (at level 40, left associativity).
Local Notation "⊝ x" := (lift1 (negT t) x) (at level 35, right associativity).
Local Notation "# x" := (@Ok Z x) (at level 5, format "# x").

(** ** Coefficient-level arithmetic *)

(** surd.rs:35-52 *)
Definition sco_add (l r : sco) : res sco :=
  if c2 l =? c2 r then
    let! a := #(c0 l) ⊕ #(c0 r) in
    let! b := #(c1 l) ⊕ #(c1 r) in
    Ok (SCo a b (c2 r))
  else
    let! a := #(c0 l) ⊗ #(c2 r) ⊕ #(c0 r) ⊗ #(c2 l) in
    let! b := #(c1 l) ⊗ #(c2 r) ⊕ #(c1 r) ⊗ #(c2 l) in
    let! c := #(c2 r) ⊗ #(c2 l) in
    Ok (SCo a b c).

(** surd.rs:54-71 *)
Definition sco_sub (l r : sco) : res sco :=
  if c2 l =? c2 r then
    let! a := #(c0 l) ⊖ #(c0 r) in
    let! b := #(c1 l) ⊖ #(c1 r) in
    Ok (SCo a b (c2 r))
  else
    let! a := #(c0 l) ⊗ #(c2 r) ⊖ #(c0 r) ⊗ #(c2 l) in
    let! b := #(c1 l) ⊗ #(c2 r) ⊖ #(c1 r) ⊗ #(c2 l) in
    let! c := #(c2 r) ⊗ #(c2 l) in
    Ok (SCo a b c).

(** surd.rs:78-82 *)
Definition sco_mul (l r : sco) (d : Z) : res sco :=
  let 'SCo la lb lc := l in
  let 'SCo ra rb rc := r in
  let! a := #la ⊗ #ra ⊕ #lb ⊗ #rb ⊗ #d in
  let! b := #la ⊗ #rb ⊕ #lb ⊗ #ra in
  let! c := #lc ⊗ #rc in
  Ok (SCo a b c).

(** surd.rs:83-92 *)
Definition sco_div (l r : sco) (d : Z) : res sco :=
  let 'SCo la lb lc := l in
  let 'SCo ra rb rc := r in
  let! c := #lc ⊗ (#ra ⊗ #ra ⊖ #rb ⊗ #rb ⊗ #d) in
  let! a := #rc ⊗ (#la ⊗ #ra ⊖ #lb ⊗ #rb ⊗ #d) in
  let! b := #rc ⊗ (#lb ⊗ #ra ⊖ #la ⊗ #rb) in
  Ok (SCo a b c).

(** surd.rs:93-96 *)
Definition sco_conj (l : sco) : res sco :=
  let! b := ⊝ #(c1 l) in Ok (SCo (c0 l) b (c2 l)).

(** surd.rs:97-103 *)
Definition sco_norm (l : sco) (d : Z) : res ratio :=
  let! n := #(c0 l) ⊗ #(c0 l) ⊖ #(c1 l) ⊗ #(c1 l) ⊗ #d in
  let! m := #(c2 l) ⊗ #(c2 l) in
  ratio_new t n m.

(** surd.rs:106-118 *)
Definition sco_add_ratio (l : sco) (q : ratio) : res sco :=
  let 'SCo la lb lc := l in
  let 'Ratio ra rc := q in
  if lc =? rc then
    let! a := #la ⊕ #ra in Ok (SCo a lb lc)
  else
    let! a := #la ⊗ #rc ⊕ #ra ⊗ #lc in
    let! b := #lb ⊗ #rc in
    let! c := #lc ⊗ #rc in
    Ok (SCo a b c).

(** surd.rs:120-132 *)
Definition sco_sub_ratio (l : sco) (q : ratio) : res sco :=
  let 'SCo la lb lc := l in
  let 'Ratio ra rc := q in
  if lc =? rc then
    let! a := #la ⊖ #ra in Ok (SCo a lb lc)
  else
    let! a := #la ⊗ #rc ⊖ #ra ⊗ #lc in
    let! b := #lb ⊗ #rc in
    let! c := #lc ⊗ #rc in
    Ok (SCo a b c).

(** surd.rs:134-140 *)
Definition sco_mul_ratio (l : sco) (q : ratio) : res sco :=
  let! a := #(c0 l) ⊗ #(numer q) in
  let! b := #(c1 l) ⊗ #(numer q) in
  let! c := #(c2 l) ⊗ #(denom q) in
  Ok (SCo a b c).

(** surd.rs:142-148 *)
Definition sco_div_ratio (l : sco) (q : ratio) : res sco :=
  let! a := #(c0 l) ⊗ #(denom q) in
  let! b := #(c1 l) ⊗ #(denom q) in
  let! c := #(c2 l) ⊗ #(numer q) in
  Ok (SCo a b c).

(** surd.rs:150-176 *)
Definition sco_add_int (l : sco) (k : Z) : res sco :=
  let! a := #(c0 l) ⊕ #k ⊗ #(c2 l) in Ok (SCo a (c1 l) (c2 l)).
Definition sco_sub_int (l : sco) (k : Z) : res sco :=
  let! a := #(c0 l) ⊖ #k ⊗ #(c2 l) in Ok (SCo a (c1 l) (c2 l)).
Definition sco_mul_int (l : sco) (k : Z) : res sco :=
  let! a := #(c0 l) ⊗ #k in let! b := #(c1 l) ⊗ #k in Ok (SCo a b (c2 l)).
Definition sco_div_int (l : sco) (k : Z) : res sco :=
  let! c := #(c2 l) ⊗ #k in Ok (SCo (c0 l) (c1 l) c).

(** ** Predicates, surd.rs:214-262 *)

Definition is_rational (s : surd) : bool := (c1 (coeffs s) =? 0) || (discr s =? 0).
Definition is_integer (s : surd) : bool := (c2 (coeffs s) =? 1) && is_rational s.
Definition is_gaussint (s : surd) : bool := c2 (coeffs s) =? 1.
Definition is_quadint (s : surd) : bool := c2 (coeffs s) =? 1.
Definition is_complex (s : surd) : bool := discr s <? 0.
Definition is_pure (s : surd) : bool := (c0 (coeffs s) =? 0) && negb (c1 (coeffs s) =? 0).

(** surd.rs:253-261: only compiled in with the feature "complex" *)
Definition panic_if_complex (s : surd) : res unit :=
  if cplx g && (discr s <? 0) then Panic PComplexOp else Ok tt.

(** ** Constructors *)

(** surd.rs:264-274  From<T> *)
Definition surd_of_int (n : Z) : surd := Surd (SCo n 0 1) 0.
(** surd.rs:276-287  From<Ratio<T>> *)
Definition surd_of_ratio (q : ratio) : surd := Surd (SCo (numer q) 0 (denom q)) 0.

(** surd.rs:299-310: fold a perfect-square root into the rational part *)
Definition reduce_square (a b r : Z) : res (Z * Z * Z) :=
  let! ar := absT t r in
  let! root := sqrtT ar in
  let! rr := #root ⊗ #root in
  if rr =? r then
    if r <? 0 then
      let! b := #b ⊗ #root in let! r := ⊝ #1 in Ok (a, b, r)
    else
      let! a := #a ⊕ #b ⊗ #root in Ok (a, 0, 0)
  else Ok (a, b, r).

(** surd.rs:312-336: divide out common factors *)
Definition reduce_common (a b c r : Z) : res (Z * Z * Z * Z) :=
  if (b =? 0) || (r =? 0) then
    let! gac := gcdT t a c in
    let! a := #a ⊘ #gac in
    let! c := #c ⊘ #gac in
    Ok (a, 0, c, 0)
  else
    let! gac := gcdT t a c in
    let! gac2 := #gac ⊗ #gac in
    let! gacr := gcdT t gac2 r in
    let! groot := sqrtT gacr in
    let! groot2 := #groot ⊗ #groot in
    let! (a, c, r, gac) :=
      if groot2 =? gacr then
        let! r := #r ⊘ #gacr in
        let! a := #a ⊘ #groot in
        let! c := #c ⊘ #groot in
        let! gac := #gac ⊘ #groot in
        Ok (a, c, r, gac)
      else Ok (a, c, r, gac) in
    let! gabc := gcdT t gac b in
    let! a := #a ⊘ #gabc in
    let! b := #b ⊘ #gabc in
    let! c := #c ⊘ #gabc in
    Ok (a, b, c, r).

(** surd.rs:338-343: keep the denominator positive *)
Definition reduce_sign (a b c r : Z) : res surd :=
  if c <? 0 then
    let! a := #0 ⊖ #a in
    let! b := #0 ⊖ #b in
    let! c := #0 ⊖ #c in
    Ok (new_raw a b c r)
  else Ok (new_raw a b c r).

(** surd.rs:293-344  reduce *)
Definition surd_reduce (s : surd) : res surd :=
  let 'Surd (SCo a b c) r := s in
  if c =? 0 then Panic PZeroDenom
  else
    let! (a, b, r) := reduce_square a b r in
    let! (a, b, c, r) := reduce_common a b c r in
    reduce_sign a b c r.

(** surd.rs:346-370  reduce_root_hinted *)
Definition reduce_root_hinted (s : surd) (hint : Z) : res surd :=
  let! hint := absT t hint in
  if (hint =? 0) || (hint =? 1) || (hint <? 0) then Ok s
  else
    let! (quo, rem) := div_remT t (discr s) hint in
    if rem =? 0 then
      let! root := sqrtT hint in
      let! rr := #root ⊗ #root in
      if rr =? hint then
        let! g1 := gcdT t root (c0 (coeffs s)) in
        let! g := gcdT t g1 (c2 (coeffs s)) in
        let! a := #(c0 (coeffs s)) ⊘ #g in
        let! b := #(c1 (coeffs s)) ⊗ #root ⊘ #g in
        let! c := #(c2 (coeffs s)) ⊘ #g in
        Ok (new_raw a b c quo)
      else Ok s
    else Ok s.

(** surd.rs:376-386  new *)
Definition surd_new (a b c r : Z) : res surd :=
  if negb (cplx g) && (r <? 0) then Panic PNegRoot
  else surd_reduce (new_raw a b c r).

(** surd.rs:388-398  from_coeffs *)
Definition surd_from_coeffs (co : sco) (r : Z) : res surd :=
  if negb (cplx g) && (r <? 0) then Panic PNegRoot
  else surd_reduce (Surd co r).

(** surd.rs:404-419  from_rationals *)
Definition surd_from_rationals (a b r : ratio) : res surd :=
  if negb (cplx g) && ratio_is_negative r then Panic PNegRoot
  else
    let! surd_r := #(numer r) ⊗ #(denom r) in
    let! new_b_denom := #(denom b) ⊗ #(denom r) in
    let! surd_a := #(numer a) ⊗ #new_b_denom in
    let! surd_b := #(numer b) ⊗ #(denom a) in
    let! surd_c := #(denom a) ⊗ #new_b_denom in
    surd_reduce (new_raw surd_a surd_b surd_c surd_r).

(** surd.rs:424-445  from_equation *)
Definition surd_from_equation (a b c : ratio) : res (option surd) :=
  if ratio_is_zero a then
    if ratio_is_zero b then Ok None
    else
      let! nc := ratio_neg t c in
      let! q := ratio_div t nc b in
      Ok (Some (surd_of_ratio q))
  else
    let! two := #1 ⊕ #1 in
    let! four := #two ⊗ #two in
    let! bb := ratio_mul t b b in
    let! fa := ratio_mul t (ratio_of four) a in
    let! fac := ratio_mul t fa c in
    let! delta := ratio_sub t bb fac in
    if negb (cplx g) && ratio_is_negative delta then Ok None
    else
      let! aa := ratio_mul t (ratio_of two) a in
      let! nb := ratio_neg t b in
      let! ra := ratio_recip t aa in
      let! x := ratio_mul t nb ra in
      let! s := surd_from_rationals x ra delta in
      Ok (Some s).

(** surd.rs:447-454 recip, 456-463 recip_ref (same computation on borrowed operands) *)
Definition surd_recip (s : surd) : res surd :=
  let 'Surd (SCo a b c) r := s in
  let! aa := #a ⊗ #a in
  let! bb := #b ⊗ #b in
  let! x := ⊝ (#c ⊗ #a) in
  let! y := #c ⊗ #b in
  let! z := #bb ⊗ #r ⊖ #aa in
  surd_new x y z r.

(** surd.rs:465-478  conj, conj_ref *)
Definition surd_conj (s : surd) : res surd :=
  let! co := sco_conj (coeffs s) in Ok (Surd co (discr s)).

(** surd.rs:1251-1260  Neg *)
Definition surd_neg (s : surd) : res surd :=
  let! a := ⊝ #(c0 (coeffs s)) in
  let! b := ⊝ #(c1 (coeffs s)) in
  Ok (new_raw a b (c2 (coeffs s)) (discr s)).

(** surd.rs:520-535 *)
Definition surd_numer (s : surd) : surd := new_raw (c0 (coeffs s)) (c1 (coeffs s)) 1 (discr s).
Definition surd_denom (s : surd) : surd := surd_of_int (c2 (coeffs s)).

(** surd.rs:1262-1294  Zero, One *)
Definition surd_zero : surd := Surd (SCo 0 0 1) 0.
Definition surd_is_zero (s : surd) : bool := (c0 (coeffs s) =? 0) && (c1 (coeffs s) =? 0).
Definition surd_one : surd := Surd (SCo 1 0 1) 0.
Definition surd_is_one (s : surd) : bool :=
  (c0 (coeffs s) =? 1) && (c1 (coeffs s) =? 0) && (c2 (coeffs s) =? 1).

(** ** Arithmetic with integers and rationals, surd.rs:1118-1140 (forward_binop!) *)
Definition surd_add_int (s : surd) (k : Z) : res surd :=
  let! co := sco_add_int (coeffs s) k in surd_from_coeffs co (discr s).
Definition surd_sub_int (s : surd) (k : Z) : res surd :=
  let! co := sco_sub_int (coeffs s) k in surd_from_coeffs co (discr s).
Definition surd_mul_int (s : surd) (k : Z) : res surd :=
  let! co := sco_mul_int (coeffs s) k in surd_from_coeffs co (discr s).
Definition surd_div_int (s : surd) (k : Z) : res surd :=
  let! co := sco_div_int (coeffs s) k in surd_from_coeffs co (discr s).
Definition surd_add_ratio (s : surd) (q : ratio) : res surd :=
  let! co := sco_add_ratio (coeffs s) q in surd_from_coeffs co (discr s).
Definition surd_sub_ratio (s : surd) (q : ratio) : res surd :=
  let! co := sco_sub_ratio (coeffs s) q in surd_from_coeffs co (discr s).
Definition surd_mul_ratio (s : surd) (q : ratio) : res surd :=
  let! co := sco_mul_ratio (coeffs s) q in surd_from_coeffs co (discr s).
Definition surd_div_ratio (s : surd) (q : ratio) : res surd :=
  let! co := sco_div_ratio (coeffs s) q in surd_from_coeffs co (discr s).

(** ** Matching the root bases of two operands *)

(** surd.rs:1045-1075 (not complex) and 1077-1105 (complex).  The first carries
    two debug_assert!s, the second a sign test and compares absolute values. *)
Definition reduce_bin_op (l r : surd) : res (option (surd * surd)) :=
  if cplx g then
    if xorb (discr l <? 0) (discr r <? 0) then Ok None
    else
      let! al := absT t (discr l) in
      let! ar := absT t (discr r) in
      let! (l, r) :=
        if ar <? al then
          let! hint := #(discr l) ⊘ #(discr r) in
          let! l := reduce_root_hinted l hint in Ok (l, r)
        else if al <? ar then
          let! hint := #(discr r) ⊘ #(discr l) in
          let! r := reduce_root_hinted r hint in Ok (l, r)
        else Ok (l, r) in
      Ok (if discr l =? discr r then Some (l, r) else None)
  else
    let! _ := dassert g (negb (discr l =? 0)) in
    let! _ := dassert g (negb (discr r =? 0)) in
    let! (l, r) :=
      if discr r <? discr l then
        let! hint := #(discr l) ⊘ #(discr r) in
        let! l := reduce_root_hinted l hint in Ok (l, r)
      else if discr l <? discr r then
        let! hint := #(discr r) ⊘ #(discr l) in
        let! r := reduce_root_hinted r hint in Ok (l, r)
      else Ok (l, r) in
    Ok (if discr l =? discr r then Some (l, r) else None).

(** surd.rs:1107-1116 *)
Definition reduce_bin_op_unwrap (l r : surd) : res (surd * surd) :=
  let! o := reduce_bin_op l r in
  match o with Some p => Ok p | None => Panic PIncompatible end.

(** ** Arithmetic between surds *)

(** surd.rs:1143-1161 *)
Definition surd_add (l r : surd) : res surd :=
  if is_rational r then
    let! q := ratio_new t (c0 (coeffs r)) (c2 (coeffs r)) in surd_add_ratio l q
  else if is_rational l then
    let! q := ratio_new t (c0 (coeffs l)) (c2 (coeffs l)) in surd_add_ratio r q
  else
    let! (l, r) := reduce_bin_op_unwrap l r in
    let! co := sco_add (coeffs l) (coeffs r) in
    surd_from_coeffs co (discr l).

(** surd.rs:1163-1181 *)
Definition surd_sub (l r : surd) : res surd :=
  if is_rational r then
    let! q := ratio_new t (c0 (coeffs r)) (c2 (coeffs r)) in surd_sub_ratio l q
  else if is_rational l then
    let! q := ratio_new t (c0 (coeffs l)) (c2 (coeffs l)) in
    let! s := surd_sub_ratio r q in surd_neg s
  else
    let! (l, r) := reduce_bin_op_unwrap l r in
    let! co := sco_sub (coeffs l) (coeffs r) in
    surd_from_coeffs co (discr l).

(** surd.rs:1183-1215 *)
Definition surd_mul (l r : surd) : res surd :=
  if is_rational r then
    let! q := ratio_new t (c0 (coeffs r)) (c2 (coeffs r)) in surd_mul_ratio l q
  else if is_rational l then
    let! q := ratio_new t (c0 (coeffs l)) (c2 (coeffs l)) in surd_mul_ratio r q
  else if is_pure l && is_pure r then
    let! gcd := gcdT t (discr l) (discr r) in
    let! d := (#(discr l) ⊘ #gcd) ⊗ (#(discr r) ⊘ #gcd) in
    let! b := #(c1 (coeffs l)) ⊗ #(c1 (coeffs r)) ⊗ #gcd in
    let! c := #(c2 (coeffs l)) ⊗ #(c2 (coeffs r)) in
    surd_new 0 b c d
  else
    let! (l, r) := reduce_bin_op_unwrap l r in
    let! co := sco_mul (coeffs l) (coeffs r) (discr l) in
    surd_from_coeffs co (discr l).

(** surd.rs:1217-1249 *)
Definition surd_div (l r : surd) : res surd :=
  if is_rational r then
    let! q := ratio_new t (c0 (coeffs r)) (c2 (coeffs r)) in surd_div_ratio l q
  else if is_rational l then
    let! q := ratio_new t (c0 (coeffs l)) (c2 (coeffs l)) in
    let! s := surd_div_ratio r q in surd_recip s
  else if is_pure l && is_pure r then
    let! gcd := gcdT t (discr l) (discr r) in
    let! ld := #(discr l) ⊘ #gcd in
    let! rd := #(discr r) ⊘ #gcd in
    let! b := #(c1 (coeffs l)) ⊗ #(c2 (coeffs r)) in
    let! c := #(c2 (coeffs l)) ⊗ #(c1 (coeffs r)) ⊗ #rd in
    let! d := #ld ⊗ #rd in
    surd_new 0 b c d
  else
    let! (l, r) := reduce_bin_op_unwrap l r in
    let! co := sco_div (coeffs l) (coeffs r) (discr l) in
    surd_from_coeffs co (discr l).

(** ** Rounding *)

(** surd.rs:480-496  trunc, 498-502 trunc_ref *)
Definition surd_trunc (s : surd) : res surd :=
  let 'Surd (SCo a b c) r := s in
  let bsign := Z.sgn b in
  if r <? 0 then
    let! w := #b ⊗ #b ⊗ (⊝ #r) in
    let! w := sqrtT w in
    let! br := #bsign ⊗ #w in
    let! x := #a ⊘ #c in
    let! y := #br ⊘ #c in
    let! m1 := ⊝ #1 in
    surd_from_coeffs (SCo x y 1) m1
  else
    let! w := #b ⊗ #b ⊗ #r in
    let! w := sqrtT w in
    let! br := #bsign ⊗ #w in
    let! n := (#a ⊕ #br) ⊘ #c in
    Ok (surd_of_int n).

(** surd.rs:504-518  fract, fract_ref *)
Definition surd_fract (s : surd) : res surd :=
  let! tr := surd_trunc s in surd_sub s tr.

(** surd.rs:537-550  to_integer *)
Definition surd_to_integer (s : surd) : res (approx Z) :=
  let! _ := panic_if_complex s in
  if is_integer s then Ok (Exact (c0 (coeffs s)))
  else let! tr := surd_trunc s in Ok (Approximated (c0 (coeffs tr))).

(** surd.rs:552-565  to_gaussint; a GaussianInt is the pair (re, im) (integer.rs:691-699) *)
Definition surd_to_gaussint (s : surd) : res (approx (Z * Z)) :=
  if is_gaussint s then Ok (Exact (c0 (coeffs s), c1 (coeffs s)))
  else let! tr := surd_trunc s in Ok (Approximated (c0 (coeffs tr), c1 (coeffs tr))).

(** surd.rs:578-594  to_rational *)
Definition surd_to_rational (s : surd) : res (approx ratio) :=
  let! _ := panic_if_complex s in
  if discr s =? 0 then Ok (Exact (Ratio (c0 (coeffs s)) (c2 (coeffs s))))
  else
    let! w := #(c1 (coeffs s)) ⊗ #(c1 (coeffs s)) ⊗ #(discr s) in
    let! w := sqrtT w in
    let! n := #(c0 (coeffs s)) ⊕ #w in
    Ok (Approximated (Ratio n (c2 (coeffs s)))).

(** surd.rs:596-624  floor, floor_ref *)
Definition surd_floor (s : surd) : res surd :=
  let! _ := panic_if_complex s in
  let 'Surd (SCo a b c) r := s in
  let! w := #b ⊗ #b ⊗ #r in
  let! br := sqrtT w in
  let! num := if 0 <=? b then #a ⊕ #br else #a ⊖ #br ⊖ #1 in
  let! num := if 0 <=? num then Ok num else #num ⊖ #c ⊕ #1 in
  let! n := #num ⊘ #c in
  Ok (surd_of_int n).

(** surd.rs:631-654  is_positive *)
Definition surd_is_positive (s : surd) : res bool :=
  let! _ := panic_if_complex s in
  let 'Surd (SCo a b c) r := s in
  if b =? 0 then Ok (0 <? a)
  else if 0 <? b then
    if 0 <? a then Ok true
    else let! x := #a ⊗ #a in let! y := #b ⊗ #b ⊗ #r in Ok (x <? y)
  else
    if negb (0 <? a) then Ok false
    else let! x := #a ⊗ #a in let! y := #b ⊗ #b ⊗ #r in Ok (y <? x).

(** surd.rs:656-679  is_negative *)
Definition surd_is_negative (s : surd) : res bool :=
  let! _ := panic_if_complex s in
  let 'Surd (SCo a b c) r := s in
  if b =? 0 then Ok (a <? 0)
  else if b <? 0 then
    if a <? 0 then Ok true
    else let! x := #a ⊗ #a in let! y := #b ⊗ #b ⊗ #r in Ok (x <? y)
  else
    if negb (a <? 0) then Ok false
    else let! x := #a ⊗ #a in let! y := #b ⊗ #b ⊗ #r in Ok (y <? x).

Definition sco_eqb (x y : sco) : bool :=
  (c0 x =? c0 y) && (c1 x =? c1 y) && (c2 x =? c2 y).

(** surd.rs:682-706  PartialEq::eq *)
Definition surd_eq (l r : surd) : res bool :=
  if discr l =? discr r then Ok (sco_eqb (coeffs l) (coeffs r))
  else if (discr l =? 0) || (discr r =? 0) then Ok false
  else
    let 'SCo la lb lc := coeffs l in
    let 'SCo ra rb rc := coeffs r in
    let! x := #la ⊗ #rc in
    let! y := #ra ⊗ #lc in
    if negb (x =? y) then Ok false
    else
      let! u := #lb ⊗ #lb ⊗ #(discr l) ⊗ #rc ⊗ #rc in
      let! v := #rb ⊗ #rb ⊗ #(discr r) ⊗ #lc ⊗ #lc in
      Ok (u =? v).

(** ** Removal of small square factors of the root *)

(** surd.rs:729-733 *)
Definition SMALL_PRIMES : list Z :=
  [2; 3; 5; 7; 11; 13; 17; 19; 23; 29; 31; 37; 41; 43; 47; 53; 59; 61; 67; 71; 73; 79; 83;
   89; 97; 101; 103; 107; 109; 113; 127; 131; 137; 139; 149; 151; 157; 163; 167; 173; 179;
   181; 191; 193; 197; 199; 211; 223; 227; 229; 233; 239; 241; 251].

(** surd.rs:737-746: the inner loop for one prime; the state is (b, r) *)
Fixpoint reduce_root_loop (fuel : nat) (p p2 b r : Z) : res (Z * Z) :=
  match fuel with
  | O => Hang
  | S fuel =>
    let! (quo, rem) := div_remT t r p2 in
    if rem =? 0 then
      let! b := #b ⊗ #p in reduce_root_loop fuel p p2 b quo
    else Ok (b, r)
  end.

(** surd.rs:734-748: the loop over the primes.  [T::from_u8(p).unwrap()] panics when
    p does not fit T; [checked_mul] skips the prime when p*p does not fit. *)
Fixpoint reduce_root_primes (fuel : nat) (ps : list Z) (b r : Z) : res (Z * Z) :=
  match ps with
  | nil => Ok (b, r)
  | p :: ps =>
    let! p := unwrap (checked t p) in
    match checked_mul t p p with
    | Some p2 =>
      let! (b, r) := reduce_root_loop fuel p p2 b r in
      reduce_root_primes fuel ps b r
    | None => reduce_root_primes fuel ps b r
    end
  end.

(** surd.rs:757-762  reduced = reduce_root then reduce *)
Definition surd_reduced (fuel : nat) (s : surd) : res surd :=
  let 'Surd (SCo a b c) r := s in
  let! (b, r) := reduce_root_primes fuel SMALL_PRIMES b r in
  surd_reduce (new_raw a b c r).

(** ** Primitive conversions, surd.rs:1296-1354 *)

(** The primitive conversions of T itself: Some when the value fits *)
Definition prim_to (pt : ity) (z : Z) : option Z := checked pt z.

(** surd.rs:1298-1305  from_i64 / from_u64 *)
Definition surd_from_prim (n : Z) : option surd :=
  match checked t n with Some z => Some (surd_of_int z) | None => None end.

(** surd.rs:1323-1342  to_i64 / to_u64 *)
Definition surd_to_prim (pt : ity) (s : surd) : res (option Z) :=
  if discr s <? 0 then Ok None
  else
    let! i := surd_to_integer s in
    match i with
    | Exact v => Ok (prim_to pt v)
    | Approximated _ => Ok None
    end.

(** ** Square roots *)

(** traits.rs:13-22 *)
Inductive sqrt_err := EOverflow | EComplex | EUnrepresentable.

(** Result<QuadraticSurd, FromSqrtError<D>> *)
Inductive sqrt_result (D : Type) := SqOk (s : surd) | SqErr (data : D) (kind : sqrt_err).
Arguments SqOk {D} s.
Arguments SqErr {D} data kind.

(** surd.rs:1384-1399 *)
Definition from_sqrt_int (n : Z) : res (sqrt_result Z) :=
  if negb (cplx g) && (n <? 0) then Ok (SqErr n EComplex)
  else let! s := surd_new 0 1 1 n in Ok (SqOk s).

(** surd.rs:1401-1432 *)
Definition from_sqrt_ratio (q : ratio) : res (sqrt_result ratio) :=
  if negb (cplx g) && ratio_is_negative q then Ok (SqErr q EComplex)
  else if ratio_is_integer q then
    let! s := surd_new 0 1 1 (numer q) in Ok (SqOk s)
  else
    match checked_mul t (numer q) (denom q) with
    | Some new_r => let! s := surd_new 0 1 (denom q) new_r in Ok (SqOk s)
    | None => Ok (SqErr q EOverflow)
    end.

(** surd.rs:1472-1480  reconstruct *)
Definition sqrt_reconstruct (x_y y : ratio) (r : Z) (k : sqrt_err) : res (sqrt_result surd) :=
  let! x := ratio_mul t x_y y in
  let! s := surd_from_rationals x y (ratio_of r) in
  Ok (SqErr s k).

(** surd.rs:1499-1515  get_abc *)
Definition get_abc (gg y : ratio) : res (option (Z * Z * Z)) :=
  let! two_ab := (#1 ⊕ #1) ⊗ #(numer gg) ⊗ #(denom gg) in
  let! d := gcdT t two_ab (numer y) in
  let! scale := #(numer y) ⊘ #d in
  let! c2 := #two_ab ⊗ #scale ⊗ #scale ⊗ #(denom y) ⊘ #(numer y) in
  let! a := #(numer gg) ⊗ #scale in
  let! b := #(denom gg) ⊗ #scale in
  if c2 <? 0 then Ok None
  else
    let! c := sqrtT c2 in
    let! cc := #c ⊗ #c in
    if negb (cc =? c2) then Ok None else Ok (Some (a, b, c)).

(** surd.rs:1434-1528 *)
Definition from_sqrt_surd (s : surd) : res (sqrt_result surd) :=
  let! isneg := if cplx g then Ok false else surd_is_negative s in
  if isneg then Ok (SqErr s EComplex)
  else if is_rational s then
    let! q := surd_to_rational s in
    match q with
    | Exact v =>
      let! r := from_sqrt_ratio v in
      match r with
      | SqOk s => Ok (SqOk s)
      | SqErr d k => Ok (SqErr (surd_of_ratio d) k)
      end
    | Approximated _ => Panic PUnreachable
    end
  else
    let 'Surd (SCo a b c) r := s in
    let! x := ratio_new t a c in
    let! y := ratio_new t b c in
    let! x_y := ratio_div t x y in
    let! xx := ratio_mul t x_y x_y in
    let! delta2 := ratio_sub_int t xx r in
    if ratio_is_negative delta2 then sqrt_reconstruct x_y y r EUnrepresentable
    else
      let! dl := from_sqrt_ratio delta2 in
      match dl with
      | SqErr _ k => sqrt_reconstruct x_y y r k
      | SqOk delta =>
        if is_rational delta then
          let! dq := surd_to_rational delta in
          let dq := approx_value dq in
          let! g1 := ratio_sub t x_y dq in
          let! o1 := get_abc g1 y in
          match o1 with
          | Some (a, b, c) =>
            let! ret := surd_new a b c r in
            let! _ := dassert g (negb (c0 (coeffs ret) <? 0)) in
            Ok (SqOk ret)
          | None =>
            let! g2 := ratio_add t x_y dq in
            let! o2 := get_abc g2 y in
            match o2 with
            | Some (a, b, c) =>
              let! ret := surd_new a b c r in
              let! _ := dassert g (negb (c0 (coeffs ret) <? 0)) in
              Ok (SqOk ret)
            | None => sqrt_reconstruct x_y y r EUnrepresentable
            end
          end
        else sqrt_reconstruct x_y y r EUnrepresentable
      end.

End Surd.
Arguments SqOk {D} s.
Arguments SqErr {D} data kind.
