(** * ModelFloat: conversions to and from floating point
    (/repo/src/quadratic/surd.rs:1307-1382, /repo/src/symbols.rs:34-36, 78-80).
    [f64] is the IEEE 754 binary64 format of the Flocq library (a single NaN);
    [+], [*], [/] and [sqrt] are its correctly rounded operations, ties to even. *)

From Coq Require Import ZArith Bool.
From Flocq Require Import Core BinarySingleNaN.
From Verif Require Import Base Ext ModelSurd.
Open Scope Z_scope.

Definition f64 : Type := binary_float 53 1024.
Definition f32 : Type := binary_float 24 128.

Definition prec64 : Prec_gt_0 53 := eq_refl.
Definition emax64 : Prec_lt_emax 53 1024 := eq_refl.
Definition prec32 : Prec_gt_0 24 := eq_refl.
Definition emax32 : Prec_lt_emax 24 128 := eq_refl.

Definition fadd (x y : f64) : f64 := @Bplus 53 1024 prec64 emax64 mode_NE x y.
Definition fmul (x y : f64) : f64 := @Bmult 53 1024 prec64 emax64 mode_NE x y.
Definition fdiv (x y : f64) : f64 := @Bdiv 53 1024 prec64 emax64 mode_NE x y.
Definition fsqrt (x : f64) : f64 := @Bsqrt 53 1024 prec64 emax64 mode_NE x.
Definition fabs (x : f64) : f64 := Babs x.
Definition fzero : f64 := B754_zero false.

(** ToPrimitive::to_f64 of the integer types: rounds to nearest, ties to even; integers
    beyond the range become infinite (they exist for BigInt only).  Never None. *)
Definition int_to_f64 (z : Z) : f64 := binary_normalize 53 1024 prec64 emax64 mode_NE z 0 false.

(** surd.rs:1344-1353  to_f64 *)
Definition surd_to_f64 (s : surd) : option f64 :=
  if discr s <? 0 then None
  else
    Some (fdiv (fadd (int_to_f64 (c0 (coeffs s)))
                     (fmul (int_to_f64 (c1 (coeffs s))) (fsqrt (int_to_f64 (discr s)))))
               (int_to_f64 (c2 (coeffs s)))).

(** surd.rs:1365-1375  to_complex64: the pair (re, im) *)
Definition surd_to_complex64 (s : surd) : option (f64 * f64) :=
  if discr s <? 0 then
    let c := int_to_f64 (c2 (coeffs s)) in
    let re := fdiv (int_to_f64 (c0 (coeffs s))) c in
    let im := fdiv (fmul (int_to_f64 (c1 (coeffs s))) (fsqrt (fabs (int_to_f64 (discr s))))) c in
    Some (re, im)
  else
    match surd_to_f64 s with
    | Some re => Some (re, fzero)
    | None => None
    end.

(** The cast [as f32] behind ToPrimitive::to_f32 of f64; never None *)
Definition f64_to_f32 (x : f64) : f32 :=
  match x with
  | B754_zero s => B754_zero s
  | B754_infinity s => B754_infinity s
  | B754_nan => B754_nan
  | B754_finite s m e _ => binary_normalize 24 128 prec32 emax32 mode_NE (cond_Zopp s (Zpos m)) e s
  end.

(** surd.rs:1377-1380  to_complex32 *)
Definition surd_to_complex32 (s : surd) : option (f32 * f32) :=
  match surd_to_complex64 s with
  | Some (re, im) => Some (f64_to_f32 re, f64_to_f32 im)
  | None => None
  end.

(** surd.rs:1308-1315  from_f64.  [frac] is the answer of the external
    Ratio::<i64>::from_f64 (num-rational), whose approximation is not modelled. *)
Definition surd_from_f64 (t : ity) (frac : option ratio) : res (option surd) :=
  match frac with
  | None => Ok None
  | Some q =>
    match checked t (numer q), checked t (denom q) with
    | Some n, Some d => let! r := ratio_new t n d in Ok (Some (surd_of_ratio r))
    | _, _ => Ok None
    end
  end.

(** A decimal literal m * 10^(-k), read as an f64: rounded to nearest, ties to even.  The
    quotient of the two integers is rounded once; both are taken exactly. *)
Definition f64_of_ratio (n d : positive) : f64 :=
  let k := 200 + Z.log2 (Zpos d) - Z.log2 (Zpos n) in
  let q := Z.shiftl (Zpos n) k / Zpos d in
  let sticky := if (Z.shiftl (Zpos n) k) mod Zpos d =? 0 then 0 else 1 in
  binary_normalize 53 1024 prec64 emax64 mode_NE (2 * q + sticky) (- k - 1) false.

(** symbols.rs:34-36  E::value: the literal 2.71828182845904523536028747 *)
Definition e_value : f64 := f64_of_ratio 271828182845904523536028747 100000000000000000000000000.
(** symbols.rs:78-80  Pi::value: the literal 3.141592653589793238462643383 *)
Definition pi_value : f64 := f64_of_ratio 3141592653589793238462643383 1000000000000000000000000000.
