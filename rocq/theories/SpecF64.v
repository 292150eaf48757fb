(** * SpecF64: vocabulary of the statements about floating-point numbers *)

From Coq Require Import ZArith Reals.
From Flocq Require Import Core BinarySingleNaN.
From Verif Require Import Base ModelSurd ModelFloat.
Open Scope R_scope.

(** [f] is finite and no finite number of the format is closer to [x] *)
Definition nearest {prec emax} (f : binary_float prec emax) (x : R) : Prop :=
  is_finite f = true /\ forall g : binary_float prec emax, is_finite g = true -> Rabs (B2R f - x) <= Rabs (B2R g - x).

(** [f] is finite and differs from [x] by at most [d] *)
Definition accurate (f : f64) (x d : R) : Prop := is_finite f = true /\ Rabs (B2R f - x) <= d.

(** 2^-50 *)
Definition eps50 : R := / IZR (2 ^ 50).

(** The integers of the surd are at most [B] *)
Definition small (s : surd) (B : Z) : Prop :=
  (Z.abs (c0 (coeffs s)) <= B /\ Z.abs (c1 (coeffs s)) <= B /\ Z.abs (c2 (coeffs s)) <= B /\ Z.abs (discr s) <= B)%Z.

(** (|a| + |b| sqrt r) / c: the size of the two terms that to_f64 adds *)
Definition term_size (s : surd) : R :=
  (Rabs (IZR (c0 (coeffs s))) + Rabs (IZR (c1 (coeffs s))) * sqrt (IZR (discr s))) / IZR (c2 (coeffs s)).

(** Rounding to single precision outside the range of the finite numbers: infinities and NaN are kept, large numbers become infinite *)
Definition single_range (x : f64) (y : f32) : Prop :=
  match x with
  | B754_infinity s => y = B754_infinity s
  | B754_nan => y = B754_nan
  | _ => bpow radix2 128 <= Rabs (B2R x) -> y = B754_infinity (Bsign x)
  end.
