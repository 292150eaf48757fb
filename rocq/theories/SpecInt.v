(** * SpecInt: what quadratic integers mean. *)

From Coq Require Import ZArith Reals.
From Coquelicot Require Import Coquelicot.
From Verif Require Import Base Ext ModelSurd ModelInt Spec.
Open Scope Z_scope.

(** The generator of the ring (integer.rs:228-235): (1 + sqrt d) / 2 for d = 1 mod 4, else
    sqrt d; and its algebraic conjugate. *)
Definition omega (d : Z) : C :=
  if d mod 4 =? 1 then ((RtoC 1 + csqrt d) / RtoC 2)%C else csqrt d.
Definition omega_conj (d : Z) : C :=
  if d mod 4 =? 1 then ((RtoC 1 - csqrt d) / RtoC 2)%C else (- csqrt d)%C.

(** The number a + b * omega, and its conjugate *)
Definition qval (x : qint) : C :=
  (ZtoC (q0 (qcoeffs x)) + ZtoC (q1 (qcoeffs x)) * omega (qdiscr x))%C.
Definition qconj (x : qint) : C :=
  (ZtoC (q0 (qcoeffs x)) + ZtoC (q1 (qcoeffs x)) * omega_conj (qdiscr x))%C.

(** Roots a quadratic integer can carry: not a square, not divisible by 4, and not negative
    without the feature "complex" *)
Definition good_root (g : cfg) (d : Z) : Prop :=
  ~ square d /\ d mod 4 <> 0 /\ (cplx g = false -> 0 <= d).

(** Well-formed quadratic integers: a plain integer with root 0, or any coefficients over a
    good root *)
Definition wfq (g : cfg) (x : qint) : Prop :=
  (q1 (qcoeffs x) = 0 /\ qdiscr x = 0) \/ good_root g (qdiscr x).

(** One root is an integer square times the other one, or one number is a plain integer *)
Definition qnested (x y : qint) : Prop :=
  q1 (qcoeffs x) = 0 \/ q1 (qcoeffs y) = 0 \/
  exists k, 0 < k /\ (qdiscr x = k * k * qdiscr y \/ qdiscr y = k * k * qdiscr x).

(** [n] is [x] rounded to the nearest integer, ties away from zero *)
Definition isround (x : R) (n : Z) : Prop :=
  ((0 <= x -> IZR n <= x + / 2 < IZR n + 1) /\ (x <= 0 -> IZR n - 1 < x - / 2 <= IZR n))%R.

(** A Gaussian integer as a complex number *)
Definition gval (x : qco) : C := (IZR (q0 x), IZR (q1 x)).

(** [z] is the quotient of [x] by [y], each coordinate (over 1 and omega d) rounded to the
    nearest integer *)
Definition rounded_quotient (d : Z) (x y z : C) : Prop :=
  exists p s k n m : Z, k <> 0 /\ y <> RtoC 0 /\
    (x / y)%C = ((ZtoC p + ZtoC s * omega d) / ZtoC k)%C /\
    z = (ZtoC n + ZtoC m * omega d)%C /\
    isround (IZR p / IZR k) n /\ isround (IZR s / IZR k) m.

(** The quadratic integers a program can build: one constructor per public function of
    QuadraticInt returning one (/repo/src/quadratic/integer.rs). *)
Inductive qreach (g : cfg) (t : ity) : qint -> Prop :=
| Q_new a b r x : qint_new g t a b r = Ok x -> qreach g t x
| Q_from_coeffs co d x : qint_from_coeffs g t co d = Ok x -> qreach g t x
| Q_zero : qreach g t qint_zero
| Q_one : qreach g t qint_one
| Q_conj x z : qreach g t x -> qint_conj t x = Ok z -> qreach g t z
| Q_neg x z : qreach g t x -> qint_neg t x = Ok z -> qreach g t z
| Q_add_int x k z : qreach g t x -> qint_add_int t x k = Ok z -> qreach g t z
| Q_sub_int x k z : qreach g t x -> qint_sub_int t x k = Ok z -> qreach g t z
| Q_mul_int x k z : qreach g t x -> qint_mul_int t x k = Ok z -> qreach g t z
| Q_div_int x k z : qreach g t x -> qint_div_int t x k = Ok z -> qreach g t z
| Q_rem_int x k z : qreach g t x -> qint_rem_int t x k = Ok z -> qreach g t z
| Q_add x y z : qreach g t x -> qreach g t y -> qint_add g t x y = Ok z -> qreach g t z
| Q_sub x y z : qreach g t x -> qreach g t y -> qint_sub g t x y = Ok z -> qreach g t z
| Q_mul x y z : qreach g t x -> qreach g t y -> qint_mul g t x y = Ok z -> qreach g t z
| Q_div x y z : qreach g t x -> qreach g t y -> qint_div g t x y = Ok z -> qreach g t z
| Q_rem x y z : qreach g t x -> qreach g t y -> qint_rem g t x y = Ok z -> qreach g t z.
