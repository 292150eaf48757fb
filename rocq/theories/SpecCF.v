(** * SpecCF: what continued fractions mean. *)

From Coq Require Import ZArith Reals List.
From Coquelicot Require Import Coquelicot.
From Verif Require Import Base Ext ModelSurd ModelBlock ModelCF Spec.
Import ListNotations.
Open Scope Z_scope.

(** [a0; a1, ..., an] = a0 + 1 / (a1 + 1 / (... + 1 / an)) *)
Fixpoint cfl (l : list Z) : R :=
  match l with
  | nil => 0%R
  | [a] => IZR a
  | a :: l => (IZR a + / cfl l)%R
  end.

(** The first [n] coefficients: the aperiodic ones, then the period over and over *)
Definition first_coeffs (x : cf) (n : nat) : list Z :=
  firstn n (a_coeffs x ++ concat (repeat (p_coeffs x) n)).

(** The coefficient number [n], if there is one *)
Definition coeff_at (x : cf) (n : nat) : option Z :=
  nth_error (a_coeffs x ++ concat (repeat (p_coeffs x) (S n))) n.

Definition sgnb (neg : bool) : Z := if neg then -1 else 1.

(** The value: that of the finite fraction, or the limit of the truncated fractions *)
Definition cf_val (x : cf) : R :=
  (IZR (sgnb (negative x)) *
   match p_coeffs x with
   | nil => cfl (a_coeffs x)
   | _ :: _ => real (Lim_seq (fun n => cfl (first_coeffs x (S n))))
   end)%R.

(** Stored continued fractions: an aperiodic part with first coefficient >= 0, and all later
    coefficients positive *)
Definition wfcf (x : cf) : Prop :=
  match a_coeffs x with
  | nil => False
  | a0 :: rest => 0 <= a0 /\ List.Forall (fun v => 1 <= v) rest /\ List.Forall (fun v => 1 <= v) (p_coeffs x)
  end.

(** The canonical form of a rational number does not end in 1 (except the number 1 itself),
    and zero has no sign *)
Definition canonical (x : cf) : Prop :=
  wfcf x /\ (p_coeffs x = nil -> (length (a_coeffs x) > 1)%nat -> last (a_coeffs x) 0 <> 1) /\
  (a_coeffs x = [0] -> p_coeffs x = nil -> negative x = false).

Definition finite (x : cf) : Prop := p_coeffs x = nil.

(** [r] is the fraction cut after [n+1] coefficients, in lowest terms *)
Definition convergent (x : cf) (n : nat) (r : ratio) : Prop :=
  lowest r /\ rval r = (IZR (sgnb (negative x)) * cfl (first_coeffs x (S n)))%R.

(** The continuant: the denominator of 1 / (l0 + 1 / (l1 + ...)) *)
Fixpoint cont (l : list Z) : Z :=
  match l with
  | nil => 1
  | a :: l1 => a * cont l1 + match l1 with nil => 0 | _ :: l2 => cont l2 end
  end.

(** The number is kept exactly when converted to the signed type of the same width *)
Definition sfit (u : ity) (v : Z) : Prop :=
  match u with UInt b => 0 <= v < 2 ^ (b - 1) | BigU => 0 <= v | _ => False end.

(** Coefficients that [ContinuedFraction::new] handles: periodic ones positive, aperiodic ones
    non-negative and the last of them positive (unless it is the only one); the first one may also be
    negative, if it is the only coefficient, or if it is not -1 and is followed by an aperiodic
    positive one that is not a final 1 *)
Definition plain_coeffs (a p : list Z) : Prop :=
  List.Forall (fun v => 1 <= v) p /\
  match a with
  | nil => False
  | [a0] => 0 <= a0 \/ p = nil
  | a0 :: a1 :: rest =>
    0 <= a1 /\ List.Forall (fun v => 0 <= v) rest /\ 1 <= last (a1 :: rest) 0 /\
    (0 <= a0 \/ a0 <= -2 /\ 1 <= a1 /\ (rest = nil -> 2 <= a1))
  end.

(** The conjugate [xc] of a number [x], both taken with the sign that makes [x] positive, lies below the
    integer part of [x] *)
Definition conj_below (x xc : R) : Prop :=
  exists n, isfloor (Rabs x) n /\ ((0 <= x)%R -> (xc < IZR n)%R) /\ ((x <= 0)%R -> (- xc < IZR n)%R).

(** All coefficients are kept exactly by the signed type *)
Definition coeffs_fit (u : ity) (x : cf) : Prop := List.Forall (sfit u) (a_coeffs x) /\ List.Forall (sfit u) (p_coeffs x).

(** Adding [n] does not change the sign; or there is nothing after the first coefficient; or the first
    coefficient becomes -2 or less and is followed by an aperiodic coefficient (which is not the last one
    and equal to 1) *)
Definition add_int_domain (x : cf) (n : Z) : Prop :=
  match a_coeffs x with
  | nil => False
  | a0 :: rest =>
    0 <= a0 + sgnb (negative x) * n \/ (rest = nil /\ p_coeffs x = nil) \/
    (a0 + sgnb (negative x) * n <= -2 /\ rest <> nil /\ rest <> [1])
  end.

(** Numerator and denominator are kept exactly by the signed type *)
Definition ratio_sfit (u : ity) (r : ratio) : Prop := sfit u (Z.abs (numer r)) /\ sfit u (denom r).

(** The numbers that occur when [x] is made into a surd are kept exactly by the signed type: numerator
    and denominator of a rational; continuants of the two parts otherwise *)
Definition surd_sized (u : ity) (x : cf) : Prop :=
  (finite x -> forall r, lowest r -> rval r = cf_val x -> ratio_sfit u r) /\
  (~ finite x -> sfit u (cont (p_coeffs x)) /\ sfit u (cont (tl (a_coeffs x))) /\ sfit u (hd 0 (a_coeffs x))).

Definition rational_real (x : R) : Prop := exists n d : Z, d <> 0 /\ x = (IZR n / IZR d)%R.

(** [xc] is the conjugate of the irrational [x]: the other root of its quadratic equation with rational
    coefficients *)
Definition conjugate (x xc : R) : Prop :=
  ~ rational_real x /\ rational_real (x + xc) /\ rational_real (x * xc).

(** Irrational numbers of degree 2 whose conjugate is below *)
Definition cf_domain (x : R) : Prop := exists xc, conjugate x xc /\ conj_below x xc.

(** [x] lies strictly between 0 and [y] *)
Definition between0 (x y : R) : Prop := (0 < x < y \/ y < x < 0)%R.

(** Irrational numbers of degree 2 that do not lie between 0 and their conjugate *)
Definition cf_wide (x : R) : Prop := exists xc, conjugate x xc /\ ~ between0 x xc.

(** For the surd (a + b sqrt r)/c: c divides a^2 - b^2 r *)
Definition norm_divisible (s : surd) : Prop :=
  (c2 (coeffs s) | c0 (coeffs s) * c0 (coeffs s) - c1 (coeffs s) * c1 (coeffs s) * discr s).

(** The negative surds [x] with conjugate [xc] that the conversion returns with the wrong sign *)
Definition sign_dropped (s : surd) (x xc : R) : Prop :=
  (xc < x < 0)%R /\ norm_divisible s /\ c0 (coeffs s) + c2 (coeffs s) + Z.sqrt (c1 (coeffs s) * c1 (coeffs s) * discr s) = 0.

(** The number under the root, after scaling, and its integer part n: it is n^2 + m m' where m and m' both divide 2 n *)
Definition may_hang (s : surd) : Prop :=
  exists D m m', (norm_divisible s /\ D = c1 (coeffs s) * c1 (coeffs s) * discr s \/
                  ~ norm_divisible s /\ D = c1 (coeffs s) * c1 (coeffs s) * discr s * c2 (coeffs s) * c2 (coeffs s)) /\
    0 < m /\ 0 < m' /\ D = Z.sqrt D * Z.sqrt D + m * m' /\ (m | 2 * Z.sqrt D) /\ (m' | 2 * Z.sqrt D).

(** Coefficients of any sign, of absolute value at least 2 after the first one; the first one must not be
    -1 (1 if the whole fraction is negated) *)
Definition steep_coeffs (a : list Z) (b : bool) : Prop :=
  match a with
  | nil => False
  | a0 :: rest => sgnb b * a0 <> -1 /\ List.Forall (fun v => 2 <= Z.abs v) rest
  end.

(** The value of a list of coefficients of any sign as a quotient of integers, numerator and denominator, by the
    recurrence from the end; the list has no value when the denominator is 0 *)
Fixpoint quotient (l : list Z) : Z * Z :=
  match l with
  | nil => (1, 0)
  | a :: l => let (p, q) := quotient l in (a * p + q, p)
  end.
