(** * Spec: what the numbers mean.

    This file is the vocabulary of the property theorems.  It refers to the
    model only through its data fields, never through its algorithms. *)

From Coq Require Import ZArith Reals List.
From Coquelicot Require Import Coquelicot.
From Verif Require Import Base Ext ModelSurd.
Open Scope Z_scope.

(** ** Numbers *)

Definition ZtoC (z : Z) : C := RtoC (IZR z).

(** The principal square root of an integer: sqrt r, or i * sqrt (-r) for r < 0 *)
Definition csqrt (r : Z) : C :=
  if r <? 0 then (0%R, sqrt (IZR (- r))) else RtoC (sqrt (IZR r)).

(** The rational number a [ratio] stands for *)
Definition rval (q : ratio) : R := (IZR (numer q) / IZR (denom q))%R.
Definition qC (q : ratio) : C := RtoC (rval q).

(** A [Ratio] built by the num-rational API: lowest terms, positive denominator *)
Definition lowest (q : ratio) : Prop := 0 < denom q /\ Z.gcd (numer q) (denom q) = 1.

Definition square (r : Z) : Prop := exists k, r = k * k.

(** A real number is rational, an integer *)
Definition rational_num (x : C) : Prop := exists n d : Z, d <> 0 /\ x = (ZtoC n / ZtoC d)%C.
Definition integer_num (x : C) : Prop := exists n : Z, x = ZtoC n.

(** The principal square root of a real number *)
Definition rcsqrt (x : R) : C :=
  if Rlt_dec x 0 then (0%R, sqrt (- x)) else RtoC (sqrt x).

(** n is the greatest integer not above x *)
Definition isfloor (x : R) (n : Z) : Prop := (IZR n <= x < IZR n + 1)%R.
(** n is x rounded toward zero *)
Definition istrunc (x : R) (n : Z) : Prop :=
  ((0 <= x -> IZR n <= x < IZR n + 1) /\ (x <= 0 -> IZR n - 1 < x <= IZR n))%R.

(** ** Outcomes *)

(** The call returns normally: no panic, no endless loop *)
Definition returns {A : Type} (x : res A) : Prop := exists v, x = Ok v.

(** ** Quadratic surds *)

(** (a + b * sqrt r) / c *)
Definition sval (s : surd) : C :=
  let '(a, b, c, r) := parts s in ((ZtoC a + ZtoC b * csqrt r) / ZtoC c)%C.

(** The algebraic conjugate (a - b * sqrt r) / c *)
Definition sconj (s : surd) : C :=
  let '(a, b, c, r) := parts s in ((ZtoC a - ZtoC b * csqrt r) / ZtoC c)%C.

(** Normal form of a surd, surd.rs:194-196 *)
Definition normal (g : cfg) (s : surd) : Prop :=
  let '(a, b, c, r) := parts s in
  0 < c /\ Z.gcd (Z.gcd a b) c = 1 /\
  ((b = 0 /\ r = 0) \/ (b <> 0 /\ ~ square r)) /\
  (cplx g = false -> 0 <= r).

(** The surd is a real number *)
Definition real_surd (s : surd) : Prop := 0 <= discr s.

(** The two surds lie in a common quadratic field: one of them is rational, or
    the roots differ by the square of a rational *)
Definition same_field (l r : surd) : Prop :=
  rational_num (sval l) \/ rational_num (sval r) \/
  exists m n, m <> 0 /\ n <> 0 /\ m * m * discr l = n * n * discr r.

(** One root is an integer square times the other one (or one surd is rational) *)
Definition nested_roots (l r : surd) : Prop :=
  rational_num (sval l) \/ rational_num (sval r) \/
  exists k, 0 < k /\ (discr l = k * k * discr r \/ discr r = k * k * discr l).

(** A rational multiple of a square root *)
Definition pure_surd (s : surd) : Prop :=
  ~ rational_num (sval s) /\ rational_num (sval s * sval s)%C.

(** A purely imaginary number, not zero *)
Definition imaginary (x : C) : Prop := fst x = 0%R /\ snd x <> 0%R.

(** The principal square root: right half plane, or the upper imaginary axis *)
Definition principal (z : C) : Prop := (0 < fst z)%R \/ (fst z = 0%R /\ (0 <= snd z)%R).

(** Gaussian integers; algebraic integers of degree at most two *)
Definition gauss_num (x : C) : Prop := exists m n : Z, x = (IZR m, IZR n).
Definition alg_integer (x : C) : Prop :=
  exists p q : Z, (x * x + ZtoC p * x + ZtoC q)%C = RtoC 0.

(** [x] is a number (a + b * sqrt r) / c with integer a, b, c *)
Definition over_root (r : Z) (x : C) : Prop :=
  exists a b c : Z, c <> 0 /\ x = ((ZtoC a + ZtoC b * csqrt r) / ZtoC c)%C.

(** The data a surd feeds to a hasher: [derive(Hash)] on both structs, surd.rs:26,193 *)
Definition hash_data (s : surd) : list Z :=
  let '(a, b, c, r) := parts s in a :: b :: c :: r :: nil.
