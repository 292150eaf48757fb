(** * SpecGen: what generalized and infinite continued fractions mean. *)

From Coq Require Import ZArith Reals List.
From Coquelicot Require Import Coquelicot.
From Verif Require Import Base Ext ModelBlock Spec.
Import ListNotations.
Open Scope Z_scope.

(** ** Iterators *)

(** An endless iterator that yields [f 0], [f 1], ... *)
Definition yields {S A : Type} (next : S -> res (option A * S)) (s : S) (f : nat -> A) : Prop :=
  forall n, nth_item next n s = Ok (Some (f n)).

(** An iterator that yields exactly the items of [l] *)
Definition yields_list {S A : Type} (next : S -> res (option A * S)) (s : S) (l : list A) : Prop :=
  forall n, (n <= length l)%nat -> nth_item next n s = Ok (nth_error l n).

(** The first [n] items *)
Definition prefix {A : Type} (f : nat -> A) (n : nat) : list A := map f (seq 0 n).

(** ** Generalized continued fractions b_1 + a_2 / (b_2 + a_3 / (b_3 + ...)), given by the pairs (a_k, b_k);
    the first a is not used *)
Fixpoint gval (l : list (Z * Z)) : R :=
  match l with
  | nil => 0%R
  | (_, b) :: nil => IZR b
  | (_, b) :: (((a', _) :: _) as l) => (IZR b + IZR a' / gval l)%R
  end.

(** No denominator vanishes *)
Fixpoint gregular (l : list (Z * Z)) : Prop :=
  match l with
  | nil => True
  | _ :: l => (l = nil \/ gval l <> 0%R) /\ gregular l
  end.

(** The fundamental recurrences: numerators A_n = b_n A_(n-1) + a_n A_(n-2) and denominators B_n = b_n B_(n-1) + a_n B_(n-2),
    from A_(-1) = 1, B_(-1) = 0, A_0 = b_0, B_0 = 1.  [gcont f n] = ((A_(n-1), B_(n-1)), (A_n, B_n)) *)
Fixpoint gcont (f : nat -> Z * Z) (n : nat) : (Z * Z) * (Z * Z) :=
  match n with
  | O => ((1, 0), (snd (f O), 1))
  | S m =>
    let '(old, cur) := gcont f m in let '(a, b) := f n in
    (cur, (b * fst cur + a * fst old, b * snd cur + a * snd old))
  end.

Definition gnum (f : nat -> Z * Z) (n : nat) : Z := fst (snd (gcont f n)).
Definition gden (f : nat -> Z * Z) (n : nat) : Z := snd (snd (gcont f n)).

(** The type holds every integer of absolute value at most [B] *)
Definition roomy (t : ity) (B : Z) : Prop := forall z, Z.abs z <= B -> fits t z = true.

(** The four products and two sums that compute A_(n+1) and B_(n+1) have absolute value at most [B] *)
Definition bounded (f : nat -> Z * Z) (n : nat) (B : Z) : Prop :=
  let '(old, cur) := gcont f n in
  forall a b, f (S n) = (a, b) -> Z.abs (b * fst cur) <= B /\ Z.abs (a * fst old) <= B /\ Z.abs (b * fst cur + a * fst old) <= B /\
    Z.abs (b * snd cur) <= B /\ Z.abs (a * snd old) <= B /\ Z.abs (b * snd cur + a * snd old) <= B.

(** The convergents tend to [x] *)
Definition gconverges (f : nat -> Z * Z) (x : R) : Prop := is_lim_seq (fun n => gval (prefix f (S n))) x.

(** The first numerator is 1 (as the documentation of GeneralContinuedFraction asks for) and the terms after
    the first pair are positive *)
Definition gpositive (f : nat -> Z * Z) : Prop :=
  fst (f O) = 1 /\ forall n, (1 <= n)%nat -> 1 <= fst (f n) /\ 1 <= snd (f n).

(** The same for a finite fraction *)
Definition gpositive_list (l : list (Z * Z)) : Prop :=
  match l with
  | nil => False
  | (a, _) :: l => a = 1 /\ List.Forall (fun ab => 1 <= fst ab /\ 1 <= snd ab) l
  end.

(** ** Simple continued fractions as expansions of real numbers *)

(** [v] is the coefficient number [n] of [x]: the part before the point of the n-th complete quotient.
    The coefficients of a negative number are those of its absolute value, negated. *)
Fixpoint cf_digit (x : R) (n : nat) (v : Z) : Prop :=
  match n with
  | O => istrunc x v
  | S n => exists a, istrunc x a /\ x <> IZR a /\ cf_digit (/ (x - IZR a)) n v
  end.

(** The value of an endless simple continued fraction *)
Definition cconverges (f : nat -> Z) (x : R) : Prop := gconverges (fun n => (1, f n)) x.

(** Coefficients after the first are positive *)
Definition cpositive (f : nat -> Z) : Prop := forall n, (1 <= n)%nat -> 1 <= f n.

(** All coefficients have the sign [e] (1 or -1), and only the first one may be zero *)
Definition csigned (e : Z) (f : nat -> Z) : Prop := 0 <= e * f O /\ forall n, (1 <= n)%nat -> 1 <= e * f n.

Definition irrational (x : R) : Prop := forall p q, q <> 0 -> x <> (IZR p / IZR q)%R.

(** ** Sources for examples: the iterator over f 0, f 1, ... *)
Definition from_fn {A : Type} (f : nat -> A) (n : nat) : res (option A * nat) := Ok (Some (f n), S n).
