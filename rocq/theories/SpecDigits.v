(** * SpecDigits: the number the characters of decimals() spell, digits outside 0..9 included (C81). *)

From Coq Require Import ZArith Reals.
From Coquelicot Require Import Coquelicot.
From Verif Require Import Base Spec SpecGen.
Open Scope Z_scope.

(** The sum of the first [n] characters, character number i standing for (code - code of '0') / 10^i *)
Fixpoint dsum (c : nat -> Z) (n : nat) : R :=
  match n with
  | O => 0
  | S n => dsum c n + IZR (c n - 48) / 10 ^ n
  end%R.

(** The sums tend to [x] *)
Definition dspells (c : nat -> Z) (x : R) : Prop := is_lim_seq (dsum c) x.

(** The part before the point of 10^n times what is left of the convergent number [j] after the characters before number [n] *)
Definition next_digit (f : nat -> Z * Z) (c : nat -> Z) (n j : nat) (d : Z) : Prop :=
  gden f j <> 0 /\ istrunc (10 ^ n * (IZR (gnum f j) / IZR (gden f j) - dsum c n))%R d.

(** A digit for which there is no character, and how the call panics *)
Definition no_char (d : Z) (p : panic_kind) : Prop := (p = PUnwrap /\ (d < 0 \/ 255 < d)) \/ (p = POverflow /\ 208 <= d <= 255).
