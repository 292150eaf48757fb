(** * SpecEnd: iterators over fractions that end (C82, C83). *)

From Coq Require Import ZArith.
From Verif Require Import Base Ext ModelBlock.

(** Every item of the first iterator is an item of the second, at the same place *)
Definition begins {S S' A : Type} (n1 : S -> res (option A * S)) (s1 : S) (n2 : S' -> res (option A * S')) (s2 : S') : Prop :=
  forall n v, nth_item n1 n s1 = Ok (Some v) -> nth_item n2 n s2 = Ok (Some v).

(** The next [n] calls all answer None *)
Fixpoint silent {S A : Type} (next : S -> res (option A * S)) (n : nat) (s : S) : Prop :=
  match n with
  | O => True
  | Datatypes.S n => exists s', next s = Ok (None, s') /\ silent next n s'
  end.

(** [n] calls, whatever they answer, lead from one state to another *)
Fixpoint run {S A : Type} (next : S -> res (option A * S)) (n : nat) (s s' : S) : Prop :=
  match n with
  | O => s = s'
  | Datatypes.S n => exists o s1, next s = Ok (o, s1) /\ run next n s1 s'
  end.

(** From [s] on, after the first None only None comes *)
Definition fused {S A : Type} (next : S -> res (option A * S)) (s : S) : Prop :=
  forall n s1 s2, run next n s s1 -> next s1 = Ok (None, s2) -> forall m, silent next m s2.
