(** * SpecSpell: the number an endless continued fraction spells, zero and negative terms included (C80). *)

From Coq Require Import ZArith Reals.
From Coquelicot Require Import Coquelicot.
From Verif Require Import Base ModelBlock SpecGen.
Open Scope Z_scope.

(** The denominators of the fundamental recurrences are nonzero from some place on and the convergents tend to [x].
    A few vanishing denominators (a convergent at infinity, as after 0 + 1/0) do no harm. *)
Definition spells (f : nat -> Z * Z) (x : R) : Prop :=
  exists N, (forall n, (N <= n)%nat -> gden f n <> 0) /\ is_lim_seq (fun n => IZR (gnum f n) / IZR (gden f n))%R x.

(** For a regular continued fraction, given by its coefficients *)
Definition cspells (h : nat -> Z) (x : R) : Prop := spells (fun n => (1, h n)) x.

(** An iterator that may have to work for an item, run with some fuel: every item comes once there is enough of it *)
Definition delivers {S A : Type} (nx : nat -> S -> res (option A * S)) (s : S) (f : nat -> A) : Prop :=
  forall n, exists fuel, forall fuel', (fuel <= fuel')%nat -> nth_item (nx fuel') n s = Ok (Some (f n)).
