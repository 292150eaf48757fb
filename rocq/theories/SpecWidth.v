(** * SpecWidth: iterators over a fixed-width type and over arbitrary-precision integers (C84). *)

From Coq Require Import ZArith.
From Verif Require Import Base Ext ModelBlock.

(** Whatever the first iterator answers, an item or the end, the second one answers at the same place *)
Definition matches {S S' A : Type} (n1 : S -> res (option A * S)) (s1 : S) (n2 : S' -> res (option A * S')) (s2 : S') : Prop :=
  forall n o, nth_item n1 n s1 = Ok o -> nth_item n2 n s2 = Ok o.
