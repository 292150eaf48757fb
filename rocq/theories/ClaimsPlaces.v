(** * ClaimsPlaces: proofs of the property theorems in PropsPlaces.v. *)

From Coq Require Import ZArith Reals Lia Lra Bool List Arith.
From Coquelicot Require Import Coquelicot.
From Verif Require Import Base Ext ModelSurd Spec SpecPlaces SurdPlaces.
Open Scope Z_scope.

Lemma L_C111_right : forall g t base n, 2 <= base -> forall s x l, normal g s -> sval s = RtoC x -> digits g t base n s = Ok l ->
  exists d l', l = d :: l' /\ length l' = n /\ isfloor x d /\ List.Forall (fun e => 0 <= e < base) l' /\ (digits_val base l <= x < digits_val base l + / IZR base ^ n)%R.
Proof. exact digits_sound. Qed.

Lemma L_C111_returns : forall g base n s x, normal g s -> sval s = RtoC x -> returns (digits g BigI base n s).
Proof. intros g base n s x. exact (digits_total g base n s x). Qed.
