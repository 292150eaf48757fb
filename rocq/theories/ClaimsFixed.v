(** * ClaimsFixed: proofs of the property theorems in PropsFixed.v. *)

From Coq Require Import ZArith Reals Lia Lra Bool List Arith.
From Coquelicot Require Import Coquelicot.
From Verif Require Import Base Ext ModelSurd Spec SpecFixed SurdFixed.
Import ListNotations.
Open Scope Z_scope.

Lemma L_C107_mul : forall g t l r s, normal g l -> normal g r -> mul_fixed g t l r = Ok s -> normal g s /\ sval s = (sval l * sval r)%C.
Proof. exact mul_fixed_sound. Qed.

Lemma L_C107_div : forall g t l r s, normal g l -> normal g r -> div_fixed g t l r = Ok s -> normal g s /\ (sval r <> RtoC 0 -> sval s = (sval l / sval r)%C).
Proof. exact div_fixed_sound. Qed.

Lemma L_C107_rebase : forall g t l r z, normal g l -> normal g r -> rebase_fixed g t l r = Ok z -> normal g z /\ sval z = sval r.
Proof. exact rebase_fixed_sound. Qed.

Lemma L_C107_rebase_returns : forall g l r, normal g l -> normal g r -> exists z, rebase_fixed g BigI l r = Ok z /\ (same_field l r -> nested_roots l z).
Proof. exact rebase_fixed_total. Qed.

Lemma L_C107_exact : forall g t l r s, normal g l -> normal g r ->
  (add_all g t l r = Ok s -> normal g s /\ sval s = (sval l + sval r)%C) /\ (sub_all g t l r = Ok s -> normal g s /\ sval s = (sval l - sval r)%C) /\
  (mul_all g t l r = Ok s -> normal g s /\ sval s = (sval l * sval r)%C) /\ (div_all g t l r = Ok s -> normal g s /\ (sval r <> RtoC 0 -> sval s = (sval l / sval r)%C)).
Proof. exact all_sound. Qed.

Lemma L_C107_returns : forall g l r, normal g l -> normal g r -> same_field l r ->
  returns (add_all g BigI l r) /\ returns (sub_all g BigI l r) /\ returns (mul_all g BigI l r) /\ (sval r <> RtoC 0 -> returns (div_all g BigI l r)).
Proof. exact all_total. Qed.

Lemma L_C107_panics : forall g l r, normal g l -> normal g r -> ~ same_field l r -> add_all g BigI l r = Panic PIncompatible /\ sub_all g BigI l r = Panic PIncompatible.
Proof. exact all_panics. Qed.
