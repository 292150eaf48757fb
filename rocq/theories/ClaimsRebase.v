(** * ClaimsRebase: proofs of the property theorems in PropsRebase.v. *)

From Coq Require Import ZArith Reals Lia Lra Bool List Arith.
From Coquelicot Require Import Coquelicot.
From Verif Require Import Base Ext ModelSurd Spec SpecCF SpecRebase SurdRebase.
Import ListNotations.
Open Scope Z_scope.

Lemma L_C105_rebase : forall g t l r x y z, normal g l -> normal g r -> sval l = RtoC x -> sval r = RtoC y -> rebase g t l r = Ok z ->
  normal g z /\ sval z = sval r.
Proof. exact rebase_sound. Qed.

Lemma L_C105_rebase_returns : forall g l r x y, normal g l -> normal g r -> sval l = RtoC x -> sval r = RtoC y ->
  exists z, rebase g BigI l r = Ok z /\ (same_field l r -> nested_roots l z).
Proof. exact rebase_total. Qed.

Lemma L_C105_exact : forall g t l r x y s, normal g l -> normal g r -> sval l = RtoC x -> sval r = RtoC y ->
  (add_any g t l r = Ok s -> normal g s /\ sval s = RtoC (x + y)) /\ (sub_any g t l r = Ok s -> normal g s /\ sval s = RtoC (x - y)) /\
  (mul_any g t l r = Ok s -> normal g s /\ sval s = RtoC (x * y)) /\ (div_any g t l r = Ok s -> normal g s /\ (y <> 0%R -> sval s = RtoC (x / y))).
Proof. exact any_sound. Qed.

Lemma L_C105_returns : forall g l r x y, normal g l -> normal g r -> sval l = RtoC x -> sval r = RtoC y -> same_field l r ->
  returns (add_any g BigI l r) /\ returns (sub_any g BigI l r) /\ returns (mul_any g BigI l r) /\ (y <> 0%R -> returns (div_any g BigI l r)).
Proof. exact any_total. Qed.

Lemma L_C105_panics : forall g l r x y, normal g l -> normal g r -> sval l = RtoC x -> sval r = RtoC y -> ~ same_field l r ->
  add_any g BigI l r = Panic PIncompatible /\ sub_any g BigI l r = Panic PIncompatible.
Proof. exact any_panics. Qed.
