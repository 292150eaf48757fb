(** * ClaimsEqual: proofs of the property theorems in PropsEqual.v. *)

From Coq Require Import ZArith Reals Lia Lra Bool List Arith.
From Coquelicot Require Import Coquelicot.
From Verif Require Import Base Ext ModelSurd Spec SpecEqual SurdEqual.
Open Scope Z_scope.

Lemma L_C108_right : forall g t l r b, normal g l -> normal g r -> equal_fixed g t l r = Ok b -> (b = true <-> sval l = sval r).
Proof. exact equal_sound. Qed.

Lemma L_C108_returns : forall g l r, normal g l -> normal g r -> returns (equal_fixed g BigI l r).
Proof. exact equal_total. Qed.

Lemma L_C108_decides : forall g l r, normal g l -> normal g r ->
  (equal_fixed g BigI l r = Ok true <-> sval l = sval r) /\ (equal_fixed g BigI l r = Ok false <-> sval l <> sval r).
Proof.
  intros g l r Nl Nr. destruct (equal_total g l r Nl Nr) as [b Hb]. pose proof (equal_sound g BigI l r b Nl Nr Hb) as E. rewrite Hb. destruct b.
  - split; split; [tauto|reflexivity|discriminate|tauto].
  - split; split; [discriminate|intros K; apply E in K; discriminate|intros _ K; apply E in K; discriminate|reflexivity].
Qed.

Lemma L_C108_equivalence : forall g, (forall x, normal g x -> equal_fixed g BigI x x = Ok true) /\
  (forall t u x y b c, normal g x -> normal g y -> equal_fixed g t x y = Ok b -> equal_fixed g u y x = Ok c -> b = c) /\
  (forall t u v x y z b, normal g x -> normal g y -> normal g z -> equal_fixed g t x y = Ok true -> equal_fixed g u y z = Ok true -> equal_fixed g v x z = Ok b -> b = true).
Proof.
  intros g. split; [|split].
  - intros x N. destruct (equal_total g x x N N) as [b Hb]. rewrite Hb. f_equal. apply (equal_sound g BigI x x b N N Hb). reflexivity.
  - intros t u x y b c Nx Ny Hb Hc. apply equal_sound in Hb; auto. apply equal_sound in Hc; auto. apply eq_true_iff_eq. split; intros K; [apply Hc; symmetry; tauto|apply Hb; symmetry; tauto].
  - intros t u v x y z b Nx Ny Nz Hx Hy Hz. apply equal_sound in Hx; auto. apply equal_sound in Hy; auto. apply equal_sound in Hz; auto. apply Hz. transitivity (sval y); [apply Hx|apply Hy]; reflexivity.
Qed.
