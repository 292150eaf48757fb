(** * ClaimsReturn: proofs of the property theorems in PropsReturn.v. *)

From Coq Require Import ZArith Reals Lia Lra Bool List Arith.
From Coquelicot Require Import Coquelicot.
From Verif Require Import Base Ext ModelSurd ModelBlock ModelCF ModelConv Spec SpecCF SpecRecipe SpecReturn CFPeriod CFSerret ClaimsCF ClaimsOrder ClaimsRecipe CFReturn.
Import ListNotations.
Open Scope Z_scope.

Lemma L_C103_right : forall g u x s, fits (sty u) 1 = true -> wfcf x -> ~ finite x -> sfit u (cont (p_coeffs x)) -> return_any g u x = Ok s ->
  normal g s /\ sval s = RtoC (cf_val x).
Proof. exact return_sound. Qed.

Lemma L_C103_returns : forall g x, wfcf x -> ~ finite x -> returns (return_any g BigU x).
Proof. exact return_total. Qed.

Lemma big_cont x : wfcf x -> ~ finite x -> sfit BigU (cont (p_coeffs x)).
Proof. intros W F. exact (proj1 (proj2 (L_C33_big_sized x W) F)). Qed.

Lemma L_C103_there_and_back : forall g s x, normal g s -> sval s = RtoC x -> ~ rational_real x ->
  exists n0, forall fuel, (n0 <= fuel)%nat -> exists z r, convert_any g BigI fuel s = Ok (Some z) /\ return_any g BigU z = Ok r /\ normal g r /\ sval r = sval s.
Proof.
  intros g s x N V I. destruct (L_C102_returns g s x N V I) as [n0 H]. exists n0. intros fuel Hf. destruct (H fuel Hf) as [X HX].
  destruct (L_C102_right g BigI fuel s x X eq_refl N V I HX) as (z & -> & (W & _) & F & Vz). destruct (return_total g z W F) as [r Hr]. exists z, r. split; [auto|]. split; [auto|].
  destruct (return_sound g BigU z r eq_refl W F (big_cont z W F) Hr) as [Nr Vr]. split; [auto|]. rewrite Vr, Vz. auto.
Qed.

Lemma L_C103_back_and_there : forall g x, canonical x -> ~ finite x ->
  exists s n0, return_any g BigU x = Ok s /\ forall fuel, (n0 <= fuel)%nat -> exists z, convert_any g BigI fuel s = Ok (Some z) /\ negative z = negative x /\ forall n, coeff_at z n = coeff_at x n.
Proof.
  intros g x C F. pose proof C as (W & _). destruct (return_total g x W F) as [s Hs]. destruct (return_sound g BigU x s eq_refl W F (big_cont x W F) Hs) as [N V].
  assert (I : ~ rational_real (cf_val x)). { pose proof (cf_irr x W F) as I. intros (n & d & D & E). exact (I n d D E). }
  destruct (L_C102_returns g s _ N V I) as [n0 H]. exists s, n0. split; [auto|]. intros fuel Hf. destruct (H fuel Hf) as [X HX].
  destruct (L_C102_right g BigI fuel s _ X eq_refl N V I HX) as (z & -> & Cz & _ & Vz). exists z. split; [auto|]. apply (L_C101_equal z x Cz C). exact Vz.
Qed.
