(** * ClaimsRecipe: proofs of the property theorems in PropsRecipe.v. *)

From Coq Require Import ZArith Reals Lia Lra Bool List Arith.
From Coquelicot Require Import Coquelicot.
From Verif Require Import Base Ext ModelSurd ModelBlock ModelCF ModelConv Spec SpecCF SpecRecipe CFArith ClaimsOrder CFRecipe.
Import ListNotations.
Open Scope Z_scope.

Lemma L_C102_right : forall g t fuel s x X, fits t 1 = true -> normal g s -> sval s = RtoC x -> ~ rational_real x -> convert_any g t fuel s = Ok X ->
  exists z, X = Some z /\ canonical z /\ ~ finite z /\ cf_val z = x.
Proof. exact convert_sound. Qed.

Lemma L_C102_returns : forall g s x, normal g s -> sval s = RtoC x -> ~ rational_real x ->
  exists n0, forall fuel, (n0 <= fuel)%nat -> exists X, convert_any g BigI fuel s = Ok X.
Proof. exact convert_total. Qed.

Lemma L_C102_agrees : forall g t u fuel fuel' s x y z, fits t 1 = true -> fits u 1 = true -> normal g s -> sval s = RtoC x -> cf_wide x ->
  surd_to_cf g t fuel s = Ok (Some y) -> convert_any g u fuel' s = Ok (Some z) ->
  negative y = negative z /\ forall n, coeff_at y n = coeff_at z n.
Proof.
  intros g t u fuel fuel' s x y z F1 F2 N V D Hy Hz. destruct (surd_to_cf_wide g t fuel s x y F1 N V D Hy) as (Cy & _ & Vy).
  assert (I : ~ rational_real x) by (destruct D as (xc & (I & _) & _); exact I).
  destruct (convert_sound g u fuel' s x (Some z) F2 N V I Hz) as (z' & E & Cz & _ & Vz). inversion E; subst z'. apply (L_C101_equal y z Cy Cz). congruence.
Qed.

Lemma L_C102_loop : forall g t fuel s x l q, normal g s -> sval s = RtoC x -> ~ rational_real x -> (0 < x)%R -> unroll g t fuel s = Ok (l, q) ->
  exists y, normal g q /\ sval q = RtoC y /\ (0 < y)%R /\ cf_domain y.
Proof.
  intros g t fuel s x l q N V I P H. destruct (surd_conj_value g s x N V I) as (xc & C & _). destruct (unroll_sound g t fuel s x xc l q N V P C H) as (y & A & B & D & E & _). eauto.
Qed.
