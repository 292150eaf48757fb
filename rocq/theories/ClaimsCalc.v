(** * ClaimsCalc: proofs of the property theorems in PropsCalc.v. *)

From Coq Require Import ZArith Reals Lia Lra Bool List Arith.
From Coquelicot Require Import Coquelicot.
From Verif Require Import Base Ext ModelSurd ModelBlock ModelCF ModelConv Spec SpecCF SpecRecipe SpecReturn SpecRebase SpecCompare SpecCalc CFCalc.
Import ListNotations.
Open Scope Z_scope.

Lemma L_C106_convert : forall g t fuel s x X, fits t 1 = true -> normal g s -> sval s = RtoC x -> convert_all g t fuel s = Ok X ->
  exists z, X = Some z /\ canonical z /\ cf_val z = x.
Proof. exact convert_all_sound. Qed.

Lemma L_C106_return : forall g u x s, fits (sty u) 1 = true -> wfcf x -> held u x -> return_all g u x = Ok s -> normal g s /\ sval s = RtoC (cf_val x).
Proof. exact return_all_sound. Qed.

Lemma L_C106_there_and_back : forall g s x, normal g s -> sval s = RtoC x ->
  exists n0, forall fuel, (n0 <= fuel)%nat -> exists z r, convert_all g BigI fuel s = Ok (Some z) /\ return_all g BigU z = Ok r /\ normal g r /\ sval r = sval s.
Proof. exact there_and_back. Qed.

Lemma L_C106_back_and_there : forall g x, canonical x ->
  exists s n0, return_all g BigU x = Ok s /\ forall fuel, (n0 <= fuel)%nat -> exists z, convert_all g BigI fuel s = Ok (Some z) /\ negative z = negative x /\ forall n, coeff_at z n = coeff_at x n.
Proof. exact back_and_there. Qed.

Lemma L_C106_calc : forall g u fuel x y X, fits (sty u) 1 = true -> wfcf x -> wfcf y -> held u x -> held u y ->
  (calc g u (add_any g (sty u)) fuel x y = Ok X -> exists z, X = Some z /\ canonical z /\ cf_val z = (cf_val x + cf_val y)%R) /\
  (calc g u (sub_any g (sty u)) fuel x y = Ok X -> exists z, X = Some z /\ canonical z /\ cf_val z = (cf_val x - cf_val y)%R) /\
  (calc g u (mul_any g (sty u)) fuel x y = Ok X -> exists z, X = Some z /\ canonical z /\ cf_val z = (cf_val x * cf_val y)%R) /\
  (calc g u (div_any g (sty u)) fuel x y = Ok X -> cf_val y <> 0%R -> exists z, X = Some z /\ canonical z /\ cf_val z = (cf_val x / cf_val y)%R).
Proof. exact calc_right. Qed.

Lemma L_C106_calc_returns : forall g x y, wfcf x -> wfcf y -> one_field (cf_val x) (cf_val y) -> exists n0, forall fuel, (n0 <= fuel)%nat ->
  returns (calc g BigU (add_any g BigI) fuel x y) /\ returns (calc g BigU (sub_any g BigI) fuel x y) /\ returns (calc g BigU (mul_any g BigI) fuel x y) /\ (cf_val y <> 0%R -> returns (calc g BigU (div_any g BigI) fuel x y)).
Proof. exact calc_returns. Qed.

Lemma L_C106_order : forall g u fuel x y c, fits (sty u) 1 = true -> wfcf x -> wfcf y -> held u x -> held u y -> order_fractions g u fuel x y = Ok c -> is_order c (cf_val x) (cf_val y).
Proof. exact order_right. Qed.

Lemma L_C106_order_returns : forall g x y, wfcf x -> wfcf y -> exists n0, forall fuel, (n0 <= fuel)%nat -> returns (order_fractions g BigU fuel x y).
Proof. exact order_returns. Qed.

Lemma L_C106_held : forall x, wfcf x -> held BigU x.
Proof. exact held_big. Qed.
