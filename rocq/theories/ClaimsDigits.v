(** * ClaimsDigits: proofs of the property theorems in PropsDigits.v. *)

From Coq Require Import ZArith Reals Lia Lra Bool List Arith.
From Coquelicot Require Import Coquelicot.
From Verif Require Import Base Ext ModelBlock ModelCF ModelGen Spec SpecGen SpecSpell SpecDigits NumFacts GenSound GenConv GenLive SymExp ExpIrr ExpNegLive GenHomo GenSpell GenDigits ClaimsSpell.
Import ListNotations.
Open Scope Z_scope.

Lemma L_C81_spells : forall I (inext : I -> res (option (Z * Z) * I)) it f x c, yields inext it f -> fst (f O) = 1 -> spells f x -> irrational x ->
  delivers (dec_next BigI inext) (gcf_decimals it) c -> dspells c x.
Proof.
  intros I inext it f x c Y F0 Sx Ix D. apply (digits_spell f F0 x Sx Ix). intros n. destruct (D n) as (F & K). exists F. intros F' HF. rewrite <- (dec_nth_same inext f BigI F' it n Y). apply K. exact HF.
Qed.

Lemma L_C81_rule : forall I (inext : I -> res (option (Z * Z) * I)) it f x c n, yields inext it f -> fst (f O) = 1 -> spells f x -> irrational x ->
  (forall i, (i <= n)%nat -> exists fuel, forall fuel', (fuel <= fuel')%nat -> nth_item (dec_next BigI inext fuel') i (gcf_decimals it) = Ok (Some (c i))) ->
  exists j, next_digit f c n j (c n - 48) /\ next_digit f c n (S j) (c n - 48).
Proof.
  intros I inext it f x c n Y F0 Sx Ix D. apply (digit_rule f F0). intros i Hi. destruct (D i Hi) as (F & K). exists F. intros F' HF. rewrite <- (dec_nth_same inext f BigI F' it i Y). apply K. exact HF.
Qed.

Lemma L_C81_progress : forall I (inext : I -> res (option (Z * Z) * I)) it f x n, yields inext it f -> fst (f O) = 1 -> spells f x -> irrational x ->
  exists c m fuel, (m <= n)%nat /\ (forall i fuel', (i < m)%nat -> (fuel <= fuel')%nat -> nth_item (dec_next BigI inext fuel') i (gcf_decimals it) = Ok (Some (c i))) /\
    (m = n \/ exists p d j, next_digit f c m j d /\ next_digit f c m (S j) d /\ no_char d p /\
      forall fuel', (fuel <= fuel')%nat -> nth_item (dec_next BigI inext fuel') m (gcf_decimals it) = Panic p).
Proof.
  intros I inext it f x n Y F0 Sx Ix. destruct (progress f F0 x Sx Ix n) as (c & m & fuel & Lm & A & B). exists c, m, fuel. split; [exact Lm|]. split.
  - intros i fuel' Hi Hf. rewrite (dec_nth_same inext f BigI fuel' it i Y). apply A; auto.
  - destruct B as [B|(p & d & j & N1 & N2 & NC & E)]; [left; exact B|right]. exists p, d, j. split; [exact N1|]. split; [exact N2|]. split; [exact NC|]. intros fuel' Hf. rewrite (dec_nth_same inext f BigI fuel' it m Y). apply E. exact Hf.
Qed.

Lemma L_C81_true_digits : forall I (inext : I -> res (option (Z * Z) * I)) it f x c n, yields inext it f -> fst (f O) = 1 -> spells f x -> irrational x ->
  delivers (dec_next BigI inext) (gcf_decimals it) c -> (forall i, (1 <= i)%nat -> 48 <= c i <= 57) ->
  exists m, isfloor (10 ^ n * x)%R m /\ c n = 48 + (if Nat.eqb n 0 then m else m mod 10).
Proof.
  intros I inext it f x c n Y F0 Sx Ix D H. apply (true_digits c x); auto. exact (L_C81_spells I inext it f x c Y F0 Sx Ix D).
Qed.

Lemma L_C81_outside : forall I (inext : I -> res (option (Z * Z) * I)) it f x, yields inext it f -> fst (f O) = 1 -> spells f x -> irrational x -> (x < 0 \/ 230 < x)%R ->
  exists n p fuel, forall fuel', (fuel <= fuel')%nat -> nth_item (dec_next BigI inext fuel') n (gcf_decimals it) = Panic p.
Proof.
  intros I inext it f x Y F0 Sx Ix O. destruct (outside_panics f F0 x Sx Ix O) as (n & p & fuel & H). exists n, p, fuel. intros fuel' Hf. rewrite (dec_nth_same inext f BigI fuel' it n Y). apply H. exact Hf.
Qed.

Lemma L_C81_any : forall t I (inext : I -> res (option (Z * Z) * I)) it fuel n c, nth_item (dec_next t inext fuel) n (gcf_decimals it) = Ok (Some c) ->
  nth_item (dec_next BigI inext fuel) n (gcf_decimals it) = Ok (Some c).
Proof. intros t I inext it fuel n c. apply nth_subs. intros s. apply dec_any. intros s' v w H. exact H. Qed.

Lemma exp_nth n y : (exp (INR n * y) = exp y ^ n)%R.
Proof. induction n as [|n IH]; [rewrite Rmult_0_l, exp_0; reflexivity|]. rewrite S_INR, Rmult_plus_distr_r, Rmult_1_l, exp_plus, IH. cbn [pow]. ring. Qed.

Lemma exp6 : (230 < exp 6)%R.
Proof.
  replace 6%R with (INR 48 * (1 / 8))%R by (rewrite INR_IZR_INZ; cbn; lra). rewrite exp_nth. apply Rlt_le_trans with ((9 / 8) ^ 48)%R; [lra|]. apply pow_incr. split; [lra|]. pose proof (exp_ineq1_le (1 / 8)). lra.
Qed.

Lemma L_C81_exp : forall x, x <> 0 ->
  (forall c, delivers (dec_next BigI (exp_next BigI)) (gcf_decimals (gcf_exp x)) c -> dspells c (exp (IZR x)) /\
    forall t fuel n v, nth_item (dec_next t (exp_next t) fuel) n (gcf_decimals (gcf_exp x)) = Ok (Some v) -> v = c n) /\
  (6 <= x -> exists n p fuel, forall fuel', (fuel <= fuel')%nat -> nth_item (dec_next BigI (exp_next BigI) fuel') n (gcf_decimals (gcf_exp x)) = Panic p).
Proof.
  intros x Hx. pose proof (exp_irr x Hx) as Ix. split.
  - intros c D. split; [exact (L_C81_spells _ (exp_next BigI) (gcf_exp x) (exp_items x) _ c (exp_yields x) eq_refl (exp_spells x) Ix D)|].
    intros t fuel n v H. assert (H1 : nth_item (dec_next BigI (exp_next BigI) fuel) n (gcf_decimals (gcf_exp x)) = Ok (Some v)).
    { revert H. apply nth_subs. intros s. apply dec_any. intros s' w u K. exact (exp_sub t _ _ K). }
    destruct (D n) as (F & K). specialize (K (Nat.max F fuel) ltac:(lia)). assert (H2 : nth_item (dec_next BigI (exp_next BigI) (Nat.max F fuel)) n (gcf_decimals (gcf_exp x)) = Ok (Some v)).
    { revert H1. apply nth_any. intros s r E. apply (dec_fuel _ _ fuel); [exact E|lia]. }
    congruence.
  - intros H6. apply (L_C81_outside _ (exp_next BigI) (gcf_exp x) (exp_items x) (exp (IZR x)) (exp_yields x) eq_refl (exp_spells x) Ix). right. pose proof exp6 as E6. apply IZR_le in H6.
    destruct H6 as [H6|<-]; [|exact E6]. apply Rlt_trans with (exp 6); [exact E6|]. apply exp_increasing. exact H6.
Qed.
