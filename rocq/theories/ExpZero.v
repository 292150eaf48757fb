(** * ExpZero: simplify() and decimals() on the continued fraction of exp(0) (C70). *)

From Coq Require Import ZArith Reals Lia Lra Psatz Bool List Factorial.
From Coquelicot Require Import Coquelicot.
From Verif Require Import Base Ext ModelBlock ModelGen Spec SpecGen NumFacts SurdRound GenBlock GenSound GenConv GenCont GenTail GenRep SymExp ExpNeg ExpNegLive.
Import ListNotations.
Open Scope Z_scope.

Lemma zero_gcont n : gnum (exp_items 0) n = Z.of_nat (fact n) /\ gden (exp_items 0) n = Z.of_nat (fact n).
Proof.
  split; [|apply exp_den]. induction n as [|n IH]; [reflexivity|]. rewrite exp_num, IH, Z.pow_0_l by lia.
  change (fact (S n)) with (S n * fact n)%nat. rewrite Nat2Z.inj_mul. ring.
Qed.

Lemma zero_cols m L k : rep (exp_items 0) (S m) L k -> exists s F G, 1 <= s /\ 1 <= F /\ 1 <= G /\
  s * pm1 k = F * (la L + lb L) /\ s * qm1 k = F * (lc L + ld L) /\ s * pm2 k = G * (la L + lb L) /\ s * qm2 k = G * (lc L + ld L).
Proof.
  intros (s & Hs & P1 & Q1 & P2 & Q2). rewrite gcont_old in P2, Q2. unfold lnum, lden in *.
  change (fst (snd (gcont (exp_items 0) (S m)))) with (gnum (exp_items 0) (S m)) in *. change (snd (snd (gcont (exp_items 0) (S m)))) with (gden (exp_items 0) (S m)) in *.
  change (fst (snd (gcont (exp_items 0) m))) with (gnum (exp_items 0) m) in *. change (snd (snd (gcont (exp_items 0) m))) with (gden (exp_items 0) m) in *.
  destruct (zero_gcont m) as (A0 & B0). destruct (zero_gcont (S m)) as (A1 & B1). rewrite A0, B0 in P2, Q2. rewrite A1, B1 in P1, Q1.
  pose proof (lt_O_fact m). pose proof (lt_O_fact (S m)). exists s, (Z.of_nat (fact (S m))), (Z.of_nat (fact m)). repeat split; lia.
Qed.

Lemma zero_emit m L k i r1 r2 : rep (exp_items 0) m L k -> la L + lb L = 1 -> lc L + ld L = 1 \/ lc L + ld L = 0 -> lc L = 0 \/ lc L + ld L = 0 -> emits k i r1 r2 -> lc L + ld L = 1 /\ i = 1.
Proof.
  intros Rk E1 E2 E3 (N1 & N2 & I1 & _). destruct m as [|m].
  - destruct Rk as (s & Hs & P1 & Q1 & P2 & Q2). unfold lnum, lden in *. cbn [gcont fst snd exp_items] in *. destruct E3 as [E3|E3]; [rewrite E3 in Q2|replace (lc L * 1 + ld L * 1) with 0 in Q1 by lia]; nia.
  - destruct (zero_cols _ _ _ Rk) as (s & F & G & Hs & HF & HG & P1 & Q1 & _). destruct E2 as [E2|E2]; [|rewrite E2 in Q1; nia]. split; [auto|].
    rewrite E1 in P1. rewrite E2 in Q1. assert (E : pm1 k = qm1 k) by nia. rewrite E, Z.quot_same in I1; auto.
Qed.

Section Zero.
Context (t : ity).

Lemma zero_st i ab s' : exp_next t (exp_at 0 i) = Ok (Some ab, s') -> ab = exp_items 0 i /\ s' = exp_at 0 (S i).
Proof. apply exp_step. Qed.

Lemma exp_zero_simplify fuel n v : nth_item (simp_next t (exp_next t) fuel) n (gcf_simplify (gcf_exp 0)) = Ok (Some v) -> n = O /\ v = 1.
Proof.
  intros H. destruct (nth_item_cases _ _ _ _ H) as (i & (k', it') & N).
  destruct (simp_rep (exp_next t) (exp_items 0) (exp_at 0) t zero_st eq_refl fuel None lid block_identity i k' it' (conj eq_refl eq_refl) N) as (m & k1 & r1 & r2 & A & Em & Ek & Ei & _).
  destruct (zero_emit m lid k1 i r1 r2 A) as (_ & Vi); [reflexivity|left; reflexivity|left; reflexivity|exact Em|]. subst i.
  destruct n as [|n]; [apply nth_head in H; destruct H as (s' & H); rewrite N in H; split; [auto|congruence]|exfalso].
  rewrite (nth_item_S _ _ _ _ _ N) in H. subst k' it'. destruct (nth_item_cases _ _ _ _ H) as (i2 & (k2, it2) & N2).
  pose proof (at_emit (exp_items 0) (Some m) lid k1 1 r1 r2 A Em) as A2.
  destruct (simp_rep (exp_next t) (exp_items 0) (exp_at 0) t zero_st eq_refl fuel (Some m) (lrecip lid 1) _ _ _ _ A2 N2) as (m2 & k3 & r3 & r4 & A3 & Em3 & _).
  destruct (zero_emit m2 (lrecip lid 1) k3 i2 r3 r4 A3) as (Bad & _); [reflexivity|right; reflexivity|right; reflexivity|exact Em3|]. discriminate.
Qed.

Lemma zero_tail fuel n : forall m L k c, at_pos (exp_items 0) (Some m) L k -> la L + lb L = 0 -> lc L = 0 -> ld L = 1 ->
  nth_item (dec_next t (exp_next t) fuel) n (k, exp_at 0 (S m)) = Ok (Some c) -> c = 48.
Proof.
  induction n as [|n IH]; intros m L k c A E1 E2 E3 H; destruct (nth_item_cases _ _ _ _ H) as (i & (k', it') & N);
    destruct (dec_rep (exp_next t) (exp_items 0) (exp_at 0) t zero_st eq_refl fuel (Some m) L k i k' it' A N) as (m1 & k1 & r1 & r2 & A1 & Em & -> & ->).
  all: assert (Z0 : i - 48 = 0) by
    (destruct m1 as [|m1]; [destruct A1 as (s & Hs & _ & _ & _ & Q2); destruct Em as (_ & N2 & _); unfold lden in Q2; cbn [gcont fst snd exp_items] in Q2; rewrite E2 in Q2; nia|];
     destruct (zero_cols _ _ _ A1) as (s & F & G & Hs & HF & HG & P1 & Q1 & _); destruct Em as (N1 & _ & I1 & _); assert (pm1 k1 = 0) by nia; rewrite I1, H0; apply Z.quot_0_l; auto).
  - apply nth_head in H. destruct H as (s' & H). rewrite N in H. assert (i = c) by congruence. lia.
  - rewrite (nth_item_S _ _ _ _ _ N) in H. apply (IH m1 (lten L (i - 48)) _ c) in H; [auto|apply rep_ten; auto| | |]; unfold lten; cbn [la lb lc ld]; nia.
Qed.

Lemma exp_zero_decimals fuel n c : nth_item (dec_next t (exp_next t) fuel) n (gcf_decimals (gcf_exp 0)) = Ok (Some c) -> c = match n with O => 49 | _ => 48 end.
Proof.
  intros H. destruct (nth_item_cases _ _ _ _ H) as (i & (k', it') & N).
  destruct (dec_rep (exp_next t) (exp_items 0) (exp_at 0) t zero_st eq_refl fuel None lid block_identity i k' it' (conj eq_refl eq_refl) N) as (m & k1 & r1 & r2 & A & Em & -> & ->).
  destruct (zero_emit m lid k1 (i - 48) r1 r2 A) as (_ & Vi); [reflexivity|left; reflexivity|left; reflexivity|exact Em|].
  destruct n as [|n]; [apply nth_head in H; destruct H as (s' & H); rewrite N in H; assert (i = c) by congruence; lia|].
  rewrite (nth_item_S _ _ _ _ _ N) in H. apply (zero_tail fuel n m (lten lid (i - 48)) _ c) in H; [auto|apply rep_ten; auto|rewrite Vi; reflexivity|reflexivity|reflexivity].
Qed.

Lemma zero_digit n c : c = match n with O => 49 | _ => 48 end -> exists m, isfloor (10 ^ n * exp 0) m /\ c = 48 + m mod 10.
Proof.
  intros ->. exists (10 ^ Z.of_nat n). rewrite exp_0, Rmult_1_r. split.
  - unfold isfloor. rewrite <- pow_IZR. lra.
  - destruct n as [|n]; [reflexivity|]. rewrite Nat2Z.inj_succ, Z.pow_succ_r, Z.mul_comm, Z.mod_mul by lia. reflexivity.
Qed.
End Zero.
