(** * ExpNeg: simplify() and decimals() on the continued fraction of exp(x), x < 0 (C70). *)

From Coq Require Import ZArith Reals Lia Lra Psatz Bool List Factorial.
From Coquelicot Require Import Coquelicot.
From Verif Require Import Base Ext ModelBlock ModelGen Spec SpecGen NumFacts RatioFacts GenBlock GenSound GenConv GenCont GenTail GenLive SymExp.
Import ListNotations.
Open Scope Z_scope.

(** ** The remainder of the series *)
Definition esum (n : nat) (x : R) : R := sum_f_R0 (fun k => x ^ k / INR (fact k))%R n.
Definition erem (n : nat) (x : R) : R := (exp x - esum n x)%R.

Lemma esum_S n x : esum (S n) x = (esum n x + x ^ S n / INR (fact (S n)))%R.
Proof. reflexivity. Qed.

Lemma erem_S n x : erem n x = (erem (S n) x + x ^ S n / INR (fact (S n)))%R.
Proof. unfold erem. rewrite esum_S. ring. Qed.

Lemma esum_derive n x : is_derive (esum (S n)) x (esum n x).
Proof.
  induction n as [|n IH].
  - apply (is_derive_ext (fun y => 1 + y)%R); [intros y; unfold esum; cbn; field|]. auto_derive; [auto|]. unfold esum. cbn. field.
  - apply (is_derive_ext (fun y => esum (S n) y + y ^ S (S n) / INR (fact (S (S n))))%R); [intros y; symmetry; apply esum_S|].
    rewrite (esum_S n x). apply (is_derive_plus (K := R_AbsRing) (V := R_NormedModule) _ _ x _ _ IH).
    apply (is_derive_ext (fun y => / INR (fact (S (S n))) * y ^ S (S n))%R); [intros; unfold Rdiv; apply Rmult_comm|].
    evar_last; [apply is_derive_scal, is_derive_pow, is_derive_id|]. cbv beta. unfold one. cbn [Ring.one R_Ring pred]. change (@one R_Ring) with 1%R.
    change (fact (S (S n))) with (S (S n) * fact (S n))%nat. rewrite mult_INR. unfold scal; cbn; unfold mult; cbn.
    pose proof (INR_fact_neq_0 (S n)). assert (INR (S (S n)) <> 0)%R by (apply not_0_INR; lia). cbn in *. field. auto.
Qed.

Lemma erem_derive n x : is_derive (erem (S n)) x (erem n x).
Proof.
  unfold erem. apply (is_derive_minus (K := R_AbsRing) (V := R_NormedModule) exp (esum (S n))); [apply is_derive_exp|apply esum_derive].
Qed.

Lemma erem_0 n : erem n 0 = 0%R.
Proof.
  induction n as [|n IH]; [unfold erem, esum; cbn; rewrite exp_0; field|].
  rewrite (erem_S n 0) in IH. rewrite pow_i in IH by lia. unfold Rdiv in IH. rewrite Rmult_0_l in IH. lra.
Qed.

Lemma erem_sign n : forall x, (x < 0)%R -> (0 < erem n x / x ^ S n)%R.
Proof.
  induction n as [|n IH]; intros x Hx.
  - unfold erem, esum. cbn. pose proof (exp_increasing x 0 Hx) as E. rewrite exp_0 in E.
    replace ((exp x - 1 / 1) / (x * 1))%R with ((1 - exp x) * / - x)%R by (field; lra). apply Rmult_lt_0_compat; [lra|]. apply Rinv_0_lt_compat. lra.
  - destruct (MVT_cor2 (erem (S n)) (erem n) x 0 Hx) as (c & E & Hc); [intros y _; apply is_derive_Reals, erem_derive|].
    rewrite erem_0 in E. assert (E2 : (erem (S n) x = erem n c * x)%R) by lra. specialize (IH c ltac:(lra)).
    assert (Px : (x ^ S n <> 0)%R) by (apply pow_nonzero; lra). assert (Pc : (c ^ S n <> 0)%R) by (apply pow_nonzero; lra).
    replace (erem (S n) x / x ^ S (S n))%R with ((erem n c / c ^ S n) * (c / x) ^ S n)%R.
    + apply Rmult_lt_0_compat; [exact IH|]. apply pow_lt. replace (c / x)%R with (- c * / - x)%R by (field; lra).
      apply Rmult_lt_0_compat; [lra|]. apply Rinv_0_lt_compat. lra.
    + unfold Rdiv. rewrite E2, Rpow_mult_distr, pow_inv. change (x ^ S (S n))%R with (x * x ^ S n)%R. field. repeat split; lra.
Qed.

(** ** What is still to come: after m + 1 pairs exp(x) = (A_m u + A_(m-1) w) / (B_m u + B_(m-1) w) *)
Section Neg.
Context (t : ity) (x : Z) (Hx : x < 0).
Let X := IZR x.

Local Lemma X_neg : (X < 0)%R.
Proof. apply IZR_lt in Hx. exact Hx. Qed.

Local Lemma Xpow n : (X ^ n <> 0)%R.
Proof. apply pow_nonzero. pose proof X_neg. lra. Qed.

Definition tu (m : nat) : R := (erem m X / X ^ S m)%R.
Definition tw (m : nat) : R := (- INR (S m) * X * tu (S m))%R.

Lemma tu_pos m : (0 < tu m)%R.
Proof. apply erem_sign, X_neg. Qed.

Lemma tw_pos m : (0 < tw m)%R.
Proof.
  unfold tw. pose proof X_neg. pose proof (tu_pos (S m)). assert (0 < INR (S m))%R by (apply lt_0_INR; lia).
  replace (- INR (S m) * X * tu (S m))%R with (INR (S m) * - X * tu (S m))%R by ring. apply Rmult_lt_0_compat; [apply Rmult_lt_0_compat; lra|lra].
Qed.

Lemma tu_step m : tu m = ((INR (S (S m)) + X) * tu (S m) + tw (S m))%R.
Proof.
  unfold tw, tu. pose proof (Xpow m). pose proof X_neg. rewrite (erem_S (S m) X), (erem_S m X), (erem_S (S m) X).
  change (fact (S (S m))) with (S (S m) * fact (S m))%nat. rewrite mult_INR. pose proof (INR_fact_neq_0 (S m)).
  assert (INR (S (S m)) <> 0)%R by (apply not_0_INR; lia).
  change (X ^ S (S (S m)))%R with (X * (X * (X * X ^ m)))%R. change (X ^ S (S m))%R with (X * (X * X ^ m))%R. change (X ^ S m)%R with (X * X ^ m)%R.
  field. repeat split; auto; lra.
Qed.

(** The iterator has read the pairs 0 .. m + 1, from here on all terms are positive *)
Definition ntail (it : exp_st) (u w : R) : Prop :=
  exists m, it = ExpSt x (Z.of_nat (S (S m))) /\ 0 <= Z.of_nat m + 2 + x /\ u = tu m /\ w = tw m.

Lemma ntail_pos it u w : ntail it u w -> (0 < u)%R /\ (0 <= w)%R.
Proof. intros (m & _ & _ & -> & ->). pose proof (tu_pos m). pose proof (tw_pos m). lra. Qed.

Lemma ntail_next it u w a b it' : ntail it u w -> exp_next t it = Ok (Some (a, b), it') ->
  1 <= a /\ 0 <= b /\ exists u' w' s, ntail it' u' w' /\ (0 < s)%R /\ (s * u = IZR b * u' + w')%R /\ (s * w = IZR a * u')%R.
Proof.
  intros (m & -> & Hm & -> & ->) N. destruct (exp_step _ _ _ _ _ N) as (E & ->). cbn [exp_items] in E. inversion E; subst a b. clear E N.
  split; [nia|]. split; [lia|]. exists (tu (S m)), (tw (S m)), 1%R. split; [exists (S m); repeat split; auto; lia|]. split; [lra|].
  split.
  - rewrite (tu_step m), !S_INR, !plus_IZR, <- INR_IZR_INZ. fold X. ring.
  - unfold tw. rewrite S_INR, opp_IZR, mult_IZR, plus_IZR, <- INR_IZR_INZ. fold X. ring.
Qed.

(** ** The first pairs: a plain run of the recurrences *)
Definition early (m : nat) (k : block) : Prop :=
  exists c, 1 <= c /\ c * pm1 k = gnum (exp_items x) (S m) /\ c * qm1 k = gden (exp_items x) (S m) /\
    c * pm2 k = gnum (exp_items x) m /\ c * qm2 k = gden (exp_items x) m.

Lemma early_move m k k' : early m k -> moved k (fst (exp_items x (S (S m)))) (snd (exp_items x (S (S m)))) k' -> early (S m) k'.
Proof.
  intros (c & Hc & P1 & Q1 & P2 & Q2) (g & Hg & A1 & A2 & B1 & B2). exists (c * g). split; [nia|]. rewrite gnum_SS, gden_SS.
  set (a := fst (exp_items x (S (S m)))) in *. set (b := snd (exp_items x (S (S m)))) in *. rewrite <- P1, <- P2, <- Q1, <- Q2.
  rewrite <- !Z.mul_assoc, A1, A2, B1, B2. repeat split; ring.
Qed.

Lemma esum_gcont n : (IZR (gnum (exp_items x) n) = INR (fact n) * esum n X)%R /\ (IZR (gden (exp_items x) n) = INR (fact n))%R.
Proof.
  assert (D : (IZR (gden (exp_items x) n) = INR (fact n))%R) by (rewrite (proj1 (exp_den x n)), <- INR_IZR_INZ; reflexivity).
  split; [|exact D]. pose proof (exp_sum x n) as E. rewrite D in E. unfold esum, X. rewrite <- E. field. apply INR_fact_neq_0.
Qed.

Lemma early_live m k : early m k -> 0 <= Z.of_nat m + 2 + x -> slive ntail k (ExpSt x (Z.of_nat (S (S m)))) (exp X).
Proof.
  intros (c & Hc & P1 & Q1 & P2 & Q2) Hm.
  assert (G0 : good0 k).
  { unfold good0. pose proof (proj1 (exp_den x m)). pose proof (proj1 (exp_den x (S m))). pose proof (lt_O_fact m). pose proof (lt_O_fact (S m)).
    assert (0 < c * qm1 k) by lia. assert (0 < c * qm2 k) by lia. assert (0 < qm1 k) by nia. assert (0 < qm2 k) by nia. nia. }
  split; [|exact G0]. exists (tu m), (tw m). split; [exists m; auto|]. split; [left; exact G0|].
  destruct (esum_gcont m) as (N0 & D0). destruct (esum_gcont (S m)) as (N1 & D1).
  apply (f_equal IZR) in P1, P2, Q1, Q2. rewrite mult_IZR in P1, P2, Q1, Q2. rewrite N1 in P1. rewrite D1 in Q1. rewrite N0 in P2. rewrite D0 in Q2.
  assert (Kc : (IZR c <> 0)%R) by (apply not_0_IZR; lia).
  assert (Fd : (INR (fact (S m)) = INR (S m) * INR (fact m))%R) by (rewrite <- mult_INR; reflexivity).
  assert (Ed : (IZR c * den k (tu m) (tw m) = 1)%R).
  { unfold den. replace (IZR c * (IZR (qm1 k) * tu m + IZR (qm2 k) * tw m))%R with (IZR c * IZR (qm1 k) * tu m + IZR c * IZR (qm2 k) * tw m)%R by ring.
    rewrite Q1, Q2. unfold tw, tu. rewrite (erem_S m X), Fd. pose proof (Xpow m). pose proof X_neg. pose proof (INR_fact_neq_0 m).
    assert (INR (S m) <> 0)%R by (apply not_0_INR; lia). change (X ^ S (S m))%R with (X * (X * X ^ m))%R. change (X ^ S m)%R with (X * X ^ m)%R. field. repeat split; auto; lra. }
  assert (En : (IZR c * num k (tu m) (tw m) = exp X)%R).
  { unfold num. replace (IZR c * (IZR (pm1 k) * tu m + IZR (pm2 k) * tw m))%R with (IZR c * IZR (pm1 k) * tu m + IZR c * IZR (pm2 k) * tw m)%R by ring.
    rewrite P1, P2. unfold tw, tu, erem. rewrite esum_S, Fd. pose proof (Xpow m). pose proof X_neg. pose proof (INR_fact_neq_0 m).
    assert (INR (S m) <> 0)%R by (apply not_0_INR; lia). change (X ^ S (S m))%R with (X * (X * X ^ m))%R. change (X ^ S m)%R with (X * X ^ m)%R. field. repeat split; auto; lra. }
  split; [intros K; rewrite K in Ed; lra|].
  assert (D : den k (tu m) (tw m) <> 0%R) by (intros K; rewrite K in Ed; lra).
  rewrite <- En. replace (num k (tu m) (tw m) / den k (tu m) (tw m))%R with (IZR c * num k (tu m) (tw m) / (IZR c * den k (tu m) (tw m)))%R by (field; auto).
  rewrite Ed. field.
Qed.

(** Nothing comes out before *)
Lemma big_terms m : Z.of_nat m + 2 + x < 0 -> (2 <= Rabs (X ^ S m / INR (fact (S m))))%R.
Proof.
  induction m as [|m IH]; intros Hm.
  - assert (x <= -3) by lia. apply IZR_le in H. fold X in H. cbn [pow fact]. replace (X * 1 / INR (1 * 1))%R with X by (cbn; field). rewrite Rabs_left; lra.
  - specialize (IH ltac:(lia)).
    replace (X ^ S (S m) / INR (fact (S (S m))))%R with (X ^ S m / INR (fact (S m)) * (X / INR (S (S m))))%R.
    2:{ change (fact (S (S m))) with (S (S m) * fact (S m))%nat. rewrite mult_INR. change (X ^ S (S m))%R with (X * X ^ S m)%R.
        pose proof (INR_fact_neq_0 (S m)). assert (INR (S (S m)) <> 0)%R by (apply not_0_INR; lia). field. auto. }
    rewrite Rabs_mult. assert (1 <= Rabs (X / INR (S (S m))))%R.
    { assert (P : (0 < INR (S (S m)))%R) by (apply lt_0_INR; lia). assert (B : (INR (S (S m)) <= - X)%R) by (rewrite INR_IZR_INZ; unfold X; rewrite <- opp_IZR; apply IZR_le; lia).
      pose proof X_neg. rewrite Rabs_left1.
      - replace (- (X / INR (S (S m))))%R with (- X / INR (S (S m)))%R by (field; lra). apply (Rmult_le_reg_r (INR (S (S m)))); [auto|]. field_simplify; lra.
      - apply (Rmult_le_reg_r (INR (S (S m)))); [auto|]. field_simplify; lra. }
    set (y := Rabs (X ^ S m / INR (fact (S m)))) in *. nra.
Qed.

Lemma trunc_dist a b i : istrunc a i -> istrunc b i -> (Rabs (a - b) < 2)%R.
Proof.
  intros (A1 & A2) (B1 & B2). apply Rabs_def1; destruct (Rle_or_lt 0 a) as [Ha|Ha], (Rle_or_lt 0 b) as [Hb|Hb];
    try specialize (A1 Ha); try specialize (B1 Hb); try specialize (A2 (Rlt_le _ _ Ha)); try specialize (B2 (Rlt_le _ _ Hb)); lra.
Qed.

Lemma early_quiet m k i r1 r2 : early m k -> Z.of_nat m + 2 + x < 0 -> emits k i r1 r2 -> False.
Proof.
  intros (c & Hc & P1 & Q1 & P2 & Q2) Hm (N1 & N2 & I1 & I2 & _). pose proof (big_terms m Hm) as B.
  pose proof (trunc_quot (pm1 k) (qm1 k) N1) as T1. rewrite <- I1 in T1. pose proof (trunc_quot (pm2 k) (qm2 k) N2) as T2. rewrite <- I2 in T2.
  pose proof (trunc_dist _ _ _ T1 T2) as D.
  destruct (esum_gcont m) as (E0 & D0). destruct (esum_gcont (S m)) as (E1 & D1).
  apply (f_equal IZR) in P1, P2, Q1, Q2. rewrite mult_IZR in P1, P2, Q1, Q2. rewrite E1 in P1. rewrite D1 in Q1. rewrite E0 in P2. rewrite D0 in Q2.
  apply not_0_IZR in N1, N2. assert (Kc : (IZR c <> 0)%R) by (apply not_0_IZR; lia).
  pose proof (INR_fact_neq_0 m) as F0. pose proof (INR_fact_neq_0 (S m)) as F1.
  replace (IZR (pm1 k) / IZR (qm1 k))%R with (esum (S m) X) in D.
  2:{ replace (IZR (pm1 k) / IZR (qm1 k))%R with (IZR c * IZR (pm1 k) / (IZR c * IZR (qm1 k)))%R by (field; auto). rewrite P1, Q1. field. auto. }
  replace (IZR (pm2 k) / IZR (qm2 k))%R with (esum m X) in D.
  2:{ replace (IZR (pm2 k) / IZR (qm2 k))%R with (IZR c * IZR (pm2 k) / (IZR c * IZR (qm2 k)))%R by (field; auto). rewrite P2, Q2. field. auto. }
  rewrite esum_S in D. replace (esum m X + X ^ S m / INR (fact (S m)) - esum m X)%R with (X ^ S m / INR (fact (S m)))%R in D by ring. lra.
Qed.

Notation nx := (exp_next t).

Lemma simp_skip fuel k i v s' : (forall i r1 r2, ~ emits k i r1 r2) -> simp_next t nx fuel (k, ExpSt x (Z.of_nat i)) = Ok (Some v, s') ->
  exists k1 f1, moved k (fst (exp_items x i)) (snd (exp_items x i)) k1 /\ simp_next t nx f1 (k1, ExpSt x (Z.of_nat (S i))) = Ok (Some v, s') /\ (f1 < fuel)%nat.
Proof.
  intros NE H. destruct fuel as [|fuel]; [discriminate|]. cbn [simp_next] in H. apply bind_Ok in H. destruct H as ((o, k1) & R & H).
  apply reduce_recip_inv in R. destruct R as [(j & r1 & r2 & C & -> & ->)|(C & -> & ->)]; [apply check_integer_inv in C; destruct (NE _ _ _ C)|].
  apply bind_Ok in H. destruct H as ((o, it1) & N & H). destruct o as [(a, b)|]; [|discriminate].
  apply bind_Ok in H. destruct H as (k2 & M & H). apply gmove_inv in M. destruct (exp_step _ _ _ _ _ N) as (E & ->). rewrite <- E.
  exists k2, fuel. auto.
Qed.

Lemma dec_skip fuel k i v s' : (forall i r1 r2, ~ emits k i r1 r2) -> dec_next t nx fuel (k, ExpSt x (Z.of_nat i)) = Ok (Some v, s') ->
  exists k1 f1, moved k (fst (exp_items x i)) (snd (exp_items x i)) k1 /\ dec_next t nx f1 (k1, ExpSt x (Z.of_nat (S i))) = Ok (Some v, s') /\ (f1 < fuel)%nat.
Proof.
  intros NE H. destruct fuel as [|fuel]; [discriminate|]. cbn [dec_next] in H. apply bind_Ok in H. destruct H as (ten & _ & H).
  apply bind_Ok in H. destruct H as ((o, k1) & R & H).
  apply reduce_mul_inv in R. destruct R as [(j & r1 & r2 & C & -> & ->)|(C & -> & ->)]; [apply check_integer_inv in C; destruct (NE _ _ _ C)|].
  apply bind_Ok in H. destruct H as ((o, it1) & N & H). destruct o as [(a, b)|]; [|discriminate].
  apply bind_Ok in H. destruct H as ((o, k2) & M & H). destruct o as [(p, q)|]; [|discriminate]. apply checked_gmove_inv in M.
  destruct (exp_step _ _ _ _ _ N) as (E & ->). rewrite <- E. exists (block_update k2 p q), fuel. auto.
Qed.

(** The first two pairs *)
Lemma two_moves k1 k2 : moved block_identity (fst (exp_items x 0)) (snd (exp_items x 0)) k1 -> moved k1 (fst (exp_items x 1)) (snd (exp_items x 1)) k2 ->
  (forall i r1 r2, ~ emits k1 i r1 r2) /\ early 0 k2.
Proof.
  intros (g & Hg & A1 & A2 & B1 & B2) (h & Hh & C1 & C2 & D1 & D2). unfold block_identity in *. cbn [pm1 pm2 qm1 qm2 exp_items fst snd] in *.
  split; [intros i r1 r2 (_ & K & _); nia|]. exists (g * h). split; [nia|]. rewrite gnum_1, gden_1, gnum_0, gden_0. cbn [exp_items fst snd].
  rewrite <- !Z.mul_assoc, C1, C2, D1, D2. repeat split; nia.
Qed.

Lemma identity_quiet i r1 r2 : ~ emits block_identity i r1 r2.
Proof. intros (K & _). apply K. reflexivity. Qed.

Lemma simp_early fuel : forall m k v k' it', early m k -> simp_next t nx fuel (k, ExpSt x (Z.of_nat (S (S m)))) = Ok (Some v, (k', it')) ->
  istrunc (exp X) v /\ (exp X <> IZR v -> live ntail k' it' (/ (exp X - IZR v))) /\ (exp X = IZR v -> over ntail k' it').
Proof.
  induction fuel as [fuel IH] using lt_wf_ind. intros m k v k' it' E H. destruct (Z.lt_ge_cases (Z.of_nat m + 2 + x) 0) as [L|L].
  - destruct (simp_skip _ _ _ _ _ (fun i r1 r2 Em => early_quiet _ _ _ _ _ E L Em) H) as (k1 & f1 & M & H1 & Lt). eapply (IH f1 Lt (S m)); [|exact H1]. eapply early_move; eauto.
  - eapply (simp_live t nx ntail ntail_pos ntail_next); [|exact H]. apply early_live; auto.
Qed.

Lemma dec_early fuel : forall m k c k' it', early m k -> dec_next t nx fuel (k, ExpSt x (Z.of_nat (S (S m)))) = Ok (Some c, (k', it')) ->
  istrunc (exp X) (c - 48) /\ 0 <= c - 48 <= 207 /\ slive ntail k' it' (10 * (exp X - IZR (c - 48))).
Proof.
  induction fuel as [fuel IH] using lt_wf_ind. intros m k v k' it' E H. destruct (Z.lt_ge_cases (Z.of_nat m + 2 + x) 0) as [L|L].
  - destruct (dec_skip _ _ _ _ _ (fun i r1 r2 Em => early_quiet _ _ _ _ _ E L Em) H) as (k1 & f1 & M & H1 & Lt). eapply (IH f1 Lt (S m)); [|exact H1]. eapply early_move; eauto.
  - eapply (dec_slive t nx ntail ntail_pos ntail_next); [|exact H]. apply early_live; auto.
Qed.

Lemma exp_simplify_neg fuel n v : nth_item (simp_next t nx fuel) n (gcf_simplify (gcf_exp x)) = Ok (Some v) -> cf_digit (exp X) n v.
Proof.
  intros H. destruct (nth_item_cases _ _ _ _ H) as (i & (k', it') & N).
  assert (K : istrunc (exp X) i /\ (exp X <> IZR i -> live ntail k' it' (/ (exp X - IZR i))) /\ (exp X = IZR i -> over ntail k' it')).
  { destruct (simp_skip _ block_identity 0 _ _ identity_quiet N) as (k1 & f1 & M1 & H1 & _).
    assert (Q1 : forall i r1 r2, ~ emits k1 i r1 r2).
    { intros j r1 r2 (_ & K & _). destruct M1 as (g & Hg & _ & _ & _ & B). unfold block_identity in B. cbn [qm1] in B. nia. }
    destruct (simp_skip _ k1 1 _ _ Q1 H1) as (k2 & f2 & M2 & H2 & _). destruct (two_moves _ _ M1 M2) as (_ & E). eapply simp_early; eauto. }
  destruct K as (T & K1 & K2). destruct n as [|n].
  - apply nth_head in H. destruct H as (s' & H). rewrite N in H. assert (i = v) by congruence. subst i. exact T.
  - rewrite (nth_item_S _ _ _ _ _ N) in H. exists i. split; [auto|]. assert (Ny : exp X <> IZR i).
    { intros Ey. destruct (nth_item_cases _ _ _ _ H) as (i2 & s2 & N2). eapply (simp_over t nx ntail ntail_pos ntail_next); [|exact N2]. apply K2, Ey. }
    split; [auto|]. eapply (simp_nth t nx ntail ntail_pos ntail_next); eauto.
Qed.

Lemma dec_shift n y c0 m : (isfloor (10 ^ n * (10 * (y - IZR (c0 - 48)))) m)%R ->
  isfloor (10 ^ S n * y) (m + 10 ^ Z.of_nat (S n) * (c0 - 48)) /\ (m + 10 ^ Z.of_nat (S n) * (c0 - 48)) mod 10 = m mod 10.
Proof.
  intros Fm. split.
  - unfold isfloor in *. rewrite plus_IZR, mult_IZR, <- pow_IZR. cbn [pow] in *. set (z := (10 ^ n)%R) in *.
    replace (10 * z * y)%R with (z * (10 * (y - IZR (c0 - 48))) + 10 * z * IZR (c0 - 48))%R by ring. lra.
  - rewrite Nat2Z.inj_succ, Z.pow_succ_r by lia.
    replace (m + 10 * 10 ^ Z.of_nat n * (c0 - 48)) with (m + (10 ^ Z.of_nat n * (c0 - 48)) * 10) by ring. rewrite Z.mod_add by lia. reflexivity.
Qed.

Lemma ndec_nth fuel n : forall k it y c, slive ntail k it y -> (0 <= y < 10)%R -> nth_item (dec_next t nx fuel) n (k, it) = Ok (Some c) ->
  exists m, isfloor (10 ^ n * y) m /\ c = 48 + m mod 10.
Proof.
  induction n as [|n IH]; intros k it y c L B H.
  - apply nth_head in H. destruct H as ((k', it') & H). destruct (dec_slive t nx ntail ntail_pos ntail_next _ _ _ _ _ _ _ L H) as ((T & _) & Bc & _).
    specialize (T (proj1 B)). exists (c - 48). split; [unfold isfloor; rewrite pow_O, Rmult_1_l; exact T|].
    assert (c - 48 < 10) by (apply lt_IZR; lra). rewrite Z.mod_small by lia. ring.
  - destruct (nth_item_cases _ _ _ _ H) as (c0 & (k', it') & N). rewrite (nth_item_S _ _ _ _ _ N) in H.
    destruct (dec_slive t nx ntail ntail_pos ntail_next _ _ _ _ _ _ _ L N) as ((T & _) & Bc & L'). specialize (T (proj1 B)).
    destruct (IH _ _ _ _ L' ltac:(lra) H) as (m & Fm & Em). destruct (dec_shift _ _ _ _ Fm) as (F' & E').
    exists (m + 10 ^ Z.of_nat (S n) * (c0 - 48)). split; [exact F'|]. rewrite E'. exact Em.
Qed.

Lemma exp_decimals_neg fuel n c : nth_item (dec_next t nx fuel) n (gcf_decimals (gcf_exp x)) = Ok (Some c) ->
  exists m, isfloor (10 ^ n * exp X) m /\ c = 48 + m mod 10.
Proof.
  intros H. destruct (nth_item_cases _ _ _ _ H) as (c0 & (k', it') & N).
  assert (K : istrunc (exp X) (c0 - 48) /\ 0 <= c0 - 48 <= 207 /\ slive ntail k' it' (10 * (exp X - IZR (c0 - 48)))).
  { destruct (dec_skip _ block_identity 0 _ _ identity_quiet N) as (k1 & f1 & M1 & H1 & _).
    assert (Q1 : forall i r1 r2, ~ emits k1 i r1 r2).
    { intros j r1 r2 (_ & K & _). destruct M1 as (g & Hg & _ & _ & _ & B). unfold block_identity in B. cbn [qm1] in B. nia. }
    destruct (dec_skip _ k1 1 _ _ Q1 H1) as (k2 & f2 & M2 & H2 & _). destruct (two_moves _ _ M1 M2) as (_ & E). eapply dec_early; eauto. }
  assert (B : (0 < exp X < 1)%R) by (split; [apply exp_pos|rewrite <- exp_0; apply exp_increasing, X_neg]).
  destruct K as ((T & _) & Bc & L). specialize (T ltac:(lra)). destruct n as [|n].
  - assert (c = c0). { apply nth_head in H. destruct H as (s' & H). rewrite N in H. congruence. } subst c0.
    exists (c - 48). split; [unfold isfloor; rewrite pow_O, Rmult_1_l; exact T|].
    assert (c - 48 < 10) by (apply lt_IZR; lra). rewrite Z.mod_small by lia. ring.
  - rewrite (nth_item_S _ _ _ _ _ N) in H. destruct (ndec_nth _ _ _ _ _ _ L ltac:(lra) H) as (m & Fm & Em). destruct (dec_shift _ _ _ _ Fm) as (F' & E').
    exists (m + 10 ^ Z.of_nat (S n) * (c0 - 48)). split; [exact F'|]. rewrite E'. exact Em.
Qed.
End Neg.
