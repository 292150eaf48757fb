(** * ExpIrr: exp(k) is irrational for every integer k other than 0 (C70). *)

From Coq Require Import ZArith Reals Lia Lra Psatz Bool List Factorial.
From Coquelicot Require Import Coquelicot.
From Verif Require Import Base Ext Spec SpecGen NumFacts SymExp.
Import ListNotations.
Open Scope Z_scope.

Section Irr.
Context (k : Z) (Hk : 1 <= k).
Let K := IZR k.

Local Lemma K1 : (1 <= K)%R.
Proof. apply IZR_le in Hk. exact Hk. Qed.

(** ** Integrals of x^a (x-1)^b e^(kx) over [0, 1] *)
Definition hf (a b : nat) (x : R) : R := (x ^ a * (x - 1) ^ b * exp (K * x))%R.
Definition H (a b : nat) : R := RInt (hf a b) 0 1.

Lemma hf_cont a b x : continuous (hf a b) x.
Proof. unfold hf. apply (ex_derive_continuous (hf a b)). unfold hf. auto_derive. auto. Qed.
Lemma hf_int a b : ex_RInt (hf a b) 0 1.
Proof. apply (ex_RInt_continuous (V := R_CompleteNormedModule) (hf a b)). intros x _. apply hf_cont. Qed.
Lemma H_is a b : is_RInt (hf a b) 0 1 (H a b).
Proof. apply (RInt_correct (V := R_CompleteNormedModule) (hf a b)). apply hf_int. Qed.

Lemma hf_derive a b x : is_derive (hf (S a) (S b)) x (INR (S a) * hf a (S b) x + INR (S b) * hf (S a) b x + K * hf (S a) (S b) x)%R.
Proof.
  unfold hf. auto_derive; [auto|]. cbn [Init.Nat.pred]. rewrite !S_INR.
  assert (E : forall k : nat, (match k with O => 1 | S _ => INR k + 1 end = INR k + 1)%R) by (intros [|j]; cbn [INR]; ring). rewrite !E. cbn [pow]. unfold Rminus. ring.
Qed.

Lemma H_parts a b : (INR (S a) * H a (S b) + INR (S b) * H (S a) b + K * H (S a) (S b) = 0)%R.
Proof.
  assert (H1 : is_RInt (fun x => INR (S a) * hf a (S b) x + INR (S b) * hf (S a) b x + K * hf (S a) (S b) x)%R 0 1 (minus (hf (S a) (S b) 1) (hf (S a) (S b) 0))).
  { apply (is_RInt_derive (hf (S a) (S b))); [intros x _; apply hf_derive|]. intros x _.
    apply (continuous_plus (fun x => INR (S a) * hf a (S b) x + INR (S b) * hf (S a) b x)%R (fun x => K * hf (S a) (S b) x)%R); [|apply (continuous_scal_r K (hf (S a) (S b))), hf_cont].
    apply (continuous_plus (fun x => INR (S a) * hf a (S b) x)%R (fun x => INR (S b) * hf (S a) b x)%R);
      [apply (continuous_scal_r (INR (S a)) (hf a (S b)))|apply (continuous_scal_r (INR (S b)) (hf (S a) b))]; apply hf_cont. }
  assert (H2 : is_RInt (fun x => INR (S a) * hf a (S b) x + INR (S b) * hf (S a) b x + K * hf (S a) (S b) x)%R 0 1 (INR (S a) * H a (S b) + INR (S b) * H (S a) b + K * H (S a) (S b))%R).
  { apply (is_RInt_plus (fun x => INR (S a) * hf a (S b) x + INR (S b) * hf (S a) b x)%R (fun x => K * hf (S a) (S b) x)%R); [|apply (is_RInt_scal (hf (S a) (S b)) 0 1 K), H_is].
    apply (is_RInt_plus (fun x => INR (S a) * hf a (S b) x)%R (fun x => INR (S b) * hf (S a) b x)%R);
      [apply (is_RInt_scal (hf a (S b)) 0 1 (INR (S a)))|apply (is_RInt_scal (hf (S a) b) 0 1 (INR (S b)))]; apply H_is. }
  rewrite <- (is_RInt_unique _ _ _ _ H2), (is_RInt_unique _ _ _ _ H1). unfold hf, minus, plus, opp. cbn. rewrite Rminus_eq_0. ring.
Qed.

Lemma H_shift a b : H a (S b) = (H (S a) b - H a b)%R.
Proof.
  unfold H. symmetry. rewrite <- (RInt_minus (hf (S a) b) (hf a b)) by apply hf_int. apply RInt_ext. intros x _. unfold hf, minus, plus, opp. cbn. ring.
Qed.

Lemma H00 : (K * H 0 0 = exp K - 1)%R.
Proof.
  pose proof K1. assert (E : H 0 0 = ((exp K - 1) / K)%R); [|rewrite E; field; lra].
  apply is_RInt_unique. replace ((exp K - 1) / K)%R with (minus (exp (K * 1) / K) (exp (K * 0) / K))%R.
  2:{ rewrite Rmult_0_r, Rmult_1_r, exp_0. unfold minus, plus, opp. cbn. field. lra. }
  apply (is_RInt_derive (fun x => exp (K * x) / K)%R (hf 0 0)); intros x _; [unfold hf; auto_derive; [auto|cbn; field; lra]|apply hf_cont].
Qed.

Lemma H10 : (K * K * H 1 0 = (K - 1) * exp K + 1)%R.
Proof.
  pose proof K1. assert (E : H 1 0 = (((K - 1) * exp K + 1) / (K * K))%R); [|rewrite E; field; lra].
  apply is_RInt_unique. replace (((K - 1) * exp K + 1) / (K * K))%R with (minus ((1 / K - 1 / (K * K)) * exp (K * 1)) ((0 / K - 1 / (K * K)) * exp (K * 0)))%R.
  2:{ rewrite Rmult_0_r, Rmult_1_r, exp_0. unfold minus, plus, opp. cbn. field. lra. }
  apply (is_RInt_derive (fun x => (x / K - 1 / (K * K)) * exp (K * x))%R (hf 1 0)); intros x _; [unfold hf; auto_derive; [auto|cbn; field; lra]|apply hf_cont].
Qed.

Lemma H_bound a b : (Rabs (H a b) <= exp K)%R.
Proof.
  replace (exp K) with ((1 - 0) * exp K)%R by ring. apply abs_RInt_le_const; [lra|apply hf_int|]. intros x Hx. unfold hf. rewrite !Rabs_mult. pose proof K1.
  assert (E : (exp (K * x) <= exp K)%R). { destruct (Req_dec x 1) as [->|]; [rewrite Rmult_1_r; lra|]. left. apply exp_increasing. assert (x < 1)%R by lra. nra. }
  rewrite (Rabs_right (exp (K * x))) by (left; apply exp_pos). rewrite <- !RPow_abs.
  assert (P : forall z n, (Rabs z <= 1)%R -> (0 <= Rabs z ^ n <= 1)%R).
  { intros z n Hz. split; [apply pow_le, Rabs_pos|]. rewrite <- (pow1 n). apply pow_incr. split; [apply Rabs_pos|auto]. }
  assert (P1 := P x a ltac:(rewrite Rabs_right; lra)). assert (P2 := P (x - 1)%R b ltac:(rewrite Rabs_left1; lra)). pose proof (exp_pos (K * x)).
  replace (exp K) with (1 * 1 * exp K)%R by ring. apply Rmult_le_compat; try lra; [apply Rmult_le_pos; lra|]. apply Rmult_le_compat; lra.
Qed.

Lemma H_nz n : H n n <> 0%R.
Proof.
  assert (P : (0 < RInt (fun x => x ^ n * (1 - x) ^ n * exp (K * x)) 0 1)%R).
  { apply RInt_gt_0; [lra| |].
    - intros x Hx. apply Rmult_lt_0_compat; [apply Rmult_lt_0_compat; apply pow_lt; lra|apply exp_pos].
    - intros x _. apply (ex_derive_continuous (fun x => x ^ n * (1 - x) ^ n * exp (K * x))%R). auto_derive. auto. }
  assert (E : H n n = ((-1) ^ n * RInt (fun x => x ^ n * (1 - x) ^ n * exp (K * x)) 0 1)%R).
  { unfold H. rewrite <- (RInt_scal (V := R_CompleteNormedModule)).
    - apply RInt_ext. intros x _. unfold hf, scal. cbn. unfold mult. cbn. replace (x - 1)%R with (-1 * (1 - x))%R by ring. rewrite Rpow_mult_distr. ring.
    - apply (ex_RInt_continuous (V := R_CompleteNormedModule)). intros x _. apply (ex_derive_continuous (fun x => x ^ n * (1 - x) ^ n * exp (K * x))%R). auto_derive. auto. }
  rewrite E. intros Z. apply Rmult_integral in Z. destruct Z as [Z|Z]; [|lra]. apply (pow_nonzero (-1) n); [lra|auto].
Qed.

(** ** Integer combinations of 1 and exp(k) *)
Definition comb (y : R) : Prop := exists p q, y = (IZR p + IZR q * exp K)%R.

Lemma comb_lin i j y z : comb y -> comb z -> comb (IZR i * y + IZR j * z)%R.
Proof. intros (p & q & ->) (p' & q' & ->). exists (i * p + j * p'), (i * q + j * q'). rewrite !plus_IZR, !mult_IZR. ring. Qed.

Lemma fact_SR n : INR (fact (S n)) = (INR (S n) * INR (fact n))%R.
Proof. change (fact (S n)) with (S n * fact n)%nat. apply mult_INR. Qed.

Lemma combs n : comb (K ^ (2 * n + 1) * (H n n / INR (fact n))) /\ comb (K ^ (2 * n + 2) * (H (S n) n / INR (fact n))).
Proof.
  induction n as [|n [C1 C2]].
  - split.
    + exists (-1), 1. cbn [Nat.mul Nat.add pow fact INR]. pose proof H00. lra.
    + exists 1, (k - 1). cbn [Nat.mul Nat.add pow fact INR]. pose proof H10. rewrite minus_IZR. fold K. lra.
  - pose proof (INR_fact_neq_0 n) as F. assert (Sn : INR (S n) <> 0%R) by (apply not_0_INR; lia). pose proof K1.
    assert (A : comb (K ^ (2 * S n + 1) * (H (S n) (S n) / INR (fact (S n))))).
    { replace (K ^ (2 * S n + 1) * (H (S n) (S n) / INR (fact (S n))))%R
        with (IZR (-2) * (K ^ (2 * n + 2) * (H (S n) n / INR (fact n))) + IZR k * (K ^ (2 * n + 1) * (H n n / INR (fact n))))%R; [apply comb_lin; auto|].
      pose proof (H_parts n n) as P. rewrite (H_shift n n) in P. rewrite fact_SR. fold K.
      replace (2 * S n + 1)%nat with (S (S (2 * n + 1))) by lia. replace (2 * n + 2)%nat with (S (2 * n + 1)) by lia. set (z := (2 * n + 1)%nat). cbn [pow].
      assert (E : (K * H (S n) (S n) = - INR (S n) * (2 * H (S n) n - H n n))%R) by lra.
      replace (K * (K * K ^ z) * (H (S n) (S n) / (INR (S n) * INR (fact n))))%R with (K * K ^ z * ((K * H (S n) (S n)) / (INR (S n) * INR (fact n))))%R by (field; auto).
      rewrite E. field. auto. }
    split; [exact A|].
    replace (K ^ (2 * S n + 2) * (H (S (S n)) (S n) / INR (fact (S n))))%R
      with (IZR (- (2 * Z.of_nat n + 3)) * (K ^ (2 * S n + 1) * (H (S n) (S n) / INR (fact (S n)))) + IZR (- k) * (K ^ (2 * n + 2) * (H (S n) n / INR (fact n))))%R; [apply comb_lin; auto|].
    pose proof (H_parts (S n) n) as P. pose proof (H_shift (S n) n) as P1. rewrite fact_SR.
    replace (2 * S n + 2)%nat with (S (S (S (2 * n + 1)))) by lia. replace (2 * S n + 1)%nat with (S (S (2 * n + 1))) by lia. replace (2 * n + 2)%nat with (S (2 * n + 1)) by lia. set (z := (2 * n + 1)%nat). cbn [pow].
    rewrite !opp_IZR, plus_IZR, mult_IZR, <- INR_IZR_INZ. fold K. rewrite (S_INR (S n)) in P.
    assert (E : (K * H (S (S n)) (S n) = - ((2 * INR n + 3) * H (S n) (S n) + INR (S n) * H (S n) n))%R) by (rewrite S_INR in *; nra).
    replace (K * (K * (K * K ^ z)) * (H (S (S n)) (S n) / (INR (S n) * INR (fact n))))%R with (K * (K * K ^ z) * ((K * H (S (S n)) (S n)) / (INR (S n) * INR (fact n))))%R by (field; auto).
    rewrite E. field. auto.
Qed.

Lemma pow_fact_lim (c : R) : is_lim_seq (fun n => c ^ n / INR (fact n))%R 0%R.
Proof.
  apply (ex_series_lim_0 (fun n => c ^ n / INR (fact n))%R). exists (exp c). pose proof (is_exp_Reals c) as E. apply is_pseries_R in E.
  apply (is_series_ext (fun k => / INR (fact k) * c ^ k)%R); [intros n; unfold Rdiv; apply Rmult_comm|exact E].
Qed.

Lemma exp_irr_pos : irrational (exp K).
Proof.
  intros p q Hq E. pose proof K1. pose proof (exp_pos K) as Ex. assert (Q : IZR q <> 0%R) by (apply not_0_IZR; auto).
  set (C := (Rabs (IZR q) * K * exp K)%R). assert (PC : (0 < C)%R) by (unfold C; apply Rmult_lt_0_compat; [apply Rmult_lt_0_compat; [apply Rabs_pos_lt; auto|lra]|auto]).
  pose proof (pow_fact_lim (K * K)) as L. apply is_lim_seq_spec in L. destruct (L (mkposreal _ (Rinv_0_lt_compat _ PC))) as (N & HN). specialize (HN N (le_n N)). cbn [pos] in HN.
  rewrite Rminus_0_r in HN. destruct (combs N) as ((a & b & Eab) & _).
  set (y := (K ^ (2 * N + 1) * (H N N / INR (fact N)))%R) in *.
  assert (Ny : y <> 0%R).
  { unfold y. apply Rmult_integral_contrapositive. split; [apply pow_nonzero; lra|]. apply Rmult_integral_contrapositive. split; [apply H_nz|apply Rinv_neq_0_compat, INR_fact_neq_0]. }
  assert (Int : (IZR q * y = IZR (q * a + b * p))%R) by (rewrite Eab, E, plus_IZR, !mult_IZR; field; auto).
  assert (Lt : (Rabs (IZR q * y) < 1)%R).
  { unfold y. rewrite Rabs_mult, Rabs_mult, (Rabs_right (K ^ (2 * N + 1))) by (left; apply pow_lt; lra).
    unfold Rdiv. rewrite Rabs_mult. pose proof (H_bound N N) as B. pose proof (INR_fact_lt_0 N) as F. rewrite (Rabs_right (/ INR (fact N))) by (left; apply Rinv_0_lt_compat; auto).
    rewrite Nat.add_1_r. cbn [pow]. rewrite pow_mult. replace (K ^ 2)%R with (K * K)%R by ring.
    rewrite Rabs_right in HN by (left; apply Rmult_lt_0_compat; [apply pow_lt; nra|apply Rinv_0_lt_compat; auto]).
    set (w := ((K * K) ^ N / INR (fact N))%R) in *. assert (Pw : (0 < w)%R) by (unfold w; apply Rmult_lt_0_compat; [apply pow_lt; nra|apply Rinv_0_lt_compat; auto]).
    replace (Rabs (IZR q) * (K * (K * K) ^ N * (Rabs (H N N) * / INR (fact N))))%R with (Rabs (IZR q) * K * Rabs (H N N) * w)%R by (unfold w; field; lra).
    apply Rle_lt_trans with (C * w)%R.
    - apply Rmult_le_compat_r; [lra|]. unfold C. apply Rmult_le_compat_l; [apply Rmult_le_pos; [apply Rabs_pos|lra]|auto].
    - replace 1%R with (C * / C)%R by (field; lra). apply Rmult_lt_compat_l; auto. }
  rewrite Int in Lt. rewrite <- abs_IZR in Lt. apply (lt_IZR _ 1) in Lt. assert (Z0 : q * a + b * p = 0) by lia. rewrite Z0 in Int. apply Rmult_integral in Int. tauto.
Qed.
End Irr.

Lemma exp_irr (k : Z) : k <> 0 -> irrational (exp (IZR k)).
Proof.
  intros Hk. destruct (Z.lt_ge_cases k 0) as [N|N]; [|apply exp_irr_pos; lia].
  intros p q Hq E. assert (Kp : 1 <= - k) by lia. pose proof (exp_irr_pos (- k) Kp) as I. rewrite opp_IZR, exp_Ropp in I. pose proof (exp_pos (IZR k)) as Ex.
  assert (Q : IZR q <> 0%R) by (apply not_0_IZR; auto).
  assert (Hp : p <> 0) by (intros ->; rewrite E in Ex; unfold Rdiv in Ex; rewrite Rmult_0_l in Ex; lra).
  apply (I q p Hp). rewrite E. field. split; auto. apply not_0_IZR; auto.
Qed.
