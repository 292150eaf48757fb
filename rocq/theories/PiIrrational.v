(** * PiIrrational: pi is irrational (for C46). *)

From Coq Require Import ZArith Reals Lia Lra Psatz Factorial.
From Coquelicot Require Import Coquelicot.
From Verif Require Import Spec SpecGen SymE.
Open Scope R_scope.

Definition ha : R := PI / 2.
Definition wf (n : nat) (x : R) : R := (1 - x * x) ^ n * cos (ha * x).
Definition A (n : nat) : R := RInt (wf n) (-1) 1.

Lemma wf_cont n x : continuous (wf n) x.
Proof. apply (ex_derive_continuous (wf n)). unfold wf. auto_derive. auto. Qed.
Lemma A_is n : is_RInt (wf n) (-1) 1 (A n).
Proof. apply (RInt_correct (V := R_CompleteNormedModule) (wf n)). apply (ex_RInt_continuous (V := R_CompleteNormedModule) (wf n)). intros x _. apply wf_cont. Qed.

Lemma ha_pos : 0 < ha. Proof. unfold ha. pose proof PI_RGT_0. lra. Qed.
Lemma cos_ha : cos ha = 0. Proof. apply cos_PI2. Qed.
Lemma sin_ha : sin ha = 1. Proof. apply sin_PI2. Qed.

Lemma A0 : A 0 = 2 / ha.
Proof.
  apply is_RInt_unique. set (F := fun x => sin (ha * x) / ha). pose proof ha_pos as H.
  replace (2 / ha) with (minus (F 1) (F (-1))).
  - apply (is_RInt_derive F (wf 0)); intros x _; [unfold F, wf; auto_derive; auto; cbn; field; lra|apply wf_cont].
  - unfold F, minus, plus, opp. cbn. replace (ha * -1) with (- (ha * 1)) by ring. rewrite sin_neg, Rmult_1_r, sin_ha. field. lra.
Qed.

Lemma wf_derive m x : is_derive (fun x => ha * ((1 - x * x) ^ S m * sin (ha * x)) - 2 * INR (S m) * (x * (1 - x * x) ^ m * cos (ha * x))) x
  (ha * ha * wf (S m) x - 2 * INR (S m) * (2 * INR m + 1) * wf m x + 4 * INR (S m) * INR m * wf (pred m) x).
Proof.
  unfold wf. auto_derive; [auto|]. destruct m as [|m].
  - cbn. ring.
  - cbn [Init.Nat.pred].
    rewrite !S_INR. cbn [pow]. unfold Rminus. ring.
Qed.

Lemma A_rec m : ha * ha * A (S m) = 2 * INR (S m) * (2 * INR m + 1) * A m - 4 * INR (S m) * INR m * A (pred m).
Proof.
  set (F := fun x => ha * ((1 - x * x) ^ S m * sin (ha * x)) - 2 * INR (S m) * (x * (1 - x * x) ^ m * cos (ha * x))).
  set (f := fun x => ha * ha * wf (S m) x - 2 * INR (S m) * (2 * INR m + 1) * wf m x + 4 * INR (S m) * INR m * wf (pred m) x).
  assert (C : forall c k x, continuous (fun x => c * wf k x) x) by (intros c k x; apply (continuous_scal_r c (wf k)); apply wf_cont).
  assert (I : forall c k, is_RInt (fun x => c * wf k x) (-1) 1 (c * A k)) by (intros c k; apply (is_RInt_scal (wf k) _ _ c); apply A_is).
  assert (H : is_RInt f (-1) 1 (minus (F 1) (F (-1)))).
  { apply (is_RInt_derive F f); [intros x _; apply wf_derive|]. intros x _. unfold f.
    apply (continuous_plus (fun x => ha * ha * wf (S m) x - 2 * INR (S m) * (2 * INR m + 1) * wf m x) (fun x => 4 * INR (S m) * INR m * wf (pred m) x)); [|apply C].
    apply (continuous_minus (fun x => ha * ha * wf (S m) x) (fun x => 2 * INR (S m) * (2 * INR m + 1) * wf m x)); apply C. }
  assert (H2 : is_RInt f (-1) 1 (ha * ha * A (S m) - 2 * INR (S m) * (2 * INR m + 1) * A m + 4 * INR (S m) * INR m * A (pred m))).
  { unfold f. apply (is_RInt_plus (fun x => ha * ha * wf (S m) x - 2 * INR (S m) * (2 * INR m + 1) * wf m x) (fun x => 4 * INR (S m) * INR m * wf (pred m) x)); [|apply I].
    apply (is_RInt_minus (fun x => ha * ha * wf (S m) x) (fun x => 2 * INR (S m) * (2 * INR m + 1) * wf m x)); apply I. }
  pose proof (is_RInt_unique _ _ _ _ H2) as E. rewrite (is_RInt_unique _ _ _ _ H) in E.
  assert (B1 : F 1 = 0). { unfold F. replace (1 - 1 * 1) with 0 by ring. rewrite Rmult_1_r, cos_ha. cbn [pow]. ring. }
  assert (B2 : F (-1) = 0). { unfold F. replace (1 - -1 * -1) with 0 by ring. replace (ha * -1) with (- ha) by ring. rewrite cos_neg, cos_ha. cbn [pow]. ring. }
  rewrite B1, B2 in E. change (minus 0 0) with (0 + - 0) in E. lra.
Qed.

Lemma A_pos n : 0 < A n.
Proof.
  apply RInt_gt_0; [lra| |intros x _; apply wf_cont]. intros x Hx. unfold wf. apply Rmult_lt_0_compat; [apply pow_lt; nra|]. pose proof ha_pos. apply cos_gt_0; fold ha; unfold ha in *; nra.
Qed.

Lemma A_bound n : A n <= 2.
Proof.
  replace 2 with (RInt (fun _ => 1) (-1) 1) by (rewrite RInt_const; unfold scal; cbn; unfold mult; cbn; ring).
  apply RInt_le; [lra|eexists; apply A_is|apply (ex_RInt_const (V := R_NormedModule))|]. intros x Hx. unfold wf.
  assert (0 <= (1 - x * x) ^ n <= 1). { split; [apply pow_le; nra|]. apply Rle_trans with (1 ^ n); [apply pow_incr; nra|rewrite pow1; lra]. }
  pose proof (COS_bound (ha * x)) as [_ C]. set (w := (1 - x * x) ^ n) in *. set (k := cos (ha * x)) in *. clearbody w k. clear - H C. nra.
Qed.

(** if pi/2 = p/q, these numbers are integers, positive, and tend to 0 *)
Definition I (p : R) (n : nat) : R := p ^ (2 * n + 1) * A n / INR (fact n).

Lemma I_rec p q n : 0 < q -> 0 < p -> ha = p / q -> I p (S (S n)) = q * q * (2 * (2 * INR (S n) + 1) * I p (S n) - 4 * (p * p) * I p n).
Proof.
  intros Hq Hp E. pose proof (A_rec (S n)) as R. cbn [Init.Nat.pred] in R. unfold I.
  replace (2 * S (S n) + 1)%nat with (4 + (2 * n + 1))%nat by lia. replace (2 * S n + 1)%nat with (2 + (2 * n + 1))%nat by lia. rewrite !pow_add. set (c := p ^ (2 * n + 1)).
  rewrite (fact_S_R (S n)), (fact_S_R n). pose proof (INR_fact_lt_0 n) as Pf. assert (P1 : 0 < INR (S n)) by (apply lt_0_INR; lia). assert (P2 : 0 < INR (S (S n))) by (apply lt_0_INR; lia).
  assert (R2 : A (S (S n)) = q * q / (p * p) * (2 * INR (S (S n)) * (2 * INR (S n) + 1) * A (S n) - 4 * INR (S (S n)) * INR (S n) * A n)).
  { rewrite <- R, E. field. lra. }
  rewrite R2. field. lra.
Qed.

Lemma I_int (p q : Z) : (0 < p)%Z -> (0 < q)%Z -> ha = IZR p / IZR q -> forall n, (exists z, I (IZR p) n = IZR z) /\ (exists z, I (IZR p) (S n) = IZR z).
Proof.
  intros Hp Hq E. apply IZR_lt in Hp, Hq. induction n as [|n [[z1 E1] [z2 E2]]].
  - split.
    + exists (2 * q)%Z. unfold I. rewrite A0, E, mult_IZR. cbn. field. lra.
    + exists (4 * q * q * q)%Z. unfold I. pose proof (A_rec 0) as R. cbn [Init.Nat.pred INR] in R. rewrite A0 in R.
      assert (R1 : A 1 = 4 / (ha * ha * ha)). { pose proof ha_pos. apply (Rmult_eq_reg_l (ha * ha)); [|nra]. rewrite R. field. lra. }
      rewrite R1, E, !mult_IZR. cbn. field. lra.
  - split; [eauto|]. rewrite (I_rec _ (IZR q)) by auto. rewrite E1, E2. exists (q * q * (2 * (2 * Z.of_nat (S n) + 1) * z2 - 4 * (p * p) * z1))%Z.
    rewrite !mult_IZR, minus_IZR, !mult_IZR, plus_IZR, !mult_IZR, <- INR_IZR_INZ. ring.
Qed.

Lemma I_small p : 0 < p -> exists n, I p n < 1.
Proof.
  intros Hp. destruct (cv_speed_pow_fact (p * p) (/ (2 * p))) as [N HN]; [apply Rinv_0_lt_compat; lra|]. exists N. specialize (HN N (le_n N)). unfold R_dist in HN. rewrite Rminus_0_r, Rabs_right in HN.
  - unfold I. rewrite pow_add, pow_mult. replace (p ^ 2) with (p * p) by ring. pose proof (A_bound N) as B. pose proof (A_pos N) as B0. pose proof (INR_fact_lt_0 N) as F.
    replace ((p * p) ^ N * p ^ 1 * A N / INR (fact N)) with ((p * p) ^ N / INR (fact N) * (p * A N)) by (field; lra).
    set (c := (p * p) ^ N / INR (fact N)) in *. assert (0 < c) by (apply Rdiv_lt_0_compat; [apply pow_lt; nra|auto]).
    apply Rle_lt_trans with (c * (2 * p)); [apply Rmult_le_compat_l; nra|]. apply (Rmult_lt_compat_r (2 * p)) in HN; [|lra]. rewrite Rinv_l in HN; lra.
  - apply Rle_ge. apply Rdiv_le_0_compat; [apply pow_le; nra|apply INR_fact_lt_0].
Qed.

Lemma pi_irrational : irrational PI.
Proof.
  intros p q Hq E.
  assert (E' : PI = IZR (Z.abs p) / IZR (Z.abs q)).
  { rewrite !abs_IZR, <- Rabs_div by (apply not_0_IZR; auto). rewrite <- E. symmetry. apply Rabs_right. pose proof PI_RGT_0. lra. }
  assert (Q0 : (0 < Z.abs q)%Z) by lia. assert (P0 : (0 < Z.abs p)%Z).
  { destruct (Z.eq_dec p 0) as [->|]; [|lia]. pose proof PI_RGT_0. rewrite E' in H. cbn in H. unfold Rdiv in H. lra. }
  assert (Eh : ha = IZR (Z.abs p) / IZR (2 * Z.abs q)). { unfold ha. rewrite E', mult_IZR. apply IZR_lt in Q0. field. lra. }
  destruct (I_small (IZR (Z.abs p))) as [n Hn]; [apply IZR_lt; auto|].
  destruct (I_int (Z.abs p) (2 * Z.abs q) P0 ltac:(lia) Eh n) as [[z Ez] _].
  assert (0 < I (IZR (Z.abs p)) n). { apply Rdiv_lt_0_compat; [|apply INR_fact_lt_0]. apply Rmult_lt_0_compat; [apply pow_lt, IZR_lt; auto|apply A_pos]. }
  rewrite Ez in *. apply lt_IZR in H. apply lt_IZR in Hn. lia.
Qed.
