(** * SymGamma: the sums behind the continued fraction of Euler's constant (C48). *)

From Coq Require Import ZArith Reals Lia Lra Psatz Bool List Factorial.
From Coquelicot Require Import Coquelicot.
From Verif Require Import SpecSym.
Import ListNotations.
Open Scope R_scope.

(** ** Finite sums *)
Fixpoint rs (f : nat -> R) (n : nat) : R := match n with O => 0 | S m => rs f m + f m end.

Lemma rs_ext f g n : (forall j, (j < n)%nat -> f j = g j) -> rs f n = rs g n.
Proof. induction n as [|n IH]; intros H; [reflexivity|]. cbn [rs]. rewrite IH, H by (intros; try apply H; lia). reflexivity. Qed.
Lemma rs_add f g n : rs (fun j => f j + g j) n = rs f n + rs g n.
Proof. induction n as [|n IH]; cbn [rs]; [ring|rewrite IH; ring]. Qed.
Lemma rs_scal c f n : rs (fun j => c * f j) n = c * rs f n.
Proof. induction n as [|n IH]; cbn [rs]; [ring|rewrite IH; ring]. Qed.
Lemma rs_le f g n : (forall j, (j < n)%nat -> f j <= g j) -> rs f n <= rs g n.
Proof. induction n as [|n IH]; intros H; cbn [rs]; [lra|]. assert (rs f n <= rs g n) by (apply IH; intros; apply H; lia). specialize (H n). assert (f n <= g n) by (apply H; lia). lra. Qed.
Lemma rs_tele f n : rs (fun j => f (S j) - f j) n = f n - f O.
Proof. induction n as [|n IH]; cbn [rs]; [ring|rewrite IH; ring]. Qed.
Lemma rs_shift f n : rs f (S n) = f O + rs (fun j => f (S j)) n.
Proof. induction n as [|n IH]; [cbn; ring|]. cbn [rs] in *. rewrite IH. ring. Qed.
Lemma rs_zero f n : (forall j, (j < n)%nat -> f j = 0) -> rs f n = 0.
Proof. intros H. rewrite (rs_ext f (fun _ => 0)) by auto. clear H. induction n as [|n IH]; cbn [rs]; [ring|rewrite IH; ring]. Qed.
Lemma rs_more f n k : (forall j, (n <= j)%nat -> f j = 0) -> rs f (n + k) = rs f n.
Proof. intros H. induction k as [|k IH]; [rewrite Nat.add_0_r; reflexivity|]. rewrite Nat.add_succ_r. cbn [rs]. rewrite IH, H by lia. ring. Qed.
Lemma rs_abs f n : Rabs (rs f n) <= rs (fun j => Rabs (f j)) n.
Proof. induction n as [|n IH]; cbn [rs]; [rewrite Rabs_R0; lra|]. eapply Rle_trans; [apply Rabs_triang|lra]. Qed.

(** ** Binomials *)
Lemma binom_0_r n : binom n 0 = 1%nat. Proof. destruct n; reflexivity. Qed.
Lemma binom_big n : forall j, (n < j)%nat -> binom n j = O.
Proof. induction n as [|n IH]; intros [|j] H; try lia; [reflexivity|]. cbn [binom]. rewrite !IH by lia. reflexivity. Qed.
Lemma binom_diag n : binom n n = 1%nat.
Proof. induction n as [|n IH]; [reflexivity|]. cbn [binom]. rewrite IH, binom_big by lia. reflexivity. Qed.

Lemma binom_up n : forall j, INR (S j) * INR (binom n (S j)) = (INR n - INR j) * INR (binom n j).
Proof.
  induction n as [|n IH]; intros j.
  - destruct j; cbn [binom INR]; [ring|]. cbn. ring.
  - cbn [binom]. rewrite plus_INR, Rmult_plus_distr_l, IH. destruct j as [|i].
    + rewrite !binom_0_r. rewrite !S_INR. cbn [INR]. ring.
    + cbn [binom]. rewrite plus_INR. pose proof (IH i) as E. rewrite !S_INR in *. nra.
Qed.
Lemma binom_row n j : INR (S n) * INR (binom n j) = (INR (S n) - INR j) * INR (binom (S n) j).
Proof.
  destruct j as [|i]; [rewrite !binom_0_r; cbn [INR]; ring|]. cbn [binom]. rewrite plus_INR. pose proof (binom_up n i) as E. rewrite !S_INR in *. nra.
Qed.

(** ** The weights C(n, j) / j! *)
Definition u (n j : nat) : R := INR (binom n j) / INR (fact j).
Lemma fact_pos j : 0 < INR (fact j). Proof. apply INR_fact_lt_0. Qed.
Lemma fact_SR j : INR (fact (S j)) = INR (S j) * INR (fact j).
Proof. rewrite fact_simpl, mult_INR. reflexivity. Qed.
Lemma u_nonneg n j : 0 <= u n j.
Proof. apply Rdiv_le_0_compat; [apply pos_INR|apply fact_pos]. Qed.
Lemma u_big n j : (n < j)%nat -> u n j = 0.
Proof. intros H. unfold u. rewrite binom_big by lia. cbn. field. apply Rgt_not_eq, fact_pos. Qed.
Lemma SR_pos j : 0 < INR (S j). Proof. apply lt_0_INR. lia. Qed.

Lemma u_up n j : INR (S j) * INR (S j) * u n (S j) = (INR n - INR j) * u n j.
Proof.
  unfold u. rewrite fact_SR. pose proof (binom_up n j) as E. pose proof (fact_pos j). pose proof (SR_pos j).
  replace (INR (S j) * INR (S j) * (INR (binom n (S j)) / (INR (S j) * INR (fact j)))) with (INR (S j) * INR (binom n (S j)) / INR (fact j)) by (field; lra).
  rewrite E. field. lra.
Qed.
Lemma u_row n j : INR (S n) * u n j = (INR (S n) - INR j) * u (S n) j.
Proof. unfold u. pose proof (binom_row n j) as E. pose proof (fact_pos j). unfold Rdiv. rewrite <- !Rmult_assoc, E. reflexivity. Qed.

Lemma u_pascal n i : u (S n) (S i) = u n i / INR (S i) + u n (S i).
Proof.
  unfold u. change (binom (S n) (S i)) with (binom n i + binom n (S i))%nat. rewrite plus_INR, fact_SR. pose proof (SR_pos i). pose proof (fact_pos i). field. lra.
Qed.

(** three-term relation: a difference *)
Definition pre (v : nat -> R) (j : nat) : R := match j with O => 0 | S i => v i end.

Lemma u_three m j : INR (S (S m)) * u (S (S m)) j - 2 * INR (S (S m)) * u (S m) j + INR (S m) * u m j = pre (u (S m)) j - u (S m) j.
Proof.
  rewrite u_row. destruct j as [|i].
  - cbn [pre]. unfold u. rewrite !binom_0_r. rewrite !S_INR. cbn [INR fact]. field.
  - cbn [pre]. pose proof (u_up (S m) i) as E. rewrite (u_pascal (S m) i).
    pose proof (SR_pos i). apply (Rmult_eq_reg_l (INR (S i))); [|lra].
    replace (INR (S i) * (INR (S (S m)) * (u (S m) i / INR (S i) + u (S m) (S i)) - 2 * INR (S (S m)) * u (S m) (S i) + (INR (S m) - INR (S i)) * u (S m) (S i)))
      with (INR (S (S m)) * u (S m) i - INR (S i) * INR (S (S m)) * u (S m) (S i) + INR (S i) * (INR (S m) - INR (S i)) * u (S m) (S i)) by (field; lra).
    set (a := u (S m) i) in *. set (b := u (S m) (S i)) in *. clearbody a b. rewrite !S_INR in *.
    match goal with |- ?L = ?R => assert (D : L - R = (INR m + 1 - INR i) * a - (INR i + 1) * (INR i + 1) * b) by ring end. lra.
Qed.

Lemma rs_pre v n : rs (pre v) (S n) = rs v n.
Proof. rewrite rs_shift. cbn [pre]. rewrite Rplus_0_l. reflexivity. Qed.

Definition Q (n : nat) : R := rs (u n) (S n).
Definition h (n j : nat) : R := 2 * harm j - harm (n - j).
Definition P (n : nat) : R := rs (fun j => u n j * h n j) (S n).

Lemma Q_at n k : (n < k)%nat -> Q n = rs (u n) k.
Proof. intros H. replace k with (S n + (k - S n))%nat by lia. rewrite rs_more; [reflexivity|]. intros. apply u_big. lia. Qed.
Lemma P_at n k : (n < k)%nat -> P n = rs (fun j => u n j * h n j) k.
Proof. intros H. replace k with (S n + (k - S n))%nat by lia. rewrite rs_more; [reflexivity|]. intros. rewrite u_big by lia. ring. Qed.

Lemma Q_rec m : INR (S (S m)) * Q (S (S m)) = 2 * INR (S (S m)) * Q (S m) - INR (S m) * Q m.
Proof.
  rewrite (Q_at (S m) (S (S (S m)))), (Q_at m (S (S (S m)))) by lia. unfold Q. set (k := S (S (S m))).
  assert (E : rs (fun j => pre (u (S m)) j - u (S m) j) k = 0).
  { rewrite (rs_ext _ (fun j => pre (u (S m)) j + (-1) * u (S m) j)) by (intros; ring). rewrite rs_add, rs_scal. unfold k. rewrite rs_pre. cbn [rs]. rewrite (u_big (S m) (S (S m))) by lia. ring. }
  rewrite (rs_ext _ (fun j => INR (S (S m)) * u (S (S m)) j + ((- (2 * INR (S (S m)))) * u (S m) j + INR (S m) * u m j))) in E by (intros; rewrite <- u_three; ring).
  rewrite rs_add, rs_add, !rs_scal in E. lra.
Qed.

(** the harmonic part: summation by parts, then a telescoping sum *)
Lemma P_rec m : INR (S (S m)) * P (S (S m)) = 2 * INR (S (S m)) * P (S m) - INR (S m) * P m - INR m / INR (fact (S (S m))).
Proof.
  set (M := S m). set (N := S M). rewrite (P_at M (S N)), (P_at m (S N)) by (unfold N, M; lia). unfold P.
  set (v := u M).
  set (c1 := fun j => if (j <=? M)%nat then u N j / INR (N - j) else 0).
  set (c2 := fun j => if (j <=? m)%nat then u m j / INR (M - j) else 0).
  assert (T : forall j, INR N * (u N j * h N j) - 2 * INR N * (u M j * h M j) + INR M * (u m j * h m j) = (pre v j - v j) * h M j - INR N * c1 j + INR M * c2 j).
  { intros j. unfold v. pose proof (u_three m j) as U3. fold M in U3. fold N in U3. rewrite <- U3. unfold c1, c2.
    assert (A : u N j * h N j = u N j * h M j - (if (j <=? M)%nat then u N j / INR (N - j) else 0)).
    { destruct (Nat.leb_spec j M); unfold h.
      - replace (N - j)%nat with (S (M - j)) by (unfold N; lia). cbn [harm]. pose proof (SR_pos (M - j)). field. lra.
      - replace (N - j)%nat with O by (unfold N; lia). replace (M - j)%nat with O by lia. ring. }
    assert (B : u m j * h m j = u m j * h M j + (if (j <=? m)%nat then u m j / INR (M - j) else 0)).
    { destruct (Nat.leb_spec j m); unfold h.
      - replace (M - j)%nat with (S (m - j)) by (unfold M; lia). cbn [harm]. pose proof (SR_pos (m - j)). field. lra.
      - rewrite u_big by lia. ring. }
    rewrite A, B. ring. }
  assert (E : rs (fun j => INR N * (u N j * h N j) - 2 * INR N * (u M j * h M j) + INR M * (u m j * h m j)) (S N) = - (INR m / INR (fact N))).
  { rewrite (rs_ext _ (fun j => (pre v j * h M j + (-1) * (v j * h M j)) + ((- INR N) * c1 j + INR M * c2 j))) by (intros; rewrite T; ring).
    rewrite rs_add, rs_add, rs_scal, rs_add, !rs_scal.
    assert (S1 : rs (fun j => pre v j * h M j) (S N) = rs (fun j => v j * h M (S j)) N) by (rewrite rs_shift; cbn [pre]; ring).
    assert (S2 : rs (fun j => v j * h M j) (S N) = rs (fun j => v j * h M j) N) by (cbn [rs]; unfold v at 2; rewrite u_big by (unfold N; lia); ring).
    assert (S3 : INR N * rs c1 (S N) = rs (fun j => v j * (INR N * INR N / (INR (N - j) * INR (N - j)))) N).
    { cbn [rs]. unfold c1 at 2. destruct (Nat.leb_spec N M); [unfold N in *; lia|]. rewrite Rplus_0_r, <- rs_scal. apply rs_ext. intros j Hj. unfold c1, v. destruct (Nat.leb_spec j M); [|unfold N in *; lia].
      pose proof (u_row M j) as R. fold N in R. rewrite minus_INR by lia. assert (0 < INR N - INR j) by (apply lt_INR in Hj; lra).
      replace (u M j * (INR N * INR N / ((INR N - INR j) * (INR N - INR j)))) with (INR N * u M j * (INR N / ((INR N - INR j) * (INR N - INR j)))) by (field; lra). rewrite R. field. lra. }
    assert (S4 : INR M * rs c2 (S N) = rs v M).
    { replace (S N) with (M + 2)%nat by (unfold N; lia). rewrite rs_more by (intros j Hj; unfold c2; destruct (Nat.leb_spec j m); [unfold M in *; lia|reflexivity]).
      rewrite <- rs_scal. apply rs_ext. intros j Hj. unfold c2, v. destruct (Nat.leb_spec j m); [|unfold M in *; lia].
      pose proof (u_row m j) as R. fold M in R. rewrite minus_INR by lia. assert (0 < INR M - INR j) by (apply lt_INR in Hj; lra).
      replace (INR M * (u m j / (INR M - INR j))) with (INR M * u m j / (INR M - INR j)) by (field; lra). rewrite R. field. lra. }
    rewrite S1, S2. replace (- INR N * rs c1 (S N)) with (- (INR N * rs c1 (S N))) by ring. rewrite S3, S4. clear S1 S2 S3 S4 T.
    (* the last index separately *)
    assert (rsN : forall f, rs f N = rs f M + f M) by reflexivity. rewrite !rsN.
    set (Tl := fun j => v j * (INR N * INR N / ((INR N - INR j) * (INR N - INR j))) - v j).
    assert (S5 : rs (fun j => v j * h M (S j)) M + -1 * rs (fun j => v j * h M j) M + (- rs (fun j => v j * (INR N * INR N / (INR (N - j) * INR (N - j)))) M + rs v M) = Tl M - Tl O).
    { rewrite <- rs_tele. replace (- rs (fun j => v j * (INR N * INR N / (INR (N - j) * INR (N - j)))) M) with (-1 * rs (fun j => v j * (INR N * INR N / (INR (N - j) * INR (N - j)))) M) by ring.
      rewrite <- !rs_scal, <- !rs_add. apply rs_ext. intros j Hj. unfold Tl.
      assert (L : 0 < INR M - INR j) by (apply lt_INR in Hj; lra). rewrite minus_INR by (unfold N; lia). unfold h. replace (M - j)%nat with (S (M - S j)) by lia. cbn [harm].
      rewrite <- Nat.sub_succ_l by lia. replace (S M - S j)%nat with (M - j)%nat by lia. rewrite (minus_INR M j) by lia.
      pose proof (u_up M j) as U. fold v in U. pose proof (SR_pos j) as Pj.
      assert (V : v (S j) = (INR M - INR j) * v j / (INR (S j) * INR (S j))) by (rewrite <- U; field; lra). rewrite V. unfold N. rewrite (S_INR M). rewrite (S_INR j) in *. field. lra. }
    assert (T0 : Tl O = 0) by (unfold Tl; change (INR 0) with 0; pose proof (SR_pos M) as PN; fold N in PN; field; lra).
    assert (VM : v M = / INR (fact M)) by (unfold v, u; rewrite binom_diag; cbn [INR]; field; apply Rgt_not_eq, fact_pos).
    assert (TM : Tl M = v M * (INR N * INR N - 1)) by (unfold Tl; replace (INR N - INR M) with 1 by (unfold N; rewrite S_INR; ring); field).
    rewrite T0, TM in S5. unfold h at 2 4. replace (M - S M)%nat with O by lia. replace (M - M)%nat with O by lia. replace (N - M)%nat with 1%nat by (unfold N; lia). cbn [harm]. fold N.
    match goal with |- ?L = _ => replace L with (v M * (INR N * INR N - 1) + v M * (2 / INR N - INR N * INR N)) end.
    - rewrite VM. change (fact N) with (fact (S M)). rewrite fact_SR. fold N. pose proof (fact_pos M). pose proof (SR_pos M) as PN. fold N in PN. replace (INR m) with (INR N - 2) by (unfold N, M; rewrite !S_INR; ring). field. lra.
    - change (INR 1) with 1. replace (v M * (INR N * INR N - 1)) with (v M * (INR N * INR N - 1) - 0) by ring. rewrite <- S5. pose proof (SR_pos M) as PN. fold N in PN. field. lra. }
  rewrite (rs_ext _ (fun j => INR N * (u N j * h N j) + ((- (2 * INR N)) * (u M j * h M j) + INR M * (u m j * h m j)))) in E by (intros; ring).
  rewrite rs_add, rs_add, !rs_scal in E. fold v in E. lra.
Qed.

(** ** Euler's constant *)
Lemma harm_S n : harm (S n) = harm n + / INR (S n). Proof. reflexivity. Qed.

Lemma ln_le_sub x : 0 < x -> ln x <= x - 1.
Proof. intros H. destruct (Req_dec x 1) as [->|N]; [rewrite ln_1; lra|]. left. pose proof (exp_ineq1 (ln x)) as E. rewrite exp_ln in E by auto. assert (ln x <> 0) by (intros Z; apply N; rewrite <- (exp_ln x H), Z; apply exp_0). specialize (E H0). lra. Qed.

Lemma ln_step n : / INR (S (S n)) <= ln (INR (S (S n))) - ln (INR (S n)) <= / INR (S n).
Proof.
  pose proof (SR_pos n) as A. pose proof (SR_pos (S n)) as B. split.
  - assert (L : ln (INR (S n) / INR (S (S n))) <= INR (S n) / INR (S (S n)) - 1) by (apply ln_le_sub, Rdiv_lt_0_compat; lra).
    rewrite ln_div in L by auto. replace (INR (S n) / INR (S (S n)) - 1) with (- / INR (S (S n))) in L; [lra|]. rewrite (S_INR (S n)) in *. field. lra.
  - assert (L : ln (INR (S (S n)) / INR (S n)) <= INR (S (S n)) / INR (S n) - 1) by (apply ln_le_sub, Rdiv_lt_0_compat; lra).
    rewrite ln_div in L by auto. replace (INR (S (S n)) / INR (S n) - 1) with (/ INR (S n)) in L; [lra|]. rewrite (S_INR (S n)) in *. field. lra.
Qed.

Lemma low_incr n k : harm n - ln (INR (S n)) <= harm (n + k) - ln (INR (S (n + k))).
Proof.
  induction k as [|k IH]; [rewrite Nat.add_0_r; lra|]. eapply Rle_trans; [exact IH|]. rewrite Nat.add_succ_r, harm_S. pose proof (ln_step (n + k)). lra.
Qed.
Lemma up_decr n k : harm (S (n + k)) - ln (INR (S (n + k))) <= harm (S n) - ln (INR (S n)).
Proof.
  induction k as [|k IH]; [rewrite Nat.add_0_r; lra|]. eapply Rle_trans; [|exact IH]. rewrite Nat.add_succ_r, (harm_S (S (n + k))). pose proof (ln_step (n + k)). lra.
Qed.
Lemma low_up n m : harm n - ln (INR (S n)) <= harm (S m) - ln (INR (S m)).
Proof.
  destruct (Nat.le_ge_cases n m) as [L|L].
  - replace m with (n + (m - n))%nat by lia. eapply Rle_trans; [apply (low_incr n (m - n))|]. rewrite harm_S. pose proof (Rinv_0_lt_compat _ (SR_pos (n + (m - n)))). lra.
  - replace n with (m + (n - m))%nat by lia. eapply Rle_trans; [|apply (up_decr m (n - m))]. rewrite harm_S. pose proof (Rinv_0_lt_compat _ (SR_pos (m + (n - m)))). lra.
Qed.

Lemma gamma_limit : is_lim_seq (fun n => harm (S n) - ln (INR (S n))) euler_gamma.
Proof.
  destruct (ex_finite_lim_seq_decr (fun n => harm (S n) - ln (INR (S n))) (harm 0 - ln (INR 1))) as [l L].
  - intros n. pose proof (up_decr n 1) as D. rewrite Nat.add_1_r in D. exact D.
  - intros n. apply low_up.
  - unfold euler_gamma. rewrite (is_lim_seq_unique _ _ L). exact L.
Qed.

Lemma gamma_between n : harm n - ln (INR (S n)) <= euler_gamma <= harm (S n) - ln (INR (S n)).
Proof.
  pose proof gamma_limit as L. split.
  - apply (is_lim_seq_le (fun _ => harm n - ln (INR (S n))) (fun m => harm (S m) - ln (INR (S m))) (harm n - ln (INR (S n))) euler_gamma); [intros; apply low_up|apply is_lim_seq_const|exact L].
  - apply (is_lim_seq_incr_n _ n) in L.
    apply (is_lim_seq_le (fun m => harm (S (m + n)) - ln (INR (S (m + n)))) (fun _ => harm (S n) - ln (INR (S n))) euler_gamma (harm (S n) - ln (INR (S n)))); [|exact L|apply is_lim_seq_const].
    intros m. rewrite Nat.add_comm. apply up_decr.
Qed.

(** ** Averages *)
Lemma Q_pos n : 1 <= Q n.
Proof.
  unfold Q. rewrite rs_shift. assert (0 <= rs (fun j => u n (S j)) n).
  { replace 0 with (rs (fun _ => 0) n) by (apply rs_zero; auto). apply rs_le. intros. apply u_nonneg. }
  unfold u at 1. rewrite binom_0_r. cbn [fact INR]. lra.
Qed.

Definition av (n : nat) (f : nat -> R) : R := rs (fun j => u n j * f j) (S n).

Lemma av_le n f g : (forall j, (j <= n)%nat -> f j <= g j) -> av n f <= av n g.
Proof. intros H. apply rs_le. intros j Hj. apply Rmult_le_compat_l; [apply u_nonneg|apply H; lia]. Qed.
Lemma av_add n f g : av n (fun j => f j + g j) = av n f + av n g.
Proof. unfold av. rewrite <- rs_add. apply rs_ext. intros; ring. Qed.
Lemma av_scal n c f : av n (fun j => c * f j) = c * av n f.
Proof. unfold av. rewrite <- rs_scal. apply rs_ext. intros; ring. Qed.
Lemma av_const n c : av n (fun _ => c) = c * Q n.
Proof. unfold av, Q. rewrite <- rs_scal. apply rs_ext. intros; ring. Qed.
Lemma av_ext n f g : (forall j, (j <= n)%nat -> f j = g j) -> av n f = av n g.
Proof. intros H. apply rs_ext. intros j Hj. rewrite H by lia. reflexivity. Qed.
Lemma av_nonneg n f : (forall j, (j <= n)%nat -> 0 <= f j) -> 0 <= av n f.
Proof. intros H. replace 0 with (av n (fun _ => 0)) by (rewrite av_const; ring). apply av_le. auto. Qed.

Definition dd (n j : nat) : R := INR (S (n - j)).
Lemma dd_eq n j : (j <= n)%nat -> dd n j = INR n + 1 - INR j.
Proof. intros H. unfold dd. rewrite S_INR, minus_INR by auto. ring. Qed.
Lemma dd_pos n j : 1 <= dd n j.
Proof. unfold dd. rewrite S_INR. pose proof (pos_INR (n - j)). lra. Qed.

(** the two exact averages *)
Lemma av_up n : av n (fun j => INR j * INR j / dd n j) <= Q n.
Proof.
  unfold av, Q. rewrite rs_shift. change (INR 0) with 0. replace (u n 0 * (0 * 0 / dd n 0)) with 0 by (pose proof (dd_pos n 0); field; lra).
  rewrite Rplus_0_l. cbn [rs]. pose proof (u_nonneg n n). enough (rs (fun j => u n (S j) * (INR (S j) * INR (S j) / dd n (S j))) n = rs (u n) n) by lra.
  apply rs_ext. intros j Hj. pose proof (u_up n j) as U. rewrite dd_eq by lia. apply lt_INR in Hj.
  replace (u n (S j) * (INR (S j) * INR (S j) / (INR n + 1 - INR (S j)))) with (INR (S j) * INR (S j) * u n (S j) / (INR n - INR j)) by (rewrite S_INR; field; rewrite <- S_INR; rewrite S_INR; lra).
  rewrite U. field. lra.
Qed.

Lemma av_down n : av n (fun j => (INR n - INR j) / (INR (S j) * INR (S j))) <= Q n.
Proof.
  unfold av, Q. rewrite (rs_shift (u n)). cbn [rs]. pose proof (u_nonneg n 0).
  enough (rs (fun j => u n j * ((INR n - INR j) / (INR (S j) * INR (S j)))) n = rs (fun j => u n (S j)) n) by lra.
  apply rs_ext. intros j Hj. pose proof (u_up n j) as U. pose proof (SR_pos j).
  replace (u n j * ((INR n - INR j) / (INR (S j) * INR (S j)))) with ((INR n - INR j) * u n j / (INR (S j) * INR (S j))) by (field; lra).
  rewrite <- U. field. lra.
Qed.

(** the small averages, with N = n + 1 and r = sqrt N *)
Lemma av_inv_dd n : av n (fun j => / dd n j) <= 3 / INR (S n) * Q n.
Proof.
  pose proof (av_up n) as U. pose proof (SR_pos n) as PN. set (N := INR (S n)) in *. assert (N1 : 1 <= N) by (unfold N; rewrite S_INR; pose proof (pos_INR n); lra).
  assert (L : av n (fun j => N * N * / dd n j + (- (2 * N))) <= av n (fun j => INR j * INR j / dd n j)).
  { apply av_le. intros j Hj. pose proof (dd_pos n j) as D. pose proof (dd_eq n j Hj) as E. replace (INR j) with (N - dd n j) by (rewrite E; unfold N; rewrite S_INR; ring).
    replace ((N - dd n j) * (N - dd n j) / dd n j) with (N * N * / dd n j - 2 * N + dd n j) by (field; lra). lra. }
  rewrite av_add, av_scal, av_const in L. set (a := av n (fun j => / dd n j)) in *. pose proof (Q_pos n). clearbody N a.
  apply (Rmult_le_reg_l (N * N)); [nra|]. replace (N * N * (3 / N * Q n)) with (3 * N * Q n) by (field; lra). nra.
Qed.

Lemma av_inv_sq n : av n (fun j => / (INR (S j) * INR (S j))) <= 2 / INR (S n) * Q n.
Proof.
  pose proof (av_down n) as U. pose proof (SR_pos n) as PN. set (N := INR (S n)) in *.
  assert (L : av n (fun j => N * / (INR (S j) * INR (S j)) + -1) <= av n (fun j => (INR n - INR j) / (INR (S j) * INR (S j)))).
  { apply av_le. intros j Hj. unfold N. pose proof (SR_pos j) as J. assert (J1 : 1 <= INR (S j)) by (rewrite S_INR; pose proof (pos_INR j); lra). rewrite (S_INR n).
    replace (INR j) with (INR (S j) - 1) by (rewrite S_INR; ring). set (y := INR (S j)) in *.
    replace ((INR n - (y - 1)) / (y * y)) with ((INR n + 1) * / (y * y) - / y) by (field; lra). assert (/ y <= 1) by (rewrite <- Rinv_1; apply Rinv_le_contravar; lra). lra. }
  rewrite av_add, av_scal, av_const in L. set (a := av n (fun j => / (INR (S j) * INR (S j)))) in *. pose proof (Q_pos n). clearbody N a.
  apply (Rmult_le_reg_l N); [lra|]. replace (N * (2 / N * Q n)) with (2 * Q n) by (field; lra). lra.
Qed.

Lemma av_inv n r : 0 < r -> r * r = INR (S n) -> av n (fun j => / INR (S j)) <= 2 / r * Q n.
Proof.
  intros Hr E. pose proof (av_inv_sq n) as A. rewrite <- E in A. pose proof (Q_pos n) as P0.
  assert (L : av n (fun j => / INR (S j)) <= av n (fun j => / r * / 2 + (r / 2) * / (INR (S j) * INR (S j)))).
  { apply av_le. intros j _. pose proof (SR_pos j) as J. set (y := INR (S j)) in *. clearbody y.
    replace (/ r * / 2 + r / 2 * / (y * y)) with (/ y + (/ 2 * / r) * ((1 - r / y) * (1 - r / y))) by (field; lra).
    assert (0 <= / 2 * / r) by (apply Rmult_le_pos; [lra|left; apply Rinv_0_lt_compat; lra]). pose proof (Rle_0_sqr (1 - r / y)) as Sq. unfold Rsqr in Sq. pose proof (Rmult_le_pos _ _ H Sq). lra. }
  rewrite av_add, av_const, av_scal in L. set (a := av n (fun j => / (INR (S j) * INR (S j)))) in *.
  assert (r / 2 * a <= r / 2 * (2 / (r * r) * Q n)) by (apply Rmult_le_compat_l; lra).
  replace (r / 2 * (2 / (r * r) * Q n)) with (/ r * Q n) in H by (field; lra). assert (0 < / r) by (apply Rinv_0_lt_compat; lra). assert (0 <= / r * Q n) by (apply Rmult_le_pos; lra). replace (2 / r * Q n) with (2 * (/ r * Q n)) by (field; lra). lra.
Qed.

Lemma av_ratio n r : 1 <= r -> r * r = INR (S n) -> av n (fun j => INR (S j) / dd n j) <= 5 / r * Q n.
Proof.
  intros Hr E. pose proof (av_inv_dd n) as A. rewrite <- E in A. pose proof (av_up n) as U. pose proof (Q_pos n) as P0.
  assert (L : av n (fun j => INR (S j) / dd n j) <= av n (fun j => / (2 * r) * (INR j * INR j / dd n j) + (r / 2 + 1) * / dd n j)).
  { apply av_le. intros j _. pose proof (dd_pos n j) as D. set (y := dd n j) in *. rewrite S_INR. set (x := INR j). clearbody x y.
    replace (/ (2 * r) * (x * x / y) + (r / 2 + 1) * / y) with ((x + 1) / y + / (2 * r) * ((x - r) * (x - r)) * / y) by (field; lra).
    assert (0 <= / (2 * r) * ((x - r) * (x - r)) * / y); [|lra]. apply Rmult_le_pos; [apply Rmult_le_pos|]; [left; apply Rinv_0_lt_compat; lra|apply (Rle_0_sqr (x - r))|left; apply Rinv_0_lt_compat; lra]. }
  rewrite av_add, !av_scal in L. set (a := av n (fun j => / dd n j)) in *. set (b := av n (fun j => INR j * INR j / dd n j)) in *.
  assert (H1 : / (2 * r) * b <= / (2 * r) * Q n) by (apply Rmult_le_compat_l; [left; apply Rinv_0_lt_compat; lra|lra]).
  assert (H2 : (r / 2 + 1) * a <= (r / 2 + 1) * (3 / (r * r) * Q n)) by (apply Rmult_le_compat_l; lra).
  assert (H3 : (r / 2 + 1) * (3 / (r * r) * Q n) <= 9 / (2 * r) * Q n).
  { replace ((r / 2 + 1) * (3 / (r * r) * Q n)) with ((3 * r + 6) / (2 * (r * r)) * Q n) by (field; lra). apply Rmult_le_compat_r; [lra|].
    apply (Rmult_le_reg_r (2 * (r * r))); [nra|]. replace (9 / (2 * r) * (2 * (r * r))) with (9 * r) by (field; lra). replace ((3 * r + 6) / (2 * (r * r)) * (2 * (r * r))) with (3 * r + 6) by (field; lra). lra. }
  replace (5 / r * Q n) with (/ (2 * r) * Q n + 9 / (2 * r) * Q n) by (field; lra). lra.
Qed.

Lemma P_av n : P n = av n (h n). Proof. reflexivity. Qed.

Lemma gamma_error n r : 1 <= r -> r * r = INR (S n) -> Rabs (P n / Q n - euler_gamma) <= 10 / r.
Proof.
  intros Hr E. pose proof (Q_pos n) as P0. set (g := euler_gamma).
  assert (Up : P n <= (g + 10 / r) * Q n).
  { rewrite P_av. apply Rle_trans with (av n (fun j => (g - 1) + (INR j * INR j / dd n j + 2 * (INR (S j) / dd n j)))).
    - apply av_le. intros j Hj. unfold h. pose proof (gamma_between j) as G1. pose proof (gamma_between (n - j)) as G2. fold (dd n j) in G2. fold g in G1, G2.
      pose proof (dd_pos n j) as D. pose proof (SR_pos j) as J. cbn [harm] in G2. fold (dd n j) in G2.
      assert (L : ln (INR (S j) * INR (S j) / dd n j) <= INR (S j) * INR (S j) / dd n j - 1) by (apply ln_le_sub; apply Rdiv_lt_0_compat; nra).
      rewrite ln_div, ln_mult in L by (try lra; nra).
      replace (INR j * INR j / dd n j + 2 * (INR (S j) / dd n j)) with (INR (S j) * INR (S j) / dd n j + / dd n j) by (rewrite S_INR; field; lra). lra.
    - rewrite av_add, av_const, av_add, av_scal. pose proof (av_up n). pose proof (av_ratio n r Hr E). replace (10 / r) with (2 * (5 / r)) by (field; lra). nra. }
  assert (Lo : (g - 10 / r) * Q n <= P n).
  { rewrite P_av. apply Rle_trans with (av n (fun j => (g + 1) + ((-1) * ((INR n - INR j) / (INR (S j) * INR (S j))) + (-3) * / INR (S j)))).
    - rewrite av_add, av_const, av_add, !av_scal. pose proof (av_down n). assert (r0 : 0 < r) by lra. pose proof (av_inv n r r0 E).
      assert (0 < / r) by (apply Rinv_0_lt_compat; lra). unfold Rdiv in *. nra.
    - apply av_le. intros j Hj. unfold h. pose proof (gamma_between j) as G1. pose proof (gamma_between (n - j)) as G2. fold (dd n j) in G2. fold g in G1, G2.
      pose proof (dd_pos n j) as D. pose proof (SR_pos j) as J. cbn [harm] in G1.
      assert (L : ln (dd n j / (INR (S j) * INR (S j))) <= dd n j / (INR (S j) * INR (S j)) - 1) by (apply ln_le_sub; apply Rdiv_lt_0_compat; nra).
      rewrite ln_div, ln_mult in L by (try lra; nra).
      assert (I : / (INR (S j) * INR (S j)) <= / INR (S j)) by (assert (1 <= INR (S j)) by (rewrite S_INR; pose proof (pos_INR j); lra); apply Rinv_le_contravar; nra).
      replace ((INR n - INR j) / (INR (S j) * INR (S j))) with (dd n j / (INR (S j) * INR (S j)) - / (INR (S j) * INR (S j))) by (rewrite (dd_eq n j Hj); field; lra). lra. }
  apply Rabs_le_between'. split.
  - apply (Rmult_le_reg_r (Q n)); [lra|]. replace (P n / Q n * Q n) with (P n) by (field; lra). lra.
  - apply (Rmult_le_reg_r (Q n)); [lra|]. replace (P n / Q n * Q n) with (P n) by (field; lra). lra.
Qed.

Lemma PQ_limit : is_lim_seq (fun n => P n / Q n) euler_gamma.
Proof.
  replace (Finite euler_gamma) with (Finite (euler_gamma + 0)) by (rewrite Rplus_0_r; reflexivity).
  apply (is_lim_seq_ext (fun n => euler_gamma + (P n / Q n - euler_gamma))); [intros; ring|].
  apply (is_lim_seq_plus _ _ euler_gamma 0); [apply is_lim_seq_const| |reflexivity].
  assert (I : is_lim_seq (fun n => sqrt (INR (S n))) p_infty).
  { apply (is_lim_comp_seq sqrt (fun n => INR (S n)) p_infty p_infty); [apply (is_lim_sqrt_p (fun x => x)); apply is_lim_id|exists O; intros n _; discriminate|]. apply (is_lim_seq_incr_1 INR). apply is_lim_seq_INR. }
  assert (L : is_lim_seq (fun n => 10 / sqrt (INR (S n))) 0).
  { replace (Finite 0) with (Rbar_mult 10 (Rbar_inv p_infty)) by (cbn; f_equal; ring). apply (is_lim_seq_scal_l (fun n => / sqrt (INR (S n))) 10 (Rbar_inv p_infty)). apply is_lim_seq_inv; [exact I|discriminate]. }
  apply (is_lim_seq_le_le (fun n => - (10 / sqrt (INR (S n)))) _ (fun n => 10 / sqrt (INR (S n)))); [|replace (Finite 0) with (Finite (- 0)) by (f_equal; ring); apply (is_lim_seq_opp _ (Finite 0)); exact L|exact L].
  intros n. apply Rabs_le_between. apply gamma_error.
  - rewrite <- sqrt_1 at 1. apply sqrt_le_1_alt. rewrite S_INR. pose proof (pos_INR n). lra.
  - apply sqrt_sqrt. left. apply SR_pos.
Qed.
