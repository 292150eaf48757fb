(** * CFCore: theory of simple continued fractions. *)

From Coq Require Import ZArith Znumtheory Reals Lia Lra Bool List Arith.
From Coquelicot Require Import Coquelicot.
From Verif Require Import Base Ext ModelBlock ModelCF Spec SpecCF NumFacts.
Import ListNotations.
Open Scope Z_scope.

(** ** Coefficient sequences *)
Definition shift (f : nat -> Z) : nat -> Z := fun n => f (S n).
Definition cpos (f : nat -> Z) : Prop := 0 <= f 0%nat /\ forall n, 1 <= f (S n).
Lemma cpos_shift f : cpos f -> cpos (shift f).
Proof. intros [A B]. split; intros; unfold shift; [specialize (B 0%nat); lia|apply B]. Qed.
Lemma cpos_nonneg f n : cpos f -> 0 <= f n.
Proof. intros [A B]. destruct n; [auto|]. specialize (B n). lia. Qed.

(** f 0 + 1 / (f 1 + ... + 1 / (f (n-1) + 1 / w)) *)
Fixpoint ev (f : nat -> Z) (n : nat) (w : R) : R :=
  match n with
  | O => w
  | S n => (IZR (f 0%nat) + / ev (shift f) n w)%R
  end.
Lemma ev_snoc f n w : ev f (S n) w = ev f n (IZR (f n) + / w)%R.
Proof.
  revert f. induction n as [|n IH]; intros f; [reflexivity|].
  change (ev f (S (S n)) w) with (IZR (f 0%nat) + / ev (shift f) (S n) w)%R. rewrite IH. reflexivity.
Qed.
Lemma ev_app f n m w : ev f (n + m) w = ev f n (ev (fun k => f (n + k)%nat) m w).
Proof.
  revert f. induction n as [|n IH]; intros f; [reflexivity|]. cbn [Nat.add ev]. rewrite IH. reflexivity.
Qed.
Definition cut (f : nat -> Z) (n : nat) : R := ev f n (IZR (f n)).
Lemma cut_S f n : cut f (S n) = (IZR (f 0%nat) + / cut (shift f) n)%R.
Proof. reflexivity. Qed.

Lemma ev_ext f h n w : (forall k, (k < n)%nat -> f k = h k) -> ev f n w = ev h n w.
Proof.
  revert f h. induction n as [|n IH]; intros f h H; [reflexivity|]. cbn [ev]. rewrite (H 0%nat) by lia.
  rewrite (IH (shift f) (shift h)); [reflexivity|]. intros k Hk. apply H. lia.
Qed.

Lemma ev_pos f n w : (forall k, 0 <= f k) -> (0 < w)%R -> (0 < ev f n w)%R.
Proof.
  revert f. induction n as [|n IH]; intros f H W; [auto|]. cbn [ev].
  assert (0 < ev (shift f) n w)%R by (apply IH; auto; intros k; apply H).
  apply Rinv_0_lt_compat in H0. assert (0 <= IZR (f 0%nat))%R by (apply IZR_le, H). lra.
Qed.

(** Numerators and denominators after n coefficients: (p_n, p_(n-1), q_n, q_(n-1)) *)
Fixpoint cpq (f : nat -> Z) (n : nat) : Z * Z * Z * Z :=
  match n with
  | O => (1, 0, 0, 1)
  | S n => let '(p, p', q, q') := cpq f n in (f n * p + p', p, f n * q + q', q)
  end.
Definition PP f n := fst (fst (fst (cpq f n))).
Definition QQ f n := snd (fst (cpq f n)).
Lemma cpq_S f n : cpq f (S n) = (f n * PP f n + snd (fst (fst (cpq f n))), PP f n, f n * QQ f n + snd (cpq f n), QQ f n).
Proof. unfold PP, QQ. cbn [cpq]. destruct (cpq f n) as [[[p p'] q] q']. reflexivity. Qed.
Lemma cpq_SS f n : cpq f (S n) = (PP f (S n), PP f n, QQ f (S n), QQ f n).
Proof. unfold PP at 1, QQ at 1. rewrite cpq_S. reflexivity. Qed.
Lemma PP_SS f n : PP f (S (S n)) = f (S n) * PP f (S n) + PP f n.
Proof. unfold PP at 1. rewrite cpq_S. cbn [fst snd]. rewrite cpq_SS. reflexivity. Qed.
Lemma QQ_SS f n : QQ f (S (S n)) = f (S n) * QQ f (S n) + QQ f n.
Proof. unfold QQ at 1. rewrite cpq_S. cbn [fst snd]. rewrite cpq_SS. reflexivity. Qed.
Lemma PP_0 f : PP f 0 = 1. Proof. reflexivity. Qed.
Lemma QQ_0 f : QQ f 0 = 0. Proof. reflexivity. Qed.
Lemma PP_1 f : PP f 1 = f 0%nat. Proof. unfold PP. cbn [cpq fst snd]. ring. Qed.
Lemma QQ_1 f : QQ f 1 = 1. Proof. unfold QQ. cbn [cpq fst snd]. ring. Qed.

Lemma cpq_ext f h n : (forall k, (k < n)%nat -> f k = h k) -> cpq f n = cpq h n.
Proof.
  induction n as [|n IH]; intros H; [reflexivity|]. cbn [cpq]. rewrite IH by (intros; apply H; lia). rewrite (H n) by lia. reflexivity.
Qed.

(** (-1)^n *)
Definition alt (n : nat) : Z := if Nat.even n then 1 else -1.
Lemma alt_S n : alt (S n) = - alt n.
Proof. unfold alt. rewrite Nat.even_succ, <- Nat.negb_even. destruct (Nat.even n); reflexivity. Qed.
Lemma alt_sq n : alt n * alt n = 1.
Proof. unfold alt. destruct (Nat.even n); reflexivity. Qed.
Lemma alt_cases n : alt n = 1 \/ alt n = -1.
Proof. unfold alt. destruct (Nat.even n); auto. Qed.

Lemma cpq_det f n : let '(p, p', q, q') := cpq f n in p * q' - p' * q = alt n.
Proof.
  induction n as [|n IH]; [reflexivity|]. cbn [cpq]. destruct (cpq f n) as [[[p p'] q] q']. rewrite alt_S, <- IH. ring.
Qed.
Lemma PQ_det f n : PP f (S n) * QQ f n - PP f n * QQ f (S n) = alt (S n).
Proof. pose proof (cpq_det f (S n)) as H. rewrite cpq_SS in H. exact H. Qed.
Lemma PQ_coprime f n : Z.gcd (PP f n) (QQ f n) = 1.
Proof.
  destruct n; [reflexivity|]. pose proof (PQ_det f n) as H. pose proof (alt_sq (S n)) as Sq.
  apply Zgcd_1_rel_prime. apply bezout_rel_prime. apply (Bezout_intro _ _ _ (alt (S n) * QQ f n) (- alt (S n) * PP f n)).
  replace (alt (S n) * QQ f n * PP f (S n) + - alt (S n) * PP f n * QQ f (S n))
    with (alt (S n) * (PP f (S n) * QQ f n - PP f n * QQ f (S n))) by ring. rewrite H. auto.
Qed.

Section Pos.
Context (f : nat -> Z) (Hf : cpos f).

Lemma QQ_mono n : 1 <= QQ f (S n) /\ QQ f n <= QQ f (S n) /\ 0 <= QQ f n.
Proof.
  induction n as [|n IH].
  - rewrite QQ_0, QQ_1. lia.
  - rewrite (QQ_SS f n). pose proof (proj2 Hf n). nia.
Qed.
Lemma QQ_grow n : QQ f (S n) < QQ f (S (S (S n))).
Proof. rewrite (QQ_SS f (S n)). pose proof (QQ_mono n). pose proof (QQ_mono (S n)). pose proof (proj2 Hf (S n)). nia. Qed.
Lemma QQ_strict n : QQ f (S (S n)) < QQ f (S (S (S n))).
Proof. rewrite (QQ_SS f (S n)). pose proof (QQ_mono n). pose proof (QQ_mono (S n)). pose proof (proj2 Hf (S n)). nia. Qed.
Lemma QQ_linear n : Z.of_nat n <= QQ f (S n).
Proof.
  destruct n as [|n]; [rewrite QQ_1; lia|]. induction n as [|n IH].
  - pose proof (QQ_mono 1). lia.
  - pose proof (QQ_strict n). lia.
Qed.
Lemma PP_mono n : 0 <= PP f n.
Proof.
  enough (0 <= PP f n /\ 0 <= PP f (S n)) by tauto. induction n as [|n IH].
  - rewrite PP_0, PP_1. destruct Hf. lia.
  - split; [tauto|]. rewrite PP_SS. pose proof (proj2 Hf n). nia.
Qed.

Lemma ev_cpq n w : (0 < w)%R ->
  let '(p, p', q, q') := cpq f n in
  (0 < IZR q * w + IZR q')%R /\ ev f n w = ((IZR p * w + IZR p') / (IZR q * w + IZR q'))%R.
Proof.
  revert w. induction n as [|n IH]; intros w W.
  - cbn [cpq ev]. split; [lra|]. field; lra.
  - rewrite ev_snoc. assert (W' : (0 < IZR (f n) + / w)%R).
    { apply Rinv_0_lt_compat in W. assert (0 <= IZR (f n))%R by (apply IZR_le, cpos_nonneg; auto). lra. }
    specialize (IH _ W'). cbn [cpq]. destruct (cpq f n) as [[[p p'] q] q']. destruct IH as [D E].
    assert (K : (IZR (f n * q + q') * w + IZR q)%R = (w * (IZR q * (IZR (f n) + / w) + IZR q'))%R).
    { rewrite plus_IZR, mult_IZR. field. lra. }
    split; [rewrite K; apply Rmult_lt_0_compat; auto|].
    assert (K' : (IZR (f n * p + p') * w + IZR p)%R = (w * (IZR p * (IZR (f n) + / w) + IZR p'))%R).
    { rewrite plus_IZR, mult_IZR. field. lra. }
    rewrite E, K, K'. set (D' := (IZR q * (IZR (f n) + / w) + IZR q')%R) in *. clearbody D'.
    set (N' := (IZR p * (IZR (f n) + / w) + IZR p')%R). clearbody N'. field. split; lra.
Qed.

Lemma cut_PQ n : cut f n = (IZR (PP f (S n)) / IZR (QQ f (S n)))%R.
Proof.
  unfold cut. destruct n as [|n].
  - cbn [ev]. rewrite PP_1, QQ_1. field.
  - pose proof (ev_cpq (S n) (IZR (f (S n)))) as E. rewrite cpq_SS in E.
    assert (0 < IZR (f (S n)))%R by (apply IZR_lt; pose proof (proj2 Hf n); lia).
    destruct (E H) as [D ->]. rewrite PP_SS, QQ_SS, !plus_IZR, !mult_IZR.
    rewrite (Rmult_comm (IZR (PP f (S n)))), (Rmult_comm (IZR (QQ f (S n)))). reflexivity.
Qed.

(** the distance to a number with the complete quotient w after n+1 coefficients *)
Lemma ev_error n w : (0 < w)%R ->
  (ev f (S n) w - cut f n = IZR (alt n) / (IZR (QQ f (S n)) * (IZR (QQ f (S n)) * w + IZR (QQ f n))))%R /\
  (0 < IZR (QQ f (S n)) * w + IZR (QQ f n))%R.
Proof.
  intros W. rewrite cut_PQ. pose proof (ev_cpq (S n) w W) as E. rewrite cpq_SS in E. destruct E as [D ->].
  split; [|auto]. pose proof (QQ_mono n) as (Q1 & _). apply IZR_le in Q1.
  pose proof (PQ_det f n) as H. rewrite alt_S in H.
  assert (A : IZR (alt n) = (IZR (PP f n) * IZR (QQ f (S n)) - IZR (PP f (S n)) * IZR (QQ f n))%R).
  { rewrite <- !mult_IZR, <- minus_IZR. f_equal. lia. }
  rewrite A. field. split; lra.
Qed.
Lemma ev_error_abs n w : (1 <= w)%R -> (Rabs (ev f (S n) w - cut f n) <= / (IZR (QQ f (S n)) * IZR (QQ f (S n))))%R.
Proof.
  intros W. destruct (ev_error n w) as [-> D]; [lra|]. pose proof (QQ_mono n) as (Q1 & _ & Q0). apply IZR_le in Q1, Q0.
  unfold Rdiv. rewrite Rabs_mult. assert (Rabs (IZR (alt n)) = 1%R) as ->.
  { destruct (alt_cases n) as [-> | ->]; [apply Rabs_R1|]. rewrite Rabs_left; lra. }
  rewrite Rmult_1_l, Rabs_inv. apply Rinv_le_contravar; [nra|]. rewrite Rabs_pos_eq by nra. nra.
Qed.
End Pos.

(** ** Limits *)
Lemma inv_lim : is_lim_seq (fun n => / INR (S n))%R 0%R.
Proof.
  apply (is_lim_seq_ext (fun n => / (INR n + 1))%R); [intros; rewrite S_INR; reflexivity|].
  apply (is_lim_seq_inv (fun n => INR n + 1)%R p_infty); [|discriminate].
  eapply is_lim_seq_plus; [apply is_lim_seq_INR|apply is_lim_seq_const|]. reflexivity.
Qed.

(** a number with complete quotients is the limit *)
Lemma QQ_INR f n : cpos f -> (INR (S n) <= IZR (QQ f (S (S n))) * IZR (QQ f (S (S n))))%R.
Proof.
  intros Hf. pose proof (QQ_linear f Hf (S n)) as L. rewrite INR_IZR_INZ. rewrite <- mult_IZR. apply IZR_le. nia.
Qed.

Lemma near_lim f x : cpos f -> (forall n, exists w, (1 <= w)%R /\ x = ev f (S n) w) -> is_lim_seq (cut f) x.
Proof.
  intros Hf H. apply is_lim_seq_incr_1.
  apply (is_lim_seq_ext (fun n => x - (x - cut f (S n)))%R); [intros; ring|].
  replace (Finite x) with (Rbar_minus x 0%R) by (simpl; f_equal; ring).
  apply is_lim_seq_minus'; [apply is_lim_seq_const|].
  apply is_lim_seq_abs_0. apply (is_lim_seq_le_le (fun _ => 0%R) _ (fun n => / INR (S n))%R).
  - intros n. split; [apply Rabs_pos|]. destruct (H (S n)) as (w & W & ->).
    eapply Rle_trans; [apply ev_error_abs; auto|]. apply Rinv_le_contravar; [apply lt_0_INR; lia|]. apply QQ_INR; auto.
  - apply is_lim_seq_const.
  - apply inv_lim.
Qed.

Lemma cut_ge1 f n : cpos f -> 1 <= f 0%nat -> (1 <= cut f n)%R.
Proof.
  intros Hf H1. unfold cut. destruct n as [|n]; [apply IZR_le; auto|]. cbn [ev].
  assert (0 < ev (shift f) n (IZR (f (S n))))%R.
  { apply ev_pos; [intros; apply (cpos_nonneg _ _ (cpos_shift f Hf))|]. apply IZR_lt. pose proof (proj2 Hf n). lia. }
  apply Rinv_0_lt_compat in H. apply IZR_le in H1. lra.
Qed.

Definition lim (f : nat -> Z) : R := real (Lim_seq (cut f)).
Fixpoint shiftn (n : nat) (f : nat -> Z) : nat -> Z := match n with O => f | S n => shiftn n (shift f) end.
Lemma shiftn_at n f k : shiftn n f k = f (n + k)%nat.
Proof. revert f. induction n as [|n IH]; intros f; [reflexivity|]. cbn [shiftn]. rewrite IH. reflexivity. Qed.

Lemma cut_tail f n m : cpos f -> exists w, (1 <= w)%R /\ cut f (S n + m) = ev f (S n) w.
Proof.
  intros Hf. exists (cut (fun k => f (S n + k)%nat) m).
  assert (Hg : cpos (fun k => f (S n + k)%nat)).
  { destruct Hf as [A B]. split; [specialize (B (n + 0)%nat); cbn [Nat.add]; lia|]. intros k. apply (B (n + S k)%nat). }
  split; [apply cut_ge1; auto; apply (proj2 Hf (n + 0)%nat)|]. unfold cut. rewrite ev_app. reflexivity.
Qed.

Lemma cut_cauchy f : cpos f -> ex_finite_lim_seq (cut f).
Proof.
  intros Hf. apply ex_lim_seq_cauchy_corr. intros eps.
  destruct (is_lim_seq_spec (fun n => / INR (S n))%R 0%R) as [_ Sp]. specialize (Sp inv_lim).
  assert (E2 : (0 < eps / 2)%R) by (destruct eps; cbn; lra). destruct (Sp (mkposreal _ E2)) as [N HN]. cbn [pos] in HN.
  exists (S N). intros n m Hn Hm.
  assert (K : forall k, (S N <= k)%nat -> (Rabs (cut f k - cut f (S N)) < eps / 2)%R).
  { intros k Hk. destruct (Nat.eq_dec k (S N)) as [->|Ne].
    - rewrite Rminus_diag_eq by reflexivity. rewrite Rabs_R0. auto.
    - destruct (cut_tail f (S N) (k - S (S N)) Hf) as (w & W & E).
      replace (S (S N) + (k - S (S N)))%nat with k in E by lia. rewrite E.
      eapply Rle_lt_trans; [apply ev_error_abs; auto|].
      eapply Rle_lt_trans; [apply Rinv_le_contravar; [|apply QQ_INR; auto]; apply lt_0_INR; lia|].
      specialize (HN N (le_n _)). rewrite Rminus_0_r in HN. apply Rabs_def2 in HN. lra. }
  pose proof (K n Hn) as A. pose proof (K m Hm) as B.
  replace (cut f n - cut f m)%R with ((cut f n - cut f (S N)) - (cut f m - cut f (S N)))%R by ring.
  eapply Rle_lt_trans; [apply Rabs_triang|]. rewrite Rabs_Ropp. lra.
Qed.
Lemma cut_lim f : cpos f -> is_lim_seq (cut f) (lim f).
Proof. intros Hf. apply Lim_seq_correct'. apply cut_cauchy. auto. Qed.
Lemma lim_unique f (x : R) : is_lim_seq (cut f) x -> lim f = x.
Proof. intros H. unfold lim. rewrite (is_lim_seq_unique _ _ H). reflexivity. Qed.

Lemma lim_ge1 f : cpos f -> 1 <= f 0%nat -> (1 <= lim f)%R.
Proof.
  intros Hf H. apply (is_lim_seq_le (fun _ => 1%R) (cut f) 1%R (lim f)); [intros; apply cut_ge1; auto|apply is_lim_seq_const|apply cut_lim; auto].
Qed.
Lemma lim_step f : cpos f -> lim f = (IZR (f 0%nat) + / lim (shift f))%R.
Proof.
  intros Hf. apply lim_unique. apply is_lim_seq_incr_1. cbn [cut]. 
  apply (is_lim_seq_ext (fun n => IZR (f 0%nat) + / cut (shift f) n)%R); [intros; rewrite cut_S; reflexivity|].
  apply is_lim_seq_plus'; [apply is_lim_seq_const|]. pose proof (cpos_shift f Hf) as Hs.
  assert (1 <= lim (shift f))%R by (apply lim_ge1; auto; apply (proj2 Hf)).
  apply (is_lim_seq_inv (cut (shift f)) (lim (shift f))); [apply cut_lim; auto|]. intros E. inversion E. lra.
Qed.
Lemma lim_ge1_shift f : cpos f -> (1 <= lim (shift f))%R.
Proof. intros Hf. apply lim_ge1; [apply cpos_shift; auto|apply (proj2 Hf)]. Qed.
Lemma lim_gt1_shift f : cpos f -> (1 < lim (shift f))%R.
Proof.
  intros Hf. rewrite lim_step by (apply cpos_shift; auto).
  pose proof (lim_ge1_shift (shift f) (cpos_shift f Hf)) as L. assert (0 < / lim (shift (shift f)))%R by (apply Rinv_0_lt_compat; lra).
  pose proof (proj2 Hf 0%nat) as K. apply IZR_le in K. unfold shift in *. lra.
Qed.
Lemma lim_ev f n : cpos f -> lim f = ev f n (lim (shiftn n f)).
Proof.
  revert f. induction n as [|n IH]; intros f Hf; [reflexivity|]. cbn [ev shiftn]. rewrite lim_step by auto.
  rewrite (IH (shift f)) by (apply cpos_shift; auto). reflexivity.
Qed.
Lemma cpos_shiftn n f : cpos f -> cpos (shiftn n f).
Proof. revert f. induction n as [|n IH]; intros f H; [auto|]. apply IH, cpos_shift, H. Qed.
Lemma shiftn_S n f : shiftn (S n) f = shiftn n (shift f). Proof. reflexivity. Qed.
Lemma shiftn_shift n f k : shiftn (S n) f k = shift (shiftn n f) k.
Proof. unfold shift. rewrite !shiftn_at. f_equal. lia. Qed.
Lemma cut_ext f h n : (forall k, f k = h k) -> cut f n = cut h n.
Proof. intros H. unfold cut. rewrite (H n). apply ev_ext. auto. Qed.
Lemma lim_ext f h : (forall k, f k = h k) -> lim f = lim h.
Proof. intros H. unfold lim. f_equal. apply Lim_seq_ext. intros. apply cut_ext. auto. Qed.
Lemma lim_tail_gt1 n f : cpos f -> (1 < lim (shiftn (S n) f))%R.
Proof.
  intros Hf. rewrite (lim_ext _ _ (shiftn_shift n f)). apply lim_gt1_shift. apply cpos_shiftn. auto.
Qed.
Lemma lim_error n f : cpos f ->
  (lim f - cut f n = IZR (alt n) / (IZR (QQ f (S n)) * (IZR (QQ f (S n)) * lim (shiftn (S n) f) + IZR (QQ f n))))%R.
Proof.
  intros Hf. rewrite (lim_ev f (S n)) by auto. apply ev_error; auto. pose proof (lim_tail_gt1 n f Hf). lra.
Qed.
(** |x - p_n/q_n| < 1 / (q_n q_(n+1)) *)
Lemma lim_error_lt n f : cpos f -> (0 < Rabs (lim f - cut f n) < / (IZR (QQ f (S n)) * IZR (QQ f (S (S n)))))%R.
Proof.
  intros Hf. rewrite lim_error by auto. pose proof (QQ_mono f Hf n) as (Q1 & _ & Q0). apply IZR_le in Q1, Q0.
  pose proof (lim_tail_gt1 n f Hf) as W. set (w := lim _) in *.
  assert (Wf : (IZR (f (S n)) < w)%R).
  { unfold w. rewrite (lim_ext _ _ (shiftn_shift n f)). rewrite lim_step by (apply cpos_shift, cpos_shiftn; auto).
    pose proof (lim_ge1_shift (shift (shiftn n f)) (cpos_shift _ (cpos_shiftn n f Hf))) as L.
    assert (0 < / lim (shift (shift (shiftn n f))))%R by (apply Rinv_0_lt_compat; lra).
    unfold shift at 1. rewrite shiftn_at. replace (n + 1)%nat with (S n) by lia. lra. }
  unfold Rdiv. rewrite Rabs_mult. assert (Rabs (IZR (alt n)) = 1%R) as ->.
  { destruct (alt_cases n) as [-> | ->]; [apply Rabs_R1|]. rewrite Rabs_left; lra. }
  rewrite Rmult_1_l, Rabs_inv. rewrite Rabs_pos_eq by nra.
  split; [apply Rinv_0_lt_compat; nra|]. rewrite (QQ_SS f n), plus_IZR, mult_IZR.
  pose proof (proj2 Hf n) as F. apply IZR_le in F.
  set (Q := IZR (QQ f (S n))) in *. set (Q0' := IZR (QQ f n)) in *. set (F' := IZR (f (S n))) in *. clearbody Q Q0' F' w.
  assert (U : (0 < F' * Q + Q0')%R) by (assert (0 < F' * Q)%R by (apply Rmult_lt_0_compat; lra); lra).
  assert (U2 : (F' * Q + Q0' < Q * w + Q0')%R) by (rewrite (Rmult_comm Q w); apply Rplus_lt_compat_r, Rmult_lt_compat_r; lra).
  apply Rinv_lt_contravar; [|apply Rmult_lt_compat_l; lra].
  apply Rmult_lt_0_compat; apply Rmult_lt_0_compat; lra.
Qed.
(** the value of an infinite continued fraction is irrational *)
Lemma lim_irrational f (n d : Z) : cpos f -> d <> 0 -> lim f <> (IZR n / IZR d)%R.
Proof.
  intros Hf Hd E. set (N := Z.to_nat (Z.abs d)).
  pose proof (lim_error_lt N f Hf) as [A B]. rewrite E in A, B. rewrite (cut_PQ f Hf) in A, B.
  pose proof (QQ_mono f Hf N) as (Q1 & _). pose proof (QQ_linear f Hf (S N)) as L.
  assert (HQ : Z.abs d < QQ f (S (S N))) by (assert (Z.of_nat N = Z.abs d) by (unfold N; lia); clearbody N; lia).
  set (P := PP f (S N)) in *. set (Q := QQ f (S N)) in *. set (Q' := QQ f (S (S N))) in *. clearbody P Q Q'.
  assert (X : (IZR n / IZR d - IZR P / IZR Q)%R = (IZR (n * Q - P * d) / (IZR d * IZR Q))%R).
  { rewrite minus_IZR, !mult_IZR. field. split; apply not_0_IZR; lia. }
  rewrite X in A, B. assert (Hq : (0 < IZR Q)%R) by (apply IZR_lt; lia). assert (Hq' : (0 < IZR Q')%R) by (apply IZR_lt; lia).
  assert (Hd' : (0 < Rabs (IZR d))%R) by (apply Rabs_pos_lt, not_0_IZR; auto).
  unfold Rdiv in A, B. rewrite Rabs_mult, Rabs_inv, Rabs_mult, (Rabs_pos_eq (IZR Q)) in A, B by lra.
  set (m := n * Q - P * d) in *. destruct (Z.eq_dec m 0) as [M|M].
  - rewrite M, Rabs_R0, Rmult_0_l in A. lra.
  - assert (M1 : (1 <= Rabs (IZR m))%R) by (rewrite <- abs_IZR; apply IZR_le; lia).
    assert (C : (Rabs (IZR d) < IZR Q')%R) by (rewrite <- abs_IZR; apply IZR_lt; lia).
    rewrite Rinv_mult in B. rewrite Rinv_mult in B.
    assert (U : (0 < / IZR Q)%R) by (apply Rinv_0_lt_compat; auto).
    assert (V : (/ IZR Q' < / Rabs (IZR d))%R) by (apply Rinv_lt_contravar; auto; apply Rmult_lt_0_compat; auto).
    assert (W : (0 < / Rabs (IZR d))%R) by (apply Rinv_0_lt_compat; auto).
    set (u := (/ IZR Q)%R) in *. set (v := (/ Rabs (IZR d))%R) in *. set (v' := (/ IZR Q')%R) in *. clearbody u v v'.
    assert (0 < v * u)%R by (apply Rmult_lt_0_compat; auto). assert (u * v' < v * u)%R by (rewrite (Rmult_comm v u); apply Rmult_lt_compat_l; auto).
    assert (1 * (v * u) <= Rabs (IZR m) * (v * u))%R by (apply Rmult_le_compat_r; lra). lra.
Qed.
