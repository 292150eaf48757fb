(** * CFHurwitz: how close the convergents come. *)

From Coq Require Import ZArith Znumtheory Reals Lia Lra Bool List Arith.
From Coquelicot Require Import Coquelicot.
From Verif Require Import Base Ext ModelBlock ModelCF Spec SpecCF NumFacts CFCore CFSeq CFIter CFAny CFBasic CFBest.
Import ListNotations.
Open Scope Z_scope.

Section Seq.
Variable f : nat -> Z.
Hypothesis Hf : cpos f.
Notation Q n := (IZR (QQ f n)).
Definition wq (n : nat) : R := lim (shiftn (S n) f).
Definition er (n : nat) : R := Rabs (lim f - cut f n).

Lemma wq_step n : wq n = (IZR (f (S n)) + / wq (S n))%R.
Proof.
  unfold wq at 1. rewrite lim_step by (apply cpos_shiftn; auto). rewrite shiftn_at. replace (S n + 0)%nat with (S n) by lia. f_equal. f_equal.
  apply lim_ext. intros k. symmetry. apply shiftn_shift.
Qed.
Lemma wq_gt1 n : (1 < wq n)%R.
Proof. apply lim_tail_gt1. auto. Qed.
Lemma Qpos n : (1 <= Q (S n))%R /\ (0 <= Q n)%R.
Proof. pose proof (QQ_mono f Hf n) as (Q1 & _ & Q0). apply IZR_le in Q1, Q0. lra. Qed.
Lemma Qnext n : Q (S (S n)) = (IZR (f (S n)) * Q (S n) + Q n)%R.
Proof. rewrite QQ_SS, plus_IZR, mult_IZR. reflexivity. Qed.
Lemma f1 n : (1 <= IZR (f (S n)))%R.
Proof. apply IZR_le. apply Hf. Qed.
Lemma Qle n : (Q n <= Q (S n))%R.
Proof. apply IZR_le. apply QQ_le; auto. Qed.

Lemma er_eq n : er n = (/ (Q (S n) * (Q (S n) * wq n + Q n)))%R.
Proof.
  unfold er. rewrite lim_error by auto. fold (wq n). destruct (Qpos n) as [A B]. pose proof (wq_gt1 n) as W.
  assert (P : (0 < Q (S n) * (Q (S n) * wq n + Q n))%R) by (apply Rmult_lt_0_compat; [lra|]; assert (0 < Q (S n) * wq n)%R by (apply Rmult_lt_0_compat; lra); lra).
  unfold Rdiv. rewrite Rabs_mult. assert (Rabs (IZR (alt n)) = 1%R) as -> by (destruct (alt_cases n) as [-> | ->]; [apply Rabs_R1|rewrite Rabs_left; lra]).
  rewrite Rmult_1_l, Rabs_inv, Rabs_pos_eq by lra. reflexivity.
Qed.
Lemma er_sum n : (er n + er (S n) = / (Q (S n) * Q (S (S n))))%R.
Proof.
  rewrite !er_eq, (wq_step n). destruct (Qpos n) as [A B]. destruct (Qpos (S n)) as [A' _]. pose proof (wq_gt1 (S n)) as W. pose proof (Qnext n) as E. pose proof (f1 n) as F.
  set (q0 := Q n) in *. set (q1 := Q (S n)) in *. set (q2 := Q (S (S n))) in *. set (w := wq (S n)) in *. set (a := IZR (f (S n))) in *. clearbody q0 q1 q2 w a.
  replace (q1 * (a + / w) + q0)%R with ((q2 * w + q1) / w)%R by (rewrite E; field; lra).
  assert (0 < q2 * w)%R by (apply Rmult_lt_0_compat; lra). field. repeat split; lra.
Qed.
Lemma er_upper n : (er n < / (Q (S n) * Q (S (S n))))%R.
Proof. rewrite <- er_sum. assert (0 < er (S n))%R; [|lra]. destruct (lim_error_lt (S n) f Hf) as [A _]. exact A. Qed.
Lemma er_lower n : (/ (Q (S n) * (Q (S n) + Q (S (S n)))) < er n)%R.
Proof.
  rewrite er_eq, wq_step, Qnext. destruct (Qpos n) as [A B]. pose proof (wq_gt1 (S n)) as W. pose proof (f1 n) as F.
  assert (I : (0 < / wq (S n) < 1)%R) by (split; [apply Rinv_0_lt_compat; lra|rewrite <- Rinv_1; apply Rinv_lt_contravar; lra]).
  set (q0 := Q n) in *. set (q1 := Q (S n)) in *. set (i := (/ wq (S n))%R) in *. set (a := IZR (f (S n))) in *. clearbody q0 q1 i a.
  assert (P1 : (0 < a * q1)%R) by (apply Rmult_lt_0_compat; lra). assert (P2 : (0 < q1 * i < q1)%R) by (split; [apply Rmult_lt_0_compat; lra|rewrite <- (Rmult_1_r q1) at 2; apply Rmult_lt_compat_l; lra]).
  replace (q1 * (a + i) + q0)%R with (a * q1 + q1 * i + q0)%R by ring.
  apply Rinv_lt_contravar; [apply Rmult_lt_0_compat; apply Rmult_lt_0_compat; lra|]. apply Rmult_lt_compat_l; lra.
Qed.
Lemma er_coeff n : (/ ((IZR (f (S n)) + 2) * (Q (S n) * Q (S n))) < er n < / (IZR (f (S n)) * (Q (S n) * Q (S n))))%R.
Proof.
  pose proof (er_lower n) as L. pose proof (er_upper n) as U. rewrite Qnext in L, U. destruct (Qpos n) as [A B]. pose proof (f1 n) as F. pose proof (Qle n) as Le.
  set (q0 := Q n) in *. set (q1 := Q (S n)) in *. set (a := IZR (f (S n))) in *. set (e := er n) in *. clearbody q0 q1 a e.
  assert (P1 : (0 < a * q1)%R) by (apply Rmult_lt_0_compat; lra). assert (P3 : (0 < q1 * q1)%R) by (apply Rmult_lt_0_compat; lra). split.
  - eapply Rle_lt_trans; [|exact L]. apply Rinv_le_contravar; [apply Rmult_lt_0_compat; lra|].
    replace ((a + 2) * (q1 * q1))%R with (q1 * (q1 + (a * q1 + q1)))%R by ring. apply Rmult_le_compat_l; lra.
  - eapply Rlt_le_trans; [exact U|]. apply Rinv_le_contravar; [apply Rmult_lt_0_compat; lra|].
    replace (a * (q1 * q1))%R with (q1 * (a * q1))%R by ring. apply Rmult_le_compat_l; lra.
Qed.

Lemma pair_bound n c : (0 < c)%R -> (/ (c * (Q (S n) * Q (S n))) <= er n)%R -> (/ (c * (Q (S (S n)) * Q (S (S n)))) <= er (S n))%R ->
  (Q (S n) * Q (S n) + Q (S (S n)) * Q (S (S n)) <= c * (Q (S n) * Q (S (S n))))%R.
Proof.
  intros C H1 H2. pose proof (er_sum n) as Sm. destruct (Qpos n) as [A _]. destruct (Qpos (S n)) as [A' _].
  set (q1 := Q (S n)) in *. set (q2 := Q (S (S n))) in *. set (e := er n) in *. set (e' := er (S n)) in *. clearbody q1 q2 e e'.
  assert (P1 : (0 < q1 * q1)%R) by (apply Rmult_lt_0_compat; lra). assert (P2 : (0 < q2 * q2)%R) by (apply Rmult_lt_0_compat; lra). assert (P3 : (0 < q1 * q2)%R) by (apply Rmult_lt_0_compat; lra).
  assert (T : (/ (c * (q1 * q1)) + / (c * (q2 * q2)) <= / (q1 * q2))%R) by lra.
  apply (Rmult_le_compat_l (c * (q1 * q1) * (q2 * q2))) in T; [|apply Rlt_le; apply Rmult_lt_0_compat; [apply Rmult_lt_0_compat; lra|lra]].
  replace (c * (q1 * q1) * (q2 * q2) * (/ (c * (q1 * q1)) + / (c * (q2 * q2))))%R with (q1 * q1 + q2 * q2)%R in T by (field; lra).
  replace (c * (q1 * q1) * (q2 * q2) * / (q1 * q2))%R with (c * (q1 * q2))%R in T by (field; lra). exact T.
Qed.

Lemma vahlen n : (er n < / (2 * (Q (S n) * Q (S n))))%R \/ (er (S n) < / (2 * (Q (S (S n)) * Q (S (S n)))))%R.
Proof.
  destruct (Rlt_dec (er n) (/ (2 * (Q (S n) * Q (S n))))) as [|N1]; [auto|]. destruct (Rlt_dec (er (S n)) (/ (2 * (Q (S (S n)) * Q (S (S n)))))) as [|N2]; [auto|]. exfalso.
  apply Rnot_lt_le in N1, N2. pose proof (pair_bound n 2 ltac:(lra) N1 N2) as T. destruct (Qpos n) as [A B]. destruct (Qpos (S n)) as [A' _].
  assert (E : Q (S n) = Q (S (S n))). { assert ((Q (S n) - Q (S (S n))) * (Q (S n) - Q (S (S n))) = 0)%R by (pose proof (Rle_0_sqr (Q (S n) - Q (S (S n)))) as Sq; unfold Rsqr in Sq; lra). apply Rmult_integral in H. lra. }
  assert (X : er n = (/ (2 * (Q (S n) * Q (S n))))%R).
  { pose proof (er_sum n) as Sm. rewrite <- E in N2, Sm. assert (K : (/ (2 * (Q (S n) * Q (S n))) = / (Q (S n) * Q (S n)) / 2)%R) by (field; lra). lra. }
  rewrite er_eq in X. apply (f_equal Rinv) in X. rewrite !Rinv_inv in X.
  assert (Y : (Q (S n) * wq n + Q n = 2 * Q (S n))%R) by (apply (Rmult_eq_reg_l (Q (S n))); lra).
  apply (lim_irrational (shiftn (S n) f) (2 * QQ f (S n) - QQ f n) (QQ f (S n)) (cpos_shiftn _ _ Hf)).
  - intros Z. rewrite Z in A. lra.
  - fold (wq n). rewrite minus_IZR, mult_IZR. replace (wq n) with ((Q (S n) * wq n) / Q (S n))%R by (field; lra).
    f_equal. lra.
Qed.
End Seq.

(** the golden ratio is irrational *)
Lemma golden_descent n : forall a b, 0 < b -> b <= Z.of_nat n -> 0 < a -> a * a = a * b + b * b -> False.
Proof.
  induction n as [|n IH]; intros a b B N A E; [lia|]. assert (b < a) by nia. assert (a < 2 * b) by nia. apply (IH b (a - b)); lia.
Qed.
Lemma golden_int p q : 0 < q -> p * p - p * q - q * q <> 0.
Proof.
  intros Hq E. destruct (Z.lt_trichotomy p 0) as [L|[L|L]].
  - apply (golden_descent (Z.to_nat (- p)) q (- p)); lia.
  - subst p. nia.
  - apply (golden_descent (Z.to_nat q) p q); lia.
Qed.

Lemma sqrt5 : (sqrt 5 * sqrt 5 = 5 /\ 2.236 < sqrt 5 < 2.237)%R.
Proof.
  split; [apply sqrt_sqrt; lra|]. split; [rewrite <- (sqrt_square 2.236) by lra|rewrite <- (sqrt_square 2.237) by lra]; apply sqrt_lt_1; lra.
Qed.
Lemma golden_bound x y : (0 < x)%R -> (x <= y)%R -> (x * x + y * y <= sqrt 5 * (x * y))%R -> (y <= (1 + sqrt 5) / 2 * x)%R.
Proof.
  intros X L H. destruct sqrt5 as [S5 B]. set (s := sqrt 5) in *. clearbody s.
  destruct (Rle_dec y ((1 + s) / 2 * x)) as [|N]; [auto|]. exfalso. apply Rnot_le_lt in N.
  assert (K : (0 < (y - (1 + s) / 2 * x) * (y - (s - 1) / 2 * x))%R). { apply Rmult_lt_0_compat; [lra|]. assert ((s - 1) / 2 * x < 1 * x)%R by (apply Rmult_lt_compat_r; lra). lra. }
  assert (E : ((y - (1 + s) / 2 * x) * (y - (s - 1) / 2 * x) = x * x * ((s * s - 1) / 4) + y * y - s * (x * y))%R) by field. rewrite E, S5 in K. lra.
Qed.

Lemma hurwitz f n : cpos f -> let Q k := IZR (QQ f (S k)) in
  (er f n < / (sqrt 5 * (Q n * Q n)) \/ er f (S n) < / (sqrt 5 * (Q (S n) * Q (S n))) \/ er f (S (S n)) < / (sqrt 5 * (Q (S (S n)) * Q (S (S n)))))%R.
Proof.
  intros Hf Q. destruct sqrt5 as [S5 B].
  destruct (Rlt_dec (er f n) (/ (sqrt 5 * (Q n * Q n)))) as [|N0]; [auto|]. destruct (Rlt_dec (er f (S n)) (/ (sqrt 5 * (Q (S n) * Q (S n))))) as [|N1]; [auto|].
  destruct (Rlt_dec (er f (S (S n))) (/ (sqrt 5 * (Q (S (S n)) * Q (S (S n)))))) as [|N2]; [auto|]. exfalso.
  apply Rnot_lt_le in N0, N1, N2. unfold Q in *.
  pose proof (pair_bound f Hf n (sqrt 5) ltac:(lra) N0 N1) as T0. pose proof (pair_bound f Hf (S n) (sqrt 5) ltac:(lra) N1 N2) as T1.
  destruct (Qpos f Hf n) as [A0 _]. destruct (Qpos f Hf (S n)) as [A1 _]. pose proof (Qle f Hf (S n)) as L0. pose proof (Qle f Hf (S (S n))) as L1.
  apply golden_bound in T0; [|lra|exact L0]. apply golden_bound in T1; [|lra|exact L1].
  pose proof (Qnext f (S n)) as E. pose proof (f1 f Hf (S n)) as F.
  assert (Pos : 0 < QQ f (S n)) by (apply lt_IZR; lra). set (z1 := QQ f (S (S n))) in *. set (z0 := QQ f (S n)) in *.
  set (q2 := IZR (QQ f (S (S (S n))))) in *. set (a := IZR (f (S (S n)))) in *. clearbody q2 a.
  assert (G : (IZR z1 = (1 + sqrt 5) / 2 * IZR z0)%R).
  { assert (P : (IZR z1 <= a * IZR z1)%R) by (rewrite <- (Rmult_1_l (IZR z1)) at 1; apply Rmult_le_compat_r; lra).
    assert (M : ((sqrt 5 - 1) / 2 * IZR z1 <= (sqrt 5 - 1) / 2 * ((1 + sqrt 5) / 2 * IZR z0))%R) by (apply Rmult_le_compat_l; lra).
    replace ((sqrt 5 - 1) / 2 * ((1 + sqrt 5) / 2 * IZR z0))%R with ((sqrt 5 * sqrt 5 - 1) / 4 * IZR z0)%R in M by field. rewrite S5 in M.
    assert (M2 : (IZR z0 <= (sqrt 5 - 1) / 2 * IZR z1)%R) by lra.
    apply Rle_antisym; [exact T0|]. apply (Rmult_le_compat_l ((1 + sqrt 5) / 2)) in M2; [|lra].
    replace ((1 + sqrt 5) / 2 * ((sqrt 5 - 1) / 2 * IZR z1))%R with ((sqrt 5 * sqrt 5 - 1) / 4 * IZR z1)%R in M2 by field. rewrite S5 in M2. lra. }
  apply (golden_int z1 z0 Pos). apply eq_IZR. rewrite !minus_IZR, !mult_IZR, G.
  transitivity (((sqrt 5 * sqrt 5 - 5) / 4) * (IZR z0 * IZR z0))%R; [field|]. rewrite S5. field.
Qed.

(** the convergents that convergents() yields *)
Lemma conv_er x n r : wfcf x -> ~ finite x -> nth_item (conv_next BigU) n (cf_convergents x) = Ok (Some r) ->
  denom r = QQ (cseq x) (S n) /\ Rabs (cf_val x - rval r) = er (cseq x) n.
Proof.
  intros W F H. pose proof (inf_has x n F) as Hn. rewrite (conv_nth BigU x n W (fun j _ => big_fit x j W)), (conv_item_eq x n Hn) in H.
  assert (E : r = Ratio (sgnb (negative x) * PP (cseq x) (S n)) (QQ (cseq x) (S n))) by congruence. subst r. cbn [denom]. split; [reflexivity|].
  pose proof (wfcf_cpos x W) as C. rewrite (cf_val_inf x F). unfold er, rval. cbn [numer denom]. rewrite (cut_PQ _ C), mult_IZR.
  replace (_ - _)%R with (IZR (sgnb (negative x)) * (lim (cseq x) - IZR (PP (cseq x) (S n)) / IZR (QQ (cseq x) (S n))))%R by (unfold Rdiv; ring).
  rewrite Rabs_mult. destruct (negative x); cbn [sgnb]; [rewrite (Rabs_left (-1)) by lra|rewrite (Rabs_right 1) by lra]; ring.
Qed.

Lemma far x A p q : wfcf x -> ~ finite x -> (forall n a, (1 <= n)%nat -> coeff_at x n = Some a -> a <= A) -> 0 < q ->
  (/ (IZR (A + 2) * (IZR q * IZR q)) < Rabs (cf_val x - IZR p / IZR q))%R.
Proof.
  intros W F HA Hq. pose proof (wfcf_cpos x W) as C.
  assert (Co : forall n, coeff_at x n = Some (cseq x n)). { intros n. unfold cseq. pose proof (coeff_at_inf x n F) as [v ->]. reflexivity. }
  assert (A1 : 1 <= A). { pose proof (proj2 C 0%nat). pose proof (HA 1%nat _ ltac:(lia) (Co 1%nat)). lia. }
  set (d := Z.gcd p q). assert (Hd : 0 < d) by (unfold d; pose proof (Z.gcd_nonneg p q); assert (Z.gcd p q <> 0) by (intros E; apply Z.gcd_eq_0_r in E; lia); lia).
  destruct (Z.gcd_divide_l p q) as [p' Ep]. destruct (Z.gcd_divide_r p q) as [q' Eq]. fold d in Ep, Eq. assert (Ed : Z.gcd p q = d) by reflexivity. clearbody d.
  assert (Hq' : 0 < q') by nia. assert (Le : q' <= q) by nia.
  assert (Lo : lowest (Ratio p' q')).
  { split; cbn [numer denom]; [auto|]. assert (G : Z.gcd (p' * d) (q' * d) = d) by (rewrite <- Ep, <- Eq; auto). rewrite Z.gcd_mul_mono_r_nonneg in G by lia. nia. }
  assert (V : (IZR p / IZR q = rval (Ratio p' q'))%R). { unfold rval. cbn [numer denom]. rewrite Ep, Eq, !mult_IZR. field. split; apply not_0_IZR; lia. }
  rewrite V. assert (R1 : (1 <= IZR q')%R) by (apply IZR_le; lia). assert (R2 : (IZR q' <= IZR q)%R) by (apply IZR_le; lia). assert (R3 : (3 <= IZR (A + 2))%R) by (apply IZR_le; lia).
  assert (P : (0 < IZR q' * IZR q')%R) by (apply Rmult_lt_0_compat; lra). assert (Pq : (IZR q' * IZR q' <= IZR q * IZR q)%R) by (apply Rmult_le_compat; lra).
  apply Rle_lt_trans with (/ (IZR (A + 2) * (IZR q' * IZR q')))%R.
  { apply Rinv_le_contravar; [apply Rmult_lt_0_compat; lra|]. apply Rmult_le_compat_l; lra. }
  destruct (Rlt_dec (Rabs (cf_val x - rval (Ratio p' q'))) (/ (2 * IZR q' * IZR q'))) as [L|L].
  - destruct (legendre x (Ratio p' q') W Lo L) as [n Hn]. destruct (conv_er x n _ W F Hn) as [D E]. cbn [denom] in D. rewrite E, D.
    eapply Rle_lt_trans; [|apply (er_coeff _ C n)]. pose proof (HA (S n) _ ltac:(lia) (Co (S n))) as B. apply IZR_le in B. rewrite plus_IZR. pose proof (f1 _ C n). rewrite D in P.
    apply Rinv_le_contravar; [apply Rmult_lt_0_compat; lra|]. apply Rmult_le_compat_r; lra.
  - apply Rnot_lt_le in L. eapply Rlt_le_trans; [|exact L]. rewrite Rmult_assoc. apply Rinv_lt_contravar.
    + apply Rmult_lt_0_compat; apply Rmult_lt_0_compat; lra.
    + apply Rmult_lt_compat_r; lra.
Qed.

(** the golden ratio: no constant above sqrt 5 will do *)
Lemma golden_far c : (sqrt 5 < c)%R -> exists N, forall p q, 0 < q -> N <= q -> (/ (c * (IZR q * IZR q)) < Rabs ((1 + sqrt 5) / 2 - IZR p / IZR q))%R.
Proof.
  intros Hc. destruct sqrt5 as [S5 B]. set (N := up (/ (c - sqrt 5))). exists N. intros p q Hq HN. apply IZR_le in HN. destruct (archimed (/ (c - sqrt 5))) as [Ar _]. fold N in Ar.
  assert (Q1 : (1 <= IZR q)%R) by (apply IZR_le; lia). set (s := sqrt 5) in *. set (Qr := IZR q) in *. set (t := (IZR p / Qr)%R).
  destruct (Rlt_dec (/ (c * (Qr * Qr))) (Rabs ((1 + s) / 2 - t))) as [|Nl]; [auto|]. exfalso. apply Rnot_lt_le in Nl.
  assert (One : (1 <= Rabs (IZR (p * p - p * q - q * q)))%R) by (rewrite <- abs_IZR; apply IZR_le; pose proof (golden_int p q Hq); lia).
  assert (Fac : (IZR (p * p - p * q - q * q) = (Qr * Qr) * (((1 + s) / 2 - t) * ((1 - s) / 2 - t)))%R).
  { rewrite !minus_IZR, !mult_IZR. fold Qr. unfold t. transitivity (IZR p * IZR p - IZR p * Qr + (1 - s * s) / 4 * (Qr * Qr))%R; [rewrite S5; field|field; lra]. }
  rewrite Fac, !Rabs_mult in One. rewrite (Rabs_pos_eq Qr) in One by lra.
  assert (Cj : (Rabs ((1 - s) / 2 - t) <= s + Rabs ((1 + s) / 2 - t))%R).
  { replace ((1 - s) / 2 - t)%R with (- s + ((1 + s) / 2 - t))%R by field. eapply Rle_trans; [apply Rabs_triang|]. rewrite Rabs_Ropp, (Rabs_pos_eq s) by lra. lra. }
  set (e := Rabs ((1 + s) / 2 - t)) in *. assert (E0 : (0 <= e)%R) by apply Rabs_pos. set (e' := Rabs ((1 - s) / 2 - t)) in *. assert (E0' : (0 <= e')%R) by apply Rabs_pos.
  assert (Q2 : (Qr <= Qr * Qr)%R) by (rewrite <- (Rmult_1_r Qr) at 1; apply Rmult_le_compat_l; lra).
  assert (M : (c * (Qr * Qr * e) <= 1)%R). { apply (Rmult_le_compat_l (c * (Qr * Qr))) in Nl; [|apply Rmult_le_pos; lra]. rewrite Rinv_r in Nl by (apply Rgt_not_eq, Rmult_lt_0_compat; lra). lra. }
  set (k := (Qr * Qr * e)%R) in *. assert (K0 : (0 <= k)%R) by (unfold k; apply Rmult_le_pos; lra).
  assert (One' : (1 <= k * e')%R) by (unfold k; lra). assert (K1 : (k * e' <= k * (s + e))%R) by (apply Rmult_le_compat_l; lra).
  assert (Ek : (e <= k / Qr)%R). { unfold k. replace (Qr * Qr * e / Qr)%R with (Qr * e)%R by (field; lra). rewrite <- (Rmult_1_l e) at 1. apply Rmult_le_compat_r; lra. }
  assert (Kc : (k < 1)%R). { destruct (Rlt_dec k 1) as [|X]; [auto|]. exfalso. apply Rnot_lt_le in X. assert (c * 1 <= c * k)%R by (apply Rmult_le_compat_l; lra). lra. }
  (* c <= s + e, so c - s <= e <= 1/q *)
  assert (T : (c - s <= e)%R). { destruct (Rle_dec (c - s) e) as [|X]; [auto|]. exfalso. apply Rnot_le_lt in X. assert (K2 : (0 < k)%R) by (destruct (Rle_lt_or_eq_dec 0 k K0) as [|Z]; [auto|rewrite <- Z in One'; lra]).
    assert (k * (s + e) < k * c)%R by (apply Rmult_lt_compat_l; lra). lra. }
  assert (U : (e < / Qr)%R). { eapply Rle_lt_trans; [exact Ek|]. unfold Rdiv. rewrite <- (Rmult_1_l (/ Qr)) at 2. apply Rmult_lt_compat_r; [apply Rinv_0_lt_compat; lra|exact Kc]. }
  assert (Y : (/ (c - s) < Qr)%R) by lra. apply (Rmult_lt_compat_l (c - s)) in Y; [|lra]. rewrite Rinv_r in Y by lra.
  apply (Rmult_lt_compat_r Qr) in U; [|lra]. rewrite Rinv_l in U by lra. assert ((c - s) * Qr <= e * Qr)%R by (apply Rmult_le_compat_r; lra). lra.
Qed.

(** Liouville: any irrational number of degree 2 *)
Lemma far_quadratic v vc : conjugate v vc -> ~ rational_real vc -> exists A, 0 < A /\ forall p q, 0 < q -> (/ (IZR A * (IZR q * IZR q)) < Rabs (v - IZR p / IZR q))%R.
Proof.
  intros (Iv & (m & n & Hn & Es) & (k & l & Hl & Ep)) Ic.
  assert (Nn : IZR n <> 0%R) by (apply not_0_IZR; auto). assert (Nl : IZR l <> 0%R) by (apply not_0_IZR; auto).
  set (M := Z.abs (n * l)). assert (M1 : 1 <= M) by (unfold M; assert (n * l <> 0) by (apply Z.neq_mul_0; auto); lia).
  set (D := (Rabs (vc - v) + 1)%R). assert (D1 : (1 <= D)%R) by (unfold D; pose proof (Rabs_pos (vc - v)); lra).
  set (A := M * up D). destruct (archimed D) as [Ar _]. assert (U1 : 1 <= up D) by (assert (1 < up D); [apply lt_IZR; lra|lia]).
  assert (A1 : 1 <= A) by (unfold A; nia). exists A. split; [lia|]. intros p q Hq.
  assert (Q1 : (1 <= IZR q)%R) by (apply IZR_le; lia). assert (Q2 : (1 <= IZR q * IZR q)%R) by (rewrite <- (Rmult_1_l 1); apply Rmult_le_compat; lra).
  assert (A1' : (1 <= IZR A)%R) by (apply IZR_le; auto). assert (M1' : (1 <= IZR M)%R) by (apply IZR_le; auto).
  set (t := (IZR p / IZR q)%R).
  destruct (Rlt_dec (/ (IZR A * (IZR q * IZR q))) (Rabs (v - t))) as [|N]; [auto|]. exfalso. apply Rnot_lt_le in N.
  assert (P : (1 <= IZR A * (IZR q * IZR q))%R) by (rewrite <- (Rmult_1_l 1); apply Rmult_le_compat; lra).
  assert (E1 : (Rabs (v - t) <= 1)%R). { eapply Rle_trans; [exact N|]. rewrite <- Rinv_1. apply Rinv_le_contravar; lra. }
  assert (Rt : forall y, ~ rational_real y -> (y - t)%R <> 0%R). { intros y Iy Z. apply Iy. exists p, q. split; [lia|]. fold t. lra. }
  set (z := n * l * (p * p) - m * l * (p * q) + k * n * (q * q)).
  assert (Ez : (IZR z = IZR (n * l) * (IZR q * IZR q) * ((v - t) * (vc - t)))%R).
  { replace ((v - t) * (vc - t))%R with (t * t - (v + vc) * t + v * vc)%R by ring. rewrite Es, Ep. unfold z, t. rewrite plus_IZR, minus_IZR, !mult_IZR. field. repeat split; auto. lra. }
  assert (Nz : z <> 0).
  { intros Z. rewrite Z in Ez. symmetry in Ez. apply Rmult_integral in Ez. destruct Ez as [Ez|Ez].
    - apply Rmult_integral in Ez. destruct Ez as [Ez|Ez]; [|lra]. apply eq_IZR in Ez. unfold M in M1. lia.
    - apply Rmult_integral in Ez. destruct Ez as [Ez|Ez]; revert Ez; apply Rt; auto. }
  assert (One : (1 <= Rabs (IZR z))%R) by (rewrite <- abs_IZR; apply IZR_le; lia).
  rewrite Ez, !Rabs_mult, <- abs_IZR in One. fold M in One. rewrite (Rabs_pos_eq (IZR q)) in One by lra.
  assert (Cj : (Rabs (vc - t) <= D)%R). { unfold D. replace (vc - t)%R with ((vc - v) + (v - t))%R by ring. eapply Rle_trans; [apply Rabs_triang|]. lra. }
  set (e := Rabs (v - t)) in *. assert (E0 : (0 <= e)%R) by apply Rabs_pos. set (e' := Rabs (vc - t)) in *. set (Y := (IZR q * IZR q)%R) in *.
  assert (K : (IZR A * (Y * e) <= 1)%R). { apply (Rmult_le_compat_l (IZR A * Y)) in N; [|lra]. rewrite Rinv_r in N by lra. lra. }
  unfold A in K. rewrite mult_IZR in K. assert (Ye : (0 <= Y * e)%R) by (apply Rmult_le_pos; lra).
  assert (L1 : (IZR M * (Y * e) * e' <= IZR M * (Y * e) * D)%R) by (apply Rmult_le_compat_l; [apply Rmult_le_pos; lra|auto]).
  assert (Pos : (0 < IZR M * (Y * e))%R). { destruct (Rle_lt_or_eq_dec 0 (IZR M * (Y * e))) as [X|X]; [apply Rmult_le_pos; lra|auto|]. exfalso. replace (IZR M * Y * (e * e'))%R with (IZR M * (Y * e) * e')%R in One by ring. rewrite <- X in One. lra. }
  assert (L2 : (IZR M * (Y * e) * D < IZR M * (Y * e) * IZR (up D))%R) by (apply Rmult_lt_compat_l; lra). lra.
Qed.

Lemma coeff_in x n a : (1 <= n)%nat -> coeff_at x n = Some a -> In a (tl (a_coeffs x) ++ p_coeffs x).
Proof.
  intros Hn E. unfold coeff_at in E. destruct (a_coeffs x) as [|a0 l]; cbn [tl].
  - cbn [app] in E |- *. apply nth_error_In in E. apply in_concat in E. destruct E as (y & Y & E). apply repeat_spec in Y. subst y. auto.
  - destruct n as [|n]; [lia|]. change (nth_error (l ++ concat (repeat (p_coeffs x) (S (S n)))) n = Some a) in E. apply nth_error_In, in_app_or in E.
    apply in_or_app. destruct E as [E|E]; [auto|]. right. apply in_concat in E. destruct E as (y & Y & E). apply repeat_spec in Y. subst y. auto.
Qed.
