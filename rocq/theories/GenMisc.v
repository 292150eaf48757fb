(** * GenMisc: simple continued fractions as generalized ones, digits, and generalize(). *)

From Coq Require Import ZArith Reals Lia Lra Psatz Bool List.
From Coquelicot Require Import Coquelicot.
From Verif Require Import Base Ext ModelBlock ModelGen Spec SpecGen NumFacts RatioFacts SurdOrd SurdRound CFCore GenBlock GenSound GenConv GenTail GenLive.
Import ListNotations.
Open Scope Z_scope.

(** ** Simple fractions *)
Lemma gval_cut n : forall f, gval (prefix (fun n => (1, f n)) (S n)) = cut f n.
Proof.
  induction n as [|n IH]; intros f.
  - rewrite gval_1. reflexivity.
  - rewrite gval_SS, cut_S. cbn [fst snd]. change (GenConv.shift (fun n => (1, f n))) with (fun n => (1, CFCore.shift f n)). rewrite IH. unfold Rdiv. rewrite Rmult_1_l. reflexivity.
Qed.

Lemma cconverges_lim f : cpos f -> cconverges f (lim f).
Proof. intros H. apply (is_lim_seq_ext (cut f)); [intros n; symmetry; apply gval_cut|apply cut_lim; auto]. Qed.

Lemma cconverges_unique f x y : cconverges f x -> cconverges f y -> x = y.
Proof.
  intros A B. apply is_lim_seq_unique in A, B. rewrite A in B. inversion B. auto.
Qed.

(** A sequence of coefficients that are positive after the first one is the expansion of one irrational number *)
Lemma late_cpos f e : (forall n, (1 <= n)%nat -> 1 <= e * f n) -> cpos (fun n => match n with O => 0 | S _ => e * f n end).
Proof. intros H. split; [lia|]. intros n. apply H. lia. Qed.

Lemma signed_converges e f : e = 1 \/ e = -1 -> (forall n, (1 <= n)%nat -> 1 <= e * f n) -> exists x, cconverges f x /\ irrational x.
Proof.
  intros He H. set (h := fun n => match n with O => 0 | S _ => e * f n end). pose proof (late_cpos f e H) as Ph. fold h in Ph.
  pose proof (cconverges_lim h Ph) as Ch. exists (IZR e * (IZR (e * f O) + lim h))%R.
  assert (E : forall n, gval (prefix (fun n => (1, e * f n)) (S n)) = (IZR (e * f O) + gval (prefix (fun n => (1%Z, h n)) (S n)))%R).
  { intros n. destruct n as [|n]; [rewrite !gval_1; cbn [snd h]; ring|]. rewrite !gval_SS. cbn [fst snd]. unfold h at 1. 
    change (GenConv.shift (fun n => (1, h n))) with (fun n => (1, e * GenConv.shift f n)). change (GenConv.shift (fun n => (1, e * f n))) with (fun n => (1, e * GenConv.shift f n)). ring. }
  split.
  - apply cconverges_unsign; auto. unfold gconverges.
    apply (is_lim_seq_ext (fun n => (IZR (e * f O) + gval (prefix (fun n => (1%Z, h n)) (S n)))%R)); [intros n; rewrite E; reflexivity|].
    apply (is_lim_seq_plus _ _ (IZR (e * f O)) (lim h)); [apply is_lim_seq_const|exact Ch|reflexivity].
  - intros p q Hq K. apply (lim_irrational h (e * p - e * f O * q) q Ph Hq).
    assert (Q : IZR q <> 0%R) by (apply not_0_IZR; auto). rewrite minus_IZR, !mult_IZR in *.
    destruct He as [->| ->].
    + rewrite !Rmult_1_l in *. replace (lim h) with (IZR (f O) + lim h - IZR (f O))%R by ring. rewrite K. field. auto.
    + assert (K' : (-1 * IZR (f O) + lim h = - (IZR p / IZR q))%R) by lra. replace (lim h) with (-1 * IZR (f O) + lim h + IZR (f O))%R by ring. rewrite K'. field. auto.
Qed.

Lemma signed_trunc e f x : e = 1 \/ e = -1 -> csigned e f -> cconverges f x ->
  istrunc x (f O) /\ x <> IZR (f O) /\ cconverges (GenConv.shift f) (/ (x - IZR (f O))).
Proof.
  intros He (H0 & L) C. destruct (ctail e f x He L C) as (y & Cy & Py & Ey).
  assert (S1 : csigned e (GenConv.shift f)) by (apply csigned_shift; split; auto).
  destruct (ctail e (GenConv.shift f) y He (proj2 S1) Cy) as (z & Cz & Pz & Ez).
  assert (Hy : (1 < IZR e * y)%R).
  { specialize (L 1%nat ltac:(lia)). apply IZR_le in L. rewrite mult_IZR in L. rewrite Ez, Rmult_plus_distr_l. unfold GenConv.shift.
    assert (0 < IZR e * / z)%R; [|lra]. destruct He as [->| ->]; [rewrite Rmult_1_l in *; apply Rinv_0_lt_compat; lra|].
    replace (IZR (-1) * / z)%R with (/ (- z))%R by (field; lra). apply Rinv_0_lt_compat. lra. }
  assert (D : y <> 0%R) by (destruct He as [K|K]; rewrite K in Hy; lra).
  assert (E : (x - IZR (f O) = / y)%R) by lra. apply IZR_le in H0. rewrite mult_IZR in H0.
  split; [|split].
  - destruct He as [K|K]; rewrite K in *.
    + rewrite Rmult_1_l in *. assert (0 < / y < 1)%R by (split; [apply Rinv_0_lt_compat; lra|rewrite <- Rinv_1; apply Rinv_lt_contravar; lra]). split; intros; lra.
    + assert (0 < / (- y) < 1)%R by (split; [apply Rinv_0_lt_compat; lra|rewrite <- Rinv_1; apply Rinv_lt_contravar; lra]). rewrite Rinv_opp in H. split; intros; lra.
  - intros K. rewrite K in E. pose proof (Rinv_neq_0_compat y D). lra.
  - rewrite E, Rinv_inv. exact Cy.
Qed.

Lemma signed_digit e n : e = 1 \/ e = -1 -> forall f x, csigned e f -> cconverges f x -> cf_digit x n (f n).
Proof.
  intros He. induction n as [|n IH]; intros f x S1 C; destruct (signed_trunc e f x He S1 C) as (T & N & C').
  - exact T.
  - exists (f O). split; [auto|]. split; [auto|]. apply (IH (GenConv.shift f)); auto. apply csigned_shift; auto.
Qed.

Lemma cf_digit_unique n : forall x v w, cf_digit x n v -> cf_digit x n w -> v = w.
Proof.
  induction n as [|n IH]; intros x v w A B; [eapply istrunc_unique; eauto|].
  destruct A as (a & Ta & _ & A). destruct B as (b & Tb & _ & B). assert (a = b) by (eapply istrunc_unique; eauto). subst b. eapply IH; eauto.
Qed.

(** ** convergents() when the first numerator is not 1 *)
Lemma gconv_value_any t {I} (inext : I -> res (option (Z * Z) * I)) it f n r : known inext it f (S n) -> fst (f O) <> 0 -> gregular (prefix f (S n)) ->
  nth_item (gconv_next t inext) n (gcf_convergents it) = Ok (Some r) -> lowest r /\ rval r = (gval (prefix f (S n)) / IZR (fst (f O)))%R.
Proof.
  intros K F G H. destruct (gconv_known t inext n 0 f block_identity it [] r) as (k & R & E); auto; [apply reads_nil|].
  cbn [Nat.add] in R.
  assert (Np : prefix f (S n) <> []) by (rewrite prefix_S; discriminate).
  assert (Hd : exists b1 l1, prefix f (S n) = (fst (f O), b1) :: l1) by (rewrite prefix_S; destruct (f O); eauto).
  destruct (reads_col1 _ _ _ (fst (f O)) Np G Hd R) as (p & Hp & P & Q).
  destruct (ratio_new_ok _ _ _ _ E) as (D & V & L). split; [auto|]. rewrite V, P, Q.
  unfold num, den, block_identity. cbn [pm1 pm2 qm1 qm2]. field. split; [apply not_0_IZR; auto|auto].
Qed.

(** ** generalize() *)
Lemma generalize_nth {I} (inext : I -> res (option Z * I)) n : forall it v, nth_item inext n it = Ok (Some v) -> nth_item (generalize_next inext) n it = Ok (Some (v, 1)).
Proof.
  induction n as [|n IH]; intros it v H.
  - apply nth_head in H. destruct H as (s & H). rewrite nth_item_0. unfold generalize_next. rewrite H. reflexivity.
  - destruct (nth_item_cases _ _ _ _ H) as (x & s & N). rewrite (nth_item_S _ _ _ _ _ N) in H.
    rewrite (nth_item_S (generalize_next inext) n it (x, 1) s); [apply IH; auto|]. unfold generalize_next. rewrite N. reflexivity.
Qed.
