(** * IntRational: the remainder with a rational right operand. *)

From Coq Require Import ZArith Znumtheory Reals Lia Bool List.
From Coquelicot Require Import Coquelicot.
From Verif Require Import Base Ext ModelSurd ModelInt Spec SpecInt NumFacts SurdCore Transfer IntCore IntArith IntOps IntDiv IntMore.
Open Scope Z_scope.

Definition small_for (k m : Z) : Prop := 2 * Z.abs m < k \/ 2 * Z.abs m <= - k.

Lemma rnd_pos_unique x y q : 0 <= x -> 0 < y -> y * (2 * q - 1) <= 2 * x < y * (2 * q + 1) -> rnd x y = q.
Proof. intros Hx Hy B. pose proof (rnd_pos x y Hx Hy) as A. nia. Qed.

Lemma rnd_pos_nonneg x y : 0 <= x -> 0 < y -> 0 <= rnd x y.
Proof. intros Hx Hy. pose proof (rnd_pos x y Hx Hy) as A. nia. Qed.

Lemma rnd_small_pos a k : k <> 0 -> 0 <= a -> (a = (k + 1) * rnd a k <-> exists m, a = (k + 1) * m /\ small_for k m).
Proof.
  intros Hk Ha. unfold small_for. destruct (Z.lt_trichotomy k 0) as [K|[K|K]]; [|lia|].
  - set (j := - k). assert (J : 0 < j) by lia. assert (E : k = - j) by lia. clearbody j. subst k. rewrite rnd_opp_r by lia. split.
    + intros H. exists (- rnd a j). split; [exact H|]. right. pose proof (rnd_pos a j Ha J) as B. pose proof (rnd_pos_nonneg a j Ha J). set (r := rnd a j) in *. clearbody r.
      rewrite Z.abs_opp, Z.abs_eq by lia. nia.
    + intros (m & H & [S|S]); [lia|]. destruct (Z.eq_dec j 1) as [->|J1].
      * assert (a = 0) by (rewrite H; ring). subst a. reflexivity.
      * assert (M : m <= 0) by nia. rewrite Z.abs_neq in S by lia. rewrite (rnd_pos_unique a j (- m)); [rewrite H at 1; ring|exact Ha|exact J|nia].
  - split.
    + intros H. exists (rnd a k). split; [exact H|]. left. pose proof (rnd_pos a k Ha K) as B. pose proof (rnd_pos_nonneg a k Ha K). set (r := rnd a k) in *. clearbody r.
      rewrite Z.abs_eq by lia. nia.
    + intros (m & H & [S|S]); [|lia]. assert (M : 0 <= m) by nia. rewrite Z.abs_eq in S by lia. rewrite (rnd_pos_unique a k m); [exact H|exact Ha|exact K|nia].
Qed.

Lemma rnd_small a k : k <> 0 -> (a = (k + 1) * rnd a k <-> exists m, a = (k + 1) * m /\ small_for k m).
Proof.
  intros Hk. destruct (Z.le_gt_cases 0 a) as [Ha|Ha]; [apply rnd_small_pos; auto|].
  pose proof (rnd_small_pos (- a) k Hk ltac:(lia)) as B. rewrite rnd_opp_l in B by auto. unfold small_for in *. split.
  - intros H. destruct B as [B _]. destruct B as (m & E & S); [lia|]. exists (- m). rewrite Z.abs_opp. split; [lia|exact S].
  - intros (m & E & S). destruct B as [_ B]. assert (X : - a = (k + 1) * - rnd a k) by (apply B; exists (- m); rewrite Z.abs_opp; split; [rewrite E; ring|exact S]). lia.
Qed.

Lemma rem_rational g t x y : q1 (qcoeffs y) = 0 -> qint_rem g t x y = qint_div g t x y.
Proof. intros H. unfold qint_rem, qint_div, qint_is_rational. rewrite H. reflexivity. Qed.

Lemma rem_rational_exact g t x y q z : wfq g x -> q1 (qcoeffs y) = 0 -> qint_div g t x y = Ok q -> qint_rem g t x y = Ok z ->
  let k := q0 (qcoeffs y) in
  z = q /\ (qval x = (qval q * qval y + qval z)%C <->
    exists m n, q0 (qcoeffs x) = (k + 1) * m /\ q1 (qcoeffs x) = (k + 1) * n /\ small_for k m /\ small_for k n).
Proof.
  intros W Y Hq Hz k. rewrite (rem_rational g t x y Y) in Hz. assert (E : z = q) by congruence. split; [exact E|]. subst z. clear Hz.
  apply rle_qint_div in Hq. unfold qint_div, qint_is_rational in Hq. rewrite Y in Hq. cbn [Z.eqb] in Hq. fold k in Hq.
  assert (Vy : qval y = ZtoC k). { destruct y as [[c d] e]. cbn [qcoeffs q0 q1] in *. subst d. apply qval_int. }
  destruct x as [[a b] d]. cbn [qcoeffs q0 q1 qdiscr] in *. unfold qint_div_int, qco_div_int in Hq. cbn [qcoeffs q0 q1 qdiscr] in Hq.
  assert (K : k <> 0).
  { intros K. rewrite K in Hq. destruct (div_rem_round BigI a 0) eqn:D; [apply div_rem_round_zero in D; destruct D|discriminate|discriminate]. }
  rewrite !div_rem_roundB in Hq by auto. cbn [bind] in Hq. inversion Hq as [Eq]. clear Hq.
  assert (V : (qval (QInt (QCo (rnd a k) (rnd b k)) d) * qval y + qval (QInt (QCo (rnd a k) (rnd b k)) d))%C = qval (QInt (QCo ((k + 1) * rnd a k) ((k + 1) * rnd b k)) d)).
  { rewrite Vy. unfold qval. cbn [qcoeffs q0 q1 qdiscr]. rewrite !ZtoC_mul, ZtoC_add, ZtoC_1. ring. }
  rewrite V.
  assert (I : qval (QInt (QCo a b) d) = qval (QInt (QCo ((k + 1) * rnd a k) ((k + 1) * rnd b k)) d) <-> a = (k + 1) * rnd a k /\ b = (k + 1) * rnd b k).
  { split; [|intros [A B]; rewrite <- A, <- B; reflexivity]. intros H. destruct W as [[B D]|G].
    - cbn [qcoeffs q1 qdiscr] in B, D. subst b d. assert (R : rnd 0 k = 0) by (unfold rnd; rewrite Z.mul_0_r, Z.quot_0_l; auto).
      rewrite R, Z.mul_0_r in *. rewrite !qval_int in H. apply ZtoC_inj in H. auto.
    - apply qval_inj in H; [exact H|]. exact (proj1 G). }
  rewrite I, !rnd_small by auto. split.
  - intros [(m & A & S) (n & B & T)]. exists m, n. auto.
  - intros (m & n & A & B & S & T). split; [exists m|exists n]; auto.
Qed.
