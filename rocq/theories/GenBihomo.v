(** * GenBihomo: what bihomo() emits before it looks at x is right (C44). *)

From Coq Require Import ZArith Reals Lia Lra Psatz Bool List.
From Coquelicot Require Import Coquelicot.
From Verif Require Import Base Ext ModelBlock ModelGen Spec SpecGen NumFacts GenBlock GenSound GenConv GenTail.
Import ListNotations.
Open Scope Z_scope.

(** x is a fixed number, y = u/w *)
Definition lin4 (a b c d : Z) (x u w : R) : R := (IZR a * (x * u) + IZR b * (x * w) + IZR c * u + IZR d * w)%R.
Definition dnum (k : dblock) := lin4 (pm11 k) (pm12 k) (pm21 k) (pm22 k).
Definition dden (k : dblock) := lin4 (qm11 k) (qm12 k) (qm21 k) (qm22 k).

Definition nonneg4 (a b c d : Z) : Prop := 0 <= a /\ 0 <= b /\ 0 <= c /\ 0 <= d.
Definition pos4 (a b c d : Z) : Prop := 0 < a /\ 0 < b /\ 0 < c /\ 0 < d.
Definition dsame (k : dblock) : Prop :=
  nonneg4 (qm11 k) (qm12 k) (qm21 k) (qm22 k) \/ nonneg4 (- qm11 k) (- qm12 k) (- qm21 k) (- qm22 k).
Definition dgood2 (k : dblock) : Prop :=
  (pos4 (pm11 k) (pm12 k) (pm21 k) (pm22 k) \/ pos4 (- pm11 k) (- pm12 k) (- pm21 k) (- pm22 k)) /\
  Z.abs (qm11 k) <= Z.abs (pm11 k) /\ Z.abs (qm12 k) <= Z.abs (pm12 k) /\ Z.abs (qm21 k) <= Z.abs (pm21 k) /\ Z.abs (qm22 k) <= Z.abs (pm22 k).

Definition dalive (k : dblock) (x u w y : R) : Prop := (dsame k \/ dgood2 k) /\ dden k x u w <> 0%R /\ y = (dnum k x u w / dden k x u w)%R.
Definition ddead (k : dblock) (x u w : R) : Prop := dgood2 k /\ dden k x u w = 0%R.

(** ** Emissions *)
Lemma check4_inv t k i r11 r12 r21 r22 : dblock_check_integer t k = Ok (inl (i, (r11, r12, r21, r22))) ->
  (qm11 k <> 0 /\ i = Z.quot (pm11 k) (qm11 k) /\ r11 = Z.rem (pm11 k) (qm11 k)) /\
  (qm12 k <> 0 /\ i = Z.quot (pm12 k) (qm12 k) /\ r12 = Z.rem (pm12 k) (qm12 k)) /\
  (qm21 k <> 0 /\ i = Z.quot (pm21 k) (qm21 k) /\ r21 = Z.rem (pm21 k) (qm21 k)) /\
  (qm22 k <> 0 /\ i = Z.quot (pm22 k) (qm22 k) /\ r22 = Z.rem (pm22 k) (qm22 k)).
Proof.
  unfold dblock_check_integer. destruct (qm22 k =? 0); [discriminate|]. destruct (qm11 k =? 0); [discriminate|]. intros H.
  apply bind_Ok in H. destruct H as ((i11, s11) & D1 & H). apply bind_Ok in H. destruct H as ((i12, s12) & D2 & H).
  apply bind_Ok in H. destruct H as ((i21, s21) & D3 & H). apply bind_Ok in H. destruct H as ((i22, s22) & D4 & H).
  apply div_remT_inv in D1, D2, D3, D4. destruct ((i11 =? i12) && (i11 =? i21) && (i11 =? i22)) eqn:E; [|discriminate].
  apply andb_true_iff in E. destruct E as [E E3]. apply andb_true_iff in E. destruct E as [E1 E2]. apply Z.eqb_eq in E1, E2, E3.
  inversion H; subst. intuition congruence.
Qed.

Lemma trunc_real D N i : (0 < D)%R -> (- D < N < D)%R -> (0 < i -> (0 <= N)%R) -> (i < 0 -> (N <= 0)%R) -> istrunc ((IZR i * D + N) / D) i.
Proof.
  intros HD B Pos Neg. replace ((IZR i * D + N) / D)%R with (IZR i + N / D)%R by (field; lra).
  assert (ID : (0 < / D)%R) by (apply Rinv_0_lt_compat; auto).
  assert (Hi : (N / D < 1)%R) by (apply (Rmult_lt_reg_r D); [auto|]; unfold Rdiv; rewrite Rmult_assoc, Rinv_l by lra; lra).
  assert (Lo : (- 1 < N / D)%R) by (apply (Rmult_lt_reg_r D); [auto|]; unfold Rdiv; rewrite Rmult_assoc, Rinv_l by lra; lra).
  assert (P : 0 < i -> (0 <= N / D)%R) by (intros K; apply Rmult_le_pos; [auto|lra]).
  assert (Q : i < 0 -> (N / D <= 0)%R) by (intros K; assert (0 <= - N / D)%R by (apply Rmult_le_pos; [specialize (Neg K); lra|lra]); unfold Rdiv in *; lra).
  set (z := (N / D)%R) in *. clearbody z. clear - Hi Lo P Q.
  destruct (Z.lt_trichotomy i 0) as [K|[K|K]].
  - specialize (Q K). assert (K' : i <= -1) by lia. apply IZR_le in K'. split; intros; lra.
  - subst i. split; intros; lra.
  - specialize (P K). assert (K' : 1 <= i) by lia. apply IZR_le in K'. split; intros; lra.
Qed.

(** one corner *)
Lemma corner p q i r : q <> 0 -> i = Z.quot p q -> r = Z.rem p q -> p = i * q + r /\ Z.abs r < Z.abs q /\ (0 < i -> 0 <= r * q) /\ (i < 0 -> r * q <= 0).
Proof. intros N -> ->. destruct (quot_facts p q N) as (E & B & _ & P & Q). cbv zeta in *. split; [lia|auto]. Qed.

(** the sign of the quotient when |q| <= |p| *)
Lemma corner_sign p q i r : p <> 0 -> Z.abs q <= Z.abs p -> q <> 0 -> i = Z.quot p q -> r = Z.rem p q -> 0 < i * (p * q).
Proof.
  intros Hp A N I1 R1. destruct (corner p q i r N I1 R1) as (E & B & _). replace (i * (p * q)) with (p * (p - r)) by (rewrite E at 2; ring).
  assert (Z.abs r < Z.abs p) by lia. nia.
Qed.

Lemma sign_pos i p q : 0 < p -> 0 < i * (p * q) -> 0 < i * q.
Proof. intros. replace (i * (p * q)) with (p * (i * q)) in H0 by ring. nia. Qed.
Lemma sign_neg i p q : p < 0 -> 0 < i * (p * q) -> i * q < 0.
Proof. intros. replace (i * (p * q)) with (p * (i * q)) in H0 by ring. nia. Qed.
Lemma pos_of i q : 0 < i -> 0 < i * q -> 0 < q. Proof. nia. Qed.
Lemma neg_of i q : 0 < i -> i * q < 0 -> q < 0. Proof. nia. Qed.
Lemma pos_of' i q : i < 0 -> i * q < 0 -> 0 < q. Proof. nia. Qed.
Lemma neg_of' i q : i < 0 -> 0 < i * q -> q < 0. Proof. nia. Qed.

Definition qpos (k : dblock) : Prop := pos4 (qm11 k) (qm12 k) (qm21 k) (qm22 k).
Definition qneg (k : dblock) : Prop := pos4 (- qm11 k) (- qm12 k) (- qm21 k) (- qm22 k).

Lemma emit_sign t k i r11 r12 r21 r22 : dblock_check_integer t k = Ok (inl (i, (r11, r12, r21, r22))) -> dsame k \/ dgood2 k -> qpos k \/ qneg k.
Proof.
  intros C G. apply check4_inv in C. destruct C as ((N1 & I1 & R1) & (N2 & I2 & R2) & (N3 & I3 & R3) & (N4 & I4 & R4)).
  destruct G as [[(A1 & A2 & A3 & A4)|(A1 & A2 & A3 & A4)]|(P & B1 & B2 & B3 & B4)]; [left; unfold qpos, pos4; lia|right; unfold qneg, pos4; lia|].
  assert (Np : pm11 k <> 0 /\ pm12 k <> 0 /\ pm21 k <> 0 /\ pm22 k <> 0) by (unfold pos4 in P; lia). destruct Np as (P1 & P2 & P3 & P4).
  pose proof (corner_sign _ _ _ _ P1 B1 N1 I1 R1) as S1. pose proof (corner_sign _ _ _ _ P2 B2 N2 I2 R2) as S2.
  pose proof (corner_sign _ _ _ _ P3 B3 N3 I3 R3) as S3. pose proof (corner_sign _ _ _ _ P4 B4 N4 I4 R4) as S4.
  assert (Hi : i <> 0) by (intros K; rewrite K in S1; lia). clear - P Hi S1 S2 S3 S4. unfold qpos, qneg, pos4 in *.
  destruct P as [(Q1 & Q2 & Q3 & Q4)|(Q1 & Q2 & Q3 & Q4)].
  - apply sign_pos in S1, S2, S3, S4; auto. destruct (Z.lt_ge_cases i 0).
    + apply neg_of' in S1, S2, S3, S4; auto. lia.
    + assert (0 < i) by lia. apply pos_of in S1, S2, S3, S4; auto.
  - apply sign_neg in S1; [|lia]. apply sign_neg in S2; [|lia]. apply sign_neg in S3; [|lia]. apply sign_neg in S4; [|lia]. destruct (Z.lt_ge_cases i 0).
    + apply pos_of' in S1, S2, S3, S4; auto.
    + assert (0 < i) by lia. apply neg_of in S1, S2, S3, S4; auto. lia.
Qed.

Lemma lin4_pos a b c d x u w : pos4 a b c d -> (0 < x)%R -> (0 < u)%R -> (0 <= w)%R -> (0 < lin4 a b c d x u w)%R.
Proof.
  intros (A & B & C & D) Hx Hu Hw. apply IZR_lt in A, B, C, D. unfold lin4.
  assert (0 < IZR a * (x * u))%R by (apply Rmult_lt_0_compat; [auto|apply Rmult_lt_0_compat; auto]).
  assert (0 <= IZR b * (x * w))%R by (apply Rmult_le_pos; [lra|apply Rmult_le_pos; lra]).
  assert (0 < IZR c * u)%R by (apply Rmult_lt_0_compat; auto). assert (0 <= IZR d * w)%R by (apply Rmult_le_pos; lra). lra.
Qed.

Lemma lin4_nonneg a b c d x u w : nonneg4 a b c d -> (0 < x)%R -> (0 < u)%R -> (0 <= w)%R -> (0 <= lin4 a b c d x u w)%R.
Proof.
  intros (A & B & C & D) Hx Hu Hw. apply IZR_le in A, B, C, D. unfold lin4.
  assert (0 <= IZR a * (x * u))%R by (apply Rmult_le_pos; [auto|apply Rmult_le_pos; lra]).
  assert (0 <= IZR b * (x * w))%R by (apply Rmult_le_pos; [lra|apply Rmult_le_pos; lra]).
  assert (0 <= IZR c * u)%R by (apply Rmult_le_pos; lra). assert (0 <= IZR d * w)%R by (apply Rmult_le_pos; lra). lra.
Qed.

Lemma lin4_sub a b c d a' b' c' d' x u w : (lin4 a b c d x u w - lin4 a' b' c' d' x u w)%R = lin4 (a - a') (b - b') (c - c') (d - d') x u w.
Proof. unfold lin4. rewrite !minus_IZR. ring. Qed.
Lemma lin4_add a b c d a' b' c' d' x u w : (lin4 a b c d x u w + lin4 a' b' c' d' x u w)%R = lin4 (a + a') (b + b') (c + c') (d + d') x u w.
Proof. unfold lin4. rewrite !plus_IZR. ring. Qed.
Lemma lin4_opp a b c d x u w : lin4 (- a) (- b) (- c) (- d) x u w = (- lin4 a b c d x u w)%R.
Proof. unfold lin4. rewrite !opp_IZR. ring. Qed.

Lemma trunc4 q1 q2 q3 q4 r1 r2 r3 r4 i x u w : (0 < x)%R -> (0 < u)%R -> (0 <= w)%R -> pos4 q1 q2 q3 q4 ->
  Z.abs r1 < q1 -> Z.abs r2 < q2 -> Z.abs r3 < q3 -> Z.abs r4 < q4 ->
  (0 < i -> nonneg4 r1 r2 r3 r4) -> (i < 0 -> nonneg4 (- r1) (- r2) (- r3) (- r4)) ->
  istrunc ((IZR i * lin4 q1 q2 q3 q4 x u w + lin4 r1 r2 r3 r4 x u w) / lin4 q1 q2 q3 q4 x u w) i.
Proof.
  intros Hx Hu Hw Q B1 B2 B3 B4 P N. apply trunc_real.
  - apply lin4_pos; auto.
  - pose proof (lin4_pos (q1 - r1) (q2 - r2) (q3 - r3) (q4 - r4) x u w ltac:(unfold pos4 in *; lia) Hx Hu Hw) as A. rewrite <- lin4_sub in A.
    pose proof (lin4_pos (q1 + r1) (q2 + r2) (q3 + r3) (q4 + r4) x u w ltac:(unfold pos4 in *; lia) Hx Hu Hw) as B. rewrite <- lin4_add in B. lra.
  - intros K. apply lin4_nonneg; auto.
  - intros K. pose proof (lin4_nonneg _ _ _ _ x u w (N K) Hx Hu Hw) as A. rewrite lin4_opp in A. lra.
Qed.

Lemma sg1 q r : 0 < q -> 0 <= r * q -> 0 <= r. Proof. nia. Qed.
Lemma sg2 q r : 0 < q -> r * q <= 0 -> 0 <= - r. Proof. nia. Qed.
Lemma sg3 q r : 0 < - q -> 0 <= r * q -> 0 <= - r. Proof. nia. Qed.
Lemma sg4 q r : 0 < - q -> r * q <= 0 -> 0 <= - - r. Proof. nia. Qed.

Lemma demit t k i r11 r12 r21 r22 x u w y : (0 < x)%R -> (0 < u)%R -> (0 <= w)%R ->
  dblock_check_integer t k = Ok (inl (i, (r11, r12, r21, r22))) -> dalive k x u w y ->
  istrunc y i /\ (y <> IZR i -> dalive (DBlock (qm11 k) (qm12 k) (qm21 k) (qm22 k) r11 r12 r21 r22) x u w (/ (y - IZR i))) /\
  (y = IZR i -> ddead (DBlock (qm11 k) (qm12 k) (qm21 k) (qm22 k) r11 r12 r21 r22) x u w).
Proof.
  intros Hx Hu Hw C (G & D & Y). pose proof (emit_sign _ _ _ _ _ _ _ C G) as Sg. apply check4_inv in C.
  destruct C as ((N1 & I1 & R1) & (N2 & I2 & R2) & (N3 & I3 & R3) & (N4 & I4 & R4)).
  destruct (corner _ _ _ _ N1 I1 R1) as (E1 & B1 & P1 & M1). destruct (corner _ _ _ _ N2 I2 R2) as (E2 & B2 & P2 & M2).
  destruct (corner _ _ _ _ N3 I3 R3) as (E3 & B3 & P3 & M3). destruct (corner _ _ _ _ N4 I4 R4) as (E4 & B4 & P4 & M4).
  clear I1 I2 I3 I4 R1 R2 R3 R4.
  assert (En : dnum k x u w = (IZR i * dden k x u w + lin4 r11 r12 r21 r22 x u w)%R).
  { unfold dnum, dden, lin4. rewrite E1, E2, E3, E4, !plus_IZR, !mult_IZR. ring. }
  assert (Er : ((y - IZR i) * dden k x u w = lin4 r11 r12 r21 r22 x u w)%R) by (rewrite Y, En; field; auto).
  assert (G2 : dgood2 (DBlock (qm11 k) (qm12 k) (qm21 k) (qm22 k) r11 r12 r21 r22)).
  { unfold dgood2. cbn [pm11 pm12 pm21 pm22 qm11 qm12 qm21 qm22]. split; [exact Sg|]. lia. }
  split; [|split].
  - rewrite Y, En. unfold dden in *. destruct Sg as [(Q1 & Q2 & Q3 & Q4)|(Q1 & Q2 & Q3 & Q4)].
    + rewrite (Z.abs_eq (qm11 k)) in B1 by lia. rewrite (Z.abs_eq (qm12 k)) in B2 by lia. rewrite (Z.abs_eq (qm21 k)) in B3 by lia. rewrite (Z.abs_eq (qm22 k)) in B4 by lia.
      apply trunc4; [exact Hx|exact Hu|exact Hw|exact (conj Q1 (conj Q2 (conj Q3 Q4)))|exact B1|exact B2|exact B3|exact B4| |]; intros K.
      * exact (conj (sg1 _ _ Q1 (P1 K)) (conj (sg1 _ _ Q2 (P2 K)) (conj (sg1 _ _ Q3 (P3 K)) (sg1 _ _ Q4 (P4 K))))).
      * exact (conj (sg2 _ _ Q1 (M1 K)) (conj (sg2 _ _ Q2 (M2 K)) (conj (sg2 _ _ Q3 (M3 K)) (sg2 _ _ Q4 (M4 K))))).
    + replace ((IZR i * lin4 (qm11 k) (qm12 k) (qm21 k) (qm22 k) x u w + lin4 r11 r12 r21 r22 x u w) / lin4 (qm11 k) (qm12 k) (qm21 k) (qm22 k) x u w)%R
        with ((IZR i * lin4 (- qm11 k) (- qm12 k) (- qm21 k) (- qm22 k) x u w + lin4 (- r11) (- r12) (- r21) (- r22) x u w) / lin4 (- qm11 k) (- qm12 k) (- qm21 k) (- qm22 k) x u w)%R.
      2:{ rewrite !lin4_opp. field; lra. }
      rewrite (Z.abs_neq (qm11 k)) in B1 by lia. rewrite (Z.abs_neq (qm12 k)) in B2 by lia. rewrite (Z.abs_neq (qm21 k)) in B3 by lia. rewrite (Z.abs_neq (qm22 k)) in B4 by lia.
      apply trunc4; rewrite ?Z.abs_opp; [exact Hx|exact Hu|exact Hw|exact (conj Q1 (conj Q2 (conj Q3 Q4)))|exact B1|exact B2|exact B3|exact B4| |]; intros K.
      * exact (conj (sg3 _ _ Q1 (P1 K)) (conj (sg3 _ _ Q2 (P2 K)) (conj (sg3 _ _ Q3 (P3 K)) (sg3 _ _ Q4 (P4 K))))).
      * exact (conj (sg4 _ _ Q1 (M1 K)) (conj (sg4 _ _ Q2 (M2 K)) (conj (sg4 _ _ Q3 (M3 K)) (sg4 _ _ Q4 (M4 K))))).
  - intros Ny. split; [right; auto|]. unfold dnum, dden in *. cbn [pm11 pm12 pm21 pm22 qm11 qm12 qm21 qm22]. rewrite <- Er.
    assert (y - IZR i <> 0)%R by lra. split; [apply Rmult_integral_contrapositive; auto|]. field. auto.
  - intros Ey. split; [auto|]. unfold dden in *. cbn [pm11 pm12 pm21 pm22 qm11 qm12 qm21 qm22]. rewrite <- Er, Ey. ring.
Qed.

Lemma demit_dead t k i r11 r12 r21 r22 x u w : (0 < x)%R -> (0 < u)%R -> (0 <= w)%R ->
  dblock_check_integer t k = Ok (inl (i, (r11, r12, r21, r22))) -> ddead k x u w -> False.
Proof.
  intros Hx Hu Hw C (G & D). destruct (emit_sign _ _ _ _ _ _ _ C (or_intror G)) as [S1|S1].
  - pose proof (lin4_pos _ _ _ _ x u w S1 Hx Hu Hw). unfold dden in D. lra.
  - pose proof (lin4_pos _ _ _ _ x u w S1 Hx Hu Hw) as K. rewrite lin4_opp in K. unfold dden in D. lra.
Qed.

(** ** Reading y *)
Lemma down_inv t k v k' : dblock_rmove_down t k v = Ok k' ->
  k' = DBlock (v * pm11 k + pm12 k) (pm11 k) (v * pm21 k + pm22 k) (pm21 k) (v * qm11 k + qm12 k) (qm11 k) (v * qm21 k + qm22 k) (qm21 k).
Proof. unfold dblock_rmove_down. intros H. peel H. inversion H; subst k'. reflexivity. Qed.

Lemma down_lin v a b c d x u w u' w' s : (s * u = IZR v * u' + w')%R -> (s * w = u')%R ->
  lin4 (v * a + b) a (v * c + d) c x u' w' = (s * lin4 a b c d x u w)%R.
Proof.
  intros U W. unfold lin4. replace (s * (IZR a * (x * u) + IZR b * (x * w) + IZR c * u + IZR d * w))%R
    with (IZR a * x * (s * u) + IZR b * x * (s * w) + IZR c * (s * u) + IZR d * (s * w))%R by ring.
  rewrite U, W, !plus_IZR, !mult_IZR. ring.
Qed.

Lemma abs_down v p p' q q' : 0 <= v -> 0 < p -> 0 < p' -> Z.abs q <= p -> Z.abs q' <= p' -> Z.abs (v * q + q') <= v * p + p'.
Proof.
  intros. pose proof (Z.abs_triangle (v * q) q') as T. rewrite Z.abs_mul, (Z.abs_eq v) in T by lia.
  pose proof (Z.mul_le_mono_nonneg_l _ _ v H H2). lia.
Qed.

Lemma down_good2 v k : 0 <= v -> dgood2 k ->
  dgood2 (DBlock (v * pm11 k + pm12 k) (pm11 k) (v * pm21 k + pm22 k) (pm21 k) (v * qm11 k + qm12 k) (qm11 k) (v * qm21 k + qm22 k) (qm21 k)).
Proof.
  intros Hv ([(P1 & P2 & P3 & P4)|(P1 & P2 & P3 & P4)] & B1 & B2 & B3 & B4); unfold dgood2; cbn [pm11 pm12 pm21 pm22 qm11 qm12 qm21 qm22].
  - rewrite (Z.abs_eq (pm11 k)), (Z.abs_eq (pm12 k)), (Z.abs_eq (pm21 k)), (Z.abs_eq (pm22 k)) in * by lia.
    pose proof (abs_down v _ _ _ _ Hv P1 P2 B1 B2). pose proof (abs_down v _ _ _ _ Hv P3 P4 B3 B4).
    assert (0 <= v * pm11 k) by nia. assert (0 <= v * pm21 k) by nia.
    split; [left; unfold pos4; lia|]. rewrite (Z.abs_eq (v * pm11 k + pm12 k)), (Z.abs_eq (v * pm21 k + pm22 k)) by lia. auto.
  - rewrite (Z.abs_neq (pm11 k)), (Z.abs_neq (pm12 k)), (Z.abs_neq (pm21 k)), (Z.abs_neq (pm22 k)) in * by lia.
    pose proof (abs_down v _ _ _ _ Hv P1 P2 B1 B2). pose proof (abs_down v _ _ _ _ Hv P3 P4 B3 B4).
    assert (0 <= v * - pm11 k) by nia. assert (0 <= v * - pm21 k) by nia.
    split; [right; unfold pos4; lia|]. rewrite (Z.abs_neq (v * pm11 k + pm12 k)), (Z.abs_neq (v * pm21 k + pm22 k)) by lia. lia.
Qed.

Lemma down_same v k : 0 <= v -> dsame k ->
  dsame (DBlock (v * pm11 k + pm12 k) (pm11 k) (v * pm21 k + pm22 k) (pm21 k) (v * qm11 k + qm12 k) (qm11 k) (v * qm21 k + qm22 k) (qm21 k)).
Proof.
  intros Hv [(P1 & P2 & P3 & P4)|(P1 & P2 & P3 & P4)]; unfold dsame; cbn [pm11 pm12 pm21 pm22 qm11 qm12 qm21 qm22]; [left|right]; unfold nonneg4; repeat split; nia.
Qed.

Section Bi.
Context (t : ity) {X Y : Type} (ynext : Y -> res (option Z * Y)) (pk : panic_kind).
Let stopx (x : X) : res (option Z * X) := Panic pk.
Context (x : R) (Hx : (0 < x)%R).

Definition dlive (k : dblock) (it : Y) (y : R) : Prop := exists u w, stail ynext 1 it u w /\ dalive k x u w y.
Definition dover (k : dblock) (it : Y) : Prop := exists u w, stail ynext 1 it u w /\ ddead k x u w.

Let tp := stail_pos ynext 1 (or_introl eq_refl).
Let tn := stail_next ynext 1 (or_introl eq_refl).

Lemma dlive_down k it y v it' k' : dlive k it y -> ynext it = Ok (Some v, it') -> dblock_rmove_down t k v = Ok k' -> dlive k' it' y.
Proof.
  intros (u & w & T & (G & D & E)) N M. destruct (tn _ _ _ _ _ T N) as (Hb & u' & w' & s & T' & Hs & U & W). rewrite Z.mul_1_l in Hb, U.
  apply down_inv in M. subst k'. exists u', w'. split; [auto|]. split.
  - destruct G as [G|G]; [left; apply down_same; auto|right; apply down_good2; auto].
  - unfold dnum, dden in *. cbn [pm11 pm12 pm21 pm22 qm11 qm12 qm21 qm22]. rewrite !(down_lin v _ _ _ _ x u w u' w' s U W).
    split; [apply Rmult_integral_contrapositive; split; [lra|auto]|]. rewrite E. field. split; [auto|lra].
Qed.

Lemma dover_down k it v it' k' : dover k it -> ynext it = Ok (Some v, it') -> dblock_rmove_down t k v = Ok k' -> dover k' it'.
Proof.
  intros (u & w & T & (G & D)) N M. destruct (tn _ _ _ _ _ T N) as (Hb & u' & w' & s & T' & Hs & U & W). rewrite Z.mul_1_l in Hb, U.
  apply down_inv in M. subst k'. exists u', w'. split; [auto|]. split; [apply down_good2; auto|].
  unfold dden in *. cbn [pm11 pm12 pm21 pm22 qm11 qm12 qm21 qm22]. rewrite (down_lin v _ _ _ _ x u w u' w' s U W), D. ring.
Qed.

Lemma bihomo_step fuel k xi it v s' : bihomo_next t stopx ynext fuel (k, xi, it) = Ok (Some v, s') ->
  exists f, fuel = S f /\
  ((exists r11 r12 r21 r22, dblock_check_integer t k = Ok (inl (v, (r11, r12, r21, r22))) /\
      s' = (DBlock (qm11 k) (qm12 k) (qm21 k) (qm22 k) r11 r12 r21 r22, xi, it)) \/
   (exists c it' k', ynext it = Ok (Some c, it') /\ dblock_rmove_down t k c = Ok k' /\ bihomo_next t stopx ynext f (k', xi, it') = Ok (Some v, s')) \/
   bihomo_next t stopx ynext f (k, xi, it) = Ok (Some v, s')).
Proof.
  destruct fuel as [|f]; [discriminate|]. intros H. exists f. split; [auto|]. cbn [bihomo_next] in H. unfold dblock_reduce_recip in H.
  destruct (dblock_check_integer t k) as [[[i [[[r11 r12] r21] r22]]|[mr md]]| |] eqn:C; cbn [bind] in H; try discriminate.
  - left. inversion H; subst. eauto 10.
  - right. destruct mr; cbn [bind stopx] in H; [discriminate|]. destruct md; cbn [bind] in H; [|right; exact H].
    left. destruct (ynext it) as [[[c|] it']| |]; cbn [bind] in H; try discriminate.
    destruct (dblock_rmove_down t k c) as [k'| |] eqn:M; cbn [bind] in H; try discriminate. eauto 10.
Qed.

Lemma bihomo_dlive fuel : forall k xi it y v k' xi' it', dlive k it y -> bihomo_next t stopx ynext fuel (k, xi, it) = Ok (Some v, (k', xi', it')) ->
  istrunc y v /\ (y <> IZR v -> dlive k' it' (/ (y - IZR v))) /\ (y = IZR v -> dover k' it').
Proof.
  induction fuel as [|fuel IH]; intros k xi it y v k' xi' it' L H; destruct (bihomo_step _ _ _ _ _ _ H) as (f & E & K); [discriminate|]. inversion E; subst f.
  destruct K as [(r11 & r12 & r21 & r22 & C & Es)|[(c & it1 & k1 & N & M & H1)|H1]].
  - inversion Es; subst. destruct L as (u & w & T & A). destruct (tp _ _ _ T) as [Hu Hw]. destruct (demit _ _ _ _ _ _ _ _ _ _ _ Hx Hu Hw C A) as (Tr & K1 & K2).
    split; [auto|]. split; intros; exists u, w; auto.
  - eapply IH; [|exact H1]. eapply dlive_down; eauto.
  - eapply IH; [|exact H1]. auto.
Qed.

Lemma bihomo_dover fuel : forall k xi it v s', dover k it -> bihomo_next t stopx ynext fuel (k, xi, it) = Ok (Some v, s') -> False.
Proof.
  induction fuel as [|fuel IH]; intros k xi it v s' L H; destruct (bihomo_step _ _ _ _ _ _ H) as (f & E & K); [discriminate|]. inversion E; subst f.
  destruct K as [(r11 & r12 & r21 & r22 & C & Es)|[(c & it1 & k1 & N & M & H1)|H1]].
  - destruct L as (u & w & T & A). destruct (tp _ _ _ T) as [Hu Hw]. exact (demit_dead _ _ _ _ _ _ _ _ _ _ Hx Hu Hw C A).
  - eapply IH; [|exact H1]. eapply dover_down; eauto.
  - eapply IH; [|exact H1]. auto.
Qed.

Lemma bihomo_nth fuel n : forall k xi it y v, dlive k it y -> nth_item (bihomo_next t stopx ynext fuel) n (k, xi, it) = Ok (Some v) -> cf_digit y n v.
Proof.
  induction n as [|n IH]; intros k xi it y v L H; destruct (nth_item_cases _ _ _ _ H) as (i & ((k1, xi1), it1) & N); destruct (bihomo_dlive _ _ _ _ _ _ _ _ _ L N) as (T & K1 & K2).
  - apply nth_head in H. destruct H as (s & H). rewrite N in H. assert (i = v) by congruence. subst i. exact T.
  - rewrite (nth_item_S _ _ _ _ _ N) in H. exists i. split; [auto|].
    assert (Ny : y <> IZR i). { intros E. specialize (K2 E). destruct (nth_item_cases _ _ _ _ H) as (j & s & N2). eapply bihomo_dover; eauto. }
    split; [auto|]. eapply IH; eauto.
Qed.

(** Any other x source gives the same *)
Lemma bihomo_any fuel (xnext : X -> res (option Z * X)) : forall s v s', bihomo_next t stopx ynext fuel s = Ok (Some v, s') -> bihomo_next t xnext ynext fuel s = Ok (Some v, s').
Proof.
  induction fuel as [|fuel IH]; intros [[k xi] it] v s' H; [discriminate|]. cbn [bihomo_next] in *.
  destruct (dblock_reduce_recip t k) as [[[i|[mr md]] k1]| |]; cbn [bind] in *; try discriminate; auto.
  destruct mr; cbn [bind] in *; [discriminate|]. destruct md; cbn [bind] in *; [|apply IH; auto].
  destruct (ynext it) as [[[c|] it']| |]; cbn [bind] in *; try discriminate.
  destruct (dblock_rmove_down t k1 c) as [k'| |] eqn:M; cbn [bind] in *; try discriminate. apply IH; auto.
Qed.

Lemma bihomo_any_nth fuel n (xnext : X -> res (option Z * X)) : forall s v, nth_item (bihomo_next t stopx ynext fuel) n s = Ok (Some v) -> nth_item (bihomo_next t xnext ynext fuel) n s = Ok (Some v).
Proof.
  induction n as [|n IH]; intros s v H; destruct (nth_item_cases _ _ _ _ H) as (i & s1 & N); pose proof (bihomo_any fuel xnext _ _ _ N) as N'.
  - apply nth_head in H. destruct H as (s2 & H). rewrite N in H. rewrite nth_item_0, N'. cbn [bind fst]. congruence.
  - rewrite (nth_item_S _ _ _ _ _ N) in H. rewrite (nth_item_S _ _ _ _ _ N'). auto.
Qed.
End Bi.
