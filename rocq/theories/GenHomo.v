(** * GenHomo: the digits of an irrational number converge to it, and homo() always spells its number (C41, C42).

    Also where homo() does not give the usual coefficients, the fraction it spells converges to the right number,
    and from some item on it is the usual expansion of a complete quotient. *)

From Coq Require Import ZArith Reals Lia Lra Psatz Bool List Wf_nat.
From Coquelicot Require Import Coquelicot.
From Verif Require Import Base Ext ModelBlock ModelGen Spec SpecGen NumFacts SurdOrd SurdRound GenBlock GenSound GenConv GenTail GenLive GenMisc.
Import ListNotations.
Open Scope Z_scope.

(** ** The digits of an irrational number *)
Definition Rtrunc (y : R) : Z := if Rle_dec 0 y then Int_part y else - Int_part (- y).

Lemma Rtrunc_spec y : istrunc y (Rtrunc y).
Proof.
  unfold Rtrunc, istrunc. destruct (Rle_dec 0 y) as [P|P].
  - destruct (base_Int_part y) as [A B]. split; intros; [lra|].
    assert (y = 0%R) by lra. subst y. assert (Int_part 0 = 0); [|rewrite H0; lra].
    assert (- 1 < Int_part 0) by (apply lt_IZR; lra). assert (Int_part 0 <= 0) by (apply le_IZR; lra). lia.
  - destruct (base_Int_part (- y)) as [A B]. rewrite opp_IZR. split; intros; lra.
Qed.

Fixpoint quotient (y : R) (n : nat) : R :=
  match n with
  | O => y
  | S n => quotient (/ (y - IZR (Rtrunc y))) n
  end.
Definition digit (y : R) (n : nat) : Z := Rtrunc (quotient y n).

Lemma digit_spec n : forall y, irrational y -> cf_digit y n (digit y n).
Proof.
  induction n as [|n IH]; intros y Iy; [apply Rtrunc_spec|].
  exists (Rtrunc y). split; [apply Rtrunc_spec|]. split; [apply irr_int; auto|]. apply (IH (/ (y - IZR (Rtrunc y)))). apply irr_recip; auto.
Qed.

(** Complete quotients *)
Lemma trunc_frac y v : istrunc y v -> irrational y -> (Rabs (y - IZR v) < 1)%R /\ (y - IZR v <> 0)%R /\ (0 <= (y - IZR v) * IZR v)%R /\ (0 < (y - IZR v) * y)%R.
Proof.
  intros [A B] Iy. pose proof (irr_int y v Iy) as N. destruct (Rle_or_lt 0 y) as [P|P].
  - specialize (A P). assert (Hv : 0 <= v) by (assert (- 1 < v); [apply lt_IZR; lra|lia]). apply IZR_le in Hv.
    split; [rewrite Rabs_pos_eq; lra|]. split; [lra|]. split; [apply Rmult_le_pos; lra|apply Rmult_lt_0_compat; lra].
  - specialize (B ltac:(lra)). assert (Hv : v <= 0) by (assert (v < 1); [apply lt_IZR; lra|lia]). apply IZR_le in Hv.
    split; [rewrite Rabs_left1; lra|]. split; [lra|]. 
    split; [replace ((y - IZR v) * IZR v)%R with ((IZR v - y) * - IZR v)%R by ring; apply Rmult_le_pos; lra|
            replace ((y - IZR v) * y)%R with ((IZR v - y) * - y)%R by ring; apply Rmult_lt_0_compat; lra].
Qed.

Lemma trunc_big y v : istrunc y v -> (1 < Rabs y)%R -> (1 <= Rabs (IZR v))%R.
Proof.
  intros [A B] H. destruct (Rle_or_lt 0 y) as [P|P].
  - specialize (A P). rewrite Rabs_pos_eq in H by lra. assert (Hv : 1 <= v) by (assert (0 < v); [apply lt_IZR; lra|lia]). apply IZR_le in Hv. rewrite Rabs_pos_eq; lra.
  - specialize (B ltac:(lra)). rewrite Rabs_left in H by lra. assert (Hv : v <= -1) by (assert (v < 0); [apply lt_IZR; lra|lia]). apply IZR_le in Hv. rewrite Rabs_left1; lra.
Qed.

Lemma two_steps y v : istrunc y v -> irrational y -> (1 < Rabs y)%R -> (2 <= Rabs (y * / (y - IZR v)))%R.
Proof.
  intros T Iy H. destruct (trunc_frac y v T Iy) as (F & N & S & _). pose proof (trunc_big y v T H) as V.
  set (d := (y - IZR v)%R) in *. replace y with (IZR v + d)%R by (unfold d; ring).
  replace ((IZR v + d) * / d)%R with (1 + IZR v * / d)%R by (field; auto).
  assert (Pd : (0 < Rabs d)%R) by (apply Rabs_pos_lt; auto).
  assert (Q : (1 <= Rabs (IZR v * / d))%R).
  { rewrite Rabs_mult, Rabs_inv. apply (Rmult_le_reg_r (Rabs d)); [auto|]. rewrite Rmult_assoc, Rinv_l by lra. lra. }
  assert (Nn : (0 <= IZR v * / d)%R).
  { replace (IZR v * / d)%R with ((d * IZR v) * (/ d * / d))%R by (field; auto). apply Rmult_le_pos; [auto|]. assert (0 < / d * / d)%R; [|lra].
    replace (/ d * / d)%R with (Rsqr (/ d)) by reflexivity. apply Rsqr_pos_lt. apply Rinv_neq_0_compat. auto. }
  rewrite Rabs_pos_eq in Q by auto. rewrite Rabs_pos_eq; lra.
Qed.

Lemma same_digits_close n : forall x y f, irrational x -> irrational y -> (forall m, cf_digit x m (f m)) -> (forall m, cf_digit y m (f m)) -> (Rabs (x - y) * 4 ^ n <= 2)%R.
Proof.
  induction n as [|n IH]; intros x y f Ix Iy Dx Dy.
  - destruct (trunc_frac x (f O) (Dx O) Ix) as (Fx & _). destruct (trunc_frac y (f O) (Dy O) Iy) as (Fy & _). cbn [pow]. rewrite Rmult_1_r.
    replace (x - y)%R with ((x - IZR (f O)) - (y - IZR (f O)))%R by ring. eapply Rle_trans; [apply Rabs_triang|]. rewrite Rabs_Ropp. lra.
  - assert (Step : forall x f, irrational x -> (forall m, cf_digit x m (f m)) -> exists x', (x' = / (x - IZR (f O)))%R /\ irrational x' /\ (1 < Rabs x')%R /\ (x = IZR (f O) + / x')%R /\ (x' <> 0)%R /\ forall m, cf_digit x' m (f (S m))).
    { clear. intros x f Ix Dx. exists (/ (x - IZR (f O)))%R. destruct (trunc_frac x (f O) (Dx O) Ix) as (F & N & _).
      split; [reflexivity|]. split; [apply irr_recip; auto|]. split.
      { rewrite Rabs_inv. rewrite <- Rinv_1 at 1. apply Rinv_lt_contravar; [|auto]. rewrite Rmult_1_r. apply Rabs_pos_lt; auto. }
      split; [field; auto|]. split; [apply Rinv_neq_0_compat; auto|]. intros m. destruct (Dx (S m)) as (a & Ta & _ & K). assert (a = f O) by (eapply istrunc_unique; [exact Ta|apply (Dx O)]). subst a. exact K. }
    destruct (Step x f Ix Dx) as (x1 & _ & Ix1 & Bx1 & Ex & Nx1 & Dx1). destruct (Step y f Iy Dy) as (y1 & _ & Iy1 & By1 & Ey & Ny1 & Dy1).
    destruct (Step x1 _ Ix1 Dx1) as (x2 & X2 & Ix2 & Bx2 & Ex1 & Nx2 & Dx2). destruct (Step y1 _ Iy1 Dy1) as (y2 & Y2 & Iy2 & By2 & Ey1 & Ny2 & Dy2).
    pose proof (two_steps x1 _ (Dx1 O) Ix1 Bx1) as Tx. rewrite <- X2 in Tx. pose proof (two_steps y1 _ (Dy1 O) Iy1 By1) as Ty. rewrite <- Y2 in Ty.
    specialize (IH x2 y2 (fun m => f (S (S m))) Ix2 Iy2 Dx2 Dy2).
    assert (E1 : (x - y = (y1 - x1) / (x1 * y1))%R) by (rewrite Ex, Ey; field; auto).
    assert (E2 : (y1 - x1 = (x2 - y2) / (x2 * y2))%R) by (rewrite Ex1, Ey1; field; auto).
    assert (E : ((x - y) * ((x1 * x2) * (y1 * y2)) = x2 - y2)%R) by (rewrite E1, E2; field; auto).
    apply (f_equal Rabs) in E. rewrite !Rabs_mult, <- (Rabs_mult x1), <- (Rabs_mult y1) in E.
    assert (F : (4 <= Rabs (x1 * x2) * Rabs (y1 * y2))%R) by nra.
    pose proof (Rabs_pos (x - y)) as P. pose proof (pow_le 4 n ltac:(lra)) as P4. cbn [pow].
    replace (Rabs (x - y) * (4 * 4 ^ n))%R with ((Rabs (x - y) * 4) * 4 ^ n)%R by ring.
    assert (K : (Rabs (x - y) * 4 <= Rabs (x2 - y2))%R) by (rewrite <- E; apply Rmult_le_compat_l; auto).
    pose proof (Rmult_le_compat_r (4 ^ n) _ _ P4 K). lra.
Qed.

Lemma pow4_ge n : (INR n <= 4 ^ n)%R.
Proof. induction n as [|n IH]; [cbn; lra|]. rewrite S_INR. cbn [pow]. pose proof (pow_R1_Rle 4 n ltac:(lra)). lra. Qed.

Lemma digits_determine x y f : irrational x -> irrational y -> (forall m, cf_digit x m (f m)) -> (forall m, cf_digit y m (f m)) -> x = y.
Proof.
  intros Ix Iy Dx Dy. destruct (Req_dec x y) as [|N]; [auto|]. exfalso.
  assert (P : (0 < Rabs (x - y))%R) by (apply Rabs_pos_lt; lra).
  destruct (archimed (2 / Rabs (x - y))) as [A _]. set (M := up (2 / Rabs (x - y))) in *.
  assert (H2 : (0 < 2 / Rabs (x - y))%R) by (apply Rdiv_lt_0_compat; lra). assert (HM : 0 <= M) by (apply le_IZR; lra).
  pose proof (same_digits_close (Z.to_nat M) x y f Ix Iy Dx Dy) as C. pose proof (pow4_ge (Z.to_nat M)) as G. rewrite INR_IZR_INZ, Z2Nat.id in G by auto.
  assert (K : (Rabs (x - y) * (2 / Rabs (x - y)) = 2)%R) by (field; lra).
  assert (L : (Rabs (x - y) * (2 / Rabs (x - y)) < Rabs (x - y) * 4 ^ Z.to_nat M)%R) by (apply Rmult_lt_compat_l; lra). lra.
Qed.

Lemma digit_sign y e n : irrational y -> e = 1 \/ e = -1 -> (0 < IZR e * y)%R -> (0 < IZR e * quotient y n)%R /\ 0 <= e * digit y n /\ ((1 <= n)%nat -> 1 <= e * digit y n).
Proof.
  assert (Tr : forall e y, irrational y -> e = 1 \/ e = -1 -> (0 < IZR e * y)%R -> 0 <= e * Rtrunc y /\ ((1 < Rabs y)%R -> 1 <= e * Rtrunc y)).
  { clear. intros e y Iy He P. destruct (Rtrunc_spec y) as [A B]. set (v := Rtrunc y) in *. destruct He as [->| ->].
    - rewrite Rmult_1_l in P. specialize (A ltac:(lra)). split; [assert (- 1 < v); [apply lt_IZR; lra|lia]|]. intros H. rewrite Rabs_pos_eq in H by lra. assert (0 < v); [apply lt_IZR; lra|lia].
    - specialize (B ltac:(lra)). split; [assert (v < 1); [apply lt_IZR; lra|lia]|]. intros H. rewrite Rabs_left in H by lra. assert (v < 0); [apply lt_IZR; lra|lia]. }
  assert (Gen : forall n y, irrational y -> (0 < IZR e * y)%R -> e = 1 \/ e = -1 -> (0 < IZR e * quotient y n)%R /\ irrational (quotient y n) /\ ((1 <= n)%nat -> (1 < Rabs (quotient y n))%R)).
  { clear - Tr. intros n. induction n as [|n IH]; intros y Iy P He; cbn [quotient]; [split; [auto|]; split; [auto|lia]|].
    destruct (trunc_frac y _ (Rtrunc_spec y) Iy) as (F & N & _ & S). set (d := (y - IZR (Rtrunc y))%R) in *.
    assert (Ny : y <> 0%R) by apply (irr_int y 0 Iy).
    assert (P' : (0 < IZR e * / d)%R).
    { replace (IZR e * / d)%R with ((IZR e * y) * ((d * y) * (/ d * / d * / y * / y)))%R by (field; auto).
      apply Rmult_lt_0_compat; [auto|]. apply Rmult_lt_0_compat; [auto|]. replace (/ d * / d * / y * / y)%R with (Rsqr (/ d * / y)) by (unfold Rsqr; ring).
      apply Rsqr_pos_lt. apply Rmult_integral_contrapositive. split; apply Rinv_neq_0_compat; auto. }
    assert (I' : irrational (/ d)) by (apply irr_recip; auto).
    destruct (IH (/ d)%R I' P' He) as (A & B & C). split; [auto|]. split; [auto|]. intros _. destruct n as [|n]; [|apply C; lia]. cbn [quotient].
    rewrite Rabs_inv. rewrite <- Rinv_1 at 1. apply Rinv_lt_contravar; [|auto]. rewrite Rmult_1_r. apply Rabs_pos_lt; auto. }
  intros Iy He P. destruct (Gen n y Iy P He) as (A & B & C). destruct (Tr e _ B He A) as (D & E0). split; [auto|]. split; [exact D|]. intros Hn. apply E0, C, Hn.
Qed.

Lemma digits_converge y : irrational y -> cconverges (digit y) y.
Proof.
  intros Iy. assert (S : exists e, (e = 1 \/ e = -1) /\ (0 < IZR e * y)%R).
  { destruct (Rle_or_lt 0 y) as [P|P]; [exists 1|exists (-1)]; split; auto; [|lra]. pose proof (irr_int y 0 Iy). lra. }
  destruct S as (e & He & P).
  assert (Sg : csigned e (digit y)) by (split; [apply (digit_sign y e 0 Iy He P)|intros n Hn; apply (digit_sign y e n Iy He P); auto]).
  destruct (signed_converges e (digit y) He (proj2 Sg)) as (x & C & Ix).
  assert (E : x = y).
  { apply (digits_determine x y (digit y)); auto; intros m; [apply (signed_digit e m He (digit y) x Sg C)|apply digit_spec; auto]. }
  rewrite E in C. exact C.
Qed.

Lemma digits_converge_any y f : irrational y -> (forall n, cf_digit y n (f n)) -> cconverges f y.
Proof.
  intros Iy D. apply (is_lim_seq_ext (fun n => gval (prefix (fun n => (1, digit y n)) (S n)))); [|apply (digits_converge y Iy)].
  intros n. f_equal. unfold prefix. apply map_ext. intros m. f_equal. eapply cf_digit_unique; [apply digit_spec; auto|apply D].
Qed.

(** ** Rows of the block *)
Lemma read_row e q1 q2 v : e = 1 \/ e = -1 -> 1 <= e * v -> e * q1 * q2 < 0 ->
  0 <= e * (q1 * v + q2) * q1 \/ (e * (q1 * v + q2) * q1 < 0 /\ Z.abs (q1 * v + q2) + Z.abs q1 < Z.abs q1 + Z.abs q2).
Proof.
  intros He Hv Hq. destruct (Z.le_gt_cases 0 (e * (q1 * v + q2) * q1)) as [L|L]; [auto|right]. split; [auto|].
  assert (Hw : exists w, 1 <= w /\ v = e * w) by (exists (e * v); split; [auto|]; destruct He as [->| ->]; ring).
  destruct Hw as (w & Hw & ->). clear Hv.
  assert (N : q1 <> 0) by nia. destruct He as [->| ->].
  - rewrite !Z.mul_1_l in *. destruct (Z.lt_ge_cases q1 0) as [S|S].
    + assert (0 < q2) by nia. assert (0 < q1 * w + q2) by nia. assert (q1 * w <= q1) by nia. lia.
    + assert (0 < q1) by lia. assert (q2 < 0) by nia. assert (q1 * w + q2 < 0) by nia. assert (q1 <= q1 * w) by nia. lia.
  - replace (q1 * (-1 * w) + q2) with (q2 - q1 * w) in * by ring. destruct (Z.lt_ge_cases q1 0) as [S|S].
    + assert (q2 < 0) by nia. assert (q2 - q1 * w < 0) by nia. assert (q1 * w <= q1) by nia. lia.
    + assert (0 < q1) by lia. assert (0 < q2) by nia. assert (0 < q2 - q1 * w) by nia. assert (q1 <= q1 * w) by nia. lia.
Qed.

Lemma read_same e q1 q2 v : 1 <= e * v -> 0 <= e * q1 * q2 -> 0 <= e * (q1 * v + q2) * q1.
Proof. intros Hv H. replace (e * (q1 * v + q2) * q1) with ((e * v) * (q1 * q1) + e * q1 * q2) by ring. nia. Qed.

Lemma rem_small p q : q <> 0 -> Z.quot p q <> 0 -> Z.abs (Z.rem p q) <= Z.abs p - Z.abs q.
Proof.
  intros Hq Hi. rewrite <- Z.rem_abs by auto. assert (Ha : Z.abs q <> 0) by lia. pose proof (Z.quot_rem' (Z.abs p) (Z.abs q)) as E.
  rewrite Z.quot_abs in E by auto. assert (1 <= Z.abs (Z.quot p q)) by lia. nia.
Qed.

Lemma quot_sign p q : q <> 0 -> Z.quot p q <> 0 -> 0 < p * q * Z.quot p q.
Proof.
  intros Hq Hi. destruct (quot_facts p q Hq) as (E & B & S & P1 & P2). cbv zeta in *. set (i := Z.quot p q) in *. set (r := Z.rem p q) in *. clearbody i r. 
  replace (p * q * i) with (q * q * (i * i) + (r * q) * i) by (rewrite E; ring). assert (0 < q * q * (i * i)) by nia.
  destruct (Z.lt_trichotomy i 0) as [K|[K|K]]; [specialize (P2 K)|contradiction|specialize (P1 K)]; assert (0 <= (r * q) * i) by nia; lia.
Qed.

(** ** homo() *)
Section Homo.
Context {I : Type} (inext : I -> res (option Z * I)) (e : Z) (He : e = 1 \/ e = -1).

Definition gives (s : block * I) (h : nat -> Z) : Prop :=
  forall n, exists fuel, forall fuel', (fuel <= fuel')%nat -> nth_item (homo_next BigI inext fuel') n s = Ok (Some (h n)).
Definition settles (h : nat -> Z) : Prop := exists m z, irrational z /\ forall n, cf_digit z n (h (m + n)%nat).
Definition fine (s : block * I) (y : R) : Prop := exists h, gives s h /\ cconverges h y /\ settles h.

Definition scons (v : Z) (h : nat -> Z) (n : nat) : Z := match n with O => v | S n => h n end.

Lemma fine_emit k it i r1 r2 y : block_check_integer BigI k = Ok (Some (i, r1, r2)) -> irrational y ->
  fine (Block (qm1 k) (qm2 k) r1 r2, it) (/ (y - IZR i)) -> fine (k, it) y.
Proof.
  intros C Iy (h & G & Cv & (m & z & Iz & D)). exists (scons i h).
  assert (E : forall fuel, homo_next BigI inext (S fuel) (k, it) = Ok (Some i, (Block (qm1 k) (qm2 k) r1 r2, it))) by (intros fuel; cbn [homo_next]; unfold block_reduce_recip; rewrite C; reflexivity).
  split; [|split].
  - intros [|n].
    + exists 1%nat. intros [|F] HF; [lia|]. rewrite nth_item_0, E. reflexivity.
    + destruct (G n) as (F & HF). exists (S F). intros [|F'] L; [lia|]. rewrite (nth_item_S _ n _ i _ (E F')). cbn [scons]. apply HF. lia.
  - assert (N : (y - IZR i <> 0)%R) by (pose proof (irr_int y i Iy); lra).
    unfold cconverges, gconverges. apply is_lim_seq_incr_1.
    apply (is_lim_seq_ext (fun n => (IZR i + / gval (prefix (fun n => (1%Z, h n)) (S n)))%R)).
    + intros n. rewrite gval_SS. cbn [fst snd scons]. change (shift (fun n => (1, scons i h n))) with (fun n => (1, h n)). unfold Rdiv. rewrite Rmult_1_l. reflexivity.
    + replace (Finite y) with (Finite (IZR i + / / (y - IZR i))%R) by (f_equal; field; auto).
      apply (is_lim_seq_plus _ _ (IZR i) (/ / (y - IZR i))%R); [apply is_lim_seq_const| |reflexivity].
      apply (is_lim_seq_inv _ (/ (y - IZR i))%R); [exact Cv|]. intros K. inversion K. apply (Rinv_neq_0_compat _ N). auto.
  - exists (S m), z. split; [auto|]. intros n. exact (D n).
Qed.

Lemma fine_read k it v it' k' y : block_check_integer BigI k = Ok None -> inext it = Ok (Some v, it') -> block_rmove BigI k v = Ok k' ->
  fine (k', it') y -> fine (k, it) y.
Proof.
  intros C N M (h & G & H). exists h. split; [|exact H]. clear H.
  assert (E : forall fuel, homo_next BigI inext (S fuel) (k, it) = homo_next BigI inext fuel (k', it')) by (intros fuel; cbn [homo_next]; unfold block_reduce_recip; rewrite C; cbn [bind]; rewrite N; cbn [bind]; rewrite M; reflexivity).
  intros n. destruct (G n) as (F & HF). exists (S F). intros [|F'] L; [lia|]. 
  pose proof (HF F' ltac:(lia)) as H1. destruct n as [|n].
  - rewrite nth_item_0, E in *. exact H1.
  - destruct (nth_item_cases _ (S n) _ _ H1) as (x & s' & E1). pose proof (homo_fuel BigI inext F' (S F') _ _ E1 ltac:(lia)) as E2.
    pose proof (HF (S F') ltac:(lia)) as H2. rewrite (nth_item_S _ n _ x s' E2) in H2. rewrite (nth_item_S _ n _ x s'); [exact H2|]. rewrite E. exact E1.
Qed.

(** What is still to come is x, and the block stands for y *)
Definition det (k : block) : Z := pm1 k * qm2 k - pm2 k * qm1 k.
Definition value (k : block) (x : R) : R := ((IZR (pm1 k) * x + IZR (pm2 k)) / (IZR (qm1 k) * x + IZR (qm2 k)))%R.
Definition st (k : block) (it : I) (f : nat -> Z) (x : R) : Prop := yields inext it f /\ cconverges f x /\ irrational x /\ det k <> 0.

Lemma irr_lin x c d : irrational x -> c <> 0 \/ d <> 0 -> (IZR c * x + IZR d <> 0)%R.
Proof.
  intros Ix N K. destruct (Z.eq_dec c 0) as [->|Hc].
  - rewrite Rmult_0_l, Rplus_0_l in K. apply eq_IZR_R0 in K. lia.
  - apply (Ix (- d) c Hc). rewrite opp_IZR. assert (IZR c <> 0%R) by (apply not_0_IZR; auto). field_simplify_eq; auto. lra.
Qed.

Lemma st_den k it f x : st k it f x -> (IZR (qm1 k) * x + IZR (qm2 k) <> 0)%R.
Proof. intros (_ & _ & Ix & D). apply irr_lin; auto. unfold det in D. lia. Qed.

Lemma st_irr k it f x : st k it f x -> irrational (value k x).
Proof. intros (_ & _ & Ix & D). apply irr_mobius; auto. Qed.

Lemma st_emit k it f x i r1 r2 : st k it f x -> block_check_integer BigI k = Ok (Some (i, r1, r2)) ->
  st (Block (qm1 k) (qm2 k) r1 r2) it f x /\ value (Block (qm1 k) (qm2 k) r1 r2) x = (/ (value k x - IZR i))%R.
Proof.
  intros H C. pose proof (st_den _ _ _ _ H) as Dn. destruct H as (Y & Cv & Ix & D). apply check_integer_inv in C. destruct C as (N1 & N2 & I1 & I2 & R1 & R2).
  destruct (quot_facts (pm1 k) (qm1 k) N1) as (E1 & _). destruct (quot_facts (pm2 k) (qm2 k) N2) as (E2 & _). cbv zeta in *. rewrite <- I1, <- R1 in E1. rewrite <- I2, <- R2 in E2.
  assert (D' : det (Block (qm1 k) (qm2 k) r1 r2) <> 0) by (unfold det in *; cbn [pm1 pm2 qm1 qm2]; rewrite E1, E2 in D; intros K; apply D; nia).
  assert (S' : st (Block (qm1 k) (qm2 k) r1 r2) it f x) by (split; [auto|]; split; [auto|]; split; auto). split; [auto|].
  pose proof (st_den _ _ _ _ S') as Dn'. unfold value. cbn [pm1 pm2 qm1 qm2] in *. apply (f_equal IZR) in E1, E2. rewrite plus_IZR, mult_IZR in E1, E2. rewrite E1, E2.
  assert (K : (((IZR (qm1 k) * IZR i + IZR r1) * x + (IZR (qm2 k) * IZR i + IZR r2)) / (IZR (qm1 k) * x + IZR (qm2 k)) - IZR i = (IZR r1 * x + IZR r2) / (IZR (qm1 k) * x + IZR (qm2 k)))%R) by (field; auto).
  rewrite K. field. auto.
Qed.

Definition rmoved (k : block) (v : Z) : block := Block (pm1 k * v + pm2 k) (pm1 k) (qm1 k * v + qm2 k) (qm1 k).
Lemma rmove_eq k v : block_rmove BigI k v = Ok (rmoved k v).
Proof. unfold block_rmove, lift2, mulT, addT, chk, fits. cbn [bind block_update]. unfold rmoved. rewrite ?(Z.mul_comm v). reflexivity. Qed.

Lemma st_read k it f x : (forall n, (1 <= n)%nat -> 1 <= e * f n) -> st k it f x ->
  exists it' x', inext it = Ok (Some (f O), it') /\ st (rmoved k (f O)) it' (shift f) x' /\ value (rmoved k (f O)) x' = value k x.
Proof.
  intros L H. pose proof (st_den _ _ _ _ H) as Dn. destruct H as (Y & Cv & Ix & D). destruct (yields_step inext it f Y) as (it' & E & Y').
  destruct (ctail e f x He L Cv) as (x' & C' & P' & Ex). exists it', x'. split; [auto|].
  assert (N : x' <> 0%R) by (intros ->; rewrite Rmult_0_r in P'; lra).
  assert (Ix' : irrational x') by (replace x' with (/ (x - IZR (f O)))%R by (rewrite Ex; replace (IZR (f O) + / x' - IZR (f O))%R with (/ x')%R by ring; apply Rinv_inv); apply irr_recip; auto).
  assert (S' : st (rmoved k (f O)) it' (shift f) x').
  { split; [auto|]. split; [auto|]. split; [auto|]. unfold det, rmoved in *. cbn [pm1 pm2 qm1 qm2]. intros K. apply D. nia. }
  split; [auto|]. pose proof (st_den _ _ _ _ S') as Dn'. unfold value, rmoved in *. cbn [pm1 pm2 qm1 qm2] in *. rewrite !plus_IZR, !mult_IZR in *. rewrite Ex in *.
  field. repeat match goal with |- _ /\ _ => split end; auto; intros K; apply Dn'; rewrite <- K; ring.
Qed.

Lemma fine_good k it f x : csigned e f -> st k it f x -> 0 <= e * qm1 k * qm2 k -> fine (k, it) (value k x).
Proof.
  intros A H G. pose proof (st_den _ _ _ _ H) as Dn. pose proof (st_irr _ _ _ _ H) as Iy. destruct H as (Y & Cv & Ix & D).
  assert (L : zlive (stail inext e) e k it (value k x)).
  { unfold value. destruct k as [a b c d]. cbn [pm1 pm2 qm1 qm2] in *. eapply GenTail.homo_live; eauto. left. lia. }
  exists (digit (value k x)). split; [|split; [apply digits_converge; auto|exists O, (value k x); split; [auto|intros n; apply digit_spec; auto]]].
  intros n. destruct (nth_live (homo_next BigI inext) (fun s => exists y, zlive (stail inext e) e (fst s) (snd s) y /\ irrational y) (homo_fuel BigI inext) (homo_inv inext e He) n (k, it)) as (F & v & K); [exists (value k x); auto|].
  exists F. intros F' HF. rewrite (K F' HF). do 2 f_equal. eapply cf_digit_unique; [|apply digit_spec; auto].
  eapply (homo_nth BigI inext (stail inext e) e He (stail_pos inext e He) (stail_next inext e He)); [exact L|exact (K F' HF)].
Qed.

Lemma allsigned_c f : (forall n, 1 <= e * f n) -> csigned e f.
Proof. intros L. split; [specialize (L O); lia|auto]. Qed.

(** The upper row has no change of sign, the lower one has *)
Lemma fine_half N : forall k it f x, (Z.to_nat (Z.abs (qm1 k) + Z.abs (qm2 k)) <= N)%nat -> (forall n, 1 <= e * f n) -> st k it f x ->
  0 <= e * pm1 k * pm2 k -> fine (k, it) (value k x).
Proof.
  induction N as [|N IH]; intros k it f x HN L H P; (destruct (Z.le_gt_cases 0 (e * qm1 k * qm2 k)) as [G|G]; [eapply fine_good; eauto; apply allsigned_c; auto|]).
  { exfalso. assert (qm1 k = 0) by lia. rewrite H0 in G. lia. }
  destruct (check_integer_big k) as [(i & r1 & r2 & C)|(C & _)].
  - destruct (st_emit _ _ _ _ _ _ _ H C) as (S' & V'). eapply fine_emit; [exact C|eapply st_irr; eauto|]. rewrite <- V'.
    apply (fine_good _ it f x); [apply allsigned_c; auto|auto|]. cbn [qm1 qm2]. apply check_integer_inv in C. destruct C as (N1 & N2 & I1 & I2 & R1 & R2).
    destruct (Z.eq_dec i 0) as [Z0|Hi].
    + pose proof (Z.quot_rem' (pm1 k) (qm1 k)) as E1. pose proof (Z.quot_rem' (pm2 k) (qm2 k)) as E2. rewrite <- I1, <- R1, Z0 in E1. rewrite <- I2, <- R2, Z0 in E2.
      replace r1 with (pm1 k) by lia. replace r2 with (pm2 k) by lia. exact P.
    + exfalso. assert (H1 : 0 < pm1 k * qm1 k * i) by (rewrite I1; apply quot_sign; auto; rewrite <- I1; auto). assert (H2 : 0 < pm2 k * qm2 k * i) by (rewrite I2; apply quot_sign; auto; rewrite <- I2; auto).
      assert (H3 : 0 < (pm1 k * qm1 k * i) * (pm2 k * qm2 k * i)) by nia. clear - He P G H3.
      replace (pm1 k * qm1 k * i * (pm2 k * qm2 k * i)) with ((i * i) * ((pm1 k * pm2 k) * (qm1 k * qm2 k))) in H3 by ring.
      set (p := pm1 k * pm2 k) in *. set (q := qm1 k * qm2 k) in *. replace (e * pm1 k * pm2 k) with (e * p) in P by (unfold p; ring). replace (e * qm1 k * qm2 k) with (e * q) in G by (unfold q; ring). clearbody p q.
      assert (0 <= i * i) by nia. destruct He as [->| ->]; assert (p * q <= 0) by nia; nia.
  - destruct (st_read k it f x (fun n _ => L n) H) as (it' & x' & E & S' & V'). eapply fine_read; [exact C|exact E|apply rmove_eq|]. rewrite <- V'.
    destruct (read_row e (qm1 k) (qm2 k) (f O) He (L O) G) as [K|(K & D)].
    + apply (fine_good _ it' (shift f) x'); [apply allsigned_c; intros n; apply L|auto|exact K].
    + apply (IH _ it' (shift f) x'); [|intros n; apply L|auto|]; unfold rmoved; cbn [pm1 pm2 qm1 qm2].
      * apply (Nat.le_trans _ (Nat.pred (Z.to_nat (Z.abs (qm1 k) + Z.abs (qm2 k))))); [|lia]. lia.
      * apply read_same; auto.
Qed.

Definition rank (k : block) : Z :=
  2 * (Z.abs (pm1 k) + Z.abs (pm2 k) + (Z.abs (qm1 k) + Z.abs (qm2 k))) + (if Z.abs (pm1 k) + Z.abs (pm2 k) <? Z.abs (qm1 k) + Z.abs (qm2 k) then 1 else 0).

Lemma rank_drop S S' (b : bool) (b' : bool) : S' < S -> 2 * S' + (if b' then 1 else 0) < 2 * S + (if b then 1 else 0).
Proof. destruct b, b'; lia. Qed.

Lemma fine_signed N : forall k it f x, (Z.to_nat (rank k) <= N)%nat -> (forall n, 1 <= e * f n) -> st k it f x -> fine (k, it) (value k x).
Proof.
  induction N as [|N IH]; intros k it f x HN L H;
    (destruct (Z.le_gt_cases 0 (e * pm1 k * pm2 k)) as [P|P]; [eapply fine_half; eauto|]);
    (destruct (Z.le_gt_cases 0 (e * qm1 k * qm2 k)) as [G|G]; [eapply fine_good; eauto; apply allsigned_c; auto|]).
  { exfalso. unfold rank in HN. assert (pm1 k <> 0) by (intros K; rewrite K in P; lia). destruct (_ <? _); lia. }
  assert (Nz : forall a b, e * a * b < 0 -> 0 < Z.abs a + Z.abs b) by (intros a b K; assert (a <> 0) by (intros ->; lia); lia).
  pose proof (Nz _ _ P) as SP. pose proof (Nz _ _ G) as SQ.
  assert (Go : forall k', rank k' < rank k -> (Z.to_nat (rank k') <= N)%nat) by (intros k' K; lia).
  destruct (check_integer_big k) as [(i & r1 & r2 & C)|(C & _)].
  - destruct (st_emit _ _ _ _ _ _ _ H C) as (S' & V'). eapply fine_emit; [exact C|eapply st_irr; eauto|]. rewrite <- V'.
    apply (IH _ it f x); auto. apply Go. apply check_integer_inv in C. destruct C as (N1 & N2 & I1 & I2 & R1 & R2). unfold rank. cbn [pm1 pm2 qm1 qm2].
    destruct (Z.eq_dec i 0) as [Z0|Hi].
    + pose proof (Z.quot_rem' (pm1 k) (qm1 k)) as E1. pose proof (Z.quot_rem' (pm2 k) (qm2 k)) as E2. rewrite <- I1, <- R1, Z0 in E1. rewrite <- I2, <- R2, Z0 in E2.
      pose proof (Z.rem_bound_abs (pm1 k) (qm1 k) N1) as B1. pose proof (Z.rem_bound_abs (pm2 k) (qm2 k) N2) as B2. rewrite <- R1 in B1. rewrite <- R2 in B2.
      replace (pm1 k) with r1 by lia. replace (pm2 k) with r2 by lia. clear - B1 B2.
      destruct (Z.ltb_spec (Z.abs r1 + Z.abs r2) (Z.abs (qm1 k) + Z.abs (qm2 k))); [|lia].
      destruct (Z.ltb_spec (Z.abs (qm1 k) + Z.abs (qm2 k)) (Z.abs r1 + Z.abs r2)); lia.
    + apply rank_drop. pose proof (rem_small (pm1 k) (qm1 k) N1 ltac:(congruence)) as B1. pose proof (rem_small (pm2 k) (qm2 k) N2 ltac:(congruence)) as B2. rewrite <- R1 in B1. rewrite <- R2 in B2. clear - B1 B2 SQ. lia.
  - destruct (st_read k it f x (fun n _ => L n) H) as (it' & x' & E & S' & V'). eapply fine_read; [exact C|exact E|apply rmove_eq|]. rewrite <- V'.
    destruct (read_row e (qm1 k) (qm2 k) (f O) He (L O) G) as [K|(K & D)].
    + apply (fine_good _ it' (shift f) x'); [apply allsigned_c; intros n; apply L|auto|exact K].
    + destruct (read_row e (pm1 k) (pm2 k) (f O) He (L O) P) as [K'|(K' & D')].
      * eapply fine_half; [apply le_n|intros n; apply L|exact S'|exact K'].
      * apply (IH _ it' (shift f) x'); [|intros n; apply L|auto]. apply Go. unfold rank, rmoved. cbn [pm1 pm2 qm1 qm2]. apply rank_drop. clear - D D'. lia.
Qed.

(** Before the first coefficient, which may have any sign, is read *)
Lemma fine_first N : forall k it f x, (Z.to_nat (Z.abs (qm1 k)) <= N)%nat -> (forall n, (1 <= n)%nat -> 1 <= e * f n) -> st k it f x -> fine (k, it) (value k x).
Proof.
  induction N as [|N IH]; intros k it f x HN L H; (destruct (check_integer_big k) as [(i & r1 & r2 & C)|(C & _)];
    [|destruct (st_read k it f x L H) as (it' & x' & E & S' & V'); eapply fine_read; [exact C|exact E|apply rmove_eq|]; rewrite <- V';
      eapply fine_signed; [apply le_n|intros n; apply (L (S n)); apply le_n_S, Nat.le_0_l|exact S']]).
  - exfalso. apply check_integer_inv in C. destruct C as (N1 & _). lia.
  - destruct (st_emit _ _ _ _ _ _ _ H C) as (S' & V'). eapply fine_emit; [exact C|eapply st_irr; eauto|]. rewrite <- V'. apply (IH _ it f x); auto.
    apply check_integer_inv in C. destruct C as (N1 & N2 & I1 & I2 & R1 & R2). pose proof (Z.rem_bound_abs (pm1 k) (qm1 k) N1) as B1. rewrite <- R1 in B1. cbn [qm1]. lia.
Qed.

Lemma homo_spells it f x a b c d : yields inext it f -> (forall n, (1 <= n)%nat -> 1 <= e * f n) -> cconverges f x -> a * d - b * c <> 0 ->
  fine (icf_homo it a b c d) ((IZR a * x + IZR b) / (IZR c * x + IZR d)).
Proof.
  intros Y L C D. destruct (signed_converges e f He L) as (y & Cy & Iy). rewrite (cconverges_unique _ _ _ C Cy) in *.
  unfold icf_homo, block_new. change ((IZR a * y + IZR b) / (IZR c * y + IZR d))%R with (value (Block a b c d) y).
  eapply fine_first; [apply le_n|exact L|]. split; [auto|]. split; [auto|]. split; [auto|exact D].
Qed.
End Homo.

(** ** Other integer types *)
Lemma chk_big t z v : chk t z = Ok v -> chk BigI z = Ok v.
Proof. unfold chk. destruct (fits t z); [|discriminate]. cbn. auto. Qed.

Lemma div_rem_big t x y p : div_remT t x y = Ok p -> div_remT BigI x y = Ok p.
Proof.
  unfold div_remT, quotT, remT. destruct (y =? 0); [discriminate|]. intros H. apply bind_Ok in H. destruct H as (q & Q & H). apply bind_Ok in H. destruct H as (r & Rm & H).
  apply chk_big in Q. rewrite Q. cbn [bind]. destruct (chk t (Z.quot x y)); [|discriminate|discriminate]. cbn [bind] in *. injection Rm as Rm. rewrite Rm. exact H.
Qed.

Lemma check_integer_any t k o : block_check_integer t k = Ok o -> block_check_integer BigI k = Ok o.
Proof.
  unfold block_check_integer. destruct ((qm1 k =? 0) || (qm2 k =? 0)); [auto|]. intros H.
  apply bind_Ok in H. destruct H as ((i1, x1) & D1 & H). apply bind_Ok in H. destruct H as ((i2, x2) & D2 & H).
  rewrite (div_rem_big _ _ _ _ D1). cbn [bind]. rewrite (div_rem_big _ _ _ _ D2). exact H.
Qed.

Lemma rmove_any t k v k' : block_rmove t k v = Ok k' -> block_rmove BigI k v = Ok k'.
Proof.
  intros H. pose proof H as M. unfold block_rmove, lift2, mulT, addT in H |- *. cbn [bind] in *.
  repeat (apply bind_Ok in H; let z := fresh "z" in let E := fresh "E" in destruct H as (z & E & H); try (apply bind_Ok in E; let w := fresh "w" in let F := fresh "F" in destruct E as (w & F & E); apply chk_big in F; rewrite F; cbn [bind]); apply chk_big in E; rewrite E; cbn [bind]).
  exact H.
Qed.

Lemma homo_any t {I} (inext : I -> res (option Z * I)) fuel : forall s r, homo_next t inext fuel s = Ok r -> homo_next BigI inext fuel s = Ok r.
Proof.
  induction fuel as [|fuel IH]; intros [k it] r H; [discriminate|]. cbn [homo_next] in *. unfold block_reduce_recip in *.
  apply bind_Ok in H. destruct H as ((o, k1) & Rr & H). apply bind_Ok in Rr. destruct Rr as (c & C & Rr). rewrite (check_integer_any _ _ _ C). cbn [bind].
  destruct c as [[[i r1] r2]|]; injection Rr as <- <-; cbn [bind]; [exact H|].
  apply bind_Ok in H. destruct H as ((o, it1) & N & H). rewrite N. cbn [bind]. destruct o as [b|]; [|exact H].
  apply bind_Ok in H. destruct H as (k2 & M & H). rewrite (rmove_any _ _ _ _ M). cbn [bind]. apply IH. exact H.
Qed.

Lemma nth_any {S A} (n1 n2 : S -> res (option A * S)) : (forall s r, n1 s = Ok r -> n2 s = Ok r) -> forall n s o, nth_item n1 n s = Ok o -> nth_item n2 n s = Ok o.
Proof.
  intros H n. induction n as [|n IH]; intros s o E.
  - rewrite nth_item_0 in *. destruct (n1 s) as [p| |] eqn:K; cbn [bind] in E; try discriminate. rewrite (H _ _ K). exact E.
  - cbn [nth_item] in *. apply bind_Ok in E. destruct E as ((x, s') & K & E). rewrite (H _ _ K). cbn [bind]. destruct x; [apply IH; exact E|exact E].
Qed.

(** Whatever the type, the items are those of arbitrary precision *)
Lemma homo_spells_any {I} (inext : I -> res (option Z * I)) e it f x a b c d : e = 1 \/ e = -1 ->
  yields inext it f -> (forall n, (1 <= n)%nat -> 1 <= e * f n) -> cconverges f x -> a * d - b * c <> 0 ->
  exists h, cconverges h ((IZR a * x + IZR b) / (IZR c * x + IZR d)) /\ settles h /\
    (forall n, exists fuel, forall fuel', (fuel <= fuel')%nat -> nth_item (homo_next BigI inext fuel') n (icf_homo it a b c d) = Ok (Some (h n))) /\
    (forall t fuel n v, nth_item (homo_next t inext fuel) n (icf_homo it a b c d) = Ok (Some v) -> v = h n).
Proof.
  intros He Y L C D. destruct (homo_spells inext e He it f x a b c d Y L C D) as (h & G & Cv & S). exists h. split; [auto|]. split; [auto|]. split; [exact G|].
  intros t fuel n v H. apply (nth_any _ (homo_next BigI inext fuel) (homo_any t inext fuel)) in H.
  destruct (G n) as (F & HF). pose proof (HF (Nat.max F fuel) ltac:(lia)) as K.
  assert (H' : nth_item (homo_next BigI inext (Nat.max F fuel)) n (icf_homo it a b c d) = Ok (Some v)).
  { revert H. apply nth_any. intros s r E. eapply homo_fuel; [exact E|lia]. }
  congruence.
Qed.
