(** * GenSound: whatever the iterators simplify(), homo() and decimals() emit is right (C41-C43). *)

From Coq Require Import ZArith Reals Lia Lra Psatz Bool List.
From Coquelicot Require Import Coquelicot.
From Verif Require Import Base Ext ModelBlock ModelGen Spec SpecGen NumFacts GenBlock.
Import ListNotations.
Open Scope Z_scope.

(** The number the source will still produce is u/w (w = 0: nothing more), and the block stands for
    (p1 u + p2 w) / (q1 u + q2 w). *)
Definition num (k : block) (u w : R) : R := (IZR (pm1 k) * u + IZR (pm2 k) * w)%R.
Definition den (k : block) (u w : R) : R := (IZR (qm1 k) * u + IZR (qm2 k) * w)%R.

Definition good2 (k : block) : Prop := 0 < pm1 k * pm2 k /\ Z.abs (qm1 k) <= Z.abs (pm1 k) /\ Z.abs (qm2 k) <= Z.abs (pm2 k).
Definition good (k : block) : Prop := 0 <= qm1 k * qm2 k \/ good2 k.

Definition alive (k : block) (u w y : R) : Prop := good k /\ den k u w <> 0%R /\ y = (num k u w / den k u w)%R.
Definition dead (k : block) (u w : R) : Prop := good2 k /\ den k u w = 0%R.

(** ** Moves *)
Lemma moved_lin k a b k' u w u' w' s : moved k a b k' -> (s * u = IZR b * u' + w')%R -> (s * w = IZR a * u')%R ->
  exists g, (1 <= g)%R /\ (g * num k' u' w' = s * num k u w)%R /\ (g * den k' u' w' = s * den k u w)%R.
Proof.
  intros (g & Hg & P1 & P2 & Q1 & Q2) U W. exists (IZR g). split; [apply IZR_le; auto|]. unfold num, den.
  apply (f_equal IZR) in P1, P2, Q1, Q2. rewrite ?plus_IZR, ?mult_IZR in *.
  split.
  - replace (s * (IZR (pm1 k) * u + IZR (pm2 k) * w))%R with (IZR (pm1 k) * (s * u) + IZR (pm2 k) * (s * w))%R by ring. rewrite U, W.
    replace (IZR g * (IZR (pm1 k') * u' + IZR (pm2 k') * w'))%R with (IZR g * IZR (pm1 k') * u' + IZR g * IZR (pm2 k') * w')%R by ring. rewrite P1, P2. ring.
  - replace (s * (IZR (qm1 k) * u + IZR (qm2 k) * w))%R with (IZR (qm1 k) * (s * u) + IZR (qm2 k) * (s * w))%R by ring. rewrite U, W.
    replace (IZR g * (IZR (qm1 k') * u' + IZR (qm2 k') * w'))%R with (IZR g * IZR (qm1 k') * u' + IZR g * IZR (qm2 k') * w')%R by ring. rewrite Q1, Q2. ring.
Qed.

Lemma moved_good2 k a b k' : moved k a b k' -> 1 <= a -> 0 <= b -> good2 k -> good2 k'.
Proof.
  intros (g & Hg & P1 & P2 & Q1 & Q2) Ha Hb (S & A1 & A2). unfold good2.
  assert (M : Z.abs (pm1 k * b + pm2 k * a) = Z.abs (pm1 k) * b + Z.abs (pm2 k) * a).
  { destruct (Z.lt_ge_cases (pm1 k) 0).
    - assert (pm2 k < 0) by nia. rewrite (Z.abs_neq (pm1 k)), (Z.abs_neq (pm2 k)) by lia. rewrite Z.abs_neq by nia. ring.
    - assert (0 < pm1 k) by nia. assert (0 < pm2 k) by nia. rewrite (Z.abs_eq (pm1 k)), (Z.abs_eq (pm2 k)) by lia. rewrite Z.abs_eq by nia. ring. }
  assert (Gq : forall x y z, g * x = y -> g * z = y -> x = z) by (intros; nia).
  assert (Ab : forall x, g * Z.abs x = Z.abs (g * x)) by (intros; rewrite Z.abs_mul, (Z.abs_eq g); lia).
  split; [|split].
  - assert (g * g * (pm1 k' * pm2 k') = (pm1 k * b + pm2 k * a) * pm1 k) by (rewrite <- P1, <- P2; ring).
    assert (0 < (pm1 k * b + pm2 k * a) * pm1 k) by nia. nia.
  - assert (g * Z.abs (qm1 k') <= g * Z.abs (pm1 k')); [|apply (Z.mul_le_mono_pos_l _ _ g); lia]. rewrite !Ab, P1, Q1, M.
    pose proof (Z.abs_triangle (qm1 k * b) (qm2 k * a)) as T. rewrite !Z.abs_mul, (Z.abs_eq a), (Z.abs_eq b) in T by lia.
    pose proof (Z.mul_le_mono_nonneg_r _ _ b Hb A1). pose proof (Z.mul_le_mono_nonneg_r _ _ a ltac:(lia) A2). lia.
  - assert (g * Z.abs (qm2 k') <= g * Z.abs (pm2 k')); [|apply (Z.mul_le_mono_pos_l _ _ g); lia]. rewrite !Ab, P2, Q2. auto.
Qed.

Lemma moved_good k a b k' : moved k a b k' -> 1 <= a -> 0 <= b -> good k -> good k'.
Proof.
  intros M Ha Hb [H|H]; [|right; eapply moved_good2; eauto]. left. destruct M as (g & Hg & P1 & P2 & Q1 & Q2).
  assert (g * g * (qm1 k' * qm2 k') = (qm1 k * b + qm2 k * a) * qm1 k) by (rewrite <- Q1, <- Q2; ring).
  assert (0 <= (qm1 k * b + qm2 k * a) * qm1 k) by nia. nia.
Qed.

Lemma moved_good_first k a b k' : moved k a b k' -> qm1 k = 0 -> good k'.
Proof.
  intros (g & Hg & P1 & P2 & Q1 & Q2) Z0. left. rewrite Z0 in Q2. assert (qm2 k' = 0) by nia. rewrite H. lia.
Qed.

Lemma alive_move k a b k' u w u' w' s y : moved k a b k' -> good k' -> (0 < s)%R -> (s * u = IZR b * u' + w')%R -> (s * w = IZR a * u')%R ->
  alive k u w y -> alive k' u' w' y.
Proof.
  intros M G Hs U W (_ & D & ->). destruct (moved_lin _ _ _ _ _ _ _ _ _ M U W) as (g & Hg & En & Ed).
  assert (D' : den k' u' w' <> 0%R) by (intros K; rewrite K, Rmult_0_r in Ed; symmetry in Ed; apply Rmult_integral in Ed; lra).
  split; [auto|]. split; [auto|].
  assert (En' : num k u w = (g / s * num k' u' w')%R) by (field_simplify_eq; lra).
  assert (Ed' : den k u w = (g / s * den k' u' w')%R) by (field_simplify_eq; lra).
  rewrite En', Ed'. field. repeat split; lra.
Qed.

Lemma dead_move k a b k' u w u' w' s : moved k a b k' -> 1 <= a -> 0 <= b -> (s * u = IZR b * u' + w')%R -> (s * w = IZR a * u')%R ->
  dead k u w -> dead k' u' w'.
Proof.
  intros M Ha Hb U W (G & D). destruct (moved_lin _ _ _ _ _ _ _ _ _ M U W) as (g & Hg & _ & Ed).
  split; [eapply moved_good2; eauto|]. rewrite D, Rmult_0_r in Ed. apply Rmult_integral in Ed. destruct Ed; lra.
Qed.

(** ** Emissions *)
Lemma quot_facts p q : q <> 0 -> let i := Z.quot p q in let r := Z.rem p q in
  p = q * i + r /\ Z.abs r < Z.abs q /\ 0 <= r * p /\ (0 < i -> 0 <= r * q) /\ (i < 0 -> r * q <= 0).
Proof.
  intros Hq. cbv zeta. pose proof (Z.quot_rem' p q) as E. pose proof (Z.rem_bound_abs p q Hq) as B. pose proof (Z.rem_sign_mul p q Hq) as S.
  set (i := Z.quot p q) in *. set (r := Z.rem p q) in *. clearbody i r.
  split; [auto|]. split; [auto|]. split; [auto|].
  split; intros Hi.
  - destruct (Z.lt_trichotomy q 0) as [Q|[Q|Q]]; [|lia|].
    + rewrite (Z.abs_neq q) in B by lia. assert (q * i <= q) by nia. assert (r <= 0); [|nia]. destruct (Z.le_gt_cases r 0); [auto|]. exfalso. assert (p < 0) by lia. nia.
    + rewrite (Z.abs_eq q) in B by lia. assert (q <= q * i) by nia. assert (0 <= r); [|nia]. destruct (Z.le_gt_cases 0 r); [auto|]. exfalso. assert (0 < p) by lia. nia.
  - destruct (Z.lt_trichotomy q 0) as [Q|[Q|Q]]; [|lia|].
    + rewrite (Z.abs_neq q) in B by lia. assert (- q <= q * i) by nia. assert (0 <= r); [|nia]. destruct (Z.le_gt_cases 0 r); [auto|]. exfalso. assert (0 < p) by lia. nia.
    + rewrite (Z.abs_eq q) in B by lia. assert (q * i <= - q) by nia. assert (r <= 0); [|nia]. destruct (Z.le_gt_cases r 0); [auto|]. exfalso. assert (p < 0) by lia. nia.
Qed.

Lemma trunc_pos (q1 q2 r1 r2 i : Z) u w : (0 < u)%R -> (0 <= w)%R -> 0 < q1 -> 0 < q2 -> Z.abs r1 < q1 -> Z.abs r2 < q2 ->
  (0 < i -> 0 <= r1 /\ 0 <= r2) -> (i < 0 -> r1 <= 0 /\ r2 <= 0) ->
  istrunc ((IZR i * (IZR q1 * u + IZR q2 * w) + (IZR r1 * u + IZR r2 * w)) / (IZR q1 * u + IZR q2 * w)) i.
Proof.
  intros Hu Hw Q1 Q2 B1 B2 Pi Ni. assert (D : (0 < IZR q1 * u + IZR q2 * w)%R).
  { apply IZR_lt in Q1, Q2. assert (0 < IZR q1 * u)%R by (apply Rmult_lt_0_compat; auto). assert (0 <= IZR q2 * w)%R by (apply Rmult_le_pos; lra). lra. }
  replace ((IZR i * (IZR q1 * u + IZR q2 * w) + (IZR r1 * u + IZR r2 * w)) / (IZR q1 * u + IZR q2 * w))%R
    with (IZR i + (IZR r1 * u + IZR r2 * w) / (IZR q1 * u + IZR q2 * w))%R by (field; lra).
  assert (U1 : (IZR r1 * u < IZR q1 * u)%R) by (apply Rmult_lt_compat_r; [auto|apply IZR_lt; lia]).
  assert (U2 : (IZR r2 * w <= IZR q2 * w)%R) by (apply Rmult_le_compat_r; [auto|apply IZR_le; lia]).
  assert (L1 : (- (IZR q1 * u) < IZR r1 * u)%R) by (rewrite Ropp_mult_distr_l, <- opp_IZR; apply Rmult_lt_compat_r; [auto|apply IZR_lt; lia]).
  assert (L2 : (- (IZR q2 * w) <= IZR r2 * w)%R) by (rewrite Ropp_mult_distr_l, <- opp_IZR; apply Rmult_le_compat_r; [auto|apply IZR_le; lia]).
  set (D0 := (IZR q1 * u + IZR q2 * w)%R) in *. set (N := (IZR r1 * u + IZR r2 * w)%R) in *.
  assert (Hi : (N / D0 < 1)%R) by (apply (Rmult_lt_reg_r D0); [auto|]; unfold Rdiv; rewrite Rmult_assoc, Rinv_l by lra; unfold N, D0; lra).
  assert (Lo : (- 1 < N / D0)%R) by (apply (Rmult_lt_reg_r D0); [auto|]; unfold Rdiv; rewrite Rmult_assoc, Rinv_l by lra; unfold N, D0; lra).
  assert (ID : (0 < / D0)%R) by (apply Rinv_0_lt_compat; auto).
  assert (Pos : 0 < i -> (0 <= N / D0)%R).
  { intros K. destruct (Pi K) as [K1 K2]. apply IZR_le in K1, K2. apply Rmult_le_pos; [|lra]. unfold N.
    assert (0 <= IZR r1 * u)%R by (apply Rmult_le_pos; lra). assert (0 <= IZR r2 * w)%R by (apply Rmult_le_pos; lra). lra. }
  assert (Neg : i < 0 -> (N / D0 <= 0)%R).
  { intros K. destruct (Ni K) as [K1 K2]. apply IZR_le in K1, K2. assert (0 <= - N / D0)%R; [|unfold Rdiv in *; lra]. apply Rmult_le_pos; [|lra]. unfold N.
    assert (0 <= - IZR r1 * u)%R by (apply Rmult_le_pos; lra). assert (0 <= - IZR r2 * w)%R by (apply Rmult_le_pos; lra). lra. }
  set (e := (N / D0)%R) in *. clearbody e. clear - Hi Lo Pos Neg.
  destruct (Z.lt_trichotomy i 0) as [K|[K|K]].
  - specialize (Neg K). assert (K' : i <= -1) by lia. apply IZR_le in K'. split; intros; lra.
  - subst i. split; intros; lra.
  - specialize (Pos K). assert (K' : 1 <= i) by lia. apply IZR_le in K'. split; intros; lra.
Qed.

Lemma no_emit k i : good2 k -> qm1 k * qm2 k < 0 -> i = Z.quot (pm1 k) (qm1 k) -> i = Z.quot (pm2 k) (qm2 k) -> False.
Proof.
  intros (S & A1 & A2) Q I1 I2. assert (N1 : qm1 k <> 0) by nia. assert (N2 : qm2 k <> 0) by nia.
  destruct (quot_facts (pm1 k) (qm1 k) N1) as (E1 & B1 & _). destruct (quot_facts (pm2 k) (qm2 k) N2) as (E2 & B2 & _). cbv zeta in *.
  rewrite <- I1 in E1. rewrite <- I2 in E2. set (r1 := Z.rem (pm1 k) (qm1 k)) in *. set (r2 := Z.rem (pm2 k) (qm2 k)) in *. clearbody r1 r2.
  assert (K1 : 0 < i * (pm1 k * qm1 k)).
  { replace (i * (pm1 k * qm1 k)) with (pm1 k * (pm1 k - r1)) by (replace (pm1 k - r1) with (qm1 k * i) by lia; ring). assert (Z.abs r1 < Z.abs (pm1 k)) by lia. nia. }
  assert (K2 : 0 < i * (pm2 k * qm2 k)).
  { replace (i * (pm2 k * qm2 k)) with (pm2 k * (pm2 k - r2)) by (replace (pm2 k - r2) with (qm2 k * i) by lia; ring). assert (Z.abs r2 < Z.abs (pm2 k)) by lia. nia. }
  assert (0 < (i * (pm1 k * qm1 k)) * (i * (pm2 k * qm2 k))) by nia.
  replace ((i * (pm1 k * qm1 k)) * (i * (pm2 k * qm2 k))) with ((i * i) * ((pm1 k * pm2 k) * (qm1 k * qm2 k))) in H by ring. nia.
Qed.

Definition emits (k : block) (i r1 r2 : Z) : Prop :=
  qm1 k <> 0 /\ qm2 k <> 0 /\ i = Z.quot (pm1 k) (qm1 k) /\ i = Z.quot (pm2 k) (qm2 k) /\ r1 = Z.rem (pm1 k) (qm1 k) /\ r2 = Z.rem (pm2 k) (qm2 k).

Lemma emit_trunc k i r1 r2 u w y : (0 < u)%R -> (0 <= w)%R -> emits k i r1 r2 -> alive k u w y ->
  istrunc y i /\ 0 < qm1 k * qm2 k /\ Z.abs r1 < Z.abs (qm1 k) /\ Z.abs r2 < Z.abs (qm2 k) /\
  ((y - IZR i) * den k u w = IZR r1 * u + IZR r2 * w)%R.
Proof.
  intros Hu Hw C (G & D & Y). destruct C as (N1 & N2 & I1 & I2 & R1 & R2).
  assert (Q : 0 < qm1 k * qm2 k).
  { destruct (Z.lt_trichotomy (qm1 k * qm2 k) 0) as [K|[K|K]]; [|apply Z.mul_eq_0 in K; tauto|auto]. exfalso. destruct G as [G|G]; [lia|].
    eapply no_emit; eauto. }
  destruct (quot_facts (pm1 k) (qm1 k) N1) as (E1 & B1 & _ & P1 & M1). destruct (quot_facts (pm2 k) (qm2 k) N2) as (E2 & B2 & _ & P2 & M2). cbv zeta in *.
  rewrite <- I1, <- R1 in *. rewrite <- I2, <- R2 in *. clear I1 I2 R1 R2.
  assert (En : num k u w = (IZR i * den k u w + (IZR r1 * u + IZR r2 * w))%R).
  { unfold num, den. apply (f_equal IZR) in E1, E2. rewrite plus_IZR, mult_IZR in E1, E2. rewrite E1, E2. ring. }
  split; [|split; [auto|split; [auto|split; [auto|]]]].
  - rewrite Y, En. unfold den in *. destruct (Z.lt_ge_cases (qm1 k) 0) as [S|S].
    + assert (S2 : qm2 k < 0) by nia.
      replace ((IZR i * (IZR (qm1 k) * u + IZR (qm2 k) * w) + (IZR r1 * u + IZR r2 * w)) / (IZR (qm1 k) * u + IZR (qm2 k) * w))%R
        with ((IZR i * (IZR (- qm1 k) * u + IZR (- qm2 k) * w) + (IZR (- r1) * u + IZR (- r2) * w)) / (IZR (- qm1 k) * u + IZR (- qm2 k) * w))%R.
      2:{ rewrite !opp_IZR. field. split; lra. }
      apply trunc_pos; auto; try lia; intros K; split; nia.
    + assert (S1 : 0 < qm1 k) by lia. assert (S2 : 0 < qm2 k) by nia. apply trunc_pos; auto; try lia; intros K; split; nia.
  - rewrite Y, En. field. auto.
Qed.

Lemma emit_recip k i r1 r2 u w y : (0 < u)%R -> (0 <= w)%R -> emits k i r1 r2 -> alive k u w y ->
  istrunc y i /\ (y <> IZR i -> alive (Block (qm1 k) (qm2 k) r1 r2) u w (/ (y - IZR i))) /\ (y = IZR i -> dead (Block (qm1 k) (qm2 k) r1 r2) u w).
Proof.
  intros Hu Hw C A. destruct (emit_trunc _ _ _ _ _ _ _ Hu Hw C A) as (T & Q & B1 & B2 & E). destruct A as (_ & D & _).
  assert (G : good2 (Block (qm1 k) (qm2 k) r1 r2)) by (unfold good2; cbn [pm1 pm2 qm1 qm2]; lia).
  split; [auto|]. split.
  - intros Ny. split; [right; auto|]. unfold den, num in *. cbn [pm1 pm2 qm1 qm2]. rewrite <- E.
    assert (y - IZR i <> 0)%R by lra. split; [apply Rmult_integral_contrapositive; auto|]. field. auto.
  - intros Ey. split; [auto|]. unfold den in *. cbn [pm1 pm2 qm1 qm2]. rewrite <- E, Ey. ring.
Qed.

Lemma emit_dead k i r1 r2 u w : (0 < u)%R -> (0 <= w)%R -> emits k i r1 r2 -> dead k u w -> False.
Proof.
  intros Hu Hw C (G & D). destruct C as (N1 & N2 & I1 & I2 & R1 & R2).
  destruct (Z.lt_trichotomy (qm1 k * qm2 k) 0) as [K|[K|K]]; [eapply no_emit; eauto|apply Z.mul_eq_0 in K; tauto|].
  unfold den in D. destruct (Z.lt_ge_cases (qm1 k) 0) as [S|S].
  - assert (S2 : qm2 k < 0) by nia. apply IZR_lt in S, S2. assert (0 < - IZR (qm1 k) * u)%R by (apply Rmult_lt_0_compat; lra).
    assert (0 <= - IZR (qm2 k) * w)%R by (apply Rmult_le_pos; lra). lra.
  - assert (S1 : 0 < qm1 k) by lia. assert (S2 : 0 < qm2 k) by nia. apply IZR_lt in S1, S2. assert (0 < IZR (qm1 k) * u)%R by (apply Rmult_lt_0_compat; lra).
    assert (0 <= IZR (qm2 k) * w)%R by (apply Rmult_le_pos; lra). lra.
Qed.

Lemma reduce_recip_inv t k o k' : block_reduce_recip t k = Ok (o, k') ->
  (exists i r1 r2, block_check_integer t k = Ok (Some (i, r1, r2)) /\ o = Some i /\ k' = Block (qm1 k) (qm2 k) r1 r2) \/
  (block_check_integer t k = Ok None /\ o = None /\ k' = k).
Proof.
  unfold block_reduce_recip. destruct (block_check_integer t k) as [[[[i r1] r2]|]| |]; cbn [bind]; try discriminate; intros H; inversion H; subst; eauto 8.
Qed.

Lemma reduce_mul_inv t k base o k' : block_reduce_mul t k base = Ok (o, k') ->
  (exists i r1 r2, block_check_integer t k = Ok (Some (i, r1, r2)) /\ o = Some i /\ k' = Block (r1 * base) (r2 * base) (qm1 k) (qm2 k)) \/
  (block_check_integer t k = Ok None /\ o = None /\ k' = k).
Proof.
  unfold block_reduce_mul. destruct (block_check_integer t k) as [[[[i r1] r2]|]| |]; cbn [bind]; try discriminate; intros H.
  - peel H. inversion H; subst. left. eauto 8.
  - inversion H; subst; eauto 8.
Qed.

(** ** Running the iterators *)
Lemma bind_Ok {A B} (m : res A) (f : A -> res B) v : bind m f = Ok v -> exists x, m = Ok x /\ f x = Ok v.
Proof. destruct m; cbn [bind]; try discriminate. eauto. Qed.

Section Run.
Context (t : ity) {I : Type} (inext : I -> res (option (Z * Z) * I)) (Tail : I -> R -> R -> Prop).
Hypothesis HT : forall it u w, Tail it u w -> (0 < u)%R /\ (0 <= w)%R.
Hypothesis HN : forall it u w a b it', Tail it u w -> inext it = Ok (Some (a, b), it') ->
  1 <= a /\ 0 <= b /\ exists u' w' s, Tail it' u' w' /\ (0 < s)%R /\ (s * u = IZR b * u' + w')%R /\ (s * w = IZR a * u')%R.

Definition live (k : block) (it : I) (y : R) : Prop := exists u w, Tail it u w /\ alive k u w y.
Definition over (k : block) (it : I) : Prop := exists u w, Tail it u w /\ dead k u w.

Lemma live_gmove k it y a b it' k' : live k it y -> inext it = Ok (Some (a, b), it') -> moved k a b k' -> live k' it' y.
Proof.
  intros (u & w & T & A) N M. destruct (HN _ _ _ _ _ _ T N) as (Ha & Hb & u' & w' & s & T' & Hs & U & W).
  exists u', w'. split; [auto|]. eapply alive_move; eauto. eapply moved_good; eauto. apply A.
Qed.

Lemma over_gmove k it a b it' k' : over k it -> inext it = Ok (Some (a, b), it') -> moved k a b k' -> over k' it'.
Proof.
  intros (u & w & T & A) N M. destruct (HN _ _ _ _ _ _ T N) as (Ha & Hb & u' & w' & s & T' & Hs & U & W).
  exists u', w'. split; [auto|]. eapply dead_move; eauto.
Qed.

Lemma simp_live fuel : forall k it y v k' it', live k it y -> simp_next t inext fuel (k, it) = Ok (Some v, (k', it')) ->
  istrunc y v /\ (y <> IZR v -> live k' it' (/ (y - IZR v))) /\ (y = IZR v -> over k' it').
Proof.
  induction fuel as [|fuel IH]; intros k it y v k' it' L H; cbn [simp_next] in H; [discriminate|].
  apply bind_Ok in H. destruct H as ((o, k1) & R & H). apply reduce_recip_inv in R. destruct R as [(i & r1 & r2 & C & -> & ->)|(C & -> & ->)].
  - inversion H; subst. destruct L as (u & w & T & A). destruct (HT _ _ _ T). destruct (emit_recip _ _ _ _ _ _ _ H0 H1 (check_integer_inv _ _ _ _ _ C) A) as (Tr & K1 & K2).
    split; [auto|]. split; intros; exists u, w; auto.
  - apply bind_Ok in H. destruct H as ((o, it1) & N & H). destruct o as [(a, b)|]; [|discriminate].
    apply bind_Ok in H. destruct H as (k2 & M & H). apply gmove_inv in M. eapply IH; [|exact H]. eapply live_gmove; eauto.
Qed.

Lemma simp_over fuel : forall k it v s', over k it -> simp_next t inext fuel (k, it) = Ok (Some v, s') -> False.
Proof.
  induction fuel as [|fuel IH]; intros k it v s' L H; cbn [simp_next] in H; [discriminate|].
  apply bind_Ok in H. destruct H as ((o, k1) & R & H). apply reduce_recip_inv in R. destruct R as [(i & r1 & r2 & C & -> & ->)|(C & -> & ->)].
  - destruct L as (u & w & T & A). destruct (HT _ _ _ T). eapply emit_dead; eauto. eapply check_integer_inv; eauto.
  - apply bind_Ok in H. destruct H as ((o, it1) & N & H). destruct o as [(a, b)|]; [|discriminate].
    apply bind_Ok in H. destruct H as (k2 & M & H). apply gmove_inv in M. eapply IH; [|exact H]. eapply over_gmove; eauto.
Qed.

Lemma simp_nth fuel n : forall k it y v, live k it y -> nth_item (simp_next t inext fuel) n (k, it) = Ok (Some v) -> cf_digit y n v.
Proof.
  induction n as [|n IH]; intros k it y v L H; cbn [nth_item] in H; apply bind_Ok in H; destruct H as ((o, (k1, it1)) & N & H); destruct o as [i|]; try discriminate.
  - assert (i = v) by congruence. subst i. destruct (simp_live _ _ _ _ _ _ _ L N) as (T & _). exact T.
  - destruct (simp_live _ _ _ _ _ _ _ L N) as (T & K1 & K2). exists i. split; [auto|].
    assert (Ny : y <> IZR i).
    { intros E. specialize (K2 E). destruct n; cbn [nth_item] in H; apply bind_Ok in H; destruct H as ((o, s2) & N2 & H); destruct o; try discriminate; eapply simp_over; eauto. }
    split; [auto|]. eapply IH; eauto.
Qed.

(** The first pair is read before anything is emitted *)
Lemma simp_first fuel k it v s' : qm1 k = 0 -> simp_next t inext fuel (k, it) = Ok (Some v, s') ->
  exists a b it1 k1 f1, inext it = Ok (Some (a, b), it1) /\ moved k a b k1 /\ simp_next t inext f1 (k1, it1) = Ok (Some v, s').
Proof.
  intros Q H. destruct fuel as [|fuel]; [discriminate|]. cbn [simp_next] in H. apply bind_Ok in H. destruct H as ((o, k1) & R & H).
  apply reduce_recip_inv in R. destruct R as [(i & r1 & r2 & C & -> & ->)|(C & -> & ->)]; [apply check_integer_inv in C; tauto|].
  apply bind_Ok in H. destruct H as ((o, it1) & N & H). destruct o as [(a, b)|]; [|discriminate].
  apply bind_Ok in H. destruct H as (k2 & M & H). apply gmove_inv in M. eauto 10.
Qed.

Lemma simp_sound fuel n k it y v : qm1 k = 0 ->
  (forall a b it1 k1, inext it = Ok (Some (a, b), it1) -> moved k a b k1 -> live k1 it1 y) ->
  nth_item (simp_next t inext fuel) n (k, it) = Ok (Some v) -> cf_digit y n v.
Proof.
  intros Q HL H. assert (E : exists i k1 it1, simp_next t inext fuel (k, it) = Ok (Some i, (k1, it1))).
  { destruct n; cbn [nth_item] in H; apply bind_Ok in H; destruct H as ((o, (k1, it1)) & N & H); destruct o as [i|]; try discriminate; eauto. }
  destruct E as (i & k1 & it1 & E). destruct (simp_first _ _ _ _ _ Q E) as (a & b & it2 & k2 & f & N & M & F).
  specialize (HL _ _ _ _ N M). destruct (simp_live _ _ _ _ _ _ _ HL F) as (T & K1 & K2).
  destruct n; cbn [nth_item] in H; rewrite E in H; cbn [bind] in H.
  - inversion H; subst. exact T.
  - exists i. split; [auto|]. assert (Ny : y <> IZR i).
    { intros Ey. specialize (K2 Ey). destruct n; cbn [nth_item] in H; apply bind_Ok in H; destruct H as ((o, s2) & N2 & H); destruct o; try discriminate; eapply simp_over; eauto. }
    split; [auto|]. eapply simp_nth; eauto.
Qed.

(** decimals() *)
Definition good0 (k : block) : Prop := 0 <= qm1 k * qm2 k.
Definition slive (k : block) (it : I) (y : R) : Prop := live k it y /\ good0 k.

Lemma emit_mul k i r1 r2 u w y : (0 < u)%R -> (0 <= w)%R -> block_check_integer t k = Ok (Some (i, r1, r2)) -> alive k u w y -> good0 k ->
  istrunc y i /\ alive (Block (r1 * 10) (r2 * 10) (qm1 k) (qm2 k)) u w (10 * (y - IZR i)) /\ good0 (Block (r1 * 10) (r2 * 10) (qm1 k) (qm2 k)).
Proof.
  intros Hu Hw C A G0. destruct (emit_trunc _ _ _ _ _ _ _ Hu Hw (check_integer_inv _ _ _ _ _ C) A) as (T & Q & _ & _ & E). destruct A as (_ & D & Y).
  split; [auto|]. split; [|exact G0]. split; [left; exact G0|]. unfold den, num in *. cbn [pm1 pm2 qm1 qm2]. split; [auto|].
  rewrite !mult_IZR. replace (IZR r1 * 10 * u + IZR r2 * 10 * w)%R with (10 * (IZR r1 * u + IZR r2 * w))%R by ring. rewrite <- E. field. auto.
Qed.

Lemma moved_good0 k a b k' : moved k a b k' -> 1 <= a -> 0 <= b -> good0 k -> good0 k'.
Proof.
  intros (g & Hg & P1 & P2 & Q1 & Q2) Ha Hb H. unfold good0 in *.
  assert (g * g * (qm1 k' * qm2 k') = (qm1 k * b + qm2 k * a) * qm1 k) by (rewrite <- Q1, <- Q2; ring).
  assert (0 <= (qm1 k * b + qm2 k * a) * qm1 k) by nia. nia.
Qed.

Lemma moved_good0_first k a b k' : moved k a b k' -> qm1 k = 0 -> good0 k'.
Proof.
  intros (g & Hg & P1 & P2 & Q1 & Q2) Z0. unfold good0. rewrite Z0 in Q2. assert (qm2 k' = 0) by nia. rewrite H. lia.
Qed.

Lemma slive_gmove k it y a b it' k' : slive k it y -> inext it = Ok (Some (a, b), it') -> moved k a b k' -> slive k' it' y.
Proof.
  intros (L & G0) N M. split; [eapply live_gmove; eauto|]. destruct L as (u & w & T & A). destruct (HN _ _ _ _ _ _ T N) as (Ha & Hb & _).
  eapply moved_good0; eauto.
Qed.

Lemma dec_slive fuel : forall k it y c k' it', slive k it y -> dec_next t inext fuel (k, it) = Ok (Some c, (k', it')) ->
  istrunc y (c - 48) /\ 0 <= c - 48 <= 207 /\ slive k' it' (10 * (y - IZR (c - 48))).
Proof.
  induction fuel as [|fuel IH]; intros k it y c k' it' L H; cbn [dec_next] in H; [discriminate|].
  apply bind_Ok in H. destruct H as (ten & T10 & H). assert (ten = 10) by (unfold unwrap, checked in T10; destruct (fits t 10); congruence). subst ten.
  apply bind_Ok in H. destruct H as ((o, k1) & R & H). apply reduce_mul_inv in R. destruct R as [(i & r1 & r2 & C & -> & ->)|(C & -> & ->)].
  - apply bind_Ok in H. destruct H as (d & D & H). apply bind_Ok in H. destruct H as (c1 & C1 & H). inversion H; subst.
    assert (d = i /\ 0 <= i <= 255) as [-> Hi].
    { unfold unwrap, checked in D. destruct (fits (UInt 8) i) eqn:E; [|discriminate]. split; [congruence|].
      unfold fits in E. lia. }
    assert (c = i + 48 /\ i + 48 <= 255) as [-> Hc].
    { unfold addT, chk in C1. destruct (fits (UInt 8) (i + 48)) eqn:E; [|discriminate]. unfold fits in E. split; [congruence|lia]. }
    replace (i + 48 - 48) with i by ring. destruct L as ((u & w & T & A) & G0). destruct (HT _ _ _ T) as [Hu Hw].
    destruct (emit_mul _ _ _ _ _ _ _ Hu Hw C A G0) as (Tr & A' & G'). split; [auto|]. split; [lia|]. split; [exists u, w; auto|auto].
  - apply bind_Ok in H. destruct H as ((o, it1) & N & H). destruct o as [(a, b)|]; [|discriminate].
    apply bind_Ok in H. destruct H as ((o, k2) & M & H). destruct o as [(p, q)|]; [|discriminate]. apply checked_gmove_inv in M.
    eapply IH; [|exact H]. eapply slive_gmove; eauto.
Qed.
End Run.

(** homo() *)

(** For the coefficients of a negative number, which are all negated, the first column changes sign. *)
Definition fl (e : Z) (k : block) : block := Block (e * pm1 k) (pm2 k) (e * qm1 k) (qm2 k).

Lemma fl_1 k : fl 1 k = k.
Proof. destruct k as [p1 p2 q1 q2]. unfold fl. cbn [pm1 pm2 qm1 qm2]. f_equal; ring. Qed.

Lemma emits_fl e k i r1 r2 : e = 1 \/ e = -1 -> emits k i r1 r2 -> emits (fl e k) i (e * r1) r2.
Proof.
  intros [->| ->] (N1 & N2 & I1 & I2 & R1 & R2); unfold emits, fl; cbn [pm1 pm2 qm1 qm2].
  - rewrite !Z.mul_1_l. tauto.
  - replace (-1 * pm1 k) with (- pm1 k) by ring. replace (-1 * qm1 k) with (- qm1 k) by ring.
    rewrite Z.quot_opp_opp, Z.rem_opp_opp by auto. repeat split; auto; lia.
Qed.

Definition opb (k : block) : block := Block (- pm1 k) (- pm2 k) (- qm1 k) (- qm2 k).
Lemma alive_opb k u w y : alive k u w y -> alive (opb k) u w y.
Proof.
  unfold alive, good, good2, num, den, opb. cbn [pm1 pm2 qm1 qm2]. intros (G & D & Y). rewrite !Z.abs_opp, !Z.mul_opp_opp, !opp_IZR.
  split; [auto|]. split; [lra|]. rewrite Y. field. split; lra.
Qed.

Lemma dead_opb k u w : dead k u w -> dead (opb k) u w.
Proof. unfold dead, good2, den, opb. cbn [pm1 pm2 qm1 qm2]. intros (G & D). rewrite !Z.abs_opp, !Z.mul_opp_opp, !opp_IZR. split; [auto|lra]. Qed.

Lemma fl_moved e k b k' : e = 1 \/ e = -1 -> moved k 1 b k' ->
  moved (fl e k) 1 (e * b) (if e =? 1 then fl e k' else opb (fl e k')).
Proof.
  intros [->| ->] (g & Hg & P1 & P2 & Q1 & Q2); exists g; unfold fl, opb; cbn [Z.eqb Pos.eqb pm1 pm2 qm1 qm2]; repeat split; auto; lia.
Qed.

Lemma fl_alive_back e k u w y : e = 1 \/ e = -1 -> alive (if e =? 1 then fl e k else opb (fl e k)) u w y -> alive (fl e k) u w y.
Proof.
  intros [->| ->]; cbn [Z.eqb Pos.eqb]; auto. intros H. apply alive_opb in H. unfold opb, fl in *. cbn [pm1 pm2 qm1 qm2] in *. rewrite !Z.opp_involutive in H. exact H.
Qed.

Lemma fl_dead_back e k u w : e = 1 \/ e = -1 -> dead (if e =? 1 then fl e k else opb (fl e k)) u w -> dead (fl e k) u w.
Proof.
  intros [->| ->]; cbn [Z.eqb Pos.eqb]; auto. intros H. apply dead_opb in H. unfold opb, fl in *. cbn [pm1 pm2 qm1 qm2] in *. rewrite !Z.opp_involutive in H. exact H.
Qed.

Section RunZ.
Context (t : ity) {I : Type} (inext : I -> res (option Z * I)) (Tail : I -> R -> R -> Prop).
Context (e : Z) (He : e = 1 \/ e = -1).
Hypothesis HT : forall it u w, Tail it u w -> (0 < u)%R /\ (0 <= w)%R.
Hypothesis HN : forall it u w b it', Tail it u w -> inext it = Ok (Some b, it') ->
  0 <= e * b /\ exists u' w' s, Tail it' u' w' /\ (0 < s)%R /\ (s * u = IZR (e * b) * u' + w')%R /\ (s * w = u')%R.

Definition zlive (k : block) (it : I) (y : R) : Prop := exists u w, Tail it u w /\ alive (fl e k) u w y.
Definition zover (k : block) (it : I) : Prop := exists u w, Tail it u w /\ dead (fl e k) u w.

Lemma zlive_rmove k it y b it' k' : zlive k it y -> inext it = Ok (Some b, it') -> moved k 1 b k' -> zlive k' it' y.
Proof.
  intros (u & w & T & A) N M. destruct (HN _ _ _ _ _ T N) as (Hb & u' & w' & s & T' & Hs & U & W).
  exists u', w'. split; [auto|]. apply fl_alive_back; auto. pose proof (fl_moved e _ _ _ He M) as M'. eapply alive_move; [exact M'| |exact Hs|exact U|rewrite W; ring|exact A].
  eapply moved_good; [exact M'|lia|auto|apply A].
Qed.

Lemma zover_rmove k it b it' k' : zover k it -> inext it = Ok (Some b, it') -> moved k 1 b k' -> zover k' it'.
Proof.
  intros (u & w & T & A) N M. destruct (HN _ _ _ _ _ T N) as (Hb & u' & w' & s & T' & Hs & U & W).
  exists u', w'. split; [auto|]. apply fl_dead_back; auto. pose proof (fl_moved e _ _ _ He M) as M'. eapply dead_move; [exact M'|lia|auto|exact U|rewrite W; ring|exact A].
Qed.

Lemma homo_live fuel : forall k it y v k' it', zlive k it y -> homo_next t inext fuel (k, it) = Ok (Some v, (k', it')) ->
  istrunc y v /\ (y <> IZR v -> zlive k' it' (/ (y - IZR v))) /\ (y = IZR v -> zover k' it').
Proof.
  induction fuel as [|fuel IH]; intros k it y v k' it' L H; cbn [homo_next] in H; [discriminate|].
  apply bind_Ok in H. destruct H as ((o, k1) & R & H). apply reduce_recip_inv in R. destruct R as [(i & r1 & r2 & C & -> & ->)|(C & -> & ->)].
  - inversion H; subst. destruct L as (u & w & T & A). destruct (HT _ _ _ T). pose proof (emits_fl e _ _ _ _ He (check_integer_inv _ _ _ _ _ C)) as C'.
    destruct (emit_recip _ _ _ _ _ _ _ H0 H1 C' A) as (Tr & K1 & K2).
    split; [auto|]. split; intros; exists u, w; auto.
  - apply bind_Ok in H. destruct H as ((o, it1) & N & H). destruct o as [b|]; [|discriminate].
    apply bind_Ok in H. destruct H as (k2 & M & H). apply rmove_inv in M. eapply IH; [|exact H]. eapply zlive_rmove; eauto.
Qed.

Lemma homo_over fuel : forall k it v s', zover k it -> homo_next t inext fuel (k, it) = Ok (Some v, s') -> False.
Proof.
  induction fuel as [|fuel IH]; intros k it v s' L H; cbn [homo_next] in H; [discriminate|].
  apply bind_Ok in H. destruct H as ((o, k1) & R & H). apply reduce_recip_inv in R. destruct R as [(i & r1 & r2 & C & -> & ->)|(C & -> & ->)].
  - destruct L as (u & w & T & A). destruct (HT _ _ _ T). eapply emit_dead; eauto. apply emits_fl; [auto|]. eapply check_integer_inv; eauto.
  - apply bind_Ok in H. destruct H as ((o, it1) & N & H). destruct o as [b|]; [|discriminate].
    apply bind_Ok in H. destruct H as (k2 & M & H). apply rmove_inv in M. eapply IH; [|exact H]. eapply zover_rmove; eauto.
Qed.

Lemma homo_nth fuel n : forall k it y v, zlive k it y -> nth_item (homo_next t inext fuel) n (k, it) = Ok (Some v) -> cf_digit y n v.
Proof.
  induction n as [|n IH]; intros k it y v L H; cbn [nth_item] in H; apply bind_Ok in H; destruct H as ((o, (k1, it1)) & N & H); destruct o as [i|]; try discriminate.
  - assert (i = v) by congruence. subst i. destruct (homo_live _ _ _ _ _ _ _ L N) as (T & _). exact T.
  - destruct (homo_live _ _ _ _ _ _ _ L N) as (T & K1 & K2). exists i. split; [auto|].
    assert (Ny : y <> IZR i).
    { intros E. specialize (K2 E). destruct n; cbn [nth_item] in H; apply bind_Ok in H; destruct H as ((o, s2) & N2 & H); destruct o; try discriminate; eapply homo_over; eauto. }
    split; [auto|]. eapply IH; eauto.
Qed.

(** The first pair is read before anything is emitted *)
Lemma homo_first fuel k it v s' : qm1 k = 0 -> homo_next t inext fuel (k, it) = Ok (Some v, s') ->
  exists b it1 k1 f1, inext it = Ok (Some b, it1) /\ moved k 1 b k1 /\ homo_next t inext f1 (k1, it1) = Ok (Some v, s').
Proof.
  intros Q H. destruct fuel as [|fuel]; [discriminate|]. cbn [homo_next] in H. apply bind_Ok in H. destruct H as ((o, k1) & R & H).
  apply reduce_recip_inv in R. destruct R as [(i & r1 & r2 & C & -> & ->)|(C & -> & ->)]; [apply check_integer_inv in C; tauto|].
  apply bind_Ok in H. destruct H as ((o, it1) & N & H). destruct o as [b|]; [|discriminate].
  apply bind_Ok in H. destruct H as (k2 & M & H). apply rmove_inv in M. eauto 10.
Qed.

Lemma homo_sound fuel n k it y v : qm1 k = 0 ->
  (forall b it1 k1, inext it = Ok (Some b, it1) -> moved k 1 b k1 -> zlive k1 it1 y) ->
  nth_item (homo_next t inext fuel) n (k, it) = Ok (Some v) -> cf_digit y n v.
Proof.
  intros Q HL H. assert (E : exists i k1 it1, homo_next t inext fuel (k, it) = Ok (Some i, (k1, it1))).
  { destruct n; cbn [nth_item] in H; apply bind_Ok in H; destruct H as ((o, (k1, it1)) & N & H); destruct o as [i|]; try discriminate; eauto. }
  destruct E as (i & k1 & it1 & E). destruct (homo_first _ _ _ _ _ Q E) as (b & it2 & k2 & f & N & M & F).
  specialize (HL _ _ _ N M). destruct (homo_live _ _ _ _ _ _ _ HL F) as (T & K1 & K2).
  destruct n; cbn [nth_item] in H; rewrite E in H; cbn [bind] in H.
  - inversion H; subst. exact T.
  - exists i. split; [auto|]. assert (Ny : y <> IZR i).
    { intros Ey. specialize (K2 Ey). destruct n; cbn [nth_item] in H; apply bind_Ok in H; destruct H as ((o, s2) & N2 & H); destruct o; try discriminate; eapply homo_over; eauto. }
    split; [auto|]. eapply homo_nth; eauto.
Qed.

End RunZ.
