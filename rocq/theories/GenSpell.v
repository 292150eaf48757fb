(** * GenSpell: whatever the signs, what simplify() and homo() spell converges to the right number (C80). *)

From Coq Require Import ZArith Reals Lia Lra Psatz Bool List ConstructiveEpsilon.
From Coquelicot Require Import Coquelicot.
From Verif Require Import Base Ext ModelBlock ModelGen Spec SpecGen NumFacts SurdOrd SurdRound GenBlock GenSound GenConv GenCont GenTail GenLive GenRep GenHomo SpecSpell.
Import ListNotations.
Open Scope Z_scope.

(** ** An interval between neighbouring fractions around an irrational number *)
Definition around (y : R) (a b c d : Z) : Prop :=
  0 < b /\ 0 < d /\ b * c - a * d = 1 /\ (IZR a < y * IZR b)%R /\ (y * IZR d < IZR c)%R.

Lemma around_small y n : irrational y -> exists a b c d, around y a b c d /\ Z.of_nat n + 2 <= b + d.
Proof.
  intros Iy. induction n as [|n (a & b & c & d & (Hb & Hd & E & A & B) & L)].
  - exists (Int_part y), 1, (Int_part y + 1), 1. destruct (base_Int_part y) as [P Q]. pose proof (irr_int y (Int_part y) Iy).
    unfold around. split; [|lia]. split; [lia|]. split; [lia|]. split; [lia|]. rewrite plus_IZR. lra.
  - assert (N : (y * IZR (b + d) <> IZR (a + c))%R).
    { intros K. assert (D : IZR (b + d) <> 0%R) by (apply not_0_IZR; lia). apply (Iy (a + c) (b + d)); [lia|]. rewrite <- K. field. exact D. }
    destruct (Rlt_or_le (y * IZR (b + d)) (IZR (a + c))) as [K|K].
    + exists a, b, (a + c), (b + d). unfold around. split; [|lia]. split; [lia|]. split; [lia|]. split; [lia|]. lra.
    + exists (a + c), (b + d), c, d. unfold around. split; [|lia]. split; [lia|]. split; [lia|]. split; [lia|]. lra.
Qed.

Lemma around_eps y eps : irrational y -> (0 < eps)%R -> exists a b c d, around y a b c d /\ (/ (IZR b * IZR d) < eps)%R.
Proof.
  intros Iy He. destruct (around_small y (Z.to_nat (up (/ eps))) Iy) as (a & b & c & d & H & L). exists a, b, c, d. split; [exact H|].
  destruct H as (Hb & Hd & _). destruct (archimed (/ eps)) as [U _]. assert (0 < / eps)%R by (apply Rinv_0_lt_compat; auto).
  assert (0 < up (/ eps)) by (apply lt_IZR; lra). assert (K : up (/ eps) < b * d) by nia. apply IZR_lt in K. rewrite mult_IZR in K.
  rewrite <- (Rinv_inv eps). apply Rinv_lt_contravar; [|lra]. apply Rmult_lt_0_compat; lra.
Qed.

(** ** One item: the spelt fraction moves towards the interval *)
Section Emission.
Context (r1 r2 s1 s2 p q : Z) (Hq : q <> 0) (Det : r1 * s2 - r2 * s1 = 1 \/ r1 * s2 - r2 * s1 = -1)
  (In : 0 < (r1 * p + r2 * q) * (s1 * p + s2 * q)).
Let i := Z.quot p q.
Let z := Z.rem p q.
Let x := i * r1 + r2.
Let y := i * s1 + s2.

Lemma em_in : 0 < (x * q + r1 * z) * (y * q + s1 * z).
Proof.
  pose proof (Z.quot_rem p q Hq) as E. fold i z in E. replace (x * q + r1 * z) with (r1 * p + r2 * q) by (unfold x; rewrite E; ring).
  replace (y * q + s1 * z) with (s1 * p + s2 * q) by (unfold y; rewrite E; ring). exact In.
Qed.
Lemma em_det : r1 * y - x * s1 = 1 \/ r1 * y - x * s1 = -1.
Proof. unfold x, y. replace (r1 * (i * s1 + s2) - (i * r1 + r2) * s1) with (r1 * s2 - r2 * s1) by ring. exact Det. Qed.
Lemma em_rem : Z.abs z < Z.abs q.
Proof. apply Z.rem_bound_abs. exact Hq. Qed.
End Emission.

Lemma em_keep (r1 s1 x y z q : Z) : Z.abs z < Z.abs q -> r1 * y - x * s1 = 1 \/ r1 * y - x * s1 = -1 -> 0 < (x * q + r1 * z) * (y * q + s1 * z) ->
  0 <= r1 * s1 -> 0 <= x * y.
Proof.
  intros Hz D P H. destruct (Z.lt_ge_cases (x * y) 0) as [K|K]; [exfalso|lia].
  assert (E : r1 = 0 \/ s1 = 0).
  { destruct (Z.eq_dec r1 0); [auto|]. destruct (Z.eq_dec s1 0); [auto|]. exfalso.
    assert (S : (0 < r1 /\ 0 < s1) \/ (r1 < 0 /\ s1 < 0)) by nia. assert (T : (0 < x /\ y < 0) \/ (x < 0 /\ 0 < y)) by nia. clear P Hz K H.
    destruct S as [[S1 S2]|[S1 S2]], T as [[T1 T2]|[T1 T2]].
    - assert (r1 * y <= -1) by nia. assert (1 <= x * s1) by nia. lia.
    - assert (1 <= r1 * y) by nia. assert (x * s1 <= -1) by nia. lia.
    - assert (1 <= r1 * y) by nia. assert (x * s1 <= -1) by nia. lia.
    - assert (r1 * y <= -1) by nia. assert (1 <= x * s1) by nia. lia. }
  destruct E as [-> | ->].
  - assert (A : Z.abs (x * s1) = 1) by lia. rewrite Z.abs_mul in A. apply Z.mul_eq_1 in A. assert (B : x = 1 \/ x = -1) by lia. assert (C : s1 = 1 \/ s1 = -1) by lia. clear A D H.
    destruct B as [-> | ->], C as [-> | ->]; nia.
  - assert (A : Z.abs (r1 * y) = 1) by lia. rewrite Z.abs_mul in A. apply Z.mul_eq_1 in A. assert (B : y = 1 \/ y = -1) by lia. assert (C : r1 = 1 \/ r1 = -1) by lia. clear A D H.
    destruct B as [-> | ->], C as [-> | ->]; nia.
Qed.

Lemma em_down_pos (r s x y z : Z) (q : Z) : 0 < r -> 0 < s -> 0 < x -> 0 < y -> Z.abs z < Z.abs q -> x * s - y * r = 1 \/ x * s - y * r = -1 ->
  (x * q + r * z) * (y * q + s * z) < 0 -> x + y < r + s.
Proof.
  intros Hr Hs Hx Hy Hz D P.
  assert (E : x < r \/ y < s).
  { destruct (Z.lt_ge_cases x r); [auto|]. destruct (Z.lt_ge_cases y s); [auto|]. exfalso.
    assert (A : 0 < q -> 0 < x * q + r * z) by nia. assert (B : 0 < q -> 0 < y * q + s * z) by nia.
    assert (A' : q < 0 -> x * q + r * z < 0) by nia. assert (B' : q < 0 -> y * q + s * z < 0) by nia.
    destruct (Z.lt_trichotomy q 0) as [N|[N|N]]; [specialize (A' N); specialize (B' N); nia|lia|specialize (A N); specialize (B N); nia]. }
  destruct E as [E|E].
  - assert (y <= s); [|lia]. assert (y * r <= s * r); [|nia]. assert (x * s <= (r - 1) * s) by nia. nia.
  - assert (x <= r); [|lia]. assert (x * s <= r * s); [|nia]. assert (y * r <= (s - 1) * r) by nia. nia.
Qed.

Lemma em_down (r1 s1 x y z q : Z) : Z.abs z < Z.abs q -> r1 * y - x * s1 = 1 \/ r1 * y - x * s1 = -1 -> 0 < (x * q + r1 * z) * (y * q + s1 * z) ->
  r1 * s1 < 0 -> x * y < 0 -> Z.abs x + Z.abs y < Z.abs r1 + Z.abs s1.
Proof.
  intros Hz D P H K.
  assert (Q : forall r s u v w, 0 < r -> s < 0 -> 0 < u -> v < 0 -> Z.abs w < Z.abs q -> r * v - u * s = 1 \/ r * v - u * s = -1 -> 0 < (u * q + r * w) * (v * q + s * w) -> u - v < r - s).
  { intros r s u v w Hr Hs Hu Hv Hw D' P'. pose proof (em_down_pos r (- s) u (- v) w q) as L. enough (u + - v < r + - s) by lia. apply L; try lia. }
  destruct (Z.lt_trichotomy r1 0) as [R|[R|R]]; [|subst r1; lia|]; destruct (Z.lt_trichotomy x 0) as [X|[X|X]]; try (subst x; lia).
  - assert (0 < s1 /\ 0 < y) as [S Y] by nia. specialize (Q s1 r1 y x z S R Y X Hz). lia.
  - assert (0 < s1 /\ y < 0) as [S Y] by nia. pose proof (Q (- r1) (- s1) x y (- z) ltac:(lia) ltac:(lia) X Y ltac:(lia)) as L.
    replace (x * q + - r1 * - z) with (x * q + r1 * z) in L by ring. replace (y * q + - s1 * - z) with (y * q + s1 * z) in L by ring. lia.
  - assert (s1 < 0 /\ 0 < y) as [S Y] by nia. pose proof (Q (- s1) (- r1) y x (- z) ltac:(lia) ltac:(lia) Y X ltac:(lia)) as L.
    replace (x * q + - r1 * - z) with (x * q + r1 * z) in L by ring. replace (y * q + - s1 * - z) with (y * q + s1 * z) in L by ring. lia.
  - assert (s1 < 0 /\ y < 0) as [S Y] by nia. specialize (Q r1 s1 x y z R S X Y Hz). lia.
Qed.

Lemma settle (r s : nat -> Z) n0 :
  (forall n, (n0 <= n)%nat -> 0 <= r n * s n -> 0 <= r (S n) * s (S n)) ->
  (forall n, (n0 <= n)%nat -> r n * s n < 0 -> r (S n) * s (S n) < 0 -> Z.abs (r (S n)) + Z.abs (s (S n)) < Z.abs (r n) + Z.abs (s n)) ->
  exists N, forall n, (N <= n)%nat -> 0 <= r n * s n.
Proof.
  intros A B. assert (Q : forall m n, (n0 <= n)%nat -> Z.abs (r n) + Z.abs (s n) < Z.of_nat m -> exists N, (n0 <= N)%nat /\ 0 <= r N * s N).
  { induction m as [|m IH]; intros n Hn L; [lia|]. destruct (Z.lt_ge_cases (r n * s n) 0) as [K|K]; [|exists n; split; [auto|lia]].
    destruct (Z.lt_ge_cases (r (S n) * s (S n)) 0) as [K'|K']; [|exists (S n); split; lia]. apply (IH (S n)); [lia|]. specialize (B n Hn K K'). lia. }
  destruct (Q (Z.to_nat (Z.abs (r n0) + Z.abs (s n0) + 1)) n0 (le_n _) ltac:(lia)) as (N & HN & K). exists N. intros n Hn. induction Hn as [|n Hn IH]; [exact K|]. apply A; [lia|exact IH].
Qed.

(** ** The bounds come together, also if a few denominators vanish *)
Lemma lin_nz L x : irrational x -> la L * ld L - lb L * lc L <> 0 -> ldn L x <> 0%R.
Proof.
  intros H Det K. unfold ldn in K. destruct (Z.eq_dec (lc L) 0) as [E|Hc].
  - rewrite E, Rmult_0_l, Rplus_0_l in K. apply eq_IZR_R0 in K. rewrite E, K in Det. lia.
  - apply (H (- ld L) (lc L) Hc). rewrite opp_IZR. assert (IZR (lc L) <> 0%R) by (apply not_0_IZR; auto). field_simplify_eq; auto. lra.
Qed.

Section Lim.
Context (f : nat -> Z * Z) (x : R) (Sx : spells f x).
Let c (n : nat) : R := (IZR (gnum f n) / IZR (gden f n))%R.

Lemma lin_lims L : ldn L x <> 0%R -> is_lim_seq (fun n => ldn L (c n)) (ldn L x) /\ is_lim_seq (fun n => lval L (c n)) (lval L x).
Proof.
  intros D. destruct Sx as (N0 & D0 & Lx). fold c in Lx.
  assert (Ld : is_lim_seq (fun n => ldn L (c n)) (ldn L x)).
  { unfold ldn. apply (is_lim_seq_plus _ _ (IZR (lc L) * x)%R (IZR (ld L))); [|apply is_lim_seq_const|reflexivity].
    apply (is_lim_seq_mult _ _ (IZR (lc L)) x); [apply is_lim_seq_const|exact Lx|reflexivity]. }
  assert (Ln : is_lim_seq (fun n => IZR (la L) * c n + IZR (lb L))%R (IZR (la L) * x + IZR (lb L))%R).
  { apply (is_lim_seq_plus _ _ (IZR (la L) * x)%R (IZR (lb L))); [|apply is_lim_seq_const|reflexivity].
    apply (is_lim_seq_mult _ _ (IZR (la L)) x); [apply is_lim_seq_const|exact Lx|reflexivity]. }
  split; [exact Ld|]. unfold lval. apply (is_lim_seq_div _ _ (IZR (la L) * x + IZR (lb L))%R (ldn L x)); auto; [intros K; inversion K; auto|].
  unfold is_Rbar_div, is_Rbar_mult, Rbar_inv, Rbar_mult'. reflexivity.
Qed.

(** From some place on the image of the convergents is in any given interval *)
Lemma lin_in L lo hi : ldn L x <> 0%R -> (lo < lval L x < hi)%R ->
  exists N, forall n, (N <= n)%nat -> gden f n <> 0 /\ ldn L (c n) <> 0%R /\ (lo < lval L (c n) < hi)%R.
Proof.
  intros D B. destruct (lin_lims L D) as (Ld & Le). apply is_lim_seq_spec in Ld, Le.
  assert (P1 : (0 < Rabs (ldn L x))%R) by (apply Rabs_pos_lt; auto).
  assert (P2 : (0 < Rmin (lval L x - lo) (hi - lval L x))%R) by (apply Rmin_glb_lt; lra).
  destruct (Ld (mkposreal _ P1)) as (N1 & H1). destruct (Le (mkposreal _ P2)) as (N2 & H2). cbn [pos] in H1, H2.
  destruct Sx as (N0 & D0 & _). exists (Nat.max N0 (Nat.max N1 N2)). intros n Hn.
  split; [apply D0; lia|]. specialize (H1 n ltac:(lia)). specialize (H2 n ltac:(lia)). split.
  - intros K. rewrite K in H1. replace (0 - ldn L x)%R with (- ldn L x)%R in H1 by ring. rewrite Rabs_Ropp in H1. lra.
  - pose proof (Rmin_l (lval L x - lo) (hi - lval L x)). pose proof (Rmin_r (lval L x - lo) (hi - lval L x)). apply Rabs_def2 in H2. lra.
Qed.

Lemma rep_live m L k : rep f m L k -> ldn L x <> 0%R -> irrational (lval L x) ->
  exists N, forall k', path k (from f (S m)) N k' -> exists i r1 r2, emits k' i r1 r2.
Proof.
  intros Rk D Iy. destruct (trunc_near (lval L x) (fun i => irr_int _ i Iy)) as (i & lo & hi & B & Tz).
  destruct (lin_in L lo hi D B) as (N & Q).
  assert (K : forall n k', (N <= m + n)%nat -> path k (from f (S m)) n k' -> qm1 k' <> 0 /\ Z.quot (pm1 k') (qm1 k') = i).
  { intros n k' Hn P. destruct (Q (m + n)%nat Hn) as (Q0 & Q1 & Q2). pose proof (rep_path _ _ _ _ _ _ Rk P) as R'.
    destruct (rep_near f _ _ _ R' (not_0_IZR _ Q0) Q1) as (Nq & E). split; [auto|]. eapply istrunc_unique; [apply trunc_quot; auto|]. rewrite E. apply Tz. exact Q2. }
  exists (S N). intros k' P. destruct (K (S N) k' ltac:(lia) P) as (A1 & A2). destruct (path_snoc _ _ _ _ P) as (k1 & P' & M).
  destruct (K N k1 ltac:(lia) P') as (B1 & B2). destruct M as (g & Hg & _ & M2 & _ & M4).
  assert (Nq : qm2 k' <> 0) by (intros K0; rewrite K0 in M4; lia).
  assert (E2 : Z.quot (pm2 k') (qm2 k') = i) by (rewrite <- B2, <- M2, <- M4; rewrite Z.quot_mul_cancel_l by lia; reflexivity).
  exists i, (Z.rem (pm1 k') (qm1 k')), (Z.rem (pm2 k') (qm2 k')). unfold emits. auto 10.
Qed.
End Lim.

(** ** A run: reading pairs and emitting items *)
Definition lblock (L : lin) : block := Block (la L) (lb L) (lc L) (ld L).

(** The block after [i] pairs *)
Definition pos_at (f : nat -> Z * Z) (i : nat) (L : lin) (k : block) : Prop :=
  match i with O => k = lblock L | S m => rep f m L k end.

Section Run.
Context (f : nat -> Z * Z) (F0 : fst (f O) = 1).

Lemma pos_move i L k k' : pos_at f i L k -> moved k (fst (f i)) (snd (f i)) k' -> pos_at f (S i) L k'.
Proof.
  destruct i as [|m]; cbn [pos_at]; [|apply rep_move]. intros -> (g & Hg & A1 & A2 & B1 & B2). exists g. split; [auto|]. rewrite F0 in *.
  unfold lblock, lnum, lden in *. cbn [gcont fst snd pm1 pm2 qm1 qm2] in *. lia.
Qed.

Lemma pos_path n : forall i L k k', pos_at f i L k -> path k (from f i) n k' -> pos_at f (i + n) L k'.
Proof.
  induction n as [|n IH]; intros i L k k' A P.
  - cbn [path] in P. subst k'. rewrite Nat.add_0_r. exact A.
  - destruct P as (k1 & M & P). unfold from in M at 1 2. rewrite Nat.add_0_r in M. replace (i + S n)%nat with (S i + n)%nat by lia.
    apply (IH (S i) L k1); [eapply pos_move; eauto|]. eapply path_ext; [|exact P]. intros j. unfold shift, from. f_equal. lia.
Qed.

Lemma pos_emit i L k v r1 r2 : pos_at f i L k -> emits k v r1 r2 -> pos_at f i (lrecip L v) (Block (qm1 k) (qm2 k) r1 r2).
Proof.
  destruct i as [|m]; cbn [pos_at]; [|apply rep_emit]. intros -> (N1 & N2 & I1 & I2 & R1 & R2). unfold lblock, lrecip in *. cbn [pm1 pm2 qm1 qm2 la lb lc ld] in *.
  pose proof (Z.quot_rem (la L) (lc L) N1) as E1. pose proof (Z.quot_rem (lb L) (ld L) N2) as E2. rewrite <- I1, <- R1 in E1. rewrite <- I2, <- R2 in E2. f_equal; lia.
Qed.

Lemma pos_live x i L k : spells f x -> pos_at f i L k -> ldn L x <> 0%R -> irrational (lval L x) ->
  exists N, forall k', path k (from f i) N k' -> exists v r1 r2, emits k' v r1 r2.
Proof.
  intros Sx A D Iy. destruct i as [|m]; [|exact (rep_live f x Sx m L k A D Iy)].
  set (a := fst (f O)) in *. set (b := snd (f O)) in *.
  assert (Q : forall k1, moved k a b k1 -> exists N, forall k', path k1 (from f 1) N k' -> exists v r1 r2, emits k' v r1 r2).
  { intros k1 M. apply (rep_live f x Sx 0 L k1); auto. exact (pos_move 0 L k k1 A M). }
  (* the block after the first pair is determined up to a common factor *)
  pose (kk := Block (pm1 k * b + pm2 k * a) (pm1 k) (qm1 k * b + qm2 k * a) (qm1 k)).
  destruct (Q kk) as (N & HN). { exists 1. unfold kk. cbn [pm1 pm2 qm1 qm2]. lia. }
  exists (S N). intros k' (k1 & M & P).
  assert (Up : exists k2, path kk (from f 1) N k2 /\ exists g, 1 <= g /\ pm1 k2 = g * pm1 k' /\ pm2 k2 = g * pm2 k' /\ qm1 k2 = g * qm1 k' /\ qm2 k2 = g * qm2 k').
  { destruct M as (g & Hg & M1 & M2 & M3 & M4). unfold from in M1, M3. cbn [Nat.add] in M1, M3. fold a b in M1, M3.
    assert (G : exists g, 1 <= g /\ pm1 kk = g * pm1 k1 /\ pm2 kk = g * pm2 k1 /\ qm1 kk = g * qm1 k1 /\ qm2 kk = g * qm2 k1) by (exists g; unfold kk; cbn [pm1 pm2 qm1 qm2]; lia).
    assert (P1 : path k1 (from f 1) N k') by (eapply path_ext; [|exact P]; intros j; reflexivity).
    clearbody kk. clear - P1 G. revert k1 kk G P1. generalize (from f 1). induction N as [|N IH]; intros h k1 kk (g & Hg & A1 & A2 & A3 & A4) P.
    - cbn [path] in *. subst k'. exists kk. split; [reflexivity|]. eauto 8.
    - destruct P as (k3 & (e & He & B1 & B2 & B3 & B4) & P).
      destruct (IH (shift h) k3 (Block (g * (e * pm1 k3)) (g * (e * pm2 k3)) (g * (e * qm1 k3)) (g * (e * qm2 k3)))) as (k2 & P2 & G2).
      + exists (g * e). cbn [pm1 pm2 qm1 qm2]. split; [nia|]. repeat split; ring.
      + exact P.
      + exists k2. split; [|exact G2]. eexists. split; [|exact P2]. exists 1. cbn [pm1 pm2 qm1 qm2]. rewrite A1, A2, A3, A4, B1, B2, B3, B4. split; [lia|]. repeat split; ring. }
  destruct Up as (k2 & P2 & g & Hg & E1 & E2 & E3 & E4). destruct (HN k2 P2) as (v & r1 & r2 & N1 & N2 & I1 & I2 & _). rewrite E1, E3, Z.quot_mul_cancel_l in I1 by lia. rewrite E2, E4, Z.quot_mul_cancel_l in I2 by lia.
  exists v, (Z.rem (pm1 k') (qm1 k')), (Z.rem (pm2 k') (qm2 k')). unfold emits. rewrite E3 in N1. rewrite E4 in N2. split; [lia|]. split; [lia|]. auto.
Qed.
End Run.

Section Machine.
Context (f : nat -> Z * Z) (F0 : fst (f O) = 1) (nx : nat -> block * nat -> res (option Z * (block * nat))) (x : R) (Sx : spells f x) (Ix : irrational x) (L0 : lin).
Hypothesis Det0 : la L0 * ld L0 - lb L0 * lc L0 <> 0.
Hypothesis Mono : forall f1 f2 s r, nx f1 s = Ok r -> (f1 <= f2)%nat -> nx f2 s = Ok r.
Hypothesis Inv : forall fuel k i v k' i', nx fuel (k, i) = Ok (Some v, (k', i')) ->
  exists n k1 r1 r2, path k (from f i) n k1 /\ emits k1 v r1 r2 /\ k' = Block (qm1 k1) (qm2 k1) r1 r2 /\ i' = (i + n)%nat.
Hypothesis Emit : forall N k i, (forall k', path k (from f i) N k' -> exists v r1 r2, emits k' v r1 r2) -> exists v s', nx (S N) (k, i) = Ok (Some v, s').

Definition good (s : block * nat) : Prop := exists L, pos_at f (snd s) L (fst s) /\ ldn L x <> 0%R /\ irrational (lval L x).

Lemma good_first : good (lblock L0, O).
Proof. exists L0. cbn [fst snd pos_at]. split; [reflexivity|]. split; [apply lin_nz; auto|]. apply irr_mobius; auto. Qed.

Lemma good_step fuel s v s' : good s -> nx fuel s = Ok (Some v, s') -> good s'.
Proof.
  destruct s as [k i], s' as [k' i']. intros (L & A & D & Iy) E. cbn [fst snd] in *. destruct (Inv _ _ _ _ _ _ E) as (n & k1 & r1 & r2 & P & Em & -> & ->).
  pose proof (pos_path f F0 _ _ _ _ _ A P) as A1. destruct (lval_recip L x v D (irr_int _ v Iy)) as (D' & E').
  exists (lrecip L v). cbn [fst snd]. split; [apply pos_emit; auto|]. split; [exact D'|]. rewrite E'. apply irr_recip. exact Iy.
Qed.

Lemma good_live s : good s -> exists fuel v s', nx fuel s = Ok (Some v, s').
Proof.
  destruct s as [k i]. intros (L & A & D & Iy). cbn [fst snd] in *. destruct (pos_live f F0 x i L k Sx A D Iy) as (N & HN). destruct (Emit N k i HN) as (v & s' & E). eauto.
Qed.

Definition some_item (s : block * nat) (fuel : nat) : Prop := match nx fuel s with Ok (Some _, _) => True | _ => False end.
Lemma some_item_dec s fuel : {some_item s fuel} + {~ some_item s fuel}.
Proof. unfold some_item. destruct (nx fuel s) as [[[v|] s']| |]; auto. Defined.

Definition go (s : sig good) : {p : Z * sig good | exists fuel, nx fuel (proj1_sig s) = Ok (Some (fst p), proj1_sig (snd p))}.
Proof.
  destruct s as [s G].
  assert (Ex : exists fuel, some_item s fuel) by (destruct (good_live s G) as (fuel & v & s' & E); exists fuel; unfold some_item; rewrite E; exact I).
  destruct (constructive_indefinite_ground_description_nat _ (some_item_dec s) Ex) as (fuel & K). unfold some_item in K.
  destruct (nx fuel s) as [[[v|] s']| |] eqn:E; try contradiction.
  exists (v, exist _ s' (good_step fuel s v s' G E)). exists fuel. exact E.
Qed.

Fixpoint states (n : nat) : sig good := match n with O => exist _ _ good_first | S n => snd (proj1_sig (go (states n))) end.

Lemma trace : exists (s : nat -> block * nat) (h : nat -> Z), s O = (lblock L0, O) /\ forall n, exists fuel, nx fuel (s n) = Ok (Some (h n), s (S n)).
Proof.
  exists (fun n => proj1_sig (states n)), (fun n => fst (proj1_sig (go (states n)))). split; [reflexivity|]. intros n. exact (proj2_sig (go (states n))).
Qed.

Context (s : nat -> block * nat) (h : nat -> Z) (S0 : s O = (lblock L0, O)) (Sn : forall n, exists fuel, nx fuel (s n) = Ok (Some (h n), s (S n))).

Lemma trace_items n : forall m, exists fuel, forall fuel', (fuel <= fuel')%nat -> nth_item (nx fuel') n (s m) = Ok (Some (h (m + n)%nat)).
Proof.
  induction n as [|n IH]; intros m; destruct (Sn m) as (F & E).
  - exists F. intros F' HF. rewrite nth_item_0, (Mono _ _ _ _ E HF), Nat.add_0_r. reflexivity.
  - destruct (IH (S m)) as (F2 & K). exists (Nat.max F F2). intros F' HF. rewrite (nth_item_S (nx F') n (s m) (h m) (s (S m))); [|apply (Mono F); auto; lia].
    rewrite K by lia. do 2 f_equal. f_equal. lia.
Qed.

(** The map that is left after [n] items *)
Fixpoint left (n : nat) : lin := match n with O => L0 | S n => lrecip (left n) (h n) end.

Lemma trace_step n : exists j k1 r1 r2, path (fst (s n)) (from f (snd (s n))) j k1 /\ emits k1 (h n) r1 r2 /\ s (S n) = (Block (qm1 k1) (qm2 k1) r1 r2, (snd (s n) + j)%nat).
Proof.
  destruct (Sn n) as (F & E). destruct (s n) as [k i], (s (S n)) as [k' i']. destruct (Inv _ _ _ _ _ _ E) as (j & k1 & r1 & r2 & P & Em & -> & ->).
  cbn [fst snd]. exists j, k1, r1, r2. auto.
Qed.

Lemma trace_pos n : pos_at f (snd (s n)) (left n) (fst (s n)).
Proof.
  induction n as [|n IH]; [rewrite S0; reflexivity|]. destruct (trace_step n) as (j & k1 & r1 & r2 & P & Em & ->). cbn [fst snd left].
  apply pos_emit; auto. apply (pos_path f F0 j _ _ (fst (s n))); auto.
Qed.

(** Reading never ends: without reading the denominator gets smaller *)
Lemma trace_reads n : forall m, (Z.to_nat (Z.abs (qm1 (fst (s m)))) < n)%nat -> exists j, (snd (s m) < snd (s (m + j)))%nat.
Proof.
  induction n as [|n IH]; intros m L; [lia|]. destruct (trace_step m) as (j & k1 & r1 & r2 & P & (N1 & _ & _ & _ & R1 & _) & E).
  destruct j as [|j]; [|exists 1%nat; rewrite Nat.add_1_r, E; cbn [snd]; lia].
  cbn [path] in P. subst k1. assert (B : Z.abs r1 < Z.abs (qm1 (fst (s m)))) by (rewrite R1; apply Z.rem_bound_abs; auto).
  destruct (IH (S m)) as (j & K).
  - rewrite E. cbn [fst qm1]. lia.
  - exists (S j). replace (m + S j)%nat with (S m + j)%nat by lia. rewrite E in K at 1. cbn [snd] in K. lia.
Qed.

Lemma trace_mono m n : (m <= n)%nat -> (snd (s m) <= snd (s n))%nat.
Proof.
  intros H. induction H as [|n H IH]; [lia|]. destruct (trace_step n) as (j & k1 & r1 & r2 & _ & _ & E). rewrite E. cbn [snd]. lia.
Qed.

Lemma trace_far i : exists m, forall n, (m <= n)%nat -> (i <= snd (s n))%nat.
Proof.
  enough (exists m, (i <= snd (s m))%nat) as (m & H) by (exists m; intros n Hn; pose proof (trace_mono m n Hn); lia).
  induction i as [|i (m & IH)]; [exists O; lia|]. destruct (trace_reads (S (Z.to_nat (Z.abs (qm1 (fst (s m)))))) m ltac:(lia)) as (j & K). exists (m + j)%nat. lia.
Qed.

(** What has been spelt *)
Notation g := (fun n => (1, h n)).
Definition mat (n : nat) : (Z * Z) * (Z * Z) := match n with O => ((0, 1), (1, 0)) | S n => gcont g n end.

Lemma mat_S n : mat (S n) = (snd (mat n), (h n * fst (snd (mat n)) + fst (fst (mat n)), h n * snd (snd (mat n)) + snd (fst (mat n)))).
Proof.
  destruct n as [|n]; cbn [mat].
  - cbn [gcont fst snd]. repeat f_equal; ring.
  - cbn [gcont]. destruct (gcont g n) as [old cur]. cbn [fst snd]. repeat f_equal; ring.
Qed.

Lemma mat_left n : let '((p2, q2), (p1, q1)) := mat n in
  (p1 * q2 - p2 * q1 = 1 \/ p1 * q2 - p2 * q1 = -1) /\ la L0 = p1 * la (left n) + p2 * lc (left n) /\ lb L0 = p1 * lb (left n) + p2 * ld (left n) /\
  lc L0 = q1 * la (left n) + q2 * lc (left n) /\ ld L0 = q1 * lb (left n) + q2 * ld (left n).
Proof.
  induction n as [|n IH].
  - cbn [mat left]. split; [lia|]. lia.
  - rewrite mat_S. destruct (mat n) as [[p2 q2] [p1 q1]]. cbn [fst snd left]. unfold lrecip. cbn [la lb lc ld]. destruct IH as (D & A & B & C & E).
    split; [replace ((h n * p1 + p2) * q1 - p1 * (h n * q1 + q2)) with (- (p1 * q2 - p2 * q1)) by ring; lia|].
    rewrite A, B, C, E. repeat split; ring.
Qed.

Notation y := (lval L0 x).

(** Inside every interval around the number *)
Lemma trace_in a b c d : around y a b c d ->
  exists N, forall n, (N <= n)%nat -> gden g n <> 0 /\ (IZR a / IZR b <= IZR (gnum g n) / IZR (gden g n) <= IZR c / IZR d)%R.
Proof.
  intros (Hb & Hd & E & Ya & Yc). assert (Pb : (0 < IZR b)%R) by (apply IZR_lt; auto). assert (Pd : (0 < IZR d)%R) by (apply IZR_lt; auto).
  assert (B : (IZR a / IZR b < y < IZR c / IZR d)%R).
  { split; [apply (Rmult_lt_reg_r (IZR b)); auto; unfold Rdiv; rewrite Rmult_assoc, Rinv_l by lra; lra|apply (Rmult_lt_reg_r (IZR d)); auto; unfold Rdiv; rewrite Rmult_assoc, Rinv_l by lra; lra]. }
  destruct (lin_in f x Sx L0 _ _ (lin_nz L0 x Ix Det0) B) as (i0 & In). destruct (trace_far (S i0)) as (m0 & Far).
  set (r := fun n => b * fst (snd (mat n)) - a * snd (snd (mat n))). set (t := fun n => c * snd (snd (mat n)) - d * fst (snd (mat n))).
  assert (Em : forall n, (m0 <= n)%nat -> exists z q, Z.abs z < Z.abs q /\ (r n * t (S n) - r (S n) * t n = 1 \/ r n * t (S n) - r (S n) * t n = -1) /\
    0 < (r (S n) * q + r n * z) * (t (S n) * q + t n * z)).
  { intros n Hn. destruct (trace_step n) as (j & k1 & r1 & r2 & P & (N1 & _ & I1 & _ & R1 & _) & Es).
    pose proof (pos_path f F0 j _ _ _ _ (trace_pos n) P) as A. pose proof (Far n Hn) as Fr. destruct (snd (s n) + j)%nat as [|m] eqn:Em; [lia|].
    cbn [pos_at] in A. destruct A as (u & Hu & P1 & Q1 & _). change (snd (gcont f m)) with (gnum f m, gden f m) in P1, Q1 || idtac.
    unfold lnum, lden in P1, Q1. fold (gnum f m) in P1, Q1. fold (gden f m) in P1, Q1.
    destruct (In m ltac:(lia)) as (Dm & Ld & Iv).
    pose proof (mat_left n) as M. pose proof (mat_S n) as MS. destruct (mat n) as [[p2 q2] [p1 q1]] eqn:Mn. cbn [fst snd] in MS. destruct M as (Dt & A & B' & C & F).
    exists (Z.rem (pm1 k1) (qm1 k1)), (qm1 k1). split; [apply Z.rem_bound_abs; auto|].
    assert (Er : r n = b * p1 - a * q1) by (unfold r; rewrite Mn; reflexivity). assert (Et : t n = c * q1 - d * p1) by (unfold t; rewrite Mn; reflexivity).
    assert (Er' : r (S n) = h n * r n + (b * p2 - a * q2)) by (rewrite Er; unfold r; rewrite MS; cbn [fst snd]; ring).
    assert (Et' : t (S n) = h n * t n + (c * q2 - d * p2)) by (rewrite Et; unfold t; rewrite MS; cbn [fst snd]; ring).
    rewrite Er', Et'. rewrite I1.
    assert (Q : 0 < (r n * pm1 k1 + (b * p2 - a * q2) * qm1 k1) * (t n * pm1 k1 + (c * q2 - d * p2) * qm1 k1)).
    { set (U := la L0 * gnum f m + lb L0 * gden f m). set (V := lc L0 * gnum f m + ld L0 * gden f m).
      assert (EU : U = u * (p1 * pm1 k1 + p2 * qm1 k1)) by (rewrite Z.mul_add_distr_l, !Z.mul_assoc, (Z.mul_comm u p1), (Z.mul_comm u p2), <- !Z.mul_assoc, P1, Q1; unfold U; rewrite A, B'; ring).
      assert (EV : V = u * (q1 * pm1 k1 + q2 * qm1 k1)) by (rewrite Z.mul_add_distr_l, !Z.mul_assoc, (Z.mul_comm u q1), (Z.mul_comm u q2), <- !Z.mul_assoc, P1, Q1; unfold V; rewrite C, F; ring).
      assert (K : 0 < (b * U - a * V) * (c * V - d * U)).
      { apply lt_IZR. rewrite mult_IZR, !minus_IZR, !mult_IZR. set (cm := (IZR (gnum f m) / IZR (gden f m))%R) in *. assert (Gm : IZR (gden f m) <> 0%R) by (apply not_0_IZR; auto).
        assert (RV : IZR V = (IZR (gden f m) * ldn L0 cm)%R) by (unfold V, ldn, cm; rewrite plus_IZR, !mult_IZR; field; auto).
        assert (RU : IZR U = (IZR V * lval L0 cm)%R).
        { rewrite RV. unfold lval. fold (ldn L0 cm). transitivity (IZR (gden f m) * (IZR (la L0) * cm + IZR (lb L0)))%R; [unfold U, cm; rewrite plus_IZR, !mult_IZR; field; auto|field; exact Ld]. }
        assert (NV : IZR V <> 0%R) by (rewrite RV; apply Rmult_integral_contrapositive; auto). rewrite RU. set (w := lval L0 cm) in *. set (v := IZR V) in *.
        replace ((IZR b * (v * w) - IZR a * v) * (IZR c * v - IZR d * (v * w)))%R with ((v * v) * (IZR b * IZR d * ((w - IZR a / IZR b) * (IZR c / IZR d - w))))%R by (field; lra).
        apply Rmult_lt_0_compat; [apply Rsqr_pos_lt; exact NV|]. apply Rmult_lt_0_compat; [apply Rmult_lt_0_compat; auto|]. apply Rmult_lt_0_compat; lra. }
      rewrite EU, EV in K. rewrite Er, Et.
      replace ((b * (u * (p1 * pm1 k1 + p2 * qm1 k1)) - a * (u * (q1 * pm1 k1 + q2 * qm1 k1))) * (c * (u * (q1 * pm1 k1 + q2 * qm1 k1)) - d * (u * (p1 * pm1 k1 + p2 * qm1 k1))))
        with (u * u * (((b * p1 - a * q1) * pm1 k1 + (b * p2 - a * q2) * qm1 k1) * ((c * q1 - d * p1) * pm1 k1 + (c * q2 - d * p2) * qm1 k1))) in K by ring.
      apply Z.mul_pos_cancel_l in K; [exact K|nia]. }
    assert (Dn : r n * (c * q2 - d * p2) - (b * p2 - a * q2) * t n = 1 \/ r n * (c * q2 - d * p2) - (b * p2 - a * q2) * t n = -1).
    { rewrite Er, Et. replace ((b * p1 - a * q1) * (c * q2 - d * p2) - (b * p2 - a * q2) * (c * q1 - d * p1)) with ((b * c - a * d) * (p1 * q2 - p2 * q1)) by ring. rewrite E. lia. }
    split; [exact (em_det _ _ _ _ (pm1 k1) (qm1 k1) Dn)|exact (em_in _ _ _ _ (pm1 k1) (qm1 k1) N1 Q)]. }
  destruct (settle r t m0) as (N & Hs).
  - intros n Hn H. destruct (Em n Hn) as (z & q & Hz & D & P). exact (em_keep _ _ _ _ z q Hz D P H).
  - intros n Hn H K. destruct (Em n Hn) as (z & q & Hz & D & P). exact (em_down _ _ _ _ z q Hz D P H K).
  - exists N. intros n Hn. specialize (Hs (S n) ltac:(lia)). pose proof (mat_left (S n)) as M. unfold r, t in Hs. cbn [mat] in Hs, M. fold (gnum g n) (gden g n) in Hs.
    unfold gnum, gden in *. destruct (gcont g n) as [[p2 q2] [p q]]. cbn [fst snd] in *. destruct M as (Dt & _).
    assert (Eq : q = d * (b * p - a * q) + b * (c * q - d * p)) by (transitivity ((b * c - a * d) * q); [rewrite E; ring|ring]).
    assert (Ep : p = c * (b * p - a * q) + a * (c * q - d * p)) by (transitivity ((b * c - a * d) * p); [rewrite E; ring|ring]).
    set (u := b * p - a * q) in *. set (v := c * q - d * p) in *.
    assert (Nz : u <> 0 \/ v <> 0). { destruct (Z.eq_dec u 0) as [Zu|]; [|auto]. destruct (Z.eq_dec v 0) as [Zv|]; [|auto]. rewrite Zu, Zv in Ep, Eq. exfalso. clear - Ep Eq Dt. nia. }
    assert (Sg : 0 < q /\ 0 <= u /\ 0 <= v \/ q < 0 /\ u <= 0 /\ v <= 0).
    { clearbody u v. clear - Eq Hs Nz Hb Hd. assert (K : 0 <= u /\ 0 <= v \/ u <= 0 /\ v <= 0) by nia. destruct K as [[K1 K2]|[K1 K2]]; [left|right]; nia. }
    assert (Nq : q <> 0) by lia. split; [exact Nq|]. assert (Rq : IZR q <> 0%R) by (apply not_0_IZR; auto).
    assert (D1 : (IZR p / IZR q - IZR a / IZR b = IZR u / IZR q / IZR b)%R) by (unfold u; rewrite minus_IZR, !mult_IZR; field; lra).
    assert (D2 : (IZR c / IZR d - IZR p / IZR q = IZR v / IZR q / IZR d)%R) by (unfold v; rewrite minus_IZR, !mult_IZR; field; lra).
    assert (Su : (0 <= IZR u / IZR q)%R /\ (0 <= IZR v / IZR q)%R).
    { destruct Sg as [(Sq & S1 & S2)|(Sq & S1 & S2)].
      - apply IZR_lt in Sq. apply IZR_le in S1, S2. split; apply Rle_mult_inv_pos; auto.
      - apply IZR_lt in Sq. apply IZR_le in S1, S2. replace (IZR u / IZR q)%R with (- IZR u / - IZR q)%R by (field; auto). replace (IZR v / IZR q)%R with (- IZR v / - IZR q)%R by (field; auto).
        split; apply Rle_mult_inv_pos; lra. }
    pose proof (Rle_mult_inv_pos _ _ (proj1 Su) Pb) as G1. pose proof (Rle_mult_inv_pos _ _ (proj2 Su) Pd) as G2. unfold Rdiv in *. lra.
Qed.

Lemma trace_spells : cspells h y.
Proof.
  pose proof (irr_mobius x _ _ _ _ Ix Det0) as Iy. fold y in Iy.
  destruct (around_small y 0 Iy) as (a & b & c & d & Ar & _). destruct (trace_in a b c d Ar) as (N & HN). exists N. split; [intros n Hn; apply HN; auto|].
  apply is_lim_seq_spec. intros [eps He]. cbn [pos]. destruct (around_eps y eps Iy He) as (a' & b' & c' & d' & Ar' & Sm). destruct (trace_in _ _ _ _ Ar') as (N' & HN').
  exists N'. intros n Hn. destruct (HN' n Hn) as (_ & B). destruct Ar' as (Hb & Hd & E & Ya & Yc). apply IZR_lt in Hb, Hd.
  assert (A1 : (IZR a' / IZR b' < y)%R) by (apply (Rmult_lt_reg_r (IZR b')); auto; unfold Rdiv; rewrite Rmult_assoc, Rinv_l by lra; lra).
  assert (A2 : (y < IZR c' / IZR d')%R) by (apply (Rmult_lt_reg_r (IZR d')); auto; unfold Rdiv; rewrite Rmult_assoc, Rinv_l by lra; lra).
  assert (W : (IZR c' / IZR d' - IZR a' / IZR b' = / (IZR b' * IZR d'))%R).
  { apply (f_equal IZR) in E. rewrite minus_IZR, !mult_IZR in E. replace (IZR c' / IZR d' - IZR a' / IZR b')%R with ((IZR b' * IZR c' - IZR a' * IZR d') / (IZR b' * IZR d'))%R by (field; lra). rewrite E. field. lra. }
  apply Rabs_def1; lra.
Qed.
End Machine.

(** ** Two sources of the same items *)
Section Same.
Context {A I : Type} (inext : I -> res (option A * I)) (f : nat -> A).
Definition rel {B : Type} (r1 : res (option B * (block * I))) (r2 : res (option B * (block * nat))) : Prop :=
  match r1, r2 with
  | Ok (o1, (k1, it)), Ok (o2, (k2, i)) => o1 = o2 /\ k1 = k2 /\ yields inext it (fun n => f (i + n)%nat)
  | Panic a, Panic b => a = b
  | Hang, Hang => True
  | _, _ => False
  end.

Lemma same_step it i : yields inext it (fun n => f (i + n)%nat) -> exists it', inext it = Ok (Some (f i), it') /\ yields inext it' (fun n => f (S i + n)%nat).
Proof.
  intros Y. destruct (yields_step inext _ _ Y) as (it' & E & Y'). exists it'. rewrite Nat.add_0_r in E. split; [exact E|]. intros n. rewrite (Y' n). unfold shift. do 3 f_equal. lia.
Qed.

Lemma same_nth {B} (n1 : block * I -> res (option B * (block * I))) (n2 : block * nat -> res (option B * (block * nat))) :
  (forall k it i, yields inext it (fun n => f (i + n)%nat) -> rel (n1 (k, it)) (n2 (k, i))) ->
  forall n k it i, yields inext it (fun n => f (i + n)%nat) -> nth_item n1 n (k, it) = nth_item n2 n (k, i).
Proof.
  intros H. induction n as [|n IH]; intros k it i Y; specialize (H k it i Y); cbn [nth_item]; destruct (n1 (k, it)) as [[o1 [k1 it1]]| |], (n2 (k, i)) as [[o2 [k2 i2]]| |];
    cbn [rel] in H; try contradiction; cbn [bind]; try (f_equal; exact H); try reflexivity.
  - destruct H as (-> & _). reflexivity.
  - destruct H as (-> & -> & Y'). destruct o2; [apply IH; exact Y'|reflexivity].
Qed.
End Same.

Lemma simp_same {I} (inext : I -> res (option (Z * Z) * I)) f t fuel : forall k it i, yields inext it (fun n => f (i + n)%nat) ->
  rel inext f (simp_next t inext fuel (k, it)) (simp_next t (from_fn f) fuel (k, i)).
Proof.
  induction fuel as [|fuel IH]; intros k it i Y; cbn [simp_next]; [exact Logic.I|].
  destruct (block_reduce_recip t k) as [[o k1]| |]; cbn [bind]; [|reflexivity|exact Logic.I]. destruct o as [v|]; [cbn [rel]; auto|].
  destruct (same_step inext f it i Y) as (it' & -> & Y'). cbn [bind from_fn]. destruct (f i) as [a b]. destruct (block_gmove t k1 a b) as [k2| |]; cbn [bind]; [|reflexivity|exact Logic.I]. apply IH. exact Y'.
Qed.

Lemma homo_same {I} (inext : I -> res (option Z * I)) f t fuel : forall k it i, yields inext it (fun n => f (i + n)%nat) ->
  rel inext f (homo_next t inext fuel (k, it)) (homo_next t (from_fn f) fuel (k, i)).
Proof.
  induction fuel as [|fuel IH]; intros k it i Y; cbn [homo_next]; [exact Logic.I|].
  destruct (block_reduce_recip t k) as [[o k1]| |]; cbn [bind]; [|reflexivity|exact Logic.I]. destruct o as [v|]; [cbn [rel]; auto|].
  destruct (same_step inext f it i Y) as (it' & -> & Y'). cbn [bind from_fn]. destruct (block_rmove t k1 (f i)) as [k2| |]; cbn [bind]; [|reflexivity|exact Logic.I]. apply IH. exact Y'.
Qed.

(** ** What one call does *)
Lemma simp_call t f fuel : forall k i v k' i', simp_next t (from_fn f) fuel (k, i) = Ok (Some v, (k', i')) ->
  exists n k1 r1 r2, path k (from f i) n k1 /\ emits k1 v r1 r2 /\ k' = Block (qm1 k1) (qm2 k1) r1 r2 /\ i' = (i + n)%nat.
Proof.
  induction fuel as [|fuel IH]; intros k i v k' i' H; cbn [simp_next] in H; [discriminate|].
  apply bind_Ok in H. destruct H as ((u, k1) & R & H). apply reduce_recip_inv in R. destruct R as [(j & r1 & r2 & C & -> & ->)|(C & -> & ->)].
  - inversion H; subst. apply check_integer_inv in C. exists O, k, r1, r2. cbn [path]. split; [reflexivity|]. split; [exact C|]. split; [reflexivity|lia].
  - cbn [from_fn bind] in H. destruct (f i) as [a b] eqn:Ef. apply bind_Ok in H. destruct H as (k2 & M & H). apply gmove_inv in M.
    destruct (IH _ _ _ _ _ H) as (n & k3 & r1 & r2 & P & Em & -> & ->). exists (S n), k3, r1, r2. split; [|split; [exact Em|split; [reflexivity|lia]]].
    exists k2. unfold from at 1 2. rewrite Nat.add_0_r, Ef. split; [exact M|]. eapply path_ext; [|exact P]. intros j. unfold from, shift. f_equal. lia.
Qed.

Lemma homo_call t f fuel : forall k i v k' i', homo_next t (from_fn f) fuel (k, i) = Ok (Some v, (k', i')) ->
  exists n k1 r1 r2, path k (from (fun n => (1, f n)) i) n k1 /\ emits k1 v r1 r2 /\ k' = Block (qm1 k1) (qm2 k1) r1 r2 /\ i' = (i + n)%nat.
Proof.
  induction fuel as [|fuel IH]; intros k i v k' i' H; cbn [homo_next] in H; [discriminate|].
  apply bind_Ok in H. destruct H as ((u, k1) & R & H). apply reduce_recip_inv in R. destruct R as [(j & r1 & r2 & C & -> & ->)|(C & -> & ->)].
  - inversion H; subst. apply check_integer_inv in C. exists O, k, r1, r2. cbn [path]. split; [reflexivity|]. split; [exact C|]. split; [reflexivity|lia].
  - cbn [from_fn bind] in H. apply bind_Ok in H. destruct H as (k2 & M & H). apply rmove_inv in M.
    destruct (IH _ _ _ _ _ H) as (n & k3 & r1 & r2 & P & Em & -> & ->). exists (S n), k3, r1, r2. split; [|split; [exact Em|split; [reflexivity|lia]]].
    exists k2. unfold from at 1 2. rewrite Nat.add_0_r. cbn [fst snd]. split; [exact M|]. eapply path_ext; [|exact P]. intros j. unfold from, shift. do 2 f_equal. lia.
Qed.

Lemma from_yields {A} (f : nat -> A) i : yields (from_fn f) i (fun n => f (i + n)%nat).
Proof. intros n. apply from_fn_nth. Qed.

(** ** Any integer type *)
Definition sub {A} (r1 r2 : res A) : Prop := forall v, r1 = Ok v -> r2 = Ok v.
Lemma sub_bind {A B} (a1 a2 : res A) (f1 f2 : A -> res B) : sub a1 a2 -> (forall v, sub (f1 v) (f2 v)) -> sub (bind a1 f1) (bind a2 f2).
Proof. intros H1 H2 v E. apply bind_Ok in E. destruct E as (w & E1 & E2). rewrite (H1 _ E1). apply H2. exact E2. Qed.
Lemma sub_refl {A} (r : res A) : sub r r. Proof. intros v E. exact E. Qed.
Lemma sub_chk t z : sub (chk t z) (chk BigI z). Proof. intros v. apply chk_big. Qed.
Lemma sub_quot t p q : sub (quotT t p q) (quotT BigI p q). Proof. unfold quotT. destruct (q =? 0); [apply sub_refl|apply sub_chk]. Qed.

Lemma gmove_any t k a b : sub (block_gmove t k a b) (block_gmove BigI k a b).
Proof.
  unfold block_gmove, lift2, mulT, addT, gcdT. cbn [bind].
  repeat first [apply sub_chk | apply sub_quot | apply sub_refl | apply sub_bind; [|intros ?]
    | match goal with |- sub (if ?b then _ else _) _ => destruct b end].
Qed.

Lemma simp_any t {I} (inext : I -> res (option (Z * Z) * I)) fuel : forall s r, simp_next t inext fuel s = Ok r -> simp_next BigI inext fuel s = Ok r.
Proof.
  induction fuel as [|fuel IH]; intros [k it] r H; [discriminate|]. cbn [simp_next] in *. unfold block_reduce_recip in *.
  apply bind_Ok in H. destruct H as ((o, k1) & Rr & H). apply bind_Ok in Rr. destruct Rr as (c & C & Rr). rewrite (check_integer_any _ _ _ C). cbn [bind].
  destruct c as [[[i r1] r2]|]; injection Rr as <- <-; cbn [bind]; [exact H|].
  apply bind_Ok in H. destruct H as ((o, it1) & N & H). rewrite N. cbn [bind]. destruct o as [[a b]|]; [|exact H].
  apply bind_Ok in H. destruct H as (k2 & M & H). rewrite (gmove_any _ _ _ _ _ M). cbn [bind]. apply IH. exact H.
Qed.

Lemma items_any {I B} (nx : ity -> nat -> block * I -> res (option B * (block * I))) s0 (h : nat -> B) :
  (forall t fuel s r, nx t fuel s = Ok r -> nx BigI fuel s = Ok r) ->
  (forall f1 f2 s r, nx BigI f1 s = Ok r -> (f1 <= f2)%nat -> nx BigI f2 s = Ok r) ->
  (forall n, exists fuel, forall fuel', (fuel <= fuel')%nat -> nth_item (nx BigI fuel') n s0 = Ok (Some (h n))) ->
  forall t fuel n o, nth_item (nx t fuel) n s0 = Ok o -> o = Some (h n).
Proof.
  intros An Mo G t fuel n o H. apply (nth_any _ (nx BigI fuel) (An t fuel)) in H. destruct (G n) as (F & HF). pose proof (HF (Nat.max F fuel) ltac:(lia)) as K.
  assert (H' : nth_item (nx BigI (Nat.max F fuel)) n s0 = Ok o). { revert H. apply nth_any. intros s r E. apply (Mo fuel); [exact E|lia]. }
  congruence.
Qed.

(** ** simplify() and homo() *)
Theorem simplify_spells {I} (inext : I -> res (option (Z * Z) * I)) it f x : yields inext it f -> fst (f O) = 1 -> spells f x -> irrational x ->
  exists h, cspells h x /\
    (forall n, exists fuel, forall fuel', (fuel <= fuel')%nat -> nth_item (simp_next BigI inext fuel') n (gcf_simplify it) = Ok (Some (h n))) /\
    (forall t fuel n o, nth_item (simp_next t inext fuel) n (gcf_simplify it) = Ok o -> o = Some (h n)).
Proof.
  intros Y F0 Sx Ix. set (nx := simp_next BigI (from_fn f)).
  assert (Det : la lid * ld lid - lb lid * lc lid <> 0) by (cbn; lia).
  assert (Em : forall N k i, (forall k', path k (from f i) N k' -> exists v r1 r2, emits k' v r1 r2) -> exists v s', nx (S N) (k, i) = Ok (Some v, s')).
  { intros N k i H. exact (simp_emits (from_fn f) N k i (from f i) (from_yields f i) H). }
  destruct (trace f F0 nx x Sx Ix lid Det (simp_call BigI f) Em) as (s & h & S0 & Sn).
  pose proof (trace_spells f F0 nx x Sx Ix lid Det (simp_call BigI f) s h S0 Sn) as Sp.
  replace (lval lid x) with x in Sp by (unfold lval, lid; cbn [la lb lc ld]; field).
  assert (G : forall n, exists fuel, forall fuel', (fuel <= fuel')%nat -> nth_item (simp_next BigI inext fuel') n (gcf_simplify it) = Ok (Some (h n))).
  { intros n. destruct (trace_items nx (simp_fuel BigI (from_fn f)) s h Sn n O) as (F & K). exists F. intros F' HF. specialize (K F' HF). rewrite S0 in K. cbn [Nat.add] in K. rewrite <- K.
    apply (same_nth inext f); [intros k it' i Y'; apply simp_same; exact Y'|exact Y]. }
  exists h. split; [exact Sp|]. split; [exact G|]. exact (items_any (fun t => simp_next t inext) _ h (fun t => simp_any t inext) (simp_fuel BigI inext) G).
Qed.

Theorem homo_spells_all {I} (inext : I -> res (option Z * I)) it f x a b c d : yields inext it f -> cspells f x -> irrational x -> a * d - b * c <> 0 ->
  exists h, cspells h ((IZR a * x + IZR b) / (IZR c * x + IZR d)) /\
    (forall n, exists fuel, forall fuel', (fuel <= fuel')%nat -> nth_item (homo_next BigI inext fuel') n (icf_homo it a b c d) = Ok (Some (h n))) /\
    (forall t fuel n o, nth_item (homo_next t inext fuel) n (icf_homo it a b c d) = Ok o -> o = Some (h n)).
Proof.
  intros Y Sx Ix D. set (nx := homo_next BigI (from_fn f)). set (g := fun n => (1, f n)).
  assert (Em : forall N k i, (forall k', path k (from g i) N k' -> exists v r1 r2, emits k' v r1 r2) -> exists v s', nx (S N) (k, i) = Ok (Some v, s')).
  { intros N k i H. exact (homo_emits (from_fn f) N k i (fun n => f (i + n)%nat) (from_yields f i) H). }
  destruct (trace g eq_refl nx x Sx Ix (Lin a b c d) D (homo_call BigI f) Em) as (s & h & S0 & Sn).
  pose proof (trace_spells g eq_refl nx x Sx Ix (Lin a b c d) D (homo_call BigI f) s h S0 Sn) as Sp.
  assert (G : forall n, exists fuel, forall fuel', (fuel <= fuel')%nat -> nth_item (homo_next BigI inext fuel') n (icf_homo it a b c d) = Ok (Some (h n))).
  { intros n. destruct (trace_items nx (homo_fuel BigI (from_fn f)) s h Sn n O) as (F & K). exists F. intros F' HF. specialize (K F' HF). rewrite S0 in K. cbn [Nat.add] in K. rewrite <- K.
    apply (same_nth inext f); [intros k it' i Y'; apply homo_same; exact Y'|exact Y]. }
  exists h. split; [exact Sp|]. split; [exact G|]. exact (items_any (fun t => homo_next t inext) _ h (fun t => homo_any t inext) (homo_fuel BigI inext) G).
Qed.

(** ** Sources that have to work themselves *)
Section Lazy.
Context {A I : Type} (inext : I -> res (option A * I)) (f : nat -> A) (M : nat).
(** The items up to number [M] are right *)
Definition upto (it : I) (i : nat) : Prop := forall n, (i + n < M)%nat -> nth_item inext n it = Ok (Some (f (i + n)%nat)).

Lemma upto_step it i : upto it i -> (i < M)%nat -> exists it', inext it = Ok (Some (f i), it') /\ upto it' (S i).
Proof.
  intros U L. pose proof (U O ltac:(lia)) as H. rewrite Nat.add_0_r in H. apply nth_head in H. destruct H as (it' & E). exists it'. split; [exact E|].
  intros n Hn. rewrite <- (nth_item_S _ n _ _ _ E), U by lia. do 3 f_equal. lia.
Qed.

Lemma upto_nth {B} (n1 : block * I -> res (option B * (block * I))) (n2 : block * nat -> res (option B * (block * nat))) :
  (forall k it i o k' i', upto it i -> n2 (k, i) = Ok (Some o, (k', i')) -> (i' <= M)%nat -> exists it', n1 (k, it) = Ok (Some o, (k', it')) /\ upto it' i') ->
  forall n k it i (s : nat -> block * nat) (h : nat -> B) m, s m = (k, i) -> (forall j, (m <= j <= m + n)%nat -> n2 (s j) = Ok (Some (h j), s (S j)) /\ (snd (s (S j)) <= M)%nat) ->
  upto it i -> nth_item n1 n (k, it) = Ok (Some (h (m + n)%nat)).
Proof.
  intros H. induction n as [|n IH]; intros k it i s h m Sm Sn U; destruct (Sn m ltac:(lia)) as (E & L); destruct (s (S m)) as [k' i'] eqn:Sm'; rewrite Sm in E;
    destruct (H _ _ _ _ _ _ U E L) as (it' & E' & U').
  - rewrite nth_item_0, E', Nat.add_0_r. reflexivity.
  - rewrite (nth_item_S _ n _ _ _ E'). rewrite (IH k' it' i' s h (S m) Sm'); [do 3 f_equal; lia| |exact U']. intros j Hj. apply Sn. lia.
Qed.
End Lazy.

Lemma simp_upto {I} (inext : I -> res (option (Z * Z) * I)) f M t fuel : forall k it i o k' i', upto inext f M it i -> simp_next t (from_fn f) fuel (k, i) = Ok (Some o, (k', i')) ->
  (i' <= M)%nat -> exists it', simp_next t inext fuel (k, it) = Ok (Some o, (k', it')) /\ upto inext f M it' i'.
Proof.
  induction fuel as [|fuel IH]; intros k it i o k' i' U H L; cbn [simp_next] in *; [discriminate|].
  destruct (block_reduce_recip t k) as [[u k1]| |]; cbn [bind] in *; try discriminate. destruct u as [v|]; [inversion H; subst; eauto|].
  cbn [from_fn bind] in H. destruct (f i) as [a b] eqn:Ef. destruct (block_gmove t k1 a b) as [k2| |] eqn:M2; cbn [bind] in H; try discriminate.
  assert (Li : (i < M)%nat) by (destruct (simp_call _ _ _ _ _ _ _ _ H) as (n & _ & _ & _ & _ & _ & _ & ->); lia).
  destruct (upto_step _ _ _ _ _ U Li) as (it' & E & U'). rewrite E, Ef. cbn [bind]. rewrite M2. cbn [bind]. apply (IH _ _ _ _ _ _ U' H L).
Qed.

Lemma homo_upto {I} (inext : I -> res (option Z * I)) f M t fuel : forall k it i o k' i', upto inext f M it i -> homo_next t (from_fn f) fuel (k, i) = Ok (Some o, (k', i')) ->
  (i' <= M)%nat -> exists it', homo_next t inext fuel (k, it) = Ok (Some o, (k', it')) /\ upto inext f M it' i'.
Proof.
  induction fuel as [|fuel IH]; intros k it i o k' i' U H L; cbn [homo_next] in *; [discriminate|].
  destruct (block_reduce_recip t k) as [[u k1]| |]; cbn [bind] in *; try discriminate. destruct u as [v|]; [inversion H; subst; eauto|].
  cbn [from_fn bind] in H. destruct (block_rmove t k1 (f i)) as [k2| |] eqn:M2; cbn [bind] in H; try discriminate.
  assert (Li : (i < M)%nat) by (destruct (homo_call _ _ _ _ _ _ _ _ H) as (n & _ & _ & _ & _ & _ & _ & ->); lia).
  destruct (upto_step _ _ _ _ _ U Li) as (it' & E & U'). rewrite E. cbn [bind]. rewrite M2. cbn [bind]. apply (IH _ _ _ _ _ _ U' H L).
Qed.

Lemma eventually_all (P : nat -> nat -> Prop) : (forall n, exists F, forall F', (F <= F')%nat -> P n F') -> forall m, exists F, forall F', (F <= F')%nat -> forall n, (n < m)%nat -> P n F'.
Proof.
  intros H. induction m as [|m (F1 & IH)]; [exists O; intros; lia|]. destruct (H m) as (F2 & K). exists (Nat.max F1 F2). intros F' HF n Hn.
  destruct (Nat.eq_dec n m) as [->|Ne]; [apply K; lia|apply IH; lia].
Qed.

Theorem simplify_lazy {I} (src : nat -> I -> res (option (Z * Z) * I)) it f x : delivers src it f -> fst (f O) = 1 -> spells f x -> irrational x ->
  exists h, cspells h x /\ delivers (fun fuel => simp_next BigI (src fuel) fuel) (gcf_simplify it) h.
Proof.
  intros Y F0 Sx Ix. set (nx := simp_next BigI (from_fn f)).
  assert (Det : la lid * ld lid - lb lid * lc lid <> 0) by (cbn; lia).
  assert (Em : forall N k i, (forall k', path k (from f i) N k' -> exists v r1 r2, emits k' v r1 r2) -> exists v s', nx (S N) (k, i) = Ok (Some v, s')).
  { intros N k i H. exact (simp_emits (from_fn f) N k i (from f i) (from_yields f i) H). }
  destruct (trace f F0 nx x Sx Ix lid Det (simp_call BigI f) Em) as (s & h & S0 & Sn).
  pose proof (trace_spells f F0 nx x Sx Ix lid Det (simp_call BigI f) s h S0 Sn) as Sp.
  replace (lval lid x) with x in Sp by (unfold lval, lid; cbn [la lb lc ld]; field).
  exists h. split; [exact Sp|]. intros n. set (M := snd (s (S n))).
  destruct (eventually_all (fun j F => nth_item (src F) j it = Ok (Some (f j))) Y M) as (F1 & H1).
  assert (St : forall j, exists F, forall F', (F <= F')%nat -> nx F' (s j) = Ok (Some (h j), s (S j))) by (intros j; destruct (Sn j) as (F & E); exists F; intros F' HF; apply (simp_fuel _ _ F); auto).
  destruct (eventually_all _ St (S n)) as (F2 & H2). exists (Nat.max F1 F2). intros F' HF.
  apply (upto_nth (src F') f M (simp_next BigI (src F') F') (nx F') (simp_upto (src F') f M BigI F') n block_identity it O s h O S0).
  - intros j Hj. split; [apply H2; lia|]. unfold M. apply (trace_mono f nx (simp_call BigI f) s h Sn). lia.
  - intros j Hj. apply H1; lia.
Qed.

Theorem homo_lazy {I} (src : nat -> I -> res (option Z * I)) it f x a b c d : delivers src it f -> cspells f x -> irrational x -> a * d - b * c <> 0 ->
  exists h, cspells h ((IZR a * x + IZR b) / (IZR c * x + IZR d)) /\ delivers (fun fuel => homo_next BigI (src fuel) fuel) (icf_homo it a b c d) h.
Proof.
  intros Y Sx Ix D. set (nx := homo_next BigI (from_fn f)). set (g := fun n => (1, f n)).
  assert (Em : forall N k i, (forall k', path k (from g i) N k' -> exists v r1 r2, emits k' v r1 r2) -> exists v s', nx (S N) (k, i) = Ok (Some v, s')).
  { intros N k i H. exact (homo_emits (from_fn f) N k i (fun n => f (i + n)%nat) (from_yields f i) H). }
  destruct (trace g eq_refl nx x Sx Ix (Lin a b c d) D (homo_call BigI f) Em) as (s & h & S0 & Sn).
  pose proof (trace_spells g eq_refl nx x Sx Ix (Lin a b c d) D (homo_call BigI f) s h S0 Sn) as Sp.
  exists h. split; [exact Sp|]. intros n. set (M := snd (s (S n))).
  destruct (eventually_all (fun j F => nth_item (src F) j it = Ok (Some (f j))) Y M) as (F1 & H1).
  assert (St : forall j, exists F, forall F', (F <= F')%nat -> nx F' (s j) = Ok (Some (h j), s (S j))) by (intros j; destruct (Sn j) as (F & E); exists F; intros F' HF; apply (homo_fuel _ _ F); auto).
  destruct (eventually_all _ St (S n)) as (F2 & H2). exists (Nat.max F1 F2). intros F' HF.
  apply (upto_nth (src F') f M (homo_next BigI (src F') F') (nx F') (homo_upto (src F') f M BigI F') n (Block a b c d) it O s h O S0).
  - intros j Hj. split; [apply H2; lia|]. unfold M. apply (trace_mono g nx (homo_call BigI f) s h Sn). lia.
  - intros j Hj. apply H1; lia.
Qed.

(** ** The earlier notions of convergence *)
Lemma spells_unique f x y : spells f x -> spells f y -> x = y.
Proof. intros (_ & _ & A) (_ & _ & B). pose proof (is_lim_seq_unique _ _ A) as E1. pose proof (is_lim_seq_unique _ _ B) as E2. rewrite E1 in E2. inversion E2. reflexivity. Qed.

Lemma regular_spells f x : fst (f O) = 1 -> (forall n, gregular (prefix f n)) -> gconverges f x -> spells f x.
Proof.
  intros F0 G C. exists O. split; [intros n _; apply (gval_gcont f n F0 (G (S n)))|]. apply (is_lim_seq_ext (fun n => gval (prefix f (S n)))); [|exact C].
  intros n. apply (gval_gcont f n F0 (G (S n))).
Qed.

Lemma signed_spells e f x : e = 1 \/ e = -1 -> (forall n, (1 <= n)%nat -> 1 <= e * f n) -> cconverges f x -> cspells f x.
Proof. intros He L C. apply (regular_spells (fun n => (1, f n))); [reflexivity|intros n; apply (csigned_regular e He n f L)|exact C]. Qed.
