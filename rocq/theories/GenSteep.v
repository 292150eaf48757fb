(** * GenSteep: simplify() and homo() on fractions with unit numerators and denominators of absolute value two or more (C86). *)

From Coq Require Import ZArith Reals Lia Lra Psatz Bool List.
From Coquelicot Require Import Coquelicot.
From Verif Require Import Base Ext ModelBlock ModelCF ModelGen Spec SpecGen SpecSpell NumFacts GenBlock GenSound GenConv GenTail GenLive GenMisc GenCont GenRep GenHomo GenSpell.
Import ListNotations.
Open Scope Z_scope.

Definition unit (z : Z) : Prop := z = 1 \/ z = -1.
Definition steep (f : nat -> Z * Z) : Prop := forall n, (1 <= n)%nat -> unit (fst (f n)) /\ 2 <= Z.abs (snd (f n)).

(** ** Integers *)
Lemma unit_abs z : unit z -> Z.abs z = 1. Proof. intros [->| ->]; reflexivity. Qed.
Lemma unit_opp z : unit z -> unit (- z). Proof. unfold unit. lia. Qed.
Lemma unit_mul a b : unit a -> unit b -> unit (a * b). Proof. unfold unit. intros [->| ->] [->| ->]; lia. Qed.

(** One move on a linear functional of the columns *)
Lemma mv (a b v v' : Z) : unit a -> 2 <= Z.abs b -> Z.abs v' <= Z.abs v -> Z.abs v <= Z.abs (v * b + v' * a) /\ (v <> 0 -> 0 < (v * b + v' * a) * (b * v)).
Proof.
  intros U B L. assert (A : Z.abs (v' * a) <= Z.abs v) by (rewrite Z.abs_mul, (unit_abs a U); lia). generalize dependent (v' * a). intros z A. clear U L.
  assert (2 * Z.abs v <= Z.abs (v * b)) by (rewrite Z.abs_mul; nia). split; [lia|]. intros N. rewrite (Z.mul_comm b v). nia.
Qed.

Lemma mv_pos (a b v v' u u' : Z) : unit a -> 2 <= Z.abs b -> Z.abs v' <= Z.abs v -> Z.abs u' <= Z.abs u -> 0 < v * u -> 0 < (v * b + v' * a) * (u * b + u' * a).
Proof.
  intros U B L1 L2 S. destruct (mv a b v v' U B L1) as (_ & M1). destruct (mv a b u u' U B L2) as (_ & M2).
  specialize (M1 ltac:(nia)). specialize (M2 ltac:(nia)). generalize dependent (v * b + v' * a). intros x M1. generalize dependent (u * b + u' * a). intros y M2.
  assert (0 < (x * (b * v)) * (y * (b * u))) by nia. assert (E : (x * (b * v)) * (y * (b * u)) = (x * y) * (b * b * (v * u))) by ring. assert (0 < b * b) by nia. rewrite E in H. clear - H H0 S.
  assert (0 < b * b * (v * u)) by nia. nia.
Qed.

(** One division: nothing but the larger second row is needed *)
Lemma core_pos (r r' q q' : Z) : 0 <= r < q -> 0 <= r' < q' -> unit (r * q' - r' * q) -> q' <= q -> 0 < r /\ r' <= r /\ q' - r' <= q - r.
Proof.
  intros B B' D L. assert (R : 0 < r).
  { destruct (Z.eq_dec r 0) as [->|]; [|lia]. exfalso. assert (unit (r' * q)) by (unfold unit in *; lia). assert (r' = 0 \/ 1 <= r') by lia. destruct H0 as [->|]; [unfold unit in H; lia|]. unfold unit in H. nia. }
  assert (R' : r' <= r). { destruct (Z_le_gt_dec r' r); [auto|]. exfalso. unfold unit in D. nia. }
  split; [auto|]. split; [auto|]. destruct (Z_le_gt_dec (q' - r') (q - r)) as [|G]; [auto|]. exfalso.
  destruct (Z.eq_dec r r') as [<-|N].
  - assert (q < q') by lia. lia.
  - assert (r' < r) by lia. unfold unit in D. assert (E : r * q' - r' * q = (r - r') * (q' - r') + r' * ((q' - r') - (q - r))) by ring. nia.
Qed.

Lemma core (r r' q q' : Z) : 0 <= r * q -> 0 <= r' * q' -> Z.abs r < Z.abs q -> Z.abs r' < Z.abs q' -> unit (r * q' - r' * q) -> Z.abs q' <= Z.abs q ->
  r <> 0 /\ Z.abs r' <= Z.abs r /\ Z.abs (q' - r') <= Z.abs (q - r).
Proof.
  intros S S' B B' D L.
  assert (E : 0 < Z.abs r /\ Z.abs r' <= Z.abs r /\ Z.abs q' - Z.abs r' <= Z.abs q - Z.abs r).
  { apply core_pos; try lia. destruct (Z_lt_le_dec 0 q), (Z_lt_le_dec 0 q').
    - assert (0 <= r) by nia. assert (0 <= r') by nia. rewrite !Z.abs_eq by lia. exact D.
    - assert (0 <= r) by nia. assert (q' < 0) by lia. assert (r' <= 0) by nia. rewrite (Z.abs_eq q), (Z.abs_eq r), (Z.abs_neq q'), (Z.abs_neq r') by lia.
      replace (r * - q' - - r' * q) with (- (r * q' - r' * q)) by ring. apply unit_opp. exact D.
    - assert (q < 0) by lia. assert (r <= 0) by nia. assert (0 <= r') by nia. rewrite (Z.abs_neq q), (Z.abs_neq r), (Z.abs_eq q'), (Z.abs_eq r') by lia.
      replace (- r * q' - r' * - q) with (- (r * q' - r' * q)) by ring. apply unit_opp. exact D.
    - assert (q < 0) by lia. assert (q' < 0) by lia. assert (r <= 0) by nia. assert (r' <= 0) by nia. rewrite !Z.abs_neq by lia.
      replace (- r * - q' - - r' * - q) with (r * q' - r' * q) by ring. exact D. }
  split; [lia|]. split; [lia|].
  assert (A : forall x y, 0 <= x * y -> Z.abs x < Z.abs y -> Z.abs (y - x) = Z.abs y - Z.abs x) by (clear; intros x y; nia).
  rewrite !A by auto. lia.
Qed.

(** ** The invariants *)
Definition det (k : block) : Z := pm1 k * qm2 k - pm2 k * qm1 k.

(** Before the first item *)
Definition J0 (k : block) : Prop := unit (det k) /\ qm1 k <> 0 /\ Z.abs (qm2 k) <= Z.abs (qm1 k).

(** After a first item 0 *)
Definition J1 (k : block) : Prop := J0 k /\ 0 < (pm1 k - qm1 k) * (pm1 k + qm1 k) /\ 0 <= (pm2 k - qm2 k) * (pm2 k + qm2 k) /\
  Z.abs (pm2 k - qm2 k) <= Z.abs (pm1 k - qm1 k) /\ Z.abs (pm2 k + qm2 k) <= Z.abs (pm1 k + qm1 k).

(** Once the sign is known *)
Definition J2 (e : Z) (k : block) : Prop := J0 k /\ 0 < qm1 k * (e * pm1 k - qm1 k) /\ 0 <= qm2 k * (e * pm2 k - qm2 k) /\
  Z.abs (e * pm2 k - qm2 k) <= Z.abs (e * pm1 k - qm1 k).

Lemma moved_unit k a b k' : unit a -> unit (det k) -> moved k a b k' ->
  pm1 k' = pm1 k * b + pm2 k * a /\ pm2 k' = pm1 k /\ qm1 k' = qm1 k * b + qm2 k * a /\ qm2 k' = qm1 k /\ unit (det k').
Proof.
  intros U D (g & Hg & E1 & E2 & E3 & E4). unfold det in *. assert (X : g * g * (pm1 k' * qm2 k' - pm2 k' * qm1 k') = - a * (pm1 k * qm2 k - pm2 k * qm1 k)).
  { replace (g * g * (pm1 k' * qm2 k' - pm2 k' * qm1 k')) with ((g * pm1 k') * (g * qm2 k') - (g * pm2 k') * (g * qm1 k')) by ring. rewrite E1, E2, E3, E4. ring. }
  assert (V : unit (- a * (pm1 k * qm2 k - pm2 k * qm1 k))) by (apply unit_mul; [apply unit_opp|]; auto). rewrite <- X in V.
  assert (g = 1). { generalize dependent (pm1 k' * qm2 k' - pm2 k' * qm1 k'). intros z _ V. clear - Hg V. unfold unit in V. assert (z <> 0) by (intros ->; lia). assert (g = 1 \/ 2 <= g) by lia. destruct H0; [auto|]. exfalso. assert (4 <= g * g) by nia. assert (1 <= z \/ z <= -1) by lia. destruct H2; nia. }
  subst g. rewrite !Z.mul_1_l in *. auto.
Qed.

Lemma J0_move k a b k' : unit a -> 2 <= Z.abs b -> J0 k -> moved k a b k' -> J0 k'.
Proof.
  intros U B (D & N & L) M. destruct (moved_unit k a b k' U D M) as (E1 & E2 & E3 & E4 & D'). destruct (mv a b _ _ U B L) as (G & _).
  split; [exact D'|]. rewrite E3, E4. split; [|exact G]. lia.
Qed.

Lemma J1_move k a b k' : unit a -> 2 <= Z.abs b -> J1 k -> moved k a b k' -> J1 k'.
Proof.
  intros U B (J & S & S' & L1 & L2) M. split; [eapply J0_move; eauto|]. destruct J as (D & _). destruct (moved_unit k a b k' U D M) as (E1 & E2 & E3 & E4 & _).
  destruct (mv a b _ _ U B L1) as (G1 & _). destruct (mv a b _ _ U B L2) as (G2 & _). pose proof (mv_pos a b _ _ _ _ U B L1 L2 S) as S2. rewrite E1, E2, E3, E4.
  replace (pm1 k * b + pm2 k * a - (qm1 k * b + qm2 k * a)) with ((pm1 k - qm1 k) * b + (pm2 k - qm2 k) * a) by ring.
  replace (pm1 k * b + pm2 k * a + (qm1 k * b + qm2 k * a)) with ((pm1 k + qm1 k) * b + (pm2 k + qm2 k) * a) by ring.
  split; [exact S2|]. split; [lia|]. auto.
Qed.

Lemma J2_move e k a b k' : unit a -> 2 <= Z.abs b -> J2 e k -> moved k a b k' -> J2 e k'.
Proof.
  intros U B (J & S & S' & L1) M. split; [eapply J0_move; eauto|]. destruct J as (D & _ & L). destruct (moved_unit k a b k' U D M) as (E1 & E2 & E3 & E4 & _).
  destruct (mv a b _ _ U B L1) as (G1 & _). pose proof (mv_pos a b _ _ _ _ U B L L1 S) as S2. rewrite E1, E2, E3, E4.
  replace (e * (pm1 k * b + pm2 k * a) - (qm1 k * b + qm2 k * a)) with ((e * pm1 k - qm1 k) * b + (e * pm2 k - qm2 k) * a) by ring.
  split; [exact S2|]. split; [lia|]. auto.
Qed.

(** ** Items *)
Lemma quot_facts p q v r : q <> 0 -> v = Z.quot p q -> r = Z.rem p q -> p = q * v + r /\ Z.abs r < Z.abs q /\ 0 <= r * p /\ (v <> 0 -> 0 < v * (p * q)).
Proof.
  intros N -> ->. split; [apply Z.quot_rem; auto|]. split; [apply Z.rem_bound_abs; auto|]. split; [apply Z.rem_sign_mul; auto|].
  intros V. pose proof (quot_sign p q N V). nia.
Qed.

Lemma facts_sign e p q v r : unit e -> 1 <= e * v -> Z.abs r < Z.abs q -> 0 <= r * p -> p = q * v + r -> 0 <= (e * r) * q.
Proof. intros U V B S E. assert (r = 0 \/ r <> 0) by lia. destruct H as [->|N]; [lia|]. unfold unit in U. destruct U as [->| ->]; nia. Qed.

(** An item of sign [e] *)
Lemma emit_J2 e k v r1 r2 : unit e -> 1 <= e * v -> J0 k -> emits k v r1 r2 -> J2 e (Block (qm1 k) (qm2 k) r1 r2).
Proof.
  intros U V (D & N & L) (N1 & N2 & I1 & I2 & R1 & R2).
  destruct (quot_facts _ _ _ _ N1 I1 R1) as (E1 & B1 & S1 & _). destruct (quot_facts _ _ _ _ N2 I2 R2) as (E2 & B2 & S2 & _).
  pose proof (facts_sign e _ _ _ _ U V B1 S1 E1) as T1. pose proof (facts_sign e _ _ _ _ U V B2 S2 E2) as T2.
  assert (Ab : forall z, Z.abs (e * z) = Z.abs z) by (intros z; rewrite Z.abs_mul, (unit_abs e U); lia).
  assert (Ee : e * e = 1) by (destruct U as [->| ->]; reflexivity).
  assert (D2 : unit (e * r1 * qm2 k - e * r2 * qm1 k)).
  { replace (e * r1 * qm2 k - e * r2 * qm1 k) with (e * det k); [apply unit_mul; auto|]. unfold det. rewrite E1, E2. ring. }
  destruct (core (e * r1) (e * r2) (qm1 k) (qm2 k)) as (C1 & C2 & C3); [exact T1|exact T2|rewrite Ab; exact B1|rewrite Ab; exact B2|exact D2|exact L|].
  rewrite !Ab in C2. unfold J2, J0, det. cbn [pm1 pm2 qm1 qm2].
  assert (F1 : forall r q, e * q - r = e * (q - e * r)) by (intros r q; rewrite Z.mul_sub_distr_l, Z.mul_assoc, Ee; ring).
  split; [split; [|split]|].
  - replace (qm1 k * r2 - qm2 k * r1) with (- e * (e * r1 * qm2 k - e * r2 * qm1 k)); [apply unit_mul; [apply unit_opp|]; auto|].
    replace (- e * (e * r1 * qm2 k - e * r2 * qm1 k)) with (e * e * (qm1 k * r2 - qm2 k * r1)) by ring. rewrite Ee. ring.
  - intros ->. lia.
  - exact C2.
  - rewrite !F1, !Ab. split; [|split; [|exact C3]].
    + replace (r1 * (e * (qm1 k - e * r1))) with ((e * r1) * (qm1 k - e * r1)) by ring. rewrite <- (Ab r1) in B1. clear - B1 T1 C1. generalize dependent (e * r1). intros z ? ? ?. nia.
    + replace (r2 * (e * (qm2 k - e * r2))) with ((e * r2) * (qm2 k - e * r2)) by ring. rewrite <- (Ab r2) in B2. clear - B2 T2. generalize dependent (e * r2). intros z ? ?. nia.
Qed.

Lemma sums (r r' q q' : Z) : 0 <= r * q -> 0 <= r' * q' -> Z.abs q' <= Z.abs q -> Z.abs r' <= Z.abs r -> Z.abs (q' + r') <= Z.abs (q + r).
Proof.
  intros S S' L L'. assert (A : forall x y, 0 <= x * y -> Z.abs (y + x) = Z.abs y + Z.abs x) by (clear; intros x y ?; destruct (Z_lt_le_dec 0 x), (Z_lt_le_dec 0 y); nia).
  rewrite !A by auto. lia.
Qed.

(** An item 0 *)
Lemma emit_J1 k r1 r2 : J0 k -> emits k 0 r1 r2 -> J1 (Block (qm1 k) (qm2 k) r1 r2).
Proof.
  intros (D & N & L) (N1 & N2 & I1 & I2 & R1 & R2).
  destruct (quot_facts _ _ _ _ N1 I1 R1) as (E1 & B1 & _ & _). destruct (quot_facts _ _ _ _ N2 I2 R2) as (E2 & B2 & _ & _). rewrite Z.mul_0_r, Z.add_0_l in E1, E2.
  unfold det in D. rewrite E1, E2 in D. clear E1 E2 I1 I2 R1 R2. unfold J1, J0, det. cbn [pm1 pm2 qm1 qm2].
  set (q := qm1 k) in *. set (q' := qm2 k) in *. clearbody q q'.
  assert (D' : unit (q * r2 - q' * r1)) by (unfold unit in *; lia).
  assert (X : exists e, unit e /\ 0 <= (e * r1) * q /\ 0 <= (e * r2) * q').
  { destruct (Z_lt_le_dec (r1 * q) 0) as [L1|L1], (Z_lt_le_dec (r2 * q') 0) as [L2|L2].
    - exists (-1). split; [right; auto|nia].
    - destruct (Z.eq_dec r2 0) as [->|]; [exists (-1); split; [right; auto|nia]|]. exfalso. assert (0 < r2 * q') by nia.
      assert (Z.abs (r1 * q' - r2 * q) = Z.abs r1 * Z.abs q' + Z.abs r2 * Z.abs q) by (rewrite <- !Z.abs_mul; clear - L1 H; assert ((r1 * q') * (r2 * q) < 0) by nia; nia).
      assert (r1 <> 0) by (intros ->; lia). apply unit_abs in D. rewrite D in H0. assert (1 <= Z.abs r1 * Z.abs q') by nia. assert (1 <= Z.abs r2 * Z.abs q) by nia. lia.
    - destruct (Z.eq_dec r1 0) as [->|]; [exists (-1); split; [right; auto|nia]|]. exfalso. assert (0 < r1 * q) by nia.
      assert (Z.abs (r1 * q' - r2 * q) = Z.abs r1 * Z.abs q' + Z.abs r2 * Z.abs q) by (rewrite <- !Z.abs_mul; clear - L2 H; assert ((r1 * q') * (r2 * q) < 0) by nia; nia).
      assert (r2 <> 0) by (intros ->; lia). apply unit_abs in D. rewrite D in H0. assert (1 <= Z.abs r1 * Z.abs q') by nia. assert (1 <= Z.abs r2 * Z.abs q) by nia. lia.
    - exists 1. split; [left; auto|nia]. }
  destruct X as (e & U & T1 & T2). assert (Ab : forall z, Z.abs (e * z) = Z.abs z) by (intros z; rewrite Z.abs_mul, (unit_abs e U); lia).
  destruct (core (e * r1) (e * r2) q q') as (C1 & C2 & C3); [exact T1|exact T2|rewrite Ab; exact B1|rewrite Ab; exact B2| |exact L|].
  { replace (e * r1 * q' - e * r2 * q) with (e * (r1 * q' - r2 * q)) by ring. apply unit_mul; auto. }
  rewrite !Ab in C2. split; [split; [exact D'|split; [intros ->; lia|exact C2]]|]. clear D D' N N2. destruct U as [->| ->]; rewrite ?Z.mul_1_l in *.
  - split; [nia|]. split; [nia|]. split; [lia|]. apply sums; auto.
  - replace (q' - -1 * r2) with (q' + r2) in C3 by ring. replace (q - -1 * r1) with (q + r1) in C3 by ring. split; [nia|]. split; [nia|]. split; [|lia].
    replace (q' - r2) with (q' + - r2) by ring. replace (q - r1) with (q + - r1) by ring. apply sums; rewrite ?Z.abs_opp; auto; lia.
Qed.

(** The next item after a 0 is not 0, and once there is a sign every item has it *)
Lemma J1_item k v r1 r2 : J1 k -> emits k v r1 r2 -> v <> 0.
Proof.
  intros (_ & S & _) (N1 & _ & I1 & _ & R1 & _). destruct (quot_facts _ _ _ _ N1 I1 R1) as (E1 & B1 & _). intros ->. rewrite Z.mul_0_r, Z.add_0_l in E1. rewrite <- E1 in B1. clear - S B1. nia.
Qed.

Lemma J2_item e k v r1 r2 : unit e -> J2 e k -> emits k v r1 r2 -> 1 <= e * v.
Proof.
  intros U (_ & S & _) (N1 & _ & I1 & _ & R1 & _). destruct (quot_facts _ _ _ _ N1 I1 R1) as (E1 & B1 & S1 & S2). clear I1 R1.
  generalize dependent (pm1 k). intros p. generalize dependent (qm1 k). intros q N1 B1 S E1 S1 S2.
  assert (V : v <> 0). { intros ->. rewrite Z.mul_0_r, Z.add_0_l in E1. subst r1. unfold unit in U. destruct U as [->| ->]; nia. }
  specialize (S2 V). assert (E : q * (e * p - q) = e * (p * q) - q * q) by ring. assert (0 <= q * q) by nia. assert (H0 : 0 < e * (p * q)) by lia. clear - U S2 H0.
  generalize dependent (p * q). intros z ? ?. destruct U as [->| ->]; nia.
Qed.

(** ** Runs *)
Lemma path_keeps (J : block -> Prop) f n : (forall k a b k', unit a -> 2 <= Z.abs b -> J k -> moved k a b k' -> J k') -> forall i k k', (1 <= i)%nat -> steep f -> J k -> path k (from f i) n k' -> J k'.
Proof.
  intros HJ. induction n as [|n IH]; intros i k k' Hi St A P; [cbn [path] in P; subst; auto|]. destruct P as (k1 & M & P). unfold from in M at 1 2. rewrite Nat.add_0_r in M.
  destruct (St i Hi) as (U & B). apply (IH (S i) k1 k'); [lia|auto|eapply HJ; eauto|]. eapply path_ext; [|exact P]. intros j. unfold shift, from. f_equal. lia.
Qed.

(** The machines: [simp_next] and [homo_next] alike *)
Section Machine.
Context (f : nat -> Z * Z) (St : steep f) (nx : block * nat -> res (option Z * (block * nat))).
Hypothesis Call : forall k i v k' i', nx (k, i) = Ok (Some v, (k', i')) ->
  exists n k1 r1 r2, path k (from f i) n k1 /\ emits k1 v r1 r2 /\ k' = Block (qm1 k1) (qm2 k1) r1 r2 /\ i' = (i + n)%nat.

Lemma run_J2 e n : unit e -> forall k i v, (1 <= i)%nat -> J2 e k -> nth_item nx n (k, i) = Ok (Some v) -> 1 <= e * v.
Proof.
  intros U. induction n as [|n IH]; intros k i v Hi A E; cbn [nth_item] in E; apply bind_Ok in E; destruct E as ((o & (k' & i')) & E1 & E).
  - destruct o as [w|]; [|discriminate]. inversion E; subst w. destruct (Call _ _ _ _ _ E1) as (m & k1 & r1 & r2 & P & Em & _). apply (J2_item e k1 v r1 r2); auto. apply (path_keeps (J2 e) f m (J2_move e) i k k1); auto.
  - destruct o as [w|]; [|discriminate]. destruct (Call _ _ _ _ _ E1) as (m & k1 & r1 & r2 & P & Em & -> & ->). assert (A1 : J2 e k1) by (apply (path_keeps (J2 e) f m (J2_move e) i k k1); auto).
    apply (IH (Block (qm1 k1) (qm2 k1) r1 r2) (i + m)%nat v); [lia| |exact E]. apply (emit_J2 e k1 w r1 r2); auto; [eapply J2_item; eauto|apply A1].
Qed.

Lemma sgn_unit v : v <> 0 -> unit (Z.sgn v) /\ 1 <= Z.sgn v * v.
Proof. intros N. unfold unit. destruct v; cbn; lia. Qed.

Lemma run_J1 n : forall k i v w, (1 <= i)%nat -> J1 k -> nth_item nx 0 (k, i) = Ok (Some v) -> nth_item nx n (k, i) = Ok (Some w) -> v <> 0 /\ 1 <= Z.sgn v * w.
Proof.
  intros k i v w Hi A E0 E. cbn [nth_item] in E0. apply bind_Ok in E0. destruct E0 as ((o & (k' & i')) & E1 & E0). destruct o as [w0|]; [|discriminate]. inversion E0; subst w0.
  destruct (Call _ _ _ _ _ E1) as (m & k1 & r1 & r2 & P & Em & K' & I'). assert (A1 : J1 k1) by (apply (path_keeps J1 f m J1_move i k k1); auto). pose proof (J1_item _ _ _ _ A1 Em) as V. split; [exact V|].
  destruct (sgn_unit v V) as (U & G). destruct n as [|n]; cbn [nth_item] in E; rewrite E1 in E; cbn [bind] in E; [inversion E; subst; exact G|].
  apply (run_J2 (Z.sgn v) n U k' i' w); [lia| |exact E]. subst k'. apply (emit_J2 _ k1 v r1 r2); auto. apply A1.
Qed.

(** A block that can only emit in good order *)
Definition ready (k : block) (i : nat) : Prop := forall n k1, path k (from f i) n k1 -> qm1 k1 <> 0 -> J0 k1 /\ (1 <= i + n)%nat.

Lemma run_ready n : forall k i v w, ready k i -> nth_item nx 0 (k, i) = Ok (Some v) -> nth_item nx n (k, i) = Ok (Some w) ->
  (v <> 0 -> 1 <= Z.sgn v * w) /\ (v = 0 -> (1 <= n)%nat -> forall u, nth_item nx 1 (k, i) = Ok (Some u) -> u <> 0 /\ 1 <= Z.sgn u * w).
Proof.
  intros k i v w A E0 E. cbn [nth_item] in E0. apply bind_Ok in E0. destruct E0 as ((o & (k' & i')) & E1 & E0). destruct o as [w0|]; [|discriminate]. inversion E0; subst w0.
  destruct (Call _ _ _ _ _ E1) as (m & k1 & r1 & r2 & P & Em & K' & I'). destruct (A m k1 P) as (A1 & Hi); [apply Em|]. split.
  - intros V. destruct (sgn_unit v V) as (U & G). destruct n as [|n]; cbn [nth_item] in E; rewrite E1 in E; cbn [bind] in E; [inversion E; subst; exact G|].
    apply (run_J2 (Z.sgn v) n U k' i' w); [lia| |exact E]. subst k'. apply (emit_J2 _ k1 v r1 r2); auto.
  - intros V Hn u Eu. destruct n as [|n]; [lia|]. cbn [nth_item] in E, Eu. rewrite E1 in E, Eu. cbn [bind] in E, Eu. subst v.
    apply (run_J1 n k' i' u w); [lia| |exact Eu|exact E]. subst k'. apply emit_J1; auto.
Qed.

(** An item comes only after the earlier ones *)
Lemma earlier {S0 A} (nxt : S0 -> res (option A * S0)) m n : forall s0 w, nth_item nxt n s0 = Ok (Some w) -> (m <= n)%nat -> exists v, nth_item nxt m s0 = Ok (Some v).
Proof.
  revert m. induction n as [|n IH]; intros m s0 w E Hm; [replace m with O by lia; eauto|]. cbn [nth_item] in E. apply bind_Ok in E. destruct E as ((o & s1) & E1 & E).
  destruct o as [v|]; [|discriminate]. destruct m as [|m]; cbn [nth_item]; rewrite E1; cbn [bind]; [eauto|]. apply (IH m s1 w); [exact E|lia].
Qed.

Lemma run_signs k i m n v w : ready k i -> nth_item nx m (k, i) = Ok (Some v) -> nth_item nx n (k, i) = Ok (Some w) -> 0 <= v * w /\ ((1 <= n)%nat -> w <> 0).
Proof.
  intros A Em En. destruct (earlier nx 0 m _ _ Em) as (v0 & E0); [lia|]. destruct (run_ready m k i v0 v A E0 Em) as (M1 & M2). destruct (run_ready n k i v0 w A E0 En) as (N1 & N2).
  destruct (Z.eq_dec v0 0) as [Z0|Z0].
  - assert (F0 : forall j z, nth_item nx j (k, i) = Ok (Some z) -> j = O -> z = 0) by (intros j z Ej ->; congruence).
    destruct m as [|m]; [rewrite (F0 O v Em eq_refl)|]; (destruct n as [|n]; [rewrite (F0 O w En eq_refl)|]).
    + split; [lia|lia].
    + split; [lia|]. intros _. destruct (earlier nx 1 (S n) _ _ En) as (u & Eu); [lia|]. destruct (N2 Z0 ltac:(lia) u Eu) as (_ & Hw). intros ->. lia.
    + split; [lia|lia].
    + destruct (earlier nx 1 (S n) _ _ En) as (u & Eu); [lia|]. destruct (N2 Z0 ltac:(lia) u Eu) as (Hu & Hw). destruct (M2 Z0 ltac:(lia) u Eu) as (_ & Hv).
      split; [|intros _ ->; lia]. destruct (sgn_unit u Hu) as (U & _). destruct U as [K|K]; rewrite K in *; nia.
  - specialize (M1 Z0). specialize (N1 Z0). split; [|intros _ ->; lia]. destruct (sgn_unit v0 Z0) as (U & _). destruct U as [K|K]; rewrite K in *; nia.
Qed.

(** The second row is (0, +-1) and nothing has been read *)
Lemma start_ready k : unit (fst (f O)) -> unit (det k) -> qm1 k = 0 -> ready k 0.
Proof.
  intros U D Q n k' P N. destruct n as [|n]; [cbn [path] in P; subst k'; contradiction|]. split; [|lia]. destruct P as (k1 & M & P). unfold from in M at 1 2. cbn [Nat.add] in M.
  apply (path_keeps J0 f n J0_move 1 k1 k'); [lia|exact St| |eapply path_ext; [|exact P]; intros j; reflexivity].
  destruct (moved_unit _ _ _ _ U D M) as (E1 & E2 & E3 & E4 & D'). split; [exact D'|].
  rewrite E3, E4, Q, Z.mul_0_l, Z.add_0_l. unfold det in D. rewrite Q, Z.mul_0_r, Z.sub_0_r in D. unfold unit in *. split; [nia|]. rewrite Z.abs_0. lia.
Qed.
End Machine.

(** ** The two adapters *)
Lemma steep_of f : (forall n, (1 <= n)%nat -> Z.abs (fst (f n)) = 1 /\ 2 <= Z.abs (snd (f n))) -> steep f.
Proof. intros H n Hn. destruct (H n Hn) as (A & B). split; [unfold unit; lia|exact B]. Qed.

Theorem simplify_signs t {I} (inext : I -> res (option (Z * Z) * I)) it f fuel m n v w : yields inext it f -> fst (f O) = 1 -> steep f ->
  nth_item (simp_next t inext fuel) m (gcf_simplify it) = Ok (Some v) -> nth_item (simp_next t inext fuel) n (gcf_simplify it) = Ok (Some w) -> 0 <= v * w /\ ((1 <= n)%nat -> w <> 0).
Proof.
  intros Y F0 St Em En.
  assert (Sm : forall j, nth_item (simp_next t inext fuel) j (gcf_simplify it) = nth_item (simp_next t (from_fn f) fuel) j (block_identity, O)).
  { intros j. apply (same_nth inext f); [intros k it' i Y'; apply simp_same; exact Y'|exact Y]. }
  rewrite Sm in Em, En. apply (run_signs f St (simp_next t (from_fn f) fuel) (simp_call t f fuel) block_identity 0 m n v w); auto.
  apply start_ready; auto; [rewrite F0; left; reflexivity|left; reflexivity].
Qed.

Theorem homo_signs t {I} (inext : I -> res (option Z * I)) it f a b d fuel m n v w : yields inext it f -> Z.abs a = 1 -> Z.abs d = 1 -> (forall n, (1 <= n)%nat -> 2 <= Z.abs (f n)) ->
  nth_item (homo_next t inext fuel) m (icf_homo it a b 0 d) = Ok (Some v) -> nth_item (homo_next t inext fuel) n (icf_homo it a b 0 d) = Ok (Some w) -> 0 <= v * w /\ ((1 <= n)%nat -> w <> 0).
Proof.
  intros Y Ha Hd B Em En. set (g := fun n => (1, f n)). assert (St : steep g) by (intros j Hj; cbn [g fst snd]; split; [left; reflexivity|apply B; auto]).
  assert (Sm : forall j, nth_item (homo_next t inext fuel) j (icf_homo it a b 0 d) = nth_item (homo_next t (from_fn f) fuel) j (Block a b 0 d, O)).
  { intros j. apply (same_nth inext f); [intros k it' i Y'; apply homo_same; exact Y'|exact Y]. }
  rewrite Sm in Em, En. apply (run_signs g St (homo_next t (from_fn f) fuel) (homo_call t f fuel) (Block a b 0 d) 0 m n v w); auto.
  apply start_ready; auto; [left; reflexivity|]. unfold det, unit. cbn [pm1 pm2 qm1 qm2]. assert (a = 1 \/ a = -1) by lia. assert (d = 1 \/ d = -1) by lia. destruct H as [->| ->], H0 as [->| ->]; lia.
Qed.

(** Items of one sign that spell an irrational number are its usual coefficients *)
Lemma signs_digits h x : cspells h x -> (forall m n, 0 <= h m * h n /\ ((1 <= n)%nat -> h n <> 0)) -> forall n, cf_digit x n (h n).
Proof.
  intros Sx H n. destruct (H O 1%nat) as (A & B). specialize (B (le_n 1)). destruct (sgn_unit (h 1%nat) B) as (U & G). set (e := Z.sgn (h 1%nat)) in *.
  assert (L : forall n, (1 <= n)%nat -> 1 <= e * h n).
  { intros j Hj. destruct (H 1%nat j) as (P & Q). specialize (Q Hj). destruct U as [K|K]; rewrite K in *; nia. }
  assert (C : csigned e h) by (split; [destruct U as [K|K]; rewrite K in *; nia|exact L]).
  apply (signed_digit e n U h x C). destruct Sx as (N & _ & Lim). unfold cconverges, gconverges. eapply is_lim_seq_ext; [|exact Lim]. intros j. symmetry.
  apply (gval_gcont (fun n => (1, h n)) j eq_refl). apply (csigned_regular e U (S j) h L).
Qed.

Theorem simplify_digits {I} (inext : I -> res (option (Z * Z) * I)) it f x : yields inext it f -> fst (f O) = 1 -> steep f -> spells f x -> irrational x ->
  (forall n, exists v fuel, cf_digit x n v /\ forall fuel', (fuel <= fuel')%nat -> nth_item (simp_next BigI inext fuel') n (gcf_simplify it) = Ok (Some v)) /\
  (forall t fuel n o, nth_item (simp_next t inext fuel) n (gcf_simplify it) = Ok o -> exists v, o = Some v /\ cf_digit x n v).
Proof.
  intros Y F0 St Sx Ix. destruct (simplify_spells inext it f x Y F0 Sx Ix) as (h & Sp & G & Any).
  assert (D : forall n, cf_digit x n (h n)).
  { apply signs_digits; auto. intros m n. destruct (G m) as (F1 & H1), (G n) as (F2 & H2).
    exact (simplify_signs BigI inext it f (Nat.max F1 F2) m n _ _ Y F0 St (H1 _ (Nat.le_max_l _ _)) (H2 _ (Nat.le_max_r _ _))). }
  split; [intros n; destruct (G n) as (F & HF); exists (h n), F; auto|]. intros t fuel n o E. exists (h n). split; [exact (Any t fuel n o E)|auto].
Qed.

Theorem homo_digits {I} (inext : I -> res (option Z * I)) it f x a b d : yields inext it f -> Z.abs a = 1 -> Z.abs d = 1 -> (forall n, (1 <= n)%nat -> 2 <= Z.abs (f n)) -> cspells f x -> irrational x ->
  (forall n, exists v fuel, cf_digit ((IZR a * x + IZR b) / IZR d) n v /\ forall fuel', (fuel <= fuel')%nat -> nth_item (homo_next BigI inext fuel') n (icf_homo it a b 0 d) = Ok (Some v)) /\
  (forall t fuel n o, nth_item (homo_next t inext fuel) n (icf_homo it a b 0 d) = Ok o -> exists v, o = Some v /\ cf_digit ((IZR a * x + IZR b) / IZR d) n v).
Proof.
  intros Y Ha Hd B Sx Ix. destruct (homo_spells_all inext it f x a b 0 d Y Sx Ix ltac:(nia)) as (h & Sp & G & Any).
  replace (IZR 0 * x + IZR d)%R with (IZR d) in Sp by (simpl; ring).
  assert (D : forall n, cf_digit ((IZR a * x + IZR b) / IZR d) n (h n)).
  { apply signs_digits; auto. intros m n. destruct (G m) as (F1 & H1), (G n) as (F2 & H2).
    exact (homo_signs BigI inext it f a b d (Nat.max F1 F2) m n _ _ Y Ha Hd B (H1 _ (Nat.le_max_l _ _)) (H2 _ (Nat.le_max_r _ _))). }
  split; [intros n; destruct (G n) as (F & HF); exists (h n), F; auto|]. intros t fuel n o E. exists (h n). split; [exact (Any t fuel n o E)|auto].
Qed.

(** ** Such a fraction always converges *)
Section Conv.
Context (f : nat -> Z * Z) (St : steep f).

Lemma den_grows n : Z.abs (snd (fst (gcont f n))) + 1 <= Z.abs (gden f n).
Proof.
  induction n as [|n IH]; [cbn; lia|]. destruct (gcont_S f n) as (_ & E). rewrite E, gcont_old. fold (gden f n). destruct (St (S n) ltac:(lia)) as (U & B).
  assert (2 * Z.abs (gden f n) <= Z.abs (snd (f (S n)) * gden f n)) by (rewrite Z.abs_mul; nia).
  assert (Z.abs (fst (f (S n)) * snd (fst (gcont f n))) = Z.abs (snd (fst (gcont f n)))) by (rewrite Z.abs_mul, (unit_abs _ U); lia). lia.
Qed.

Lemma den_ge n : Z.of_nat n + 1 <= Z.abs (gden f n).
Proof. induction n as [|n IH]; [cbn; lia|]. pose proof (den_grows (S n)) as H. rewrite gcont_old in H. fold (gden f n) in H. lia. Qed.

Lemma num_det n : unit (gnum f (S n) * gden f n - gnum f n * gden f (S n)).
Proof.
  induction n as [|n IH].
  - rewrite gnum_1, gden_1, gnum_0, gden_0. destruct (St 1%nat (le_n 1)) as (U & _). replace (_ - _) with (fst (f 1%nat)) by ring. exact U.
  - rewrite gnum_SS, gden_SS. destruct (St (S (S n)) ltac:(lia)) as (U & _).
    match goal with |- unit ?z => replace z with (- fst (f (S (S n))) * (gnum f (S n) * gden f n - gnum f n * gden f (S n))) by ring end. apply unit_mul; [apply unit_opp|]; auto.
Qed.

Definition cvg (n : nat) : R := (IZR (gnum f n) / IZR (gden f n))%R.

Lemma den_nz n : gden f n <> 0. Proof. pose proof (den_ge n). lia. Qed.

Lemma cvg_step n : (Rabs (cvg (S n) - cvg n) <= / INR (S n) - / INR (S (S n)))%R.
Proof.
  assert (D1 : IZR (gden f n) <> 0%R) by (apply IZR_neq, den_nz). assert (D2 : IZR (gden f (S n)) <> 0%R) by (apply IZR_neq, den_nz).
  unfold cvg. replace (IZR (gnum f (S n)) / IZR (gden f (S n)) - IZR (gnum f n) / IZR (gden f n))%R with (IZR (gnum f (S n) * gden f n - gnum f n * gden f (S n)) * / (IZR (gden f (S n)) * IZR (gden f n)))%R by (rewrite minus_IZR, !mult_IZR; field; auto).
  rewrite Rabs_mult, <- abs_IZR, (unit_abs _ (num_det n)), Rmult_1_l, Rabs_inv, Rabs_mult, <- !abs_IZR.
  assert (P1 : (0 < INR (S n))%R) by (apply lt_0_INR; lia). assert (P2 : (0 < INR (S (S n)))%R) by (apply lt_0_INR; lia).
  replace (/ INR (S n) - / INR (S (S n)))%R with (/ (INR (S (S n)) * INR (S n)))%R by (rewrite (S_INR (S n)) in *; field; lra).
  apply Rinv_le_contravar; [apply Rmult_lt_0_compat; auto|]. apply Rmult_le_compat; [lra|lra| |]; rewrite INR_IZR_INZ; apply IZR_le; [pose proof (den_ge (S n))|pose proof (den_ge n)]; lia.
Qed.

Lemma cvg_far n j : (Rabs (cvg (n + j) - cvg n) <= / INR (S n) - / INR (S (n + j)))%R.
Proof.
  induction j as [|j IH]; [rewrite Nat.add_0_r, Rminus_diag_eq, Rabs_R0 by reflexivity; lra|]. replace (n + S j)%nat with (S (n + j)) by lia.
  pose proof (cvg_step (n + j)) as A. pose proof (Rabs_triang (cvg (S (n + j)) - cvg (n + j)) (cvg (n + j) - cvg n)) as T.
  replace (cvg (S (n + j)) - cvg (n + j) + (cvg (n + j) - cvg n))%R with (cvg (S (n + j)) - cvg n)%R in T by ring. lra.
Qed.

Theorem steep_spells : exists x, spells f x.
Proof.
  assert (C : ex_lim_seq_cauchy cvg).
  { intros eps. destruct (archimed_cor1 eps (cond_pos eps)) as (N & HN & N0). exists N. intros n m Hn Hm.
    assert (W : forall n m, (N <= n)%nat -> (n <= m)%nat -> (Rabs (cvg n - cvg m) < eps)%R).
    { clear n m Hn Hm. intros n m Hn Hm. rewrite Rabs_minus_sym. replace m with (n + (m - n))%nat by lia. pose proof (cvg_far n (m - n)) as F.
      assert (0 < / INR (S (n + (m - n))))%R by (apply Rinv_0_lt_compat, lt_0_INR; lia).
      assert (/ INR (S n) <= / INR N)%R by (apply Rinv_le_contravar; [apply lt_0_INR; lia|apply le_INR; lia]). lra. }
    destruct (Nat.le_ge_cases n m); [apply W; auto|rewrite Rabs_minus_sym; apply W; auto]. }
  apply ex_lim_seq_cauchy_corr in C. destruct C as (x & Hx). exists x, O. split; [intros n _; apply den_nz|exact Hx].
Qed.
End Conv.

(** ** A term in front *)
Lemma gcont_cons f n : gnum f (S n) = snd (f O) * gnum (shift f) n + fst (f 1%nat) * gden (shift f) n /\ gden f (S n) = gnum (shift f) n.
Proof.
  enough (H : forall n, (gnum f (S n) = snd (f O) * gnum (shift f) n + fst (f 1%nat) * gden (shift f) n /\ gden f (S n) = gnum (shift f) n) /\
    (gnum f (S (S n)) = snd (f O) * gnum (shift f) (S n) + fst (f 1%nat) * gden (shift f) (S n) /\ gden f (S (S n)) = gnum (shift f) (S n))) by apply H.
  clear n. induction n as [|n (IH1 & IH2)].
  - rewrite gnum_SS, gden_SS, gnum_1, gden_1, gnum_1, gden_1, gnum_0, gden_0, gnum_0, gden_0. unfold shift. split; split; ring.
  - split; [exact IH2|]. rewrite (gnum_SS f (S n)), (gden_SS f (S n)), (gnum_SS (shift f) n), (gden_SS (shift f) n). destruct IH1 as (-> & ->), IH2 as (-> & ->). unfold shift. split; ring.
Qed.

Lemma spells_cons f y : spells (shift f) y -> y <> 0%R -> spells f (IZR (snd (f O)) + IZR (fst (f 1%nat)) / y).
Proof.
  intros (N & Nz & L) Hy.
  assert (Ev : exists M, forall n, (M <= n)%nat -> gnum (shift f) n <> 0).
  { apply is_lim_seq_spec in L. assert (P : (0 < Rabs y)%R) by (apply Rabs_pos_lt; auto). destruct (L (mkposreal _ P)) as (M & HM). exists M. intros n Hn K. specialize (HM n Hn). rewrite K in HM.
    cbn [pos] in HM. replace (0 / IZR (gden (shift f) n) - y)%R with (- y)%R in HM by (unfold Rdiv; ring). rewrite Rabs_Ropp in HM. lra. }
  destruct Ev as (M & HM). exists (S M). split; [intros [|n] Hn; [lia|]; destruct (gcont_cons f n) as (_ & ->); apply HM; lia|].
  apply is_lim_seq_incr_1. apply (is_lim_seq_ext_loc (fun n => (IZR (snd (f O)) + IZR (fst (f 1%nat)) / (IZR (gnum (shift f) n) / IZR (gden (shift f) n)))%R)).
  - exists (Nat.max M N). intros n Hn. destruct (gcont_cons f n) as (-> & ->). assert (IZR (gnum (shift f) n) <> 0%R) by (apply IZR_neq, HM; lia). assert (IZR (gden (shift f) n) <> 0%R) by (apply IZR_neq, Nz; lia).
    rewrite plus_IZR, !mult_IZR. field. auto.
  - apply (is_lim_seq_plus _ _ (IZR (snd (f O))) (IZR (fst (f 1%nat)) / y)%R); [apply is_lim_seq_const| |reflexivity].
    apply (is_lim_seq_div _ _ (IZR (fst (f 1%nat))) y); [apply is_lim_seq_const|exact L|intros K; inversion K; auto|].
    unfold is_Rbar_div. cbn. replace (/ y)%R with (/ y)%R by reflexivity. reflexivity.
Qed.
