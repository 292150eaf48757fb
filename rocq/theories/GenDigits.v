(** * GenDigits: whatever the signs, the characters of decimals() add up to the right number (C81). *)

From Coq Require Import ZArith Reals Lia Lra Psatz Bool List.
From Coquelicot Require Import Coquelicot.
From Verif Require Import Base Ext ModelBlock ModelGen Spec SpecGen NumFacts SurdOrd SurdRound GenBlock GenSound GenConv GenCont GenTail GenLive GenRep GenHomo GenApprox SpecSpell GenSpell SpecDigits.
Import ListNotations.
Open Scope Z_scope.

(** ** A numerator that vanishes leaves a rational number *)
Lemma zero_stops f k x : fst (f (S k)) = 0 -> spells f x -> irrational x -> False.
Proof.
  intros Z (N & D & L) Ix.
  assert (P : forall n, exists e, gnum f (k + n) = e * gnum f k /\ gden f (k + n) = e * gden f k).
  { assert (Q : forall n, (exists e, gnum f (k + n) = e * gnum f k /\ gden f (k + n) = e * gden f k) /\ (exists e, gnum f (k + S n) = e * gnum f k /\ gden f (k + S n) = e * gden f k)).
    { induction n as [|n ((e1 & A1 & B1) & (e2 & A2 & B2))].
      - rewrite Nat.add_0_r. split; [exists 1; lia|]. replace (k + 1)%nat with (S k) by lia. destruct (gcont_S f k) as (E1 & E2). rewrite Z in E1, E2. exists (snd (f (S k))). lia.
      - split; [eauto|]. replace (k + S (S n))%nat with (S (S (k + n))) by lia. replace (k + S n)%nat with (S (k + n)) in A2, B2 by lia. rewrite gnum_SS, gden_SS, A1, A2, B1, B2.
        exists (snd (f (S (S (k + n)))) * e2 + fst (f (S (S (k + n)))) * e1). split; ring. }
    intros n. apply Q. }
  assert (Dk : gden f k <> 0). { intros K. destruct (P N) as (e & _ & E). rewrite K in E. apply (D (k + N)%nat); lia. }
  apply (Ix (gnum f k) (gden f k) Dk).
  assert (L' : is_lim_seq (fun n => IZR (gnum f n) / IZR (gden f n))%R (IZR (gnum f k) / IZR (gden f k))%R).
  { apply is_lim_seq_ext_loc with (fun _ => (IZR (gnum f k) / IZR (gden f k))%R); [|apply is_lim_seq_const].
    exists (k + N)%nat. intros n Hn. destruct (P (n - k)%nat) as (e & E1 & E2). replace (k + (n - k))%nat with n in E1, E2 by lia. pose proof (D n ltac:(lia)) as Dn.
    rewrite E1, E2, !mult_IZR. rewrite E2 in Dn. assert (IZR (gden f k) <> 0%R) by (apply not_0_IZR; lia). assert (IZR e <> 0%R) by (apply not_0_IZR; intros ->; lia). field. auto. }
  pose proof (is_lim_seq_unique _ _ L) as U1. pose proof (is_lim_seq_unique _ _ L') as U2. rewrite U1 in U2. inversion U2. reflexivity.
Qed.

(** ** One character *)
Lemma dec_call t f fuel : forall k i c k' i', dec_next t (from_fn f) fuel (k, i) = Ok (Some c, (k', i')) ->
  exists n k1 r1 r2, path k (from f i) n k1 /\ emits k1 (c - 48) r1 r2 /\ k' = Block (r1 * 10) (r2 * 10) (qm1 k1) (qm2 k1) /\ i' = (i + n)%nat.
Proof.
  induction fuel as [|fuel IH]; intros k i c k' i' H; cbn [dec_next] in H; [discriminate|].
  apply bind_Ok in H. destruct H as (ten & T10 & H). assert (ten = 10) by (unfold unwrap, checked in T10; destruct (fits t 10); congruence). subst ten.
  apply bind_Ok in H. destruct H as ((u, k1) & R & H). apply reduce_mul_inv in R. destruct R as [(j & r1 & r2 & C & -> & ->)|(C & -> & ->)].
  - apply bind_Ok in H. destruct H as (d & D & H). apply bind_Ok in H. destruct H as (c1 & C1 & H). inversion H; subst.
    assert (d = j) by (unfold unwrap, checked in D; destruct (fits (UInt 8) j); congruence). subst d.
    assert (c = j + 48) by (unfold addT, chk in C1; destruct (fits (UInt 8) (j + 48)); congruence). subst c. replace (j + 48 - 48) with j by ring.
    apply check_integer_inv in C. exists O, k, r1, r2. cbn [path]. split; [reflexivity|]. split; [exact C|]. split; [reflexivity|lia].
  - cbn [from_fn bind] in H. destruct (f i) as [a b] eqn:Ef. apply bind_Ok in H. destruct H as ((u, k2) & M & H). destruct u as [(p, q)|]; [|discriminate]. apply checked_gmove_inv in M.
    destruct (IH _ _ _ _ _ H) as (n & k3 & r1 & r2 & P & Em & -> & ->). exists (S n), k3, r1, r2. split; [|split; [exact Em|split; [reflexivity|lia]]].
    exists (block_update k2 p q). unfold from at 1 2. rewrite Nat.add_0_r, Ef. split; [exact M|]. eapply path_ext; [|exact P]. intros j. unfold from, shift. f_equal. lia.
Qed.

(** With arbitrary precision: a character comes, or the digit does not fit *)
Lemma dec_char d : (exists c, (let! d := unwrap (checked (UInt 8) d) in addT (UInt 8) d 48) = Ok c /\ c = d + 48) \/
  (exists p, (let! d := unwrap (checked (UInt 8) d) in addT (UInt 8) d 48) = Panic p /\ no_char d p).
Proof.
  unfold checked, unwrap, addT, chk, fits. change (2 ^ 8) with 256. destruct (Z.leb_spec 0 d), (Z.ltb_spec d 256); cbn [andb bind].
  - destruct (Z.leb_spec 0 (d + 48)), (Z.ltb_spec (d + 48) 256); cbn [andb]; [left; eauto|right; exists POverflow; split; [reflexivity|right; split; [reflexivity|lia]]|lia|lia].
  - right. exists PUnwrap. split; [reflexivity|]. left. split; [reflexivity|lia].
  - right. exists PUnwrap. split; [reflexivity|]. left. split; [reflexivity|lia].
  - right. exists PUnwrap. split; [reflexivity|]. left. split; [reflexivity|lia].
Qed.

Lemma dec_outcome f N : forall k i, (forall k', path k (from f i) N k' -> exists v r1 r2, emits k' v r1 r2) ->
  (exists c s', dec_next BigI (from_fn f) (S N) (k, i) = Ok (Some c, s')) \/
  (exists p n k1 d r1 r2, (forall fuel, (S N <= fuel)%nat -> dec_next BigI (from_fn f) fuel (k, i) = Panic p) /\ path k (from f i) n k1 /\ emits k1 d r1 r2 /\ no_char d p).
Proof.
  assert (Shape : forall fuel k i, dec_next BigI (from_fn f) (S fuel) (k, i) =
    match block_check_integer BigI k with
    | Ok (Some (d, r1, r2)) => let! c := (let! d := unwrap (checked (UInt 8) d) in addT (UInt 8) d 48) in Ok (Some c, (Block (r1 * 10) (r2 * 10) (qm1 k) (qm2 k), i))
    | Ok None => let! (o, k) := block_checked_gmove BigI k (fst (f i)) (snd (f i)) in match o with None => Ok (None, (k, S i)) | Some (p, q) => dec_next BigI (from_fn f) fuel (block_update k p q, S i) end
    | Panic p => Panic p | Hang => Hang end).
  { intros fuel k i. cbn [dec_next]. unfold checked at 1, fits, unwrap at 1. cbn [bind]. unfold block_reduce_mul. destruct (block_check_integer BigI k) as [[[[d r1] r2]|]| |]; cbn [bind]; try reflexivity.
    - unfold lift2, mulT, chk, fits. cbn [bind]. destruct (unwrap (checked (UInt 8) d)); cbn [bind]; reflexivity.
    - unfold from_fn at 1. cbn [bind]. destruct (f i) as [a b]. reflexivity. }
  assert (Emit : forall N k i d r1 r2, block_check_integer BigI k = Ok (Some (d, r1, r2)) ->
    (exists c s', dec_next BigI (from_fn f) (S N) (k, i) = Ok (Some c, s')) \/
    (exists p n k1 d r1 r2, (forall fuel, (S N <= fuel)%nat -> dec_next BigI (from_fn f) fuel (k, i) = Panic p) /\ path k (from f i) n k1 /\ emits k1 d r1 r2 /\ no_char d p)).
  { intros M k i d r1 r2 C. destruct (dec_char d) as [(c & E & _)|(p & E & NC)].
    - left. rewrite Shape, C, E. cbn [bind]. eauto.
    - right. exists p, O, k, d, r1, r2. split; [|split; [reflexivity|split; [apply check_integer_inv in C; exact C|exact NC]]].
      intros [|fuel] Hf; [lia|]. rewrite Shape, C, E. reflexivity. }
  induction N as [|N IH]; intros k i H; destruct (check_integer_big k) as [(d & r1 & r2 & C)|(C & NE)]; [exact (Emit _ _ _ _ _ _ C)| |exact (Emit _ _ _ _ _ _ C)|].
  - exfalso. destruct (H k eq_refl) as (v & r1 & r2 & E). exact (NE _ _ _ E).
  - destruct (checked_gmove_big k (fst (f i)) (snd (f i))) as (p & q & k1 & M). pose proof M as M'. apply checked_gmove_inv in M'.
    destruct (IH (block_update k1 p q) (S i)) as [(c & s' & E)|(e & n & k2 & d & r1 & r2 & E & P & Em & NC)].
    + intros k' P. apply H. exists (block_update k1 p q). unfold from at 1 2. rewrite Nat.add_0_r. split; [exact M'|]. eapply path_ext; [|exact P]. intros j. unfold from, shift. f_equal. lia.
    + left. exists c, s'. rewrite Shape, C, M. cbn [bind]. exact E.
    + right. exists e, (S n), k2, d, r1, r2. split; [|split; [|split; auto]].
      * intros [|fuel] Hf; [lia|]. rewrite Shape, C, M. cbn [bind]. apply E. lia.
      * exists (block_update k1 p q). unfold from at 1 2. rewrite Nat.add_0_r. split; [exact M'|]. eapply path_ext; [|exact P]. intros j. unfold from, shift. f_equal. lia.
Qed.

(** ** The state after [n] characters *)
Lemma pos_ten f i L k v r1 r2 : pos_at f i L k -> emits k v r1 r2 -> pos_at f i (lten L v) (Block (r1 * 10) (r2 * 10) (qm1 k) (qm2 k)).
Proof.
  destruct i as [|m]; cbn [pos_at]; [|apply rep_ten]. intros -> (N1 & N2 & I1 & I2 & R1 & R2). unfold lblock, lten in *. cbn [pm1 pm2 qm1 qm2 la lb lc ld] in *.
  pose proof (Z.quot_rem (la L) (lc L) N1) as E1. pose proof (Z.quot_rem (lb L) (ld L) N2) as E2. rewrite <- I1, <- R1 in E1. rewrite <- I2, <- R2 in E2. f_equal; nia.
Qed.

(** What is left after [n] characters: y -> 10^n (y - dsum c n) *)
Fixpoint dleft (c : nat -> Z) (n : nat) : lin := match n with O => lid | S n => lten (dleft c n) (c n - 48) end.

Lemma dleft_shape c n : lc (dleft c n) = 0 /\ ld (dleft c n) = 1 /\ la (dleft c n) = 10 ^ Z.of_nat n.
Proof.
  induction n as [|n (A & B & C)]; [cbn; auto|]. cbn [dleft]. unfold lten. cbn [la lb lc ld]. rewrite A, B, C, Nat2Z.inj_succ, Z.pow_succ_r by lia. split; [reflexivity|]. split; [reflexivity|ring].
Qed.

Lemma dleft_val c n y : (IZR (la (dleft c n)) * y + IZR (lb (dleft c n)) = 10 ^ n * (y - dsum c n))%R /\ ldn (dleft c n) y = 1%R.
Proof.
  destruct (dleft_shape c n) as (A & B & _). split; [|unfold ldn; rewrite A, B; ring].
  clear A B. induction n as [|n IH]; [cbn [dleft lid la lb dsum pow]; ring|]. destruct (dleft_shape c n) as (A' & B' & _). cbn [dleft dsum pow]. unfold lten. cbn [la lb]. rewrite A', B', Z.mul_0_r, Z.mul_1_r, Z.sub_0_r, !mult_IZR, !minus_IZR.
  assert (P : (10 ^ n <> 0)%R) by (apply pow_nonzero; lra).
  transitivity (10 * ((IZR (la (dleft c n)) * y + IZR (lb (dleft c n))) - (IZR (c n) - 48)))%R; [ring|]. rewrite IH. field. exact P.
Qed.
Lemma dleft_lval c n y : lval (dleft c n) y = (10 ^ n * (y - dsum c n))%R.
Proof. unfold lval. destruct (dleft_val c n y) as (A & B). unfold ldn in B. rewrite A, B. field. Qed.

Lemma quot_small p q : q <> 0 -> Z.abs (10 * Z.rem p q) < 10 * Z.abs q.
Proof. intros H. pose proof (Z.rem_bound_abs p q H). lia. Qed.

Section Run.
Context (f : nat -> Z * Z) (F0 : fst (f O) = 1) (x : R) (Sx : spells f x) (Ix : irrational x).
Let nx := dec_next BigI (from_fn f).
Let s0 : block * nat := (block_identity, O).

(** [reach c n s]: the characters up to number [n] are those of [c] and then the state is [s] *)
Fixpoint reach (c : nat -> Z) (n : nat) (s : block * nat) : Prop :=
  match n with O => s = s0 | S n => exists s1 fuel, reach c n s1 /\ nx fuel s1 = Ok (Some (c n), s) end.

Lemma nx_mono f1 f2 s r : nx f1 s = Ok r -> (f1 <= f2)%nat -> nx f2 s = Ok r.
Proof. apply dec_fuel. Qed.

Lemma reach_det c n : forall s1 s2, reach c n s1 -> reach c n s2 -> s1 = s2.
Proof.
  induction n as [|n IH]; intros s1 s2 H1 H2; cbn [reach] in *; [congruence|]. destruct H1 as (u1 & f1 & A1 & B1), H2 as (u2 & f2 & A2 & B2). rewrite (IH _ _ A1 A2) in B1.
  pose proof (nx_mono _ (Nat.max f1 f2) _ _ B1 ltac:(lia)) as C1. pose proof (nx_mono _ (Nat.max f1 f2) _ _ B2 ltac:(lia)) as C2. congruence.
Qed.

Lemma reach_pos c n k i : reach c n (k, i) -> pos_at f i (dleft c n) k.
Proof.
  revert k i. induction n as [|n IH]; intros k i H; cbn [reach] in H.
  - inversion H; subst. reflexivity.
  - destruct H as ((k1, i1) & fuel & A & B). destruct (dec_call _ _ _ _ _ _ _ _ B) as (m & k2 & r1 & r2 & P & Em & -> & ->). cbn [dleft]. apply pos_ten; [|exact Em].
    exact (pos_path f F0 _ _ _ _ _ (IH _ _ A) P).
Qed.

(** A pair of emitting convergents *)
Lemma emit_digit c n i k d r1 r2 : pos_at f i (dleft c n) k -> emits k d r1 r2 -> exists j, i = S (S j) /\ next_digit f c n j d /\ next_digit f c n (S j) d.
Proof.
  intros A (N1 & N2 & I1 & I2 & _). destruct (dleft_shape c n) as (Z1 & Z2 & _). destruct i as [|[|j]].
  - cbn [pos_at] in A. subst k. unfold lblock in N1. cbn [qm1] in N1. contradiction.
  - destruct A as (s & Hs & _ & _ & _ & Q2). unfold lden in Q2. rewrite Z1 in Q2. cbn [gcont fst snd] in Q2. exfalso. rewrite Z2 in Q2. nia.
  - exists j. split; [reflexivity|]. destruct A as (s & Hs & P1 & Q1 & P2 & Q2). unfold lnum, lden in *. rewrite gcont_old in P2, Q2. rewrite Z1, Z2 in Q1, Q2.
    change (fst (snd (gcont f (S j)))) with (gnum f (S j)) in *. change (snd (snd (gcont f (S j)))) with (gden f (S j)) in *.
    change (fst (snd (gcont f j))) with (gnum f j) in *. change (snd (snd (gcont f j))) with (gden f j) in *.
    assert (One : forall p q a b, q <> 0 -> s * q = b -> s * p = la (dleft c n) * a + lb (dleft c n) * b -> b <> 0 /\ istrunc (10 ^ n * (IZR a / IZR b - dsum c n))%R (Z.quot p q)).
    { intros p q a b Nq Eq Ep. assert (Nb : b <> 0) by nia. split; [exact Nb|]. rewrite <- (dleft_lval c n).
      replace (lval (dleft c n) (IZR a / IZR b)) with (IZR p / IZR q)%R; [apply trunc_quot; exact Nq|].
      rewrite dleft_lval. rewrite <- (proj1 (dleft_val c n (IZR a / IZR b))). apply (f_equal IZR) in Eq, Ep. rewrite plus_IZR, !mult_IZR in Ep. rewrite mult_IZR in Eq.
      assert (IZR q <> 0%R) by (apply not_0_IZR; auto). assert (IZR b <> 0%R) by (apply not_0_IZR; auto). assert (IZR s <> 0%R) by (apply not_0_IZR; lia).
      replace (IZR p / IZR q)%R with ((IZR s * IZR p) / (IZR s * IZR q))%R by (field; auto). rewrite Ep, Eq. field. auto. }
    unfold next_digit. split; [rewrite I2|rewrite I1]; (eapply One; [|lia|lia]; auto).
Qed.

(** After a character: two more pairs were read at least, and the sum is close to a convergent *)
Lemma reach_close c n k i : reach c (S n) (k, i) -> exists j, i = S j /\ (1 <= j)%nat /\ gden f j <> 0 /\ (Rabs (IZR (gnum f j) / IZR (gden f j) - dsum c (S n)) < / 10 ^ n)%R /\
  qm1 k <> 0 /\ qm2 k <> 0 /\ Z.abs (pm1 k) < 10 * Z.abs (qm1 k) /\ Z.abs (pm2 k) < 10 * Z.abs (qm2 k).
Proof.
  intros H. pose proof (reach_pos _ _ _ _ H) as A. cbn [reach] in H. destruct H as ((k1, i1) & fuel & R1 & B). destruct (dec_call _ _ _ _ _ _ _ _ B) as (m & k2 & r1 & r2 & P & Em & -> & ->).
  pose proof (pos_path f F0 _ _ _ _ _ (reach_pos _ _ _ _ R1) P) as A2. destruct (emit_digit _ _ _ _ _ _ _ A2 Em) as (j & Ej & _ & (D & T)).
  exists (S j). split; [exact Ej|]. split; [lia|]. split; [exact D|]. split.
  - cbn [dsum]. set (y := (IZR (gnum f (S j)) / IZR (gden f (S j)))%R) in *. set (u := (10 ^ n * (y - dsum c n))%R) in *.
    assert (Pp : (0 < 10 ^ n)%R) by (apply pow_lt; lra).
    replace (y - (dsum c n + IZR (c n - 48) / 10 ^ n))%R with ((u - IZR (c n - 48)) / 10 ^ n)%R by (unfold u; field; lra).
    assert (Q : (Rabs (u - IZR (c n - 48)) < 1)%R). { destruct T as (T1 & T2). apply Rabs_def1; destruct (Rle_or_lt 0 u) as [L|L]; try specialize (T1 L); try specialize (T2 (Rlt_le _ _ L)); lra. }
    unfold Rdiv. rewrite Rabs_mult, (Rabs_pos_eq (/ _)) by (left; apply Rinv_0_lt_compat; exact Pp). rewrite <- (Rmult_1_l (/ 10 ^ n)) at 2. apply Rmult_lt_compat_r; [apply Rinv_0_lt_compat; exact Pp|exact Q].
  - destruct Em as (N1 & N2 & _ & _ & -> & ->). cbn [pm1 pm2 qm1 qm2]. split; [exact N1|]. split; [exact N2|]. rewrite (Z.mul_comm _ 10), (Z.mul_comm (Z.rem (pm2 k2) _) 10). split; apply quot_small; auto.
Qed.

(** The two bounds stay apart *)
Lemma apart c n k i : pos_at f i (dleft c n) k -> pm1 k * qm2 k - pm2 k * qm1 k <> 0.
Proof.
  intros A. destruct (dleft_shape c n) as (Z1 & Z2 & Z3). assert (P10 : 0 < 10 ^ Z.of_nat n) by (apply Z.pow_pos_nonneg; lia). destruct i as [|m].
  - cbn [pos_at] in A. subst k. unfold lblock. cbn [pm1 pm2 qm1 qm2]. rewrite Z1, Z2, Z3. lia.
  - destruct A as (s & Hs & P1 & Q1 & P2 & Q2). unfold lnum, lden in *. rewrite Z1, Z2 in *.
    set (a := fst (snd (gcont f m))) in *. set (b := snd (snd (gcont f m))) in *. set (a' := fst (fst (gcont f m))) in *. set (b' := snd (fst (gcont f m))) in *.
    assert (D : a * b' - a' * b <> 0).
    { destruct m as [|m]; [unfold a, b, a', b'; cbn [gcont fst snd]; lia|]. unfold a', b'. rewrite gcont_old. apply (gcont_det f m F0). intros [|j] Hj; [lia|]. intros K. exact (zero_stops f j x K Sx Ix). }
    intros K. apply D. assert (E : s * s * (pm1 k * qm2 k - pm2 k * qm1 k) = 10 ^ Z.of_nat n * (a * b' - a' * b)).
    { replace (s * s * (pm1 k * qm2 k - pm2 k * qm1 k)) with (s * pm1 k * (s * qm2 k) - s * pm2 k * (s * qm1 k)) by ring. rewrite P1, Q1, P2, Q2, Z3. ring. }
    rewrite K, Z.mul_0_r in E. nia.
Qed.

Lemma reach_step_mono c n k i k' i' : reach c n (k, i) -> reach c (S n) (k', i') -> (i <= i')%nat /\ (i' = i -> qm1 k' = qm1 k /\ qm2 k' = qm2 k /\
  pm1 k' * qm2 k' - pm2 k' * qm1 k' = 10 * (pm1 k * qm2 k - pm2 k * qm1 k)).
Proof.
  intros H H'. cbn [reach] in H'. destruct H' as (s1 & fuel & A & B). rewrite (reach_det _ _ _ _ A H) in B. destruct (dec_call _ _ _ _ _ _ _ _ B) as (m & k2 & r1 & r2 & P & Em & -> & ->).
  split; [lia|]. intros E. assert (m = O) by lia. subst m. cbn [path] in P. subst k2. cbn [pm1 pm2 qm1 qm2]. split; [reflexivity|]. split; [reflexivity|].
  destruct Em as (N1 & N2 & I1 & I2 & -> & ->). pose proof (Z.quot_rem (pm1 k) (qm1 k) N1) as E1. pose proof (Z.quot_rem (pm2 k) (qm2 k) N2) as E2. rewrite <- I1 in E1. rewrite <- I2 in E2.
  set (u := Z.rem (pm1 k) (qm1 k)) in *. set (w := Z.rem (pm2 k) (qm2 k)) in *. rewrite E1, E2. ring.
Qed.

Section Endless.
Context (c : nat -> Z) (Hc : forall n, exists fuel, forall fuel', (fuel <= fuel')%nat -> nth_item (nx fuel') n s0 = Ok (Some (c n))).

Lemma reach_all n : exists s, reach c n s /\ forall m, exists fuel, forall fuel', (fuel <= fuel')%nat -> nth_item (nx fuel') m s = Ok (Some (c (n + m)%nat)).
Proof.
  induction n as [|n (s & R & H)]; [exists s0; split; [reflexivity|exact Hc]|].
  destruct (H O) as (fu & E). pose proof (E fu (le_n _)) as E0. rewrite Nat.add_0_r in E0. apply nth_head in E0. destruct E0 as (s' & E0). exists s'. split; [exists s, fu; auto|].
  intros m. destruct (H (S m)) as (fu2 & E2). exists (Nat.max fu fu2). intros fuel' L. specialize (E2 fuel' ltac:(lia)).
  rewrite (nth_item_S _ m _ _ _ (nx_mono _ fuel' _ _ E0 ltac:(lia))) in E2. rewrite E2. do 3 f_equal. lia.
Qed.

Lemma reach_mono m : forall n k i k' i', reach c n (k, i) -> reach c (n + m) (k', i') -> (i <= i')%nat.
Proof.
  induction m as [|m IH]; intros n k i k' i' H H'.
  - rewrite Nat.add_0_r in H'. pose proof (reach_det _ _ _ _ H H') as E. inversion E. lia.
  - destruct (reach_all (n + m)) as ((k1, i1) & R1 & _). pose proof (IH _ _ _ _ _ H R1). replace (n + S m)%nat with (S (n + m)) in H' by lia. destruct (reach_step_mono _ _ _ _ _ _ R1 H'). lia.
Qed.

Lemma reach_reads n k i : reach c (S n) (k, i) -> exists m k' i', reach c (S n + m) (k', i') /\ (i < i')%nat.
Proof.
  intros H. set (m := S (Z.to_nat (20 * (Z.abs (qm1 k) * Z.abs (qm2 k))))). destruct (reach_all (S n + m)) as ((k', i') & R & _). exists m, k', i'. split; [exact R|].
  destruct (Nat.lt_ge_cases i i') as [L|L]; [exact L|exfalso].
  assert (Q : forall j, (j <= m)%nat -> exists k1, reach c (S n + j) (k1, i) /\ qm1 k1 = qm1 k /\ qm2 k1 = qm2 k /\ pm1 k1 * qm2 k1 - pm2 k1 * qm1 k1 = 10 ^ Z.of_nat j * (pm1 k * qm2 k - pm2 k * qm1 k)).
  { induction j as [|j IH]; intros Hj.
    - exists k. rewrite Nat.add_0_r. split; [exact H|]. change (10 ^ Z.of_nat 0) with 1. split; [reflexivity|]. split; [reflexivity|ring].
    - destruct (IH ltac:(lia)) as (k1 & R1 & A1 & A2 & A3). destruct (reach_all (S (S n + j))) as ((k2, i2) & R2 & _). destruct (reach_step_mono _ _ _ _ _ _ R1 R2) as (M1 & M2).
      assert (i2 <= i')%nat. { apply (reach_mono (m - S j) (S (S n + j)) k2 i2 k' i' R2). replace (S (S n + j) + (m - S j))%nat with (S n + m)%nat by lia. exact R. }
      assert (i2 = i) by lia. subst i2. destruct (M2 eq_refl) as (B1 & B2 & B3). exists k2. replace (S n + S j)%nat with (S (S n + j)) by lia. split; [exact R2|].
      split; [congruence|]. split; [congruence|]. rewrite B3, A3, Nat2Z.inj_succ, Z.pow_succ_r by lia. ring. }
  destruct (Q m (le_n _)) as (k1 & R1 & A1 & A2 & A3). replace (S n + m)%nat with (S (n + m)) in R1 by lia. destruct (reach_close _ _ _ _ R1) as (_ & _ & _ & _ & _ & _ & _ & B1 & B2).
  pose proof (apart _ _ _ _ (reach_pos _ _ _ _ H)) as Ap. rewrite A1, A2 in *. set (D := pm1 k * qm2 k - pm2 k * qm1 k) in *. set (q1 := qm1 k) in *. set (q2 := qm2 k) in *.
  assert (Up : Z.abs (pm1 k1 * q2 - pm2 k1 * q1) <= 20 * (Z.abs q1 * Z.abs q2)).
  { assert (Z.abs (pm1 k1 * q2) <= 10 * (Z.abs q1 * Z.abs q2)) by (rewrite Z.abs_mul; nia). assert (Z.abs (pm2 k1 * q1) <= 10 * (Z.abs q1 * Z.abs q2)) by (rewrite Z.abs_mul; nia). lia. }
  rewrite A3, Z.abs_mul in Up. assert (P : Z.of_nat m < 10 ^ Z.of_nat m) by (apply Z.pow_gt_lin_r; lia). rewrite (Z.abs_eq (10 ^ _)) in Up by lia.
  assert (1 <= Z.abs D) by lia. assert (Z.of_nat m = 20 * (Z.abs q1 * Z.abs q2) + 1) by (unfold m; rewrite Nat2Z.inj_succ, Z2Nat.id by nia; lia). nia.
Qed.

Lemma reach_far J : exists N, forall n k i, (N <= n)%nat -> reach c n (k, i) -> (J <= i)%nat.
Proof.
  induction J as [|J (N & HN)]; [exists O; lia|]. destruct (reach_all (S N)) as ((k, i) & R & _). destruct (reach_reads N k i R) as (m & k' & i' & R' & L).
  pose proof (HN (S N) k i ltac:(lia) R). exists (S N + m)%nat. intros n k2 i2 Hn R2. pose proof (reach_mono (n - (S N + m)) (S N + m) k' i' k2 i2 R'). replace (S N + m + (n - (S N + m)))%nat with n in H0 by lia.
  specialize (H0 R2). lia.
Qed.

Theorem digits_spell : dspells c x.
Proof.
  unfold dspells. apply is_lim_seq_incr_1. apply is_lim_seq_spec. intros [eps He]. cbn [pos]. destruct Sx as (N0 & D0 & Lx). apply is_lim_seq_spec in Lx. assert (E2 : (0 < eps / 2)%R) by lra.
  destruct (Lx (mkposreal _ E2)) as (N1 & H1). cbn [pos] in H1. destruct (reach_far (S N1)) as (N2 & H2).
  assert (P : exists N3, forall n, (N3 <= n)%nat -> (/ 10 ^ n < eps / 2)%R).
  { destruct (pow_lt_1_zero (/ 10) ltac:(rewrite Rabs_pos_eq; lra) (eps / 2) E2) as (N3 & H3). exists N3. intros n Hn. specialize (H3 n Hn). rewrite pow_inv in H3.
    rewrite Rabs_pos_eq in H3; [exact H3|]. left. apply Rinv_0_lt_compat, pow_lt. lra. }
  destruct P as (N3 & H3). exists (Nat.max N2 N3). intros n Hn. destruct (reach_all (S n)) as ((k, i) & R & _). destruct (reach_close _ _ _ _ R) as (j & -> & _ & _ & C & _).
  pose proof (H2 (S n) k (S j) ltac:(lia) R). specialize (H1 j ltac:(lia)). specialize (H3 n ltac:(lia)).
  replace (dsum c (S n) - x)%R with (- (IZR (gnum f j) / IZR (gden f j) - dsum c (S n)) + (IZR (gnum f j) / IZR (gden f j) - x))%R by ring.
  eapply Rle_lt_trans; [apply Rabs_triang|]. rewrite Rabs_Ropp. lra.
Qed.
End Endless.

(** ** Progress *)
Lemma progress n : exists c m fuel, (m <= n)%nat /\ (forall i fuel', (i < m)%nat -> (fuel <= fuel')%nat -> nth_item (nx fuel') i s0 = Ok (Some (c i))) /\
  (m = n \/ exists p d j, next_digit f c m j d /\ next_digit f c m (S j) d /\ no_char d p /\ forall fuel', (fuel <= fuel')%nat -> nth_item (nx fuel') m s0 = Panic p).
Proof.
  enough (G : exists c m, (m <= n)%nat /\ (exists s, reach c m s /\ (exists fuel, forall fuel', (fuel <= fuel')%nat -> (forall i, (i < m)%nat -> nth_item (nx fuel') i s0 = Ok (Some (c i))) /\ (forall i, nth_item (nx fuel') (m + i) s0 = nth_item (nx fuel') i s)) /\
    (m = n \/ exists p d j fuel, next_digit f c m j d /\ next_digit f c m (S j) d /\ no_char d p /\ forall fuel', (fuel <= fuel')%nat -> nx fuel' s = Panic p))).
  { destruct G as (c & m & Lm & s & R & (fuel & H) & E). destruct E as [->|(p & d & j & fu & N1 & N2 & NC & E)].
    - exists c, n, fuel. split; [lia|]. split; [intros i fuel' Hi Hf; apply (H fuel' Hf); exact Hi|auto].
    - exists c, m, (Nat.max fuel fu). split; [exact Lm|]. split; [intros i fuel' Hi Hf; apply (H fuel' ltac:(lia)); exact Hi|]. right. exists p, d, j. split; [exact N1|]. split; [exact N2|]. split; [exact NC|].
      intros fuel' Hf. destruct (H fuel' ltac:(lia)) as (_ & K). specialize (K O). rewrite Nat.add_0_r in K. rewrite K, nth_item_0, E by lia. reflexivity. }
  induction n as [|n (c & m & Lm & s & R & (fuel & H) & E)].
  - exists (fun _ => 48), O. split; [lia|]. exists s0. split; [reflexivity|]. split; [|auto]. exists O. intros fuel' _. split; [lia|auto].
  - destruct E as [->|E]; [|exists c, m; split; [lia|]; exists s; eauto 8].
    destruct s as [k i]. pose proof (reach_pos _ _ _ _ R) as A. destruct (dleft_val c n x) as (_ & Ld).
    assert (D1 : ldn (dleft c n) x <> 0%R) by lra.
    assert (D2 : irrational (lval (dleft c n) x)). { apply irr_mobius; auto. destruct (dleft_shape c n) as (Z1 & Z2 & Z3). rewrite Z1, Z2, Z3. assert (0 < 10 ^ Z.of_nat n) by (apply Z.pow_pos_nonneg; lia). lia. }
    destruct (pos_live f F0 x i _ k Sx A D1 D2) as (N & HN). destruct (dec_outcome f N k i HN) as [(v & s' & Ev)|(p & n1 & k1 & d & r1 & r2 & Ep & P & Em & NC)].
    + set (c' := fun j => if Nat.eqb j n then v else c j). assert (C1 : forall j, (j < n)%nat -> c' j = c j) by (intros j Hj; unfold c'; destruct (Nat.eqb_spec j n); [lia|reflexivity]).
      assert (C2 : c' n = v) by (unfold c'; rewrite Nat.eqb_refl; reflexivity).
      assert (R' : forall m s, (m <= n)%nat -> reach c m s -> reach c' m s).
      { induction m as [|m IH]; intros s Hm Hr; cbn [reach] in *; [exact Hr|]. destruct Hr as (s1 & fu & X1 & X2). exists s1, fu. split; [apply IH; [lia|exact X1]|]. rewrite C1 by lia. exact X2. }
      exists c', (S n). split; [lia|]. exists s'. split; [exists (k, i), (S N); split; [apply R'; [lia|exact R]|rewrite C2; exact Ev]|]. split; [|auto].
      exists (Nat.max fuel (S N)). intros fuel' Hf. destruct (H fuel' ltac:(lia)) as (X1 & X2). pose proof (nx_mono _ fuel' _ _ Ev ltac:(lia)) as Ev'.
      assert (X3 : nth_item (nx fuel') n s0 = Ok (Some v)). { specialize (X2 O). rewrite Nat.add_0_r in X2. rewrite X2, nth_item_0, Ev'. reflexivity. }
      split; [intros j Hj; destruct (Nat.eq_dec j n) as [->|Hn]; [rewrite C2; exact X3|rewrite C1 by lia; apply X1; lia]|].
      intros j. replace (S n + j)%nat with (n + S j)%nat by lia. rewrite X2. apply (nth_item_S _ j _ _ _ Ev').
    + exists c, n. split; [lia|]. exists (k, i). split; [exact R|]. split; [eauto|]. right. pose proof (pos_path f F0 _ _ _ _ _ A P) as A2. destruct (emit_digit _ _ _ _ _ _ _ A2 Em) as (j & _ & N1 & N2).
      exists p, d, j, (S N). split; [exact N1|]. split; [exact N2|]. split; [exact NC|exact Ep].
Qed.

(** Each character is the common next digit of two neighbouring convergents *)
Lemma digit_rule c n : (forall i, (i <= n)%nat -> exists fuel, forall fuel', (fuel <= fuel')%nat -> nth_item (nx fuel') i s0 = Ok (Some (c i))) ->
  exists j, next_digit f c n j (c n - 48) /\ next_digit f c n (S j) (c n - 48).
Proof.
  intros H. assert (Q : forall m, (m <= S n)%nat -> exists s, reach c m s /\ exists F, forall fuel i, (F <= fuel)%nat -> nth_item (nx fuel) (m + i) s0 = nth_item (nx fuel) i s).
  { induction m as [|m IH]; intros Hm; [exists s0; split; [reflexivity|]; exists O; auto|]. destruct (IH ltac:(lia)) as (s & R & F & K). destruct (H m ltac:(lia)) as (F2 & K2).
    pose proof (K2 (Nat.max F F2) ltac:(lia)) as E. specialize (K (Nat.max F F2) O ltac:(lia)) as K0. rewrite Nat.add_0_r in K0. rewrite K0 in E. apply nth_head in E. destruct E as (s' & E).
    exists s'. split; [exists s, (Nat.max F F2); auto|]. exists (Nat.max F F2). intros fuel i Hf. replace (S m + i)%nat with (m + S i)%nat by lia. rewrite K by lia. apply (nth_item_S _ i _ _ _ (nx_mono _ fuel _ _ E ltac:(lia))). }
  destruct (Q (S n) (le_n _)) as ((k, i) & (s1 & fuel & R1 & B) & _). destruct s1 as [k1 i1]. destruct (dec_call _ _ _ _ _ _ _ _ B) as (m & k2 & r1 & r2 & P & Em & _ & _).
  pose proof (pos_path f F0 _ _ _ _ _ (reach_pos _ _ _ _ R1) P) as A2. destruct (emit_digit _ _ _ _ _ _ _ A2 Em) as (j & _ & N1 & N2). eauto.
Qed.

(** ** Numbers that have no such spelling *)
Lemma reach_items c n : forall s, reach c n s -> exists F, forall fuel, (F <= fuel)%nat ->
  (forall i, (i < n)%nat -> nth_item (nx fuel) i s0 = Ok (Some (c i))) /\ (forall i, nth_item (nx fuel) (n + i) s0 = nth_item (nx fuel) i s).
Proof.
  induction n as [|n IH]; intros s H; cbn [reach] in H; [subst s; exists O; intros fuel _; split; [lia|auto]|]. destruct H as (s1 & f1 & R & E). destruct (IH _ R) as (F & K).
  exists (Nat.max F f1). intros fuel Hf. destruct (K fuel ltac:(lia)) as (K1 & K2). pose proof (nx_mono _ fuel _ _ E ltac:(lia)) as E'. split.
  - intros i Hi. destruct (Nat.eq_dec i n) as [->|Hn]; [|apply K1; lia]. specialize (K2 O). rewrite Nat.add_0_r in K2. rewrite K2, nth_item_0, E'. reflexivity.
  - intros i. replace (S n + i)%nat with (n + S i)%nat by lia. rewrite K2. apply (nth_item_S _ i _ _ _ E').
Qed.

Lemma dec_range t fuel : forall s c s', dec_next t (from_fn f) fuel s = Ok (Some c, s') -> 48 <= c <= 255.
Proof.
  induction fuel as [|fuel IH]; intros [k i] c s' H; cbn [dec_next] in H; [discriminate|].
  apply bind_Ok in H. destruct H as (ten & _ & H). apply bind_Ok in H. destruct H as ((u, k1) & _ & H). destruct u as [d|].
  - apply bind_Ok in H. destruct H as (d' & D & H). apply bind_Ok in H. destruct H as (c1 & C1 & H). inversion H; subst. unfold unwrap, checked, addT, chk, fits in *. change (2 ^ 8) with 256 in *.
    destruct (Z.leb_spec 0 d), (Z.ltb_spec d 256); cbn [andb] in D; try discriminate. inversion D; subst. destruct (Z.leb_spec 0 (d' + 48)), (Z.ltb_spec (d' + 48) 256); cbn [andb] in C1; try discriminate. inversion C1. lia.
  - cbn [from_fn bind] in H. destruct (f i) as [a b]. apply bind_Ok in H. destruct H as ((u, k2) & _ & H). destruct u as [(p, q)|]; [|discriminate]. exact (IH _ _ _ H).
Qed.

Lemma reach_range c n : forall s, reach c n s -> forall i, (i < n)%nat -> 48 <= c i <= 255.
Proof.
  induction n as [|n IH]; intros s H i Hi; [lia|]. cbn [reach] in H. destruct H as (s1 & fuel & R & E). destruct (Nat.eq_dec i n) as [->|Hn]; [exact (dec_range _ _ _ _ _ E)|apply (IH _ R); lia].
Qed.

Lemma dsum_bounds c n : (forall i, (i < n)%nat -> 48 <= c i <= 255) -> (0 <= dsum c n <= 230 - 230 / 10 ^ n)%R.
Proof.
  induction n as [|n IH]; intros H; cbn [dsum pow]; [lra|]. specialize (IH (fun i Hi => H i ltac:(lia))). specialize (H n ltac:(lia)).
  assert (P : (0 < 10 ^ n)%R) by (apply pow_lt; lra). assert (B : (0 <= IZR (c n - 48) <= 207)%R) by (split; [apply (IZR_le 0)|apply IZR_le]; lia).
  assert (P' : (0 < / 10 ^ n)%R) by (apply Rinv_0_lt_compat; exact P). unfold Rdiv in *. rewrite Rinv_mult. nra.
Qed.

Definition stuck (s : block * nat) : Prop := exists p fuel, forall fuel', (fuel <= fuel')%nat -> nx fuel' s = Panic p.

Lemma reach_step c n s : reach c n s -> stuck s \/ exists c' s', reach c' (S n) s' /\ reach c' n s.
Proof.
  destruct s as [k i]. intros R. pose proof (reach_pos _ _ _ _ R) as A. destruct (dleft_val c n x) as (_ & Ld).
  assert (D1 : ldn (dleft c n) x <> 0%R) by lra.
  assert (D2 : irrational (lval (dleft c n) x)). { apply irr_mobius; auto. destruct (dleft_shape c n) as (Z1 & Z2 & Z3). rewrite Z1, Z2, Z3. assert (0 < 10 ^ Z.of_nat n) by (apply Z.pow_pos_nonneg; lia). lia. }
  destruct (pos_live f F0 x i _ k Sx A D1 D2) as (N & HN). destruct (dec_outcome f N k i HN) as [(v & s' & Ev)|(p & n1 & k1 & d & r1 & r2 & Ep & P & Em & NC)]; [|left; exists p, (S N); exact Ep].
  right. set (c' := fun j => if Nat.eqb j n then v else c j). assert (C1 : forall j, (j < n)%nat -> c' j = c j) by (intros j Hj; unfold c'; destruct (Nat.eqb_spec j n); [lia|reflexivity]).
  assert (C2 : c' n = v) by (unfold c'; rewrite Nat.eqb_refl; reflexivity).
  assert (R' : forall m s, (m <= n)%nat -> reach c m s -> reach c' m s).
  { induction m as [|m IH]; intros s Hm Hr; cbn [reach] in *; [exact Hr|]. destruct Hr as (s1 & fu & X1 & X2). exists s1, fu. split; [apply IH; [lia|exact X1]|]. rewrite C1 by lia. exact X2. }
  exists c', s'. assert (R2 : reach c' n (k, i)) by (apply R'; [lia|exact R]). split; [|exact R2]. exists (k, i), (S N). split; [exact R2|]. rewrite C2. exact Ev.
Qed.

Definition panics : Prop := exists n p fuel, forall fuel', (fuel <= fuel')%nat -> nth_item (nx fuel') n s0 = Panic p.

Lemma stuck_panics c n s : reach c n s -> stuck s -> panics.
Proof.
  intros R (p & F1 & E). destruct (reach_items _ _ _ R) as (F2 & K). exists n, p, (Nat.max F1 F2). intros fuel Hf. destruct (K fuel ltac:(lia)) as (_ & K2). specialize (K2 O). rewrite Nat.add_0_r in K2.
  rewrite K2, nth_item_0, E by lia. reflexivity.
Qed.

Lemma more_reads c n k i : reach c n (k, i) -> panics \/ exists c' n' k' i', reach c' n' (k', i') /\ (i < i')%nat /\ (n < n')%nat.
Proof.
  intros H. set (m := S (Z.to_nat (20 * (Z.abs (qm1 k) * Z.abs (qm2 k))))).
  assert (Q : forall j, panics \/ (exists c' n' k' i', reach c' n' (k', i') /\ (i < i')%nat /\ (n < n')%nat) \/
    exists c' k1, reach c' (n + j) (k1, i) /\ qm1 k1 = qm1 k /\ qm2 k1 = qm2 k /\ pm1 k1 * qm2 k1 - pm2 k1 * qm1 k1 = 10 ^ Z.of_nat j * (pm1 k * qm2 k - pm2 k * qm1 k)).
  { induction j as [|j [IH|[IH|(c1 & k1 & R1 & A1 & A2 & A3)]]]; auto.
    - right. right. exists c, k. rewrite Nat.add_0_r. split; [exact H|]. change (10 ^ Z.of_nat 0) with 1. split; [reflexivity|]. split; [reflexivity|ring].
    - destruct (reach_step _ _ _ R1) as [St|(c2 & (k2 & i2) & R2 & R1')]; [left; exact (stuck_panics _ _ _ R1 St)|]. destruct (reach_step_mono _ _ _ _ _ _ R1' R2) as (M1 & M2).
      destruct (Nat.eq_dec i2 i) as [->|Hi]; [|right; left; exists c2, (S (n + j)), k2, i2; split; [exact R2|lia]]. destruct (M2 eq_refl) as (B1 & B2 & B3).
      right. right. exists c2, k2. replace (n + S j)%nat with (S (n + j)) by lia. split; [exact R2|]. split; [congruence|]. split; [congruence|]. rewrite B3, A3, Nat2Z.inj_succ, Z.pow_succ_r by lia. ring. }
  destruct (Q m) as [K|[K|(c1 & k1 & R1 & A1 & A2 & A3)]]; auto. exfalso.
  replace (n + m)%nat with (S (n + pred m)) in R1 by (unfold m; lia). destruct (reach_close _ _ _ _ R1) as (_ & _ & _ & _ & _ & _ & _ & B1 & B2).
  pose proof (apart _ _ _ _ (reach_pos _ _ _ _ H)) as Ap. rewrite A1, A2 in *. set (D := pm1 k * qm2 k - pm2 k * qm1 k) in *. set (q1 := qm1 k) in *. set (q2 := qm2 k) in *.
  assert (Up : Z.abs (pm1 k1 * q2 - pm2 k1 * q1) <= 20 * (Z.abs q1 * Z.abs q2)).
  { assert (Z.abs (pm1 k1 * q2) <= 10 * (Z.abs q1 * Z.abs q2)) by (rewrite Z.abs_mul; nia). assert (Z.abs (pm2 k1 * q1) <= 10 * (Z.abs q1 * Z.abs q2)) by (rewrite Z.abs_mul; nia). lia. }
  rewrite A3, Z.abs_mul in Up. assert (P : Z.of_nat m < 10 ^ Z.of_nat m) by (apply Z.pow_gt_lin_r; lia). rewrite (Z.abs_eq (10 ^ _)) in Up by lia.
  assert (1 <= Z.abs D) by lia. assert (Z.of_nat m = 20 * (Z.abs q1 * Z.abs q2) + 1) by (unfold m; rewrite Nat2Z.inj_succ, Z2Nat.id by nia; lia). nia.
Qed.

Lemma far_or_panics J : panics \/ exists c n k i, reach c n (k, i) /\ (J <= i)%nat /\ (J <= n)%nat.
Proof.
  induction J as [|J [IH|(c & n & k & i & R & L1 & L2)]]; auto.
  - right. exists (fun _ => 48), O, block_identity, O. split; [reflexivity|lia].
  - destruct (more_reads _ _ _ _ R) as [K|(c' & n' & k' & i' & R' & L1' & L2')]; [auto|]. right. exists c', n', k', i'. split; [exact R'|lia].
Qed.

Theorem outside_panics : (x < 0 \/ 230 < x)%R -> panics.
Proof.
  intros Out. assert (E : exists eps : posreal, (x + eps <= 0 \/ 230 + eps <= x)%R).
  { destruct Out as [L|L]; [assert (P : (0 < - x)%R) by lra; exists (mkposreal _ P); left; cbn [pos]; lra|assert (P : (0 < x - 230)%R) by lra; exists (mkposreal _ P); right; cbn [pos]; lra]. }
  destruct E as ([eps He] & E). cbn [pos] in E. destruct Sx as (N0 & D0 & Lx). apply is_lim_seq_spec in Lx. assert (E2 : (0 < eps / 2)%R) by lra.
  destruct (Lx (mkposreal _ E2)) as (N1 & H1). cbn [pos] in H1.
  destruct (pow_lt_1_zero (/ 10) ltac:(rewrite Rabs_pos_eq; lra) (eps / 2) E2) as (N3 & H3).
  destruct (far_or_panics (S (Nat.max N1 N3))) as [K|(c & n & k & i & R & L1 & L2)]; [exact K|exfalso]. destruct n as [|n]; [lia|].
  destruct (reach_close _ _ _ _ R) as (j & -> & _ & _ & C & _). specialize (H1 j ltac:(lia)). specialize (H3 n ltac:(lia)). rewrite pow_inv in H3.
  assert (P : (0 < / 10 ^ n)%R) by (apply Rinv_0_lt_compat, pow_lt; lra). rewrite Rabs_pos_eq in H3 by lra.
  pose proof (dsum_bounds c (S n) (reach_range _ _ _ R)) as B. assert (P2 : (0 < 230 / 10 ^ S n)%R) by (apply Rdiv_lt_0_compat; [lra|apply pow_lt; lra]).
  apply Rabs_def2 in C. apply Rabs_def2 in H1. lra.
Qed.
End Run.

(** ** When only digits come, they are the digits *)
Lemma dsum_int c n : exists m, (10 ^ n * dsum c (S n) = IZR m)%R /\ (n = O -> m = c O - 48) /\ ((0 < n)%nat -> m mod 10 = (c n - 48) mod 10).
Proof.
  induction n as [|n (m & E & _)].
  - exists (c O - 48). split; [cbn [dsum pow]; field|]. split; [reflexivity|lia].
  - exists (10 * m + (c (S n) - 48)). split.
    + change (dsum c (S (S n))) with (dsum c (S n) + IZR (c (S n) - 48) / 10 ^ S n)%R. assert (P : (10 ^ S n <> 0)%R) by (apply pow_nonzero; lra).
      rewrite Rmult_plus_distr_l. replace (10 ^ S n * (IZR (c (S n) - 48) / 10 ^ S n))%R with (IZR (c (S n) - 48)) by (field; exact P).
      rewrite plus_IZR, mult_IZR. rewrite <- E. cbn [pow]. ring.
    + split; [lia|]. intros _. rewrite Z.add_comm, Z.mul_comm. apply Z.mod_add. lia.
Qed.

Lemma dsum_tail c n m : (forall i, (n < i)%nat -> 48 <= c i <= 57) -> (dsum c (S n) <= dsum c (S n + m) <= dsum c (S n) + (/ 10 ^ n - / 10 ^ (n + m)))%R.
Proof.
  intros H. induction m as [|m IH]; [rewrite !Nat.add_0_r; lra|]. replace (S n + S m)%nat with (S (S n + m)) by lia. change (dsum c (S (S n + m))) with (dsum c (S n + m) + IZR (c (S n + m)%nat - 48) / 10 ^ (S n + m))%R.
  specialize (H (S n + m)%nat ltac:(lia)). assert (B : (0 <= IZR (c (S n + m)%nat - 48) <= 9)%R) by (split; [apply (IZR_le 0)|apply IZR_le]; lia).
  replace (n + S m)%nat with (S (n + m)) by lia. replace (S n + m)%nat with (S (n + m)) in * by lia. cbn [pow] in *. assert (P : (0 < 10 ^ (n + m))%R) by (apply pow_lt; lra). assert (P' : (0 < / 10 ^ (n + m))%R) by (apply Rinv_0_lt_compat; exact P).
  unfold Rdiv in *. rewrite !Rinv_mult in *. nra.
Qed.

Theorem true_digits c x : dspells c x -> irrational x -> (forall i, (1 <= i)%nat -> 48 <= c i <= 57) ->
  forall n, exists m, isfloor (10 ^ n * x)%R m /\ c n = 48 + (if Nat.eqb n 0 then m else m mod 10).
Proof.
  intros S Ix H n. destruct (dsum_int c n) as (m & E & E0 & En). exists m.
  assert (T : forall k, (dsum c (Datatypes.S n) <= dsum c (k + Datatypes.S n) <= dsum c (Datatypes.S n) + / 10 ^ n)%R).
  { intros k. pose proof (dsum_tail c n k (fun i Hi => H i ltac:(lia))) as B. rewrite (Nat.add_comm k). assert (P : (0 < / 10 ^ (n + k))%R) by (apply Rinv_0_lt_compat, pow_lt; lra). lra. }
  assert (S' : is_lim_seq (fun k => dsum c (k + Datatypes.S n)) x) by (apply is_lim_seq_incr_n; exact S).
  assert (L1 : (dsum c (Datatypes.S n) <= x)%R). { exact (is_lim_seq_le _ _ (dsum c (Datatypes.S n)) x (fun k => proj1 (T k)) (is_lim_seq_const _) S'). }
  assert (L2 : (x <= dsum c (Datatypes.S n) + / 10 ^ n)%R). { exact (is_lim_seq_le _ _ x (dsum c (Datatypes.S n) + / 10 ^ n)%R (fun k => proj2 (T k)) S' (is_lim_seq_const _)). }
  assert (P : (0 < 10 ^ n)%R) by (apply pow_lt; lra).
  assert (F : isfloor (10 ^ n * x)%R m).
  { unfold isfloor. rewrite <- E. split; [apply Rmult_le_compat_l; lra|].
    assert (A : (10 ^ n * x <= 10 ^ n * dsum c (Datatypes.S n) + 1)%R). { apply Rle_trans with (10 ^ n * (dsum c (Datatypes.S n) + / 10 ^ n))%R; [apply Rmult_le_compat_l; lra|]. right. field. lra. }
    destruct A as [A|A]; [exact A|exfalso]. apply (Ix (m + 1) (10 ^ Z.of_nat n)); [apply Z.pow_nonzero; lia|]. rewrite E in A. rewrite plus_IZR.
    rewrite <- pow_IZR. apply (Rmult_eq_reg_l (10 ^ n)); [|lra]. rewrite A. field. lra. }
  split; [exact F|]. destruct (Nat.eqb_spec n 0) as [Hn|Hn]; [rewrite (E0 Hn), Hn; lia|]. rewrite (En ltac:(lia)). specialize (H n ltac:(lia)). rewrite Z.mod_small; lia.
Qed.

(** ** Any source, any integer type *)
Lemma dec_same {I} (inext : I -> res (option (Z * Z) * I)) f t fuel : forall k it i, yields inext it (fun n => f (i + n)%nat) ->
  rel inext f (dec_next t inext fuel (k, it)) (dec_next t (from_fn f) fuel (k, i)).
Proof.
  induction fuel as [|fuel IH]; intros k it i Y; cbn [dec_next]; [exact Logic.I|]. destruct (unwrap (checked t 10)) as [ten| |]; cbn [bind]; [|reflexivity|exact Logic.I].
  destruct (block_reduce_mul t k ten) as [[o k1]| |]; cbn [bind]; [|reflexivity|exact Logic.I]. destruct o as [v|].
  - destruct (unwrap (checked (UInt 8) v)) as [d| |]; cbn [bind]; [|reflexivity|exact Logic.I]. destruct (addT (UInt 8) d 48) as [c| |]; cbn [bind]; [|reflexivity|exact Logic.I]. cbn [rel]. auto.
  - destruct (same_step inext f it i Y) as (it' & -> & Y'). cbn [bind from_fn]. destruct (f i) as [a b]. destruct (block_checked_gmove t k1 a b) as [[[(p, q)|] k2]| |]; cbn [bind]; [apply IH; exact Y'|cbn [rel]; auto|reflexivity|exact Logic.I].
Qed.

Lemma dec_nth_same {I} (inext : I -> res (option (Z * Z) * I)) f t fuel it n : yields inext it f -> nth_item (dec_next t inext fuel) n (gcf_decimals it) = nth_item (dec_next t (from_fn f) fuel) n (block_identity, O).
Proof. intros Y. apply (same_nth inext f); [intros k it' i Y'; apply dec_same; exact Y'|exact Y]. Qed.

Definition subs {A S} (r1 r2 : res (option A * S)) : Prop := forall v s, r1 = Ok (Some v, s) -> r2 = Ok (Some v, s).

Lemma nth_subs {A S} (n1 n2 : S -> res (option A * S)) : (forall s, subs (n1 s) (n2 s)) -> forall n s v, nth_item n1 n s = Ok (Some v) -> nth_item n2 n s = Ok (Some v).
Proof.
  intros H n. induction n as [|n IH]; intros s v E.
  - apply nth_head in E. destruct E as (s' & E). rewrite nth_item_0, (H _ _ _ E). reflexivity.
  - cbn [nth_item] in *. apply bind_Ok in E. destruct E as ((o, s') & K & E). destruct o as [w|]; [|discriminate]. rewrite (H _ _ _ K). cbn [bind]. apply IH. exact E.
Qed.

Lemma checked_gmove_any t k a b : subs (block_checked_gmove t k a b) (block_checked_gmove BigI k a b).
Proof.
  intros v s H. unfold block_checked_gmove in *. unfold checked_mul, checked_add, checked in H |- *. cbn [fits obind].
  destruct (fits t (b * pm1 k)); cbn [obind] in H; [|discriminate]. destruct (fits t (a * pm2 k)); cbn [obind] in H; [|discriminate].
  destruct (fits t (b * pm1 k + a * pm2 k)); cbn [obind] in H; [|discriminate]. destruct (fits t (b * qm1 k)); cbn [obind] in H; [|discriminate].
  destruct (fits t (a * qm2 k)); cbn [obind] in H; [|discriminate]. destruct (fits t (b * qm1 k + a * qm2 k)); cbn [obind] in H; [|discriminate].
  revert H. unfold lift2, gcdT. cbn [bind]. generalize (Some v, s). intros r. revert r.
  match goal with |- forall r, ?a = Ok r -> ?b = Ok r => change (sub a b) end.
  repeat first [apply sub_chk | apply sub_quot | apply sub_refl | apply sub_bind; [|intros ?] | match goal with |- sub (if ?b then _ else _) _ => destruct b end].
Qed.

Lemma dec_any {I} t (n1 n2 : I -> res (option (Z * Z) * I)) : (forall s, subs (n1 s) (n2 s)) -> forall fuel s, subs (dec_next t n1 fuel s) (dec_next BigI n2 fuel s).
Proof.
  intros Hs. induction fuel as [|fuel IH]; intros [k it] v s' H; [discriminate|]. cbn [dec_next] in *.
  apply bind_Ok in H. destruct H as (ten & T10 & H). assert (ten = 10) by (unfold unwrap, checked in T10; destruct (fits t 10); congruence). subst ten.
  unfold checked at 1, unwrap at 1. cbn [fits bind]. apply bind_Ok in H. destruct H as ((o, k1) & Rr & H). unfold block_reduce_mul in *. apply bind_Ok in Rr. destruct Rr as (c & C & Rr). rewrite (check_integer_any _ _ _ C). cbn [bind].
  destruct c as [[[i r1] r2]|].
  - apply bind_Ok in Rr. destruct Rr as (u & U & Rr). apply bind_Ok in Rr. destruct Rr as (w & W & Rr). injection Rr as <- <-.
    assert (U' : lift2 (mulT BigI) (Ok r1) (Ok 10) = Ok u) by (revert U; unfold lift2, mulT; cbn [bind]; apply sub_chk). assert (W' : lift2 (mulT BigI) (Ok r2) (Ok 10) = Ok w) by (revert W; unfold lift2, mulT; cbn [bind]; apply sub_chk).
    rewrite U'. cbn [bind]. rewrite W'. cbn [bind]. exact H.
  - injection Rr as <- <-. cbn [bind]. apply bind_Ok in H. destruct H as ((o, it1) & N & H). destruct o as [[a b]|]; [|discriminate]. rewrite (Hs _ _ _ N). cbn [bind].
    apply bind_Ok in H. destruct H as ((o, k2) & M & H). destruct o as [(p, q)|]; [|discriminate]. rewrite (checked_gmove_any _ _ _ _ _ _ M). cbn [bind]. apply IH. exact H.
Qed.
