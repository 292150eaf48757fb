(** * GenRep: the block of simplify() and decimals() is an integer linear map applied to two neighbouring convergents (C70). *)

From Coq Require Import ZArith Reals Lia Lra Psatz Bool List.
From Coquelicot Require Import Coquelicot.
From Verif Require Import Base Ext ModelBlock ModelGen Spec SpecGen NumFacts SurdOrd SurdRound GenBlock GenSound GenConv GenCont GenTail GenLive.
Import ListNotations.
Open Scope Z_scope.

Record lin := Lin { la : Z; lb : Z; lc : Z; ld : Z }.
Definition lnum (L : lin) (v : Z * Z) : Z := la L * fst v + lb L * snd v.
Definition lden (L : lin) (v : Z * Z) : Z := lc L * fst v + ld L * snd v.
Definition lid : lin := Lin 1 0 0 1.
Definition lrecip (L : lin) (i : Z) : lin := Lin (lc L) (ld L) (la L - i * lc L) (lb L - i * ld L).
Definition lten (L : lin) (i : Z) : lin := Lin ((la L - i * lc L) * 10) ((lb L - i * ld L) * 10) (lc L) (ld L).
Definition lval (L : lin) (x : R) : R := ((IZR (la L) * x + IZR (lb L)) / (IZR (lc L) * x + IZR (ld L)))%R.
Definition ldn (L : lin) (x : R) : R := (IZR (lc L) * x + IZR (ld L))%R.

Definition rep (f : nat -> Z * Z) (m : nat) (L : lin) (k : block) : Prop :=
  exists s, 1 <= s /\ s * pm1 k = lnum L (snd (gcont f m)) /\ s * qm1 k = lden L (snd (gcont f m)) /\
    s * pm2 k = lnum L (fst (gcont f m)) /\ s * qm2 k = lden L (fst (gcont f m)).

Lemma rep_move f m L k k' : rep f m L k -> moved k (fst (f (S m))) (snd (f (S m))) k' -> rep f (S m) L k'.
Proof.
  intros (s & Hs & P1 & Q1 & P2 & Q2) (g & Hg & A1 & A2 & B1 & B2). exists (s * g). split; [nia|].
  rewrite gcont_old. destruct (gcont_S f m) as (G1 & G2). unfold gnum, gden in G1, G2. unfold lnum, lden in *.
  rewrite G1, G2. set (a := fst (f (S m))) in *. set (b := snd (f (S m))) in *. rewrite <- !Z.mul_assoc, A1, A2, B1, B2.
  split; [|split; [|split]]; try assumption.
  - replace (s * (pm1 k * b + pm2 k * a)) with (s * pm1 k * b + s * pm2 k * a) by ring. rewrite P1, P2. ring.
  - replace (s * (qm1 k * b + qm2 k * a)) with (s * qm1 k * b + s * qm2 k * a) by ring. rewrite Q1, Q2. ring.
Qed.

Lemma rep_first f k : fst (f O) = 1 -> moved block_identity (fst (f O)) (snd (f O)) k -> rep f 0 lid k.
Proof.
  intros F (g & Hg & A1 & A2 & B1 & B2). exists g. rewrite F in *. unfold block_identity, lnum, lden, lid in *. cbn [gcont fst snd pm1 pm2 qm1 qm2 la lb lc ld] in *. lia.
Qed.

Lemma rep_emit f m L k i r1 r2 : rep f m L k -> emits k i r1 r2 -> rep f m (lrecip L i) (Block (qm1 k) (qm2 k) r1 r2).
Proof.
  intros (s & Hs & P1 & Q1 & P2 & Q2) (N1 & N2 & I1 & I2 & R1 & R2). exists s. split; [auto|].
  pose proof (Z.quot_rem (pm1 k) (qm1 k) N1) as E1. pose proof (Z.quot_rem (pm2 k) (qm2 k) N2) as E2. rewrite <- I1, <- R1 in E1. rewrite <- I2, <- R2 in E2.
  unfold lnum, lden, lrecip in *. cbn [pm1 pm2 qm1 qm2 la lb lc ld]. replace r1 with (pm1 k - qm1 k * i) by lia. replace r2 with (pm2 k - qm2 k * i) by lia.
  rewrite !Z.mul_sub_distr_l, !Z.mul_assoc, P1, P2, Q1, Q2. repeat split; ring.
Qed.

Lemma rep_ten f m L k i r1 r2 : rep f m L k -> emits k i r1 r2 -> rep f m (lten L i) (Block (r1 * 10) (r2 * 10) (qm1 k) (qm2 k)).
Proof.
  intros (s & Hs & P1 & Q1 & P2 & Q2) (N1 & N2 & I1 & I2 & R1 & R2). exists s. split; [auto|].
  pose proof (Z.quot_rem (pm1 k) (qm1 k) N1) as E1. pose proof (Z.quot_rem (pm2 k) (qm2 k) N2) as E2. rewrite <- I1, <- R1 in E1. rewrite <- I2, <- R2 in E2.
  unfold lnum, lden, lten in *. cbn [pm1 pm2 qm1 qm2 la lb lc ld]. replace r1 with (pm1 k - qm1 k * i) by lia. replace r2 with (pm2 k - qm2 k * i) by lia.
  rewrite (Z.mul_assoc s _ 10), (Z.mul_assoc s (pm2 k - qm2 k * i) 10), !Z.mul_sub_distr_l, !Z.mul_assoc, P1, P2, Q1, Q2. repeat split; ring.
Qed.

Definition from (f : nat -> Z * Z) (m n : nat) : Z * Z := f (m + n)%nat.

Lemma path_ext n : forall k f g k', (forall j, f j = g j) -> path k f n k' -> path k g n k'.
Proof.
  induction n as [|n IH]; intros k f g k' E P; [exact P|]. destruct P as (k1 & M & P). exists k1. rewrite <- E. split; [exact M|].
  apply (IH k1 (shift f)); [intros j; unfold shift; apply E|exact P].
Qed.

Lemma rep_path f L n : forall m k k', rep f m L k -> path k (from f (S m)) n k' -> rep f (m + n) L k'.
Proof.
  induction n as [|n IH]; intros m k k' R P.
  - cbn [path] in P. subst k'. rewrite Nat.add_0_r. auto.
  - destruct P as (k1 & M & P). unfold from in M at 1 2. rewrite Nat.add_0_r in M. replace (m + S n)%nat with (S m + n)%nat by lia.
    apply (IH (S m) k1); [eapply rep_move; eauto|]. eapply path_ext; [|exact P]. intros j. unfold shift, from. f_equal. lia.
Qed.

(** ** The bounds come together *)
Section Lim.
Context (f : nat -> Z * Z) (x : R) (D0 : forall n, gden f n <> 0) (Lx : is_lim_seq (fun n => IZR (gnum f n) / IZR (gden f n))%R x).

Lemma rep_near m L k : rep f m L k -> IZR (gden f m) <> 0%R -> let c := (IZR (gnum f m) / IZR (gden f m))%R in
  ldn L c <> 0%R -> qm1 k <> 0 /\ (IZR (pm1 k) / IZR (qm1 k))%R = lval L c.
Proof.
  intros (s & Hs & P1 & Q1 & _) Dm c Nd. unfold lnum, lden in P1, Q1. change (fst (snd (gcont f m))) with (gnum f m) in P1, Q1. change (snd (snd (gcont f m))) with (gden f m) in P1, Q1.
  apply (f_equal IZR) in P1, Q1. rewrite mult_IZR, plus_IZR, !mult_IZR in P1, Q1.
  assert (Ks : IZR s <> 0%R) by (apply not_0_IZR; lia).
  assert (E1 : (IZR s * IZR (pm1 k) = IZR (gden f m) * (IZR (la L) * c + IZR (lb L)))%R) by (rewrite P1; unfold c; field; auto).
  assert (E2 : (IZR s * IZR (qm1 k) = IZR (gden f m) * ldn L c)%R) by (rewrite Q1; unfold c, ldn; field; auto).
  assert (N : IZR (qm1 k) <> 0%R). { intros Z. rewrite Z, Rmult_0_r in E2. symmetry in E2. apply Rmult_integral in E2. tauto. }
  split; [intros Z; apply N; rewrite Z; reflexivity|]. unfold lval. fold (ldn L c).
  replace (IZR (pm1 k) / IZR (qm1 k))%R with ((IZR s * IZR (pm1 k)) / (IZR s * IZR (qm1 k)))%R by (field; auto). rewrite E1, E2. field. auto.
Qed.

Lemma rep_eventually m L k : rep f m L k -> ldn L x <> 0%R -> (forall i, lval L x <> IZR i) ->
  exists N, forall k', path k (from f (S m)) N k' -> exists i r1 r2, emits k' i r1 r2.
Proof.
  intros Rk D NI. destruct (trunc_near (lval L x) NI) as (i & lo & hi & B & Tz).
  set (c := fun n => (IZR (gnum f n) / IZR (gden f n))%R) in *.
  assert (Ld : is_lim_seq (fun n => ldn L (c n)) (ldn L x)).
  { unfold ldn. apply (is_lim_seq_plus _ _ (IZR (lc L) * x)%R (IZR (ld L))); [|apply is_lim_seq_const|reflexivity].
    apply (is_lim_seq_mult _ _ (IZR (lc L)) x); [apply is_lim_seq_const|exact Lx|reflexivity]. }
  assert (Ln : is_lim_seq (fun n => IZR (la L) * c n + IZR (lb L))%R (IZR (la L) * x + IZR (lb L))%R).
  { apply (is_lim_seq_plus _ _ (IZR (la L) * x)%R (IZR (lb L))); [|apply is_lim_seq_const|reflexivity].
    apply (is_lim_seq_mult _ _ (IZR (la L)) x); [apply is_lim_seq_const|exact Lx|reflexivity]. }
  assert (Le : is_lim_seq (fun n => lval L (c n)) (lval L x)).
  { unfold lval. apply (is_lim_seq_div _ _ (IZR (la L) * x + IZR (lb L))%R (ldn L x)); auto; [intros K; inversion K; auto|]. unfold is_Rbar_div, is_Rbar_mult, Rbar_inv, Rbar_mult'. reflexivity. }
  apply is_lim_seq_spec in Ld, Le.
  assert (P1 : (0 < Rabs (ldn L x))%R) by (apply Rabs_pos_lt; auto).
  assert (P2 : (0 < Rmin (lval L x - lo) (hi - lval L x))%R) by (apply Rmin_glb_lt; lra).
  destruct (Ld (mkposreal _ P1)) as (N1 & H1). destruct (Le (mkposreal _ P2)) as (N2 & H2). cbn [pos] in H1, H2.
  set (N := Nat.max N1 N2).
  assert (Q : forall n, (N <= n)%nat -> ldn L (c n) <> 0%R /\ istrunc (lval L (c n)) i).
  { intros n Hn. specialize (H1 n ltac:(lia)). specialize (H2 n ltac:(lia)). split.
    - intros K. rewrite K in H1. replace (0 - ldn L x)%R with (- ldn L x)%R in H1 by ring. rewrite Rabs_Ropp in H1. lra.
    - apply Tz. pose proof (Rmin_l (lval L x - lo) (hi - lval L x)). pose proof (Rmin_r (lval L x - lo) (hi - lval L x)). apply Rabs_def2 in H2. lra. }
  assert (K : forall n k', (N <= m + n)%nat -> path k (from f (S m)) n k' -> qm1 k' <> 0 /\ Z.quot (pm1 k') (qm1 k') = i).
  { intros n k' Hn P. destruct (Q (m + n)%nat Hn) as (Q1 & Q2). pose proof (rep_path _ _ _ _ _ _ Rk P) as R'.
    destruct (rep_near _ _ _ R' (not_0_IZR _ (D0 _)) Q1) as (Nq & E). split; [auto|]. eapply istrunc_unique; [apply trunc_quot; auto|]. rewrite E. exact Q2. }
  exists (S N). intros k' P. destruct (K (S N) k' ltac:(lia) P) as (A1 & A2). destruct (path_snoc _ _ _ _ P) as (k1 & P' & M).
  destruct (K N k1 ltac:(lia) P') as (B1 & B2). destruct M as (g & Hg & _ & M2 & _ & M4).
  assert (Nq : qm2 k' <> 0) by (intros K0; rewrite K0 in M4; lia).
  assert (E2 : Z.quot (pm2 k') (qm2 k') = i) by (rewrite <- B2, <- M2, <- M4; rewrite Z.quot_mul_cancel_l by lia; reflexivity).
  exists i, (Z.rem (pm1 k') (qm1 k')), (Z.rem (pm2 k') (qm2 k')). unfold emits. auto 10.
Qed.
End Lim.

Lemma lval_recip L x i : ldn L x <> 0%R -> lval L x <> IZR i -> ldn (lrecip L i) x <> 0%R /\ lval (lrecip L i) x = (/ (lval L x - IZR i))%R.
Proof.
  unfold lval, ldn, lrecip. cbn [la lb lc ld]. rewrite !minus_IZR, !mult_IZR. intros D N.
  assert (E : ((IZR (la L) - IZR i * IZR (lc L)) * x + (IZR (lb L) - IZR i * IZR (ld L)) = (IZR (lc L) * x + IZR (ld L)) * ((IZR (la L) * x + IZR (lb L)) / (IZR (lc L) * x + IZR (ld L)) - IZR i))%R) by (field; auto).
  set (y := ((IZR (la L) * x + IZR (lb L)) / (IZR (lc L) * x + IZR (ld L)))%R) in *. assert (y - IZR i <> 0)%R by lra. rewrite E.
  split; [apply Rmult_integral_contrapositive; auto|]. field. auto.
Qed.

Lemma lval_ten L x i : ldn L x <> 0%R -> ldn (lten L i) x <> 0%R /\ lval (lten L i) x = (10 * (lval L x - IZR i))%R.
Proof.
  unfold lval, ldn, lten. cbn [la lb lc ld]. rewrite !mult_IZR, !minus_IZR, !mult_IZR. intros D. split; [auto|]. field. auto.
Qed.

(** ** Running simplify() *)
Section Run.
Context {I : Type} (inext : I -> res (option (Z * Z) * I)) (f : nat -> Z * Z) (st : nat -> I) (t : ity).
Hypothesis Hst : forall i ab s', inext (st i) = Ok (Some ab, s') -> ab = f i /\ s' = st (S i).
Hypothesis F0 : fst (f O) = 1.

(** After some pairs the block represents [L]; [None] is the beginning *)
Definition at_pos (o : option nat) (L : lin) (k : block) : Prop :=
  match o with None => L = lid /\ k = block_identity | Some m => rep f m L k end.
Definition npos (o : option nat) : nat := match o with None => O | Some m => S m end.

Lemma at_move o L k k' : at_pos o L k -> moved k (fst (f (npos o))) (snd (f (npos o))) k' -> at_pos (Some (npos o)) L k'.
Proof. destruct o as [m|]; cbn [at_pos npos]; [apply rep_move|]. intros (-> & ->). apply rep_first; auto. Qed.

Lemma at_emit o L k i r1 r2 : at_pos o L k -> emits k i r1 r2 -> at_pos o (lrecip L i) (Block (qm1 k) (qm2 k) r1 r2).
Proof. destruct o as [m|]; cbn [at_pos]; [apply rep_emit|]. intros (_ & ->) (K & _). destruct (K eq_refl). Qed.

Lemma simp_rep fuel : forall o L k v k' it', at_pos o L k -> simp_next t inext fuel (k, st (npos o)) = Ok (Some v, (k', it')) ->
  exists m k1 r1 r2, at_pos (Some m) L k1 /\ emits k1 v r1 r2 /\ k' = Block (qm1 k1) (qm2 k1) r1 r2 /\ it' = st (S m) /\ (npos o <= S m)%nat.
Proof.
  induction fuel as [|fuel IH]; intros o L k v k' it' A H; cbn [simp_next] in H; [discriminate|].
  apply bind_Ok in H. destruct H as ((u, k1) & R & H). apply reduce_recip_inv in R. destruct R as [(i & r1 & r2 & C & -> & ->)|(C & -> & ->)].
  - inversion H; subst. apply check_integer_inv in C. destruct o as [m|]; [|destruct A as (_ & ->); destruct C as (K & _); destruct (K eq_refl)].
    exists m, k, r1, r2. cbn [npos]. auto.
  - apply bind_Ok in H. destruct H as ((u, it1) & N & H). destruct u as [(a, b)|]; [|discriminate].
    apply bind_Ok in H. destruct H as (k2 & M & H). apply gmove_inv in M. destruct (Hst _ _ _ N) as (E & ->).
    pose proof (at_move _ _ _ k2 A ltac:(rewrite <- E; exact M)) as A'. destruct (IH (Some (npos o)) _ _ _ _ _ A' H) as (m & k1 & r1 & r2 & A1 & Em & Ek & Ei & Le).
    exists m, k1, r1, r2. cbn [npos] in Le. split; [exact A1|]. split; [exact Em|]. split; [exact Ek|]. split; [exact Ei|lia].
Qed.
End Run.

(** ** With unbounded integers simplify() never stops, right or wrong *)
Section Live.
Context {I : Type} (inext : I -> res (option (Z * Z) * I)) (f : nat -> Z * Z) (st : nat -> I) (x : R).
Hypothesis Hst : forall i, inext (st i) = Ok (Some (f i), st (S i)).
Hypothesis F0 : fst (f O) = 1.
Hypothesis D0 : forall n, gden f n <> 0.
Hypothesis Lx : is_lim_seq (fun n => IZR (gnum f n) / IZR (gden f n))%R x.
Hypothesis Ix : irrational x.

Lemma st_det i ab s' : inext (st i) = Ok (Some ab, s') -> ab = f i /\ s' = st (S i).
Proof. rewrite Hst. intros H. inversion H. auto. Qed.

Lemma st_yields n : forall m, nth_item inext n (st m) = Ok (Some (from f m n)).
Proof.
  induction n as [|n IH]; intros m.
  - rewrite nth_item_0, Hst. unfold from. rewrite Nat.add_0_r. reflexivity.
  - rewrite (nth_item_S _ _ _ _ _ (Hst m)), IH. unfold from. do 3 f_equal. lia.
Qed.

Definition linv (s : block * I) : Prop :=
  exists o L, snd s = st (npos o) /\ at_pos f o L (fst s) /\ ldn L x <> 0%R /\ irrational (lval L x).

Lemma linv_step s : linv s -> exists fuel v s', simp_next BigI inext fuel s = Ok (Some v, s') /\ linv s'.
Proof.
  destruct s as [k it]. intros (o & L & E & A & D & Iy). cbn [fst snd] in *. subst it.
  assert (Ex : exists fuel v s', simp_next BigI inext fuel (k, st (npos o)) = Ok (Some v, s')).
  { destruct o as [m|].
    - cbn [at_pos npos] in *. destruct (rep_eventually f x D0 Lx m L k A D (fun i => irr_int _ i Iy)) as (N & HN).
      destruct (simp_emits inext N k (st (S m)) (from f (S m)) (fun n => st_yields n (S m)) HN) as (v & s' & E). eauto.
    - destruct A as (-> & ->). cbn [npos]. destruct (gmove_big block_identity (fst (f O)) (snd (f O))) as (k1 & M).
      pose proof (rep_first f k1 F0 (gmove_inv _ _ _ _ _ M)) as A1.
      destruct (rep_eventually f x D0 Lx 0 lid k1 A1 D (fun i => irr_int _ i Iy)) as (N & HN).
      destruct (simp_emits inext N k1 (st 1) (from f 1) (fun n => st_yields n 1) HN) as (v & s' & E). exists (S (S N)), v, s'.
      remember (S N) as N'. cbn [simp_next]. unfold block_reduce_recip, block_check_integer, block_identity at 1. cbn [qm1 Z.eqb orb bind]. rewrite Hst. cbn [bind].
      destruct (f O) as [a b]. cbn [fst snd] in M. rewrite M. exact E. }
  destruct Ex as (fuel & v & (k', it') & E). exists fuel, v, (k', it'). split; [auto|].
  destruct (simp_rep inext f st BigI st_det F0 _ _ _ _ _ _ _ A E) as (m & k1 & r1 & r2 & A1 & Em & -> & -> & _).
  destruct (lval_recip L x v D (irr_int _ v Iy)) as (D' & E').
  exists (Some m), (lrecip L v). cbn [fst snd npos]. split; [auto|]. split; [apply (at_emit f (Some m)); auto|]. split; [auto|]. rewrite E'. apply irr_recip; auto.
Qed.

Lemma simplify_never_stops n : exists fuel v, forall fuel', (fuel <= fuel')%nat -> nth_item (simp_next BigI inext fuel') n (gcf_simplify (st O)) = Ok (Some v).
Proof.
  apply (nth_live (simp_next BigI inext) linv (simp_fuel BigI inext) linv_step). exists None, lid. cbn [fst snd npos at_pos gcf_simplify].
  split; [reflexivity|]. split; [auto|]. unfold lval, ldn, lid. cbn [la lb lc ld].
  replace (0 * x + 1)%R with 1%R by ring. replace ((1 * x + 0) / 1)%R with x by field. split; [lra|auto].
Qed.
End Live.

(** ** Running decimals() *)
Section RunDec.
Context {I : Type} (inext : I -> res (option (Z * Z) * I)) (f : nat -> Z * Z) (st : nat -> I) (t : ity).
Hypothesis Hst : forall i ab s', inext (st i) = Ok (Some ab, s') -> ab = f i /\ s' = st (S i).
Hypothesis F0 : fst (f O) = 1.

Lemma dec_rep fuel : forall o L k c k' it', at_pos f o L k -> dec_next t inext fuel (k, st (npos o)) = Ok (Some c, (k', it')) ->
  exists m k1 r1 r2, at_pos f (Some m) L k1 /\ emits k1 (c - 48) r1 r2 /\ k' = Block (r1 * 10) (r2 * 10) (qm1 k1) (qm2 k1) /\ it' = st (S m).
Proof.
  induction fuel as [|fuel IH]; intros o L k c k' it' A H; cbn [dec_next] in H; [discriminate|].
  apply bind_Ok in H. destruct H as (ten & T10 & H). assert (ten = 10) by (unfold unwrap, checked in T10; destruct (fits t 10); congruence). subst ten.
  apply bind_Ok in H. destruct H as ((u, k1) & R & H). apply reduce_mul_inv in R. destruct R as [(i & r1 & r2 & C & -> & ->)|(C & -> & ->)].
  - apply bind_Ok in H. destruct H as (d & D & H). apply bind_Ok in H. destruct H as (c1 & C1 & H). inversion H; subst.
    assert (d = i) by (unfold unwrap, checked in D; destruct (fits (UInt 8) i); congruence). subst d.
    assert (c = i + 48) by (unfold addT, chk in C1; destruct (fits (UInt 8) (i + 48)); congruence). subst c. replace (i + 48 - 48) with i by ring.
    apply check_integer_inv in C. destruct o as [m|]; [|destruct A as (_ & ->); destruct C as (K & _); destruct (K eq_refl)].
    exists m, k, r1, r2. cbn [npos]. auto.
  - apply bind_Ok in H. destruct H as ((u, it1) & N & H). destruct u as [(a, b)|]; [|discriminate].
    apply bind_Ok in H. destruct H as ((u, k2) & M & H). destruct u as [(p, q)|]; [|discriminate]. apply checked_gmove_inv in M. destruct (Hst _ _ _ N) as (E & ->).
    pose proof (at_move f F0 _ _ _ (block_update k2 p q) A ltac:(rewrite <- E; exact M)) as A'. exact (IH (Some (npos o)) _ _ _ _ _ A' H).
Qed.
End RunDec.

(** ** Any source: the states it goes through *)
Section States.
Context {I : Type} (inext : I -> res (option (Z * Z) * I)) (it : I) (f : nat -> Z * Z) (Y : yields inext it f).

Fixpoint state_at (i : nat) : I :=
  match i with O => it | S i => match inext (state_at i) with Ok (_, s) => s | _ => state_at i end end.

Lemma state_yields i : yields inext (state_at i) (from f i).
Proof.
  induction i as [|i IH]; [exact Y|]. destruct (yields_step inext _ _ IH) as (s & E & Y'). cbn [state_at]. rewrite E. intros n. rewrite (Y' n). unfold shift, from. do 3 f_equal. lia.
Qed.

Lemma state_next i : inext (state_at i) = Ok (Some (f i), state_at (S i)).
Proof.
  destruct (yields_step inext _ _ (state_yields i)) as (s & E & _). cbn [state_at]. rewrite E. unfold from. rewrite Nat.add_0_r. reflexivity.
Qed.
End States.
