(** * GenCont: the recurrences for convergents (C40). *)

From Coq Require Import ZArith Reals Lia Lra Psatz Bool List.
From Coquelicot Require Import Coquelicot.
From Verif Require Import Base Ext ModelBlock ModelGen Spec SpecGen NumFacts RatioFacts GenBlock GenSound GenConv.
Import ListNotations.
Open Scope Z_scope.

Lemma from_fn_nth {A} (f : nat -> A) n : forall m, nth_item (from_fn f) n m = Ok (Some (f (m + n)%nat)).
Proof.
  induction n as [|n IH]; intros m; cbn [nth_item from_fn bind].
  - rewrite Nat.add_0_r. reflexivity.
  - rewrite IH. do 3 f_equal. lia.
Qed.

Lemma from_fn_yields {A} (f : nat -> A) : yields (from_fn f) O f.
Proof. intros n. rewrite from_fn_nth. reflexivity. Qed.

(** ** Recurrences *)
Lemma app_lin l u v : app l u v = (u * fst (app l 1 0) + v * fst (app l 0 1), u * snd (app l 1 0) + v * snd (app l 0 1)).
Proof.
  induction l as [|[a b] l IH]; cbn [app]; [cbn [fst snd]; f_equal; ring|].
  rewrite IH. destruct (app l 1 0) as [x y]. destruct (app l 0 1) as [z w]. cbn [fst snd]. f_equal; ring.
Qed.

Lemma app_gcont f n : fst (f O) = 1 -> app (prefix f (S n)) 1 0 = snd (gcont f n) /\ app (prefix f (S n)) 0 1 = fst (gcont f n).
Proof.
  intros F. induction n as [|n [IH1 IH2]].
  - unfold prefix. cbn [seq map app gcont fst snd]. destruct (f O) as [a b]. cbn [fst snd] in *. subst a. split; f_equal; ring.
  - rewrite (prefix_snoc f (S n)). cbn [gcont]. destruct (gcont f n) as [old cur]. cbn [fst snd] in IH1, IH2. destruct (f (S n)) as [a b]. cbn [fst snd].
    rewrite !app_snoc. rewrite (app_lin _ (b * 1 + 0) (a * 1)), (app_lin _ (b * 0 + 1) (a * 0)), IH1, IH2. destruct cur as [c1 c2]. destruct old as [o1 o2]. cbn [fst snd].
    split; f_equal; ring.
Qed.

Lemma gcont_S f n : gnum f (S n) = snd (f (S n)) * gnum f n + fst (f (S n)) * fst (fst (gcont f n)) /\
  gden f (S n) = snd (f (S n)) * gden f n + fst (f (S n)) * snd (fst (gcont f n)).
Proof. unfold gnum, gden. cbn [gcont]. destruct (gcont f n) as [old cur]. destruct (f (S n)) as [a b]. cbn [fst snd]. auto. Qed.

Lemma gcont_old f n : fst (gcont f (S n)) = snd (gcont f n).
Proof. cbn [gcont]. destruct (gcont f n) as [old cur]. destruct (f (S n)). reflexivity. Qed.

Lemma gnum_SS f n : gnum f (S (S n)) = snd (f (S (S n))) * gnum f (S n) + fst (f (S (S n))) * gnum f n.
Proof. destruct (gcont_S f (S n)) as [-> _]. rewrite gcont_old. reflexivity. Qed.
Lemma gden_SS f n : gden f (S (S n)) = snd (f (S (S n))) * gden f (S n) + fst (f (S (S n))) * gden f n.
Proof. destruct (gcont_S f (S n)) as [_ ->]. rewrite gcont_old. reflexivity. Qed.
Lemma gnum_0 f : gnum f 0 = snd (f O). Proof. reflexivity. Qed.
Lemma gden_0 f : gden f 0 = 1. Proof. reflexivity. Qed.
Lemma gnum_1 f : gnum f 1 = snd (f 1%nat) * snd (f O) + fst (f 1%nat). Proof. unfold gnum. cbn [gcont]. destruct (f 1%nat). cbn [fst snd]. ring. Qed.
Lemma gden_1 f : gden f 1 = snd (f 1%nat). Proof. unfold gden. cbn [gcont]. destruct (f 1%nat). cbn [fst snd]. ring. Qed.

(** The block after n+1 items *)
Lemma reads_gcont f n k : fst (f O) = 1 -> reads block_identity (prefix f (S n)) k ->
  exists c, 1 <= c /\ c * pm1 k = gnum f n /\ c * qm1 k = gden f n /\ c * pm2 k = fst (fst (gcont f n)) /\ c * qm2 k = snd (fst (gcont f n)).
Proof.
  intros F (c & Hc & H). exists c. destruct (app_gcont f n F) as [E1 E2]. pose proof (H 1 0) as H1. pose proof (H 0 1) as H2. rewrite E1 in H1. rewrite E2 in H2.
  unfold gnum, gden. destruct (gcont f n) as [[o1 o2] [c1 c2]]. cbn [fst snd] in *. unfold block_identity in *. cbn [pm1 pm2 qm1 qm2] in *. lia.
Qed.

Lemma gval_gcont f n : fst (f O) = 1 -> gregular (prefix f (S n)) -> gden f n <> 0 /\ gval (prefix f (S n)) = (IZR (gnum f n) / IZR (gden f n))%R.
Proof.
  intros F G. assert (Np : prefix f (S n) <> []) by (rewrite prefix_S; discriminate).
  assert (Hd : exists b1 l1, prefix f (S n) = (fst (f O), b1) :: l1) by (rewrite prefix_S; destruct (f O); eauto).
  destruct (app_gval _ _ Np G Hd) as (p & Hp & E1 & E2). destruct (app_gcont f n F) as [E _]. rewrite E in E1, E2. rewrite F in E2. unfold gnum, gden.
  assert (N : snd (snd (gcont f n)) <> 0) by (intros K; rewrite K in E2; lra). split; [auto|]. rewrite E1, E2. field. auto.
Qed.

Section Conv.
Context (t : ity) {I : Type} (inext : I -> res (option (Z * Z) * I)).

Lemma gconv_quot it f n r : known inext it f (S n) -> fst (f O) = 1 -> nth_item (gconv_next t inext) n (gcf_convergents it) = Ok (Some r) ->
  lowest r /\ gden f n <> 0 /\ rval r = (IZR (gnum f n) / IZR (gden f n))%R.
Proof.
  intros K F H. destruct (gconv_known t inext n 0 f block_identity it [] r) as (k & R & E); auto; [apply reads_nil|]. cbn [Nat.add] in R.
  destruct (reads_gcont f n k F R) as (c & Hc & P & Q & _). destruct (ratio_new_ok _ _ _ _ E) as (D & V & L). split; [auto|].
  split; [nia|]. rewrite V, <- P, <- Q, !mult_IZR. field. split; apply not_0_IZR; lia.
Qed.
End Conv.

(** ** Enough room *)
Lemma chk_roomy t B z : roomy t B -> Z.abs z <= B -> chk t z = Ok z.
Proof. intros R H. unfold chk. rewrite (R z H). reflexivity. Qed.

Lemma gcd_abs_le x y : x <> 0 -> Z.abs (Z.gcd x y) <= Z.abs x.
Proof.
  intros H. rewrite Z.abs_eq by apply Z.gcd_nonneg. apply Z.divide_pos_le; [lia|]. apply Z.divide_abs_r. apply Z.gcd_divide_l.
Qed.

Lemma gcd_bound x y B : Z.abs x <= B -> Z.abs y <= B -> Z.abs (Z.gcd x y) <= B.
Proof.
  intros. destruct (Z.eq_dec x 0) as [->|N]; [change (Z.gcd 0 y) with (Z.abs y); lia|]. pose proof (gcd_abs_le x y N). lia.
Qed.

Lemma quot_abs_le x y : y <> 0 -> Z.abs (Z.quot x y) <= Z.abs x.
Proof. intros H. rewrite <- Z.quot_abs by auto. apply Z.quot_le_upper_bound; [lia|]. nia. Qed.

Lemma ratio_new_roomy t B p q : roomy t B -> Z.abs p <= B -> Z.abs q <= B -> q <> 0 -> exists r, ratio_new t p q = Ok r.
Proof.
  intros Rm Hp Hq Nq. unfold ratio_new. destruct (Z.eqb_spec q 0); [contradiction|]. destruct (p =? 0); [eauto|]. destruct (p =? q); [eauto|].
  unfold gcdT. rewrite (fun z => chk_roomy t B z Rm) by (auto; apply gcd_bound; auto). cbn [bind].
  assert (G : Z.gcd p q <> 0) by (intros K; apply Z.gcd_eq_0_r in K; auto).
  unfold lift2, quotT. destruct (Z.eqb_spec (Z.gcd p q) 0); [contradiction|]. cbn [bind].
  pose proof (quot_abs_le p _ G). pose proof (quot_abs_le q _ G).
  repeat (rewrite (fun z => chk_roomy t B z Rm) by lia; cbn [bind]; try (destruct (Z.eqb_spec (Z.gcd p q) 0); [contradiction|]); cbn [bind]). destruct (_ <? 0); [|eauto].
  unfold subT. repeat (rewrite (fun z => chk_roomy t B z Rm) by lia; cbn [bind]). eauto.
Qed.

Lemma checked_gmove_roomy t B k a b : roomy t B -> Z.abs (b * pm1 k) <= B -> Z.abs (a * pm2 k) <= B -> Z.abs (b * pm1 k + a * pm2 k) <= B ->
  Z.abs (b * qm1 k) <= B -> Z.abs (a * qm2 k) <= B -> Z.abs (b * qm1 k + a * qm2 k) <= B ->
  Z.abs (pm1 k) <= B -> Z.abs (qm1 k) <= B -> exists p q k', block_checked_gmove t k a b = Ok (Some (p, q), k').
Proof.
  intros Rm H1 H2 H3 H4 H5 H6 H7 H8. unfold block_checked_gmove, checked_mul, checked_add, checked, obind.
  rewrite !Rm by auto. unfold gcdT. rewrite (fun z => chk_roomy t B z Rm) by (auto; apply gcd_bound; auto). cbn [bind].
  rewrite (fun z => chk_roomy t B z Rm) by (auto; repeat apply gcd_bound; auto). cbn [bind].
  rewrite (fun z => chk_roomy t B z Rm) by (auto; repeat apply gcd_bound; auto). cbn [bind].
  destruct (1 <? _) eqn:E; [|eauto]. apply Z.ltb_lt in E. set (g := Z.gcd _ _) in *. unfold lift2, quotT. cbn [bind].
  destruct (Z.eqb_spec g 0); [lia|]. pose proof (quot_abs_le (pm1 k) g n). pose proof (quot_abs_le (qm1 k) g n).
  pose proof (quot_abs_le _ g n : Z.abs (Z.quot (b * pm1 k + a * pm2 k) g) <= _). pose proof (quot_abs_le _ g n : Z.abs (Z.quot (b * qm1 k + a * qm2 k) g) <= _).
  repeat (rewrite (fun z => chk_roomy t B z Rm) by lia; cbn [bind]; try (destruct (Z.eqb_spec g 0); [lia|]); cbn [bind]). eauto.
Qed.

Lemma scaled c x y z : 1 <= c -> c * x = y -> Z.abs (z * x) <= Z.abs (z * y).
Proof. intros. subst y. rewrite !Z.abs_mul, (Z.abs_eq c) by lia. pose proof (Z.abs_nonneg z). pose proof (Z.abs_nonneg x). nia. Qed.

Lemma scaled1 c x y : 1 <= c -> c * x = y -> Z.abs x <= Z.abs y.
Proof. intros H E. pose proof (scaled c x y 1 H E). rewrite !Z.mul_1_l in *. auto. Qed.

Section Room.
Context (t : ity) (B : Z) (Rm : roomy t B) {I : Type} (inext : I -> res (option (Z * Z) * I)).

Lemma gconv_room n : forall m f k it, known inext it (fun j => f (S m + j)%nat) n -> fst (f O) = 1 ->
  (forall j, (j < m + n)%nat -> bounded f j B) -> (forall j, (j <= m + n)%nat -> gden f j <> 0) -> Z.abs (gnum f m) <= B -> Z.abs (gden f m) <= B ->
  reads block_identity (prefix f (S m)) k ->
  forall j, (j < n)%nat -> exists r, nth_item (gconv_next t inext) j (k, it) = Ok (Some r).
Proof.
  induction n as [|n IH]; intros m f k it K F Bd D Bp Bq R j Hj; [lia|].
  destruct (known_step inext _ _ _ K) as (it' & E & K'). rewrite Nat.add_0_r in E.
  destruct (f (S m)) as [a b] eqn:Ef. destruct (reads_gcont f m k F R) as (c & Hc & P1 & Q1 & P2 & Q2).
  pose proof (Bd m ltac:(lia)) as Bm. unfold bounded in Bm.
  assert (Step : exists r k', gconv_next t inext (k, it) = Ok (Some r, (k', it')) /\ reads block_identity (prefix f (S (S m))) k' /\ Z.abs (gnum f (S m)) <= B /\ Z.abs (gden f (S m)) <= B).
  { destruct (gcont_S f m) as [N1 N2]. rewrite Ef in N1, N2. cbn [fst snd] in N1, N2. unfold gnum, gden in P1, Q1, N1, N2, Bp, Bq.
    destruct (gcont f m) as [[o1 o2] [c1 c2]]. cbn [fst snd] in *. destruct (Bm a b Ef) as (B1 & B2 & B3 & B4 & B5 & B6).
    assert (Ep : c * (b * pm1 k + a * pm2 k) = b * c1 + a * o1) by (rewrite <- P1, <- P2; ring).
    assert (Eq : c * (b * qm1 k + a * qm2 k) = b * c2 + a * o2) by (rewrite <- Q1, <- Q2; ring).
    pose proof (Z.le_trans _ _ _ (scaled c _ _ b Hc P1) B1) as C1. pose proof (Z.le_trans _ _ _ (scaled c _ _ a Hc P2) B2) as C2.
    pose proof (Z.le_trans _ _ _ (scaled1 c _ _ Hc Ep) B3) as C3. pose proof (Z.le_trans _ _ _ (scaled c _ _ b Hc Q1) B4) as C4.
    pose proof (Z.le_trans _ _ _ (scaled c _ _ a Hc Q2) B5) as C5. pose proof (Z.le_trans _ _ _ (scaled1 c _ _ Hc Eq) B6) as C6.
    pose proof (Z.le_trans _ _ _ (scaled1 c _ _ Hc P1) Bp) as C7. pose proof (Z.le_trans _ _ _ (scaled1 c _ _ Hc Q1) Bq) as C8.
    destruct (checked_gmove_roomy t B k a b Rm C1 C2 C3 C4 C5 C6 C7 C8) as (p & q & k1 & M).
    unfold gconv_next. rewrite E. cbn [bind]. rewrite M. cbn [bind]. apply checked_gmove_inv in M.
    assert (R' : reads block_identity (prefix f (S (S m))) (block_update k1 p q)) by (rewrite (prefix_snoc f (S m)), Ef; eapply reads_snoc; eauto).
    destruct (reads_gcont f (S m) _ F R') as (c' & Hc' & P1' & Q1' & _). cbn [block_update pm1 qm1] in P1', Q1'.
    pose proof (scaled1 c' _ _ Hc' P1') as S1. pose proof (scaled1 c' _ _ Hc' Q1') as S2.
    pose proof (D (S m) ltac:(lia)) as Dm.
    assert (Nq : q <> 0) by (intros ->; apply Dm; rewrite <- Q1'; ring).
    assert (Sn : Z.abs (gnum f (S m)) <= B /\ Z.abs (gden f (S m)) <= B) by (unfold gnum, gden; rewrite N1, N2; auto).
    destruct (ratio_new_roomy t B p q Rm (Z.le_trans _ _ _ S1 (proj1 Sn)) (Z.le_trans _ _ _ S2 (proj2 Sn)) Nq) as (r & Er). rewrite Er. cbn [bind]. eauto 10. }
  destruct Step as (r & k' & S1 & R' & Bp' & Bq').
  destruct j as [|j].
  - exists r. rewrite nth_item_0, S1. reflexivity.
  - rewrite (nth_item_S _ _ _ _ _ S1). apply (IH (S m) f); auto; try (intros i Hi; first [apply Bd|apply D]; lia); [|lia].
    intros i Hi. rewrite (K' i Hi). unfold shift. do 3 f_equal. lia.
Qed.

Lemma gconv_fits f it n : known inext it f (S n) -> fst (f O) = 1 -> Z.abs (snd (f O)) <= B -> 1 <= B ->
  (forall j, (j < n)%nat -> bounded f j B) -> (forall j, (j <= n)%nat -> gden f j <> 0) ->
  exists r, nth_item (gconv_next t inext) n (gcf_convergents it) = Ok (Some r).
Proof.
  intros K F B0 B1 Bd D. destruct (known_step inext _ _ _ K) as (it' & E & K'). destruct (f O) as [a b] eqn:E0. cbn [fst snd] in *. subst a.
  assert (Step : exists r k', gconv_next t inext (gcf_convergents it) = Ok (Some r, (k', it')) /\ reads block_identity (prefix f 1) k').
  { destruct (checked_gmove_roomy t B block_identity 1 b Rm) as (p & q & k1 & M); unfold block_identity; cbn [pm1 pm2 qm1 qm2]; try lia.
    unfold gcf_convergents, gconv_next. rewrite E. cbn [bind]. rewrite M. cbn [bind]. apply checked_gmove_inv in M.
    assert (R' : reads block_identity (prefix f 1) (block_update k1 p q)) by (rewrite (prefix_snoc f 0), E0; eapply reads_snoc; eauto; apply reads_nil).
    assert (F : fst (f O) = 1) by (rewrite E0; reflexivity).
    destruct (reads_gcont f 0 _ F R') as (c' & Hc' & P1' & Q1' & _). cbn [block_update pm1 qm1] in P1', Q1'. rewrite gnum_0, E0 in P1'. rewrite gden_0 in Q1'. cbn [snd] in P1'.
    pose proof (scaled1 c' _ _ Hc' P1') as S1. pose proof (scaled1 c' _ _ Hc' Q1') as S2.
    assert (Nq : q <> 0) by (intros ->; lia).
    destruct (ratio_new_roomy t B p q Rm) as (r & Er); try lia. rewrite Er. cbn [bind]. eauto 10. }
  destruct Step as (r & k' & S1 & R'). destruct n as [|n].
  - exists r. rewrite nth_item_0, S1. reflexivity.
  - rewrite (nth_item_S _ _ _ _ _ S1). apply (gconv_room (S n) 0 f); auto.
    + rewrite E0. reflexivity.
    + rewrite gnum_0, E0. auto.
Qed.
End Room.

(** ** Finite sources *)
Section End.
Context {I : Type} (inext : I -> res (option (Z * Z) * I)).

Lemma gconv_end_aux l : forall m f k it, yields_list inext it l -> (forall j ab, nth_error l j = Some ab -> f (m + j)%nat = ab) -> fst (f O) = 1 ->
  (forall j, (j < m + length l)%nat -> gregular (prefix f (S j))) -> reads block_identity (prefix f m) k ->
  nth_item (gconv_next BigI inext) (length l) (k, it) = Ok None.
Proof.
  induction l as [|ab l IH]; intros m f k it Y Hf F G R.
  - destruct (yields_list_nil _ _ Y) as (s & E). cbn [length]. rewrite nth_item_0. unfold gconv_next. rewrite E. reflexivity.
  - destruct (yields_list_cons _ _ _ _ Y) as (it' & E & Y'). pose proof (Hf O ab eq_refl) as E0. rewrite Nat.add_0_r in E0. rewrite <- E0 in E.
    destruct (gconv_big_step inext f m k it it' F) as (r & k' & S1 & R'); auto; [apply G; cbn [length]; lia|].
    cbn [length]. rewrite (nth_item_S _ _ _ _ _ S1). apply (IH (S m) f); auto.
    + intros j ab' Hj. rewrite <- (Hf (S j) ab' Hj). f_equal. lia.
    + intros j Hj. apply G. cbn [length]. lia.
Qed.
End End.

(** ** Sources known only as far as they go *)
Lemma gconv_source t {I} (inext : I -> res (option (Z * Z) * I)) n : forall k it r, nth_item (gconv_next t inext) n (k, it) = Ok (Some r) ->
  forall j, (j <= n)%nat -> exists ab, nth_item inext j it = Ok (Some ab).
Proof.
  induction n as [|n IH]; intros k it r H j Hj; destruct (nth_item_cases _ _ _ _ H) as (r1 & (k1, it1) & N).
  - assert (j = O) by lia. subst j. unfold gconv_next in N. destruct (inext it) as [[[[a b]|] it2]| |] eqn:E; cbn [bind] in N; try discriminate.
    exists (a, b). rewrite nth_item_0, E. reflexivity.
  - rewrite (nth_item_S _ _ _ _ _ N) in H. unfold gconv_next in N. destruct (inext it) as [[[[a b]|] it2]| |] eqn:E; cbn [bind] in N; try discriminate.
    assert (it2 = it1).
    { destruct (block_checked_gmove t k a b) as [[[[p q]|] k2]| |]; cbn [bind] in N; try discriminate. destruct (ratio_new t p q); cbn [bind] in N; try discriminate. congruence. }
    subst it2. destruct j as [|j]; [exists (a, b); rewrite nth_item_0, E; reflexivity|]. rewrite (nth_item_S _ _ _ _ _ E). apply (IH k1 it1 r H). lia.
Qed.

Lemma gconv_determined t {I} (inext : I -> res (option (Z * Z) * I)) it f n r : (forall j ab, nth_item inext j it = Ok (Some ab) -> ab = f j) -> fst (f O) = 1 ->
  nth_item (gconv_next t inext) n (gcf_convergents it) = Ok (Some r) -> lowest r /\ gden f n <> 0 /\ rval r = (IZR (gnum f n) / IZR (gden f n))%R.
Proof.
  intros D F H. apply (gconv_quot t inext it f n r); auto. intros j Hj. destruct (gconv_source t inext n _ _ _ H j ltac:(lia)) as (ab & E). rewrite E, (D j ab E). reflexivity.
Qed.
