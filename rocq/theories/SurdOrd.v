(** * SurdOrd: signs, floor, trunc, equality of surds. *)

From Coq Require Import ZArith Znumtheory Reals Lia Lra Bool.
From Coquelicot Require Import Coquelicot.
From Verif Require Import Base Ext ModelSurd Spec Transfer NumFacts SurdCore RatioFacts SurdArith SurdTotal.
Open Scope Z_scope.

(** ** Real values *)
Definition rnum (s : surd) : R := (IZR (c0 (coeffs s)) + IZR (c1 (coeffs s)) * sqrt (IZR (discr s)))%R.
Definition rs (s : surd) : R := (rnum s / IZR (c2 (coeffs s)))%R.

Lemma sval_rs s : okc s -> 0 <= discr s -> sval s = RtoC (rs s).
Proof.
  intros Hc Hr. rewrite sval_fval. unfold fval, rs, rnum, ZtoC. rewrite csqrt_nonneg by auto.
  rewrite RtoC_div, RtoC_plus, RtoC_mult; auto.
Qed.

Lemma sval_real_discr g s x : normal g s -> sval s = RtoC x -> 0 <= discr s.
Proof.
  intros N E. destruct (Z_lt_dec (discr s) 0) as [H|H]; [exfalso|lia].
  pose proof (normal_okc g s N) as Hc. unfold okc in Hc.
  rewrite sval_fval in E. unfold fval in E. rewrite csqrt_neg in E by auto.
  assert (E2 : (ZtoC (c0 (coeffs s)) + ZtoC (c1 (coeffs s)) * (0%R, sqrt (IZR (- discr s))))%C
     = (RtoC x * ZtoC (c2 (coeffs s)))%C).
  { rewrite <- E. cfield. }
  unfold ZtoC, RtoC, Cplus, Cmult in E2. cbn [fst snd] in E2. injection E2 as _ E3.
  destruct s as [[a b c] r]. unfold normal, parts in N. cbn [coeffs c0 c1 c2 discr] in *.
  destruct N as (_ & _ & [[-> ->]|[Hb _]] & _); [lia|].
  assert (IZR b * sqrt (IZR (- r)) = 0)%R by lra.
  apply Rmult_integral in H0. destruct H0 as [X|X].
  - apply (IZR_neq0 b); auto.
  - apply sqrt_eq_0 in X; [|apply IZR_le; lia]. apply (IZR_neq0 (- r)); auto. lia.
Qed.

Lemma normal_real g s x : normal g s -> sval s = RtoC x -> 0 <= discr s /\ x = rs s.
Proof.
  intros N E. pose proof (sval_real_discr g s x N E) as Hr. split; [auto|].
  rewrite sval_rs in E by (eauto). apply RtoC_inj in E. auto.
Qed.

Lemma pic_real g s : 0 <= discr s -> panic_if_complex g s = Ok tt.
Proof.
  intros H. unfold panic_if_complex. destruct (Z.ltb_spec (discr s) 0); [lia|].
  rewrite andb_false_r. reflexivity.
Qed.

(** ** b * sqrt r against integers *)
Lemma bsqrt_sq b r : 0 <= r -> ((IZR b * sqrt (IZR r)) * (IZR b * sqrt (IZR r)) = IZR (b * b * r))%R.
Proof.
  intros H. rewrite !mult_IZR. rewrite <- (sqrt_IZR_sq r H) at 3. ring.
Qed.
Lemma bsqrt_nonneg b r : 0 <= b -> (0 <= IZR b * sqrt (IZR r))%R.
Proof. intros H. apply Rmult_le_pos; [apply IZR_le; auto|apply sqrt_pos]. Qed.

(** The integer square root brackets |b| sqrt r *)
Lemma isqrt_bracket b r : 0 <= b -> 0 <= r ->
  (IZR (Z.sqrt (b * b * r)) <= IZR b * sqrt (IZR r) < IZR (Z.sqrt (b * b * r)) + 1)%R.
Proof.
  intros Hb Hr. pose proof (bsqrt_sq b r Hr) as E. pose proof (bsqrt_nonneg b r Hb) as P.
  set (y := (IZR b * sqrt (IZR r))%R) in *. set (n := b * b * r) in *.
  assert (Hn : 0 <= n) by (unfold n; nia).
  destruct (Z.sqrt_spec n Hn) as [L U]. set (w := Z.sqrt n) in *.
  assert (Hw : 0 <= w) by apply Z.sqrt_nonneg.
  apply IZR_le in L. apply IZR_lt in U. rewrite !mult_IZR in L, U.
  unfold Z.succ in U. rewrite plus_IZR in U. apply IZR_le in Hw.
  assert (Hw1 : (0 <= IZR w)%R) by lra.
  split.
  - apply Rnot_lt_le. intros X. nra.
  - apply Rnot_le_lt. intros X. nra.
Qed.

Lemma bsqrt_not_int b r n : 0 <= r -> b <> 0 -> ~ square r -> (IZR b * sqrt (IZR r))%R <> IZR n.
Proof.
  intros Hr Hb Hs E. apply Hs. apply (square_quotient n b r Hb).
  apply eq_IZR. rewrite <- bsqrt_sq by auto. rewrite E. apply mult_IZR.
Qed.

Lemma isfloor_unique x m n : isfloor x m -> isfloor x n -> m = n.
Proof.
  unfold isfloor. intros H1 H2.
  assert (IZR m < IZR n + 1 /\ IZR n < IZR m + 1)%R as [A B] by lra.
  rewrite <- plus_IZR in A, B. apply lt_IZR in A, B. lia.
Qed.
Lemma istrunc_unique x m n : istrunc x m -> istrunc x n -> m = n.
Proof.
  unfold istrunc. intros [H1 H2] [H3 H4].
  destruct (Rle_dec 0 x) as [H|H].
  - apply (isfloor_unique x); unfold isfloor; auto.
  - assert (X : (x <= 0)%R) by lra. specialize (H2 X); specialize (H4 X).
    assert (IZR m < IZR n + 1 /\ IZR n < IZR m + 1)%R as [A B] by lra.
    rewrite <- plus_IZR in A, B. apply lt_IZR in A, B. lia.
Qed.

(** floor (y / c) = floor (floor y / c) *)
Lemma floor_div y N c : 0 < c -> isfloor y N -> isfloor (y / IZR c) (N / c).
Proof.
  intros Hc [H1 H2]. pose proof (Z.div_mod N c ltac:(lia)) as E.
  pose proof (Z.mod_pos_bound N c Hc) as [M1 M2].
  assert (Hc' : (0 < IZR c)%R) by (apply IZR_lt; auto).
  assert (L : c * (N / c) <= N) by lia. assert (U : N + 1 <= c * (N / c) + c) by lia.
  apply IZR_le in L, U. rewrite !plus_IZR, mult_IZR in U. rewrite mult_IZR in L.
  split.
  - apply Rmult_le_reg_r with (IZR c); auto. unfold Rdiv. rewrite Rmult_assoc, Rinv_l by lra. lra.
  - apply Rmult_lt_reg_r with (IZR c); auto. unfold Rdiv. rewrite Rmult_assoc, Rinv_l by lra. lra.
Qed.

Lemma floor_num b a r : 0 <= r -> ((b = 0 /\ r = 0) \/ (b <> 0 /\ ~ square r)) ->
  isfloor (IZR a + IZR b * sqrt (IZR r))
    (if 0 <=? b then a + Z.sqrt (b * b * r) else a - Z.sqrt (b * b * r) - 1).
Proof.
  intros Hr Hb. destruct (Z.leb_spec 0 b) as [H|H].
  - pose proof (isqrt_bracket b r H Hr) as B. unfold isfloor. rewrite plus_IZR. lra.
  - pose proof (isqrt_bracket (- b) r ltac:(lia) Hr) as B.
    replace (- b * - b * r) with (b * b * r) in B by ring. rewrite opp_IZR in B.
    assert (Hn : (IZR b * sqrt (IZR r))%R <> IZR (- Z.sqrt (b * b * r))).
    { destruct Hb as [[? ?]|[? ?]]; [lia|]. apply bsqrt_not_int; auto. }
    rewrite opp_IZR in Hn. unfold isfloor. rewrite !minus_IZR. 
    set (y := (IZR b * sqrt (IZR r))%R) in *. 
    replace (- IZR b * sqrt (IZR r))%R with (- y)%R in B by (unfold y; ring).
    assert (- y <> IZR (Z.sqrt (b * b * r)))%R by lra. lra.
Qed.

Lemma quot_floor_neg n c : 0 < c -> n < 0 -> Z.quot (n - c + 1) c = n / c.
Proof.
  intros Hc Hn. destruct (Z.eq_dec (n - c + 1) 0) as [E|E]; [lia|].
  replace (n - c + 1) with (- (c - 1 - n)) by ring.
  rewrite Z.quot_opp_l by lia. rewrite Z.quot_div_nonneg by lia.
  apply Z.div_unique with (r := c - 1 - (c - 1 - n) mod c).
  - pose proof (Z.mod_pos_bound (c - 1 - n) c Hc). lia.
  - pose proof (Z.div_mod (c - 1 - n) c ltac:(lia)). lia.
Qed.

Definition code_floor (n c : Z) : Z := Z.quot (if 0 <=? n then n else n - c + 1) c.
Lemma code_floor_eq n c : 0 < c -> code_floor n c = n / c.
Proof.
  intros Hc. unfold code_floor. destruct (Z.leb_spec 0 n).
  - apply Z.quot_div_nonneg; lia.
  - apply quot_floor_neg; lia.
Qed.

Theorem surd_floor_big g s : normal g s -> 0 <= discr s ->
  exists n, surd_floor g BigI s = Ok (surd_of_int n) /\ isfloor (rs s) n.
Proof.
  intros N Hr. unfold surd_floor. rewrite pic_real by auto. cbn [bind].
  destruct s as [[a b c] r]. unfold normal, parts in N. cbn [coeffs c0 c1 c2 discr] in *.
  destruct N as (Hc & _ & Hb & _). bigi. rewrite sqrtB by nia. bigi.
  pose proof (floor_num b a r Hr Hb) as F.
  set (num := if 0 <=? b then a + Z.sqrt (b * b * r) else a - Z.sqrt (b * b * r) - 1) in *.
  exists (num / c). split.
  - replace (if 0 <=? b then Ok (a + Z.sqrt (b * b * r)) else Ok (a - Z.sqrt (b * b * r) - 1))
      with (Ok num) by (unfold num; destruct (0 <=? b); reflexivity). bigi.
    rewrite <- code_floor_eq by auto. unfold code_floor.
    destruct (0 <=? num); bigi; rewrite quotB by lia; bigi; reflexivity.
  - unfold rs, rnum. cbn [coeffs c0 c1 c2 discr]. apply floor_div; auto.
Qed.

(** ** Signs *)
Lemma Rlt_sq x y : (0 <= x)%R -> (0 <= y)%R -> (x < y <-> x * x < y * y)%R.
Proof. intros Hx Hy; split; intros H; nra. Qed.

Lemma rs_sign s : 0 < c2 (coeffs s) ->
  ((0 < rs s <-> 0 < rnum s) /\ (rs s < 0 <-> rnum s < 0))%R.
Proof.
  intros Hc. unfold rs. apply IZR_lt in Hc.
  assert (H : (0 < / IZR (c2 (coeffs s)))%R) by (apply Rinv_0_lt_compat; auto).
  unfold Rdiv. split; split; intros; nra.
Qed.

Theorem surd_is_positive_big g s : normal g s -> 0 <= discr s ->
  exists b, surd_is_positive g BigI s = Ok b /\ (b = true <-> (0 < rs s)%R).
Proof.
  intros N Hr. unfold surd_is_positive. rewrite pic_real by auto. cbn [bind].
  destruct s as [[a b c] r]. unfold normal, parts in N. cbn [coeffs c0 c1 c2 discr] in *.
  destruct N as (Hc & _ & Hb & _).
  cut (forall P : Prop, (P <-> (0 < rs (Surd (SCo a b c) r))%R) <->
                        (P <-> (0 < rnum (Surd (SCo a b c) r))%R));
    [intros RS; setoid_rewrite RS; clear RS
    |intros P; destruct (rs_sign (Surd (SCo a b c) r) Hc) as [-> _]; reflexivity].
  unfold rnum. cbn [coeffs c0 c1 c2 discr].
  pose proof (bsqrt_sq b r Hr) as Sq. bigi.
  destruct (Z.eqb_spec b 0) as [->|Hb0].
  { eexists. split; [reflexivity|]. rewrite Z.ltb_lt, Rmult_0_l, Rplus_0_r.
    split; [apply IZR_lt|apply lt_IZR]. }
  destruct Hb as [[? ?]|[_ Hs]]; [lia|].
  assert (Hr0 : r <> 0) by (intros ->; apply Hs; exists 0; ring).
  assert (Hsq : (0 < sqrt (IZR r))%R) by (apply sqrt_lt_R0, IZR_lt; lia).
  destruct (Z.ltb_spec 0 b) as [Hb|Hb]; [apply IZR_lt in Hb as Hb'|assert (Hb' : (IZR b < 0)%R) by (apply IZR_lt; lia)].
  - assert (Hy : (0 < IZR b * sqrt (IZR r))%R) by nra.
    destruct (Z.ltb_spec 0 a) as [Ha|Ha].
    + apply IZR_lt in Ha. eexists. split; [reflexivity|]. split; [lra|auto].
    + apply IZR_le in Ha. eexists. split; [reflexivity|]. rewrite Z.ltb_lt.
      pose proof (Rlt_sq (- IZR a) (IZR b * sqrt (IZR r)) ltac:(lra) ltac:(lra)) as Q.
      rewrite Sq in Q. replace (- IZR a * - IZR a)%R with (IZR (a * a)) in Q by (rewrite mult_IZR; ring).
      split; intros X.
      * apply IZR_lt in X. apply Q in X. lra.
      * apply lt_IZR. apply Q. lra.
  - assert (Hy : (IZR b * sqrt (IZR r) < 0)%R) by nra.
    destruct (Z.ltb_spec 0 a) as [Ha|Ha]; cbn [negb].
    + apply IZR_lt in Ha. eexists. split; [reflexivity|]. rewrite Z.ltb_lt.
      pose proof (Rlt_sq (- (IZR b * sqrt (IZR r))) (IZR a) ltac:(lra) ltac:(lra)) as Q.
      rewrite Rmult_opp_opp, Sq, <- mult_IZR in Q.
      split; intros X.
      * apply IZR_lt in X. apply Q in X. lra.
      * apply lt_IZR. apply Q. lra.
    + apply IZR_le in Ha. eexists. split; [reflexivity|]. split; [discriminate|lra].
Qed.

Theorem surd_is_negative_big g s : normal g s -> 0 <= discr s ->
  exists b, surd_is_negative g BigI s = Ok b /\ (b = true <-> (rs s < 0)%R).
Proof.
  intros N Hr. unfold surd_is_negative. rewrite pic_real by auto. cbn [bind].
  destruct s as [[a b c] r]. unfold normal, parts in N. cbn [coeffs c0 c1 c2 discr] in *.
  destruct N as (Hc & _ & Hb & _).
  cut (forall P : Prop, (P <-> (rs (Surd (SCo a b c) r) < 0)%R) <->
                        (P <-> (rnum (Surd (SCo a b c) r) < 0)%R));
    [intros RS; setoid_rewrite RS; clear RS
    |intros P; destruct (rs_sign (Surd (SCo a b c) r) Hc) as [_ ->]; reflexivity].
  unfold rnum. cbn [coeffs c0 c1 c2 discr].
  pose proof (bsqrt_sq b r Hr) as Sq. bigi.
  destruct (Z.eqb_spec b 0) as [->|Hb0].
  { eexists. split; [reflexivity|]. rewrite Z.ltb_lt, Rmult_0_l, Rplus_0_r.
    split; [apply IZR_lt|apply lt_IZR]. }
  destruct Hb as [[? ?]|[_ Hs]]; [lia|].
  assert (Hr0 : r <> 0) by (intros ->; apply Hs; exists 0; ring).
  assert (Hsq : (0 < sqrt (IZR r))%R) by (apply sqrt_lt_R0, IZR_lt; lia).
  destruct (Z.ltb_spec b 0) as [Hb|Hb]; [apply IZR_lt in Hb as Hb'|assert (Hb' : (0 < IZR b)%R) by (apply IZR_lt; lia)].
  - assert (Hy : (IZR b * sqrt (IZR r) < 0)%R) by nra.
    destruct (Z.ltb_spec a 0) as [Ha|Ha].
    + apply IZR_lt in Ha. eexists. split; [reflexivity|]. split; [lra|auto].
    + apply IZR_le in Ha. eexists. split; [reflexivity|]. rewrite Z.ltb_lt.
      pose proof (Rlt_sq (IZR a) (- (IZR b * sqrt (IZR r))) ltac:(lra) ltac:(lra)) as Q.
      rewrite Rmult_opp_opp, Sq, <- mult_IZR in Q.
      split; intros X.
      * apply IZR_lt in X. apply Q in X. lra.
      * apply lt_IZR. apply Q. lra.
  - assert (Hy : (0 < IZR b * sqrt (IZR r))%R) by nra.
    destruct (Z.ltb_spec a 0) as [Ha|Ha]; cbn [negb].
    + apply IZR_lt in Ha. eexists. split; [reflexivity|]. rewrite Z.ltb_lt.
      pose proof (Rlt_sq (IZR b * sqrt (IZR r)) (- IZR a) ltac:(lra) ltac:(lra)) as Q.
      rewrite Sq in Q. replace (- IZR a * - IZR a)%R with (IZR (a * a)) in Q by (rewrite mult_IZR; ring).
      split; intros X.
      * apply IZR_lt in X. apply Q in X. lra.
      * apply lt_IZR. apply Q. lra.
    + apply IZR_le in Ha. eexists. split; [reflexivity|]. split; [discriminate|lra].
Qed.
