(** * SurdRound: trunc, fract, conversions to integers and rationals, equality. *)

From Coq Require Import ZArith Znumtheory Reals Lia Lra Bool.
From Coquelicot Require Import Coquelicot.
From Verif Require Import Base Ext ModelSurd Spec Transfer NumFacts SurdCore RatioFacts SurdArith SurdTotal SurdOrd.
Open Scope Z_scope.

(** ** Rounding toward zero *)

Lemma istrunc_opp x n : istrunc x n -> istrunc (- x) (- n).
Proof. unfold istrunc. rewrite opp_IZR. intros [H1 H2]. split; intros; lra. Qed.
Lemma istrunc_opp_iff x n : istrunc (- x) (- n) <-> istrunc x n.
Proof.
  split; [|apply istrunc_opp]. intros H. apply istrunc_opp in H.
  rewrite Ropp_involutive, Z.opp_involutive in H. auto.
Qed.
Lemma istrunc_pos x n : (0 < x)%R -> (istrunc x n <-> isfloor x n).
Proof. unfold istrunc, isfloor. intros; split; [intros [H1 _]; apply H1; lra|]. intros; split; intros; lra. Qed.
Lemma istrunc_IZR n : istrunc (IZR n) n.
Proof. unfold istrunc; split; lra. Qed.
Lemma istrunc_0_nonneg x n : (0 <= x)%R -> istrunc x n -> 0 <= n.
Proof.
  intros H [H1 _]. specialize (H1 H).
  assert (H2 : (-1 < IZR n)%R) by lra. apply lt_IZR in H2. lia.
Qed.

Lemma trunc_div y N c : 0 < c -> istrunc y N -> istrunc (y / IZR c) (Z.quot N c).
Proof.
  assert (Pos : forall y N, 0 < c -> (0 < y)%R -> istrunc y N -> istrunc (y / IZR c) (Z.quot N c)).
  { intros y0 N0 Hc Hy H. pose proof (istrunc_0_nonneg y0 N0 ltac:(lra) H) as HN.
    apply istrunc_pos in H; auto. apply istrunc_pos.
    - apply Rdiv_lt_0_compat; auto. apply IZR_lt; auto.
    - rewrite Z.quot_div_nonneg by lia. apply floor_div; auto. }
  intros Hc H. destruct (Rtotal_order y 0) as [Hy|[Hy|Hy]].
  - apply istrunc_opp in H. apply Pos in H; [|auto|lra].
    rewrite Z.quot_opp_l in H by lia.
    replace (- y / IZR c)%R with (- (y / IZR c))%R in H by (field; apply IZR_neq0; lia).
    apply (istrunc_opp_iff (y / IZR c)) in H. auto.
  - subst y. assert (N = 0).
    { apply (istrunc_unique 0); [auto|]. apply (istrunc_IZR 0). }
    subst N. rewrite Z.quot_0_l by lia. unfold Rdiv. rewrite Rmult_0_l. apply (istrunc_IZR 0).
  - apply Pos; auto.
Qed.

Lemma trunc_bsqrt b r : 0 <= r -> istrunc (IZR b * sqrt (IZR r)) (Z.sgn b * Z.sqrt (b * b * r)).
Proof.
  assert (Pos : forall b r, 0 <= b -> 0 <= r -> istrunc (IZR b * sqrt (IZR r)) (Z.sqrt (b * b * r))).
  { intros b0 r0 Hb Hr. pose proof (isqrt_bracket b0 r0 Hb Hr) as B.
    pose proof (bsqrt_nonneg b0 r0 Hb). unfold istrunc. split; [auto|].
    intros X. assert (E : (IZR b0 * sqrt (IZR r0) = 0)%R) by lra. rewrite E in *.
    assert (H1 : (-1 < IZR (Z.sqrt (b0 * b0 * r0)))%R) by lra.
    pose proof (Z.sqrt_nonneg (b0 * b0 * r0)) as H2. apply IZR_le in H2. lra. }
  intros Hr. destruct (Z.lt_trichotomy b 0) as [H|[->|H]].
  - rewrite (Z.sgn_neg b) by auto. replace (-1 * Z.sqrt (b * b * r)) with (- Z.sqrt (b * b * r)) by ring.
    pose proof (Pos (- b) r ltac:(lia) Hr) as P.
    replace (- b * - b * r) with (b * b * r) in P by ring.
    apply istrunc_opp in P. rewrite opp_IZR in P.
    replace (- (- IZR b * sqrt (IZR r)))%R with (IZR b * sqrt (IZR r))%R in P by ring. auto.
  - cbn [Z.sgn]. rewrite !Z.mul_0_l, Rmult_0_l. apply (istrunc_IZR 0).
  - rewrite (Z.sgn_pos b) by auto. rewrite Z.mul_1_l. apply Pos; auto. lia.
Qed.

(** The mixed-sign case: N is y rounded up, y positive *)
Lemma trunc_mixed y N c : 0 < c -> (0 < y)%R -> (IZR N - 1 < y < IZR N)%R ->
  (istrunc (y / IZR c) (Z.quot N c) <-> ~ (c | N)) /\
  (IZR (Z.quot N c) - 1 < y / IZR c < IZR (Z.quot N c) + 1)%R.
Proof.
  intros Hc Hy HN.
  assert (HN0 : 0 < N) by (apply lt_IZR; lra).
  assert (F : isfloor y (N - 1)) by (unfold isfloor; rewrite minus_IZR; lra).
  assert (Hcp : (0 < IZR c)%R) by (apply IZR_lt; auto).
  apply (floor_div y (N - 1) c Hc) in F.
  rewrite istrunc_pos by (apply Rdiv_lt_0_compat; auto).
  rewrite Z.quot_div_nonneg by lia.
  destruct (Zdivide_dec c N) as [D|D].
  - assert (E : N / c = (N - 1) / c + 1).
    { destruct D as [k ->]. rewrite Z.div_mul by lia.
      replace (k * c - 1) with ((k - 1) * c + (c - 1)) by ring.
      rewrite Z.div_add_l by lia. rewrite (Z.div_small (c - 1) c) by lia. lia. }
    split.
    + split; [|tauto]. intros G. pose proof (isfloor_unique _ _ _ F G). lia.
    + rewrite E, plus_IZR. unfold isfloor in F.
      assert (y / IZR c < IZR ((N - 1) / c + 1))%R by (rewrite plus_IZR; lra).
      split; [|rewrite plus_IZR in H; lra].
      (* y/c > N/c - 1 *)
      destruct D as [k Hk]. assert (Hk1 : N / c = k) by (rewrite Hk; apply Z.div_mul; lia).
      assert ((N - 1) / c = k - 1) by lia. rewrite H0, minus_IZR.
      apply Rmult_lt_reg_r with (IZR c); auto. unfold Rdiv. rewrite Rmult_assoc, Rinv_l by lra.
      assert (IZR N = IZR k * IZR c)%R by (rewrite Hk; apply mult_IZR).
      assert (1 <= IZR c)%R by (apply IZR_le; lia). nra.
  - assert (E : N / c = (N - 1) / c).
    { assert (M : N mod c <> 0) by (intros X; apply D; apply Z.mod_divide; lia).
      pose proof (Z.mod_pos_bound N c Hc). pose proof (Z.div_mod N c ltac:(lia)).
      apply Z.div_unique with (r := N mod c - 1); lia. }
    rewrite E. unfold isfloor in *. split; [tauto|]. lra.
Qed.

Lemma istrunc_bounds x n : istrunc x n -> (IZR n - 1 < x < IZR n + 1)%R.
Proof. unfold istrunc. intros [H1 H2]. destruct (Rle_dec 0 x); [specialize (H1 r)|specialize (H2 ltac:(lra))]; lra. Qed.

(** The numerator trunc works with *)
Definition trunc_num (s : surd) : Z :=
  c0 (coeffs s) + Z.sgn (c1 (coeffs s)) * Z.sqrt (c1 (coeffs s) * c1 (coeffs s) * discr s).

Theorem surd_trunc_real g s : normal g s -> 0 <= discr s ->
  exists n, surd_trunc g BigI s = Ok (surd_of_int n) /\
    (IZR n - 1 < rs s < IZR n + 1)%R /\
    ((0 <= IZR (c1 (coeffs s)) * rs s)%R -> istrunc (rs s) n) /\
    ((IZR (c1 (coeffs s)) * rs s < 0)%R -> (istrunc (rs s) n <-> ~ (c2 (coeffs s) | trunc_num s))).
Proof.
  intros N Hr. unfold surd_trunc, trunc_num.
  destruct s as [[a b c] r]. unfold normal, parts in N. cbn [coeffs c0 c1 c2 discr] in *.
  destruct N as (Hc & _ & Hb & _). destruct (Z.ltb_spec r 0); [lia|].
  bigi. rewrite sqrtB by nia. bigi. rewrite quotB by lia. bigi.
  eexists. split; [reflexivity|].
  set (N := a + Z.sgn b * Z.sqrt (b * b * r)).
  pose proof (trunc_bsqrt b r Hr) as T.
  unfold rs, rnum. cbn [coeffs c0 c1 c2 discr].
  set (y := (IZR a + IZR b * sqrt (IZR r))%R) in *.
  assert (Hcp : (0 < IZR c)%R) by (apply IZR_lt; auto).
  assert (Hci : (0 < / IZR c)%R) by (apply Rinv_0_lt_compat; auto).
  assert (Hsgn : forall z, (0 <= z * (y / IZR c) <-> 0 <= z * y)%R).
  { intros z. unfold Rdiv. split; intros; nra. }
  assert (Hsgn2 : forall z, (z * (y / IZR c) < 0 <-> z * y < 0)%R).
  { intros z. unfold Rdiv. split; intros; nra. }
  setoid_rewrite Hsgn. setoid_rewrite Hsgn2. clear Hsgn Hsgn2.
  destruct Hb as [[-> ->]|[Hb Hs]].
  { assert (E : y = IZR N) by (unfold y, N; rewrite !Rmult_0_l; cbn [Z.sgn Z.mul]; rewrite Z.add_0_r, Rplus_0_r; reflexivity).
    assert (G : istrunc (y / IZR c) (Z.quot N c)) by (apply trunc_div; auto; rewrite E; apply istrunc_IZR).
    split; [apply istrunc_bounds; auto|]. split; [auto|]. intros X. lra. }
  pose proof (bsqrt_not_int b r) as NI.
  assert (NIy : forall n, y <> IZR n).
  { intros n E. apply (NI (n - a) Hr Hb Hs). rewrite minus_IZR. unfold y in E. lra. }
  assert (EN : IZR N = (IZR a + IZR (Z.sgn b * Z.sqrt (b * b * r)))%R) by (unfold N; apply plus_IZR).
  pose proof (NI (Z.sgn b * Z.sqrt (b * b * r)) Hr Hb Hs) as NE.
  pose proof (NIy 0) as Y0.
  assert (Hy0 : (y < 0 \/ 0 < y)%R) by lra.
  destruct (Z_lt_dec b 0) as [B|B].
  - assert (Bp : (IZR b < 0)%R) by (apply IZR_lt; auto).
    assert (Yb : (IZR b * sqrt (IZR r) <= 0)%R).
    { pose proof (sqrt_pos (IZR r)). nra. }
    destruct T as [_ T]. specialize (T Yb).
    assert (BR : (IZR N - 1 < y < IZR N)%R) by (unfold y in *; lra).
    destruct Hy0 as [Hy|Hy].
    + assert (G : istrunc (y / IZR c) (Z.quot N c)).
      { apply trunc_div; auto. split; lra. }
      split; [apply istrunc_bounds; auto|]. split; [auto|]. intros X. nra.
    + destruct (trunc_mixed y N c Hc Hy BR) as [M1 M2]. split; [auto|].
      split; [intros X; nra|auto].
  - assert (Bp : (0 < IZR b)%R) by (apply IZR_lt; lia).
    assert (Yb : (0 <= IZR b * sqrt (IZR r))%R).
    { pose proof (sqrt_pos (IZR r)). nra. }
    destruct T as [T _]. specialize (T Yb).
    assert (BR : (IZR N < y < IZR N + 1)%R) by (unfold y in *; lra).
    destruct Hy0 as [Hy|Hy].
    + assert (BR' : (IZR (- N) - 1 < - y < IZR (- N))%R) by (rewrite opp_IZR; lra).
      destruct (trunc_mixed (- y) (- N) c Hc ltac:(lra) BR') as [M1 M2].
      rewrite Z.quot_opp_l in M1, M2 by lia.
      replace (- y / IZR c)%R with (- (y / IZR c))%R in M1, M2 by (field; lra).
      rewrite istrunc_opp_iff, Z.divide_opp_r in M1. rewrite opp_IZR in M2.
      split; [lra|]. split; [intros X; nra|auto].
    + assert (G : istrunc (y / IZR c) (Z.quot N c)).
      { apply trunc_div; auto. split; lra. }
      split; [apply istrunc_bounds; auto|]. split; [auto|]. intros X. nra.
Qed.

Theorem surd_trunc_complex g s : normal g s -> discr s < 0 ->
  exists s' m n, surd_trunc g BigI s = Ok s' /\ sval s' = (IZR m, IZR n) /\ normal g s' /\
    istrunc (fst (sval s)) m /\ istrunc (snd (sval s)) n.
Proof.
  intros N Hr. pose proof N as N0. unfold surd_trunc.
  destruct s as [[a b c] r]. unfold normal, parts in N. cbn [coeffs c0 c1 c2 discr] in *.
  destruct N as (Hc & _ & Hb & Hg). destruct (Z.ltb_spec r 0); [|lia].
  bigi. rewrite sqrtB by nia. bigi. do 2 (rewrite quotB by lia; bigi).
  assert (G : cplx g = true) by (destruct (cplx g); auto; specialize (Hg eq_refl); lia).
  destruct (surd_from_coeffs_total g
    (SCo (Z.quot a c) (Z.quot (Z.sgn b * Z.sqrt (b * b * - r)) c) 1) (-1)) as [s' E].
  { cbn; lia. } { congruence. }
  exists s', (Z.quot a c), (Z.quot (Z.sgn b * Z.sqrt (b * b * - r)) c).
  split; [exact E|]. apply surd_from_coeffs_ok in E. destruct E as (_ & _ & V & Nn & _).
  cbn [c0 c1 c2] in V.
  assert (Hcp : IZR c <> 0%R) by (apply IZR_neq0; lia).
  split.
  - rewrite V. unfold fval. rewrite csqrt_neg by lia. change (- -1) with 1. rewrite sqrt_1.
    unfold ZtoC, RtoC, Cdiv, Cinv, Cmult, Cplus; cbn [fst snd]. f_equal; field.
  - split; [auto|]. rewrite sval_fval. cbn [coeffs c0 c1 c2 discr]. unfold fval.
    rewrite csqrt_neg by lia.
    assert (E : ((ZtoC a + ZtoC b * (0%R, sqrt (IZR (- r)))) / ZtoC c)%C =
            ((IZR a / IZR c)%R, (IZR b * sqrt (IZR (- r)) / IZR c)%R)).
    { unfold ZtoC, RtoC, Cdiv, Cinv, Cmult, Cplus; cbn [fst snd]. f_equal; field; auto. }
    rewrite E. cbn [fst snd]. split.
    + apply trunc_div; auto. apply istrunc_IZR.
    + apply trunc_div; auto. apply trunc_bsqrt. lia.
Qed.

(** ** Uniqueness of the normal form for a given root *)
Lemma gcd3_divide a b c d : (d | a) -> (d | b) -> (d | c) -> (d | Z.gcd (Z.gcd a b) c).
Proof. intros. repeat apply Z.gcd_greatest; auto. Qed.

Lemma normal_denom_divides a b c a' b' c' : Z.gcd (Z.gcd a b) c = 1 ->
  a * c' = a' * c -> b * c' = b' * c -> (c | c').
Proof.
  intros G E1 E2.
  apply Z.divide_abs_r.
  assert (D : (c | Z.gcd (Z.gcd (a * Z.abs c') (b * Z.abs c')) (c * Z.abs c'))).
  { destruct (Z.abs_spec c') as [[_ ->]|[_ ->]].
    - apply gcd3_divide; [exists a'; lia|exists b'; lia|exists c'; lia].
    - apply gcd3_divide; [exists (- a'); lia|exists (- b'); lia|exists (- c'); lia]. }
  rewrite !Z.gcd_mul_mono_r_nonneg, G in D by lia. rewrite Z.mul_1_l in D. auto.
Qed.

Lemma cross_eq g l r : normal g l -> normal g r ->
  c0 (coeffs l) * c2 (coeffs r) = c0 (coeffs r) * c2 (coeffs l) ->
  c1 (coeffs l) * c2 (coeffs r) = c1 (coeffs r) * c2 (coeffs l) ->
  coeffs l = coeffs r.
Proof.
  intros Nl Nr E1 E2. destruct l as [[a b c] d], r as [[a' b' c'] d'].
  unfold normal, parts in *. cbn [coeffs c0 c1 c2 discr] in *.
  destruct Nl as (Hc & G & _), Nr as (Hc' & G' & _).
  assert (D1 : (c | c')) by (apply (normal_denom_divides a b c a' b' c'); auto).
  assert (D2 : (c' | c)) by (apply (normal_denom_divides a' b' c' a b c); auto).
  assert (c = c') by (apply Z.divide_antisym_nonneg; auto; lia). subst c'.
  f_equal; nia.
Qed.

Lemma fval_cross a b c a' b' c' r : c <> 0 -> c' <> 0 -> ~ square r ->
  fval a b c r = fval a' b' c' r -> a * c' = a' * c /\ b * c' = b' * c.
Proof.
  intros Hc Hc' Hs E. apply (csqrt_indep2 _ _ _ _ r Hs).
  rewrite !ZtoC_mul.
  transitivity (fval a b c r * (ZtoC c * ZtoC c'))%C; [unfold fval; cfield|].
  rewrite E. unfold fval; cfield.
Qed.

Lemma normal_unique g l r : normal g l -> normal g r -> discr l = discr r ->
  sval l = sval r -> l = r.
Proof.
  intros Nl Nr Ed E.
  assert (Hc : coeffs l = coeffs r).
  { rewrite !sval_fval, <- Ed in E. pose proof (normal_okc _ _ Nl) as Ol. pose proof (normal_okc _ _ Nr) as Or.
    destruct l as [[a b c] d], r as [[a' b' c'] d']. cbn [discr coeffs c0 c1 c2] in *. subst d'.
    unfold okc in *. cbn [coeffs c2] in *.
    destruct (square_mod_dec d) as [S|S].
    - unfold normal, parts in Nl, Nr. cbn [coeffs c0 c1 c2 discr] in Nl, Nr.
      destruct Nl as (H1 & H2 & [[-> ->]|[_ ?]] & H4); [|contradiction].
      destruct Nr as (J1 & J2 & [[-> _]|[_ ?]] & J4); [|contradiction].
      rewrite !fval_b0 in E.
      assert (X : a * c' = a' * c).
      { apply ZtoC_inj. rewrite !ZtoC_mul.
        transitivity (ZtoC a / ZtoC c * (ZtoC c * ZtoC c'))%C; [cfield|]. rewrite E. cfield. }
      apply (cross_eq g (Surd (SCo a 0 c) 0) (Surd (SCo a' 0 c') 0)); auto;
        unfold normal, parts; cbn [coeffs c0 c1 c2 discr]; repeat split; auto.
    - destruct (fval_cross a b c a' b' c' d) as [X Y]; auto.
      apply (cross_eq g _ _ Nl Nr); auto. }
  destruct l as [cl dl], r as [cr dr]. cbn [coeffs discr] in *. congruence.
Qed.

(** ** Irrationality *)
Lemma fval_rational_b0 a b c r : c <> 0 -> ~ square r -> rational_num (fval a b c r) -> b = 0.
Proof.
  intros Hc Hs (n & d & Hd & E).
  assert (X : fval a b c r = fval n 0 d r) by (rewrite fval_b0; auto).
  apply fval_cross in X; auto. destruct X as [_ X]. nia.
Qed.

Lemma normal_is_rational g s : normal g s -> (is_rational s = true <-> rational_num (sval s)).
Proof.
  intros N. pose proof (normal_okc _ _ N) as O. split.
  - intros H. apply is_rational_true in H; auto. exists (c0 (coeffs s)), (c2 (coeffs s)). auto.
  - intros H. destruct (is_rational s) eqn:E; auto. exfalso.
    pose proof (normal_irr_ns g s N E) as Hs. apply is_rational_false in E. destruct E as [E _].
    apply E. rewrite sval_fval in H. apply fval_rational_b0 in H; auto.
Qed.

Lemma rational_add x y : rational_num x -> rational_num y -> rational_num (x + y)%C.
Proof.
  intros (n & d & Hd & ->) (n' & d' & Hd' & ->). exists (n * d' + n' * d), (d * d').
  split; [nia|]. rewrite ZtoC_add, !ZtoC_mul. cfield.
Qed.
Lemma rational_mul x y : rational_num x -> rational_num y -> rational_num (x * y)%C.
Proof.
  intros (n & d & Hd & ->) (n' & d' & Hd' & ->). exists (n * n'), (d * d').
  split; [nia|]. rewrite !ZtoC_mul. cfield.
Qed.
Lemma rational_opp x : rational_num x -> rational_num (- x)%C.
Proof. intros (n & d & Hd & ->). exists (- n), d. split; auto. rewrite ZtoC_opp. cfield. Qed.
Lemma rational_inv x : x <> RtoC 0 -> rational_num x -> rational_num (/ x)%C.
Proof.
  intros Hx (n & d & Hd & ->).
  assert (Hn : n <> 0). { intros ->. apply Hx. rewrite ZtoC_0. cfield. }
  exists d, n. split; [auto|]. cfield.
Qed.
Lemma rational_ZtoC n : rational_num (ZtoC n).
Proof. exists n, 1. split; [lia|]. rewrite ZtoC_1. field. intros X; apply RtoC_inj in X; lra. Qed.

(** ** Equality *)

(** Split a value into its rational part and its irrational part *)
Definition rpart (s : surd) : C := (ZtoC (c0 (coeffs s)) / ZtoC (c2 (coeffs s)))%C.
Definition ipart (s : surd) : C := (ZtoC (c1 (coeffs s)) * csqrt (discr s) / ZtoC (c2 (coeffs s)))%C.

Lemma sval_parts s : okc s -> sval s = (rpart s + ipart s)%C.
Proof. intros O. rewrite sval_fval. unfold fval, rpart, ipart. unfold okc in O. cfield. Qed.
Lemma sconj_parts s : okc s -> sconj s = (rpart s - ipart s)%C.
Proof. intros O. unfold sconj, rpart, ipart, parts. unfold okc in O. cfield. Qed.

Lemma rpart_rational s : okc s -> rational_num (rpart s).
Proof. intros O. exists (c0 (coeffs s)), (c2 (coeffs s)). split; auto. Qed.
Lemma ipart_sq s : okc s -> (ipart s * ipart s)%C =
  (ZtoC (c1 (coeffs s) * c1 (coeffs s) * discr s) / ZtoC (c2 (coeffs s) * c2 (coeffs s)))%C.
Proof.
  intros O. unfold ipart, okc in *. rewrite !ZtoC_mul. rewrite <- (csqrt_sq (discr s)). cfield.
Qed.
Lemma ipart_sq_rational s : okc s -> rational_num (ipart s * ipart s)%C.
Proof.
  intros O. rewrite ipart_sq by auto. eexists _, _. split; [|reflexivity]. unfold okc in O. nia.
Qed.
Lemma ipart_irr g s : normal g s -> is_rational s = false -> ~ rational_num (ipart s).
Proof.
  intros N I H. pose proof (normal_okc _ _ N) as O.
  assert (R : rational_num (sval s)).
  { rewrite sval_parts by auto. apply rational_add; auto. apply rpart_rational; auto. }
  apply (normal_is_rational g) in R; auto. congruence.
Qed.

Lemma Ceq_dec0 (x : C) : x = RtoC 0 \/ x <> RtoC 0.
Proof. destruct (Ceq_dec x (RtoC 0)); auto. Qed.

(** Two normal irrational surds are equal exactly when both parts are *)
Lemma parts_eq g l r : normal g l -> normal g r -> is_rational l = false -> is_rational r = false ->
  sval l = sval r -> rpart l = rpart r /\ ipart l = ipart r.
Proof.
  intros Nl Nr Il Ir E. pose proof (normal_okc _ _ Nl) as Ol. pose proof (normal_okc _ _ Nr) as Or.
  rewrite !sval_parts in E by auto.
  set (q := (rpart l - rpart r)%C).
  assert (Hq : rational_num q).
  { unfold q, Cminus. apply rational_add; [|apply rational_opp]; apply rpart_rational; auto. }
  assert (E2 : ipart r = (ipart l + q)%C).
  { unfold q. replace (ipart r) with (rpart r + ipart r - rpart r)%C by ring. rewrite <- E. ring. }
  destruct (Ceq_dec0 q) as [Z|Z].
  - rewrite Z in E2. split; [|rewrite E2; ring].
    replace (rpart l) with (q + rpart r)%C by (unfold q; ring). rewrite Z. ring.
  - exfalso. apply (ipart_irr g l Nl Il).
    assert (Z2 : (q + q)%C <> RtoC 0).
    { intros X. apply Z. destruct q as [u v]. unfold Cplus, RtoC in *. cbn [fst snd] in X.
      injection X as X1 X2. f_equal; lra. }
    replace (ipart l) with ((ipart r * ipart r + - (ipart l * ipart l) + - (q * q)) * / (q + q))%C.
    + apply rational_mul.
      * apply rational_add; [apply rational_add|]; try apply rational_opp; 
          try (apply ipart_sq_rational; auto). apply rational_mul; auto.
      * apply rational_inv; auto. apply rational_add; auto.
    + rewrite E2. field. auto.
Qed.

Lemma sco_eqb_eq x y : sco_eqb x y = true <-> x = y.
Proof.
  unfold sco_eqb. destruct x as [a b c], y as [a' b' c']. cbn [c0 c1 c2].
  rewrite !andb_true_iff, !Z.eqb_eq. split; [intros [[-> ->] ->]; auto|]. intros E; inv E; auto.
Qed.

Lemma Cdiv_cross a b c d : b <> RtoC 0 -> d <> RtoC 0 -> (a / b = c / d <-> a * d = c * b)%C.
Proof.
  intros Hb Hd. split; intros E.
  - transitivity (a / b * (b * d))%C; [cfield|]. rewrite E. cfield.
  - transitivity (a * d / (b * d))%C; [cfield|]. rewrite E. cfield.
Qed.

Lemma surd_eq_big l r : exists b, surd_eq BigI l r = Ok b.
Proof.
  unfold surd_eq. destruct (discr l =? discr r); [eauto|].
  destruct ((discr l =? 0) || (discr r =? 0)); [eauto|].
  destruct (coeffs l) as [a b c], (coeffs r) as [a' b' c']. bigi.
  destruct (negb (a * c' =? a' * c)); eauto.
Qed.

Lemma normal_discr0 g s : normal g s -> (discr s = 0 <-> is_rational s = true).
Proof.
  intros N. destruct s as [[a b c] r]. unfold normal, parts in N. unfold is_rational.
  cbn [coeffs c0 c1 c2 discr] in *. rewrite orb_true_iff, !Z.eqb_eq. split; [auto|].
  destruct N as (_ & _ & [[? ?]|[? ?]] & _); intuition.
Qed.

(** Exactly when == returns true *)
Theorem surd_eq_spec g l r : normal g l -> normal g r ->
  exists b, surd_eq BigI l r = Ok b /\
    (b = true <-> sval l = sval r \/ (discr l <> discr r /\ sval l = sconj r)).
Proof.
  intros Nl Nr. pose proof (normal_okc _ _ Nl) as Ol. pose proof (normal_okc _ _ Nr) as Or.
  unfold surd_eq. destruct (Z.eqb_spec (discr l) (discr r)) as [Ed|Ed].
  { eexists. split; [reflexivity|]. rewrite sco_eqb_eq. split.
    - intros E. left. rewrite !sval_fval, E, Ed. reflexivity.
    - intros [E|[X _]]; [|contradiction]. f_equal. apply (normal_unique g); auto. }
  destruct ((discr l =? 0) || (discr r =? 0)) eqn:E0.
  { eexists. split; [reflexivity|]. split; [discriminate|]. intros E. exfalso.
    assert (R : is_rational l = true /\ is_rational r = false \/ is_rational l = false /\ is_rational r = true).
    { rewrite orb_true_iff, !Z.eqb_eq in E0.
      pose proof (normal_discr0 g l Nl). pose proof (normal_discr0 g r Nr).
      destruct (is_rational l), (is_rational r); intuition congruence. }
    assert (RR : rational_num (sval l) <-> rational_num (sval r)).
    { destruct E as [->|[_ E]]; [reflexivity|]. rewrite E. rewrite sconj_parts, sval_parts by auto.
      split; intros H.
      - replace (rpart r + ipart r)%C with (rpart r + (rpart r + - (rpart r - ipart r)))%C by ring.
        apply rational_add; [apply rpart_rational; auto|].
        apply rational_add; [apply rpart_rational; auto|]. apply rational_opp; auto.
      - replace (rpart r - ipart r)%C with (rpart r + (rpart r + - (rpart r + ipart r)))%C by ring.
        apply rational_add; [apply rpart_rational; auto|].
        apply rational_add; [apply rpart_rational; auto|]. apply rational_opp; auto. }
    rewrite <- !(normal_is_rational g) in RR by auto.
    destruct R as [[A B]|[A B]]; rewrite A, B in RR; destruct RR; intuition discriminate. }
  apply orb_false_elim in E0. rewrite !Z.eqb_neq in E0. destruct E0 as [D0 D0'].
  assert (Il : is_rational l = false).
  { destruct (is_rational l) eqn:X; auto. apply (normal_discr0 g) in X; auto. contradiction. }
  assert (Ir : is_rational r = false).
  { destruct (is_rational r) eqn:X; auto. apply (normal_discr0 g) in X; auto. contradiction. }
  assert (Key : sval l = sval r \/ (discr l <> discr r /\ sval l = sconj r) <->
      rpart l = rpart r /\ (ipart l * ipart l = ipart r * ipart r)%C).
  { split.
    - intros [E|[_ E]].
      + destruct (parts_eq g l r Nl Nr Il Ir E) as [A B]. rewrite B. auto.
      + assert (Nc : normal g (new_raw (c0 (coeffs r)) (- c1 (coeffs r)) (c2 (coeffs r)) (discr r))).
        { apply (normal_conj g r); auto. }
        set (rc := new_raw (c0 (coeffs r)) (- c1 (coeffs r)) (c2 (coeffs r)) (discr r)) in *.
        assert (Irc : is_rational rc = false).
        { apply is_rational_false in Ir. unfold is_rational, rc, new_raw; cbn [coeffs c1 discr].
          apply orb_false_intro; apply Z.eqb_neq; lia. }
        assert (Ip : ipart rc = (- ipart r)%C).
        { unfold ipart, rc, new_raw; cbn [coeffs c1 c2 discr]. rewrite ZtoC_opp. unfold okc in Or. cfield. }
        destruct (parts_eq g l rc Nl Nc Il Irc) as [A B].
        { rewrite E, sconj_parts by auto. rewrite sval_parts by (apply (normal_okc g); auto).
          rewrite Ip. unfold rc, rpart, new_raw; cbn [coeffs c0 c2]. ring. }
        rewrite B, Ip. split; [|ring]. rewrite A. reflexivity.
    - intros [A B]. assert (B2 : ((ipart l - ipart r) * (ipart l + ipart r))%C = RtoC 0).
      { replace ((ipart l - ipart r) * (ipart l + ipart r))%C with (ipart l * ipart l - ipart r * ipart r)%C by ring.
        rewrite B. ring. }
      destruct (Ceq_dec0 (ipart l - ipart r)%C) as [X|X].
      + left. rewrite !sval_parts by auto. rewrite A.
        replace (ipart l) with ((ipart l - ipart r) + ipart r)%C by ring. rewrite X. ring.
      + right. split; [auto|]. rewrite sval_parts, sconj_parts by auto. rewrite A.
        destruct (Ceq_dec0 (ipart l + ipart r)%C) as [Y|Y].
        * replace (ipart l) with ((ipart l + ipart r) - ipart r)%C by ring. rewrite Y. ring.
        * exfalso. apply (Cmult_neq_0 _ _ X Y). auto. }
  assert (Key2 : (rpart l = rpart r /\ (ipart l * ipart l = ipart r * ipart r)%C) <->
    (c0 (coeffs l) * c2 (coeffs r) = c0 (coeffs r) * c2 (coeffs l) /\
     c1 (coeffs l) * c1 (coeffs l) * discr l * (c2 (coeffs r) * c2 (coeffs r)) =
     c1 (coeffs r) * c1 (coeffs r) * discr r * (c2 (coeffs l) * c2 (coeffs l)))).
  { rewrite !ipart_sq by auto. unfold rpart, okc in *.
    assert (C2 : c2 (coeffs l) * c2 (coeffs l) <> 0) by nia.
    assert (C2' : c2 (coeffs r) * c2 (coeffs r) <> 0) by nia.
    rewrite !Cdiv_cross by auto. rewrite <- !ZtoC_mul.
    split; [intros [X Y]; apply ZtoC_inj in X, Y; auto|intros [X Y]; rewrite X, Y; auto]. }
  rewrite Key2 in Key. clear Key2. setoid_rewrite Key. clear Key.
  destruct l as [[a b c] d], r as [[a' b' c'] d']. unfold okc in *. cbn [coeffs c0 c1 c2 discr] in *.
  bigi.
  destruct (Z.eqb_spec (a * c') (a' * c)) as [E|E]; cbn [negb].
  - eexists. split; [reflexivity|]. rewrite Z.eqb_eq. split.
    + intros X. split; [auto|]. lia.
    + intros [_ X]. lia.
  - eexists. split; [reflexivity|]. split; [discriminate|]. intros [X _]. contradiction.
Qed.
