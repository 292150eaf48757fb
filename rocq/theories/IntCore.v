(** * IntCore: constructors, coefficients and rounding of quadratic integers. *)

From Coq Require Import ZArith Znumtheory Reals Lia Lra Bool List.
From Coquelicot Require Import Coquelicot.
From Verif Require Import Base Ext ModelSurd ModelInt Spec SpecInt Transfer NumFacts SurdCore RatioFacts SurdArith SurdTotal SurdOrd SurdRound.
Open Scope Z_scope.

Lemma fourB : four BigI = Ok 4. Proof. reflexivity. Qed.
Lemma mod4_cases d : d mod 4 = 0 \/ d mod 4 = 1 \/ d mod 4 = 2 \/ d mod 4 = 3.
Proof. pose proof (Z.mod_pos_bound d 4 ltac:(lia)). lia. Qed.

Lemma rem4 d : Z.rem d 4 = if (d <? 0) && negb (d mod 4 =? 0) then d mod 4 - 4 else d mod 4.
Proof.
  destruct (Z.ltb_spec d 0) as [H|H]; cbn [andb].
  - pose proof (Z.mod_pos_bound d 4 ltac:(lia)). pose proof (Z.quot_rem d 4 ltac:(lia)) as Q.
    pose proof (Z.div_mod d 4 ltac:(lia)) as D.
    pose proof (Z.rem_nonpos d 4 ltac:(lia) ltac:(lia)). pose proof (Z.rem_bound_abs d 4 ltac:(lia)).
    set (m := d mod 4) in *. set (q := Z.quot d 4) in *. set (e := d / 4) in *. set (r := Z.rem d 4) in *. clearbody m q e r.
    destruct (Z.eqb_spec m 0); cbn [negb]; lia.
  - apply Z.rem_mod_nonneg; lia.
Qed.

Lemma rem4_0 d : (Z.rem d 4 =? 0) = (d mod 4 =? 0).
Proof.
  rewrite rem4. pose proof (Z.mod_pos_bound d 4 ltac:(lia)).
  destruct (Z.eqb_spec (d mod 4) 0) as [E|E]; destruct (d <? 0); cbn [andb negb]; rewrite ?E; auto; apply Z.eqb_neq; lia.
Qed.

Lemma mod4d2B d : mod4d2 BigI d = Ok (if d mod 4 =? 0 then M0 else if d mod 4 =? 1 then M1 else M23).
Proof.
  unfold mod4d2. rewrite fourB, remB by lia. bigi. rewrite rem4_0, rem4.
  destruct (Z.eqb_spec (d mod 4) 0) as [E0|E0]; [reflexivity|]. rewrite andb_comm. cbn [negb andb].
  destruct (Z.ltb_spec d 0); bigi; rewrite quotB by lia; bigi;
    destruct (mod4_cases d) as [E|[E|[E|E]]]; try contradiction; rewrite E; reflexivity.
Qed.

(** Rounded division *)
Definition rnd (x y : Z) : Z := Z.quot (x + Z.quot (Z.abs y) 2 * Z.sgn x) y.
Lemma div_rem_roundB x y : y <> 0 -> div_rem_round BigI x y = Ok (rnd x y, x - rnd x y * y).
Proof.
  intros H. unfold div_rem_round, rnd. bigi. rewrite quotB by lia. bigi. rewrite div_remB by auto. bigi.
  change (1 + 1) with 2. set (o := Z.quot (Z.abs y) 2 * Z.sgn x).
  pose proof (Z.quot_rem (x + o) y H). f_equal. f_equal. lia.
Qed.
Lemma div_rem_round_zero t x v : div_rem_round t x 0 <> Ok v.
Proof.
  intros H. apply rle_div_rem_round in H. unfold div_rem_round in H. autorewrite with bigi in H.
  rewrite quotB in H by lia. autorewrite with bigi in H. discriminate.
Qed.

Lemma isround_unique x m n : isround x m -> isround x n -> m = n.
Proof.
  intros [A B] [A' B']. destruct (Rle_dec 0 x) as [H|H].
  - specialize (A H). specialize (A' H). apply Z.le_antisymm; apply Z.lt_succ_r; apply lt_IZR; rewrite succ_IZR; lra.
  - assert (Hx : (x <= 0)%R) by lra. specialize (B Hx). specialize (B' Hx).
    apply Z.le_antisymm; apply Z.lt_succ_r; apply lt_IZR; rewrite succ_IZR; lra.
Qed.
Lemma isround_opp x n : isround x n -> isround (- x) (- n).
Proof. intros [A B]. unfold isround. rewrite opp_IZR. split; intros H; [specialize (B ltac:(lra))|specialize (A ltac:(lra))]; lra. Qed.
Lemma isround_bound x n : isround x n -> (- / 2 <= x - IZR n <= / 2)%R.
Proof. intros [A B]. destruct (Rle_dec 0 x) as [H|H]; [specialize (A H)|specialize (B ltac:(lra))]; lra. Qed.

Lemma rnd_opp_l x y : y <> 0 -> rnd (- x) y = - rnd x y.
Proof. intros H. unfold rnd. rewrite Z.sgn_opp, <- Z.quot_opp_l by auto. f_equal. ring. Qed.
Lemma rnd_opp_r x y : y <> 0 -> rnd x (- y) = - rnd x y.
Proof. intros H. unfold rnd. rewrite Z.abs_opp. apply Z.quot_opp_r; auto. Qed.
Lemma rnd_pos x y : 0 <= x -> 0 < y -> y * (2 * rnd x y - 1) <= 2 * x < y * (2 * rnd x y + 1).
Proof.
  intros Hx Hy. unfold rnd. rewrite Z.abs_eq by lia. rewrite (Z.quot_div_nonneg y 2) by lia.
  pose proof (Z.div_mod y 2 ltac:(lia)). pose proof (Z.mod_pos_bound y 2 ltac:(lia)).
  pose proof (Z.div_pos y 2 ltac:(lia) ltac:(lia)).
  destruct (Z.eq_dec x 0) as [->|X].
  - rewrite Z.sgn_0, Z.mul_0_r, Z.quot_0_l by lia. lia.
  - rewrite Z.sgn_pos, Z.mul_1_r by lia. rewrite Z.quot_div_nonneg by lia.
    pose proof (Z.div_mod (x + y / 2) y ltac:(lia)). pose proof (Z.mod_pos_bound (x + y / 2) y ltac:(lia)).
    set (q := (x + y / 2) / y) in *. set (m := (x + y / 2) mod y) in *. set (h := y / 2) in *. clearbody q m h. nia.
Qed.
Lemma rnd_round_pos x y : 0 <= x -> 0 < y -> isround (IZR x / IZR y) (rnd x y).
Proof.
  intros Hx Hy. pose proof (rnd_pos x y Hx Hy) as [A B].
  assert (Py : (0 < IZR y)%R) by (apply IZR_lt; lia). assert (Px : (0 <= IZR x)%R) by (apply IZR_le; lia).
  assert (D : (0 <= IZR x / IZR y)%R) by (apply Rmult_le_pos; [auto|left; apply Rinv_0_lt_compat; auto]).
  set (q := rnd x y) in *. clearbody q.
  apply IZR_le in A. apply IZR_lt in B. rewrite !mult_IZR in A, B. rewrite minus_IZR, mult_IZR in A. rewrite plus_IZR, mult_IZR in B.
  set (z := (IZR x / IZR y)%R) in *. assert (Ex : IZR x = (z * IZR y)%R) by (unfold z; field; lra). clearbody z.
  rewrite Ex in A, B. assert (A' : (2 * IZR q - 1 <= 2 * z)%R) by nra. assert (B' : (2 * z < 2 * IZR q + 1)%R) by nra.
  split; intros H; [lra|]. assert (Z0 : (z = 0)%R) by lra.
  assert (IZR q = 0)%R; [|lra]. rewrite Z0 in *.
  assert (2 * q - 1 <= 0 /\ 0 < 2 * q + 1) as [X Y].
  { split; [apply le_IZR|apply lt_IZR]; rewrite ?minus_IZR, ?plus_IZR, mult_IZR; lra. }
  assert (q = 0) by lia. subst. reflexivity.
Qed.
Lemma rnd_round x y : y <> 0 -> isround (IZR x / IZR y) (rnd x y).
Proof.
  assert (P : forall x y, 0 < y -> isround (IZR x / IZR y) (rnd x y)).
  { clear. intros x y Hy. destruct (Z.le_gt_cases 0 x); [apply rnd_round_pos; auto|].
    rewrite <- (Z.opp_involutive x), rnd_opp_l, opp_IZR by lia. unfold Rdiv. rewrite Ropp_mult_distr_l_reverse.
    apply isround_opp, rnd_round_pos; lia. }
  intros H. destruct (Z.le_gt_cases 0 y) as [Y|Y]; [apply P; lia|].
  rewrite <- (Z.opp_involutive y), rnd_opp_r by lia.
  replace (IZR x / IZR (- - y))%R with (- (IZR x / IZR (- y)))%R.
  - apply isround_opp, P. lia.
  - rewrite !opp_IZR. field. apply IZR_neq0. auto.
Qed.
Lemma rnd_half x y : y <> 0 -> 2 * Z.abs (x - rnd x y * y) <= Z.abs y.
Proof.
  intros H. pose proof (isround_bound _ _ (rnd_round x y H)) as B. set (q := rnd x y) in *. clearbody q.
  apply le_IZR. rewrite mult_IZR, !abs_IZR, minus_IZR, mult_IZR.
  replace (IZR x - IZR q * IZR y)%R with ((IZR x / IZR y - IZR q) * IZR y)%R by (field; apply IZR_neq0; auto).
  rewrite Rabs_mult. assert (Rabs (IZR x / IZR y - IZR q) <= / 2)%R by (apply Rabs_le; lra).
  pose proof (Rabs_pos (IZR y)). nra.
Qed.
Lemma rnd_exact k y : y <> 0 -> rnd (k * y) y = k.
Proof.
  intros H. pose proof (rnd_half (k * y) y H) as B.
  replace (k * y - rnd (k * y) y * y) with ((k - rnd (k * y) y) * y) in B by ring. rewrite Z.abs_mul in B.
  assert (Z.abs (k - rnd (k * y) y) = 0); [nia|lia].
Qed.

(** ** The generator *)
Definition md1 (d : Z) : bool := d mod 4 =? 1.
Lemma md1_quot d : md1 d = true -> exists k, d = 4 * k + 1 /\ Z.quot (d - 1) 4 = k /\ Z.quot (1 - d) 4 = - k.
Proof.
  intros H. apply Z.eqb_eq in H. exists (d / 4). pose proof (Z.div_mod d 4 ltac:(lia)) as E. rewrite H in E.
  split; [lia|]. split; apply quot_exact; lia.
Qed.
Lemma RtoC2_neq0 : RtoC 2 <> RtoC 0.
Proof. intros H. apply RtoC_inj in H. lra. Qed.
Lemma RtoC2 : RtoC 2 = (RtoC 1 + RtoC 1)%C.
Proof. rewrite <- RtoC_plus. reflexivity. Qed.
Lemma RtoC11_neq0 : (RtoC 1 + RtoC 1)%C <> RtoC 0.
Proof. rewrite <- RtoC2. apply RtoC2_neq0. Qed.
Lemma RtoC1_neq0 : RtoC 1 <> RtoC 0.
Proof. intros H. apply RtoC_inj in H. lra. Qed.
Ltac cneq := repeat match goal with |- _ /\ _ => split | |- (_ * _)%C <> _ => apply Cmult_neq_0 end; auto using RtoC2_neq0, RtoC11_neq0, RtoC1_neq0;
  try (let X := fresh in intros X; apply (f_equal fst) in X; cbn in X; lra).

Lemma omega_md1 d : md1 d = true -> omega d = ((RtoC 1 + csqrt d) / RtoC 2)%C /\ omega_conj d = ((RtoC 1 - csqrt d) / RtoC 2)%C.
Proof. unfold omega, omega_conj, md1. intros ->. auto. Qed.
Lemma omega_md0 d : md1 d = false -> omega d = csqrt d /\ omega_conj d = (- csqrt d)%C.
Proof. unfold omega, omega_conj, md1. intros ->. auto. Qed.

Lemma omega_sq1 d k : md1 d = true -> d = 4 * k + 1 -> (omega d * omega d)%C = (omega d + ZtoC k)%C.
Proof.
  intros H E. destruct (omega_md1 d H) as [-> _]. pose proof (csqrt_sq d) as S.
  rewrite E in S at 3. rewrite ZtoC_add, ZtoC_mul, ZtoC_1 in S.
  replace (ZtoC 4) with (RtoC 2 * RtoC 2)%C in S by (unfold ZtoC; rewrite <- RtoC_mult; f_equal; lra).
  set (w := csqrt d) in *. clearbody w.
  replace ((RtoC 1 + w) / RtoC 2 * ((RtoC 1 + w) / RtoC 2))%C with ((RtoC 1 + RtoC 2 * w + w * w) / (RtoC 2 * RtoC 2))%C.
  - rewrite S. rewrite RtoC2. field; cneq.
  - rewrite RtoC2. field; cneq.
Qed.
Lemma omega_sq0 d : md1 d = false -> (omega d * omega d)%C = ZtoC d.
Proof. intros H. destruct (omega_md0 d H) as [-> _]. apply csqrt_sq. Qed.
Lemma omega_sum d : (omega d + omega_conj d)%C = RtoC (if md1 d then 1 else 0).
Proof.
  destruct (md1 d) eqn:H.
  - destruct (omega_md1 d H) as [-> ->]. rewrite RtoC2. field; cneq.
  - destruct (omega_md0 d H) as [-> ->]. ring.
Qed.
Lemma omega_conj_eq d : omega_conj d = ((if md1 d then RtoC 1 else RtoC 0) - omega d)%C.
Proof.
  pose proof (omega_sum d) as S. destruct (md1 d); rewrite <- S; ring.
Qed.

Lemma csqrt_omega1 d : md1 d = true -> csqrt d = (omega d + omega d - RtoC 1)%C.
Proof. intros H. destruct (omega_md1 d H) as [-> _]. rewrite RtoC2. field; cneq. Qed.

Lemma qval_fval a b d : qval (QInt (QCo a b) d) = if md1 d then fval (2 * a + b) b 2 d else fval a b 1 d.
Proof.
  unfold qval, fval. cbn [qcoeffs qdiscr q0 q1]. destruct (md1 d) eqn:H.
  - destruct (omega_md1 d H) as [-> _]. rewrite ZtoC_add, ZtoC_mul. change (ZtoC 2) with (RtoC 2). field; cneq.
  - destruct (omega_md0 d H) as [-> _]. rewrite ZtoC_1. field; cneq.
Qed.
Lemma qval_inj a b a' b' d : ~ square d -> qval (QInt (QCo a b) d) = qval (QInt (QCo a' b') d) -> a = a' /\ b = b'.
Proof.
  intros S. rewrite !qval_fval. destruct (md1 d); intros H; apply fval_cross in H; auto; lia.
Qed.
Lemma qval_rational a b d : ~ square d -> rational_num (qval (QInt (QCo a b) d)) -> b = 0.
Proof.
  intros S. rewrite qval_fval. destruct (md1 d); intros H; apply fval_rational_b0 in H; auto; lia.
Qed.
Lemma qval_int a d : qval (QInt (QCo a 0) d) = ZtoC a.
Proof. unfold qval. cbn [qcoeffs q0 q1]. rewrite ZtoC_0. ring. Qed.
Lemma qconj_int a d : qconj (QInt (QCo a 0) d) = ZtoC a.
Proof. unfold qconj. cbn [qcoeffs q0 q1]. rewrite ZtoC_0. ring. Qed.

(** ** Norm *)
Definition nrm (d a b : Z) : Z :=
  if md1 d then a * a + a * b + b * b * Z.quot (1 - d) 4 else a * a - b * b * d.
Lemma qval_qconj a b d : (qval (QInt (QCo a b) d) * qconj (QInt (QCo a b) d))%C = ZtoC (nrm d a b).
Proof.
  unfold qval, qconj, nrm. cbn [qcoeffs qdiscr q0 q1]. rewrite omega_conj_eq. destruct (md1 d) eqn:H.
  - destruct (md1_quot d H) as (k & E & _ & ->). pose proof (omega_sq1 d k H E) as S. autorewrite with ztoc.
    set (w := omega d) in *. clearbody w.
    replace ((ZtoC a + ZtoC b * w) * (ZtoC a + ZtoC b * (RtoC 1 - w)))%C
      with (ZtoC a * ZtoC a + ZtoC a * ZtoC b + ZtoC b * ZtoC b * (w - w * w))%C by ring.
    rewrite S. ring.
  - pose proof (omega_sq0 d H) as S. autorewrite with ztoc. rewrite <- S. ring.
Qed.
Lemma nrm_0 d a b : ~ square d -> nrm d a b = 0 -> a = 0 /\ b = 0.
Proof.
  intros S H. assert (E : ~ square d -> forall x y, x * x = y * y * d -> y = 0).
  { intros _ x y Q. destruct (Z.eq_dec y 0); auto. exfalso. apply S. apply (square_quotient x y d); auto. }
  unfold nrm in H. destruct (md1 d) eqn:M.
  - destruct (md1_quot d M) as (k & Ek & _ & Eq). rewrite Eq in H.
    assert (b = 0) by (apply (E S (2 * a + b) b); nia). subst. nia.
  - assert (b = 0) by (apply (E S a b); lia). subst. nia.
Qed.
