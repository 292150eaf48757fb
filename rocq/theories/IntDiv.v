(** * IntDiv: division, remainder, comparison and totality for quadratic integers. *)

From Coq Require Import ZArith Znumtheory Reals Lia Lra Bool List.
From Coquelicot Require Import Coquelicot.
From Verif Require Import Base Ext ModelSurd ModelInt Spec SpecInt Transfer NumFacts SurdCore RatioFacts SurdArith SurdTotal SurdOrd SurdRound IntCore IntArith IntOps.
Open Scope Z_scope.

Lemma nrm_b0 d a : nrm d a 0 = a * a.
Proof. unfold nrm. destruct (md1 d); ring. Qed.

(** ** Division over one root *)
Lemma div_core g d a b a' b' : good_root g d -> ~ (a' = 0 /\ b' = 0) ->
  exists q r, qco_div_rem BigI (QCo a b) (QCo a' b') d = Ok (q, r) /\
    rounded_quotient d (qval (QInt (QCo a b) d)) (qval (QInt (QCo a' b') d)) (qval (QInt q d)) /\
    qval (QInt r d) = (qval (QInt (QCo a b) d) - qval (QInt q d) * qval (QInt (QCo a' b') d))%C /\
    exists u v, nrm d (q0 r) (q1 r) * nrm d a' b' = nrm d u v /\ nrm d a' b' <> 0 /\
      2 * Z.abs u <= Z.abs (nrm d a' b') /\ 2 * Z.abs v <= Z.abs (nrm d a' b').
Proof.
  intros (S & M & P) NZ. destruct (qco_div_rem_good d S M a b a' b' NZ) as (Hn & r & E & V & N).
  eexists _, r. split; [exact E|]. split; [|split; [exact V|]].
  - exists (q0 (cdiv d a b a' b')), (q1 (cdiv d a b a' b')), (nrm d a' b'). eexists _, _.
    split; [auto|].
    pose proof (qval_qconj a' b' d) as NV. pose proof (ZtoC_neq0 _ Hn) as NC. rewrite <- NV in NC.
    assert (Vy : qval (QInt (QCo a' b') d) <> RtoC 0) by (intros X; rewrite X in NC; apply NC; ring).
    assert (Cy : qconj (QInt (QCo a' b') d) <> RtoC 0) by (intros X; rewrite X in NC; apply NC; ring).
    split; [auto|]. split; [|split; [reflexivity|split; apply rnd_round; auto]].
    pose proof (cdiv_val d a b a' b') as CV. unfold qval at 1 in CV. cbn [qcoeffs qdiscr] in CV. rewrite CV, <- NV.
    field. auto.
  - eexists _, _. split; [exact N|]. split; [auto|]. split; apply rnd_half; auto.
Qed.

Lemma qint_div_int_ok g t x k z : wfq g x -> qint_div_int t x k = Ok z ->
  wfq g z /\ rounded_quotient (qdiscr x) (qval x) (ZtoC k) (qval z).
Proof.
  intros W H. apply rle_qint_div_int in H. destruct x as [[a b] d]. unfold qint_div_int, qco_div_int in H.
  cbn [qcoeffs qdiscr q0 q1] in H. destruct (Z.eq_dec k 0) as [->|K].
  { destruct (div_rem_round BigI a 0) eqn:E; [|discriminate|discriminate]. apply div_rem_round_zero in E. destruct E. }
  rewrite !div_rem_roundB in H by auto. cbn [bind] in H. inversion H; subst. split.
  - destruct W as [[B D]|G]; [left|right; auto]. cbn [qcoeffs qdiscr q1] in *. subst.
    rewrite <- (Z.mul_0_l k) at 1. rewrite rnd_exact by auto. auto.
  - exists a, b, k, (rnd a k), (rnd b k). split; [auto|]. split; [apply ZtoC_neq0; auto|].
    split; [reflexivity|]. split; [reflexivity|]. split; apply rnd_round; auto.
Qed.
Lemma qint_rem_int_ok g t x k z : wfq g x -> qint_rem_int t x k = Ok z -> 
  wfq g z /\ k <> 0 /\ exists q, qint_div_int BigI x k = Ok q /\ qval z = (qval x - qval q * ZtoC k)%C /\
    2 * Z.abs (q0 (qcoeffs z)) <= Z.abs k /\ 2 * Z.abs (q1 (qcoeffs z)) <= Z.abs k.
Proof.
  intros W H. apply rle_qint_rem_int in H. destruct x as [[a b] d]. unfold qint_rem_int, qco_rem_int in H.
  cbn [qcoeffs qdiscr q0 q1] in H. destruct (Z.eq_dec k 0) as [->|K].
  { destruct (div_rem_round BigI a 0) eqn:E; [|discriminate|discriminate]. apply div_rem_round_zero in E. destruct E. }
  rewrite !div_rem_roundB in H by auto. cbn [bind] in H. inversion H; subst. split; [|split; [auto|]].
  - destruct W as [[B D]|G]; [left|right; auto]. cbn [qcoeffs qdiscr q1] in *. subst.
    rewrite <- (Z.mul_0_l k) at 2. rewrite rnd_exact by auto. auto.
  - unfold qint_div_int, qco_div_int. cbn [qcoeffs qdiscr q0 q1]. rewrite !div_rem_roundB by auto. cbn [bind].
    eexists. split; [reflexivity|]. qunf. split; [ring|]. split; apply rnd_half; auto.
Qed.

Lemma qint_div_ok g t x y z : wfq g x -> wfq g y -> qint_div g t x y = Ok z ->
  wfq g z /\ exists d, (d = qdiscr x \/ d = qdiscr y) /\ (q1 (qcoeffs y) = 0 -> d = qdiscr x) /\
    (q1 (qcoeffs x) = 0 -> q1 (qcoeffs y) <> 0 -> d = qdiscr y) /\ rounded_quotient d (qval x) (qval y) (qval z).
Proof.
  intros Wx Wy H. apply rle_qint_div in H. unfold qint_div, qint_is_rational in H.
  destruct (Z.eqb_spec (q1 (qcoeffs y)) 0) as [B|B].
  { apply (qint_div_int_ok g) in H; auto. destruct (qval_b0 y B) as [-> _]. destruct H.
    split; [auto|]. exists (qdiscr x). split; [auto|]. split; [auto|]. split; [tauto|auto]. }
  pose proof (wfq_irr g y Wy B) as Gy.
  destruct (Z.eqb_spec (q1 (qcoeffs x)) 0) as [B'|B'].
  - destruct x as [[a b] d0], y as [[a' b'] d]. cbn [qcoeffs qdiscr q0 q1] in *.
    unfold qco_div in H. destruct (div_core g d a b a' b' Gy ltac:(tauto)) as (q & r & E & R & _).
    rewrite E in H. cbn [bind] in H. rewrite (qco_eta q) in H. apply from_coeffs_good_ok in H; auto.
    destruct H as (V & _ & W & _). split; [auto|]. exists d. split; [auto|]. split; [tauto|]. split; [auto|]. rewrite V, <- qco_eta.
    subst b. rewrite qval_int in *. exact R.
  - stepH H. destruct a as [l r]. apply q_unwrap_ok in E; [|eapply wfq_irr; eauto..].
    destruct E as (V1 & C1 & V2 & C2 & D & G & Dd & B1 & B2). destruct l as [[a b] d], r as [[a' b'] d'].
    cbn [qcoeffs qdiscr q1] in *. subst d'.
    unfold qco_div in H. destruct (div_core g d a b a' b' G ltac:(tauto)) as (q & r & E & R & _).
    rewrite E in H. cbn [bind] in H. rewrite (qco_eta q) in H. apply from_coeffs_good_ok in H; auto.
    destruct H as (V & _ & W & _). split; [auto|]. exists d. split; [auto|]. split; [tauto|]. split; [tauto|]. rewrite V, <- qco_eta, <- V1, <- V2. exact R.
Qed.

(** % returns only for a left operand that carries a root *)
Lemma qint_rem_left g x y z : wfq g x -> wfq g y -> q1 (qcoeffs y) <> 0 -> qint_rem g BigI x y = Ok z ->
  good_root g (qdiscr x).
Proof.
  intros Wx Wy B H. destruct Wx as [[B' D]|G]; [exfalso|auto]. pose proof (wfq_irr g y Wy B) as (S & M & P).
  assert (Dy : qdiscr y <> 0) by (intros E; rewrite E in M; apply M; reflexivity).
  unfold qint_rem, qint_is_rational in H. apply Z.eqb_neq in B. rewrite B in H. stepH H.
  unfold qint_reduce_bin_op_unwrap in E. stepH E. unfold qint_reduce_bin_op in E0. rewrite D in E0.
  assert (Q : lift2 (quotT BigI) (Ok (qdiscr y)) (Ok 0) = Panic PDivZero) by reflexivity.
  destruct (cplx g) eqn:Cx.
  - destruct (xorb (0 <? 0) (qdiscr y <? 0)) eqn:X; [inversion E0; subst; discriminate|].
    autorewrite with bigi in E0. rewrite Q in E0.
    destruct (Z.ltb_spec (Z.abs (qdiscr y)) (Z.abs 0)); [lia|].
    destruct (Z.ltb_spec (Z.abs 0) (Z.abs (qdiscr y))); [discriminate|lia].
  - specialize (P eq_refl). stepH E0. stepH E0. rewrite Q in E0.
    destruct (Z.ltb_spec (qdiscr y) 0); [lia|].
    destruct (Z.ltb_spec 0 (qdiscr y)); [discriminate|lia].
Qed.

Lemma qint_rem_ok g t x y z : wfq g x -> wfq g y -> q1 (qcoeffs y) <> 0 -> qint_rem g t x y = Ok z ->
  wfq g z /\ good_root g (qdiscr x) /\
  exists l r q d u v, common g x y l r /\ d = qdiscr l /\ qint_reduce_bin_op_unwrap g BigI x y = Ok (l, r) /\
    rounded_quotient d (qval x) (qval y) (qval (QInt q d)) /\
    qco_div BigI (qcoeffs l) (qcoeffs r) d = Ok q /\
    qval z = (qval x - qval (QInt q d) * qval y)%C /\
    nrm (qdiscr z) (q0 (qcoeffs z)) (q1 (qcoeffs z)) * nrm d (q0 (qcoeffs r)) (q1 (qcoeffs r)) = nrm d u v /\
    nrm d (q0 (qcoeffs r)) (q1 (qcoeffs r)) <> 0 /\
    2 * Z.abs u <= Z.abs (nrm d (q0 (qcoeffs r)) (q1 (qcoeffs r))) /\
    2 * Z.abs v <= Z.abs (nrm d (q0 (qcoeffs r)) (q1 (qcoeffs r))).
Proof.
  intros Wx Wy B H. apply rle_qint_rem in H. pose proof (qint_rem_left g x y z Wx Wy B H) as Gx.
  unfold qint_rem, qint_is_rational in H. pose proof (wfq_irr g y Wy B) as Gy.
  pose proof B as B'. apply Z.eqb_neq in B'. rewrite B' in H. stepH H. destruct a as [l r].
  pose proof E as Eu. apply q_unwrap_ok in E; auto. pose proof E as Cm.
  destruct E as (V1 & C1 & V2 & C2 & D & G & Dd & B1 & B2). destruct l as [[a b] d], r as [[a' b'] d'].
  cbn [qcoeffs qdiscr q1] in *. subst d'.
  destruct (div_core g d a b a' b' G ltac:(tauto)) as (q & r & E & R & Vr & u & v & N1 & N2 & N3 & N4).
  rewrite E in H. cbn [bind] in H. rewrite (qco_eta r) in H. apply from_coeffs_good_ok in H; auto.
  destruct H as (V & _ & W & Z0 & Z1 & Zd). split; [auto|]. split; [auto|].
  exists (QInt (QCo a b) d), (QInt (QCo a' b') d), q, d, u, v. cbn [qcoeffs qdiscr q0 q1].
  split; [auto|]. split; [auto|]. split; [auto|]. rewrite V1, V2 in *. split; [auto|].
  split; [unfold qco_div; rewrite E; reflexivity|]. split; [rewrite V, <- qco_eta, Vr; reflexivity|].
  split; [|auto]. rewrite Z0, Z1. rewrite <- N1. f_equal.
  destruct (Z.eq_dec (q1 r) 0) as [->|X]; [rewrite !nrm_b0; auto|]. rewrite Zd by auto. auto.
Qed.

(** x = (x / y) * y + x % y *)
Lemma qint_div_rem_identity g t x y q z : wfq g x -> wfq g y -> q1 (qcoeffs y) <> 0 ->
  q1 (qcoeffs x) <> 0 \/ qdiscr x = qdiscr y ->
  qint_div g t x y = Ok q -> qint_rem g t x y = Ok z -> qval x = (qval q * qval y + qval z)%C.
Proof.
  intros Wx Wy B C Hq Hz. apply rle_qint_div in Hq. pose proof (wfq_irr g y Wy B) as Gy.
  pose proof (rle_qint_rem g t x y z Hz) as Hz'. apply qint_rem_ok in Hz; auto.
  destruct Hz as (_ & Gx & l & r & q' & d & u & v & Cm & Ed & Hu & _ & Eq & V & _).
  enough (X : qval q = qval (QInt q' d)) by (rewrite V, X; ring).
  unfold qint_div, qint_is_rational in Hq. pose proof B as B'. apply Z.eqb_neq in B'. rewrite B' in Hq.
  destruct Cm as (_ & _ & _ & _ & Dlr & G & _).
  destruct (Z.eqb_spec (q1 (qcoeffs x)) 0) as [Bx|Bx].
  - destruct C as [C|C]; [contradiction|].
    assert (Same : qint_reduce_bin_op_unwrap g BigI x y = Ok (x, y)).
    { unfold qint_reduce_bin_op_unwrap, qint_reduce_bin_op. rewrite C. bigi.
      rewrite !Z.ltb_irrefl, xorb_nilpotent.
      assert (Dy : qdiscr y <> 0) by (destruct Gy as (_ & M & _); intros E; rewrite E in M; apply M; reflexivity).
      apply Z.eqb_neq in Dy. rewrite Dy. unfold dassert. cbn [negb]. rewrite !andb_false_r. bigi.
      rewrite C, Z.eqb_refl. destruct (cplx g); reflexivity. }
    rewrite Same in Hu. inversion Hu; subst l r. rewrite Ed in Eq. rewrite C in Eq. rewrite Eq in Hq.
    cbn [bind] in Hq. rewrite (qco_eta q') in Hq. apply from_coeffs_good_ok in Hq; auto. destruct Hq as (-> & _).
    rewrite Ed, C, <- qco_eta. reflexivity.
  - rewrite Hu in Hq. cbn [bind] in Hq. rewrite <- Ed, Eq in Hq. cbn [bind] in Hq. rewrite (qco_eta q'), <- Dlr, <- Ed in Hq.
    apply from_coeffs_good_ok in Hq; [|rewrite Ed; auto]. destruct Hq as (-> & _). rewrite <- qco_eta. reflexivity.
Qed.

(** ** The norm-Euclidean roots *)
Lemma euclid_bound d u v n : In d (-3 :: -2 :: -1 :: 2 :: 3 :: 5 :: 13 :: nil) -> n <> 0 ->
  2 * Z.abs u <= Z.abs n -> 2 * Z.abs v <= Z.abs n -> Z.abs (nrm d u v) < n * n.
Proof.
  intros H Hn Hu Hv.
  assert (Q : 4 * (u * u) <= n * n /\ 4 * (v * v) <= n * n /\ 4 * Z.abs (u * v) <= n * n).
  { assert (E : n * n = Z.abs n * Z.abs n) by lia. rewrite E. rewrite Z.abs_mul.
    assert (u * u = Z.abs u * Z.abs u) as -> by lia. assert (v * v = Z.abs v * Z.abs v) as -> by lia. nia. }
  assert (Hnn : 0 < n * n) by nia.
  pose proof (Z.square_nonneg u) as Hu0. pose proof (Z.square_nonneg v) as Hv0.
  pose proof (Z.square_nonneg (2 * u + v)) as Hs.
  replace ((2 * u + v) * (2 * u + v)) with (4 * (u * u) + 4 * (u * v) + v * v) in Hs by ring.
  set (U := u * u) in *. set (V := v * v) in *. set (W := u * v) in *. set (NN := n * n) in *.
  assert (Hw : 4 * W <= NN /\ - NN <= 4 * W) by lia.
  cbn in H. destruct H as [<-|[<-|[<-|[<-|[<-|[<-|[<-|[]]]]]]]]; unfold nrm;
    match goal with |- context [md1 ?x] => let r := eval vm_compute in (md1 x) in change (md1 x) with r; cbn iota end;
    try match goal with |- context [Z.quot ?a 4] => let r := eval vm_compute in (Z.quot a 4) in change (Z.quot a 4) with r end;
    fold U; fold V; fold W; clearbody U V W NN; apply Z.abs_lt; lia.
Qed.

Lemma qint_rem_euclid g t x y z n m : In (qdiscr x) (-3 :: -2 :: -1 :: 2 :: 3 :: 5 :: 13 :: nil) -> qdiscr y = qdiscr x ->
  wfq g x -> wfq g y -> q1 (qcoeffs y) <> 0 -> qint_rem g t x y = Ok z ->
  qint_norm t z = Ok n -> qint_norm t y = Ok m -> Z.abs n < Z.abs m.
Proof.
  intros H D Wx Wy B Hz Hn Hm. pose proof (rle_qint_rem g t x y z Hz) as Hz'. apply qint_rem_ok in Hz; auto.
  destruct Hz as (Wz & Gx & l & r & q & d & u & v & Cm & Ed & Hu & _ & _ & _ & N & N0 & N1 & N2).
  apply (qint_norm_ok g) in Hn; auto. apply (qint_norm_ok g) in Hm; auto.
  destruct Cm as (_ & _ & V2 & C2 & Dlr & G & Dd & _). rewrite D in Dd.
  assert (Ed' : d = qdiscr x) by (destruct Dd; congruence).
  assert (Nr : nrm d (q0 (qcoeffs r)) (q1 (qcoeffs r)) = m).
  { apply ZtoC_inj. rewrite <- qval_qconj. rewrite Hm, <- (qval_qconj _ _ (qdiscr y)), <- qint_eta, <- V2, <- C2.
    rewrite Ed, Dlr, <- qint_eta. reflexivity. }
  rewrite Nr in *. rewrite <- Hn in N. subst d.
  rewrite Ed' in *. pose proof (euclid_bound _ u v m H N0 N1 N2) as Bd. rewrite <- N in Bd. rewrite Z.abs_mul in Bd.
  assert (m * m = Z.abs m * Z.abs m) by lia. assert (0 < Z.abs m) by lia. nia.
Qed.

(** ** Comparison *)
Lemma root_parts u v d u' v' d' : ~ square d -> ~ square d' ->
  (ZtoC u + ZtoC v * csqrt d)%C = (ZtoC u' + ZtoC v' * csqrt d')%C -> u = u' /\ v * v * d = v' * v' * d'.
Proof.
  intros S S' H.
  assert (E : (ZtoC ((u - u') * (u - u') + v * v * d - v' * v' * d') + ZtoC (2 * (u - u') * v) * csqrt d)%C = RtoC 0).
  { pose proof (csqrt_sq d) as Q. pose proof (csqrt_sq d') as Q'. set (w := csqrt d) in *. set (w' := csqrt d') in *.
    assert (K : (ZtoC v' * w')%C = (ZtoC u - ZtoC u' + ZtoC v * w)%C).
    { replace (ZtoC v' * w')%C with (ZtoC u' + ZtoC v' * w' - ZtoC u')%C by ring. rewrite <- H. ring. }
    autorewrite with ztoc. rewrite <- Q, <- Q'. change (ZtoC 2) with (RtoC 2). rewrite RtoC2.
    replace (ZtoC v' * ZtoC v' * (w' * w'))%C with ((ZtoC v' * w') * (ZtoC v' * w'))%C by ring. rewrite K. ring. }
  apply csqrt_indep in E; auto. destruct E as [E1 E2].
  assert (X : u - u' = 0 \/ v = 0) by nia. destruct X as [X|X]; [split; nia|]. subst v.
  assert (Y : (u - u') * (u - u') = v' * v' * d') by lia.
  destruct (Z.eq_dec v' 0) as [->|V]; [split; nia|]. exfalso. apply S'. apply (square_quotient (u - u') v'); auto.
Qed.

Definition dbl (d a b : Z) : Z * Z := if md1 d then (2 * a + b, b) else (2 * a, 2 * b).
Lemma qval_dbl a b d : (RtoC 2 * qval (QInt (QCo a b) d))%C = (ZtoC (fst (dbl d a b)) + ZtoC (snd (dbl d a b)) * csqrt d)%C.
Proof.
  unfold qval, dbl. cbn [qcoeffs qdiscr q0 q1]. destruct (md1 d) eqn:H; cbn [fst snd]; autorewrite with ztoc; change (ZtoC 2) with (RtoC 2).
  - rewrite (csqrt_omega1 d H), RtoC2. ring.
  - destruct (omega_md0 d H) as [-> _]. ring.
Qed.
Lemma qconj_dbl a b d : (RtoC 2 * qconj (QInt (QCo a b) d))%C = (ZtoC (fst (dbl d a b)) - ZtoC (snd (dbl d a b)) * csqrt d)%C.
Proof.
  unfold qconj, dbl. cbn [qcoeffs qdiscr q0 q1]. rewrite omega_conj_eq. destruct (md1 d) eqn:H; cbn [fst snd]; autorewrite with ztoc; change (ZtoC 2) with (RtoC 2).
  - rewrite (csqrt_omega1 d H), RtoC2. ring.
  - destruct (omega_md0 d H) as [-> _]. ring.
Qed.
Lemma C2_inj x y : (RtoC 2 * x = RtoC 2 * y)%C -> x = y.
Proof.
  intros H. replace x with (/ RtoC 2 * (RtoC 2 * x))%C by (field; apply RtoC2_neq0). rewrite H. field. apply RtoC2_neq0.
Qed.

Lemma parts_doubled_good d a b : d mod 4 <> 0 -> qint_parts_doubled BigI (QInt (QCo a b) d) = Ok (dbl d a b).
Proof.
  intros M. unfold qint_parts_doubled, dbl. cbn [qcoeffs qdiscr]. rewrite mod4d2_good by auto. bigi.
  destruct (md1 d); bigi; do 2 f_equal; lia.
Qed.

Theorem qint_eq_spec g l r : wfq g l -> wfq g r ->
  exists b, qint_eq BigI l r = Ok b /\
    ((qdiscr l = qdiscr r \/ (qdiscr l <> 0 /\ qdiscr r <> 0)) ->
       (b = true <-> qval l = qval r \/ (qdiscr l <> qdiscr r /\ qval l = qconj r))) /\
    (qdiscr l <> qdiscr r -> (qdiscr l = 0 \/ qdiscr r = 0) -> b = false).
Proof.
  intros Wl Wr. unfold qint_eq. destruct l as [[a b] d], r as [[a' b'] d']. cbn [qcoeffs qdiscr].
  destruct (Z.eqb_spec d d') as [D|D].
  - subst d'. eexists. split; [reflexivity|]. split; [|tauto]. intros _. unfold qco_eqb. cbn [q0 q1].
    rewrite andb_true_iff, !Z.eqb_eq. split.
    + intros [-> ->]. auto.
    + intros [V|[X _]]; [|tauto].
      destruct Wl as [[B0 D0]|(S & _)]; cbn [qcoeffs qdiscr q1] in *.
      * subst. destruct Wr as [[B1 _]|(S & _)]; cbn [qcoeffs qdiscr q1] in *; [|destruct S; exists 0; reflexivity].
        subst. rewrite !qval_int in V. apply ZtoC_inj in V. auto.
      * apply qval_inj in V; auto.
  - destruct ((d =? 0) || (d' =? 0)) eqn:Zr.
    + eexists. split; [reflexivity|]. split; [|auto]. apply orb_true_iff in Zr. rewrite !Z.eqb_eq in Zr. tauto.
    + apply orb_false_iff in Zr. rewrite !Z.eqb_neq in Zr.
      assert (Gl : good_root g d) by (destruct Wl as [[_ X]|G]; [cbn in X; tauto|exact G]).
      assert (Gr : good_root g d') by (destruct Wr as [[_ X]|G]; [cbn in X; tauto|exact G]).
      destruct Gl as (S & M & _). destruct Gr as (S' & M' & _).
      rewrite !parts_doubled_good by auto. cbn [bind].
      destruct (dbl d a b) as [u v] eqn:E1. destruct (dbl d' a' b') as [u' v'] eqn:E2. bigi.
      pose proof (qval_dbl a b d) as V1. rewrite E1 in V1. cbn [fst snd] in V1.
      pose proof (qval_dbl a' b' d') as V2. rewrite E2 in V2. cbn [fst snd] in V2.
      pose proof (qconj_dbl a' b' d') as V3. rewrite E2 in V3. cbn [fst snd] in V3.
      assert (Iff : (u = u' /\ v * v * d = v' * v' * d') <->
        (qval (QInt (QCo a b) d) = qval (QInt (QCo a' b') d') \/ (d <> d' /\ qval (QInt (QCo a b) d) = qconj (QInt (QCo a' b') d')))).
      { split.
        - intros [-> Q].
          assert (Sq : ((ZtoC v * csqrt d - ZtoC v' * csqrt d') * (ZtoC v * csqrt d + ZtoC v' * csqrt d'))%C = RtoC 0).
          { replace ((ZtoC v * csqrt d - ZtoC v' * csqrt d') * (ZtoC v * csqrt d + ZtoC v' * csqrt d'))%C
              with (ZtoC v * ZtoC v * (csqrt d * csqrt d) - ZtoC v' * ZtoC v' * (csqrt d' * csqrt d'))%C by ring.
            rewrite !csqrt_sq, <- !ZtoC_mul, <- ZtoC_sub, Q, Z.sub_diag. reflexivity. }
          destruct (Ceq_dec0 (ZtoC v * csqrt d - ZtoC v' * csqrt d')%C) as [Z0|Z0].
          + left. apply C2_inj. rewrite V1, V2. f_equal.
            replace (ZtoC v * csqrt d)%C with ((ZtoC v * csqrt d - ZtoC v' * csqrt d') + ZtoC v' * csqrt d')%C by ring.
            rewrite Z0. ring.
          + right. split; [auto|]. apply C2_inj. rewrite V1, V3.
            assert (Z1 : (ZtoC v * csqrt d + ZtoC v' * csqrt d')%C = RtoC 0).
            { destruct (Ceq_dec0 (ZtoC v * csqrt d + ZtoC v' * csqrt d')%C) as [Z1|Z1]; auto.
              exfalso. apply (Cmult_neq_0 _ _ Z0 Z1). auto. }
            replace (ZtoC v * csqrt d)%C with ((ZtoC v * csqrt d + ZtoC v' * csqrt d') - ZtoC v' * csqrt d')%C by ring.
            rewrite Z1. ring.
        - intros [V|[_ V]]; apply (f_equal (fun z => (RtoC 2 * z)%C)) in V; rewrite V1 in V.
          + rewrite V2 in V. apply root_parts in V; auto.
          + rewrite V3 in V. replace (ZtoC u' - ZtoC v' * csqrt d')%C with (ZtoC u' + ZtoC (- v') * csqrt d')%C in V by (rewrite ZtoC_opp; ring).
            apply root_parts in V; auto. destruct V; split; auto. nia. }
      destruct (Z.eqb_spec u u') as [U|U].
      * eexists. split; [reflexivity|]. split; [|tauto]. intros _. rewrite <- Iff, Z.eqb_eq. tauto.
      * eexists. split; [reflexivity|]. split; [|tauto]. intros _. rewrite <- Iff. split; [discriminate|tauto].
Qed.
