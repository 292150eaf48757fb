(** * IntMore: reachable quadratic integers, totality, predicates, Gaussian integers. *)

From Coq Require Import ZArith Znumtheory Reals Lia Lra Bool List.
From Coquelicot Require Import Coquelicot.
From Verif Require Import Base Ext ModelSurd ModelInt Spec SpecInt Transfer NumFacts SurdCore RatioFacts SurdArith SurdTotal SurdOrd SurdRound IntCore IntArith IntOps IntDiv.
Open Scope Z_scope.

Lemma qint_rem_wf g t x y z : wfq g x -> wfq g y -> qint_rem g t x y = Ok z -> wfq g z.
Proof.
  intros Wx Wy H. destruct (Z.eq_dec (q1 (qcoeffs y)) 0) as [B|B].
  - unfold qint_rem, qint_is_rational in H. rewrite B in H. cbn [Z.eqb] in H. apply (qint_div_int_ok g) in H; tauto.
  - apply qint_rem_ok in H; tauto.
Qed.

Theorem qreach_wfq g t x : qreach g t x -> wfq g x.
Proof.
  induction 1.
  - apply qint_new_ok in H. tauto.
  - destruct co. apply from_coeffs_ok in H. tauto.
  - left. auto.
  - left. auto.
  - apply (qint_conj_ok g) in H0; tauto.
  - apply (qint_neg_ok g) in H0; tauto.
  - apply (qint_add_int_ok g) in H0; tauto.
  - apply (qint_sub_int_ok g) in H0; tauto.
  - apply (qint_mul_int_ok g) in H0; tauto.
  - apply (qint_div_int_ok g) in H0; tauto.
  - apply (qint_rem_int_ok g) in H0; tauto.
  - apply qint_add_ok in H1; tauto.
  - apply qint_sub_ok in H1; tauto.
  - apply qint_mul_ok in H1; tauto.
  - apply qint_div_ok in H1; tauto.
  - apply qint_rem_wf in H1; tauto.
Qed.

(** ** Constructors: square roots and return conditions *)
Lemma from_coeffs_returns g a b d :
  returns (qint_from_coeffs g BigI (QCo a b) d) <-> d mod 4 <> 0 /\ (cplx g = false -> 0 <= d).
Proof.
  split.
  - intros [x H]. apply from_coeffs_ok in H. tauto.
  - intros [M P]. rewrite qint_from_coeffs_big.
    assert (negb (cplx g) && (d <? 0) = false) as ->.
    { destruct (cplx g); [reflexivity|]. specialize (P eq_refl). cbn. apply Z.ltb_ge. auto. }
    apply Z.eqb_neq in M. rewrite M. destruct (_ =? d); [eexists; reflexivity|]. destruct (b =? 0); eexists; reflexivity.
Qed.

Lemma square_mod4 d : square d -> d mod 4 <> 0 -> d mod 4 = 1.
Proof.
  intros [k ->] M. destruct (Z.Even_or_Odd k) as [[s ->]|[s ->]].
  - exfalso. apply M. replace (2 * s * (2 * s)) with (s * s * 4) by ring. apply Z.mod_mul. lia.
  - replace ((2 * s + 1) * (2 * s + 1)) with (1 + (s * s + s) * 4) by ring. rewrite Z.mod_add by lia. reflexivity.
Qed.

Lemma square_root d : square d -> exists m, 0 <= m /\ d = m * m.
Proof. intros [k ->]. exists (Z.abs k). split; lia. Qed.

Lemma from_coeffs_exact_iff g t a b d x : qint_from_coeffs g t (QCo a b) d = Ok x ->
  (qval x = (ZtoC a + ZtoC b * omega d)%C <-> (square d -> d = 1 \/ b = 0)).
Proof.
  intros H. apply from_coeffs_ok in H. destruct H as (M & _ & _ & V & V').
  destruct (Z.eq_dec (Z.sqrt (Z.abs d) * Z.sqrt (Z.abs d)) d) as [E|E].
  - assert (S : square d) by (eexists; rewrite <- E at 1; reflexivity). rewrite V' by auto.
    pose proof (square_mod4 d S M) as M1. pose proof (csqrt_omega1 d) as Q. unfold md1 in Q. rewrite M1 in Q. specialize (Q eq_refl).
    destruct (square_root d S) as (m & Hm & Em). rewrite Em in *. rewrite csqrt_square in * by auto.
    set (w := omega (m * m)) in *. clearbody w. split.
    + intros X _. destruct (Z.eq_dec b 0) as [B|B]; [auto|left].
      assert (X2 : (ZtoC b * ZtoC m)%C = (ZtoC b * w)%C).
      { replace (ZtoC b * ZtoC m)%C with (ZtoC a + ZtoC b * ZtoC m - ZtoC a)%C by ring. rewrite X. ring. }
      assert (Hw : ZtoC m = w).
      { apply ZtoC_neq0 in B. replace (ZtoC m) with (/ ZtoC b * (ZtoC b * ZtoC m))%C by (field; auto). rewrite X2. field. auto. }
      rewrite <- Hw in Q.
      assert (Q' : ZtoC m = ZtoC (m + m - 1)) by (rewrite ZtoC_sub, ZtoC_add; exact Q).
      apply ZtoC_inj in Q'. assert (m = 1) by lia. subst. reflexivity.
    + intros X. destruct (X S) as [D|D].
      * assert (m = 1) by nia. subst m. cbn [Z.mul Pos.mul] in *. change (ZtoC 1) with (RtoC 1) in *.
        assert (w = RtoC 1) as ->.
        { apply C2_inj. rewrite RtoC2. replace ((RtoC 1 + RtoC 1) * w)%C with (w + w - RtoC 1 + RtoC 1)%C by ring. rewrite <- Q. ring. }
        reflexivity.
      * subst. rewrite ZtoC_0. ring.
  - assert (S : ~ square d) by (intros S; apply sqrt_abs_square in S; apply Z.eqb_eq in S; auto).
    rewrite V by auto. tauto.
Qed.

Lemma qint_new_returns g a b r :
  returns (qint_new g BigI a b r) <-> 0 < r \/ (r < 0 /\ r mod 4 <> 0 /\ cplx g = true).
Proof.
  destruct (qint_new_big g a b r) as [(R & k & r' & K & E & R' & M & Q)|(R & Q)]; rewrite Q.
  - split; [auto|]. intros _. destruct (r' mod 4 =? 1); apply from_coeffs_returns; split; auto; lia.
  - split.
    + intros [x H]. destruct (Z.eqb_spec (r mod 4) 0) as [M|M]; [discriminate|].
      right. assert (r <> 0) by (intros ->; apply M; reflexivity). split; [lia|]. split; [auto|].
      destruct (cplx g) eqn:Cx; [auto|].
      assert (0 <= r) by (destruct (r mod 4 =? 1); apply from_coeffs_ok in H; tauto). lia.
    + intros [X|(X & M & Cx)]; [lia|]. apply Z.eqb_neq in M as M'. rewrite M'.
      destruct (r mod 4 =? 1); apply from_coeffs_returns; split; auto; congruence.
Qed.

(** new over a square root: with r = (k m)^2, k the power of two found by the loop and m odd,
    the number built is a + b (2 k m - k) instead of a + b k m *)
Lemma qint_new_square g t a b r x : 0 < r -> square r -> qint_new g t a b r = Ok x ->
  exists k m, 0 < k /\ 0 < m /\ Z.odd m = true /\ r = (k * m) * (k * m) /\ qval x = ZtoC (a + b * (2 * (k * m) - k)).
Proof.
  intros R S H. apply rle_qint_new in H.
  destruct (qint_new_big g a b r) as [(_ & k & r' & K & E & R' & M & Q)|(X & _)]; [|lia]. rewrite Q in H.
  rewrite E, square_k in S by auto. pose proof (square_mod4 r' S M) as M1. rewrite M1 in H. cbn [Z.eqb Pos.eqb] in H.
  apply from_coeffs_ok in H. destruct H as (_ & _ & _ & _ & V). specialize (V S).
  destruct (square_root r' S) as (m & Hm & Em). exists k, m. rewrite Em in *. rewrite csqrt_square in V by auto.
  split; [auto|]. split; [nia|]. split.
  { destruct (Z.odd m) eqn:O; [reflexivity|]. exfalso. apply M. rewrite <- Z.negb_even in O. apply negb_false_iff, Z.even_spec in O.
    destruct O as [s ->]. replace (2 * s * (2 * s)) with (s * s * 4) by ring. apply Z.mod_mul. lia. }
  split; [rewrite E; ring|]. rewrite V, <- ZtoC_mul, <- ZtoC_add. f_equal. ring.
Qed.

(** ** Totality over BigInt *)
Lemma q_int_total g x k : wfq g x -> returns (qint_add_int BigI x k) /\ returns (qint_sub_int BigI x k) /\
  returns (qint_mul_int BigI x k) /\ returns (qint_neg BigI x) /\ returns (qint_conj BigI x) /\ returns (qint_norm BigI x).
Proof.
  intros W. destruct x as [[a b] d].
  repeat match goal with |- _ /\ _ => split end.
  - eexists. unfold qint_add_int, qco_add_int. cbn [qcoeffs qdiscr q0 q1]. bigi. reflexivity.
  - eexists. unfold qint_sub_int, qco_sub_int. cbn [qcoeffs qdiscr q0 q1]. bigi. reflexivity.
  - unfold qint_mul_int, qco_mul_int. cbn [qcoeffs qdiscr q0 q1]. destruct (k =? 0); [eexists; reflexivity|]. bigi. eexists; reflexivity.
  - eexists. unfold qint_neg. cbn [qcoeffs qdiscr q0 q1]. bigi. reflexivity.
  - destruct W as [[B D]|(S & M & P)]; cbn [qcoeffs qdiscr q0 q1] in *; unfold qint_conj; cbn [qcoeffs qdiscr].
    + subst. eexists. reflexivity.
    + destruct (qco_conj_good d S M a b) as (z & -> & _). eexists; reflexivity.
  - destruct W as [[B D]|(S & M & P)]; cbn [qcoeffs qdiscr q0 q1] in *; unfold qint_norm; cbn [qcoeffs qdiscr].
    + subst. unfold qco_norm. cbn [Z.eqb q0]. bigi. eexists. reflexivity.
    + rewrite qco_norm_good by auto. eexists; reflexivity.
Qed.
Lemma q_div_int_total x k : k <> 0 -> returns (qint_div_int BigI x k) /\ returns (qint_rem_int BigI x k).
Proof.
  intros K. unfold qint_div_int, qint_rem_int, qco_div_int, qco_rem_int. rewrite !div_rem_roundB by auto. cbn [bind].
  split; eexists; reflexivity.
Qed.

Ltac fct := match goal with |- returns (qint_from_coeffs ?g BigI ?q ?d) =>
    rewrite (qco_eta q); apply from_coeffs_good_total end.
Lemma q_ops_total g x y : wfq g x -> wfq g y -> qnested x y ->
  returns (qint_add g BigI x y) /\ returns (qint_sub g BigI x y) /\ returns (qint_mul g BigI x y).
Proof.
  intros Wx Wy N. unfold qint_add, qint_sub, qint_mul, qint_is_rational.
  destruct (Z.eqb_spec (q1 (qcoeffs y)) 0) as [B|B].
  { pose proof (q_int_total g x (q0 (qcoeffs y)) Wx). tauto. }
  destruct (Z.eqb_spec (q1 (qcoeffs x)) 0) as [B'|B'].
  { pose proof (q_int_total g y (q0 (qcoeffs x)) Wy) as T. split; [tauto|]. split; [|tauto].
    destruct T as (_ & [z Hz] & _). rewrite Hz. cbn [bind]. apply (qint_sub_int_ok g) in Hz; auto.
    pose proof (q_int_total g z 0). tauto. }
  destruct (q_unwrap_total g x y (wfq_irr g x Wx B') (wfq_irr g y Wy B) N B' B) as (l & r & -> & C). cbn [bind].
  destruct C as (_ & _ & _ & _ & D & G & _). rewrite <- D.
  destruct l as [[a b] d], r as [[a' b'] d']. cbn [qcoeffs qdiscr q0 q1] in *. unfold qco_add, qco_sub. cbn [q0 q1]. bigi.
  split; [fct; auto|]. split; [fct; auto|]. pose proof G as (S & M & _). rewrite qco_mul_good by auto. cbn [bind]. fct; auto.
Qed.

Lemma q_div_total g x y : wfq g x -> wfq g y -> qnested x y -> qval y <> RtoC 0 -> returns (qint_div g BigI x y).
Proof.
  intros Wx Wy N NZ. unfold qint_div, qint_is_rational.
  destruct (Z.eqb_spec (q1 (qcoeffs y)) 0) as [B|B].
  { apply q_div_int_total. destruct (qval_b0 y B) as [E _]. intros X. apply NZ. rewrite E, X, ZtoC_0. reflexivity. }
  pose proof (wfq_irr g y Wy B) as Gy.
  destruct (Z.eqb_spec (q1 (qcoeffs x)) 0) as [B'|B'].
  { destruct (div_core g (qdiscr y) (q0 (qcoeffs x)) (q1 (qcoeffs x)) (q0 (qcoeffs y)) (q1 (qcoeffs y)) Gy) as (q & r & E & _); [tauto|].
    rewrite <- !qco_eta in E. unfold qco_div. rewrite E. cbn [bind]. fct; auto. }
  destruct (q_unwrap_total g x y (wfq_irr g x Wx B') Gy N B' B) as (l & r & -> & C). cbn [bind].
  destruct C as (_ & _ & _ & _ & D & G & _ & _ & B2).
  destruct (div_core g (qdiscr l) (q0 (qcoeffs l)) (q1 (qcoeffs l)) (q0 (qcoeffs r)) (q1 (qcoeffs r)) G) as (q & r' & E & _); [tauto|].
  rewrite <- !qco_eta in E. unfold qco_div. rewrite E. cbn [bind]. rewrite <- D. fct; auto.
Qed.

(** the remainder returns when both roots are usable; the left number may be an integer stored over the same root *)
Lemma q_rem_total g x y : wfq g x -> wfq g y -> q1 (qcoeffs x) <> 0 -> q1 (qcoeffs y) <> 0 -> qnested x y ->
  returns (qint_rem g BigI x y).
Proof.
  intros Wx Wy B' B N. unfold qint_rem, qint_is_rational. apply Z.eqb_neq in B as Bb. rewrite Bb.
  destruct (q_unwrap_total g x y (wfq_irr g x Wx B') (wfq_irr g y Wy B) N B' B) as (l & r & -> & C). cbn [bind].
  destruct C as (_ & _ & _ & _ & D & G & _ & _ & B2).
  destruct (div_core g (qdiscr l) (q0 (qcoeffs l)) (q1 (qcoeffs l)) (q0 (qcoeffs r)) (q1 (qcoeffs r)) G) as (q & r' & E & _); [tauto|].
  rewrite <- !qco_eta in E. rewrite E. cbn [bind]. rewrite <- D. fct; auto.
Qed.
(** an integer with root 0 on the left of a remainder by an irrational number always panics *)
Lemma q_rem_plain_left g t x y : wfq g y -> qdiscr x = 0 -> q1 (qcoeffs x) = 0 -> q1 (qcoeffs y) <> 0 -> ~ returns (qint_rem g t x y).
Proof.
  intros Wy D B' B [z H]. apply rle_qint_rem in H. apply qint_rem_left in H; auto.
  - rewrite D in H. destruct H as (S & _). apply S. exists 0. reflexivity.
  - left. auto.
Qed.

(** ** Predicates *)
Lemma qint_is_rational_spec g x : wfq g x -> (qint_is_rational x = true <-> rational_num (qval x)).
Proof.
  intros W. unfold qint_is_rational. rewrite Z.eqb_eq. split.
  - intros B. destruct (qval_b0 x B) as [-> _]. exists (q0 (qcoeffs x)), 1. split; [lia|].
    change (ZtoC 1) with (RtoC 1). field. apply (ZtoC_neq0 1). lia.
  - intros Ra. destruct W as [[B D]|(S & M & _)]; [auto|]. rewrite (qint_eta x) in Ra. apply qval_rational in Ra; auto.
Qed.
Lemma qint_is_zero_spec g x : wfq g x -> (qint_is_zero x = true <-> qval x = RtoC 0).
Proof.
  intros W. unfold qint_is_zero. rewrite andb_true_iff, !Z.eqb_eq. split.
  - intros [A B]. destruct (qval_b0 x B) as [-> _]. rewrite A. apply ZtoC_0.
  - intros V. destruct W as [[B D]|(S & M & _)].
    + destruct (qval_b0 x B) as [E _]. rewrite E, <- ZtoC_0 in V. apply ZtoC_inj in V. auto.
    + rewrite (qint_eta x) in V. rewrite <- ZtoC_0, <- (qval_int 0 (qdiscr x)) in V. apply qval_inj in V; auto.
Qed.
(** what is_pure answers *)
Lemma qint_is_pure_spec g t x b : wfq g x -> qint_is_pure t x = Ok b ->
  good_root g (qdiscr x) /\
  (qdiscr x mod 4 = 1 -> (b = true <-> (qval x + qconj x)%C = RtoC 0)) /\
  (qdiscr x mod 4 <> 1 -> (b = true <-> rational_num (qval x))).
Proof.
  intros W H. pose proof (qint_is_rational_spec g x W) as Ra. apply rle_qint_is_pure in H. unfold qint_is_pure in H.
  destruct W as [[B D]|G].
  { exfalso. rewrite D in H. cbn in H. discriminate. }
  split; [auto|]. pose proof G as (S & M & _). rewrite mod4d2_good in H by auto. cbn [bind] in H.
  destruct x as [[a b'] d]. cbn [qcoeffs qdiscr q0 q1] in *. unfold md1 in H.
  split; intros Md; [apply Z.eqb_eq in Md as Md' | apply Z.eqb_neq in Md as Md']; rewrite Md' in H.
  - autorewrite with bigi in H. inversion H; subst. rewrite Z.eqb_eq. unfold qval, qconj. cbn [qcoeffs qdiscr q0 q1].
    rewrite omega_conj_eq. unfold md1. rewrite Md'.
    replace (ZtoC a + ZtoC b' * omega d + (ZtoC a + ZtoC b' * (RtoC 1 - omega d)))%C with (ZtoC (a + a + b')) by (autorewrite with ztoc; ring).
    split; [intros ->; apply ZtoC_0|]. intros X. rewrite <- ZtoC_0 in X. apply ZtoC_inj in X. auto.
  - inversion H; subst. exact Ra.
Qed.

(** ** Gaussian integers *)
Lemma gval_qval x : gval x = qval (QInt x (-1)).
Proof.
  unfold gval, qval, omega. cbn [qcoeffs qdiscr]. change (-1 mod 4 =? 1) with false. cbn iota.
  rewrite csqrt_neg by lia. change (- -1) with 1. rewrite sqrt_1. unfold ZtoC, RtoC, Cplus, Cmult. cbn [fst snd]. f_equal; ring.
Qed.
Lemma good_m1 : good_root (Cfg true true) (-1).
Proof.
  split; [intros [k Hk]; nia|]. split; [intros X; vm_compute in X; discriminate|]. intros X; discriminate.
Qed.
Lemma gauss_norm_m1 t x n : gauss_norm t x = Ok n -> n = nrm (-1) (q0 x) (q1 x).
Proof.
  intros H. apply rle_gauss_norm in H. unfold gauss_norm in H. autorewrite with bigi in H. inversion H; subst.
  unfold nrm. change (md1 (-1)) with false. cbn iota. ring.
Qed.
Lemma gval_norm x : nrm (-1) (q0 x) (q1 x) = q0 x * q0 x + q1 x * q1 x.
Proof. unfold nrm. change (md1 (-1)) with false. cbn iota. ring. Qed.

Lemma gauss_add_ok t x y z : gauss_add t x y = Ok z -> gval z = (gval x + gval y)%C.
Proof.
  intros H. apply rle_gauss_add in H. unfold gauss_add, qco_add in H. autorewrite with bigi in H. inversion H; subst.
  unfold gval, Cplus. cbn [fst snd q0 q1]. rewrite !plus_IZR. reflexivity.
Qed.
Lemma gauss_sub_ok t x y z : gauss_sub t x y = Ok z -> gval z = (gval x - gval y)%C.
Proof.
  intros H. apply rle_gauss_sub in H. unfold gauss_sub, qco_sub in H. autorewrite with bigi in H. inversion H; subst.
  unfold gval, Cminus, Cplus, Copp. cbn [fst snd q0 q1]. rewrite !minus_IZR. reflexivity.
Qed.
Lemma gauss_conj_ok t x z : gauss_conj t x = Ok z -> gval z = Cconj (gval x).
Proof.
  intros H. apply rle_gauss_conj in H. unfold gauss_conj in H. autorewrite with bigi in H. inversion H; subst.
  unfold gval, Cconj. cbn [fst snd q0 q1]. rewrite opp_IZR. reflexivity.
Qed.
Lemma gauss_norm_ok t x n : gauss_norm t x = Ok n -> (gval x * Cconj (gval x))%C = ZtoC n.
Proof.
  intros H. apply rle_gauss_norm in H. unfold gauss_norm in H. autorewrite with bigi in H. inversion H; subst.
  unfold gval, Cconj, Cmult, ZtoC, RtoC. cbn [fst snd q0 q1]. rewrite plus_IZR, !mult_IZR. f_equal; ring.
Qed.
Lemma m1_hyp : ~ square (-1) /\ -1 mod 4 <> 0.
Proof. destruct good_m1 as (S & M & _). auto. Qed.
Lemma gauss_mul_ok t x y z : gauss_mul t x y = Ok z -> gval z = (gval x * gval y)%C.
Proof.
  intros H. apply rle_gauss_mul in H. unfold gauss_mul in H. autorewrite with bigi in H. destruct m1_hyp as [S M].
  rewrite (qco_eta x), (qco_eta y), qco_mul_good in H by auto. inversion H; subst. rewrite !gval_qval.
  rewrite cmul_val. rewrite <- !qco_eta. reflexivity.
Qed.
Lemma gauss_div_rem t x y q r : gauss_div t x y = Ok q -> gauss_rem t x y = Ok r ->
  gval x = (gval q * gval y + gval r)%C.
Proof.
  intros Hq Hr. apply rle_gauss_div in Hq. apply rle_gauss_rem in Hr. unfold gauss_div, gauss_rem, qco_div in *.
  autorewrite with bigi in Hq. autorewrite with bigi in Hr. change (- (1)) with (-1) in *. stepH Hq. destruct a as [q1_ r1_]. cbn [bind] in Hr. inversion Hr; inversion Hq; subst.
  rewrite (qco_eta x), (qco_eta y) in E. destruct (Z.eq_dec (q0 y) 0) as [Y0|Y0]; [destruct (Z.eq_dec (q1 y) 0) as [Y1|Y1]|].
  - exfalso. rewrite Y0, Y1 in E. unfold qco_div_rem in E. cbn [q0 q1] in E. destruct m1_hyp as [S M].
    rewrite mod4d2_good in E by auto. cbn [bind] in E. change (md1 (-1)) with false in E. cbn iota in E. autorewrite with bigi in E.
    rewrite qco_norm_good in E by auto. cbn [bind] in E. rewrite nrm_b0 in E. cbn [Z.mul] in E. stepH E.
    apply div_rem_round_zero in E0. auto.
  - destruct (div_core _ _ (q0 x) (q1 x) (q0 y) (q1 y) good_m1) as (q' & r' & E' & _ & V & _); [tauto|].
    rewrite E in E'. inversion E'; subst. rewrite !gval_qval, V. rewrite <- !qco_eta. ring.
  - destruct (div_core _ _ (q0 x) (q1 x) (q0 y) (q1 y) good_m1) as (q' & r' & E' & _ & V & _); [tauto|].
    rewrite E in E'. inversion E'; subst. rewrite !gval_qval, V. rewrite <- !qco_eta. ring.
Qed.
Lemma gauss_dr_total x y : gval y <> RtoC 0 ->
  exists q r, gauss_div BigI x y = Ok q /\ gauss_rem BigI x y = Ok r /\
    rounded_quotient (-1) (gval x) (gval y) (gval q) /\ gval x = (gval q * gval y + gval r)%C /\
    2 * (q0 r * q0 r + q1 r * q1 r) <= q0 y * q0 y + q1 y * q1 y.
Proof.
  intros NZ. assert (NZ' : ~ (q0 y = 0 /\ q1 y = 0)).
  { intros [A B]. apply NZ. unfold gval. rewrite A, B. reflexivity. }
  destruct (div_core _ _ (q0 x) (q1 x) (q0 y) (q1 y) good_m1 NZ') as (q & r & E & RQ & V & u & v & N & N0 & U & W).
  exists q, r. unfold gauss_div, gauss_rem, qco_div. bigi. change (- (1)) with (-1). rewrite <- !qco_eta in *. rewrite E. cbn [bind].
  split; [reflexivity|]. split; [reflexivity|]. rewrite !gval_qval. split; [auto|]. split; [rewrite V; ring|].
  rewrite !gval_norm in *. set (n := q0 y * q0 y + q1 y * q1 y) in *. set (m := q0 r * q0 r + q1 r * q1 r) in *.
  assert (0 < n) by nia. unfold nrm in N. change (md1 (-1)) with false in N. cbn iota in N.
  clearbody n m. assert (4 * (u * u) <= n * n) by (assert (u * u = Z.abs u * Z.abs u) as -> by lia; nia).
  assert (4 * (v * v) <= n * n) by (assert (v * v = Z.abs v * Z.abs v) as -> by lia; nia). nia.
Qed.
Lemma gauss_zero_div t x y : gval y = RtoC 0 -> ~ returns (gauss_div t x y) /\ ~ returns (gauss_rem t x y).
Proof.
  intros Y. assert (Y0 : q0 y = 0 /\ q1 y = 0).
  { split; apply eq_IZR; [apply (f_equal fst) in Y|apply (f_equal snd) in Y]; exact Y. }
  destruct Y0 as [Y0 Y1].
  assert (K : forall z, qco_div_rem BigI x y (-1) = Ok z -> False).
  { intros z E. rewrite (qco_eta x), (qco_eta y), Y0, Y1 in E. unfold qco_div_rem in E. cbn [q0 q1] in E. destruct m1_hyp as [S M].
    rewrite mod4d2_good in E by auto. cbn [bind] in E. change (md1 (-1)) with false in E. cbn iota in E. autorewrite with bigi in E.
    rewrite qco_norm_good in E by auto. cbn [bind] in E. rewrite nrm_b0 in E. cbn [Z.mul] in E. stepH E.
    apply div_rem_round_zero in E0. auto. }
  split; intros [z H]; [apply rle_gauss_div in H|apply rle_gauss_rem in H]; unfold gauss_div, gauss_rem, qco_div in H;
    autorewrite with bigi in H; change (- (1)) with (-1) in H; stepH H; eapply K; eauto.
Qed.
Lemma gauss_div_ok t x y q : gauss_div t x y = Ok q -> rounded_quotient (-1) (gval x) (gval y) (gval q).
Proof.
  intros H. destruct (Ceq_dec0 (gval y)) as [Y|Y].
  - destruct (gauss_zero_div t x y Y) as [X _]. destruct X. eexists; eauto.
  - destruct (gauss_dr_total x y Y) as (q' & r & E & _ & R & _). apply rle_gauss_div in H. rewrite H in E. inversion E; subst. auto.
Qed.
Lemma gauss_rem_ok t x y r n m : gauss_rem t x y = Ok r -> gauss_norm t r = Ok n -> gauss_norm t y = Ok m -> 2 * n <= m.
Proof.
  intros H Hn Hm. destruct (Ceq_dec0 (gval y)) as [Y|Y].
  - destruct (gauss_zero_div t x y Y) as [_ X]. destruct X. eexists; eauto.
  - destruct (gauss_dr_total x y Y) as (q' & r' & _ & E & _ & _ & B). apply rle_gauss_rem in H. rewrite H in E. inversion E; subst.
    apply gauss_norm_m1 in Hn, Hm. rewrite gval_norm in *. lia.
Qed.
Lemma gauss_total x y : returns (gauss_add BigI x y) /\ returns (gauss_sub BigI x y) /\ returns (gauss_mul BigI x y) /\
  returns (gauss_conj BigI x) /\ returns (gauss_norm BigI x).
Proof.
  destruct m1_hyp as [S M].
  unfold gauss_add, gauss_sub, gauss_mul, gauss_conj, gauss_norm, qco_add, qco_sub. bigi.
  rewrite (qco_eta x), (qco_eta y), qco_mul_good by auto. repeat match goal with |- _ /\ _ => split end; eexists; reflexivity.
Qed.
