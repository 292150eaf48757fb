(** * IntEuclid: exact division, and Euclid's algorithm for Gaussian and quadratic integers. *)

From Coq Require Import ZArith Znumtheory Reals Lia Lra Bool List Arith.
From Coquelicot Require Import Coquelicot.
From Verif Require Import Base Ext ModelSurd ModelInt Spec SpecInt SpecEuclid Transfer NumFacts SurdCore RatioFacts SurdArith SurdTotal SurdOrd SurdRound IntCore IntArith IntOps IntDiv IntMore ClaimsInt.
Open Scope Z_scope.

Lemma isround_int n : isround (IZR n / IZR 1) n.
Proof. unfold isround. replace (IZR n / IZR 1)%R with (IZR n) by field. split; intros; lra. Qed.
Lemma exact_quotient d x y n m : y <> RtoC 0 -> x = ((ZtoC n + ZtoC m * omega d) * y)%C ->
  rounded_quotient d x y (ZtoC n + ZtoC m * omega d)%C.
Proof.
  intros Y ->. exists n, m, 1, n, m. split; [lia|]. split; [auto|]. split.
  - change (ZtoC 1) with (RtoC 1). field. split; [apply RtoC1_neq0|auto].
  - split; [reflexivity|]. split; apply isround_int.
Qed.
Lemma quotient_nz d x y z : rounded_quotient d x y z -> y <> RtoC 0.
Proof. intros (p & s & k & n & m & _ & Y & _). auto. Qed.

(** ** Gaussian integers *)
Lemma gval_omega z : gval z = (ZtoC (q0 z) + ZtoC (q1 z) * omega (-1))%C.
Proof. rewrite gval_qval. reflexivity. Qed.
Lemma gval_inj x y : gval x = gval y -> x = y.
Proof.
  intros H. rewrite !gval_qval in H. destruct x as [a b], y as [a' b']. destruct m1_hyp as [S _].
  apply qval_inj in H; auto. destruct H; subst; auto.
Qed.
Lemma gval_0 : gval (QCo 0 0) = RtoC 0.
Proof. reflexivity. Qed.
Lemma gauss_exact t x y z q : gval x = (gval z * gval y)%C -> gauss_div t x y = Ok q -> q = z.
Proof.
  intros E H. apply gauss_div_ok in H. apply gval_inj. pose proof (quotient_nz _ _ _ _ H) as Y.
  rewrite (gval_omega z) in E. pose proof (exact_quotient (-1) _ _ _ _ Y E) as X. rewrite <- gval_omega in X.
  exact (L_C23_unique _ _ _ _ _ _ good_m1 H X).
Qed.
Lemma gauss_rem_big t x y r : gauss_rem t x y = Ok r -> gval y <> RtoC 0 /\ gauss_rem BigI x y = Ok r /\ exists q, gauss_div BigI x y = Ok q /\ gval x = (gval q * gval y + gval r)%C.
Proof.
  intros H. assert (Y : gval y <> RtoC 0). { intros Y. destruct (gauss_zero_div t x y Y) as [_ X]. apply X. eexists; eauto. }
  apply rle_gauss_rem in H. split; [auto|]. split; [auto|]. destruct (gauss_dr_total x y Y) as (q & r' & Hq & Hr & _ & V & _).
  rewrite H in Hr. injection Hr as Hr. subst r'. eauto.
Qed.
Lemma Cadd_0 (a b : C) : a = (a + b)%C -> b = RtoC 0.
Proof. intros H. replace b with (a + b - a)%C by ring. rewrite <- H. ring. Qed.
Lemma gauss_divides t x y r : gauss_rem t x y = Ok r -> (r = QCo 0 0 <-> gdivides (gval y) (gval x)).
Proof.
  intros H. apply gauss_rem_big in H. destruct H as (Y & _ & q & Hq & V). split.
  - intros ->. rewrite gval_0 in V. exists q. rewrite V at 1. ring.
  - intros [z Z]. pose proof (gauss_exact _ _ _ _ _ Z Hq). subst q. rewrite Z in V at 1. apply gval_inj. rewrite gval_0.
    exact (Cadd_0 _ _ V).
Qed.
Definition gn (x : qco) : Z := q0 x * q0 x + q1 x * q1 x.
Lemma gdivides_refl x : gdivides x x.
Proof. exists (QCo 1 0). change (gval (QCo 1 0)) with (RtoC 1). ring. Qed.
Lemma gdivides_0 x : gdivides x (RtoC 0).
Proof. exists (QCo 0 0). rewrite gval_0. ring. Qed.
Definition gmul (x y : qco) : qco := QCo (q0 x * q0 y - q1 x * q1 y) (q0 x * q1 y + q1 x * q0 y).
Definition gadd (x y : qco) : qco := QCo (q0 x + q0 y) (q1 x + q1 y).
Definition gsub (x y : qco) : qco := QCo (q0 x - q0 y) (q1 x - q1 y).
Lemma gval_gmul x y : gval (gmul x y) = (gval x * gval y)%C.
Proof. unfold gval, gmul, Cmult. cbn [q0 q1 fst snd]. rewrite minus_IZR, plus_IZR, !mult_IZR. f_equal; ring. Qed.
Lemma gval_gadd x y : gval (gadd x y) = (gval x + gval y)%C.
Proof. unfold gval, gadd, Cplus. cbn [q0 q1 fst snd]. rewrite !plus_IZR. reflexivity. Qed.
Lemma gval_gsub x y : gval (gsub x y) = (gval x - gval y)%C.
Proof. unfold gval, gsub, Cminus, Cplus, Copp. cbn [q0 q1 fst snd]. rewrite !minus_IZR. reflexivity. Qed.

Lemma gauss_gcd_ok t fuel : forall x y d, gauss_gcd t fuel x y = Ok d ->
  gdivides (gval d) (gval x) /\ gdivides (gval d) (gval y) /\ exists u v, gval d = (gval u * gval x + gval v * gval y)%C.
Proof.
  induction fuel as [|fuel IH]; intros x y d H; [discriminate|]. cbn [gauss_gcd] in H.
  destruct ((q0 y =? 0) && (q1 y =? 0)) eqn:Y.
  - injection H as H. subst d. apply andb_true_iff in Y. rewrite !Z.eqb_eq in Y. destruct y as [a b]. cbn [q0 q1] in Y. destruct Y; subst.
    split; [apply gdivides_refl|]. split; [rewrite gval_0; apply gdivides_0|]. exists (QCo 1 0), (QCo 0 0).
    rewrite gval_0. change (gval (QCo 1 0)) with (RtoC 1). ring.
  - destruct (gauss_rem t x y) as [r|k|] eqn:E; try discriminate. cbn [bind] in H.
    apply gauss_rem_big in E. destruct E as (_ & _ & q & _ & V). apply IH in H. destruct H as ([z Z] & [w W] & u & v & U).
    split; [exists (gadd (gmul q z) w); rewrite gval_gadd, gval_gmul, V, Z, W; ring|]. split; [exists z; auto|].
    exists v, (gsub u (gmul v q)). rewrite gval_gsub, gval_gmul, U.
    replace (gval r) with (gval x - gval q * gval y)%C by (rewrite V; ring). ring.
Qed.
Lemma gauss_gcd_greatest t fuel x y d e : gauss_gcd t fuel x y = Ok d -> gdivides e (gval x) -> gdivides e (gval y) -> gdivides e (gval d).
Proof.
  intros H [z Z] [w W]. apply gauss_gcd_ok in H. destruct H as (_ & _ & u & v & U).
  exists (gadd (gmul u z) (gmul v w)). rewrite gval_gadd, !gval_gmul, U, Z, W. ring.
Qed.
Lemma log2_half a b : 0 < b -> 2 * a <= b -> 0 < a -> Z.log2 a + 1 <= Z.log2 b.
Proof.
  intros B H A. assert (E : Z.log2 (2 * a) <= Z.log2 b) by (apply Z.log2_le_mono; lia). rewrite Z.log2_double in E by lia. lia.
Qed.
Lemma gauss_gcd_total fuel : forall x y, (q0 y = 0 /\ q1 y = 0 -> (1 <= fuel)%nat) -> (~ (q0 y = 0 /\ q1 y = 0) -> Z.log2 (gn y) + 2 <= Z.of_nat fuel) ->
  returns (gauss_gcd BigI fuel x y).
Proof.
  induction fuel as [|fuel IH]; intros x y H0 H1.
  { destruct (Z.eq_dec (q0 y) 0); [destruct (Z.eq_dec (q1 y) 0)|].
    - specialize (H0 ltac:(auto)). lia.
    - specialize (H1 ltac:(tauto)). pose proof (Z.log2_nonneg (gn y)). lia.
    - specialize (H1 ltac:(tauto)). pose proof (Z.log2_nonneg (gn y)). lia. }
  cbn [gauss_gcd]. destruct ((q0 y =? 0) && (q1 y =? 0)) eqn:Y; [eexists; reflexivity|].
  apply andb_false_iff in Y. rewrite !Z.eqb_neq in Y.
  assert (NZ : ~ (q0 y = 0 /\ q1 y = 0)) by tauto. specialize (H1 NZ).
  assert (NV : gval y <> RtoC 0). { intros X. rewrite <- gval_0 in X. apply gval_inj in X. subst. apply NZ. auto. }
  destruct (gauss_dr_total x y NV) as (q & r & _ & Hr & _ & _ & B). rewrite Hr. cbn [bind].
  fold (gn r) in B. fold (gn y) in B.
  assert (P : 0 < gn y) by (unfold gn; nia). apply IH.
  - intros _. pose proof (Z.log2_nonneg (gn y)). lia.
  - intros NR. assert (0 < gn r) by (unfold gn; nia). pose proof (log2_half _ _ P B H). lia.
Qed.

Lemma gauss_unit t x n : gauss_norm t x = Ok n ->
  (n = 1 <-> gdivides (gval x) (RtoC 1)) /\ (n = 1 <-> In x (QCo 1 0 :: QCo (-1) 0 :: QCo 0 1 :: QCo 0 (-1) :: nil)).
Proof.
  intros H. apply gauss_norm_m1 in H. rewrite gval_norm in H. fold (gn x) in H.
  assert (L : n = 1 <-> In x (QCo 1 0 :: QCo (-1) 0 :: QCo 0 1 :: QCo 0 (-1) :: nil)).
  { subst n. unfold gn. destruct x as [a b]. cbn [q0 q1]. split.
    - intros E. assert (A : -1 <= a <= 1) by nia. assert (B : -1 <= b <= 1) by nia.
      assert (a = -1 \/ a = 0 \/ a = 1) as [ ->|[ ->| ->]] by lia; assert (b = -1 \/ b = 0 \/ b = 1) as [ ->|[ ->| ->]] by lia;
        try (exfalso; lia); cbn; auto.
    - cbn. intros [E|[E|[E|[E|[]]]]]; injection E as <- <-; reflexivity. }
  split; [|auto]. split.
  - intros E. subst n. exists (QCo (q0 x) (- q1 x)). apply (f_equal IZR) in E. unfold gn in E. rewrite plus_IZR, !mult_IZR in E.
    unfold gval, RtoC, Cmult. cbn [q0 q1 fst snd]. rewrite opp_IZR. f_equal; [|ring]. rewrite <- E. ring.
  - intros [z Z]. assert (M : gmul z x = QCo 1 0) by (apply gval_inj; rewrite gval_gmul, <- Z; reflexivity).
    unfold gmul in M. injection M as M1 M2.
    assert (gn z * gn x = 1) by (unfold gn; transitivity ((q0 z * q0 x - q1 z * q1 x) * (q0 z * q0 x - q1 z * q1 x) + (q0 z * q1 x + q1 z * q0 x) * (q0 z * q1 x + q1 z * q0 x)); [ring|rewrite M1, M2; reflexivity]).
    assert (0 <= gn x) by (unfold gn; nia). assert (0 <= gn z) by (unfold gn; nia). subst n. apply (Z.eq_mul_1_nonneg (gn x) (gn z)); lia.
Qed.

(** ** Quadratic integers over one root *)
Lemma over_val g d x : over g d x -> qval x = qval (QInt (qcoeffs x) d) /\ qconj x = qconj (QInt (qcoeffs x) d).
Proof.
  intros [_ O]. destruct x as [[a b] e]. cbn [qcoeffs qdiscr q1] in *. destruct (Z.eq_dec b 0) as [->|B]; [|rewrite O; auto].
  rewrite !qval_int, !qconj_int. auto.
Qed.
Lemma over_nested g d x y : over g d x -> over g d y -> qnested x y.
Proof.
  intros [_ X] [_ Y]. unfold qnested. destruct (Z.eq_dec (q1 (qcoeffs x)) 0); [auto|]. destruct (Z.eq_dec (q1 (qcoeffs y)) 0); [auto|].
  right. right. exists 1. split; [lia|]. left. rewrite X, Y by auto. lia.
Qed.
Lemma over_div g d x y z : good_root g d -> over g d x -> over g d y -> qint_div g BigI x y = Ok z ->
  over g d z /\ rounded_quotient d (qval x) (qval y) (qval z).
Proof.
  intros Gd [Wx Ox] [Wy Oy] H. pose proof (over_val g d x (conj Wx Ox)) as [Vx _]. pose proof (over_val g d y (conj Wy Oy)) as [Vy _].
  pose proof H as H'. unfold qint_div, qint_is_rational in H'.
  destruct (Z.eqb_spec (q1 (qcoeffs y)) 0) as [B|B].
  { destruct (qval_b0 y B) as [Ey _]. rewrite Ey. pose proof (qint_div_int_ok g _ _ _ _ Wx H') as (Wz & _ & _ & k0 & _ & _ & K & NZ & _).
    destruct x as [[a b] e]. cbn [qcoeffs qdiscr q0 q1] in *. set (k := q0 (qcoeffs y)) in *.
    assert (K0 : k <> 0) by (intros X; apply NZ; rewrite X; reflexivity).
    unfold qint_div_int, qco_div_int in H'. cbn [qcoeffs qdiscr q0 q1] in H'.
    rewrite !div_rem_roundB in H' by auto. cbn [bind] in H'. injection H' as <-.
    assert (Oz : over g d (QInt (QCo (rnd a k) (rnd b k)) e)).
    { split; [auto|]. cbn [qcoeffs qdiscr q1]. intros R. apply Ox. intros ->. apply R. rewrite <- (Z.mul_0_l k) at 1. apply rnd_exact; auto. }
    split; [auto|]. destruct (over_val _ _ _ Oz) as [Vz _]. cbn [qcoeffs] in Vz. rewrite Vx, Vz.
    exists a, b, k, (rnd a k), (rnd b k). split; [auto|]. split; [apply ZtoC_neq0; auto|].
    split; [reflexivity|]. split; [reflexivity|]. split; apply rnd_round; auto. }
  specialize (Oy B).
  destruct (Z.eqb_spec (q1 (qcoeffs x)) 0) as [B'|B'].
  - destruct x as [[a b] d0], y as [[a' b'] e]. cbn [qcoeffs qdiscr q0 q1] in *. subst e.
    unfold qco_div in H'. destruct (div_core g d a b a' b' Gd ltac:(tauto)) as (q & r & E & R & _).
    rewrite E in H'. cbn [bind] in H'. rewrite (qco_eta q) in H'. apply from_coeffs_good_ok in H'; auto.
    destruct H' as (V & _ & W & _ & Q1 & Dz). split; [split; [auto|rewrite Q1; auto]|]. rewrite V, <- qco_eta, Vx. exact R.
  - stepH H'. destruct a as [l r]. apply q_unwrap_ok in E; [|eapply wfq_irr; eauto..].
    destruct E as (V1 & C1 & V2 & C2 & D & G & Dd & B1 & B2). destruct l as [[a b] e], r as [[a' b'] e'].
    cbn [qcoeffs qdiscr q1] in *. subst e'. rewrite (Ox B'), Oy in Dd. assert (e = d) by tauto. subst e.
    unfold qco_div in H'. destruct (div_core g d a b a' b' Gd ltac:(tauto)) as (q & r & E & R & _).
    rewrite E in H'. cbn [bind] in H'. rewrite (qco_eta q) in H'. apply from_coeffs_good_ok in H'; auto.
    destruct H' as (V & _ & W & _ & Q1 & Dz). split; [split; [auto|rewrite Q1; auto]|]. rewrite V, <- qco_eta, <- V1, <- V2. exact R.
Qed.
Lemma over_int_op g d x z : over g d x -> wfq g z -> (q1 (qcoeffs z) = 0 \/ (qdiscr z = qdiscr x /\ (q1 (qcoeffs x) = 0 -> q1 (qcoeffs z) = 0))) -> over g d z.
Proof. intros [_ O] W H. split; [auto|]. intros N. destruct H as [H|[-> H]]; [contradiction|]. apply O. tauto. Qed.
Lemma over_mul g d x y z : over g d x -> over g d y -> qint_mul g BigI x y = Ok z -> over g d z /\ qval z = (qval x * qval y)%C.
Proof.
  intros [Wx Ox] [Wy Oy] H. pose proof (qint_mul_ok g _ _ _ _ Wx Wy H) as (V & _ & W). split; [|auto].
  unfold qint_mul, qint_is_rational in H.
  assert (K : forall x k, over g d x -> qint_mul_int BigI x k = Ok z -> over g d z).
  { intros u k Ou Hu. eapply over_int_op; [exact Ou|auto|]. unfold qint_mul_int in Hu. destruct (k =? 0); [injection Hu as <-; left; reflexivity|].
    unfold qco_mul_int in Hu. destruct u as [[a b] e]. cbn [qcoeffs qdiscr q0 q1] in *. autorewrite with bigi in Hu. injection Hu as <-. right.
    cbn [qcoeffs qdiscr q0 q1]. split; [auto|]. intros ->. reflexivity. }
  destruct (Z.eqb_spec (q1 (qcoeffs y)) 0) as [B|B]; [exact (K x _ (conj Wx Ox) H)|].
  destruct (Z.eqb_spec (q1 (qcoeffs x)) 0) as [B'|B']; [exact (K y _ (conj Wy Oy) H)|].
  stepH H. destruct a as [l r]. apply q_unwrap_ok in E; [|eapply wfq_irr; eauto..].
  destruct E as (V1 & C1 & V2 & C2 & D & G & Dd & _). destruct l as [[a b] e], r as [[a' b'] e']. cbn [qcoeffs qdiscr] in *. subst e'.
  rewrite qco_mul_good in H by apply G. cbn [bind] in H. rewrite (qco_eta (cmul e a b a' b')) in H.
  apply from_coeffs_good_ok in H; auto. destruct H as (_ & _ & _ & _ & Q1 & Dz). split; [auto|]. intros N.
  rewrite Dz by congruence. destruct Dd as [ -> | -> ]; auto.
Qed.
Lemma over_sub g d x y z : over g d x -> over g d y -> qint_sub g BigI x y = Ok z -> over g d z /\ qval z = (qval x - qval y)%C.
Proof.
  intros [Wx Ox] [Wy Oy] H. pose proof (qint_sub_ok g _ _ _ _ Wx Wy H) as (V & _ & W). split; [|auto].
  unfold qint_sub, qint_is_rational in H.
  destruct (Z.eqb_spec (q1 (qcoeffs y)) 0) as [B|B].
  { eapply over_int_op; [split; [exact Wx|exact Ox]|auto|]. unfold qint_sub_int, qco_sub_int in H. destruct x as [[a b] e]. cbn [qcoeffs qdiscr q0 q1] in *.
    autorewrite with bigi in H. injection H as <-. right. cbn [qcoeffs qdiscr q0 q1]. auto. }
  destruct (Z.eqb_spec (q1 (qcoeffs x)) 0) as [B'|B'].
  { eapply over_int_op; [split; [exact Wy|exact Oy]|auto|]. unfold qint_sub_int, qco_sub_int, qint_neg in H. destruct y as [[a b] e]. cbn [qcoeffs qdiscr q0 q1] in *.
    autorewrite with bigi in H. cbn [qcoeffs qdiscr q0 q1] in H. autorewrite with bigi in H. injection H as <-. right. cbn [qcoeffs qdiscr q0 q1]. split; [auto|]. intros ->. reflexivity. }
  stepH H. destruct a as [l r]. apply q_unwrap_ok in E; [|eapply wfq_irr; eauto..].
  destruct E as (V1 & C1 & V2 & C2 & D & G & Dd & _). destruct l as [[a b] e], r as [[a' b'] e']. cbn [qcoeffs qdiscr] in *. subst e'.
  unfold qco_sub in H. cbn [q0 q1] in H. autorewrite with bigi in H.
  apply from_coeffs_good_ok in H; auto. destruct H as (_ & _ & _ & _ & Q1 & Dz). split; [auto|]. intros N.
  rewrite Dz by congruence. destruct Dd as [ -> | -> ]; auto.
Qed.

Lemma over_exact g t d x y w z : good_root g d -> over g d x -> over g d y -> over g d w -> qval x = (qval w * qval y)%C -> qint_div g t x y = Ok z -> qval z = qval w.
Proof.
  intros G Ox Oy Ow E H. apply rle_qint_div in H. apply (over_div g d) in H; auto. destruct H as [_ R]. pose proof (quotient_nz _ _ _ _ R) as Y.
  destruct (over_val g d w Ow) as [Vw _]. rewrite Vw in E. pose proof (exact_quotient d _ _ (q0 (qcoeffs w)) (q1 (qcoeffs w)) Y E) as X.
  rewrite Vw. exact (L_C23_unique _ _ _ _ _ _ G R X).
Qed.
Lemma over_mul_div g t d x y p z : good_root g d -> over g d x -> over g d y -> qint_mul g t x y = Ok p -> qint_div g t p y = Ok z -> qval z = qval x.
Proof.
  intros G Ox Oy M H. apply rle_qint_mul in M. apply (over_mul g d) in M; auto. destruct M as [Op V].
  exact (over_exact g t d p y x z G Op Oy Ox V H).
Qed.
Lemma over_mul_root g d x y p : over g d x -> over g d y -> q1 (qcoeffs y) <> 0 -> qint_mul g BigI x y = Ok p -> qdiscr p = 0 /\ q1 (qcoeffs p) = 0 \/ qdiscr p = d.
Proof.
  intros Ox Oy B M. pose proof (over_mul g d x y p Ox Oy M) as [[Wp Op] _]. destruct (Z.eq_dec (q1 (qcoeffs p)) 0) as [P|P]; [|auto].
  unfold qint_mul, qint_is_rational in M. pose proof B as B0. apply Z.eqb_neq in B0. rewrite B0 in M. destruct Ox as [Wx Ox], Oy as [Wy Oy].
  destruct (Z.eqb_spec (q1 (qcoeffs x)) 0) as [B'|B'].
  { unfold qint_mul_int in M. destruct (q0 (qcoeffs x) =? 0); [injection M as <-; left; auto|].
    unfold qco_mul_int in M. autorewrite with bigi in M. injection M as <-. right. auto. }
  stepH M. destruct a as [l r]. apply q_unwrap_ok in E; [|eapply wfq_irr; eauto..].
  destruct E as (V1 & C1 & V2 & C2 & D & G & Dd & _). destruct l as [[a b] e], r as [[a' b'] e']. cbn [qcoeffs qdiscr] in *. subst e'.
  rewrite qco_mul_good in M by apply G. cbn [bind] in M. rewrite (qco_eta (cmul e a b a' b')) in M.
  rewrite from_coeffs_good in M by auto. destruct (q1 (cmul e a b a' b') =? 0); injection M as <-; [left; auto|right].
  cbn [qdiscr]. destruct Dd as [ -> | -> ]; auto.
Qed.
Lemma over_mul_rem g t d x y p r : good_root g d -> over g d x -> over g d y -> q1 (qcoeffs y) <> 0 -> qint_mul g t x y = Ok p -> qint_rem g t p y = Ok r ->
  qval r = RtoC 0.
Proof.
  intros G Ox Oy B M H. apply rle_qint_mul in M. pose proof (over_mul g d x y p Ox Oy M) as [Op V].
  destruct (over_mul_root g d x y p Ox Oy B M) as [[D P]|D].
  { exfalso. apply (q_rem_plain_left g t p y (proj1 Oy) D P B). eexists; eauto. }
  pose proof (qint_rem_ok g t p y r (proj1 Op) (proj1 Oy) B H) as (_ & _ & l & r' & q & d' & _ & _ & C & -> & _ & R & _ & Vr & _).
  destruct C as (_ & _ & _ & _ & _ & _ & Dd & _). rewrite D, (proj2 Oy B) in Dd. assert (E : qdiscr l = d) by tauto. rewrite E in *.
  destruct (over_val g d x Ox) as [Vx _]. rewrite Vx in V. pose proof (exact_quotient d _ _ (q0 (qcoeffs x)) (q1 (qcoeffs x)) (quotient_nz _ _ _ _ R) V) as X.
  rewrite (L_C23_unique _ _ _ _ _ _ G R X) in Vr. rewrite Vr, V. unfold qval. cbn [qcoeffs qdiscr q0 q1]. ring.
Qed.

(** ** Euclid's algorithm *)
Lemma rbd_big g t x y r : qint_rem_by_div g t x y = Ok r -> qint_rem_by_div g BigI x y = Ok r.
Proof.
  unfold qint_rem_by_div. intros H. destruct (qint_div g t x y) as [q|k|] eqn:E; try discriminate. cbn [bind] in H.
  destruct (qint_mul g t q y) as [p|k|] eqn:E'; try discriminate. cbn [bind] in H.
  apply rle_qint_div in E. apply rle_qint_mul in E'. apply rle_qint_sub in H. rewrite E. cbn [bind]. rewrite E'. exact H.
Qed.
Definition rn (d : Z) (x : qint) : Z := nrm d (q0 (qcoeffs x)) (q1 (qcoeffs x)).
Lemma nrm_scale d k a b : nrm d (k * a) (k * b) = k * k * nrm d a b.
Proof. unfold nrm. destruct (md1 d); ring. Qed.
Lemma nrm_cmul d a b a' b' : nrm d (q0 (cmul d a b a' b')) (q1 (cmul d a b a' b')) = nrm d a b * nrm d a' b'.
Proof.
  apply ZtoC_inj. rewrite ZtoC_mul, <- !qval_qconj, <- qco_eta, cmul_val, cmul_conj. ring.
Qed.
Lemma half_round p k n : k <> 0 -> isround (IZR p / IZR k) n -> 2 * Z.abs (p - n * k) <= Z.abs k.
Proof.
  intros K R. rewrite (isround_unique _ _ _ R (rnd_round p k K)). apply rnd_half; auto.
Qed.
Lemma rbd_ok g d x y r : good_root g d -> over g d x -> over g d y -> qint_rem_by_div g BigI x y = Ok r ->
  over g d r /\ exists n m, qval x = ((ZtoC n + ZtoC m * omega d) * qval y + qval r)%C /\
    exists k u v, k <> 0 /\ k * k * rn d r = rn d y * nrm d u v /\ 2 * Z.abs u <= Z.abs k /\ 2 * Z.abs v <= Z.abs k.
Proof.
  intros G Ox Oy H. unfold qint_rem_by_div in H. destruct (qint_div g BigI x y) as [q|?|] eqn:E; try discriminate. cbn [bind] in H.
  destruct (qint_mul g BigI q y) as [p|?|] eqn:E'; try discriminate. cbn [bind] in H.
  apply (over_div g d) in E; auto. destruct E as [Oq R]. apply (over_mul g d) in E'; auto. destruct E' as [Op Vp].
  apply (over_sub g d) in H; auto. destruct H as [Or Vr]. split; [auto|].
  destruct R as (a & b & k & n & m & K & Y & Q & Zq & R1 & R2). exists n, m. rewrite <- Zq. split; [rewrite Vr, Vp; ring|].
  exists k, (a - n * k), (b - m * k). split; [auto|]. split; [|split; apply half_round; auto].
  assert (X : qval (QInt (QCo (k * q0 (qcoeffs r)) (k * q1 (qcoeffs r))) d) = qval (QInt (cmul d (q0 (qcoeffs y)) (q1 (qcoeffs y)) (a - n * k) (b - m * k)) d)).
  { rewrite cmul_val, <- qco_eta. destruct (over_val g d y Oy) as [<- _].
    transitivity (ZtoC k * qval r)%C; [destruct (over_val g d r Or) as [ -> _ ]; unfold qval; cbn [qcoeffs qdiscr q0 q1]; autorewrite with ztoc; ring|].
    pose proof (ZtoC_neq0 _ K) as KC.
    assert (Xx : (ZtoC k * qval x)%C = ((ZtoC a + ZtoC b * omega d) * qval y)%C).
    { replace (qval x) with (qval x / qval y * qval y)%C by (field; auto). rewrite Q. field. auto. }
    rewrite Vr, Vp, Zq. unfold qval at 4. cbn [qcoeffs qdiscr q0 q1]. autorewrite with ztoc.
    replace (ZtoC k * (qval x - (ZtoC n + ZtoC m * omega d) * qval y))%C with (ZtoC k * qval x - ZtoC k * (ZtoC n + ZtoC m * omega d) * qval y)%C by ring.
    rewrite Xx. ring. }
  rewrite (qco_eta (cmul _ _ _ _ _)) in X. apply qval_inj in X; [|apply G]. destruct X as [X1 X2].
  unfold rn. rewrite <- nrm_cmul, <- X1, <- X2, nrm_scale. reflexivity.
Qed.
Lemma rn_zero g d x : good_root g d -> over g d x -> rn d x = 0 -> qint_is_zero x = true.
Proof. intros G _ H. apply nrm_0 in H; [|apply G]. destruct H as [A B]. unfold qint_is_zero. rewrite A, B. reflexivity. Qed.
Lemma rbd_decreases g d x y r : In d (-3 :: -2 :: -1 :: 2 :: 3 :: 5 :: 13 :: nil) -> good_root g d -> over g d x -> over g d y -> rn d y <> 0 ->
  qint_rem_by_div g BigI x y = Ok r -> Z.abs (rn d r) < Z.abs (rn d y).
Proof.
  intros I G Ox Oy NY H. destruct (rbd_ok g d x y r G Ox Oy H) as (_ & _ & _ & _ & k & u & v & K & E & U & V).
  pose proof (euclid_bound d u v k I K U V) as B. apply (f_equal Z.abs) in E. rewrite !Z.abs_mul in E. clear - E B NY K.
  assert (KK : k * k = Z.abs k * Z.abs k) by (symmetry; apply Z.abs_square). rewrite KK in B.
  set (K' := Z.abs k * Z.abs k) in *. set (R := Z.abs (rn d r)) in *. set (Y := Z.abs (rn d y)) in *. set (N := Z.abs (nrm d u v)) in *.
  assert (0 < Y) by (unfold Y; lia). assert (0 < K') by (unfold K'; nia). clearbody K' R Y N. nia.
Qed.
Lemma rbd_total g d x y : good_root g d -> over g d x -> over g d y -> qval y <> RtoC 0 -> returns (qint_rem_by_div g BigI x y).
Proof.
  intros G Ox Oy Y. unfold qint_rem_by_div.
  destruct (q_div_total g x y (proj1 Ox) (proj1 Oy) (over_nested g d x y Ox Oy) Y) as [q Q]. rewrite Q. cbn [bind].
  apply (over_div g d) in Q; auto. destruct Q as [Oq _].
  destruct (q_ops_total g q y (proj1 Oq) (proj1 Oy) (over_nested g d q y Oq Oy)) as (_ & _ & p & P). rewrite P. cbn [bind].
  apply (over_mul g d) in P; auto. destruct P as [Op _].
  apply (q_ops_total g x p (proj1 Ox) (proj1 Op) (over_nested g d x p Ox Op)).
Qed.
Definition rel (d n m : Z) : C := (ZtoC n + ZtoC m * omega d)%C.
Lemma rel_qval d n m : rel d n m = qval (QInt (QCo n m) d).
Proof. reflexivity. Qed.
Lemma rel_mul d a b a' b' : (rel d a b * rel d a' b')%C = rel d (q0 (cmul d a b a' b')) (q1 (cmul d a b a' b')).
Proof. rewrite !rel_qval, <- qco_eta, cmul_val. reflexivity. Qed.
Lemma rel_add d a b a' b' : (rel d a b + rel d a' b')%C = rel d (a + a') (b + b').
Proof. unfold rel. autorewrite with ztoc. ring. Qed.
Lemma rdivides_refl d x : rdivides d x x.
Proof. exists 1, 0. change (ZtoC 1) with (RtoC 1). rewrite ZtoC_0. ring. Qed.
Lemma rdivides_0 d x : rdivides d x (RtoC 0).
Proof. exists 0, 0. rewrite ZtoC_0. ring. Qed.
Lemma rdivides_lin d x y z n m : rdivides d x y -> rdivides d x z -> rdivides d x (rel d n m * y + z)%C.
Proof.
  intros (a & b & E) (a' & b' & E'). fold (rel d a b) in E. fold (rel d a' b') in E'. rewrite E, E'.
  exists (q0 (cmul d n m a b) + a'), (q1 (cmul d n m a b) + b'). fold (rel d (q0 (cmul d n m a b) + a') (q1 (cmul d n m a b) + b')).
  rewrite <- rel_add, <- rel_mul. ring.
Qed.
Lemma qint_gcd_ok g t d fuel : good_root g d -> forall x y z, over g d x -> over g d y -> qint_gcd (qint_rem_by_div g t) fuel x y = Ok z ->
  over g d z /\ rdivides d (qval z) (qval x) /\ rdivides d (qval z) (qval y) /\
  forall e, rdivides d e (qval x) -> rdivides d e (qval y) -> rdivides d e (qval z).
Proof.
  intros G. induction fuel as [|fuel IH]; intros x y z Ox Oy H; [discriminate|]. cbn [qint_gcd] in H.
  destruct (qint_is_zero y) eqn:Y.
  - injection H as <-. apply (qint_is_zero_spec g y (proj1 Oy)) in Y. rewrite Y. split; [auto|].
    split; [apply rdivides_refl|]. split; [apply rdivides_0|auto].
  - destruct (qint_rem_by_div g t x y) as [r|?|] eqn:E; try discriminate. cbn [bind] in H. apply rbd_big in E.
    destruct (rbd_ok g d x y r G Ox Oy E) as (Or & n & m & V & _). fold (rel d n m) in V. apply IH in H; auto. destruct H as (Oz & D1 & D2 & D3).
    split; [auto|]. split; [rewrite V; apply rdivides_lin; auto|]. split; [auto|]. intros e Ex Ey. apply D3; auto.
    replace (qval r) with (rel d (- n) (- m) * qval y + qval x)%C; [apply rdivides_lin; auto|].
    rewrite V. unfold rel. autorewrite with ztoc. ring.
Qed.
Lemma qint_gcd_total g d fuel : In d (-3 :: -2 :: -1 :: 2 :: 3 :: 5 :: 13 :: nil) -> good_root g d -> forall x y, over g d x -> over g d y ->
  Z.abs (rn d y) < Z.of_nat fuel -> returns (qint_gcd (qint_rem_by_div g BigI) fuel x y).
Proof.
  intros I G. induction fuel as [|fuel IH]; intros x y Ox Oy L; [lia|]. cbn [qint_gcd]. destruct (qint_is_zero y) eqn:Y; [eexists; reflexivity|].
  assert (NV : qval y <> RtoC 0). { intros X. apply (qint_is_zero_spec g y (proj1 Oy)) in X. congruence. }
  assert (NN : rn d y <> 0). { intros X. apply (rn_zero g d y G Oy) in X. congruence. }
  destruct (rbd_total g d x y G Ox Oy NV) as [r R]. rewrite R. cbn [bind].
  pose proof (rbd_decreases g d x y r I G Ox Oy NN R). destruct (rbd_ok g d x y r G Ox Oy R) as (Or & _). apply IH; auto. lia.
Qed.
Lemma rn_norm g d t x n : over g d x -> qint_norm t x = Ok n -> n = rn d x.
Proof.
  intros [W O] H. apply (qint_norm_ok g) in H; auto. rewrite H. unfold rn. destruct (Z.eq_dec (q1 (qcoeffs x)) 0) as [ -> |B]; [rewrite !nrm_b0; auto|].
  rewrite O; auto.
Qed.
Lemma qint_unit g t d x n : good_root g d -> over g d x -> qint_norm t x = Ok n -> (Z.abs n = 1 <-> rdivides d (qval x) (RtoC 1)).
Proof.
  intros G O H. apply (rn_norm g d) in H; auto. subst n. destruct (over_val g d x O) as [V _].
  set (a := q0 (qcoeffs x)) in *. set (b := q1 (qcoeffs x)) in *. split.
  - intros E. assert (Q : (qval (QInt (QCo a b) d) * qconj (QInt (QCo a b) d))%C = ZtoC (rn d x)) by apply qval_qconj.
    assert (S : exists s, s * rn d x = 1) by (exists (rn d x); nia). destruct S as [s S].
    exists (s * (a + b * (if md1 d then 1 else 0))), (s * - b). rewrite V. transitivity (ZtoC s * ZtoC (rn d x))%C; [rewrite <- ZtoC_mul, S; reflexivity|]. rewrite <- Q.
    unfold qval, qconj. cbn [qcoeffs qdiscr q0 q1]. fold a. fold b. rewrite omega_conj_eq. autorewrite with ztoc.
    destruct (md1 d); rewrite ?ZtoC_1, ?ZtoC_0; ring.
  - intros (u & v & E). fold (rel d u v) in E. rewrite V in E.
    change (qval {| qcoeffs := qcoeffs x; qdiscr := d |}) with (rel d a b) in E. rewrite rel_mul in E.
    replace (RtoC 1) with (rel d 1 0) in E by (unfold rel; rewrite ZtoC_0, ZtoC_1; ring). rewrite !rel_qval in E. apply qval_inj in E; [|apply G].
    destruct E as [E1 E2]. pose proof (nrm_cmul d u v a b) as N. rewrite <- E1, <- E2, nrm_b0 in N. fold (rn d x) in N. unfold rn in N. fold a in N. fold b in N.
    unfold rn. fold a. fold b. set (p := nrm d u v) in *. set (q := nrm d a b) in *. clearbody p q. clear - N.
    apply (f_equal Z.abs) in N. rewrite Z.abs_mul in N. cbn [Z.mul Z.abs Pos.mul] in N.
    apply (Z.eq_mul_1_nonneg (Z.abs q) (Z.abs p)); lia.
Qed.
(** Euclid's algorithm with the crate's % on the plain integers 5 and 3 goes round in a circle: 2, 1, 2, 1, ... *)
Lemma rem_circle fuel : qint_gcd (qint_rem (Cfg false true) BigI) fuel (QInt (QCo 2 0) 0) (QInt (QCo 1 0) 0) = Hang /\
  qint_gcd (qint_rem (Cfg false true) BigI) fuel (QInt (QCo 1 0) 0) (QInt (QCo 2 0) 0) = Hang.
Proof.
  induction fuel as [|fuel [A B]]; [split; reflexivity|]. split; cbn [qint_gcd].
  - change (qint_rem (Cfg false true) BigI (QInt (QCo 2 0) 0) (QInt (QCo 1 0) 0)) with (Ok (QInt (QCo 2 0) 0)). exact B.
  - change (qint_rem (Cfg false true) BigI (QInt (QCo 1 0) 0) (QInt (QCo 2 0) 0)) with (Ok (QInt (QCo 1 0) 0)). exact A.
Qed.
Lemma rem_circle_53 fuel : qint_gcd (qint_rem (Cfg false true) BigI) fuel (QInt (QCo 5 0) 0) (QInt (QCo 3 0) 0) = Hang.
Proof.
  assert (E : forall x y r, qint_rem (Cfg false true) BigI x y = Ok r -> qint_is_zero y = false -> (forall f, qint_gcd (qint_rem (Cfg false true) BigI) f y r = Hang) ->
    forall f, qint_gcd (qint_rem (Cfg false true) BigI) f x y = Hang).
  { intros x y r R Y H f. destruct f as [|f]; [reflexivity|]. cbn [qint_gcd]. rewrite Y, R. cbn [bind]. apply H. }
  revert fuel. eapply E; [vm_compute; reflexivity|reflexivity|]. eapply E; [vm_compute; reflexivity|reflexivity|].
  eapply E; [vm_compute; reflexivity|reflexivity|]. intros f. apply rem_circle.
Qed.
