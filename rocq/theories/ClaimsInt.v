(** * ClaimsInt: proofs of the property theorems about QuadraticInt and GaussianInt (PropsInt.v). *)

From Coq Require Import ZArith Znumtheory Reals Lia Lra Bool List.
From Coquelicot Require Import Coquelicot.
From Verif Require Import Base Ext ModelSurd ModelInt Spec SpecInt Transfer NumFacts SurdCore RatioFacts
  SurdArith SurdTotal SurdOrd SurdRound SurdDecide IntCore IntArith IntOps IntDiv IntMore IntDecide.
Import ListNotations.
Open Scope Z_scope.

Lemma L_C20_well_formed : forall g t x, qreach g t x -> wfq g x.
Proof. exact qreach_wfq. Qed.

Lemma L_C20_new_partial : forall g t a b r x, ~ square r -> qint_new g t a b r = Ok x ->
  qval x = (ZtoC a + ZtoC b * csqrt r)%C.
Proof. intros g t a b r x S H. apply qint_new_ok in H. tauto. Qed.

Lemma L_C20_from_coeffs_partial : forall g t a b d x, qint_from_coeffs g t (QCo a b) d = Ok x ->
  (qval x = (ZtoC a + ZtoC b * omega d)%C <-> (square d -> d = 1 \/ b = 0)).
Proof. exact from_coeffs_exact_iff. Qed.

Lemma L_C20_new_refuted :
  (exists x, qint_new (Cfg false true) BigI 0 1 9 = Ok x /\ qval x <> (ZtoC 0 + ZtoC 1 * csqrt 9)%C) /\
  (exists x, qint_from_coeffs (Cfg false true) BigI (QCo 0 1) 9 = Ok x /\ qval x <> (ZtoC 0 + ZtoC 1 * omega 9)%C).
Proof.
  split.
  - exists (QInt (QCo 5 0) 0). split; [vm_compute; reflexivity|]. rewrite qval_int. change 9 with (3 * 3). rewrite csqrt_square by lia.
    rewrite <- ZtoC_mul, <- ZtoC_add. intros H. apply ZtoC_inj in H. discriminate.
  - exists (QInt (QCo 3 0) 0). split; [vm_compute; reflexivity|]. intros H.
    assert (F : qint_from_coeffs (Cfg false true) BigI (QCo 0 1) 9 = Ok (QInt (QCo 3 0) 0)) by (vm_compute; reflexivity).
    apply (proj1 (from_coeffs_exact_iff _ _ _ _ _ _ F)) in H; [destruct H; discriminate|exists 3; reflexivity].
Qed.

Lemma L_C20_new_square : forall g t a b r x, 0 < r -> square r -> qint_new g t a b r = Ok x ->
  exists k m, 0 < k /\ 0 < m /\ Z.odd m = true /\ r = (k * m) * (k * m) /\ qval x = ZtoC (a + b * (2 * (k * m) - k)).
Proof. exact qint_new_square. Qed.

Lemma L_C20_returns : forall g a b r,
  (returns (qint_new g BigI a b r) <-> 0 < r \/ (r < 0 /\ r mod 4 <> 0 /\ cplx g = true)) /\
  (returns (qint_from_coeffs g BigI (QCo a b) r) <-> r mod 4 <> 0 /\ (cplx g = false -> 0 <= r)).
Proof. intros. split; [apply qint_new_returns|apply from_coeffs_returns]. Qed.

Lemma L_C21_add_sub_mul : forall g t x y z, wfq g x -> wfq g y ->
  (qint_add g t x y = Ok z -> qval z = (qval x + qval y)%C /\ wfq g z) /\
  (qint_sub g t x y = Ok z -> qval z = (qval x - qval y)%C /\ wfq g z) /\
  (qint_mul g t x y = Ok z -> qval z = (qval x * qval y)%C /\ wfq g z).
Proof.
  intros g t x y z Wx Wy.
  split; [intros H; apply qint_add_ok in H; tauto|]. split; [intros H; apply qint_sub_ok in H; tauto|intros H; apply qint_mul_ok in H; tauto].
Qed.

Lemma L_C21_with_int : forall g t x k z, wfq g x ->
  (qint_add_int t x k = Ok z -> qval z = (qval x + ZtoC k)%C /\ wfq g z) /\
  (qint_sub_int t x k = Ok z -> qval z = (qval x - ZtoC k)%C /\ wfq g z) /\
  (qint_mul_int t x k = Ok z -> qval z = (qval x * ZtoC k)%C /\ wfq g z) /\
  (qint_neg t x = Ok z -> qval z = (- qval x)%C /\ wfq g z).
Proof.
  intros g t x k z W. split; [intros H; apply (qint_add_int_ok g) in H; tauto|]. split; [intros H; apply (qint_sub_int_ok g) in H; tauto|].
  split; [intros H; apply (qint_mul_int_ok g) in H; tauto|intros H; apply (qint_neg_ok g) in H; tauto].
Qed.

Lemma L_C21_bigint_total : forall g x y k, wfq g x -> wfq g y ->
  (qnested x y -> returns (qint_add g BigI x y) /\ returns (qint_sub g BigI x y) /\ returns (qint_mul g BigI x y)) /\
  returns (qint_add_int BigI x k) /\ returns (qint_sub_int BigI x k) /\ returns (qint_mul_int BigI x k) /\
  returns (qint_neg BigI x) /\ returns (qint_conj BigI x) /\ returns (qint_norm BigI x).
Proof. intros g x y k Wx Wy. split; [apply q_ops_total; auto|]. apply (q_int_total g); auto. Qed.

Lemma L_C21_incompatible_roots : exists x y, wfq (Cfg false true) x /\ wfq (Cfg false true) y /\
  qint_add (Cfg false true) BigI x y = Panic PIncompatible /\ (qval x + qval y)%C = (ZtoC 8 * csqrt 2)%C.
Proof.
  exists (QInt (QCo 0 1) 50), (QInt (QCo 0 1) 18).
  split; [qcheck|]. split; [qcheck|]. split; [vm_compute; reflexivity|].
  unfold qval. cbn [qcoeffs qdiscr q0 q1]. destruct (omega_md0 50 eq_refl) as [-> _]. destruct (omega_md0 18 eq_refl) as [-> _].
  change 50 with (5 * 5 * 2). change 18 with (3 * 3 * 2). rewrite !csqrt_scale by lia.
  change 8 with (5 + 3). rewrite ZtoC_add, ZtoC_0. change (ZtoC 1) with (RtoC 1). ring.
Qed.

Lemma L_C22_conj : forall g t x z, wfq g x -> qint_conj t x = Ok z -> qval z = qconj x /\ qconj z = qval x /\ wfq g z.
Proof. exact qint_conj_ok. Qed.

Lemma L_C22_conj_complex : forall g t x z, wfq g x -> qdiscr x < 0 -> qint_conj t x = Ok z -> qval z = Cconj (qval x).
Proof.
  intros g t x z W D H. apply (qint_conj_ok g) in H; auto. destruct H as (-> & _). destruct x as [[a b] d]. cbn [qdiscr] in D.
  unfold qval, qconj, omega, omega_conj. cbn [qcoeffs qdiscr q0 q1]. rewrite csqrt_neg by auto.
  unfold Cconj, ZtoC, RtoC, Cdiv, Cinv, Cplus, Cmult, Cminus, Copp, Cplus.
  destruct (d mod 4 =? 1); cbn [fst snd]; f_equal; field.
Qed.

Lemma L_C22_norm : forall g t x n, wfq g x -> qint_norm t x = Ok n ->
  (qval x * qconj x)%C = ZtoC n /\ (n = 0 -> qval x = RtoC 0).
Proof.
  intros g t x n W H. split; [eapply qint_norm_val; eauto|]. intros ->. apply (qint_norm_ok g) in H; auto.
  destruct W as [[B D]|(S & M & _)].
  - destruct (qval_b0 x B) as [-> _]. rewrite B, nrm_b0 in H. assert (q0 (qcoeffs x) = 0) as -> by nia. apply ZtoC_0.
  - symmetry in H. apply nrm_0 in H; auto. destruct H as [A B]. destruct (qval_b0 x B) as [-> _]. rewrite A. apply ZtoC_0.
Qed.

Lemma L_C22_norm_multiplicative : forall g t x y z n m k, wfq g x -> wfq g y -> qint_mul g t x y = Ok z ->
  qint_norm t x = Ok n -> qint_norm t y = Ok m -> qint_norm t z = Ok k -> k = n * m.
Proof.
  intros g t x y z n m k Wx Wy H Hn Hm Hk. apply qint_mul_ok in H; auto. destruct H as (V & C & W).
  apply (qint_norm_val g) in Hn, Hm, Hk; auto. apply ZtoC_inj. rewrite <- Hk, V, C, ZtoC_mul, <- Hn, <- Hm. ring.
Qed.

Lemma L_C23_div : forall g t x y z, wfq g x -> wfq g y -> qint_div g t x y = Ok z ->
  wfq g z /\ exists d, (d = qdiscr x \/ d = qdiscr y) /\ (q1 (qcoeffs y) = 0 -> d = qdiscr x) /\
    (q1 (qcoeffs x) = 0 -> q1 (qcoeffs y) <> 0 -> d = qdiscr y) /\ rounded_quotient d (qval x) (qval y) (qval z).
Proof. exact qint_div_ok. Qed.

Lemma L_C23_div_int : forall g t x k z, wfq g x -> qint_div_int t x k = Ok z ->
  wfq g z /\ rounded_quotient (qdiscr x) (qval x) (ZtoC k) (qval z).
Proof. exact qint_div_int_ok. Qed.

Lemma L_C23_unique : forall g d x y z z', good_root g d -> rounded_quotient d x y z -> rounded_quotient d x y z' -> z = z'.
Proof.
  intros g d x y z z' (S & M & _) (p & s & k & n & m & K & Y & E & -> & A & B) (p' & s' & k' & n' & m' & K' & _ & E' & -> & A' & B').
  rewrite E in E'.
  assert (X : qval (QInt (QCo (p * k') (s * k')) d) = qval (QInt (QCo (p' * k) (s' * k)) d)).
  { unfold qval. cbn [qcoeffs qdiscr q0 q1]. apply ZtoC_neq0 in K, K'. autorewrite with ztoc. set (w := omega d) in *. clearbody w.
    replace (ZtoC p * ZtoC k' + ZtoC s * ZtoC k' * w)%C with ((ZtoC p + ZtoC s * w) / ZtoC k * (ZtoC k * ZtoC k'))%C by (field; auto).
    rewrite E'. field. auto. }
  apply qval_inj in X; auto. destruct X as [X1 X2].
  assert (Q : forall u v, u * k' = v * k -> (IZR u / IZR k)%R = (IZR v / IZR k')%R).
  { intros u v Q. apply (f_equal IZR) in Q. rewrite !mult_IZR in Q. apply not_0_IZR in K, K'. field_simplify_eq; auto. lra. }
  rewrite (Q p p' X1) in A. rewrite (Q s s' X2) in B.
  rewrite (isround_unique _ _ _ A A'), (isround_unique _ _ _ B B'). reflexivity.
Qed.

Lemma L_C23_returns : forall g t x y, wfq g x -> wfq g y ->
  (qnested x y -> qval y <> RtoC 0 -> returns (qint_div g BigI x y)) /\
  (qval y = RtoC 0 -> ~ returns (qint_div g t x y)).
Proof.
  intros g t x y Wx Wy. split; [apply q_div_total; auto|]. intros Y [z H]. apply qint_div_ok in H; auto.
  destruct H as (_ & d & _ & _ & _ & p & s & k & n & m & _ & Z0 & _). auto.
Qed.

Lemma L_C24_euclidean_partial : forall g t x y z n m, In (qdiscr x) [-3; -2; -1; 2; 3; 5; 13] -> qdiscr y = qdiscr x ->
  wfq g x -> wfq g y -> q1 (qcoeffs y) <> 0 -> qint_rem g t x y = Ok z ->
  qint_norm t z = Ok n -> qint_norm t y = Ok m -> Z.abs n < Z.abs m.
Proof. exact qint_rem_euclid. Qed.

Lemma L_C24_euclidean_int : forall g t x k z n, In (qdiscr x) [-3; -2; -1; 2; 3; 5; 13] -> wfq g x ->
  qint_rem_int t x k = Ok z -> qint_norm t z = Ok n -> Z.abs n < k * k.
Proof.
  intros g t x k z n D W H N. pose proof (rle_qint_rem_int t x k z H) as H'.
  apply (qint_rem_int_ok g) in H; auto. destruct H as (Wz & K & q & _ & _ & A & B).
  apply (qint_norm_ok g) in N; auto. rewrite N. apply euclid_bound; auto.
  unfold qint_rem_int in H'. destruct (qco_rem_int BigI (qcoeffs x) k); inversion H'; subst. exact D.
Qed.

Lemma L_C24_plain_integer_refuted : exists x y z n m, qreach (Cfg false true) BigI x /\ qreach (Cfg false true) BigI y /\
  qdiscr x = 2 /\ qval y <> RtoC 0 /\ qint_rem (Cfg false true) BigI x y = Ok z /\
  qint_norm BigI z = Ok n /\ qint_norm BigI y = Ok m /\ ~ Z.abs n < Z.abs m.
Proof.
  exists (QInt (QCo 100 1) 2), (QInt (QCo 2 0) 0), (QInt (QCo 50 1) 2), 2498, 4.
  split; [apply (Q_new _ _ 100 1 2); vm_compute; reflexivity|].
  split; [apply (Q_new _ _ 2 0 2); vm_compute; reflexivity|]. split; [reflexivity|].
  split; [rewrite qval_int; apply ZtoC_neq0; lia|]. split; [vm_compute; reflexivity|]. split; [vm_compute; reflexivity|].
  split; [vm_compute; reflexivity|]. lia.
Qed.

Lemma L_C24_left_panics : forall g t x y, wfq g y -> qdiscr x = 0 -> q1 (qcoeffs x) = 0 -> q1 (qcoeffs y) <> 0 ->
  ~ returns (qint_rem g t x y).
Proof. exact q_rem_plain_left. Qed.

Lemma L_C24_returns : forall g x y, wfq g x -> wfq g y -> q1 (qcoeffs x) <> 0 -> q1 (qcoeffs y) <> 0 -> qnested x y ->
  returns (qint_rem g BigI x y).
Proof. exact q_rem_total. Qed.

Lemma L_C25_identity_partial : forall g t x y q z, wfq g x -> wfq g y -> q1 (qcoeffs y) <> 0 ->
  q1 (qcoeffs x) <> 0 \/ qdiscr x = qdiscr y ->
  qint_div g t x y = Ok q -> qint_rem g t x y = Ok z -> qval x = (qval q * qval y + qval z)%C.
Proof. exact qint_div_rem_identity. Qed.

Lemma L_C25_identity_int : forall g t x k q z, wfq g x -> qint_div_int t x k = Ok q -> qint_rem_int t x k = Ok z ->
  qval x = (qval q * ZtoC k + qval z)%C.
Proof.
  intros g t x k q z W Hq Hz. apply rle_qint_div_int in Hq. apply (qint_rem_int_ok g) in Hz; auto.
  destruct Hz as (_ & _ & q' & E & V & _). rewrite Hq in E. inversion E; subst. rewrite V. ring.
Qed.

Lemma L_C25_plain_integer_refuted : exists x y q z, qreach (Cfg false true) BigI x /\ qreach (Cfg false true) BigI y /\
  qval y <> RtoC 0 /\ qint_div (Cfg false true) BigI x y = Ok q /\ qint_rem (Cfg false true) BigI x y = Ok z /\
  qval x <> (qval q * qval y + qval z)%C.
Proof.
  exists (QInt (QCo 5 1) 2), (QInt (QCo 2 0) 0), (QInt (QCo 3 1) 2), (QInt (QCo 3 1) 2).
  split; [apply (Q_new _ _ 5 1 2); vm_compute; reflexivity|]. split; [apply (Q_new _ _ 2 0 2); vm_compute; reflexivity|].
  split; [rewrite qval_int; apply ZtoC_neq0; lia|]. split; [vm_compute; reflexivity|]. split; [vm_compute; reflexivity|].
  intros H. rewrite qval_int in H.
  assert (X : qval (QInt (QCo 5 1) 2) = qval (QInt (QCo 9 3) 2)).
  { rewrite H. unfold qval. cbn [qcoeffs qdiscr q0 q1]. assert (ZtoC 9 = ZtoC 3 * ZtoC 2 + ZtoC 3)%C as -> by (rewrite <- ZtoC_mul, <- ZtoC_add; reflexivity).
    assert (ZtoC 3 = ZtoC 1 * ZtoC 2 + ZtoC 1)%C as -> by (rewrite <- ZtoC_mul, <- ZtoC_add; reflexivity). ring. }
  apply qval_inj in X; [destruct X; discriminate|]. apply (good_rootb_ok (Cfg false true)). reflexivity.
Qed.

Lemma L_C25_stored_root_refuted : exists x y q z, qreach (Cfg false true) BigI x /\ qreach (Cfg false true) BigI y /\
  qval y <> RtoC 0 /\ qint_div (Cfg false true) BigI x y = Ok q /\ qint_rem (Cfg false true) BigI x y = Ok z /\
  qval x <> (qval q * qval y + qval z)%C.
Proof.
  exists (QInt (QCo 5 0) 2), (QInt (QCo 0 1) 18), (QInt (QCo 0 0) 0), (QInt (QCo (-1) 0) 0).
  split. { apply (Q_div_int _ _ (QInt (QCo 15 1) 2) 3); [apply (Q_new _ _ 15 1 2)|]; vm_compute; reflexivity. }
  split; [apply (Q_new _ _ 0 1 18); vm_compute; reflexivity|].
  split. { intros H. rewrite <- ZtoC_0, <- (qval_int 0 18) in H. apply qval_inj in H; [destruct H; discriminate|].
    apply (good_rootb_ok (Cfg false true)). reflexivity. }
  split; [vm_compute; reflexivity|]. split; [vm_compute; reflexivity|].
  rewrite !qval_int. intros H. replace (ZtoC 0 * qval (QInt (QCo 0 1) 18) + ZtoC (-1))%C with (ZtoC (-1)) in H by (rewrite ZtoC_0; ring).
  apply ZtoC_inj in H. discriminate.
Qed.

Lemma L_C26_eq_partial : forall g l r, wfq g l -> wfq g r ->
  exists b, qint_eq BigI l r = Ok b /\
    ((qdiscr l = qdiscr r \/ (qdiscr l <> 0 /\ qdiscr r <> 0)) ->
       (b = true <-> qval l = qval r \/ (qdiscr l <> qdiscr r /\ qval l = qconj r))) /\
    (qdiscr l <> qdiscr r -> (qdiscr l = 0 \/ qdiscr r = 0) -> b = false).
Proof. exact qint_eq_spec. Qed.

Lemma L_C26_eq_transfer : forall t l r b, qint_eq t l r = Ok b -> qint_eq BigI l r = Ok b.
Proof. intros t l r b H. exact (rle_qint_eq t l r b H). Qed.

Lemma L_C26_eq_refuted :
  (exists l r, qreach (Cfg false true) BigI l /\ qreach (Cfg false true) BigI r /\ qint_eq BigI l r = Ok true /\ qval l <> qval r) /\
  (exists l r, qreach (Cfg false true) BigI l /\ qreach (Cfg false true) BigI r /\ qint_eq BigI l r = Ok false /\ qval l = qval r).
Proof.
  split.
  - exists (QInt (QCo 0 3) 2), (QInt (QCo 0 (-1)) 18).
    split; [apply (Q_new _ _ 0 3 2); vm_compute; reflexivity|]. split; [apply (Q_new _ _ 0 (-1) 18); vm_compute; reflexivity|].
    split; [vm_compute; reflexivity|]. intros H.
    assert (X : qval (QInt (QCo 0 3) 2) = qval (QInt (QCo 0 (-3)) 2)).
    { rewrite H. unfold qval. cbn [qcoeffs qdiscr q0 q1]. destruct (omega_md0 2 eq_refl) as [-> _]. destruct (omega_md0 18 eq_refl) as [-> _].
      change 18 with (3 * 3 * 2). rewrite csqrt_scale by lia. change (-3) with (- 1 * 3). rewrite ZtoC_mul. ring. }
    apply qval_inj in X; [destruct X; discriminate|]. apply (good_rootb_ok (Cfg false true)). reflexivity.
  - exists (QInt (QCo 0 0) 2), qint_zero.
    split. { apply (Q_div_int _ _ (QInt (QCo 0 1) 2) 3); [apply (Q_new _ _ 0 1 2)|]; vm_compute; reflexivity. }
    split; [constructor|]. split; [vm_compute; reflexivity|]. unfold qint_zero. rewrite !qval_int. reflexivity.
Qed.

Lemma L_C26_is_rational : forall g x, wfq g x -> (qint_is_rational x = true <-> rational_num (qval x)).
Proof. exact qint_is_rational_spec. Qed.

Lemma L_C26_is_zero : forall g x, wfq g x -> (qint_is_zero x = true <-> qval x = RtoC 0).
Proof. exact qint_is_zero_spec. Qed.

Lemma L_C26_is_one_partial : forall g t x, wfq g x ->
  exists b, qint_is_one t x = Ok b /\ (b = true <-> qdiscr x = 0 /\ qval x = RtoC 1).
Proof.
  intros g t x W. unfold qint_is_one, qint_eq, qint_one. cbn [qdiscr qcoeffs].
  destruct (Z.eqb_spec (qdiscr x) 0) as [Hr|Hr].
  - eexists. split; [reflexivity|]. unfold qco_eqb. cbn [q0 q1].
    assert (Hb : q1 (qcoeffs x) = 0).
    { destruct W as [[B _]|(S & _)]; [exact B|]. exfalso. apply S. rewrite Hr. exists 0. reflexivity. }
    destruct (qval_b0 x Hb) as [-> _]. rewrite Hb, Z.eqb_refl, andb_true_r, Z.eqb_eq.
    split; [intros ->; split; [exact Hr|reflexivity]|intros [_ E]].
    change (RtoC 1) with (ZtoC 1) in E. apply ZtoC_inj in E. exact E.
  - eexists. split; [reflexivity|]. split; [discriminate|tauto].
Qed.

Lemma L_C26_is_one_refuted : exists x, qreach (Cfg false true) BigI x /\ qval x = RtoC 1 /\
  qint_is_one BigI x = Ok false.
Proof.
  exists (QInt (QCo 1 0) 2). split; [|split].
  - apply (Q_div_int _ _ (QInt (QCo 3 1) 2) 3); [apply (Q_new _ _ 3 1 2)|]; vm_compute; reflexivity.
  - destruct (qval_b0 (QInt (QCo 1 0) 2) eq_refl) as [-> _]. reflexivity.
  - reflexivity.
Qed.

Lemma L_C26_is_pure_partial : forall g t x b, wfq g x -> qint_is_pure t x = Ok b ->
  good_root g (qdiscr x) /\
  (qdiscr x mod 4 = 1 -> (b = true <-> (qval x + qconj x)%C = RtoC 0)) /\
  (qdiscr x mod 4 <> 1 -> (b = true <-> rational_num (qval x))).
Proof. exact qint_is_pure_spec. Qed.

Lemma L_C26_is_pure_refuted :
  qint_is_pure BigI (QInt (QCo 0 3) 2) = Ok false /\ (qval (QInt (QCo 0 3) 2) + qconj (QInt (QCo 0 3) 2))%C = RtoC 0 /\
  qint_is_pure BigI (QInt (QCo 3 0) 2) = Ok true /\ qint_is_pure BigI qint_zero = Panic PUnreachable.
Proof.
  split; [vm_compute; reflexivity|]. split; [|split; vm_compute; reflexivity].
  unfold qval, qconj. cbn [qcoeffs qdiscr q0 q1]. destruct (omega_md0 2 eq_refl) as [-> ->]. rewrite ZtoC_0. ring.
Qed.

Lemma L_C27_ring : forall t x y z,
  (gauss_add t x y = Ok z -> gval z = (gval x + gval y)%C) /\ (gauss_sub t x y = Ok z -> gval z = (gval x - gval y)%C) /\
  (gauss_mul t x y = Ok z -> gval z = (gval x * gval y)%C) /\ (gauss_conj t x = Ok z -> gval z = Cconj (gval x)).
Proof.
  intros t x y z. split; [apply gauss_add_ok|]. split; [apply gauss_sub_ok|]. split; [apply gauss_mul_ok|apply gauss_conj_ok].
Qed.

Lemma L_C27_norm : forall t x n, gauss_norm t x = Ok n ->
  (gval x * Cconj (gval x))%C = ZtoC n /\ IZR n = (Cmod (gval x) * Cmod (gval x))%R.
Proof.
  intros t x n H. pose proof (gauss_norm_ok t x n H) as V. split; [auto|].
  apply gauss_norm_m1 in H. rewrite gval_norm in H. subst n. unfold Cmod, gval. cbn [fst snd].
  rewrite sqrt_sqrt by (apply Rplus_le_le_0_compat; apply pow2_ge_0). rewrite plus_IZR, !mult_IZR. ring.
Qed.

Lemma L_C27_div : forall t x y q, gauss_div t x y = Ok q -> rounded_quotient (-1) (gval x) (gval y) (gval q).
Proof. exact gauss_div_ok. Qed.

Lemma L_C27_div_rem : forall t x y q r, gauss_div t x y = Ok q -> gauss_rem t x y = Ok r -> gval x = (gval q * gval y + gval r)%C.
Proof. exact gauss_div_rem. Qed.

Lemma L_C27_euclidean : forall t x y r n m, gauss_rem t x y = Ok r -> gauss_norm t r = Ok n -> gauss_norm t y = Ok m -> 2 * n <= m.
Proof. exact gauss_rem_ok. Qed.

Lemma L_C27_bigint_total : forall t x y,
  returns (gauss_add BigI x y) /\ returns (gauss_sub BigI x y) /\ returns (gauss_mul BigI x y) /\
  returns (gauss_conj BigI x) /\ returns (gauss_norm BigI x) /\
  (gval y <> RtoC 0 -> returns (gauss_div BigI x y) /\ returns (gauss_rem BigI x y)) /\
  (gval y = RtoC 0 -> ~ returns (gauss_div t x y) /\ ~ returns (gauss_rem t x y)).
Proof.
  intros t x y. pose proof (gauss_total x y). repeat (split; [tauto|]). split; [|apply gauss_zero_div].
  intros Y. destruct (gauss_dr_total x y Y) as (q & r & A & B & _). split; eexists; eauto.
Qed.

