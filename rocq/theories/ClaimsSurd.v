(** * ClaimsSurd: proofs of the property theorems about QuadraticSurd (PropsSurd.v). *)

From Coq Require Import ZArith Znumtheory Reals Lia Lra Bool List.
From Coquelicot Require Import Coquelicot.
From Verif Require Import Base Ext ModelSurd Spec SpecReach Transfer NumFacts SurdCore RatioFacts
  SurdArith SurdTotal SurdOrd SurdRound SurdMisc SurdConv SurdSqrt SurdDecide.
Open Scope Z_scope.

Lemma L_C01_normal_form : forall g t s, reachable g t s -> normal g s.
Proof.
  intros g t s H. induction H as
    [a b c r s H|co r s H|a b r s La Lb Lr H|a b c s La Lb Lc H|n|q L| | |n s H|x s R N H|x s R N H|x s R N H
    |x R N|x R N|x s R N H|x s R N H|x s R N H|fuel x s R N H|x k s R N H|x k s R N H|x k s R N H|x k s R N H
    |x q s R N L H|x q s R N L H|x q s R N L H|x q s R N L H
    |x y s R N R' N' H|x y s R N R' N' H|x y s R N R' N' H|x y s R N R' N' H
    |n s H|q s L H|x s R N H|x s k R N H].
  - apply surd_new_ok in H. tauto.
  - apply surd_from_coeffs_ok in H. tauto.
  - apply surd_from_rationals_ok in H; auto using lowest_okd; [tauto|apply Lr].
  - apply surd_from_equation_ok in H; auto. tauto.
  - apply surd_of_int_spec.
  - apply surd_of_ratio_spec; auto.
  - apply (surd_of_int_spec g 0).
  - apply (surd_of_int_spec g 1).
  - unfold surd_from_prim in H. destruct (checked t n); inversion H; subst. apply surd_of_int_spec.
  - apply surd_recip_ok in H; eauto using normal_okc, normal_wf, lowest_okd; tauto.
  - apply surd_conj_ok in H. eapply normal_conj; [eauto|tauto].
  - apply surd_neg_ok in H. eapply normal_neg; [eauto|tauto].
  - destruct N as (N1 & N2 & N3 & N4). unfold normal, parts, surd_numer, new_raw.
    cbn [coeffs c0 c1 c2 discr]. rewrite Z.gcd_1_r. split; [lia|]. auto.
  - apply surd_of_int_spec.
  - eapply surd_trunc_normal; eauto.
  - apply surd_fract_ok in H; tauto.
  - apply rle_surd_floor in H. unfold surd_floor in H.
    destruct x as [[a b c] r]. autorewrite with bigi in H. repeat stepH H. inversion H; subst. apply surd_of_int_spec.
  - apply (surd_reduced_ok g) in H; tauto.
  - apply surd_add_int_ok in H; eauto using normal_okc, normal_wf, lowest_okd; tauto.
  - apply surd_sub_int_ok in H; eauto using normal_okc, normal_wf, lowest_okd; tauto.
  - apply surd_mul_int_ok in H; eauto using normal_okc, normal_wf, lowest_okd; tauto.
  - apply surd_div_int_ok in H; eauto using normal_okc, normal_wf, lowest_okd; tauto.
  - apply surd_add_ratio_ok in H; eauto using normal_okc, normal_wf, lowest_okd; tauto.
  - apply surd_sub_ratio_ok in H; eauto using normal_okc, normal_wf, lowest_okd; tauto.
  - apply surd_mul_ratio_ok in H; eauto using normal_okc, normal_wf, lowest_okd; tauto.
  - apply surd_div_ratio_ok in H; eauto using normal_okc, normal_wf, lowest_okd; tauto.
  - apply surd_add_ok in H; eauto using normal_okc, normal_wf, lowest_okd; tauto.
  - apply surd_sub_ok in H; eauto using normal_okc, normal_wf, lowest_okd; tauto.
  - apply surd_mul_ok in H; eauto using normal_okc, normal_wf, lowest_okd; tauto.
  - apply surd_div_ok in H; eauto using normal_okc, normal_wf, lowest_okd; tauto.
  - apply from_sqrt_int_spec in H. tauto.
  - apply from_sqrt_ratio_spec in H; tauto.
  - apply (from_sqrt_surd_ok g t x) in H; [|auto]. unfold sqrt_post in H. tauto.
  - apply (from_sqrt_surd_ok g t x) in H; [|auto]. unfold sqrt_post in H. tauto.
Qed.

Lemma L_C01_unreduced_ratio_refuted : exists s q,
  reachable (Cfg false true) BigI s /\ surd_to_rational (Cfg false true) BigI s = Ok (Approximated q) /\
  ~ normal (Cfg false true) (surd_of_ratio q).
Proof.
  exists (new_raw 1 1 4 10), (Ratio 4 4). split; [|split].
  - apply (R_new _ _ 1 1 4 10). vm_compute. reflexivity.
  - vm_compute. reflexivity.
  - intros (_ & H & _). vm_compute in H. discriminate.
Qed.

Lemma L_C02_new : forall g t a b c r s, surd_new g t a b c r = Ok s ->
  c <> 0 /\ sval s = ((ZtoC a + ZtoC b * csqrt r) / ZtoC c)%C.
Proof. intros g t a b c r s H. apply surd_new_ok in H. unfold fval in H. tauto. Qed.

Lemma L_C02_from_coeffs : forall g t co r s, surd_from_coeffs g t co r = Ok s ->
  c2 co <> 0 /\ sval s = ((ZtoC (c0 co) + ZtoC (c1 co) * csqrt r) / ZtoC (c2 co))%C.
Proof. intros g t co r s H. apply surd_from_coeffs_ok in H. unfold fval in H. tauto. Qed.

Lemma L_C02_from_rationals : forall g t a b r s, lowest a -> lowest b -> lowest r ->
  surd_from_rationals g t a b r = Ok s ->
  sval s = (qC a + qC b * rcsqrt (rval r))%C.
Proof.
  intros g t a b r s La Lb Lr H.
  apply surd_from_rationals_ok in H; auto using lowest_okd; [tauto|apply Lr].
Qed.

Lemma L_C02_new_returns : forall g a b c r,
  returns (surd_new g BigI a b c r) <-> c <> 0 /\ (cplx g = true \/ 0 <= r).
Proof.
  intros g a b c r. split.
  - intros [s H]. apply surd_new_ok in H. destruct H as (Hc & Hr & _). split; auto.
    destruct (cplx g); auto.
  - intros [Hc Hr]. apply surd_new_total; auto. intros G. destruct Hr; [congruence|auto].
Qed.

Lemma L_C02_from_coeffs_returns : forall g co r,
  returns (surd_from_coeffs g BigI co r) <-> c2 co <> 0 /\ (cplx g = true \/ 0 <= r).
Proof.
  intros g co r. split.
  - intros [s H]. apply surd_from_coeffs_ok in H. destruct H as (Hc & Hr & _). split; auto.
    destruct (cplx g); auto.
  - intros [Hc Hr]. apply surd_from_coeffs_total; auto. intros G. destruct Hr; [congruence|auto].
Qed.

Lemma L_C02_from_rationals_returns : forall g a b r, lowest a -> lowest b -> lowest r ->
  (returns (surd_from_rationals g BigI a b r) <-> cplx g = true \/ (0 <= rval r)%R).
Proof.
  intros g a b r La Lb Lr. split.
  - intros [s H]. destruct (cplx g) eqn:G; auto. right.
    destruct (Rle_lt_dec 0 (rval r)) as [|L]; auto.
    rewrite (surd_from_rationals_panics g a b r) in H; auto; [discriminate|apply Lr].
  - intros Hr. apply surd_from_rationals_total; auto using lowest_okd; [apply Lr|].
    intros G. destruct Hr; [congruence|auto].
Qed.

Lemma L_C03_add : forall g t l r s, normal g l -> normal g r ->
  surd_add g t l r = Ok s -> sval s = (sval l + sval r)%C.
Proof. intros g t l r s Hl Hr H. apply surd_add_ok in H; auto using normal_wf. tauto. Qed.

Lemma L_C03_sub : forall g t l r s, normal g l -> normal g r ->
  surd_sub g t l r = Ok s -> sval s = (sval l - sval r)%C.
Proof. intros g t l r s Hl Hr H. apply surd_sub_ok in H; auto using normal_wf. tauto. Qed.

Lemma L_C03_add_sub_ratio : forall g t x q s, normal g x -> lowest q ->
  (surd_add_ratio g t x q = Ok s -> sval s = (sval x + qC q)%C) /\
  (surd_sub_ratio g t x q = Ok s -> sval s = (sval x - qC q)%C).
Proof.
  intros g t x q s N L. pose proof (normal_okc _ _ N). pose proof (lowest_okd _ L). split; intros E.
  - apply surd_add_ratio_ok in E; auto; tauto.
  - apply surd_sub_ratio_ok in E; auto; tauto.
Qed.

Lemma L_C03_add_sub_int : forall g t x k s, normal g x ->
  (surd_add_int g t x k = Ok s -> sval s = (sval x + ZtoC k)%C) /\
  (surd_sub_int g t x k = Ok s -> sval s = (sval x - ZtoC k)%C).
Proof.
  intros g t x k s N. pose proof (normal_okc _ _ N). split; intros E.
  - apply surd_add_int_ok in E; auto; tauto.
  - apply surd_sub_int_ok in E; auto; tauto.
Qed.

Lemma imaginary_iff g s : normal g s ->
  (is_pure s = true /\ discr s < 0) <-> imaginary (sval s).
Proof.
  intros N. pose proof (normal_okc _ _ N) as O. unfold okc in O.
  assert (Rc := IZR_neq0 _ O). split.
  - intros [P D]. apply is_pure_c0 in P. destruct P as [P0 P1].
    unfold imaginary. rewrite sval_fval, P0. unfold fval. rewrite csqrt_neg by auto.
    unfold ZtoC, RtoC, Cdiv, Cinv, Cmult, Cplus; cbn [fst snd]. split; [field; auto|].
    assert (Hs : (0 < sqrt (IZR (- discr s)))%R) by (apply sqrt_lt_R0; apply IZR_lt; lia).
    assert (Rb := IZR_neq0 _ P1). intros X.
    assert (Y : (IZR (c1 (coeffs s)) * sqrt (IZR (- discr s)) = 0)%R).
    { match type of X with ?l = _ =>
        replace (IZR (c1 (coeffs s)) * sqrt (IZR (- discr s)))%R with (l * IZR (c2 (coeffs s)))%R by (field; auto) end.
      rewrite X. ring. }
    apply Rmult_integral in Y. destruct Y; lra.
  - intros [F S]. destruct (Z.lt_ge_cases (discr s) 0) as [D|D].
    + split; [|auto]. rewrite sval_fval, fst_fval in F by auto.
      assert (A : c0 (coeffs s) = 0).
      { apply eq_IZR. replace (IZR (c0 (coeffs s))) with (IZR (c0 (coeffs s)) / IZR (c2 (coeffs s)) * IZR (c2 (coeffs s)))%R by (field; auto).
        rewrite F. ring. }
      unfold is_pure. rewrite A. destruct (Z.eqb_spec (c1 (coeffs s)) 0) as [B|B]; [|reflexivity].
      exfalso. apply S. rewrite sval_fval, A, B, fval_b0, ZtoC_0. unfold Cdiv. rewrite Cmult_0_l. reflexivity.
    + exfalso. apply S. rewrite (sval_rs s) by auto. reflexivity.
Qed.

Lemma both_imag_iff g l r : normal g l -> normal g r ->
  (both_imag l r = true <-> imaginary (sval l) /\ imaginary (sval r)).
Proof.
  intros Nl Nr. rewrite <- (imaginary_iff g l Nl), <- (imaginary_iff g r Nr). unfold both_imag.
  rewrite !andb_true_iff, !Z.ltb_lt. tauto.
Qed.

Lemma both_imag_irr g l r : normal g l -> normal g r -> both_imag l r = true ->
  is_rational l || is_rational r = false.
Proof.
  intros Nl Nr H. unfold both_imag in H. rewrite !andb_true_iff, !Z.ltb_lt in H.
  destruct H as (((P1 & P2) & D1) & D2). apply is_pure_c0 in P1. apply is_pure_c0 in P2.
  unfold is_rational. destruct (Z.eqb_spec (c1 (coeffs l)) 0), (Z.eqb_spec (c1 (coeffs r)) 0),
    (Z.eqb_spec (discr l) 0), (Z.eqb_spec (discr r) 0); try lia; reflexivity.
Qed.

Lemma L_C04_mul_partial : forall g t l r s, normal g l -> normal g r ->
  ~ (imaginary (sval l) /\ imaginary (sval r)) ->
  surd_mul g t l r = Ok s -> sval s = (sval l * sval r)%C.
Proof.
  intros g t l r s Nl Nr Hi H. apply surd_mul_ok in H; auto using normal_wf. destruct H as [_ V].
  rewrite V. destruct (is_rational l || is_rational r); auto.
  destruct (both_imag l r) eqn:B; [apply (both_imag_iff g) in B; tauto|]. unfold sgnC. ring.
Qed.

Lemma L_C04_mul_imaginary : forall g t l r s, normal g l -> normal g r ->
  imaginary (sval l) -> imaginary (sval r) ->
  surd_mul g t l r = Ok s -> sval s = (- (sval l * sval r))%C.
Proof.
  intros g t l r s Nl Nr Il Ir H. apply surd_mul_ok in H; auto using normal_wf. destruct H as [_ V].
  assert (B : both_imag l r = true) by (apply (both_imag_iff g); auto).
  rewrite V, (both_imag_irr g l r Nl Nr B), B. unfold sgnC. ring.
Qed.

Lemma L_C04_refuted : exists l r s, normal (Cfg true true) l /\ normal (Cfg true true) r /\
  surd_mul (Cfg true true) BigI l r = Ok s /\ sval s <> (sval l * sval r)%C.
Proof.
  exists (new_raw 0 1 1 (-1)), (new_raw 0 1 1 (-1)), (new_raw 1 0 1 0).
  assert (N : normal (Cfg true true) (new_raw 0 1 1 (-1))).
  { apply normalb_ok; vm_compute; reflexivity. }
  split; [auto|]. split; [auto|]. split; [vm_compute; reflexivity|].
  rewrite !sval_raw. unfold fval. rewrite ZtoC_1, ZtoC_0. intros H.
  assert (I : (csqrt (-1) * csqrt (-1))%C = ZtoC (-1)) by apply csqrt_sq.
  replace ((RtoC 0 + RtoC 1 * csqrt (-1)) / RtoC 1)%C with (csqrt (-1)) in H by (field; intros X; apply RtoC_inj in X; lra).
  rewrite I in H. replace ((RtoC 1 + RtoC 0 * csqrt 0) / RtoC 1)%C with (RtoC 1) in H by (field; intros X; apply RtoC_inj in X; lra).
  apply RtoC_inj in H. lra.
Qed.

Lemma L_C04_mul_ratio_int : forall g t x q k s, normal g x -> lowest q ->
  (surd_mul_ratio g t x q = Ok s -> sval s = (sval x * qC q)%C) /\
  (surd_mul_int g t x k = Ok s -> sval s = (sval x * ZtoC k)%C).
Proof.
  intros g t x q k s N L. pose proof (normal_okc _ _ N). pose proof (lowest_okd _ L). split; intros E.
  - apply surd_mul_ratio_ok in E; auto; tauto.
  - apply surd_mul_int_ok in E; auto; tauto.
Qed.

Lemma L_C05_div_partial : forall g t l r s, normal g l -> normal g r ->
  ~ (imaginary (sval l) /\ imaginary (sval r)) ->
  surd_div g t l r = Ok s -> sval r <> RtoC 0 /\ sval s = (sval l / sval r)%C.
Proof.
  intros g t l r s Nl Nr Hi H. apply surd_div_ok in H; auto using normal_wf. destruct H as (_ & H0 & V).
  split; auto. rewrite V. destruct (is_rational l || is_rational r); auto.
  destruct (both_imag l r) eqn:B; [apply (both_imag_iff g) in B; tauto|]. unfold sgnC. ring.
Qed.

Lemma L_C05_div_imaginary : forall g t l r s, normal g l -> normal g r ->
  imaginary (sval l) -> imaginary (sval r) ->
  surd_div g t l r = Ok s -> sval s = (- (sval l / sval r))%C.
Proof.
  intros g t l r s Nl Nr Il Ir H. apply surd_div_ok in H; auto using normal_wf. destruct H as (_ & _ & V).
  assert (B : both_imag l r = true) by (apply (both_imag_iff g); auto).
  rewrite V, (both_imag_irr g l r Nl Nr B), B. unfold sgnC. ring.
Qed.

Lemma L_C05_recip : forall g t x s, normal g x -> surd_recip g t x = Ok s ->
  sval x <> RtoC 0 /\ sval s = (/ sval x)%C.
Proof. intros g t x s N H. apply surd_recip_ok in H; [tauto|eapply normal_okc; eauto]. Qed.

Lemma L_C05_div_ratio_int : forall g t x q k s, normal g x -> lowest q ->
  (surd_div_ratio g t x q = Ok s -> sval s = (sval x / qC q)%C) /\
  (surd_div_int g t x k = Ok s -> sval s = (sval x / ZtoC k)%C).
Proof.
  intros g t x q k s N L. pose proof (normal_okc _ _ N). pose proof (lowest_okd _ L). split; intros E.
  - apply surd_div_ratio_ok in E; auto; tauto.
  - apply surd_div_int_ok in E; auto; tauto.
Qed.

Lemma L_C05_refuted : exists l r s, normal (Cfg true true) l /\ normal (Cfg true true) r /\
  surd_div (Cfg true true) BigI l r = Ok s /\ sval s <> (sval l / sval r)%C.
Proof.
  exists (new_raw 0 1 1 (-1)), (new_raw 0 1 1 (-1)), (new_raw (-1) 0 1 0).
  assert (N : normal (Cfg true true) (new_raw 0 1 1 (-1))).
  { apply normalb_ok; vm_compute; reflexivity. }
  split; [auto|]. split; [auto|]. split; [vm_compute; reflexivity|].
  assert (I : imaginary (sval (new_raw 0 1 1 (-1)))).
  { apply (imaginary_iff (Cfg true true)); auto. split; [reflexivity|]. cbn. lia. }
  intros H.
  assert (K : sval (new_raw (-1) 0 1 0) = (- (sval (new_raw 0 1 1 (-1)) / sval (new_raw 0 1 1 (-1))))%C).
  { apply (L_C05_div_imaginary (Cfg true true) BigI); auto. }
  rewrite K in H. assert (Z0 : sval (new_raw 0 1 1 (-1)) <> RtoC 0).
  { intros X. destruct I as [_ I]. rewrite X in I. apply I. reflexivity. }
  replace (sval (new_raw 0 1 1 (-1)) / sval (new_raw 0 1 1 (-1)))%C with (RtoC 1) in H by (field; auto).
  rewrite <- RtoC_opp in H. apply RtoC_inj in H. lra.
Qed.

Lemma L_C05_zero_refuted : exists l r, normal (Cfg false true) l /\ normal (Cfg false true) r /\
  sval l = RtoC 0 /\ sval r <> RtoC 0 /\ ~ returns (surd_div (Cfg false true) BigI l r).
Proof.
  exists (surd_of_int 0), (new_raw 0 1 1 2).
  split; [apply surd_of_int_spec|]. assert (N : normal (Cfg false true) (new_raw 0 1 1 2)) by (apply normalb_ok; vm_compute; reflexivity).
  split; [auto|]. split; [apply (surd_of_int_spec (Cfg false true) 0)|]. split.
  - intros X. apply (sval_zero_iff _ _ N) in X. cbn in X. lia.
  - intros [v H]. vm_compute in H. discriminate.
Qed.

Lemma nested_compatible g l r : normal g l -> normal g r -> nested_roots l r -> compatible l r.
Proof.
  intros Nl Nr [H|[H|H]].
  - left. apply (normal_is_rational g l Nl). auto.
  - right; left. apply (normal_is_rational g r Nr). auto.
  - right; right. auto.
Qed.

Lemma L_C06_same_field_partial : forall g l r, normal g l -> normal g r -> nested_roots l r ->
  returns (surd_add g BigI l r) /\ returns (surd_sub g BigI l r) /\ returns (surd_mul g BigI l r) /\
  (sval r <> RtoC 0 -> (sval l <> RtoC 0 \/ rational_num (sval r)) -> returns (surd_div g BigI l r)).
Proof.
  intros g l r Nl Nr C. apply (nested_compatible g) in C; auto.
  pose proof (normal_wf _ _ Nl). pose proof (normal_wf _ _ Nr).
  split; [apply surd_add_total; auto|]. split; [apply surd_sub_total; auto|].
  split; [apply surd_mul_total; auto|]. intros H1 H2. apply surd_div_total; auto.
  destruct H2; auto. right. apply (normal_is_rational g r Nr). auto.
Qed.

Lemma L_C06_pure_mul_div : forall g l r, normal g l -> normal g r -> pure_surd l -> pure_surd r ->
  returns (surd_mul g BigI l r) /\ returns (surd_div g BigI l r).
Proof.
  intros g l r Nl Nr Pl Pr. apply (normal_is_pure g l Nl) in Pl. apply (normal_is_pure g r Nr) in Pr.
  split; [apply surd_mul_total; auto using normal_wf|].
  apply surd_div_total; auto; [|left]; intros X; apply sval_zero_iff with (g := g) in X; auto;
    [apply is_pure_c0 in Pr|apply is_pure_c0 in Pl]; tauto.
Qed.

Lemma bin_op_one g t l r l' r' : reduce_bin_op g t l r = Ok (Some (l', r')) -> l' = l \/ r' = r.
Proof.
  unfold reduce_bin_op. intros H.
  repeat match type of H with
  | Ok _ = Ok _ => inversion H; clear H; subst
  | bind ?x _ = _ => destruct x as [?| |] eqn:?; cbn [bind] in H; try discriminate
  | (if ?x then _ else _) = _ => destruct x eqn:?; try discriminate
  | Ok (if ?x then _ else _) = _ => destruct x eqn:?; try discriminate
  | (let (_, _) := ?x in _) = _ => destruct x
  end; auto.
  all: repeat match goal with
  | X : (if ?x then _ else _) = Ok _ |- _ => destruct x eqn:?
  | X : bind ?x _ = Ok _ |- _ => destruct x as [?| |] eqn:?; cbn [bind] in X; try discriminate
  | X : Ok _ = Ok _ |- _ => inversion X; clear X; subst
  end; auto.
  all: match goal with X : (if ?x then Some _ else None) = Some _ |- _ => destruct x; [inversion X; auto|discriminate X] end.
Qed.
Lemma bin_op_panics g l r : wf g l -> wf g r -> is_rational l = false -> is_rational r = false -> ~ compatible l r ->
  reduce_bin_op_unwrap g BigI l r = Panic PIncompatible.
Proof.
  intros Hl Hr Il Ir NC. pose proof Il as Jl. pose proof Ir as Jr. apply is_rational_false in Jl, Jr.
  destruct (reduce_bin_op_big g l r) as (o & E & H1 & _); try apply Hl; try apply Hr; try tauto.
  { intros X; split; [apply Hl|apply Hr]; auto. }
  unfold reduce_bin_op_unwrap. rewrite E. cbn [bind]. destruct o as [[l' r']|]; [|reflexivity]. exfalso. apply NC.
  destruct (H1 l' r' eq_refl) as (_ & _ & _ & _ & D & (k1 & K1 & E1) & (k2 & K2 & E2)). right; right.
  destruct (bin_op_one _ _ _ _ _ _ E) as [-> | ->].
  - exists k2. split; [auto|]. right. rewrite E2, D. reflexivity.
  - exists k1. split; [auto|]. left. rewrite E1, D. reflexivity.
Qed.

Lemma nested_dec g l r : normal g l -> normal g r -> nested_roots l r \/ ~ nested_roots l r.
Proof.
  intros Nl Nr. destruct (is_rational l) eqn:Il; [left; left; apply (normal_is_rational g l Nl); auto|].
  destruct (is_rational r) eqn:Ir; [left; right; left; apply (normal_is_rational g r Nr); auto|].
  pose proof (normal_wf _ _ Nl) as Hl. pose proof (normal_wf _ _ Nr) as Hr. pose proof Il as Jl. pose proof Ir as Jr. apply is_rational_false in Jl, Jr.
  assert (W : cplx g = false -> 0 <= discr l /\ 0 <= discr r) by (intros X; split; [apply Hl|apply Hr]; auto).
  assert (Ol : okc l) by apply Hl. assert (Or : okc r) by apply Hr.
  destruct (reduce_bin_op_big g l r Ol Or ltac:(tauto) ltac:(tauto) W) as (o & E & H1 & H2).
  destruct o as [[l' r']|].
  - left. right; right. destruct (H1 l' r' eq_refl) as (_ & _ & _ & _ & D & (k1 & K1 & E1) & (k2 & K2 & E2)). destruct (bin_op_one _ _ _ _ _ _ E) as [-> | ->].
    + exists k2. split; [auto|]. right. rewrite E2, D. reflexivity.
    + exists k1. split; [auto|]. left. rewrite E1, D. reflexivity.
  - right. intros [X|[X|(k & Hk & X)]].
    + apply (normal_is_rational g l Nl) in X. congruence.
    + apply (normal_is_rational g r Nr) in X. congruence.
    + destruct (H2 eq_refl k Hk). tauto.
Qed.

Lemma L_C06_panics : forall g l r, normal g l -> normal g r -> ~ nested_roots l r ->
  surd_add g BigI l r = Panic PIncompatible /\ surd_sub g BigI l r = Panic PIncompatible /\
  (~ (pure_surd l /\ pure_surd r) -> surd_mul g BigI l r = Panic PIncompatible /\ surd_div g BigI l r = Panic PIncompatible).
Proof.
  intros g l r Nl Nr NC.
  destruct (is_rational l) eqn:Il; [exfalso; apply NC; left; apply (normal_is_rational g l Nl); auto|].
  destruct (is_rational r) eqn:Ir; [exfalso; apply NC; right; left; apply (normal_is_rational g r Nr); auto|].
  assert (E : reduce_bin_op_unwrap g BigI l r = Panic PIncompatible).
  { apply bin_op_panics; auto using normal_wf. intros [X|[X|X]]; [congruence|congruence|]. apply NC. right; right. exact X. }
  split; [unfold surd_add; rewrite Il, Ir, E; reflexivity|]. split; [unfold surd_sub; rewrite Il, Ir, E; reflexivity|]. intros NP.
  assert (P : is_pure l && is_pure r = false).
  { destruct (is_pure l && is_pure r) eqn:P; [|auto]. exfalso. apply NP. apply andb_prop in P. destruct P as [Pl Pr].
    split; [apply (normal_is_pure g l Nl)|apply (normal_is_pure g r Nr)]; auto. }
  split; [unfold surd_mul|unfold surd_div]; rewrite Il, Ir, P, E; reflexivity.
Qed.

Lemma L_C06_div_iff : forall g l r, normal g l -> normal g r ->
  (returns (surd_div g BigI l r) <->
   sval r <> RtoC 0 /\ (sval l <> RtoC 0 \/ rational_num (sval r)) /\ (nested_roots l r \/ (pure_surd l /\ pure_surd r))).
Proof.
  intros g l r Nl Nr. split.
  - intros [s Hs]. assert (D1 : sval r <> RtoC 0).
    { intros Z. apply (L_C05_div_partial g BigI l r s Nl Nr) in Hs; [tauto|]. intros [_ [_ X]]. rewrite Z in X. apply X. reflexivity. }
    split; [auto|]. split.
    + destruct (is_rational r) eqn:Ir; [right; apply (normal_is_rational g r Nr); auto|]. left. intros Z.
      apply (sval_zero_iff g l Nl) in Z. destruct Z as [Z0 Z1]. assert (Il : is_rational l = true) by (unfold is_rational; rewrite Z1; reflexivity).
      unfold surd_div in Hs. rewrite Ir, Il, Z0 in Hs. pose proof (normal_okc _ _ Nl) as O. unfold okc in O.
      unfold ratio_new in Hs. destruct (Z.eqb_spec (c2 (coeffs l)) 0); [congruence|]. cbn [Z.eqb bind] in Hs.
      unfold surd_div_ratio, sco_div_ratio in Hs. cbn [numer denom lift2 bind mulT chk fits] in Hs. rewrite Z.mul_0_r in Hs.
      unfold surd_from_coeffs, surd_reduce in Hs. destruct (negb (cplx g) && (discr r <? 0)); discriminate.
    + destruct (nested_dec g l r Nl Nr) as [H|H]; [auto|]. right. destruct (is_pure l && is_pure r) eqn:P.
      { apply andb_prop in P. destruct P as [Pl Pr]. split; [apply (normal_is_pure g l Nl)|apply (normal_is_pure g r Nr)]; auto. }
      destruct (L_C06_panics g l r Nl Nr H) as (_ & _ & K). destruct K as [_ K2]; [|congruence].
      intros [Pl Pr]. apply (normal_is_pure g l Nl) in Pl. apply (normal_is_pure g r Nr) in Pr. rewrite Pl, Pr in P. discriminate.
  - intros (D & Z & [N|[Pl Pr]]).
    + destruct (L_C06_same_field_partial g l r Nl Nr N) as (_ & _ & _ & K). apply K; auto.
    + apply (L_C06_pure_mul_div g l r Nl Nr Pl Pr).
Qed.

Lemma L_C06_refuted : exists l r, normal (Cfg false true) l /\ normal (Cfg false true) r /\
  same_field l r /\ surd_add (Cfg false true) BigI l r = Panic PIncompatible.
Proof.
  exists (new_raw 0 1 1 8), (new_raw 0 1 1 18).
  split; [apply normalb_ok; vm_compute; reflexivity|]. split; [apply normalb_ok; vm_compute; reflexivity|].
  split; [|vm_compute; reflexivity]. right; right. exists 3, 2. cbn. lia.
Qed.

Lemma L_C07_neg : forall g t x s, normal g x -> surd_neg t x = Ok s -> sval s = (- sval x)%C.
Proof. intros g t x s _ H. apply surd_neg_ok in H. tauto. Qed.

Lemma L_C07_conj : forall t x s, surd_conj t x = Ok s -> sval s = sconj x.
Proof. intros t x s H. apply surd_conj_ok in H. tauto. Qed.

Lemma L_C07_conj_conj : forall t x y z, surd_conj t x = Ok y -> surd_conj t y = Ok z -> z = x.
Proof.
  intros t x y z H1 H2. apply surd_conj_ok in H1. apply surd_conj_ok in H2.
  destruct H1 as [_ H1]. destruct H2 as [_ H2]. unfold parts in *.
  destruct x as [[a b c] r], y as [[a' b' c'] r'], z as [[a2 b2 c2'] r2]. cbn [coeffs c0 c1 c2 discr] in *.
  inversion H1; inversion H2; subst. rewrite Z.opp_involutive. reflexivity.
Qed.

Lemma L_C07_trace_norm_rational : forall g x, normal g x ->
  rational_num (sval x + sconj x)%C /\ rational_num (sval x * sconj x)%C.
Proof.
  intros g x N. pose proof (normal_okc _ _ N) as O. rewrite (sval_parts x O), (sconj_parts x O). split.
  - replace (rpart x + ipart x + (rpart x - ipart x))%C with (rpart x + rpart x)%C by ring.
    apply rational_add; apply rpart_rational; auto.
  - replace ((rpart x + ipart x) * (rpart x - ipart x))%C with (rpart x * rpart x + - (ipart x * ipart x))%C by ring.
    apply rational_add; [apply rational_mul; apply rpart_rational; auto|].
    apply rational_opp. apply ipart_sq_rational; auto.
Qed.

Lemma L_C07_numer_denom : forall g x, normal g x ->
  sval (surd_denom x) <> RtoC 0 /\ sval x = (sval (surd_numer x) / sval (surd_denom x))%C.
Proof.
  intros g x N. pose proof (normal_okc _ _ N) as O. unfold okc in O. unfold surd_numer, surd_denom.
  rewrite (proj1 (surd_of_int_spec g _)), sval_raw, (sval_fval x). split; [apply ZtoC_neq0; auto|].
  unfold fval. rewrite ZtoC_1. field. split; [intros X; apply RtoC_inj in X; lra|apply ZtoC_neq0; auto].
Qed.

Lemma L_C07_returns : forall g x, normal g x ->
  returns (surd_neg BigI x) /\ returns (surd_conj BigI x) /\
  (sval x <> RtoC 0 -> returns (surd_recip g BigI x)).
Proof.
  intros g x N. split; [apply surd_neg_total|]. split; [apply surd_conj_total|].
  intros H. apply surd_recip_total; [apply normal_wf; auto|]. apply (normal_norm_neq0 g); auto.
Qed.

Lemma L_C08_eq_partial : forall g t l r b, normal g l -> normal g r -> surd_eq t l r = Ok b ->
  (b = true <-> sval l = sval r \/ (discr l <> discr r /\ sval l = sconj r)).
Proof.
  intros g t l r b Nl Nr H. apply rle_surd_eq in H.
  destruct (surd_eq_spec g l r Nl Nr) as (b' & E & S). rewrite H in E. inversion E; subst. auto.
Qed.

Lemma L_C08_eq_same_root : forall g t l r b, normal g l -> normal g r -> surd_eq t l r = Ok b ->
  (discr l = discr r \/ sval l <> sconj r) -> (b = true <-> sval l = sval r).
Proof.
  intros g t l r b Nl Nr H D. pose proof (L_C08_eq_partial g t l r b Nl Nr H). tauto.
Qed.

Lemma L_C08_eq_returns : forall l r, returns (surd_eq BigI l r).
Proof. intros l r. apply surd_eq_big. Qed.

Lemma L_C08_refuted : exists l r, normal (Cfg false true) l /\ normal (Cfg false true) r /\
  surd_eq BigI l r = Ok true /\ sval l <> sval r.
Proof.
  exists (new_raw 0 1 1 8), (new_raw 0 (-2) 1 2).
  split; [apply normalb_ok; vm_compute; reflexivity|]. split; [apply normalb_ok; vm_compute; reflexivity|].
  split; [vm_compute; reflexivity|].
  rewrite !sval_raw. unfold fval. rewrite !csqrt_nonneg by lia. unfold ZtoC.
  rewrite <- !RtoC_mult, <- !RtoC_plus, <- !RtoC_div by lra. intros H. apply RtoC_inj in H.
  assert (0 < sqrt (IZR 8))%R by (apply sqrt_lt_R0; lra).
  assert (0 < sqrt (IZR 2))%R by (apply sqrt_lt_R0; lra). lra.
Qed.

Lemma L_C51_hash_partial : forall g t l r, normal g l -> normal g r -> discr l = discr r ->
  surd_eq t l r = Ok true -> hash_data l = hash_data r.
Proof.
  intros g t l r Nl Nr D H. assert (V : sval l = sval r).
  { apply (L_C08_eq_same_root g t l r true); auto. }
  rewrite (normal_unique g l r Nl Nr D V). reflexivity.
Qed.

Lemma L_C51_refuted : exists l r, normal (Cfg false true) l /\ normal (Cfg false true) r /\
  sval l = sval r /\ surd_eq BigI l r = Ok true /\ hash_data l <> hash_data r.
Proof.
  exists (new_raw 0 1 1 8), (new_raw 0 2 1 2).
  split; [apply normalb_ok; vm_compute; reflexivity|]. split; [apply normalb_ok; vm_compute; reflexivity|].
  split; [|split; [vm_compute; reflexivity|discriminate]].
  rewrite !sval_raw. change 8 with (2 * 2 * 2). rewrite fval_root by lia. reflexivity.
Qed.

Lemma L_C09_is_positive : forall g t s x b, normal g s -> sval s = RtoC x ->
  surd_is_positive g t s = Ok b -> (b = true <-> (0 < x)%R).
Proof.
  intros g t s x b N V H. apply rle_surd_is_positive in H. destruct (normal_real g s x N V) as [D ->].
  destruct (surd_is_positive_big g s N D) as (b' & E & S). rewrite H in E. inversion E; subst. auto.
Qed.

Lemma L_C09_is_negative : forall g t s x b, normal g s -> sval s = RtoC x ->
  surd_is_negative g t s = Ok b -> (b = true <-> (x < 0)%R).
Proof.
  intros g t s x b N V H. apply rle_surd_is_negative in H. destruct (normal_real g s x N V) as [D ->].
  destruct (surd_is_negative_big g s N D) as (b' & E & S). rewrite H in E. inversion E; subst. auto.
Qed.

Lemma L_C09_returns : forall g s x, normal g s -> sval s = RtoC x ->
  returns (surd_is_positive g BigI s) /\ returns (surd_is_negative g BigI s).
Proof.
  intros g s x N V. destruct (normal_real g s x N V) as [D _].
  destruct (surd_is_positive_big g s N D) as (b & E & _).
  destruct (surd_is_negative_big g s N D) as (b' & E' & _). split; eexists; eauto.
Qed.

Lemma L_C10_floor : forall g t s x v, normal g s -> sval s = RtoC x ->
  surd_floor g t s = Ok v -> exists n, sval v = ZtoC n /\ isfloor x n.
Proof.
  intros g t s x v N V H. apply rle_surd_floor in H. destruct (normal_real g s x N V) as [D ->].
  destruct (surd_floor_big g s N D) as (n & E & S). rewrite H in E. inversion E; subst.
  exists n. split; auto. apply (surd_of_int_spec g).
Qed.

Lemma L_C10_returns : forall g s x, normal g s -> sval s = RtoC x -> returns (surd_floor g BigI s).
Proof.
  intros g s x N V. destruct (normal_real g s x N V) as [D _].
  destruct (surd_floor_big g s N D) as (n & E & _). eexists; eauto.
Qed.

Lemma L_C11_trunc_complex : forall g t s v, normal g s -> ~ (exists x, sval s = RtoC x) ->
  surd_trunc g t s = Ok v ->
  exists m n, sval v = (IZR m, IZR n) /\ istrunc (fst (sval s)) m /\ istrunc (snd (sval s)) n.
Proof.
  intros g t s v N V H. apply rle_surd_trunc in H.
  apply (normal_is_complex g s N) in V. unfold is_complex in V. apply Z.ltb_lt in V.
  destruct (surd_trunc_complex g s N V) as (s' & m & n & E & Vs & _ & T1 & T2).
  rewrite H in E. inversion E; subst. eauto.
Qed.

Lemma L_C11_trunc_real_partial : forall g t s x v, normal g s -> sval s = RtoC x ->
  surd_trunc g t s = Ok v ->
  exists n, sval v = ZtoC n /\ (IZR n - 1 < x < IZR n + 1)%R /\
    ((0 <= IZR (c1 (coeffs s)) * x)%R -> istrunc x n) /\
    ((IZR (c1 (coeffs s)) * x < 0)%R -> (istrunc x n <->
       ~ (c2 (coeffs s) | c0 (coeffs s) + Z.sgn (c1 (coeffs s)) * Z.sqrt (c1 (coeffs s) * c1 (coeffs s) * discr s)))).
Proof.
  intros g t s x v N V H. apply rle_surd_trunc in H. destruct (normal_real g s x N V) as [D ->].
  destruct (surd_trunc_real g s N D) as (n & E & S). rewrite H in E. inversion E; subst.
  exists n. split; [apply (surd_of_int_spec g)|]. exact S.
Qed.

Lemma L_C11_returns : forall g s, normal g s -> returns (surd_trunc g BigI s).
Proof.
  intros g s N. destruct (Z.lt_ge_cases (discr s) 0) as [D|D].
  - destruct (surd_trunc_complex g s N D) as (s' & m & n & E & _). eexists; eauto.
  - destruct (surd_trunc_real g s N D) as (n & E & _). eexists; eauto.
Qed.

Lemma L_C11_refuted : exists s x v, normal (Cfg false true) s /\ sval s = RtoC x /\
  surd_trunc (Cfg false true) BigI s = Ok v /\ forall n, sval v = ZtoC n -> ~ istrunc x n.
Proof.
  exists (new_raw 2 (-1) 1 2), (2 - sqrt 2)%R, (new_raw 1 0 1 0).
  assert (N : normal (Cfg false true) (new_raw 2 (-1) 1 2)).
  { apply normalb_ok; vm_compute; reflexivity. }
  split; [auto|]. split; [|split; [vm_compute; reflexivity|]].
  - rewrite sval_raw. unfold fval. rewrite csqrt_nonneg by lia. unfold ZtoC.
    rewrite <- !RtoC_mult, <- !RtoC_plus, <- !RtoC_div by lra. f_equal. field.
  - intros n Hn. rewrite sval_raw, fval_b0 in Hn. unfold ZtoC in Hn. rewrite <- RtoC_div in Hn by lra.
    apply RtoC_inj in Hn. intros [T _].
    pose proof (sqrt_sqrt 2 ltac:(lra)) as Q. pose proof (sqrt_pos 2) as P.
    assert (1 < sqrt 2 < 2)%R by (split; nra). assert (IZR n = 1)%R by lra. lra.
Qed.

Lemma L_C12_trunc_fract : forall g t s f, normal g s -> surd_fract g t s = Ok f ->
  exists v, surd_trunc g t s = Ok v /\ sval f = (sval s - sval v)%C /\
    forall r, surd_add g t v f = Ok r -> sval r = sval s.
Proof.
  intros g t s f N H. apply surd_fract_ok in H; auto. destruct H as (Nf & v & E & Nv & V).
  exists v. split; [auto|]. split; [auto|]. intros r Hr.
  apply surd_add_ok in Hr; auto using normal_wf. destruct Hr as [Vr _]. rewrite Vr, V. ring.
Qed.

Lemma L_C13_to_integer_exact : forall g t s v, normal g s ->
  surd_to_integer g t s = Ok (Exact v) -> sval s = ZtoC v.
Proof. intros g t s v N H. apply (surd_to_integer_ok g t s _ N H). Qed.

Lemma L_C13_to_integer_complete : forall g t s v, normal g s -> sval s = ZtoC v ->
  surd_to_integer g t s = Ok (Exact v).
Proof. intros g t s v N H. apply surd_to_integer_exact; auto. apply (normal_real g s _ N H). Qed.

Lemma L_C13_to_integer_approx_partial : forall g t s x v, normal g s -> sval s = RtoC x ->
  surd_to_integer g t s = Ok (Approximated v) ->
  ~ integer_num (sval s) /\ (IZR v - 1 < x < IZR v + 1)%R /\
  ((0 <= IZR (c1 (coeffs s)) * x)%R -> istrunc x v).
Proof.
  intros g t s x v N V H. apply surd_to_integer_ok in H; auto. destruct H as (Hi & Ht & _).
  split; [auto|]. destruct (L_C11_trunc_real_partial g t s x _ N V Ht) as (n & En & B & T & _).
  rewrite (proj1 (surd_of_int_spec g v)) in En. apply ZtoC_inj in En. subst n. auto.
Qed.

Lemma L_C13_to_rational_exact : forall g t s q, normal g s ->
  surd_to_rational g t s = Ok (Exact q) -> sval s = qC q /\ lowest q.
Proof. intros g t s q N H. apply (surd_to_rational_ok g t s _ N H). Qed.

Lemma L_C13_to_rational_complete : forall g t s x, normal g s -> sval s = RtoC x ->
  rational_num (sval s) -> exists q, surd_to_rational g t s = Ok (Exact q) /\ rval q = x.
Proof.
  intros g t s x N V R. apply (normal_is_rational g s N) in R.
  pose proof (surd_to_rational_rational g t s N R) as E. rewrite E. eexists. split; [reflexivity|].
  apply (surd_to_rational_ok g t s _ N) in E. destruct E as [E _]. rewrite V in E. apply RtoC_inj in E. auto.
Qed.

Lemma L_C13_to_rational_approx_partial : forall g t s x q, normal g s -> sval s = RtoC x ->
  surd_to_rational g t s = Ok (Approximated q) ->
  ~ rational_num (sval s) /\ denom q = c2 (coeffs s) /\
  (0 < c1 (coeffs s) -> (rval q < x < rval q + / IZR (denom q))%R).
Proof.
  intros g t s x q N V H. destruct (normal_real g s x N V) as [D ->].
  apply (surd_to_rational_ok g t s _ N) in H. destruct H as (H1 & H2 & _ & H3). auto.
Qed.

Lemma L_C13_to_rational_larger : forall g t s q, normal g s -> surd_to_rational g t s = Ok (Approximated q) ->
  exists y, sval (Surd (SCo (c0 (coeffs s)) (Z.abs (c1 (coeffs s))) (c2 (coeffs s))) (discr s)) = RtoC y /\ (rval q < y < rval q + / IZR (denom q))%R.
Proof.
  intros g t s q N H. set (s' := Surd (SCo (c0 (coeffs s)) (Z.abs (c1 (coeffs s))) (c2 (coeffs s))) (discr s)).
  assert (N' : normal g s').
  { destruct s as [[a b c] r]. unfold normal, s' in *. cbn [parts coeffs discr c0 c1 c2] in *. destruct N as (Hc & Hg & Hb & Hr). split; [exact Hc|]. split; [rewrite Z.gcd_abs_r; exact Hg|]. split; [|exact Hr].
    destruct Hb as [[-> ->]|[Hb Hs]]; [left; auto|right; split; [lia|exact Hs]]. }
  apply rle_surd_to_rational in H. assert (H' : surd_to_rational g BigI s' = Ok (Approximated q)).
  { rewrite <- H. unfold surd_to_rational, s', panic_if_complex. cbn [coeffs discr c0 c1 c2]. unfold lift2. cbn [bind]. unfold mulT, chk, fits. cbn [bind]. rewrite <- Z.abs_mul, (Z.abs_eq (c1 (coeffs s) * c1 (coeffs s))) by nia. reflexivity. }
  apply (surd_to_rational_ok g BigI s' _ N') in H'. destruct H' as (H1 & H2 & D & H3). exists (rs s'). split; [apply sval_rs; [exact (normal_okc _ _ N')|exact D]|]. apply H3.
  cbn [s' coeffs c1]. destruct (Z.eq_dec (c1 (coeffs s)) 0) as [E|E]; [exfalso|lia]. apply H1. apply (normal_is_rational g s' N'). unfold is_rational, s'. cbn [coeffs c1]. rewrite E. reflexivity.
Qed.

Lemma L_C13_to_rational_refuted : exists s x q, normal (Cfg false true) s /\ sval s = RtoC x /\
  surd_to_rational (Cfg false true) BigI s = Ok (Approximated q) /\
  (Rabs (x - rval q) > / IZR (denom q))%R.
Proof.
  exists (new_raw 0 (-1) 1 2), (- sqrt 2)%R, (Ratio 1 1).
  split; [|split; [|split; [vm_compute; reflexivity|]]].
  - apply normalb_ok; vm_compute; reflexivity.
  - rewrite sval_raw. unfold fval. rewrite csqrt_nonneg by lia. unfold ZtoC.
    rewrite <- !RtoC_mult, <- !RtoC_plus, <- !RtoC_div by lra. f_equal. field.
  - unfold rval. cbn [numer denom]. pose proof (sqrt_pos 2) as P.
    pose proof (sqrt_sqrt 2 ltac:(lra)) as Q.
    assert (1 < sqrt 2)%R by nra. rewrite Rabs_left by lra. lra.
Qed.

Lemma L_C13_to_primitive : forall g t pt s n, normal g s ->
  (surd_to_prim g t pt s = Ok (Some n) <-> sval s = ZtoC n /\ fits pt n = true).
Proof.
  intros g t pt s n N. split; [apply surd_to_prim_ok; auto|].
  intros [V F]. apply surd_to_prim_complete; auto.
Qed.

Lemma L_C13_returns : forall g pt s, normal g s ->
  returns (surd_to_prim g BigI pt s) /\
  forall x, sval s = RtoC x -> returns (surd_to_integer g BigI s) /\ returns (surd_to_rational g BigI s).
Proof.
  intros g pt s N. split; [apply surd_to_prim_total; auto|]. intros x V.
  destruct (normal_real g s x N V) as [D _].
  split; [apply surd_to_integer_total; auto|apply surd_to_rational_total; auto].
Qed.

Lemma L_C14_root : forall g t a b c s, lowest a -> lowest b -> lowest c ->
  surd_from_equation g t a b c = Ok (Some s) ->
  (qC a * (sval s * sval s) + qC b * sval s + qC c = RtoC 0)%C.
Proof. intros g t a b c s La Lb Lc H. apply surd_from_equation_ok in H; auto. tauto. Qed.

Lemma L_C14_larger_root : forall g t a b c s x, lowest a -> lowest b -> lowest c ->
  surd_from_equation g t a b c = Ok (Some s) -> (0 < rval a)%R -> sval s = RtoC x ->
  forall y, (rval a * (y * y) + rval b * y + rval c = 0)%R -> (y <= x)%R.
Proof.
  intros g t a b c s x La Lb Lc H Ha V. apply surd_from_equation_ok in H; auto.
  destruct H as (_ & _ & H). eauto.
Qed.

Lemma L_C14_none : forall g a b c, lowest a -> lowest b -> lowest c -> (rval a <> 0 \/ rval b <> 0)%R ->
  exists o, surd_from_equation g BigI a b c = Ok o /\
    (o = None <-> cplx g = false /\ ~ exists y, (rval a * (y * y) + rval b * y + rval c = 0)%R).
Proof.
  intros g a b c La Lb Lc Hab. destruct (surd_from_equation_total g a b c La Lb Lc) as (o & E & S).
  exists o. split; [auto|]. rewrite S. set (A := rval a) in *. set (B := rval b) in *. set (C := rval c) in *.
  split.
  - intros [[X Y]|(G & X & D)]; [tauto|]. split; [auto|]. intros [y Hy].
    assert (Q : (B * B - 4 * A * C = (2 * A * y + B) * (2 * A * y + B) - 4 * A * (A * (y * y) + B * y + C))%R) by ring.
    rewrite Hy in Q. pose proof (Rle_0_sqr (2 * A * y + B)) as P. unfold Rsqr in P. lra.
  - intros [G X]. right. split; [auto|].
    destruct (Req_dec A 0) as [A0|A0].
    + exfalso. apply X. exists (- C / B)%R. rewrite A0. field. tauto.
    + split; [auto|]. destruct (Rlt_le_dec (B * B - 4 * A * C) 0) as [L|L]; [auto|].
      exfalso. apply X. exists ((- B + sqrt (B * B - 4 * A * C)) / (2 * A))%R.
      pose proof (sqrt_sqrt _ L) as Q. set (w := sqrt (B * B - 4 * A * C)) in *.
      replace (A * ((- B + w) / (2 * A) * ((- B + w) / (2 * A))) + B * ((- B + w) / (2 * A)) + C)%R
        with ((w * w - B * B + 4 * A * C) / (4 * A))%R by (field; auto).
      rewrite Q. field; auto.
Qed.

Lemma L_C15_sqrt_int : forall g t n s, from_sqrt_int g t n = Ok (SqOk s) ->
  sval s = csqrt n /\ (sval s * sval s)%C = ZtoC n.
Proof.
  intros g t n s H. apply from_sqrt_int_spec in H. destruct H as [V _]. split; [auto|].
  rewrite V. apply csqrt_sq.
Qed.

Lemma L_C15_sqrt_int_err : forall g t n d k, from_sqrt_int g t n = Ok (SqErr d k) ->
  d = n /\ k = EComplex /\ n < 0 /\ cplx g = false.
Proof. intros g t n d k H. apply from_sqrt_int_spec in H. exact H. Qed.

Lemma L_C15_sqrt_ratio : forall g t q s, lowest q -> from_sqrt_ratio g t q = Ok (SqOk s) ->
  sval s = rcsqrt (rval q) /\ (sval s * sval s)%C = qC q.
Proof.
  intros g t q s L H. apply from_sqrt_ratio_spec in H; auto. destruct H as [V _]. split; [auto|].
  rewrite V. apply rcsqrt_sq.
Qed.

Lemma L_C15_sqrt_ratio_err : forall g t q d k, lowest q -> from_sqrt_ratio g t q = Ok (SqErr d k) ->
  d = q /\ ((k = EComplex /\ (rval q < 0)%R /\ cplx g = false) \/
            (k = EOverflow /\ fits t (numer q * denom q) = false)).
Proof.
  intros g t q d k L H. apply from_sqrt_ratio_spec in H; auto. destruct H as (-> & H). split; [auto|].
  destruct H as [H|[-> H]]; [auto|]. right. split; [auto|]. unfold checked_mul, checked in H.
  destruct (fits t (numer q * denom q)); [discriminate|auto].
Qed.

Lemma L_C15_complete : forall g n q, lowest q ->
  (exists o, from_sqrt_int g BigI n = Ok o /\ ((exists s, o = SqOk s) <-> cplx g = true \/ 0 <= n)) /\
  (exists o, from_sqrt_ratio g BigI q = Ok o /\ ((exists s, o = SqOk s) <-> cplx g = true \/ (0 <= rval q)%R)).
Proof.
  intros g n q L. split.
  - destruct (from_sqrt_int_total g n) as [o E]. exists o. split; [auto|].
    apply from_sqrt_int_spec in E. destruct o as [s|d k]; split; intros H; eauto.
    + destruct (cplx g); auto. right. apply E. auto.
    + destruct H; discriminate.
    + destruct E as (_ & _ & E1 & E2). destruct H; [congruence|lia].
  - destruct (from_sqrt_ratio_total g q L) as [o E]. exists o. split; [auto|].
    apply from_sqrt_ratio_spec in E; auto. destruct o as [s|d k]; split; intros H; eauto.
    + destruct (cplx g); auto. right. apply E. auto.
    + destruct H; discriminate.
    + destruct E as (_ & [(_ & E1 & E2)|(_ & E)]); [destruct H; [congruence|lra]|discriminate].
Qed.

Lemma L_C16_square : forall g t x y, normal g x -> from_sqrt_surd g t x = Ok (SqOk y) ->
  (sval y * sval y)%C = sval x.
Proof. intros g t x y N H. apply from_sqrt_surd_ok in H; auto. unfold sqrt_post in H. tauto. Qed.

Lemma L_C16_complete : forall g x v, normal g x -> over_root (discr x) v -> (v * v)%C = sval x ->
  exists y, from_sqrt_surd g BigI x = Ok (SqOk y).
Proof.
  intros g x v N (a & b & c & Hc & Ev) H. apply (from_sqrt_surd_complete g x a b c); auto.
  unfold fval. rewrite <- Ev. auto.
Qed.

Lemma L_C16_err : forall g t x d k, normal g x -> from_sqrt_surd g t x = Ok (SqErr d k) ->
  sval d = sval x /\ (k = EComplex <-> cplx g = false /\ exists v, (v < 0)%R /\ sval x = RtoC v).
Proof. intros g t x d k N H. apply from_sqrt_surd_ok in H; auto. unfold sqrt_post in H. tauto. Qed.

Lemma L_C16_returns : forall g x, normal g x -> returns (from_sqrt_surd g BigI x).
Proof. exact from_sqrt_surd_total. Qed.

Lemma L_C16_principal_partial : forall g t x y, normal g x -> from_sqrt_surd g t x = Ok (SqOk y) ->
  rational_num (sval x) \/ discr x < 0 \/ 0 < c1 (coeffs x) -> principal (sval y).
Proof.
  intros g t x y N H D. apply from_sqrt_surd_ok in H; auto. unfold sqrt_post in H.
  destruct H as (Ny & Sq & Hr & Hi).
  destruct (is_rational x) eqn:I.
  - destruct Hr as (v & Ev & Ey); [apply (normal_is_rational g x N); auto|]. rewrite Ey. unfold rcsqrt, principal.
    destruct (Rlt_dec v 0); cbn [fst snd].
    + right. split; [auto|]. apply sqrt_pos.
    + unfold RtoC. cbn [fst snd]. pose proof (sqrt_pos v). destruct (Req_dec (sqrt v) 0); [right; lra|left; lra].
  - assert (NI : ~ rational_num (sval x)) by (intros X; apply (normal_is_rational g x N) in X; congruence).
    destruct (Hi NI) as (P0 & P1 & P2 & P3). pose proof (is_rational_false x I) as [Hb Hr0].
    pose proof (normal_okc _ _ Ny) as O. assert (Hc : 0 < c2 (coeffs y)) by apply Ny.
    left. destruct (Z.lt_ge_cases (discr x) 0) as [L|L].
    + apply P2 in L. rewrite sval_fval, fst_fval by auto.
      apply Rdiv_lt_0_compat; apply IZR_lt; auto.
    + destruct D as [D|[D|D]]; [contradiction|lia|]. specialize (P1 D).
      assert (L2 : 0 < discr y) by (apply P3; lia).
      rewrite sval_rs by (auto; lia). unfold RtoC. cbn [fst]. unfold rs, rnum.
      apply Rdiv_lt_0_compat; [|apply IZR_lt; auto].
      apply IZR_lt in P0. apply IZR_lt in P1. pose proof (sqrt_pos (IZR (discr y))). nra.
Qed.

Lemma L_C16_refuted : exists x y, normal (Cfg false true) x /\
  from_sqrt_surd (Cfg false true) BigI x = Ok (SqOk y) /\ ~ principal (sval y).
Proof.
  exists (new_raw 3 (-2) 1 2), (new_raw 1 (-1) 1 2). split; [|split; [vm_compute; reflexivity|]].
  - apply normalb_ok; vm_compute; reflexivity.
  - rewrite sval_raw. unfold fval. rewrite csqrt_nonneg by lia. unfold ZtoC.
    rewrite <- !RtoC_mult, <- !RtoC_plus, <- !RtoC_div by lra. unfold principal, RtoC. cbn [fst snd].
    pose proof (sqrt_pos 2) as P. pose proof (sqrt_sqrt 2 ltac:(lra)) as Q.
    assert (1 < sqrt 2)%R by nra. intros [X|[X _]]; lra.
Qed.

Lemma L_C17_value : forall g t fuel s s', normal g s -> surd_reduced t fuel s = Ok s' ->
  sval s' = sval s /\ normal g s'.
Proof. intros g t fuel s s' N H. apply (surd_reduced_ok g) in H; tauto. Qed.

Lemma small_primes_all p : prime p -> p < 256 -> In p SMALL_PRIMES.
Proof.
  intros Hp Hlt. pose proof (prime_ge_2 p Hp) as H2.
  destruct (In_dec Z.eq_dec p SMALL_PRIMES) as [|N]; [auto|exfalso].
  (* every other number below 256 has a divisor among 2..15 *)
  assert (T : forallb (fun n => existsb (Z.eqb n) SMALL_PRIMES ||
      existsb (fun d => (d <? n) && (n mod d =? 0)) (map Z.of_nat (seq 2 14)))
      (map Z.of_nat (seq 2 254)) = true) by (vm_compute; reflexivity).
  rewrite forallb_forall in T. specialize (T p).
  assert (Ip : In p (map Z.of_nat (seq 2 254))).
  { rewrite <- (Z2Nat.id p) by lia. apply in_map. apply in_seq. lia. }
  specialize (T Ip). apply orb_prop in T. destruct T as [T|T].
  - apply existsb_exists in T. destruct T as (q & Iq & E). apply Z.eqb_eq in E. subst q. auto.
  - apply existsb_exists in T. destruct T as (d & Id & E). apply andb_prop in E. destruct E as [E1 E2].
    apply Z.ltb_lt in E1. apply Z.eqb_eq in E2. apply in_map_iff in Id. destruct Id as (m & Em & Im).
    apply in_seq in Im. assert (D : (d | p)) by (apply Z.mod_divide; lia).
    destruct (prime_divisors p Hp d D) as [X|[X|[X|X]]]; lia.
Qed.

Lemma L_C17_no_small_squares : forall g t fuel s s' p, normal g s -> surd_reduced t fuel s = Ok s' ->
  ~ rational_num (sval s) -> prime p -> p < 256 -> fits t (p * p) = true -> ~ (p * p | discr s').
Proof.
  intros g t fuel s s' p N H I Hp Hlt F D. apply (surd_reduced_ok g) in H; auto.
  destruct H as (N' & V & S). specialize (S p (small_primes_all p Hp Hlt) F D).
  apply I. rewrite <- V. apply (normal_is_rational g s' N'). apply (normal_discr0 g s' N'). auto.
Qed.

Lemma L_C17_returns_partial : forall g s, normal g s -> ~ rational_num (sval s) ->
  exists fuel, returns (surd_reduced BigI fuel s).
Proof. exact surd_reduced_total. Qed.

Lemma L_C17_refuted : forall g s, normal g s -> rational_num (sval s) ->
  forall fuel, surd_reduced BigI fuel s = Hang.
Proof. exact surd_reduced_hang. Qed.

Lemma L_C18_is_rational : forall g s, normal g s -> (is_rational s = true <-> rational_num (sval s)).
Proof. exact normal_is_rational. Qed.

Lemma L_C18_is_integer : forall g s, normal g s -> (is_integer s = true <-> integer_num (sval s)).
Proof. exact normal_is_integer. Qed.

Lemma L_C18_is_complex : forall g s, normal g s ->
  (is_complex s = true <-> ~ exists x, sval s = RtoC x).
Proof. exact normal_is_complex. Qed.

Lemma L_C18_is_pure : forall g s, normal g s ->
  (is_pure s = true <-> ~ rational_num (sval s) /\ rational_num (sval s * sval s)%C).
Proof. exact normal_is_pure. Qed.

Lemma L_C18_is_zero_one : forall g s, normal g s ->
  (surd_is_zero s = true <-> sval s = RtoC 0) /\ (surd_is_one s = true <-> sval s = RtoC 1).
Proof.
  intros g s N. split.
  - rewrite (sval_zero_iff g s N). unfold surd_is_zero. rewrite andb_true_iff, !Z.eqb_eq. tauto.
  - unfold surd_is_one. rewrite !andb_true_iff, !Z.eqb_eq. split.
    + intros [[H0 H1] H2]. rewrite sval_fval, H0, H1, H2, fval_b0, ZtoC_1. field.
      intros X; apply RtoC_inj in X; lra.
    + intros V. assert (I : is_integer s = true) by (apply (normal_is_integer g s N); exists 1; auto).
      unfold is_integer in I. apply andb_prop in I. destruct I as [I1 I2]. apply Z.eqb_eq in I1.
      pose proof (normal_rational_Ratio g s N I2) as (D & _ & _).
      destruct N as (_ & _ & [[Hb _]|[_ Hb]] & _); [|exfalso; apply Hb; rewrite D; exists 0; reflexivity].
      split; [split; [|auto]|auto]. rewrite sval_fval, Hb, I1, fval_b0 in V. apply ZtoC_inj.
      rewrite ZtoC_1 in *. rewrite <- V. field. intros X; apply RtoC_inj in X; lra.
Qed.

Lemma L_C18_is_gaussint_partial : forall g s, normal g s -> (discr s = 0 \/ discr s = -1) ->
  (is_gaussint s = true <-> gauss_num (sval s)).
Proof. exact normal_is_gaussint. Qed.

Lemma L_C18_is_gaussint_refuted : exists s, normal (Cfg true true) s /\ is_gaussint s = true /\
  ~ gauss_num (sval s).
Proof.
  exists (new_raw 0 1 1 (-5)). split; [|split; [reflexivity|]].
  - apply normalb_ok; vm_compute; reflexivity.
  - intros (m & n & H). rewrite sval_raw in H. unfold fval in H. rewrite csqrt_neg in H by lia.
    unfold ZtoC, RtoC, Cdiv, Cinv, Cmult, Cplus in H. cbn [fst snd] in H. injection H as H1 H2.
    assert (Hs : sqrt 5 = IZR n) by (rewrite <- H2; field).
    assert (Q : (sqrt 5 * sqrt 5 = 5)%R) by (apply sqrt_sqrt; lra).
    rewrite Hs, <- mult_IZR in Q. apply eq_IZR in Q. assert (2 < Z.abs n < 3) by nia. lia.
Qed.

Lemma L_C18_is_quadint_partial : forall g s, normal g s ->
  (is_quadint s = true -> alg_integer (sval s)) /\
  (discr s mod 4 <> 1 -> (forall p, prime p -> ~ (p * p | discr s)) ->
     alg_integer (sval s) -> is_quadint s = true).
Proof.
  intros g s N. split; [apply (quadint_sound g); auto|].
  intros H1 H2 H3. apply (quadint_complete g); auto.
Qed.

Lemma L_C18_is_quadint_refuted : exists s, normal (Cfg false true) s /\ is_quadint s = false /\
  alg_integer (sval s).
Proof.
  exists (new_raw 1 1 2 5). split; [|split; [reflexivity|]].
  - apply normalb_ok; vm_compute; reflexivity.
  - exists (-1), (-1). rewrite sval_raw. unfold fval. pose proof (csqrt_sq 5) as Q.
    set (w := csqrt 5) in *. clearbody w.
    replace (ZtoC 5) with (RtoC 1 + RtoC 1 + RtoC 1 + RtoC 1 + RtoC 1)%C in Q by (unfold ZtoC; rewrite <- !RtoC_plus; f_equal; lra).
    replace (ZtoC 2) with (RtoC 1 + RtoC 1)%C by (unfold ZtoC; rewrite <- !RtoC_plus; f_equal; lra).
    replace (ZtoC (-1)) with (- RtoC 1)%C by (unfold ZtoC; rewrite <- !RtoC_opp; f_equal; lra).
    rewrite ZtoC_1. set (o := RtoC 1) in *.
    replace ((o + o * w) / (o + o) * ((o + o * w) / (o + o)) + - o * ((o + o * w) / (o + o)) + - o)%C
      with ((o * o * (w * w) + o * o + (o * o + o * o) * w - (o + o) * (o * o + o * o * w) - (o + o) * (o + o) * o) / ((o + o) * (o + o)))%C.
    + rewrite Q. unfold o. apply injective_projections; cbn; field.
    + unfold o. field. split; intros X; apply (f_equal fst) in X; cbn in X; lra.
Qed.

Lemma L_C52_total_partial : forall g s, normal g s ->
  returns (surd_neg BigI s) /\ returns (surd_conj BigI s) /\ returns (surd_trunc g BigI s) /\
  (sval s <> RtoC 0 -> returns (surd_recip g BigI s)) /\
  ((exists x, sval s = RtoC x) -> returns (surd_fract g BigI s) /\ returns (surd_floor g BigI s) /\
     returns (surd_is_positive g BigI s) /\ returns (surd_is_negative g BigI s)) /\
  returns (from_sqrt_surd g BigI s) /\
  (forall l, returns (surd_eq BigI s l)).
Proof.
  intros g s N. destruct (L_C07_returns g s N) as (H1 & H2 & H3).
  split; [auto|]. split; [auto|]. split; [apply L_C11_returns; auto|]. split; [auto|]. split; [|split].
  - intros [x V]. destruct (L_C09_returns g s x N V). destruct (normal_real g s x N V) as [D _].
    split; [apply surd_fract_total; auto|]. split; [apply (L_C10_returns g s x N V)|]. auto.
  - apply from_sqrt_surd_total; auto.
  - intros l. apply surd_eq_big.
Qed.

Lemma L_C52_scalar_ops : forall g s k q, normal g s -> lowest q ->
  returns (surd_add_int g BigI s k) /\ returns (surd_sub_int g BigI s k) /\
  returns (surd_mul_int g BigI s k) /\ (k <> 0 -> returns (surd_div_int g BigI s k)) /\
  returns (surd_add_ratio g BigI s q) /\ returns (surd_sub_ratio g BigI s q) /\
  returns (surd_mul_ratio g BigI s q) /\ ((rval q <> 0)%R -> returns (surd_div_ratio g BigI s q)).
Proof.
  intros g s k q N L. pose proof (normal_wf _ _ N) as W. pose proof (lowest_okd _ L) as O.
  split; [apply surd_add_int_total; auto|]. split; [apply surd_sub_int_total; auto|].
  split; [apply surd_mul_int_total; auto|]. split; [intros; apply surd_div_int_total; auto|].
  split; [apply surd_add_ratio_total; auto|]. split; [apply surd_sub_ratio_total; auto|].
  split; [apply surd_mul_ratio_total; auto|]. intros Q. apply surd_div_ratio_total; auto.
  intros X. apply Q. apply rval_zero; auto.
Qed.

Lemma L_C52_refuted : exists s, normal (Cfg true true) s /\
  surd_fract (Cfg true true) BigI s = Panic PIncompatible.
Proof.
  exists (new_raw 1 1 1 (-5)). split; [apply normalb_ok; vm_compute; reflexivity|vm_compute; reflexivity].
Qed.
