(** * ClaimsSharp: proofs of the property theorems in PropsSharp.v. *)

From Coq Require Import ZArith Znumtheory Reals Lia Lra Bool List.
From Coquelicot Require Import Coquelicot.
From Verif Require Import Base Ext ModelSurd ModelBlock ModelCF ModelConv Spec SpecCF Transfer NumFacts SurdCore RatioFacts SurdArith SurdTotal SurdOrd SurdRound SurdMisc SurdConv SurdSqrt SurdDecide
  CFCore CFSeq CFIter CFBasic CFSurd CFNew CFOfSurd CFWide CFRound CFArith CFSigned ClaimsSurd ClaimsCF ClaimsApi.
Import ListNotations.
Open Scope Z_scope.

(** Two representations of one irrational number have the same rational part *)
Lemma rational_part g y p q d r : normal g y -> ~ rational_num (sval y) -> d <> 0 -> sval y = fval p q d r ->
  p * c2 (coeffs y) = c0 (coeffs y) * d.
Proof.
  intros N I Hd V. pose proof (normal_okc _ _ N) as O. unfold okc in O.
  assert (Hs : ~ square r).
  { intros [k Hk]. apply I. rewrite V. unfold fval. exists (p + q * Z.abs k), d. split; [auto|].
    rewrite Hk. replace (k * k) with (Z.abs k * Z.abs k * 1) by nia. rewrite csqrt_scale by lia.
    replace (csqrt 1) with (RtoC 1) by (rewrite csqrt_nonneg by lia; rewrite sqrt_1; reflexivity).
    rewrite ZtoC_add, ZtoC_mul. f_equal. ring. }
  rewrite sval_fval in V. set (a := c0 (coeffs y)) in *. set (b := c1 (coeffs y)) in *. set (c := c2 (coeffs y)) in *. set (s := discr y) in *.
  assert (K : (ZtoC (d * b) * csqrt s)%C = (ZtoC (p * c - a * d) + ZtoC (q * c) * csqrt r)%C).
  { assert (Zc : ZtoC c <> RtoC 0) by (apply ZtoC_neq0; auto). assert (Zd : ZtoC d <> RtoC 0) by (apply ZtoC_neq0; auto).
    unfold fval in V. rewrite ZtoC_sub, !ZtoC_mul.
    replace (ZtoC d * ZtoC b * csqrt s)%C with (ZtoC d * ZtoC c * ((ZtoC a + ZtoC b * csqrt s) / ZtoC c) - ZtoC a * ZtoC d)%C by (field; auto).
    rewrite V. field. auto. }
  assert (K2 : (ZtoC (d * b * (d * b) * s) + ZtoC 0 * csqrt r)%C =
     (ZtoC ((p * c - a * d) * (p * c - a * d) + q * c * (q * c) * r) + ZtoC (2 * (p * c - a * d) * (q * c)) * csqrt r)%C).
  { transitivity ((ZtoC (d * b) * csqrt s) * (ZtoC (d * b) * csqrt s))%C.
    - replace (ZtoC 0) with (RtoC 0) by reflexivity. rewrite (ZtoC_mul (d * b * (d * b))), <- (csqrt_sq s), (ZtoC_mul (d * b)). ring.
    - rewrite K. rewrite ZtoC_add, (ZtoC_mul (q * c * (q * c)) r), <- (csqrt_sq r), (ZtoC_mul (q * c) (q * c)), (ZtoC_mul (p * c - a * d) (p * c - a * d)).
      rewrite (ZtoC_mul (2 * _)), (ZtoC_mul 2). replace (ZtoC 2) with (RtoC 1 + RtoC 1)%C by (unfold ZtoC; rewrite <- RtoC_plus; f_equal). ring. }
  apply csqrt_indep2 in K2; auto. destruct K2 as [_ K2].
  assert (Hq : q <> 0).
  { intros ->. apply I. rewrite sval_fval. fold a b c s. rewrite V. exists p, d. split; [auto|]. unfold fval. replace (ZtoC 0) with (RtoC 0) by reflexivity. f_equal. ring. }
  assert (Hqc : q * c <> 0) by (apply Z.neq_mul_0; auto). clearbody a b c s. clear - K2 Hqc. assert ((p * c - a * d) * (q * c) = 0) by lia.
  apply Z.mul_eq_0 in H. lia.
Qed.

Lemma sqrt_irr g x y : normal g x -> ~ rational_num (sval x) -> (sval y * sval y)%C = sval x -> ~ rational_num (sval y).
Proof.
  intros N I Sq (n & d & Hd & V). apply I. rewrite <- Sq, V. exists (n * n), (d * d). split; [nia|]. rewrite !ZtoC_mul. field. apply ZtoC_neq0; auto.
Qed.

Lemma L_C16_rational_part : forall g t x y p q d r, normal g x -> ~ rational_num (sval x) -> from_sqrt_surd g t x = Ok (SqOk y) ->
  0 < d -> sval y = ((ZtoC p + ZtoC q * csqrt r) / ZtoC d)%C -> 0 < p.
Proof.
  intros g t x y p q d r N I H Hd V. apply from_sqrt_surd_ok in H; auto. unfold sqrt_post in H. destruct H as (Ny & Sq & _ & Hi).
  destruct (Hi I) as (P0 & _). assert (Hc : 0 < c2 (coeffs y)) by apply Ny.
  pose proof (rational_part g y p q d r Ny (sqrt_irr g x y N I Sq) ltac:(lia) V). nia.
Qed.

Lemma L_C16_principal_iff : forall g t x y v p q d r, normal g x -> ~ rational_num (sval x) -> from_sqrt_surd g t x = Ok (SqOk y) ->
  (v * v)%C = sval x -> principal v -> 0 < d -> v = ((ZtoC p + ZtoC q * csqrt r) / ZtoC d)%C -> (principal (sval y) <-> 0 < p).
Proof.
  intros g t x y v p q d r N I H Hv Pv Hd V. pose proof (L_C16_square g t x y N H) as Sq.
  assert (D : sval y = v \/ sval y = (- v)%C).
  { assert (Z0 : ((sval y - v) * (sval y + v))%C = RtoC 0).
    { replace ((sval y - v) * (sval y + v))%C with (sval y * sval y - v * v)%C by ring. rewrite Sq, Hv. ring. }
    destruct (Ceq_dec0 (sval y - v)%C) as [E|E].
    - left. replace (sval y) with ((sval y - v) + v)%C by ring. rewrite E. ring.
    - right. assert (E2 : (sval y + v)%C = RtoC 0).
      { replace (sval y + v)%C with (/ (sval y - v) * ((sval y - v) * (sval y + v)))%C by (field; auto). rewrite Z0. ring. }
      replace (sval y) with ((sval y + v) - v)%C by ring. rewrite E2. ring. }
  destruct D as [E|E].
  - split; [|intros _; rewrite E; auto]. intros _. apply (L_C16_rational_part g t x y p q d r N I H Hd). rewrite E. auto.
  - assert (Hn : ~ principal (sval y)).
    { assert (Nz : v <> RtoC 0). { intros Z0. apply I. rewrite <- Hv, Z0. exists 0, 1. split; [lia|]. unfold ZtoC. field. intros X. apply RtoC_inj in X. lra. }
      rewrite E. intros P. apply Nz. destruct v as [a b]. unfold principal, Copp in *. cbn [fst snd] in *. unfold RtoC. f_equal; destruct Pv as [?|[? ?]], P as [?|[? ?]]; lra. }
    split; [contradiction|]. intros Hp. exfalso.
    assert (Q : 0 < - p); [|lia]. apply (L_C16_rational_part g t x y (- p) (- q) d r N I H Hd). rewrite E, V. rewrite !ZtoC_opp. field. apply ZtoC_neq0. lia.
Qed.

Lemma reduced_trunc g s v : normal g s -> discr s < 0 -> surd_trunc g BigI s = Ok v -> (c1 (coeffs v) = 0 /\ discr v = 0) \/ discr v = -1.
Proof.
  intros N D H. assert (R : reduced_from (-1) v).
  { unfold surd_trunc in H. destruct s as [[a b c] r]. unfold normal, parts in N. cbn [coeffs c0 c1 c2 discr] in *.
    destruct N as (Hc & _). destruct (Z.ltb_spec r 0); [|lia]. revert H. bigi. rewrite sqrtB by nia. bigi. do 2 (rewrite quotB by lia; bigi).
    intros H. apply surd_from_coeffs_ok in H. exact (proj2 (proj2 (proj2 (proj2 H)))). }
  destruct v as [[a b c] r]. unfold reduced_from, parts in R. cbn [coeffs c0 c1 c2 discr] in *. destruct R as (_ & _ & [R|(_ & _ & k & Hk & R)]); [auto|right; nia].
Qed.

Lemma L_C52_fract_iff : forall g s, normal g s ->
  (returns (surd_fract g BigI s) <-> (Rabs (snd (sval s)) < 1)%R \/ exists k, discr s = - (k * k)) /\
  (~ returns (surd_fract g BigI s) -> surd_fract g BigI s = Panic PIncompatible).
Proof.
  intros g s N. destruct (Z.lt_ge_cases (discr s) 0) as [D|D].
  2:{ assert (R : returns (surd_fract g BigI s)) by (apply surd_fract_total; auto). split; [|tauto]. split; [|auto]. intros _. left.
      rewrite sval_rs by (auto; apply normal_okc in N; auto). unfold RtoC. cbn [snd]. rewrite Rabs_R0. lra. }
  destruct (surd_trunc_complex g s N D) as (v & m & n & E & V & Nv & T1 & T2).
  assert (F : surd_fract g BigI s = surd_sub g BigI s v) by (unfold surd_fract; rewrite E; reflexivity).
  rewrite F.
  assert (B : (Rabs (snd (sval s)) < 1)%R <-> n = 0).
  { destruct T2 as [U1 U2]. unfold Rabs. destruct (Rcase_abs (snd (sval s))) as [L|L].
    - specialize (U2 ltac:(lra)). split; intros K; [|subst n; lra]. assert (-1 < n < 1); [|lia]. split; apply lt_IZR; lra.
    - specialize (U1 ltac:(lra)). split; intros K; [|subst n; lra]. assert (-1 < n < 1); [|lia]. split; apply lt_IZR; lra. }
  assert (Hr : n <> 0 -> discr v = -1).
  { intros Hn. destruct (reduced_trunc g s v N D E) as [(b0 & r0)|R]; [|auto]. exfalso. apply Hn. rewrite sval_fval, b0, r0 in V. unfold fval in V.
    apply (f_equal snd) in V. cbn [snd] in V. unfold csqrt, ZtoC, RtoC, Cdiv, Cinv, Cmult, Cplus in V. cbn in V. apply eq_IZR. rewrite <- V.
    unfold Rdiv. ring. }
  assert (K : returns (surd_sub g BigI s v) <-> nested_roots s v).
  { split; [|intros H; apply (L_C06_same_field_partial g s v N Nv H)]. intros [w Hw].
    destruct (nested_dec g s v N Nv) as [H|H]; [auto|]. exfalso. destruct (L_C06_panics g s v N Nv H) as (_ & X & _). congruence. }
  assert (Q : nested_roots s v <-> (Rabs (snd (sval s)) < 1)%R \/ exists k, discr s = - (k * k)).
  { rewrite B. split.
    - intros H. destruct (Z.eq_dec n 0) as [Z0|Hn]; [auto|]. right. specialize (Hr Hn). destruct H as [H|[H|(k & Hk & [H|H])]].
      + exfalso. apply (normal_is_rational g s N) in H. apply (normal_discr0 g s N) in H. lia.
      + exfalso. apply (normal_is_rational g v Nv) in H. apply (normal_discr0 g v Nv) in H. lia.
      + exists k. rewrite H, Hr. ring.
      + exists 1. rewrite Hr in H. nia.
    - intros [Z0|(k & Hk)].
      + right. left. rewrite V, Z0. exists m, 1. split; [lia|]. unfold ZtoC, RtoC, Cdiv, Cinv, Cmult. cbn. f_equal; field.
      + destruct (Z.eq_dec n 0) as [Z0|Hn].
        * right. left. rewrite V, Z0. exists m, 1. split; [lia|]. unfold ZtoC, RtoC, Cdiv, Cinv, Cmult. cbn. f_equal; field.
        * right. right. exists (Z.abs k). split; [nia|]. left. rewrite (Hr Hn), Hk. nia. }
  split; [rewrite K; exact Q|]. intros X. rewrite K in X. apply (L_C06_panics g s v N Nv X).
Qed.

Lemma L_C33_finite_right_returns : forall g x y, wfcf x -> returns (surd_of_cf g BigU x) -> wfcf y -> finite y ->
  (finite x \/ cf_domain (cf_val x + cf_val y) -> exists n0, forall fuel, (n0 <= fuel)%nat -> returns (cf_add g BigU fuel x y)) /\
  (finite x \/ cf_domain (cf_val x - cf_val y) -> exists n0, forall fuel, (n0 <= fuel)%nat -> returns (cf_sub g BigU fuel x y)) /\
  (finite x \/ cf_domain (cf_val x * cf_val y) -> exists n0, forall fuel, (n0 <= fuel)%nat -> returns (cf_mul g BigU fuel x y)) /\
  (cf_val y <> 0%R -> finite x \/ cf_domain (cf_val x / cf_val y) -> exists n0, forall fuel, (n0 <= fuel)%nat -> returns (cf_div g BigU fuel x y)).
Proof.
  intros g x y W Ln Wy Fy. destruct (cf_to_rational_fin BigU y Wy Fy (proj1 (surd_fit_big y Wy) Fy)) as (q & E & L & V).
  assert (R : cf_is_rational y = true) by (unfold cf_is_rational; rewrite Fy; reflexivity).
  assert (Vq : rval q = cf_val y) by (rewrite <- V; auto). rewrite <- Vq.
  unfold cf_add, cf_sub, cf_mul, cf_div, cf_op_cf. rewrite R, E. cbn [bind approx_value].
  split; [exact (cf_add_ratio_total g x W Ln q L)|]. split; [exact (cf_sub_ratio_total g x W Ln q L)|].
  split; [exact (cf_mul_ratio_total g x W Ln q L)|exact (cf_div_ratio_total g x W Ln q L)].
Qed.

Lemma between_total g x y s r (sop : surd -> surd -> res surd) (op : R -> R -> R) : wfcf x -> wfcf y -> ~ finite y ->
  surd_of_cf g BigU x = Ok s -> surd_of_cf g BigU y = Ok r ->
  (exists s', sop s r = Ok s') -> (forall s', sop s r = Ok s' -> normal g s' /\ sval s' = RtoC (op (cf_val x) (cf_val y))) ->
  cf_domain (op (cf_val x) (cf_val y)) -> forall rop sopr,
  exists n0, forall fuel, (n0 <= fuel)%nat -> returns (cf_op_cf g BigU rop sopr sop fuel x y).
Proof.
  intros W Wy Fy Es Er [s' E] K D rop sopr. destruct (K s' E) as [N' V']. destruct (surd_to_cf_dom_total g s' _ N' V' D) as [f0 T]. exists f0. intros fuel Hf.
  unfold cf_op_cf. assert (R : cf_is_rational y = false) by (destruct (cf_is_rational y) eqn:R; auto; apply rational_cond in R; contradiction).
  rewrite R, Es. cbn [bind]. rewrite Er. cbn [bind]. rewrite E. cbn [bind]. unfold back. change (sty BigU) with BigI. destruct (T fuel Hf) as [z ->]. eexists. reflexivity.
Qed.

Lemma L_C33_between_returns_partial : forall g x y s r, wfcf x -> wfcf y -> ~ finite y ->
  surd_of_cf g BigU x = Ok s -> surd_of_cf g BigU y = Ok r -> nested_roots s r ->
  (cf_domain (cf_val x + cf_val y) -> exists n0, forall fuel, (n0 <= fuel)%nat -> returns (cf_add g BigU fuel x y)) /\
  (cf_domain (cf_val x - cf_val y) -> exists n0, forall fuel, (n0 <= fuel)%nat -> returns (cf_sub g BigU fuel x y)) /\
  (cf_domain (cf_val x * cf_val y) -> exists n0, forall fuel, (n0 <= fuel)%nat -> returns (cf_mul g BigU fuel x y)) /\
  (cf_val x <> 0%R -> cf_domain (cf_val x / cf_val y) -> exists n0, forall fuel, (n0 <= fuel)%nat -> returns (cf_div g BigU fuel x y)).
Proof.
  intros g x y s r W Wy Fy Es Er Nr.
  destruct (surd_of_cf_ok g BigU x s W (surd_fit_big x W) Es) as [N1 V1]. destruct (surd_of_cf_ok g BigU y r Wy (surd_fit_big y Wy) Er) as [N2 V2].
  destruct (L_C06_same_field_partial g s r N1 N2 Nr) as (T1 & T2 & T3 & T4).
  assert (Y : cf_val y <> 0%R).
  { rewrite (cf_val_inf y Fy). assert (lim (cseq y) <> IZR 0 / IZR 1)%R by (apply lim_irrational; [apply wfcf_cpos; auto|lia]).
    apply Rmult_integral_contrapositive_currified; [apply not_0_IZR; unfold sgnb; destruct (negative y); lia|]. intros E. apply H. rewrite E. lra. }
  split; [|split; [|split]].
  - intros D. apply (between_total g x y s r (surd_add g BigI) Rplus); auto. intros s' E. apply surd_add_ok in E; [|apply normal_wf; auto|apply normal_wf; auto].
    destruct E as [V' N']. split; [auto|]. rewrite V', V1, V2, RtoC_plus. reflexivity.
  - intros D. apply (between_total g x y s r (surd_sub g BigI) Rminus); auto. intros s' E. apply surd_sub_ok in E; [|apply normal_wf; auto|apply normal_wf; auto].
    destruct E as [V' N']. split; [auto|]. rewrite V', V1, V2, RtoC_minus. reflexivity.
  - intros D. apply (between_total g x y s r (surd_mul g BigI) Rmult); auto. intros s' E. apply surd_mul_ok in E; [|apply normal_wf; auto|apply normal_wf; auto].
    destruct E as [N' V']. split; [auto|].
    assert (E : sval s' = (sval s * sval r)%C).
    { rewrite V'. destruct (is_rational s || is_rational r) eqn:Eq; [reflexivity|]. rewrite (real_not_imag _ _ _ V1 (normal_okc _ _ N1) Eq). cbn [sgnC]. ring. }
    rewrite E, V1, V2, RtoC_mult. reflexivity.
  - intros X D. apply (between_total g x y s r (surd_div g BigI) Rdiv); auto.
    { apply T4; [rewrite V2; intros Q; apply RtoC_inj in Q; auto|left; rewrite V1; intros Q; apply RtoC_inj in Q; auto]. }
    intros s' E. apply surd_div_ok in E; [|apply normal_wf; auto|apply normal_wf; auto]. destruct E as (N' & _ & V'). split; [auto|].
    assert (E : sval s' = (sval s / sval r)%C).
    { rewrite V'. destruct (is_rational s || is_rational r) eqn:Eq; [reflexivity|]. rewrite (real_not_imag _ _ _ V1 (normal_okc _ _ N1) Eq). cbn [sgnC]. ring. }
    rewrite E, V1, V2, CtoR_div; auto.
Qed.

Lemma L_C33_between_panics : forall g x y s r fuel, wfcf x -> wfcf y -> ~ finite y ->
  surd_of_cf g BigU x = Ok s -> surd_of_cf g BigU y = Ok r -> ~ nested_roots s r ->
  cf_add g BigU fuel x y = Panic PIncompatible /\ cf_sub g BigU fuel x y = Panic PIncompatible /\
  (~ (pure_surd s /\ pure_surd r) -> cf_mul g BigU fuel x y = Panic PIncompatible /\ cf_div g BigU fuel x y = Panic PIncompatible).
Proof.
  intros g x y s r fuel W Wy Fy Es Er Nr.
  destruct (surd_of_cf_ok g BigU x s W (surd_fit_big x W) Es) as [N1 V1]. destruct (surd_of_cf_ok g BigU y r Wy (surd_fit_big y Wy) Er) as [N2 V2].
  destruct (L_C06_panics g s r N1 N2 Nr) as (T1 & T2 & T3).
  assert (R : cf_is_rational y = false) by (destruct (cf_is_rational y) eqn:R; auto; apply rational_cond in R; contradiction).
  unfold cf_add, cf_sub, cf_mul, cf_div, cf_op_cf. rewrite R, Es. cbn [bind]. rewrite Er. cbn [bind].
  change (sty BigU) with BigI. split; [rewrite T1; reflexivity|]. split; [rewrite T2; reflexivity|]. intros P. destruct (T3 P) as [-> ->]. split; reflexivity.
Qed.

Lemma minus_one_start g t b a0 l st : sgnb b * a0 = -1 -> List.Forall (fun v => 2 <= Z.abs v) l -> new_loop g t (NSt b None nil) (a0 :: l) = Ok st ->
  exists v r s, s_rev st = v :: r /\ s_negative st = Some s /\ wfr (v :: r) /\ 1 <= v /\
    (sg s * evr r (IZR v) = (match l with nil => 1 | a1 :: _ => if Z.ltb 0 (a0 * a1) then 1 else -1 end) * (sg b * cfl (a0 :: l)))%R.
Proof.
  intros D F H. cbn [new_loop] in H. destruct (new_step g t (NSt b None nil) a0) as [st1| |] eqn:E; [|discriminate|discriminate]. cbn [bind] in H.
  unfold new_step in E. destruct (if b then lift2 (subT t) (Ok 0) (Ok a0) else Ok a0) as [a'| |] eqn:Ea; [|discriminate|discriminate]. cbn [bind] in E. apply flip_ok in Ea.
  rewrite D in Ea. subst a'. cbn [Z.ltb Z.compare] in E. destruct (lift2 (subT t) (Ok 0) (Ok (-1))) as [m| |] eqn:Em; [|discriminate|discriminate]. cbn [bind] in E.
  apply lift_sub in Em. assert (m = 1) by lia. subst m. inversion E; subst st1. clear E.
  assert (A0 : a0 = - sgnb b) by (destruct b; cbn [sgnb] in *; lia). clear D.
  destruct l as [|a1 l].
  { inversion H; subst st. exists 1, nil, true. cbn [s_rev s_negative]. split; [auto|]. split; [auto|]. split; [cbn; lia|]. split; [lia|]. cbn [evr cfl]. subst a0.
    unfold sg. destruct b; cbn [sgnb]; ring_simplify; rewrite ?opp_IZR; cbn; ring. }
  cbn [new_loop] in H. destruct (new_step g t (NSt (negb b) (Some true) [1]) a1) as [st2| |] eqn:E; [|discriminate|discriminate]. cbn [bind] in H.
  inversion F as [|? ? Ha1 Fl]; subst l0 x. unfold new_step in E.
  destruct (if negb b then lift2 (subT t) (Ok 0) (Ok a1) else Ok a1) as [a'| |] eqn:Ea; [|discriminate|discriminate]. cbn [bind] in E. apply flip_ok in Ea.
  assert (Ba : a' <= -2 \/ 2 <= a') by (destruct b; cbn [sgnb negb] in Ea; lia).
  pose proof (tinv_bound l Fl) as Bt.
  assert (B2 : (cfl (a1 :: l) <> 0)%R) by (destruct (steep_cfl (a1 :: l) ltac:(discriminate) F); lra). rewrite cfl_tinv in B2.
  assert (Fin : forall s ng rev c, okst s rev -> new_loop g t (NSt ng (Some s) rev) l = Ok st -> (sg s * evi rev (sg ng * tinv l) = c * (sg b * cfl (a0 :: a1 :: l)))%R ->
    exists v r s, s_rev st = v :: r /\ s_negative st = Some s /\ wfr (v :: r) /\ 1 <= v /\ (sg s * evr r (IZR v) = c * (sg b * cfl (a0 :: a1 :: l)))%R).
  { intros s ng rev c O L V. destruct (signed_loop g t l s ng rev st O Fl L) as (ng' & rev' & -> & (W' & (v & r & -> & Hv) & _) & V').
    exists v, r, s. cbn [s_rev s_negative]. split; [auto|]. split; [auto|]. split; [auto|]. split; [auto|].
    rewrite <- V, <- V'. cbn [evi]. rewrite Rplus_0_r. reflexivity. }
  destruct (Z.eqb_spec a' 0); [lia|]. destruct (Z.ltb_spec a' 0) as [Neg|Pos].
  - destruct (Z.ltb_spec 0 (a0 * a1)) as [K|K]; [exfalso; subst a0; destruct b; cbn [sgnb negb] in *; lia|].
    cbn [new_absorb Z.eqb Pos.eqb] in E. destruct (dassert g (0 <=? 1)); [|discriminate|discriminate]. cbn [bind] in E.
    destruct (lift2 (subT t) (lift2 _ _ _) _) as [x| |] eqn:Ex; [|discriminate|discriminate]. cbn [bind] in E. apply lift_sub2 in Ex. inversion E; subst st2. clear E.
    rewrite negb_involutive in H. apply (Fin false b [x; 1; 0]); [|exact H|].
    + split; [cbn; lia|]. split; [exists x, [1; 0]; split; [auto|lia]|discriminate].
    + cbn [evi evr]. rewrite cfl_cons by discriminate. rewrite cfl_tinv.
      assert (Xv : IZR x = (sg b * IZR a1 - 1)%R). { unfold sg. rewrite <- mult_IZR, <- minus_IZR. f_equal. destruct b; cbn [sgnb negb] in *; lia. }
      assert (X1 : (1 <= IZR x)%R) by (apply IZR_le; lia). rewrite Xv in *. rewrite A0, opp_IZR.
      unfold sg in *. destruct b; cbn [sgnb] in *; field; lra.
  - destruct (Z.ltb_spec 0 (a0 * a1)) as [K|K]; [|exfalso; subst a0; destruct b; cbn [sgnb negb] in *; lia].
    inversion E; subst st2. clear E. apply (Fin true (negb b) [a'; 1]); [|exact H|].
    + split; [cbn; lia|]. split; [exists a', [1]; split; [auto|lia]|discriminate].
    + cbn [evi evr]. rewrite cfl_cons by discriminate. rewrite cfl_tinv, sg_negb.
      assert (Xv : IZR a' = (- sg b * IZR a1)%R). { unfold sg. rewrite <- opp_IZR, <- mult_IZR. f_equal. destruct b; cbn [sgnb negb] in *; lia. }
      assert (X1 : (2 <= IZR a')%R) by (apply IZR_le; lia). rewrite Xv in *. rewrite A0, opp_IZR.
      unfold sg in *. destruct b; cbn [sgnb] in *; field; lra.
Qed.

Lemma L_C31_steep_iff : forall g t a0 l b y, fits t 1 = true -> List.Forall (fun v => fits t v = true) (a0 :: l) -> List.Forall (fun v => 2 <= Z.abs v) l ->
  cf_new g t (a0 :: l) nil b = Ok y -> canonical y /\ finite y /\
  (cf_val y = cf_val (CF (a0 :: l) nil b) <-> ~ (sgnb b * a0 = -1 /\ exists a1 l', l = a1 :: l' /\ a0 * a1 < 0)) /\
  (cf_val y = cf_val (CF (a0 :: l) nil b) \/ cf_val y = (- cf_val (CF (a0 :: l) nil b))%R).
Proof.
  intros g t a0 l b y F1 Fa D H. destruct (Z.eq_dec (sgnb b * a0) (-1)) as [E1|E1].
  2:{ destruct (cf_new_signed g t (a0 :: l) b y F1 Fa (conj E1 D) H) as (C & Fy & V). split; [auto|]. split; [auto|]. split; [|auto]. split; [tauto|auto]. }
  assert (Na : a0 :: l <> nil) by discriminate.
  destruct (new_loop_ok g t _ _ _ _ H Na) as [st Hst]. pose proof (loop_fit g t _ _ _ Hst F1 Fa ltac:(constructor)) as Fst.
  destruct (minus_one_start g t b a0 l st E1 D Hst) as (v & r & s & Er & Es & W & Hv & V). rewrite Er in Fst.
  destruct (finish_ok g t (a0 :: l) nil b st v r s y Na Hst Er (or_introl Es) W (fun _ => Hv) ltac:(constructor) Fst ltac:(constructor) H) as (C & P & Vy).
  split; [auto|]. split; [exact P|]. cbv iota in Vy. fold (sg s) in Vy. rewrite V in Vy.
  assert (VC : cf_val (CF (a0 :: l) nil b) = (sg b * cfl (a0 :: l))%R) by reflexivity. rewrite <- VC in Vy.
  destruct l as [|a1 l]; [split; [|left; rewrite Vy; ring]; split; [intros _ (_ & ? & ? & X & _); discriminate|intros _; rewrite Vy; ring]|].
  destruct (Z.ltb_spec 0 (a0 * a1)) as [K|K].
  - split; [|left; rewrite Vy; ring]. split; [intros _ (_ & a1' & l' & X & Y); inversion X; subst; lia|intros _; rewrite Vy; ring].
  - split; [|right; rewrite Vy; ring]. assert (a0 <> 0) by (intros ->; lia). inversion D as [|? ? Ha1 Fl]; subst.
    split; [|intros X; exfalso; apply X; split; [auto|]; exists a1, l; split; [auto|nia]]. intros X. exfalso. rewrite Vy, VC in X.
    rewrite cfl_tinv in X. pose proof (tinv_bound (a1 :: l) D) as Bt.
    assert (A0 : (IZR a0 = - sg b)%R). { unfold sg. rewrite <- opp_IZR. f_equal. destruct b; cbn [sgnb] in *; lia. }
    rewrite A0 in X. unfold sg in X. destruct b; cbn [sgnb] in X; lra.
Qed.

Lemma L_C31_steep_returns : forall g a0 l b, List.Forall (fun v => 2 <= Z.abs v) l -> returns (cf_new g BigI (a0 :: l) nil b).
Proof.
  intros g a0 l b D. destruct (Z.eq_dec (sgnb b * a0) (-1)) as [E1|E1]; [|apply cf_new_signed_total; split; auto].
  assert (L : returns (new_loop g BigI (NSt b None nil) (a0 :: l))).
  { cbn [new_loop]. unfold new_step at 1. destruct (flip_total b a0) as (a' & -> & Ea). cbn [bind]. rewrite E1 in Ea. subst a'. cbn [Z.ltb Z.compare lift2 bind subT chk fits].
    change (0 - -1) with 1. destruct l as [|a1 l]; [eexists; reflexivity|]. cbn [new_loop]. inversion D as [|? ? Ha1 Fl]; subst. unfold new_step at 1.
    destruct (flip_total (negb b) a1) as (a' & -> & Ea). cbn [bind]. destruct (Z.eqb_spec a' 0); [destruct b; cbn [sgnb negb] in Ea; lia|].
    assert (Ba : a' <= -2 \/ 2 <= a') by (destruct b; cbn [sgnb negb] in Ea; lia). destruct (Z.ltb_spec a' 0).
    - cbn [new_absorb Z.eqb Pos.eqb Z.leb Z.compare]. rewrite dassert_true. cbn [lift2 bind subT chk fits]. apply signed_loop_total; auto.
      split; [cbn; lia|]. split; [exists (0 - a' - 1), [1; 0]; split; [auto|lia]|discriminate].
    - cbn [bind]. apply signed_loop_total; auto. split; [cbn; lia|]. split; [exists a', [1]; split; [auto|lia]|discriminate]. }
  destruct L as [st Hst]. destruct (minus_one_start g BigI b a0 l st E1 D Hst) as (v & r & s & Er & Es & W & Hv & V).
  apply (finish_total g (a0 :: l) nil b st v r ltac:(discriminate) Hst Er W (fun _ => Hv)). constructor.
Qed.
