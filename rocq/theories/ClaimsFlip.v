(** * ClaimsFlip: proofs of the property theorems in PropsFlip.v. *)

From Coq Require Import ZArith Znumtheory Reals Lia Lra Bool List Arith.
From Coquelicot Require Import Coquelicot.
From Verif Require Import Base Ext ModelInt ModelSurd ModelBlock ModelCF ModelConv Spec SpecInt SpecCF SpecLaw Transfer NumFacts RatioFacts SurdCore SurdArith SurdOrd SurdRound SurdMisc SurdConv SurdRoots SurdDecide SurdVieta CFCore CFBasic CFArith CFStep CFFlip ClaimsSurd ClaimsCF ClaimsApi.
Import ListNotations.
Open Scope Z_scope.

Lemma L_C95_formula : forall g t a b c s, lowest a -> lowest b -> lowest c -> rval a <> 0%R ->
  surd_from_equation g t a b c = Ok (Some s) ->
  sval s = ((rcsqrt (rval b * rval b - 4 * rval a * rval c) - qC b) / (RtoC 2 * qC a))%C.
Proof. exact equation_formula. Qed.

Lemma L_C95_vieta : forall g t a b c s s' m, lowest a -> lowest b -> lowest c -> surd_from_equation g t a b c = Ok (Some s) ->
  ~ rational_num (sval s) -> surd_conj t s = Ok s' -> surd_add g t s s' = Ok m ->
  (qC a * (sval s' * sval s') + qC b * sval s' + qC c = RtoC 0)%C /\ sval s' <> sval s /\
  sval m = (- (qC b / qC a))%C /\ (sval s * sval s' = qC c / qC a)%C.
Proof.
  intros g t a b c s s' m La Lb Lc H I Hc Hm. destruct (surd_from_equation_ok g t a b c s La Lb Lc H) as (N & E & _).
  destruct (surd_conj_normal g t s s' N Hc) as (V & N').
  destruct (vieta g t a b c s La Lb Lc H I) as (T & P & A0 & D). rewrite <- V in T, P, D. split.
  - assert (Eb : qC b = (- (qC a * (sval s + sval s')))%C) by (rewrite T; field; auto). assert (Ec : qC c = (qC a * (sval s * sval s'))%C) by (rewrite P; field; auto).
    rewrite Eb, Ec. ring.
  - split; [auto|]. split; [|auto]. rewrite <- T. apply (L_C03_add g t s s' m N N' Hm).
Qed.

Lemma L_C95_product_partial : forall g t a b c s s' p, lowest a -> lowest b -> lowest c -> surd_from_equation g t a b c = Ok (Some s) ->
  ~ rational_num (sval s) -> surd_conj t s = Ok s' -> surd_mul g t s s' = Ok p ->
  (~ imaginary (sval s) -> sval p = (qC c / qC a)%C) /\ (imaginary (sval s) -> sval p = (- (qC c / qC a))%C).
Proof.
  intros g t a b c s s' p La Lb Lc H I Hc Hp. destruct (surd_from_equation_ok g t a b c s La Lb Lc H) as (N & E & _).
  destruct (surd_conj_normal g t s s' N Hc) as (V & N').
  destruct (vieta g t a b c s La Lb Lc H I) as (T & P & A0 & D). rewrite <- V in T, P, D. split; intros Im.
  - rewrite <- P. apply (L_C04_mul_partial g t s s' p N N'); [tauto|auto].
  - rewrite <- P. apply (L_C04_mul_imaginary g t s s' p N N' Im); [|auto].
    rewrite V. apply (conj_imaginary g s N Im).
Qed.

Lemma L_C95_product_refuted : exists a b c s s' p, lowest a /\ lowest b /\ lowest c /\ surd_from_equation (Cfg true true) BigI a b c = Ok (Some s) /\
  ~ rational_num (sval s) /\ surd_conj BigI s = Ok s' /\ surd_mul (Cfg true true) BigI s s' = Ok p /\ sval p <> (qC c / qC a)%C.
Proof.
  exists (Ratio 1 1), (Ratio 0 1), (Ratio 1 1), (Surd (SCo 0 1 1) (-1)), (Surd (SCo 0 (-1) 1) (-1)), (Surd (SCo (-1) 0 1) 0).
  split; [split; cbn; lia|]. split; [split; cbn; lia|]. split; [split; cbn; lia|]. split; [vm_compute; reflexivity|].
  split. { intros R. apply (normal_is_rational (Cfg true true)) in R; [discriminate|]. apply normalb_ok. vm_compute. reflexivity. }
  split; [vm_compute; reflexivity|]. split; [vm_compute; reflexivity|].
  rewrite sval_fval. cbn [coeffs c0 c1 c2 discr]. rewrite fval_b0. unfold qC, rval. cbn [numer denom]. intros X. apply (f_equal fst) in X. unfold ZtoC in X.
  rewrite <- !RtoC_div in X by (try lra). cbn [fst RtoC] in X. lra.
Qed.

Lemma L_C95_back : forall g t s nb n s', normal g s -> lowest nb -> lowest n ->
  qC nb = (- (sval s + sconj s))%C -> qC n = (sval s * sconj s)%C ->
  surd_from_equation g t (Ratio 1 1) nb n = Ok (Some s') ->
  (0 <= c1 (coeffs s) -> sval s' = sval s) /\ (c1 (coeffs s) <= 0 -> sval s' = sconj s).
Proof.
  intros g t s nb n s' N Lb Ln Hb Hn H. pose proof (back_root g t s nb n s' N Lb Ln Hb Hn H) as E. split; intros K.
  - rewrite (proj2 (Z.leb_le _ _) K) in E. auto.
  - destruct (Z.leb_spec 0 (c1 (coeffs s))) as [L|L]; [|auto]. rewrite E. assert (Z0 : c1 (coeffs s) = 0) by lia. rewrite sconj_fval, sval_fval, Z0. reflexivity.
Qed.

Lemma L_C95_back_returns : forall g s nb n, normal g s -> lowest nb -> lowest n ->
  qC nb = (- (sval s + sconj s))%C -> qC n = (sval s * sconj s)%C -> exists s', surd_from_equation g BigI (Ratio 1 1) nb n = Ok (Some s').
Proof.
  intros g s nb n N Lb Ln Hb Hn. assert (L1 : lowest (Ratio 1 1)) by (split; cbn; lia).
  destruct (L_C14_none g (Ratio 1 1) nb n L1 Lb Ln) as (o & E & D). { left. unfold rval. cbn. lra. }
  destruct o as [s'|]; [eauto|]. exfalso. destruct (proj1 D eq_refl) as (Cg & No). apply No. clear No D.
  assert (Rs : 0 <= discr s) by (destruct s as [[a1 b1 e1] d1]; destruct N as (_ & _ & _ & R); apply R; auto).
  pose proof (sval_rs s (normal_okc _ _ N) Rs) as V. set (x := rs s) in *. clearbody x. exists x.
  assert (X : (RtoC x * RtoC x + qC nb * RtoC x + qC n = RtoC 0)%C) by (rewrite Hb, Hn, V; ring).
  unfold qC in X. rewrite <- !RtoC_mult, <- !RtoC_plus in X. apply RtoC_inj in X. unfold rval at 1. cbn [numer denom]. lra.
Qed.

Lemma L_C96_involution :
  (forall t s a b, surd_neg t s = Ok a -> surd_neg t a = Ok b -> b = s) /\
  (forall t x a b, qint_neg t x = Ok a -> qint_neg t a = Ok b -> b = x) /\
  (forall t x a b, qint_conj t x = Ok a -> qint_conj t a = Ok b -> b = x) /\
  (forall t x a b, gauss_conj t x = Ok a -> gauss_conj t a = Ok b -> b = x) /\
  (forall x, cf_neg (cf_neg x) = x).
Proof.
  split; [|split; [|split; [|split; [|exact cf_neg_neg]]]].
  - intros t s a b H H'. destruct (surd_neg_ok t s a H) as (_ & P). destruct (surd_neg_ok t a b H') as (_ & P'). destruct s as [[a1 b1 e1] d1], a as [[a2 b2 e2] d2], b as [[a3 b3 e3] d3].
    unfold parts in *. cbn [coeffs c0 c1 c2 discr] in *. inversion P; inversion P'; subst. rewrite !Z.opp_involutive. reflexivity.
  - intros t x a b H H'. unfold qint_neg, lift1 in *. cbn [bind] in *. destruct x as [[x0 x1] d]. cbn [qcoeffs q0 q1 qdiscr] in *.
    destruct (negT t x0) eqn:E0; cbn [bind] in H; try discriminate. destruct (negT t x1) eqn:E1; cbn [bind] in H; try discriminate. inversion H; subst. cbn [qcoeffs q0 q1 qdiscr] in H'.
    apply negT_val in E0, E1. subst. destruct (negT t (- x0)) eqn:E0; cbn [bind] in H'; try discriminate. destruct (negT t (- x1)) eqn:E1; cbn [bind] in H'; try discriminate.
    apply negT_val in E0, E1. subst. inversion H'. rewrite !Z.opp_involutive. reflexivity.
  - exact qconj_conj.
  - intros t x a b H H'. unfold gauss_conj, lift1 in *. cbn [bind] in *. destruct x as [x0 x1]. cbn [q0 q1] in *.
    destruct (negT t x1) eqn:E1; cbn [bind] in H; try discriminate. inversion H; subst. cbn [q0 q1] in H'. apply negT_val in E1. subst.
    destruct (negT t (- x1)) eqn:E1; cbn [bind] in H'; try discriminate. apply negT_val in E1. subst. inversion H'. rewrite Z.opp_involutive. reflexivity.
Qed.

Lemma L_C96_recip : forall g t x a b, normal g x -> surd_recip g t x = Ok a -> surd_recip g t a = Ok b ->
  sval b = sval x /\ (forall e, surd_eq t b x = Ok e -> e = true) /\
  (forall n c d e, surd_neg t x = Ok n -> surd_recip g t n = Ok c -> surd_neg t a = Ok d -> sval c = sval d /\ (surd_eq t c d = Ok e -> e = true)).
Proof.
  intros g t x a b N H H'. destruct (surd_recip_ok g t x a (normal_okc _ _ N) H) as (X0 & V & Na). destruct (surd_recip_ok g t a b (normal_okc _ _ Na) H') as (A0 & V' & Nb).
  assert (E : sval b = sval x) by (rewrite V', V; field; repeat split; auto; intros X; apply RtoC_inj in X; lra). split; [auto|]. split; [intros e He; apply (L_C08_eq_partial g t b x e Nb N He); auto|].
  intros n c d e Hn Hc Hd. pose proof (proj1 (neg_normal g t x n N Hn)) as Nn. pose proof (proj1 (neg_normal g t a d Na Hd)) as Nd.
  destruct (surd_recip_ok g t n c (normal_okc _ _ Nn) Hc) as (N0 & Vc & Nc). pose proof (L_C07_neg g t x n N Hn) as Vn. pose proof (L_C07_neg g t a d Na Hd) as Vd.
  assert (F : sval c = sval d). { assert (M0 : (- sval x)%C <> RtoC 0) by (rewrite <- Vn; auto). rewrite Vc, Vn, Vd, V. field. repeat split; auto; intros X; apply RtoC_inj in X; lra. }
  split; [auto|]. intros He. apply (L_C08_eq_partial g t c d e Nc Nd He). auto.
Qed.

Lemma L_C96_iterators : forall u x n, fits u 1 = true ->
  (forall o o', nth_item (signed_next u) n (cf_coeffs x) = Ok o -> nth_item (signed_next u) n (cf_coeffs (cf_neg x)) = Ok o' -> o' = option_map Z.opp o) /\
  (forall o o', nth_item (owned_next u) n (cf_into_coeffs x) = Ok o -> nth_item (owned_next u) n (cf_into_coeffs (cf_neg x)) = Ok o' -> o' = option_map Z.opp o) /\
  (forall o o', nth_item (general_next u) n (cf_generalized x) = Ok o -> nth_item (general_next u) n (cf_generalized (cf_neg x)) = Ok o' -> o' = option_map (fun p => (fst p, - snd p)) o) /\
  (forall o o', nth_item (conv_next u) n (cf_convergents x) = Ok o -> nth_item (conv_next u) n (cf_convergents (cf_neg x)) = Ok o' ->
     o' = option_map (fun r => Ratio (- numer r) (denom r)) o).
Proof.
  intros u x n U. split; [|split; [|split]]; intros o o' H H'.
  - apply (neg_coeffs u U x n o o' H H').
  - apply (neg_into_coeffs u U x n o o' H H').
  - apply (neg_generalized u U x n o o' H H').
  - apply (neg_convergents u U x n o o' H H').
Qed.

Lemma L_C96_conversions : forall u x, fits u 1 = true ->
  (forall v v', cf_to_integer u x = Ok v -> cf_to_integer u (cf_neg x) = Ok v' ->
     exists k, (v = Exact k /\ v' = Exact (- k)) \/ (v = Approximated k /\ v' = Approximated (- k))) /\
  (forall v v', cf_to_rational u x = Ok v -> cf_to_rational u (cf_neg x) = Ok v' ->
     exists r, (v = Exact r /\ v' = Exact (Ratio (- numer r) (denom r))) \/ (v = Approximated r /\ v' = Approximated (Ratio (- numer r) (denom r)))).
Proof.
  intros u x U. split; intros v v' H H'.
  - rewrite (neg_to_integer u U x v v' H H'). destruct v as [k|k]; exists k; auto.
  - rewrite (neg_to_rational u U x v v' H H'). destruct v as [k|k]; exists k; auto.
Qed.

Lemma L_C96_approximated_partial : forall u fuel x limit v v', fits u 1 = true -> 1 <= limit ->
  cf_approximated u fuel x limit = Ok v -> cf_approximated u fuel (cf_neg x) limit = Ok v' ->
  exists r, (v = Exact r /\ v' = Exact (Ratio (- numer r) (denom r))) \/ (v = Approximated r /\ v' = Approximated (Ratio (- numer r) (denom r))).
Proof.
  intros u fuel x limit v v' U L H H'. rewrite (neg_approximated u U fuel x limit v v').
  - destruct v as [k|k]; exists k; auto.
  - intros r Hr. cbn [nth_item] in Hr. destruct (conv_next u (cf_convergents x)) as [[o w]| |] eqn:E; cbn [bind] in Hr; try discriminate. destruct o as [q|]; inversion Hr; subst q.
    rewrite (first_denom u x r w U E). auto.
  - auto.
  - auto.
Qed.

Lemma L_C96_approximated_refuted : exists x r, canonical x /\ cf_approximated BigU 10 x 0 = Ok (Approximated r) /\
  cf_approximated BigU 10 (cf_neg x) 0 = Ok (Approximated r) /\ numer r <> 0.
Proof.
  exists (CF [3; 7] nil false), (Ratio 3 1). split; [|split; [vm_compute; reflexivity|split; [vm_compute; reflexivity|cbn; lia]]].
  split; [cbn; split; [lia|split; [repeat constructor; lia|constructor]]|]. split; [intros _ _; cbn; lia|intros K; discriminate].
Qed.

Lemma L_C96_of_ratio : forall t q q' x y, lowest q -> ratio_neg t q = Ok q' -> cf_of_ratio t q = Ok x -> cf_of_ratio t q' = Ok y -> y = cf_neg x.
Proof.
  intros t q q' x y L Hn Hx Hy. destruct (ratio_neg_ok t q q' (lowest_okd _ L) Hn) as (V & L' & _). specialize (L' L).
  destruct (L_C30_of_ratio t q x L Hx) as (Cx & Fx & Vx). destruct (L_C38_neg x Cx) as (Cn & Vn). symmetry. apply (canonical_of_ratio t (cf_neg x) q' y Cn L' Hy). rewrite Vn, Vx, V. reflexivity.
Qed.

Lemma L_C96_of_surd_partial : forall g t fuel fuel' s s' v x y, fits t 1 = true -> normal g s -> sval s = RtoC v -> surd_neg t s = Ok s' -> cf_wide v ->
  surd_to_cf g t fuel s = Ok (Some x) -> surd_to_cf g t fuel' s' = Ok (Some y) ->
  negative y = negb (negative x) /\ (forall n, coeff_at y n = coeff_at x n) /\ (cf_domain v -> y = cf_neg x).
Proof.
  intros g t fuel fuel' s s' v x y F N V Hn W Hx Hy. pose proof (proj1 (neg_normal g t s s' N Hn)) as N'. pose proof (L_C07_neg g t s s' N Hn) as V'. rewrite V, <- RtoC_opp in V'.
  assert (W' : cf_wide (- v)) by (apply wide_opp; auto).
  destruct (L_C34_exact_partial g t fuel s v x F N V W Hx) as (Cx & Fx & Ex). destruct (L_C34_exact_partial g t fuel' s' (- v) y F N' V' W' Hy) as (Cy & Fy & Ey).
  destruct (L_C38_neg x Cx) as (Cn & En).
  assert (Z : cf_neg x = cf_flip x). { destruct (cf_neg_cases x) as [Z|(_ & _ & P)]; [auto|]. contradiction. }
  assert (Fn : ~ finite (cf_neg x)) by (rewrite Z; exact Fx). assert (En' : cf_val y = cf_val (cf_neg x)) by (rewrite En, Ex, Ey; reflexivity).
  destruct (L_C58_periodic y (cf_neg x) (proj1 Cy) (proj1 Cn) Fy Fn) as (P & Q). destruct (proj1 P En') as (P1 & P2).
  split; [rewrite P1, Z; reflexivity|]. split; [intros n; rewrite P2, Z; reflexivity|]. intros D.
  assert (D' : cf_domain (- v)) by (apply domain_opp; auto).
  destruct (L_C58_shortest g t fuel' s' (- v) y (cf_neg x) F N' V' D' Hy (proj1 Cn) Fn ltac:(rewrite En, Ex; reflexivity)) as (A1 & A2).
  destruct (L_C38_neg y Cy) as (Cm & Em). assert (Zy : cf_neg y = cf_flip y). { destruct (cf_neg_cases y) as [Zy|(_ & _ & Py)]; [auto|]. contradiction. }
  assert (Fm : ~ finite (cf_neg y)) by (rewrite Zy; exact Fy).
  destruct (L_C58_shortest g t fuel s v x (cf_neg y) F N V D Hx (proj1 Cm) Fm ltac:(rewrite Em, Ey; ring)) as (B1 & B2).
  apply cf_eqb_eq. apply Q; [| |auto]; rewrite Z in *; rewrite Zy in *; cbn [cf_flip a_coeffs p_coeffs] in *; lia.
Qed.

Lemma L_C96_of_surd_refuted : exists s s' x, normal (Cfg false true) s /\ surd_neg BigI s = Ok s' /\ sval s <> sval s' /\
  surd_to_cf (Cfg false true) BigI 10 s = Ok (Some x) /\ surd_to_cf (Cfg false true) BigI 10 s' = Ok (Some x).
Proof.
  exists (Surd (SCo (-6) 4 1) 2), (Surd (SCo 6 (-4) 1) 2), (CF [0; 2; 1] [10; 1; 1; 1] false).
  split; [apply normalb_ok; vm_compute; reflexivity|]. split; [vm_compute; reflexivity|]. split; [|split; vm_compute; reflexivity].
  intros E. assert (K : Surd (SCo (-6) 4 1) 2 = Surd (SCo 6 (-4) 1) 2); [|discriminate].
  apply (normal_unique (Cfg false true)); auto; apply normalb_ok; vm_compute; reflexivity.
Qed.
