(** * SurdTotal: over BigInt, surd arithmetic returns exactly when it should. *)

From Coq Require Import ZArith Znumtheory Reals Lia Lra Bool.
From Coquelicot Require Import Coquelicot.
From Verif Require Import Base Ext ModelSurd Spec Transfer NumFacts SurdCore RatioFacts SurdArith.
Open Scope Z_scope.

Lemma surd_new_total g a b c r : c <> 0 -> (cplx g = false -> 0 <= r) ->
  returns (surd_new g BigI a b c r).
Proof.
  intros Hc Hr.
  destruct (surd_new_big g a b c r) as [(_ & _ & s' & E & _)|[(X & _)|(X & Y & _)]].
  - exists s'; auto.
  - contradiction.
  - specialize (Hr X). lia.
Qed.
Lemma surd_from_coeffs_total g co r : c2 co <> 0 -> (cplx g = false -> 0 <= r) ->
  returns (surd_from_coeffs g BigI co r).
Proof. destruct co as [a b c]. apply surd_new_total. Qed.

Section Tot.
Context (g : cfg) (s : surd) (Hs : wf g s).

Lemma surd_add_int_total k : returns (surd_add_int g BigI s k).
Proof. unfold surd_add_int, sco_add_int. bigi. apply surd_from_coeffs_total; apply Hs. Qed.
Lemma surd_sub_int_total k : returns (surd_sub_int g BigI s k).
Proof. unfold surd_sub_int, sco_sub_int. bigi. apply surd_from_coeffs_total; apply Hs. Qed.
Lemma surd_mul_int_total k : returns (surd_mul_int g BigI s k).
Proof. unfold surd_mul_int, sco_mul_int. bigi. apply surd_from_coeffs_total; apply Hs. Qed.
Lemma surd_div_int_total k : k <> 0 -> returns (surd_div_int g BigI s k).
Proof.
  intros Hk. unfold surd_div_int, sco_div_int. bigi. destruct Hs as [Hc Hr].
  apply surd_from_coeffs_total; [|apply Hr]. cbn. unfold okc in Hc. nia.
Qed.
Lemma surd_add_ratio_total q : okd q -> returns (surd_add_ratio g BigI s q).
Proof.
  intros Hq. unfold surd_add_ratio, sco_add_ratio. destruct Hs as [Hc Hr].
  destruct s as [[a b c] r], q as [n d]. unfold okc, okd in *. cbn [coeffs c2 discr denom] in *.
  destruct (Z.eqb_spec c d); bigi; apply surd_from_coeffs_total; auto; cbn; nia.
Qed.
Lemma surd_sub_ratio_total q : okd q -> returns (surd_sub_ratio g BigI s q).
Proof.
  intros Hq. unfold surd_sub_ratio, sco_sub_ratio. destruct Hs as [Hc Hr].
  destruct s as [[a b c] r], q as [n d]. unfold okc, okd in *. cbn [coeffs c2 discr denom] in *.
  destruct (Z.eqb_spec c d); bigi; apply surd_from_coeffs_total; auto; cbn; nia.
Qed.
Lemma surd_mul_ratio_total q : okd q -> returns (surd_mul_ratio g BigI s q).
Proof.
  intros Hq. unfold surd_mul_ratio, sco_mul_ratio. destruct Hs as [Hc Hr].
  destruct s as [[a b c] r], q as [n d]. unfold okc, okd in *. cbn [coeffs c2 discr denom] in *.
  bigi; apply surd_from_coeffs_total; auto; cbn; nia.
Qed.
Lemma surd_div_ratio_total q : okd q -> numer q <> 0 -> returns (surd_div_ratio g BigI s q).
Proof.
  intros Hq Hn. unfold surd_div_ratio, sco_div_ratio. destruct Hs as [Hc Hr].
  destruct s as [[a b c] r], q as [n d]. unfold okc, okd in *. cbn [coeffs c2 discr denom numer] in *.
  bigi; apply surd_from_coeffs_total; auto; cbn; nia.
Qed.
Lemma surd_neg_total : returns (surd_neg BigI s).
Proof. unfold surd_neg. bigi. eexists; reflexivity. Qed.
Lemma surd_conj_total : returns (surd_conj BigI s).
Proof. unfold surd_conj, sco_conj. bigi. eexists; reflexivity. Qed.
Lemma surd_recip_total : 
  c0 (coeffs s) * c0 (coeffs s) - c1 (coeffs s) * c1 (coeffs s) * discr s <> 0 ->
  returns (surd_recip g BigI s).
Proof.
  intros Hn. unfold surd_recip. destruct Hs as [Hc Hr].
  destruct s as [[a b c] r]. cbn [coeffs c0 c1 c2 discr] in *. bigi.
  apply surd_new_total; auto. lia.
Qed.
End Tot.

(** The norm of a normal surd vanishes only for zero *)
Lemma normal_norm_neq0 g s : normal g s -> sval s <> RtoC 0 ->
  c0 (coeffs s) * c0 (coeffs s) - c1 (coeffs s) * c1 (coeffs s) * discr s <> 0.
Proof.
  intros N Hz. destruct s as [[a b c] r]. cbn [coeffs c0 c1 c2 discr].
  unfold normal, parts in N. cbn [coeffs c0 c1 c2 discr] in N. destruct N as (Hc & _ & Hb & _).
  destruct Hb as [[-> ->]|[Hb Hr]].
  - intros X. apply Hz. rewrite sval_fval. cbn [coeffs c0 c1 c2 discr].
    rewrite fval_b0. assert (a = 0) by nia. subst a. rewrite ZtoC_0. field. apply ZtoC_neq0; lia.
  - apply norm_neq0; auto.
Qed.

(** What [==] on roots can reconcile: one root is a square times the other *)
Definition compatible (l r : surd) : Prop :=
  is_rational l = true \/ is_rational r = true \/
  exists k, 0 < k /\ (discr l = k * k * discr r \/ discr r = k * k * discr l).

Lemma bin_op_unwrap_total g l r : wf g l -> wf g r -> compatible l r ->
  is_rational l = false -> is_rational r = false ->
  exists l' r', reduce_bin_op_unwrap g BigI l r = Ok (l', r').
Proof.
  intros Hl Hr [X|[X|(k & Hk & HC)]] Il Ir; try congruence.
  pose proof Il as Jl. pose proof Ir as Jr.
  apply is_rational_false in Jl, Jr.
  destruct (reduce_bin_op_big g l r) as (o & E & _ & H2);
    try apply Hl; try apply Hr; try tauto.
  { intros X; split; [apply Hl|apply Hr]; auto. }
  unfold reduce_bin_op_unwrap. rewrite E. cbn [bind].
  destruct o as [[l1 r1]|]; [eauto|]. exfalso.
  destruct (H2 eq_refl k Hk). tauto.
Qed.

Lemma compatible_sign g l r l' r' : wf g l -> wf g r ->
  is_rational l = false -> is_rational r = false ->
  reduce_bin_op_unwrap g BigI l r = Ok (l', r') ->
  cplx g = false -> 0 <= discr l'.
Proof.
  intros Hl Hr Il Ir H X. apply bin_op_unwrap_ok in H; auto.
  destruct H as (_ & _ & _ & _ & _ & (k & Hk & E) & _).
  destruct Hl as [_ Hl]. specialize (Hl X). nia.
Qed.

Section Bin.
Context (g : cfg) (l r : surd) (Hl : wf g l) (Hr : wf g r) (HC : compatible l r).

Ltac rat s := match goal with |- returns (bind (ratio_new _ ?a ?b) _) =>
  let q := fresh "q" in let E := fresh "E" in let L := fresh "L" in
  destruct (ratio_new_big a b) as (q & E & _ & L); [apply s|]; rewrite E; bigi end.

Lemma surd_add_total : returns (surd_add g BigI l r).
Proof.
  unfold surd_add. destruct (is_rational r) eqn:Er.
  { rat Hr. apply surd_add_ratio_total; auto. }
  destruct (is_rational l) eqn:El.
  { rat Hl. apply surd_add_ratio_total; auto. }
  destruct (bin_op_unwrap_total g l r Hl Hr HC El Er) as (l' & r' & E). rewrite E. bigi.
  pose proof (compatible_sign g l r l' r' Hl Hr El Er E) as Hsg.
  apply bin_op_unwrap_ok in E; auto. destruct E as (_ & _ & Ol & Or & _).
  unfold sco_add, okc in *. destruct (Z.eqb_spec (c2 (coeffs l')) (c2 (coeffs r')));
    bigi; apply surd_from_coeffs_total; cbn; auto; nia.
Qed.
Lemma surd_sub_total : returns (surd_sub g BigI l r).
Proof.
  unfold surd_sub. destruct (is_rational r) eqn:Er.
  { rat Hr. apply surd_sub_ratio_total; auto. }
  destruct (is_rational l) eqn:El.
  { rat Hl. destruct (surd_sub_ratio_total g r Hr q) as [v Ev]; auto. rewrite Ev. bigi.
    apply surd_neg_total. }
  destruct (bin_op_unwrap_total g l r Hl Hr HC El Er) as (l' & r' & E). rewrite E. bigi.
  pose proof (compatible_sign g l r l' r' Hl Hr El Er E) as Hsg.
  apply bin_op_unwrap_ok in E; auto. destruct E as (_ & _ & Ol & Or & _).
  unfold sco_sub, okc in *. destruct (Z.eqb_spec (c2 (coeffs l')) (c2 (coeffs r')));
    bigi; apply surd_from_coeffs_total; cbn; auto; nia.
Qed.
End Bin.

Lemma gcd_exact_quots x y : y <> 0 -> exists x' y',
  Z.quot x (Z.gcd x y) = x' /\ Z.quot y (Z.gcd x y) = y' /\ x = Z.gcd x y * x' /\ y = Z.gcd x y * y'.
Proof.
  intros Hy. destruct (gcd_cofactor x y Hy) as (x' & y' & E1 & E2 & _).
  pose proof (gcd_neq0_r x y Hy).
  exists x', y'. split; [apply quot_exact; [lia|auto]|]. split; [apply quot_exact; [lia|auto]|auto].
Qed.

Ltac rat s := match goal with |- returns (bind (ratio_new _ ?a ?b) _) =>
  let q := fresh "q" in let E := fresh "E" in let L := fresh "L" in
  destruct (ratio_new_big a b) as (q & E & _ & L); [apply s|]; rewrite E; bigi end.

Lemma surd_mul_total g l r : wf g l -> wf g r ->
  compatible l r \/ (is_pure l = true /\ is_pure r = true) -> returns (surd_mul g BigI l r).
Proof.
  intros Hl Hr HC. unfold surd_mul. destruct (is_rational r) eqn:Er.
  { rat Hr. apply surd_mul_ratio_total; auto. }
  destruct (is_rational l) eqn:El.
  { rat Hl. apply surd_mul_ratio_total; auto. }
  destruct (is_pure l && is_pure r) eqn:Ep.
  { pose proof (is_rational_false _ El) as [_ Dl]. pose proof (is_rational_false _ Er) as [_ Dr].
    bigi. destruct (gcd_exact_quots (discr l) _ Dr) as (x & y & Ex & Ey & E1 & E2).
    pose proof (gcd_neq0_r (discr l) _ Dr).
    do 2 (rewrite quotB by lia; bigi). rewrite Ex, Ey.
    destruct Hl as [Hl Sl], Hr as [Hr Sr]. unfold okc in *.
    apply surd_new_total; [nia|]. intros X. specialize (Sl X). specialize (Sr X). nia. }
  assert (HC' : compatible l r).
  { destruct HC as [HC|[X Y]]; [auto|]. rewrite X, Y in Ep. discriminate. }
  destruct (bin_op_unwrap_total g l r Hl Hr HC' El Er) as (l' & r' & E). rewrite E. bigi.
  pose proof (compatible_sign g l r l' r' Hl Hr El Er E) as Hsg.
  apply bin_op_unwrap_ok in E; auto. destruct E as (_ & _ & Ol & Or & _).
  unfold sco_mul, okc in *. destruct l' as [[la lb lc] ld], r' as [[ra rb rc] rd]. 
  cbn [coeffs c2 discr] in *. bigi; apply surd_from_coeffs_total; cbn; auto; nia.
Qed.

Lemma normal_irr_ns g s : normal g s -> is_rational s = false -> ~ square (discr s).
Proof.
  intros N I. apply is_rational_false in I. destruct s as [[a b c] r].
  unfold normal, parts in N. cbn [coeffs c0 c1 c2 discr] in *. intuition.
Qed.

Lemma surd_div_total g l r : normal g l -> normal g r ->
  compatible l r \/ (is_pure l = true /\ is_pure r = true) ->
  sval r <> RtoC 0 -> (sval l <> RtoC 0 \/ is_rational r = true) ->
  returns (surd_div g BigI l r).
Proof.
  intros Nl Nr HC Hz Hlz. pose proof (normal_wf _ _ Nl) as Hl. pose proof (normal_wf _ _ Nr) as Hr.
  unfold surd_div. destruct (is_rational r) eqn:Er.
  { match goal with |- returns (bind (ratio_new _ ?a ?b) _) =>
      destruct (ratio_new_big a b) as (q & E & V & L); [apply Hr|]; rewrite E; bigi end.
    apply surd_div_ratio_total; auto. intros X. apply Hz.
    rewrite is_rational_true by (auto; apply Hr). 
    apply rval_zero in X; auto. rewrite V in X.
    unfold ZtoC. rewrite <- RtoC_div; [rewrite X; auto|]. apply IZR_neq0. apply Hr. }
  destruct (is_rational l) eqn:El.
  { destruct Hlz as [Hlz|]; [|discriminate].
    match goal with |- returns (bind (ratio_new _ ?a ?b) _) =>
      destruct (ratio_new_big a b) as (q & E & V & L); [apply Hl|]; rewrite E; bigi end.
    assert (Hq : numer q <> 0).
    { intros X. apply Hlz. rewrite is_rational_true by (auto; apply Hl). 
      apply rval_zero in X; auto. rewrite V in X.
      unfold ZtoC. rewrite <- RtoC_div; [rewrite X; auto|]. apply IZR_neq0. apply Hl. }
    destruct (surd_div_ratio_total g r Hr q) as [v Ev]; auto. rewrite Ev. bigi.
    apply surd_div_ratio_ok in Ev; auto; [|apply Hr]. destruct Ev as (_ & V2 & N2).
    apply surd_recip_total; auto. apply (normal_norm_neq0 g); auto.
    rewrite V2. intros X. apply Hz.
    assert (Hq0 : qC q <> RtoC 0).
    { unfold qC. intros Y. apply RtoC_inj in Y. apply rval_zero in Y; auto. }
    replace (sval r) with (sval r / qC q * qC q)%C by (field; auto). rewrite X. ring. }
  destruct (is_pure l && is_pure r) eqn:Ep.
  { pose proof (is_rational_false _ El) as [_ Dl]. pose proof (is_rational_false _ Er) as [Br Dr].
    bigi. destruct (gcd_exact_quots (discr l) _ Dr) as (x & y & Ex & Ey & E1 & E2).
    pose proof (gcd_neq0_r (discr l) _ Dr).
    do 2 (rewrite quotB by lia; bigi). rewrite Ex, Ey.
    destruct Hl as [Hl Sl], Hr as [Hr Sr]. unfold okc in *.
    assert (y <> 0) by (intro; subst y; lia).
    apply surd_new_total; [|intros X; specialize (Sl X); specialize (Sr X); nia].
    apply Z.neq_mul_0; split; auto. apply Z.neq_mul_0; split; auto. }
  assert (HC' : compatible l r).
  { destruct HC as [HC|[X Y]]; [auto|]. rewrite X, Y in Ep. discriminate. }
  destruct (bin_op_unwrap_total g l r Hl Hr HC' El Er) as (l' & r' & E). rewrite E. bigi.
  pose proof (compatible_sign g l r l' r' Hl Hr El Er E) as Hsg.
  apply bin_op_unwrap_ok in E; auto. destruct E as (_ & Vr & Ol & Or & Ed & _ & (k & Hk & Kr)).
  assert (Hns : ~ square (discr r')).
  { intros X. apply (normal_irr_ns g r Nr Er). rewrite Kr. apply square_mul; auto. }
  unfold sco_div, okc in *. destruct l' as [[la lb lc] ld], r' as [[ra rb rc] rd]. 
  cbn [coeffs c2 discr] in *. bigi; apply surd_from_coeffs_total; cbn; auto.
  apply Z.neq_mul_0; split; auto. rewrite Ed. apply norm_neq0; auto.
  destruct (Z.eq_dec ra 0) as [->|]; [|auto]. destruct (Z.eq_dec rb 0) as [->|]; [|auto].
  exfalso. apply Hz. rewrite <- Vr, sval_fval. cbn [coeffs c0 c1 c2 discr]. rewrite fval_b0, ZtoC_0.
  field. auto.
Qed.
