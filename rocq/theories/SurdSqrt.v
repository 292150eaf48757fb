(** * SurdSqrt: square roots of surds (from_sqrt). *)

From Coq Require Import ZArith Znumtheory Reals Lia Lra Bool List.
From Coquelicot Require Import Coquelicot.
From Verif Require Import Base Ext ModelSurd Spec Transfer NumFacts SurdCore RatioFacts SurdArith SurdTotal SurdOrd SurdRound SurdMisc SurdConv.
Open Scope Z_scope.

(** ** The candidate (a, b, c) *)
Lemma get_abc_big gg y : lowest gg -> numer gg <> 0 -> lowest y -> numer y <> 0 ->
  exists k c2, k <> 0 /\ c2 <> 0 /\ 0 < k * numer y /\
    c2 * numer y = 2 * numer gg * denom gg * k * k * denom y /\
    get_abc BigI gg y = Ok (if c2 <? 0 then None
      else if Z.sqrt c2 * Z.sqrt c2 =? c2 then Some (numer gg * k, denom gg * k, Z.sqrt c2) else None).
Proof.
  intros Lg Hg Ly Hy. destruct Lg as [Lg _]. destruct Ly as [Ly _].
  destruct gg as [A B], y as [n d]. cbn [numer denom] in *. unfold get_abc. cbn [numer denom]. bigi.
  assert (Hd : 0 < Z.gcd ((1 + 1) * A * B) n) by (apply gcd_neq0_r; auto).
  rewrite quotB by lia. bigi. rewrite quotB by auto. bigi.
  destruct (Z.gcd_divide_l ((1 + 1) * A * B) n) as [u Hu].
  destruct (Z.gcd_divide_r ((1 + 1) * A * B) n) as [k Hk].
  set (e := Z.gcd ((1 + 1) * A * B) n) in *. clearbody e.
  assert (Ek : Z.quot n e = k) by (apply (quot_exact e n k); lia). rewrite Ek.
  assert (Ec : Z.quot ((1 + 1) * A * B * k * k * d) n = u * k * d).
  { apply (quot_exact n); [auto|]. rewrite Hu, Hk. ring. }
  rewrite Ec. set (c2 := u * k * d).
  assert (Hk0 : k <> 0) by (intros X; subst; lia).
  assert (Hu0 : u <> 0) by (intros X; subst; nia).
  exists k, c2. split; [auto|]. split; [unfold c2; apply Z.neq_mul_0; split; [nia|lia]|].
  split; [rewrite Hk; nia|]. split; [unfold c2; rewrite Hk; nia|].
  destruct (Z.ltb_spec c2 0) as [C|C]; [reflexivity|]. rewrite sqrtB by auto. bigi.
  destruct (Z.sqrt c2 * Z.sqrt c2 =? c2); reflexivity.
Qed.

Lemma get_abc_ok t gg y a b c : lowest gg -> numer gg <> 0 -> lowest y -> numer y <> 0 ->
  get_abc t gg y = Ok (Some (a, b, c)) ->
  0 < c /\ 0 < a /\ exists k, k <> 0 /\ 0 < k * numer y /\ a = numer gg * k /\ b = denom gg * k /\
    c * c * numer y = 2 * numer gg * denom gg * k * k * denom y.
Proof.
  intros Lg Hg Ly Hy H. apply rle_get_abc in H.
  destruct (get_abc_big gg y Lg Hg Ly Hy) as (k & c2 & Hk & Hc2 & Hky & E2 & E). rewrite E in H.
  destruct (Z.ltb_spec c2 0) as [C|C]; [discriminate|].
  destruct (Z.eqb_spec (Z.sqrt c2 * Z.sqrt c2) c2) as [S|S]; [|discriminate].
  inversion H; subst. pose proof (Z.sqrt_nonneg c2).
  assert (Hp : 0 < Z.sqrt c2) by nia.
  split; [auto|]. split.
  - destruct Lg as [Lg _]. destruct Ly as [Ly _].
    destruct (Z.lt_trichotomy (numer gg * k) 0) as [X|[X|X]]; [exfalso|nia|auto].
    assert (0 < c2 * numer y * k) by nia.
    assert (c2 * numer y * k = 2 * (numer gg * k) * (k * k) * (denom gg * denom y)) by (rewrite E2; ring).
    assert (0 < k * k) by nia. assert (0 < denom gg * denom y) by nia.
    assert (2 * (numer gg * k) * (k * k) < 0) by nia. nia.
  - exists k. rewrite S. auto.
Qed.

(** The candidate really is a square root *)
Lemma abc_square a b c r gg y X k : lowest gg -> numer gg <> 0 -> lowest y -> numer y <> 0 ->
  k <> 0 -> c <> 0 -> a = numer gg * k -> b = denom gg * k ->
  c * c * numer y = 2 * numer gg * denom gg * k * k * denom y ->
  (rval gg * (2 * X - rval gg) = IZR r)%R ->
  (fval a b c r * fval a b c r)%C = (qC y * (RtoC X + csqrt r))%C.
Proof.
  intros Lg Hg Ly Hy Hk Hc Ea Eb Ec HX. pose proof (lowest_okd _ Lg) as Og. pose proof (lowest_okd _ Ly) as Oy.
  unfold okd in *. pose proof (csqrt_sq r) as W. rewrite (qC_eq y) by auto. unfold rval in HX.
  destruct gg as [A B], y as [n d]. cbn [numer denom] in *. subst a b.
  assert (E1 : (IZR A * IZR A + IZR B * IZR B * IZR r = 2 * IZR A * IZR B * X)%R).
  { rewrite <- HX. field. apply IZR_neq0; auto. }
  assert (E1c : (ZtoC A * ZtoC A + ZtoC B * ZtoC B * ZtoC r = ZtoC 2 * ZtoC A * ZtoC B * RtoC X)%C).
  { unfold ZtoC. rewrite <- !RtoC_mult, <- RtoC_plus. f_equal. exact E1. }
  assert (E2c : (ZtoC c * ZtoC c * ZtoC n = ZtoC 2 * ZtoC A * ZtoC B * ZtoC k * ZtoC k * ZtoC d)%C).
  { rewrite <- !ZtoC_mul. f_equal. exact Ec. }
  unfold fval. rewrite !ZtoC_mul. set (w := csqrt r) in *. clearbody w.
  assert (NA := ZtoC_neq0 A Hg). assert (NB := ZtoC_neq0 B Og). assert (Nk := ZtoC_neq0 k Hk).
  assert (Nn := ZtoC_neq0 n Hy). assert (Nd := ZtoC_neq0 d Oy). assert (Nc := ZtoC_neq0 c Hc).
  assert (N2 : ZtoC 2 <> RtoC 0) by (apply ZtoC_neq0; lia).
  assert (H2 : ZtoC 2 = (RtoC 1 + RtoC 1)%C) by (unfold ZtoC; rewrite <- RtoC_plus; f_equal).
  transitivity (ZtoC n * (ZtoC k * ZtoC k * (ZtoC A * ZtoC A + ZtoC B * ZtoC B * (w * w) + (RtoC 1 + RtoC 1) * ZtoC A * ZtoC B * w))
     / (ZtoC c * ZtoC c * ZtoC n))%C.
  { field. auto. }
  rewrite E2c, W, E1c, <- H2. field. repeat split; auto.
Qed.

Lemma get_abc_complete gg y P Q E : lowest gg -> numer gg <> 0 -> lowest y -> numer y <> 0 ->
  E <> 0 -> Q <> 0 -> rval gg = (IZR P / IZR Q)%R -> rval y = (2 * IZR P * IZR Q / (IZR E * IZR E))%R ->
  exists a b c, get_abc BigI gg y = Ok (Some (a, b, c)).
Proof.
  intros Lg Hg Ly Hy HE HQ Vg Vy.
  destruct (get_abc_big gg y Lg Hg Ly Hy) as (k & c2 & Hk & Hc2 & Hky & E2 & Eq).
  pose proof (lowest_okd _ Lg) as Og. pose proof (lowest_okd _ Ly) as Oy. unfold okd in *. unfold rval in *.
  destruct gg as [A B], y as [n d]. cbn [numer denom] in *.
  assert (RQ := IZR_neq0 _ HQ). assert (RE := IZR_neq0 _ HE). assert (RB := IZR_neq0 _ Og). assert (Rd := IZR_neq0 _ Oy).
  assert (F1 : A * Q = P * B).
  { apply eq_IZR. rewrite !mult_IZR. apply (f_equal (fun z => z * (IZR B * IZR Q))%R) in Vg.
    field_simplify in Vg; auto. lra. }
  assert (F2 : n * (E * E) = 2 * P * Q * d).
  { apply eq_IZR. rewrite !mult_IZR. apply (f_equal (fun z => z * (IZR d * (IZR E * IZR E)))%R) in Vy.
    field_simplify in Vy; auto. lra. }
  destruct Lg as [LB Lg]. destruct Ly as [Ld Ly]. cbn [numer denom] in *.
  assert (RP : rel_prime A B) by (apply Zgcd_1_rel_prime; auto).
  assert (D : (A | P)).
  { apply Gauss with B; [exists Q; lia|auto]. }
  destruct D as [m Hm]. subst P.
  assert (FQ : Q = B * m) by (apply Z.mul_reg_l with A; [auto|]; lia). subst Q.
  assert (Hm0 : m <> 0) by (intros X; subst; lia).
  (* c2 * m^2 = (k E)^2 *)
  assert (F3 : (k * E) * (k * E) = m * m * c2).
  { apply Z.mul_reg_l with (2 * A * B * d); [repeat (apply Z.neq_mul_0; split); auto; lia|].
    transitivity (c2 * (n * (E * E))); [|rewrite F2; ring].
    transitivity (c2 * n * (E * E)); [rewrite E2; ring|ring]. }
  assert (Sq : square c2) by (apply (square_quotient (k * E) m); auto).
  assert (Hc2p : 0 <= c2) by (destruct Sq as [z Hz]; nia).
  rewrite Eq. destruct (Z.ltb_spec c2 0); [lia|].
  apply (sqrt_square_iff c2 Hc2p) in Sq. rewrite Sq, Z.eqb_refl. eauto.
Qed.

(** The sign of the rational part survives the reduction *)
Lemma surd_new_pos g t a b c r s : surd_new g t a b c r = Ok s -> 0 < c -> b <> 0 -> ~ square r ->
  0 < a -> 0 < c0 (coeffs s) /\ (0 < b <-> 0 < c1 (coeffs s)) /\
  exists k, 0 < k /\ r = k * k * discr s.
Proof.
  intros H Hc Hb Hr Ha. apply surd_new_ok in H. destruct H as (_ & _ & V & N & R).
  unfold reduced_from, parts in R. rewrite sval_fval in V.
  destruct s as [[a' b' c'] r']. cbn [coeffs c0 c1 c2 discr] in *.
  destruct R as (Rc & _ & [[R1 R2]|(R1 & R2 & k & Hk & R3)]).
  - exfalso. subst b' r'. apply Hb. apply (fval_rational_b0 a b c r); auto; [lia|].
    rewrite <- V, fval_b0. eexists _, _. split; [|reflexivity]. lia.
  - rewrite R3, fval_root in V by lia. apply fval_cross in V; auto; try lia. destruct V as [V1 V2].
    split; [nia|]. split; [|eauto]. split; intros; nia.
Qed.

Lemma sqrt_reconstruct_ok g t X y r k res : okd X -> okd y -> sqrt_reconstruct g t X y r k = Ok res ->
  exists s, res = SqErr s k /\ normal g s /\ sval s = (qC X * qC y + qC y * csqrt r)%C.
Proof.
  intros HX Hy H. unfold sqrt_reconstruct in H. stepH H. apply ratio_mul_ok in E; auto.
  destruct E as [V L]. destruct (ratio_of_spec r) as [Vr Lr].
  stepH H. apply surd_from_rationals_ok in E; auto; [|apply Lr].
  destruct E as [V2 N]. inversion H; subst. exists a0. split; [auto|]. split; [auto|].
  rewrite V2, Vr, rcsqrt_IZR. unfold qC at 1. rewrite V, RtoC_mult. reflexivity.
Qed.

Lemma sqrt_reconstruct_total g X y r k : lowest X -> lowest y -> (cplx g = false -> 0 <= r) ->
  returns (sqrt_reconstruct g BigI X y r k).
Proof.
  intros HX Hy Hr. unfold sqrt_reconstruct.
  destruct (ratio_mul_big X y) as (q & E & V & L); auto. rewrite E. bigi.
  destruct (ratio_of_spec r) as [Vr Lr].
  destruct (surd_from_rationals_total g q y (ratio_of r)) as [s Es]; auto; [apply Lr| |].
  - intros G. rewrite Vr. apply IZR_le. auto.
  - rewrite Es. bigi. eexists; reflexivity.
Qed.

(** The principal square root lies in the right half-plane *)
Lemma fst_fval a b c r : c <> 0 -> r < 0 -> fst (fval a b c r) = (IZR a / IZR c)%R.
Proof.
  intros Hc Hr. unfold fval. rewrite csqrt_neg by auto.
  unfold ZtoC, RtoC, Cdiv, Cinv, Cmult, Cplus; cbn [fst snd]. field. apply IZR_neq0; auto.
Qed.

Lemma surd_is_negative_ok g t s b : normal g s -> 0 <= discr s -> surd_is_negative g t s = Ok b ->
  (b = true <-> (rs s < 0)%R).
Proof.
  intros N D H. apply rle_surd_is_negative in H. destruct (surd_is_negative_big g s N D) as (b' & E & I).
  rewrite H in E. inversion E; subst. auto.
Qed.

Lemma normal_rational_Ratio g s : normal g s -> is_rational s = true ->
  discr s = 0 /\ lowest (Ratio (c0 (coeffs s)) (c2 (coeffs s))) /\
  sval s = qC (Ratio (c0 (coeffs s)) (c2 (coeffs s))).
Proof.
  intros N R. pose proof (normal_okc _ _ N) as O. pose proof (proj2 (normal_discr0 g s N) R) as D.
  split; [auto|]. split.
  - destruct N as (Hc & Hg & Hb & _). unfold lowest. cbn [numer denom]. split; [auto|].
    destruct Hb as [[Hb _]|[_ Hb]].
    + rewrite Hb, Z.gcd_0_r, Z.gcd_abs_l in Hg. auto.
    + exfalso. apply Hb. rewrite D. exists 0. reflexivity.
  - rewrite qC_eq by (unfold okd; exact O). rewrite (is_rational_true s R O). reflexivity.
Qed.

Definition sqrt_post (g : cfg) (s : surd) (res : sqrt_result surd) : Prop :=
  match res with
  | SqOk y => normal g y /\ (sval y * sval y)%C = sval s /\
      (rational_num (sval s) -> exists x, sval s = RtoC x /\ sval y = rcsqrt x) /\
      (~ rational_num (sval s) -> 0 < c0 (coeffs y) /\
         (0 < c1 (coeffs s) -> 0 < c1 (coeffs y)) /\ (discr s < 0 <-> discr y < 0) /\
         (0 < discr s <-> 0 < discr y))
  | SqErr d k => normal g d /\ sval d = sval s /\
      (k = EComplex <-> cplx g = false /\ exists x, (x < 0)%R /\ sval s = RtoC x)
  end.

(** One branch of the search *)
Lemma branch_ok g t s gg y X a b c ret : normal g s -> is_rational s = false ->
  lowest gg -> lowest y -> numer y <> 0 ->
  (rval gg * (2 * X - rval gg) = IZR (discr s))%R -> sval s = (qC y * (RtoC X + csqrt (discr s)))%C ->
  (0 < rval y <-> 0 < IZR (c1 (coeffs s)))%R ->
  get_abc t gg y = Ok (Some (a, b, c)) -> surd_new g t a b c (discr s) = Ok ret ->
  0 < c0 (coeffs ret) /\ sqrt_post g s (SqOk ret).
Proof.
  intros N I Lg Ly Hy HX Vs Sy HG HN.
  pose proof (normal_irr_ns g s N I) as Hns.
  assert (Hg : numer gg <> 0).
  { intros Z0. apply rval_zero in Z0; [|apply lowest_okd; auto]. rewrite Z0 in HX.
    apply Hns. exists 0. apply eq_IZR. rewrite <- HX. rewrite Z.mul_0_l. ring. }
  destruct (get_abc_ok t gg y a b c Lg Hg Ly Hy HG) as (Hc & Ha & k & Hk & Hky & Ea & Eb & Ec).
  assert (Hb : b <> 0). { rewrite Eb. destruct Lg as [Lg _]. apply Z.neq_mul_0; split; [lia|auto]. }
  destruct (surd_new_pos g t a b c (discr s) ret HN Hc Hb Hns Ha) as (P0 & P1 & k' & Hk' & Er).
  apply surd_new_ok in HN. destruct HN as (_ & _ & V & Nr & _).
  split; [auto|]. unfold sqrt_post. split; [auto|]. split.
  { rewrite V, Vs. apply (abc_square a b c (discr s) gg y X k); auto. lia. }
  split. { intros R. apply (normal_is_rational g s N) in R. congruence. }
  intros _. split; [auto|]. split.
  { intros H. apply P1. rewrite Eb. apply IZR_lt in H. apply Sy in H.
    destruct Ly as [Ly _]. destruct Lg as [Lg _].
    assert (0 < numer y).
    { apply lt_IZR. unfold rval in H. assert (D : (0 < IZR (denom y))%R) by (apply IZR_lt; auto).
      replace (IZR (numer y)) with (IZR (numer y) / IZR (denom y) * IZR (denom y))%R by (field; lra). nra. }
    assert (0 < k) by nia. nia. }
  split; split; intros; nia.
Qed.

Theorem from_sqrt_surd_ok g t s res : normal g s -> from_sqrt_surd g t s = Ok res -> sqrt_post g s res.
Proof.
  intros N H. pose proof (normal_okc _ _ N) as O. unfold from_sqrt_surd in H.
  stepH H. rename a into isneg. rename E into Eneg.
  assert (Hneg : isneg = true <-> cplx g = false /\ exists x, (x < 0)%R /\ sval s = RtoC x).
  { destruct (cplx g) eqn:G.
    - inversion Eneg; subst. split; [discriminate|intros [X _]; discriminate].
    - assert (D : 0 <= discr s) by (destruct N as (_ & _ & _ & N); auto).
      apply surd_is_negative_ok in Eneg; auto. rewrite Eneg. split.
      + intros L. split; auto. exists (rs s). split; auto. apply sval_rs; auto.
      + intros (_ & x & L & V). destruct (normal_real g s x N V) as [_ Ex]. subst x. auto. }
  clear Eneg. destruct isneg.
  { inversion H; subst. unfold sqrt_post. split; [auto|]. split; [auto|].
    split; intros; [apply Hneg; auto|auto]. }
  assert (Hnn : ~ (cplx g = false /\ exists x, (x < 0)%R /\ sval s = RtoC x)).
  { intros X. apply Hneg in X. discriminate. }
  destruct (is_rational s) eqn:I.
  { destruct (normal_rational_Ratio g s N I) as (D & L & V).
    stepH H. apply surd_to_rational_ok in E; auto. destruct a as [q|q].
    { discriminate. }
    destruct E as [Vq Lq]. stepH H. apply from_sqrt_ratio_spec in E; auto. destruct a.
    - inversion H; subst. destruct E as (V1 & N1 & _). unfold sqrt_post. split; [auto|].
      split; [rewrite V1, Vq; apply rcsqrt_sq|]. split.
      + intros _. exists (rval q). auto.
      + intros X. exfalso. apply X. apply (normal_is_rational g s N). auto.
    - inversion H; subst. destruct E as (-> & E). unfold sqrt_post.
      destruct (surd_of_ratio_spec g q Lq) as [V1 N1]. split; [auto|]. split; [congruence|].
      destruct E as [(-> & E1 & E2)|(-> & _)].
      + split; auto. intros _. split; auto. exists (rval q). auto.
      + split; [discriminate|]. intros X. contradiction. }
  pose proof (normal_irr_ns g s N I) as Hns. pose proof (is_rational_false s I) as [Hb0 Hr0].
  assert (Hgr : cplx g = false -> 0 <= discr s) by (destruct N as (_ & _ & _ & N'); auto).
  assert (Hcp : 0 < c2 (coeffs s)) by apply N.
  remember (discr s) as r eqn:Er. remember (c0 (coeffs s)) as a eqn:Ea.
  remember (c1 (coeffs s)) as b eqn:Eb. remember (c2 (coeffs s)) as c eqn:Ec.
  assert (Es : s = Surd (SCo a b c) r) by (subst; destruct s as [[? ? ?] ?]; reflexivity).
  rewrite Es in H at 1. 
  stepH H. rename a0 into x. apply ratio_new_ok in E. destruct E as (_ & Vx & Lx).
  stepH H. rename a0 into y. apply ratio_new_ok in E. destruct E as (_ & Vy & Ly).
  stepH H. rename a0 into X. apply ratio_div_ok in E; auto using lowest_okd. destruct E as (Hy & VX & LX).
  stepH H. rename a0 into XX. apply ratio_mul_ok in E; auto using lowest_okd. destruct E as (VXX & LXX).
  stepH H. rename a0 into d2. apply ratio_sub_int_ok in E; auto using lowest_okd. destruct E as (Vd2 & Ld2).
  assert (Rc : IZR c <> 0%R) by (apply IZR_neq0; lia).
  assert (Rb : IZR b <> 0%R) by (apply IZR_neq0; lia).
  assert (Ry : rval y <> 0%R) by (intros Z0; apply rval_zero in Z0; auto using lowest_okd).
  assert (Vs : sval s = (qC y * (RtoC (rval X) + csqrt r))%C).
  { rewrite sval_fval. rewrite <- Ea, <- Eb, <- Ec, <- Er. unfold fval, qC. rewrite VX, RtoC_div, Vx, Vy by auto.
    rewrite !RtoC_div by auto. fold (ZtoC a) (ZtoC b) (ZtoC c). field. split; apply ZtoC_neq0; lia. }
  assert (Sy : (0 < rval y <-> 0 < IZR b)%R).
  { rewrite Vy. assert (P : (0 < IZR c)%R) by (apply IZR_lt; auto). split; intros Q.
    - replace (IZR b) with (IZR b / IZR c * IZR c)%R by (field; auto). nra.
    - apply Rdiv_lt_0_compat; auto. }
  assert (Rec : forall k res, k <> EComplex -> sqrt_reconstruct g t X y r k = Ok res -> sqrt_post g s res).
  { intros k res0 Hk HR. apply sqrt_reconstruct_ok in HR; auto using lowest_okd.
    destruct HR as (d & -> & Nd & Vd). unfold sqrt_post. split; [auto|]. split.
    - rewrite Vd, Vs. unfold qC. ring.
    - split; [contradiction|]. intros Z0. contradiction. }
  destruct (ratio_is_negative d2) eqn:Nd2.
  { apply Rec in H; auto. discriminate. }
  apply ratio_is_negative_false in Nd2; auto using lowest_okd.
  stepH H. rename a0 into dl. apply from_sqrt_ratio_spec in E; auto. destruct dl as [delta|d k].
  2:{ apply Rec in H; auto. destruct E as (_ & [(-> & Q & _)|(-> & _)]); [lra|discriminate]. }
  destruct E as (Vdl & Ndl & _).
  destruct (is_rational delta) eqn:Idl; [|apply Rec in H; auto; discriminate].
  stepH H. rename a0 into dq. apply surd_to_rational_ok in E; auto.
  destruct dq as [dq|dq].
  { exfalso. destruct E as [E _]. apply E. apply (normal_is_rational g delta Ndl). auto. }
  destruct E as [Vdq Ldq]. cbn [approx_value] in H.
  assert (Sq : (rval dq * rval dq = rval X * rval X - IZR r)%R).
  { pose proof (rcsqrt_sq (rval d2)) as Q. rewrite <- Vdl, Vdq in Q. unfold qC in Q.
    rewrite <- RtoC_mult in Q. apply RtoC_inj in Q. rewrite Q, Vd2, VXX. reflexivity. }
  rewrite Er in *.
  stepH H. rename a0 into g1. apply ratio_sub_ok in E; auto using lowest_okd. destruct E as (Vg1 & Lg1).
  stepH H. rename a0 into o1. destruct o1 as [[[a1 b1] c1']|].
  - stepH H. rename a0 into ret. stepH H. inversion H; subst res.
    eapply (branch_ok g t s g1 y (rval X)) in E0; eauto.
    + apply E0.
    + rewrite Vg1. replace (2 * rval X - (rval X - rval dq))%R with (rval X + rval dq)%R by ring.
      replace ((rval X - rval dq) * (rval X + rval dq))%R with (rval X * rval X - rval dq * rval dq)%R by ring.
      rewrite Sq. ring.
    + rewrite Eb in Sy. auto.
  - stepH H. rename a0 into g2. apply ratio_add_ok in E0; auto using lowest_okd. destruct E0 as (Vg2 & Lg2).
    stepH H. rename a0 into o2. destruct o2 as [[[a1 b1] c1']|].
    + stepH H. rename a0 into ret. stepH H. inversion H; subst res.
      eapply (branch_ok g t s g2 y (rval X)) in E1; eauto.
      * apply E1.
      * rewrite Vg2. replace (2 * rval X - (rval X + rval dq))%R with (rval X - rval dq)%R by ring.
        replace ((rval X + rval dq) * (rval X - rval dq))%R with (rval X * rval X - rval dq * rval dq)%R by ring.
        rewrite Sq. ring.
      * rewrite Eb in Sy. auto.
    + apply Rec in H; auto. discriminate.
Qed.

(** ** Totality and completeness over BigInt *)
Lemma dassert_true g b : b = true -> dassert g b = Ok tt.
Proof. intros ->. unfold dassert. destruct (dbg g); reflexivity. Qed.

Lemma surd_to_rational_rational g t s : normal g s -> is_rational s = true ->
  surd_to_rational g t s = Ok (Exact (Ratio (c0 (coeffs s)) (c2 (coeffs s)))).
Proof.
  intros N I. destruct (normal_rational_Ratio g s N I) as (D & L & V).
  unfold surd_to_rational. rewrite pic_real by lia. bigi. rewrite D. reflexivity.
Qed.

Lemma from_sqrt_surd_step g s : normal g s -> is_rational s = false ->
  ~ (cplx g = false /\ exists x, (x < 0)%R /\ sval s = RtoC x) ->
  exists x y X d2,
    rval x = (IZR (c0 (coeffs s)) / IZR (c2 (coeffs s)))%R /\
    rval y = (IZR (c1 (coeffs s)) / IZR (c2 (coeffs s)))%R /\ lowest y /\ numer y <> 0 /\
    rval X = (rval x / rval y)%R /\ lowest X /\
    rval d2 = (rval X * rval X - IZR (discr s))%R /\ lowest d2 /\
    from_sqrt_surd g BigI s =
      (let r := discr s in
       if ratio_is_negative d2 then sqrt_reconstruct g BigI X y r EUnrepresentable
       else
         let! dl := from_sqrt_ratio g BigI d2 in
         match dl with
         | SqErr _ k => sqrt_reconstruct g BigI X y r k
         | SqOk delta =>
           if is_rational delta then
             let! dq := surd_to_rational g BigI delta in
             let dq := approx_value dq in
             let! g1 := ratio_sub BigI X dq in
             let! o1 := get_abc BigI g1 y in
             match o1 with
             | Some (a, b, c) =>
               let! ret := surd_new g BigI a b c r in
               let! _ := dassert g (negb (c0 (coeffs ret) <? 0)) in
               Ok (SqOk ret)
             | None =>
               let! g2 := ratio_add BigI X dq in
               let! o2 := get_abc BigI g2 y in
               match o2 with
               | Some (a, b, c) =>
                 let! ret := surd_new g BigI a b c r in
                 let! _ := dassert g (negb (c0 (coeffs ret) <? 0)) in
                 Ok (SqOk ret)
               | None => sqrt_reconstruct g BigI X y r EUnrepresentable
               end
             end
           else sqrt_reconstruct g BigI X y r EUnrepresentable
         end).
Proof.
  intros N I Hnn. pose proof (normal_okc _ _ N) as O. pose proof (is_rational_false s I) as [Hb0 Hr0].
  assert (En : (if cplx g then Ok false else surd_is_negative g BigI s) = Ok false).
  { destruct (cplx g) eqn:G; [reflexivity|].
    assert (D : 0 <= discr s) by (destruct N as (_ & _ & _ & N); auto).
    destruct (surd_is_negative_big g s N D) as (b & E & Ib). rewrite E. destruct b; auto.
    exfalso. apply Hnn. split; auto. exists (rs s). split; [apply Ib; auto|]. apply sval_rs; auto. }
  assert (Hcp : 0 < c2 (coeffs s)) by apply N.
  destruct s as [[a b c] r]. cbn [coeffs c0 c1 c2 discr] in *. unfold from_sqrt_surd. rewrite En. bigi. rewrite I.
  assert (Rc : IZR c <> 0%R) by (apply IZR_neq0; lia).
  assert (Rb : IZR b <> 0%R) by (apply IZR_neq0; lia).
  destruct (ratio_new_big a c) as (x & Ex & Vx & Lx); [lia|]. rewrite Ex. bigi.
  destruct (ratio_new_big b c) as (y & Ey & Vy & Ly); [lia|]. rewrite Ey. bigi.
  assert (Hy : numer y <> 0).
  { intros Z0. apply rval_zero in Z0; auto using lowest_okd. rewrite Vy in Z0.
    assert (Q := Rinv_neq_0_compat _ Rc). unfold Rdiv in Z0. apply Rmult_integral in Z0. tauto. }
  destruct (ratio_div_big x y) as (X & EX & VX & LX); auto using lowest_okd. rewrite EX. bigi.
  destruct (ratio_mul_big X X) as (XX & EXX & VXX & LXX); auto using lowest_okd. rewrite EXX. bigi.
  destruct (ratio_sub_int_big XX r) as (d2 & Ed & Vd & Ld); auto using lowest_okd. rewrite Ed. bigi.
  exists x, y, X, d2. rewrite VXX in Vd. auto 10.
Qed.

Lemma branch_total g s gg y X a b c k : normal g s -> is_rational s = false ->
  lowest gg -> lowest y -> numer y <> 0 ->
  (rval gg * (2 * X - rval gg) = IZR (discr s))%R ->
  get_abc BigI gg y = Ok (Some (a, b, c)) ->
  exists ret, (let! ret := surd_new g BigI a b c (discr s) in
    let! _ := dassert g (negb (c0 (coeffs ret) <? 0)) in k ret) = (k ret : res (sqrt_result surd)).
Proof.
  intros N I Lg Ly Hy HX HG. pose proof (normal_irr_ns g s N I) as Hns.
  assert (Hg : numer gg <> 0).
  { intros Z0. apply rval_zero in Z0; [|apply lowest_okd; auto]. rewrite Z0 in HX.
    apply Hns. exists 0. apply eq_IZR. rewrite <- HX. rewrite Z.mul_0_l. ring. }
  destruct (get_abc_ok BigI gg y a b c Lg Hg Ly Hy HG) as (Hc & Ha & k' & Hk & Hky & Ea & Eb & Ec).
  assert (Hb : b <> 0). { rewrite Eb. destruct Lg as [Lg _]. apply Z.neq_mul_0; split; [lia|auto]. }
  destruct (surd_new_total g a b c (discr s)) as [ret Er]; [lia|destruct N as (_ & _ & _ & N); auto|].
  exists ret. rewrite Er. bigi.
  destruct (surd_new_pos g BigI a b c (discr s) ret Er Hc Hb Hns Ha) as (P0 & _).
  rewrite dassert_true; [reflexivity|]. destruct (Z.ltb_spec (c0 (coeffs ret)) 0); [lia|auto].
Qed.

Lemma get_abc_total gg y : lowest gg -> numer gg <> 0 -> lowest y -> numer y <> 0 ->
  exists o, get_abc BigI gg y = Ok o.
Proof.
  intros Lg Hg Ly Hy. destruct (get_abc_big gg y Lg Hg Ly Hy) as (k & c2 & _ & _ & _ & _ & E). eauto.
Qed.

Lemma gg_neq0 gg X r : lowest gg -> r <> 0 -> (rval gg * (2 * X - rval gg) = IZR r)%R -> numer gg <> 0.
Proof.
  intros Lg Hr HX Z0. apply rval_zero in Z0; [|apply lowest_okd; auto]. rewrite Z0 in HX.
  apply Hr. apply eq_IZR. rewrite <- HX. ring.
Qed.

Theorem from_sqrt_surd_total g s : normal g s -> returns (from_sqrt_surd g BigI s).
Proof.
  intros N. pose proof (normal_okc _ _ N) as O.
  destruct (cplx g) eqn:G; [|destruct (surd_is_negative_big g s N) as (bn & En & Hn); [apply N; auto|destruct bn]].
  2:{ unfold from_sqrt_surd. rewrite G, En. eexists; reflexivity. }
  1,2: assert (Hnn : ~ (cplx g = false /\ exists x, (x < 0)%R /\ sval s = RtoC x));
    [first [rewrite G; intros [X _]; discriminate |
      intros (_ & x & L & V); destruct (normal_real g s x N V) as [_ Ex]; subst x; apply Hn in L; discriminate]|].
  all: destruct (is_rational s) eqn:I.
  1,3: destruct (normal_rational_Ratio g s N I) as (D & L & V);
    destruct (from_sqrt_ratio_total g _ L) as [v Ev];
    unfold from_sqrt_surd; rewrite G, ?En; bigi; rewrite I, surd_to_rational_rational by auto; bigi;
    rewrite Ev; bigi; destruct v; eexists; reflexivity.
  all: destruct (from_sqrt_surd_step g s N I Hnn) as (x & y & X & d2 & Vx & Vy & Ly & Hy & VX & LX & Vd & Ld & E);
    rewrite E; clear E; cbv zeta;
    assert (Hr : cplx g = false -> 0 <= discr s) by (destruct N as (_ & _ & _ & N'); auto);
    assert (Hr0 : discr s <> 0) by apply (is_rational_false s I);
    assert (Rec : forall k, returns (sqrt_reconstruct g BigI X y (discr s) k))
      by (intros k; apply sqrt_reconstruct_total; auto);
    destruct (ratio_is_negative d2); auto;
    destruct (from_sqrt_ratio_total g d2 Ld) as [dl Edl]; rewrite Edl; bigi;
    apply from_sqrt_ratio_spec in Edl; auto;
    destruct dl as [delta|d k]; auto; destruct Edl as (Vdl & Ndl & _);
    destruct (is_rational delta) eqn:Idl; auto;
    rewrite surd_to_rational_rational by auto; bigi; cbn [approx_value];
    destruct (normal_rational_Ratio g delta Ndl Idl) as (_ & Ldq & Vdq);
    set (dq := Ratio (c0 (coeffs delta)) (c2 (coeffs delta))) in *;
    assert (Sq : (rval dq * rval dq = rval X * rval X - IZR (discr s))%R) by
     (pose proof (rcsqrt_sq (rval d2)) as Q; rewrite <- Vdl, Vdq in Q; unfold qC in Q;
      rewrite <- RtoC_mult in Q; apply RtoC_inj in Q; rewrite Q, Vd; reflexivity);
    destruct (ratio_sub_big X dq) as (g1 & E1 & V1 & L1); auto using lowest_okd; rewrite E1; bigi;
    assert (H1 : (rval g1 * (2 * rval X - rval g1) = IZR (discr s))%R) by
      (rewrite V1; replace ((rval X - rval dq) * (2 * rval X - (rval X - rval dq)))%R
         with (rval X * rval X - rval dq * rval dq)%R by ring; rewrite Sq; ring);
    destruct (get_abc_total g1 y L1 (gg_neq0 _ _ _ L1 Hr0 H1) Ly Hy) as [o1 Eo1]; rewrite Eo1; bigi;
    destruct o1 as [[[a1 b1] c1']|];
    [destruct (branch_total g s g1 y (rval X) a1 b1 c1' (fun ret => Ok (SqOk ret)) N I L1 Ly Hy H1 Eo1) as [ret Er];
     rewrite Er; eexists; reflexivity|];
    destruct (ratio_add_big X dq) as (g2 & E2 & V2 & L2); auto using lowest_okd; rewrite E2; bigi;
    assert (H2 : (rval g2 * (2 * rval X - rval g2) = IZR (discr s))%R) by
      (rewrite V2; replace ((rval X + rval dq) * (2 * rval X - (rval X + rval dq)))%R
         with (rval X * rval X - rval dq * rval dq)%R by ring; rewrite Sq; ring);
    destruct (get_abc_total g2 y L2 (gg_neq0 _ _ _ L2 Hr0 H2) Ly Hy) as [o2 Eo2]; rewrite Eo2; bigi;
    destruct o2 as [[[a1 b1] c1']|]; auto;
    destruct (branch_total g s g2 y (rval X) a1 b1 c1' (fun ret => Ok (SqOk ret)) N I L2 Ly Hy H2 Eo2) as [ret Er];
     rewrite Er; eexists; reflexivity.
Qed.

Theorem from_sqrt_surd_complete g s A B C : normal g s -> C <> 0 ->
  (fval A B C (discr s) * fval A B C (discr s))%C = sval s ->
  exists y, from_sqrt_surd g BigI s = Ok (SqOk y).
Proof.
  intros N HC Hsq. pose proof (normal_okc _ _ N) as O.
  assert (Hgr : cplx g = false -> 0 <= discr s) by (destruct N as (_ & _ & _ & N'); auto).
  assert (Hcp : 0 < c2 (coeffs s)) by apply N.
  assert (Hnn : ~ (cplx g = false /\ exists x, (x < 0)%R /\ sval s = RtoC x)).
  { intros (G & x & L & V). specialize (Hgr G). rewrite V in Hsq. unfold fval in Hsq.
    rewrite csqrt_nonneg in Hsq by auto. unfold ZtoC in Hsq.
    rewrite <- RtoC_mult, <- RtoC_plus, <- RtoC_div, <- RtoC_mult in Hsq by (apply IZR_neq0; auto).
    apply RtoC_inj in Hsq. set (u := ((IZR A + IZR B * sqrt (IZR (discr s))) / IZR C)%R) in *.
    pose proof (Rle_0_sqr u) as Q. unfold Rsqr in Q. lra. }
  destruct (is_rational s) eqn:I.
  - destruct (normal_rational_Ratio g s N I) as (D & L & V).
    destruct (from_sqrt_ratio_total g _ L) as [v Ev].
    pose proof (from_sqrt_ratio_spec g BigI _ v L Ev) as Sp.
    assert (En : (if cplx g then Ok false else surd_is_negative g BigI s) = Ok false).
    { destruct (cplx g) eqn:G; [reflexivity|].
      destruct (surd_is_negative_big g s N ltac:(auto)) as (b & E & Ib). rewrite E. destruct b; auto.
      exfalso. apply Hnn. split; auto. exists (rs s). split; [apply Ib; auto|]. apply sval_rs; auto. }
    unfold from_sqrt_surd. rewrite En. bigi. rewrite I, surd_to_rational_rational by auto. bigi. rewrite Ev. bigi.
    destruct v as [y|d k]; [eauto|]. exfalso. destruct Sp as (_ & [(_ & Q1 & Q2)|(_ & Q)]); [|discriminate].
    apply Hnn. split; auto. exists (rval (Ratio (c0 (coeffs s)) (c2 (coeffs s)))). auto.
  - destruct (from_sqrt_surd_step g s N I Hnn) as (x & y & X & d2 & Vx & Vy & Ly & Hy & VX & LX & Vd & Ld & E).
    rewrite E. clear E. cbv zeta. pose proof (normal_irr_ns g s N I) as Hns.
    pose proof (is_rational_false s I) as [Hb0 Hr0].
    (* compare coefficients *)
    assert (Hcmp : fval (A * A + B * B * discr s) (2 * A * B) (C * C) (discr s) =
       fval (c0 (coeffs s)) (c1 (coeffs s)) (c2 (coeffs s)) (discr s)).
    { rewrite <- (sval_fval s), <- Hsq. unfold fval. rewrite ZtoC_add, !ZtoC_mul.
      replace (ZtoC (discr s)) with (csqrt (discr s) * csqrt (discr s))%C by apply csqrt_sq.
      replace (ZtoC 2) with (RtoC 1 + RtoC 1)%C by (unfold ZtoC; rewrite <- RtoC_plus; f_equal).
      field. apply ZtoC_neq0; auto. }
    apply fval_cross in Hcmp; auto; try nia. destruct Hcmp as [K1 K2].
    set (a := c0 (coeffs s)) in *. set (b := c1 (coeffs s)) in *. set (c := c2 (coeffs s)) in *. set (r := discr s) in *.
    assert (HA : A <> 0) by (intros Z0; subst A; nia).
    assert (HB : B <> 0) by (intros Z0; subst B; nia).
    assert (RA := IZR_neq0 _ HA). assert (RB := IZR_neq0 _ HB). assert (RC := IZR_neq0 _ HC).
    assert (Rb := IZR_neq0 _ Hb0). assert (Rc : IZR c <> 0%R) by (apply IZR_neq0; lia).
    assert (K1' : ((IZR A * IZR A + IZR B * IZR B * IZR r) * IZR c = IZR a * (IZR C * IZR C))%R).
    { rewrite <- !mult_IZR, <- plus_IZR, <- !mult_IZR. f_equal. exact K1. }
    assert (K2' : (2 * IZR A * IZR B * IZR c = IZR b * (IZR C * IZR C))%R).
    { rewrite <- !mult_IZR. f_equal. exact K2. }
    assert (VX' : rval X = ((IZR A * IZR A + IZR B * IZR B * IZR r) / (2 * IZR A * IZR B))%R).
    { rewrite VX, Vx, Vy.
      replace (IZR a) with ((IZR A * IZR A + IZR B * IZR B * IZR r) * IZR c / (IZR C * IZR C))%R by (rewrite K1'; field; auto).
      replace (IZR b) with (2 * IZR A * IZR B * IZR c / (IZR C * IZR C))%R by (rewrite K2'; field; auto).
      field. auto. }
    assert (Vy' : rval y = (2 * IZR A * IZR B / (IZR C * IZR C))%R).
    { rewrite Vy. replace (IZR b) with (2 * IZR A * IZR B * IZR c / (IZR C * IZR C))%R by (rewrite K2'; field; auto).
      field; auto. }
    set (e := ((IZR A * IZR A - IZR B * IZR B * IZR r) / (2 * IZR A * IZR B))%R).
    assert (Vd' : rval d2 = (e * e)%R) by (rewrite Vd, VX'; unfold e; field; auto).
    assert (Nn : ratio_is_negative d2 = false).
    { destruct (ratio_is_negative d2) eqn:Q; auto. apply rval_neg in Q; auto using lowest_okd.
      rewrite Vd' in Q. pose proof (Rle_0_sqr e) as Q2. unfold Rsqr in Q2. lra. }
    rewrite Nn. destruct (from_sqrt_ratio_total g d2 Ld) as [dl Edl]. rewrite Edl. bigi.
    apply from_sqrt_ratio_spec in Edl; auto. apply ratio_is_negative_false in Nn; auto using lowest_okd.
    destruct dl as [delta|d k]; [|exfalso; destruct Edl as (_ & [(_ & Q & _)|(_ & Q)]); [lra|discriminate]].
    destruct Edl as (Vdl & Ndl & _).
    assert (Idl : is_rational delta = true).
    { apply (normal_is_rational g delta Ndl). rewrite Vdl. unfold rcsqrt.
      destruct (Rlt_dec (rval d2) 0); [lra|]. rewrite Vd'. fold (Rsqr e). rewrite sqrt_Rsqr_abs.
      assert (Q : forall n d : Z, d <> 0 -> rational_num (RtoC (Rabs (IZR n / IZR d)))).
      { intros n1 d1 H1. assert (R1 := IZR_neq0 _ H1). unfold Rabs. destruct (Rcase_abs _).
        - exists (- n1), d1. split; auto. unfold ZtoC. rewrite <- RtoC_div by auto. f_equal. rewrite opp_IZR. field; auto.
        - exists n1, d1. split; auto. unfold ZtoC. rewrite <- RtoC_div by auto. f_equal. }
      specialize (Q (A * A - B * B * r) (2 * A * B) ltac:(nia)).
      replace e with (IZR (A * A - B * B * r) / IZR (2 * A * B))%R; [exact Q|].
      unfold e. rewrite minus_IZR, !mult_IZR. reflexivity. }
    rewrite Idl, surd_to_rational_rational by auto. bigi. cbn [approx_value].
    destruct (normal_rational_Ratio g delta Ndl Idl) as (_ & Ldq & Vdq).
    set (dq := Ratio (c0 (coeffs delta)) (c2 (coeffs delta))) in *.
    assert (Vdqe : rval dq = e \/ rval dq = (- e)%R).
    { rewrite Vdl in Vdq. unfold rcsqrt in Vdq. destruct (Rlt_dec (rval d2) 0); [lra|].
      apply RtoC_inj in Vdq. rewrite Vd' in Vdq. fold (Rsqr e) in Vdq. rewrite sqrt_Rsqr_abs in Vdq.
      rewrite <- Vdq. unfold Rabs. destruct (Rcase_abs e); auto. }
    assert (Sq : (rval dq * rval dq = rval X * rval X - IZR r)%R).
    { rewrite <- Vd, Vd'. destruct Vdqe as [->| ->]; ring. }
    destruct (ratio_sub_big X dq) as (g1 & E1 & V1 & L1); auto using lowest_okd. rewrite E1. bigi.
    assert (H1 : (rval g1 * (2 * rval X - rval g1) = IZR r)%R).
    { rewrite V1; replace ((rval X - rval dq) * (2 * rval X - (rval X - rval dq)))%R
         with (rval X * rval X - rval dq * rval dq)%R by ring; rewrite Sq; ring. }
    assert (Hr0' : r <> 0) by (unfold r; auto).
    pose proof (gg_neq0 _ _ _ L1 Hr0' H1) as G1.
    destruct (get_abc_total g1 y L1 G1 Ly Hy) as [o1 Eo1]. rewrite Eo1. bigi.
    destruct o1 as [[[a1 b1] c1']|].
    { destruct (branch_total g s g1 y (rval X) a1 b1 c1' (fun ret => Ok (SqOk ret)) N I L1 Ly Hy H1 Eo1) as [ret Er].
      fold r in Er. rewrite Er. eauto. }
    destruct (ratio_add_big X dq) as (g2 & E2 & V2 & L2); auto using lowest_okd. rewrite E2. bigi.
    assert (H2 : (rval g2 * (2 * rval X - rval g2) = IZR r)%R).
    { rewrite V2; replace ((rval X + rval dq) * (2 * rval X - (rval X + rval dq)))%R
         with (rval X * rval X - rval dq * rval dq)%R by ring; rewrite Sq; ring. }
    pose proof (gg_neq0 _ _ _ L2 Hr0' H2) as G2.
    destruct (get_abc_total g2 y L2 G2 Ly Hy) as [o2 Eo2]. rewrite Eo2. bigi.
    destruct o2 as [[[a1 b1] c1']|].
    { destruct (branch_total g s g2 y (rval X) a1 b1 c1' (fun ret => Ok (SqOk ret)) N I L2 Ly Hy H2 Eo2) as [ret Er].
      fold r in Er. rewrite Er. eauto. }
    exfalso.
    assert (XE : (rval X + e = IZR A / IZR B)%R) by (rewrite VX'; unfold e; field; auto).
    destruct Vdqe as [Q|Q].
    + destruct (get_abc_complete g2 y A B C) as (? & ? & ? & F); auto; [|congruence].
      rewrite V2, Q. auto.
    + destruct (get_abc_complete g1 y A B C) as (? & ? & ? & F); auto; [|congruence].
      rewrite V1, Q. rewrite <- XE. ring.
Qed.
