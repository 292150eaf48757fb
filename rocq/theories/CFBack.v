(** * CFBack: when a periodic continued fraction can be made into a surd. *)

From Coq Require Import ZArith Znumtheory Reals Lia Lra Bool List Arith.
From Coquelicot Require Import Coquelicot.
From Verif Require Import Base Ext ModelSurd ModelBlock ModelCF ModelConv Spec SpecCF SpecBack NumFacts Transfer SurdCore RatioFacts SurdArith
  SurdTotal SurdOrd SurdRound SurdMisc SurdSqrt SurdConv CFCore CFSeq CFIter CFBasic CFSurd CFNew CFOfSurd CFRound ClaimsSurd.
Import ListNotations.
Open Scope Z_scope.

(** ** Roots *)
Definition divides_root (D : Z) (s : surd) : Prop := is_rational s = true \/ exists k, 0 < k /\ D = k * k * discr s.
Lemma from_reduced g r s D : normal g s -> reduced_from r s -> (exists k, 0 < k /\ D = k * k * r) -> divides_root D s.
Proof.
  intros N R (k & Hk & E). unfold reduced_from, parts in R. destruct s as [[a b c] r']. cbn [coeffs c0 c1 c2 discr] in *. destruct R as (_ & _ & [[Hb _]|(_ & _ & m & Hm & E')]).
  - left. unfold is_rational. cbn [coeffs c1]. subst b. reflexivity.
  - right. exists (k * m). cbn [discr]. split; [nia|]. rewrite E, E'. ring.
Qed.
Lemma from_equation_root g a b c s : 1 <= c -> surd_from_equation g BigI (ratio_of c) (ratio_of a) (ratio_of b) = Ok (Some s) ->
  normal g s /\ divides_root (a * a - 4 * c * b) s.
Proof.
  intros Hc H. destruct (ratio_of_spec c) as [Vc Lc]. destruct (ratio_of_spec a) as [Va La]. destruct (ratio_of_spec b) as [Vb Lb].
  pose proof (surd_from_equation_ok g BigI _ _ _ s Lc La Lb H) as (N & _). split; [auto|].
  pose proof (lowest_okd _ La) as Oa. pose proof (lowest_okd _ Lb) as Ob. pose proof (lowest_okd _ Lc) as Oc.
  unfold surd_from_equation, ratio_is_zero in H. destruct (Z.eqb_spec (numer (ratio_of c)) 0) as [Ea|Ea]; [cbn in Ea; lia|].
    autorewrite with bigi in H. stepH H. apply ratio_mul_ok in E; auto. destruct E as (V1 & L1).
    destruct (ratio_of_spec ((1 + 1) * (1 + 1))) as [Vf Lf].
    destruct (ratio_of_spec (1 + 1)) as [Vt Lt].
    stepH H. apply ratio_mul_ok in E; auto. destruct E as (V2 & L2).
    stepH H. apply ratio_mul_ok in E; auto. destruct E as (V3 & L3).
    stepH H. apply ratio_sub_ok in E; auto. destruct E as (V4 & L4).
    destruct (negb (cplx g) && ratio_is_negative a3); [discriminate|].
    stepH H. apply ratio_mul_ok in E; auto. destruct E as (V5 & L5).
    stepH H. apply ratio_neg_ok in E; auto. destruct E as (V6 & L6 & O6).
    stepH H. apply ratio_recip_ok in E; auto. destruct E as (_ & V7 & L7 & O7).
    stepH H. apply ratio_mul_ok in E; auto. destruct E as (V8 & L8).
    stepH H. inversion H; subst. clear H.
  assert (D : a3 = ratio_of (a * a - 4 * c * b)).
  { apply lowest_unique; auto; [apply ratio_of_spec|]. rewrite V4, V1, V3, V2, Vf, Va, Vb, Vc. destruct (ratio_of_spec (a * a - 4 * c * b)) as [-> _].
    rewrite minus_IZR, !mult_IZR. change (IZR (1 + 1)) with 2%R. change (IZR 4) with 4%R. ring. }
  rewrite D in E. unfold surd_from_rationals in E. destruct (negb (cplx g) && ratio_is_negative _) eqn:En; [discriminate|].
  autorewrite with bigi in E. cbn [ratio_of numer denom] in E.
  match type of E with surd_reduce BigI (new_raw ?A ?B ?C ?R) = _ => assert (HC : C <> 0); [intros X; rewrite X in E; discriminate E|];
    destruct (surd_reduce_spec A B C R HC) as (s' & Es & _ & Rd); rewrite Es in E; inversion E; subst s'; apply (from_reduced g R s); auto end.
  exists 1. split; [lia|]. ring.
Qed.
Lemma mul_root g s k s' D : normal g s -> divides_root D s -> surd_mul_int g BigI s k = Ok s' -> divides_root D s'.
Proof.
  intros N R H. pose proof (surd_mul_int_ok _ _ _ _ _ H) as [_ N']. unfold surd_mul_int, sco_mul_int in H. autorewrite with bigi in H. apply surd_from_coeffs_ok in H.
  destruct H as (_ & _ & _ & _ & Rd). destruct R as [R|R]; [|apply (from_reduced g _ s' D N' Rd R)].
  left. unfold reduced_from, parts in Rd. destruct s' as [[a b c] r']. cbn [coeffs c0 c1 c2 discr] in *. apply (normal_discr0 g s N) in R. rewrite R in Rd.
  unfold is_rational. cbn [coeffs c1]. destruct Rd as (_ & _ & [[-> _]|(_ & X & m & Hm & E)]); [reflexivity|]. exfalso. apply X. exists 0. nia.
Qed.
Lemma add_root g s k s' D : normal g s -> divides_root D s -> surd_add_int g BigI s k = Ok s' -> divides_root D s'.
Proof.
  intros N R H. pose proof (surd_add_int_ok _ _ _ _ _ H) as [_ N']. unfold surd_add_int, sco_add_int in H. autorewrite with bigi in H. apply surd_from_coeffs_ok in H.
  destruct H as (_ & _ & _ & _ & Rd). destruct R as [R|R]; [|apply (from_reduced g _ s' D N' Rd R)].
  left. unfold reduced_from, parts in Rd. destruct s' as [[a b c] r']. cbn [coeffs c0 c1 c2 discr] in *. apply (normal_discr0 g s N) in R. rewrite R in Rd.
  unfold is_rational. cbn [coeffs c1]. destruct Rd as (_ & _ & [[-> _]|(_ & X & m & Hm & E)]); [reflexivity|]. exfalso. apply X. exists 0. nia.
Qed.

(** Roots that differ from one number by squares are nested unless two coprime squares divide that number *)
Lemma roots_nested g l r D : normal g l -> normal g r -> divides_root D l -> divides_root D r -> D <> 0 -> ~ two_squares D -> nested_roots l r.
Proof.
  intros Nl Nr [Rl|(k & Hk & El)] Rr HD T; [left; apply (normal_is_rational g l Nl); auto|].
  destruct Rr as [Rr|(m & Hm & Er)]; [right; left; apply (normal_is_rational g r Nr); auto|]. right; right.
  destruct (Zgcd_is_gcd k m) as [[k' Ek] [m' Em] _]. pose proof (Z.gcd_nonneg k m) as G0. remember (Z.gcd k m) as d eqn:Ed.
  assert (Gp : 0 < d) by (destruct (Z.eq_dec d 0) as [Z0|]; [rewrite Z0 in Ek; lia|lia]). assert (K0 : 0 < k') by nia. assert (M0 : 0 < m') by nia.
  assert (Co : Z.gcd k' m' = 1).
  { assert (E : d = d * Z.gcd k' m'). { rewrite Ed at 1. rewrite Ek, Em. rewrite (Z.mul_comm k'), (Z.mul_comm m'). apply Z.gcd_mul_mono_l_nonneg. lia. } nia. }
  assert (Q : k' * k' * discr l = m' * m' * discr r) by (rewrite Ek in El; rewrite Em in Er; apply (Z.mul_reg_l _ _ (d * d)); nia).
  destruct (Z.eq_dec k' 1) as [->|Nk]; [exists m'; split; [auto|]; left; lia|].
  destruct (Z.eq_dec m' 1) as [->|Nm]; [exists k'; split; [auto|]; right; lia|].
  exfalso. apply T. exists k', m'. split; [lia|]. split; [lia|]. split; [auto|]. split.
  - exists (d * d * discr l). rewrite El, Ek. ring.
  - exists (d * d * discr r). rewrite Er, Em. ring.
Qed.

(** ** The discriminant of the period *)
Definition ma (l : list Z) : Z := let '(a, b, c, d) := mfold l in a.
Definition mc (l : list Z) : Z := let '(a, b, c, d) := mfold l in c.
Lemma ma_cons v l : ma (v :: l) = mc l.
Proof. unfold ma, mc, mfold. cbn [fold_right mstep]. destruct (fold_right mstep (1, 0, 0, 1) l) as [[[a b] c] d]. reflexivity. Qed.
Lemma mc_cons v l : mc (v :: l) = v * mc l + ma l.
Proof. unfold ma, mc, mfold. cbn [fold_right mstep]. destruct (fold_right mstep (1, 0, 0, 1) l) as [[[a b] c] d]. reflexivity. Qed.
Lemma mc_cont l : l <> nil -> mc l = cont (removelast l).
Proof.
  assert (K : forall n l, (length l <= n)%nat -> l <> nil -> mc l = cont (removelast l)).
  { clear l. induction n as [|n IH]; intros l Hl N; destruct l as [|v l]; try congruence; cbn [length] in Hl; [lia|].
    rewrite mc_cons. destruct l as [|w l]; [cbn; lia|]. cbn [length] in Hl. rewrite (IH (w :: l)) by (first [discriminate | cbn [length]; lia]). rewrite ma_cons.
    change (removelast (v :: w :: l)) with (v :: removelast (w :: l)). destruct l as [|z l]; [cbn; lia|].
    rewrite (IH (z :: l)) by (first [discriminate | cbn [length] in *; lia]). reflexivity. }
  intros N. apply (K (length l)); auto.
Qed.
Lemma ma_inner l : l <> nil -> ma l = inner_cont l.
Proof.
  intros N. destruct l as [|v l]; [congruence|]. rewrite ma_cons. destruct l as [|w l]; [reflexivity|]. apply mc_cont. discriminate.
Qed.
Lemma period_discr_fold p a b c d : p <> nil -> List.Forall (fun v => 1 <= v) p -> mfold p = (a, b, c, d) ->
  (d - a) * (d - a) - 4 * c * - b = period_discr p.
Proof.
  intros N F E. pose proof (mfold_spec p F) as M. rewrite E in M. destruct M as (_ & _ & _ & _ & Det & Ed & _).
  unfold period_discr. fold (alt (length p)). rewrite <- Ed, <- Det. rewrite <- ma_inner by auto. unfold ma. rewrite E. ring.
Qed.

(** ** The conversion *)
Lemma surd_of_cf_any g x : wfcf x ->
  (returns (surd_of_cf g BigU x) \/ surd_of_cf g BigU x = Panic PIncompatible) /\
  (~ finite x -> ~ two_squares (period_discr (p_coeffs x)) -> returns (surd_of_cf g BigU x)).
Proof.
  intros W. destruct (finite_dec x) as [F|F].
  { pose proof (surd_of_cf_total g x W (or_introl F)). tauto. }
  pose proof (surd_fit_big x W) as (_ & Fi). unfold surd_of_cf.
  assert (R : cf_is_rational x = false) by (unfold cf_is_rational; unfold finite in F; destruct (p_coeffs x); [congruence|reflexivity]). rewrite R.
    destruct (Fi F) as (Fp & Ft & Fh). clear Fi.
    pose proof W as W'. unfold wfcf in W'. destruct (a_coeffs x) as [|a0 rest] eqn:A; [tauto|]. cbn [tl hd] in Ft, Fh. destruct W' as (H0 & HR & HP).
    assert (Np : p_coeffs x <> nil) by exact F. rewrite mobius_total by auto. cbn [bind].
    destruct (mfold (p_coeffs x)) as [[[a b] c] d] eqn:Ef.
    destruct (sfit_mobius BigU _ a b c d Np HP Ef Fp) as (Ea & Eb & Ec & Ed & Ha & Hb & Hc & Hd & _ & _).
    rewrite Ea, Eb, Ec, Ed. change (sty BigU) with BigI. cbn [subT negT chk fits bind].
    destruct (ratio_of_spec c) as [Vc Lc]. destruct (ratio_of_spec (d - a)) as [Vd Ld]. destruct (ratio_of_spec (- b)) as [Vb Lb].
    destruct (surd_from_equation_total g _ _ _ Lc Ld Lb) as (o & Eo & Ho). rewrite Eo. cbn [bind].
    destruct o as [ps|].
    2:{ exfalso. destruct Ho as [Ho _]. specialize (Ho eq_refl). rewrite Vc, Vd, Vb in Ho. apply IZR_le in Hc, Hb. rewrite opp_IZR in Ho.
        destruct Ho as [[Ho _]|(_ & _ & Ho)]; [lra|]. assert (0 <= IZR (d - a) * IZR (d - a))%R by apply Rle_0_sqr.
        assert (0 < IZR c * IZR b)%R by (apply Rmult_lt_0_compat; lra). lra. }
    cbn [unwrap bind].
    assert (Sdb : subT (sty BigU) (to_signed BigU d) (to_signed BigU a) = Ok (d - a)) by (rewrite Ea, Ed; reflexivity).
    assert (Snb : negT (sty BigU) (to_signed BigU b) = Ok (- b)) by (rewrite Eb; reflexivity).
    assert (Seq : surd_from_equation g (sty BigU) (ratio_of (to_signed BigU c)) (ratio_of (d - a)) (ratio_of (- b)) = Ok (Some ps)) by (rewrite Ec; exact Eo).
    destruct (psurd_ok g BigU _ a b c d (d - a) (- b) ps (Some ps) Np HP Ef Fp Sdb Snb Seq eq_refl) as [Nps Vps].
    destruct (from_equation_root g (d - a) (- b) c ps Hc Eo) as [_ Rps]. rewrite (period_discr_fold _ a b c d Np HP Ef) in Rps.
    destruct (pseq_root _ Np HP) as [L1 _]. assert (Y : (0 < / lim (pseq (p_coeffs x)))%R) by (apply Rinv_0_lt_compat; lra).
    assert (Dn : period_discr (p_coeffs x) <> 0) by (rewrite <- (period_discr_fold _ a b c d Np HP Ef); pose proof (Z.square_nonneg (d - a)); assert (0 < c * b) by (apply Z.mul_pos_pos; lia); lia).
    set (y := (/ lim (pseq (p_coeffs x)))%R) in *. clearbody y. clear a b c d Ef Ea Eb Ec Ed Ha Hb Hc Hd Vc Lc Vd Ld Vb Lb Eo Ho Sdb Snb Seq.
    set (m := if Nat.eqb (length (a0 :: rest)) 1 then Ok ps
      else let! (a, b, c, d) := mobius BigU (tl (a0 :: rest)) in
        let! x := surd_mul_int g BigI ps (to_signed BigU a) in
        let! x := surd_add_int g BigI x (to_signed BigU b) in
        let! y := surd_mul_int g BigI ps (to_signed BigU c) in
        let! y := surd_add_int g BigI y (to_signed BigU d) in
        surd_div g BigI x y).
    assert (K : ((exists sd, m = Ok sd /\ normal g sd) \/ m = Panic PIncompatible) /\ (~ two_squares (period_discr (p_coeffs x)) -> exists sd, m = Ok sd /\ normal g sd)).
    { subst m. destruct rest as [|v rest]; [cbn [length Nat.eqb]; split; [left|intros _]; exists ps; auto|].
      cbn [length Nat.eqb tl]. assert (Nr : v :: rest <> nil) by discriminate. rewrite mobius_total by auto. destruct (mfold (v :: rest)) as [[[a b] c] d] eqn:Ef. cbn [bind].
      destruct (sfit_mobius BigU _ a b c d Nr HR Ef Ft) as (Ea & Eb & Ec & Ed & Ha & Hb & Hc & Hd & _ & _). rewrite Ea, Eb, Ec, Ed.
      destruct (surd_mul_int_total g ps (normal_wf _ _ Nps) a) as [x1 E1]. rewrite E1. cbn [bind].
      pose proof (mul_root g ps _ _ _ Nps Rps E1) as R1. apply surd_mul_int_ok in E1. destruct E1 as [V1 N1].
      destruct (surd_add_int_total g x1 (normal_wf _ _ N1) b) as [x2 E2]. rewrite E2. cbn [bind].
      pose proof (add_root g x1 _ _ _ N1 R1 E2) as R2. apply surd_add_int_ok in E2. destruct E2 as [V2 N2].
      destruct (surd_mul_int_total g ps (normal_wf _ _ Nps) c) as [x3 E3]. rewrite E3. cbn [bind].
      pose proof (mul_root g ps _ _ _ Nps Rps E3) as R3. apply surd_mul_int_ok in E3. destruct E3 as [V3 N3].
      destruct (surd_add_int_total g x3 (normal_wf _ _ N3) d) as [x4 E4]. rewrite E4. cbn [bind].
      pose proof (add_root g x3 _ _ _ N3 R3 E4) as R4. apply surd_add_int_ok in E4. destruct E4 as [V4 N4].
      apply IZR_le in Ha, Hb, Hc, Hd.
      assert (Vx : sval x2 = RtoC (y * IZR a + IZR b)) by (rewrite V2, V1, Vps; unfold ZtoC; rewrite RtoC_plus, RtoC_mult; ring).
      assert (Vy : sval x4 = RtoC (y * IZR c + IZR d)) by (rewrite V4, V3, Vps; unfold ZtoC; rewrite RtoC_plus, RtoC_mult; ring).
      assert (Px : sval x2 <> RtoC 0) by (rewrite Vx; intros E; apply RtoC_inj in E; assert (0 <= y * IZR a)%R by (apply Rmult_le_pos; lra); lra).
      assert (Py : sval x4 <> RtoC 0) by (rewrite Vy; intros E; apply RtoC_inj in E; assert (0 <= y * IZR c)%R by (apply Rmult_le_pos; lra); lra).
      assert (Ret : nested_roots x2 x4 \/ (pure_surd x2 /\ pure_surd x4) -> exists sd, surd_div g BigI x2 x4 = Ok sd /\ normal g sd).
      { intros D. destruct (proj2 (L_C06_div_iff g x2 x4 N2 N4)) as [sd Ed']; [auto|]. exists sd. split; [exact Ed'|].
        destruct (surd_div_ok g _ _ _ _ (normal_wf _ _ N2) (normal_wf _ _ N4) Ed') as (Nd & _ & _). exact Nd. }
      split.
      - destruct (nested_dec g x2 x4 N2 N4) as [D|D]; [left; auto|].
        destruct (is_pure x2 && is_pure x4) eqn:P.
        + apply andb_prop in P. left. apply Ret. right. destruct P as [P1 P2]. apply (normal_is_pure g x2 N2) in P1. apply (normal_is_pure g x4 N4) in P2. auto.
        + right. apply (L_C06_panics g x2 x4 N2 N4 D). intros [P1 P2]. apply (normal_is_pure g x2 N2) in P1. apply (normal_is_pure g x4 N4) in P2. rewrite P1, P2 in P. discriminate.
      - intros T. apply Ret. left. exact (roots_nested g x2 x4 _ N2 N4 R2 R4 Dn T). }
    clearbody m. cbn [sty] in *.
    assert (Fin : (exists sd, m = Ok sd /\ normal g sd) -> returns (let! sd := m in let! sd0 := surd_add_int g BigI sd (to_signed BigU a0) in if negative x then surd_neg BigI sd0 else Ok sd0)).
    { intros (sd & -> & Nsd). cbn [bind]. destruct (surd_add_int_total g sd (normal_wf _ _ Nsd) (to_signed BigU a0)) as [s1 E1]. rewrite E1. cbn [bind].
      destruct (negative x); [|eexists; reflexivity]. apply (surd_neg_total s1). }
    destruct K as [K1 K2]. split; [|intros _ T; apply Fin; auto]. destruct K1 as [K|K]; [left; auto|right; rewrite K; reflexivity].
Qed.
