(** * CFRound: round trips and totality of the conversions. *)

From Coq Require Import ZArith Znumtheory Reals Lia Lra Bool List Arith.
From Coquelicot Require Import Coquelicot.
From Verif Require Import Base Ext ModelSurd ModelBlock ModelCF ModelConv Spec SpecCF NumFacts Transfer SurdCore RatioFacts SurdArith
  SurdTotal SurdOrd SurdRound SurdMisc SurdSqrt CFCore CFSeq CFIter CFBasic CFSurd CFNew CFOfSurd.
Import ListNotations.
Open Scope Z_scope.

Lemma cont_nonneg l : List.Forall (fun v => 1 <= v) l -> 1 <= cont l.
Proof. intros F. pose proof (mfold_spec l F) as M. destruct (mfold l) as [[[a b] c] d]. destruct M as (_ & _ & _ & H & _ & E & _). lia. Qed.
Lemma surd_fit_big x : wfcf x -> surd_fit BigU x.
Proof.
  intros W. split.
  - intros F j Hj. apply big_fit; auto.
  - intros F. unfold wfcf in W. destruct (a_coeffs x) as [|a0 rest]; [contradiction|]. destruct W as (H0 & HR & HP). cbn [tl hd sfit].
    pose proof (cont_nonneg _ HR). pose proof (cont_nonneg _ HP). lia.
Qed.

Lemma surd_of_cf_total g x : wfcf x -> finite x \/ (lena x <= 2)%nat -> returns (surd_of_cf g BigU x).
Proof.
  intros W D. pose proof (surd_fit_big x W) as (Ff & Fi). unfold surd_of_cf. destruct (finite_dec x) as [F|F].
  - assert (R : cf_is_rational x = true) by (unfold cf_is_rational; unfold finite in F; rewrite F; reflexivity). rewrite R.
    rewrite cf_last_convergent_item by auto. destruct (has_last x W F) as [HL _].
    destruct (conv_item_convergent x _ W HL) as (r & E & Cv). rewrite E. cbn [unwrap bind]. eexists; reflexivity.
  - assert (R : cf_is_rational x = false) by (unfold cf_is_rational; unfold finite in F; destruct (p_coeffs x); [congruence|reflexivity]). rewrite R.
    destruct (Fi F) as (Fp & Ft & Fh). clear Ff Fi. destruct D as [D|D]; [contradiction|].
    pose proof W as W'. unfold wfcf in W'. destruct (a_coeffs x) as [|a0 rest] eqn:A; [tauto|]. cbn [tl hd] in Ft, Fh. destruct W' as (H0 & HR & HP).
    assert (Np : p_coeffs x <> nil) by exact F. rewrite mobius_total by auto. cbn [bind].
    destruct (mfold (p_coeffs x)) as [[[a b] c] d] eqn:Ef.
    destruct (sfit_mobius BigU _ a b c d Np HP Ef Fp) as (Ea & Eb & Ec & Ed & Ha & Hb & Hc & Hd & _ & _).
    rewrite Ea, Eb, Ec, Ed. change (sty BigU) with BigI. cbn [subT negT chk fits bind].
    destruct (ratio_of_spec c) as [Vc Lc]. destruct (ratio_of_spec (d - a)) as [Vd Ld]. destruct (ratio_of_spec (- b)) as [Vb Lb].
    destruct (surd_from_equation_total g _ _ _ Lc Ld Lb) as (o & Eo & Ho). rewrite Eo. cbn [bind].
    destruct o as [ps|].
    2:{ exfalso. destruct Ho as [Ho _]. specialize (Ho eq_refl). rewrite Vc, Vd, Vb in Ho. apply IZR_le in Hc, Hb. rewrite opp_IZR in Ho.
        destruct Ho as [[Ho _]|(_ & _ & Ho)]; [lra|]. assert (0 <= IZR (d - a) * IZR (d - a))%R by apply Rle_0_sqr.
        assert (0 < IZR c * IZR b)%R by (apply Rmult_lt_0_compat; lra). lra. }
    cbn [unwrap bind].
    assert (Sdb : subT (sty BigU) (to_signed BigU d) (to_signed BigU a) = Ok (d - a)) by (rewrite Ea, Ed; reflexivity).
    assert (Snb : negT (sty BigU) (to_signed BigU b) = Ok (- b)) by (rewrite Eb; reflexivity).
    assert (Seq : surd_from_equation g (sty BigU) (ratio_of (to_signed BigU c)) (ratio_of (d - a)) (ratio_of (- b)) = Ok (Some ps)) by (rewrite Ec; exact Eo).
    destruct (psurd_ok g BigU _ a b c d (d - a) (- b) ps (Some ps) Np HP Ef Fp Sdb Snb Seq eq_refl) as [Nps Vps].
    destruct (pseq_root _ Np HP) as [L1 _]. assert (Y : (0 < / lim (pseq (p_coeffs x)))%R) by (apply Rinv_0_lt_compat; lra).
    set (y := (/ lim (pseq (p_coeffs x)))%R) in *. clearbody y. clear a b c d Ef Ea Eb Ec Ed Ha Hb Hc Hd Vc Lc Vd Ld Vb Lb Eo Ho Sdb Snb Seq.
    assert (K : exists sd, (if Nat.eqb (length (a0 :: rest)) 1 then Ok ps
      else let! (a, b, c, d) := mobius BigU (tl (a0 :: rest)) in
        let! x := surd_mul_int g BigI ps (to_signed BigU a) in
        let! x := surd_add_int g BigI x (to_signed BigU b) in
        let! y := surd_mul_int g BigI ps (to_signed BigU c) in
        let! y := surd_add_int g BigI y (to_signed BigU d) in
        surd_div g BigI x y) = Ok sd /\ normal g sd).
    { destruct rest as [|v rest]; [exists ps; auto|]. destruct rest as [|v2 rest]; [|exfalso; unfold lena in D; rewrite A in D; cbn in D; lia].
      cbn [length Nat.eqb tl]. rewrite mobius_total; [|discriminate|auto]. unfold mfold. cbn [fold_right mstep bind].
      replace (v * 0 + 1) with 1 by ring. replace (v * 1 + 0) with v by ring. inversion HR as [|? ? Hv _]; subst.
      change (to_signed BigU 0) with 0. change (to_signed BigU 1) with 1. assert (Ev : to_signed BigU v = v) by (apply sfit_to_signed; cbn; lia). rewrite Ev.
      destruct (surd_mul_int_total g ps (normal_wf _ _ Nps) 0) as [x1 E1]. rewrite E1. cbn [bind].
      apply surd_mul_int_ok in E1. destruct E1 as [V1 N1].
      destruct (surd_add_int_total g x1 (normal_wf _ _ N1) 1) as [x2 E2]. rewrite E2. cbn [bind].
      apply surd_add_int_ok in E2. destruct E2 as [V2 N2].
      destruct (surd_mul_int_total g ps (normal_wf _ _ Nps) 1) as [x3 E3]. rewrite E3. cbn [bind].
      apply surd_mul_int_ok in E3. destruct E3 as [V3 N3].
      destruct (surd_add_int_total g x3 (normal_wf _ _ N3) v) as [x4 E4]. rewrite E4. cbn [bind].
      apply surd_add_int_ok in E4. destruct E4 as [V4 N4].
      assert (Vx : sval x2 = RtoC 1) by (rewrite V2, V1; unfold ZtoC; ring).
      assert (Vy : sval x4 = RtoC (y + IZR v)) by (rewrite V4, V3, Vps; unfold ZtoC; rewrite RtoC_plus; ring).
      apply IZR_le in Hv.
      destruct (surd_div_total g x2 x4 N2 N4) as [sd Ed].
      - left. left. apply (normal_is_rational g x2 N2). exists 1, 1. split; [lia|]. rewrite Vx. unfold ZtoC. rewrite <- RtoC_div by lra. f_equal. field.
      - rewrite Vy. intros E. apply RtoC_inj in E. lra.
      - left. rewrite Vx. intros E. apply RtoC_inj in E. lra.
      - exists sd. split; [exact Ed|].
        destruct (surd_div_ok g _ _ _ _ (normal_wf _ _ N2) (normal_wf _ _ N4) Ed) as (Nd & _ & _). exact Nd. }
    destruct K as (sd & Ek & Nsd). cbn [sty] in Ek |- *. rewrite Ek. cbn [bind].
    destruct (surd_add_int_total g sd (normal_wf _ _ Nsd) (to_signed BigU a0)) as [s1 E1]. rewrite E1. cbn [bind].
    destruct (negative x); [|eexists; reflexivity]. apply (surd_neg_total s1).
Qed.

(** ** Round trip *)
Lemma round_trip_big g s x xc : normal g s -> sval s = RtoC x -> sconj s = RtoC xc -> ~ rational_num (sval s) -> conj_below x xc ->
  exists fuel0, forall fuel, (fuel0 <= fuel)%nat -> exists z s', surd_to_cf g BigI fuel s = Ok (Some z) /\ surd_of_cf g BigU z = Ok s' /\
    normal g s' /\ sval s' = sval s.
Proof.
  intros N E Ec I Sp. destruct (surd_to_cf_total g s x xc N E Ec I Sp) as [f0 T]. exists f0. intros fuel Hf. destruct (T fuel Hf) as [z Ez].
  destruct (surd_to_cf_ok g s x xc N E Ec I Sp BigI fuel z eq_refl Ez) as (C & Fz & V & Ln).
  destruct (surd_of_cf_total g z (proj1 C) (or_intror Ln)) as [s' Es]. exists z, s'. split; [auto|]. split; [auto|].
  destruct (surd_of_cf_ok g BigU z s' (proj1 C) (surd_fit_big z (proj1 C)) Es) as [N' V']. split; [auto|]. rewrite V', V. auto.
Qed.
Lemma round_trip_ok g t u fuel s x xc z s' : fits t 1 = true -> normal g s -> sval s = RtoC x -> sconj s = RtoC xc -> ~ rational_num (sval s) -> conj_below x xc ->
  surd_to_cf g t fuel s = Ok (Some z) -> surd_fit u z -> surd_of_cf g u z = Ok s' -> normal g s' /\ sval s' = sval s.
Proof.
  intros F1 N E Ec I Sp Ez Fz Es. destruct (surd_to_cf_ok g s x xc N E Ec I Sp t fuel z F1 Ez) as (C & _ & V & _).
  destruct (surd_of_cf_ok g u z s' (proj1 C) Fz Es) as [N' V']. split; [auto|]. rewrite V', V. auto.
Qed.

(** ** A continued fraction is determined by its value *)
Lemma lim_floor f : cpos f -> isfloor (lim f) (f 0%nat).
Proof.
  intros C. rewrite (lim_step f C). pose proof (lim_gt1_shift f C) as H. split.
  - assert (0 < / lim (shift f))%R by (apply Rinv_0_lt_compat; lra). lra.
  - assert (/ lim (shift f) < 1)%R by (rewrite <- Rinv_1; apply Rinv_lt_contravar; lra). lra.
Qed.
Lemma lim_inj n : forall f h, cpos f -> cpos h -> lim f = lim h -> f n = h n.
Proof.
  induction n as [|n IH]; intros f h Cf Ch E.
  - apply (isfloor_unique (lim f)); [apply lim_floor; auto|rewrite E; apply lim_floor; auto].
  - apply (IH (shift f) (shift h) (cpos_shift f Cf) (cpos_shift h Ch)).
    assert (E0 : f 0%nat = h 0%nat) by (apply (isfloor_unique (lim f)); [apply lim_floor; auto|rewrite E; apply lim_floor; auto]).
    rewrite (lim_step f Cf), (lim_step h Ch), E0 in E. pose proof (lim_gt1_shift f Cf). pose proof (lim_gt1_shift h Ch).
    apply Rplus_eq_reg_l in E. rewrite <- (Rinv_inv (lim (shift f))), E. apply Rinv_inv.
Qed.
