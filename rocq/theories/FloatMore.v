(** * FloatMore: complex components, correct rounding in the simple cases, single precision *)

From Coq Require Import ZArith Reals Lia Lra Bool.
From Flocq Require Import Core BinarySingleNaN.
From Verif Require Import Base Ext ModelSurd ModelFloat SpecF64 FloatFacts FloatConst.
Open Scope R_scope.

Lemma eps50_bpow : eps50 = bpow radix2 (-50).
Proof. reflexivity. Qed.

(** ** The parts of a complex surd *)
Lemma re_part a c : (Z.abs a <= 2 ^ 500)%Z -> (0 < c)%Z -> (c <= 2 ^ 500)%Z ->
  accurate (fdiv (int_to_f64 a) (int_to_f64 c)) (IZR a / IZR c) (eps50 * Rabs (IZR a / IZR c)).
Proof.
  intros Ha Hc Hc5. destruct (int_to_f64_ok a Ha) as [Fa Ea]. destruct (int_rel a) as [e1 [He1 E1]]. rewrite <- Ea in E1.
  destruct (quot_part (int_to_f64 a) c Hc Hc5 Fa) as [e7 [e8 [He7 [He8 [Fq Eq]]]]].
  { rewrite Ea. destruct (int_cases a) as [K|K]; [left; rewrite K; apply RN_0|right].
    apply Rle_trans with 1; [change 1 with (bpow radix2 0); apply bpow_le; lia|apply RN_ge1; exact K]. }
  { rewrite Ea. apply RN_bound; [lia|]. apply (big_mono 500); [lia|apply int_bounds; exact Ha]. }
  split; [exact Fq|]. rewrite Eq, E1, eps50_bpow.
  assert (P7 : 1 + e7 <> 0) by (rewrite uu_val in He7; apply Rabs_le_inv in He7; lra).
  pose proof (IZR_lt _ _ Hc) as Hc'.
  set (A := 1 * (1 + e1) / (1 + e7) * (1 + e8)).
  assert (HA : Rabs (A - 1) <= bpow radix2 (-50)).
  { apply (acc_8 3); [lia|]. unfold A. apply (acc_mul 2); [lia| |exact He8]. apply (acc_div 1); [lia| |exact He7].
    apply (acc_mul 0); [lia|apply acc_0|exact He1]. }
  replace (IZR a * (1 + e1) / IZR c / (1 + e7) * (1 + e8) - IZR a / IZR c) with ((A - 1) * (IZR a / IZR c)) by (unfold A; field; split; [lra|exact P7]).
  rewrite Rabs_mult. apply Rmult_le_compat_r; [apply Rabs_pos|exact HA].
Qed.

Lemma im_part b c r : (Z.abs b <= 2 ^ 500)%Z -> (0 < c)%Z -> (c <= 2 ^ 500)%Z -> (r < 0)%Z -> (- r <= 2 ^ 500)%Z ->
  accurate (fdiv (fmul (int_to_f64 b) (fsqrt (fabs (int_to_f64 r)))) (int_to_f64 c)) (IZR b * sqrt (IZR (- r)) / IZR c)
    (eps50 * Rabs (IZR b * sqrt (IZR (- r)) / IZR c)).
Proof.
  intros Hb Hc Hc5 Hr Hr5. destruct (root_of_negint r Hr Hr5) as [th [Fs [Es [At [Cs Bs]]]]].
  destruct (prod_part b _ (- r) th Hb Fs Es At Cs Bs) as [th' [Fp [Ep [Ap [Gp [Cp Bp]]]]]].
  set (p := fmul (int_to_f64 b) (fsqrt (fabs (int_to_f64 r)))) in *. clearbody p.
  destruct (quot_part p c Hc Hc5 Fp) as [e7 [e8 [He7 [He8 [Fq Eq]]]]].
  { destruct Cp as [K|K]; [left; exact K|right]. apply Rle_trans with 1; [change 1 with (bpow radix2 0); apply bpow_le; lia|exact K]. }
  { apply (big_mono 750); [lia|exact Bp]. }
  split; [exact Fq|]. rewrite Eq, Ep, eps50_bpow.
  assert (P7 : 1 + e7 <> 0) by (rewrite uu_val in He7; apply Rabs_le_inv in He7; lra).
  pose proof (IZR_lt _ _ Hc) as Hc'. set (w := IZR b * sqrt (IZR (- r))).
  set (A := th' / (1 + e7) * (1 + e8)).
  assert (HA : Rabs (A - 1) <= bpow radix2 (-50)).
  { apply (acc_8 6); [lia|]. unfold A. apply (acc_mul 5); [lia| |exact He8]. apply (acc_div 4); [lia|exact Ap|exact He7]. }
  replace (w * th' / IZR c / (1 + e7) * (1 + e8) - w / IZR c) with ((A - 1) * (w / IZR c)) by (unfold A; field; split; [lra|exact P7]).
  rewrite Rabs_mult. apply Rmult_le_compat_r; [apply Rabs_pos|exact HA].
Qed.

(** ** Exact integers *)
Lemma RN_id x : generic_format radix2 (FLT_exp (-1074) 53) x -> RN x = x.
Proof. intros H. unfold RN. apply round_generic; [typeclasses eauto|exact H]. Qed.

Lemma int_exact z : (Z.abs z <= 2 ^ 53)%Z -> is_finite (int_to_f64 z) = true /\ B2R (int_to_f64 z) = IZR z.
Proof.
  intros H. destruct (int_to_f64_ok z) as [F E]; [eapply Z.le_trans; [exact H|apply Z.pow_le_mono_r; lia]|].
  split; [exact F|]. rewrite E. apply RN_id.
  destruct (Z.eq_dec (Z.abs z) (2 ^ 53)) as [K|K].
  - assert (G : generic_format radix2 (FLT_exp (-1074) 53) (IZR (2 ^ 53))).
    { change (2 ^ 53)%Z with (Zpower radix2 53). rewrite IZR_Zpower by lia. apply generic_format_bpow. unfold FLT_exp. lia. }
    destruct (Z.abs_eq_or_opp z) as [L|L]; rewrite L in K; [rewrite K; exact G|].
    replace z with (- 2 ^ 53)%Z by lia. rewrite opp_IZR. apply generic_format_opp. exact G.
  - apply generic_format_FLT. exists (Float radix2 z 0); cbn [Fnum Fexp]; [unfold F2R; cbn; ring|change (radix_val radix2) with 2%Z; lia|lia].
Qed.

Lemma small_quot x y : Rabs x <= bpow radix2 53 -> 1 <= y -> Rabs (x / y) <= bpow radix2 1000.
Proof.
  intros Hx Hy. unfold Rdiv. rewrite Rabs_mult, (Rabs_pos_eq (/ y)) by (left; apply Rinv_0_lt_compat; lra).
  apply Rle_trans with (Rabs x * 1); [apply Rmult_le_compat_l; [apply Rabs_pos|]; rewrite <- Rinv_1; apply Rinv_le_contravar; lra|].
  rewrite Rmult_1_r. apply (big_mono 53); [lia|exact Hx].
Qed.

Lemma int_53 z : (Z.abs z <= 2 ^ 53)%Z -> Rabs (IZR z) <= bpow radix2 53.
Proof.
  intros H. rewrite <- abs_IZR. change (bpow radix2 53) with (IZR (2 ^ 53)). apply IZR_le. exact H.
Qed.

(** Rationals *)
Lemma rational_nearest a c : (Z.abs a <= 2 ^ 53)%Z -> (0 < c)%Z -> (c <= 2 ^ 53)%Z ->
  exists f, surd_to_f64 (Surd (SCo a 0 c) 0) = Some f /\ nearest f (IZR a / IZR c).
Proof.
  intros Ha Hc Hc5. unfold surd_to_f64. cbn [discr coeffs c0 c1 c2 Z.ltb Z.compare]. eexists. split; [reflexivity|].
  destruct (int_exact a Ha) as [Fa Ea]. destruct (int_exact c ltac:(lia)) as [Fc Ec].
  assert (Z0 : fmul (int_to_f64 0) (fsqrt (int_to_f64 0)) = fzero) by (vm_compute; reflexivity). rewrite Z0.
  assert (Ez : B2R fzero = 0) by reflexivity.
  destruct (fadd_ok (int_to_f64 a) fzero Fa eq_refl) as [Fn En].
  { rewrite Ez, Ea, Rplus_0_r. apply (big_mono 53); [lia|apply int_53; exact Ha]. }
  rewrite Ez, Rplus_0_r, (RN_id (B2R (int_to_f64 a)) (generic_format_B2R _ _ _)), Ea in En.
  assert (C1 : 1 <= IZR c) by (apply (IZR_le 1); lia).
  destruct (fdiv_ok _ (int_to_f64 c) Fn) as [Fq Eq].
  { rewrite Ec. lra. }
  { rewrite En, Ec. apply small_quot; [apply int_53; exact Ha|exact C1]. }
  rewrite En, Ec in Eq. apply RN_nearest; [exact Fq|exact Eq].
Qed.

(** Square roots of integers *)
Lemma root_nearest r : (0 <= r)%Z -> (r <= 2 ^ 53)%Z ->
  exists f, surd_to_f64 (Surd (SCo 0 1 1) r) = Some f /\ nearest f (sqrt (IZR r)).
Proof.
  intros Hr Hr5. unfold surd_to_f64. cbn [discr coeffs c0 c1 c2]. rewrite (proj2 (Z.ltb_ge r 0) Hr). eexists. split; [reflexivity|].
  destruct (int_exact r ltac:(lia)) as [Fr Er]. pose proof (IZR_le _ _ Hr) as Hr'.
  destruct (fsqrt_ok (int_to_f64 r) Fr ltac:(rewrite Er; exact Hr')) as [Fs Es]. rewrite Er in Es.
  assert (Bs : Rabs (B2R (fsqrt (int_to_f64 r))) <= bpow radix2 53).
  { rewrite Es. apply RN_bound; [lia|]. rewrite Rabs_pos_eq by apply sqrt_pos.
    assert (K : IZR r <= bpow radix2 53) by (pose proof (int_53 r ltac:(lia)) as K; rewrite Rabs_pos_eq in K by lra; exact K).
    assert (1 <= bpow radix2 53) by (change 1 with (bpow radix2 0); apply bpow_le; lia).
    set (B := bpow radix2 53) in *. clearbody B. rewrite <- (sqrt_square B) by lra. apply sqrt_le_1_alt. nra. }
  destruct (int_exact 1 ltac:(lia)) as [F1 E1]. destruct (int_exact 0 ltac:(lia)) as [F0 E0].
  set (s := fsqrt (int_to_f64 r)) in *.
  destruct (fmul_ok (int_to_f64 1) s F1 Fs) as [Fm Em].
  { rewrite E1, Rmult_1_l. apply (big_mono 53); [lia|exact Bs]. }
  rewrite E1, Rmult_1_l, (RN_id (B2R s) (generic_format_B2R _ _ _)) in Em.
  destruct (fadd_ok (int_to_f64 0) _ F0 Fm) as [Fn En].
  { rewrite E0, Em, Rplus_0_l. apply (big_mono 53); [lia|exact Bs]. }
  rewrite E0, Em, Rplus_0_l, (RN_id (B2R s) (generic_format_B2R _ _ _)) in En.
  destruct (fdiv_ok _ (int_to_f64 1) Fn) as [Fq Eq].
  { rewrite E1. lra. }
  { rewrite En, E1. apply small_quot; [exact Bs|lra]. }
  rewrite En, E1 in Eq. unfold Rdiv in Eq. rewrite Rinv_1, Rmult_1_r, (RN_id (B2R s) (generic_format_B2R _ _ _)), Es in Eq.
  apply RN_nearest; [exact Fq|exact Eq].
Qed.

(** ** Single precision *)
Lemma f32_nearest (x : f64) : is_finite x = true -> Rabs (B2R x) <= bpow radix2 127 -> nearest (f64_to_f32 x) (B2R x).
Proof.
  intros F B. destruct x as [s|s| |s m e Hb]; try discriminate.
  - split; [reflexivity|]. intros g _. cbn. rewrite Rminus_0_r, Rabs_R0. apply Rabs_pos.
  - unfold f64_to_f32.
    pose proof (binary_normalize_correct 24 128 prec32 emax32 mode_NE (cond_Zopp s (Zpos m)) e s) as C. cbv zeta in C.
    change (F2R (Float radix2 (cond_Zopp s (Zpos m)) e)) with (B2R (@B754_finite 53 1024 s m e Hb)) in C.
    set (x := B2R (@B754_finite 53 1024 s m e Hb)) in *.
    change (SpecFloat.fexp 24 128) with (FLT_exp (-149) 24) in C. change (round_mode mode_NE) with ZnearestE in C.
    rewrite Rlt_bool_true in C.
    + destruct C as [E [Fy _]]. split; [exact Fy|]. intros g _. rewrite E.
      destruct (@round_N_pt radix2 (FLT_exp (-149) 24) (@FLT_exp_valid (-149) 24 eq_refl) (fun z => negb (Z.even z)) x) as [_ H].
      apply H. change (FLT_exp (-149) 24) with (SpecFloat.fexp 24 128). apply generic_format_B2R.
    + eapply Rle_lt_trans; [|apply (bpow_lt radix2 127 128); lia].
      apply abs_round_le_generic; [apply FLT_exp_valid; reflexivity|typeclasses eauto|apply generic_format_bpow; unfold FLT_exp; lia|exact B].
Qed.

Lemma f32_range (x : f64) : single_range x (f64_to_f32 x).
Proof.
  destruct x as [s|s| |s m e Hb]; cbn [single_range f64_to_f32]; try reflexivity.
  - intros B. exfalso. cbn [B2R] in B. rewrite Rabs_R0 in B. pose proof (bpow_gt_0 radix2 128). lra.
  - intros B. pose proof (binary_normalize_correct 24 128 prec32 emax32 mode_NE (cond_Zopp s (Zpos m)) e s) as C. cbv zeta in C.
    change (F2R (Float radix2 (cond_Zopp s (Zpos m)) e)) with (B2R (@B754_finite 53 1024 s m e Hb)) in C.
    change (SpecFloat.fexp 24 128) with (FLT_exp (-149) 24) in C. change (round_mode mode_NE) with ZnearestE in C.
    rewrite Rlt_bool_false in C.
    + cbn [Bsign]. replace (Rlt_bool (B2R (@B754_finite 53 1024 s m e Hb)) 0) with s in C.
      * apply B2SF_inj. rewrite C. reflexivity.
      * cbn [B2R]. destruct s; symmetry; [apply Rlt_bool_true|apply Rlt_bool_false; left]; cbn [cond_Zopp]; [apply F2R_lt_0|apply F2R_gt_0]; cbn; lia.
    + apply abs_round_ge_generic; [apply FLT_exp_valid; reflexivity|typeclasses eauto|apply generic_format_bpow; unfold FLT_exp; lia|exact B].
Qed.
