(** * FloatFacts: rounding errors of the floating-point conversions *)

From Coq Require Import ZArith Reals Lia Lra Bool.
From Flocq Require Import Core BinarySingleNaN Relative.
From Verif Require Import Base Ext ModelSurd ModelFloat.
Open Scope R_scope.

Definition RN (x : R) : R := round radix2 (FLT_exp (-1074) 53) ZnearestE x.
Definition uu : R := bpow radix2 (-53).

Lemma uu_val : uu = / 9007199254740992.
Proof. unfold uu. simpl. lra. Qed.

Lemma RN_fexp x : round radix2 (SpecFloat.fexp 53 1024) (round_mode mode_NE) x = RN x.
Proof. reflexivity. Qed.

Lemma bpow_1000_1024 : bpow radix2 1000 < bpow radix2 1024.
Proof. apply bpow_lt. lia. Qed.

Lemma RN_bound k x : (-1000 <= k <= 1000)%Z -> Rabs x <= bpow radix2 k -> Rabs (RN x) <= bpow radix2 k.
Proof.
  intros Hk H. unfold RN. apply abs_round_le_generic; try typeclasses eauto.
  - apply FLT_exp_valid. reflexivity.
  - apply generic_format_bpow. unfold FLT_exp. lia.
  - exact H.
Qed.

Lemma RN_small x : Rabs x <= bpow radix2 1000 -> Rlt_bool (Rabs (RN x)) (bpow radix2 1024) = true.
Proof.
  intros H. apply Rlt_bool_true. eapply Rle_lt_trans; [apply (RN_bound 1000 x); [lia|exact H]|apply bpow_1000_1024].
Qed.

Lemma RN_rel x : x = 0 \/ bpow radix2 (-1022) <= Rabs x -> exists e, Rabs e <= uu /\ RN x = x * (1 + e).
Proof.
  intros [->|H].
  - exists 0. split; [rewrite Rabs_R0; apply bpow_ge_0|]. unfold RN. rewrite round_0; [ring|typeclasses eauto].
  - destruct (relative_error_N_FLT_ex radix2 (-1074) 53 eq_refl (fun z => negb (Z.even z)) x) as [e [He E]].
    + exact H.
    + exists e. split; [|exact E]. replace uu with (/ 2 * bpow radix2 (-53 + 1)); [exact He|].
      unfold uu. rewrite bpow_plus. change (bpow radix2 1) with 2. field.
Qed.

(** Integers *)
Lemma int_to_f64_ok z : (Z.abs z <= 2 ^ 500)%Z ->
  is_finite (int_to_f64 z) = true /\ B2R (int_to_f64 z) = RN (IZR z).
Proof.
  intros H. unfold int_to_f64.
  pose proof (binary_normalize_correct 53 1024 prec64 emax64 mode_NE z 0 false) as C. cbv zeta in C.
  assert (E : F2R (Float radix2 z 0) = IZR z) by (unfold F2R; simpl; ring).
  rewrite E, RN_fexp in C. rewrite RN_small in C.
  - destruct C as [A [B _]]. split; assumption.
  - rewrite <- abs_IZR. apply Rle_trans with (IZR (2 ^ 500)); [apply IZR_le; exact H|].
    change (2 ^ 500)%Z with (radix2 ^ 500)%Z. rewrite IZR_Zpower by lia. apply bpow_le. lia.
Qed.

Lemma int_bounds z : (Z.abs z <= 2 ^ 500)%Z -> Rabs (IZR z) <= bpow radix2 500.
Proof.
  intros H. rewrite <- abs_IZR. apply Rle_trans with (IZR (2 ^ 500)); [apply IZR_le; exact H|].
  change (2 ^ 500)%Z with (radix2 ^ 500)%Z. rewrite IZR_Zpower by lia. apply bpow_le. lia.
Qed.

Lemma int_cases z : IZR z = 0 \/ 1 <= Rabs (IZR z).
Proof.
  destruct (Z.eq_dec z 0) as [->|H]; [left; reflexivity|right]. rewrite <- abs_IZR. apply IZR_le. lia.
Qed.

Lemma tiny_le x k : (-1022 <= k)%Z -> bpow radix2 k <= x -> bpow radix2 (-1022) <= x.
Proof. intros Hk H. eapply Rle_trans; [apply bpow_le; exact Hk|exact H]. Qed.

Lemma one_le_tiny x : 1 <= x -> bpow radix2 (-1022) <= x.
Proof. intros H. apply (tiny_le x 0); [lia|exact H]. Qed.

Lemma int_rel z : exists e, Rabs e <= uu /\ RN (IZR z) = IZR z * (1 + e).
Proof.
  apply RN_rel. destruct (int_cases z) as [H|H]; [left; exact H|right; apply one_le_tiny; exact H].
Qed.

(** Rounding an integer of absolute value at least one gives at least one *)
Lemma RN_ge1 x : 1 <= Rabs x -> 1 <= Rabs (RN x).
Proof.
  intros H. unfold RN. apply abs_round_ge_generic; try typeclasses eauto.
  - apply FLT_exp_valid. reflexivity.
  - change 1 with (bpow radix2 0). apply generic_format_bpow. unfold FLT_exp. lia.
  - exact H.
Qed.

Lemma RN_0 : RN 0 = 0.
Proof. unfold RN. apply round_0. typeclasses eauto. Qed.

Lemma RN_nonneg x : 0 <= x -> 0 <= RN x.
Proof.
  intros H. rewrite <- RN_0. unfold RN. apply round_le; try typeclasses eauto; [|exact H].
  apply FLT_exp_valid. reflexivity.
Qed.

Lemma fmul_ok x y : is_finite x = true -> is_finite y = true -> Rabs (B2R x * B2R y) <= bpow radix2 1000 ->
  is_finite (fmul x y) = true /\ B2R (fmul x y) = RN (B2R x * B2R y).
Proof.
  intros Fx Fy H. unfold fmul.
  pose proof (Bmult_correct 53 1024 prec64 emax64 mode_NE x y) as C.
  rewrite RN_fexp, (RN_small _ H) in C. destruct C as [A [B _]]. rewrite Fx, Fy in B. split; [exact B|exact A].
Qed.

Lemma fadd_ok x y : is_finite x = true -> is_finite y = true -> Rabs (B2R x + B2R y) <= bpow radix2 1000 ->
  is_finite (fadd x y) = true /\ B2R (fadd x y) = RN (B2R x + B2R y).
Proof.
  intros Fx Fy H. unfold fadd.
  pose proof (Bplus_correct 53 1024 prec64 emax64 mode_NE x y Fx Fy) as C.
  rewrite RN_fexp, (RN_small _ H) in C. destruct C as [A [B _]]. split; [exact B|exact A].
Qed.

Lemma fdiv_ok x y : is_finite x = true -> B2R y <> 0 -> Rabs (B2R x / B2R y) <= bpow radix2 1000 ->
  is_finite (fdiv x y) = true /\ B2R (fdiv x y) = RN (B2R x / B2R y).
Proof.
  intros Fx Fy H. unfold fdiv.
  pose proof (Bdiv_correct 53 1024 prec64 emax64 mode_NE x y Fy) as C.
  rewrite RN_fexp, (RN_small _ H) in C. destruct C as [A [B _]]. rewrite Fx in B. split; [exact B|exact A].
Qed.

Lemma fsqrt_ok x : is_finite x = true -> 0 <= B2R x ->
  is_finite (fsqrt x) = true /\ B2R (fsqrt x) = RN (sqrt (B2R x)).
Proof.
  intros Fx H. unfold fsqrt.
  pose proof (Bsqrt_correct 53 1024 prec64 emax64 mode_NE x) as [A [B _]].
  rewrite RN_fexp in A. split; [|exact A]. rewrite B. clear A B.
  destruct x as [s| s| |s m e Hb]; try discriminate; try reflexivity.
  destruct s; [|reflexivity]. exfalso.
  assert (K : F2R (Float radix2 (Z.neg m) e) < 0) by (apply F2R_lt_0; reflexivity).
  apply (Rlt_not_le _ _ K). exact H.
Qed.

Lemma fabs_ok x : is_finite x = true -> is_finite (fabs x) = true /\ B2R (fabs x) = Rabs (B2R x).
Proof. intros H. unfold fabs. split; [rewrite is_finite_Babs; exact H|apply B2R_Babs]. Qed.

(** ** Accumulating relative errors *)

Definition acc (k : Z) (x : R) : Prop := Rabs (x - 1) <= IZR k * (11 / 10 * uu).

Lemma acc_0 : acc 0 1.
Proof. unfold acc. replace (1 - 1) with 0 by ring. rewrite Rabs_R0. lra. Qed.

Lemma acc_mul k x e : (0 <= k <= 9)%Z -> acc k x -> Rabs e <= uu -> acc (k + 1) (x * (1 + e)).
Proof.
  unfold acc. intros [H0 H9] Hx He. rewrite plus_IZR.
  apply IZR_le in H0, H9. set (K := IZR k) in *. clearbody K. rewrite uu_val in *.
  replace (x * (1 + e) - 1) with ((x - 1) + (e + (x - 1) * e)) by ring.
  eapply Rle_trans; [apply Rabs_triang|]. 
  assert (B : Rabs (e + (x - 1) * e) <= 11 / 10 * / 9007199254740992).
  { eapply Rle_trans; [apply Rabs_triang|]. rewrite Rabs_mult.
    assert (Rabs (x - 1) <= 1 / 10) by lra.
    pose proof (Rabs_pos e). pose proof (Rabs_pos (x - 1)). nra. }
  lra.
Qed.

Lemma acc_div k x e : (0 <= k <= 9)%Z -> acc k x -> Rabs e <= uu -> acc (k + 1) (x / (1 + e)).
Proof.
  intros Hk Hx He. 
  replace (x / (1 + e)) with (x * (1 + (- e / (1 + e)))).
  - destruct (Rle_dec (Rabs (- e / (1 + e))) (uu * (1001 / 1000))) as [B|B].
    + unfold acc in *. rewrite plus_IZR. destruct Hk as [H0 H9].
      apply IZR_le in H0, H9. set (K := IZR k) in *. clearbody K. set (f := - e / (1 + e)) in *. clearbody f.
      rewrite uu_val in *.
      replace (x * (1 + f) - 1) with ((x - 1) + (f + (x - 1) * f)) by ring.
      eapply Rle_trans; [apply Rabs_triang|]. 
      assert (B' : Rabs (f + (x - 1) * f) <= 11 / 10 * / 9007199254740992).
      { eapply Rle_trans; [apply Rabs_triang|]. rewrite Rabs_mult.
        assert (Rabs (x - 1) <= 1 / 100) by lra.
        pose proof (Rabs_pos f). pose proof (Rabs_pos (x - 1)). nra. }
      lra.
    + exfalso. apply B. unfold Rdiv. rewrite Rabs_mult, Rabs_Ropp.
      assert (P : 0 < 1 + e) by (rewrite uu_val in He; apply Rabs_le_inv in He; lra).
      rewrite (Rabs_pos_eq (/ (1 + e))) by (left; apply Rinv_0_lt_compat; exact P).
      apply Rmult_le_compat; [apply Rabs_pos|left; apply Rinv_0_lt_compat; exact P|exact He|].
      apply Rmult_le_reg_l with (1 + e); [exact P|]. rewrite Rinv_r by lra. rewrite uu_val in He.
      apply Rabs_le_inv in He. lra.
  - field. rewrite uu_val in He. apply Rabs_le_inv in He. lra.
Qed.

Lemma sqrt_1p e : Rabs e <= uu -> exists f, Rabs f <= uu /\ sqrt (1 + e) = 1 + f.
Proof.
  intros He. exists (sqrt (1 + e) - 1). split; [|ring].
  assert (P : 0 < 1 + e) by (rewrite uu_val in He; apply Rabs_le_inv in He; lra).
  pose proof (sqrt_sqrt (1 + e) (Rlt_le _ _ P)) as Q. pose proof (sqrt_pos (1 + e)) as S0.
  set (s := sqrt (1 + e)) in *. clearbody s.
  assert (E : e = (s - 1) * (s + 1)) by lra. rewrite E, Rabs_mult in He.
  eapply Rle_trans; [|exact He]. rewrite <- (Rmult_1_r (Rabs (s - 1))) at 1.
  apply Rmult_le_compat_l; [apply Rabs_pos|]. rewrite Rabs_pos_eq; lra.
Qed.

(** ** Granularity *)

Lemma grid x : generic_format radix2 (FLT_exp (-1074) 53) x -> x = 0 \/ 1 <= Rabs x ->
  exists k, x = IZR k * bpow radix2 (-52).
Proof.
  intros F [->|H].
  - exists 0%Z. ring.
  - unfold generic_format, F2R in F. cbn [Fnum Fexp] in F.
    set (m := Ztrunc (scaled_mantissa radix2 (FLT_exp (-1074) 53) x)) in F.
    assert (C : (-52 <= cexp radix2 (FLT_exp (-1074) 53) x)%Z).
    { unfold cexp, FLT_exp. assert (1 <= mag radix2 x)%Z; [|lia].
      apply mag_ge_bpow. exact H. }
    set (c := cexp radix2 (FLT_exp (-1074) 53) x) in *. clearbody c m.
    exists (m * 2 ^ (c + 52))%Z. rewrite F, mult_IZR. change 2%Z with (radix_val radix2).
    rewrite IZR_Zpower by lia. rewrite Rmult_assoc, <- bpow_plus. f_equal. f_equal. lia.
Qed.

Lemma RN_format x : generic_format radix2 (FLT_exp (-1074) 53) (RN x).
Proof. apply generic_format_round; [apply FLT_exp_valid; reflexivity|typeclasses eauto]. Qed.

Lemma RN_grid x : x = 0 \/ 1 <= Rabs x -> exists k, RN x = IZR k * bpow radix2 (-52).
Proof.
  intros H. apply grid; [apply RN_format|]. destruct H as [->|H]; [left; apply RN_0|right; apply RN_ge1; exact H].
Qed.

Lemma grid_sum x y : (exists k, x = IZR k * bpow radix2 (-52)) -> (exists k, y = IZR k * bpow radix2 (-52)) ->
  x + y = 0 \/ bpow radix2 (-52) <= Rabs (x + y).
Proof.
  intros [k ->] [l ->]. rewrite <- Rmult_plus_distr_r, <- plus_IZR.
  destruct (int_cases (k + l)) as [E|E]; [left; rewrite E; ring|right].
  rewrite Rabs_mult, (Rabs_pos_eq (bpow _ _)) by apply bpow_ge_0. pose proof (bpow_ge_0 radix2 (-52)). nra.
Qed.

Lemma RN_ge k x : (-1000 <= k <= 1000)%Z -> bpow radix2 k <= Rabs x -> bpow radix2 k <= Rabs (RN x).
Proof.
  intros Hk H. unfold RN. apply abs_round_ge_generic; try typeclasses eauto.
  - apply FLT_exp_valid. reflexivity.
  - apply generic_format_bpow. unfold FLT_exp. lia.
  - exact H.
Qed.

(** ** The parts of the computation *)

Lemma big_mono j k x : (j <= k)%Z -> x <= bpow radix2 j -> x <= bpow radix2 k.
Proof. intros H Hx. eapply Rle_trans; [exact Hx|apply bpow_le; exact H]. Qed.

(** The square root of a rounded non-negative integer *)
Lemma root_part x (r : Z) e : is_finite x = true -> (0 <= r)%Z -> Rabs e <= uu -> B2R x = IZR r * (1 + e) ->
  (r = 0%Z \/ 1 <= B2R x) -> B2R x <= bpow radix2 500 ->
  exists th, is_finite (fsqrt x) = true /\ B2R (fsqrt x) = sqrt (IZR r) * th /\ acc 2 th /\
    (B2R (fsqrt x) = 0 \/ 1 <= B2R (fsqrt x)) /\ 0 <= B2R (fsqrt x) <= bpow radix2 250.
Proof.
  intros Fx Hr He Ex H1 Hb. pose proof (IZR_le _ _ Hr) as Hr'.
  assert (Pe : 0 < 1 + e) by (rewrite uu_val in He; apply Rabs_le_inv in He; lra).
  assert (P : 0 <= B2R x) by (rewrite Ex; apply Rmult_le_pos; lra).
  destruct (fsqrt_ok x Fx P) as [Fs Es].
  destruct (sqrt_1p e He) as [f [Hf Ef]].
  assert (Q : sqrt (B2R x) = sqrt (IZR r) * (1 + f)) by (rewrite Ex, sqrt_mult by lra; rewrite Ef; reflexivity).
  assert (C : sqrt (B2R x) = 0 \/ 1 <= Rabs (sqrt (B2R x))).
  { destruct H1 as [->|H1].
    - left. rewrite Q. rewrite sqrt_0. ring.
    - right. rewrite Rabs_pos_eq by apply sqrt_pos. rewrite <- sqrt_1. apply sqrt_le_1_alt. exact H1. }
  destruct (RN_rel (sqrt (B2R x))) as [e4 [He4 E4]].
  { destruct C as [C|C]; [left; exact C|right; apply one_le_tiny; exact C]. }
  exists ((1 + f) * (1 + e4)). split; [exact Fs|]. split; [|split; [|split]].
  - rewrite Es, E4, Q. ring.
  - replace ((1 + f) * (1 + e4)) with (1 * (1 + f) * (1 + e4)) by ring.
    apply (acc_mul 1); [lia| |exact He4]. apply (acc_mul 0); [lia|apply acc_0|exact Hf].
  - rewrite Es. destruct C as [C|C]; [left; rewrite C; apply RN_0|right].
    pose proof (RN_ge1 _ C) as K. rewrite Rabs_pos_eq in K; [exact K|apply RN_nonneg, sqrt_pos].
  - rewrite Es. split; [apply RN_nonneg, sqrt_pos|].
    pose proof (RN_bound 250 (sqrt (B2R x)) ltac:(lia)) as K.
    rewrite (Rabs_pos_eq (RN _)) in K by apply RN_nonneg, sqrt_pos. apply K.
    rewrite Rabs_pos_eq by apply sqrt_pos. rewrite <- (sqrt_bpow radix2 250). apply sqrt_le_1_alt. exact Hb.
Qed.

(** b times the root *)
Lemma prod_part b s (r : Z) th : (Z.abs b <= 2 ^ 500)%Z -> is_finite s = true -> B2R s = sqrt (IZR r) * th -> acc 2 th ->
  (B2R s = 0 \/ 1 <= B2R s) -> 0 <= B2R s <= bpow radix2 250 ->
  exists th', is_finite (fmul (int_to_f64 b) s) = true /\
    B2R (fmul (int_to_f64 b) s) = IZR b * sqrt (IZR r) * th' /\ acc 4 th' /\
    (exists k, B2R (fmul (int_to_f64 b) s) = IZR k * bpow radix2 (-52)) /\
    (B2R (fmul (int_to_f64 b) s) = 0 \/ 1 <= Rabs (B2R (fmul (int_to_f64 b) s))) /\
    Rabs (B2R (fmul (int_to_f64 b) s)) <= bpow radix2 750.
Proof.
  intros Hb Fs Es Ath Cs [S0 Sb].
  destruct (int_to_f64_ok b Hb) as [Fb Eb]. destruct (int_rel b) as [e2 [He2 E2]].
  assert (Bb : Rabs (B2R (int_to_f64 b)) <= bpow radix2 500) by (rewrite Eb; apply RN_bound; [lia|apply int_bounds; exact Hb]).
  assert (M : Rabs (B2R (int_to_f64 b) * B2R s) <= bpow radix2 750).
  { rewrite Rabs_mult, (Rabs_pos_eq (B2R s)) by exact S0. replace 750%Z with (500 + 250)%Z by reflexivity.
    rewrite bpow_plus. apply Rmult_le_compat; [apply Rabs_pos|exact S0|exact Bb|exact Sb]. }
  destruct (fmul_ok _ _ Fb Fs (big_mono 750 1000 _ ltac:(lia) M)) as [Fp Ep].
  assert (C : B2R (int_to_f64 b) * B2R s = 0 \/ 1 <= Rabs (B2R (int_to_f64 b) * B2R s)).
  { destruct Cs as [Cs|Cs]; [left; rewrite Cs; ring|].
    destruct (int_cases b) as [Zb|Zb]; [left; rewrite Eb, Zb, RN_0; ring|right].
    pose proof (RN_ge1 _ Zb) as K. rewrite <- Eb in K. rewrite Rabs_mult, (Rabs_pos_eq (B2R s)) by exact S0.
    apply Rle_trans with (1 * 1); [lra|]. apply Rmult_le_compat; lra. }
  destruct (RN_rel (B2R (int_to_f64 b) * B2R s)) as [e5 [He5 E5]].
  { destruct C as [C|C]; [left; exact C|right; apply one_le_tiny; exact C]. }
  exists (th * (1 + e2) * (1 + e5)). split; [exact Fp|]. split; [|split; [|split; [|split]]].
  - rewrite Ep, E5, Eb, E2, Es. ring.
  - apply (acc_mul 3); [lia| |exact He5]. apply (acc_mul 2); [lia|exact Ath|exact He2].
  - rewrite Ep. apply RN_grid. exact C.
  - rewrite Ep. destruct C as [C|C]; [left; rewrite C; apply RN_0|right; apply RN_ge1; exact C].
  - rewrite Ep. apply RN_bound; [lia|exact M].
Qed.

(** Division by the denominator *)
Lemma quot_part n c : (0 < c)%Z -> (c <= 2 ^ 500)%Z -> is_finite n = true ->
  (B2R n = 0 \/ bpow radix2 (-52) <= Rabs (B2R n)) -> Rabs (B2R n) <= bpow radix2 751 ->
  exists e7 e8, Rabs e7 <= uu /\ Rabs e8 <= uu /\ is_finite (fdiv n (int_to_f64 c)) = true /\
    B2R (fdiv n (int_to_f64 c)) = B2R n / IZR c / (1 + e7) * (1 + e8).
Proof.
  intros Hc Hc5 Fn Cn Bn. assert (Hab : (Z.abs c <= 2 ^ 500)%Z) by lia.
  destruct (int_to_f64_ok c Hab) as [Fc Ec]. destruct (int_rel c) as [e7 [He7 E7]].
  pose proof (IZR_lt _ _ Hc) as Hc'.
  assert (C1 : 1 <= B2R (int_to_f64 c)).
  { assert (1 <= Rabs (IZR c)) as K by (rewrite Rabs_pos_eq by lra; apply (IZR_le 1); lia).
    apply RN_ge1 in K. rewrite <- Ec in K. rewrite Rabs_pos_eq in K; [exact K|]. rewrite Ec. apply RN_nonneg. lra. }
  assert (Cb : B2R (int_to_f64 c) <= bpow radix2 500).
  { pose proof (RN_bound 500 (IZR c) ltac:(lia) (int_bounds c Hab)) as K. rewrite <- Ec in K. rewrite Rabs_pos_eq in K by lra. exact K. }
  assert (Q : Rabs (B2R n / B2R (int_to_f64 c)) <= bpow radix2 751).
  { unfold Rdiv. rewrite Rabs_mult, (Rabs_pos_eq (/ _)) by (left; apply Rinv_0_lt_compat; lra).
    rewrite <- (Rmult_1_r (bpow radix2 751)). apply Rmult_le_compat; [apply Rabs_pos|left; apply Rinv_0_lt_compat; lra|exact Bn|].
    rewrite <- Rinv_1. apply Rinv_le_contravar; lra. }
  destruct (fdiv_ok n (int_to_f64 c) Fn ltac:(lra) (big_mono 751 1000 _ ltac:(lia) Q)) as [Fq Eq].
  destruct (RN_rel (B2R n / B2R (int_to_f64 c))) as [e8 [He8 E8]].
  { destruct Cn as [Cn|Cn]; [left; rewrite Cn; unfold Rdiv; ring|right].
    apply (tiny_le _ (-552)); [lia|]. unfold Rdiv. rewrite Rabs_mult, (Rabs_pos_eq (/ _)) by (left; apply Rinv_0_lt_compat; lra).
    replace (-552)%Z with (-52 + Z.opp 500)%Z by reflexivity. rewrite bpow_plus, bpow_opp.
    apply Rmult_le_compat; [apply bpow_ge_0|left; apply Rinv_0_lt_compat, bpow_gt_0|exact Cn|].
    apply Rinv_le_contravar; lra. }
  assert (P7 : 0 < 1 + e7) by (rewrite uu_val in He7; apply Rabs_le_inv in He7; lra).
  exists e7, e8. split; [exact He7|]. split; [exact He8|]. split; [exact Fq|].
  rewrite Eq, E8, Ec, E7. field. split; lra.
Qed.

Lemma acc_8 k x : (0 <= k <= 7)%Z -> acc k x -> Rabs (x - 1) <= bpow radix2 (-50).
Proof.
  intros [H0 H7] H. unfold acc in H. eapply Rle_trans; [exact H|]. replace (bpow radix2 (-50)) with (8 * uu).
  - apply IZR_le in H0, H7. rewrite uu_val. lra.
  - unfold uu. simpl. lra.
Qed.

Lemma int_grid a : (Z.abs a <= 2 ^ 500)%Z -> exists k, B2R (int_to_f64 a) = IZR k * bpow radix2 (-52).
Proof. intros Ha. destruct (int_to_f64_ok a Ha) as [_ ->]. apply RN_grid, int_cases. Qed.

Lemma root_of_int r : (0 <= r)%Z -> (r <= 2 ^ 500)%Z ->
  exists th, is_finite (fsqrt (int_to_f64 r)) = true /\ B2R (fsqrt (int_to_f64 r)) = sqrt (IZR r) * th /\ acc 2 th /\
    (B2R (fsqrt (int_to_f64 r)) = 0 \/ 1 <= B2R (fsqrt (int_to_f64 r))) /\ 0 <= B2R (fsqrt (int_to_f64 r)) <= bpow radix2 250.
Proof.
  intros H0 H5. assert (Hab : (Z.abs r <= 2 ^ 500)%Z) by lia.
  destruct (int_to_f64_ok r Hab) as [Fr Er]. destruct (int_rel r) as [e [He E]]. rewrite <- Er in E.
  apply (root_part _ r e); try assumption.
  - destruct (Z.eq_dec r 0) as [->|Hn]; [left; reflexivity|right].
    assert (K : 1 <= Rabs (IZR r)) by (rewrite <- abs_IZR; apply (IZR_le 1); lia).
    apply RN_ge1 in K. rewrite <- Er in K. rewrite Rabs_pos_eq in K; [exact K|]. rewrite Er. apply RN_nonneg, (IZR_le 0). exact H0.
  - pose proof (RN_bound 500 (IZR r) ltac:(lia) (int_bounds r Hab)) as K. rewrite <- Er in K.
    eapply Rle_trans; [apply Rle_abs|exact K].
Qed.

Lemma root_of_negint r : (r < 0)%Z -> (- r <= 2 ^ 500)%Z ->
  exists th, is_finite (fsqrt (fabs (int_to_f64 r))) = true /\ B2R (fsqrt (fabs (int_to_f64 r))) = sqrt (IZR (- r)) * th /\ acc 2 th /\
    (B2R (fsqrt (fabs (int_to_f64 r))) = 0 \/ 1 <= B2R (fsqrt (fabs (int_to_f64 r)))) /\ 0 <= B2R (fsqrt (fabs (int_to_f64 r))) <= bpow radix2 250.
Proof.
  intros H0 H5. assert (Hab : (Z.abs r <= 2 ^ 500)%Z) by lia.
  destruct (int_to_f64_ok r Hab) as [Fr Er]. destruct (int_rel r) as [e [He E]]. rewrite <- Er in E.
  destruct (fabs_ok _ Fr) as [Fa Ea].
  apply (root_part _ (- r) e); try assumption.
  - lia.
  - rewrite Ea, E, Rabs_mult, (Rabs_pos_eq (1 + e)) by (rewrite uu_val in He; apply Rabs_le_inv in He; lra).
    rewrite <- abs_IZR, Z.abs_neq by lia. reflexivity.
  - right. rewrite Ea, Er. apply RN_ge1. rewrite <- abs_IZR. apply (IZR_le 1). lia.
  - rewrite Ea, Er. apply RN_bound; [lia|apply int_bounds; exact Hab].
Qed.

(** (a + b sqrt r) / c *)
Theorem to_f64_error a b c r :
  (Z.abs a <= 2 ^ 500)%Z -> (Z.abs b <= 2 ^ 500)%Z -> (0 < c)%Z -> (c <= 2 ^ 500)%Z -> (0 <= r)%Z -> (r <= 2 ^ 500)%Z ->
  exists f, surd_to_f64 (Surd (SCo a b c) r) = Some f /\ is_finite f = true /\
    Rabs (B2R f - (IZR a + IZR b * sqrt (IZR r)) / IZR c) <=
      bpow radix2 (-50) * ((Rabs (IZR a) + Rabs (IZR b) * sqrt (IZR r)) / IZR c).
Proof.
  intros Ha Hb Hc Hc5 Hr Hr5. unfold surd_to_f64. cbn [discr coeffs c0 c1 c2].
  rewrite (proj2 (Z.ltb_ge r 0) Hr). eexists. split; [reflexivity|].
  destruct (root_of_int r Hr Hr5) as [th [Fs [Es [At [Cs Bs]]]]].
  destruct (prod_part b _ r th Hb Fs Es At Cs Bs) as [th' [Fp [Ep [Ap [Gp [_ Bp]]]]]].
  set (p := fmul (int_to_f64 b) (fsqrt (int_to_f64 r))) in *. clearbody p.
  destruct (int_to_f64_ok a Ha) as [Fa Ea]. destruct (int_rel a) as [e1 [He1 E1]]. rewrite <- Ea in E1.
  assert (Ba : Rabs (B2R (int_to_f64 a)) <= bpow radix2 750).
  { rewrite Ea. apply RN_bound; [lia|]. apply (big_mono 500); [lia|apply int_bounds; exact Ha]. }
  assert (Bs' : Rabs (B2R (int_to_f64 a) + B2R p) <= bpow radix2 751).
  { eapply Rle_trans; [apply Rabs_triang|]. replace 751%Z with (1 + 750)%Z by reflexivity. rewrite bpow_plus.
    change (bpow radix2 1) with 2. lra. }
  pose proof (grid_sum _ _ (int_grid a Ha) Gp) as G.
  destruct (fadd_ok _ _ Fa Fp (big_mono 751 1000 _ ltac:(lia) Bs')) as [Fn En].
  destruct (RN_rel (B2R (int_to_f64 a) + B2R p)) as [e6 [He6 E6]].
  { destruct G as [G|G]; [left; exact G|right; apply (tiny_le _ (-52)); [lia|exact G]]. }
  destruct (quot_part (fadd (int_to_f64 a) p) c Hc Hc5 Fn) as [e7 [e8 [He7 [He8 [Fq Eq]]]]].
  { rewrite En. destruct G as [G|G]; [left; rewrite G; apply RN_0|right; apply RN_ge; [lia|exact G]]. }
  { rewrite En. apply RN_bound; [lia|exact Bs']. }
  split; [exact Fq|]. rewrite Eq, En, E6, E1, Ep.
  assert (P7 : 1 + e7 <> 0) by (rewrite uu_val in He7; apply Rabs_le_inv in He7; lra).
  pose proof (IZR_lt _ _ Hc) as Hc'.
  set (A := 1 * (1 + e1) * (1 + e6) / (1 + e7) * (1 + e8)).
  set (B := th' * (1 + e6) / (1 + e7) * (1 + e8)).
  assert (HA : Rabs (A - 1) <= bpow radix2 (-50)).
  { apply (acc_8 4); [lia|]. unfold A. apply (acc_mul 3); [lia| |exact He8]. apply (acc_div 2); [lia| |exact He7].
    apply (acc_mul 1); [lia| |exact He6]. apply (acc_mul 0); [lia|apply acc_0|exact He1]. }
  assert (HB : Rabs (B - 1) <= bpow radix2 (-50)).
  { apply (acc_8 7); [lia|]. unfold B. apply (acc_mul 6); [lia| |exact He8]. apply (acc_div 5); [lia| |exact He7].
    apply (acc_mul 4); [lia|exact Ap|exact He6]. }
  set (q := sqrt (IZR r)) in *. assert (0 <= q) by apply sqrt_pos.
  replace ((IZR a * (1 + e1) + IZR b * q * th') * (1 + e6) / IZR c / (1 + e7) * (1 + e8) - (IZR a + IZR b * q) / IZR c)
    with ((IZR a * (A - 1) + IZR b * q * (B - 1)) / IZR c) by (unfold A, B; field; split; [lra|exact P7]).
  unfold Rdiv. rewrite Rabs_mult, (Rabs_pos_eq (/ IZR c)) by (left; apply Rinv_0_lt_compat; lra).
  rewrite <- Rmult_assoc. apply Rmult_le_compat_r; [left; apply Rinv_0_lt_compat; lra|].
  eapply Rle_trans; [apply Rabs_triang|]. rewrite !Rabs_mult, (Rabs_pos_eq q) by assumption.
  pose proof (Rabs_pos (IZR a)). pose proof (Rabs_pos (IZR b)).
  set (d := bpow radix2 (-50)) in *.
  assert (Rabs (IZR a) * Rabs (A - 1) <= Rabs (IZR a) * d) by (apply Rmult_le_compat_l; assumption).
  assert (Rabs (IZR b) * q * Rabs (B - 1) <= Rabs (IZR b) * q * d).
  { apply Rmult_le_compat_l; [apply Rmult_le_pos; assumption|assumption]. }
  lra.
Qed.
