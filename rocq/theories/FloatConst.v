(** * FloatConst: the constants E::value and Pi::value *)

From Coq Require Import ZArith Reals Lia Lra Bool Factorial.
From Flocq Require Import Core BinarySingleNaN.
From Verif Require Import Base Ext ModelSymbols ModelFloat SpecGen SpecF64 GenTail GenMisc SymE SymPi FloatFacts.
Open Scope R_scope.

(** ** Rounded to nearest *)
Lemma RN_nearest x (f : f64) : is_finite f = true -> B2R f = RN x -> nearest f x.
Proof.
  intros F E. split; [exact F|]. intros g _. rewrite E.
  destruct (@round_N_pt radix2 (FLT_exp (-1074) 53) (@FLT_exp_valid (-1074) 53 eq_refl) (fun z => negb (Z.even z)) x) as [_ H].
  apply H. apply generic_format_B2R.
Qed.

Lemma grid51 x : generic_format radix2 (FLT_exp (-1074) 53) x -> 2 <= Rabs x -> exists k, x = IZR k * bpow radix2 (-51).
Proof.
  intros F H. unfold generic_format, F2R in F. cbn [Fnum Fexp] in F.
  set (m := Ztrunc (scaled_mantissa radix2 (FLT_exp (-1074) 53) x)) in F.
  assert (C : (-51 <= cexp radix2 (FLT_exp (-1074) 53) x)%Z).
  { unfold cexp, FLT_exp. assert (2 <= mag radix2 x)%Z; [|lia]. apply (mag_ge_bpow radix2 x 2). exact H. }
  set (c := cexp radix2 (FLT_exp (-1074) 53) x) in *. clearbody c m.
  exists (m * 2 ^ (c + 51))%Z. rewrite F, mult_IZR. change 2%Z with (radix_val radix2).
  rewrite IZR_Zpower by lia. rewrite Rmult_assoc, <- bpow_plus. f_equal. f_equal. lia.
Qed.

Lemma value_near (f : f64) (m : Z) x : is_finite f = true -> B2R f = IZR m * bpow radix2 (-51) ->
  Rabs (B2R f - x) <= bpow radix2 (-52) -> 2 + bpow radix2 (-52) <= x -> nearest f x.
Proof.
  intros Ff Ef H Hx. split; [exact Ff|]. intros g _. pose proof (bpow_ge_0 radix2 (-52)) as P52.
  destruct (Rlt_or_le (B2R g) 2) as [G|G].
  - eapply Rle_trans; [exact H|]. rewrite Rabs_minus_sym, Rabs_pos_eq; lra.
  - destruct (grid51 (B2R g)) as [k Ek]; [apply generic_format_B2R|rewrite Rabs_pos_eq; lra|].
    destruct (Z.eq_dec k m) as [->|N]; [rewrite Ek, Ef; lra|].
    assert (D : bpow radix2 (-51) <= Rabs (B2R g - B2R f)).
    { rewrite Ek, Ef, <- Rmult_minus_distr_r, <- minus_IZR, Rabs_mult, (Rabs_pos_eq (bpow _ _)) by apply bpow_ge_0.
      destruct (int_cases (k - m)) as [Z0|Z1]; [apply eq_IZR_R0 in Z0; lia|]. pose proof (bpow_ge_0 radix2 (-51)). nra. }
    replace (-51)%Z with (1 + -52)%Z in D by reflexivity. rewrite bpow_plus in D. change (bpow radix2 1) with 2 in D.
    replace (B2R g - B2R f) with ((B2R g - x) - (B2R f - x)) in D by ring.
    pose proof (Rabs_triang (B2R g - x) (- (B2R f - x))) as T. rewrite Rabs_Ropp in T. unfold Rminus at 1 in D. lra.
Qed.

(** ** Bounds for pi and e from their continued fractions *)
Lemma pi_error n : Rabs (IZR (gnum pi_items n) / IZR (gden pi_items n) - PI) <= 8 * (1 / 2) ^ n.
Proof.
  destruct (pi_den n) as [D _]. pose proof (K_bound n) as B. assert (Fp : (0 < INR (fact n))%R) by apply INR_fact_lt_0.
  replace (IZR (gnum pi_items n) / IZR (gden pi_items n) - PI) with (pd n / IZR (gden pi_items n)) by (unfold pd; field; lra).
  destruct (pd_K n) as [-> _]. unfold Rdiv. rewrite !Rabs_mult, (Rabs_pos_eq (/ _)) by (left; apply Rinv_0_lt_compat; lra).
  rewrite pow_1_abs, (Rabs_pos_eq (INR (fact n))) by lra. rewrite (Rabs_left (-2)) by lra.
  replace (- -2 * INR (fact n) * 1 * Rabs (K n) * / IZR (gden pi_items n))%R with (2 * Rabs (K n) * (INR (fact n) / IZR (gden pi_items n)))%R by (field; lra).
  assert (Q : (INR (fact n) / IZR (gden pi_items n) <= 1)%R) by (apply (Rmult_le_reg_r (IZR (gden pi_items n))); [lra|]; unfold Rdiv; rewrite Rmult_assoc, Rinv_l; lra).
  assert (Q0 : (0 <= INR (fact n) / IZR (gden pi_items n))%R) by (apply Rmult_le_pos; [lra|left; apply Rinv_0_lt_compat; lra]). pose proof (Rabs_pos (K n)).
  fold (1 / 2). nra.
Qed.

Lemma e_error n : (1 <= gden e_pairs n)%Z -> Rabs (IZR (gnum e_pairs n) / IZR (gden e_pairs n) - exp 1) <= 3 / IZR (gden e_pairs n).
Proof.
  intros D. apply IZR_le in D. pose proof (ED_bound n) as B.
  replace (IZR (gnum e_pairs n) / IZR (gden e_pairs n) - exp 1) with (ED n / IZR (gden e_pairs n)) by (unfold ED; field; lra).
  unfold Rdiv. rewrite Rabs_mult, (Rabs_pos_eq (/ _)) by (left; apply Rinv_0_lt_compat; lra).
  apply Rmult_le_compat_r; [left; apply Rinv_0_lt_compat; lra|exact B].
Qed.

(** [m * 2^-51] is within [d] of [n / q], by integer arithmetic *)
Lemma ratio_close m n q : (0 < q)%Z -> (64 * Z.abs (m * q - n * 2 ^ 51) <= 31 * q)%Z ->
  Rabs (IZR m * bpow radix2 (-51) - IZR n / IZR q) <= bpow radix2 (-52) - bpow radix2 (-57).
Proof.
  intros Q H. pose proof (IZR_lt _ _ Q) as Q'.
  apply IZR_le in H. rewrite !mult_IZR, abs_IZR, minus_IZR, !mult_IZR in H.
  set (N := IZR n) in *. set (M := IZR m) in *. set (D := IZR q) in *.
  change (bpow radix2 (-51)) with (/ IZR (2 ^ 51)). change (bpow radix2 (-52)) with (/ IZR (2 ^ 52)). change (bpow radix2 (-57)) with (/ IZR (2 ^ 57)).
  replace (M * / IZR (2 ^ 51) - N / D) with ((M * D - N * IZR (2 ^ 51)) * (/ IZR (2 ^ 51) * / D)) by (field; split; [lra|apply not_0_IZR; discriminate]).
  rewrite Rabs_mult, (Rabs_pos_eq (/ _ * / _)).
  2: { apply Rmult_le_pos; left; apply Rinv_0_lt_compat; [apply (IZR_lt 0); reflexivity|lra]. }
  set (A := Rabs (M * D - N * IZR (2 ^ 51))) in *. clearbody A.
  apply Rmult_le_reg_r with (D * IZR (2 ^ 51)); [apply Rmult_lt_0_compat; [lra|apply (IZR_lt 0); reflexivity]|].
  replace (A * (/ IZR (2 ^ 51) * / D) * (D * IZR (2 ^ 51))) with A by (field; split; [lra|apply not_0_IZR; discriminate]).
  change (2 ^ 51)%Z with 2251799813685248%Z in *. change (2 ^ 52)%Z with 4503599627370496%Z in *. change (2 ^ 57)%Z with 144115188075855872%Z in *.
  lra.
Qed.

Lemma pi_value_is : is_finite pi_value = true /\ B2R pi_value = IZR 7074237752028440 * bpow radix2 (-51).
Proof.
  assert (E : B2SF pi_value = SpecFloat.S754_finite false 7074237752028440 (-51)) by (vm_compute; reflexivity).
  split; [rewrite <- is_finite_SF_B2SF, E; reflexivity|]. rewrite <- SF2R_B2SF, E. reflexivity.
Qed.
Lemma e_value_is : is_finite e_value = true /\ B2R e_value = IZR 6121026514868073 * bpow radix2 (-51).
Proof.
  assert (E : B2SF e_value = SpecFloat.S754_finite false 6121026514868073 (-51)) by (vm_compute; reflexivity).
  split; [rewrite <- is_finite_SF_B2SF, E; reflexivity|]. rewrite <- SF2R_B2SF, E. reflexivity.
Qed.

Lemma pi_value_nearest : nearest pi_value PI.
Proof.
  destruct pi_value_is as [F E]. apply (value_near _ _ _ F E).
  - rewrite E. pose proof (pi_error 60) as P.
    assert (C : Rabs (IZR 7074237752028440 * bpow radix2 (-51) - IZR (gnum pi_items 60) / IZR (gden pi_items 60)) <= bpow radix2 (-52) - bpow radix2 (-57)).
    { apply ratio_close; [vm_compute; reflexivity|apply Z.leb_le; vm_compute; reflexivity]. }
    assert (T : 8 * (1 / 2) ^ 60 = bpow radix2 (-57)).
    { unfold Rdiv. rewrite Rmult_1_l, pow_inv by lra. change (bpow radix2 (-57)) with (/ IZR (2 ^ Z.of_nat 57)). rewrite <- (pow_IZR 2 57).
      change 60%nat with (3 + 57)%nat. rewrite pow_add. replace (2 ^ 3) with 8 by ring. field. }
    rewrite T in P. set (q := IZR (gnum pi_items 60) / IZR (gden pi_items 60)) in *. clearbody q.
    set (f := IZR 7074237752028440 * bpow radix2 (-51)) in *. clearbody f.
    replace (f - PI) with ((f - q) + (q - PI)) by ring. eapply Rle_trans; [apply Rabs_triang|]. lra.
  - assert (bpow radix2 (-52) <= 1) by (change 1 with (bpow radix2 0); apply bpow_le; lia). pose proof (PI_RGT_0). pose proof PI2_3_2. lra.
Qed.

Lemma e_value_nearest : nearest e_value (exp 1).
Proof.
  destruct e_value_is as [F E].
  assert (G : (3 * 2 ^ 57 <= gden e_pairs 60)%Z) by (apply Z.leb_le; vm_compute; reflexivity).
  pose proof (e_error 60 ltac:(lia)) as P.
  assert (C : Rabs (IZR 6121026514868073 * bpow radix2 (-51) - IZR (gnum e_pairs 60) / IZR (gden e_pairs 60)) <= bpow radix2 (-52) - bpow radix2 (-57)).
  { apply ratio_close; [lia|apply Z.leb_le; vm_compute; reflexivity]. }
  assert (T : 3 / IZR (gden e_pairs 60) <= bpow radix2 (-57)).
  { apply IZR_le in G. rewrite mult_IZR in G. change (bpow radix2 (-57)) with (/ IZR (2 ^ 57)). assert (0 < IZR (2 ^ 57)) by (apply (IZR_lt 0); reflexivity).
    set (X := IZR (2 ^ 57)) in *. clearbody X. apply Rle_trans with (3 * / (3 * X)).
    - unfold Rdiv. apply Rmult_le_compat_l; [lra|]. apply Rinv_le_contravar; lra.
    - right. field. lra. }
  assert (D : Rabs (B2R e_value - exp 1) <= bpow radix2 (-52)).
  { rewrite E. set (q := IZR (gnum e_pairs 60) / IZR (gden e_pairs 60)) in *. clearbody q.
    set (f := IZR 6121026514868073 * bpow radix2 (-51)) in *. clearbody f.
    replace (f - exp 1) with ((f - q) + (q - exp 1)) by ring. eapply Rle_trans; [apply Rabs_triang|]. lra. }
  apply (value_near _ _ _ F E); [exact D|].
  rewrite E in D. change (bpow radix2 (-51)) with (/ IZR (2 ^ 51)) in D. change (bpow radix2 (-52)) with (/ IZR (2 ^ 52)) in *.
  change (2 ^ 51)%Z with 2251799813685248%Z in *. change (2 ^ 52)%Z with 4503599627370496%Z in *. apply Rabs_le_inv in D. lra.
Qed.
