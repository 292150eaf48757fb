(** * ClaimsRoute: proofs of the property theorems in PropsRoute.v. *)

From Coq Require Import ZArith Reals Lia Lra Bool List Arith.
From Coquelicot Require Import Coquelicot.
From Verif Require Import Base Ext ModelSurd ModelBlock ModelCF ModelConv ModelGen Spec SpecCF SpecGen SpecRoute NumFacts RatioFacts SurdCore SurdArith SurdOrd SurdRound SurdMisc SurdTotal CFCore CFSeq CFBasic CFAdd CFArith CFOfSurd GenTail GenMisc GenStored ClaimsSurd ClaimsCF ClaimsGen ClaimsApi.
Import ListNotations.
Open Scope Z_scope.

Lemma first_coeffs_same x y : ~ finite x -> ~ finite y -> (forall n, coeff_at x n = coeff_at y n) -> forall n, first_coeffs x n = first_coeffs y n.
Proof.
  intros Fx Fy H n. rewrite !first_coeffs_seq by (intros K; contradiction). apply map_ext. intros k. unfold cseq. rewrite H. reflexivity.
Qed.
Lemma floor_normal g t s k : surd_floor g t s = Ok k -> normal g k.
Proof.
  intros Ef. unfold surd_floor in Ef. destruct (panic_if_complex g s); [|discriminate|discriminate]. cbn [bind] in Ef. destruct s as [[a0 b0 d0] r0].
  repeat match type of Ef with bind ?e _ = _ => destruct e; [|discriminate|discriminate]; cbn [bind] in Ef end. inversion Ef. apply surd_of_int_spec.
Qed.
Lemma step_val g t s k d r x m : normal g s -> normal g k -> sval s = RtoC x -> sval k = ZtoC m -> surd_sub g t s k = Ok d -> surd_recip g t d = Ok r ->
  x <> IZR m /\ sval r = RtoC (/ (x - IZR m)) /\ normal g r.
Proof.
  intros N Nk V Vm Ed Er. destruct (surd_sub_ok g t s k d (normal_wf _ _ N) (normal_wf _ _ Nk) Ed) as [Vd Nd].
  destruct (surd_recip_ok g t d r (normal_okc _ _ Nd) Er) as (D0 & Vr & Nr).
  assert (Ex : sval d = RtoC (x - IZR m)) by (rewrite Vd, V, Vm; unfold ZtoC; rewrite RtoC_minus; reflexivity).
  assert (X0 : (x - IZR m <> 0)%R) by (intros K; apply D0; rewrite Ex, K; reflexivity).
  split; [lra|]. split; [|auto]. rewrite Vr, Ex. rewrite RtoC_inv by auto. reflexivity.
Qed.
Lemma by_hand_digit g t n : forall s x f, normal g s -> sval s = RtoC x -> (0 < x)%R -> by_hand g t n s = Ok f -> exists v, sval f = ZtoC v /\ cf_digit x n v.
Proof.
  induction n as [|n IH]; intros s x f N V P H; cbn [by_hand] in H; (destruct (surd_floor g t s) as [k| |] eqn:Ef; [|discriminate|discriminate]); cbn [bind] in H;
    destruct (L_C10_floor g t s x k N V Ef) as (m & Vm & Fm); pose proof (proj2 (istrunc_pos x m P) Fm) as Tm.
  - inversion H; subst k. exists m. split; [auto|exact Tm].
  - destruct (surd_sub g t s k) as [d| |] eqn:Ed; [|discriminate|discriminate]. cbn [bind] in H. destruct (surd_recip g t d) as [r| |] eqn:Er; [|discriminate|discriminate]. cbn [bind] in H.
    destruct (step_val g t s k d r x m N (floor_normal _ _ _ _ Ef) V Vm Ed Er) as (X0 & Vr & Nr).
    assert (Fr : (0 < x - IZR m)%R) by (destruct Fm as [F1 _]; lra).
    destruct (IH r (/ (x - IZR m))%R f Nr Vr (Rinv_0_lt_compat _ Fr) H) as (v & Vf & Dv).
    exists v. split; [auto|]. exists m. split; [auto|]. split; [lra|exact Dv].
Qed.
Lemma irrational_step x m : irrational x -> irrational (/ (x - IZR m)).
Proof.
  intros I p q Hq E. assert (X : (x - IZR m <> 0)%R) by (intros K; apply (I m 1); [lia|]; lra).
  assert (Q : IZR q <> 0%R) by (apply not_0_IZR; auto). assert (P : p <> 0). { intros ->. apply (Rinv_neq_0_compat _ X). rewrite E. field. auto. }
  assert (P' : IZR p <> 0%R) by (apply not_0_IZR; auto).
  apply (I (m * p + q) p P). rewrite plus_IZR, mult_IZR. assert (E2 : (x - IZR m = IZR q / IZR p)%R) by (rewrite <- (Rinv_inv (x - IZR m)), E; field; auto).
  replace x with (IZR m + (x - IZR m))%R by ring. rewrite E2. field. auto.
Qed.
Lemma by_hand_total g n : forall s x, normal g s -> sval s = RtoC x -> irrational x -> returns (by_hand g BigI n s).
Proof.
  induction n as [|n IH]; intros s x N V Ir; cbn [by_hand]; destruct (L_C10_returns g s x N V) as [k Ef]; rewrite Ef; cbn [bind]; [eexists; reflexivity|].
  destruct (L_C10_floor g BigI s x k N V Ef) as (m & Vm & Fm). pose proof (floor_normal _ _ _ _ Ef) as Nk.
  assert (Nr : nested_roots s k). { right; left. exists m, 1. split; [lia|]. rewrite Vm. unfold ZtoC. rewrite <- RtoC_div by lra. f_equal. field. }
  destruct (L_C06_same_field_partial g s k N Nk Nr) as (_ & [d Ed] & _). rewrite Ed. cbn [bind].
  destruct (surd_sub_ok g BigI s k d (normal_wf _ _ N) (normal_wf _ _ Nk) Ed) as [Vd Nd].
  assert (Ex : sval d = RtoC (x - IZR m)) by (rewrite Vd, V, Vm; unfold ZtoC; rewrite RtoC_minus; reflexivity).
  destruct (L_C07_returns g d Nd) as (_ & _ & R3). destruct R3 as [r Er].
  { rewrite Ex. intros K. apply RtoC_inj in K. apply (Ir m 1); [lia|]. lra. }
  rewrite Er. cbn [bind]. destruct (step_val g BigI s k d r x m N Nk V Vm Ed Er) as (_ & Vr & Nr').
  apply (IH r _ Nr' Vr). apply irrational_step; auto.
Qed.
Lemma stored_item z n v : wfcf z -> ~ finite z -> cf_digit (cf_val z) n v -> nth_item (signed_next BigU) n (cf_coeffs z) = Ok (Some v).
Proof.
  intros Wz Fz Dv. assert (Y : yields (signed_next BigU) (cf_coeffs z) (sseq z)) by (apply stored_yields; [apply coeffs_fit_big; auto|auto]). rewrite (Y n). do 2 f_equal.
  apply (cf_digit_unique n (cf_val z)); [|auto]. apply (signed_digit (sgnb (negative z)) n (sgnb_cases _)); [apply stored_signed; auto|apply stored_converges; auto].
Qed.

Lemma L_C87_by_hand : forall g t t' fuel n s x z f, fits t 1 = true -> normal g s -> sval s = RtoC x -> (0 < x)%R -> cf_wide x ->
  surd_to_cf g t fuel s = Ok (Some z) -> by_hand g t' n s = Ok f ->
  exists v, sval f = ZtoC v /\ nth_item (signed_next BigU) n (cf_coeffs z) = Ok (Some v).
Proof.
  intros g t t' fuel n s x z f F1 N V P Wd H B. destruct (L_C34_exact_partial g t fuel s x z F1 N V Wd H) as ([Wz _] & Fz & Vz).
  destruct (by_hand_digit g t' n s x f N V P B) as (v & Vf & Dv). exists v. split; [auto|]. rewrite <- Vz in Dv. apply stored_item; auto.
Qed.

Lemma L_C87_narrow_refuted : exists s x z, normal (Cfg false true) s /\ sval s = RtoC x /\ (0 < x < 1)%R /\
  by_hand (Cfg false true) BigI 0 s = Ok (Surd (SCo 0 0 1) 0) /\
  surd_to_cf (Cfg false true) BigI 10 s = Ok (Some z) /\ nth_item (signed_next BigU) 0 (cf_coeffs z) = Ok (Some 2).
Proof.
  exists (Surd (SCo 3 (-1) 2) 2), ((3 - sqrt 2) / 2)%R, (CF [2] [4; 1] false). pose proof sqrt2_bounds. destruct (sval_root2 3 (-1) 2 ltac:(lia)) as [V _].
  split; [apply norm_root2; [lia|lia|reflexivity]|]. split; [rewrite V; f_equal; field|]. split; [lra|]. split; [vm_compute; reflexivity|]. split; vm_compute; reflexivity.
Qed.

Lemma L_C87_by_hand_right : forall g t n s x f, normal g s -> sval s = RtoC x -> (0 < x)%R -> by_hand g t n s = Ok f ->
  exists v, sval f = ZtoC v /\ cf_digit x n v.
Proof. intros g t n s x f. exact (by_hand_digit g t n s x f). Qed.

Lemma L_C87_by_hand_returns : forall g n s x, normal g s -> sval s = RtoC x -> irrational x -> returns (by_hand g BigI n s).
Proof. intros g n s x. exact (by_hand_total g n s x). Qed.

Lemma L_C87_homo : forall t u x z a b c d fuel n v, wfcf x -> ~ finite x -> coeffs_fit u x ->
  (let e := sgnb (negative x) in 0 <= e * c * d \/ (0 < e * a * b /\ Z.abs c <= Z.abs a /\ Z.abs d <= Z.abs b)) -> c <> 0 \/ d <> 0 ->
  wfcf z -> ~ finite z -> cf_val z = ((IZR a * cf_val x + IZR b) / (IZR c * cf_val x + IZR d))%R ->
  nth_item (homo_next t (signed_next u) fuel) n (icf_homo (cf_coeffs x) a b c d) = Ok (Some v) ->
  nth_item (signed_next BigU) n (cf_coeffs z) = Ok (Some v).
Proof.
  intros t u x z a b c d fuel n v W F Ft G D Wz Fz Vz H. apply stored_item; auto. rewrite Vz. exact (L_C42_stored_partial t u x a b c d fuel n v W F Ft G D H).
Qed.

Lemma L_C87_ratio : forall t g x q z fuel fuel' n v, wfcf x -> ~ finite x -> lowest q ->
  (cf_wide (cf_val x + rval q) -> cf_add_ratio g BigU fuel x q = Ok z ->
   nth_item (homo_next t (signed_next BigU) fuel') n (icf_homo (cf_coeffs x) (denom q) (numer q) 0 (denom q)) = Ok (Some v) ->
   nth_item (signed_next BigU) n (cf_coeffs z) = Ok (Some v)) /\
  (cf_wide (cf_val x * rval q) -> cf_mul_ratio g BigU fuel x q = Ok z ->
   nth_item (homo_next t (signed_next BigU) fuel') n (icf_homo (cf_coeffs x) (numer q) 0 0 (denom q)) = Ok (Some v) ->
   nth_item (signed_next BigU) n (cf_coeffs z) = Ok (Some v)).
Proof.
  intros t g x q z fuel fuel' n v W F L. pose proof (surd_sized_big x W) as Sz. assert (Dq : 0 < denom q) by apply L. assert (Dr : IZR (denom q) <> 0%R) by (apply not_0_IZR; lia).
  assert (K : forall y, cf_wide y -> canonical z -> cf_val z = y -> ~ finite z).
  { intros y (xc & (I & _) & _) [Wz _] Vz Fz. apply I. destruct (fin_value_ratio z Wz Fz) as (r & Lr & Vr). rewrite <- Vz, <- Vr. exists (numer r), (denom r). split; [unfold lowest in Lr; lia|reflexivity]. }
  split; intros Wd E H.
  - destruct (L_C33_add_ratio_partial g BigU fuel x q z eq_refl W Sz L (or_intror Wd) E) as [Cz Vz].
    apply (L_C87_homo t BigU x z (denom q) (numer q) 0 (denom q) fuel' n v); auto.
    + apply coeffs_fit_big; auto.
    + cbn zeta. left. lia.
    + right. lia.
    + apply Cz.
    + apply (K _ Wd Cz Vz).
    + rewrite Vz. unfold rval. field. auto.
  - destruct (L_C33_mul_ratio_partial g BigU fuel x q z eq_refl W Sz L (or_intror Wd) E) as [Cz Vz].
    apply (L_C87_homo t BigU x z (numer q) 0 0 (denom q) fuel' n v); auto.
    + apply coeffs_fit_big; auto.
    + cbn zeta. left. lia.
    + right. lia.
    + apply Cz.
    + apply (K _ Wd Cz Vz).
    + rewrite Vz. unfold rval. field. auto.
Qed.

Lemma L_C87_simplify : forall t u x fuel n v, wfcf x -> ~ finite x -> coeffs_fit u x -> negative x = false ->
  nth_item (simp_next t (general_next u) fuel) n (gcf_simplify (cf_generalized x)) = Ok (Some v) ->
  nth_item (signed_next BigU) n (cf_coeffs x) = Ok (Some v).
Proof.
  intros t u x fuel n v W F Ft Ng H. apply stored_item; auto. pose proof (stored_signed x W) as Sg. rewrite Ng in Sg. cbn [sgnb] in Sg.
  apply (L_C41_simplify t _ (general_next u) _ (fun n => (1, sseq x n)) (cf_val x) fuel n v (stored_pairs u x Ft F)); [|apply stored_converges; auto|exact H].
  split; [reflexivity|]. intros j Hj. cbn [fst snd]. split; [lia|]. pose proof (proj2 Sg j Hj). lia.
Qed.

Lemma L_C87_decimals : forall g t t' t2 fuel fuel' n s x z y f c, fits t 1 = true -> normal g s -> sval s = RtoC x -> (0 < x < 10)%R -> cf_wide x ->
  surd_to_cf g t fuel s = Ok (Some z) -> surd_mul_int g t' s (10 ^ Z.of_nat n) = Ok y -> surd_floor g t' y = Ok f ->
  nth_item (dec_next t2 (general_next BigU) fuel') n (gcf_decimals (cf_generalized z)) = Ok (Some c) ->
  exists m, sval f = ZtoC m /\ c = 48 + m mod 10.
Proof.
  intros g t t' t2 fuel fuel' n s x z y f c F1 N V P Wd H E1 E2 E3. destruct (L_C34_exact_partial g t fuel s x z F1 N V Wd H) as ([Wz _] & Fz & Vz).
  assert (Ng : negative z = false).
  { destruct (negative z) eqn:Ng; [|auto]. exfalso. pose proof (stored_signed z Wz) as Sg. rewrite Ng in Sg. cbn [sgnb] in Sg.
    pose proof (csigned_pos (-1) (or_intror eq_refl) _ _ Sg (stored_converges z Wz Fz)) as Q. rewrite Vz in Q. lra. }
  destruct (L_C43_stored t2 BigU z fuel' n c Wz Fz (coeffs_fit_big z Wz) Ng) as (m & Fm & Ec); [rewrite Vz; lra|exact E3|].
  apply surd_mul_int_ok in E1. destruct E1 as [Vy Ny].
  assert (X : sval y = RtoC (10 ^ n * cf_val z)). { rewrite Vy, V, Vz. unfold ZtoC. rewrite <- RtoC_mult. f_equal. rewrite <- pow_IZR. ring. }
  destruct (L_C10_floor g t' y _ f Ny X E2) as (m' & Vf & Fm'). exists m'. split; [auto|]. rewrite (isfloor_unique _ _ _ Fm' Fm). auto.
Qed.

Lemma L_C87_approximated : forall g t fuel fuel' s x z limit v, fits t 1 = true -> normal g s -> sval s = RtoC x -> cf_wide x -> 1 <= limit ->
  surd_to_cf g t fuel s = Ok (Some z) -> surd_approximated g BigI fuel' s limit = Ok v ->
  exists r m, v = Approximated r /\ nth_item (conv_next BigU) m (cf_convergents z) = Ok (Some r).
Proof.
  intros g t fuel fuel' s x z limit v F1 N V D Hl E H. unfold surd_approximated in H. destruct (surd_to_cf g BigI fuel' s) as [[z'|]| |] eqn:E'; try discriminate. cbn [bind unwrap] in H.
  destruct (L_C34_exact_partial g BigI fuel' s x z' eq_refl N V D E') as ((W & W2) & Fz & Vz).
  destruct (L_C34_exact_partial g t fuel s x z F1 N V D E) as ((Wz & Wz2) & Fzz & Vzz).
  destruct (cf_approximated_ok z' limit fuel' v W Hl H) as [(r & -> & Lr & Vr)|(r & m & -> & Cv & Hd & B)].
  - exfalso. destruct D as (xc & (I & _) & _). apply I. rewrite <- Vz, <- Vr. exists (numer r), (denom r). split; [unfold lowest in Lr; lia|reflexivity].
  - exists r, m. split; [auto|].
    destruct (proj1 (proj1 (L_C58_periodic z' z W Wz Fz Fzz)) ltac:(congruence)) as [Ng Sq].
    assert (Hm : coeff_at z m <> None) by (destruct (coeff_at_inf z m Fzz) as [w ->]; discriminate).
    destruct (proj2 (L_C29_convergents z m Wz) Hm) as (r' & E2 & C2). rewrite E2. do 2 f_equal. destruct Cv as [L1 V1], C2 as [L2 V2].
    apply RatioFacts.lowest_unique; auto. rewrite V1, V2, Ng. f_equal. f_equal. apply first_coeffs_same; auto.
Qed.
