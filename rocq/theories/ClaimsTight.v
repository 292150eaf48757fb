(** * ClaimsTight: proofs of the property theorems in PropsTight.v. *)

From Coq Require Import ZArith Znumtheory Reals Lia Lra Bool List Arith.
From Verif Require Import Base Ext ModelSurd ModelBlock ModelCF ModelConv Spec SpecCF NumFacts Transfer GenBlock GenSound.
Import ListNotations.
Open Scope Z_scope.

Lemma gcd_quot k a b : 0 < k -> Z.gcd a b = 1 -> Z.gcd (k * a) (k * b) = k.
Proof. intros Hk H. rewrite Z.gcd_mul_mono_l_nonneg by lia. rewrite H. lia. Qed.
Lemma quot_cancel k a : 0 < k -> Z.quot (k * a) k = a.
Proof. intros Hk. rewrite Z.mul_comm. apply Z.quot_mul. lia. Qed.
Lemma sqrt_scale k r : 0 < k -> 0 <= r -> (Z.sqrt (k * k * r) * Z.sqrt (k * k * r) =? k * k * r) = (Z.sqrt r * Z.sqrt r =? r).
Proof.
  intros Hk Hr. destruct (Z.eqb_spec (Z.sqrt r * Z.sqrt r) r) as [E|N].
  - apply Z.eqb_eq. assert (S : Z.sqrt (k * k * r) = k * Z.sqrt r).
    { rewrite <- E at 1. replace (k * k * (Z.sqrt r * Z.sqrt r)) with ((k * Z.sqrt r) * (k * Z.sqrt r)) by ring. apply Z.sqrt_square. pose proof (Z.sqrt_nonneg r). nia. }
    rewrite S. rewrite <- E at 3. ring.
  - apply Z.eqb_neq. intros E. apply N. set (m := Z.sqrt (k * k * r)) in *. assert (M0 : 0 <= m) by apply Z.sqrt_nonneg.
    assert (D : (k | m)).
    { apply (Z.divide_trans _ (Z.abs m)); [|rewrite Z.abs_eq by lia; apply Z.divide_refl].
      assert (Dk : (k * k | m * m)) by (exists r; lia). clearbody m. clear - Dk Hk M0.
      rewrite Z.abs_eq by lia. assert (G : Z.gcd k m * Z.gcd k m = k * k).
      { assert (P := Z.gcd_nonneg k m). destruct (Z.eq_dec (Z.gcd k m) 0) as [Z0|NZ]; [apply Z.gcd_eq_0_l in Z0; lia|].
        destruct (Z.gcd_divide_l k m) as [u Hu]. destruct (Z.gcd_divide_r k m) as [v Hv]. set (d := Z.gcd k m) in *.
        assert (C : Z.gcd u v = 1).
        { apply Z.mul_cancel_r with (p := d); [lia|]. rewrite Z.mul_1_l. rewrite <- Z.gcd_mul_mono_r_nonneg by lia. rewrite <- Hu, <- Hv. reflexivity. }
        assert (Duv : (u * u | v * v)).
        { destruct Dk as [w Hw]. exists w. rewrite Hu, Hv in Hw. apply Z.mul_cancel_r with (p := d * d); [nia|]. lia. }
        assert (U : (u | 1)).
        { rewrite <- C. apply Z.gcd_greatest; [apply Z.divide_refl|]. assert (X : (u | v * v)) by (eapply Z.divide_trans; [|exact Duv]; exists u; reflexivity).
          apply Z.gauss in X; auto. }
        assert (0 < u) by nia. apply Z.divide_pos_le in U; [|lia]. assert (u = 1) by lia. subst u. nia. }
      assert (P := Z.gcd_nonneg k m). assert (E : Z.gcd k m = k) by nia. rewrite <- E. apply Z.gcd_divide_r. }
    destruct D as [v Hv]. assert (V : r = v * v) by nia. rewrite V. assert (0 <= v) by nia. rewrite Z.sqrt_square by lia. reflexivity.
Qed.

Lemma L_C02_cancel : forall g a b c r k, 0 < k -> Z.gcd a c = 1 -> surd_new g BigI (k * a) b (k * c) (k * k * r) = surd_new g BigI a b c r.
Proof.
  intros g a b c r k Hk G. unfold surd_new. replace (k * k * r <? 0) with (r <? 0) by (destruct (Z.ltb_spec r 0), (Z.ltb_spec (k * k * r) 0); auto; nia).
  destruct (negb (cplx g) && (r <? 0)); [reflexivity|]. unfold surd_reduce, new_raw. destruct (Z.eqb_spec c 0) as [->|Nc]; [rewrite Z.mul_0_r; reflexivity|].
  destruct (Z.eqb_spec (k * c) 0) as [Z0|_]; [nia|].
  unfold reduce_square, absT, chk, lift2, negT, mulT, addT, sqrtT. cbn [bind fits]. unfold chk. cbn [bind fits].
  destruct (Z.ltb_spec (Z.abs (k * k * r)) 0); [lia|]. destruct (Z.ltb_spec (Z.abs r) 0); [lia|]. cbn [bind fits].
  replace (Z.abs (k * k * r)) with (k * k * Z.abs r) by (rewrite Z.abs_mul; rewrite (Z.abs_eq (k * k)) by nia; reflexivity).
  pose proof (Z.sqrt_nonneg (k * k * Z.abs r)) as S1. pose proof (Z.sqrt_nonneg (Z.abs r)) as S2.
  assert (SE : (Z.sqrt (k * k * Z.abs r) * Z.sqrt (k * k * Z.abs r) =? k * k * r) = (Z.sqrt (Z.abs r) * Z.sqrt (Z.abs r) =? r)).
  { destruct (Z.le_gt_cases 0 r) as [P|N].
    - rewrite (Z.abs_eq r) by lia. apply sqrt_scale; auto.
    - transitivity false; [|symmetry]; apply Z.eqb_neq; nia. }
  rewrite SE. replace (k * k * r <? 0) with (r <? 0) by (destruct (Z.ltb_spec r 0), (Z.ltb_spec (k * k * r) 0); auto; nia).
  destruct (Z.eqb_spec (Z.sqrt (Z.abs r) * Z.sqrt (Z.abs r)) r) as [E|NE]; cbn [bind].
  - destruct (Z.ltb_spec r 0); [nia|]. cbn [bind]. rewrite (Z.abs_eq r) in * by lia.
    assert (SK : Z.sqrt (k * k * r) = k * Z.sqrt r).
    { rewrite <- E at 1. replace (k * k * (Z.sqrt r * Z.sqrt r)) with ((k * Z.sqrt r) * (k * Z.sqrt r)) by ring. apply Z.sqrt_square. nia. }
    rewrite SK. unfold reduce_common, gcdT, quotT, lift2, chk. cbn [bind fits]. rewrite !Z.eqb_refl. cbn [orb bind fits].
    set (m := a + b * Z.sqrt r). replace (k * a + b * (k * Z.sqrt r)) with (k * m) by (unfold m; ring).
    assert (GP : 0 < Z.gcd m c). { pose proof (Z.gcd_nonneg m c). destruct (Z.eq_dec (Z.gcd m c) 0) as [Z0|]; [apply Z.gcd_eq_0_r in Z0; lia|lia]. }
    rewrite Z.gcd_mul_mono_l_nonneg by lia.
    destruct (Z.eqb_spec (k * Z.gcd m c) 0) as [|_]; [nia|]. destruct (Z.eqb_spec (Z.gcd m c) 0) as [|_]; [lia|]. cbn [bind fits].
    rewrite !Z.quot_mul_cancel_l by lia. cbn [bind fits]. reflexivity.
  - assert (R0 : r <> 0) by (intros ->; apply NE; reflexivity).
    unfold reduce_common. destruct (Z.eqb_spec b 0) as [->|Nb]; cbn [orb].
    + unfold gcdT, quotT, lift2, chk. cbn [bind fits]. rewrite gcd_quot by auto. rewrite G. destruct (Z.eqb_spec k 0); [lia|]. cbn [bind fits Z.eqb]. rewrite !quot_cancel by lia.
      rewrite !Z.quot_1_r. reflexivity.
    + destruct (Z.eqb_spec (k * k * r) 0) as [|_]; [nia|]. destruct (Z.eqb_spec r 0) as [|_]; [lia|].
      unfold gcdT, quotT, mulT, sqrtT, lift2, chk. cbn [bind fits]. rewrite gcd_quot by auto. rewrite G.
      assert (E1 : Z.gcd (k * k) (k * k * r) = k * k). { rewrite <- (Z.mul_1_r (k * k)) at 1. apply gcd_quot; [nia|]. apply Z.gcd_1_l. }
      rewrite E1. change (1 * 1) with 1. rewrite Z.gcd_1_l. destruct (Z.ltb_spec (k * k) 0); [nia|]. cbn [bind fits Z.ltb Z.compare].
      rewrite Z.sqrt_square by lia. change (Z.sqrt 1) with 1. change (1 * 1) with 1. rewrite !Z.eqb_refl. cbn [bind fits].
      destruct (Z.eqb_spec (k * k) 0); [nia|]. destruct (Z.eqb_spec k 0); [lia|]. cbn [bind fits Z.eqb].
      rewrite !quot_cancel by nia. rewrite !Z.quot_1_r. cbn [bind fits]. rewrite Z.quot_same by lia. rewrite Z.gcd_1_l. cbn [bind fits Z.eqb]. rewrite !Z.quot_1_r. reflexivity.
Qed.

Lemma L_C02_cancel_sharp : surd_new (Cfg false true) BigI (2 * 3) 1 (2 * 3) (2 * 2 * 3) = Ok (Surd (SCo 6 1 6) 12) /\
  surd_new (Cfg false true) BigI 3 1 3 3 = Ok (Surd (SCo 3 1 3) 3).
Proof.
  split; reflexivity.
Qed.

Lemma L_C31_malformed_refuted : exists y, cf_new (Cfg false true) BigI [1; 0] nil false = Ok y /\ a_coeffs y = nil /\ p_coeffs y = nil /\ ~ wfcf y.
Proof.
  exists (CF nil nil false). split; [reflexivity|]. split; [reflexivity|]. split; [reflexivity|]. intros W. exact W.
Qed.

Lemma L_C37_below : forall x limit fuel, wfcf x -> limit < 1 ->
  exists i rest, a_coeffs x = i :: rest /\ cf_approximated BigU fuel x limit = Ok (Approximated (Ratio i 1)).
Proof.
  intros [a p ng] limit fuel W L. destruct a as [|i rest]; [destruct W|]. exists i, rest. split; [reflexivity|]. cbn [a_coeffs] in W.
  unfold wfcf in W. cbn [a_coeffs p_coeffs] in W. destruct W as (Hi & _ & _).
  unfold cf_approximated, cf_convergents, conv_next. cbn [negative cv_coeffs cv_block cv_neg].
  assert (E : exists c, coeffs_next (cf_coeffs_unsigned (CF (i :: rest) p ng)) = (Some i, c)) by (eexists; reflexivity). destruct E as [c E]. rewrite E.
  unfold block_checked_rmove, checked_mul, checked_add, checked, block_identity. cbn [pm1 pm2 qm1 qm2 obind].
  replace (fits BigU (i * 1)) with true by (symmetry; apply Z.leb_le; lia). cbn [obind].
  replace (fits BigU (i * 1 + 0)) with true by (symmetry; apply Z.leb_le; lia). cbn [obind].
  replace (i * 0) with 0 by ring. change (fits BigU 0) with true. cbn [obind]. change (fits BigU (0 + 1)) with true. cbn [obind].
  unfold to_signed, sty. replace (i * 1 + 0) with i by ring. change (0 + 1) with 1.
  assert (R : ratio_new BigI i 1 = Ok (Ratio i 1)).
  { unfold ratio_new. change (1 =? 0) with false. destruct (Z.eqb_spec i 0) as [->|_]; [reflexivity|]. destruct (Z.eqb_spec i 1) as [->|_]; [reflexivity|].
    unfold gcdT, lift2, quotT, chk. rewrite Z.gcd_1_r. cbn [bind fits Z.eqb Z.ltb Z.compare]. rewrite !Z.quot_1_r. reflexivity. }
  rewrite R. cbn [bind]. destruct ng; cbn [bind ratio_neg unwrap numer denom negT chk fits a_coeffs]; (destruct (Z.ltb_spec limit 1); [|lia]); reflexivity.
Qed.

Lemma L_C37_below_refuted : cf_approximated BigU 20 (CF [3; 2] nil true) 0 = Ok (Approximated (Ratio 3 1)) /\ cf_val (CF [3; 2] nil true) = (- (7 / 2))%R.
Proof.
  split; [reflexivity|]. unfold cf_val. cbn [a_coeffs p_coeffs negative sgnb cfl]. field.
Qed.

Lemma L_C63_gmove_primitive : forall t k a b k', block_gmove t k a b = Ok k' ->
  Z.gcd (Z.gcd (pm1 k') (qm1 k')) (Z.gcd (pm2 k') (qm2 k')) <= 1.
Proof.
  intros t k a b k' H. unfold block_gmove in H. peel H.
  destruct (gcdT t _ _) as [g1| |] eqn:G1; cbn [bind] in H; try discriminate. apply gcdT_inv in G1. subst g1.
  destruct (gcdT t _ (pm1 k)) as [g1| |] eqn:G1; cbn [bind] in H; try discriminate. apply gcdT_inv in G1. subst g1.
  destruct (gcdT t _ (qm1 k)) as [g1| |] eqn:G1; cbn [bind] in H; try discriminate. apply gcdT_inv in G1.
  set (p := pm1 k * b + pm2 k * a) in *. set (q := qm1 k * b + qm2 k * a) in *.
  assert (G : g1 = Z.gcd (Z.gcd p q) (Z.gcd (pm1 k) (qm1 k))) by (rewrite G1, Z.gcd_assoc; reflexivity). clear G1.
  destruct (1 <? g1) eqn:L.
  - apply Z.ltb_lt in L.
    pose proof (gcd4_div p q (pm1 k) (qm1 k)) as D. cbv zeta in D. rewrite <- Z.gcd_assoc, <- G in D. destruct D as (D1 & D2 & D3 & D4).
    destruct (quotT t (pm1 k) g1) as [x| |] eqn:X; cbn [bind] in H; try discriminate. apply quotT_inv in X. destruct X as [_ ->].
    destruct (quotT t (qm1 k) g1) as [x| |] eqn:X; cbn [bind] in H; try discriminate. apply quotT_inv in X. destruct X as [_ ->].
    destruct (quotT t p g1) as [x| |] eqn:X; cbn [bind] in H; try discriminate. apply quotT_inv in X. destruct X as [_ ->].
    destruct (quotT t q g1) as [x| |] eqn:X; cbn [bind] in H; try discriminate. apply quotT_inv in X. destruct X as [_ ->].
    inversion H; subst k'. cbn [block_update pm1 pm2 qm1 qm2].
    assert (E : g1 * Z.gcd (Z.gcd (Z.quot p g1) (Z.quot q g1)) (Z.gcd (Z.quot (pm1 k) g1) (Z.quot (qm1 k) g1)) = g1).
    { rewrite <- !Z.gcd_mul_mono_l_nonneg by lia. rewrite !quot_div by (assumption || lia). symmetry. exact G. }
    nia.
  - apply Z.ltb_ge in L. inversion H; subst k'. cbn [block_update pm1 pm2 qm1 qm2]. lia.
Qed.
