(** * ClaimsCF: proofs of the property theorems about simple continued fractions (PropsCF.v). *)

From Coq Require Import ZArith Znumtheory Reals Lia Lra Bool List Arith.
From Coquelicot Require Import Coquelicot.
From Verif Require Import Base Ext ModelSurd ModelBlock ModelCF ModelConv Spec SpecCF NumFacts Transfer SurdCore RatioFacts SurdArith
  SurdTotal SurdOrd SurdRound SurdMisc SurdSqrt CFCore CFSeq CFIter CFBasic CFSurd CFNew CFSigned CFSignedP CFAny CFOfSurd CFWide CFRound CFAdd CFArith.
Import ListNotations.
Open Scope Z_scope.

(** ** Concrete values for examples and counterexamples *)
Lemma val_r2 : cf_val (CF [1] [2] false) = sqrt 2.
Proof.
  assert (W : wfcf (CF [1] [2] false)) by (cbn; repeat split; [lia|constructor|repeat constructor; lia]).
  rewrite (inf_value (CF [1] [2] false) 1 nil W ltac:(discriminate) eq_refl). cbn [tailv negative sgnb p_coeffs].
  destruct (pseq_root [2] ltac:(discriminate) ltac:(repeat constructor; lia)) as [L R].
  assert (Y : (0 < / lim (pseq [2%Z]))%R) by (apply Rinv_0_lt_compat; lra). cbn [tailv] in R.
  set (y := (/ lim (pseq [2%Z]))%R) in *. clearbody y.
  assert (K : (y * (2 + y) = 1)%R) by (rewrite R at 1; field; lra).
  symmetry. apply sqrt_lem_1; lra.
Qed.

Lemma irr_sqrt2 (a b c : Z) : b <> 0 -> c <> 0 -> ~ rational_real ((IZR a + IZR b * sqrt 2) / IZR c).
Proof.
  intros Hb Hc (n & d & Hd & E). assert (Nd : IZR d <> 0%R) by (apply not_0_IZR; auto). assert (Nc : IZR c <> 0%R) by (apply not_0_IZR; auto).
  assert (Nb : IZR b <> 0%R) by (apply not_0_IZR; auto).
  assert (K : sqrt 2 = (IZR (n * c - a * d) / IZR (d * b))%R).
  { rewrite minus_IZR, !mult_IZR. assert (IZR a + IZR b * sqrt 2 = IZR n / IZR d * IZR c)%R by (rewrite <- E; field; auto).
    replace (sqrt 2) with ((IZR a + IZR b * sqrt 2 - IZR a) / IZR b)%R by (field; auto). rewrite H. field; auto. }
  rewrite <- val_r2 in K. rewrite (cf_val_inf (CF [1] [2] false)) in K by discriminate. cbn [negative sgnb] in K. rewrite Rmult_1_l in K.
  revert K. apply lim_irrational; [|nia]. apply wfcf_cpos. cbn; repeat split; [lia|constructor|repeat constructor; lia].
Qed.

Lemma sqrt2_bounds : (1.414 < sqrt 2 < 1.415)%R.
Proof.
  split.
  - rewrite <- (sqrt_square 1.414) by lra. apply sqrt_lt_1; lra.
  - rewrite <- (sqrt_square 1.415) by lra. apply sqrt_lt_1; lra.
Qed.

Lemma conj_sqrt2 (a b c : Z) : b <> 0 -> c <> 0 -> conjugate ((IZR a + IZR b * sqrt 2) / IZR c) ((IZR a - IZR b * sqrt 2) / IZR c).
Proof.
  intros Hb Hc. assert (Nc : IZR c <> 0%R) by (apply not_0_IZR; auto). split; [apply irr_sqrt2; auto|]. split.
  - exists (2 * a), c. split; [auto|]. rewrite mult_IZR. field. auto.
  - exists (a * a - 2 * (b * b)), (c * c). split; [nia|]. rewrite minus_IZR, !mult_IZR.
    assert (Q : (sqrt 2 * sqrt 2 = 2)%R) by (apply sqrt_sqrt; lra). set (q := sqrt 2) in *. clearbody q.
    replace ((IZR a + IZR b * q) / IZR c * ((IZR a - IZR b * q) / IZR c))%R with ((IZR a * IZR a - IZR b * IZR b * (q * q)) / (IZR c * IZR c))%R by (field; auto).
    rewrite Q. f_equal. ring.
Qed.

Lemma dom_sqrt2 x (a b c n : Z) : 0 < b -> 0 < c -> x = ((IZR a + IZR b * sqrt 2) / IZR c)%R -> 0 <= n ->
  (IZR (n * c) <= IZR a + IZR b * sqrt 2 < IZR (n * c + c))%R -> (IZR a - IZR b * sqrt 2 < IZR (n * c))%R -> cf_domain x.
Proof.
  intros Hb Hc -> Hn B Cj. exists ((IZR a - IZR b * sqrt 2) / IZR c)%R. split; [apply conj_sqrt2; lia|].
  assert (Pc : (0 < IZR c)%R) by (apply IZR_lt; auto). assert (Ic : (0 < / IZR c)%R) by (apply Rinv_0_lt_compat; auto).
  rewrite plus_IZR, mult_IZR in *. apply IZR_le in Hn.
  assert (N0 : ((IZR a + IZR b * sqrt 2) / IZR c <> 0)%R).
  { intros K. apply (irr_sqrt2 a b c); [lia|lia|]. rewrite K. exists 0, 1. split; [lia|]. unfold Rdiv. ring. }
  set (X := (IZR a + IZR b * sqrt 2)%R) in *. set (Y := (IZR a - IZR b * sqrt 2)%R) in *. clearbody X Y.
  assert (D : forall z w, (z < w * IZR c)%R -> (z / IZR c < w)%R).
  { intros z w Hz. apply (Rmult_lt_reg_r (IZR c)); [auto|]. unfold Rdiv. rewrite Rmult_assoc, Rinv_l, Rmult_1_r by lra. auto. }
  assert (D' : forall z w, (w * IZR c <= z)%R -> (w <= z / IZR c)%R).
  { intros z w Hz. apply (Rmult_le_reg_r (IZR c)); [auto|]. unfold Rdiv. rewrite Rmult_assoc, Rinv_l, Rmult_1_r by lra. auto. }
  assert (L : (IZR n <= X / IZR c)%R) by (apply D'; lra). exists n. split; [|split].
  - rewrite Rabs_pos_eq by lra. split; [auto|]. apply D. lra.
  - intros _. apply D. lra.
  - intros Hx. exfalso. lra.
Qed.

Lemma L_C28_coeffs_unsigned : forall x n, nth_item coeffs_nextM n (cf_coeffs_unsigned x) = Ok (coeff_at x n).
Proof. exact unsigned_nth. Qed.

Lemma L_C28_coeffs : forall u x n, (forall j v, (j <= n)%nat -> coeff_at x j = Some v -> sfit u v) ->
  nth_item (signed_next u) n (cf_coeffs x) = Ok (option_map (Z.mul (sgnb (negative x))) (coeff_at x n)).
Proof. intros u x n H. rewrite signed_nth by auto. unfold signed_items, option_map. destruct (coeff_at x n); reflexivity. Qed.

Lemma L_C28_generalized : forall u x n, (forall j v, (j <= n)%nat -> coeff_at x j = Some v -> sfit u v) ->
  nth_item (general_next u) n (cf_generalized x) = Ok (option_map (fun v => (1, sgnb (negative x) * v)) (coeff_at x n)).
Proof. intros u x n H. rewrite general_nth by auto. unfold pair_items, option_map. destruct (coeff_at x n); reflexivity. Qed.

Lemma L_C28_into_coeffs_partial : forall u x n, (length (p_coeffs x) <= 1)%nat ->
  (forall j v, (j <= n)%nat -> coeff_at x j = Some v -> sfit u v) ->
  nth_item (owned_next u) n (cf_into_coeffs x) = Ok (option_map (Z.mul (sgnb (negative x))) (coeff_at x n)).
Proof. intros u x n L H. rewrite owned_nth by auto. unfold signed_items, option_map. destruct (coeff_at x n); reflexivity. Qed.

Lemma L_C28_big_coeffs : forall x n, wfcf x ->
  nth_item (signed_next BigU) n (cf_coeffs x) = Ok (option_map (Z.mul (sgnb (negative x))) (coeff_at x n)) /\
  nth_item (general_next BigU) n (cf_generalized x) = Ok (option_map (fun v => (1, sgnb (negative x) * v)) (coeff_at x n)).
Proof.
  intros x n W. assert (K : forall j v, (j <= n)%nat -> coeff_at x j = Some v -> sfit BigU v) by (intros j v _ E; apply (wfcf_in x j v W E)).
  split; [apply L_C28_coeffs; auto|apply L_C28_generalized; auto].
Qed.

Lemma L_C28_into_coeffs_refuted : exists x, canonical x /\ coeff_at x 2 = Some 3 /\
  nth_item (owned_next BigU) 2 (cf_into_coeffs x) = Ok (Some 2).
Proof.
  exists (CF [1] [2; 3] false). split; [|split; reflexivity]. split; [|split; cbn; congruence].
  cbn; repeat split; [lia|constructor|repeat constructor; lia].
Qed.

Lemma L_C28_fixed_width_refuted : exists x, canonical x /\ coeff_at x 0 = Some 200 /\
  nth_item (signed_next (UInt 8)) 0 (cf_coeffs x) = Ok (Some (-56)).
Proof.
  exists (CF [200] nil false). split; [|split; reflexivity]. split; [|split; cbn; [lia|congruence]].
  cbn; repeat split; [lia|constructor|constructor].
Qed.

Lemma L_C29_convergents : forall x n, wfcf x ->
  (coeff_at x n = None -> nth_item (conv_next BigU) n (cf_convergents x) = Ok None) /\
  (coeff_at x n <> None -> exists r, nth_item (conv_next BigU) n (cf_convergents x) = Ok (Some r) /\ convergent x n r).
Proof.
  intros x n W. rewrite conv_nth by (auto using big_fit). split; intros H.
  - unfold conv_item. rewrite H. reflexivity.
  - destruct (has_dec x n) as [K|K]; [|congruence]. destruct (conv_item_convergent x n W K) as (r & -> & C). eauto.
Qed.

Lemma L_C29_fixed_width : forall u x n, wfcf x -> (forall j r, (j <= n)%nat -> convergent x j r -> ratio_sfit u r) ->
  coeff_at x n <> None -> exists r, nth_item (conv_next u) n (cf_convergents x) = Ok (Some r) /\ convergent x n r.
Proof.
  intros u x n W F H. rewrite conv_nth; [|auto|].
  - destruct (has_dec x n) as [K|K]; [|congruence]. destruct (conv_item_convergent x n W K) as (r & -> & C). eauto.
  - intros j Hj. apply conv_sized; [auto|]. intros r. apply F. auto.
Qed.

Lemma L_C29_neighbours : forall x n r s, wfcf x -> nth_item (conv_next BigU) n (cf_convergents x) = Ok (Some r) ->
  nth_item (conv_next BigU) (S n) (cf_convergents x) = Ok (Some s) -> Z.abs (numer s * denom r - numer r * denom s) = 1.
Proof.
  intros x n r s W. rewrite !conv_nth by (auto using big_fit). intros E F. inversion E as [E']. inversion F as [F']. clear E F.
  unfold conv_item in E', F'. destruct (coeff_at x n); [|discriminate]. destruct (coeff_at x (S n)); [|discriminate]. inversion E'. inversion F'. cbn [numer denom].
  pose proof (PQ_det (cseq x) (S n)) as D. replace (_ - _) with (sgnb (negative x) * alt (S (S n))) by (rewrite <- D; ring).
  destruct (alt_cases (S (S n))) as [-> | ->]; unfold sgnb; destruct (negative x); reflexivity.
Qed.

Lemma L_C29_limit : forall x, wfcf x -> ~ finite x -> exists f : nat -> ratio,
  (forall n, nth_item (conv_next BigU) n (cf_convergents x) = Ok (Some (f n))) /\ is_lim_seq (fun n => rval (f n)) (cf_val x).
Proof.
  intros x W F. exists (fun n => Ratio (sgnb (negative x) * PP (cseq x) (S n)) (QQ (cseq x) (S n))).
  assert (Cv : forall n, convergent x n (Ratio (sgnb (negative x) * PP (cseq x) (S n)) (QQ (cseq x) (S n)))).
  { intros n. destruct (conv_item_convergent x n W (inf_has x n F)) as (r & E & C). rewrite conv_item_eq in E by (apply inf_has; auto). inversion E; subst; auto. }
  split.
  - intros n. rewrite conv_nth by (auto using big_fit). rewrite conv_item_eq; [reflexivity|apply inf_has; auto].
  - eapply is_lim_seq_ext.
    + intros n. symmetry. rewrite (proj2 (Cv n)), first_coeffs_cut by (apply inf_has; auto). reflexivity.
    + rewrite cf_val_inf by auto. apply (is_lim_seq_scal_l (cut (cseq x)) (IZR (sgnb (negative x))) (lim (cseq x))). apply cut_lim. apply wfcf_cpos. auto.
Qed.

Lemma L_C29_alternating : forall x n r, wfcf x -> ~ finite x -> nth_item (conv_next BigU) n (cf_convergents x) = Ok (Some r) ->
  if Nat.even n then (Rabs (rval r) < Rabs (cf_val x))%R else (Rabs (cf_val x) < Rabs (rval r))%R.
Proof.
  intros x n r W F. rewrite conv_nth by (auto using big_fit). intros E. inversion E as [E']. clear E.
  destruct (conv_item_convergent x n W (inf_has x n F)) as (r' & E & C). assert (r' = r) by congruence. subst r'.
  pose proof (wfcf_cpos x W) as HC. rewrite (proj2 C), first_coeffs_cut by (apply inf_has; auto). rewrite cf_val_inf by auto.
  pose proof (lim_error n (cseq x) HC) as Er. pose proof (lim_tail_gt1 n (cseq x) HC) as Wt. pose proof (QQ_mono _ HC n) as (Q1 & _ & Q0).
  apply IZR_le in Q1, Q0. set (w := lim (shiftn (S n) (cseq x))) in *. clearbody w.
  assert (D : (0 < / (IZR (QQ (cseq x) (S n)) * (IZR (QQ (cseq x) (S n)) * w + IZR (QQ (cseq x) n))))%R).
  { apply Rinv_0_lt_compat. apply Rmult_lt_0_compat; [lra|]. assert (0 < IZR (QQ (cseq x) (S n)) * w)%R by (apply Rmult_lt_0_compat; lra). lra. }
  assert (Cn : (0 <= cut (cseq x) n)%R).
  { rewrite cut_PQ by auto. pose proof (PP_mono _ HC (S n)) as P. apply IZR_le in P. apply Rmult_le_pos; [auto|]. apply Rlt_le, Rinv_0_lt_compat. lra. }
  assert (Ln : (0 <= lim (cseq x))%R).
  { rewrite lim_step by auto. pose proof (lim_gt1_shift _ HC). assert (0 < / lim (shift (cseq x)))%R by (apply Rinv_0_lt_compat; lra).
    pose proof (proj1 HC) as C0. apply IZR_le in C0. lra. }
  rewrite !Rabs_mult. assert (S1 : Rabs (IZR (sgnb (negative x))) = 1%R).
  { unfold sgnb. destruct (negative x); [rewrite Rabs_left; lra|apply Rabs_R1]. }
  rewrite S1, !Rmult_1_l, !Rabs_pos_eq by auto. unfold Rdiv in Er. unfold alt in Er. destruct (Nat.even n).
  - rewrite Rmult_1_l in Er. lra.
  - replace (-1 * / (IZR (QQ (cseq x) (S n)) * (IZR (QQ (cseq x) (S n)) * w + IZR (QQ (cseq x) n))))%R with
      (- / (IZR (QQ (cseq x) (S n)) * (IZR (QQ (cseq x) (S n)) * w + IZR (QQ (cseq x) n))))%R in Er by ring. lra.
Qed.

Lemma L_C29_fixed_width_refuted : exists x r, canonical x /\ coeff_at x 6 <> None /\
  nth_item (conv_next (UInt 8)) 6 (cf_convergents x) = Ok (Some r) /\ ~ convergent x 6 r.
Proof.
  exists (CF [1] [2] false), (Ratio 17 87). split; [|split; [discriminate|split; [reflexivity|]]].
  - split; [|split; cbn; congruence]. cbn; repeat split; [lia|constructor|repeat constructor; lia].
  - intros [_ V]. unfold rval in V. cbn [first_coeffs a_coeffs p_coeffs negative sgnb repeat concat app firstn cfl numer denom] in V. lra.
Qed.

Lemma L_C30_of_ratio : forall t r x, lowest r -> cf_of_ratio t r = Ok x -> canonical x /\ finite x /\ cf_val x = rval r.
Proof. exact cf_of_ratio_ok. Qed.

Lemma L_C30_returns : forall r, lowest r -> returns (cf_of_ratio BigI r).
Proof. exact cf_of_ratio_total. Qed.

Lemma L_C30_of_int : forall t n x, fits t n = true -> cf_of_int t n = Ok x -> canonical x /\ finite x /\ cf_val x = IZR n.
Proof. intros t n x F H. apply (cf_of_int_ok t n x H F). Qed.

Lemma L_C30_round_trip : forall t u r x, lowest r -> ratio_sfit u r -> cf_of_ratio t r = Ok x -> cf_to_rational u x = Ok (Exact r).
Proof.
  intros t u r x L F H. apply cf_of_ratio_ok in H; [|auto]. destruct H as ((W & _) & Fx & V).
  destruct (cf_to_rational_fin u x W Fx (fin_conv_fit u x r W Fx L V F)) as (r' & E & L' & V'). rewrite E. do 2 f_equal. apply lowest_unique; auto. congruence.
Qed.

Lemma cfl_floor l : List.Forall (fun v => 1 <= v) l -> forall a, (l <> nil -> last l 0 <> 1) -> isfloor (cfl (a :: l)) a /\ (cfl (a :: l) = IZR a -> l = nil).
Proof.
  intros F a Hl. destruct l as [|v l]; [cbn [cfl]; split; [split; lra|auto]|]. specialize (Hl ltac:(discriminate)).
  rewrite cfl_cons by discriminate. pose proof (cfl_gt1 (v :: l) ltac:(discriminate) F Hl) as G.
  assert (0 < / cfl (v :: l) < 1)%R.
  { split; [apply Rinv_0_lt_compat; lra|]. rewrite <- Rinv_1. apply Rinv_lt_contravar; lra. }
  split; [split; lra|]. intros. lra.
Qed.

Lemma isfloor_unique x n m : isfloor x n -> isfloor x m -> n = m.
Proof.
  unfold isfloor. intros [A B] [C D]. assert (n < m + 1) by (apply lt_IZR; rewrite plus_IZR; lra). assert (m < n + 1) by (apply lt_IZR; rewrite plus_IZR; lra). lia.
Qed.

Lemma cfl_inj l1 : forall l2, List.Forall (fun v => 1 <= v) (tl l1) -> List.Forall (fun v => 1 <= v) (tl l2) -> l1 <> nil -> l2 <> nil ->
  ((length l1 > 1)%nat -> last l1 0 <> 1) -> ((length l2 > 1)%nat -> last l2 0 <> 1) -> cfl l1 = cfl l2 -> l1 = l2.
Proof.
  induction l1 as [|a l1 IH]; intros l2 F1 F2 N1 N2 L1 L2 E; [congruence|]. destruct l2 as [|b l2]; [congruence|]. cbn [tl] in *.
  assert (La : forall (c : Z) l, ((length (c :: l) > 1)%nat -> last (c :: l) 0 <> 1) -> l <> nil -> last l 0 <> 1).
  { intros c l H Hn. destruct l as [|x l]; [congruence|]. apply (H ltac:(cbn; lia)). }
  destruct (cfl_floor l1 F1 a (La _ _ L1)) as [Fa Ea]. destruct (cfl_floor l2 F2 b (La _ _ L2)) as [Fb Eb].
  assert (a = b) by (rewrite E in Fa; apply (isfloor_unique _ _ _ Fa Fb)). subst b. f_equal.
  destruct l1 as [|x l1].
  - symmetry. apply Eb. rewrite <- E. reflexivity.
  - destruct l2 as [|y l2]; [exfalso; discriminate (Ea E)|].
    rewrite !(cfl_cons a) in E by discriminate. assert (E' : cfl (x :: l1) = cfl (y :: l2)).
    { rewrite <- (Rinv_inv (cfl (x :: l1))), <- (Rinv_inv (cfl (y :: l2))). f_equal. lra. }
    apply IH; auto; try discriminate; cbn [tl].
    + inversion F1; auto.
    + inversion F2; auto.
    + intros _. apply (La a); [auto|discriminate].
    + intros _. apply (La a); [auto|discriminate].
Qed.

Lemma L_C30_unique : forall x y, canonical x -> canonical y -> finite x -> finite y -> cf_val x = cf_val y -> x = y.
Proof.
  intros [a p s] [a' p' s'] Cx Cy Fx Fy E. unfold finite in *. cbn [p_coeffs] in *. subst p p'.
  destruct Cx as (Wx & Lx & Zx). destruct Cy as (Wy & Ly & Zy). unfold wfcf, cf_val in *. cbn [a_coeffs p_coeffs negative] in *.
  destruct a as [|a0 a]; [contradiction|]. destruct a' as [|b0 b]; [contradiction|]. destruct Wx as (A0 & Fa & _). destruct Wy as (B0 & Fb & _).
  assert (Pos : forall c l, 0 <= c -> List.Forall (fun v => 1 <= v) l -> (0 <= cfl (c :: l))%R /\ (cfl (c :: l) = 0%R -> c :: l = [0])).
  { intros c l Hc Fl. destruct l as [|v l].
    - cbn [cfl]. split; [apply IZR_le; auto|]. intros Hz. apply eq_IZR in Hz. subst. reflexivity.
    - rewrite cfl_cons by discriminate. pose proof (cfl_ge1 (v :: l) ltac:(discriminate) Fl). apply IZR_le in Hc.
      assert (0 < / cfl (v :: l))%R by (apply Rinv_0_lt_compat; lra). split; [lra|]. intros. lra. }
  destruct (Pos a0 a A0 Fa) as [P1 Z1]. destruct (Pos b0 b B0 Fb) as [P2 Z2].
  assert (Ec : cfl (a0 :: a) = cfl (b0 :: b) /\ s = s').
  { destruct (Req_dec (cfl (a0 :: a)) 0) as [Ez|Nz].
    - rewrite Ez, Rmult_0_r in E. assert (Ez2 : cfl (b0 :: b) = 0%R).
      { destruct s'; cbn [sgnb] in E; lra. }
      rewrite Ez, Ez2. split; [auto|]. rewrite (Zx (Z1 Ez) eq_refl), (Zy (Z2 Ez2) eq_refl). reflexivity.
    - destruct s, s'; cbn [sgnb] in E; split; auto; lra. }
  destruct Ec as [Ec ->]. f_equal. apply cfl_inj; auto; discriminate.
Qed.

Lemma L_C31_new_partial : forall g t a p b y, fits t 1 = true -> List.Forall (fun v => fits t v = true) (a ++ p) -> plain_coeffs a p ->
  cf_new g t a p b = Ok y -> canonical y /\ p_coeffs y = p /\ cf_val y = cf_val (CF a p b).
Proof. intros g t a p b y F1 F. apply Forall_app in F. destruct F as [Fa Fp]. apply cf_new_ok; auto. Qed.

Lemma L_C31_returns_partial : forall g a p b, plain_coeffs a p -> returns (cf_new g BigI a p b).
Proof. exact cf_new_total. Qed.

Lemma L_C31_signed_partial : forall g t a b y, fits t 1 = true -> List.Forall (fun v => fits t v = true) a -> steep_coeffs a b ->
  cf_new g t a nil b = Ok y -> canonical y /\ finite y /\ cf_val y = cf_val (CF a nil b).
Proof. intros g t a b y F1 Fa. apply cf_new_signed; auto. Qed.

Lemma L_C31_signed_returns_partial : forall g a b, steep_coeffs a b -> returns (cf_new g BigI a nil b).
Proof. exact cf_new_signed_total. Qed.

Lemma L_C31_signed_period_partial : forall g t a p b y, fits t 1 = true -> List.Forall (fun v => fits t v = true) (a ++ p) ->
  steep_coeffs a b -> a <> [0] -> p <> nil -> List.Forall (fun v => 1 <= v) p ->
  cf_new g t a p b = Ok y -> canonical y /\ p_coeffs y = p /\ (cf_val y = cf_val (CF a p b) <-> 0 < last a 0).
Proof. intros g t a p b y F1 F. apply Forall_app in F. destruct F as [Fa Fp]. apply cf_new_signed_periodic; auto. Qed.

Lemma L_C31_signed_period_returns_partial : forall g a p b, steep_coeffs a b -> p <> nil -> List.Forall (fun v => 1 <= v) p -> returns (cf_new g BigI a p b).
Proof. exact cf_new_signed_periodic_total. Qed.

Lemma L_C31_magnitude : forall g t a b y, fits t 1 = true -> List.Forall (fun v => fits t v = true) a -> snd (quotient a) <> 0 ->
  cf_new g t a nil b = Ok y -> canonical y /\ finite y /\ Rabs (cf_val y) = Rabs (IZR (fst (quotient a)) / IZR (snd (quotient a))).
Proof. intros g t a b y F1 Fa Hq H. apply (cf_new_magnitude g t a b y F1 Fa H Hq). Qed.

Lemma L_C31_refuted : exists y, cf_new (Cfg false true) BigI [-1; 3] nil false = Ok y /\ cf_val y <> cf_val (CF [-1; 3] nil false).
Proof. exists (CF [0; 1; 2] nil false). split; [reflexivity|]. unfold cf_val. cbn [a_coeffs p_coeffs negative sgnb cfl]. lra. Qed.

Lemma L_C31_periodic_refuted : exists y, cf_new (Cfg false true) BigI [-3] [2] false = Ok y /\ cf_val y <> cf_val (CF [-3] [2] false).
Proof.
  exists (CF [3] [2] true). split; [reflexivity|].
  destruct (inf_val_evr [3] [2] true ltac:(discriminate) ltac:(constructor) ltac:(repeat constructor; lia)) as [E1 L].
  destruct (inf_val_evr [-3] [2] false ltac:(discriminate) ltac:(constructor) ltac:(repeat constructor; lia)) as [E2 _].
  rewrite E1, E2. cbn [List.rev app evr sgnb]. assert (0 < / lim (pseq [2%Z]))%R by (apply Rinv_0_lt_compat; lra). lra.
Qed.

Lemma L_C31_panic_refuted : cf_new (Cfg false true) BigI [1; 0; -3] nil false = Panic PUnwrap /\ cf_val (CF [1; 0; -3] nil false) = (-2)%R.
Proof. split; [reflexivity|]. unfold cf_val. cbn [a_coeffs p_coeffs negative sgnb cfl]. field. Qed.

Lemma L_C32_add_partial : forall g u x n y, fits (sty u) 1 = true -> fits (sty u) n = true -> canonical x -> coeffs_fit u x ->
  add_int_domain x n -> cf_add_int g u x n = Ok y -> canonical y /\ p_coeffs y = p_coeffs x /\ cf_val y = (cf_val x + IZR n)%R.
Proof. intros g u x n y F1 Fn C Fc D. apply cf_add_int_ok; auto. Qed.

Lemma L_C32_sub_partial : forall g u x n y, fits (sty u) 1 = true -> canonical x -> coeffs_fit u x ->
  add_int_domain x (- n) -> cf_sub_int g u x n = Ok y -> canonical y /\ p_coeffs y = p_coeffs x /\ cf_val y = (cf_val x - IZR n)%R.
Proof. exact cf_sub_int_ok. Qed.

Lemma L_C32_returns_partial : forall g x n, canonical x -> add_int_domain x n -> returns (cf_add_int g BigU x n).
Proof. exact cf_add_int_total. Qed.

Lemma L_C32_same_sign : forall g x n, canonical x -> (0 <= cf_val x * (cf_val x + IZR n))%R -> cf_val x <> 0%R ->
  exists y, cf_add_int g BigU x n = Ok y /\ canonical y /\ cf_val y = (cf_val x + IZR n)%R.
Proof.
  intros g x n C Sg Nz. assert (D : add_int_domain x n).
  { pose proof (proj1 C) as W. unfold add_int_domain. unfold wfcf in W. destruct (a_coeffs x) as [|a0 rest] eqn:A; [contradiction|]. left.
    destruct (cf_head x a0 rest (proj1 C) A) as (f & V & [F0 F1'] & Fc & _). specialize (Fc C). rewrite V in Sg, Nz.
    destruct W as (Ha & _). apply IZR_le in Ha. set (s := sgnb (negative x)) in *.
    assert (Hs : s = 1 \/ s = -1) by (unfold s, sgnb; destruct (negative x); auto).
    assert (Sq : (IZR s * IZR s = 1)%R) by (destruct Hs as [-> | ->]; ring).
    assert (P : (0 < IZR a0 + f)%R).
    { destruct (Rle_lt_or_eq_dec 0 (IZR a0 + f) ltac:(lra)) as [K|K]; [auto|]. exfalso. apply Nz. rewrite <- K. ring. }
    assert (Q : (0 <= (IZR a0 + f) * (IZR a0 + f + IZR s * IZR n))%R).
    { replace (IZR s * (IZR a0 + f) * (IZR s * (IZR a0 + f) + IZR n))%R with ((IZR s * IZR s) * (IZR a0 + f) * (IZR a0 + f) + (IZR a0 + f) * (IZR s * IZR n))%R in Sg by ring.
      rewrite Sq in Sg. lra. }
    assert (T : (0 <= IZR a0 + f + IZR s * IZR n)%R).
    { apply (Rmult_le_reg_l (IZR a0 + f)); [auto|]. rewrite Rmult_0_r. auto. }
    assert (- 1 < a0 + s * n); [|lia]. apply lt_IZR. rewrite plus_IZR, mult_IZR. lra. }
  destruct (cf_add_int_total g x n C D) as [y E]. exists y. split; [auto|].
  destruct (cf_add_int_ok g BigU x n y eq_refl C (coeffs_fit_big x (proj1 C)) eq_refl D E) as (Cy & _ & V). auto.
Qed.

Lemma L_C32_refuted : exists x y, canonical x /\ finite x /\ cf_add_int (Cfg false true) BigU x (-1) = Ok y /\ cf_val y <> (cf_val x + IZR (-1))%R.
Proof.
  exists (CF [0; 3] nil false), (CF [0; 1; 2] nil false). split; [|split; [reflexivity|split; [reflexivity|]]].
  - split; [|split; cbn; try congruence; lia]. cbn. repeat split; [lia|repeat constructor; lia|constructor].
  - unfold cf_val. cbn [a_coeffs p_coeffs negative sgnb cfl]. lra.
Qed.

Lemma L_C32_periodic_refuted : exists x y, canonical x /\ cf_val x = sqrt 2 /\ cf_add_int (Cfg false true) BigU x (-3) = Ok y /\
  cf_val y = (- (1 + sqrt 2))%R /\ cf_val y <> (cf_val x + IZR (-3))%R.
Proof.
  exists (CF [1] [2] false), (CF [2] [2] true). split; [|split; [apply val_r2|split; [reflexivity|]]].
  - split; [|split; cbn; congruence]. cbn; repeat split; [lia|constructor|repeat constructor; lia].
  - assert (E : cf_val (CF [2] [2] true) = (- (1 + sqrt 2))%R).
    { rewrite <- val_r2.
      destruct (inf_val_evr [2] [2] true ltac:(discriminate) ltac:(constructor) ltac:(repeat constructor; lia)) as [E1 _].
      destruct (inf_val_evr [1] [2] false ltac:(discriminate) ltac:(constructor) ltac:(repeat constructor; lia)) as [E2 _].
      rewrite E1, E2. cbn [List.rev app evr sgnb]. lra. }
    split; [auto|]. rewrite E, val_r2. pose proof sqrt2_bounds. lra.
Qed.

Lemma L_C33_mul_int_partial : forall g u fuel x k z, fits (sty u) 1 = true -> wfcf x -> surd_sized u x -> finite x \/ cf_wide (cf_val x * IZR k) ->
  cf_mul_int g u fuel x k = Ok z -> canonical z /\ cf_val z = (cf_val x * IZR k)%R.
Proof. intros g u fuel x k z F W Sz. exact (cf_mul_int_ok g u F x W Sz fuel k z). Qed.

Lemma L_C33_div_int_partial : forall g u fuel x k z, fits (sty u) 1 = true -> wfcf x -> surd_sized u x -> finite x \/ cf_wide (cf_val x / IZR k) ->
  cf_div_int g u fuel x k = Ok z -> k <> 0 /\ canonical z /\ cf_val z = (cf_val x / IZR k)%R.
Proof. intros g u fuel x k z F W Sz. exact (cf_div_int_ok g u F x W Sz fuel k z). Qed.

Lemma L_C33_add_ratio_partial : forall g u fuel x q z, fits (sty u) 1 = true -> wfcf x -> surd_sized u x -> lowest q -> finite x \/ cf_wide (cf_val x + rval q) ->
  cf_add_ratio g u fuel x q = Ok z -> canonical z /\ cf_val z = (cf_val x + rval q)%R.
Proof. intros g u fuel x q z F W Sz L. exact (cf_add_ratio_ok g u F x W Sz q L fuel z). Qed.

Lemma L_C33_sub_ratio_partial : forall g u fuel x q z, fits (sty u) 1 = true -> wfcf x -> surd_sized u x -> lowest q -> finite x \/ cf_wide (cf_val x - rval q) ->
  cf_sub_ratio g u fuel x q = Ok z -> canonical z /\ cf_val z = (cf_val x - rval q)%R.
Proof. intros g u fuel x q z F W Sz L. exact (cf_sub_ratio_ok g u F x W Sz q L fuel z). Qed.

Lemma L_C33_mul_ratio_partial : forall g u fuel x q z, fits (sty u) 1 = true -> wfcf x -> surd_sized u x -> lowest q -> finite x \/ cf_wide (cf_val x * rval q) ->
  cf_mul_ratio g u fuel x q = Ok z -> canonical z /\ cf_val z = (cf_val x * rval q)%R.
Proof. intros g u fuel x q z F W Sz L. exact (cf_mul_ratio_ok g u F x W Sz q L fuel z). Qed.

Lemma L_C33_div_ratio_partial : forall g u fuel x q z, fits (sty u) 1 = true -> wfcf x -> surd_sized u x -> lowest q -> finite x \/ cf_wide (cf_val x / rval q) ->
  cf_div_ratio g u fuel x q = Ok z -> rval q <> 0%R /\ canonical z /\ cf_val z = (cf_val x / rval q)%R.
Proof. intros g u fuel x q z F W Sz L. exact (cf_div_ratio_ok g u F x W Sz q L fuel z). Qed.

Lemma L_C33_add_partial : forall g u fuel x y z, fits (sty u) 1 = true -> wfcf x -> surd_sized u x -> wfcf y -> surd_sized u y ->
  (finite x /\ finite y) \/ cf_wide (cf_val x + cf_val y) ->
  cf_add g u fuel x y = Ok z -> canonical z /\ cf_val z = (cf_val x + cf_val y)%R.
Proof. intros g u fuel x y z F W Sz Wy Sy. exact (cf_add_ok g u F x W Sz y Wy Sy fuel z). Qed.

Lemma L_C33_sub_partial : forall g u fuel x y z, fits (sty u) 1 = true -> wfcf x -> surd_sized u x -> wfcf y -> surd_sized u y ->
  (finite x /\ finite y) \/ cf_wide (cf_val x - cf_val y) ->
  cf_sub g u fuel x y = Ok z -> canonical z /\ cf_val z = (cf_val x - cf_val y)%R.
Proof. intros g u fuel x y z F W Sz Wy Sy. exact (cf_sub_ok g u F x W Sz y Wy Sy fuel z). Qed.

Lemma L_C33_mul_partial : forall g u fuel x y z, fits (sty u) 1 = true -> wfcf x -> surd_sized u x -> wfcf y -> surd_sized u y ->
  (finite x /\ finite y) \/ cf_wide (cf_val x * cf_val y) ->
  cf_mul g u fuel x y = Ok z -> canonical z /\ cf_val z = (cf_val x * cf_val y)%R.
Proof. intros g u fuel x y z F W Sz Wy Sy. exact (cf_mul_ok g u F x W Sz y Wy Sy fuel z). Qed.

Lemma L_C33_div_partial : forall g u fuel x y z, fits (sty u) 1 = true -> wfcf x -> surd_sized u x -> wfcf y -> surd_sized u y ->
  (finite x /\ finite y) \/ cf_wide (cf_val x / cf_val y) ->
  cf_div g u fuel x y = Ok z -> cf_val y <> 0%R /\ canonical z /\ cf_val z = (cf_val x / cf_val y)%R.
Proof. intros g u fuel x y z F W Sz Wy Sy. exact (cf_div_ok g u F x W Sz y Wy Sy fuel z). Qed.

Lemma L_C33_big_sized : forall x, wfcf x -> surd_sized BigU x.
Proof. exact surd_sized_big. Qed.

Lemma L_C33_returns_partial : forall g x k q, wfcf x -> returns (surd_of_cf g BigU x) -> lowest q ->
  (finite x \/ cf_domain (cf_val x * IZR k) -> exists n0, forall fuel, (n0 <= fuel)%nat -> returns (cf_mul_int g BigU fuel x k)) /\
  (k <> 0 -> finite x \/ cf_domain (cf_val x / IZR k) -> exists n0, forall fuel, (n0 <= fuel)%nat -> returns (cf_div_int g BigU fuel x k)) /\
  (finite x \/ cf_domain (cf_val x + rval q) -> exists n0, forall fuel, (n0 <= fuel)%nat -> returns (cf_add_ratio g BigU fuel x q)) /\
  (finite x \/ cf_domain (cf_val x - rval q) -> exists n0, forall fuel, (n0 <= fuel)%nat -> returns (cf_sub_ratio g BigU fuel x q)) /\
  (finite x \/ cf_domain (cf_val x * rval q) -> exists n0, forall fuel, (n0 <= fuel)%nat -> returns (cf_mul_ratio g BigU fuel x q)) /\
  (rval q <> 0%R -> finite x \/ cf_domain (cf_val x / rval q) -> exists n0, forall fuel, (n0 <= fuel)%nat -> returns (cf_div_ratio g BigU fuel x q)).
Proof.
  intros g x k q W Ln L. split; [apply (cf_mul_int_total g x W Ln)|]. split; [apply (cf_div_int_total g x W Ln)|].
  split; [apply (cf_add_ratio_total g x W Ln q L)|]. split; [apply (cf_sub_ratio_total g x W Ln q L)|].
  split; [apply (cf_mul_ratio_total g x W Ln q L)|]. apply (cf_div_ratio_total g x W Ln q L).
Qed.

Lemma bind_returns {A B} (m : res A) (f : A -> res B) v : bind m f = Ok v -> returns m.
Proof. destruct m as [a| |]; intros H; [exists a; reflexivity|discriminate H|discriminate H]. Qed.

Lemma surd_to_cf_rat2 d fuel : ~ returns (surd_to_cf (Cfg false d) BigI fuel (Surd (SCo 2 0 1) 0)).
Proof.
  unfold surd_to_cf. cbn [discr]. change (0 <? 0) with false. cbv iota.
  assert (E : surd_is_negative (Cfg false d) BigI (Surd (SCo 2 0 1) 0) = Ok false) by (destruct d; vm_compute; reflexivity).
  rewrite E. cbn [bind]. unfold quadsurd_to_contfrac. destruct d.
  - cbn -[aper_loop per_loop cf_new]. intros [v H]. discriminate.
  - destruct fuel as [|[|fuel]]; intros [v H]; try (vm_compute in H; discriminate).
Qed.

Lemma surd_to_cf_rat12 d fuel : ~ returns (surd_to_cf (Cfg false d) BigI fuel (Surd (SCo 1 0 2) 0)).
Proof.
  unfold surd_to_cf. cbn [discr]. change (0 <? 0) with false. cbv iota.
  assert (E : surd_is_negative (Cfg false d) BigI (Surd (SCo 1 0 2) 0) = Ok false) by (destruct d; vm_compute; reflexivity).
  rewrite E. cbn [bind]. unfold quadsurd_to_contfrac. destruct d.
  - cbn -[aper_loop per_loop cf_new]. intros [v H]. discriminate.
  - destruct fuel as [|[|[|fuel]]]; intros [v H]; try (vm_compute in H; discriminate).
Qed.

Lemma L_C33_rational_refuted : cf_val (CF [1] [2] false) = sqrt 2 /\ forall d fuel,
  ~ returns (cf_mul (Cfg false d) BigU fuel (CF [1] [2] false) (CF [1] [2] false)).
Proof.
  split; [apply val_r2|]. intros d fuel [v H]. unfold cf_mul, cf_op_cf in H. cbn [cf_is_rational p_coeffs] in H.
  assert (E1 : surd_of_cf (Cfg false d) BigU (CF [1] [2] false) = Ok (Surd (SCo 0 1 1) 2)) by (destruct d; vm_compute; reflexivity).
  rewrite E1 in H. cbn [bind] in H.
  assert (E2 : surd_mul (Cfg false d) (sty BigU) (Surd (SCo 0 1 1) 2) (Surd (SCo 0 1 1) 2) = Ok (Surd (SCo 2 0 1) 0)) by (destruct d; vm_compute; reflexivity).
  rewrite E2 in H. cbn [bind] in H. unfold back in H.
  apply bind_returns in H. exact (surd_to_cf_rat2 d fuel H).
Qed.

Lemma L_C33_conjugate_refuted : exists x z, canonical x /\ cf_val x = (- (sqrt 2 / 2))%R /\
  cf_add_ratio (Cfg false true) BigU 10 x (Ratio 3 2) = Ok z /\ cf_val z <> (cf_val x + rval (Ratio 3 2))%R.
Proof.
  exists (CF [0; 1] [2] true), (CF [2] [4; 1] false).
  assert (V : cf_val (CF [0; 1] [2] true) = (- (sqrt 2 / 2))%R).
  { destruct (inf_val_evr [0; 1] [2] true ltac:(discriminate) ltac:(repeat constructor; lia) ltac:(repeat constructor; lia)) as [E1 _].
    destruct (inf_val_evr [1] [2] false ltac:(discriminate) ltac:(constructor) ltac:(repeat constructor; lia)) as [E2 _].
    rewrite E1. rewrite val_r2 in E2. cbn [List.rev app evr sgnb] in *. rewrite Rmult_1_l in E2. rewrite <- E2, Rplus_0_l.
    assert (Q : (sqrt 2 * sqrt 2 = 2)%R) by (apply sqrt_sqrt; lra). pose proof sqrt2_bounds.
    set (q := sqrt 2) in *. clearbody q. replace (q / 2)%R with (q / (q * q))%R by (rewrite Q; reflexivity). field. lra. }
  split; [|split; [auto|split; [vm_compute; reflexivity|]]].
  - split; [|split; cbn; congruence]. cbn; repeat split; [lia|repeat constructor; lia|repeat constructor; lia].
  - rewrite V. unfold rval. cbn [numer denom].
    assert (W : wfcf (CF [2] [4; 1] false)) by (cbn; repeat split; [lia|constructor|repeat constructor; lia]).
    destruct (cf_head _ 2 nil W eq_refl) as (f & Vz & [F0 _] & _). rewrite Vz. cbn [negative sgnb]. pose proof sqrt2_bounds. lra.
Qed.

Lemma C33_case_proof : cf_wide (cf_val (CF [1] [2] false) * IZR 3) /\ cf_mul_int (Cfg false true) (UInt 32) 20 (CF [1] [2] false) 3 = Ok (CF [4] [4; 8] false) /\
  cf_wide (cf_val (CF [1] [2] false) + cf_val (CF [1; 2] nil false)) /\
  cf_add (Cfg false true) (UInt 32) 20 (CF [1] [2] false) (CF [1; 2] nil false) = Ok (CF [2] [1; 10; 1; 1] false) /\
  surd_sized (UInt 32) (CF [1] [2] false).
Proof.
  pose proof sqrt2_bounds. split; [|split; [vm_compute; reflexivity|split; [|split; [vm_compute; reflexivity|]]]].
  - apply cf_domain_wide. rewrite val_r2. apply (dom_sqrt2 _ 0 3 1 4); try lia; [field|cbn [Z.mul Z.add Pos.mul Pos.add]; lra|cbn [Z.mul Z.add Pos.mul Pos.add]; lra].
  - apply cf_domain_wide. rewrite val_r2. unfold cf_val. cbn [a_coeffs p_coeffs negative sgnb cfl].
    apply (dom_sqrt2 _ 3 2 2 2); try lia; [field|cbn [Z.mul Z.add Pos.mul Pos.add Pos.succ]; lra|cbn [Z.mul Z.add Pos.mul Pos.add]; lra].
  - split; [discriminate|]. intros _. cbn. lia.
Qed.

Lemma L_C34_err : forall g t fuel s, surd_to_cf g t fuel s = Ok None <-> discr s < 0.
Proof. exact surd_to_cf_none. Qed.

Lemma L_C34_value : forall g t fuel s x xc z, fits t 1 = true -> normal g s -> sval s = RtoC x -> sconj s = RtoC xc -> ~ rational_num (sval s) ->
  surd_to_cf g t fuel s = Ok (Some z) ->
  canonical z /\ ~ finite z /\
  (between0 x xc -> ~ norm_divisible s -> cf_val z = xc) /\
  (sign_dropped s x xc -> cf_val z = (- x)%R) /\
  (~ (between0 x xc /\ ~ norm_divisible s) -> ~ sign_dropped s x xc -> cf_val z = x).
Proof. intros g t fuel s x xc z F N V Vc I H. apply (surd_to_cf_char g s x xc N V Vc I t fuel z F H). Qed.

Lemma norm_root2 a b c : 0 < c -> b <> 0 -> Z.gcd (Z.gcd a b) c = 1 -> normal (Cfg false true) (Surd (SCo a b c) 2).
Proof.
  intros Hc Hb G. unfold normal, parts. cbn [coeffs c0 c1 c2 discr]. split; [lia|]. split; [auto|]. split; [|intros; lia]. right. split; [lia|].
  intros [k Hk]. assert (k <= -2 \/ k = -1 \/ k = 0 \/ k = 1 \/ 2 <= k) as [K|[K|[K|[K|K]]]] by lia; subst; try lia; nia.
Qed.

Lemma sval_root2 a b c : 0 < c -> sval (Surd (SCo a b c) 2) = RtoC ((IZR a + IZR b * sqrt 2) / IZR c) /\ sconj (Surd (SCo a b c) 2) = RtoC ((IZR a - IZR b * sqrt 2) / IZR c).
Proof.
  intros Hc. assert (IZR c <> 0%R) by (apply not_0_IZR; lia). unfold sval, sconj, parts. cbn [coeffs c0 c1 c2 discr]. unfold csqrt. cbn [Z.ltb Z.compare]. unfold ZtoC.
  rewrite <- RtoC_mult, <- RtoC_plus, <- RtoC_minus, <- !RtoC_div by auto. split; reflexivity.
Qed.

Lemma C34_value_case_proof : normal (Cfg false true) (Surd (SCo 3 (-1) 2) 2) /\ sval (Surd (SCo 3 (-1) 2) 2) = RtoC ((3 - sqrt 2) / 2) /\ sconj (Surd (SCo 3 (-1) 2) 2) = RtoC ((3 + sqrt 2) / 2) /\
  between0 ((3 - sqrt 2) / 2) ((3 + sqrt 2) / 2) /\ ~ norm_divisible (Surd (SCo 3 (-1) 2) 2) /\ surd_to_cf (Cfg false true) BigI 10 (Surd (SCo 3 (-1) 2) 2) = Ok (Some (CF [2] [4; 1] false)).
Proof.
  pose proof sqrt2_bounds. destruct (sval_root2 3 (-1) 2 ltac:(lia)) as [V Vc].
  split; [apply norm_root2; [lia|lia|reflexivity]|]. split; [rewrite V; f_equal; field|]. split; [rewrite Vc; f_equal; field|].
  split; [left; lra|]. split; [intros [k Hk]; cbn [coeffs c0 c1 c2 discr] in Hk; lia|vm_compute; reflexivity].
Qed.

Lemma L_C34_returns_or_hangs : forall g s x, normal g s -> sval s = RtoC x -> ~ rational_num (sval s) ->
  (exists n0, forall fuel, (n0 <= fuel)%nat -> exists z, surd_to_cf g BigI fuel s = Ok (Some z)) \/
  (may_hang s /\ forall fuel, surd_to_cf g BigI fuel s = Hang).
Proof.
  intros g s x N V I. assert (I' : ~ rational_real x) by (rewrite V in I; intros H; apply I; apply rational_real_C; auto).
  destruct (surd_conj_value g s x N V I') as (xc & _ & Ec & _). exact (surd_to_cf_dichotomy g s x xc N V Ec I).
Qed.

Lemma C34_returns_or_hangs_case_proof : may_hang (Surd (SCo 2 (-1) 1) 2) /\ ~ may_hang (Surd (SCo 5 (-1) 1) 7) /\
  surd_to_cf (Cfg false true) BigI 10 (Surd (SCo 5 (-1) 1) 7) = Ok (Some (CF [2; 2; 1] [4; 1; 1; 1] false)).
Proof.
  split; [|split; [|vm_compute; reflexivity]].
  - exists 2, 1, 1. split; [left; split; [exists 2; reflexivity|reflexivity]|]. split; [lia|]. split; [lia|]. split; [reflexivity|]. split; exists 2; reflexivity.
  - intros (D & m & m' & [[_ E]|[Nd _]] & M1 & M2 & E2 & [k K] & [k' K']); [|apply Nd; exists 18; reflexivity].
    cbn [coeffs c0 c1 c2 discr] in E. change (-1 * -1 * 7) with 7 in E. subst D. change (Z.sqrt 7) with 2 in *. assert (k * k' * 3 = 16) by nia. lia.
Qed.

Lemma L_C34_exact_partial : forall g t fuel s x z, fits t 1 = true -> normal g s -> sval s = RtoC x -> cf_wide x ->
  surd_to_cf g t fuel s = Ok (Some z) -> canonical z /\ ~ finite z /\ cf_val z = x.
Proof. exact surd_to_cf_wide. Qed.

Lemma C34_exact_case_proof : normal (Cfg false true) (Surd (SCo 7 1 5) 2) /\ sval (Surd (SCo 7 1 5) 2) = RtoC ((7 + sqrt 2) / 5) /\ cf_wide ((7 + sqrt 2) / 5) /\ (1 < (7 - sqrt 2) / 5 < (7 + sqrt 2) / 5)%R /\
  ((7 + sqrt 2) / 5 < 2)%R /\ surd_to_cf (Cfg false true) (SInt 64) 20 (Surd (SCo 7 1 5) 2) = Ok (Some (CF [1; 1; 2] [6; 1; 1] false)).
Proof.
  pose proof sqrt2_bounds. destruct (sval_root2 7 1 5 ltac:(lia)) as [V Vc]. pose proof (conj_sqrt2 7 1 5 ltac:(lia) ltac:(lia)) as C. rewrite !Rmult_1_l in *.
  split; [apply norm_root2; [lia|lia|reflexivity]|]. split; [auto|].
  split; [exists ((7 - sqrt 2) / 5)%R; split; [auto|]; intros [B|B]; lra|]. split; [lra|]. split; [lra|]. vm_compute; reflexivity.
Qed.

Lemma L_C34_sign_refuted : exists s x z, normal (Cfg false true) s /\ sval s = RtoC x /\ (x < 0)%R /\
  surd_to_cf (Cfg false true) BigI 10 s = Ok (Some z) /\ cf_val z = (- x)%R.
Proof.
  exists (Surd (SCo (-6) 4 1) 2), (-6 + 4 * sqrt 2)%R, (CF [0; 2; 1] [10; 1; 1; 1] false). pose proof sqrt2_bounds.
  destruct (sval_root2 (-6) 4 1 ltac:(lia)) as [V Vc].
  assert (Ev : sval (Surd (SCo (-6) 4 1) 2) = RtoC (-6 + 4 * sqrt 2)) by (rewrite V; f_equal; field).
  assert (Ec : sconj (Surd (SCo (-6) 4 1) 2) = RtoC (-6 - 4 * sqrt 2)) by (rewrite Vc; f_equal; field).
  assert (N : normal (Cfg false true) (Surd (SCo (-6) 4 1) 2)) by (apply norm_root2; [lia|lia|reflexivity]).
  assert (Eq : surd_to_cf (Cfg false true) BigI 10 (Surd (SCo (-6) 4 1) 2) = Ok (Some (CF [0; 2; 1] [10; 1; 1; 1] false))) by (vm_compute; reflexivity).
  split; [auto|]. split; [auto|]. split; [lra|]. split; [auto|].
  assert (I : ~ rational_num (sval (Surd (SCo (-6) 4 1) 2))).
  { rewrite Ev. pose proof (conj_sqrt2 (-6) 4 1 ltac:(lia) ltac:(lia)) as [K _]. intros R. apply K. apply rational_real_C. replace ((IZR (-6) + IZR 4 * sqrt 2) / IZR 1)%R with (-6 + 4 * sqrt 2)%R by field. auto. }
  destruct (surd_to_cf_char _ _ _ _ N Ev Ec I BigI 10%nat _ eq_refl Eq) as (_ & _ & _ & D & _). apply D.
  split; [lra|]. split; [exists 4; reflexivity|reflexivity].
Qed.

Lemma L_C34_returns_partial : forall g s x, normal g s -> sval s = RtoC x -> cf_domain x ->
  exists n0, forall fuel, (n0 <= fuel)%nat -> exists z, surd_to_cf g BigI fuel s = Ok (Some z).
Proof. exact surd_to_cf_dom_total. Qed.

Lemma L_C34_refuted : exists s x z, normal (Cfg false true) s /\ sval s = RtoC x /\ (x < 1)%R /\
  surd_to_cf (Cfg false true) BigI 10 s = Ok (Some z) /\ (2 <= cf_val z)%R.
Proof.
  exists (Surd (SCo 3 (-1) 2) 2), ((3 - sqrt 2) / 2)%R, (CF [2] [4; 1] false). pose proof sqrt2_bounds.
  split; [|split; [|split; [lra|split; [vm_compute; reflexivity|]]]].
  - unfold normal, parts. cbn [coeffs c0 c1 c2 discr]. split; [lia|]. split; [reflexivity|]. split; [|intros; lia]. right. split; [lia|].
    intros [k Hk]. assert (k <= -2 \/ k = -1 \/ k = 0 \/ k = 1 \/ 2 <= k) as [K|[K|[K|[K|K]]]] by lia; subst; try lia; nia.
  - unfold sval, parts. cbn [coeffs c0 c1 c2 discr]. unfold csqrt. cbn [Z.ltb Z.compare]. unfold ZtoC. rewrite <- RtoC_mult, <- RtoC_plus, <- RtoC_div by lra. f_equal. field.
  - assert (W : wfcf (CF [2] [4; 1] false)) by (cbn; repeat split; [lia|constructor|repeat constructor; lia]).
    destruct (cf_head _ 2 nil W eq_refl) as (f & Vz & [F0 _] & _). rewrite Vz. cbn [negative sgnb]. lra.
Qed.

Lemma aper_stuck fuel : aper_loop BigI fuel false 2 1 1 (-1) = Hang.
Proof. induction fuel as [|fuel IH]; [reflexivity|]. cbn [aper_loop]. cbn -[aper_loop]. rewrite IH. reflexivity. Qed.

Lemma L_C34_hang_refuted : normal (Cfg false true) (Surd (SCo 2 (-1) 1) 2) /\ forall fuel, surd_to_cf (Cfg false true) BigI fuel (Surd (SCo 2 (-1) 1) 2) = Hang.
Proof.
  split.
  - unfold normal, parts. cbn [coeffs c0 c1 c2 discr]. split; [lia|]. split; [reflexivity|]. split; [|intros; lia]. right. split; [lia|].
    intros [k Hk]. assert (k <= -2 \/ k = -1 \/ k = 0 \/ k = 1 \/ 2 <= k) as [K|[K|[K|[K|K]]]] by lia; subst; try lia; nia.
  - intros fuel. destruct fuel as [|[|fuel]]; [vm_compute; reflexivity|vm_compute; reflexivity|].
    unfold surd_to_cf, quadsurd_to_contfrac. cbn -[aper_loop per_loop cf_new]. cbn [aper_loop]. cbn -[aper_loop per_loop cf_new]. rewrite ?aper_stuck. reflexivity.
Qed.

Lemma L_C34_rational_refuted : normal (Cfg false true) (Surd (SCo 1 0 2) 0) /\ forall d fuel, ~ returns (surd_to_cf (Cfg false d) BigI fuel (Surd (SCo 1 0 2) 0)).
Proof.
  split.
  - unfold normal, parts. cbn [coeffs c0 c1 c2 discr]. split; [lia|]. split; [reflexivity|]. split; [auto|intros; lia].
  - exact surd_to_cf_rat12.
Qed.

Lemma sqrt8 : sqrt 8 = (2 * sqrt 2)%R.
Proof. apply sqrt_lem_1; [lra| |]; pose proof sqrt2_bounds; [lra|]. replace (2 * sqrt 2 * (2 * sqrt 2))%R with (4 * (sqrt 2 * sqrt 2))%R by ring. rewrite sqrt_sqrt; lra. Qed.

Lemma C34_case_proof : normal (Cfg false true) (Surd (SCo 1 1 2) 8) /\ cf_domain ((1 + sqrt 8) / 2) /\ sval (Surd (SCo 1 1 2) 8) = RtoC ((1 + sqrt 8) / 2) /\
  surd_to_cf (Cfg false true) (SInt 64) 20 (Surd (SCo 1 1 2) 8) = Ok (Some (CF [1] [1; 10; 1; 1] false)).
Proof.
  pose proof sqrt2_bounds. split; [|split; [|split; [|vm_compute; reflexivity]]].
  - unfold normal, parts. cbn [coeffs c0 c1 c2 discr]. split; [lia|]. split; [reflexivity|]. split; [|intros; lia]. right. split; [lia|].
    intros [k Hk]. assert (k <= -3 \/ k = -2 \/ k = -1 \/ k = 0 \/ k = 1 \/ k = 2 \/ 3 <= k) as [K|[K|[K|[K|[K|[K|K]]]]]] by lia; subst; try lia; nia.
  - rewrite sqrt8. apply (dom_sqrt2 _ 1 2 2 1); try lia; [field|cbn [Z.mul Z.add Pos.mul Pos.add Pos.succ]; lra|cbn [Z.mul Z.add Pos.mul Pos.add]; lra].
  - unfold sval, parts. cbn [coeffs c0 c1 c2 discr]. unfold csqrt. cbn [Z.ltb Z.compare]. unfold ZtoC. rewrite <- RtoC_mult, <- RtoC_plus, <- RtoC_div by lra. f_equal. field.
Qed.

Lemma L_C35_exact : forall g u x s, wfcf x -> surd_sized u x -> surd_of_cf g u x = Ok s -> normal g s /\ sval s = RtoC (cf_val x).
Proof. intros g u x s W Sz. apply surd_of_cf_ok; auto. apply surd_sized_fit; auto. Qed.

Lemma L_C35_returns_partial : forall g x, wfcf x -> finite x \/ (length (a_coeffs x) <= 2)%nat -> returns (surd_of_cf g BigU x).
Proof. exact surd_of_cf_total. Qed.

Lemma L_C35_panic_refuted : exists x, canonical x /\ surd_of_cf (Cfg false true) BigU x = Panic PIncompatible.
Proof.
  exists (CF [0; 1; 5; 1] [14; 15; 1; 50624] false). split; [|vm_compute; reflexivity]. split; [|split; cbn; congruence].
  cbn; repeat split; [lia|repeat constructor; lia|repeat constructor; lia].
Qed.

Lemma L_C36_round_trip_partial : forall g t u fuel s x z s', fits t 1 = true -> normal g s -> sval s = RtoC x -> cf_wide x ->
  surd_to_cf g t fuel s = Ok (Some z) -> surd_sized u z -> surd_of_cf g u z = Ok s' -> normal g s' /\ sval s' = sval s.
Proof.
  intros g t u fuel s x z s' F N V D H Sz H'. destruct (surd_to_cf_wide g t fuel s x z F N V D H) as ((W & _) & _ & Vz).
  destruct (surd_of_cf_ok g u z s' W (surd_sized_fit u z W Sz) H') as [N' V']. split; [auto|]. rewrite V', Vz, V. reflexivity.
Qed.

Lemma L_C36_returns_partial : forall g s x, normal g s -> sval s = RtoC x -> cf_domain x ->
  exists n0, forall fuel, (n0 <= fuel)%nat -> exists z s', surd_to_cf g BigI fuel s = Ok (Some z) /\ surd_of_cf g BigU z = Ok s' /\ sval s' = sval s.
Proof.
  intros g s x N V D. destruct (surd_domain g s x N V D) as (xc & Ec & I & B). destruct (round_trip_big g s x xc N V Ec I B) as [n0 T].
  exists n0. intros fuel Hf. destruct (T fuel Hf) as (z & s' & A & A' & _ & A''). eauto.
Qed.

Lemma L_C36_back_partial : forall g u fuel x s z n, fits (sty u) 1 = true -> wfcf x -> ~ finite x -> surd_sized u x -> cf_wide (cf_val x) ->
  surd_of_cf g u x = Ok s -> surd_to_cf g (sty u) fuel s = Ok (Some z) -> coeff_at z n = coeff_at x n /\ negative z = negative x.
Proof.
  intros g u fuel x s z n F W Fx Sz D H H'. destruct (surd_of_cf_ok g u x s W (surd_sized_fit u x W Sz) H) as [N V].
  destruct (surd_to_cf_wide g (sty u) fuel s _ z F N V D H') as ((Wz & _) & Fz & Vz).
  rewrite (cf_val_inf x Fx), (cf_val_inf z Fz) in Vz. pose proof (wfcf_cpos x W) as Cx. pose proof (wfcf_cpos z Wz) as Cz.
  assert (Pos : forall f, cpos f -> (0 < lim f)%R).
  { intros f Cf. rewrite lim_step by auto. pose proof (lim_gt1_shift _ Cf). assert (0 < / lim (shift f))%R by (apply Rinv_0_lt_compat; lra).
    pose proof (proj1 Cf) as C0. apply IZR_le in C0. lra. }
  pose proof (Pos _ Cx). pose proof (Pos _ Cz).
  assert (K : negative z = negative x /\ lim (cseq z) = lim (cseq x)).
  { unfold sgnb in Vz. destruct (negative z), (negative x); split; auto; lra. }
  split; [|tauto]. rewrite (has_some z n (inf_has z n Fz)), (has_some x n (inf_has x n Fx)). f_equal. apply (lim_inj n); tauto.
Qed.

Lemma L_C36_refuted : exists s z s', normal (Cfg false true) s /\ surd_to_cf (Cfg false true) BigI 10 s = Ok (Some z) /\
  surd_of_cf (Cfg false true) BigU z = Ok s' /\ sval s' <> sval s.
Proof.
  exists (Surd (SCo 3 (-1) 2) 2), (CF [2] [4; 1] false), (Surd (SCo 3 1 2) 2). pose proof sqrt2_bounds.
  split; [|split; [vm_compute; reflexivity|split; [vm_compute; reflexivity|]]].
  - unfold normal, parts. cbn [coeffs c0 c1 c2 discr]. split; [lia|]. split; [reflexivity|]. split; [|intros; lia]. right. split; [lia|].
    intros [k Hk]. assert (k <= -2 \/ k = -1 \/ k = 0 \/ k = 1 \/ 2 <= k) as [K|[K|[K|[K|K]]]] by lia; subst; try lia; nia.
  - unfold sval, parts. cbn [coeffs c0 c1 c2 discr]. unfold csqrt. cbn [Z.ltb Z.compare]. unfold ZtoC.
    rewrite <- !RtoC_mult, <- !RtoC_plus, <- !RtoC_div by lra. intros K. apply RtoC_inj in K. lra.
Qed.

Lemma L_C37_approximated_partial : forall x limit fuel v, wfcf x -> 1 <= limit -> cf_approximated BigU fuel x limit = Ok v ->
  (exists r, v = Exact r /\ lowest r /\ rval r = cf_val x) \/
  (exists r m, v = Approximated r /\ convergent x m r /\ denom r <= limit /\ (0 < Rabs (cf_val x - rval r) <= / (IZR (denom r) * IZR limit))%R).
Proof. exact cf_approximated_ok. Qed.

Lemma L_C37_returns : forall x limit, wfcf x -> exists n0, forall fuel, (n0 <= fuel)%nat -> returns (cf_approximated BigU fuel x limit).
Proof. exact cf_approximated_total. Qed.

Lemma L_C37_surd_partial : forall g s x limit fuel v, normal g s -> sval s = RtoC x -> cf_wide x -> 1 <= limit ->
  surd_approximated g BigI fuel s limit = Ok v ->
  exists r, v = Approximated r /\ lowest r /\ denom r <= limit /\ (0 < Rabs (x - rval r) <= / (IZR (denom r) * IZR limit))%R.
Proof.
  intros g s x limit fuel v N V D Hl H. unfold surd_approximated in H. destruct (surd_to_cf g BigI fuel s) as [[z|]| |] eqn:E; try discriminate. cbn [bind unwrap] in H.
  destruct (surd_to_cf_wide g BigI fuel s x z eq_refl N V D E) as ((W & _) & Fz & Vz).
  destruct (cf_approximated_ok z limit fuel v W Hl H) as [(r & -> & Lr & Vr)|(r & m & -> & Cv & Hd & B)].
  - exfalso. destruct D as (xc & (I & _) & _). apply I. rewrite <- Vz, <- Vr. exists (numer r), (denom r). split; [unfold lowest in Lr; lia|reflexivity].
  - exists r. split; [auto|]. split; [apply Cv|]. split; [auto|]. rewrite <- Vz. auto.
Qed.

Lemma L_C37_refuted : exists x r, canonical x /\ cf_approximated BigU 20 x 169 = Ok (Approximated r) /\ (/ (IZR 169 * IZR 169) < Rabs (cf_val x - rval r))%R.
Proof.
  exists (CF [1] [2] false), (Ratio 99 70). split; [|split; [vm_compute; reflexivity|]].
  - split; [|split; cbn; congruence]. cbn; repeat split; [lia|constructor|repeat constructor; lia].
  - rewrite val_r2. unfold rval. cbn [numer denom].
    assert (B : (sqrt 2 < 1.414215)%R) by (rewrite <- (sqrt_square 1.414215) by lra; apply sqrt_lt_1; lra).
    rewrite Rabs_left by lra. lra.
Qed.

Lemma L_C37_fixed_width_refuted : exists x r, canonical x /\ ~ finite x /\ cf_approximated (UInt 8) 20 x 100 = Ok (Exact r).
Proof.
  exists (CF [1] [2] false), (Ratio 17 87). split; [|split; [discriminate|vm_compute; reflexivity]].
  split; [|split; cbn; congruence]. cbn; repeat split; [lia|constructor|repeat constructor; lia].
Qed.

Lemma L_C38_to_integer : forall u x r, canonical x -> (forall v, coeff_at x 0 = Some v -> sfit u v) -> cf_to_integer u x = Ok r ->
  istrunc (cf_val x) (approx_value r) /\ ((exists n, r = Exact n) <-> exists n, cf_val x = IZR n).
Proof. exact cf_to_integer_ok. Qed.

Lemma L_C38_to_integer_returns : forall x, wfcf x -> returns (cf_to_integer BigU x).
Proof. exact cf_to_integer_total. Qed.

Lemma L_C38_to_rational_finite : forall u x, wfcf x -> finite x -> (forall r, lowest r -> rval r = cf_val x -> ratio_sfit u r) ->
  exists r, cf_to_rational u x = Ok (Exact r) /\ lowest r /\ rval r = cf_val x.
Proof.
  intros u x W F H. apply cf_to_rational_fin; auto. apply (surd_sized_fit u x W); auto. split; [auto|]. intros K. contradiction.
Qed.

Lemma L_C38_to_rational_infinite : forall u x, wfcf x -> ~ finite x ->
  (forall j r, (j <= length (a_coeffs x) + length (p_coeffs x))%nat -> convergent x j r -> ratio_sfit u r) ->
  exists r, cf_to_rational u x = Ok (Approximated r) /\ convergent x (length (a_coeffs x) + length (p_coeffs x)) r.
Proof. intros u x W F H. apply cf_to_rational_inf; auto. intros j Hj. apply conv_sized; [auto|]. intros r. apply H. exact Hj. Qed.

Lemma L_C38_big_sized : forall x, wfcf x -> (forall v, coeff_at x 0 = Some v -> sfit BigU v) /\ (forall r, lowest r -> ratio_sfit BigU r).
Proof.
  intros x W. split.
  - intros v E. apply (wfcf_in x 0 v W E).
  - intros r L. unfold ratio_sfit. cbn [sfit]. unfold lowest in L. lia.
Qed.

Lemma L_C38_neg : forall x, canonical x -> canonical (cf_neg x) /\ cf_val (cf_neg x) = (- cf_val x)%R.
Proof.
  intros x C. unfold cf_neg. destruct (cf_is_zero x) eqn:Z.
  - split; [auto|]. rewrite <- (cf_val_zero_sign x Z). destruct x as [a p s]. unfold cf_is_zero in Z. cbn [a_coeffs p_coeffs] in *.
    destruct a as [|[| |] [|]]; try discriminate. destruct p; [|discriminate]. unfold cf_val. cbn. ring.
  - destruct x as [a p s]. cbn [a_coeffs p_coeffs negative] in *. destruct C as (W & L & Zs). split.
    + split; [exact W|]. split; [exact L|]. cbn [a_coeffs p_coeffs negative]. intros -> ->. discriminate.
    + unfold cf_val. cbn [a_coeffs p_coeffs negative].
      assert (E : IZR (sgnb (negb s)) = (- IZR (sgnb s))%R) by (destruct s; cbn [negb sgnb]; ring). rewrite E.
      apply Ropp_mult_distr_l_reverse.
Qed.
