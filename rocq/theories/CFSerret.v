(** * CFSerret: numbers related by an integer transformation of determinant 1 or -1 have the same coefficients from some point on. *)

From Coq Require Import ZArith Reals Lia Lra Bool List Arith.
From Coquelicot Require Import Coquelicot.
From Verif Require Import Base Ext ModelSurd ModelBlock ModelCF ModelConv Spec SpecCF SpecSerret NumFacts SurdCore CFCore CFSeq CFPeriod CFRound CFShort ClaimsCF ClaimsApi.
From Verif Require Import CFCore CFSeq.
Import ListNotations.
Open Scope Z_scope.

(** complete quotients of a real number *)
Definition fl (x : R) : Z := up x - 1.
Definition gs (x : R) : R := (/ (x - IZR (fl x)))%R.
Definition cq (n : nat) (x : R) : R := Nat.iter n gs (Rabs x).
Lemma fl_ok x : isfloor x (fl x).
Proof. unfold fl. destruct (archimed x). unfold isfloor. rewrite minus_IZR. lra. Qed.
Lemma fl_is x n : isfloor x n -> fl x = n.
Proof. intros H. apply (isfloor_unique x); [apply fl_ok|auto]. Qed.

Definition eqv (x y : R) : Prop := exists i j, cq i x = cq j y.
Lemma eqv_refl x : eqv x x. Proof. exists 0%nat, 0%nat. reflexivity. Qed.
Lemma eqv_sym x y : eqv x y -> eqv y x. Proof. intros (i & j & E). exists j, i. auto. Qed.
Lemma cq_add k n x : cq (k + n) x = Nat.iter k gs (cq n x).
Proof. induction k as [|k IH]; [reflexivity|]. change (gs (cq (k + n) x) = gs (Nat.iter k gs (cq n x))). rewrite IH. reflexivity. Qed.
Lemma eqv_trans x y z : eqv x y -> eqv y z -> eqv x z.
Proof.
  intros (i & j & E) (k & l & F). exists (k + i)%nat, (j + l)%nat.
  rewrite !cq_add, E, <- F, <- !cq_add. f_equal. lia.
Qed.
Lemma eqv_opp x : eqv x (- x).
Proof. exists 0%nat, 0%nat. unfold cq. cbn. rewrite Rabs_Ropp. reflexivity. Qed.
Lemma irr_opp x : irr x -> irr (- x).
Proof. intros H n d Hd E. apply (H (- n) d Hd). rewrite opp_IZR. replace x with (- - x)%R by ring. rewrite E. field. apply not_0_IZR. auto. Qed.
Lemma irr_Z x n : irr x -> x <> IZR n.
Proof. intros H E. apply (H n 1); [lia|]. rewrite E. field. Qed.
Lemma eqv_abs x : eqv x (Rabs x).
Proof. exists 0%nat, 0%nat. unfold cq. cbn. rewrite Rabs_Rabsolu. reflexivity. Qed.
Lemma eqv_inv_pos x : (0 < x < 1)%R -> eqv x (/ x).
Proof.
  intros H. exists 1%nat, 0%nat. unfold cq. cbn. assert (0 < / x)%R by (apply Rinv_0_lt_compat; lra). rewrite !Rabs_right by lra.
  unfold gs. rewrite (fl_is x 0) by (unfold isfloor; lra). f_equal. ring.
Qed.
Lemma eqv_inv x : irr x -> eqv x (/ x).
Proof.
  intros I. apply (eqv_trans _ (Rabs x)); [apply eqv_abs|]. apply eqv_sym, (eqv_trans _ (Rabs (/ x))); [apply eqv_abs|]. apply eqv_sym.
  pose proof (irr_nz x I) as NZ. rewrite Rabs_inv. assert (P : (0 < Rabs x)%R) by (apply Rabs_pos_lt; auto).
  assert (N1 : Rabs x <> 1%R).
  { intros E. unfold Rabs in E. destruct (Rcase_abs x); [apply (irr_Z x (-1) I); lra|apply (irr_Z x 1 I); lra]. }
  destruct (Rlt_dec (Rabs x) 1) as [L|L]; [apply eqv_inv_pos; lra|].
  apply eqv_sym. rewrite <- (Rinv_inv (Rabs x)) at 2. apply eqv_inv_pos. split; [apply Rinv_0_lt_compat; auto|].
  rewrite <- Rinv_1. apply Rinv_lt_contravar; lra.
Qed.
Lemma eqv_plus1_pos x : (0 <= x)%R -> eqv x (x + 1).
Proof.
  intros H. exists 1%nat, 1%nat. unfold cq. cbn. rewrite !Rabs_right by lra. unfold gs.
  rewrite (fl_is (x + 1) (fl x + 1)) by (pose proof (fl_ok x); unfold isfloor in *; rewrite plus_IZR; lra). rewrite plus_IZR. f_equal. lra.
Qed.
Lemma eqv_half u : irr u -> (0 < u < 1 / 2)%R -> eqv u (1 - u).
Proof.
  intros I H. apply (eqv_trans _ (/ u)); [apply eqv_inv; auto|].
  assert (V : (2 < / u)%R). { replace 2%R with (/ (1 / 2))%R by field. apply Rinv_lt_contravar; lra. }
  apply (eqv_trans _ (/ u - 1)).
  - apply eqv_sym. replace (/ u)%R with (/ u - 1 + 1)%R at 2 by ring. apply eqv_plus1_pos. lra.
  - exists 0%nat, 2%nat. unfold cq. cbn. rewrite !Rabs_right by lra. unfold gs.
    rewrite (fl_is (1 - u) 0) by (unfold isfloor; lra). rewrite Rminus_0_r.
    assert (W : (1 < / (1 - u) < 2)%R).
    { split; [rewrite <- Rinv_1 at 1; apply Rinv_lt_contravar; lra|]. replace 2%R with (/ (1 / 2))%R by field. apply Rinv_lt_contravar; lra. }
    rewrite (fl_is (/ (1 - u)) 1) by (unfold isfloor; lra). field. repeat split; lra.
Qed.
Lemma eqv_plus1 x : irr x -> eqv x (x + 1).
Proof.
  intros I. destruct (Rle_dec 0 x) as [P|P]; [apply eqv_plus1_pos; auto|].
  apply (eqv_trans _ (- x)); [apply eqv_opp|]. assert (IU : irr (- x)) by (apply irr_opp; auto).
  set (u := (- x)%R) in *. replace (x + 1)%R with (1 - u)%R by (unfold u; ring). assert (U : (0 < u)%R) by (unfold u; lra).
  destruct (Rle_dec 1 u) as [L|L].
  - apply (eqv_trans _ (u - 1)); [|replace (1 - u)%R with (- (u - 1))%R by ring; apply eqv_opp].
    apply eqv_sym. replace u with (u - 1 + 1)%R at 2 by ring. apply eqv_plus1_pos. lra.
  - assert (u <> 1 / 2)%R by (apply (IU 1 2); lia).
    destruct (Rlt_dec u (1 / 2)) as [M|M]; [apply eqv_half; auto; lra|].
    apply eqv_sym. replace u with (1 - (1 - u))%R at 2 by ring. apply eqv_half; [|lra].
    replace (1 - u)%R with (IZR 1 + - u)%R by ring. apply irr_add, irr_opp. auto.
Qed.
Lemma eqv_addn n : forall x, irr x -> eqv x (x + INR n).
Proof.
  induction n as [|n IH]; intros x I; [rewrite Rplus_0_r; apply eqv_refl|].
  apply (eqv_trans _ (x + INR n)); [apply IH; auto|]. rewrite S_INR, <- Rplus_assoc. apply eqv_plus1.
  rewrite INR_IZR_INZ, Rplus_comm. apply irr_add. auto.
Qed.
Lemma eqv_add n x : irr x -> eqv x (IZR n + x).
Proof.
  intros I. destruct (Z.le_ge_cases 0 n) as [L|L].
  - replace (IZR n + x)%R with (x + INR (Z.to_nat n))%R; [apply eqv_addn; auto|]. rewrite INR_IZR_INZ, Z2Nat.id by lia. ring.
  - apply eqv_sym. replace x with (IZR n + x + INR (Z.to_nat (- n)))%R at 2; [apply eqv_addn, irr_add; auto|].
    rewrite INR_IZR_INZ, Z2Nat.id, opp_IZR by lia. ring.
Qed.

(** transformations *)
Definition uni (x y : R) : Prop := exists a b c d, Z.abs (a * d - b * c) = 1 /\ (y * (IZR c * x + IZR d) = IZR a * x + IZR b)%R.
Lemma uni_irr x y : irr x -> uni x y -> irr y.
Proof.
  intros I (a & b & c & d & D & E) n m Hm Ey. subst y. assert (M : IZR m <> 0%R) by (apply not_0_IZR; auto).
  assert (F : (IZR (n * c - m * a) * x + IZR (n * d - m * b) = 0)%R).
  { rewrite !minus_IZR, !mult_IZR. apply (Rmult_eq_compat_l (IZR m)) in E. 
    replace (IZR m * (IZR n / IZR m * (IZR c * x + IZR d)))%R with (IZR n * (IZR c * x + IZR d))%R in E by (field; auto). lra. }
  apply (irr_lin _ _ _ I) in F. destruct F as [F1 F2].
  assert (G : m * (a * d - b * c) = 0) by (transitivity (c * (n * d - m * b) - d * (n * c - m * a)); [ring|rewrite F1, F2; ring]).
  apply Z.mul_eq_0 in G. destruct G as [G|G]; [auto|]. rewrite G in D. discriminate.
Qed.
Lemma uni_sym x y : uni x y -> uni y x.
Proof.
  intros (a & b & c & d & D & E). exists (- d), b, c, (- a). split; [rewrite <- D; f_equal; ring|]. rewrite !opp_IZR. lra.
Qed.
Lemma uni_trans x y z : irr x -> uni x y -> uni y z -> uni x z.
Proof.
  intros I (a & b & c & d & D & E) (a' & b' & c' & d' & D' & E').
  exists (a' * a + b' * c), (a' * b + b' * d), (c' * a + d' * c), (c' * b + d' * d). split.
  - replace (_ - _) with ((a' * d' - b' * c') * (a * d - b * c)) by ring. rewrite Z.abs_mul, D, D'. reflexivity.
  - rewrite !plus_IZR, !mult_IZR. apply (Rmult_eq_compat_r (IZR c * x + IZR d)%R) in E'.
    replace (z * (IZR c' * y + IZR d') * (IZR c * x + IZR d))%R with (z * (IZR c' * (y * (IZR c * x + IZR d)) + IZR d' * (IZR c * x + IZR d)))%R in E' by ring.
    replace ((IZR a' * y + IZR b') * (IZR c * x + IZR d))%R with (IZR a' * (y * (IZR c * x + IZR d)) + IZR b' * (IZR c * x + IZR d))%R in E' by ring.
    rewrite E in E'. etransitivity; [|etransitivity; [exact E'|]]; ring.
Qed.
Lemma uni_abs x : uni x (Rabs x).
Proof.
  unfold Rabs. destruct (Rcase_abs x); [exists (-1), 0, 0, 1|exists 1, 0, 0, 1]; (split; [reflexivity|ring]).
Qed.
Lemma uni_gs x : irr x -> uni x (gs x).
Proof.
  intros I. exists 0, 1, 1, (- fl x). split; [lia|]. rewrite opp_IZR. unfold gs. field. pose proof (irr_Z x (fl x) I). lra.
Qed.
Lemma uni_cq n x : irr x -> uni x (cq n x).
Proof.
  intros I. induction n as [|n IH]; [apply uni_abs|]. change (cq (S n) x) with (gs (cq n x)).
  apply (uni_trans _ (cq n x)); auto. apply uni_gs. apply (uni_irr x); auto.
Qed.
Lemma eqv_uni x y : irr x -> irr y -> eqv x y -> uni x y.
Proof. intros I J (i & j & E). apply (uni_trans _ (cq i x)); [auto|apply uni_cq; auto|]. rewrite E. apply uni_sym, uni_cq. auto. Qed.

Lemma uni_eqv_aux n : forall x y a b c d, Z.abs c <= Z.of_nat n -> irr x -> irr y -> Z.abs (a * d - b * c) = 1 ->
  (y * (IZR c * x + IZR d) = IZR a * x + IZR b)%R -> eqv x y.
Proof.
  induction n as [|n IH]; intros x y a b c d Hc I J D E.
  - assert (c = 0) by lia. subst c. replace (a * d - b * 0) with (a * d) in D by ring.
    assert (Cx : a * d = 1 \/ a * d = -1) by lia.
    assert (Cd : d = 1 \/ d = -1).
    { destruct Cx as [K|K]; [apply (Z.eq_mul_1 d a); lia|]. apply (Z.eq_mul_1 d (- a)). lia. }
    assert (Y : y = (IZR (d * b) + IZR (a * d) * x)%R). { rewrite !mult_IZR. destruct Cd as [-> | ->]; lra. }
    rewrite Y. destruct Cx as [-> | ->].
    + rewrite Rmult_1_l. apply eqv_add. auto.
    + apply (eqv_trans _ (- x)); [apply eqv_opp|]. replace (-1 * x)%R with (- x)%R by ring. apply eqv_add, irr_opp. auto.
  - destruct (Z.eq_dec c 0) as [Z0|Z0]; [apply (IH x y a b c d); auto; lia|].
    set (q := a / c). set (r := a mod c).
    assert (DM : a = c * q + r) by (apply Z.div_mod; auto). assert (Rb : Z.abs r < Z.abs c) by (pose proof (Z.mod_bound_or a c Z0); unfold r; lia). clearbody q r.
    set (w := (IZR (- q) + y)%R). assert (W : irr w) by (apply irr_add; auto).
    apply (eqv_trans _ (/ w)).
    + apply (IH x (/ w)%R c d r (b - q * d)); [lia|auto|apply irr_inv; auto| |].
      * rewrite <- D, <- Z.abs_opp. f_equal. rewrite DM. ring.
      * pose proof (irr_nz w W) as Wn. assert (F : (IZR r * x + IZR (b - q * d) = w * (IZR c * x + IZR d))%R).
        { unfold w. rewrite Rmult_plus_distr_r, E, DM, plus_IZR, minus_IZR, opp_IZR, !mult_IZR. ring. }
        rewrite F. field. auto.
    + apply eqv_sym, (eqv_trans _ w); [apply eqv_add; auto|apply eqv_inv; auto].
Qed.
Lemma uni_eqv x y : irr x -> uni x y -> eqv x y.
Proof.
  intros I U. pose proof (uni_irr x y I U) as J. destruct U as (a & b & c & d & D & E). apply (uni_eqv_aux (Z.to_nat (Z.abs c)) x y a b c d); auto. lia.
Qed.

(** fractions *)
Lemma cpos_lim_pos f : cpos f -> (0 < lim f)%R.
Proof.
  intros Cf. rewrite lim_step by auto. pose proof (lim_gt1_shift _ Cf). assert (0 < / lim (shift f))%R by (apply Rinv_0_lt_compat; lra).
  pose proof (proj1 Cf) as C0. apply IZR_le in C0. lra.
Qed.
Lemma gs_lim f : cpos f -> gs (lim f) = lim (shift f).
Proof.
  intros Cf. pose proof (lim_gt1_shift _ Cf) as L. pose proof (lim_step f Cf) as S1.
  assert (I : (0 < / lim (shift f) < 1)%R) by (split; [apply Rinv_0_lt_compat; lra|rewrite <- Rinv_1; apply Rinv_lt_contravar; lra]).
  unfold gs. rewrite (fl_is (lim f) (f 0%nat)) by (unfold isfloor; lra). rewrite S1. replace (IZR (f 0%nat) + / lim (shift f) - IZR (f 0%nat))%R with (/ lim (shift f))%R by ring. apply Rinv_inv.
Qed.
Lemma cq_cf x n : wfcf x -> ~ finite x -> cq n (cf_val x) = lim (shiftn n (cseq x)).
Proof.
  intros W F. pose proof (wfcf_cpos x W) as C. induction n as [|n IH].
  - change (Rabs (cf_val x) = lim (cseq x)). rewrite (cf_val_inf x F), Rabs_mult. pose proof (cpos_lim_pos _ C). rewrite (Rabs_right (lim _)) by lra.
    destruct (negative x); cbn [sgnb]; [rewrite Rabs_left by lra|rewrite Rabs_right by lra]; lra.
  - change (cq (S n) (cf_val x)) with (gs (cq n (cf_val x))). rewrite IH, gs_lim by (apply cpos_shiftn; auto).
    apply lim_ext. intros k. rewrite shiftn_shift. reflexivity.
Qed.
Lemma cf_irr x : wfcf x -> ~ finite x -> irr (cf_val x).
Proof.
  intros W F n d Hd E. rewrite (cf_val_inf x F) in E. pose proof (wfcf_cpos x W) as C. assert (D : IZR d <> 0%R) by (apply not_0_IZR; auto).
  destruct (negative x); cbn [sgnb] in E.
  - apply (lim_irrational _ (- n) d C Hd). rewrite opp_IZR. replace (lim (cseq x)) with (- (-1 * lim (cseq x)))%R by ring. rewrite E. field. auto.
  - apply (lim_irrational _ n d C Hd). lra.
Qed.
Lemma eqv_tails x y : wfcf x -> wfcf y -> ~ finite x -> ~ finite y ->
  eqv (cf_val x) (cf_val y) <-> exists i j, forall n, coeff_at x (i + n) = coeff_at y (j + n).
Proof.
  intros Wx Wy Fx Fy. split; intros (i & j & E); exists i, j.
  - intros n. rewrite !coeff_cseq by auto. f_equal. rewrite !cq_cf in E by auto.
    pose proof (lim_inj n _ _ (cpos_shiftn i _ (wfcf_cpos x Wx)) (cpos_shiftn j _ (wfcf_cpos y Wy)) E) as H. rewrite !shiftn_at in H. exact H.
  - rewrite !cq_cf by auto. apply lim_ext. intros n. rewrite !shiftn_at. specialize (E n). rewrite !coeff_cseq in E by auto. congruence.
Qed.

(** rotations *)
Lemma pseq_mul p k n : p <> nil -> pseq p (k * length p + n) = pseq p n.
Proof. intros H. induction k as [|k IH]; [reflexivity|]. replace (S k * length p + n)%nat with (length p + (k * length p + n))%nat by lia. rewrite pseq_period; auto. Qed.
Lemma pseq_rot l1 l2 n : l1 ++ l2 <> nil -> pseq (l1 ++ l2) (length l1 + n) = pseq (l2 ++ l1) n.
Proof.
  intros H. assert (H' : l2 ++ l1 <> nil) by (intros E; apply H; apply app_eq_nil in E; destruct E; subst; reflexivity).
  assert (L : length (l1 ++ l2) = length (l2 ++ l1)) by (rewrite !app_length; lia). assert (L0 : length (l2 ++ l1) <> 0%nat) by (destruct (l2 ++ l1); [congruence|cbn; lia]).
  pose proof (Nat.div_mod n (length (l2 ++ l1)) L0) as DM. pose proof (Nat.mod_upper_bound n (length (l2 ++ l1)) L0) as B.
  set (q := (n / length (l2 ++ l1))%nat) in *. set (m := (n mod length (l2 ++ l1))%nat) in *. clearbody q m. subst n.
  replace (length (l2 ++ l1) * q + m)%nat with (q * length (l2 ++ l1) + m)%nat by lia. rewrite (pseq_mul (l2 ++ l1) q m H').
  replace (length l1 + (q * length (l2 ++ l1) + m))%nat with (q * length (l1 ++ l2) + (length l1 + m))%nat by lia. rewrite (pseq_mul (l1 ++ l2) q _ H).
  rewrite (pseq_nth (l2 ++ l1)) by auto. rewrite app_length in B. destruct (Nat.lt_ge_cases m (length l2)) as [M|M].
  - rewrite pseq_nth by (rewrite app_length; lia). rewrite app_nth2, app_nth1 by lia. f_equal. lia.
  - replace (length l1 + m)%nat with (length (l1 ++ l2) + (m - length l2))%nat by (rewrite app_length; lia). rewrite pseq_period by auto.
    rewrite pseq_nth by (rewrite app_length; lia). rewrite (app_nth2 l2), app_nth1 by lia. reflexivity.
Qed.

(** the period of a fraction with the fewest coefficients is not longer than any period its tails have *)
Lemma cseq_many x k n : ~ finite x -> (lena x <= n)%nat -> cseq x (k * length (p_coeffs x) + n) = cseq x n.
Proof.
  intros F H. replace (k * length (p_coeffs x) + n)%nat with (lena x + (k * length (p_coeffs x) + (n - lena x)))%nat by lia.
  rewrite cseq_p, pseq_mul, <- cseq_p by auto. f_equal. lia.
Qed.
Lemma short_le x (j L : nat) : wfcf x -> ~ finite x ->
  (forall y, wfcf y -> ~ finite y -> cf_val y = cf_val x -> (length (p_coeffs x) <= length (p_coeffs y))%nat) ->
  (1 <= j)%nat -> (1 <= L)%nat -> (forall n, cseq x (j + (L + n)) = cseq x (j + n)) -> (length (p_coeffs x) <= L)%nat.
Proof.
  intros W F Sh Hj HL Per. pose proof (wfcf_cpos x W) as C.
  set (y := CF (map (cseq x) (seq 0 j)) (map (cseq x) (seq j L)) (negative x)).
  assert (Fy : ~ finite y). { unfold finite, y. cbn [p_coeffs]. destruct L; [lia|]. cbn. discriminate. }
  assert (Wy : wfcf y).
  { unfold wfcf, y. cbn [a_coeffs p_coeffs]. destruct j as [|j]; [lia|]. cbn [seq map]. split; [apply C|].
    split; apply Forall_forall; intros v Hv; apply in_map_iff in Hv; destruct Hv as (k & <- & Hk); apply in_seq in Hk; (destruct k; [lia|apply C]). }
  assert (Ly : lena y = j) by (unfold lena, y; cbn [a_coeffs]; rewrite map_length, seq_length; reflexivity).
  assert (Lp : length (p_coeffs y) = L) by (unfold y; cbn [p_coeffs]; rewrite map_length, seq_length; reflexivity).
  assert (nthm : forall m b s, (m < b)%nat -> nth m (map (cseq x) (seq s b)) 1 = cseq x (s + m)%nat).
  { intros m b s Hm. rewrite (nth_indep _ 1 (cseq x 0%nat)) by (rewrite map_length, seq_length; auto). rewrite map_nth, seq_nth by auto. reflexivity. }
  assert (Perq : forall q n, cseq x (j + (q * L + n)) = cseq x (j + n)).
  { induction q as [|q IH]; intros n; [reflexivity|]. replace (S q * L + n)%nat with (L + (q * L + n))%nat by lia. rewrite Per. apply IH. }
  assert (Sq : forall n, cseq y n = cseq x n).
  { intros n. destruct (Nat.lt_ge_cases n j) as [H|H].
    - rewrite cseq_a by lia. unfold y. cbn [a_coeffs]. apply nthm. auto.
    - replace n with (lena y + (n - j))%nat at 1 by lia. rewrite cseq_p by auto.
      pose proof (Nat.div_mod (n - j) L ltac:(lia)) as DM. pose proof (Nat.mod_upper_bound (n - j) L ltac:(lia)) as B.
      set (q := ((n - j) / L)%nat) in *. set (m := ((n - j) mod L)%nat) in *. clearbody q m.
      replace n with (j + (q * L + m))%nat by lia. replace (j + (q * L + m) - j)%nat with (q * length (p_coeffs y) + m)%nat by (rewrite Lp; lia).
      rewrite pseq_mul by exact Fy. rewrite pseq_nth by lia. rewrite Perq. unfold y. cbn [p_coeffs]. apply nthm. auto. }
  rewrite <- Lp. apply Sh; auto. rewrite (cf_val_inf y Fy), (cf_val_inf x F). cbn [y negative]. f_equal. apply lim_ext. exact Sq.
Qed.

Lemma tails_rot x y : wfcf x -> wfcf y -> ~ finite x -> ~ finite y ->
  (forall z, wfcf z -> ~ finite z -> cf_val z = cf_val x -> (length (p_coeffs x) <= length (p_coeffs z))%nat) ->
  (forall z, wfcf z -> ~ finite z -> cf_val z = cf_val y -> (length (p_coeffs y) <= length (p_coeffs z))%nat) ->
  (exists i j, forall n, coeff_at x (i + n) = coeff_at y (j + n)) <-> rotation (p_coeffs x) (p_coeffs y).
Proof.
  intros Wx Wy Fx Fy Sx Sy. assert (Px : (1 <= length (p_coeffs x))%nat) by (unfold finite in Fx; destruct (p_coeffs x); [congruence|cbn; lia]).
  assert (Py : (1 <= length (p_coeffs y))%nat) by (unfold finite in Fy; destruct (p_coeffs y); [congruence|cbn; lia]).
  split.
  - intros (i & j & T). assert (T' : forall n, cseq x (lena x + (i + S (lena y) + n)) = cseq y (lena y + (j + S (lena x) + n))).
    { intros n. specialize (T (lena x + S (lena y) + n)%nat). rewrite !coeff_cseq in T by auto.
      assert (T2 : cseq x (i + (lena x + S (lena y) + n)) = cseq y (j + (lena x + S (lena y) + n))) by congruence.
      etransitivity; [|etransitivity; [exact T2|]]; f_equal; lia. }
    clear T. set (u := (i + S (lena y))%nat) in *. set (v := (j + S (lena x))%nat) in *. assert (U : (1 <= u)%nat) by lia. assert (V : (1 <= v)%nat) by lia. clearbody u v.
    assert (L : length (p_coeffs x) = length (p_coeffs y)).
    { apply Nat.le_antisymm.
      - apply (short_le x (lena x + u)); auto; [lia|]. intros n. rewrite <- !Nat.add_assoc, !T'.
        replace (lena y + (v + (length (p_coeffs y) + n)))%nat with (1 * length (p_coeffs y) + (lena y + (v + n)))%nat by lia. apply cseq_many; auto. lia.
      - apply (short_le y (lena y + v)); auto; [lia|]. intros n. rewrite <- !Nat.add_assoc, <- !T'.
        replace (lena x + (u + (length (p_coeffs x) + n)))%nat with (1 * length (p_coeffs x) + (lena x + (u + n)))%nat by lia. apply cseq_many; auto. lia. }
    assert (P : forall n, pseq (p_coeffs x) (u + n) = pseq (p_coeffs y) (v + n)) by (intros n; rewrite <- !cseq_p by auto; apply T').
    set (M := length (p_coeffs y)) in *. set (w := (u + (M - 1) * v)%nat).
    assert (Q : forall k, pseq (p_coeffs y) k = pseq (p_coeffs x) (w + k)).
    { intros k. rewrite <- (pseq_mul (p_coeffs y) v k Fy). fold M. replace (v * M + k)%nat with (v + ((M - 1) * v + k))%nat by nia. rewrite <- P. f_equal. unfold w. lia. }
    pose proof (Nat.div_mod w M ltac:(lia)) as DM. pose proof (Nat.mod_upper_bound w M ltac:(lia)) as B.
    set (e := (w mod M)%nat) in *. set (q := (w / M)%nat) in *. clearbody w e q.
    exists (firstn e (p_coeffs x)), (skipn e (p_coeffs x)). split; [symmetry; apply firstn_skipn|].
    assert (Ls : length (skipn e (p_coeffs x) ++ firstn e (p_coeffs x)) = M) by (rewrite app_length, skipn_length, firstn_length; lia).
    apply (nth_ext _ _ 1 1); [fold M; lia|]. intros k Hk. fold M in Hk. rewrite <- pseq_nth, Q by auto. subst w.
    replace (M * q + e + k)%nat with (q * length (p_coeffs x) + (e + k))%nat by (rewrite L; lia). rewrite (pseq_mul _ _ _ Fx).
    rewrite <- pseq_nth by lia. rewrite <- pseq_rot by (rewrite firstn_skipn; exact Fx). rewrite firstn_skipn. f_equal. rewrite firstn_length. lia.
  - intros (l1 & l2 & E1 & E2). exists (lena x + length l1)%nat, (lena y). intros n. rewrite !coeff_cseq by auto. f_equal.
    rewrite <- Nat.add_assoc, !cseq_p, E1, E2 by auto. apply pseq_rot. intros E. apply Fx. unfold finite. congruence.
Qed.
