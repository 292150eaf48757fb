(** * CFOrder: comparing coefficients compares numbers. *)

From Coq Require Import ZArith Reals Lia Lra Bool List Arith.
From Coquelicot Require Import Coquelicot.
From Verif Require Import Base Ext ModelSurd ModelBlock ModelCF Spec SpecCF SpecOrder NumFacts CFAny CFBasic CFPeriod CFSerret ClaimsApi.
From Verif Require Import CFCore CFSeq.
Import ListNotations.
Open Scope Z_scope.

(** the coefficients of a real number *)
Fixpoint dg (u : R) (n : nat) : option Z :=
  match n with
  | O => Some (fl u)
  | S n => if Req_EM_T u (IZR (fl u)) then None else dg (gs u) n
  end.

Lemma dg_order n : forall u v, (forall k, (k < n)%nat -> dg u k = dg v k) -> below (dg u n) (dg v n) -> if Nat.even n then (u < v)%R else (v < u)%R.
Proof.
  induction n as [|n IH]; intros u v A B.
  - cbn [dg below Nat.even] in *. pose proof (fl_ok u) as U. pose proof (fl_ok v) as V. unfold isfloor in *. assert (L : fl u + 1 <= fl v) by lia. apply IZR_le in L. rewrite plus_IZR in L. lra.
  - assert (E : fl u = fl v) by (specialize (A 0%nat ltac:(lia)); cbn [dg] in A; congruence).
    pose proof (fl_ok u) as U. pose proof (fl_ok v) as V. unfold isfloor in *. rewrite <- E in V.
    assert (Gs : forall w, w <> IZR (fl w) -> (IZR (fl w) <= w)%R -> (0 < gs w)%R /\ w = (IZR (fl w) + / gs w)%R).
    { intros w Nw Lw. unfold gs. split; [apply Rinv_0_lt_compat; lra|]. rewrite Rinv_inv. ring. }
    cbn [dg] in B. destruct (Req_EM_T u (IZR (fl u))) as [Iu|Iu]; [destruct B|].
    destruct (Gs u Iu ltac:(lra)) as [Pu Eu]. rewrite Nat.even_succ, <- Nat.negb_even.
    destruct (Req_EM_T v (IZR (fl v))) as [Iv|Iv].
    + (* [u] goes on, [v] has ended: there is no agreement beyond *)
      destruct n as [|n]; [cbn; rewrite <- E in Iv; lra|]. exfalso. specialize (A 1%nat ltac:(lia)). cbn [dg] in A.
      destruct (Req_EM_T u (IZR (fl u))); [contradiction|]. destruct (Req_EM_T v (IZR (fl v))); [discriminate|contradiction].
    + destruct (Gs v Iv ltac:(rewrite <- E; lra)) as [Pv Ev]. rewrite <- E in Ev.
      assert (A' : forall k, (k < n)%nat -> dg (gs u) k = dg (gs v) k).
      { intros k Hk. specialize (A (S k) ltac:(lia)). cbn [dg] in A. destruct (Req_EM_T u (IZR (fl u))); [contradiction|]. destruct (Req_EM_T v (IZR (fl v))); [contradiction|]. exact A. }
      specialize (IH (gs u) (gs v) A' B).
      assert (Inv : forall a b, (0 < a)%R -> (a < b)%R -> (/ b < / a)%R) by (intros a b Pa Lab; apply Rinv_lt_contravar; [apply Rmult_lt_0_compat; lra|lra]).
      destruct (Nat.even n); cbn [negb]; [pose proof (Inv _ _ Pu IH)|pose proof (Inv _ _ Pv IH)]; lra.
Qed.

Lemma dg_list n : forall l, l <> nil -> 0 <= hd 0 l -> List.Forall (fun v => 1 <= v) (tl l) -> ((length l > 1)%nat -> last l 0 <> 1) -> dg (cfl l) n = nth_error l n.
Proof.
  induction n as [|n IH]; intros l N H0 HF HL.
  - destruct l as [|a [|b l]]; [congruence|cbn; f_equal; apply fl_is; unfold isfloor; lra|]. cbn [dg nth_error]. f_equal. apply fl_is. rewrite cfl_cons by discriminate.
    assert (G : (1 < cfl (b :: l))%R) by (apply cfl_gt1; [discriminate|exact HF|apply HL; cbn; lia]).
    assert (P : (0 < / cfl (b :: l) < 1)%R) by (split; [apply Rinv_0_lt_compat; lra|rewrite <- Rinv_1; apply Rinv_lt_contravar; lra]). unfold isfloor. lra.
  - destruct l as [|a [|b l]]; [congruence| |].
    + cbn [cfl dg nth_error]. rewrite (fl_is (IZR a) a) by (unfold isfloor; lra). destruct (Req_EM_T (IZR a) (IZR a)); [|congruence]. destruct n; reflexivity.
    + cbn [tl] in HF. rewrite cfl_cons by discriminate. assert (G : (1 < cfl (b :: l))%R) by (apply cfl_gt1; [discriminate|exact HF|apply HL; cbn; lia]).
      assert (P : (0 < / cfl (b :: l) < 1)%R) by (split; [apply Rinv_0_lt_compat; lra|rewrite <- Rinv_1; apply Rinv_lt_contravar; lra]).
      assert (E : fl (IZR a + / cfl (b :: l)) = a) by (apply fl_is; unfold isfloor; lra).
      cbn [dg]. rewrite E. destruct (Req_EM_T (IZR a + / cfl (b :: l)) (IZR a)) as [K|K]; [lra|].
      unfold gs. rewrite E. replace (IZR a + / cfl (b :: l) - IZR a)%R with (/ cfl (b :: l))%R by ring. rewrite Rinv_inv.
      change (nth_error (a :: b :: l) (S n)) with (nth_error (b :: l) n). inversion HF as [|b' l' Hb Hl']; subst. apply IH; [discriminate|cbn [hd]; lia|exact Hl'|].
      intros Hl. assert (Q : last (b :: l) 0 = last (a :: b :: l) 0) by reflexivity. rewrite Q. apply HL. cbn in *. lia.
Qed.
Lemma dg_lim n : forall f, cpos f -> dg (lim f) n = Some (f n).
Proof.
  induction n as [|n IH]; intros f C; pose proof (lim_gt1_shift _ C) as G; pose proof (lim_step f C) as S1;
    assert (P : (0 < / lim (shift f) < 1)%R) by (split; [apply Rinv_0_lt_compat; lra|rewrite <- Rinv_1; apply Rinv_lt_contravar; lra]);
    assert (E : fl (lim f) = f 0%nat) by (apply fl_is; unfold isfloor; lra).
  - cbn [dg]. rewrite E. reflexivity.
  - cbn [dg]. rewrite E. destruct (Req_EM_T (lim f) (IZR (f 0%nat))) as [K|K]; [lra|]. rewrite gs_lim, IH by auto using cpos_shift. reflexivity.
Qed.

Lemma nth_same (l : list Z) : forall m, (forall n, nth_error l n = nth_error m n) -> l = m.
Proof.
  induction l as [|a l IH]; intros [|b m] H; [reflexivity|specialize (H 0%nat); discriminate|specialize (H 0%nat); discriminate|].
  assert (E : a = b) by (specialize (H 0%nat); cbn in H; congruence). subst b. f_equal. apply IH. intros n. exact (H (S n)).
Qed.

Definition mag (x : cf) : R := match p_coeffs x with nil => cfl (a_coeffs x) | _ => lim (cseq x) end.
Lemma val_mag x : cf_val x = (IZR (sgnb (negative x)) * mag x)%R.
Proof.
  unfold mag. destruct (finite_dec x) as [F|F].
  - unfold cf_val. unfold finite in F. rewrite F. reflexivity.
  - rewrite (cf_val_inf x F). unfold finite in F. destruct (p_coeffs x); [congruence|reflexivity].
Qed.
Lemma coeff_fin x n : finite x -> coeff_at x n = nth_error (a_coeffs x) n.
Proof.
  intros F. unfold coeff_at. rewrite F. assert (E : forall m, concat (repeat (@nil Z) m) = nil) by (induction m; [reflexivity|cbn; auto]). rewrite E, app_nil_r. reflexivity.
Qed.
Lemma coeff_dg x n : canonical x -> coeff_at x n = dg (mag x) n.
Proof.
  intros (W & L & _). unfold mag. destruct (finite_dec x) as [F|F].
  - rewrite (coeff_fin x n F). unfold finite in F. rewrite F. symmetry. unfold wfcf in W. specialize (L F). destruct (a_coeffs x) as [|a l] eqn:A; [destruct W|].
    apply dg_list; [discriminate|cbn [hd]; lia|cbn [tl]; tauto|exact L].
  - rewrite (coeff_cseq x n F). rewrite <- (dg_lim n _ (wfcf_cpos x W)). unfold finite in F. destruct (p_coeffs x); [congruence|reflexivity].
Qed.
Lemma mag_same x y : (forall n, coeff_at x n = coeff_at y n) -> mag x = mag y.
Proof.
  intros H. unfold mag. destruct (finite_dec x) as [F|F], (finite_dec y) as [G|G].
  - assert (E : a_coeffs x = a_coeffs y).
    { apply nth_same. intros n. rewrite <- !coeff_fin by auto. apply H. }
    unfold finite in F, G. rewrite F, G, E. reflexivity.
  - exfalso. specialize (H (length (a_coeffs x))). rewrite (coeff_fin x _ F), (coeff_cseq y _ G) in H. assert (N : nth_error (a_coeffs x) (length (a_coeffs x)) = None) by (apply nth_error_None; lia). congruence.
  - exfalso. specialize (H (length (a_coeffs y))). rewrite (coeff_fin y _ G), (coeff_cseq x _ F) in H. assert (N : nth_error (a_coeffs y) (length (a_coeffs y)) = None) by (apply nth_error_None; lia). congruence.
  - assert (E : lim (cseq x) = lim (cseq y)). { apply lim_ext. intros n. specialize (H n). rewrite (coeff_cseq x n F), (coeff_cseq y n G) in H. congruence. }
    unfold finite in F, G. destruct (p_coeffs x); [congruence|]. destruct (p_coeffs y); [congruence|]. exact E.
Qed.

Lemma opt_dec (a b : option Z) : {a = b} + {a <> b}.
Proof. decide equality. apply Z.eq_dec. Qed.
Lemma first_diff (f h : nat -> option Z) n : f n <> h n -> exists m, (forall k, (k < m)%nat -> f k = h k) /\ f m <> h m.
Proof.
  induction n as [n IH] using (well_founded_induction lt_wf). intros H.
  assert (D : (exists k, (k < n)%nat /\ f k <> h k) \/ forall k, (k < n)%nat -> f k = h k).
  { clear. induction n as [|n [(k & Hk & D)|A]]; [right; lia|left; exists k; split; [lia|auto]|]. destruct (opt_dec (f n) (h n)) as [E|E]; [right|left; exists n; split; [lia|auto]].
    intros k Hk. destruct (Nat.eq_dec k n) as [->|]; [auto|apply A; lia]. }
  destruct D as [(k & Hk & D)|D]; [apply (IH k Hk D)|exists n; auto].
Qed.
Lemma below_total a b : a <> b -> below a b \/ below b a.
Proof. destruct a as [a|], b as [b|]; cbn; intros H; [|auto|auto|congruence]. assert (a <> b) by congruence. lia. Qed.

Lemma precedes_mag x y : canonical x -> canonical y -> precedes x y -> (mag x < mag y)%R.
Proof.
  intros Cx Cy (n & A & B).
  assert (A1 : forall k, (k < n)%nat -> dg (mag x) k = dg (mag y) k) by (intros k Hk; rewrite <- !coeff_dg by auto; apply A; auto).
  rewrite !coeff_dg in B by auto. destruct (Nat.even n) eqn:E.
  - pose proof (dg_order n _ _ A1 B) as H. rewrite E in H. exact H.
  - assert (A2 : forall k, (k < n)%nat -> dg (mag y) k = dg (mag x) k) by (intros; symmetry; auto). pose proof (dg_order n _ _ A2 B) as H. rewrite E in H. exact H.
Qed.
Lemma three x y : canonical x -> canonical y -> precedes x y \/ precedes y x \/ forall n, coeff_at x n = coeff_at y n.
Proof.
  intros Cx Cy. destruct (ClassicalDedekindReals.sig_forall_dec (fun n => coeff_at x n = coeff_at y n) (fun n => opt_dec _ _)) as [[n N]|A]; [|auto].
  destruct (first_diff (coeff_at x) (coeff_at y) n N) as (m & A & D). destruct (below_total _ _ D) as [B|B]; destruct (Nat.even m) eqn:E.
  - left. exists m. rewrite E. auto.
  - right. left. exists m. rewrite E. split; [intros; symmetry; auto|exact B].
  - right. left. exists m. rewrite E. split; [intros; symmetry; auto|exact B].
  - left. exists m. rewrite E. auto.
Qed.
Lemma mag_order x y : canonical x -> canonical y -> ((mag x < mag y)%R <-> precedes x y).
Proof.
  intros Cx Cy. split; [|apply precedes_mag; auto]. intros L. destruct (three x y Cx Cy) as [P|[P|P]]; [auto| |].
  - apply precedes_mag in P; auto. lra.
  - apply mag_same in P. lra.
Qed.
Lemma mag_nonneg x : wfcf x -> (0 <= mag x)%R.
Proof.
  intros W. destruct (a_coeffs x) as [|a l] eqn:A; [unfold wfcf in W; rewrite A in W; destruct W|]. destruct (cf_head x a l W A) as (f & E & B & _). rewrite val_mag in E.
  unfold wfcf in W. rewrite A in W. destruct W as (H0 & _). apply IZR_le in H0. destruct (negative x); cbn [sgnb] in E; lra.
Qed.
Lemma mag_neg x : canonical x -> negative x = true -> (0 < mag x)%R.
Proof.
  intros (W & _ & Z) N. pose proof (mag_nonneg x W) as P. destruct (Rle_lt_or_eq_dec _ _ P) as [L|L]; [auto|]. exfalso.
  destruct (a_coeffs x) as [|a l] eqn:A; [unfold wfcf in W; rewrite A in W; destruct W|]. destruct (cf_head x a l W A) as (f & E & B & _ & B0). rewrite val_mag, <- L, N in E.
  pose proof W as W'. unfold wfcf in W'. rewrite A in W'. destruct W' as (H0 & _). pose proof H0 as H0'. apply IZR_le in H0'. cbn [sgnb] in E.
  assert (f = 0%R) by lra. apply B0 in H. destruct H as [-> P0]. assert (Ia : IZR a = 0%R) by lra. apply eq_IZR in Ia. subst a. specialize (Z eq_refl P0). congruence.
Qed.
Lemma val_order x y : canonical x -> canonical y -> ((cf_val x < cf_val y)%R <-> comes_before x y).
Proof.
  intros Cx Cy. rewrite !val_mag. unfold comes_before. pose proof (mag_nonneg x (proj1 Cx)) as Px. pose proof (mag_nonneg y (proj1 Cy)) as Py.
  destruct (negative x) eqn:Nx, (negative y) eqn:Ny; cbn [sgnb].
  - rewrite <- (mag_order y x Cy Cx). lra.
  - pose proof (mag_neg x Cx Nx). split; [auto|lra].
  - pose proof (mag_neg y Cy Ny). split; [lra|intros []].
  - rewrite <- (mag_order x y Cx Cy). lra.
Qed.
