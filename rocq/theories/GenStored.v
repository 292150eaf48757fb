(** * GenStored: the coefficients of stored continued fractions and other sources. *)

From Coq Require Import ZArith Reals Lia Lra Psatz Bool List.
From Coquelicot Require Import Coquelicot.
From Verif Require Import Base Ext ModelBlock ModelCF ModelGen Spec SpecCF SpecGen NumFacts RatioFacts CFCore CFSeq CFIter CFBasic GenBlock GenSound GenConv GenTail GenLive GenMisc GenBihomo.
Import ListNotations.
Open Scope Z_scope.

(** ** Stored fractions *)
Definition sseq (x : cf) (n : nat) : Z := sgnb (negative x) * cseq x n.

Lemma fit_at u x : coeffs_fit u x -> forall j v, coeff_at x j = Some v -> sfit u v.
Proof.
  intros [A P] j v E. unfold coeff_at in E. apply nth_error_In, in_app_or in E. rewrite List.Forall_forall in A, P. destruct E as [E|E]; [auto|].
  apply in_concat in E. destruct E as (l & L & E). apply repeat_spec in L. subst l. auto.
Qed.

Lemma stored_yields u x : coeffs_fit u x -> ~ finite x -> yields (signed_next u) (cf_coeffs x) (sseq x).
Proof.
  intros F N n. rewrite signed_nth by (intros; eapply fit_at; eauto). unfold signed_items, sseq, cseq. destruct (coeff_at_inf x n N) as [v ->]. reflexivity.
Qed.

Lemma stored_pairs u x : coeffs_fit u x -> ~ finite x -> yields (general_next u) (cf_generalized x) (fun n => (1, sseq x n)).
Proof.
  intros F N n. rewrite general_nth by (intros; eapply fit_at; eauto). unfold pair_items, sseq, cseq. destruct (coeff_at_inf x n N) as [v ->]. reflexivity.
Qed.

Lemma sgnb_sq b : sgnb b * sgnb b = 1. Proof. destruct b; reflexivity. Qed.

Lemma stored_signed x : wfcf x -> csigned (sgnb (negative x)) (sseq x).
Proof.
  intros W. assert (E : forall n, sgnb (negative x) * sseq x n = cseq x n) by (intros n; unfold sseq; rewrite Z.mul_assoc, sgnb_sq; lia).
  destruct (wfcf_cpos x W) as [H0 HS]. split; [rewrite E; auto|]. intros [|n] Hn; [lia|]. rewrite E. apply HS.
Qed.

Lemma stored_converges x : wfcf x -> ~ finite x -> cconverges (sseq x) (cf_val x).
Proof.
  intros W N. rewrite cf_val_inf by auto. pose proof (wfcf_cpos x W) as HC. pose proof (cconverges_lim _ HC) as C.
  apply (is_lim_seq_ext (fun n => IZR (sgnb (negative x)) * gval (prefix (fun n => (1%Z, cseq x n)) (S n)))%R).
  - intros n. unfold sseq. rewrite (gval_sign (sgnb (negative x))) by apply sgnb_cases. reflexivity.
  - apply (is_lim_seq_mult _ _ (IZR (sgnb (negative x))) (lim (cseq x))); [apply is_lim_seq_const|exact C|reflexivity].
Qed.

Lemma stored_irrational x : wfcf x -> ~ finite x -> irrational (cf_val x).
Proof.
  intros W N p q Hq E. rewrite cf_val_inf in E by auto. apply (lim_irrational (cseq x) (sgnb (negative x) * p) q (wfcf_cpos x W) Hq).
  rewrite mult_IZR. assert (Nq : IZR q <> 0%R) by (apply not_0_IZR; auto).
  replace (IZR (sgnb (negative x)) * IZR p / IZR q)%R with (IZR (sgnb (negative x)) * (IZR p / IZR q))%R by (field; auto). rewrite <- E, <- Rmult_assoc, <- mult_IZR, sgnb_sq. ring.
Qed.

(** ** bihomo *)
Lemma bihomo_start {Y} (ynext : Y -> res (option Z * Y)) it s x y a b c d e f g h : (0 < x)%R -> yields ynext it s -> csigned 1 s -> cconverges s y ->
  nonneg4 e f g h -> (IZR e * (x * y) + IZR f * x + IZR g * y + IZR h <> 0)%R ->
  dlive ynext x (DBlock a b c d e f g h) it ((IZR a * (x * y) + IZR b * x + IZR c * y + IZR d) / (IZR e * (x * y) + IZR f * x + IZR g * y + IZR h)).
Proof.
  intros Hx Ys A C P D. exists y, 1%R. split.
  - exists s. split; [auto|]. split; [auto|]. split; [rewrite Rmult_1_l; auto|reflexivity].
  - unfold dalive, dsame, dnum, dden, lin4. cbn [pm11 pm12 pm21 pm22 qm11 qm12 qm21 qm22]. rewrite !Rmult_1_r. split; [left; left; auto|]. auto.
Qed.

(** ** The coefficients of sqrt 2: 1, 2, 2, 2, ... *)
Definition root2 (n : nat) : Z := match n with O => 1 | S _ => 2 end.
Definition two (n : nat) : Z := 2.

Lemma two_value x : cconverges two x -> x = (1 + sqrt 2)%R.
Proof.
  intros C. destruct (ctail 1 two x (or_introl eq_refl) ltac:(intros; unfold two; lia) C) as (y & Cy & Py & Ey).
  change (GenConv.shift two) with two in Cy. rewrite (cconverges_unique _ _ _ Cy C) in *. rewrite Rmult_1_l in Py. unfold two in Ey.
  assert (K : (x * x = 2 * x + 1)%R) by (rewrite Ey at 1; field; lra).
  assert (sqrt 2 = x - 1)%R; [|lra]. apply sqrt_lem_1; [lra|lra|]. lra.
Qed.

Lemma root2_conv : cconverges root2 (sqrt 2).
Proof.
  destruct (signed_converges 1 root2 (or_introl eq_refl)) as (x & C & _); [intros [|n] Hn; cbn; lia|].
  destruct (ctail 1 root2 x (or_introl eq_refl) ltac:(intros [|n] Hn; cbn; lia) C) as (y & Cy & Py & Ey).
  change (GenConv.shift root2) with two in Cy. rewrite (two_value y Cy) in *.
  assert (E : x = sqrt 2); [|rewrite <- E; auto]. rewrite Ey. cbn [root2]. assert (0 < sqrt 2)%R by (apply sqrt_lt_R0; lra).
  assert (S2 : (sqrt 2 * sqrt 2 = 2)%R) by (apply sqrt_sqrt; lra).
  apply (Rmult_eq_reg_r (1 + sqrt 2)); [|lra]. rewrite Rmult_plus_distr_r, Rinv_l by lra. lra.
Qed.

Lemma root2_signed : csigned 1 root2.
Proof. split; [cbn; lia|]. intros [|n] Hn; cbn; lia. Qed.
