(** * CFReturn: a way to convert every periodic continued fraction to a surd. *)

From Coq Require Import ZArith Reals Lia Lra Bool List Arith.
From Coquelicot Require Import Coquelicot.
From Verif Require Import Base Ext ModelSurd ModelBlock ModelCF ModelConv Spec SpecCF SpecReturn NumFacts SurdCore SurdArith SurdMisc SurdTotal SurdRoots CFNew CFBasic GenSound ClaimsSurd ClaimsCF CFRecipe.
From Verif Require Import CFCore CFSeq.
Import ListNotations.
Open Scope Z_scope.

Lemma new_one g t a p z : 0 <= a -> p <> nil -> List.Forall (fun v => 1 <= v) p -> List.Forall (fun v => fits t v = true) (a :: p) ->
  cf_new g t [a] p false = Ok z -> z = CF [a] p false.
Proof.
  intros Ha Hp P F H. inversion F as [|v l Fa Fp]; subst. destruct p as [|p0 p]; [congruence|]. inversion P as [|v l P0 P']; subst.
  assert (Q : List.Forall (fun v => 0 <= v) (p0 :: p)) by (eapply Forall_impl; [|exact P]; intros; cbn in *; lia).
  unfold cf_new in H. cbn [new_loop new_step] in H. cbn [bind] in H. destruct (Z.ltb_spec a 0); [lia|]. cbn [bind s_rev s_negative s_negate new_finish] in H.
  assert (E : forall b, (let! a' := mapM (to_unsigned t) (List.rev [a]) in let! p' := mapM (to_unsigned t) (p0 :: p) in Ok (CF a' p' b)) = Ok z -> z = CF [a] (p0 :: p) b).
  { intros b K. apply bind_Ok in K. destruct K as (a' & Ea & K). apply bind_Ok in K. destruct K as (p' & Ep & K). inversion K; subst.
    apply mapM_unsigned in Ep; [|exact Fp|exact Q]. apply mapM_unsigned in Ea; [|repeat constructor; auto|repeat constructor; auto]. subst. reflexivity. }
  destruct (a =? 0); cbn [bind] in H; [destruct (Z.leb_spec p0 0); [lia|]; cbn [bind] in H|]; apply E; exact H.
Qed.

Lemma climb_sound g u l : forall s w s', normal g s -> sval s = RtoC w -> climb g u l s = Ok s' -> normal g s' /\ sval s' = RtoC (evr l w).
Proof.
  induction l as [|a l IH]; intros s w s' N V H; cbn [climb] in H; [inversion H; subst; auto|].
  apply bind_Ok in H. destruct H as (r & Hr & H). apply bind_Ok in H. destruct H as (q & Hq & H).
  apply surd_recip_ok in Hr; [|apply (normal_okc g); auto]. destruct Hr as (D0 & Vr & Nr). pose proof (normal_okc g r Nr) as Or. apply surd_add_int_ok in Hq; auto. destruct Hq as [Vq Nq].
  assert (Wn : w <> 0%R) by (intros E; apply D0; rewrite V, E; reflexivity).
  apply (IH q (IZR a + / w)%R s' Nq); [|exact H]. rewrite Vq, Vr, V. unfold ZtoC. rewrite <- RtoC_inv by exact Wn. rewrite <- RtoC_plus. f_equal. ring.
Qed.
Lemma climb_total g u l : sty u = BigI -> forall s w, normal g s -> sval s = RtoC w -> (0 < w)%R -> List.Forall (fun v => 0 <= v) l -> returns (climb g u l s).
Proof.
  intros Eu. induction l as [|a l IH]; intros s w N V P F; cbn [climb]; [eexists; reflexivity|]. inversion F as [|v l' Fa Fl]; subst. rewrite Eu.
  assert (D0 : sval s <> RtoC 0) by (rewrite V; intros E; apply RtoC_inj in E; lra). destruct (proj2 (proj2 (L_C07_returns g s N)) D0) as [r Hr]. rewrite Hr. cbn [bind].
  apply surd_recip_ok in Hr; [|apply (normal_okc g); auto]. destruct Hr as (_ & Vr & Nr). destruct (surd_add_int_total g r (normal_wf _ _ Nr) a) as [q Hq]. rewrite Hq. cbn [bind].
  pose proof (normal_okc g r Nr) as Or. apply surd_add_int_ok in Hq; auto. destruct Hq as [Vq Nq]. apply (IH q (IZR a + / w)%R Nq).
  - rewrite Vq, Vr, V. unfold ZtoC. rewrite <- RtoC_inv by lra. rewrite <- RtoC_plus. f_equal. ring.
  - apply Rinv_0_lt_compat in P. apply IZR_le in Fa. lra.
  - exact Fl.
Qed.

Lemma split_last (x : cf) : wfcf x -> exists a l, List.rev (a_coeffs x) = a :: l /\ 0 <= a /\ List.Forall (fun v => 0 <= v) l /\ List.Forall (fun v => 1 <= v) (p_coeffs x) /\ List.Forall (fun v => 0 <= v) (tl (a_coeffs x)).
Proof.
  intros W. unfold wfcf in W. destruct (a_coeffs x) as [|a0 rest] eqn:A; [destruct W|]. destruct W as (H0 & HR & HP).
  assert (R0 : List.Forall (fun v => 0 <= v) rest) by (eapply Forall_impl; [|exact HR]; intros; cbn in *; lia).
  assert (G : List.Forall (fun v => 0 <= v) (List.rev (a0 :: rest))) by (apply Forall_rev; constructor; auto).
  destruct (List.rev (a0 :: rest)) as [|a l] eqn:E; [apply (f_equal (@length Z)) in E; rewrite rev_length in E; discriminate|].
  inversion G; subst. exists a, l. auto 6.
Qed.
Lemma sized_one u a p : p <> nil -> fits (sty u) 1 = true -> fits (sty u) a = true -> 0 <= a -> sfit u (cont p) -> surd_sized u (CF [a] p false).
Proof.
  intros Hp F1 Fa Ha Sp. unfold surd_sized. cbn [a_coeffs p_coeffs tl hd]. split; [intros F; contradiction|]. intros _. split; [exact Sp|].
  assert (K : forall v, fits (sty u) v = true -> 0 <= v -> sfit u v).
  { intros v Fv Hv. unfold sfit in *. destruct u as [| |b|b]; auto. cbn [sty fits] in Fv. lia. }
  split; apply K; auto. cbn. lia.
Qed.

Lemma return_sound g u x s : fits (sty u) 1 = true -> wfcf x -> ~ finite x -> sfit u (cont (p_coeffs x)) -> return_any g u x = Ok s -> normal g s /\ sval s = RtoC (cf_val x).
Proof.
  intros F1 W F Sp H. destruct (split_last x W) as (a & l & E & Ha & Hl & HP & HT). unfold return_any in H.
  apply bind_Ok in H. destruct H as (l' & Hl' & H). apply bind_Ok in H. destruct H as (p' & Hp' & H). apply mapM_chk in Hl', Hp'. destruct Hl' as [-> Fl], Hp' as [-> Fp].
  rewrite E in H. apply bind_Ok in H. destruct H as (z & Hz & H). apply bind_Ok in H. destruct H as (q & Hq & H). apply bind_Ok in H. destruct H as (r & Hr & H).
  assert (Fa : fits (sty u) a = true). { apply Forall_rev in Fl. rewrite E in Fl. inversion Fl; auto. }
  unfold finite in F. apply new_one in Hz; [|auto|exact F|exact HP|constructor; auto]. subst z.
  assert (Wz : wfcf (CF [a] (p_coeffs x) false)) by (unfold wfcf; cbn [a_coeffs p_coeffs]; auto).
  destruct (L_C35_exact g u _ q Wz (sized_one u a _ F F1 Fa Ha Sp) Hq) as [Nq Vq].
  destruct (inf_val_evr [a] (p_coeffs x) false F ltac:(constructor) HP) as [V1 L1]. cbn [List.rev app evr sgnb] in V1. rewrite Rmult_1_l in V1.
  destruct (climb_sound g u l q _ r Nq Vq Hr) as [Nr Vr]. rewrite V1 in Vr.
  destruct (inf_val_evr (a_coeffs x) (p_coeffs x) (negative x) F HT HP) as [V2 _]. rewrite E in V2. cbn [evr] in V2.
  assert (Ex : CF (a_coeffs x) (p_coeffs x) (negative x) = x) by (destruct x; reflexivity). rewrite Ex in V2.
  destruct (negative x); cbn [sgnb] in V2.
  - apply (neg_normal g) in H; [|exact Nr]. destruct H as [Ns Vs]. split; [auto|]. rewrite Vs, Vr, V2, <- RtoC_opp. f_equal. ring.
  - inversion H; subst. split; [auto|]. rewrite Vr, V2. f_equal. ring.
Qed.
Lemma return_total g x : wfcf x -> ~ finite x -> returns (return_any g BigU x).
Proof.
  intros W F. destruct (split_last x W) as (a & l & E & Ha & Hl & HP & HT). unfold return_any. cbn [sty]. rewrite !mapM_chk_big. cbn [bind]. rewrite E.
  unfold finite in F. assert (Wz : wfcf (CF [a] (p_coeffs x) false)) by (unfold wfcf; cbn [a_coeffs p_coeffs]; auto).
  destruct (cf_new_total g [a] (p_coeffs x) false (wfcf_plain _ _ _ Wz)) as [z Hz]. rewrite Hz. cbn [bind].
  apply new_one in Hz; [|auto|exact F|exact HP|apply Forall_forall; reflexivity]. subst z.
  destruct (L_C35_returns_partial g _ Wz) as [q Hq]; [right; cbn; lia|]. rewrite Hq. cbn [bind].
  destruct (L_C35_exact g BigU _ q Wz (L_C33_big_sized _ Wz) Hq) as [Nq Vq].
  destruct (inf_val_evr [a] (p_coeffs x) false F ltac:(constructor) HP) as [V1 L1]. cbn [List.rev app evr sgnb] in V1. rewrite Rmult_1_l in V1.
  destruct (climb_total g BigU l eq_refl q _ Nq Vq) as [r Hr]; [rewrite V1; assert (0 < / lim (pseq (p_coeffs x)))%R by (apply Rinv_0_lt_compat; lra); apply IZR_le in Ha; lra|exact Hl|].
  rewrite Hr. cbn [bind]. destruct (climb_sound g BigU l q _ r Nq Vq Hr) as [Nr _]. destruct (negative x); [apply (L_C07_returns g r Nr)|eexists; reflexivity].
Qed.
