(** * ClaimsTurn: proofs of the property theorems in PropsTurn.v. *)

From Coq Require Import ZArith Znumtheory Reals Lia Lra Bool List Arith.
From Coquelicot Require Import Coquelicot.
From Verif Require Import Base Ext ModelSurd ModelBlock ModelCF ModelConv Spec SpecCF SpecTurn Transfer NumFacts SurdCore RatioFacts SurdArith SurdTotal SurdOrd SurdRound SurdMisc SurdConv SurdSqrt SurdDecide
  CFCore CFSeq CFIter CFBasic CFSurd CFNew CFOfSurd CFWide CFRound CFArith CFAll ClaimsSurd ClaimsCF ClaimsApi ClaimsSharp.
Import ListNotations.
Open Scope Z_scope.

Lemma L_C33_int_any : forall g u fuel x k z, fits (sty u) 1 = true -> wfcf x -> surd_sized u x ->
  (cf_mul_int g u fuel x k = Ok z -> canonical z /\ turned (cf_val x * IZR k) (cf_val z)) /\
  (cf_div_int g u fuel x k = Ok z -> k <> 0 /\ canonical z /\ turned (cf_val x / IZR k) (cf_val z)).
Proof.
  intros g u fuel x k z F W Sz. split; [exact (cf_mul_int_all g u F x W Sz fuel k z)|exact (cf_div_int_all g u F x W Sz fuel k z)].
Qed.

Lemma L_C33_ratio_any : forall g u fuel x q z, fits (sty u) 1 = true -> wfcf x -> surd_sized u x -> lowest q ->
  (cf_add_ratio g u fuel x q = Ok z -> canonical z /\ turned (cf_val x + rval q) (cf_val z)) /\
  (cf_sub_ratio g u fuel x q = Ok z -> canonical z /\ turned (cf_val x - rval q) (cf_val z)) /\
  (cf_mul_ratio g u fuel x q = Ok z -> canonical z /\ turned (cf_val x * rval q) (cf_val z)) /\
  (cf_div_ratio g u fuel x q = Ok z -> rval q <> 0%R /\ canonical z /\ turned (cf_val x / rval q) (cf_val z)).
Proof.
  intros g u fuel x q z F W Sz L. split; [|split; [|split]].
  - exact (cf_add_ratio_all g u F x W Sz q L fuel z).
  - exact (cf_sub_ratio_all g u F x W Sz q L fuel z).
  - exact (cf_mul_ratio_all g u F x W Sz q L fuel z).
  - exact (cf_div_ratio_all g u F x W Sz q L fuel z).
Qed.

Lemma L_C33_any : forall g u fuel x y z, fits (sty u) 1 = true -> wfcf x -> surd_sized u x -> wfcf y -> surd_sized u y ->
  (cf_add g u fuel x y = Ok z -> canonical z /\ turned (cf_val x + cf_val y) (cf_val z)) /\
  (cf_sub g u fuel x y = Ok z -> canonical z /\ turned (cf_val x - cf_val y) (cf_val z)) /\
  (cf_mul g u fuel x y = Ok z -> canonical z /\ turned (cf_val x * cf_val y) (cf_val z)) /\
  (cf_div g u fuel x y = Ok z -> cf_val y <> 0%R /\ canonical z /\ turned (cf_val x / cf_val y) (cf_val z)).
Proof.
  intros g u fuel x y z F W Sz Wy Szy. split; [|split; [|split]].
  - exact (cf_add_all g u F x W Sz y Wy Szy fuel z).
  - exact (cf_sub_all g u F x W Sz y Wy Szy fuel z).
  - exact (cf_mul_all g u F x W Sz y Wy Szy fuel z).
  - exact (cf_div_all g u F x W Sz y Wy Szy fuel z).
Qed.

Lemma L_C33_not_turned : forall v w, rational_real v \/ cf_wide v -> turned v w -> w = v.
Proof.
  intros v w [Q|(vc & C & B)] [E|(vd & D & B' & _)]; auto; exfalso.
  - destruct D as (I & _). auto.
  - rewrite (conjugate_unique v vc vd C D) in B. auto.
Qed.

Lemma L_C33_settles : forall g x k q, wfcf x -> ~ finite x -> returns (surd_of_cf g BigU x) -> lowest q ->
  settles (cf_val x * IZR k) (fun fuel => cf_mul_int g BigU fuel x k) /\
  (k <> 0 -> settles (cf_val x / IZR k) (fun fuel => cf_div_int g BigU fuel x k)) /\
  settles (cf_val x + rval q) (fun fuel => cf_add_ratio g BigU fuel x q) /\
  settles (cf_val x - rval q) (fun fuel => cf_sub_ratio g BigU fuel x q) /\
  settles (cf_val x * rval q) (fun fuel => cf_mul_ratio g BigU fuel x q) /\
  (rval q <> 0%R -> settles (cf_val x / rval q) (fun fuel => cf_div_ratio g BigU fuel x q)).
Proof.
  intros g x k q W I Ln L. split; [|split; [|split; [|split; [|split]]]].
  - exact (cf_mul_int_settles g x W Ln k I).
  - intros K. exact (cf_div_int_settles g x W Ln k K I).
  - exact (cf_add_ratio_settles g x W Ln q L I).
  - exact (cf_sub_ratio_settles g x W Ln q L I).
  - exact (cf_mul_ratio_settles g x W Ln q L I).
  - intros K. exact (cf_div_ratio_settles g x W Ln q L K I).
Qed.

Lemma L_C33_finite_right_settles : forall g x y, wfcf x -> ~ finite x -> returns (surd_of_cf g BigU x) -> wfcf y -> finite y ->
  settles (cf_val x + cf_val y) (fun fuel => cf_add g BigU fuel x y) /\
  settles (cf_val x - cf_val y) (fun fuel => cf_sub g BigU fuel x y) /\
  settles (cf_val x * cf_val y) (fun fuel => cf_mul g BigU fuel x y) /\
  (cf_val y <> 0%R -> settles (cf_val x / cf_val y) (fun fuel => cf_div g BigU fuel x y)).
Proof.
  intros g x y W I Ln Wy Fy. destruct (cf_to_rational_fin BigU y Wy Fy (proj1 (surd_fit_big y Wy) Fy)) as (q & E & L & V).
  assert (R : cf_is_rational y = true) by (unfold cf_is_rational; rewrite Fy; reflexivity).
  assert (Vq : rval q = cf_val y) by (rewrite <- V; auto). rewrite <- Vq.
  assert (K : forall rop sopr sop v, settles v (fun fuel => cf_op_ratio g BigU rop sopr fuel x q) -> settles v (fun fuel => cf_op_cf g BigU rop sopr sop fuel x y)).
  { intros rop sopr sop v. apply settles_ext. intros fuel. unfold cf_op_cf. rewrite R, E. reflexivity. }
  split; [apply K; exact (cf_add_ratio_settles g x W Ln q L I)|]. split; [apply K; exact (cf_sub_ratio_settles g x W Ln q L I)|].
  split; [apply K; exact (cf_mul_ratio_settles g x W Ln q L I)|]. intros D. apply K. exact (cf_div_ratio_settles g x W Ln q L D I).
Qed.

Lemma between_settles g x y s r (sop : surd -> surd -> res surd) (op : R -> R -> R) : ~ finite y ->
  surd_of_cf g BigU x = Ok s -> surd_of_cf g BigU y = Ok r ->
  (exists s', sop s r = Ok s') -> (forall s', sop s r = Ok s' -> normal g s' /\ sval s' = RtoC (op (cf_val x) (cf_val y))) -> forall rop sopr,
  settles (op (cf_val x) (cf_val y)) (fun fuel => cf_op_cf g BigU rop sopr sop fuel x y).
Proof.
  intros Fy Es Er [s' E] K rop sopr. destruct (K s' E) as [N' V']. apply (settles_ext _ (fun fuel => back g BigU fuel s')); [|apply back_settles; auto].
  intros fuel. unfold cf_op_cf. assert (R : cf_is_rational y = false) by (destruct (cf_is_rational y) eqn:R; auto; apply rational_cond in R; contradiction).
  rewrite R, Es. cbn [bind]. rewrite Er. cbn [bind]. rewrite E. reflexivity.
Qed.

Lemma L_C33_between_settles : forall g x y s r, wfcf x -> wfcf y -> ~ finite y ->
  surd_of_cf g BigU x = Ok s -> surd_of_cf g BigU y = Ok r -> nested_roots s r ->
  settles (cf_val x + cf_val y) (fun fuel => cf_add g BigU fuel x y) /\
  settles (cf_val x - cf_val y) (fun fuel => cf_sub g BigU fuel x y) /\
  settles (cf_val x * cf_val y) (fun fuel => cf_mul g BigU fuel x y) /\
  (cf_val x <> 0%R -> settles (cf_val x / cf_val y) (fun fuel => cf_div g BigU fuel x y)).
Proof.
  intros g x y s r W Wy Fy Es Er Nr.
  destruct (surd_of_cf_ok g BigU x s W (surd_fit_big x W) Es) as [N1 V1]. destruct (surd_of_cf_ok g BigU y r Wy (surd_fit_big y Wy) Er) as [N2 V2].
  destruct (L_C06_same_field_partial g s r N1 N2 Nr) as (T1 & T2 & T3 & T4).
  assert (Y : cf_val y <> 0%R).
  { rewrite (cf_val_inf y Fy). assert (lim (cseq y) <> IZR 0 / IZR 1)%R by (apply lim_irrational; [apply wfcf_cpos; auto|lia]).
    apply Rmult_integral_contrapositive_currified; [apply not_0_IZR; unfold sgnb; destruct (negative y); lia|]. intros E. apply H. rewrite E. lra. }
  split; [|split; [|split]].
  - apply (between_settles g x y s r (surd_add g BigI) Rplus); auto. intros s' E. apply surd_add_ok in E; [|apply normal_wf; auto|apply normal_wf; auto].
    destruct E as [V' N']. split; [auto|]. rewrite V', V1, V2, RtoC_plus. reflexivity.
  - apply (between_settles g x y s r (surd_sub g BigI) Rminus); auto. intros s' E. apply surd_sub_ok in E; [|apply normal_wf; auto|apply normal_wf; auto].
    destruct E as [V' N']. split; [auto|]. rewrite V', V1, V2, RtoC_minus. reflexivity.
  - apply (between_settles g x y s r (surd_mul g BigI) Rmult); auto. intros s' E. apply surd_mul_ok in E; [|apply normal_wf; auto|apply normal_wf; auto].
    destruct E as [N' V']. split; [auto|].
    assert (E : sval s' = (sval s * sval r)%C).
    { rewrite V'. destruct (is_rational s || is_rational r) eqn:Eq; [reflexivity|]. rewrite (real_not_imag _ _ _ V1 (normal_okc _ _ N1) Eq). cbn [sgnC]. ring. }
    rewrite E, V1, V2, RtoC_mult. reflexivity.
  - intros X. apply (between_settles g x y s r (surd_div g BigI) Rdiv); auto.
    { apply T4; [rewrite V2; intros Q; apply RtoC_inj in Q; auto|left; rewrite V1; intros Q; apply RtoC_inj in Q; auto]. }
    intros s' E. apply surd_div_ok in E; [|apply normal_wf; auto|apply normal_wf; auto]. destruct E as (N' & _ & V'). split; [auto|].
    assert (E : sval s' = (sval s / sval r)%C).
    { rewrite V'. destruct (is_rational s || is_rational r) eqn:Eq; [reflexivity|]. rewrite (real_not_imag _ _ _ V1 (normal_okc _ _ N1) Eq). cbn [sgnC]. ring. }
    rewrite E, V1, V2, CtoR_div; auto.
Qed.

Lemma L_C36_any : forall g t u fuel s x z s', fits t 1 = true -> normal g s -> sval s = RtoC x ->
  surd_to_cf g t fuel s = Ok (Some z) -> surd_sized u z -> surd_of_cf g u z = Ok s' ->
  normal g s' /\ exists w, sval s' = RtoC w /\ turned x w.
Proof.
  intros g t u fuel s x z s' F N E H Sz H'. destruct (surd_to_cf_turned g t fuel s x z F N E H) as (C & _ & T).
  assert (W : wfcf z) by (destruct C; auto). destruct (surd_of_cf_ok g u z s' W (surd_sized_fit u z W Sz) H') as [N' V']. split; [auto|]. exists (cf_val z). auto.
Qed.

Lemma L_C36_back_any : forall g u fuel x s z, fits (sty u) 1 = true -> wfcf x -> ~ finite x -> surd_sized u x ->
  surd_of_cf g u x = Ok s -> surd_to_cf g (sty u) fuel s = Ok (Some z) -> canonical z /\ ~ finite z /\ turned (cf_val x) (cf_val z).
Proof.
  intros g u fuel x s z F W I Sz E H. destruct (surd_of_cf_ok g u x s W (surd_sized_fit u x W Sz) E) as [N V].
  exact (surd_to_cf_turned g (sty u) fuel s _ z F N V H).
Qed.

Lemma L_C36_finite_never : forall g u t fuel x s z, wfcf x -> finite x -> surd_sized u x ->
  surd_of_cf g u x = Ok s -> surd_to_cf g t fuel s <> Ok (Some z).
Proof.
  intros g u t fuel x s z W Fx Sz E. destruct (surd_of_cf_ok g u x s W (surd_sized_fit u x W Sz) E) as [N V]. apply surd_rat_never; [auto|].
  destruct (fin_value_ratio x W Fx) as (r & L & Vr). assert (Q : rational_num (sval s)).
  { rewrite V, <- Vr. exists (numer r), (denom r). split; [destruct L; lia|]. unfold rval, ZtoC. rewrite RtoC_div; [reflexivity|]. apply not_0_IZR. destruct L; lia. }
  apply (normal_is_rational g s N) in Q. unfold is_rational in Q. apply orb_prop in Q. destruct Q as [Q|Q]; apply Z.eqb_eq in Q; [exact Q|].
  destruct N as (_ & _ & [[Q' _]|[_ Q']] & _); [exact Q'|]. exfalso. apply Q'. rewrite Q. exists 0. reflexivity.
Qed.

Lemma C36_any_case_proof : normal (Cfg false true) (Surd (SCo 3 (-1) 2) 2) /\ sval (Surd (SCo 3 (-1) 2) 2) = RtoC ((3 - sqrt 2) / 2) /\
  surd_to_cf (Cfg false true) BigI 20 (Surd (SCo 3 (-1) 2) 2) = Ok (Some (CF [2] [4; 1] false)) /\
  surd_of_cf (Cfg false true) BigU (CF [2] [4; 1] false) = Ok (Surd (SCo 3 1 2) 2).
Proof.
  split; [|split; [|split; vm_compute; reflexivity]].
  - unfold normal, parts. cbn [coeffs c0 c1 c2 discr]. split; [lia|]. split; [reflexivity|]. split; [|intros; lia]. right. split; [lia|].
    intros [k Hk]. assert (k <= -2 \/ k = -1 \/ k = 0 \/ k = 1 \/ 2 <= k) as [K|[K|[K|[K|K]]]] by lia; subst; try lia; nia.
  - unfold sval, parts. cbn [coeffs c0 c1 c2 discr]. unfold csqrt. cbn [Z.ltb Z.compare]. unfold ZtoC. rewrite <- RtoC_mult, <- RtoC_plus, <- RtoC_div by lra. f_equal. field.
Qed.
