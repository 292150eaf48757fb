(** * ClaimsFit: proofs of the property theorems about fixed-width types (PropsFit.v). *)

From Coq Require Import ZArith Bool List.
From Verif Require Import Base Ext ModelSurd ModelInt Spec SpecFit TransferFit SurdDecide.
Open Scope Z_scope.

Lemma L_C19_constructors : forall (g : cfg) t (a b c r : Z) (co : sco), usable t -> fitv t a -> fitv t b -> fitv t c -> fitv t r -> fitv t co ->
  agrees t (surd_new g t a b c r) (surd_new g BigI a b c r) /\
  agrees t (surd_from_coeffs g t co r) (surd_from_coeffs g BigI co r).
Proof.
  intros; repeat match goal with |- _ /\ _ => split end; auto using ole_surd_new, ole_surd_from_coeffs.
Qed.

Lemma L_C19_from_rationals : forall (g : cfg) t (a b r c : ratio), usable t -> fitv t a -> fitv t b -> fitv t r -> fitv t c ->
  agrees t (surd_from_rationals g t a b r) (surd_from_rationals g BigI a b r) /\
  agrees t (surd_from_equation g t a b c) (surd_from_equation g BigI a b c).
Proof.
  intros; repeat match goal with |- _ /\ _ => split end; auto using ole_surd_from_rationals, ole_surd_from_equation.
Qed.

Lemma L_C19_unary : forall (g : cfg) t (s : surd), usable t -> fitv t s ->
  agrees t (surd_recip g t s) (surd_recip g BigI s) /\
  agrees t (surd_conj t s) (surd_conj BigI s) /\
  agrees t (surd_neg t s) (surd_neg BigI s).
Proof.
  intros; repeat match goal with |- _ /\ _ => split end; auto using ole_surd_recip, ole_surd_conj, ole_surd_neg.
Qed.

Lemma L_C19_int_ops : forall (g : cfg) t (s : surd) (k : Z), usable t -> fitv t s -> fitv t k ->
  agrees t (surd_add_int g t s k) (surd_add_int g BigI s k) /\
  agrees t (surd_sub_int g t s k) (surd_sub_int g BigI s k) /\
  agrees t (surd_mul_int g t s k) (surd_mul_int g BigI s k) /\
  agrees t (surd_div_int g t s k) (surd_div_int g BigI s k).
Proof.
  intros; repeat match goal with |- _ /\ _ => split end; auto using ole_surd_add_int, ole_surd_sub_int, ole_surd_mul_int, ole_surd_div_int.
Qed.

Lemma L_C19_ratio_ops : forall (g : cfg) t (s : surd) (q : ratio), usable t -> fitv t s -> fitv t q ->
  agrees t (surd_add_ratio g t s q) (surd_add_ratio g BigI s q) /\
  agrees t (surd_sub_ratio g t s q) (surd_sub_ratio g BigI s q) /\
  agrees t (surd_mul_ratio g t s q) (surd_mul_ratio g BigI s q) /\
  agrees t (surd_div_ratio g t s q) (surd_div_ratio g BigI s q).
Proof.
  intros; repeat match goal with |- _ /\ _ => split end; auto using ole_surd_add_ratio, ole_surd_sub_ratio, ole_surd_mul_ratio, ole_surd_div_ratio.
Qed.

Lemma L_C19_surd_ops : forall (g : cfg) t (x y : surd), usable t -> fitv t x -> fitv t y ->
  agrees t (surd_add g t x y) (surd_add g BigI x y) /\
  agrees t (surd_sub g t x y) (surd_sub g BigI x y) /\
  agrees t (surd_mul g t x y) (surd_mul g BigI x y) /\
  agrees t (surd_div g t x y) (surd_div g BigI x y) /\
  agrees t (surd_eq t x y) (surd_eq BigI x y).
Proof.
  intros; repeat match goal with |- _ /\ _ => split end; auto using ole_surd_add, ole_surd_sub, ole_surd_mul, ole_surd_div, ole_surd_eq.
Qed.

Lemma L_C19_rounding : forall (g : cfg) t (s : surd), usable t -> fitv t s ->
  agrees t (surd_floor g t s) (surd_floor g BigI s) /\
  agrees t (surd_trunc g t s) (surd_trunc g BigI s) /\
  agrees t (surd_fract g t s) (surd_fract g BigI s) /\
  agrees t (surd_to_integer g t s) (surd_to_integer g BigI s) /\
  agrees t (surd_to_rational g t s) (surd_to_rational g BigI s) /\
  agrees t (surd_to_gaussint g t s) (surd_to_gaussint g BigI s) /\
  agrees t (surd_to_quadint g t s) (surd_to_quadint g BigI s) /\
  agrees t (surd_is_positive g t s) (surd_is_positive g BigI s) /\
  agrees t (surd_is_negative g t s) (surd_is_negative g BigI s).
Proof.
  intros; repeat match goal with |- _ /\ _ => split end; auto using ole_surd_floor, ole_surd_trunc, ole_surd_fract, ole_surd_to_integer, ole_surd_to_rational, ole_surd_to_gaussint, ole_surd_to_quadint, ole_surd_is_positive, ole_surd_is_negative.
Qed.

Lemma L_C19_qint_new : forall (g : cfg) t (a b r : Z) (co : qco), usable t -> fitv t a -> fitv t b -> fitv t r -> fitv t co ->
  agrees t (qint_new g t a b r) (qint_new g BigI a b r) /\
  agrees t (qint_from_coeffs g t co r) (qint_from_coeffs g BigI co r).
Proof.
  intros; repeat match goal with |- _ /\ _ => split end; auto using ole_qint_new, ole_qint_from_coeffs.
Qed.

Lemma L_C19_qint_unary : forall (g : cfg) t (x : qint), usable t -> fitv t x ->
  agrees t (qint_conj t x) (qint_conj BigI x) /\
  agrees t (qint_norm t x) (qint_norm BigI x) /\
  agrees t (qint_neg t x) (qint_neg BigI x) /\
  agrees t (qint_is_pure t x) (qint_is_pure BigI x).
Proof.
  intros; repeat match goal with |- _ /\ _ => split end; auto using ole_qint_conj, ole_qint_norm, ole_qint_neg, ole_qint_is_pure.
Qed.

Lemma L_C19_qint_int_ops : forall (g : cfg) t (x : qint) (k : Z), usable t -> fitv t x -> fitv t k ->
  agrees t (qint_add_int t x k) (qint_add_int BigI x k) /\
  agrees t (qint_sub_int t x k) (qint_sub_int BigI x k) /\
  agrees t (qint_mul_int t x k) (qint_mul_int BigI x k) /\
  agrees t (qint_div_int t x k) (qint_div_int BigI x k) /\
  agrees t (qint_rem_int t x k) (qint_rem_int BigI x k).
Proof.
  intros; repeat match goal with |- _ /\ _ => split end; auto using ole_qint_add_int, ole_qint_sub_int, ole_qint_mul_int, ole_qint_div_int, ole_qint_rem_int.
Qed.

Lemma L_C19_qint_ops : forall (g : cfg) t (x y : qint), usable t -> fitv t x -> fitv t y ->
  agrees t (qint_add g t x y) (qint_add g BigI x y) /\
  agrees t (qint_sub g t x y) (qint_sub g BigI x y) /\
  agrees t (qint_mul g t x y) (qint_mul g BigI x y) /\
  agrees t (qint_div g t x y) (qint_div g BigI x y) /\
  agrees t (qint_rem g t x y) (qint_rem g BigI x y) /\
  agrees t (qint_eq t x y) (qint_eq BigI x y).
Proof.
  intros; repeat match goal with |- _ /\ _ => split end; auto using ole_qint_add, ole_qint_sub, ole_qint_mul, ole_qint_div, ole_qint_rem, ole_qint_eq.
Qed.

Lemma L_C19_gauss_ops : forall (g : cfg) t (x y : qco), usable t -> fitv t x -> fitv t y ->
  agrees t (gauss_add t x y) (gauss_add BigI x y) /\
  agrees t (gauss_sub t x y) (gauss_sub BigI x y) /\
  agrees t (gauss_mul t x y) (gauss_mul BigI x y) /\
  agrees t (gauss_div t x y) (gauss_div BigI x y) /\
  agrees t (gauss_rem t x y) (gauss_rem BigI x y) /\
  agrees t (gauss_conj t x) (gauss_conj BigI x) /\
  agrees t (gauss_norm t x) (gauss_norm BigI x).
Proof.
  intros; repeat match goal with |- _ /\ _ => split end; auto using ole_gauss_add, ole_gauss_sub, ole_gauss_mul, ole_gauss_div, ole_gauss_rem, ole_gauss_conj, ole_gauss_norm.
Qed.

Lemma L_C19_prims : forall g t pt n s, usable t -> fitv t s ->
  agrees t (surd_to_prim g t pt s) (surd_to_prim g BigI pt s) /\
  (forall s', surd_from_prim t n = Some s' -> fitv t s' /\ surd_from_prim BigI n = Some s').
Proof.
  intros; split; [auto using ole_surd_to_prim|]. intros s'. apply surd_from_prim_fit; auto.
Qed.

Lemma L_C19_sqrt : forall g t n q s, usable t -> fitv t n -> fitv t q -> normal g s -> fitv t s ->
  agrees t (from_sqrt_int g t n) (from_sqrt_int g BigI n) /\
  agrees_sqrt t (from_sqrt_ratio g t q) (from_sqrt_ratio g BigI q) /\
  agrees_sqrt t (from_sqrt_surd g t s) (from_sqrt_surd g BigI s).
Proof. intros; auto using ole_from_sqrt_int, osq_from_sqrt_ratio, osq_from_sqrt_surd. Qed.

Lemma L_C19_reduced : forall t fuel s, usable t -> fits t 251 = true -> fitv t s ->
  agrees t (surd_reduced t fuel s) (surd_reduced BigI fuel s).
Proof. intros; apply ole_surd_reduced; auto. Qed.

Lemma L_C19_reduced_refuted : exists s fuel, fitv (SInt 8) s /\ normal (Cfg false true) s /\
  surd_reduced (SInt 8) fuel s = Panic PUnwrap /\ returns (surd_reduced BigI fuel s).
Proof.
  exists (new_raw 0 1 1 2), 10%nat. split; [|split; [|split]].
  - vm_compute; auto.
  - apply normalb_ok; vm_compute; reflexivity.
  - vm_compute. reflexivity.
  - eexists. vm_compute. reflexivity.
Qed.
