(** * SurdPlaces: principal roots and digits of surds. *)

From Coq Require Import ZArith Reals Lia Lra Bool List Arith.
From Coquelicot Require Import Coquelicot.
From Verif Require Import Base Ext ModelSurd Spec SpecPlaces NumFacts SurdCore SurdArith SurdTotal SurdMisc SurdRound SurdConv SurdSqrt GenSound ClaimsSurd ClaimsRoute SurdRoots.
Import ListNotations.
Open Scope Z_scope.

Section Digits.
Context (g : cfg).

Lemma principal_sound t x y : normal g x -> principal_root g t x = Ok (SqOk y) -> normal g y /\ (sval y * sval y)%C = sval x /\ principal (sval y).
Proof.
  intros N H. unfold principal_root in H. apply bind_Ok in H. destruct H as (q & Hq & H). pose proof (from_sqrt_surd_ok g t x q N Hq) as P. destruct q as [y0|d k]; [|discriminate]. cbn [sqrt_post] in P. destruct P as (Ny & Sq & _ & Hi).
  destruct (is_complex y0) eqn:I.
  - inversion H; subst y0. clear H. split; [auto|]. split; [auto|]. destruct (is_rational x) eqn:Q.
    + apply (L_C16_principal_partial g t x y N Hq). left. apply (normal_is_rational g x N). auto.
    + apply (L_C16_principal_partial g t x y N Hq). right; left. assert (NI : ~ rational_num (sval x)) by (intros X; apply (normal_is_rational g x N) in X; congruence). apply (Hi NI). apply Z.ltb_lt. exact I.
  - apply bind_Ok in H. destruct H as (b & Hb & H). assert (V : exists v, sval y0 = RtoC v).
    { destruct (sval y0) as [u w] eqn:E. exists u. destruct (Req_dec w 0) as [W|W]; [subst w; reflexivity|]. exfalso. assert (C1 : is_complex y0 = true); [|congruence]. apply (normal_is_complex g y0 Ny). intros [v K]. rewrite E in K. inversion K. lra. }
    destruct V as [v V]. pose proof (L_C09_is_negative g t y0 v b Ny V Hb) as B. destruct b.
    + apply bind_Ok in H. destruct H as (z & Hz & H). inversion H; subst z. apply (neg_normal g) in Hz; [|exact Ny]. destruct Hz as [Nz Vz]. split; [auto|]. split; [rewrite Vz, <- Sq; ring|].
      assert (L : (v < 0)%R) by tauto. rewrite Vz, V. left. cbn. lra.
    + inversion H; subst y0. split; [auto|]. split; [auto|]. assert (L : (0 <= v)%R) by (destruct (Rlt_dec v 0) as [K|K]; [apply B in K; discriminate|lra]). rewrite V. unfold principal. cbn. lra.
Qed.
Lemma principal_unique (u v : C) : (u * u)%C = (v * v)%C -> principal u -> principal v -> u = v.
Proof.
  intros E Pu Pv. assert (Z0 : ((u - v) * (u + v))%C = RtoC 0) by (replace ((u - v) * (u + v))%C with (u * u - v * v)%C by ring; rewrite E; ring).
  destruct (Ceq_dec0 (u - v)%C) as [K|K]; [replace u with (u - v + v)%C by ring; rewrite K; ring|].
  assert (W : (u + v)%C = RtoC 0) by (replace (u + v)%C with (/ (u - v) * ((u - v) * (u + v)))%C by (field; auto); rewrite Z0; ring).
  destruct u as [a b], v as [c d]. unfold principal in *. pose proof (f_equal fst W) as W1. pose proof (f_equal snd W) as W2. cbn in *. f_equal; lra.
Qed.
Lemma principal_total x : normal g x -> returns (principal_root g BigI x).
Proof.
  intros N. unfold principal_root. destruct (L_C16_returns g x N) as [q Hq]. rewrite Hq. cbn [bind]. pose proof (from_sqrt_surd_ok g BigI x q N Hq) as P. destruct q as [y0|d k]; [|eexists; reflexivity]. cbn [sqrt_post] in P. destruct P as (Ny & _).
  destruct (is_complex y0) eqn:I; [eexists; reflexivity|]. assert (V : exists v, sval y0 = RtoC v).
  { destruct (sval y0) as [u w] eqn:E. exists u. destruct (Req_dec w 0) as [W|W]; [subst w; reflexivity|]. exfalso. assert (C1 : is_complex y0 = true); [|congruence]. apply (normal_is_complex g y0 Ny). intros [v K]. rewrite E in K. inversion K. lra. }
  destruct V as [v V]. destruct (proj2 (L_C09_returns g y0 v Ny V)) as [b Hb]. rewrite Hb. cbn [bind]. destruct b; [|eexists; reflexivity]. destruct (surd_neg_total y0) as [z Hz]. rewrite Hz. eexists; reflexivity.
Qed.
Lemma principal_complete x v : normal g x -> over_root (discr x) v -> (v * v)%C = sval x -> principal v -> exists y, principal_root g BigI x = Ok (SqOk y) /\ sval y = v.
Proof.
  intros N O Sv Pv. destruct (L_C16_complete g x v N O Sv) as [y0 Hy]. destruct (principal_total x N) as [q Hq]. destruct q as [y|d k].
  - exists y. split; [auto|]. destruct (principal_sound BigI x y N Hq) as (_ & Sy & Py). apply principal_unique; auto. congruence.
  - exfalso. unfold principal_root in Hq. rewrite Hy in Hq. cbn [bind] in Hq. destruct (is_complex y0); [discriminate|]. apply bind_Ok in Hq. destruct Hq as (b & _ & Hq). destruct b; [apply bind_Ok in Hq; destruct Hq as (z & _ & Hq)|]; discriminate.
Qed.
Lemma principal_err t x d k : normal g x -> principal_root g t x = Ok (SqErr d k) -> sval d = sval x /\ (k = EComplex <-> cplx g = false /\ exists v, (v < 0)%R /\ sval x = RtoC v).
Proof.
  intros N H. unfold principal_root in H. apply bind_Ok in H. destruct H as (q & Hq & H). destruct q as [y0|d' k'].
  - exfalso. destruct (is_complex y0); [discriminate|]. apply bind_Ok in H. destruct H as (b & _ & H). destruct b; [apply bind_Ok in H; destruct H as (z & _ & H)|]; discriminate.
  - inversion H; subst. exact (L_C16_err g t x d k N Hq).
Qed.

(** ** digits *)
Lemma digits_sound t base n : 2 <= base -> forall s x l, normal g s -> sval s = RtoC x -> digits g t base n s = Ok l ->
  exists d l', l = d :: l' /\ length l' = n /\ isfloor x d /\ List.Forall (fun e => 0 <= e < base) l' /\ (digits_val base l <= x < digits_val base l + / IZR base ^ n)%R.
Proof.
  intros Hb. assert (B : (2 <= IZR base)%R) by (apply IZR_le; auto). induction n as [|n IH]; intros s x l N V H; cbn [digits] in H; apply bind_Ok in H; destruct H as (f & Hf & H); apply bind_Ok in H; destruct H as (a & Ha & H);
    destruct (L_C10_floor g t s x f N V Hf) as (d & Vd & F); pose proof (floor_normal _ _ _ _ Hf) as Nf; rewrite (L_C13_to_integer_complete g t f d Nf Vd) in Ha; inversion Ha; subst a; cbn [approx_value] in H.
  - inversion H; subst l. exists d, []. split; [auto|]. split; [auto|]. split; [auto|]. split; [constructor|]. cbn [digits_val pow]. destruct F. unfold Rdiv. rewrite Rmult_0_l, Rinv_1. lra.
  - apply bind_Ok in H. destruct H as (m & Hm & H). apply bind_Ok in H. destruct H as (k & Hk & H). apply bind_Ok in H. destruct H as (l0 & Hl & H). inversion H; subst l. clear H.
    apply surd_sub_int_ok in Hm; try apply (normal_okc g s N). destruct Hm as [Vm Nm]. apply surd_mul_int_ok in Hk; try apply (normal_okc g m Nm). destruct Hk as [Vk Nk].
    assert (V' : sval k = RtoC ((x - IZR d) * IZR base)) by (rewrite Vk, Vm, V; unfold ZtoC; rewrite <- RtoC_minus, <- RtoC_mult; reflexivity).
    destruct (IH k _ l0 Nk V' Hl) as (e & l' & El & Len & Fe & Fa & D1 & D2). destruct F as [F1 F2]. destruct Fe as [E1 E2].
    exists d, l0. split; [auto|]. split; [subst l0; cbn; lia|]. split; [split; auto|]. split.
    { subst l0. constructor; [|exact Fa]. split.
      - apply Z.lt_succ_r, lt_IZR. rewrite succ_IZR. assert (0 <= (x - IZR d) * IZR base)%R by (apply Rmult_le_pos; lra). lra.
      - apply lt_IZR. assert ((x - IZR d) * IZR base < 1 * IZR base)%R by (apply Rmult_lt_compat_r; lra). lra. }
    cbn [digits_val pow]. set (w := digits_val base l0) in *. assert (P : (0 < IZR base ^ n)%R) by (apply pow_lt; lra). rewrite Rinv_mult. set (p := (/ IZR base ^ n)%R) in *.
    assert (X : x = (IZR d + (x - IZR d) * IZR base * / IZR base)%R) by (field; lra). assert (I0 : (0 < / IZR base)%R) by (apply Rinv_0_lt_compat; lra). unfold Rdiv. split.
    + rewrite X at 1. apply Rplus_le_compat_l. apply Rmult_le_compat_r; lra.
    + rewrite X at 1. replace (IZR d + w * / IZR base + / IZR base * p)%R with (IZR d + (w + p) * / IZR base)%R by ring. apply Rplus_lt_compat_l. apply Rmult_lt_compat_r; lra.
Qed.
Lemma digits_total base n : forall s x, normal g s -> sval s = RtoC x -> returns (digits g BigI base n s).
Proof.
  induction n as [|n IH]; intros s x N V; cbn [digits]; destruct (L_C10_returns g s x N V) as [f Hf]; rewrite Hf; cbn [bind];
    destruct (L_C10_floor g BigI s x f N V Hf) as (d & Vd & F); pose proof (floor_normal _ _ _ _ Hf) as Nf; rewrite (L_C13_to_integer_complete g BigI f d Nf Vd); cbn [bind approx_value].
  - eexists; reflexivity.
  - destruct (surd_sub_int_total g s (normal_wf _ _ N) d) as [m Hm]. rewrite Hm. cbn [bind]. apply surd_sub_int_ok in Hm; try apply (normal_okc g s N). destruct Hm as [Vm Nm].
    destruct (surd_mul_int_total g m (normal_wf _ _ Nm) base) as [k Hk]. rewrite Hk. cbn [bind]. apply surd_mul_int_ok in Hk; try apply (normal_okc g m Nm). destruct Hk as [Vk Nk].
    destruct (IH k ((x - IZR d) * IZR base)%R Nk) as [l Hl]; [rewrite Vk, Vm, V; unfold ZtoC; rewrite <- RtoC_minus, <- RtoC_mult; reflexivity|]. rewrite Hl. eexists; reflexivity.
Qed.
End Digits.
