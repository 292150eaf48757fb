(** * ClaimsCanon: proofs of the property theorems in PropsCanon.v. *)

From Coq Require Import ZArith Znumtheory Reals Lia Lra Bool List Arith.
From Coquelicot Require Import Coquelicot.
From Verif Require Import Base Ext ModelSurd ModelBlock ModelCF ModelConv ModelInt Spec SpecCF SpecLaw SpecInt NumFacts Transfer SurdCore RatioFacts SurdArith SurdTotal SurdOrd SurdRound SurdMisc SurdConv SurdSqrt SurdDecide SurdLaws
  ClaimsSurd ClaimsLaw ClaimsBound SurdCanon CFCore CFSeq CFIter CFBasic CFSurd CFNew CFOfSurd ClaimsCF.
Import ListNotations.
Open Scope Z_scope.

Lemma L_C77_squarefree : forall g t fuel s s', normal g s -> ~ rational_num (sval s) -> Z.abs (discr s) < 257 * 257 -> fits t (Z.abs (discr s)) = true ->
  surd_reduced t fuel s = Ok s' -> squarefree (discr s') /\ sval s' = sval s.
Proof. intros g t fuel s s' N I B F H. destruct (reduced_squarefree g t fuel s s' N I B F H) as (A & _ & _ & C). auto. Qed.

Lemma L_C77_canonical : forall g t t' f f' x y x' y', normal g x -> normal g y -> ~ rational_num (sval x) -> ~ rational_num (sval y) ->
  Z.abs (discr x) < 257 * 257 -> Z.abs (discr y) < 257 * 257 -> fits t (Z.abs (discr x)) = true -> fits t' (Z.abs (discr y)) = true ->
  surd_reduced t f x = Ok x' -> surd_reduced t' f' y = Ok y' -> (x' = y' <-> sval x = sval y).
Proof. exact canon. Qed.

Lemma L_C77_eq : forall g t t' f f' x y x' y' u b, normal g x -> normal g y -> ~ rational_num (sval x) -> ~ rational_num (sval y) ->
  Z.abs (discr x) < 257 * 257 -> Z.abs (discr y) < 257 * 257 -> fits t (Z.abs (discr x)) = true -> fits t' (Z.abs (discr y)) = true ->
  surd_reduced t f x = Ok x' -> surd_reduced t' f' y = Ok y' -> surd_eq u x' y' = Ok b ->
  (b = true <-> sval x = sval y) /\ (b = true -> hash_data x' = hash_data y').
Proof.
  intros g t t' f f' x y x' y' u b Nx Ny Ix Iy Bx By Fx Fy Ex Ey Eb.
  pose proof (canon_eq g t t' f f' x y x' y' Nx Ny Ix Iy Bx By Fx Fy Ex Ey u b Eb) as K. split; [exact K|]. intros T. apply K in T.
  apply (canon g t t' f f' x y x' y' Nx Ny Ix Iy Bx By Fx Fy Ex Ey) in T. rewrite T. reflexivity.
Qed.

Lemma L_C77_arithmetic : forall g t t' f f' x y x' y', normal g x -> normal g y -> ~ rational_num (sval x) -> ~ rational_num (sval y) ->
  Z.abs (discr x) < 257 * 257 -> Z.abs (discr y) < 257 * 257 -> fits t (Z.abs (discr x)) = true -> fits t' (Z.abs (discr y)) = true ->
  surd_reduced t f x = Ok x' -> surd_reduced t' f' y = Ok y' -> same_field x y ->
  returns (surd_add g BigI x' y') /\ returns (surd_sub g BigI x' y') /\ returns (surd_mul g BigI x' y') /\ returns (surd_div g BigI x' y').
Proof. exact canon_ops. Qed.

Lemma L_C77_idempotent : forall g s s' fuel, normal g s -> ~ rational_num (sval s) -> Z.abs (discr s) < 257 * 257 ->
  surd_reduced BigI fuel s = Ok s' -> forall fuel', Z.log2 (Z.abs (discr s')) < Z.of_nat fuel' -> surd_reduced BigI fuel' s' = Ok s'.
Proof.
  intros g s s' fuel N I B H fuel' Hf. destruct (reduced_squarefree g BigI fuel s s' N I B eq_refl H) as (Q & D0 & N' & V).
  assert (I' : ~ rational_num (sval s')) by (rewrite V; auto).
  destruct (L_C75_reduced g s' fuel' N' I' Hf) as [s2 E2]. rewrite E2. f_equal.
  assert (B' : Z.abs (discr s') < 257 * 257).
  { destruct (reduced_root g BigI fuel s s' N H) as [?|(k & Hk & K)]; [contradiction|]. rewrite K, Z.abs_mul in B. assert (1 <= Z.abs (k * k)) by nia. nia. }
  apply (canon g BigI BigI fuel' fuel s' s s2 s' N' N I' I B' B eq_refl eq_refl E2 H). exact V.
Qed.

Lemma L_C77_bound_refuted : exists x y, normal (Cfg false true) x /\ normal (Cfg false true) y /\ discr x = 2 * (257 * 257) /\ sval x = sval y /\ x <> y /\
  surd_reduced BigI 64 x = Ok x /\ surd_reduced BigI 64 y = Ok y.
Proof.
  exists (new_raw 0 1 1 132098), (new_raw 0 257 1 2). split; [apply normalb_ok; vm_compute; reflexivity|]. split; [apply normalb_ok; vm_compute; reflexivity|].
  split; [reflexivity|]. split; [|split; [discriminate|split; vm_compute; reflexivity]].
  rewrite !sval_raw. unfold fval. replace 132098 with (257 * 257 * 2) by reflexivity. rewrite csqrt_scale by lia. rewrite ZtoC_0. f_equal. rewrite ZtoC_1. ring.
Qed.

Lemma ratio_new_lowest q : lowest q -> ratio_new BigI (numer q) (denom q) = Ok q.
Proof.
  intros [Hd G]. destruct q as [n d]. cbn [numer denom] in *. unfold ratio_new. destruct (Z.eqb_spec d 0); [lia|].
  destruct (Z.eqb_spec n 0) as [->|Hn]; [rewrite Z.gcd_0_l in G; rewrite Z.abs_eq in G by lia; subst d; reflexivity|].
  destruct (Z.eqb_spec n d) as [->|Hd']; [rewrite Z.gcd_diag in G; rewrite Z.abs_eq in G by lia; subst d; reflexivity|].
  bigi. rewrite G. rewrite !quotB by lia. cbn [bind]. rewrite !Z.quot_1_r. destruct (Z.ltb_spec d 0); [lia|]. reflexivity.
Qed.

Lemma rational_of_ratio q : is_rational (surd_of_ratio q) = true.
Proof. reflexivity. Qed.

Lemma L_C78_surd_ratio : forall g x q, lowest q ->
  surd_add g BigI x (surd_of_ratio q) = surd_add_ratio g BigI x q /\ surd_sub g BigI x (surd_of_ratio q) = surd_sub_ratio g BigI x q /\
  surd_mul g BigI x (surd_of_ratio q) = surd_mul_ratio g BigI x q /\ surd_div g BigI x (surd_of_ratio q) = surd_div_ratio g BigI x q.
Proof.
  intros g x q L. pose proof (ratio_new_lowest q L) as E. destruct q as [n d].
  split; [|split; [|split]]; [unfold surd_add|unfold surd_sub|unfold surd_mul|unfold surd_div]; rewrite rational_of_ratio; cbn [surd_of_ratio coeffs c0 c2]; rewrite E; reflexivity.
Qed.

Lemma L_C78_surd_int : forall g x n,
  surd_add_int g BigI x n = surd_add_ratio g BigI x (ratio_of n) /\ surd_sub_int g BigI x n = surd_sub_ratio g BigI x (ratio_of n) /\
  surd_mul_int g BigI x n = surd_mul_ratio g BigI x (ratio_of n) /\ surd_div_int g BigI x n = surd_div_ratio g BigI x (ratio_of n).
Proof.
  intros g [[a b c] r] n. unfold surd_add_int, surd_add_ratio, surd_sub_int, surd_sub_ratio, surd_mul_int, surd_mul_ratio, surd_div_int, surd_div_ratio,
    sco_add_int, sco_add_ratio, sco_sub_int, sco_sub_ratio, sco_mul_int, sco_mul_ratio, sco_div_int, sco_div_ratio, ratio_of. cbn [coeffs c0 c1 c2 discr numer denom]. bigi.
  rewrite !Z.mul_1_r. split; [|split; [|split; reflexivity]]; (destruct (Z.eqb_spec c 1) as [->|]; [rewrite Z.mul_1_r; reflexivity|reflexivity]).
Qed.

Lemma L_C78_cf_ratio : forall g fuel x q y, lowest q -> cf_of_ratio BigI q = Ok y ->
  cf_add g BigU fuel x y = cf_add_ratio g BigU fuel x q /\ cf_sub g BigU fuel x y = cf_sub_ratio g BigU fuel x q /\
  cf_mul g BigU fuel x y = cf_mul_ratio g BigU fuel x q /\ cf_div g BigU fuel x y = cf_div_ratio g BigU fuel x q.
Proof.
  intros g fuel x q y L E. pose proof (L_C30_round_trip BigI BigU q y L) as R.
  destruct (L_C30_of_ratio BigI q y L E) as (C & F & _).
  assert (RF : ratio_sfit BigU q) by (apply (L_C38_big_sized y); [destruct C; auto|auto]). specialize (R RF E).
  assert (Q : cf_is_rational y = true) by (unfold cf_is_rational; rewrite F; reflexivity).
  unfold cf_add, cf_sub, cf_mul, cf_div, cf_add_ratio, cf_sub_ratio, cf_mul_ratio, cf_div_ratio, cf_op_cf. rewrite Q, R. cbn [bind approx_value]. auto.
Qed.

Lemma L_C78_cf_int_partial : forall g fuel x n, wfcf x ->
  cf_mul_int g BigU fuel x n = cf_mul_ratio g BigU fuel x (ratio_of n) /\ cf_div_int g BigU fuel x n = cf_div_ratio g BigU fuel x (ratio_of n).
Proof.
  intros g fuel x n W.
  unfold cf_mul_int, cf_div_int, cf_mul_ratio, cf_div_ratio, cf_op_ratio. change (sty BigU) with BigI. destruct (cf_is_rational x) eqn:Q.
  - assert (F : finite x) by (unfold finite; unfold cf_is_rational in Q; destruct (p_coeffs x); [reflexivity|discriminate]).
    destruct (L_C38_to_rational_finite BigU x W F) as (r & Er & L & _); [intros; apply (L_C38_big_sized x W); auto|]. rewrite Er. cbn [bind approx_value].
    destruct r as [p q]. destruct L as [Hq G]. cbn [numer denom] in *.
    unfold ratio_mul_int, ratio_mul, ratio_div_int, ratio_div, ratio_of. cbn [numer denom]. bigi. rewrite !Z.gcd_1_r. split.
    + assert (G0 : Z.gcd q n <> 0) by (intros K; apply Z.gcd_eq_0_l in K; lia). rewrite !quotB by lia. bigi. rewrite !Z.quot_1_r, Z.mul_1_r. reflexivity.
    + rewrite !(quotB _ 1) by lia. bigi. rewrite !Z.quot_1_r. destruct (Z.eq_dec (Z.gcd p n) 0) as [->|G0]; [reflexivity|]. rewrite !quotB by lia. bigi. rewrite Z.mul_1_r. reflexivity.
  - destruct (surd_of_cf g BigU x) as [s| |]; [|auto|auto]. cbn [bind]. destruct (L_C78_surd_int g s n) as (_ & _ & E3 & E4). rewrite E3, E4. auto.
Qed.

Lemma L_C78_cf_add_refuted : exists x y z, canonical x /\ cf_add_int (Cfg false true) BigU x (-1) = Ok y /\ cf_add_ratio (Cfg false true) BigU 10 x (ratio_of (-1)) = Ok z /\ cf_val y <> cf_val z.
Proof.
  exists (CF [0; 3] nil false), (CF [0; 1; 2] nil false), (CF [0; 1; 2] nil true).
  split; [split; [|split; cbn; try congruence; lia]; cbn; repeat split; [lia|repeat constructor; lia|constructor]|]. split; [reflexivity|]. split; [reflexivity|].
  unfold cf_val. cbn [a_coeffs p_coeffs negative sgnb cfl]. lra.
Qed.

Lemma L_C78_qint_int : forall g t x n,
  qint_add g t x (QInt (QCo n 0) 0) = qint_add_int t x n /\ qint_sub g t x (QInt (QCo n 0) 0) = qint_sub_int t x n /\
  qint_mul g t x (QInt (QCo n 0) 0) = qint_mul_int t x n /\ qint_div g t x (QInt (QCo n 0) 0) = qint_div_int t x n.
Proof. intros g t x n. repeat split. Qed.

Lemma L_C78_qint_rem_refuted : let x := QInt (QCo 5 1) 2 in exists y z, qint_rem_int BigI x 3 = Ok y /\ qint_rem (Cfg false true) BigI x (QInt (QCo 3 0) 0) = Ok z /\
  qval y <> qval z.
Proof.
  intros x. exists (QInt (QCo (-1) 1) 2), (QInt (QCo 2 0) 2). split; [reflexivity|]. split; [reflexivity|]. unfold qval, omega. cbn [qcoeffs q0 q1 qdiscr].
  change (2 mod 4 =? 1) with false. cbv iota. intros K. assert (E : csqrt 2 = ZtoC 3).
  { replace (csqrt 2) with (ZtoC (-1) + ZtoC 1 * csqrt 2 + ZtoC 1)%C by (change (-1) with (- (1)); rewrite ZtoC_opp, ZtoC_1; ring).
    rewrite K. rewrite ZtoC_0, ZtoC_1. replace 3 with (2 + 1) by reflexivity. rewrite ZtoC_add, ZtoC_1. ring. }
  pose proof (csqrt_sq 2) as S. rewrite E, <- ZtoC_mul in S. apply ZtoC_inj in S. discriminate.
Qed.
