(** * ClaimsEuclid: proofs of the property theorems in PropsEuclid.v. *)

From Coq Require Import ZArith Znumtheory Reals Lia Lra Bool List Arith.
From Coquelicot Require Import Coquelicot.
From Verif Require Import Base Ext ModelSurd ModelInt Spec SpecInt SpecEuclid NumFacts Transfer SurdCore IntCore IntArith IntOps IntDiv IntMore ClaimsInt IntEuclid SurdDecide.
Import ListNotations.
Open Scope Z_scope.

Lemma L_C76_gauss_exact : forall t x y z q, gval x = (gval z * gval y)%C -> gauss_div t x y = Ok q -> q = z.
Proof. exact gauss_exact. Qed.

Lemma L_C76_gauss_mul_div : forall t y z p q, gauss_mul t z y = Ok p -> gauss_div t p y = Ok q -> q = z.
Proof. intros t y z p q M. apply gauss_exact. apply gauss_mul_ok in M. exact M. Qed.

Lemma L_C76_gauss_divides : forall t x y r, gauss_rem t x y = Ok r -> (r = QCo 0 0 <-> gdivides (gval y) (gval x)).
Proof. exact gauss_divides. Qed.

Lemma L_C76_gauss_units : forall t x n, gauss_norm t x = Ok n ->
  (n = 1 <-> gdivides (gval x) (RtoC 1)) /\ (n = 1 <-> In x [QCo 1 0; QCo (-1) 0; QCo 0 1; QCo 0 (-1)]).
Proof. exact gauss_unit. Qed.

Lemma L_C76_gauss_gcd : forall t fuel x y d, gauss_gcd t fuel x y = Ok d ->
  gdivides (gval d) (gval x) /\ gdivides (gval d) (gval y) /\ (forall e, gdivides e (gval x) -> gdivides e (gval y) -> gdivides e (gval d)) /\
  exists u v, gval d = (gval u * gval x + gval v * gval y)%C.
Proof.
  intros t fuel x y d H. destruct (gauss_gcd_ok t fuel x y d H) as (A & B & C). split; [exact A|]. split; [exact B|]. split; [|exact C].
  intros e. exact (gauss_gcd_greatest t fuel x y d e H).
Qed.

Lemma L_C76_gauss_gcd_returns : forall x y fuel n, gauss_norm BigI y = Ok n -> Z.log2 n + 2 <= Z.of_nat fuel -> returns (gauss_gcd BigI fuel x y).
Proof.
  intros x y fuel n N H. apply gauss_norm_m1 in N. rewrite gval_norm in N. fold (gn y) in N. subst n.
  apply gauss_gcd_total; intros _; [|exact H]. pose proof (Z.log2_nonneg (gn y)). lia.
Qed.

Lemma L_C76_exact_partial : forall g t d x y w z, good_root g d -> over g d x -> over g d y -> over g d w -> qval x = (qval w * qval y)%C -> qint_div g t x y = Ok z -> qval z = qval w.
Proof. exact over_exact. Qed.

Lemma L_C76_mul_div_partial : forall g t d y w p z, good_root g d -> over g d w -> over g d y -> qint_mul g t w y = Ok p -> qint_div g t p y = Ok z -> qval z = qval w.
Proof. intros g t d y w p z. exact (over_mul_div g t d w y p z). Qed.

Lemma L_C76_mul_rem_partial : forall g t d y w p r, good_root g d -> over g d w -> over g d y -> q1 (qcoeffs y) <> 0 -> qint_mul g t w y = Ok p -> qint_rem g t p y = Ok r ->
  qval r = RtoC 0.
Proof. intros g t d y w p r. exact (over_mul_rem g t d w y p r). Qed.

Lemma L_C76_mul_div_refuted :
  (exists y w p z, wfq (Cfg false true) y /\ wfq (Cfg false true) w /\ qnested w y /\ qint_mul (Cfg false true) BigI w y = Ok p /\ qint_div (Cfg false true) BigI p y = Ok z /\
     qint_is_zero z = true /\ qint_is_zero w = false) /\
  (exists y w p r, wfq (Cfg false true) y /\ over (Cfg false true) 2 w /\ over (Cfg false true) 2 y /\ qint_mul (Cfg false true) BigI w y = Ok p /\ qint_rem (Cfg false true) BigI p y = Ok r /\
     qint_is_zero r = false) /\
  (exists w p, over (Cfg false true) 2 w /\ qint_mul (Cfg false true) BigI w w = Ok p /\ qint_rem (Cfg false true) BigI p w = Panic PDebugAssert).
Proof.
  assert (G2 : good_root (Cfg false true) 2).
  { split; [intros [k K]; assert (-2 < k < 2) by nia; assert (k = -1 \/ k = 0 \/ k = 1) as [ -> | [ -> | -> ] ] by lia; discriminate|]. split; [discriminate|]. intros _. lia. }
  assert (G18 : good_root (Cfg false true) 18).
  { split; [intros [k K]; assert (-5 < k < 5) by nia; assert (k = -4 \/ k = -3 \/ k = -2 \/ k = -1 \/ k = 0 \/ k = 1 \/ k = 2 \/ k = 3 \/ k = 4) as [ -> | [ -> | [ -> | [ -> | [ -> | [ -> | [ -> | [ -> | -> ] ] ] ] ] ] ] ] by lia; discriminate|].
    split; [discriminate|]. intros _. lia. }
  split; [|split].
  - exists (QInt (QCo 0 1) 18), (QInt (QCo 0 1) 2). do 2 eexists. split; [right; auto|]. split; [right; auto|].
    split; [right; right; exists 3; split; [reflexivity|right; reflexivity]|].
    split; [vm_compute; reflexivity|]. split; [vm_compute; reflexivity|]. split; reflexivity.
  - exists (QInt (QCo 2 0) 0), (QInt (QCo 5 1) 2). do 2 eexists. split; [left; auto|].
    split; [split; [right; auto|auto]|]. split; [split; [left; auto|intros X; destruct X; reflexivity]|].
    split; [vm_compute; reflexivity|]. split; [vm_compute; reflexivity|]. reflexivity.
  - exists (QInt (QCo 0 1) 2). eexists. split; [split; [right; auto|auto]|]. split; vm_compute; reflexivity.
Qed.

Lemma L_C76_units : forall g t d x n, good_root g d -> over g d x -> qint_norm t x = Ok n -> (Z.abs n = 1 <-> rdivides d (qval x) (RtoC 1)).
Proof. exact qint_unit. Qed.

Lemma L_C76_gcd : forall g t d fuel x y z, good_root g d -> over g d x -> over g d y -> qint_gcd (qint_rem_by_div g t) fuel x y = Ok z ->
  over g d z /\ rdivides d (qval z) (qval x) /\ rdivides d (qval z) (qval y) /\ forall e, rdivides d e (qval x) -> rdivides d e (qval y) -> rdivides d e (qval z).
Proof. intros g t d fuel x y z G. exact (qint_gcd_ok g t d fuel G x y z). Qed.

Lemma L_C76_gcd_returns : forall g d fuel x y n, In d [-3; -2; -1; 2; 3; 5; 13] -> good_root g d -> over g d x -> over g d y ->
  qint_norm BigI y = Ok n -> Z.abs n < Z.of_nat fuel -> returns (qint_gcd (qint_rem_by_div g BigI) fuel x y).
Proof.
  intros g d fuel x y n I G Ox Oy N L. apply (rn_norm g d) in N; auto. subst n. apply (qint_gcd_total g d); auto.
Qed.

Lemma L_C76_gcd_refuted :
  (forall fuel, qint_gcd (qint_rem (Cfg false true) BigI) fuel (QInt (QCo 5 0) 0) (QInt (QCo 3 0) 0) = Hang) /\
  qint_gcd (qint_rem (Cfg false true) BigI) 50 (QInt (QCo 10 4) 2) (QInt (QCo 4 0) 0) = Panic PDebugAssert /\
  qint_gcd (qint_rem (Cfg false true) BigI) 50 (QInt (QCo 7 0) 0) (QInt (QCo 2 0) 0) = Ok (QInt (QCo 4 0) 0).
Proof. split; [exact rem_circle_53|]. split; vm_compute; reflexivity. Qed.
