(** * PropsEuclid: property theorem C76.

    Only statements: every theorem is closed by the lemma of the same name in
    ClaimsEuclid.v. *)

From Coq Require Import ZArith Reals Lia Lra Bool List Arith.
From Coquelicot Require Import Coquelicot.
From Verif Require Import Base Ext ModelSurd ModelInt Spec SpecInt SpecEuclid SurdDecide ClaimsEuclid.
Import ListNotations.
Open Scope Z_scope.

(** ** C76  Exact division and Euclid's algorithm *)

(** Gaussian integers: / is exact when it can be, in particular (z * y) / y is z *)
Theorem C76_gauss_exact : forall t x y z q, gval x = (gval z * gval y)%C -> gauss_div t x y = Ok q -> q = z.
Proof. exact L_C76_gauss_exact. Qed.
Print Assumptions C76_gauss_exact.

Theorem C76_gauss_mul_div : forall t y z p q, gauss_mul t z y = Ok p -> gauss_div t p y = Ok q -> q = z.
Proof. exact L_C76_gauss_mul_div. Qed.
Print Assumptions C76_gauss_mul_div.

(** % decides divisibility *)
Theorem C76_gauss_divides : forall t x y r, gauss_rem t x y = Ok r -> (r = QCo 0 0 <-> gdivides (gval y) (gval x)).
Proof. exact L_C76_gauss_divides. Qed.
Print Assumptions C76_gauss_divides.

(** norm() is 1 exactly for the units, which are 1, -1, i and -i *)
Theorem C76_gauss_units : forall t x n, gauss_norm t x = Ok n ->
  (n = 1 <-> gdivides (gval x) (RtoC 1)) /\ (n = 1 <-> In x [QCo 1 0; QCo (-1) 0; QCo 0 1; QCo 0 (-1)]).
Proof. exact L_C76_gauss_units. Qed.
Print Assumptions C76_gauss_units.

(** Euclid's algorithm over % computes a greatest common divisor, which is a linear combination of the two *)
Theorem C76_gauss_gcd : forall t fuel x y d, gauss_gcd t fuel x y = Ok d ->
  gdivides (gval d) (gval x) /\ gdivides (gval d) (gval y) /\ (forall e, gdivides e (gval x) -> gdivides e (gval y) -> gdivides e (gval d)) /\
  exists u v, gval d = (gval u * gval x + gval v * gval y)%C.
Proof. exact L_C76_gauss_gcd. Qed.
Print Assumptions C76_gauss_gcd.

(** after at most 2 + log2 norm(y) rounds *)
Theorem C76_gauss_gcd_returns : forall x y fuel n, gauss_norm BigI y = Ok n -> Z.log2 n + 2 <= Z.of_nat fuel -> returns (gauss_gcd BigI fuel x y).
Proof. exact L_C76_gauss_gcd_returns. Qed.
Print Assumptions C76_gauss_gcd_returns.

(** gcd(11 + 3i, 1 + 8i) = 1 - 2i *)
Example C76_gauss_case : gauss_gcd (SInt 64) 4 (QCo 11 3) (QCo 1 8) = Ok (QCo 1 (-2)) /\ gauss_norm (SInt 64) (QCo 1 8) = Ok 65 /\
  gauss_div (SInt 64) (QCo 11 3) (QCo 1 (-2)) = Ok (QCo 1 5) /\ gauss_rem (SInt 64) (QCo 11 3) (QCo 1 (-2)) = Ok (QCo 0 0) /\
  gauss_mul (SInt 64) (QCo 1 5) (QCo 1 (-2)) = Ok (QCo 11 3) /\ gauss_norm (SInt 64) (QCo 0 (-1)) = Ok 1.
Proof. vm_compute. repeat (split; [reflexivity|]). reflexivity. Qed.

(** Quadratic integers over one root (or plain integers): / is exact when it can be, in particular (w * y) / y is w.
    Full statement: for all numbers x, y and w; missing: numbers over different roots (C76_mul_div_refuted). *)
Theorem C76_exact_partial : forall g t d x y w z, good_root g d -> over g d x -> over g d y -> over g d w -> qval x = (qval w * qval y)%C -> qint_div g t x y = Ok z -> qval z = qval w.
Proof. exact L_C76_exact_partial. Qed.
Print Assumptions C76_exact_partial.

Theorem C76_mul_div_partial : forall g t d y w p z, good_root g d -> over g d w -> over g d y -> qint_mul g t w y = Ok p -> qint_div g t p y = Ok z -> qval z = qval w.
Proof. exact L_C76_mul_div_partial. Qed.
Print Assumptions C76_mul_div_partial.

(** and (w * y) % y is 0, if y is irrational and % returns.  Full statement: for all y; missing: integers y, where % is / *)
Theorem C76_mul_rem_partial : forall g t d y w p r, good_root g d -> over g d w -> over g d y -> q1 (qcoeffs y) <> 0 -> qint_mul g t w y = Ok p -> qint_rem g t p y = Ok r ->
  qval r = RtoC 0.
Proof. exact L_C76_mul_rem_partial. Qed.
Print Assumptions C76_mul_rem_partial.

(** (sqrt 2 * sqrt 18) / sqrt 18 is 0; ((5 + sqrt 2) * 2) % 2 is 5 + sqrt 2; (sqrt 2 * sqrt 2) % sqrt 2 panics *)
Theorem C76_mul_div_refuted :
  (exists y w p z, wfq (Cfg false true) y /\ wfq (Cfg false true) w /\ qnested w y /\ qint_mul (Cfg false true) BigI w y = Ok p /\ qint_div (Cfg false true) BigI p y = Ok z /\
     qint_is_zero z = true /\ qint_is_zero w = false) /\
  (exists y w p r, wfq (Cfg false true) y /\ over (Cfg false true) 2 w /\ over (Cfg false true) 2 y /\ qint_mul (Cfg false true) BigI w y = Ok p /\ qint_rem (Cfg false true) BigI p y = Ok r /\
     qint_is_zero r = false) /\
  (exists w p, over (Cfg false true) 2 w /\ qint_mul (Cfg false true) BigI w w = Ok p /\ qint_rem (Cfg false true) BigI p w = Panic PDebugAssert).
Proof. exact L_C76_mul_div_refuted. Qed.
Print Assumptions C76_mul_div_refuted.

(** norm() is 1 or -1 exactly for the units of the ring *)
Theorem C76_units : forall g t d x n, good_root g d -> over g d x -> qint_norm t x = Ok n -> (Z.abs n = 1 <-> rdivides d (qval x) (RtoC 1)).
Proof. exact L_C76_units. Qed.
Print Assumptions C76_units.

(** Euclid's algorithm with x - (x / y) * y as the remainder computes a greatest common divisor; its result is one whatever the root *)
Theorem C76_gcd : forall g t d fuel x y z, good_root g d -> over g d x -> over g d y -> qint_gcd (qint_rem_by_div g t) fuel x y = Ok z ->
  over g d z /\ rdivides d (qval z) (qval x) /\ rdivides d (qval z) (qval y) /\ forall e, rdivides d e (qval x) -> rdivides d e (qval y) -> rdivides d e (qval z).
Proof. exact L_C76_gcd. Qed.
Print Assumptions C76_gcd.

(** and over these roots it always comes to an end *)
Theorem C76_gcd_returns : forall g d fuel x y n, In d [-3; -2; -1; 2; 3; 5; 13] -> good_root g d -> over g d x -> over g d y ->
  qint_norm BigI y = Ok n -> Z.abs n < Z.of_nat fuel -> returns (qint_gcd (qint_rem_by_div g BigI) fuel x y).
Proof. exact L_C76_gcd_returns. Qed.
Print Assumptions C76_gcd_returns.

(** With the crate's own % it does not: on 5 and 3 it never ends, on 10 + 4 sqrt 2 and 4 it panics, and for 7 and 2 the result is 4 *)
Theorem C76_gcd_refuted :
  (forall fuel, qint_gcd (qint_rem (Cfg false true) BigI) fuel (QInt (QCo 5 0) 0) (QInt (QCo 3 0) 0) = Hang) /\
  qint_gcd (qint_rem (Cfg false true) BigI) 50 (QInt (QCo 10 4) 2) (QInt (QCo 4 0) 0) = Panic PDebugAssert /\
  qint_gcd (qint_rem (Cfg false true) BigI) 50 (QInt (QCo 7 0) 0) (QInt (QCo 2 0) 0) = Ok (QInt (QCo 4 0) 0).
Proof. exact L_C76_gcd_refuted. Qed.
Print Assumptions C76_gcd_refuted.

(** gcd(10 + 4 sqrt 2, 4) = -2, gcd(31 + 14 sqrt 2, 17 + 5 sqrt 2) is the unit -1 + sqrt 2 *)
Example C76_gcd_case : good_root (Cfg false true) 2 /\ over (Cfg false true) 2 (QInt (QCo 10 4) 2) /\ over (Cfg false true) 2 (QInt (QCo 4 0) 0) /\
  qint_gcd (qint_rem_by_div (Cfg false true) (SInt 64)) 17 (QInt (QCo 10 4) 2) (QInt (QCo 4 0) 0) = Ok (QInt (QCo (-2) 0) 0) /\
  qint_norm BigI (QInt (QCo 4 0) 0) = Ok 16 /\
  qint_gcd (qint_rem_by_div (Cfg false true) (SInt 64)) 9 (QInt (QCo 31 14) 2) (QInt (QCo 17 5) 2) = Ok (QInt (QCo (-1) 1) 2) /\
  qint_norm BigI (QInt (QCo (-1) 1) 2) = Ok (-1) /\
  qint_mul (Cfg false true) (SInt 64) (QInt (QCo 3 (-1)) 2) (QInt (QCo 1 2) 2) = Ok (QInt (QCo (-1) 5) 2) /\
  qint_div (Cfg false true) (SInt 64) (QInt (QCo (-1) 5) 2) (QInt (QCo 1 2) 2) = Ok (QInt (QCo 3 (-1)) 2) /\
  qint_rem (Cfg false true) (SInt 64) (QInt (QCo (-1) 5) 2) (QInt (QCo 1 2) 2) = Ok (QInt (QCo 0 0) 0).
Proof.
  assert (G2 : good_root (Cfg false true) 2).
  { split; [intros [k K]; assert (-2 < k < 2) by nia; assert (k = -1 \/ k = 0 \/ k = 1) as [ -> | [ -> | -> ] ] by lia; discriminate|]. split; [discriminate|]. intros _. lia. }
  split; [exact G2|]. split; [split; [right; exact G2|reflexivity]|]. split; [split; [left; split; reflexivity|intros X; destruct X; reflexivity]|].
  vm_compute. repeat (split; [reflexivity|]). reflexivity.
Qed.
