(** * PropsTurn: C33 and C36 for all results, not only those in cf_wide.

    Only statements: every theorem is closed by the lemma of the same name in
    ClaimsTurn.v. *)

From Coq Require Import ZArith Reals Lia Lra Bool List Arith.
From Coquelicot Require Import Coquelicot.
From Verif Require Import Base Ext ModelSurd ModelBlock ModelCF ModelConv Spec SpecCF SpecTurn SurdDecide ClaimsTurn.
Import ListNotations.
Open Scope Z_scope.

(** ** C33  Operators of continued fractions *)

(** What the operators return whatever the result is, at every integer type: the fraction of the result, unless the result
    lies between 0 and its conjugate, when it may be that of the conjugate or have lost its sign *)
Theorem C33_int_any : forall g u fuel x k z, fits (sty u) 1 = true -> wfcf x -> surd_sized u x ->
  (cf_mul_int g u fuel x k = Ok z -> canonical z /\ turned (cf_val x * IZR k) (cf_val z)) /\
  (cf_div_int g u fuel x k = Ok z -> k <> 0 /\ canonical z /\ turned (cf_val x / IZR k) (cf_val z)).
Proof. exact L_C33_int_any. Qed.
Print Assumptions C33_int_any.

Theorem C33_ratio_any : forall g u fuel x q z, fits (sty u) 1 = true -> wfcf x -> surd_sized u x -> lowest q ->
  (cf_add_ratio g u fuel x q = Ok z -> canonical z /\ turned (cf_val x + rval q) (cf_val z)) /\
  (cf_sub_ratio g u fuel x q = Ok z -> canonical z /\ turned (cf_val x - rval q) (cf_val z)) /\
  (cf_mul_ratio g u fuel x q = Ok z -> canonical z /\ turned (cf_val x * rval q) (cf_val z)) /\
  (cf_div_ratio g u fuel x q = Ok z -> rval q <> 0%R /\ canonical z /\ turned (cf_val x / rval q) (cf_val z)).
Proof. exact L_C33_ratio_any. Qed.
Print Assumptions C33_ratio_any.

Theorem C33_any : forall g u fuel x y z, fits (sty u) 1 = true -> wfcf x -> surd_sized u x -> wfcf y -> surd_sized u y ->
  (cf_add g u fuel x y = Ok z -> canonical z /\ turned (cf_val x + cf_val y) (cf_val z)) /\
  (cf_sub g u fuel x y = Ok z -> canonical z /\ turned (cf_val x - cf_val y) (cf_val z)) /\
  (cf_mul g u fuel x y = Ok z -> canonical z /\ turned (cf_val x * cf_val y) (cf_val z)) /\
  (cf_div g u fuel x y = Ok z -> cf_val y <> 0%R /\ canonical z /\ turned (cf_val x / cf_val y) (cf_val z)).
Proof. exact L_C33_any. Qed.
Print Assumptions C33_any.

(** There is no doubt about the result if it is rational, or not between 0 and its conjugate *)
Theorem C33_not_turned : forall v w, rational_real v \/ cf_wide v -> turned v w -> w = v.
Proof. exact L_C33_not_turned. Qed.
Print Assumptions C33_not_turned.

(** (3 - sqrt 2)/2, computed as -(sqrt 2)/2 + 3/2, is turned into its conjugate *)
Example C33_turned_case : let x := CF [0; 1] [2] true in wfcf x /\ surd_sized (UInt 32) x /\ cf_add_ratio (Cfg false true) (UInt 32) 10 x (Ratio 3 2) = Ok (CF [2] [4; 1] false) /\
  turned 2 2 /\ ~ turned 2 3.
Proof.
  cbv zeta. split; [|split; [|split; [|split]]].
  - cbn; repeat split; repeat constructor; discriminate.
  - split; [discriminate|]. intros _. cbn. lia.
  - vm_compute. reflexivity.
  - left. reflexivity.
  - intros [E|(vc & (I & _) & _)]; [lra|]. apply I. exists 2, 1. split; [lia|lra].
Qed.

(** How the operators end at arbitrary precision if the left operand is infinite and can be converted to a surd: they return
    or loop forever (C34_hangs_iff says when) if the result is irrational, and panic if it is rational *)
Theorem C33_settles : forall g x k q, wfcf x -> ~ finite x -> returns (surd_of_cf g BigU x) -> lowest q ->
  settles (cf_val x * IZR k) (fun fuel => cf_mul_int g BigU fuel x k) /\
  (k <> 0 -> settles (cf_val x / IZR k) (fun fuel => cf_div_int g BigU fuel x k)) /\
  settles (cf_val x + rval q) (fun fuel => cf_add_ratio g BigU fuel x q) /\
  settles (cf_val x - rval q) (fun fuel => cf_sub_ratio g BigU fuel x q) /\
  settles (cf_val x * rval q) (fun fuel => cf_mul_ratio g BigU fuel x q) /\
  (rval q <> 0%R -> settles (cf_val x / rval q) (fun fuel => cf_div_ratio g BigU fuel x q)).
Proof. exact L_C33_settles. Qed.
Print Assumptions C33_settles.

(** The same with a finite fraction on the right *)
Theorem C33_finite_right_settles : forall g x y, wfcf x -> ~ finite x -> returns (surd_of_cf g BigU x) -> wfcf y -> finite y ->
  settles (cf_val x + cf_val y) (fun fuel => cf_add g BigU fuel x y) /\
  settles (cf_val x - cf_val y) (fun fuel => cf_sub g BigU fuel x y) /\
  settles (cf_val x * cf_val y) (fun fuel => cf_mul g BigU fuel x y) /\
  (cf_val y <> 0%R -> settles (cf_val x / cf_val y) (fun fuel => cf_div g BigU fuel x y)).
Proof. exact L_C33_finite_right_settles. Qed.
Print Assumptions C33_finite_right_settles.

(** and with an infinite fraction on the right, if the roots of the two are compatible (C33_between_panics says what
    happens otherwise) *)
Theorem C33_between_settles : forall g x y s r, wfcf x -> wfcf y -> ~ finite y ->
  surd_of_cf g BigU x = Ok s -> surd_of_cf g BigU y = Ok r -> nested_roots s r ->
  settles (cf_val x + cf_val y) (fun fuel => cf_add g BigU fuel x y) /\
  settles (cf_val x - cf_val y) (fun fuel => cf_sub g BigU fuel x y) /\
  settles (cf_val x * cf_val y) (fun fuel => cf_mul g BigU fuel x y) /\
  (cf_val x <> 0%R -> settles (cf_val x / cf_val y) (fun fuel => cf_div g BigU fuel x y)).
Proof. exact L_C33_between_settles. Qed.
Print Assumptions C33_between_settles.

(** sqrt 2 + sqrt 8 returns, sqrt 2 * sqrt 8 panics *)
Example C33_settles_case : let a := CF [1] [2] false in let b := CF [2] [1; 4] false in
  wfcf a /\ wfcf b /\ ~ finite b /\ surd_of_cf (Cfg false true) BigU a = Ok (Surd (SCo 0 1 1) 2) /\ surd_of_cf (Cfg false true) BigU b = Ok (Surd (SCo 0 1 1) 8) /\
  nested_roots (Surd (SCo 0 1 1) 2) (Surd (SCo 0 1 1) 8) /\
  cf_add (Cfg false true) BigU 20 a b = Ok (CF [4] [4; 8] false) /\ cf_mul (Cfg false true) BigU 20 a b = Panic PDebugAssert /\ cf_mul (Cfg false false) BigU 20 a b = Panic PDivZero.
Proof.
  cbv zeta. split; [cbn; repeat split; repeat constructor; discriminate|]. split; [cbn; repeat split; repeat constructor; discriminate|]. split; [discriminate|].
  split; [vm_compute; reflexivity|]. split; [vm_compute; reflexivity|]. split; [right; right; exists 2; split; [lia|]; right; reflexivity|].
  split; [vm_compute; reflexivity|]. split; vm_compute; reflexivity.
Qed.

(** ** C36  Surd to continued fraction and back *)

(** What comes back, for every real surd and at every integer type *)
Theorem C36_any : forall g t u fuel s x z s', fits t 1 = true -> normal g s -> sval s = RtoC x ->
  surd_to_cf g t fuel s = Ok (Some z) -> surd_sized u z -> surd_of_cf g u z = Ok s' ->
  normal g s' /\ exists w, sval s' = RtoC w /\ turned x w.
Proof. exact L_C36_any. Qed.
Print Assumptions C36_any.

(** The other way round, for every infinite fraction *)
Theorem C36_back_any : forall g u fuel x s z, fits (sty u) 1 = true -> wfcf x -> ~ finite x -> surd_sized u x ->
  surd_of_cf g u x = Ok s -> surd_to_cf g (sty u) fuel s = Ok (Some z) -> canonical z /\ ~ finite z /\ turned (cf_val x) (cf_val z).
Proof. exact L_C36_back_any. Qed.
Print Assumptions C36_back_any.

(** A finite fraction never makes the round trip: the surd is rational, and is never converted *)
Theorem C36_finite_never : forall g u t fuel x s z, wfcf x -> finite x -> surd_sized u x ->
  surd_of_cf g u x = Ok s -> surd_to_cf g t fuel s <> Ok (Some z).
Proof. exact L_C36_finite_never. Qed.
Print Assumptions C36_finite_never.

Example C36_any_case : normal (Cfg false true) (Surd (SCo 3 (-1) 2) 2) /\ sval (Surd (SCo 3 (-1) 2) 2) = RtoC ((3 - sqrt 2) / 2) /\
  surd_to_cf (Cfg false true) BigI 20 (Surd (SCo 3 (-1) 2) 2) = Ok (Some (CF [2] [4; 1] false)) /\
  surd_of_cf (Cfg false true) BigU (CF [2] [4; 1] false) = Ok (Surd (SCo 3 1 2) 2).
Proof. exact C36_any_case_proof. Qed.
