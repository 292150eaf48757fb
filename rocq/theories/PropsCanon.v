(** * PropsCanon: property theorems C77 and C78.

    Only statements: every theorem is closed by the lemma of the same name in
    ClaimsCanon.v. *)

From Coq Require Import ZArith Reals Lia Lra Bool List Arith.
From Coquelicot Require Import Coquelicot.
From Verif Require Import Base Ext ModelSurd ModelBlock ModelCF ModelConv ModelInt Spec SpecCF SpecLaw SpecInt SurdDecide ClaimsCanon.
Import ListNotations.
Open Scope Z_scope.

(** ** C77  reduced() as a canonical form *)

(** Roots below 257^2 become squarefree *)
Theorem C77_squarefree : forall g t fuel s s', normal g s -> ~ rational_num (sval s) -> Z.abs (discr s) < 257 * 257 -> fits t (Z.abs (discr s)) = true ->
  surd_reduced t fuel s = Ok s' -> squarefree (discr s') /\ sval s' = sval s.
Proof. exact L_C77_squarefree. Qed.
Print Assumptions C77_squarefree.

(** so that equal numbers become identical data, *)
Theorem C77_canonical : forall g t t' f f' x y x' y', normal g x -> normal g y -> ~ rational_num (sval x) -> ~ rational_num (sval y) ->
  Z.abs (discr x) < 257 * 257 -> Z.abs (discr y) < 257 * 257 -> fits t (Z.abs (discr x)) = true -> fits t' (Z.abs (discr y)) = true ->
  surd_reduced t f x = Ok x' -> surd_reduced t' f' y = Ok y' -> (x' = y' <-> sval x = sval y).
Proof. exact L_C77_canonical. Qed.
Print Assumptions C77_canonical.

(** [==] is right after reduced(), and equal numbers hash equally *)
Theorem C77_eq : forall g t t' f f' x y x' y' u b, normal g x -> normal g y -> ~ rational_num (sval x) -> ~ rational_num (sval y) ->
  Z.abs (discr x) < 257 * 257 -> Z.abs (discr y) < 257 * 257 -> fits t (Z.abs (discr x)) = true -> fits t' (Z.abs (discr y)) = true ->
  surd_reduced t f x = Ok x' -> surd_reduced t' f' y = Ok y' -> surd_eq u x' y' = Ok b ->
  (b = true <-> sval x = sval y) /\ (b = true -> hash_data x' = hash_data y').
Proof. exact L_C77_eq. Qed.
Print Assumptions C77_eq.

(** and the operators never panic inside one quadratic field *)
Theorem C77_arithmetic : forall g t t' f f' x y x' y', normal g x -> normal g y -> ~ rational_num (sval x) -> ~ rational_num (sval y) ->
  Z.abs (discr x) < 257 * 257 -> Z.abs (discr y) < 257 * 257 -> fits t (Z.abs (discr x)) = true -> fits t' (Z.abs (discr y)) = true ->
  surd_reduced t f x = Ok x' -> surd_reduced t' f' y = Ok y' -> same_field x y ->
  returns (surd_add g BigI x' y') /\ returns (surd_sub g BigI x' y') /\ returns (surd_mul g BigI x' y') /\ returns (surd_div g BigI x' y').
Proof. exact L_C77_arithmetic. Qed.
Print Assumptions C77_arithmetic.

(** A second reduced() changes nothing *)
Theorem C77_idempotent : forall g s s' fuel, normal g s -> ~ rational_num (sval s) -> Z.abs (discr s) < 257 * 257 ->
  surd_reduced BigI fuel s = Ok s' -> forall fuel', Z.log2 (Z.abs (discr s')) < Z.of_nat fuel' -> surd_reduced BigI fuel' s' = Ok s'.
Proof. exact L_C77_idempotent. Qed.
Print Assumptions C77_idempotent.

(** The bound cannot be raised: sqrt (2 257^2) and 257 sqrt 2 stay as they are *)
Theorem C77_bound_refuted : exists x y, normal (Cfg false true) x /\ normal (Cfg false true) y /\ discr x = 2 * (257 * 257) /\ sval x = sval y /\ x <> y /\
  surd_reduced BigI 64 x = Ok x /\ surd_reduced BigI 64 y = Ok y.
Proof. exact L_C77_bound_refuted. Qed.
Print Assumptions C77_bound_refuted.

Example C77_case : let x := new_raw 3 1 6 45 in let y := new_raw 5 (-1) 10 125 in normal (Cfg false true) x /\ normal (Cfg false true) y /\
  surd_reduced (SInt 64) 64 x = Ok (new_raw 1 1 2 5) /\ surd_reduced (SInt 64) 64 y = Ok (new_raw 1 (-1) 2 5) /\
  surd_eq (SInt 64) x y = Ok true /\ surd_eq (SInt 64) (new_raw 1 1 2 5) (new_raw 1 (-1) 2 5) = Ok false /\
  surd_add (Cfg false true) BigI x y = Panic PIncompatible /\ surd_add (Cfg false true) BigI (new_raw 1 1 2 5) (new_raw 1 (-1) 2 5) = Ok (new_raw 1 0 1 0).
Proof.
  intros x y. split; [apply normalb_ok; vm_compute; reflexivity|]. split; [apply normalb_ok; vm_compute; reflexivity|]. repeat split; vm_compute; reflexivity.
Qed.

(** ** C78  Operators with mixed operands *)

(** x op q, for a Ratio q, does what x op QuadraticSurd::from(q) does *)
Theorem C78_surd_ratio : forall g x q, lowest q ->
  surd_add g BigI x (surd_of_ratio q) = surd_add_ratio g BigI x q /\ surd_sub g BigI x (surd_of_ratio q) = surd_sub_ratio g BigI x q /\
  surd_mul g BigI x (surd_of_ratio q) = surd_mul_ratio g BigI x q /\ surd_div g BigI x (surd_of_ratio q) = surd_div_ratio g BigI x q.
Proof. exact L_C78_surd_ratio. Qed.
Print Assumptions C78_surd_ratio.

(** x op n does what x op Ratio::from(n) does *)
Theorem C78_surd_int : forall g x n,
  surd_add_int g BigI x n = surd_add_ratio g BigI x (ratio_of n) /\ surd_sub_int g BigI x n = surd_sub_ratio g BigI x (ratio_of n) /\
  surd_mul_int g BigI x n = surd_mul_ratio g BigI x (ratio_of n) /\ surd_div_int g BigI x n = surd_div_ratio g BigI x (ratio_of n).
Proof. exact L_C78_surd_int. Qed.
Print Assumptions C78_surd_int.

(** A continued fraction on the right does what the Ratio does *)
Theorem C78_cf_ratio : forall g fuel x q y, lowest q -> cf_of_ratio BigI q = Ok y ->
  cf_add g BigU fuel x y = cf_add_ratio g BigU fuel x q /\ cf_sub g BigU fuel x y = cf_sub_ratio g BigU fuel x q /\
  cf_mul g BigU fuel x y = cf_mul_ratio g BigU fuel x q /\ cf_div g BigU fuel x y = cf_div_ratio g BigU fuel x q.
Proof. exact L_C78_cf_ratio. Qed.
Print Assumptions C78_cf_ratio.

(** Multiplying and dividing by an integer does what the Ratio does *)
Theorem C78_cf_int_partial : forall g fuel x n, wfcf x ->
  cf_mul_int g BigU fuel x n = cf_mul_ratio g BigU fuel x (ratio_of n) /\ cf_div_int g BigU fuel x n = cf_div_ratio g BigU fuel x (ratio_of n).
Proof. exact L_C78_cf_int_partial. Qed.
Print Assumptions C78_cf_int_partial.

(** but adding one does not: 1/3 + (-1) is 2/3 with the integer and -2/3 with the Ratio *)
Theorem C78_cf_add_refuted : exists x y z, canonical x /\ cf_add_int (Cfg false true) BigU x (-1) = Ok y /\ cf_add_ratio (Cfg false true) BigU 10 x (ratio_of (-1)) = Ok z /\ cf_val y <> cf_val z.
Proof. exact L_C78_cf_add_refuted. Qed.
Print Assumptions C78_cf_add_refuted.

(** For quadratic integers, the operators except the remainder *)
Theorem C78_qint_int : forall g t x n,
  qint_add g t x (QInt (QCo n 0) 0) = qint_add_int t x n /\ qint_sub g t x (QInt (QCo n 0) 0) = qint_sub_int t x n /\
  qint_mul g t x (QInt (QCo n 0) 0) = qint_mul_int t x n /\ qint_div g t x (QInt (QCo n 0) 0) = qint_div_int t x n.
Proof. exact L_C78_qint_int. Qed.
Print Assumptions C78_qint_int.

(** Nor does the remainder of quadratic integers: with the integer 3 it is the remainder, with QuadraticInt::from(3) the quotient *)
Theorem C78_qint_rem_refuted : let x := QInt (QCo 5 1) 2 in exists y z, qint_rem_int BigI x 3 = Ok y /\ qint_rem (Cfg false true) BigI x (QInt (QCo 3 0) 0) = Ok z /\
  qval y <> qval z.
Proof. exact L_C78_qint_rem_refuted. Qed.
Print Assumptions C78_qint_rem_refuted.

Example C78_case : lowest (Ratio (-3) 4) /\ surd_div (Cfg false true) BigI (new_raw 1 1 2 5) (surd_of_ratio (Ratio (-3) 4)) = Ok (new_raw (-2) (-2) 3 5) /\
  cf_of_ratio BigI (Ratio (-3) 4) = Ok (CF [0; 1; 3] nil true) /\ cf_mul (Cfg false true) BigU 20 (CF [1] [2] false) (CF [0; 1; 3] nil true) = Ok (CF [1] [16; 2] true) /\ wfcf (CF [1] [2] false).
Proof. split; [split; reflexivity|]. split; [reflexivity|]. split; [reflexivity|]. split; [vm_compute; reflexivity|]. cbn; repeat split; [lia|constructor|repeat constructor; lia]. Qed.
