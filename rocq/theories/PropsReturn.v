(** * PropsReturn: every periodic continued fraction can be converted to a surd, with a few calls more (C103). *)

From Coq Require Import ZArith Reals Lia Lra List.
From Coquelicot Require Import Coquelicot.
From Verif Require Import Base Ext ModelSurd ModelBlock ModelCF ModelConv Spec SpecCF SpecRecipe SpecReturn ClaimsReturn.
Import ListNotations.
Open Scope Z_scope.

(** What the program returns is the surd of the same number, if the type holds the continuant of the period *)
Theorem C103_right : forall g u x s, fits (sty u) 1 = true -> wfcf x -> ~ finite x -> sfit u (cont (p_coeffs x)) -> return_any g u x = Ok s ->
  normal g s /\ sval s = RtoC (cf_val x).
Proof. exact L_C103_right. Qed.
Print Assumptions C103_right.

(** Over arbitrary precision it always returns *)
Theorem C103_returns : forall g x, wfcf x -> ~ finite x -> returns (return_any g BigU x).
Proof. exact L_C103_returns. Qed.
Print Assumptions C103_returns.

(** To a continued fraction with the program of C102 and back: always possible, for every irrational real surd *)
Theorem C103_there_and_back : forall g s x, normal g s -> sval s = RtoC x -> ~ rational_real x ->
  exists n0, forall fuel, (n0 <= fuel)%nat -> exists z r, convert_any g BigI fuel s = Ok (Some z) /\ return_any g BigU z = Ok r /\ normal g r /\ sval r = sval s.
Proof. exact L_C103_there_and_back. Qed.
Print Assumptions C103_there_and_back.

(** To a surd and back: always possible, for every periodic fraction, with the same sign and the same coefficients *)
Theorem C103_back_and_there : forall g x, canonical x -> ~ finite x ->
  exists s n0, return_any g BigU x = Ok s /\ forall fuel, (n0 <= fuel)%nat -> exists z, convert_any g BigI fuel s = Ok (Some z) /\ negative z = negative x /\ forall n, coeff_at z n = coeff_at x n.
Proof. exact L_C103_back_and_there. Qed.
Print Assumptions C103_back_and_there.

(** The fraction whose conversion panics *)
Example C103_case : let x := CF [0; 1; 5; 1] [14; 15; 1; 50624] false in wfcf x /\ canonical x /\ ~ finite x /\ sfit (UInt 64) (cont (p_coeffs x)) /\
  surd_of_cf (Cfg false true) (UInt 64) x = Panic PIncompatible /\ return_any (Cfg false true) (UInt 64) x = Ok (Surd (SCo 285771095 1125 338369286) 11390629) /\
  convert_any (Cfg false true) (SInt 128) 50 (Surd (SCo 285771095 1125 338369286) 11390629) = Ok (Some x).
Proof.
  cbv zeta. assert (W : wfcf (CF [0; 1; 5; 1] [14; 15; 1; 50624] false)) by (cbn; repeat split; try lia; repeat constructor; lia).
  split; [exact W|]. split; [split; [exact W|split; cbn; discriminate]|]. split; [discriminate|]. split; [vm_compute; split; congruence|].
  split; [vm_compute; reflexivity|]. split; vm_compute; reflexivity.
Qed.
