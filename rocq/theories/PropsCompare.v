(** * PropsCompare: any two real surds can be compared with a few calls of the library (C104). *)

From Coq Require Import ZArith Reals Lia Lra List.
From Coquelicot Require Import Coquelicot.
From Verif Require Import Base Ext ModelSurd Spec SpecCF SpecCompare SurdDecide ClaimsCF ClaimsCompare.
Import ListNotations.
Open Scope Z_scope.

(** What the program answers is right, at every width, for any two real surds, whatever their roots *)
Theorem C104_right : forall g t fuel s r x y c, normal g s -> normal g r -> sval s = RtoC x -> sval r = RtoC y -> order_surds g t fuel s r = Ok c -> is_order c x y.
Proof. exact L_C104_right. Qed.
Print Assumptions C104_right.

(** Over arbitrary precision it always answers *)
Theorem C104_returns : forall g s r x y, normal g s -> normal g r -> sval s = RtoC x -> sval r = RtoC y ->
  exists n0, forall fuel, (n0 <= fuel)%nat -> returns (order_surds g BigI fuel s r).
Proof. exact L_C104_returns. Qed.
Print Assumptions C104_returns.

(** Hence it decides the order: it ends with the one right answer *)
Theorem C104_decides : forall g s r x y c, normal g s -> normal g r -> sval s = RtoC x -> sval r = RtoC y -> is_order c x y ->
  exists n0, forall fuel, (n0 <= fuel)%nat -> order_surds g BigI fuel s r = Ok c.
Proof. exact L_C104_decides. Qed.
Print Assumptions C104_decides.

(** The loop alone is right too *)
Theorem C104_loop_right : forall g t fuel s r x y c, normal g s -> normal g r -> sval s = RtoC x -> sval r = RtoC y -> compare_surds g t fuel s r = Ok c -> is_order c x y.
Proof. exact L_C104_loop_right. Qed.
Print Assumptions C104_loop_right.

(** and over arbitrary precision ends exactly if the numbers differ or are rational *)
Theorem C104_loop_returns : forall g s r x y, normal g s -> normal g r -> sval s = RtoC x -> sval r = RtoC y -> x <> y \/ rational_real x ->
  exists n0, forall fuel, (n0 <= fuel)%nat -> returns (compare_surds g BigI fuel s r).
Proof. exact L_C104_loop_returns. Qed.
Print Assumptions C104_loop_returns.

Theorem C104_loop_hangs : forall g fuel s r x, normal g s -> normal g r -> sval s = RtoC x -> sval r = RtoC x -> ~ rational_real x -> compare_surds g BigI fuel s r = Hang.
Proof. exact L_C104_loop_hangs. Qed.
Print Assumptions C104_loop_hangs.

Example C104_case : let g := Cfg false true in
  map (fun p => order_surds g (SInt 64) 50 (fst p) (snd p))
    [(Surd (SCo 0 1 1) 7, Surd (SCo 1 1 2) 18); (Surd (SCo 0 2 1) 2, Surd (SCo 0 1 1) 8); (Surd (SCo 0 2 1) 2, Surd (SCo 0 (-1) 1) 8); (Surd (SCo 22 0 7) 0, Surd (SCo 0 1 1) 10); (Surd (SCo 1 0 3) 0, Surd (SCo 1 0 3) 0)] =
    [Ok Gt; Ok Eq; Ok Gt; Ok Lt; Ok Eq] /\
  surd_sub g (SInt 64) (Surd (SCo 0 1 1) 7) (Surd (SCo 1 1 2) 18) = Panic PIncompatible /\
  surd_eq (SInt 64) (Surd (SCo 0 2 1) 2) (Surd (SCo 0 (-1) 1) 8) = Ok true /\
  compare_surds g (SInt 64) 50 (Surd (SCo 0 2 1) 2) (Surd (SCo 0 1 1) 8) = Hang.
Proof. cbv zeta. repeat split; vm_compute; reflexivity. Qed.

Example C104_case_number : let s := Surd (SCo 3 (-1) 2) 2 in let r := Surd (SCo 1 1 3) 2 in let v := ((IZR 3 + IZR (-1) * sqrt 2) / IZR 2)%R in let w := ((IZR 1 + IZR 1 * sqrt 2) / IZR 3)%R in
  normal (Cfg false true) s /\ normal (Cfg false true) r /\ sval s = RtoC v /\ sval r = RtoC w /\ is_order Lt v w /\ ~ rational_real v.
Proof.
  cbv zeta. pose proof sqrt2_bounds as B. split; [apply normalb_ok; reflexivity|]. split; [apply normalb_ok; reflexivity|]. split; [apply sval_root2; lia|]. split; [apply sval_root2; lia|]. split; [cbn; lra|apply irr_sqrt2; lia].
Qed.
