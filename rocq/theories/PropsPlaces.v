(** * PropsPlaces: the digits of any real surd to any base (C111). *)

From Coq Require Import ZArith Reals Lia Lra List.
From Coquelicot Require Import Coquelicot.
From Verif Require Import Base Ext ModelSurd Spec SpecPlaces SurdDecide ClaimsPlaces.
Import ListNotations.
Open Scope Z_scope.

(** The first item is the floor, the others are digits, and together they are the number up to one unit of the last place, at every width *)
Theorem C111_right : forall g t base n, 2 <= base -> forall s x l, normal g s -> sval s = RtoC x -> digits g t base n s = Ok l ->
  exists d l', l = d :: l' /\ length l' = n /\ isfloor x d /\ List.Forall (fun e => 0 <= e < base) l' /\ (digits_val base l <= x < digits_val base l + / IZR base ^ n)%R.
Proof. exact L_C111_right. Qed.
Print Assumptions C111_right.

(** Any number of digits can be had over arbitrary precision *)
Theorem C111_returns : forall g base n s x, normal g s -> sval s = RtoC x -> returns (digits g BigI base n s).
Proof. exact L_C111_returns. Qed.
Print Assumptions C111_returns.

Example C111_case : let g := Cfg true true in
  digits g BigI 10 8 (Surd (SCo 0 1 1) 2) = Ok [1; 4; 1; 4; 2; 1; 3; 5; 6] /\ digits g BigI 2 6 (Surd (SCo 1 1 2) 5) = Ok [1; 1; 0; 0; 1; 1; 1] /\
  digits g BigI 10 4 (Surd (SCo 0 (-1) 1) 2) = Ok [-2; 5; 8; 5; 7] /\ digits g BigI 10 3 (Surd (SCo 1 0 8) 0) = Ok [0; 1; 2; 5].
Proof. cbv zeta. split; [|split; [|split]]; vm_compute; reflexivity. Qed.

Example C111_case_number : normal (Cfg true true) (Surd (SCo 0 (-1) 1) 2) /\ exists x, sval (Surd (SCo 0 (-1) 1) 2) = RtoC x.
Proof.
  split; [apply normalb_ok; reflexivity|]. exists (fst (sval (Surd (SCo 0 (-1) 1) 2))). apply injective_projections; [reflexivity|]. unfold sval, csqrt, rcsqrt. cbn. try (destruct (Rlt_dec 2 0)); cbn; lra.
Qed.
