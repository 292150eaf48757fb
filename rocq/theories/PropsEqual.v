(** * PropsEqual: equality of surds put right with a few calls more (C108). *)

From Coq Require Import ZArith Reals Lia Lra List.
From Coquelicot Require Import Coquelicot.
From Verif Require Import Base Ext ModelSurd Spec SpecEqual SurdDecide ClaimsEqual.
Open Scope Z_scope.

(** The test answers whether the numbers are equal, at every width *)
Theorem C108_right : forall g t l r b, normal g l -> normal g r -> equal_fixed g t l r = Ok b -> (b = true <-> sval l = sval r).
Proof. exact L_C108_right. Qed.
Print Assumptions C108_right.

(** and always answers over arbitrary precision *)
Theorem C108_returns : forall g l r, normal g l -> normal g r -> returns (equal_fixed g BigI l r).
Proof. exact L_C108_returns. Qed.
Print Assumptions C108_returns.

(** so it decides equality, *)
Theorem C108_decides : forall g l r, normal g l -> normal g r ->
  (equal_fixed g BigI l r = Ok true <-> sval l = sval r) /\ (equal_fixed g BigI l r = Ok false <-> sval l <> sval r).
Proof. exact L_C108_decides. Qed.
Print Assumptions C108_decides.

(** and is an equivalence relation also where the types differ in width *)
Theorem C108_equivalence : forall g, (forall x, normal g x -> equal_fixed g BigI x x = Ok true) /\
  (forall t u x y b c, normal g x -> normal g y -> equal_fixed g t x y = Ok b -> equal_fixed g u y x = Ok c -> b = c) /\
  (forall t u v x y z b, normal g x -> normal g y -> normal g z -> equal_fixed g t x y = Ok true -> equal_fixed g u y z = Ok true -> equal_fixed g v x z = Ok b -> b = true).
Proof. exact L_C108_equivalence. Qed.
Print Assumptions C108_equivalence.

Example C108_case : let g := Cfg true true in let a := Surd (SCo 0 2 1) 2 in let b := Surd (SCo 0 (-1) 1) 8 in let i := Surd (SCo 1 2 1) (-2) in let j := Surd (SCo 1 (-1) 1) (-8) in
  surd_eq (SInt 64) a b = Ok true /\ equal_fixed g (SInt 64) a b = Ok false /\ equal_fixed g (SInt 64) a (Surd (SCo 0 1 1) 8) = Ok true /\
  surd_eq (SInt 64) i j = Ok true /\ equal_fixed g (SInt 64) i j = Ok false /\ equal_fixed g (SInt 64) i (Surd (SCo 1 1 1) (-8)) = Ok true.
Proof. cbv zeta. repeat split; vm_compute; reflexivity. Qed.

Example C108_case_number : let g := Cfg true true in normal g (Surd (SCo 0 2 1) 2) /\ normal g (Surd (SCo 0 (-1) 1) 8) /\ normal g (Surd (SCo 1 2 1) (-2)) /\ normal g (Surd (SCo 1 (-1) 1) (-8)).
Proof. cbv zeta. split; [|split; [|split]]; apply normalb_ok; reflexivity. Qed.
