(** * PropsFixed: arithmetic in all quadratic fields, real or complex, with a few calls more (C107). *)

From Coq Require Import ZArith Reals Lia Lra List.
From Coquelicot Require Import Coquelicot.
From Verif Require Import Base Ext ModelSurd Spec SpecFixed SurdDecide ClaimsSurd ClaimsFixed.
Import ListNotations.
Open Scope Z_scope.

(** With the sign put right, products and quotients are exact for all surds at every width *)
Theorem C107_mul : forall g t l r s, normal g l -> normal g r -> mul_fixed g t l r = Ok s -> normal g s /\ sval s = (sval l * sval r)%C.
Proof. exact L_C107_mul. Qed.
Print Assumptions C107_mul.

Theorem C107_div : forall g t l r s, normal g l -> normal g r -> div_fixed g t l r = Ok s -> normal g s /\ (sval r <> RtoC 0 -> sval s = (sval l / sval r)%C).
Proof. exact L_C107_div. Qed.
Print Assumptions C107_div.

(** Writing a surd with the root of another one keeps the number and never panics over arbitrary precision *)
Theorem C107_rebase : forall g t l r z, normal g l -> normal g r -> rebase_fixed g t l r = Ok z -> normal g z /\ sval z = sval r.
Proof. exact L_C107_rebase. Qed.
Print Assumptions C107_rebase.

Theorem C107_rebase_returns : forall g l r, normal g l -> normal g r -> exists z, rebase_fixed g BigI l r = Ok z /\ (same_field l r -> nested_roots l z).
Proof. exact L_C107_rebase_returns. Qed.
Print Assumptions C107_rebase_returns.

(** The four operations are exact at every width *)
Theorem C107_exact : forall g t l r s, normal g l -> normal g r ->
  (add_all g t l r = Ok s -> normal g s /\ sval s = (sval l + sval r)%C) /\ (sub_all g t l r = Ok s -> normal g s /\ sval s = (sval l - sval r)%C) /\
  (mul_all g t l r = Ok s -> normal g s /\ sval s = (sval l * sval r)%C) /\ (div_all g t l r = Ok s -> normal g s /\ (sval r <> RtoC 0 -> sval s = (sval l / sval r)%C)).
Proof. exact L_C107_exact. Qed.
Print Assumptions C107_exact.

(** and over arbitrary precision always possible inside one field *)
Theorem C107_returns : forall g l r, normal g l -> normal g r -> same_field l r ->
  returns (add_all g BigI l r) /\ returns (sub_all g BigI l r) /\ returns (mul_all g BigI l r) /\ (sval r <> RtoC 0 -> returns (div_all g BigI l r)).
Proof. exact L_C107_returns. Qed.
Print Assumptions C107_returns.

(** In different fields the sum and the difference still panic *)
Theorem C107_panics : forall g l r, normal g l -> normal g r -> ~ same_field l r -> add_all g BigI l r = Panic PIncompatible /\ sub_all g BigI l r = Panic PIncompatible.
Proof. exact L_C107_panics. Qed.
Print Assumptions C107_panics.

Example C107_case : let g := Cfg true true in let i := Surd (SCo 0 1 1) (-1) in let l := Surd (SCo 1 1 1) (-8) in let r := Surd (SCo 1 1 2) (-18) in let o := Surd (SCo 0 0 1) 0 in
  surd_mul g (SInt 64) i i = Ok (Surd (SCo 1 0 1) 0) /\ mul_fixed g (SInt 64) i i = Ok (Surd (SCo (-1) 0 1) 0) /\
  surd_div g (SInt 64) i i = Ok (Surd (SCo (-1) 0 1) 0) /\ div_fixed g (SInt 64) i i = Ok (Surd (SCo 1 0 1) 0) /\
  surd_add g (SInt 64) l r = Panic PIncompatible /\ add_all g (SInt 64) l r = Ok (Surd (SCo 3 7 2) (-2)) /\ sub_all g (SInt 64) l r = Ok (Surd (SCo 1 1 2) (-2)) /\
  mul_all g (SInt 64) l r = Ok (Surd (SCo (-11) 5 2) (-2)) /\ div_all g (SInt 64) l r = Ok (Surd (SCo 26 (-2) 19) (-2)) /\
  surd_div g (SInt 64) o l = Panic PZeroDenom /\ div_all g (SInt 64) o l = Ok o /\ add_all g BigI l (Surd (SCo 0 1 1) (-3)) = Panic PIncompatible.
Proof. cbv zeta. repeat split; vm_compute; reflexivity. Qed.

Example C107_case_number : let l := Surd (SCo 1 1 1) (-8) in let r := Surd (SCo 1 1 2) (-18) in
  normal (Cfg true true) l /\ normal (Cfg true true) r /\ same_field l r /\ ~ nested_roots l r.
Proof.
  cbv zeta. assert (N1 : normal (Cfg true true) (Surd (SCo 1 1 1) (-8))) by (apply normalb_ok; reflexivity). assert (N2 : normal (Cfg true true) (Surd (SCo 1 1 2) (-18))) by (apply normalb_ok; reflexivity).
  split; [auto|]. split; [auto|]. split; [right; right; exists 3, 2; cbn; lia|]. intros K. destruct (L_C06_same_field_partial _ _ _ N1 N2 K) as [[s Hs] _]. vm_compute in Hs. discriminate.
Qed.
