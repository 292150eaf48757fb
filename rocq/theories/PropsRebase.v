(** * PropsRebase: any two surds of one real quadratic field can be added, subtracted, multiplied and divided (C105). *)

From Coq Require Import ZArith Reals Lia Lra List.
From Coquelicot Require Import Coquelicot.
From Verif Require Import Base Ext ModelSurd Spec SpecCF SpecRebase SurdCore SurdArith SurdOrd SurdDecide ClaimsSurd ClaimsRebase.
Import ListNotations.
Open Scope Z_scope.

(** Writing a surd with the root of another one keeps the number, at every width *)
Theorem C105_rebase : forall g t l r x y z, normal g l -> normal g r -> sval l = RtoC x -> sval r = RtoC y -> rebase g t l r = Ok z ->
  normal g z /\ sval z = sval r.
Proof. exact L_C105_rebase. Qed.
Print Assumptions C105_rebase.

(** Over arbitrary precision it never fails, and afterwards one root is a square times the other if the field is the same *)
Theorem C105_rebase_returns : forall g l r x y, normal g l -> normal g r -> sval l = RtoC x -> sval r = RtoC y ->
  exists z, rebase g BigI l r = Ok z /\ (same_field l r -> nested_roots l z).
Proof. exact L_C105_rebase_returns. Qed.
Print Assumptions C105_rebase_returns.

(** The four operations are exact at every width *)
Theorem C105_exact : forall g t l r x y s, normal g l -> normal g r -> sval l = RtoC x -> sval r = RtoC y ->
  (add_any g t l r = Ok s -> normal g s /\ sval s = RtoC (x + y)) /\ (sub_any g t l r = Ok s -> normal g s /\ sval s = RtoC (x - y)) /\
  (mul_any g t l r = Ok s -> normal g s /\ sval s = RtoC (x * y)) /\ (div_any g t l r = Ok s -> normal g s /\ (y <> 0%R -> sval s = RtoC (x / y))).
Proof. exact L_C105_exact. Qed.
Print Assumptions C105_exact.

(** and over arbitrary precision always possible inside one field *)
Theorem C105_returns : forall g l r x y, normal g l -> normal g r -> sval l = RtoC x -> sval r = RtoC y -> same_field l r ->
  returns (add_any g BigI l r) /\ returns (sub_any g BigI l r) /\ returns (mul_any g BigI l r) /\ (y <> 0%R -> returns (div_any g BigI l r)).
Proof. exact L_C105_returns. Qed.
Print Assumptions C105_returns.

(** For two numbers of different fields the sum and the difference are no surds, and the panic stays *)
Theorem C105_panics : forall g l r x y, normal g l -> normal g r -> sval l = RtoC x -> sval r = RtoC y -> ~ same_field l r ->
  add_any g BigI l r = Panic PIncompatible /\ sub_any g BigI l r = Panic PIncompatible.
Proof. exact L_C105_panics. Qed.
Print Assumptions C105_panics.

Example C105_case : let g := Cfg false true in let l := Surd (SCo 1 1 1) 8 in let r := Surd (SCo 1 1 2) 18 in
  surd_add g (SInt 64) l r = Panic PIncompatible /\ surd_mul g (SInt 64) l r = Panic PIncompatible /\
  rebase g (SInt 64) l r = Ok (Surd (SCo 1 3 2) 2) /\
  add_any g (SInt 64) l r = Ok (Surd (SCo 3 7 2) 2) /\ sub_any g (SInt 64) l r = Ok (Surd (SCo 1 1 2) 2) /\
  mul_any g (SInt 64) l r = Ok (Surd (SCo 13 5 2) 2) /\ div_any g (SInt 64) l r = Ok (Surd (SCo 22 2 17) 2) /\
  add_any g BigI l (Surd (SCo 0 1 1) 3) = Panic PIncompatible.
Proof. cbv zeta. repeat split; vm_compute; reflexivity. Qed.

Example C105_case_number : let l := Surd (SCo 1 1 1) 8 in let r := Surd (SCo 1 1 2) 18 in
  normal (Cfg false true) l /\ normal (Cfg false true) r /\ (exists x, sval l = RtoC x) /\ (exists y, sval r = RtoC y /\ y <> 0%R) /\ same_field l r /\
  ~ nested_roots l r.
Proof.
  cbv zeta. assert (N1 : normal (Cfg false true) (Surd (SCo 1 1 1) 8)) by (apply normalb_ok; reflexivity). assert (N2 : normal (Cfg false true) (Surd (SCo 1 1 2) 18)) by (apply normalb_ok; reflexivity).
  split; [auto|]. split; [auto|]. split; [eexists; apply sval_rs; unfold okc; cbn; lia|]. split.
  - eexists. split; [apply sval_rs; unfold okc; cbn; lia|]. unfold rs, rnum. cbn. pose proof (sqrt_pos 18). lra.
  - split; [right; right; exists 3, 2; cbn; lia|]. intros K. destruct (L_C06_same_field_partial _ _ _ N1 N2 K) as [[s Hs] _]. vm_compute in Hs. discriminate.
Qed.
