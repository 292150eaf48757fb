(** * PropsPrincipal: the principal square root with a call more (C110). *)

From Coq Require Import ZArith Reals Lia Lra List.
From Coquelicot Require Import Coquelicot.
From Verif Require Import Base Ext ModelSurd Spec SpecPlaces SurdDecide ClaimsPrincipal.
Open Scope Z_scope.

(** What is returned is the principal root, in normal form, at every width *)
Theorem C110_right : forall g t x y, normal g x -> principal_root g t x = Ok (SqOk y) -> normal g y /\ (sval y * sval y)%C = sval x /\ principal (sval y).
Proof. exact L_C110_right. Qed.
Print Assumptions C110_right.

(** There is only one such number *)
Theorem C110_unique : forall u v : C, (u * u)%C = (v * v)%C -> principal u -> principal v -> u = v.
Proof. exact L_C110_unique. Qed.
Print Assumptions C110_unique.

(** If the principal root can be written over the root of the number, it is found *)
Theorem C110_complete : forall g x v, normal g x -> over_root (discr x) v -> (v * v)%C = sval x -> principal v -> exists y, principal_root g BigI x = Ok (SqOk y) /\ sval y = v.
Proof. exact L_C110_complete. Qed.
Print Assumptions C110_complete.

(** Errors are those of from_sqrt *)
Theorem C110_err : forall g t x d k, normal g x -> principal_root g t x = Ok (SqErr d k) -> sval d = sval x /\ (k = EComplex <-> cplx g = false /\ exists v, (v < 0)%R /\ sval x = RtoC v).
Proof. exact L_C110_err. Qed.
Print Assumptions C110_err.

Theorem C110_returns : forall g x, normal g x -> returns (principal_root g BigI x).
Proof. exact L_C110_returns. Qed.
Print Assumptions C110_returns.

Example C110_case : let g := Cfg true true in let x := Surd (SCo 3 (-2) 1) 2 in
  from_sqrt_surd g (SInt 64) x = Ok (SqOk (Surd (SCo 1 (-1) 1) 2)) /\ principal_root g (SInt 64) x = Ok (SqOk (Surd (SCo (-1) 1 1) 2)) /\
  principal_root g (SInt 64) (Surd (SCo (-1) 2 1) (-2)) = Ok (SqOk (Surd (SCo 1 1 1) (-2))) /\ principal_root g (SInt 64) (surd_of_int (-4)) = Ok (SqOk (Surd (SCo 0 1 1) (-4))).
Proof. cbv zeta. split; [|split; [|split]]; vm_compute; reflexivity. Qed.

Example C110_case_number : normal (Cfg true true) (Surd (SCo 3 (-2) 1) 2) /\ normal (Cfg true true) (Surd (SCo (-1) 2 1) (-2)).
Proof. split; apply normalb_ok; reflexivity. Qed.
