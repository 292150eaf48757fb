(** * PropsRounding: rounding put right with floor() alone (C109). *)

From Coq Require Import ZArith Reals Lia Lra List.
From Coquelicot Require Import Coquelicot.
From Verif Require Import Base Ext ModelSurd Spec SpecEqual SurdDecide ClaimsRounding.
Open Scope Z_scope.

(** Rounding up, at every width *)
Theorem C109_ceil : forall g t s x v, normal g s -> sval s = RtoC x -> ceil_fixed g t s = Ok v -> normal g v /\ exists n, sval v = ZtoC n /\ (IZR n - 1 < x <= IZR n)%R.
Proof. exact L_C109_ceil. Qed.
Print Assumptions C109_ceil.

(** Rounding toward zero *)
Theorem C109_trunc : forall g t s x v, normal g s -> sval s = RtoC x -> trunc_fixed g t s = Ok v -> normal g v /\ exists n, sval v = ZtoC n /\ istrunc x n.
Proof. exact L_C109_trunc. Qed.
Print Assumptions C109_trunc.

(** The part left over by it *)
Theorem C109_fract : forall g t s x v, normal g s -> sval s = RtoC x -> fract_fixed g t s = Ok v -> normal g v /\ exists n, istrunc x n /\ sval v = RtoC (x - IZR n).
Proof. exact L_C109_fract. Qed.
Print Assumptions C109_fract.

(** Rounding to the nearest integer, halves up *)
Theorem C109_round : forall g t s x v, normal g s -> sval s = RtoC x -> round_fixed g t s = Ok v -> normal g v /\ exists n, sval v = ZtoC n /\ (IZR n - / 2 <= x < IZR n + / 2)%R.
Proof. exact L_C109_round. Qed.
Print Assumptions C109_round.

(** All of them always return over arbitrary precision *)
Theorem C109_returns : forall g s x, normal g s -> sval s = RtoC x ->
  returns (ceil_fixed g BigI s) /\ returns (trunc_fixed g BigI s) /\ returns (fract_fixed g BigI s) /\ returns (round_fixed g BigI s).
Proof. exact L_C109_returns. Qed.
Print Assumptions C109_returns.

Example C109_case : let g := Cfg true true in let s := Surd (SCo 2 (-1) 1) 2 in let m := Surd (SCo (-7) 1 2) 5 in
  surd_trunc g (SInt 64) s = Ok (surd_of_int 1) /\ trunc_fixed g (SInt 64) s = Ok (surd_of_int 0) /\ ceil_fixed g (SInt 64) s = Ok (surd_of_int 1) /\
  fract_fixed g (SInt 64) s = Ok s /\ round_fixed g (SInt 64) s = Ok (surd_of_int 1) /\
  trunc_fixed g (SInt 64) m = Ok (surd_of_int (-2)) /\ fract_fixed g (SInt 64) m = Ok (Surd (SCo (-3) 1 2) 5) /\ round_fixed g (SInt 64) m = Ok (surd_of_int (-2)).
Proof. cbv zeta. repeat split; vm_compute; reflexivity. Qed.

Example C109_case_number : normal (Cfg true true) (Surd (SCo 2 (-1) 1) 2) /\ sval (Surd (SCo 2 (-1) 1) 2) = RtoC (2 - sqrt 2).
Proof.
  split; [apply normalb_ok; reflexivity|]. apply injective_projections; unfold sval; cbn; [|destruct (Rle_dec 0 2); cbn; lra].
  lra.
Qed.
