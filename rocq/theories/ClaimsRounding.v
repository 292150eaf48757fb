(** * ClaimsRounding: proofs of the property theorems in PropsRounding.v. *)

From Coq Require Import ZArith Reals Lia Lra Bool List Arith.
From Coquelicot Require Import Coquelicot.
From Verif Require Import Base Ext ModelSurd Spec SpecEqual SurdRounding.
Open Scope Z_scope.

Lemma L_C109_ceil : forall g t s x v, normal g s -> sval s = RtoC x -> ceil_fixed g t s = Ok v -> normal g v /\ exists n, sval v = ZtoC n /\ (IZR n - 1 < x <= IZR n)%R.
Proof. exact ceil_sound. Qed.

Lemma L_C109_trunc : forall g t s x v, normal g s -> sval s = RtoC x -> trunc_fixed g t s = Ok v -> normal g v /\ exists n, sval v = ZtoC n /\ istrunc x n.
Proof. exact trunc_sound. Qed.

Lemma L_C109_fract : forall g t s x v, normal g s -> sval s = RtoC x -> fract_fixed g t s = Ok v -> normal g v /\ exists n, istrunc x n /\ sval v = RtoC (x - IZR n).
Proof. exact fract_sound. Qed.

Lemma L_C109_round : forall g t s x v, normal g s -> sval s = RtoC x -> round_fixed g t s = Ok v -> normal g v /\ exists n, sval v = ZtoC n /\ (IZR n - / 2 <= x < IZR n + / 2)%R.
Proof. exact round_sound. Qed.

Lemma L_C109_returns : forall g s x, normal g s -> sval s = RtoC x ->
  returns (ceil_fixed g BigI s) /\ returns (trunc_fixed g BigI s) /\ returns (fract_fixed g BigI s) /\ returns (round_fixed g BigI s).
Proof. intros g s x N V. split; [exact (ceil_total g s x N V)|]. split; [exact (trunc_total g s x N V)|]. split; [exact (fract_total g s x N V)|exact (round_total g s x N V)]. Qed.
