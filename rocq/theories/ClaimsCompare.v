(** * ClaimsCompare: proofs of the property theorems in PropsCompare.v. *)

From Coq Require Import ZArith Reals Lia Lra Bool List Arith.
From Coquelicot Require Import Coquelicot.
From Verif Require Import Base Ext ModelSurd Spec SpecCF SpecCompare SurdCompare.
Import ListNotations.
Open Scope Z_scope.

Lemma L_C104_right : forall g t fuel s r x y c, normal g s -> normal g r -> sval s = RtoC x -> sval r = RtoC y -> order_surds g t fuel s r = Ok c -> is_order c x y.
Proof. exact order_sound. Qed.

Lemma L_C104_returns : forall g s r x y, normal g s -> normal g r -> sval s = RtoC x -> sval r = RtoC y ->
  exists n0, forall fuel, (n0 <= fuel)%nat -> returns (order_surds g BigI fuel s r).
Proof. exact order_total. Qed.

Lemma L_C104_decides : forall g s r x y c, normal g s -> normal g r -> sval s = RtoC x -> sval r = RtoC y -> is_order c x y ->
  exists n0, forall fuel, (n0 <= fuel)%nat -> order_surds g BigI fuel s r = Ok c.
Proof.
  intros g s r x y c Ns Nr Vs Vr O. destruct (order_total g s r x y Ns Nr Vs Vr) as [n0 H]. exists n0. intros fuel Hf. destruct (H fuel Hf) as [c' Hc]. rewrite Hc. f_equal.
  pose proof (order_sound g BigI fuel s r x y c' Ns Nr Vs Vr Hc) as O'. destruct c, c'; cbn in O, O'; try reflexivity; lra.
Qed.

Lemma L_C104_loop_right : forall g t fuel s r x y c, normal g s -> normal g r -> sval s = RtoC x -> sval r = RtoC y -> compare_surds g t fuel s r = Ok c -> is_order c x y.
Proof. exact compare_sound. Qed.

Lemma L_C104_loop_returns : forall g s r x y, normal g s -> normal g r -> sval s = RtoC x -> sval r = RtoC y -> x <> y \/ rational_real x ->
  exists n0, forall fuel, (n0 <= fuel)%nat -> returns (compare_surds g BigI fuel s r).
Proof.
  intros g s r x y Ns Nr Vs Vr H. destruct (Req_EM_T x y) as [<-|E]; [apply (compare_rational g s x Ns Vs); auto; tauto|].
  destruct (apart_ex x y E) as [k A]. exists (S k). intros fuel Hf. exact (compare_total g k s r x y Ns Nr Vs Vr A fuel Hf).
Qed.

Lemma L_C104_loop_hangs : forall g fuel s r x, normal g s -> normal g r -> sval s = RtoC x -> sval r = RtoC x -> ~ rational_real x -> compare_surds g BigI fuel s r = Hang.
Proof. exact compare_hang. Qed.
