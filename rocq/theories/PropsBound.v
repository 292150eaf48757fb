(** * PropsBound: property theorem C75.

    Only statements: every theorem is closed by the lemma of the same name in
    ClaimsBound.v. *)

From Coq Require Import ZArith Reals Lia Lra Bool List Arith.
From Coquelicot Require Import Coquelicot.
From Verif Require Import Base Ext ModelSurd ModelBlock ModelCF ModelConv Spec SpecCF SpecBound SurdDecide ClaimsBound.
Import ListNotations.
Open Scope Z_scope.

(** ** C75  Sizes and numbers of steps *)

(** The denominators of the convergents grow at least like the Fibonacci numbers *)
Theorem C75_denominators : forall x n r, wfcf x -> nth_item (conv_next BigU) n (cf_convergents x) = Ok (Some r) -> fib (S n) <= denom r.
Proof. exact L_C75_denominators. Qed.
Print Assumptions C75_denominators.

(** Lame's theorem for From<Ratio>: the fraction of p/q has few coefficients *)
Theorem C75_ratio_length : forall t r x, lowest r -> cf_of_ratio t r = Ok x ->
  fib (S (length (a_coeffs x))) <= denom r /\ Z.of_nat (length (a_coeffs x)) <= 2 * Z.log2 (denom r) + 1.
Proof. exact L_C75_ratio_length. Qed.
Print Assumptions C75_ratio_length.

(** approximated(limit) makes at most n rounds when limit <= F(n+1), in particular when n >= 2 log2 limit + 1 *)
Theorem C75_approximated : forall x limit fuel, wfcf x -> (1 <= fuel)%nat -> limit <= fib (S fuel) -> returns (cf_approximated BigU fuel x limit).
Proof. exact L_C75_approximated. Qed.
Print Assumptions C75_approximated.

Theorem C75_approximated_log : forall x limit fuel, wfcf x -> 2 * Z.log2_up limit + 1 <= Z.of_nat fuel -> returns (cf_approximated BigU fuel x limit).
Proof. exact L_C75_approximated_log. Qed.
Print Assumptions C75_approximated_log.

(** The golden ratio needs as many *)
Theorem C75_approximated_tight : forall limit fuel, fib (S fuel) < limit -> cf_approximated BigU fuel (CF [1] [1] false) limit = Hang.
Proof. exact L_C75_approximated_tight. Qed.
Print Assumptions C75_approximated_tight.

(** The fraction of an irrational surd (a + b sqrt r)/c: at most k (k + 1) coefficients in the period, none of them above 2 k,
    where k is the integer part of |b c| sqrt r *)
Theorem C75_surd_period : forall g t fuel s x z, fits t 1 = true -> normal g s -> sval s = RtoC x -> ~ rational_num (sval s) -> surd_to_cf g t fuel s = Ok (Some z) ->
  (length (p_coeffs z) <= period_bound s)%nat /\ List.Forall (fun v => v <= 2 * root_size s) (p_coeffs z).
Proof. exact L_C75_surd_period. Qed.
Print Assumptions C75_surd_period.

(** If the conjugate is below the integer part: at most two coefficients before the period *)
Theorem C75_surd_start : forall g t fuel s x z, fits t 1 = true -> normal g s -> sval s = RtoC x -> cf_domain x -> surd_to_cf g t fuel s = Ok (Some z) ->
  (length (a_coeffs z) <= 2)%nat.
Proof. exact L_C75_surd_start. Qed.
Print Assumptions C75_surd_start.

(** and each of the two loops makes at most 3 + k (k + 1) rounds *)
Theorem C75_surd_returns : forall g s x fuel, normal g s -> sval s = RtoC x -> cf_domain x -> (3 + period_bound s <= fuel)%nat ->
  exists z, surd_to_cf g BigI fuel s = Ok (Some z).
Proof. exact L_C75_surd_returns. Qed.
Print Assumptions C75_surd_returns.

(** and so for surd.approximated(limit) *)
Theorem C75_surd_approximated : forall g s x limit fuel, normal g s -> sval s = RtoC x -> cf_domain x -> (3 + period_bound s <= fuel)%nat -> limit <= fib (S fuel) ->
  returns (surd_approximated g BigI fuel s limit).
Proof. exact L_C75_surd_approximated. Qed.
Print Assumptions C75_surd_approximated.

(** reduced() makes at most 1 + log2 |r| rounds for each prime *)
Theorem C75_reduced : forall g s fuel, normal g s -> ~ rational_num (sval s) -> Z.log2 (Z.abs (discr s)) < Z.of_nat fuel -> returns (surd_reduced BigI fuel s).
Proof. exact L_C75_reduced. Qed.
Print Assumptions C75_reduced.

(** 13/8 = [1; 1, 1, 1, 2] has the five coefficients Lame allows; the golden ratio takes six rounds to reach 13; sqrt 3 = [1; (1, 2)] has the longest period the bound
    allows *)
Example C75_case : fib 6 = 8 /\ cf_of_ratio BigI (Ratio 13 8) = Ok (CF [1; 1; 1; 1; 2] nil false) /\
  cf_approximated BigU 6 (CF [1] [1] false) 13 = Ok (Approximated (Ratio 13 8)) /\ cf_approximated BigU 5 (CF [1] [1] false) 13 = Hang /\
  normal (Cfg false true) (new_raw 0 1 1 3) /\ surd_to_cf (Cfg false true) (SInt 64) 20 (new_raw 0 1 1 3) = Ok (Some (CF [1] [1; 2] false)) /\ period_bound (new_raw 0 1 1 3) = 2%nat /\
  root_size (new_raw 0 1 1 3) = 1 /\ wfcf (CF [1] [1] false) /\ surd_reduced BigI 13 (new_raw 1 1 2 4500) = Ok (new_raw 1 30 2 5).
Proof.
  repeat (split; [vm_compute; reflexivity|]). split; [check|]. split; [vm_compute; reflexivity|]. split; [vm_compute; reflexivity|]. split; [vm_compute; reflexivity|].
  split; [|vm_compute; reflexivity]. cbn. repeat split; repeat constructor; discriminate.
Qed.
