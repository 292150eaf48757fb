(** * PropsUnit: the units of quadratic integers are the powers of a convergent (C98). *)

From Coq Require Import ZArith Reals Lia List.
From Coquelicot Require Import Coquelicot.
From Verif Require Import Base Ext ModelInt ModelSurd ModelBlock ModelCF ModelConv Spec SpecInt SpecCF SpecUnit SurdDecide IntDecide NumFacts ClaimsUnit SpecEuclid.
Import ListNotations.
Open Scope Z_scope.

(** The units above 1 are the convergents at the ends of the periods, read as p - q * (conjugate of omega) *)
Theorem C98_units : forall g t fuel n s z u, fits t 1 = true -> good_root g n -> 0 < n -> normal g s -> sval s = omega n -> surd_to_cf g t fuel s = Ok (Some z) ->
  over g n u ->
  let len := length (p_coeffs z) in
  ((exists e, qint_norm BigI u = Ok e /\ Z.abs e = 1) /\ (exists r, qval u = RtoC r /\ (1 < r)%R)) <->
  exists k p q, (1 <= k)%nat /\ nth_item (conv_next BigU) (k * len - 1) (cf_convergents z) = Ok (Some (Ratio p q)) /\ qval u = (ZtoC p - ZtoC q * omega_conj n)%C.
Proof. exact L_C98_units. Qed.
Print Assumptions C98_units.

(** The norm of such a unit is the parity of the number of coefficients used *)
Theorem C98_norm : forall g t t' fuel n s z u k p q e, fits t 1 = true -> good_root g n -> 0 < n -> normal g s -> sval s = omega n -> surd_to_cf g t fuel s = Ok (Some z) ->
  over g n u -> (1 <= k)%nat -> let len := length (p_coeffs z) in
  nth_item (conv_next BigU) (k * len - 1) (cf_convergents z) = Ok (Some (Ratio p q)) -> qval u = (ZtoC p - ZtoC q * omega_conj n)%C ->
  qint_norm t' u = Ok e -> e = (-1) ^ Z.of_nat (k * len).
Proof. exact L_C98_norm. Qed.
Print Assumptions C98_norm.

(** The units of the later periods are the powers of the unit of the first period, in this order *)
Theorem C98_powers : forall g t t' fuel n s z u k v p q, fits t 1 = true -> good_root g n -> 0 < n -> normal g s -> sval s = omega n -> surd_to_cf g t fuel s = Ok (Some z) ->
  over g n u -> let len := length (p_coeffs z) in
  nth_item (conv_next BigU) (len - 1) (cf_convergents z) = Ok (Some (Ratio p q)) -> qval u = (ZtoC p - ZtoC q * omega_conj n)%C ->
  qint_power g t' u k = Ok v ->
  exists p' q', nth_item (conv_next BigU) (S k * len - 1) (cf_convergents z) = Ok (Some (Ratio p' q')) /\ qval v = (ZtoC p' - ZtoC q' * omega_conj n)%C.
Proof. exact L_C98_powers. Qed.
Print Assumptions C98_powers.

(** Over unbounded integers all the calls return *)
Theorem C98_returns : forall g n, good_root g n -> 0 < n -> exists s, normal g s /\ sval s = omega n /\
  exists n0, forall fuel, (n0 <= fuel)%nat -> exists z u p q, surd_to_cf g BigI fuel s = Ok (Some z) /\
    nth_item (conv_next BigU) (length (p_coeffs z) - 1) (cf_convergents z) = Ok (Some (Ratio p q)) /\ over g n u /\ qval u = (ZtoC p - ZtoC q * omega_conj n)%C /\
    forall k, returns (qint_power g BigI u k).
Proof. exact L_C98_returns. Qed.
Print Assumptions C98_returns.

(** Every quadratic integer of norm 1 or -1 is 1, a power of the unit of the first period or the conjugate of a power, up to the sign *)
Theorem C98_all : forall g t fuel n s z u w e p q, fits t 1 = true -> good_root g n -> 0 < n -> normal g s -> sval s = omega n -> surd_to_cf g t fuel s = Ok (Some z) ->
  over g n u -> nth_item (conv_next BigU) (length (p_coeffs z) - 1) (cf_convergents z) = Ok (Some (Ratio p q)) -> qval u = (ZtoC p - ZtoC q * omega_conj n)%C ->
  over g n w -> qint_norm BigI w = Ok e -> Z.abs e = 1 ->
  qval w = RtoC 1 \/ qval w = (- RtoC 1)%C \/ exists k v, qint_power g BigI u k = Ok v /\ (qval v = qval w \/ qval v = - qval w \/ qval v = qconj w \/ qval v = - qconj w)%C.
Proof. exact L_C98_all. Qed.
Print Assumptions C98_all.

(** There is a unit of norm -1 exactly if the period is odd *)
Theorem C98_negative : forall g t fuel n s z, fits t 1 = true -> good_root g n -> 0 < n -> normal g s -> sval s = omega n -> surd_to_cf g t fuel s = Ok (Some z) ->
  ((exists w, over g n w /\ qint_norm BigI w = Ok (-1)) <-> Nat.odd (length (p_coeffs z)) = true).
Proof. exact L_C98_negative. Qed.
Print Assumptions C98_negative.

(** The golden ratio (1 + sqrt 5) / 2 = [1; (1)]: its unit is the golden ratio itself, of norm -1 and with the Fibonacci numbers as powers. For the root 7, sqrt 7 = [2; (1, 1, 1, 4)], the unit is 8 + 3 sqrt 7. *)
Example C98_case : let s := Surd (SCo 1 1 2) 5 in let u := QInt (QCo 0 1) 5 in
  good_root (Cfg false true) 5 /\ normal (Cfg false true) s /\ surd_to_cf (Cfg false true) (SInt 32) 20 s = Ok (Some (CF [1] [1] false)) /\
  nth_item (conv_next BigU) 0 (cf_convergents (CF [1] [1] false)) = Ok (Some (Ratio 1 1)) /\ over (Cfg false true) 5 u /\ qint_norm BigI u = Ok (-1) /\
  qint_power (Cfg false true) (SInt 32) u 9 = Ok (QInt (QCo 34 55) 5) /\ nth_item (conv_next BigU) 9 (cf_convergents (CF [1] [1] false)) = Ok (Some (Ratio 89 55)) /\
  good_root (Cfg false true) 7 /\ surd_to_cf (Cfg false true) (SInt 32) 20 (Surd (SCo 0 1 1) 7) = Ok (Some (CF [2] [1; 1; 1; 4] false)) /\
  nth_item (conv_next BigU) 3 (cf_convergents (CF [2] [1; 1; 1; 4] false)) = Ok (Some (Ratio 8 3)) /\
  nth_item (conv_next BigU) 7 (cf_convergents (CF [2] [1; 1; 1; 4] false)) = Ok (Some (Ratio 127 48)) /\
  qint_power (Cfg false true) (SInt 32) (QInt (QCo 8 3) 7) 1 = Ok (QInt (QCo 127 48) 7) /\ qint_norm BigI (QInt (QCo 127 48) 7) = Ok 1.
Proof.
  cbv zeta. split; [apply good_rootb_ok; reflexivity|]. split; [apply normalb_ok; reflexivity|]. split; [vm_compute; reflexivity|]. split; [vm_compute; reflexivity|].
  split; [split; [apply wfqb_ok; reflexivity|intros _; reflexivity]|]. split; [vm_compute; reflexivity|]. split; [vm_compute; reflexivity|]. split; [vm_compute; reflexivity|].
  split; [apply good_rootb_ok; reflexivity|]. repeat split; vm_compute; reflexivity.
Qed.
