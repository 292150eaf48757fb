(** * PropsLimit: property C89.

    Only statements: every theorem is closed by the lemma of the same name in
    ClaimsLimit.v. *)

From Coq Require Import ZArith Reals Lia Lra Bool List Arith.
From Coquelicot Require Import Coquelicot.
From Verif Require Import Base Ext ModelSurd ModelBlock ModelCF ModelConv ModelGen ModelSymbols Spec SpecCF SpecGen ClaimsSurd ClaimsCF ClaimsGen ClaimsApi ClaimsLimit.
Import ListNotations.
Open Scope Z_scope.

(** ** C89 approximated() and its limit *)

(** The convergent that is picked: the last one before a denominator reaches the limit.
    Full statement: the last one whose denominator is at most the limit; false, see C89_inclusive_refuted *)
Theorem C89_choice_partial : forall x limit fuel v, wfcf x -> 1 <= limit -> cf_approximated BigU fuel x limit = Ok v ->
  exists m r, nth_item (conv_next BigU) m (cf_convergents x) = Ok (Some r) /\ (m = O \/ denom r < limit) /\
    ((v = Exact r /\ nth_item (conv_next BigU) (S m) (cf_convergents x) = Ok None) \/
     (v = Approximated r /\ exists q, nth_item (conv_next BigU) (S m) (cf_convergents x) = Ok (Some q) /\ limit <= denom q)).
Proof. exact L_C89_choice_partial. Qed.
Print Assumptions C89_choice_partial.

(** A larger limit never gives a worse approximation, and what is exact stays exact *)
Theorem C89_monotone : forall x l1 l2 f1 f2 v1 v2, wfcf x -> 1 <= l1 <= l2 -> cf_approximated BigU f1 x l1 = Ok v1 -> cf_approximated BigU f2 x l2 = Ok v2 ->
  (Rabs (cf_val x - rval (approx_value v2)) <= Rabs (cf_val x - rval (approx_value v1)))%R /\ denom (approx_value v1) <= denom (approx_value v2) /\
  (forall r, v1 = Exact r -> v2 = Exact r).
Proof. exact L_C89_monotone. Qed.
Print Assumptions C89_monotone.

(** When the number itself is the answer.  Full statement: exactly when its denominator is at most the limit *)
Theorem C89_exact_partial : forall x r limit fuel v, canonical x -> finite x -> lowest r -> rval r = cf_val x -> 1 <= limit -> cf_approximated BigU fuel x limit = Ok v ->
  (v = Exact r <-> denom r < limit \/ denom r = 1).
Proof. exact L_C89_exact_partial. Qed.
Print Assumptions C89_exact_partial.

(** The limit itself is excluded, although it is documented as the maximum of the denominator: 22/7 with the limit 7 is not found,
    nor is the convergent 99/70 of sqrt 2 with the limit 70 *)
Theorem C89_inclusive_refuted : canonical (CF [3; 7] nil false) /\ cf_val (CF [3; 7] nil false) = (22 / 7)%R /\
  cf_approximated BigU 20 (CF [3; 7] nil false) 7 = Ok (Approximated (Ratio 3 1)) /\
  cf_val (CF [1] [2] false) = sqrt 2 /\ nth_item (conv_next BigU) 5 (cf_convergents (CF [1] [2] false)) = Ok (Some (Ratio 99 70)) /\
  cf_approximated BigU 20 (CF [1] [2] false) 70 = Ok (Approximated (Ratio 41 29)).
Proof. exact L_C89_inclusive_refuted. Qed.
Print Assumptions C89_inclusive_refuted.

Example C89_monotone_case : wfcf (CF [1] [2] false) /\ cf_approximated BigU 20 (CF [1] [2] false) 13 = Ok (Approximated (Ratio 17 12)) /\
  cf_approximated BigU 20 (CF [1] [2] false) 30 = Ok (Approximated (Ratio 41 29)) /\
  cf_approximated BigU 20 (CF [3; 7] nil false) 8 = Ok (Exact (Ratio 22 7)).
Proof. split; [cbn; split; [lia|split; repeat constructor; lia]|]. split; [|split]; vm_compute; reflexivity. Qed.

(** The same for surds *)
Theorem C89_surd : forall g s x l1 l2 f1 f2 v1 v2, normal g s -> sval s = RtoC x -> cf_wide x -> 1 <= l1 <= l2 ->
  surd_approximated g BigI f1 s l1 = Ok v1 -> surd_approximated g BigI f2 s l2 = Ok v2 ->
  (Rabs (x - rval (approx_value v2)) <= Rabs (x - rval (approx_value v1)))%R /\ denom (approx_value v1) <= denom (approx_value v2).
Proof. exact L_C89_surd. Qed.
Print Assumptions C89_surd.

(** And for pi, over every integer type *)
Theorem C89_pi : forall t l1 l2 f1 f2 v1 v2, 1 <= l1 <= l2 -> gcf_approximated t (pi_next t) f1 pi_gfrac l1 = Ok v1 -> gcf_approximated t (pi_next t) f2 pi_gfrac l2 = Ok v2 ->
  (Rabs (PI - rval (approx_value v2)) <= Rabs (PI - rval (approx_value v1)))%R.
Proof. exact L_C89_pi. Qed.
Print Assumptions C89_pi.

Example C89_pi_case : gcf_approximated (SInt 64) (pi_next (SInt 64)) 20 pi_gfrac 52 = Ok (Approximated (Ratio 160 51)) /\
  gcf_approximated (SInt 64) (pi_next (SInt 64)) 20 pi_gfrac 600 = Ok (Approximated (Ratio 644 205)).
Proof. split; vm_compute; reflexivity. Qed.

(** For other generalized fractions a larger limit can give a worse answer: 1 + 10/(1 + 100/1) = 111/101 is approximated by 1 with the limit 1 and by 11 with the limit 2 *)
Theorem C89_general_refuted : gpositive_list [(1, 1); (10, 1); (100, 1)] /\ gval [(1, 1); (10, 1); (100, 1)] = (111 / 101)%R /\
  gcf_approximated BigI list_next 10 [(1, 1); (10, 1); (100, 1)] 1 = Ok (Approximated (Ratio 1 1)) /\
  gcf_approximated BigI list_next 10 [(1, 1); (10, 1); (100, 1)] 2 = Ok (Approximated (Ratio 11 1)).
Proof. exact L_C89_general_refuted. Qed.
Print Assumptions C89_general_refuted.
