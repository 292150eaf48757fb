(** * PropsFlip: properties C95 (the quadratic formula, the sum and product of the roots, and the way back) and
    C96 (negating a number negates what is computed from it).

    Only statements: every theorem is closed by the lemma of the same name in
    ClaimsFlip.v. *)

From Coq Require Import ZArith Znumtheory Reals Lia Lra Bool List Arith.
From Coquelicot Require Import Coquelicot.
From Verif Require Import Base Ext ModelInt ModelSurd ModelBlock ModelCF ModelConv Spec SpecInt SpecCF SpecLaw SurdDecide ClaimsSurd ClaimsCF ClaimsFlip.
Import ListNotations.
Open Scope Z_scope.

(** ** C95  The quadratic formula and the way back *)

(** from_equation(a, b, c) is (-b + sqrt(b^2 - 4ac)) / 2a, with the principal square root *)
Theorem C95_formula : forall g t a b c s, lowest a -> lowest b -> lowest c -> rval a <> 0%R ->
  surd_from_equation g t a b c = Ok (Some s) ->
  sval s = ((rcsqrt (rval b * rval b - 4 * rval a * rval c) - qC b) / (RtoC 2 * qC a))%C.
Proof. exact L_C95_formula. Qed.
Print Assumptions C95_formula.

(** The conjugate of an irrational solution is the other solution: it solves the equation, the two add up to -b/a,
    and their product is c/a *)
Theorem C95_vieta : forall g t a b c s s' m, lowest a -> lowest b -> lowest c -> surd_from_equation g t a b c = Ok (Some s) ->
  ~ rational_num (sval s) -> surd_conj t s = Ok s' -> surd_add g t s s' = Ok m ->
  (qC a * (sval s' * sval s') + qC b * sval s' + qC c = RtoC 0)%C /\ sval s' <> sval s /\
  sval m = (- (qC b / qC a))%C /\ (sval s * sval s' = qC c / qC a)%C.
Proof. exact L_C95_vieta. Qed.
Print Assumptions C95_vieta.

(** The product as the library computes it.  Full statement: for every irrational solution; missing: b = 0 with
    two imaginary solutions, whose product has the wrong sign (C04) *)
Theorem C95_product_partial : forall g t a b c s s' p, lowest a -> lowest b -> lowest c -> surd_from_equation g t a b c = Ok (Some s) ->
  ~ rational_num (sval s) -> surd_conj t s = Ok s' -> surd_mul g t s s' = Ok p ->
  (~ imaginary (sval s) -> sval p = (qC c / qC a)%C) /\ (imaginary (sval s) -> sval p = (- (qC c / qC a))%C).
Proof. exact L_C95_product_partial. Qed.
Print Assumptions C95_product_partial.

(** x^2 + 1 = 0: i and -i, whose product comes out as -1 *)
Theorem C95_product_refuted : exists a b c s s' p, lowest a /\ lowest b /\ lowest c /\ surd_from_equation (Cfg true true) BigI a b c = Ok (Some s) /\
  ~ rational_num (sval s) /\ surd_conj BigI s = Ok s' /\ surd_mul (Cfg true true) BigI s s' = Ok p /\ sval p <> (qC c / qC a)%C.
Proof. exact L_C95_product_refuted. Qed.
Print Assumptions C95_product_refuted.

(** x^2 + b x + c with b = -(s + conj s) and c = s * conj s gives s back if its coefficient of the root is not
    negative, and its conjugate otherwise *)
Theorem C95_back : forall g t s nb n s', normal g s -> lowest nb -> lowest n ->
  qC nb = (- (sval s + sconj s))%C -> qC n = (sval s * sconj s)%C ->
  surd_from_equation g t (Ratio 1 1) nb n = Ok (Some s') ->
  (0 <= c1 (coeffs s) -> sval s' = sval s) /\ (c1 (coeffs s) <= 0 -> sval s' = sconj s).
Proof. exact L_C95_back. Qed.
Print Assumptions C95_back.

(** At arbitrary precision it returns one *)
Theorem C95_back_returns : forall g s nb n, normal g s -> lowest nb -> lowest n ->
  qC nb = (- (sval s + sconj s))%C -> qC n = (sval s * sconj s)%C -> exists s', surd_from_equation g BigI (Ratio 1 1) nb n = Ok (Some s').
Proof. exact L_C95_back_returns. Qed.
Print Assumptions C95_back_returns.

Example C95_case : surd_from_equation (Cfg false true) (SInt 64) (Ratio (-3) 2) (Ratio 1 1) (Ratio 5 7) = Ok (Some (Surd (SCo 7 (-1) 21) 259)) /\
  surd_conj (SInt 64) (Surd (SCo 7 (-1) 21) 259) = Ok (Surd (SCo 7 1 21) 259) /\
  surd_add (Cfg false true) (SInt 64) (Surd (SCo 7 (-1) 21) 259) (Surd (SCo 7 1 21) 259) = Ok (Surd (SCo 2 0 3) 0) /\
  surd_mul (Cfg false true) (SInt 64) (Surd (SCo 7 (-1) 21) 259) (Surd (SCo 7 1 21) 259) = Ok (Surd (SCo (-10) 0 21) 0) /\
  normal (Cfg false true) (Surd (SCo 7 (-1) 21) 259) /\
  surd_from_equation (Cfg false true) (SInt 64) (Ratio 1 1) (Ratio (-2) 3) (Ratio (-10) 21) = Ok (Some (Surd (SCo 42 1 126) 9324)) /\
  surd_from_equation (Cfg true true) (SInt 64) (Ratio 1 1) (Ratio (-2) 1) (Ratio 5 1) = Ok (Some (Surd (SCo 1 1 1) (-4))).
Proof.
  split; [vm_compute; reflexivity|]. split; [vm_compute; reflexivity|]. split; [vm_compute; reflexivity|]. split; [vm_compute; reflexivity|].
  split; [apply normalb_ok; vm_compute; reflexivity|]. split; vm_compute; reflexivity.
Qed.

(** ** C96  Negation *)

(** -(-x) is x, field by field, for all three number types and for every integer type; conjugating twice too *)
Theorem C96_involution :
  (forall t s a b, surd_neg t s = Ok a -> surd_neg t a = Ok b -> b = s) /\
  (forall t x a b, qint_neg t x = Ok a -> qint_neg t a = Ok b -> b = x) /\
  (forall t x a b, qint_conj t x = Ok a -> qint_conj t a = Ok b -> b = x) /\
  (forall t x a b, gauss_conj t x = Ok a -> gauss_conj t a = Ok b -> b = x) /\
  (forall x, cf_neg (cf_neg x) = x).
Proof. exact L_C96_involution. Qed.
Print Assumptions C96_involution.

(** recip(recip(x)) is x and recip(-x) is -recip(x); == says so *)
Theorem C96_recip : forall g t x a b, normal g x -> surd_recip g t x = Ok a -> surd_recip g t a = Ok b ->
  sval b = sval x /\ (forall e, surd_eq t b x = Ok e -> e = true) /\
  (forall n c d e, surd_neg t x = Ok n -> surd_recip g t n = Ok c -> surd_neg t a = Ok d -> sval c = sval d /\ (surd_eq t c d = Ok e -> e = true)).
Proof. exact L_C96_recip. Qed.
Print Assumptions C96_recip.

(** Every iterator of -x yields the negated items of the iterator of x, and ends where that one ends: for any
    coefficients, and for fixed-width types as far as neither of the two overflows *)
Theorem C96_iterators : forall u x n, fits u 1 = true ->
  (forall o o', nth_item (signed_next u) n (cf_coeffs x) = Ok o -> nth_item (signed_next u) n (cf_coeffs (cf_neg x)) = Ok o' -> o' = option_map Z.opp o) /\
  (forall o o', nth_item (owned_next u) n (cf_into_coeffs x) = Ok o -> nth_item (owned_next u) n (cf_into_coeffs (cf_neg x)) = Ok o' -> o' = option_map Z.opp o) /\
  (forall o o', nth_item (general_next u) n (cf_generalized x) = Ok o -> nth_item (general_next u) n (cf_generalized (cf_neg x)) = Ok o' -> o' = option_map (fun p => (fst p, - snd p)) o) /\
  (forall o o', nth_item (conv_next u) n (cf_convergents x) = Ok o -> nth_item (conv_next u) n (cf_convergents (cf_neg x)) = Ok o' ->
     o' = option_map (fun r => Ratio (- numer r) (denom r)) o).
Proof. exact L_C96_iterators. Qed.
Print Assumptions C96_iterators.

(** to_integer and to_rational are negated, and say Exact for -x when they say it for x *)
Theorem C96_conversions : forall u x, fits u 1 = true ->
  (forall v v', cf_to_integer u x = Ok v -> cf_to_integer u (cf_neg x) = Ok v' ->
     exists k, (v = Exact k /\ v' = Exact (- k)) \/ (v = Approximated k /\ v' = Approximated (- k))) /\
  (forall v v', cf_to_rational u x = Ok v -> cf_to_rational u (cf_neg x) = Ok v' ->
     exists r, (v = Exact r /\ v' = Exact (Ratio (- numer r) (denom r))) \/ (v = Approximated r /\ v' = Approximated (Ratio (- numer r) (denom r)))).
Proof. exact L_C96_conversions. Qed.
Print Assumptions C96_conversions.

(** approximated(limit).  Full statement: for every limit; missing: limits below 1, where the sign is lost
    (C96_approximated_refuted) *)
Theorem C96_approximated_partial : forall u fuel x limit v v', fits u 1 = true -> 1 <= limit ->
  cf_approximated u fuel x limit = Ok v -> cf_approximated u fuel (cf_neg x) limit = Ok v' ->
  exists r, (v = Exact r /\ v' = Exact (Ratio (- numer r) (denom r))) \/ (v = Approximated r /\ v' = Approximated (Ratio (- numer r) (denom r))).
Proof. exact L_C96_approximated_partial. Qed.
Print Assumptions C96_approximated_partial.

Theorem C96_approximated_refuted : exists x r, canonical x /\ cf_approximated BigU 10 x 0 = Ok (Approximated r) /\
  cf_approximated BigU 10 (cf_neg x) 0 = Ok (Approximated r) /\ numer r <> 0.
Proof. exact L_C96_approximated_refuted. Qed.
Print Assumptions C96_approximated_refuted.

(** Converting a rational number and negating can be exchanged *)
Theorem C96_of_ratio : forall t q q' x y, lowest q -> ratio_neg t q = Ok q' -> cf_of_ratio t q = Ok x -> cf_of_ratio t q' = Ok y -> y = cf_neg x.
Proof. exact L_C96_of_ratio. Qed.
Print Assumptions C96_of_ratio.

(** Converting a surd and negating.  Full statement: for every irrational real surd; missing: surds between 0 and
    their conjugate (C96_of_surd_refuted).  Otherwise the two fractions have opposite signs and the same
    coefficients, and if the conjugate lies below the integer part, the fractions are equal field by field *)
Theorem C96_of_surd_partial : forall g t fuel fuel' s s' v x y, fits t 1 = true -> normal g s -> sval s = RtoC v -> surd_neg t s = Ok s' -> cf_wide v ->
  surd_to_cf g t fuel s = Ok (Some x) -> surd_to_cf g t fuel' s' = Ok (Some y) ->
  negative y = negb (negative x) /\ (forall n, coeff_at y n = coeff_at x n) /\ (cf_domain v -> y = cf_neg x).
Proof. exact L_C96_of_surd_partial. Qed.
Print Assumptions C96_of_surd_partial.

(** -6 + 4 sqrt 2 and 6 - 4 sqrt 2 become the same fraction *)
Theorem C96_of_surd_refuted : exists s s' x, normal (Cfg false true) s /\ surd_neg BigI s = Ok s' /\ sval s <> sval s' /\
  surd_to_cf (Cfg false true) BigI 10 s = Ok (Some x) /\ surd_to_cf (Cfg false true) BigI 10 s' = Ok (Some x).
Proof. exact L_C96_of_surd_refuted. Qed.
Print Assumptions C96_of_surd_refuted.

Example C96_case : cf_approximated BigU 10 (CF [3; 7; 16] nil true) 8 = Ok (Approximated (Ratio (-22) 7)) /\ cf_approximated BigU 10 (CF [3; 7; 16] nil false) 8 = Ok (Approximated (Ratio 22 7)) /\
  surd_to_cf (Cfg false true) (SInt 64) 30 (Surd (SCo 1 3 2) 5) = Ok (Some (CF [3] [1; 5] false)) /\
  surd_to_cf (Cfg false true) (SInt 64) 30 (Surd (SCo (-1) (-3) 2) 5) = Ok (Some (CF [3] [1; 5] true)) /\
  cf_of_ratio (SInt 64) (Ratio (-22) 7) = Ok (CF [3; 7] nil true) /\
  take (conv_next (UInt 32)) 4 (cf_convergents (CF [3] [1; 5] true)) = Ok [Ratio (-3) 1; Ratio (-4) 1; Ratio (-23) 6; Ratio (-27) 7] /\
  qint_conj (SInt 64) (QInt (QCo 1 (-2)) 5) = Ok (QInt (QCo (-1) 2) 5) /\ qint_conj (SInt 64) (QInt (QCo (-1) 2) 5) = Ok (QInt (QCo 1 (-2)) 5) /\
  surd_recip (Cfg false true) (SInt 64) (Surd (SCo 1 3 2) 5) = Ok (Surd (SCo (-1) 3 22) 5) /\ surd_recip (Cfg false true) (SInt 64) (Surd (SCo (-1) 3 22) 5) = Ok (Surd (SCo 1 3 2) 5).
Proof. repeat split; vm_compute; reflexivity. Qed.
