(** * PropsRule: properties C90 (square roots multiply and divide), C91 (rounding laws), C92 (the fraction
    of a convergent), C93 (conversions from Ratio and arithmetic) and C94 (one step of the expansion).

    Only statements: every theorem is closed by the lemma of the same name in
    ClaimsRule.v. *)

From Coq Require Import ZArith Znumtheory Reals Lia Lra Bool List Arith.
From Coquelicot Require Import Coquelicot.
From Verif Require Import Base Ext ModelSurd ModelBlock ModelCF ModelConv Spec SpecCF SpecLaw SurdDecide ClaimsSurd ClaimsCF ClaimsRule.
Import ListNotations.
Open Scope Z_scope.

(** ** C90  Square roots multiply and divide *)

(** from_sqrt(p) * from_sqrt(q) is from_sqrt(p * q), whatever roots the three are stored over, and == says so *)
Theorem C90_mul : forall g t p q pq x y z m, lowest p -> lowest q -> (0 <= rval p)%R -> (0 <= rval q)%R ->
  from_sqrt_ratio g t p = Ok (SqOk x) -> from_sqrt_ratio g t q = Ok (SqOk y) -> surd_mul g t x y = Ok m ->
  ratio_mul t p q = Ok pq -> from_sqrt_ratio g t pq = Ok (SqOk z) ->
  sval m = sval z /\ forall b, surd_eq t m z = Ok b -> b = true.
Proof. exact L_C90_mul. Qed.
Print Assumptions C90_mul.

(** from_sqrt(p) / from_sqrt(q) is from_sqrt(p / q), and == says so *)
Theorem C90_div : forall g t p q pq x y z m, lowest p -> lowest q -> (0 <= rval p)%R -> (0 <= rval q)%R ->
  from_sqrt_ratio g t p = Ok (SqOk x) -> from_sqrt_ratio g t q = Ok (SqOk y) -> surd_div g t x y = Ok m ->
  ratio_div t p q = Ok pq -> from_sqrt_ratio g t pq = Ok (SqOk z) ->
  sval m = sval z /\ forall b, surd_eq t m z = Ok b -> b = true.
Proof. exact L_C90_div. Qed.
Print Assumptions C90_div.

(** Over unbounded integers both roots and their product always come out; the quotient exactly if q is not 0,
    and p is not 0 or the root of q is rational *)
Theorem C90_returns : forall g p q, lowest p -> lowest q -> (0 <= rval p)%R -> (0 <= rval q)%R ->
  exists x y, from_sqrt_ratio g BigI p = Ok (SqOk x) /\ from_sqrt_ratio g BigI q = Ok (SqOk y) /\
    returns (surd_mul g BigI x y) /\
    (returns (surd_div g BigI x y) <-> rval q <> 0%R /\ (rval p <> 0%R \/ rational_num (sval y))).
Proof. exact L_C90_returns. Qed.
Print Assumptions C90_returns.

(** from_sqrt(p) * from_sqrt(p) is literally p *)
Theorem C90_square : forall g t p x m, lowest p -> (0 <= rval p)%R -> from_sqrt_ratio g t p = Ok (SqOk x) ->
  surd_mul g t x x = Ok m -> m = surd_of_ratio p.
Proof. exact L_C90_square. Qed.
Print Assumptions C90_square.

(** from_sqrt(q * q) is literally |q| *)
Theorem C90_of_square : forall g t q qq z, lowest q -> ratio_mul t q q = Ok qq -> from_sqrt_ratio g t qq = Ok (SqOk z) ->
  z = surd_of_ratio (Ratio (Z.abs (numer q)) (denom q)).
Proof. exact L_C90_of_square. Qed.
Print Assumptions C90_of_square.

(** The sum of two square roots of integers comes out exactly if one of the integers is a square,
    or a square times the other; otherwise it panics *)
Theorem C90_add_iff : forall g m n, 0 <= m -> 0 <= n ->
  exists x y, from_sqrt_int g BigI m = Ok (SqOk x) /\ from_sqrt_int g BigI n = Ok (SqOk y) /\
    (square m \/ square n \/ (exists k, 0 < k /\ (m = k * k * n \/ n = k * k * m)) ->
     exists s, surd_add g BigI x y = Ok s /\ sval s = (csqrt m + csqrt n)%C) /\
    (~ (square m \/ square n \/ (exists k, 0 < k /\ (m = k * k * n \/ n = k * k * m))) -> surd_add g BigI x y = Panic PIncompatible).
Proof. exact L_C90_add_iff. Qed.
Print Assumptions C90_add_iff.

Example C90_case : from_sqrt_ratio (Cfg false true) BigI (Ratio 5 18) = Ok (SqOk (Surd (SCo 0 1 18) 90)) /\
  from_sqrt_ratio (Cfg false true) BigI (Ratio 7 12) = Ok (SqOk (Surd (SCo 0 1 12) 84)) /\
  surd_mul (Cfg false true) BigI (Surd (SCo 0 1 18) 90) (Surd (SCo 0 1 12) 84) = Ok (Surd (SCo 0 1 36) 210) /\
  ratio_mul BigI (Ratio 5 18) (Ratio 7 12) = Ok (Ratio 35 216) /\
  from_sqrt_ratio (Cfg false true) BigI (Ratio 35 216) = Ok (SqOk (Surd (SCo 0 1 216) 7560)) /\
  surd_eq BigI (Surd (SCo 0 1 36) 210) (Surd (SCo 0 1 216) 7560) = Ok true /\
  surd_add (Cfg false true) BigI (Surd (SCo 0 1 1) 8) (Surd (SCo 0 1 1) 2) = Ok (Surd (SCo 0 3 1) 2) /\
  surd_add (Cfg false true) BigI (Surd (SCo 0 1 1) 8) (Surd (SCo 0 1 1) 18) = Panic PIncompatible.
Proof. repeat split; vm_compute; reflexivity. Qed.

(** ** C91  Rounding laws *)

(** floor(x + k) = floor(x) + k *)
Theorem C91_floor_add : forall g t s x k s' v v' w, normal g s -> sval s = RtoC x -> surd_add_int g t s k = Ok s' ->
  surd_floor g t s = Ok v -> surd_floor g t s' = Ok v' -> surd_add_int g t v k = Ok w -> v' = w.
Proof. exact L_C91_floor_add. Qed.
Print Assumptions C91_floor_add.

(** A rounded-down number is an integer and rounds to itself *)
Theorem C91_floor_floor : forall g t s x v, normal g s -> sval s = RtoC x -> surd_floor g t s = Ok v ->
  is_integer v = true /\ forall w, surd_floor g t v = Ok w -> w = v.
Proof. exact L_C91_floor_floor. Qed.
Print Assumptions C91_floor_floor.

(** floor(-x) is -floor(x) for an integer and -floor(x) - 1 otherwise *)
Theorem C91_floor_neg : forall g t s x s' v w, normal g s -> sval s = RtoC x -> surd_neg t s = Ok s' ->
  surd_floor g t s = Ok v -> surd_floor g t s' = Ok w ->
  exists n, v = surd_of_int n /\ w = surd_of_int (if is_integer s then - n else - n - 1).
Proof. exact L_C91_floor_neg. Qed.
Print Assumptions C91_floor_neg.

(** Rounding down preserves order *)
Theorem C91_floor_mono : forall g t l r x y v w, normal g l -> normal g r -> sval l = RtoC x -> sval r = RtoC y -> (x <= y)%R ->
  surd_floor g t l = Ok v -> surd_floor g t r = Ok w -> exists m n, v = surd_of_int m /\ w = surd_of_int n /\ m <= n.
Proof. exact L_C91_floor_mono. Qed.
Print Assumptions C91_floor_mono.

(** trunc(-x) = -trunc(x) and fract(-x) = -fract(x), also for complex numbers and where trunc() is not the truncation (C11) *)
Theorem C91_trunc_neg : forall g t s s', normal g s -> surd_neg t s = Ok s' ->
  (forall v w, surd_trunc g t s = Ok v -> surd_trunc g t s' = Ok w -> sval w = (- sval v)%C) /\
  (forall f h, surd_fract g t s = Ok f -> surd_fract g t s' = Ok h -> sval h = (- sval f)%C).
Proof. exact L_C91_trunc_neg. Qed.
Print Assumptions C91_trunc_neg.

(** trunc(trunc(x)) = trunc(x), and the fractional part of a truncated number is 0 *)
Theorem C91_trunc_trunc : forall g t s v, normal g s -> surd_trunc g t s = Ok v ->
  (forall w, surd_trunc g t v = Ok w -> sval w = sval v) /\ (forall f, surd_fract g t v = Ok f -> f = surd_of_int 0).
Proof. exact L_C91_trunc_trunc. Qed.
Print Assumptions C91_trunc_trunc.

Example C91_case : normal (Cfg true true) (Surd (SCo 1 (-3) 2) 7) /\ surd_floor (Cfg true true) BigI (Surd (SCo 1 (-3) 2) 7) = Ok (surd_of_int (-4)) /\
  surd_add_int (Cfg true true) BigI (Surd (SCo 1 (-3) 2) 7) 10 = Ok (Surd (SCo 21 (-3) 2) 7) /\
  surd_floor (Cfg true true) BigI (Surd (SCo 21 (-3) 2) 7) = Ok (surd_of_int 6) /\
  surd_neg BigI (Surd (SCo 1 (-3) 2) 7) = Ok (Surd (SCo (-1) 3 2) 7) /\ surd_floor (Cfg true true) BigI (Surd (SCo (-1) 3 2) 7) = Ok (surd_of_int 3) /\
  surd_trunc (Cfg true true) BigI (Surd (SCo 5 (-7) 2) (-3)) = Ok (Surd (SCo 2 (-6) 1) (-1)) /\
  surd_trunc (Cfg true true) BigI (Surd (SCo (-5) 7 2) (-3)) = Ok (Surd (SCo (-2) 6 1) (-1)) /\
  surd_fract (Cfg true true) BigI (Surd (SCo 2 (-6) 1) (-1)) = Ok (surd_of_int 0).
Proof. split; [apply normalb_ok; vm_compute; reflexivity|]. repeat split; vm_compute; reflexivity. Qed.

(** ** C92  The continued fraction of a convergent is a beginning of the fraction *)

(** Turned back into a continued fraction, the convergent number n has the first n + 1 coefficients and the sign of the fraction;
    a final 1 is merged into the coefficient before it, and the fraction of 0 has no sign *)
Theorem C92_prefix : forall t x n r y, wfcf x -> nth_item (conv_next BigU) n (cf_convergents x) = Ok (Some r) -> cf_of_ratio t r = Ok y ->
  (first_coeffs x (S n) = [0] -> y = CF [0] nil false) /\
  (first_coeffs x (S n) <> [0] -> n = 0%nat \/ last (first_coeffs x (S n)) 0 <> 1 -> y = CF (first_coeffs x (S n)) nil (negative x)) /\
  (forall l a, first_coeffs x (S n) = l ++ [a; 1] -> y = CF (l ++ [a + 1]) nil (negative x)).
Proof. exact L_C92_prefix. Qed.
Print Assumptions C92_prefix.

(** Over unbounded integers every convergent can be turned back *)
Theorem C92_returns : forall x n, wfcf x -> coeff_at x n <> None ->
  exists r y, nth_item (conv_next BigU) n (cf_convergents x) = Ok (Some r) /\ cf_of_ratio BigI r = Ok y.
Proof. exact L_C92_returns. Qed.
Print Assumptions C92_returns.

(** new() on the first n + 1 coefficients of a non-negative number gives the fraction of its convergent number n *)
Theorem C92_collect : forall g t x n r y z, wfcf x -> negative x = false -> nth_item (conv_next BigU) n (cf_convergents x) = Ok (Some r) ->
  fits t 1 = true -> List.Forall (fun v => fits t v = true) (first_coeffs x (S n)) ->
  cf_of_ratio t r = Ok y -> cf_new g t (first_coeffs x (S n)) nil false = Ok z -> z = y.
Proof. exact L_C92_collect. Qed.
Print Assumptions C92_collect.

(** The last convergent of a finite canonical fraction gives the fraction itself *)
Theorem C92_last : forall t x r y, canonical x -> finite x ->
  nth_item (conv_next BigU) (pred (length (a_coeffs x))) (cf_convergents x) = Ok (Some r) -> cf_of_ratio t r = Ok y -> y = x.
Proof. exact L_C92_last. Qed.
Print Assumptions C92_last.

(** pi = [3; 7, 15, 1, ...]: the convergent 333/106 keeps its coefficients, in 355/113 the final 1 is merged *)
Example C92_case : let x := CF [3; 7; 15; 1; 292] nil true in wfcf x /\
  nth_item (conv_next BigU) 2 (cf_convergents x) = Ok (Some (Ratio (-333) 106)) /\ cf_of_ratio (SInt 64) (Ratio (-333) 106) = Ok (CF [3; 7; 15] nil true) /\
  nth_item (conv_next BigU) 3 (cf_convergents x) = Ok (Some (Ratio (-355) 113)) /\ cf_of_ratio (SInt 64) (Ratio (-355) 113) = Ok (CF [3; 7; 16] nil true) /\
  cf_new (Cfg false true) (SInt 64) [3; 7; 15; 1] nil false = Ok (CF [3; 7; 16] nil false).
Proof.
  cbv zeta. split; [unfold wfcf; cbn [a_coeffs p_coeffs]; split; [lia|]; split; repeat constructor; lia|]. repeat split; vm_compute; reflexivity.
Qed.

(** ** C93  Converting from Ratio commutes with arithmetic *)

(** QuadraticSurd::from(p) op QuadraticSurd::from(q) is literally QuadraticSurd::from(p op q) *)
Theorem C93_surd : forall g t p q s z, lowest p -> lowest q ->
  (ratio_add t p q = Ok s -> surd_add g t (surd_of_ratio p) (surd_of_ratio q) = Ok z -> z = surd_of_ratio s) /\
  (ratio_sub t p q = Ok s -> surd_sub g t (surd_of_ratio p) (surd_of_ratio q) = Ok z -> z = surd_of_ratio s) /\
  (ratio_mul t p q = Ok s -> surd_mul g t (surd_of_ratio p) (surd_of_ratio q) = Ok z -> z = surd_of_ratio s) /\
  (ratio_div t p q = Ok s -> surd_div g t (surd_of_ratio p) (surd_of_ratio q) = Ok z -> z = surd_of_ratio s).
Proof. exact L_C93_surd. Qed.
Print Assumptions C93_surd.

(** Over unbounded integers all of them are computed; quotients for q not 0 *)
Theorem C93_surd_returns : forall g p q, lowest p -> lowest q ->
  (exists s, ratio_add BigI p q = Ok s /\ surd_add g BigI (surd_of_ratio p) (surd_of_ratio q) = Ok (surd_of_ratio s)) /\
  (exists s, ratio_sub BigI p q = Ok s /\ surd_sub g BigI (surd_of_ratio p) (surd_of_ratio q) = Ok (surd_of_ratio s)) /\
  (exists s, ratio_mul BigI p q = Ok s /\ surd_mul g BigI (surd_of_ratio p) (surd_of_ratio q) = Ok (surd_of_ratio s)) /\
  (numer q <> 0 -> exists s, ratio_div BigI p q = Ok s /\ surd_div g BigI (surd_of_ratio p) (surd_of_ratio q) = Ok (surd_of_ratio s)).
Proof. exact L_C93_surd_returns. Qed.
Print Assumptions C93_surd_returns.

(** The same for ContinuedFraction::from(p) op ContinuedFraction::from(q), if p and q fit the signed type of the coefficients *)
Theorem C93_cf : forall g u fuel p q x y s w z, fits (sty u) 1 = true -> lowest p -> lowest q -> ratio_sfit u p -> ratio_sfit u q ->
  cf_of_ratio (sty u) p = Ok x -> cf_of_ratio (sty u) q = Ok y -> cf_of_ratio (sty u) s = Ok w ->
  (ratio_add (sty u) p q = Ok s -> cf_add g u fuel x y = Ok z -> z = w) /\
  (ratio_sub (sty u) p q = Ok s -> cf_sub g u fuel x y = Ok z -> z = w) /\
  (ratio_mul (sty u) p q = Ok s -> cf_mul g u fuel x y = Ok z -> z = w) /\
  (ratio_div (sty u) p q = Ok s -> cf_div g u fuel x y = Ok z -> z = w).
Proof. exact L_C93_cf. Qed.
Print Assumptions C93_cf.

(** Over unbounded integers all of them are computed *)
Theorem C93_cf_returns : forall g p q, lowest p -> lowest q ->
  exists x y n0, cf_of_ratio BigI p = Ok x /\ cf_of_ratio BigI q = Ok y /\ forall fuel, (n0 <= fuel)%nat ->
  returns (cf_add g BigU fuel x y) /\ returns (cf_sub g BigU fuel x y) /\ returns (cf_mul g BigU fuel x y) /\ (numer q <> 0 -> returns (cf_div g BigU fuel x y)).
Proof. exact L_C93_cf_returns. Qed.
Print Assumptions C93_cf_returns.

(** Going to a surd through the continued fraction is the same as going there directly *)
Theorem C93_through : forall g u p x s, lowest p -> ratio_sfit u p -> cf_of_ratio (sty u) p = Ok x -> surd_of_cf g u x = Ok s -> s = surd_of_ratio p.
Proof. exact L_C93_through. Qed.
Print Assumptions C93_through.

Example C93_case : let p := Ratio (-7) 4 in let q := Ratio 5 6 in lowest p /\ lowest q /\
  ratio_add BigI p q = Ok (Ratio (-11) 12) /\ surd_add (Cfg false true) BigI (surd_of_ratio p) (surd_of_ratio q) = Ok (Surd (SCo (-11) 0 12) 0) /\
  ratio_sfit (UInt 32) p /\ ratio_sfit (UInt 32) q /\ cf_of_ratio (SInt 32) p = Ok (CF [1; 1; 3] nil true) /\ cf_of_ratio (SInt 32) q = Ok (CF [0; 1; 5] nil false) /\
  cf_add (Cfg false true) (UInt 32) 10 (CF [1; 1; 3] nil true) (CF [0; 1; 5] nil false) = Ok (CF [0; 1; 11] nil true) /\
  cf_of_ratio (SInt 32) (Ratio (-11) 12) = Ok (CF [0; 1; 11] nil true).
Proof.
  cbv zeta. split; [split; [reflexivity|reflexivity]|]. split; [split; [reflexivity|reflexivity]|]. split; [vm_compute; reflexivity|]. split; [vm_compute; reflexivity|].
  split; [unfold ratio_sfit, sfit; cbn [numer denom]; lia|]. split; [unfold ratio_sfit, sfit; cbn [numer denom]; lia|].
  split; [vm_compute; reflexivity|]. split; [vm_compute; reflexivity|]. split; [vm_compute; reflexivity|]. vm_compute; reflexivity.
Qed.

(** ** C94  One step of the expansion: floor(), subtraction, recip() *)

(** For a positive irrational surd s the first coefficient of ContinuedFraction::try_from(s) is floor(s), and the others
    are the coefficients of 1 / (s - floor(s)), if both conversions are right (C34) *)
Theorem C94_step : forall g t s x v d r X Y fuel fuel', fits t 1 = true -> normal g s -> sval s = RtoC x -> (0 < x)%R ->
  surd_floor g t s = Ok v -> surd_sub g t s v = Ok d -> surd_recip g t d = Ok r ->
  cf_wide x -> (forall y, sval r = RtoC y -> cf_wide y) ->
  surd_to_cf g t fuel s = Ok (Some X) -> surd_to_cf g t fuel' r = Ok (Some Y) ->
  negative X = false /\ negative Y = false /\ (exists n, v = surd_of_int n /\ coeff_at X 0 = Some n) /\ forall k, coeff_at Y k = coeff_at X (S k).
Proof. exact L_C94_step. Qed.
Print Assumptions C94_step.

(** If the conjugate is below floor(s), all of this is computed, and stays so for the next steps *)
Theorem C94_returns : forall g s x, normal g s -> sval s = RtoC x -> (0 < x)%R -> cf_domain x ->
  exists v d r y, surd_floor g BigI s = Ok v /\ surd_sub g BigI s v = Ok d /\ surd_recip g BigI d = Ok r /\ normal g r /\ sval r = RtoC y /\ (1 < y)%R /\ cf_domain y /\
    cf_wide x /\ cf_wide y /\
    exists n0, forall fuel, (n0 <= fuel)%nat -> (exists X, surd_to_cf g BigI fuel s = Ok (Some X)) /\ exists Y, surd_to_cf g BigI fuel r = Ok (Some Y).
Proof. exact L_C94_returns. Qed.
Print Assumptions C94_returns.

(** sqrt 7 = [2; 1, 1, 1, 4, ...] and 1 / (sqrt 7 - 2) = [1; 1, 1, 4, 1, ...] *)
Example C94_case : let s := Surd (SCo 0 1 1) 7 in normal (Cfg false true) s /\ surd_floor (Cfg false true) BigI s = Ok (surd_of_int 2) /\
  surd_sub (Cfg false true) BigI s (surd_of_int 2) = Ok (Surd (SCo (-2) 1 1) 7) /\ surd_recip (Cfg false true) BigI (Surd (SCo (-2) 1 1) 7) = Ok (Surd (SCo 2 1 3) 7) /\
  surd_to_cf (Cfg false true) BigI 20 s = Ok (Some (CF [2] [1; 1; 1; 4] false)) /\
  surd_to_cf (Cfg false true) BigI 20 (Surd (SCo 2 1 3) 7) = Ok (Some (CF [1] [1; 1; 4; 1] false)).
Proof. cbv zeta. split; [apply normalb_ok; vm_compute; reflexivity|]. repeat split; vm_compute; reflexivity. Qed.
