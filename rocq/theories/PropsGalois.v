(** * PropsGalois: property theorems C73 and C74.

    Only statements: every theorem is closed by the lemma of the same name in
    ClaimsGalois.v. *)

From Coq Require Import ZArith Reals Lia Lra Bool List Arith.
From Coquelicot Require Import Coquelicot.
From Verif Require Import Base Ext ModelSurd ModelBlock ModelCF ModelConv Spec SpecCF SurdDecide ClaimsGalois.
Import ListNotations.
Open Scope Z_scope.

(** ** C73  The shape of the fractions of square roots and of reduced surds *)

(** The square root of a rational number above 1: one coefficient, then a palindrome closed by twice that coefficient *)
Theorem C73_square_root : forall g t fuel s x z, fits t 1 = true -> normal g s -> sval s = RtoC x -> (1 < x)%R -> ~ rational_real x -> rational_real (x * x) ->
  surd_to_cf g t fuel s = Ok (Some z) -> exists a0 l, z = CF [a0] (l ++ [2 * a0]) false /\ List.rev l = l /\ isfloor x a0.
Proof. exact L_C73_square_root. Qed.
Print Assumptions C73_square_root.

(** and the call returns *)
Theorem C73_square_root_returns : forall g s x, normal g s -> sval s = RtoC x -> (1 < x)%R -> ~ rational_real x -> rational_real (x * x) ->
  exists n0, forall fuel, (n0 <= fuel)%nat -> exists z, surd_to_cf g BigI fuel s = Ok (Some z).
Proof. exact L_C73_square_root_returns. Qed.
Print Assumptions C73_square_root_returns.

(** Conversely every fraction of this shape is the square root of a rational number above 1 *)
Theorem C73_palindrome : forall a0 l, wfcf (CF [a0] (l ++ [2 * a0]) false) -> List.rev l = l -> let x := cf_val (CF [a0] (l ++ [2 * a0]) false) in
  (1 < x)%R /\ ~ rational_real x /\ rational_real (x * x).
Proof. exact L_C73_palindrome. Qed.
Print Assumptions C73_palindrome.

(** Galois: a surd above 1 whose conjugate is between -1 and 0 has a purely periodic fraction: the period ends in the first coefficient *)
Theorem C73_pure : forall g t fuel s x xc z, fits t 1 = true -> normal g s -> sval s = RtoC x -> conjugate x xc -> (1 < x)%R -> (-1 < xc < 0)%R ->
  surd_to_cf g t fuel s = Ok (Some z) -> exists a0 l, z = CF [a0] (l ++ [a0]) false.
Proof. exact L_C73_pure. Qed.
Print Assumptions C73_pure.

(** and only they have *)
Theorem C73_pure_value : forall a0 l, wfcf (CF [a0] (l ++ [a0]) false) ->
  exists xc, conjugate (cf_val (CF [a0] (l ++ [a0]) false)) xc /\ (1 < cf_val (CF [a0] (l ++ [a0]) false))%R /\ (-1 < xc < 0)%R.
Proof. exact L_C73_pure_value. Qed.
Print Assumptions C73_pure_value.

(** The period of -1 / conjugate is the period read backwards *)
Theorem C73_reverse : forall g h t u fuel fuel' s r x xc z y, fits t 1 = true -> fits u 1 = true -> normal g s -> normal h r -> sval s = RtoC x -> sval r = RtoC (- / xc) ->
  conjugate x xc -> (1 < x)%R -> (-1 < xc < 0)%R -> surd_to_cf g t fuel s = Ok (Some z) -> surd_to_cf h u fuel' r = Ok (Some y) ->
  exists a0 l b0 l', z = CF [a0] (l ++ [a0]) false /\ y = CF [b0] (l' ++ [b0]) false /\ b0 :: l' = List.rev (a0 :: l).
Proof. exact L_C73_reverse. Qed.
Print Assumptions C73_reverse.

(** sqrt 14 = [3; (1, 2, 1, 6)]; sqrt (7/2) = [1; (1, 6, 1, 2)]; (3 + sqrt 23)/7 = [1; (8, 1, 3, 1)] and (3 + sqrt 23)/2 = [3; (1, 8, 1, 3)] *)
Example C73_case : normal (Cfg false true) (new_raw 0 1 1 14) /\ surd_to_cf (Cfg false true) (SInt 64) 20 (new_raw 0 1 1 14) = Ok (Some (CF [3] ([1; 2; 1] ++ [6]) false)) /\
  surd_to_cf (Cfg false true) (SInt 64) 20 (new_raw 0 1 2 14) = Ok (Some (CF [1] ([1; 6; 1] ++ [2]) false)) /\
  surd_to_cf (Cfg false true) (SInt 64) 20 (new_raw 3 1 7 23) = Ok (Some (CF [1] ([8; 1; 3] ++ [1]) false)) /\
  surd_to_cf (Cfg false true) (SInt 64) 20 (new_raw 3 1 2 23) = Ok (Some (CF [3] ([1; 8; 1] ++ [3]) false)) /\
  wfcf (CF [3] ([1; 2; 1] ++ [6]) false).
Proof. split; [check|]. repeat (split; [vm_compute; reflexivity|]). cbn. repeat split; repeat constructor; discriminate. Qed.

(** ** C74  Pell's equation *)

(** The positive solutions of x^2 - n y^2 = 1 and x^2 - n y^2 = -1 are exactly the convergents x / y of the square root of n at the ends of the periods *)
Theorem C74_solutions : forall g t u fuel n s z x y e, fits u 1 = true -> 0 < n -> ~ square n -> from_sqrt_int g t n = Ok (SqOk s) -> surd_to_cf g u fuel s = Ok (Some z) ->
  0 < x -> 0 < y -> e = 1 \/ e = -1 ->
  let len := length (p_coeffs z) in
  (x * x - n * (y * y) = e <-> exists k, (1 <= k)%nat /\ nth_item (conv_next BigU) (k * len - 1) (cf_convergents z) = Ok (Some (Ratio x y)) /\ e = (-1) ^ Z.of_nat (k * len)).
Proof. exact L_C74_solutions. Qed.
Print Assumptions C74_solutions.

(** The smallest solution of x^2 - n y^2 = 1 is the last convergent of the first period, or of the second one if the period is odd; in particular there is a solution *)
Theorem C74_smallest : forall g t u fuel n s z, fits u 1 = true -> 0 < n -> ~ square n -> from_sqrt_int g t n = Ok (SqOk s) -> surd_to_cf g u fuel s = Ok (Some z) ->
  let len := length (p_coeffs z) in
  exists x y, nth_item (conv_next BigU) ((if Nat.even len then len else 2 * len) - 1) (cf_convergents z) = Ok (Some (Ratio x y)) /\ 0 < x /\ 0 < y /\
    x * x - n * (y * y) = 1 /\ forall x' y', 0 < x' -> 0 < y' -> x' * x' - n * (y' * y') = 1 -> x <= x' /\ y <= y'.
Proof. exact L_C74_smallest. Qed.
Print Assumptions C74_smallest.

(** x^2 - n y^2 = -1 can be solved exactly when the period is odd *)
Theorem C74_negative : forall g t u fuel n s z, fits u 1 = true -> 0 < n -> ~ square n -> from_sqrt_int g t n = Ok (SqOk s) -> surd_to_cf g u fuel s = Ok (Some z) ->
  ((exists x y, x * x - n * (y * y) = -1) <-> Nat.odd (length (p_coeffs z)) = true).
Proof. exact L_C74_negative. Qed.
Print Assumptions C74_negative.

(** All the calls return *)
Theorem C74_returns : forall g n, 0 < n -> ~ square n -> exists s, from_sqrt_int g BigI n = Ok (SqOk s) /\
  exists n0, forall fuel, (n0 <= fuel)%nat -> exists z, surd_to_cf g BigI fuel s = Ok (Some z) /\ forall k, exists r, nth_item (conv_next BigU) k (cf_convergents z) = Ok (Some r).
Proof. exact L_C74_returns. Qed.
Print Assumptions C74_returns.

(** The smallest solution for n = 61 is 1766319049, 226153980: the period has 11 coefficients *)
Example C74_case : from_sqrt_int (Cfg false true) (SInt 64) 61 = Ok (SqOk (new_raw 0 1 1 61)) /\
  surd_to_cf (Cfg false true) (SInt 64) 40 (new_raw 0 1 1 61) = Ok (Some (CF [7] [1; 4; 3; 1; 2; 2; 1; 3; 4; 1; 14] false)) /\
  nth_item (conv_next BigU) 21 (cf_convergents (CF [7] [1; 4; 3; 1; 2; 2; 1; 3; 4; 1; 14] false)) = Ok (Some (Ratio 1766319049 226153980)) /\
  nth_item (conv_next BigU) 10 (cf_convergents (CF [7] [1; 4; 3; 1; 2; 2; 1; 3; 4; 1; 14] false)) = Ok (Some (Ratio 29718 3805)) /\
  ~ square 61.
Proof.
  repeat (split; [vm_compute; reflexivity|]). intros [k Hk]. assert (7 < Z.abs k < 8) by nia. lia.
Qed.
