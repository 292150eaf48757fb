(** * PropsRoute: property C87.

    Only statements: every theorem is closed by the lemma of the same name in
    ClaimsRoute.v. *)

From Coq Require Import ZArith Reals Lia Lra Bool List Arith.
From Coquelicot Require Import Coquelicot.
From Verif Require Import Base Ext ModelSurd ModelBlock ModelCF ModelConv ModelGen Spec SpecCF SpecGen SpecRoute ClaimsCF ClaimsRoute.
Import ListNotations.
Open Scope Z_scope.

(** ** C87  Different ways to the same digits agree *)

(** The continued fraction of a surd has the coefficients found by hand: floor(), subtract, recip(), again *)
Theorem C87_by_hand : forall g t t' fuel n s x z f, fits t 1 = true -> normal g s -> sval s = RtoC x -> (0 < x)%R -> cf_wide x ->
  surd_to_cf g t fuel s = Ok (Some z) -> by_hand g t' n s = Ok f ->
  exists v, sval f = ZtoC v /\ nth_item (signed_next BigU) n (cf_coeffs z) = Ok (Some v).
Proof. exact L_C87_by_hand. Qed.
Print Assumptions C87_by_hand.

Example C87_by_hand_case : normal (Cfg false true) (Surd (SCo 7 1 5) 2) /\ sval (Surd (SCo 7 1 5) 2) = RtoC ((7 + sqrt 2) / 5) /\ (0 < (7 + sqrt 2) / 5 < 10)%R /\
  cf_wide ((7 + sqrt 2) / 5) /\ surd_to_cf (Cfg false true) (SInt 64) 20 (Surd (SCo 7 1 5) 2) = Ok (Some (CF [1; 1; 2] [6; 1; 1] false)) /\
  by_hand (Cfg false true) (SInt 64) 3 (Surd (SCo 7 1 5) 2) = Ok (Surd (SCo 6 0 1) 0) /\
  nth_item (signed_next BigU) 3 (cf_coeffs (CF [1; 1; 2] [6; 1; 1] false)) = Ok (Some 6).
Proof.
  destruct C34_exact_case_proof as (N & V & W & B1 & B2 & E). split; [exact N|]. split; [exact V|]. split; [lra|]. split; [exact W|]. split; [exact E|]. split; vm_compute; reflexivity.
Qed.

(** The condition on the conjugate is needed for the conversion, not for the computation by hand: for (3 - sqrt 2)/2, 
    which lies between 0 and 1, the conversion starts with 2 *)
Theorem C87_narrow_refuted : exists s x z, normal (Cfg false true) s /\ sval s = RtoC x /\ (0 < x < 1)%R /\
  by_hand (Cfg false true) BigI 0 s = Ok (Surd (SCo 0 0 1) 0) /\
  surd_to_cf (Cfg false true) BigI 10 s = Ok (Some z) /\ nth_item (signed_next BigU) 0 (cf_coeffs z) = Ok (Some 2).
Proof. exact L_C87_narrow_refuted. Qed.
Print Assumptions C87_narrow_refuted.

(** By hand the coefficients of every positive real number in the field come out, also where the conversion fails: *)
(** they are the coefficients of the number, and over arbitrary precision the computation returns *)
Theorem C87_by_hand_right : forall g t n s x f, normal g s -> sval s = RtoC x -> (0 < x)%R -> by_hand g t n s = Ok f ->
  exists v, sval f = ZtoC v /\ cf_digit x n v.
Proof. exact L_C87_by_hand_right. Qed.
Print Assumptions C87_by_hand_right.

Theorem C87_by_hand_returns : forall g n s x, normal g s -> sval s = RtoC x -> irrational x -> returns (by_hand g BigI n s).
Proof. exact L_C87_by_hand_returns. Qed.
Print Assumptions C87_by_hand_returns.

(** homo(a,b,c,d) yields the coefficients of any fraction with the value (a x + b)/(c x + d) *)
Theorem C87_homo : forall t u x z a b c d fuel n v, wfcf x -> ~ finite x -> coeffs_fit u x ->
  (let e := sgnb (negative x) in 0 <= e * c * d \/ (0 < e * a * b /\ Z.abs c <= Z.abs a /\ Z.abs d <= Z.abs b)) -> c <> 0 \/ d <> 0 ->
  wfcf z -> ~ finite z -> cf_val z = ((IZR a * cf_val x + IZR b) / (IZR c * cf_val x + IZR d))%R ->
  nth_item (homo_next t (signed_next u) fuel) n (icf_homo (cf_coeffs x) a b c d) = Ok (Some v) ->
  nth_item (signed_next BigU) n (cf_coeffs z) = Ok (Some v).
Proof. exact L_C87_homo. Qed.
Print Assumptions C87_homo.

(** x + q and x q, once with the operators and once with homo *)
Theorem C87_ratio : forall t g x q z fuel fuel' n v, wfcf x -> ~ finite x -> lowest q ->
  (cf_wide (cf_val x + rval q) -> cf_add_ratio g BigU fuel x q = Ok z ->
   nth_item (homo_next t (signed_next BigU) fuel') n (icf_homo (cf_coeffs x) (denom q) (numer q) 0 (denom q)) = Ok (Some v) ->
   nth_item (signed_next BigU) n (cf_coeffs z) = Ok (Some v)) /\
  (cf_wide (cf_val x * rval q) -> cf_mul_ratio g BigU fuel x q = Ok z ->
   nth_item (homo_next t (signed_next BigU) fuel') n (icf_homo (cf_coeffs x) (numer q) 0 0 (denom q)) = Ok (Some v) ->
   nth_item (signed_next BigU) n (cf_coeffs z) = Ok (Some v)).
Proof. exact L_C87_ratio. Qed.
Print Assumptions C87_ratio.

Example C87_ratio_case : wfcf (CF [1] [2] false) /\ ~ finite (CF [1] [2] false) /\ lowest (Ratio 3 2) /\ cf_wide (cf_val (CF [1] [2] false) + rval (Ratio 3 2)) /\
  cf_add_ratio (Cfg false true) BigU 20 (CF [1] [2] false) (Ratio 3 2) = Ok (CF [2] [1; 10; 1; 1] false) /\
  nth_item (homo_next BigI (signed_next BigU) 20) 2 (icf_homo (cf_coeffs (CF [1] [2] false)) 2 3 0 2) = Ok (Some 10).
Proof.
  split; [split; [discriminate|cbn; repeat split; try lia; repeat constructor; lia]|]. split; [discriminate|]. split; [split; [cbn; lia|reflexivity]|]. split.
  - destruct C33_case_proof as (_ & _ & W & _). replace (rval (Ratio 3 2)) with (cf_val (CF [1; 2] nil false)); [exact W|]. unfold cf_val, rval. cbn. field.
  - split; vm_compute; reflexivity.
Qed.

(** simplify() changes nothing about a fraction that is already simple *)
Theorem C87_simplify : forall t u x fuel n v, wfcf x -> ~ finite x -> coeffs_fit u x -> negative x = false ->
  nth_item (simp_next t (general_next u) fuel) n (gcf_simplify (cf_generalized x)) = Ok (Some v) ->
  nth_item (signed_next BigU) n (cf_coeffs x) = Ok (Some v).
Proof. exact L_C87_simplify. Qed.
Print Assumptions C87_simplify.

Example C87_simplify_case : nth_item (simp_next (SInt 64) (general_next (UInt 32)) 20) 3 (gcf_simplify (cf_generalized (CF [1; 1; 2] [6; 1; 1] false))) = Ok (Some 6) /\
  nth_item (signed_next BigU) 3 (cf_coeffs (CF [1; 1; 2] [6; 1; 1] false)) = Ok (Some 6).
Proof. split; vm_compute; reflexivity. Qed.

(** The decimal digits: of the continued fraction with decimals(), of the surd with * 10^n and floor() *)
Theorem C87_decimals : forall g t t' t2 fuel fuel' n s x z y f c, fits t 1 = true -> normal g s -> sval s = RtoC x -> (0 < x < 10)%R -> cf_wide x ->
  surd_to_cf g t fuel s = Ok (Some z) -> surd_mul_int g t' s (10 ^ Z.of_nat n) = Ok y -> surd_floor g t' y = Ok f ->
  nth_item (dec_next t2 (general_next BigU) fuel') n (gcf_decimals (cf_generalized z)) = Ok (Some c) ->
  exists m, sval f = ZtoC m /\ c = 48 + m mod 10.
Proof. exact L_C87_decimals. Qed.
Print Assumptions C87_decimals.

(** With the number of C87_by_hand_case, 1.6828...: *)
Example C87_decimals_case : surd_mul_int (Cfg false true) (SInt 64) (Surd (SCo 7 1 5) 2) (10 ^ Z.of_nat 2) = Ok (Surd (SCo 140 20 1) 2) /\
  surd_floor (Cfg false true) (SInt 64) (Surd (SCo 140 20 1) 2) = Ok (Surd (SCo 168 0 1) 0) /\
  nth_item (dec_next BigI (general_next BigU) 20) 2 (gcf_decimals (cf_generalized (CF [1; 1; 2] [6; 1; 1] false))) = Ok (Some (48 + 168 mod 10)).
Proof. split; [|split]; vm_compute; reflexivity. Qed.

(** approximated() of a surd answers with one of the convergents() of its continued fraction *)
Theorem C87_approximated : forall g t fuel fuel' s x z limit v, fits t 1 = true -> normal g s -> sval s = RtoC x -> cf_wide x -> 1 <= limit ->
  surd_to_cf g t fuel s = Ok (Some z) -> surd_approximated g BigI fuel' s limit = Ok v ->
  exists r m, v = Approximated r /\ nth_item (conv_next BigU) m (cf_convergents z) = Ok (Some r).
Proof. exact L_C87_approximated. Qed.
Print Assumptions C87_approximated.

(** For the same number: 69/41 *)
Example C87_approximated_case : surd_approximated (Cfg false true) BigI 20 (Surd (SCo 7 1 5) 2) 50 = Ok (Approximated (Ratio 69 41)) /\
  nth_item (conv_next BigU) 5 (cf_convergents (CF [1; 1; 2] [6; 1; 1] false)) = Ok (Some (Ratio 69 41)).
Proof. split; vm_compute; reflexivity. Qed.
