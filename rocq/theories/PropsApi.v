(** * PropsApi: property theorems C57 and following.

    Only statements: every theorem is closed by the lemma of the same name in
    ClaimsApi.v. *)

From Coq Require Import ZArith Reals Lia Lra Bool List.
From Coquelicot Require Import Coquelicot.
From Verif Require Import Base Ext ModelBlock ModelSurd ModelInt ModelCF ModelGen ModelConv Spec SpecInt SpecCF SpecGen SurdDecide GenStored ClaimsSurd ClaimsCF ClaimsGen ClaimsApi.
Import ListNotations.
Open Scope Z_scope.

(** ** C57  approximated() of generalized continued fractions *)

(** It answers with a convergent, the last one before a denominator reaches the limit (Approximated),
    or the last one there is (Exact) *)
Theorem C57_choice : forall t I (inext : I -> res (option (Z * Z) * I)) fuel it limit v, gcf_approximated t inext fuel it limit = Ok v ->
  exists m r, nth_item (gconv_next t inext) m (gcf_convergents it) = Ok (Some r) /\
    (forall j q, (1 <= j <= m)%nat -> nth_item (gconv_next t inext) j (gcf_convergents it) = Ok (Some q) -> denom q < limit) /\
    ((v = Exact r /\ nth_item (gconv_next t inext) (S m) (gcf_convergents it) = Ok None) \/
     (v = Approximated r /\ m = O /\ limit < denom r) \/
     (v = Approximated r /\ exists q, nth_item (gconv_next t inext) (S m) (gcf_convergents it) = Ok (Some q) /\ limit <= denom q)).
Proof. exact L_C57_choice. Qed.
Print Assumptions C57_choice.

(** Endless fractions with positive terms: the answer has a denominator within the limit, and an error below the
    distance to the next convergent, at every integer type; missing: the promised error bound 1/limit^2 (C57_refuted) *)
Theorem C57_error_partial : forall t I (inext : I -> res (option (Z * Z) * I)) fuel it f x limit r, yields inext it f -> gpositive f -> gconverges f x -> 1 <= limit ->
  gcf_approximated t inext fuel it limit = Ok (Approximated r) ->
  exists m, lowest r /\ denom r <= limit /\ rval r = gval (prefix f (S m)) /\ (0 < Rabs (x - rval r) < Rabs (gval (prefix f (S (S m))) - rval r))%R.
Proof. exact L_C57_error_partial. Qed.
Print Assumptions C57_error_partial.

(** With arbitrary precision it returns, and it never claims to be exact for an endless fraction *)
Theorem C57_returns : forall I (inext : I -> res (option (Z * Z) * I)) it f x limit, yields inext it f -> fst (f O) = 1 -> (forall n, gregular (prefix f n)) ->
  (forall n, (1 <= n)%nat -> fst (f n) <> 0) -> gconverges f x -> 1 <= limit ->
  exists n0, forall fuel, (n0 <= fuel)%nat -> exists r, gcf_approximated BigI inext fuel it limit = Ok (Approximated r).
Proof. exact L_C57_returns. Qed.
Print Assumptions C57_returns.

(** Finite fractions: it always returns, and Exact is right *)
Theorem C57_exact : forall I (inext : I -> res (option (Z * Z) * I)) it l limit, yields_list inext it l -> gpositive_list l ->
  exists v, (forall fuel, (length l <= fuel)%nat -> gcf_approximated BigI inext fuel it limit = Ok v) /\ (forall r, v = Exact r -> lowest r /\ rval r = gval l).
Proof. exact L_C57_exact. Qed.
Print Assumptions C57_exact.

(** sqrt 2 with limit 169: the error of 99/70 is above 1/169^2 *)
Theorem C57_refuted : exists r, yields (from_fn (fun n => (1, root2 n))) O (fun n => (1, root2 n)) /\ gpositive (fun n => (1, root2 n)) /\
  gconverges (fun n => (1, root2 n)) (sqrt 2) /\ gcf_approximated BigI (from_fn (fun n => (1, root2 n))) 20 O 169 = Ok (Approximated r) /\
  (/ (IZR 169 * IZR 169) < Rabs (sqrt 2 - rval r))%R.
Proof. exact L_C57_refuted. Qed.
Print Assumptions C57_refuted.

(** 8 bits: sqrt 2 is reported to be exactly 99/70 *)
Theorem C57_fixed_width_refuted : exists r, gcf_approximated (SInt 8) (from_fn (fun n => (1, root2 n))) 20 O 100 = Ok (Exact r).
Proof. exact L_C57_fixed_width_refuted. Qed.
Print Assumptions C57_fixed_width_refuted.

(** 1 + 0/(1 + 0/(1 + ...)): the denominators never reach the limit 2, and the search does not end *)
Theorem C57_hang_refuted : forall fuel, gcf_approximated BigI (from_fn (fun n => match n with O => (1, 1) | _ => (0, 1) end)) fuel O 2 = Hang.
Proof. exact L_C57_hang_refuted. Qed.
Print Assumptions C57_hang_refuted.

(** pi with limit 1000 is 989/315, the finite fraction 1 + 2/(4 + 6/8) is exactly 27/19 *)
Example C57_case : yields (from_fn pi_pairs) O pi_pairs /\ gpositive pi_pairs /\ (forall n, gregular (prefix pi_pairs n)) /\
  gcf_approximated BigI (from_fn pi_pairs) 50 O 1000 = Ok (Approximated (Ratio 989 315)) /\
  gpositive_list [(1, 1); (2, 4); (6, 8)] /\ gcf_approximated BigI list_next 50 [(1, 1); (2, 4); (6, 8)] 1000 = Ok (Exact (Ratio 27 19)).
Proof.
  destruct pi_pairs_case as (A & B & C & _). split; [exact A|]. split; [exact pi_pairs_pos|]. split; [exact C|]. split; [vm_compute; reflexivity|].
  split; [cbn; split; [reflexivity|repeat constructor; discriminate]|vm_compute; reflexivity].
Qed.

(** ** C58  == of continued fractions *)

(** == never calls two different numbers equal *)
Theorem C58_sound : forall x y, cf_eqb x y = true -> cf_val x = cf_val y.
Proof. exact L_C58_sound. Qed.
Print Assumptions C58_sound.

(** If one of the numbers is rational: == is equality of numbers on canonical fractions *)
Theorem C58_rational : forall x y, canonical x -> canonical y -> finite x -> (cf_eqb x y = true <-> cf_val x = cf_val y).
Proof. exact L_C58_rational. Qed.
Print Assumptions C58_rational.

(** Two surds with the same value in the domain of the conversion, even with different roots or integer types,
    give fractions that are ==.  Full statement: fractions of the same number are always ==; missing: fractions
    built from given coefficients (C58_refuted) *)
Theorem C58_surds_partial : forall g h t u fuel fuel' s r v x y, fits t 1 = true -> fits u 1 = true -> normal g s -> normal h r -> sval s = RtoC v -> sval r = RtoC v ->
  cf_domain v -> surd_to_cf g t fuel s = Ok (Some x) -> surd_to_cf h u fuel' r = Ok (Some y) -> cf_eqb x y = true.
Proof. exact L_C58_surds_partial. Qed.
Print Assumptions C58_surds_partial.

(** The fraction made from a surd is the shortest one with its value: no other splitting into aperiodic part and
    period has fewer coefficients in either of them *)
Theorem C58_shortest : forall g t fuel s v x y, fits t 1 = true -> normal g s -> sval s = RtoC v -> cf_domain v -> surd_to_cf g t fuel s = Ok (Some x) ->
  wfcf y -> ~ finite y -> cf_val y = v -> (length (a_coeffs x) <= length (a_coeffs y))%nat /\ (length (p_coeffs x) <= length (p_coeffs y))%nat.
Proof. exact L_C58_shortest. Qed.
Print Assumptions C58_shortest.

(** Infinite fractions of the same number have the same sign and the same coefficients, so == decides equality of
    numbers as soon as both parts are equally long *)
Theorem C58_periodic : forall x y, wfcf x -> wfcf y -> ~ finite x -> ~ finite y ->
  (cf_val x = cf_val y <-> negative x = negative y /\ forall n, coeff_at x n = coeff_at y n) /\
  (length (a_coeffs x) = length (a_coeffs y) -> length (p_coeffs x) = length (p_coeffs y) -> (cf_eqb x y = true <-> cf_val x = cf_val y)).
Proof. exact L_C58_periodic. Qed.
Print Assumptions C58_periodic.

(** new([1], [2]), new([1, 2], [2]) and new([1], [2, 2]) are all the square root of 2 and are all different *)
Theorem C58_refuted : exists x y z, cf_new (Cfg false true) BigI [1] [2] false = Ok x /\ cf_new (Cfg false true) BigI [1; 2] [2] false = Ok y /\
  cf_new (Cfg false true) BigI [1] [2; 2] false = Ok z /\ canonical x /\ canonical y /\ canonical z /\
  cf_val x = sqrt 2 /\ cf_val y = sqrt 2 /\ cf_val z = sqrt 2 /\ cf_eqb x y = false /\ cf_eqb x z = false /\ cf_eqb y z = false.
Proof. exact L_C58_refuted. Qed.
Print Assumptions C58_refuted.

Example C58_case : cf_domain (sqrt 2) /\ surd_to_cf (Cfg false true) (SInt 64) 10 (new_raw 0 1 1 2) = Ok (Some (CF [1] [2] false)) /\
  surd_to_cf (Cfg false true) BigI 10 (new_raw 0 1 2 8) = Ok (Some (CF [1] [2] false)).
Proof.
  split; [|split; reflexivity]. pose proof sqrt2_bounds.
  apply (dom_sqrt2 _ 0 1 1 1); [lia|lia|field|lia|change (1 * 1) with 1; change (1 + 1) with 2; lra|change (1 * 1) with 1; lra].
Qed.

(** ** C59  zero(), one() and the predicates of continued fractions *)

Theorem C59_constants : canonical cf_zero /\ cf_val cf_zero = 0%R /\ canonical cf_one /\ cf_val cf_one = 1%R.
Proof. exact L_C59_constants. Qed.
Print Assumptions C59_constants.

Theorem C59_is_zero : forall x, canonical x -> (cf_is_zero x = true <-> cf_val x = 0%R).
Proof. exact L_C59_is_zero. Qed.
Print Assumptions C59_is_zero.

(** Full statement: is_one() is true exactly for the number 1; missing: -1 (C59_is_one_refuted) *)
Theorem C59_is_one_partial : forall x, canonical x -> (cf_is_one x = true <-> cf_val x = 1%R \/ cf_val x = (-1)%R).
Proof. exact L_C59_is_one_partial. Qed.
Print Assumptions C59_is_one_partial.

Theorem C59_is_rational : forall x, wfcf x -> (cf_is_rational x = true <-> rational_real (cf_val x)).
Proof. exact L_C59_is_rational. Qed.
Print Assumptions C59_is_rational.

Theorem C59_is_integer : forall x, canonical x -> (cf_is_integer x = true <-> exists n : Z, cf_val x = IZR n).
Proof. exact L_C59_is_integer. Qed.
Print Assumptions C59_is_integer.

(** -1 reports is_one(): built from the integer -1, or as the negation of one() *)
Theorem C59_is_one_refuted : cf_of_int BigI (-1) = Ok (CF [1] nil true) /\ cf_neg cf_one = CF [1] nil true /\ cf_val (CF [1] nil true) = (-1)%R /\
  cf_is_one (CF [1] nil true) = true.
Proof. exact L_C59_is_one_refuted. Qed.
Print Assumptions C59_is_one_refuted.

(** collect(): the number with these coefficients, on the domain of new() (C31) *)
Theorem C59_collect_partial : forall g t l y, fits t 1 = true -> List.Forall (fun v => fits t v = true) l -> plain_coeffs l nil \/ steep_coeffs l false ->
  cf_from_iter g t l = Ok y -> canonical y /\ cf_val y = cf_val (CF l nil false).
Proof. exact L_C59_collect_partial. Qed.
Print Assumptions C59_collect_partial.

Example C59_case : canonical (CF [3; 7] nil true) /\ plain_coeffs [3; 7; 1] nil /\ cf_from_iter (Cfg false true) (SInt 32) [3; 7; 1] = Ok (CF [3; 8] nil false).
Proof.
  split; [|split; [|reflexivity]].
  - unfold canonical, wfcf. cbn. repeat split; try lia; try constructor; try lia; try constructor; discriminate.
  - unfold plain_coeffs. cbn. repeat split; try constructor; try lia; constructor; try lia; constructor.
Qed.

(** ** C60  to_quadint() and to_gaussint() *)

(** Exact answers of to_quadint() are exact *)
Theorem C60_quadint_exact : forall g t s q, normal g s -> surd_to_quadint g t s = Ok (Exact q) -> qval q = sval s.
Proof. exact L_C60_quadint_exact. Qed.
Print Assumptions C60_quadint_exact.

(** Approximated answers: both coordinates are rounded toward zero *)
Theorem C60_quadint_approx : forall g t s q, normal g s -> surd_to_quadint g t s = Ok (Approximated q) ->
  exists a b c m n, 0 < c /\ sval s = ((ZtoC a + ZtoC b * csqrt (discr s)) / ZtoC c)%C /\ qval q = (ZtoC m + ZtoC n * csqrt (discr s))%C /\
    istrunc (IZR a / IZR c) m /\ istrunc (IZR b / IZR c) n.
Proof. exact L_C60_quadint_approx. Qed.
Print Assumptions C60_quadint_approx.

(** It returns exactly for irrational surds whose root is positive or not divisible by 4 *)
Theorem C60_quadint_returns : forall g s, normal g s -> (returns (surd_to_quadint g BigI s) <-> 0 < discr s \/ (discr s < 0 /\ discr s mod 4 <> 0)).
Proof. exact L_C60_quadint_returns. Qed.
Print Assumptions C60_quadint_returns.

(** to_quadint() answers Exact exactly for the numbers m + n * sqrt d with integers m and n *)
Theorem C60_quadint_when : forall g t s v, normal g s -> surd_to_quadint g t s = Ok v ->
  ((exists q, v = Exact q) <-> exists m n : Z, sval s = (ZtoC m + ZtoC n * csqrt (discr s))%C).
Proof. exact L_C60_quadint_when. Qed.
Print Assumptions C60_quadint_when.

(** Plain integers are quadratic integers, but to_quadint() panics on them; the golden ratio is one and is
    "approximated" by 0 *)
Theorem C60_quadint_refuted : (surd_to_quadint (Cfg false true) BigI (surd_of_int 3) = Panic PUnreachable) /\
  exists s q, normal (Cfg false true) s /\ alg_integer (sval s) /\ surd_to_quadint (Cfg false true) BigI s = Ok (Approximated q) /\ qval q = RtoC 0.
Proof. exact L_C60_quadint_refuted. Qed.
Print Assumptions C60_quadint_refuted.

(** Exact answers of to_gaussint() are right exactly for the roots 0 and -1 *)
Theorem C60_gaussint_exact_partial : forall g t s m n, normal g s -> surd_to_gaussint g t s = Ok (Exact (m, n)) ->
  (sval s = (IZR m, IZR n) <-> discr s = 0 \/ discr s = -1).
Proof. exact L_C60_gaussint_exact_partial. Qed.
Print Assumptions C60_gaussint_exact_partial.

(** Approximated answers of to_gaussint() are rounded toward zero, in both coordinates; for real numbers they
    are off by less than 1 *)
Theorem C60_gaussint_approx : forall g t s m n, normal g s -> surd_to_gaussint g t s = Ok (Approximated (m, n)) ->
  (discr s < 0 -> istrunc (fst (sval s)) m /\ istrunc (snd (sval s)) n) /\
  (0 <= discr s -> n = 0 /\ snd (sval s) = 0%R /\ (IZR m - 1 < fst (sval s) < IZR m + 1)%R).
Proof. exact L_C60_gaussint_approx. Qed.
Print Assumptions C60_gaussint_approx.

(** The square root of 2 is called the Gaussian integer i *)
Theorem C60_gaussint_refuted : exists s, normal (Cfg true true) s /\ sval s = RtoC (sqrt 2) /\ surd_to_gaussint (Cfg true true) BigI s = Ok (Exact (0, 1)).
Proof. exact L_C60_gaussint_refuted. Qed.
Print Assumptions C60_gaussint_refuted.

Theorem C60_gaussint_returns : forall g s, normal g s -> returns (surd_to_gaussint g BigI s).
Proof. exact L_C60_gaussint_returns. Qed.
Print Assumptions C60_gaussint_returns.

Example C60_case : normal (Cfg false true) (new_raw 7 5 2 3) /\ surd_to_quadint (Cfg false true) (SInt 64) (new_raw 7 5 2 3) = Ok (Approximated (QInt (QCo 3 2) 3)) /\
  surd_to_quadint (Cfg false true) (SInt 64) (new_raw 7 5 1 3) = Ok (Exact (QInt (QCo 7 5) 3)) /\
  normal (Cfg true true) (new_raw 7 (-5) 2 (-3)) /\ surd_to_gaussint (Cfg true true) (SInt 64) (new_raw 7 (-5) 2 (-3)) = Ok (Approximated (3, -4)).
Proof. split; [|split; [|split; [|split]]]; try reflexivity; apply normalb_ok; vm_compute; reflexivity. Qed.
