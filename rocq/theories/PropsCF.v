(** * PropsCF: property theorems about simple continued fractions (C28-C38).

    Only statements: every theorem is closed by the lemma of the same name in
    ClaimsCF.v.  [g] ranges over feature settings and build profiles, [u] over
    the unsigned integer types of stored coefficients ([BigU] is BigUint), [t]
    and [sty u] over signed ones ([BigI] is BigInt); [f ... = Ok v] says that the
    call returned [v] without panic or endless loop.  Vocabulary: Spec.v,
    SpecCF.v.  The Examples after a theorem show concrete cases that meet its
    hypotheses. *)

From Coq Require Import ZArith Reals Bool List.
From Coquelicot Require Import Coquelicot.
From Verif Require Import Base Ext ModelSurd ModelBlock ModelCF ModelConv Spec SpecCF ClaimsCF.
Import ListNotations.
Open Scope Z_scope.

Definition dev := Cfg false true.
Definition u8 := UInt 8.
Definition u32 := UInt 32.
(** the square root of 2 *)
Definition r2 := CF [1] [2] false.

(** ** C28  Coefficient iterators *)

(** coeffs_unsigned(): for every fraction whatsoever and every position *)
Theorem C28_coeffs_unsigned : forall x n, nth_item coeffs_nextM n (cf_coeffs_unsigned x) = Ok (coeff_at x n).
Proof. exact L_C28_coeffs_unsigned. Qed.
Print Assumptions C28_coeffs_unsigned.

(** coeffs(): with the sign applied *)
Theorem C28_coeffs : forall u x n, (forall j v, (j <= n)%nat -> coeff_at x j = Some v -> sfit u v) ->
  nth_item (signed_next u) n (cf_coeffs x) = Ok (option_map (Z.mul (sgnb (negative x))) (coeff_at x n)).
Proof. exact L_C28_coeffs. Qed.
Print Assumptions C28_coeffs.

(** generalized(): the same, paired with numerators 1 *)
Theorem C28_generalized : forall u x n, (forall j v, (j <= n)%nat -> coeff_at x j = Some v -> sfit u v) ->
  nth_item (general_next u) n (cf_generalized x) = Ok (option_map (fun v => (1, sgnb (negative x) * v)) (coeff_at x n)).
Proof. exact L_C28_generalized. Qed.
Print Assumptions C28_generalized.

(** into_coeffs().  Full statement: for every period; missing: periods of length 2 or more, where the
    position is never advanced (C28_into_coeffs_refuted). *)
Theorem C28_into_coeffs_partial : forall u x n, (length (p_coeffs x) <= 1)%nat ->
  (forall j v, (j <= n)%nat -> coeff_at x j = Some v -> sfit u v) ->
  nth_item (owned_next u) n (cf_into_coeffs x) = Ok (option_map (Z.mul (sgnb (negative x))) (coeff_at x n)).
Proof. exact L_C28_into_coeffs_partial. Qed.
Print Assumptions C28_into_coeffs_partial.

(** The bound on the coefficients always holds for arbitrary-precision integers *)
Theorem C28_big_coeffs : forall x n, wfcf x ->
  nth_item (signed_next BigU) n (cf_coeffs x) = Ok (option_map (Z.mul (sgnb (negative x))) (coeff_at x n)) /\
  nth_item (general_next BigU) n (cf_generalized x) = Ok (option_map (fun v => (1, sgnb (negative x) * v)) (coeff_at x n)).
Proof. exact L_C28_big_coeffs. Qed.
Print Assumptions C28_big_coeffs.

(** [1; (2, 3)]: the third coefficient is 3, into_coeffs() says 2 *)
Theorem C28_into_coeffs_refuted : exists x, canonical x /\ coeff_at x 2 = Some 3 /\
  nth_item (owned_next BigU) 2 (cf_into_coeffs x) = Ok (Some 2).
Proof. exact L_C28_into_coeffs_refuted. Qed.
Print Assumptions C28_into_coeffs_refuted.

(** 8-bit coefficients: 200 comes out as -56 *)
Theorem C28_fixed_width_refuted : exists x, canonical x /\ coeff_at x 0 = Some 200 /\
  nth_item (signed_next (UInt 8)) 0 (cf_coeffs x) = Ok (Some (-56)).
Proof. exact L_C28_fixed_width_refuted. Qed.
Print Assumptions C28_fixed_width_refuted.

Example C28_case : (forall j v, (j <= 4)%nat -> coeff_at (CF [3; 7] [15; 1] true) j = Some v -> sfit u32 v) /\
  take (signed_next u32) 5 (cf_coeffs (CF [3; 7] [15; 1] true)) = Ok [-3; -7; -15; -1; -15] /\
  take (owned_next u32) 4 (cf_into_coeffs (CF [1] [2] true)) = Ok [-1; -2; -2; -2].
Proof.
  split; [|split; reflexivity]. intros j v H E. destruct j as [|[|[|[|[|j]]]]]; cbn in E; inversion E; cbn; try (split; [discriminate|reflexivity]).
  exfalso. repeat apply le_S_n in H. inversion H.
Qed.

(** ** C29  Convergents *)

(** Every item, at arbitrary precision *)
Theorem C29_convergents : forall x n, wfcf x ->
  (coeff_at x n = None -> nth_item (conv_next BigU) n (cf_convergents x) = Ok None) /\
  (coeff_at x n <> None -> exists r, nth_item (conv_next BigU) n (cf_convergents x) = Ok (Some r) /\ convergent x n r).
Proof. exact L_C29_convergents. Qed.
Print Assumptions C29_convergents.

(** The same at fixed width, as long as the convergents fit the signed type *)
Theorem C29_fixed_width : forall u x n, wfcf x -> (forall j r, (j <= n)%nat -> convergent x j r -> ratio_sfit u r) ->
  coeff_at x n <> None -> exists r, nth_item (conv_next u) n (cf_convergents x) = Ok (Some r) /\ convergent x n r.
Proof. exact L_C29_fixed_width. Qed.
Print Assumptions C29_fixed_width.

(** Neighbouring convergents are as close as fractions can be *)
Theorem C29_neighbours : forall x n r s, wfcf x -> nth_item (conv_next BigU) n (cf_convergents x) = Ok (Some r) ->
  nth_item (conv_next BigU) (S n) (cf_convergents x) = Ok (Some s) -> Z.abs (numer s * denom r - numer r * denom s) = 1.
Proof. exact L_C29_neighbours. Qed.
Print Assumptions C29_neighbours.

(** An infinite fraction's convergents exist for all n and tend to its value *)
Theorem C29_limit : forall x, wfcf x -> ~ finite x -> exists f : nat -> ratio,
  (forall n, nth_item (conv_next BigU) n (cf_convergents x) = Ok (Some (f n))) /\ is_lim_seq (fun n => rval (f n)) (cf_val x).
Proof. exact L_C29_limit. Qed.
Print Assumptions C29_limit.

(** They lie alternately below and above the absolute value *)
Theorem C29_alternating : forall x n r, wfcf x -> ~ finite x -> nth_item (conv_next BigU) n (cf_convergents x) = Ok (Some r) ->
  if Nat.even n then (Rabs (rval r) < Rabs (cf_val x))%R else (Rabs (cf_val x) < Rabs (rval r))%R.
Proof. exact L_C29_alternating. Qed.
Print Assumptions C29_alternating.

(** 8 bits: the seventh convergent of the square root of 2, 239/169, comes out as 17/87 *)
Theorem C29_fixed_width_refuted : exists x r, canonical x /\ coeff_at x 6 <> None /\
  nth_item (conv_next (UInt 8)) 6 (cf_convergents x) = Ok (Some r) /\ ~ convergent x 6 r.
Proof. exact L_C29_fixed_width_refuted. Qed.
Print Assumptions C29_fixed_width_refuted.

Example C29_case : wfcf r2 /\ ~ finite r2 /\
  take (conv_next BigU) 5 (cf_convergents r2) = Ok [Ratio 1 1; Ratio 3 2; Ratio 7 5; Ratio 17 12; Ratio 41 29].
Proof. split; [cbn; repeat split; [discriminate|constructor|repeat constructor; discriminate]|]. split; [discriminate|reflexivity]. Qed.

(** ** C30  From<Ratio> *)

(** The fraction built from a rational has its value and is in canonical form *)
Theorem C30_of_ratio : forall t r x, lowest r -> cf_of_ratio t r = Ok x -> canonical x /\ finite x /\ cf_val x = rval r.
Proof. exact L_C30_of_ratio. Qed.
Print Assumptions C30_of_ratio.

Theorem C30_returns : forall r, lowest r -> returns (cf_of_ratio BigI r).
Proof. exact L_C30_returns. Qed.
Print Assumptions C30_returns.

Theorem C30_of_int : forall t n x, fits t n = true -> cf_of_int t n = Ok x -> canonical x /\ finite x /\ cf_val x = IZR n.
Proof. exact L_C30_of_int. Qed.
Print Assumptions C30_of_int.

(** to_rational() gives back the rational *)
Theorem C30_round_trip : forall t u r x, lowest r -> ratio_sfit u r -> cf_of_ratio t r = Ok x -> cf_to_rational u x = Ok (Exact r).
Proof. exact L_C30_round_trip. Qed.
Print Assumptions C30_round_trip.

(** The canonical form is unique: [==] on canonical finite fractions is equality of numbers *)
Theorem C30_unique : forall x y, canonical x -> canonical y -> finite x -> finite y -> cf_val x = cf_val y -> x = y.
Proof. exact L_C30_unique. Qed.
Print Assumptions C30_unique.

Example C30_case : lowest (Ratio (-22) 7) /\ ratio_sfit u8 (Ratio (-22) 7) /\ cf_of_ratio (SInt 8) (Ratio (-22) 7) = Ok (CF [3; 7] nil true) /\
  cf_to_rational u8 (CF [3; 7] nil true) = Ok (Exact (Ratio (-22) 7)).
Proof. repeat split; try reflexivity; cbn; discriminate. Qed.

(** ** C31  ContinuedFraction::new *)

(** Exact and canonical.  Full statement: for all coefficients for which the fraction has a value;
    missing: see the refutations below ([plain_coeffs] describes the coefficients). *)
Theorem C31_new_partial : forall g t a p b y, fits t 1 = true -> List.Forall (fun v => fits t v = true) (a ++ p) -> plain_coeffs a p ->
  cf_new g t a p b = Ok y -> canonical y /\ p_coeffs y = p /\ cf_val y = cf_val (CF a p b).
Proof. exact L_C31_new_partial. Qed.
Print Assumptions C31_new_partial.

Theorem C31_returns_partial : forall g a p b, plain_coeffs a p -> returns (cf_new g BigI a p b).
Proof. exact L_C31_returns_partial. Qed.
Print Assumptions C31_returns_partial.

(** Finite fractions with coefficients of any sign, of absolute value 2 or more after the first *)
Theorem C31_signed_partial : forall g t a b y, fits t 1 = true -> List.Forall (fun v => fits t v = true) a -> steep_coeffs a b ->
  cf_new g t a nil b = Ok y -> canonical y /\ finite y /\ cf_val y = cf_val (CF a nil b).
Proof. exact L_C31_signed_partial. Qed.
Print Assumptions C31_signed_partial.

Theorem C31_signed_returns_partial : forall g a b, steep_coeffs a b -> returns (cf_new g BigI a nil b).
Proof. exact L_C31_signed_returns_partial. Qed.
Print Assumptions C31_signed_returns_partial.

(** The same followed by a period: exact precisely if the last coefficient before the period is positive *)
Theorem C31_signed_period_partial : forall g t a p b y, fits t 1 = true -> List.Forall (fun v => fits t v = true) (a ++ p) ->
  steep_coeffs a b -> a <> [0] -> p <> nil -> List.Forall (fun v => 1 <= v) p ->
  cf_new g t a p b = Ok y -> canonical y /\ p_coeffs y = p /\ (cf_val y = cf_val (CF a p b) <-> 0 < last a 0).
Proof. exact L_C31_signed_period_partial. Qed.
Print Assumptions C31_signed_period_partial.

Theorem C31_signed_period_returns_partial : forall g a p b, steep_coeffs a b -> p <> nil -> List.Forall (fun v => 1 <= v) p -> returns (cf_new g BigI a p b).
Proof. exact L_C31_signed_period_returns_partial. Qed.
Print Assumptions C31_signed_period_returns_partial.

(** Every finite list of coefficients that has a value ([quotient]: numerator and denominator): whenever the call
    returns, the result is canonical and right up to the sign *)
Theorem C31_magnitude : forall g t a b y, fits t 1 = true -> List.Forall (fun v => fits t v = true) a -> snd (quotient a) <> 0 ->
  cf_new g t a nil b = Ok y -> canonical y /\ finite y /\ Rabs (cf_val y) = Rabs (IZR (fst (quotient a)) / IZR (snd (quotient a))).
Proof. exact L_C31_magnitude. Qed.
Print Assumptions C31_magnitude.

Example C31_magnitude_case : quotient [5; 0; -2; 1; -3; 1; -4] = (11, 2) /\ cf_new dev BigI [5; 0; -2; 1; -3; 1; -4] nil false = Ok (CF [5; 2] nil false) /\
  quotient [-1; 3] = (-2, 3) /\ cf_new dev BigI [-1; 3] nil false = Ok (CF [0; 1; 2] nil false).
Proof. repeat split. Qed.

Example C31_signed_period_case : steep_coeffs [3; -2; 4] false /\ cf_new dev BigI [3; -2; 4] [1; 2] false = Ok (CF [2; 2; 3] [1; 2] false).
Proof. split; [|reflexivity]. split; [discriminate|]. repeat constructor; discriminate. Qed.

(** new([-1, 3], [], false): -1 + 1/3 = -2/3, the result is 2/3 *)
Theorem C31_refuted : exists y, cf_new (Cfg false true) BigI [-1; 3] nil false = Ok y /\ cf_val y <> cf_val (CF [-1; 3] nil false).
Proof. exact L_C31_refuted. Qed.
Print Assumptions C31_refuted.

(** new([-3], [2], false) = -3 + 1/(2 + 1/(2 + ...)): the sign of the period is wrong *)
Theorem C31_periodic_refuted : exists y, cf_new (Cfg false true) BigI [-3] [2] false = Ok y /\ cf_val y <> cf_val (CF [-3] [2] false).
Proof. exact L_C31_periodic_refuted. Qed.
Print Assumptions C31_periodic_refuted.

(** new([1, 0, -3], [], false): 1 + 1/(0 - 1/3) = -2, but the call panics *)
Theorem C31_panic_refuted : cf_new (Cfg false true) BigI [1; 0; -3] nil false = Panic PUnwrap /\ cf_val (CF [1; 0; -3] nil false) = (-2)%R.
Proof. exact L_C31_panic_refuted. Qed.
Print Assumptions C31_panic_refuted.

Example C31_case : plain_coeffs [-5; 3; 0; 4] [2; 7] /\ cf_new dev BigI [-5; 3; 0; 4] [2; 7] true = Ok (CF [4; 1; 6] [2; 7] false) /\
  steep_coeffs [3; -2; 4] false /\ cf_new dev BigI [3; -2; 4] nil false = Ok (CF [2; 2; 3] nil false).
Proof.
  split; [split; [repeat constructor; discriminate|]|split; [reflexivity|split; [|reflexivity]]].
  - cbn. split; [discriminate|]. split; [repeat constructor; discriminate|]. split; [discriminate|]. right. repeat split; discriminate.
  - split; [discriminate|]. repeat constructor; discriminate.
Qed.

(** ** C32  Adding an integer *)

(** Full statement: for all continued fractions and integers; missing: some sums whose sign changes
    ([add_int_domain]), see the refutations. *)
Theorem C32_add_partial : forall g u x n y, fits (sty u) 1 = true -> fits (sty u) n = true -> canonical x -> coeffs_fit u x ->
  add_int_domain x n -> cf_add_int g u x n = Ok y -> canonical y /\ p_coeffs y = p_coeffs x /\ cf_val y = (cf_val x + IZR n)%R.
Proof. exact L_C32_add_partial. Qed.
Print Assumptions C32_add_partial.

Theorem C32_sub_partial : forall g u x n y, fits (sty u) 1 = true -> canonical x -> coeffs_fit u x ->
  add_int_domain x (- n) -> cf_sub_int g u x n = Ok y -> canonical y /\ p_coeffs y = p_coeffs x /\ cf_val y = (cf_val x - IZR n)%R.
Proof. exact L_C32_sub_partial. Qed.
Print Assumptions C32_sub_partial.

Theorem C32_returns_partial : forall g x n, canonical x -> add_int_domain x n -> returns (cf_add_int g BigU x n).
Proof. exact L_C32_returns_partial. Qed.
Print Assumptions C32_returns_partial.

(** Whenever the sum keeps its sign, no matter what [x] is *)
Theorem C32_same_sign : forall g x n, canonical x -> (0 <= cf_val x * (cf_val x + IZR n))%R -> cf_val x <> 0%R ->
  exists y, cf_add_int g BigU x n = Ok y /\ canonical y /\ cf_val y = (cf_val x + IZR n)%R.
Proof. exact L_C32_same_sign. Qed.
Print Assumptions C32_same_sign.

(** 1/3 + (-1) yields +2/3 *)
Theorem C32_refuted : exists x y, canonical x /\ finite x /\ cf_add_int (Cfg false true) BigU x (-1) = Ok y /\ cf_val y <> (cf_val x + IZR (-1))%R.
Proof. exact L_C32_refuted. Qed.
Print Assumptions C32_refuted.

(** The square root of 2 minus 3 yields -(1 + the square root of 2) *)
Theorem C32_periodic_refuted : exists x y, canonical x /\ cf_val x = sqrt 2 /\ cf_add_int (Cfg false true) BigU x (-3) = Ok y /\
  cf_val y = (- (1 + sqrt 2))%R /\ cf_val y <> (cf_val x + IZR (-3))%R.
Proof. exact L_C32_periodic_refuted. Qed.
Print Assumptions C32_periodic_refuted.

Example C32_case : canonical (CF [1; 3; 2] nil false) /\ add_int_domain (CF [1; 3; 2] nil false) (-5) /\
  cf_add_int dev u8 (CF [1; 3; 2] nil false) (-5) = Ok (CF [3; 1; 2; 2] nil true) /\
  add_int_domain r2 (-1) /\ cf_add_int dev u8 r2 (-1) = Ok (CF [0] [2] false).
Proof.
  split; [|split; [|split; [reflexivity|split; [|reflexivity]]]].
  - split; [|split; cbn; try congruence; discriminate]. cbn. repeat split; [discriminate|repeat constructor; discriminate|constructor].
  - right. right. cbn. repeat split; discriminate.
  - left. cbn. discriminate.
Qed.

(** ** C33  Operators through surds
    Full statement of all of these: for all operands for which the operation returns; missing: results
    outside [cf_wide] when an operand is infinite, i.e. rational results (the call panics,
    C33_rational_refuted) and those lying between 0 and their conjugate (C33_conjugate_refuted). *)

Theorem C33_mul_int_partial : forall g u fuel x k z, fits (sty u) 1 = true -> wfcf x -> surd_sized u x -> finite x \/ cf_wide (cf_val x * IZR k) ->
  cf_mul_int g u fuel x k = Ok z -> canonical z /\ cf_val z = (cf_val x * IZR k)%R.
Proof. exact L_C33_mul_int_partial. Qed.
Print Assumptions C33_mul_int_partial.

Theorem C33_div_int_partial : forall g u fuel x k z, fits (sty u) 1 = true -> wfcf x -> surd_sized u x -> finite x \/ cf_wide (cf_val x / IZR k) ->
  cf_div_int g u fuel x k = Ok z -> k <> 0 /\ canonical z /\ cf_val z = (cf_val x / IZR k)%R.
Proof. exact L_C33_div_int_partial. Qed.
Print Assumptions C33_div_int_partial.

Theorem C33_add_ratio_partial : forall g u fuel x q z, fits (sty u) 1 = true -> wfcf x -> surd_sized u x -> lowest q -> finite x \/ cf_wide (cf_val x + rval q) ->
  cf_add_ratio g u fuel x q = Ok z -> canonical z /\ cf_val z = (cf_val x + rval q)%R.
Proof. exact L_C33_add_ratio_partial. Qed.
Print Assumptions C33_add_ratio_partial.

Theorem C33_sub_ratio_partial : forall g u fuel x q z, fits (sty u) 1 = true -> wfcf x -> surd_sized u x -> lowest q -> finite x \/ cf_wide (cf_val x - rval q) ->
  cf_sub_ratio g u fuel x q = Ok z -> canonical z /\ cf_val z = (cf_val x - rval q)%R.
Proof. exact L_C33_sub_ratio_partial. Qed.
Print Assumptions C33_sub_ratio_partial.

Theorem C33_mul_ratio_partial : forall g u fuel x q z, fits (sty u) 1 = true -> wfcf x -> surd_sized u x -> lowest q -> finite x \/ cf_wide (cf_val x * rval q) ->
  cf_mul_ratio g u fuel x q = Ok z -> canonical z /\ cf_val z = (cf_val x * rval q)%R.
Proof. exact L_C33_mul_ratio_partial. Qed.
Print Assumptions C33_mul_ratio_partial.

Theorem C33_div_ratio_partial : forall g u fuel x q z, fits (sty u) 1 = true -> wfcf x -> surd_sized u x -> lowest q -> finite x \/ cf_wide (cf_val x / rval q) ->
  cf_div_ratio g u fuel x q = Ok z -> rval q <> 0%R /\ canonical z /\ cf_val z = (cf_val x / rval q)%R.
Proof. exact L_C33_div_ratio_partial. Qed.
Print Assumptions C33_div_ratio_partial.

Theorem C33_add_partial : forall g u fuel x y z, fits (sty u) 1 = true -> wfcf x -> surd_sized u x -> wfcf y -> surd_sized u y ->
  (finite x /\ finite y) \/ cf_wide (cf_val x + cf_val y) ->
  cf_add g u fuel x y = Ok z -> canonical z /\ cf_val z = (cf_val x + cf_val y)%R.
Proof. exact L_C33_add_partial. Qed.
Print Assumptions C33_add_partial.

Theorem C33_sub_partial : forall g u fuel x y z, fits (sty u) 1 = true -> wfcf x -> surd_sized u x -> wfcf y -> surd_sized u y ->
  (finite x /\ finite y) \/ cf_wide (cf_val x - cf_val y) ->
  cf_sub g u fuel x y = Ok z -> canonical z /\ cf_val z = (cf_val x - cf_val y)%R.
Proof. exact L_C33_sub_partial. Qed.
Print Assumptions C33_sub_partial.

Theorem C33_mul_partial : forall g u fuel x y z, fits (sty u) 1 = true -> wfcf x -> surd_sized u x -> wfcf y -> surd_sized u y ->
  (finite x /\ finite y) \/ cf_wide (cf_val x * cf_val y) ->
  cf_mul g u fuel x y = Ok z -> canonical z /\ cf_val z = (cf_val x * cf_val y)%R.
Proof. exact L_C33_mul_partial. Qed.
Print Assumptions C33_mul_partial.

Theorem C33_div_partial : forall g u fuel x y z, fits (sty u) 1 = true -> wfcf x -> surd_sized u x -> wfcf y -> surd_sized u y ->
  (finite x /\ finite y) \/ cf_wide (cf_val x / cf_val y) ->
  cf_div g u fuel x y = Ok z -> cf_val y <> 0%R /\ canonical z /\ cf_val z = (cf_val x / cf_val y)%R.
Proof. exact L_C33_div_partial. Qed.
Print Assumptions C33_div_partial.

(** At arbitrary precision the sizes do not matter *)
Theorem C33_big_sized : forall x, wfcf x -> surd_sized BigU x.
Proof. exact L_C33_big_sized. Qed.
Print Assumptions C33_big_sized.

(** The operations with integers and rationals return if x can be converted to a surd, as it can if it is finite or has
    at most two aperiodic coefficients (C35_returns_partial; others may panic, see C35_panic_refuted) *)
Theorem C33_returns_partial : forall g x k q, wfcf x -> returns (surd_of_cf g BigU x) -> lowest q ->
  (finite x \/ cf_domain (cf_val x * IZR k) -> exists n0, forall fuel, (n0 <= fuel)%nat -> returns (cf_mul_int g BigU fuel x k)) /\
  (k <> 0 -> finite x \/ cf_domain (cf_val x / IZR k) -> exists n0, forall fuel, (n0 <= fuel)%nat -> returns (cf_div_int g BigU fuel x k)) /\
  (finite x \/ cf_domain (cf_val x + rval q) -> exists n0, forall fuel, (n0 <= fuel)%nat -> returns (cf_add_ratio g BigU fuel x q)) /\
  (finite x \/ cf_domain (cf_val x - rval q) -> exists n0, forall fuel, (n0 <= fuel)%nat -> returns (cf_sub_ratio g BigU fuel x q)) /\
  (finite x \/ cf_domain (cf_val x * rval q) -> exists n0, forall fuel, (n0 <= fuel)%nat -> returns (cf_mul_ratio g BigU fuel x q)) /\
  (rval q <> 0%R -> finite x \/ cf_domain (cf_val x / rval q) -> exists n0, forall fuel, (n0 <= fuel)%nat -> returns (cf_div_ratio g BigU fuel x q)).
Proof. exact L_C33_returns_partial. Qed.
Print Assumptions C33_returns_partial.

(** sqrt 2 * sqrt 2 panics, also without debug assertions *)
Theorem C33_rational_refuted : cf_val (CF [1] [2] false) = sqrt 2 /\ forall d fuel,
  ~ returns (cf_mul (Cfg false d) BigU fuel (CF [1] [2] false) (CF [1] [2] false)).
Proof. exact L_C33_rational_refuted. Qed.
Print Assumptions C33_rational_refuted.

(** -sqrt 2 / 2 + 3/2 = 0.79..., the result is 2.2... *)
Theorem C33_conjugate_refuted : exists x z, canonical x /\ cf_val x = (- (sqrt 2 / 2))%R /\
  cf_add_ratio (Cfg false true) BigU 10 x (Ratio 3 2) = Ok z /\ cf_val z <> (cf_val x + rval (Ratio 3 2))%R.
Proof. exact L_C33_conjugate_refuted. Qed.
Print Assumptions C33_conjugate_refuted.

Example C33_case : wfcf r2 /\ cf_wide (cf_val r2 * IZR 3) /\ cf_mul_int dev u32 20 r2 3 = Ok (CF [4] [4; 8] false) /\
  cf_wide (cf_val r2 + cf_val (CF [1; 2] nil false)) /\ cf_add dev u32 20 r2 (CF [1; 2] nil false) = Ok (CF [2] [1; 10; 1; 1] false) /\
  surd_sized u32 r2.
Proof.
  split; [cbn; repeat split; [discriminate|constructor|repeat constructor; discriminate]|]. exact C33_case_proof.
Qed.

(** ** C34  Surd to continued fraction *)

(** Err exactly for complex surds *)
Theorem C34_err : forall g t fuel s, surd_to_cf g t fuel s = Ok None <-> discr s < 0.
Proof. exact L_C34_err. Qed.
Print Assumptions C34_err.

(** What the conversion returns, for every irrational real surd and every integer type: the fraction of the number
    itself, except that it is the fraction of the conjugate for a number between 0 and its conjugate whose norm
    a^2 - b^2 r is not divisible by c, and that it has lost its sign in one of the remaining cases *)
Theorem C34_value : forall g t fuel s x xc z, fits t 1 = true -> normal g s -> sval s = RtoC x -> sconj s = RtoC xc -> ~ rational_num (sval s) ->
  surd_to_cf g t fuel s = Ok (Some z) ->
  canonical z /\ ~ finite z /\
  (between0 x xc -> ~ norm_divisible s -> cf_val z = xc) /\
  (sign_dropped s x xc -> cf_val z = (- x)%R) /\
  (~ (between0 x xc /\ ~ norm_divisible s) -> ~ sign_dropped s x xc -> cf_val z = x).
Proof. exact L_C34_value. Qed.
Print Assumptions C34_value.

Example C34_value_case : normal dev (Surd (SCo 3 (-1) 2) 2) /\ sval (Surd (SCo 3 (-1) 2) 2) = RtoC ((3 - sqrt 2) / 2) /\ sconj (Surd (SCo 3 (-1) 2) 2) = RtoC ((3 + sqrt 2) / 2) /\
  between0 ((3 - sqrt 2) / 2) ((3 + sqrt 2) / 2) /\ ~ norm_divisible (Surd (SCo 3 (-1) 2) 2) /\ surd_to_cf dev BigI 10 (Surd (SCo 3 (-1) 2) 2) = Ok (Some (CF [2] [4; 1] false)).
Proof. exact C34_value_case_proof. Qed.

(** Every irrational real surd either converts, or the conversion never returns; the latter needs a coincidence
    between the square below D and D itself, see [may_hang] *)
Theorem C34_returns_or_hangs : forall g s x, normal g s -> sval s = RtoC x -> ~ rational_num (sval s) ->
  (exists n0, forall fuel, (n0 <= fuel)%nat -> exists z, surd_to_cf g BigI fuel s = Ok (Some z)) \/
  (may_hang s /\ forall fuel, surd_to_cf g BigI fuel s = Hang).
Proof. exact L_C34_returns_or_hangs. Qed.
Print Assumptions C34_returns_or_hangs.

Example C34_returns_or_hangs_case : may_hang (Surd (SCo 2 (-1) 1) 2) /\ ~ may_hang (Surd (SCo 5 (-1) 1) 7) /\
  surd_to_cf dev BigI 10 (Surd (SCo 5 (-1) 1) 7) = Ok (Some (CF [2; 2; 1] [4; 1; 1; 1] false)).
Proof. exact C34_returns_or_hangs_case_proof. Qed.

(** Full statement: for every real surd; missing: rational surds (the call panics in debug builds,
    C34_rational_refuted) and numbers between 0 and their conjugate, which may convert to their conjugate
    (C34_refuted), lose their sign (C34_sign_refuted) or never return (C34_hang_refuted). *)
Theorem C34_exact_partial : forall g t fuel s x z, fits t 1 = true -> normal g s -> sval s = RtoC x -> cf_wide x ->
  surd_to_cf g t fuel s = Ok (Some z) -> canonical z /\ ~ finite z /\ cf_val z = x.
Proof. exact L_C34_exact_partial. Qed.
Print Assumptions C34_exact_partial.

(** (7 + sqrt 2)/5 and its conjugate have the same integer part *)
Example C34_exact_case : normal dev (Surd (SCo 7 1 5) 2) /\ sval (Surd (SCo 7 1 5) 2) = RtoC ((7 + sqrt 2) / 5) /\ cf_wide ((7 + sqrt 2) / 5) /\ (1 < (7 - sqrt 2) / 5 < (7 + sqrt 2) / 5)%R /\
  ((7 + sqrt 2) / 5 < 2)%R /\ surd_to_cf dev (SInt 64) 20 (Surd (SCo 7 1 5) 2) = Ok (Some (CF [1; 1; 2] [6; 1; 1] false)).
Proof. exact C34_exact_case_proof. Qed.

(** -6 + 4 sqrt 2 = -0.34... becomes the fraction of its opposite *)
Theorem C34_sign_refuted : exists s x z, normal (Cfg false true) s /\ sval s = RtoC x /\ (x < 0)%R /\
  surd_to_cf (Cfg false true) BigI 10 s = Ok (Some z) /\ cf_val z = (- x)%R.
Proof. exact L_C34_sign_refuted. Qed.
Print Assumptions C34_sign_refuted.

Theorem C34_returns_partial : forall g s x, normal g s -> sval s = RtoC x -> cf_domain x ->
  exists n0, forall fuel, (n0 <= fuel)%nat -> exists z, surd_to_cf g BigI fuel s = Ok (Some z).
Proof. exact L_C34_returns_partial. Qed.
Print Assumptions C34_returns_partial.

(** (3 - sqrt 2)/2 becomes the fraction of a number above 2 *)
Theorem C34_refuted : exists s x z, normal (Cfg false true) s /\ sval s = RtoC x /\ (x < 1)%R /\
  surd_to_cf (Cfg false true) BigI 10 s = Ok (Some z) /\ (2 <= cf_val z)%R.
Proof. exact L_C34_refuted. Qed.
Print Assumptions C34_refuted.

(** 2 - sqrt 2: no amount of time is enough *)
Theorem C34_hang_refuted : normal (Cfg false true) (Surd (SCo 2 (-1) 1) 2) /\ forall fuel, surd_to_cf (Cfg false true) BigI fuel (Surd (SCo 2 (-1) 1) 2) = Hang.
Proof. exact L_C34_hang_refuted. Qed.
Print Assumptions C34_hang_refuted.

(** The surd 1/2 makes the conversion panic *)
Theorem C34_rational_refuted : normal (Cfg false true) (Surd (SCo 1 0 2) 0) /\ forall d fuel, ~ returns (surd_to_cf (Cfg false d) BigI fuel (Surd (SCo 1 0 2) 0)).
Proof. exact L_C34_rational_refuted. Qed.
Print Assumptions C34_rational_refuted.

Example C34_case : normal dev (Surd (SCo 1 1 2) 8) /\ cf_domain ((1 + sqrt 8) / 2) /\ sval (Surd (SCo 1 1 2) 8) = RtoC ((1 + sqrt 8) / 2) /\
  surd_to_cf dev (SInt 64) 20 (Surd (SCo 1 1 2) 8) = Ok (Some (CF [1] [1; 10; 1; 1] false)).
Proof. exact C34_case_proof. Qed.

(** ** C35  Continued fraction to surd *)

(** Exact, at every width that holds the numbers involved *)
Theorem C35_exact : forall g u x s, wfcf x -> surd_sized u x -> surd_of_cf g u x = Ok s -> normal g s /\ sval s = RtoC (cf_val x).
Proof. exact L_C35_exact. Qed.
Print Assumptions C35_exact.

(** Returns.  Full statement: for all continued fractions; missing: infinite ones with more than two
    aperiodic coefficients, some of which panic (C35_panic_refuted). *)
Theorem C35_returns_partial : forall g x, wfcf x -> finite x \/ (length (a_coeffs x) <= 2)%nat -> returns (surd_of_cf g BigU x).
Proof. exact L_C35_returns_partial. Qed.
Print Assumptions C35_returns_partial.

(** [0; 1, 5, 1, (14, 15, 1, 50624)] cannot be converted *)
Theorem C35_panic_refuted : exists x, canonical x /\ surd_of_cf (Cfg false true) BigU x = Panic PIncompatible.
Proof. exact L_C35_panic_refuted. Qed.
Print Assumptions C35_panic_refuted.

Example C35_case : wfcf (CF [1; 2; 1; 4] [3; 1] true) /\ surd_sized u32 (CF [1; 2; 1; 4] [3; 1] true) /\
  surd_of_cf dev u32 (CF [1; 2; 1; 4] [3; 1] true) = Ok (Surd (SCo (-1233) 1 906) 21) /\
  surd_of_cf dev BigU (CF [0; 1] [2] false) = Ok (Surd (SCo 0 1 2) 2).
Proof.
  split; [cbn; repeat split; [discriminate|repeat constructor; discriminate|repeat constructor; discriminate]|].
  split; [split; [discriminate|]; intros _; cbn; repeat split; discriminate|]. split; vm_compute; reflexivity.
Qed.

(** ** C36  Round trip *)

(** Full statement: for all real surds on which the first conversion is defined; missing: those outside
    [cf_wide], where the first conversion may return another number (C34_refuted). *)
Theorem C36_round_trip_partial : forall g t u fuel s x z s', fits t 1 = true -> normal g s -> sval s = RtoC x -> cf_wide x ->
  surd_to_cf g t fuel s = Ok (Some z) -> surd_sized u z -> surd_of_cf g u z = Ok s' -> normal g s' /\ sval s' = sval s.
Proof. exact L_C36_round_trip_partial. Qed.
Print Assumptions C36_round_trip_partial.

(** and both conversions return *)
Theorem C36_returns_partial : forall g s x, normal g s -> sval s = RtoC x -> cf_domain x ->
  exists n0, forall fuel, (n0 <= fuel)%nat -> exists z s', surd_to_cf g BigI fuel s = Ok (Some z) /\ surd_of_cf g BigU z = Ok s' /\ sval s' = sval s.
Proof. exact L_C36_returns_partial. Qed.
Print Assumptions C36_returns_partial.

(** The other way round: a canonical infinite fraction in the domain comes back with the same coefficients *)
Theorem C36_back_partial : forall g u fuel x s z n, fits (sty u) 1 = true -> wfcf x -> ~ finite x -> surd_sized u x -> cf_wide (cf_val x) ->
  surd_of_cf g u x = Ok s -> surd_to_cf g (sty u) fuel s = Ok (Some z) -> coeff_at z n = coeff_at x n /\ negative z = negative x.
Proof. exact L_C36_back_partial. Qed.
Print Assumptions C36_back_partial.

(** (3 - sqrt 2)/2 comes back as (3 + sqrt 2)/2 *)
Theorem C36_refuted : exists s z s', normal (Cfg false true) s /\ surd_to_cf (Cfg false true) BigI 10 s = Ok (Some z) /\
  surd_of_cf (Cfg false true) BigU z = Ok s' /\ sval s' <> sval s.
Proof. exact L_C36_refuted. Qed.
Print Assumptions C36_refuted.

Example C36_case : surd_to_cf dev BigI 20 (Surd (SCo 1 1 2) 8) = Ok (Some (CF [1] [1; 10; 1; 1] false)) /\
  surd_of_cf dev BigU (CF [1] [1; 10; 1; 1] false) = Ok (Surd (SCo 1 2 2) 2).
Proof. split; vm_compute; reflexivity. Qed.

(** ** C37  approximated(limit) *)

(** Exact only if exact; otherwise a convergent with denominator at most [limit].  Full statement: error
    below 1/limit^2, at every integer type; missing: the error bound, true is 1/(denominator * limit)
    (C37_refuted); fixed width (C37_fixed_width_refuted). *)
Theorem C37_approximated_partial : forall x limit fuel v, wfcf x -> 1 <= limit -> cf_approximated BigU fuel x limit = Ok v ->
  (exists r, v = Exact r /\ lowest r /\ rval r = cf_val x) \/
  (exists r m, v = Approximated r /\ convergent x m r /\ denom r <= limit /\ (0 < Rabs (cf_val x - rval r) <= / (IZR (denom r) * IZR limit))%R).
Proof. exact L_C37_approximated_partial. Qed.
Print Assumptions C37_approximated_partial.

Theorem C37_returns : forall x limit, wfcf x -> exists n0, forall fuel, (n0 <= fuel)%nat -> returns (cf_approximated BigU fuel x limit).
Proof. exact L_C37_returns. Qed.
Print Assumptions C37_returns.

(** The same for surds *)
Theorem C37_surd_partial : forall g s x limit fuel v, normal g s -> sval s = RtoC x -> cf_wide x -> 1 <= limit ->
  surd_approximated g BigI fuel s limit = Ok v ->
  exists r, v = Approximated r /\ lowest r /\ denom r <= limit /\ (0 < Rabs (x - rval r) <= / (IZR (denom r) * IZR limit))%R.
Proof. exact L_C37_surd_partial. Qed.
Print Assumptions C37_surd_partial.

(** sqrt 2 with limit 169: the error of 99/70 is above 1/169^2 *)
Theorem C37_refuted : exists x r, canonical x /\ cf_approximated BigU 20 x 169 = Ok (Approximated r) /\ (/ (IZR 169 * IZR 169) < Rabs (cf_val x - rval r))%R.
Proof. exact L_C37_refuted. Qed.
Print Assumptions C37_refuted.

(** 8 bits: sqrt 2 is reported to be exactly 17/87 *)
Theorem C37_fixed_width_refuted : exists x r, canonical x /\ ~ finite x /\ cf_approximated (UInt 8) 20 x 100 = Ok (Exact r).
Proof. exact L_C37_fixed_width_refuted. Qed.
Print Assumptions C37_fixed_width_refuted.

Example C37_case : wfcf r2 /\ cf_approximated BigU 20 r2 100 = Ok (Approximated (Ratio 99 70)) /\
  cf_approximated BigU 20 (CF [3; 7] nil true) 100 = Ok (Exact (Ratio (-22) 7)) /\
  surd_approximated dev BigI 20 (Surd (SCo 1 1 2) 8) 50 = Ok (Approximated (Ratio 67 35)).
Proof. split; [cbn; repeat split; [discriminate|constructor|repeat constructor; discriminate]|]. repeat split; vm_compute; reflexivity. Qed.

(** ** C38  to_integer and to_rational *)

Theorem C38_to_integer : forall u x r, canonical x -> (forall v, coeff_at x 0 = Some v -> sfit u v) -> cf_to_integer u x = Ok r ->
  istrunc (cf_val x) (approx_value r) /\ ((exists n, r = Exact n) <-> exists n, cf_val x = IZR n).
Proof. exact L_C38_to_integer. Qed.
Print Assumptions C38_to_integer.

Theorem C38_to_integer_returns : forall x, wfcf x -> returns (cf_to_integer BigU x).
Proof. exact L_C38_to_integer_returns. Qed.
Print Assumptions C38_to_integer_returns.

(** finite: exact *)
Theorem C38_to_rational_finite : forall u x, wfcf x -> finite x -> (forall r, lowest r -> rval r = cf_val x -> ratio_sfit u r) ->
  exists r, cf_to_rational u x = Ok (Exact r) /\ lowest r /\ rval r = cf_val x.
Proof. exact L_C38_to_rational_finite. Qed.
Print Assumptions C38_to_rational_finite.

(** infinite: the convergent after one run through the period *)
Theorem C38_to_rational_infinite : forall u x, wfcf x -> ~ finite x ->
  (forall j r, (j <= length (a_coeffs x) + length (p_coeffs x))%nat -> convergent x j r -> ratio_sfit u r) ->
  exists r, cf_to_rational u x = Ok (Approximated r) /\ convergent x (length (a_coeffs x) + length (p_coeffs x)) r.
Proof. exact L_C38_to_rational_infinite. Qed.
Print Assumptions C38_to_rational_infinite.

(** At arbitrary precision the size hypotheses hold *)
Theorem C38_big_sized : forall x, wfcf x -> (forall v, coeff_at x 0 = Some v -> sfit BigU v) /\ (forall r, lowest r -> ratio_sfit BigU r).
Proof. exact L_C38_big_sized. Qed.
Print Assumptions C38_big_sized.

(** zero, one, negation *)
Theorem C38_neg : forall x, canonical x -> canonical (cf_neg x) /\ cf_val (cf_neg x) = (- cf_val x)%R.
Proof. exact L_C38_neg. Qed.
Print Assumptions C38_neg.

Example C38_case : canonical (CF [3; 7] nil true) /\ cf_to_integer u8 (CF [3; 7] nil true) = Ok (Approximated (-3)) /\
  cf_to_rational u8 (CF [3; 7] nil true) = Ok (Exact (Ratio (-22) 7)) /\ cf_to_rational u8 r2 = Ok (Approximated (Ratio 7 5)) /\
  cf_to_integer u8 (CF [5] nil true) = Ok (Exact (-5)).
Proof.
  split; [|repeat split; reflexivity]. split; [|split; cbn; try congruence; discriminate]. cbn. repeat split; [discriminate|repeat constructor; discriminate|constructor].
Qed.
