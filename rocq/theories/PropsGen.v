(** * PropsGen: property theorems about generalized continued fractions (C40-C44, C50).

    Only statements: every theorem is closed by the lemma of the same name in
    ClaimsGen.v.  [inext] and [ynext] are arbitrary source iterators. *)

From Coq Require Import ZArith Reals Lia Lra Bool List.
From Coquelicot Require Import Coquelicot.
From Verif Require Import Base Ext ModelBlock ModelCF ModelGen Spec SpecCF SpecGen GenTail GenCont GenStored ClaimsGen.
Import ListNotations.
Open Scope Z_scope.

(** ** C40  convergents() *)

(** The n-th item is the fraction cut after n+1 pairs, in lowest terms, for every type *)
Theorem C40_value : forall t I (inext : I -> res (option (Z * Z) * I)) it f n r,
  (forall j, (j <= n)%nat -> nth_item inext j it = Ok (Some (f j))) -> fst (f O) = 1 -> gregular (prefix f (S n)) ->
  nth_item (gconv_next t inext) n (gcf_convergents it) = Ok (Some r) -> lowest r /\ rval r = gval (prefix f (S n)).
Proof. exact L_C40_value. Qed.
Print Assumptions C40_value.

(** Also where the tails vanish: it is A_n / B_n of the fundamental recurrences *)
Theorem C40_recurrences : forall t I (inext : I -> res (option (Z * Z) * I)) it f n r,
  (forall j, (j <= n)%nat -> nth_item inext j it = Ok (Some (f j))) -> fst (f O) = 1 ->
  nth_item (gconv_next t inext) n (gcf_convergents it) = Ok (Some r) -> lowest r /\ gden f n <> 0 /\ rval r = (IZR (gnum f n) / IZR (gden f n))%R.
Proof. exact L_C40_recurrences. Qed.
Print Assumptions C40_recurrences.

(** A_n / B_n is the value of the fraction *)
Theorem C40_quotient : forall f n, fst (f O) = 1 -> gregular (prefix f (S n)) -> gden f n <> 0 /\ gval (prefix f (S n)) = (IZR (gnum f n) / IZR (gden f n))%R.
Proof. exact L_C40_quotient. Qed.
Print Assumptions C40_quotient.

(** With arbitrary precision there is an item for every pair *)
Theorem C40_returns : forall I (inext : I -> res (option (Z * Z) * I)) it f n,
  (forall j, (j <= n)%nat -> nth_item inext j it = Ok (Some (f j))) -> fst (f O) = 1 -> (forall j, (j <= n)%nat -> gden f j <> 0) ->
  exists r, nth_item (gconv_next BigI inext) n (gcf_convergents it) = Ok (Some r).
Proof. exact L_C40_returns. Qed.
Print Assumptions C40_returns.

(** For a fixed width type too, if the type holds the numbers of the recurrences *)
Theorem C40_fits : forall t B I (inext : I -> res (option (Z * Z) * I)) it f n, roomy t B ->
  (forall j, (j <= n)%nat -> nth_item inext j it = Ok (Some (f j))) -> fst (f O) = 1 -> Z.abs (snd (f O)) <= B -> 1 <= B ->
  (forall j, (j < n)%nat -> bounded f j B) -> (forall j, (j <= n)%nat -> gden f j <> 0) ->
  exists r, nth_item (gconv_next t inext) n (gcf_convergents it) = Ok (Some r).
Proof. exact L_C40_fits. Qed.
Print Assumptions C40_fits.

(** After the last pair of a finite fraction the convergents end *)
Theorem C40_end : forall I (inext : I -> res (option (Z * Z) * I)) it l, yields_list inext it l -> (forall ab, hd_error l = Some ab -> fst ab = 1) ->
  (forall j, (j <= length l)%nat -> gregular (firstn j l)) -> nth_item (gconv_next BigI inext) (length l) (gcf_convergents it) = Ok None.
Proof. exact L_C40_end. Qed.
Print Assumptions C40_end.

(** (1,3), (1,6), (9,6), (25,6), ... and the first three convergents 3, 19/6, 47/15 *)
Example C40_case : yields (from_fn pi_pairs) O pi_pairs /\ fst (pi_pairs O) = 1 /\ (forall n, gregular (prefix pi_pairs n)) /\ (forall n, gden pi_pairs n <> 0) /\
  nth_item (gconv_next BigI (from_fn pi_pairs)) 2 (gcf_convergents O) = Ok (Some (Ratio 47 15)) /\ gval (prefix pi_pairs 3) = (47 / 15)%R.
Proof. exact pi_pairs_case. Qed.

(** The same with 64 bits, and a finite fraction: 1 + 2/(4 + 6/8) *)
Example C40_case_fits : roomy (SInt 64) 1000 /\ bounded pi_pairs 0 1000 /\ bounded pi_pairs 1 1000 /\
  yields_list (list_next (A := Z * Z)) [(1, 1); (2, 4); (6, 8)] [(1, 1); (2, 4); (6, 8)] /\ gregular [(1, 1); (2, 4); (6, 8)] /\
  map (fun n => nth_item (gconv_next BigI list_next) n (gcf_convergents [(1, 1); (2, 4); (6, 8)])) [0; 1; 2; 3]%nat =
    [Ok (Some (Ratio 1 1)); Ok (Some (Ratio 3 2)); Ok (Some (Ratio 27 19)); Ok None].
Proof. exact fits_case. Qed.

(** ** C41  simplify() *)

(** Endless sources, for every type: the items are the coefficients of the number they converge to *)
Theorem C41_simplify : forall t I (inext : I -> res (option (Z * Z) * I)) it f x fuel n v, yields inext it f -> gpositive f -> gconverges f x ->
  nth_item (simp_next t inext fuel) n (gcf_simplify it) = Ok (Some v) -> cf_digit x n v.
Proof. exact L_C41_simplify. Qed.
Print Assumptions C41_simplify.

(** Finite sources *)
Theorem C41_finite : forall t I (inext : I -> res (option (Z * Z) * I)) it l fuel n v, yields_list inext it l -> gpositive_list l ->
  nth_item (simp_next t inext fuel) n (gcf_simplify it) = Ok (Some v) -> cf_digit (gval l) n v.
Proof. exact L_C41_finite. Qed.
Print Assumptions C41_finite.

(** With arbitrary precision every coefficient of an irrational number is produced *)
Theorem C41_returns : forall I (inext : I -> res (option (Z * Z) * I)) it f x n, yields inext it f -> gpositive f -> gconverges f x -> irrational x ->
  exists fuel v, forall fuel', (fuel <= fuel')%nat -> nth_item (simp_next BigI inext fuel') n (gcf_simplify it) = Ok (Some v).
Proof. exact L_C41_returns. Qed.
Print Assumptions C41_returns.

(** A number has only one sequence of coefficients *)
Theorem C41_unique : forall x n v w, cf_digit x n v -> cf_digit x n w -> v = w.
Proof. exact L_C41_unique. Qed.
Print Assumptions C41_unique.

(** 1 + 1/(2 + 1/(2 + ...)) is sqrt 2 and is left as it is; 1 + 4/(2 + 4/(2 + ...)) is sqrt 5, that is 2 + 1/(4 + 1/(4 + ...)) *)
Example C41_case : yields (from_fn (fun n => (1, root2 n))) O (fun n => (1, root2 n)) /\ gpositive (fun n => (1, root2 n)) /\ gconverges (fun n => (1, root2 n)) (sqrt 2) /\ irrational (sqrt 2) /\
  map (fun n => nth_item (simp_next BigI (from_fn (fun n => (1, root2 n))) 9) n (gcf_simplify O)) [0; 1; 2]%nat = [Ok (Some 1); Ok (Some 2); Ok (Some 2)] /\
  map (fun n => nth_item (simp_next BigI (from_fn (fun n => match n with O => (1, 1) | S _ => (4, 2) end)) 20) n (gcf_simplify O)) [0; 1; 2; 3]%nat =
    [Ok (Some 2); Ok (Some 4); Ok (Some 4); Ok (Some 4)] /\
  map (fun n => nth_item (simp_next BigI (from_fn pi_pairs) 2000) n (gcf_simplify O)) [0; 1; 2]%nat = [Ok (Some 3); Ok (Some 7); Ok (Some 15)].
Proof. exact simplify_case. Qed.

(** The items of a finite source are right but not all of them are produced: 3/2 = [1; 2] gives only 1 *)
Example C41_case_finite : yields_list (list_next (A := Z * Z)) [(1, 1); (1, 2)] [(1, 1); (1, 2)] /\ gpositive_list [(1, 1); (1, 2)] /\
  map (fun n => nth_item (simp_next BigI list_next 9) n (gcf_simplify [(1, 1); (1, 2)])) [0; 1]%nat = [Ok (Some 1); Ok None].
Proof. split; [apply list_next_yields|]. split; [|vm_compute; reflexivity]. cbn. split; [reflexivity|]. constructor; [cbn; lia|constructor]. Qed.

(** ** C42  homo(a, b, c, d) *)

(** For coefficients of x that all have the sign [e], the denominator c x + d having the same sign at 0 and at
    infinity, or the block being one that homo() itself goes through *)
Theorem C42_homo_partial : forall t I (inext : I -> res (option Z * I)) it f x e a b c d fuel n v, e = 1 \/ e = -1 ->
  yields inext it f -> csigned e f -> cconverges f x -> 0 <= e * c * d \/ (0 < e * a * b /\ Z.abs c <= Z.abs a /\ Z.abs d <= Z.abs b) -> (IZR c * x + IZR d <> 0)%R ->
  nth_item (homo_next t inext fuel) n (icf_homo it a b c d) = Ok (Some v) -> cf_digit ((IZR a * x + IZR b) / (IZR c * x + IZR d)) n v.
Proof. exact L_C42_homo_partial. Qed.
Print Assumptions C42_homo_partial.

(** (a x + b) / d, for coefficients of which the first one is arbitrary and the others have the sign [e] *)
Theorem C42_affine_partial : forall t I (inext : I -> res (option Z * I)) it f x e a b d fuel n v, e = 1 \/ e = -1 ->
  yields inext it f -> (forall n, (1 <= n)%nat -> 1 <= e * f n) -> cconverges f x -> d <> 0 ->
  nth_item (homo_next t inext fuel) n (icf_homo it a b 0 d) = Ok (Some v) -> cf_digit ((IZR a * x + IZR b) / IZR d) n v.
Proof. exact L_C42_affine_partial. Qed.
Print Assumptions C42_affine_partial.

(** With arbitrary precision every coefficient is produced, unless a d = b c *)
Theorem C42_returns_partial : forall I (inext : I -> res (option Z * I)) it f x e a b c d n, e = 1 \/ e = -1 ->
  yields inext it f -> csigned e f -> cconverges f x -> 0 <= e * c * d \/ (0 < e * a * b /\ Z.abs c <= Z.abs a /\ Z.abs d <= Z.abs b) -> a * d - b * c <> 0 ->
  exists fuel v, forall fuel', (fuel <= fuel')%nat -> nth_item (homo_next BigI inext fuel') n (icf_homo it a b c d) = Ok (Some v).
Proof. exact L_C42_returns_partial. Qed.
Print Assumptions C42_returns_partial.

Theorem C42_affine_returns_partial : forall I (inext : I -> res (option Z * I)) it f x e a b d n, e = 1 \/ e = -1 ->
  yields inext it f -> (forall n, (1 <= n)%nat -> 1 <= e * f n) -> cconverges f x -> a * d <> 0 ->
  exists fuel v, forall fuel', (fuel <= fuel')%nat -> nth_item (homo_next BigI inext fuel') n (icf_homo it a b 0 d) = Ok (Some v).
Proof. exact L_C42_affine_returns_partial. Qed.
Print Assumptions C42_affine_returns_partial.

(** In particular for x.coeffs_signed().homo(a, b, c, d) on a stored irrational *)
Theorem C42_stored_partial : forall t u x a b c d fuel n v, wfcf x -> ~ finite x -> coeffs_fit u x ->
  (let e := sgnb (negative x) in 0 <= e * c * d \/ (0 < e * a * b /\ Z.abs c <= Z.abs a /\ Z.abs d <= Z.abs b)) -> c <> 0 \/ d <> 0 ->
  nth_item (homo_next t (signed_next u) fuel) n (icf_homo (cf_coeffs x) a b c d) = Ok (Some v) -> cf_digit ((IZR a * cf_val x + IZR b) / (IZR c * cf_val x + IZR d)) n v.
Proof. exact L_C42_stored_partial. Qed.
Print Assumptions C42_stored_partial.

(** Coefficients all of one sign always converge, to a number with these coefficients: homo(1, 0, 0, 1) gives them back *)
Theorem C42_coefficients : forall e f, e = 1 \/ e = -1 -> csigned e f -> exists x, cconverges f x /\ irrational x /\ forall n, cf_digit x n (f n).
Proof. exact L_C42_coefficients. Qed.
Print Assumptions C42_coefficients.

(** Outside this domain the answers can be wrong: (5 sqrt 2 - 11) / (sqrt 2 - 2) = 6.7... is given as 5 *)
Theorem C42_refuted : yields (from_fn root2) O root2 /\ csigned 1 root2 /\ cconverges root2 (sqrt 2) /\ (IZR 1 * sqrt 2 + IZR (-2) <> 0)%R /\
  nth_item (homo_next BigI (from_fn root2) 9) 0 (icf_homo O 5 (-11) 1 (-2)) = Ok (Some 5) /\ ~ cf_digit ((IZR 5 * sqrt 2 + IZR (-11)) / (IZR 1 * sqrt 2 + IZR (-2))) 0 5.
Proof. exact L_C42_refuted. Qed.
Print Assumptions C42_refuted.

(** 2/3 sqrt 2 + 1/3 and 1 / (sqrt 2 + 1) *)
Example C42_case : yields (from_fn root2) O root2 /\ csigned 1 root2 /\ cconverges root2 (sqrt 2) /\
  map (fun n => nth_item (homo_next BigI (from_fn root2) 20) n (icf_homo O 2 1 0 3)) [0; 1; 2; 3]%nat = [Ok (Some 1); Ok (Some 3); Ok (Some 1); Ok (Some 1)] /\
  map (fun n => nth_item (homo_next BigI (from_fn root2) 20) n (icf_homo O 0 1 1 1)) [0; 1; 2; 3]%nat = [Ok (Some 0); Ok (Some 2); Ok (Some 2); Ok (Some 2)] /\
  wfcf (CF [1] [2] true) /\ coeffs_fit (UInt 64) (CF [1] [2] true) /\
  nth_item (homo_next (SInt 64) (signed_next (UInt 64)) 20) 0 (icf_homo (cf_coeffs (CF [1] [2] true)) 2 1 0 3) = Ok (Some 0).
Proof. exact homo_case. Qed.

(** ** C43  decimals() *)

(** The n-th item is the ASCII code of the last digit of floor(10^n x), for every type *)
Theorem C43_decimals : forall t I (inext : I -> res (option (Z * Z) * I)) it f x fuel n c, yields inext it f -> gpositive f -> gconverges f x -> (0 <= x < 10)%R ->
  nth_item (dec_next t inext fuel) n (gcf_decimals it) = Ok (Some c) -> exists m, isfloor (10 ^ n * x)%R m /\ c = 48 + m mod 10.
Proof. exact L_C43_decimals. Qed.
Print Assumptions C43_decimals.

(** With arbitrary precision every digit of an irrational number is produced *)
Theorem C43_returns : forall I (inext : I -> res (option (Z * Z) * I)) it f x n, yields inext it f -> gpositive f -> gconverges f x -> irrational x -> (0 <= x < 10)%R ->
  exists fuel c, forall fuel', (fuel <= fuel')%nat -> nth_item (dec_next BigI inext fuel') n (gcf_decimals it) = Ok (Some c).
Proof. exact L_C43_returns. Qed.
Print Assumptions C43_returns.

(** In particular for x.generalize().decimals() on a stored irrational in (0, 10) *)
Theorem C43_stored : forall t u x fuel n c, wfcf x -> ~ finite x -> coeffs_fit u x -> negative x = false -> (cf_val x < 10)%R ->
  nth_item (dec_next t (general_next u) fuel) n (gcf_decimals (cf_generalized x)) = Ok (Some c) -> exists m, isfloor (10 ^ n * cf_val x)%R m /\ c = 48 + m mod 10.
Proof. exact L_C43_stored. Qed.
Print Assumptions C43_stored.

(** sqrt 2 = 1.4142... *)
Example C43_case : yields (from_fn (fun n => (1, root2 n))) O (fun n => (1, root2 n)) /\ gpositive (fun n => (1, root2 n)) /\ gconverges (fun n => (1, root2 n)) (sqrt 2) /\
  irrational (sqrt 2) /\ (0 <= sqrt 2 < 10)%R /\
  map (fun n => nth_item (dec_next (SInt 64) (from_fn (fun n => (1, root2 n))) 9) n (gcf_decimals O)) [0; 1; 2; 3; 4]%nat = [Ok (Some 49); Ok (Some 52); Ok (Some 49); Ok (Some 52); Ok (Some 50)] /\
  map (fun n => nth_item (dec_next BigI (from_fn pi_pairs) 1000) n (gcf_decimals O)) [0; 1; 2; 3]%nat = [Ok (Some 51); Ok (Some 49); Ok (Some 52); Ok (Some 49)] /\
  nth_item (dec_next (SInt 64) (general_next (UInt 64)) 9) 1 (gcf_decimals (cf_generalized (CF [1] [2] false))) = Ok (Some 52).
Proof. exact decimals_case. Qed.

(** ** C44  bihomo *)

(** What is produced before the coefficients of x are looked at is right (the source of x is one that panics),
    for positive x and y and a denominator without negative coefficients *)
Theorem C44_bihomo_partial : forall t X Y (xi : X) (ynext : Y -> res (option Z * Y)) it s x y pk a b c d e f g h fuel n v, (0 < x)%R ->
  yields ynext it s -> csigned 1 s -> cconverges s y -> 0 <= e -> 0 <= f -> 0 <= g -> 0 <= h -> (IZR e * (x * y) + IZR f * x + IZR g * y + IZR h <> 0)%R ->
  nth_item (bihomo_next t (fun _ : X => Panic pk) ynext fuel) n (icf_bihomo xi it a b c d e f g h) = Ok (Some v) ->
  cf_digit ((IZR a * (x * y) + IZR b * x + IZR c * y + IZR d) / (IZR e * (x * y) + IZR f * x + IZR g * y + IZR h)) n v.
Proof. exact L_C44_bihomo_partial. Qed.
Print Assumptions C44_bihomo_partial.

(** The same items are produced whatever the source of x is *)
Theorem C44_any_x_partial : forall t X Y (xnext : X -> res (option Z * X)) (ynext : Y -> res (option Z * Y)) pk fuel n s v,
  nth_item (bihomo_next t (fun _ : X => Panic pk) ynext fuel) n s = Ok (Some v) -> nth_item (bihomo_next t xnext ynext fuel) n s = Ok (Some v).
Proof. exact L_C44_any_x_partial. Qed.
Print Assumptions C44_any_x_partial.

(** Otherwise not: x + y with x = y = sqrt 2 divides by zero *)
Theorem C44_sum_refuted : yields (from_fn root2) O root2 /\ csigned 1 root2 /\ cconverges root2 (sqrt 2) /\
  forall fuel, (9 <= fuel)%nat -> nth_item (bihomo_next BigI (from_fn root2) (from_fn root2) fuel) 0 (icf_bihomo O O 0 1 1 0 0 0 0 1) = Panic PDivZero.
Proof. exact L_C44_sum_refuted. Qed.
Print Assumptions C44_sum_refuted.

(** So does x y *)
Theorem C44_product_refuted : forall fuel, (9 <= fuel)%nat ->
  nth_item (bihomo_next BigI (from_fn root2) (from_fn root2) fuel) 0 (icf_bihomo O O 1 0 0 0 0 0 0 1) = Panic PDivZero.
Proof. exact L_C44_product_refuted. Qed.
Print Assumptions C44_product_refuted.

(** (5 x y + 4 x + 6 y + 6) / (x y + x + y + 1) = 5.17... is given as 7 *)
Theorem C44_value_refuted : nth_item (bihomo_next BigI (from_fn root2) (from_fn root2) 60) 0 (icf_bihomo O O 5 4 6 6 1 1 1 1) = Ok (Some 7) /\
  ~ cf_digit ((IZR 5 * (sqrt 2 * sqrt 2) + IZR 4 * sqrt 2 + IZR 6 * sqrt 2 + IZR 6) / (IZR 1 * (sqrt 2 * sqrt 2) + IZR 1 * sqrt 2 + IZR 1 * sqrt 2 + IZR 1)) 0 7.
Proof. exact L_C44_value_refuted. Qed.
Print Assumptions C44_value_refuted.

(** (3 x + 4) (y + 1) / ((x + 2) (y + 1)) = 1 + sqrt 2 is never answered: the source of y is read for ever, that of x never *)
Theorem C44_hang_refuted : forall fuel, nth_item (bihomo_next BigI (from_fn root2) (from_fn root2) fuel) 0 (icf_bihomo O O 3 3 4 4 1 1 2 2) = Hang.
Proof. exact L_C44_hang_refuted. Qed.
Print Assumptions C44_hang_refuted.

(** (7 x + 10) (y + 1) / ((3 x + 4) (y + 1)): the first coefficient 2 is produced without looking at x *)
Example C44_case : (0 < sqrt 2)%R /\ yields (from_fn root2) O root2 /\ csigned 1 root2 /\ cconverges root2 (sqrt 2) /\
  nth_item (bihomo_next BigI (fun _ : nat => Panic PUnwrap) (from_fn root2) 9) 0 (icf_bihomo O O 7 7 10 10 3 3 4 4) = Ok (Some 2).
Proof. split; [apply sqrt_lt_R0; lra|]. split; [apply from_fn_yields|]. split; [apply root2_signed|]. split; [apply root2_conv|]. vm_compute. reflexivity. Qed.

(** ** C50  generalize() of an endless simple continued fraction *)

(** It yields the pairs (v, 1) instead of (1, v): the second convergent of sqrt 2 becomes 3 instead of 3/2 *)
Theorem C50_refuted : yields (from_fn root2) O root2 /\ csigned 1 root2 /\ cconverges root2 (sqrt 2) /\
  nth_item (gconv_next BigI (generalize_next (from_fn root2))) 1 (gcf_convergents O) = Ok (Some (Ratio 3 1)) /\ gval (prefix (fun n => (1, root2 n)) 2) = (3 / 2)%R.
Proof. exact L_C50_refuted. Qed.
Print Assumptions C50_refuted.

(** Its convergents are those of x when all coefficients are 1 *)
Theorem C50_partial : forall t I (inext : I -> res (option Z * I)) it f n r, yields inext it f -> (forall j, f j = 1) ->
  nth_item (gconv_next t (generalize_next inext)) n (gcf_convergents it) = Ok (Some r) -> lowest r /\ rval r = gval (prefix (fun j => (1, f j)) (S n)).
Proof. exact L_C50_partial. Qed.
Print Assumptions C50_partial.

(** In general they are those of 1 + f_1/(1 + f_2/(1 + ...)), divided by f_0 *)
Theorem C50_value : forall t I (inext : I -> res (option Z * I)) it f n r, yields inext it f -> f O <> 0 -> cpositive f ->
  nth_item (gconv_next t (generalize_next inext)) n (gcf_convergents it) = Ok (Some r) -> rval r = (gval (prefix (fun j => (f j, 1%Z)) (S n)) / IZR (f O))%R.
Proof. exact L_C50_value. Qed.
Print Assumptions C50_value.

(** The golden ratio 1 + 1/(1 + 1/(1 + ...)) *)
Example C50_case : yields (from_fn (fun _ => 1)) O (fun _ => 1) /\ nth_item (gconv_next BigI (generalize_next (from_fn (fun _ => 1)))) 4 (gcf_convergents O) = Ok (Some (Ratio 8 5)).
Proof. split; [apply from_fn_yields|vm_compute; reflexivity]. Qed.
