(** * PropsExact: properties C13, C18, C24, C25, C28, C32, C49, C50, C51, C68, C78 and C82, exactly where they hold.

    Only statements: every theorem is closed by the lemma of the same name in
    ClaimsExact.v. *)

From Coq Require Import ZArith Znumtheory Reals Lia Lra Bool List Arith.
From Coquelicot Require Import Coquelicot.
From Verif Require Import Base Ext ModelSurd ModelBlock ModelCF Spec SpecCF SpecLaw ModelConv ModelInt SpecInt ModelGen SpecGen GenCont SurdDecide IntDecide ClaimsSurd ClaimsCF ClaimsExact.
Import ListNotations.
Open Scope Z_scope.

(** ** C18  Gaussian and quadratic integers *)

(** What is_quadint() and is_gaussint() both decide: the value is an integer plus an integer multiple of the stored root *)
Theorem C18_is_quadint : forall g s, normal g s ->
  (is_quadint s = true <-> exists m n : Z, sval s = (ZtoC m + ZtoC n * csqrt (discr s))%C) /\ is_gaussint s = is_quadint s.
Proof. exact L_C18_is_quadint. Qed.
Print Assumptions C18_is_quadint.

(** (a + b sqrt r)/c is an algebraic integer exactly if c divides 2a and c^2 divides a^2 - b^2 r *)
Theorem C18_alg_integer : forall g s, normal g s ->
  let a := c0 (coeffs s) in let b := c1 (coeffs s) in let c := c2 (coeffs s) in
  (alg_integer (sval s) <-> (c | 2 * a) /\ (c * c | a * a - b * b * discr s)).
Proof. exact L_C18_alg_integer. Qed.
Print Assumptions C18_alg_integer.

(** Over a square-free root is_quadint() is wrong exactly for half-odd coefficients over a root that is 1 modulo 4 *)
Theorem C18_quadint_exact : forall g s, normal g s -> squarefree (discr s) ->
  ((is_quadint s = true <-> alg_integer (sval s)) <->
   ~ (c2 (coeffs s) = 2 /\ c0 (coeffs s) mod 2 = 1 /\ c1 (coeffs s) mod 2 = 1 /\ discr s mod 4 = 1)).
Proof. exact L_C18_quadint_exact. Qed.
Print Assumptions C18_quadint_exact.

(** The Gaussian integers among the surds *)
Theorem C18_gauss : forall g s, normal g s ->
  let a := c0 (coeffs s) in let b := c1 (coeffs s) in let c := c2 (coeffs s) in
  (gauss_num (sval s) <-> exists k, discr s = - (k * k) /\ (c | a) /\ (c | b * k)).
Proof. exact L_C18_gauss. Qed.
Print Assumptions C18_gauss.

(** is_gaussint() is right exactly if the root is minus a square when c = 1, and not (a + b k i)/c with c dividing a and b k otherwise *)
Theorem C18_gaussint_exact : forall g s, normal g s ->
  let a := c0 (coeffs s) in let b := c1 (coeffs s) in let c := c2 (coeffs s) in
  ((is_gaussint s = true <-> gauss_num (sval s)) <->
   if c =? 1 then exists k, discr s = - (k * k) else ~ exists k, discr s = - (k * k) /\ (c | a) /\ (c | b * k)).
Proof. exact L_C18_gaussint_exact. Qed.
Print Assumptions C18_gaussint_exact.

(** (3 + sqrt 5)/2 is rejected although it is an algebraic integer; (1 + sqrt 2)/2 is rejected and is none; sqrt(-4)/2 = i is rejected; 1 + 3 sqrt(-4) = 1 + 6i is accepted *)
Example C18_exact_case : normal (Cfg false true) (new_raw 3 1 2 5) /\ squarefree 5 /\ is_quadint (new_raw 3 1 2 5) = false /\
  normal (Cfg false true) (new_raw 1 1 2 2) /\ is_quadint (new_raw 1 1 2 2) = false /\ ~ (2 * 2 | 1 * 1 - 1 * 1 * 2) /\
  normal (Cfg true true) (new_raw 0 1 2 (-4)) /\ is_gaussint (new_raw 0 1 2 (-4)) = false /\ (2 | 1 * 2) /\
  normal (Cfg true true) (new_raw 1 3 1 (-4)) /\ is_gaussint (new_raw 1 3 1 (-4)) = true.
Proof.
  split; [apply normalb_ok; vm_compute; reflexivity|]. split.
  { intros k [m Hk]. assert (M : 1 <= m) by nia. assert (k * k <= 5) by nia. assert (K : k = -2 \/ k = -1 \/ k = 0 \/ k = 1 \/ k = 2) by nia. destruct K as [-> |[-> |[-> |[-> | ->]]]]; auto; exfalso; lia. }
  split; [reflexivity|]. split; [apply normalb_ok; vm_compute; reflexivity|]. split; [reflexivity|]. split; [intros [k K]; lia|].
  split; [apply normalb_ok; vm_compute; reflexivity|]. split; [reflexivity|]. split; [exists 1; reflexivity|]. split; [apply normalb_ok; vm_compute; reflexivity|reflexivity].
Qed.

(** ** C51  Hash *)

(** Surds that compare equal hash equally exactly if their roots are the same *)
Theorem C51_exact : forall g t l r, normal g l -> normal g r -> surd_eq t l r = Ok true -> (hash_data l = hash_data r <-> discr l = discr r).
Proof. exact L_C51_exact. Qed.
Print Assumptions C51_exact.

Example C51_exact_case : normal (Cfg false true) (new_raw 1 2 3 12) /\ normal (Cfg false true) (new_raw 1 4 3 3) /\
  surd_eq (SInt 32) (new_raw 1 2 3 12) (new_raw 1 4 3 3) = Ok true.
Proof.
  split; [apply normalb_ok; vm_compute; reflexivity|]. split; [apply normalb_ok; vm_compute; reflexivity|reflexivity].
Qed.

(** ** C32  Adding an integer *)

(** The sum of a continued fraction with first coefficient a0 and an integer, a = a0 + n (a0 - n for a negative one) being the new first coefficient.
    It is in canonical form unless a is negative and a single 1 stands between a0 and the period.  Its value is right exactly if a is not negative,
    or x is an integer, or there are further coefficients before the period, and a is not -1 or x is negative.
    Otherwise the sign is lost, or the period is added instead of subtracted. *)
Theorem C32_exact : forall g u x n y a0 rest, fits (sty u) 1 = true -> fits (sty u) n = true -> canonical x -> coeffs_fit u x -> a_coeffs x = a0 :: rest ->
  cf_add_int g u x n = Ok y ->
  let a := a0 + sgnb (negative x) * n in let v := (cf_val x + IZR n)%R in
  p_coeffs y = p_coeffs x /\
  (canonical y <-> 0 <= a \/ rest <> [1]) /\
  (cf_val y = v <-> 0 <= a \/ (rest = nil /\ p_coeffs x = nil) \/ (rest <> nil /\ (a <= -2 \/ negative x = true))) /\
  (a = -1 -> rest <> nil -> negative x = false -> cf_val y = (- v)%R) /\
  (a < 0 -> rest = nil -> p_coeffs x <> nil -> cf_val y = (v - 2 * (cf_val x - IZR (sgnb (negative x) * a0)%Z))%R).
Proof. exact L_C32_exact. Qed.
Print Assumptions C32_exact.

(** The difference likewise *)
Theorem C32_sub_exact : forall g u x n y a0 rest, fits (sty u) 1 = true -> canonical x -> coeffs_fit u x -> a_coeffs x = a0 :: rest ->
  cf_sub_int g u x n = Ok y ->
  let a := a0 - sgnb (negative x) * n in
  (canonical y <-> 0 <= a \/ rest <> [1]) /\
  (cf_val y = (cf_val x - IZR n)%R <-> 0 <= a \/ (rest = nil /\ p_coeffs x = nil) \/ (rest <> nil /\ (a <= -2 \/ negative x = true))).
Proof. exact L_C32_sub_exact. Qed.
Print Assumptions C32_sub_exact.

(** Over arbitrary precision the sum always returns *)
Theorem C32_returns : forall g x n, canonical x -> returns (cf_add_int g BigU x n) /\ returns (cf_sub_int g BigU x n).
Proof. exact L_C32_returns. Qed.
Print Assumptions C32_returns.

(** -(1 + 1/(3 + 1/2)) + 2 = 5/7 is right; (1 + 1/(3 + 1/2)) - 2 comes out as +5/7; [1; 1, (2)] - 4 keeps its value and gets a zero before the period *)
Example C32_exact_case : canonical (CF [1; 3; 2] nil true) /\ canonical (CF [1; 3; 2] nil false) /\ canonical (CF [1; 1] [2] false) /\
  cf_add_int (Cfg false true) (UInt 32) (CF [1; 3; 2] nil true) 2 = Ok (CF [0; 1; 2; 2] nil false) /\
  cf_add_int (Cfg false true) (UInt 32) (CF [1; 3; 2] nil false) (-2) = Ok (CF [0; 1; 2; 2] nil false) /\
  cf_add_int (Cfg false true) (UInt 32) (CF [1; 1] [2] false) (-4) = Ok (CF [2; 1; 0] [2] true).
Proof.
  split; [split; [cbn; repeat split; try lia; repeat constructor; lia|split; cbn; [intros _ _; discriminate|discriminate]]|].
  split; [split; [cbn; repeat split; try lia; repeat constructor; lia|split; cbn; [intros _ _; discriminate|discriminate]]|].
  split; [split; [cbn; repeat split; try lia; repeat constructor; lia|split; cbn; discriminate]|].
  repeat split.
Qed.

(** ** C78  Mixed operands *)

(** Adding an integer to a continued fraction agrees with adding it as a Ratio exactly in these cases: the numbers are equal, and for a fraction that ends the results are identical *)
Theorem C78_cf_add_exact : forall g u fuel x n y z a0 rest, fits (sty u) 1 = true -> fits (sty u) n = true -> canonical x -> surd_sized u x -> coeffs_fit u x -> a_coeffs x = a0 :: rest ->
  finite x \/ cf_wide (cf_val x + IZR n) -> cf_add_int g u x n = Ok y -> cf_add_ratio g u fuel x (ratio_of n) = Ok z ->
  let a := a0 + sgnb (negative x) * n in
  let right := 0 <= a \/ (rest = nil /\ p_coeffs x = nil) \/ (rest <> nil /\ (a <= -2 \/ negative x = true)) in
  (cf_val y = cf_val z <-> right) /\ (finite x -> (y = z <-> right)).
Proof. exact L_C78_cf_add_exact. Qed.
Print Assumptions C78_cf_add_exact.

Example C78_cf_add_exact_case : exists y, cf_add_int (Cfg false true) BigU (CF [1; 3] nil false) (-3) = Ok y /\ cf_add_ratio (Cfg false true) BigU 10 (CF [1; 3] nil false) (ratio_of (-3)) = Ok y.
Proof. eexists. split; [reflexivity|]. reflexivity. Qed.

(** ** C82  decimals() on a source that ends *)

(** The call that gives no further digit answers: it returns None or it panics (on an integer part outside 0..207), it never searches on *)
Theorem C82_decimals_ends : forall I (inext : I -> res (option (Z * Z) * I)) it l fuel, yields_list inext it l -> (length l < fuel)%nat ->
  (forall n, nth_item (dec_next BigI inext fuel) n (gcf_decimals it) <> Hang) /\
  (List.Forall (fun ab => fst ab <> 0) l -> exists N, nth_item (dec_next BigI inext fuel) N (gcf_decimals it) = Ok None \/
     exists p, nth_item (dec_next BigI inext fuel) N (gcf_decimals it) = Panic p).
Proof. exact L_C82_decimals_ends. Qed.
Print Assumptions C82_decimals_ends.

Example C82_decimals_ends_case : nth_item (dec_next BigI list_next 3) 4 (gcf_decimals [(1, 3); (1, 7)]) = Ok None /\
  nth_item (dec_next BigI list_next 4) 0 (gcf_decimals [(1, 300); (1, 7); (1, 9)]) = Panic PUnwrap.
Proof. split; reflexivity. Qed.

(** ** C24, C25  The remainder of quadratic integers with a rational right operand *)

(** It is the quotient, whatever the types and values, panics included *)
Theorem C24_rational_right : forall g t x y, q1 (qcoeffs y) = 0 -> qint_rem g t x y = qint_div g t x y.
Proof. exact L_C24_rational_right. Qed.
Print Assumptions C24_rational_right.

(** so that x = (x / y) * y + (x % y) holds for y = k exactly if x is (k + 1) times a number with coordinates m and n below k / 2 (at most |k| / 2 for k < 0) *)
Theorem C25_rational_exact : forall g t x y q z, wfq g x -> q1 (qcoeffs y) = 0 -> qint_div g t x y = Ok q -> qint_rem g t x y = Ok z ->
  let k := q0 (qcoeffs y) in
  (qval x = (qval q * qval y + qval z)%C <->
    exists m n, q0 (qcoeffs x) = (k + 1) * m /\ q1 (qcoeffs x) = (k + 1) * n /\
      (2 * Z.abs m < k \/ 2 * Z.abs m <= - k) /\ (2 * Z.abs n < k \/ 2 * Z.abs n <= - k)).
Proof. exact L_C25_rational_exact. Qed.
Print Assumptions C25_rational_exact.

(** (12 + 6 sqrt 2) / 5 = (12 + 6 sqrt 2) % 5 = 2 + sqrt 2, and 12 + 6 sqrt 2 = (2 + sqrt 2) * 5 + (2 + sqrt 2) *)
Example C25_rational_exact_case : wfq (Cfg false true) (QInt (QCo 12 6) 2) /\
  qint_div (Cfg false true) (SInt 32) (QInt (QCo 12 6) 2) (QInt (QCo 5 0) 0) = Ok (QInt (QCo 2 1) 2) /\
  qint_rem (Cfg false true) (SInt 32) (QInt (QCo 12 6) 2) (QInt (QCo 5 0) 0) = Ok (QInt (QCo 2 1) 2).
Proof. split; [|split; reflexivity]. right. apply (good_rootb_ok (Cfg false true)). reflexivity. Qed.

(** ** C28  into_coeffs() *)

(** After the aperiodic part into_coeffs() repeats the first coefficient of the period for ever, so that it is right exactly if all coefficients of the period are the same *)
Theorem C28_into_coeffs_exact : forall u x p0 p, p_coeffs x = p0 :: p -> coeffs_fit u x ->
  (forall n, nth_item (owned_next u) n (cf_into_coeffs x) = Ok (option_map (Z.mul (sgnb (negative x))) (nth_error (a_coeffs x ++ repeat p0 (S n)) n))) /\
  ((forall n, nth_item (owned_next u) n (cf_into_coeffs x) = Ok (option_map (Z.mul (sgnb (negative x))) (coeff_at x n))) <-> List.Forall (eq p0) p).
Proof. exact L_C28_into_coeffs_exact. Qed.
Print Assumptions C28_into_coeffs_exact.

Example C28_into_coeffs_exact_case : take (owned_next (UInt 8)) 5 (cf_into_coeffs (CF [1; 4] [2; 3] true)) = Ok [-1; -4; -2; -2; -2] /\
  map (coeff_at (CF [1; 4] [2; 3] true)) [0; 1; 2; 3; 4]%nat = map Some [1; 4; 2; 3; 2].
Proof. split; reflexivity. Qed.

(** ** C68  Transitivity of == *)

(** If x == y and y == z, then x == z exactly if the values are the same or the roots differ *)
Theorem C68_transitive_iff : forall g t x y z b, normal g x -> normal g y -> normal g z -> surd_eq t x y = Ok true -> surd_eq t y z = Ok true -> surd_eq t x z = Ok b ->
  (b = true <-> sval x = sval z \/ discr x <> discr z).
Proof. exact L_C68_transitive_iff. Qed.
Print Assumptions C68_transitive_iff.

(** 2 sqrt 2 == sqrt 8 == -sqrt 32 / 2: different roots, so the first == the last, although the values differ *)
Example C68_transitive_iff_case : normal (Cfg false true) (Surd (SCo 0 2 1) 2) /\ normal (Cfg false true) (Surd (SCo 0 1 1) 8) /\ normal (Cfg false true) (Surd (SCo 0 (-1) 2) 32) /\
  surd_eq (SInt 32) (Surd (SCo 0 2 1) 2) (Surd (SCo 0 1 1) 8) = Ok true /\ surd_eq (SInt 32) (Surd (SCo 0 1 1) 8) (Surd (SCo 0 (-1) 2) 32) = Ok true /\
  surd_eq (SInt 32) (Surd (SCo 0 2 1) 2) (Surd (SCo 0 (-1) 2) 32) = Ok true.
Proof. split; [apply normalb_ok; reflexivity|]. split; [apply normalb_ok; reflexivity|]. split; [apply normalb_ok; reflexivity|]. repeat split. Qed.

(** ** C13  to_integer() *)

(** Where b and the number have opposite signs, an Approximated answer is the number rounded toward zero exactly if c does not divide a + sgn b * isqrt(b^2 r) *)
Theorem C13_to_integer_approx_iff : forall g t s x v, normal g s -> sval s = RtoC x -> surd_to_integer g t s = Ok (Approximated v) -> (IZR (c1 (coeffs s)) * x < 0)%R ->
  (istrunc x v <-> ~ (c2 (coeffs s) | c0 (coeffs s) + Z.sgn (c1 (coeffs s)) * Z.sqrt (c1 (coeffs s) * c1 (coeffs s) * discr s))).
Proof. exact L_C13_to_integer_approx_iff. Qed.
Print Assumptions C13_to_integer_approx_iff.

(** 2 - sqrt 2 is answered by 1, wrongly (1 divides 2 - 1), (9 - sqrt 2) / 3 by 2, rightly (3 does not divide 9 - 1) *)
Example C13_to_integer_approx_iff_case : surd_to_integer (Cfg false true) (SInt 32) (Surd (SCo 2 (-1) 1) 2) = Ok (Approximated 1) /\
  surd_to_integer (Cfg false true) (SInt 32) (Surd (SCo 9 (-1) 3) 2) = Ok (Approximated 2) /\ normal (Cfg false true) (Surd (SCo 9 (-1) 3) 2).
Proof. split; [reflexivity|]. split; [reflexivity|]. apply normalb_ok. reflexivity. Qed.

(** ** C49  Casts between signed and unsigned integers *)

(** At a fixed width the value is kept exactly if it is representable, and otherwise moved by 2^n *)
Theorem C49_exact : forall n z v w, 1 <= n ->
  (fits (SInt n) z = true -> to_unsigned (SInt n) z = Ok v -> (v = z <-> 0 <= z) /\ (z < 0 -> v = z + 2 ^ n)) /\
  (fits (UInt n) w = true -> (to_signed (UInt n) w = w <-> w < 2 ^ (n - 1)) /\ (2 ^ (n - 1) <= w -> to_signed (UInt n) w = w - 2 ^ n)).
Proof. exact L_C49_exact. Qed.
Print Assumptions C49_exact.

Example C49_exact_case : to_unsigned (SInt 8) (-3) = Ok 253 /\ to_signed (UInt 8) 200 = -56 /\ to_signed (UInt 8) 100 = 100.
Proof. repeat split. Qed.

(** ** C50  generalize() of an endless simple continued fraction *)

(** The convergents of generalize() are those of the fraction exactly as long as all coefficients are 1 *)
Theorem C50_exact : forall t I (inext : I -> res (option Z * I)) it f N (r : nat -> ratio), yields inext it f -> cpositive f -> f O <> 0 -> (1 <= N)%nat ->
  (forall n, (n <= N)%nat -> nth_item (gconv_next t (generalize_next inext)) n (gcf_convergents it) = Ok (Some (r n))) ->
  ((forall n, (n <= N)%nat -> rval (r n) = gval (prefix (fun j => (1, f j)) (S n))) <-> forall n, (n <= N)%nat -> f n = 1).
Proof. exact L_C50_exact. Qed.
Print Assumptions C50_exact.

(** 1, 1, 2, ...: the first two convergents 1 and 2 are right, the third is 4/3 and should be 5/3 *)
Example C50_exact_case : let f := fun n => match n with O | 1%nat => 1 | _ => 2 end in let r := fun n => match n with O => Ratio 1 1 | 1%nat => Ratio 2 1 | _ => Ratio 4 3 end in
  yields (from_fn f) O f /\ cpositive f /\ (forall n, (n <= 2)%nat -> nth_item (gconv_next BigI (generalize_next (from_fn f))) n (gcf_convergents O) = Ok (Some (r n))) /\
  gval (prefix (fun j => (1, f j)) 3) = (5 / 3)%R.
Proof.
  cbv zeta. split; [apply from_fn_yields|]. split; [intros [|[|n]] H; lia|]. split; [intros [|[|[|n]]] H; [reflexivity|reflexivity|reflexivity|lia]|]. cbn. field.
Qed.
