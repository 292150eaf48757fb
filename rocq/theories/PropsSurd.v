(** * PropsSurd: property theorems about QuadraticSurd (C01-C18, C51).

    Only statements: every theorem is closed by the lemma of the same name in
    ClaimsSurd.v.  [g] ranges over feature settings and build profiles, [t]
    over integer types ([BigI] is BigInt); [f ... = Ok v] says that the call
    returned [v] without panic or endless loop.  Vocabulary: Spec.v, SpecReach.v.
    The Examples after a theorem show concrete cases that meet its hypotheses. *)

From Coq Require Import ZArith Znumtheory Reals Bool List.
From Coquelicot Require Import Coquelicot.
From Verif Require Import Base Ext ModelSurd Spec SpecReach SurdDecide ClaimsSurd.
Open Scope Z_scope.

Definition dev := Cfg false true.
Definition devc := Cfg true true.
Definition i64 := SInt 64.

(** ** C01  Normal form *)

Theorem C01_normal_form : forall g t s, reachable g t s -> normal g s.
Proof. exact L_C01_normal_form. Qed.
Print Assumptions C01_normal_form.

(** sqrt 18 / (3 * sqrt 2 - 6) - 1/2, built step by step *)
Example C01_case : exists s, reachable dev i64 s /\ parts s = (-3, -2, 2, 2).
Proof.
  exists (new_raw (-3) (-2) 2 2). split; [|reflexivity].
  apply (R_sub_ratio _ _ (new_raw (-1) (-1) 1 2) (Ratio 1 2)); [|split; reflexivity|reflexivity].
  apply (R_div _ _ (new_raw 0 1 1 18) (new_raw (-6) 3 1 2)); [| |vm_compute; reflexivity].
  - apply (R_new _ _ 0 1 1 18). vm_compute. reflexivity.
  - apply (R_sub_int _ _ (new_raw 0 3 1 2) 6); [|vm_compute; reflexivity].
    apply (R_mul_int _ _ (new_raw 0 1 1 2) 3); [|vm_compute; reflexivity].
    apply (R_sqrt_int _ _ 2). vm_compute. reflexivity.
Qed.

(** The restriction to lowest terms matters: [to_rational] hands out a Ratio that is not
    in lowest terms, and [From<Ratio>] trusts it. *)
Theorem C01_unreduced_ratio_refuted : exists s q,
  reachable (Cfg false true) BigI s /\ surd_to_rational (Cfg false true) BigI s = Ok (Approximated q) /\
  ~ normal (Cfg false true) (surd_of_ratio q).
Proof. exact L_C01_unreduced_ratio_refuted. Qed.
Print Assumptions C01_unreduced_ratio_refuted.

(** ** C02  Constructors *)

Theorem C02_new : forall g t a b c r s, surd_new g t a b c r = Ok s ->
  c <> 0 /\ sval s = ((ZtoC a + ZtoC b * csqrt r) / ZtoC c)%C.
Proof. exact L_C02_new. Qed.
Print Assumptions C02_new.

Theorem C02_from_coeffs : forall g t co r s, surd_from_coeffs g t co r = Ok s ->
  c2 co <> 0 /\ sval s = ((ZtoC (c0 co) + ZtoC (c1 co) * csqrt r) / ZtoC (c2 co))%C.
Proof. exact L_C02_from_coeffs. Qed.
Print Assumptions C02_from_coeffs.

Theorem C02_from_rationals : forall g t a b r s, lowest a -> lowest b -> lowest r ->
  surd_from_rationals g t a b r = Ok s ->
  sval s = (qC a + qC b * rcsqrt (rval r))%C.
Proof. exact L_C02_from_rationals. Qed.
Print Assumptions C02_from_rationals.

Theorem C02_new_returns : forall g a b c r,
  returns (surd_new g BigI a b c r) <-> c <> 0 /\ (cplx g = true \/ 0 <= r).
Proof. exact L_C02_new_returns. Qed.
Print Assumptions C02_new_returns.

Theorem C02_from_coeffs_returns : forall g co r,
  returns (surd_from_coeffs g BigI co r) <-> c2 co <> 0 /\ (cplx g = true \/ 0 <= r).
Proof. exact L_C02_from_coeffs_returns. Qed.
Print Assumptions C02_from_coeffs_returns.

Theorem C02_from_rationals_returns : forall g a b r, lowest a -> lowest b -> lowest r ->
  (returns (surd_from_rationals g BigI a b r) <-> cplx g = true \/ (0 <= rval r)%R).
Proof. exact L_C02_from_rationals_returns. Qed.
Print Assumptions C02_from_rationals_returns.

Example C02_case : surd_new dev i64 6 (-4) (-8) 50 = Ok (new_raw (-3) 2 4 50) /\
  surd_from_rationals dev i64 (Ratio 1 2) (Ratio (-2) 3) (Ratio 5 7) = Ok (new_raw 21 (-4) 42 35) /\
  surd_new devc i64 1 1 2 (-3) = Ok (new_raw 1 1 2 (-3)) /\
  surd_new dev i64 1 1 2 (-3) = Panic PNegRoot /\ surd_new dev i64 1 1 0 5 = Panic PZeroDenom.
Proof. vm_compute. repeat split. Qed.

(** ** C03  Addition and subtraction *)

Theorem C03_add : forall g t l r s, normal g l -> normal g r ->
  surd_add g t l r = Ok s -> sval s = (sval l + sval r)%C.
Proof. exact L_C03_add. Qed.
Print Assumptions C03_add.

Theorem C03_sub : forall g t l r s, normal g l -> normal g r ->
  surd_sub g t l r = Ok s -> sval s = (sval l - sval r)%C.
Proof. exact L_C03_sub. Qed.
Print Assumptions C03_sub.

Theorem C03_add_sub_ratio : forall g t x q s, normal g x -> lowest q ->
  (surd_add_ratio g t x q = Ok s -> sval s = (sval x + qC q)%C) /\
  (surd_sub_ratio g t x q = Ok s -> sval s = (sval x - qC q)%C).
Proof. exact L_C03_add_sub_ratio. Qed.
Print Assumptions C03_add_sub_ratio.

Theorem C03_add_sub_int : forall g t x k s, normal g x ->
  (surd_add_int g t x k = Ok s -> sval s = (sval x + ZtoC k)%C) /\
  (surd_sub_int g t x k = Ok s -> sval s = (sval x - ZtoC k)%C).
Proof. exact L_C03_add_sub_int. Qed.
Print Assumptions C03_add_sub_int.

(** (1 + sqrt 5)/2 + (3 + sqrt 45)/6 = 1 + sqrt 5: different but commensurable roots *)
Example C03_case : normal dev (new_raw 1 1 2 5) /\ normal dev (new_raw 3 1 6 45) /\
  surd_add dev i64 (new_raw 1 1 2 5) (new_raw 3 1 6 45) = Ok (new_raw 1 1 1 5) /\
  surd_sub dev i64 (new_raw 1 1 2 5) (new_raw 3 1 6 45) = Ok (new_raw 0 0 1 0).
Proof. check. Qed.

(** ** C04  Multiplication *)

(** Exact unless both factors are purely imaginary; missing: that case (see C04_refuted). *)
Theorem C04_mul_partial : forall g t l r s, normal g l -> normal g r ->
  ~ (imaginary (sval l) /\ imaginary (sval r)) ->
  surd_mul g t l r = Ok s -> sval s = (sval l * sval r)%C.
Proof. exact L_C04_mul_partial. Qed.
Print Assumptions C04_mul_partial.

(** What the code returns in the remaining case: the product with the wrong sign. *)
Theorem C04_mul_imaginary : forall g t l r s, normal g l -> normal g r ->
  imaginary (sval l) -> imaginary (sval r) ->
  surd_mul g t l r = Ok s -> sval s = (- (sval l * sval r))%C.
Proof. exact L_C04_mul_imaginary. Qed.
Print Assumptions C04_mul_imaginary.

Theorem C04_refuted : exists l r s, normal (Cfg true true) l /\ normal (Cfg true true) r /\
  surd_mul (Cfg true true) BigI l r = Ok s /\ sval s <> (sval l * sval r)%C.
Proof. exact L_C04_refuted. Qed.
Print Assumptions C04_refuted.

Theorem C04_mul_ratio_int : forall g t x q k s, normal g x -> lowest q ->
  (surd_mul_ratio g t x q = Ok s -> sval s = (sval x * qC q)%C) /\
  (surd_mul_int g t x k = Ok s -> sval s = (sval x * ZtoC k)%C).
Proof. exact L_C04_mul_ratio_int. Qed.
Print Assumptions C04_mul_ratio_int.

Example C04_case : normal dev (new_raw 1 1 2 5) /\ normal dev (new_raw 0 3 7 2) /\ normal dev (new_raw 0 1 1 6) /\
  surd_mul dev i64 (new_raw 1 1 2 5) (new_raw 1 1 2 5) = Ok (new_raw 3 1 2 5) /\
  surd_mul dev i64 (new_raw 0 3 7 2) (new_raw 0 1 1 6) = Ok (new_raw 0 6 7 3).
Proof. check. Qed.

(** ** C05  Division and reciprocal *)

(** Exact unless both operands are purely imaginary; missing: that case, and that zero divided
    by an irrational surd returns at all (see C05_refuted, C05_zero_refuted). *)
Theorem C05_div_partial : forall g t l r s, normal g l -> normal g r ->
  ~ (imaginary (sval l) /\ imaginary (sval r)) ->
  surd_div g t l r = Ok s -> sval r <> RtoC 0 /\ sval s = (sval l / sval r)%C.
Proof. exact L_C05_div_partial. Qed.
Print Assumptions C05_div_partial.

Theorem C05_div_imaginary : forall g t l r s, normal g l -> normal g r ->
  imaginary (sval l) -> imaginary (sval r) ->
  surd_div g t l r = Ok s -> sval s = (- (sval l / sval r))%C.
Proof. exact L_C05_div_imaginary. Qed.
Print Assumptions C05_div_imaginary.

Theorem C05_recip : forall g t x s, normal g x -> surd_recip g t x = Ok s ->
  sval x <> RtoC 0 /\ sval s = (/ sval x)%C.
Proof. exact L_C05_recip. Qed.
Print Assumptions C05_recip.

Theorem C05_div_ratio_int : forall g t x q k s, normal g x -> lowest q ->
  (surd_div_ratio g t x q = Ok s -> sval s = (sval x / qC q)%C) /\
  (surd_div_int g t x k = Ok s -> sval s = (sval x / ZtoC k)%C).
Proof. exact L_C05_div_ratio_int. Qed.
Print Assumptions C05_div_ratio_int.

Theorem C05_refuted : exists l r s, normal (Cfg true true) l /\ normal (Cfg true true) r /\
  surd_div (Cfg true true) BigI l r = Ok s /\ sval s <> (sval l / sval r)%C.
Proof. exact L_C05_refuted. Qed.
Print Assumptions C05_refuted.

Theorem C05_zero_refuted : exists l r, normal (Cfg false true) l /\ normal (Cfg false true) r /\
  sval l = RtoC 0 /\ sval r <> RtoC 0 /\ ~ returns (surd_div (Cfg false true) BigI l r).
Proof. exact L_C05_zero_refuted. Qed.
Print Assumptions C05_zero_refuted.

Example C05_case : normal dev (new_raw 1 1 2 5) /\ normal dev (new_raw 3 1 6 45) /\
  surd_div dev i64 (new_raw 2 1 1 5) (new_raw 3 1 6 45) = Ok (new_raw 3 1 2 5) /\
  surd_recip dev i64 (new_raw 1 1 2 5) = Ok (new_raw (-1) 1 2 5).
Proof. check. Qed.

(** ** C06  Arithmetic inside one quadratic field *)

(** Proved when one root is an integer square times the other; missing: commensurable roots
    such as 8 and 18 where neither is (C06_refuted), and zero divided by an irrational surd. *)
Theorem C06_same_field_partial : forall g l r, normal g l -> normal g r -> nested_roots l r ->
  returns (surd_add g BigI l r) /\ returns (surd_sub g BigI l r) /\ returns (surd_mul g BigI l r) /\
  (sval r <> RtoC 0 -> (sval l <> RtoC 0 \/ rational_num (sval r)) -> returns (surd_div g BigI l r)).
Proof. exact L_C06_same_field_partial. Qed.
Print Assumptions C06_same_field_partial.

(** Products and quotients of rational multiples of square roots never need a common root. *)
Theorem C06_pure_mul_div : forall g l r, normal g l -> normal g r -> pure_surd l -> pure_surd r ->
  returns (surd_mul g BigI l r) /\ returns (surd_div g BigI l r).
Proof. exact L_C06_pure_mul_div. Qed.
Print Assumptions C06_pure_mul_div.

(** In all other cases the operation panics, for want of a common root *)
Theorem C06_panics : forall g l r, normal g l -> normal g r -> ~ nested_roots l r ->
  surd_add g BigI l r = Panic PIncompatible /\ surd_sub g BigI l r = Panic PIncompatible /\
  (~ (pure_surd l /\ pure_surd r) -> surd_mul g BigI l r = Panic PIncompatible /\ surd_div g BigI l r = Panic PIncompatible).
Proof. exact L_C06_panics. Qed.
Print Assumptions C06_panics.

(** Exactly when a quotient exists: the divisor is not zero, zero is not divided by an irrational surd, and the
    roots are nested or both operands pure *)
Theorem C06_div_iff : forall g l r, normal g l -> normal g r ->
  (returns (surd_div g BigI l r) <->
   sval r <> RtoC 0 /\ (sval l <> RtoC 0 \/ rational_num (sval r)) /\ (nested_roots l r \/ (pure_surd l /\ pure_surd r))).
Proof. exact L_C06_div_iff. Qed.
Print Assumptions C06_div_iff.

Theorem C06_refuted : exists l r, normal (Cfg false true) l /\ normal (Cfg false true) r /\
  same_field l r /\ surd_add (Cfg false true) BigI l r = Panic PIncompatible.
Proof. exact L_C06_refuted. Qed.
Print Assumptions C06_refuted.

Example C06_panics_case : normal dev (new_raw 0 1 1 8) /\ normal dev (new_raw 1 1 1 18) /\ surd_mul dev i64 (new_raw 0 1 1 8) (new_raw 1 1 1 18) = Panic PIncompatible /\
  surd_mul dev i64 (new_raw 0 1 1 8) (new_raw 0 1 1 18) = Ok (surd_of_int 12).
Proof. split; [apply normalb_ok; vm_compute; reflexivity|]. split; [apply normalb_ok; vm_compute; reflexivity|]. split; vm_compute; reflexivity. Qed.

Example C06_case : nested_roots (new_raw 1 1 2 5) (new_raw 3 1 6 45) /\
  surd_add dev i64 (new_raw 1 1 2 5) (new_raw 3 1 6 45) = Ok (new_raw 1 1 1 5).
Proof. split; [right; right; exists 3; cbn; split; [reflexivity|right; reflexivity]|vm_compute; reflexivity]. Qed.

(** ** C07  Negation, conjugation, numerator, denominator *)

Theorem C07_neg : forall g t x s, normal g x -> surd_neg t x = Ok s -> sval s = (- sval x)%C.
Proof. exact L_C07_neg. Qed.
Print Assumptions C07_neg.

Theorem C07_conj : forall t x s, surd_conj t x = Ok s -> sval s = sconj x.
Proof. exact L_C07_conj. Qed.
Print Assumptions C07_conj.

Theorem C07_conj_conj : forall t x y z, surd_conj t x = Ok y -> surd_conj t y = Ok z -> z = x.
Proof. exact L_C07_conj_conj. Qed.
Print Assumptions C07_conj_conj.

Theorem C07_trace_norm_rational : forall g x, normal g x ->
  rational_num (sval x + sconj x)%C /\ rational_num (sval x * sconj x)%C.
Proof. exact L_C07_trace_norm_rational. Qed.
Print Assumptions C07_trace_norm_rational.

Theorem C07_numer_denom : forall g x, normal g x ->
  sval (surd_denom x) <> RtoC 0 /\ sval x = (sval (surd_numer x) / sval (surd_denom x))%C.
Proof. exact L_C07_numer_denom. Qed.
Print Assumptions C07_numer_denom.

Theorem C07_returns : forall g x, normal g x ->
  returns (surd_neg BigI x) /\ returns (surd_conj BigI x) /\
  (sval x <> RtoC 0 -> returns (surd_recip g BigI x)).
Proof. exact L_C07_returns. Qed.
Print Assumptions C07_returns.

Example C07_case : normal dev (new_raw 1 1 2 5) /\ surd_conj i64 (new_raw 1 1 2 5) = Ok (new_raw 1 (-1) 2 5) /\
  surd_neg i64 (new_raw 1 1 2 5) = Ok (new_raw (-1) (-1) 2 5) /\
  surd_numer (new_raw 1 1 2 5) = new_raw 1 1 1 5 /\ surd_denom (new_raw 1 1 2 5) = new_raw 2 0 1 0.
Proof. check. Qed.

(** ** C08  Equality *)

(** What == computes: equality of the numbers, or (for different roots) equality with the
    conjugate.  Missing for C08: the second case should give false. *)
Theorem C08_eq_partial : forall g t l r b, normal g l -> normal g r -> surd_eq t l r = Ok b ->
  (b = true <-> sval l = sval r \/ (discr l <> discr r /\ sval l = sconj r)).
Proof. exact L_C08_eq_partial. Qed.
Print Assumptions C08_eq_partial.

Theorem C08_eq_same_root : forall g t l r b, normal g l -> normal g r -> surd_eq t l r = Ok b ->
  (discr l = discr r \/ sval l <> sconj r) -> (b = true <-> sval l = sval r).
Proof. exact L_C08_eq_same_root. Qed.
Print Assumptions C08_eq_same_root.

Theorem C08_eq_returns : forall l r, returns (surd_eq BigI l r).
Proof. exact L_C08_eq_returns. Qed.
Print Assumptions C08_eq_returns.

Theorem C08_refuted : exists l r, normal (Cfg false true) l /\ normal (Cfg false true) r /\
  surd_eq BigI l r = Ok true /\ sval l <> sval r.
Proof. exact L_C08_refuted. Qed.
Print Assumptions C08_refuted.

Example C08_case : normal dev (new_raw 1 1 2 5) /\ normal dev (new_raw 3 1 6 45) /\
  surd_eq i64 (new_raw 1 1 2 5) (new_raw 3 1 6 45) = Ok true /\
  surd_eq i64 (new_raw 1 1 2 5) (new_raw 1 1 2 6) = Ok false.
Proof. check. Qed.

(** ** C51  Hash *)

(** Equal surds over the same root hash equally; missing: different roots (C51_refuted). *)
Theorem C51_hash_partial : forall g t l r, normal g l -> normal g r -> discr l = discr r ->
  surd_eq t l r = Ok true -> hash_data l = hash_data r.
Proof. exact L_C51_hash_partial. Qed.
Print Assumptions C51_hash_partial.

Theorem C51_refuted : exists l r, normal (Cfg false true) l /\ normal (Cfg false true) r /\
  sval l = sval r /\ surd_eq BigI l r = Ok true /\ hash_data l <> hash_data r.
Proof. exact L_C51_refuted. Qed.
Print Assumptions C51_refuted.

(** ** C09  Sign tests *)

Theorem C09_is_positive : forall g t s x b, normal g s -> sval s = RtoC x ->
  surd_is_positive g t s = Ok b -> (b = true <-> (0 < x)%R).
Proof. exact L_C09_is_positive. Qed.
Print Assumptions C09_is_positive.

Theorem C09_is_negative : forall g t s x b, normal g s -> sval s = RtoC x ->
  surd_is_negative g t s = Ok b -> (b = true <-> (x < 0)%R).
Proof. exact L_C09_is_negative. Qed.
Print Assumptions C09_is_negative.

Theorem C09_returns : forall g s x, normal g s -> sval s = RtoC x ->
  returns (surd_is_positive g BigI s) /\ returns (surd_is_negative g BigI s).
Proof. exact L_C09_returns. Qed.
Print Assumptions C09_returns.

Example C09_case : normal dev (new_raw 3 (-2) 7 2) /\
  surd_is_positive dev i64 (new_raw 3 (-2) 7 2) = Ok true /\
  surd_is_negative dev i64 (new_raw 7 (-5) 7 2) = Ok true.
Proof. check. Qed.

(** ** C10  floor *)

Theorem C10_floor : forall g t s x v, normal g s -> sval s = RtoC x ->
  surd_floor g t s = Ok v -> exists n, sval v = ZtoC n /\ isfloor x n.
Proof. exact L_C10_floor. Qed.
Print Assumptions C10_floor.

Theorem C10_returns : forall g s x, normal g s -> sval s = RtoC x -> returns (surd_floor g BigI s).
Proof. exact L_C10_returns. Qed.
Print Assumptions C10_returns.

Example C10_case : normal dev (new_raw 3 (-2) 7 2) /\
  surd_floor dev i64 (new_raw (-3) (-2) 7 2) = Ok (surd_of_int (-1)) /\
  surd_floor dev i64 (new_raw 5 3 2 7) = Ok (surd_of_int 6).
Proof. check. Qed.

(** ** C11  trunc *)

Theorem C11_trunc_complex : forall g t s v, normal g s -> ~ (exists x, sval s = RtoC x) ->
  surd_trunc g t s = Ok v ->
  exists m n, sval v = (IZR m, IZR n) /\ istrunc (fst (sval s)) m /\ istrunc (snd (sval s)) n.
Proof. exact L_C11_trunc_complex. Qed.
Print Assumptions C11_trunc_complex.

(** For a real surd x = (a + b*sqrt r)/c the result is always within 1 of x; it is x rounded
    toward zero when b and x do not have opposite signs.  When they do, it is so exactly if
    c does not divide a + sgn(b) * floor(sqrt(b^2 r)).  Missing for C11: that last case. *)
Theorem C11_trunc_real_partial : forall g t s x v, normal g s -> sval s = RtoC x ->
  surd_trunc g t s = Ok v ->
  exists n, sval v = ZtoC n /\ (IZR n - 1 < x < IZR n + 1)%R /\
    ((0 <= IZR (c1 (coeffs s)) * x)%R -> istrunc x n) /\
    ((IZR (c1 (coeffs s)) * x < 0)%R -> (istrunc x n <->
       ~ (c2 (coeffs s) | c0 (coeffs s) + Z.sgn (c1 (coeffs s)) * Z.sqrt (c1 (coeffs s) * c1 (coeffs s) * discr s)))).
Proof. exact L_C11_trunc_real_partial. Qed.
Print Assumptions C11_trunc_real_partial.

Theorem C11_returns : forall g s, normal g s -> returns (surd_trunc g BigI s).
Proof. exact L_C11_returns. Qed.
Print Assumptions C11_returns.

Theorem C11_refuted : exists s x v, normal (Cfg false true) s /\ sval s = RtoC x /\
  surd_trunc (Cfg false true) BigI s = Ok v /\ forall n, sval v = ZtoC n -> ~ istrunc x n.
Proof. exact L_C11_refuted. Qed.
Print Assumptions C11_refuted.

Example C11_case : normal dev (new_raw (-5) (-3) 2 7) /\
  surd_trunc dev i64 (new_raw (-5) (-3) 2 7) = Ok (surd_of_int (-6)) /\
  surd_trunc devc i64 (new_raw (-5) 3 2 (-7)) = Ok (new_raw (-2) 3 1 (-1)).
Proof. check. Qed.

(** ** C12  trunc + fract *)

Theorem C12_trunc_fract : forall g t s f, normal g s -> surd_fract g t s = Ok f ->
  exists v, surd_trunc g t s = Ok v /\ sval f = (sval s - sval v)%C /\
    forall r, surd_add g t v f = Ok r -> sval r = sval s.
Proof. exact L_C12_trunc_fract. Qed.
Print Assumptions C12_trunc_fract.

Example C12_case : normal dev (new_raw 5 3 2 7) /\
  surd_fract dev i64 (new_raw 5 3 2 7) = Ok (new_raw (-7) 3 2 7).
Proof. check. Qed.

(** ** C13  Conversions *)

Theorem C13_to_integer_exact : forall g t s v, normal g s ->
  surd_to_integer g t s = Ok (Exact v) -> sval s = ZtoC v.
Proof. exact L_C13_to_integer_exact. Qed.
Print Assumptions C13_to_integer_exact.

Theorem C13_to_integer_complete : forall g t s v, normal g s -> sval s = ZtoC v ->
  surd_to_integer g t s = Ok (Exact v).
Proof. exact L_C13_to_integer_complete. Qed.
Print Assumptions C13_to_integer_complete.

(** The approximation is off by less than one, and the number rounded toward zero when the
    sign of b agrees with that of the number.  Missing: the cases where trunc is wrong (C11). *)
Theorem C13_to_integer_approx_partial : forall g t s x v, normal g s -> sval s = RtoC x ->
  surd_to_integer g t s = Ok (Approximated v) ->
  ~ integer_num (sval s) /\ (IZR v - 1 < x < IZR v + 1)%R /\
  ((0 <= IZR (c1 (coeffs s)) * x)%R -> istrunc x v).
Proof. exact L_C13_to_integer_approx_partial. Qed.
Print Assumptions C13_to_integer_approx_partial.

Theorem C13_to_rational_exact : forall g t s q, normal g s ->
  surd_to_rational g t s = Ok (Exact q) -> sval s = qC q /\ lowest q.
Proof. exact L_C13_to_rational_exact. Qed.
Print Assumptions C13_to_rational_exact.

Theorem C13_to_rational_complete : forall g t s x, normal g s -> sval s = RtoC x ->
  rational_num (sval s) -> exists q, surd_to_rational g t s = Ok (Exact q) /\ rval q = x.
Proof. exact L_C13_to_rational_complete. Qed.
Print Assumptions C13_to_rational_complete.

(** Within 1/c from below when b > 0.  Missing: b < 0, where the sign of b is lost
    (C13_to_rational_larger says what comes then). *)
Theorem C13_to_rational_approx_partial : forall g t s x q, normal g s -> sval s = RtoC x ->
  surd_to_rational g t s = Ok (Approximated q) ->
  ~ rational_num (sval s) /\ denom q = c2 (coeffs s) /\
  (0 < c1 (coeffs s) -> (rval q < x < rval q + / IZR (denom q))%R).
Proof. exact L_C13_to_rational_approx_partial. Qed.
Print Assumptions C13_to_rational_approx_partial.

(** For either sign of b the answer is within 1/c from below of the number with |b| in place of b, the larger of the surd and
    its conjugate *)
Theorem C13_to_rational_larger : forall g t s q, normal g s -> surd_to_rational g t s = Ok (Approximated q) ->
  exists y, sval (Surd (SCo (c0 (coeffs s)) (Z.abs (c1 (coeffs s))) (c2 (coeffs s))) (discr s)) = RtoC y /\ (rval q < y < rval q + / IZR (denom q))%R.
Proof. exact L_C13_to_rational_larger. Qed.
Print Assumptions C13_to_rational_larger.

Theorem C13_to_rational_refuted : exists s x q, normal (Cfg false true) s /\ sval s = RtoC x /\
  surd_to_rational (Cfg false true) BigI s = Ok (Approximated q) /\
  (Rabs (x - rval q) > / IZR (denom q))%R.
Proof. exact L_C13_to_rational_refuted. Qed.
Print Assumptions C13_to_rational_refuted.

Theorem C13_to_primitive : forall g t pt s n, normal g s ->
  (surd_to_prim g t pt s = Ok (Some n) <-> sval s = ZtoC n /\ fits pt n = true).
Proof. exact L_C13_to_primitive. Qed.
Print Assumptions C13_to_primitive.

Theorem C13_returns : forall g pt s, normal g s ->
  returns (surd_to_prim g BigI pt s) /\
  forall x, sval s = RtoC x -> returns (surd_to_integer g BigI s) /\ returns (surd_to_rational g BigI s).
Proof. exact L_C13_returns. Qed.
Print Assumptions C13_returns.

Example C13_case : normal dev (new_raw 5 3 2 7) /\
  surd_to_integer dev i64 (new_raw 5 3 2 7) = Ok (Approximated 6) /\
  surd_to_rational dev i64 (new_raw 5 3 2 7) = Ok (Approximated (Ratio 12 2)) /\
  surd_to_prim dev i64 (SInt 8) (surd_of_int 100) = Ok (Some 100) /\
  surd_to_prim dev i64 (SInt 8) (surd_of_int 1000) = Ok None.
Proof. check. Qed.

(** ** C14  from_equation *)

Theorem C14_root : forall g t a b c s, lowest a -> lowest b -> lowest c ->
  surd_from_equation g t a b c = Ok (Some s) ->
  (qC a * (sval s * sval s) + qC b * sval s + qC c = RtoC 0)%C.
Proof. exact L_C14_root. Qed.
Print Assumptions C14_root.

(** For a > 0 it is the larger of the two real roots. *)
Theorem C14_larger_root : forall g t a b c s x, lowest a -> lowest b -> lowest c ->
  surd_from_equation g t a b c = Ok (Some s) -> (0 < rval a)%R -> sval s = RtoC x ->
  forall y, (rval a * (y * y) + rval b * y + rval c = 0)%R -> (y <= x)%R.
Proof. exact L_C14_larger_root. Qed.
Print Assumptions C14_larger_root.

(** A degenerate equation c = 0 aside, None means that there is no root. *)
Theorem C14_none : forall g a b c, lowest a -> lowest b -> lowest c -> (rval a <> 0 \/ rval b <> 0)%R ->
  exists o, surd_from_equation g BigI a b c = Ok o /\
    (o = None <-> cplx g = false /\ ~ exists y, (rval a * (y * y) + rval b * y + rval c = 0)%R).
Proof. exact L_C14_none. Qed.
Print Assumptions C14_none.

Example C14_case : lowest (Ratio 1 2) /\ lowest (Ratio (-3) 1) /\ lowest (Ratio 7 4) /\
  surd_from_equation dev i64 (Ratio 1 2) (Ratio (-3) 1) (Ratio 7 4) = Ok (Some (new_raw 6 1 2 22)) /\
  surd_from_equation dev i64 (ratio_of 1) (ratio_of 1) (ratio_of 1) = Ok None /\
  surd_from_equation devc i64 (ratio_of 1) (ratio_of 1) (ratio_of 1) = Ok (Some (new_raw (-1) 1 2 (-3))).
Proof. repeat split; vm_compute; reflexivity. Qed.

(** ** C15  Square roots of integers and rationals *)

Theorem C15_sqrt_int : forall g t n s, from_sqrt_int g t n = Ok (SqOk s) ->
  sval s = csqrt n /\ (sval s * sval s)%C = ZtoC n.
Proof. exact L_C15_sqrt_int. Qed.
Print Assumptions C15_sqrt_int.

Theorem C15_sqrt_int_err : forall g t n d k, from_sqrt_int g t n = Ok (SqErr d k) ->
  d = n /\ k = EComplex /\ n < 0 /\ cplx g = false.
Proof. exact L_C15_sqrt_int_err. Qed.
Print Assumptions C15_sqrt_int_err.

Theorem C15_sqrt_ratio : forall g t q s, lowest q -> from_sqrt_ratio g t q = Ok (SqOk s) ->
  sval s = rcsqrt (rval q) /\ (sval s * sval s)%C = qC q.
Proof. exact L_C15_sqrt_ratio. Qed.
Print Assumptions C15_sqrt_ratio.

Theorem C15_sqrt_ratio_err : forall g t q d k, lowest q -> from_sqrt_ratio g t q = Ok (SqErr d k) ->
  d = q /\ ((k = EComplex /\ (rval q < 0)%R /\ cplx g = false) \/
            (k = EOverflow /\ fits t (numer q * denom q) = false)).
Proof. exact L_C15_sqrt_ratio_err. Qed.
Print Assumptions C15_sqrt_ratio_err.

(** Over BigInt the call always returns, and Ok exactly when a root is allowed. *)
Theorem C15_complete : forall g n q, lowest q ->
  (exists o, from_sqrt_int g BigI n = Ok o /\ ((exists s, o = SqOk s) <-> cplx g = true \/ 0 <= n)) /\
  (exists o, from_sqrt_ratio g BigI q = Ok o /\ ((exists s, o = SqOk s) <-> cplx g = true \/ (0 <= rval q)%R)).
Proof. exact L_C15_complete. Qed.
Print Assumptions C15_complete.

Example C15_case : lowest (Ratio 8 27) /\
  from_sqrt_int dev i64 12 = Ok (SqOk (new_raw 0 1 1 12)) /\
  from_sqrt_ratio dev i64 (Ratio 8 27) = Ok (SqOk (new_raw 0 1 27 216)) /\
  from_sqrt_int devc i64 (-5) = Ok (SqOk (new_raw 0 1 1 (-5))) /\
  from_sqrt_int dev i64 (-5) = Ok (SqErr (-5) EComplex) /\
  from_sqrt_ratio dev (SInt 8) (Ratio 100 99) = Ok (SqErr (Ratio 100 99) EOverflow).
Proof. repeat split; vm_compute; reflexivity. Qed.

(** ** C16  Square roots of surds *)

Theorem C16_square : forall g t x y, normal g x -> from_sqrt_surd g t x = Ok (SqOk y) ->
  (sval y * sval y)%C = sval x.
Proof. exact L_C16_square. Qed.
Print Assumptions C16_square.

Theorem C16_complete : forall g x v, normal g x -> over_root (discr x) v -> (v * v)%C = sval x ->
  exists y, from_sqrt_surd g BigI x = Ok (SqOk y).
Proof. exact L_C16_complete. Qed.
Print Assumptions C16_complete.

Theorem C16_err : forall g t x d k, normal g x -> from_sqrt_surd g t x = Ok (SqErr d k) ->
  sval d = sval x /\ (k = EComplex <-> cplx g = false /\ exists v, (v < 0)%R /\ sval x = RtoC v).
Proof. exact L_C16_err. Qed.
Print Assumptions C16_err.

Theorem C16_returns : forall g x, normal g x -> returns (from_sqrt_surd g BigI x).
Proof. exact L_C16_returns. Qed.
Print Assumptions C16_returns.

(** The root is the principal one for rational and for non-real x, and for real irrational
    x = (a + b*sqrt r)/c with b > 0.  Missing: b < 0, where it may be the negative root. *)
Theorem C16_principal_partial : forall g t x y, normal g x -> from_sqrt_surd g t x = Ok (SqOk y) ->
  rational_num (sval x) \/ discr x < 0 \/ 0 < c1 (coeffs x) -> principal (sval y).
Proof. exact L_C16_principal_partial. Qed.
Print Assumptions C16_principal_partial.

Theorem C16_refuted : exists x y, normal (Cfg false true) x /\
  from_sqrt_surd (Cfg false true) BigI x = Ok (SqOk y) /\ ~ principal (sval y).
Proof. exact L_C16_refuted. Qed.
Print Assumptions C16_refuted.

Example C16_case : normal dev (new_raw 3 2 1 2) /\
  from_sqrt_surd dev i64 (new_raw 3 2 1 2) = Ok (SqOk (new_raw 1 1 1 2)) /\
  from_sqrt_surd devc i64 (new_raw 3 4 1 (-1)) = Ok (SqOk (new_raw 2 1 1 (-1))) /\
  from_sqrt_surd dev i64 (new_raw 1 1 2 5) = Ok (SqErr (new_raw 1 1 2 5) EUnrepresentable).
Proof. check. Qed.

(** ** C17  reduced *)

Theorem C17_value : forall g t fuel s s', normal g s -> surd_reduced t fuel s = Ok s' ->
  sval s' = sval s /\ normal g s'.
Proof. exact L_C17_value. Qed.
Print Assumptions C17_value.

Theorem C17_no_small_squares : forall g t fuel s s' p, normal g s -> surd_reduced t fuel s = Ok s' ->
  ~ rational_num (sval s) -> prime p -> p < 256 -> fits t (p * p) = true -> ~ (p * p | discr s').
Proof. exact L_C17_no_small_squares. Qed.
Print Assumptions C17_no_small_squares.

(** It returns for every irrational surd over BigInt.  Missing: rational surds, on which
    the loop never ends. *)
Theorem C17_returns_partial : forall g s, normal g s -> ~ rational_num (sval s) ->
  exists fuel, returns (surd_reduced BigI fuel s).
Proof. exact L_C17_returns_partial. Qed.
Print Assumptions C17_returns_partial.

Theorem C17_refuted : forall g s, normal g s -> rational_num (sval s) ->
  forall fuel, surd_reduced BigI fuel s = Hang.
Proof. exact L_C17_refuted. Qed.
Print Assumptions C17_refuted.

Example C17_case : normal dev (new_raw 1 1 2 4500) /\
  surd_reduced i64 64 (new_raw 1 1 2 4500) = Ok (new_raw 1 30 2 5) /\ normal dev (new_raw 7 0 2 0).
Proof. check. Qed.

(** ** C18  Predicates *)

Theorem C18_is_rational : forall g s, normal g s -> (is_rational s = true <-> rational_num (sval s)).
Proof. exact L_C18_is_rational. Qed.
Print Assumptions C18_is_rational.

Theorem C18_is_integer : forall g s, normal g s -> (is_integer s = true <-> integer_num (sval s)).
Proof. exact L_C18_is_integer. Qed.
Print Assumptions C18_is_integer.

Theorem C18_is_complex : forall g s, normal g s ->
  (is_complex s = true <-> ~ exists x, sval s = RtoC x).
Proof. exact L_C18_is_complex. Qed.
Print Assumptions C18_is_complex.

Theorem C18_is_pure : forall g s, normal g s ->
  (is_pure s = true <-> ~ rational_num (sval s) /\ rational_num (sval s * sval s)%C).
Proof. exact L_C18_is_pure. Qed.
Print Assumptions C18_is_pure.

(** is_zero and is_one as well *)
Theorem C18_is_zero_one : forall g s, normal g s ->
  (surd_is_zero s = true <-> sval s = RtoC 0) /\ (surd_is_one s = true <-> sval s = RtoC 1).
Proof. exact L_C18_is_zero_one. Qed.
Print Assumptions C18_is_zero_one.

(** Right when the root is 0 or -1.  Missing: other roots, e.g. sqrt(-5) is accepted. *)
Theorem C18_is_gaussint_partial : forall g s, normal g s -> (discr s = 0 \/ discr s = -1) ->
  (is_gaussint s = true <-> gauss_num (sval s)).
Proof. exact L_C18_is_gaussint_partial. Qed.
Print Assumptions C18_is_gaussint_partial.

Theorem C18_is_gaussint_refuted : exists s, normal (Cfg true true) s /\ is_gaussint s = true /\
  ~ gauss_num (sval s).
Proof. exact L_C18_is_gaussint_refuted. Qed.
Print Assumptions C18_is_gaussint_refuted.

(** true only for algebraic integers, and exact for a square-free root that is not 1 mod 4.
    Missing: roots that are 1 mod 4, where (1+sqrt 5)/2 is rejected. *)
Theorem C18_is_quadint_partial : forall g s, normal g s ->
  (is_quadint s = true -> alg_integer (sval s)) /\
  (discr s mod 4 <> 1 -> (forall p, prime p -> ~ (p * p | discr s)) ->
     alg_integer (sval s) -> is_quadint s = true).
Proof. exact L_C18_is_quadint_partial. Qed.
Print Assumptions C18_is_quadint_partial.

Theorem C18_is_quadint_refuted : exists s, normal (Cfg false true) s /\ is_quadint s = false /\
  alg_integer (sval s).
Proof. exact L_C18_is_quadint_refuted. Qed.
Print Assumptions C18_is_quadint_refuted.

Example C18_case : normal dev (new_raw 5 3 2 7) /\ is_rational (new_raw 5 3 2 7) = false /\
  normal dev (new_raw 0 3 2 7) /\ is_pure (new_raw 0 3 2 7) = true /\
  normal devc (new_raw 2 3 1 (-1)) /\ is_gaussint (new_raw 2 3 1 (-1)) = true.
Proof. check. Qed.

(** ** C52  Totality over BigInt *)

(** new, from_coeffs, from_rationals, from_equation, from_sqrt: see C02, C14, C15, C16; == :
    C08; floor, sign tests: C09, C10.  Missing: fract of complex surds (C52_refuted). *)
Theorem C52_total_partial : forall g s, normal g s ->
  returns (surd_neg BigI s) /\ returns (surd_conj BigI s) /\ returns (surd_trunc g BigI s) /\
  (sval s <> RtoC 0 -> returns (surd_recip g BigI s)) /\
  ((exists x, sval s = RtoC x) -> returns (surd_fract g BigI s) /\ returns (surd_floor g BigI s) /\
     returns (surd_is_positive g BigI s) /\ returns (surd_is_negative g BigI s)) /\
  returns (from_sqrt_surd g BigI s) /\
  (forall l, returns (surd_eq BigI s l)).
Proof. exact L_C52_total_partial. Qed.
Print Assumptions C52_total_partial.

Theorem C52_scalar_ops : forall g s k q, normal g s -> lowest q ->
  returns (surd_add_int g BigI s k) /\ returns (surd_sub_int g BigI s k) /\
  returns (surd_mul_int g BigI s k) /\ (k <> 0 -> returns (surd_div_int g BigI s k)) /\
  returns (surd_add_ratio g BigI s q) /\ returns (surd_sub_ratio g BigI s q) /\
  returns (surd_mul_ratio g BigI s q) /\ ((rval q <> 0)%R -> returns (surd_div_ratio g BigI s q)).
Proof. exact L_C52_scalar_ops. Qed.
Print Assumptions C52_scalar_ops.

Theorem C52_refuted : exists s, normal (Cfg true true) s /\
  surd_fract (Cfg true true) BigI s = Panic PIncompatible.
Proof. exact L_C52_refuted. Qed.
Print Assumptions C52_refuted.

Example C52_case : normal devc (new_raw 5 3 2 (-7)) /\ normal dev (new_raw 5 (-3) 2 7).
Proof. check. Qed.
