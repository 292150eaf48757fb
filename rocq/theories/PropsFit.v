(** * PropsFit: computations over fixed-width integers against BigInt (C19).

    [agrees t m n]: the run [m] over the type [t] stops with an overflow panic, or ends
    exactly as the run [n] over BigInt does, and what it returns fits [t].
    [fitv t v]: every integer inside [v] fits [t].  [usable t]: [t] can hold 0 and 1. *)

From Coq Require Import ZArith Bool List.
From Verif Require Import Base Ext ModelSurd ModelInt Spec SpecFit ClaimsFit.
Open Scope Z_scope.

Definition dev := Cfg false true.
Definition i8 := SInt 8.
Definition i64 := SInt 64.

(** ** C19  A fixed-width run never returns a wrong number *)

(** Constructors from integers and coefficient triples *)
Theorem C19_constructors : forall (g : cfg) t (a b c r : Z) (co : sco), usable t -> fitv t a -> fitv t b -> fitv t c -> fitv t r -> fitv t co ->
  agrees t (surd_new g t a b c r) (surd_new g BigI a b c r) /\
  agrees t (surd_from_coeffs g t co r) (surd_from_coeffs g BigI co r).
Proof. exact L_C19_constructors. Qed.
Print Assumptions C19_constructors.

(** Constructors from rationals *)
Theorem C19_from_rationals : forall (g : cfg) t (a b r c : ratio), usable t -> fitv t a -> fitv t b -> fitv t r -> fitv t c ->
  agrees t (surd_from_rationals g t a b r) (surd_from_rationals g BigI a b r) /\
  agrees t (surd_from_equation g t a b c) (surd_from_equation g BigI a b c).
Proof. exact L_C19_from_rationals. Qed.
Print Assumptions C19_from_rationals.

(** Reciprocal, conjugate, negation *)
Theorem C19_unary : forall (g : cfg) t (s : surd), usable t -> fitv t s ->
  agrees t (surd_recip g t s) (surd_recip g BigI s) /\
  agrees t (surd_conj t s) (surd_conj BigI s) /\
  agrees t (surd_neg t s) (surd_neg BigI s).
Proof. exact L_C19_unary. Qed.
Print Assumptions C19_unary.

(** Arithmetic with an integer *)
Theorem C19_int_ops : forall (g : cfg) t (s : surd) (k : Z), usable t -> fitv t s -> fitv t k ->
  agrees t (surd_add_int g t s k) (surd_add_int g BigI s k) /\
  agrees t (surd_sub_int g t s k) (surd_sub_int g BigI s k) /\
  agrees t (surd_mul_int g t s k) (surd_mul_int g BigI s k) /\
  agrees t (surd_div_int g t s k) (surd_div_int g BigI s k).
Proof. exact L_C19_int_ops. Qed.
Print Assumptions C19_int_ops.

(** Arithmetic with a rational *)
Theorem C19_ratio_ops : forall (g : cfg) t (s : surd) (q : ratio), usable t -> fitv t s -> fitv t q ->
  agrees t (surd_add_ratio g t s q) (surd_add_ratio g BigI s q) /\
  agrees t (surd_sub_ratio g t s q) (surd_sub_ratio g BigI s q) /\
  agrees t (surd_mul_ratio g t s q) (surd_mul_ratio g BigI s q) /\
  agrees t (surd_div_ratio g t s q) (surd_div_ratio g BigI s q).
Proof. exact L_C19_ratio_ops. Qed.
Print Assumptions C19_ratio_ops.

(** Arithmetic and comparison of two surds *)
Theorem C19_surd_ops : forall (g : cfg) t (x y : surd), usable t -> fitv t x -> fitv t y ->
  agrees t (surd_add g t x y) (surd_add g BigI x y) /\
  agrees t (surd_sub g t x y) (surd_sub g BigI x y) /\
  agrees t (surd_mul g t x y) (surd_mul g BigI x y) /\
  agrees t (surd_div g t x y) (surd_div g BigI x y) /\
  agrees t (surd_eq t x y) (surd_eq BigI x y).
Proof. exact L_C19_surd_ops. Qed.
Print Assumptions C19_surd_ops.

(** Rounding and conversion *)
Theorem C19_rounding : forall (g : cfg) t (s : surd), usable t -> fitv t s ->
  agrees t (surd_floor g t s) (surd_floor g BigI s) /\
  agrees t (surd_trunc g t s) (surd_trunc g BigI s) /\
  agrees t (surd_fract g t s) (surd_fract g BigI s) /\
  agrees t (surd_to_integer g t s) (surd_to_integer g BigI s) /\
  agrees t (surd_to_rational g t s) (surd_to_rational g BigI s) /\
  agrees t (surd_to_gaussint g t s) (surd_to_gaussint g BigI s) /\
  agrees t (surd_to_quadint g t s) (surd_to_quadint g BigI s) /\
  agrees t (surd_is_positive g t s) (surd_is_positive g BigI s) /\
  agrees t (surd_is_negative g t s) (surd_is_negative g BigI s).
Proof. exact L_C19_rounding. Qed.
Print Assumptions C19_rounding.

(** Construction of quadratic integers *)
Theorem C19_qint_new : forall (g : cfg) t (a b r : Z) (co : qco), usable t -> fitv t a -> fitv t b -> fitv t r -> fitv t co ->
  agrees t (qint_new g t a b r) (qint_new g BigI a b r) /\
  agrees t (qint_from_coeffs g t co r) (qint_from_coeffs g BigI co r).
Proof. exact L_C19_qint_new. Qed.
Print Assumptions C19_qint_new.

(** Conjugate, norm, negation *)
Theorem C19_qint_unary : forall (g : cfg) t (x : qint), usable t -> fitv t x ->
  agrees t (qint_conj t x) (qint_conj BigI x) /\
  agrees t (qint_norm t x) (qint_norm BigI x) /\
  agrees t (qint_neg t x) (qint_neg BigI x) /\
  agrees t (qint_is_pure t x) (qint_is_pure BigI x).
Proof. exact L_C19_qint_unary. Qed.
Print Assumptions C19_qint_unary.

(** Quadratic integer with an integer *)
Theorem C19_qint_int_ops : forall (g : cfg) t (x : qint) (k : Z), usable t -> fitv t x -> fitv t k ->
  agrees t (qint_add_int t x k) (qint_add_int BigI x k) /\
  agrees t (qint_sub_int t x k) (qint_sub_int BigI x k) /\
  agrees t (qint_mul_int t x k) (qint_mul_int BigI x k) /\
  agrees t (qint_div_int t x k) (qint_div_int BigI x k) /\
  agrees t (qint_rem_int t x k) (qint_rem_int BigI x k).
Proof. exact L_C19_qint_int_ops. Qed.
Print Assumptions C19_qint_int_ops.

(** Two quadratic integers *)
Theorem C19_qint_ops : forall (g : cfg) t (x y : qint), usable t -> fitv t x -> fitv t y ->
  agrees t (qint_add g t x y) (qint_add g BigI x y) /\
  agrees t (qint_sub g t x y) (qint_sub g BigI x y) /\
  agrees t (qint_mul g t x y) (qint_mul g BigI x y) /\
  agrees t (qint_div g t x y) (qint_div g BigI x y) /\
  agrees t (qint_rem g t x y) (qint_rem g BigI x y) /\
  agrees t (qint_eq t x y) (qint_eq BigI x y).
Proof. exact L_C19_qint_ops. Qed.
Print Assumptions C19_qint_ops.

(** Gaussian integers *)
Theorem C19_gauss_ops : forall (g : cfg) t (x y : qco), usable t -> fitv t x -> fitv t y ->
  agrees t (gauss_add t x y) (gauss_add BigI x y) /\
  agrees t (gauss_sub t x y) (gauss_sub BigI x y) /\
  agrees t (gauss_mul t x y) (gauss_mul BigI x y) /\
  agrees t (gauss_div t x y) (gauss_div BigI x y) /\
  agrees t (gauss_rem t x y) (gauss_rem BigI x y) /\
  agrees t (gauss_conj t x) (gauss_conj BigI x) /\
  agrees t (gauss_norm t x) (gauss_norm BigI x).
Proof. exact L_C19_gauss_ops. Qed.
Print Assumptions C19_gauss_ops.

(** Conversion to and from machine integers *)
Theorem C19_prims : forall g t pt n s, usable t -> fitv t s ->
  agrees t (surd_to_prim g t pt s) (surd_to_prim g BigI pt s) /\
  (forall s', surd_from_prim t n = Some s' -> fitv t s' /\ surd_from_prim BigI n = Some s').
Proof. exact L_C19_prims. Qed.
Print Assumptions C19_prims.

(** Square roots: from_sqrt may also report the overflow as an error *)
Theorem C19_sqrt : forall g t n q s, usable t -> fitv t n -> fitv t q -> normal g s -> fitv t s ->
  agrees t (from_sqrt_int g t n) (from_sqrt_int g BigI n) /\
  agrees_sqrt t (from_sqrt_ratio g t q) (from_sqrt_ratio g BigI q) /\
  agrees_sqrt t (from_sqrt_surd g t s) (from_sqrt_surd g BigI s).
Proof. exact L_C19_sqrt. Qed.
Print Assumptions C19_sqrt.

(** reduced(), for types that can hold the primes of its table *)
Theorem C19_reduced : forall t fuel s, usable t -> fits t 251 = true -> fitv t s ->
  agrees t (surd_reduced t fuel s) (surd_reduced BigI fuel s).
Proof. exact L_C19_reduced. Qed.
Print Assumptions C19_reduced.

(** A narrower type makes reduced() panic on a conversion *)
Theorem C19_reduced_refuted : exists s fuel, fitv (SInt 8) s /\ normal (Cfg false true) s /\
  surd_reduced (SInt 8) fuel s = Panic PUnwrap /\ returns (surd_reduced BigI fuel s).
Proof. exact L_C19_reduced_refuted. Qed.
Print Assumptions C19_reduced_refuted.

Example C19_fits : usable i64 /\ fitv i64 (new_raw 1 1 2 5) /\ fits i64 251 = true.
Proof. vm_compute. auto 10. Qed.

(** sqrt 127 * sqrt 126 over i8 panics instead of wrapping; 1/2 + 1/2 sqrt 5 squared agrees *)
Example C19_overflow :
  surd_mul dev i8 (new_raw 0 1 1 127) (new_raw 0 1 1 126) = Panic POverflow /\
  surd_mul dev i8 (new_raw 1 1 2 5) (new_raw 1 1 2 5) = Ok (new_raw 3 1 2 5).
Proof. vm_compute. auto. Qed.

(** sqrt (100/101) over i8: the product 100 * 101 does not fit, an error is reported *)
Example C19_sqrt_err : from_sqrt_ratio dev i8 (Ratio 100 101) = Ok (SqErr (Ratio 100 101) EOverflow).
Proof. vm_compute. reflexivity. Qed.
