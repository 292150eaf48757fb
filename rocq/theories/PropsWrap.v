(** * PropsWrap: property theorems about release builds (C71, C72).

    Only statements: every theorem is closed by the lemma of the same name in
    ClaimsWrap.v.  [f g t ..] is a call in the dev profile (overflow panics), [f_w (release g) t ..]
    the same call in the release profile (overflow wraps, no debug_assert!); [agree m m'] says
    that the two outcomes are the same unless the first is a panic because of an overflow or a
    failed debug_assert! (SpecWrap.v). *)

From Coq Require Import ZArith Reals Bool List.
From Coquelicot Require Import Coquelicot.
From Verif Require Import Base Ext ModelSurd ModelInt ModelBlock ModelCF ModelConv ModelGen ModelSymbols ModelFmt
  Spec SpecInt SpecSmall SpecWrap WrapBase WrapExt WrapSurd WrapInt WrapBlock WrapCF WrapConv WrapGen WrapSymbols WrapFmt
  SurdDecide IntDecide ClaimsWrap.
Import ListNotations.
Open Scope Z_scope.

(** ** C71  A release build computes what a debug build computes *)

(** Constructing surds *)
Theorem C71_surd_new : forall g t a b c r p q s co,
  agree (surd_new g t a b c r) (surd_new_w (release g) t a b c r) /\
  agree (surd_from_coeffs g t co r) (surd_from_coeffs_w (release g) t co r) /\
  agree (surd_from_rationals g t p q s) (surd_from_rationals_w (release g) t p q s) /\
  agree (surd_from_equation g t p q s) (surd_from_equation_w (release g) t p q s) /\
  agree (from_sqrt_int g t a) (from_sqrt_int_w (release g) t a) /\
  agree (from_sqrt_ratio g t p) (from_sqrt_ratio_w (release g) t p).
Proof. exact L_C71_surd_new. Qed.
Print Assumptions C71_surd_new.

(** Arithmetic of surds *)
Theorem C71_surd_ops : forall g t x y k q,
  agree (surd_add g t x y) (surd_add_w (release g) t x y) /\
  agree (surd_sub g t x y) (surd_sub_w (release g) t x y) /\
  agree (surd_mul g t x y) (surd_mul_w (release g) t x y) /\
  agree (surd_div g t x y) (surd_div_w (release g) t x y) /\
  agree (surd_neg t x) (surd_neg_w t x) /\
  agree (surd_conj t x) (surd_conj_w t x) /\
  agree (surd_recip g t x) (surd_recip_w (release g) t x) /\
  agree (surd_add_int g t x k) (surd_add_int_w (release g) t x k) /\
  agree (surd_sub_int g t x k) (surd_sub_int_w (release g) t x k) /\
  agree (surd_mul_int g t x k) (surd_mul_int_w (release g) t x k) /\
  agree (surd_div_int g t x k) (surd_div_int_w (release g) t x k) /\
  agree (surd_add_ratio g t x q) (surd_add_ratio_w (release g) t x q) /\
  agree (surd_sub_ratio g t x q) (surd_sub_ratio_w (release g) t x q) /\
  agree (surd_mul_ratio g t x q) (surd_mul_ratio_w (release g) t x q) /\
  agree (surd_div_ratio g t x q) (surd_div_ratio_w (release g) t x q).
Proof. exact L_C71_surd_ops. Qed.
Print Assumptions C71_surd_ops.

(** Comparing, rounding, converting and printing surds *)
Theorem C71_surd_queries : forall g t pt x y n alt,
  agree (surd_eq t x y) (surd_eq_w t x y) /\
  agree (surd_is_positive g t x) (surd_is_positive_w (release g) t x) /\
  agree (surd_is_negative g t x) (surd_is_negative_w (release g) t x) /\
  agree (surd_floor g t x) (surd_floor_w (release g) t x) /\
  agree (surd_trunc g t x) (surd_trunc_w (release g) t x) /\
  agree (surd_fract g t x) (surd_fract_w (release g) t x) /\
  agree (surd_to_integer g t x) (surd_to_integer_w (release g) t x) /\
  agree (surd_to_rational g t x) (surd_to_rational_w (release g) t x) /\
  agree (surd_to_gaussint g t x) (surd_to_gaussint_w (release g) t x) /\
  agree (surd_to_quadint g t x) (surd_to_quadint_w (release g) t x) /\
  agree (surd_to_prim g t pt x) (surd_to_prim_w (release g) t pt x) /\
  agree (surd_reduced t n x) (surd_reduced_w t n x) /\
  agree (from_sqrt_surd g t x) (from_sqrt_surd_w (release g) t x) /\
  agree (surd_fmt t alt x) (surd_fmt_w t alt x).
Proof. exact L_C71_surd_queries. Qed.
Print Assumptions C71_surd_queries.

(** Quadratic integers *)
Theorem C71_qint : forall g t x y k a b r co,
  agree (qint_new g t a b r) (qint_new_w (release g) t a b r) /\
  agree (qint_from_coeffs g t co r) (qint_from_coeffs_w (release g) t co r) /\
  agree (qint_add g t x y) (qint_add_w (release g) t x y) /\
  agree (qint_sub g t x y) (qint_sub_w (release g) t x y) /\
  agree (qint_mul g t x y) (qint_mul_w (release g) t x y) /\
  agree (qint_div g t x y) (qint_div_w (release g) t x y) /\
  agree (qint_rem g t x y) (qint_rem_w (release g) t x y) /\
  agree (qint_add_int t x k) (qint_add_int_w t x k) /\
  agree (qint_sub_int t x k) (qint_sub_int_w t x k) /\
  agree (qint_mul_int t x k) (qint_mul_int_w t x k) /\
  agree (qint_div_int t x k) (qint_div_int_w t x k) /\
  agree (qint_rem_int t x k) (qint_rem_int_w t x k) /\
  agree (qint_neg t x) (qint_neg_w t x) /\
  agree (qint_conj t x) (qint_conj_w t x) /\
  agree (qint_norm t x) (qint_norm_w t x) /\
  agree (qint_eq t x y) (qint_eq_w t x y) /\
  agree (qint_is_one t x) (qint_is_one_w t x) /\
  agree (qint_is_pure t x) (qint_is_pure_w t x).
Proof. exact L_C71_qint. Qed.
Print Assumptions C71_qint.

(** Gaussian integers *)
Theorem C71_gauss : forall t x y,
  agree (gauss_add t x y) (gauss_add_w t x y) /\
  agree (gauss_sub t x y) (gauss_sub_w t x y) /\
  agree (gauss_mul t x y) (gauss_mul_w t x y) /\
  agree (gauss_div t x y) (gauss_div_w t x y) /\
  agree (gauss_rem t x y) (gauss_rem_w t x y) /\
  agree (gauss_conj t x) (gauss_conj_w t x) /\
  agree (gauss_norm t x) (gauss_norm_w t x).
Proof. exact L_C71_gauss. Qed.
Print Assumptions C71_gauss.

(** Continued fractions *)
Theorem C71_cf : forall g t u x y k q a p neg fuel limit s,
  agree (cf_new g t a p neg) (cf_new_w (release g) t a p neg) /\
  agree (cf_from_iter g t a) (cf_from_iter_w (release g) t a) /\
  agree (cf_of_int t k) (cf_of_int_w t k) /\
  agree (cf_of_ratio t q) (cf_of_ratio_w t q) /\
  agree (cf_to_integer u x) (cf_to_integer_w u x) /\
  agree (cf_to_rational u x) (cf_to_rational_w u x) /\
  agree (cf_approximated u fuel x limit) (cf_approximated_w u fuel x limit) /\
  agree (cf_add_int g u x k) (cf_add_int_w (release g) u x k) /\
  agree (cf_sub_int g u x k) (cf_sub_int_w (release g) u x k) /\
  agree (cf_mul_int g u fuel x k) (cf_mul_int_w (release g) u fuel x k) /\
  agree (cf_div_int g u fuel x k) (cf_div_int_w (release g) u fuel x k) /\
  agree (cf_add_ratio g u fuel x q) (cf_add_ratio_w (release g) u fuel x q) /\
  agree (cf_sub_ratio g u fuel x q) (cf_sub_ratio_w (release g) u fuel x q) /\
  agree (cf_mul_ratio g u fuel x q) (cf_mul_ratio_w (release g) u fuel x q) /\
  agree (cf_div_ratio g u fuel x q) (cf_div_ratio_w (release g) u fuel x q) /\
  agree (cf_add g u fuel x y) (cf_add_w (release g) u fuel x y) /\
  agree (cf_sub g u fuel x y) (cf_sub_w (release g) u fuel x y) /\
  agree (cf_mul g u fuel x y) (cf_mul_w (release g) u fuel x y) /\
  agree (cf_div g u fuel x y) (cf_div_w (release g) u fuel x y) /\
  agree (surd_to_cf g t fuel s) (surd_to_cf_w (release g) t fuel s) /\
  agree (surd_approximated g t fuel s limit) (surd_approximated_w (release g) t fuel s limit) /\
  agree (surd_of_cf g u x) (surd_of_cf_w (release g) u x).
Proof. exact L_C71_cf. Qed.
Print Assumptions C71_cf.

(** The items an iterator yields, n of them: convergents and signed coefficients of a continued
    fraction, and the constants *)
Theorem C71_items : forall t n s1 s2 s3 s4 s5 s6 s7,
  agree (take (conv_next t) n s1) (take (conv_next_w t) n s1) /\
  agree (take (signed_next t) n s2) (take (signed_next_w t) n s2) /\
  agree (take (owned_next t) n s3) (take (owned_next_w t) n s3) /\
  agree (take (e_next t) n s4) (take (e_next_w t) n s4) /\
  agree (take (pi_next t) n s5) (take (pi_next_w t) n s5) /\
  agree (take (gamma_next t) n s6) (take (gamma_next_w t) n s6) /\
  agree (take (exp_next t) n s7) (take (exp_next_w t) n s7).
Proof. exact L_C71_items. Qed.
Print Assumptions C71_items.

(** The items of convergents(), simplify(), decimals() of a generalized continued fraction and of
    homo() and bihomo(), whatever the sources, if the sources agree *)
Theorem C71_combinators : forall t (I : Type) (src src' : I -> res (option (Z * Z) * I)) (J : Type)
    (x x' : J -> res (option Z * J)) (K : Type) (y y' : K -> res (option Z * K)) fuel n s s1 s2 it limit,
  (forall i, agree (src i) (src' i)) -> (forall j, agree (x j) (x' j)) -> (forall k, agree (y k) (y' k)) ->
  agree (take (gconv_next t src) n s) (take (gconv_next_w t src') n s) /\
  agree (take (simp_next t src fuel) n s) (take (simp_next_w t src' fuel) n s) /\
  agree (take (dec_next t src fuel) n s) (take (dec_next_w t src' fuel) n s) /\
  agree (gcf_approximated t src fuel it limit) (gcf_approximated_w t src' fuel it limit) /\
  agree (take (homo_next t x fuel) n s1) (take (homo_next_w t x' fuel) n s1) /\
  agree (take (bihomo_next t x y fuel) n s2) (take (bihomo_next_w t x' y' fuel) n s2).
Proof. exact L_C71_combinators. Qed.
Print Assumptions C71_combinators.

(** Over BigInt the two profiles differ in the debug_assert! alone *)
Theorem C71_big : forall g x y a b q fuel,
  surd_add_w g BigI x y = surd_add g BigI x y /\ surd_sub_w g BigI x y = surd_sub g BigI x y /\
  surd_mul_w g BigI x y = surd_mul g BigI x y /\ surd_div_w g BigI x y = surd_div g BigI x y /\
  surd_eq_w BigI x y = surd_eq BigI x y /\ surd_floor_w g BigI x = surd_floor g BigI x /\
  surd_trunc_w g BigI x = surd_trunc g BigI x /\ from_sqrt_surd_w g BigI x = from_sqrt_surd g BigI x /\
  surd_to_cf_w g BigI fuel x = surd_to_cf g BigI fuel x /\ surd_add_ratio_w g BigI x q = surd_add_ratio g BigI x q /\
  qint_add_w g BigI a b = qint_add g BigI a b /\ qint_mul_w g BigI a b = qint_mul g BigI a b /\
  qint_div_w g BigI a b = qint_div g BigI a b /\ qint_rem_w g BigI a b = qint_rem g BigI a b.
Proof. exact L_C71_big. Qed.
Print Assumptions C71_big.

(** What overflows in a debug build can silently give a wrong number in a release build:
    (2147483647 + sqrt 2) + 1 over i32 *)
Theorem C71_silent : exists x z, normal (Cfg false false) x /\ surd_add_int (Cfg false true) (SInt 32) x 1 = Panic POverflow /\
  surd_add_int_w (Cfg false false) (SInt 32) x 1 = Ok z /\ sval z <> (sval x + RtoC 1)%C.
Proof. exact L_C71_silent. Qed.
Print Assumptions C71_silent.

(** Both sides of [agree] occur: an i32 sum that fits, and one whose debug build panics *)
Example C71_case :
  surd_add (Cfg false true) (SInt 32) (Surd (SCo 1 1 2) 2) (Surd (SCo 1 1 3) 8) = Ok (Surd (SCo 5 7 6) 2) /\
  surd_add_w (Cfg false false) (SInt 32) (Surd (SCo 1 1 2) 2) (Surd (SCo 1 1 3) 8) = Ok (Surd (SCo 5 7 6) 2) /\
  take (dec_next_w (UInt 32) (pi_next_w (UInt 32)) 40) 8 (gcf_decimals pi_gfrac) = Ok [51; 49; 52; 49; 53; 57; 50; 54].
Proof. repeat match goal with |- _ /\ _ => split end; vm_compute; reflexivity. Qed.

(** ** C72  Release builds are exact on small operands *)

(** The constructor *)
Theorem C72_new : forall g n K a b c r, 4 <= K -> K ^ 2 < 2 ^ (n - 1) -> Z.abs a <= K -> Z.abs b <= K -> Z.abs c <= K -> Z.abs r <= K ->
  surd_new_w (release g) (SInt n) a b c r = surd_new (release g) BigI a b c r.
Proof. exact L_C72_new. Qed.
Print Assumptions C72_new.

(** Sum, difference and product of two surds *)
Theorem C72_add_sub_mul : forall g n K x y, 4 <= K -> K ^ 4 < 2 ^ (n - 1) -> normal (release g) x -> normal (release g) y -> small K x -> small K y ->
  surd_add_w (release g) (SInt n) x y = surd_add (release g) BigI x y /\ surd_sub_w (release g) (SInt n) x y = surd_sub (release g) BigI x y /\ surd_mul_w (release g) (SInt n) x y = surd_mul (release g) BigI x y.
Proof. exact L_C72_add_sub_mul. Qed.
Print Assumptions C72_add_sub_mul.

(** Reciprocal and quotient *)
Theorem C72_recip : forall g n K x, 4 <= K -> K ^ 6 < 2 ^ (n - 1) -> normal (release g) x -> small K x -> surd_recip_w (release g) (SInt n) x = surd_recip (release g) BigI x.
Proof. exact L_C72_recip. Qed.
Print Assumptions C72_recip.

Theorem C72_div : forall g n K x y, 4 <= K -> K ^ 10 < 2 ^ (n - 1) -> normal (release g) x -> normal (release g) y -> small K x -> small K y ->
  surd_div_w (release g) (SInt n) x y = surd_div (release g) BigI x y.
Proof. exact L_C72_div. Qed.
Print Assumptions C72_div.

(** Integer and rational right operands *)
Theorem C72_int_operand : forall g n K x k, 4 <= K -> K ^ 4 < 2 ^ (n - 1) -> small K x -> Z.abs k <= K ->
  surd_add_int_w (release g) (SInt n) x k = surd_add_int (release g) BigI x k /\ surd_sub_int_w (release g) (SInt n) x k = surd_sub_int (release g) BigI x k /\
  surd_mul_int_w (release g) (SInt n) x k = surd_mul_int (release g) BigI x k /\ surd_div_int_w (release g) (SInt n) x k = surd_div_int (release g) BigI x k.
Proof. exact L_C72_int_operand. Qed.
Print Assumptions C72_int_operand.

Theorem C72_ratio_operand : forall g n K x q, 4 <= K -> K ^ 4 < 2 ^ (n - 1) -> small K x -> small_ratio K q ->
  surd_add_ratio_w (release g) (SInt n) x q = surd_add_ratio (release g) BigI x q /\ surd_sub_ratio_w (release g) (SInt n) x q = surd_sub_ratio (release g) BigI x q /\
  surd_mul_ratio_w (release g) (SInt n) x q = surd_mul_ratio (release g) BigI x q /\ surd_div_ratio_w (release g) (SInt n) x q = surd_div_ratio (release g) BigI x q.
Proof. exact L_C72_ratio_operand. Qed.
Print Assumptions C72_ratio_operand.

(** Sign, rounding and conversion *)
Theorem C72_query : forall g n K x, 4 <= K -> K ^ 3 < 2 ^ (n - 1) -> small K x ->
  surd_neg_w (SInt n) x = surd_neg BigI x /\ surd_conj_w (SInt n) x = surd_conj BigI x /\
  surd_is_positive_w (release g) (SInt n) x = surd_is_positive (release g) BigI x /\ surd_is_negative_w (release g) (SInt n) x = surd_is_negative (release g) BigI x /\
  surd_floor_w (release g) (SInt n) x = surd_floor (release g) BigI x /\ surd_trunc_w (release g) (SInt n) x = surd_trunc (release g) BigI x /\
  (0 <= discr x -> surd_fract_w (release g) (SInt n) x = surd_fract (release g) BigI x) /\
  surd_to_rational_w (release g) (SInt n) x = surd_to_rational (release g) BigI x /\ surd_to_integer_w (release g) (SInt n) x = surd_to_integer (release g) BigI x.
Proof. exact L_C72_query. Qed.
Print Assumptions C72_query.

(** Equality *)
Theorem C72_eq : forall n K x y, 4 <= K -> K ^ 5 < 2 ^ (n - 1) -> small K x -> small K y -> surd_eq_w (SInt n) x y = surd_eq BigI x y.
Proof. exact L_C72_eq. Qed.
Print Assumptions C72_eq.

(** Quadratic integers over one root *)
Theorem C72_qint_add_sub : forall g n K x y, 4 <= K -> K ^ 2 < 2 ^ (n - 1) -> wfq (release g) x -> wfq (release g) y -> one_root x y -> small_qint K x -> small_qint K y ->
  qint_add_w (release g) (SInt n) x y = qint_add (release g) BigI x y /\ qint_sub_w (release g) (SInt n) x y = qint_sub (release g) BigI x y.
Proof. exact L_C72_qint_add_sub. Qed.
Print Assumptions C72_qint_add_sub.

Theorem C72_qint_mul : forall g n K x y, 4 <= K -> K ^ 4 < 2 ^ (n - 1) -> wfq (release g) x -> wfq (release g) y -> one_root x y -> small_qint K x -> small_qint K y ->
  qint_mul_w (release g) (SInt n) x y = qint_mul (release g) BigI x y /\ qint_norm_w (SInt n) x = qint_norm BigI x /\ qint_eq_w (SInt n) x y = qint_eq BigI x y.
Proof. exact L_C72_qint_mul. Qed.
Print Assumptions C72_qint_mul.

Theorem C72_qint_div_rem : forall g n K x y, 5 <= K -> K ^ 6 < 2 ^ (n - 1) -> wfq (release g) x -> wfq (release g) y -> one_root x y -> small_qint K x -> small_qint K y ->
  qint_div_w (release g) (SInt n) x y = qint_div (release g) BigI x y /\ qint_rem_w (release g) (SInt n) x y = qint_rem (release g) BigI x y.
Proof. exact L_C72_qint_div_rem. Qed.
Print Assumptions C72_qint_div_rem.

Theorem C72_qint_int_operand : forall n K x k, 4 <= K -> K ^ 2 < 2 ^ (n - 1) -> small_qint K x -> Z.abs k <= K ->
  qint_add_int_w (SInt n) x k = qint_add_int BigI x k /\ qint_sub_int_w (SInt n) x k = qint_sub_int BigI x k /\ qint_mul_int_w (SInt n) x k = qint_mul_int BigI x k /\
  qint_div_int_w (SInt n) x k = qint_div_int BigI x k /\ qint_rem_int_w (SInt n) x k = qint_rem_int BigI x k.
Proof. exact L_C72_qint_int_operand. Qed.
Print Assumptions C72_qint_int_operand.

Theorem C72_qint_conj_neg : forall n K x, 4 <= K -> K ^ 2 < 2 ^ (n - 1) -> small_qint K x ->
  qint_conj_w (SInt n) x = qint_conj BigI x /\ qint_neg_w (SInt n) x = qint_neg BigI x.
Proof. exact L_C72_qint_conj_neg. Qed.
Print Assumptions C72_qint_conj_neg.

(** Gaussian integers *)
Theorem C72_gauss : forall n K x y, 6 <= K -> K ^ 3 < 2 ^ (n - 1) -> small_qco K x -> small_qco K y ->
  gauss_conj_w (SInt n) x = gauss_conj BigI x /\ gauss_norm_w (SInt n) x = gauss_norm BigI x /\ gauss_add_w (SInt n) x y = gauss_add BigI x y /\
  gauss_sub_w (SInt n) x y = gauss_sub BigI x y /\ gauss_mul_w (SInt n) x y = gauss_mul BigI x y.
Proof. exact L_C72_gauss. Qed.
Print Assumptions C72_gauss.

Theorem C72_gauss_div_rem : forall n K x y, 6 <= K -> K ^ 5 < 2 ^ (n - 1) -> small_qco K x -> small_qco K y ->
  gauss_div_w (SInt n) x y = gauss_div BigI x y /\ gauss_rem_w (SInt n) x y = gauss_rem BigI x y.
Proof. exact L_C72_gauss_div_rem. Qed.
Print Assumptions C72_gauss_div_rem.

(** The hypotheses can be met and the results are not trivial *)
Example C72_case : normal (Cfg false false) (Surd (SCo 30000 7 55000) 2) /\ small 55108 (Surd (SCo 30000 7 55000) 2) /\
  exists s, surd_mul_w (release (Cfg false true)) (SInt 64) (Surd (SCo 30000 7 55000) 2) (Surd (SCo 1 3 7) 2) = Ok s.
Proof.
  split; [apply normalb_ok; vm_compute; reflexivity|]. split; [vm_compute; intuition congruence|eexists; vm_compute; reflexivity].
Qed.
