(** * SpecReach: the surds a program can build.

    One constructor per public function of QuadraticSurd that returns a surd
    (/repo/src/quadratic/surd.rs).  Integer arguments are arbitrary, [Ratio]
    arguments are in lowest terms with positive denominator, surd arguments are
    themselves reachable.  The arguments of [reachable] are the feature
    setting and the integer type. *)

From Coq Require Import ZArith.
From Verif Require Import Base Ext ModelSurd Spec.
Open Scope Z_scope.

Inductive reachable (g : cfg) (t : ity) : surd -> Prop :=
| R_new a b c r s : surd_new g t a b c r = Ok s -> reachable g t s
| R_from_coeffs co r s : surd_from_coeffs g t co r = Ok s -> reachable g t s
| R_from_rationals a b r s : lowest a -> lowest b -> lowest r ->
    surd_from_rationals g t a b r = Ok s -> reachable g t s
| R_from_equation a b c s : lowest a -> lowest b -> lowest c ->
    surd_from_equation g t a b c = Ok (Some s) -> reachable g t s
| R_of_int n : reachable g t (surd_of_int n)
| R_of_ratio q : lowest q -> reachable g t (surd_of_ratio q)
| R_zero : reachable g t surd_zero
| R_one : reachable g t surd_one
| R_from_prim n s : surd_from_prim t n = Some s -> reachable g t s
| R_recip x s : reachable g t x -> surd_recip g t x = Ok s -> reachable g t s
| R_conj x s : reachable g t x -> surd_conj t x = Ok s -> reachable g t s
| R_neg x s : reachable g t x -> surd_neg t x = Ok s -> reachable g t s
| R_numer x : reachable g t x -> reachable g t (surd_numer x)
| R_denom x : reachable g t x -> reachable g t (surd_denom x)
| R_trunc x s : reachable g t x -> surd_trunc g t x = Ok s -> reachable g t s
| R_fract x s : reachable g t x -> surd_fract g t x = Ok s -> reachable g t s
| R_floor x s : reachable g t x -> surd_floor g t x = Ok s -> reachable g t s
| R_reduced fuel x s : reachable g t x -> surd_reduced t fuel x = Ok s -> reachable g t s
| R_add_int x n s : reachable g t x -> surd_add_int g t x n = Ok s -> reachable g t s
| R_sub_int x n s : reachable g t x -> surd_sub_int g t x n = Ok s -> reachable g t s
| R_mul_int x n s : reachable g t x -> surd_mul_int g t x n = Ok s -> reachable g t s
| R_div_int x n s : reachable g t x -> surd_div_int g t x n = Ok s -> reachable g t s
| R_add_ratio x q s : reachable g t x -> lowest q -> surd_add_ratio g t x q = Ok s -> reachable g t s
| R_sub_ratio x q s : reachable g t x -> lowest q -> surd_sub_ratio g t x q = Ok s -> reachable g t s
| R_mul_ratio x q s : reachable g t x -> lowest q -> surd_mul_ratio g t x q = Ok s -> reachable g t s
| R_div_ratio x q s : reachable g t x -> lowest q -> surd_div_ratio g t x q = Ok s -> reachable g t s
| R_add x y s : reachable g t x -> reachable g t y -> surd_add g t x y = Ok s -> reachable g t s
| R_sub x y s : reachable g t x -> reachable g t y -> surd_sub g t x y = Ok s -> reachable g t s
| R_mul x y s : reachable g t x -> reachable g t y -> surd_mul g t x y = Ok s -> reachable g t s
| R_div x y s : reachable g t x -> reachable g t y -> surd_div g t x y = Ok s -> reachable g t s
| R_sqrt_int n s : from_sqrt_int g t n = Ok (SqOk s) -> reachable g t s
| R_sqrt_ratio q s : lowest q -> from_sqrt_ratio g t q = Ok (SqOk s) -> reachable g t s
| R_sqrt_surd x s : reachable g t x -> from_sqrt_surd g t x = Ok (SqOk s) -> reachable g t s
| R_sqrt_surd_err x s k : reachable g t x -> from_sqrt_surd g t x = Ok (SqErr s k) -> reachable g t s.
