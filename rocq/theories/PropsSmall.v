(** * PropsSmall: property theorems C69.

    Only statements: every theorem is closed by the lemma of the same name in
    ClaimsSmall.v. *)

From Coq Require Import ZArith Reals Lia Lra Bool List.
From Coquelicot Require Import Coquelicot.
From Verif Require Import Base Ext ModelSurd ModelInt Spec SpecInt SpecSmall SurdDecide IntDecide ClaimsSmall.
Import ListNotations.
Open Scope Z_scope.

(** ** C69  Fixed-width arithmetic on small operands is exact *)

(** The constructor *)
Theorem C69_new : forall g n K a b c r, 4 <= K -> K ^ 2 < 2 ^ (n - 1) -> Z.abs a <= K -> Z.abs b <= K -> Z.abs c <= K -> Z.abs r <= K ->
  surd_new g (SInt n) a b c r = surd_new g BigI a b c r.
Proof. exact L_C69_new. Qed.
Print Assumptions C69_new.

(** Sum, difference and product of two surds *)
Theorem C69_add_sub_mul : forall g n K x y, 4 <= K -> K ^ 4 < 2 ^ (n - 1) -> normal g x -> normal g y -> small K x -> small K y ->
  surd_add g (SInt n) x y = surd_add g BigI x y /\ surd_sub g (SInt n) x y = surd_sub g BigI x y /\ surd_mul g (SInt n) x y = surd_mul g BigI x y.
Proof. exact L_C69_add_sub_mul. Qed.
Print Assumptions C69_add_sub_mul.

(** Reciprocal and quotient *)
Theorem C69_recip : forall g n K x, 4 <= K -> K ^ 6 < 2 ^ (n - 1) -> normal g x -> small K x -> surd_recip g (SInt n) x = surd_recip g BigI x.
Proof. exact L_C69_recip. Qed.
Print Assumptions C69_recip.

Theorem C69_div : forall g n K x y, 4 <= K -> K ^ 10 < 2 ^ (n - 1) -> normal g x -> normal g y -> small K x -> small K y ->
  surd_div g (SInt n) x y = surd_div g BigI x y.
Proof. exact L_C69_div. Qed.
Print Assumptions C69_div.

(** Integer and rational right operands *)
Theorem C69_int_operand : forall g n K x k, 4 <= K -> K ^ 4 < 2 ^ (n - 1) -> small K x -> Z.abs k <= K ->
  surd_add_int g (SInt n) x k = surd_add_int g BigI x k /\ surd_sub_int g (SInt n) x k = surd_sub_int g BigI x k /\
  surd_mul_int g (SInt n) x k = surd_mul_int g BigI x k /\ surd_div_int g (SInt n) x k = surd_div_int g BigI x k.
Proof. exact L_C69_int_operand. Qed.
Print Assumptions C69_int_operand.

Theorem C69_ratio_operand : forall g n K x q, 4 <= K -> K ^ 4 < 2 ^ (n - 1) -> small K x -> small_ratio K q ->
  surd_add_ratio g (SInt n) x q = surd_add_ratio g BigI x q /\ surd_sub_ratio g (SInt n) x q = surd_sub_ratio g BigI x q /\
  surd_mul_ratio g (SInt n) x q = surd_mul_ratio g BigI x q /\ surd_div_ratio g (SInt n) x q = surd_div_ratio g BigI x q.
Proof. exact L_C69_ratio_operand. Qed.
Print Assumptions C69_ratio_operand.

(** Sign, rounding and conversion *)
Theorem C69_query : forall g n K x, 4 <= K -> K ^ 3 < 2 ^ (n - 1) -> small K x ->
  surd_neg (SInt n) x = surd_neg BigI x /\ surd_conj (SInt n) x = surd_conj BigI x /\
  surd_is_positive g (SInt n) x = surd_is_positive g BigI x /\ surd_is_negative g (SInt n) x = surd_is_negative g BigI x /\
  surd_floor g (SInt n) x = surd_floor g BigI x /\ surd_trunc g (SInt n) x = surd_trunc g BigI x /\
  (0 <= discr x -> surd_fract g (SInt n) x = surd_fract g BigI x) /\
  surd_to_rational g (SInt n) x = surd_to_rational g BigI x /\ surd_to_integer g (SInt n) x = surd_to_integer g BigI x.
Proof. exact L_C69_query. Qed.
Print Assumptions C69_query.

(** Equality *)
Theorem C69_eq : forall n K x y, 4 <= K -> K ^ 5 < 2 ^ (n - 1) -> small K x -> small K y -> surd_eq (SInt n) x y = surd_eq BigI x y.
Proof. exact L_C69_eq. Qed.
Print Assumptions C69_eq.

(** Quadratic integers over one root *)
Theorem C69_qint_add_sub : forall g n K x y, 4 <= K -> K ^ 2 < 2 ^ (n - 1) -> wfq g x -> wfq g y -> one_root x y -> small_qint K x -> small_qint K y ->
  qint_add g (SInt n) x y = qint_add g BigI x y /\ qint_sub g (SInt n) x y = qint_sub g BigI x y.
Proof. exact L_C69_qint_add_sub. Qed.
Print Assumptions C69_qint_add_sub.

Theorem C69_qint_mul : forall g n K x y, 4 <= K -> K ^ 4 < 2 ^ (n - 1) -> wfq g x -> wfq g y -> one_root x y -> small_qint K x -> small_qint K y ->
  qint_mul g (SInt n) x y = qint_mul g BigI x y /\ qint_norm (SInt n) x = qint_norm BigI x /\ qint_eq (SInt n) x y = qint_eq BigI x y.
Proof. exact L_C69_qint_mul. Qed.
Print Assumptions C69_qint_mul.

Theorem C69_qint_div_rem : forall g n K x y, 5 <= K -> K ^ 6 < 2 ^ (n - 1) -> wfq g x -> wfq g y -> one_root x y -> small_qint K x -> small_qint K y ->
  qint_div g (SInt n) x y = qint_div g BigI x y /\ qint_rem g (SInt n) x y = qint_rem g BigI x y.
Proof. exact L_C69_qint_div_rem. Qed.
Print Assumptions C69_qint_div_rem.

Theorem C69_qint_int_operand : forall n K x k, 4 <= K -> K ^ 2 < 2 ^ (n - 1) -> small_qint K x -> Z.abs k <= K ->
  qint_add_int (SInt n) x k = qint_add_int BigI x k /\ qint_sub_int (SInt n) x k = qint_sub_int BigI x k /\ qint_mul_int (SInt n) x k = qint_mul_int BigI x k /\
  qint_div_int (SInt n) x k = qint_div_int BigI x k /\ qint_rem_int (SInt n) x k = qint_rem_int BigI x k.
Proof. exact L_C69_qint_int_operand. Qed.
Print Assumptions C69_qint_int_operand.

Theorem C69_qint_conj_neg : forall n K x, 4 <= K -> K ^ 2 < 2 ^ (n - 1) -> small_qint K x ->
  qint_conj (SInt n) x = qint_conj BigI x /\ qint_neg (SInt n) x = qint_neg BigI x.
Proof. exact L_C69_qint_conj_neg. Qed.
Print Assumptions C69_qint_conj_neg.

(** Gaussian integers *)
Theorem C69_gauss : forall n K x y, 6 <= K -> K ^ 3 < 2 ^ (n - 1) -> small_qco K x -> small_qco K y ->
  gauss_conj (SInt n) x = gauss_conj BigI x /\ gauss_norm (SInt n) x = gauss_norm BigI x /\ gauss_add (SInt n) x y = gauss_add BigI x y /\
  gauss_sub (SInt n) x y = gauss_sub BigI x y /\ gauss_mul (SInt n) x y = gauss_mul BigI x y.
Proof. exact L_C69_gauss. Qed.
Print Assumptions C69_gauss.

Theorem C69_gauss_div_rem : forall n K x y, 6 <= K -> K ^ 5 < 2 ^ (n - 1) -> small_qco K x -> small_qco K y ->
  gauss_div (SInt n) x y = gauss_div BigI x y /\ gauss_rem (SInt n) x y = gauss_rem BigI x y.
Proof. exact L_C69_gauss_div_rem. Qed.
Print Assumptions C69_gauss_div_rem.

(** With i64 components up to 55108 sums never overflow; two above that they do *)
Theorem C69_sharp : 55108 ^ 4 < 2 ^ (64 - 1) /\
  exists x y, normal (Cfg false true) x /\ normal (Cfg false true) y /\ small 55110 x /\ small 55110 y /\ surd_add (Cfg false true) (SInt 64) x y = Panic POverflow /\
  surd_add (Cfg false true) BigI x y <> Panic POverflow.
Proof. exact L_C69_sharp. Qed.
Print Assumptions C69_sharp.

(** The hypotheses can be met and the results are not trivial *)
Example C69_case : normal (Cfg false true) (Surd (SCo 30000 7 55000) 2) /\ small 55108 (Surd (SCo 30000 7 55000) 2) /\
  exists s, surd_mul (Cfg false true) (SInt 64) (Surd (SCo 30000 7 55000) 2) (Surd (SCo 1 3 7) 2) = Ok s.
Proof.
  split; [apply normalb_ok; vm_compute; reflexivity|]. split; [vm_compute; intuition congruence|eexists; vm_compute; reflexivity].
Qed.

Example C69_qint_case : wfq (Cfg false true) (QInt (QCo 3 (-4)) 5) /\ small_qint 6 (QInt (QCo 3 (-4)) 5) /\ 6 ^ 6 < 2 ^ (32 - 1) /\
  qint_div (Cfg false true) (SInt 32) (QInt (QCo 3 (-4)) 5) (QInt (QCo 1 1) 5) = qint_div (Cfg false true) BigI (QInt (QCo 3 (-4)) 5) (QInt (QCo 1 1) 5) /\
  exists q, qint_div (Cfg false true) (SInt 32) (QInt (QCo 3 (-4)) 5) (QInt (QCo 1 1) 5) = Ok q.
Proof.
  split; [apply wfqb_ok; vm_compute; reflexivity|]. split; [vm_compute; intuition congruence|]. split; [vm_compute; reflexivity|]. split; [vm_compute; reflexivity|eexists; vm_compute; reflexivity].
Qed.
