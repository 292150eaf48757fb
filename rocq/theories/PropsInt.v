(** * PropsInt: property theorems about QuadraticInt and GaussianInt (C20-C27).

    Only statements: every theorem is closed by the lemma of the same name in
    ClaimsInt.v.  [g] ranges over feature settings and build profiles, [t] over
    integer types ([BigI] is BigInt); [f ... = Ok v] says that the call returned
    [v] without panic or endless loop.  Vocabulary: Spec.v, SpecInt.v.  A plain
    integer is a quadratic integer with b = 0 ([q1 (qcoeffs x) = 0]); it may
    still carry a root.  The Examples after a theorem show concrete cases that
    meet its hypotheses. *)

From Coq Require Import ZArith Reals Bool List.
From Coquelicot Require Import Coquelicot.
From Verif Require Import Base Ext ModelSurd ModelInt Spec SpecInt IntDecide ClaimsInt.
Import ListNotations.
Open Scope Z_scope.

Definition dev := Cfg false true.
Definition devc := Cfg true true.
Definition i64 := SInt 64.
Definition qi (a b d : Z) : qint := QInt (QCo a b) d.

(** ** C20  Constructors *)

(** Whatever a program builds is well-formed: a plain integer over root 0, or a number over a
    root that is neither a square nor divisible by 4 (nor negative without "complex"). *)
Theorem C20_well_formed : forall g t x, qreach g t x -> wfq g x.
Proof. exact L_C20_well_formed. Qed.
Print Assumptions C20_well_formed.

Example C20_well_formed_case : qreach dev i64 (qi 3 4 3) /\ qreach devc i64 (qi (-1) 2 (-3)).
Proof.
  split.
  - apply (Q_new _ _ 3 2 12). vm_compute. reflexivity.
  - apply (Q_sub_int _ _ (qi 0 2 (-3)) 1); [|vm_compute; reflexivity]. apply (Q_new _ _ 1 1 (-3)). vm_compute. reflexivity.
Qed.

(** new(a, b, r) = a + b sqrt r.  Full statement: for all r > 0 (or r < 0 not divisible by 4);
    missing: square r, see C20_new_refuted and C20_new_square. *)
Theorem C20_new_partial : forall g t a b r x, ~ square r -> qint_new g t a b r = Ok x ->
  qval x = (ZtoC a + ZtoC b * csqrt r)%C.
Proof. exact L_C20_new_partial. Qed.
Print Assumptions C20_new_partial.

Example C20_new_case : qint_new dev i64 3 2 12 = Ok (qi 3 4 3) /\ qint_new dev i64 1 3 5 = Ok (qi (-2) 6 5).
Proof. qcheck. Qed.

(** from_coeffs((a, b), d) = a + b omega: true exactly when d is no square, is 1, or b = 0.
    Full statement: for all d not divisible by 4; missing: d an odd square > 1 with b <> 0. *)
Theorem C20_from_coeffs_partial : forall g t a b d x, qint_from_coeffs g t (QCo a b) d = Ok x ->
  (qval x = (ZtoC a + ZtoC b * omega d)%C <-> (square d -> d = 1 \/ b = 0)).
Proof. exact L_C20_from_coeffs_partial. Qed.
Print Assumptions C20_from_coeffs_partial.

Example C20_from_coeffs_case : qint_from_coeffs devc i64 (QCo 3 5) (-7) = Ok (qi 3 5 (-7)) /\ ~ square (-7).
Proof. split; [vm_compute; reflexivity|]. apply (good_rootb_ok devc). vm_compute. reflexivity. Qed.

(** sqrt 9 becomes 5, and (1 + sqrt 9) / 2 becomes 3 *)
Theorem C20_new_refuted :
  (exists x, qint_new (Cfg false true) BigI 0 1 9 = Ok x /\ qval x <> (ZtoC 0 + ZtoC 1 * csqrt 9)%C) /\
  (exists x, qint_from_coeffs (Cfg false true) BigI (QCo 0 1) 9 = Ok x /\ qval x <> (ZtoC 0 + ZtoC 1 * omega 9)%C).
Proof. exact L_C20_new_refuted. Qed.
Print Assumptions C20_new_refuted.

(** What a square r gives: with r = (k m)^2, k the power of two removed by the loop and m odd,
    the number is a + b (2 k m - k). *)
Theorem C20_new_square : forall g t a b r x, 0 < r -> square r -> qint_new g t a b r = Ok x ->
  exists k m, 0 < k /\ 0 < m /\ Z.odd m = true /\ r = (k * m) * (k * m) /\ qval x = ZtoC (a + b * (2 * (k * m) - k)).
Proof. exact L_C20_new_square. Qed.
Print Assumptions C20_new_square.

Example C20_new_square_case : qint_new dev i64 1 1 36 = Ok (qi 11 0 0).
Proof. qcheck. Qed.

(** Over BigInt the constructors return exactly for these roots. *)
Theorem C20_returns : forall g a b r,
  (returns (qint_new g BigI a b r) <-> 0 < r \/ (r < 0 /\ r mod 4 <> 0 /\ cplx g = true)) /\
  (returns (qint_from_coeffs g BigI (QCo a b) r) <-> r mod 4 <> 0 /\ (cplx g = false -> 0 <= r)).
Proof. exact L_C20_returns. Qed.
Print Assumptions C20_returns.

(** ** C21  Ring operations *)

Theorem C21_add_sub_mul : forall g t x y z, wfq g x -> wfq g y ->
  (qint_add g t x y = Ok z -> qval z = (qval x + qval y)%C /\ wfq g z) /\
  (qint_sub g t x y = Ok z -> qval z = (qval x - qval y)%C /\ wfq g z) /\
  (qint_mul g t x y = Ok z -> qval z = (qval x * qval y)%C /\ wfq g z).
Proof. exact L_C21_add_sub_mul. Qed.
Print Assumptions C21_add_sub_mul.

(** (1 + sqrt 2) + sqrt 18, (1 + sqrt 2) - sqrt 18, (1 + sqrt 2) * sqrt 18 *)
Example C21_add_case : wfq dev (qi 1 1 2) /\ wfq dev (qi 0 1 18) /\
  qint_add dev i64 (qi 1 1 2) (qi 0 1 18) = Ok (qi 1 4 2) /\ qint_sub dev i64 (qi 1 1 2) (qi 0 1 18) = Ok (qi 1 (-2) 2) /\
  qint_mul dev i64 (qi 1 1 2) (qi 0 1 18) = Ok (qi 6 3 2) /\ qint_mul devc i64 (qi 1 1 (-3)) (qi 2 (-5) (-3)) = Ok (qi 7 (-8) (-3)).
Proof. qcheck. Qed.

Theorem C21_with_int : forall g t x k z, wfq g x ->
  (qint_add_int t x k = Ok z -> qval z = (qval x + ZtoC k)%C /\ wfq g z) /\
  (qint_sub_int t x k = Ok z -> qval z = (qval x - ZtoC k)%C /\ wfq g z) /\
  (qint_mul_int t x k = Ok z -> qval z = (qval x * ZtoC k)%C /\ wfq g z) /\
  (qint_neg t x = Ok z -> qval z = (- qval x)%C /\ wfq g z).
Proof. exact L_C21_with_int. Qed.
Print Assumptions C21_with_int.

Example C21_with_int_case : wfq dev (qi 1 (-2) 5) /\ qint_add_int i64 (qi 1 (-2) 5) 4 = Ok (qi 5 (-2) 5) /\
  qint_mul_int i64 (qi 1 (-2) 5) (-3) = Ok (qi (-3) 6 5) /\ qint_neg i64 (qi 1 (-2) 5) = Ok (qi (-1) 2 5).
Proof. qcheck. Qed.

(** Over BigInt the operations return whenever one root is a square times the other, and the
    operations with an integer always do. *)
Theorem C21_bigint_total : forall g x y k, wfq g x -> wfq g y ->
  (qnested x y -> returns (qint_add g BigI x y) /\ returns (qint_sub g BigI x y) /\ returns (qint_mul g BigI x y)) /\
  returns (qint_add_int BigI x k) /\ returns (qint_sub_int BigI x k) /\ returns (qint_mul_int BigI x k) /\
  returns (qint_neg BigI x) /\ returns (qint_conj BigI x) /\ returns (qint_norm BigI x).
Proof. exact L_C21_bigint_total. Qed.
Print Assumptions C21_bigint_total.

Example C21_bigint_total_case : wfq dev (qi 1 1 2) /\ wfq dev (qi 0 1 18) /\ qnested (qi 1 1 2) (qi 0 1 18).
Proof. split; [qcheck|]. split; [qcheck|]. right. right. exists 3. split; [reflexivity|]. right. reflexivity. Qed.

(** Commensurable roots neither of which is a square times the other one panic: sqrt 50 + sqrt 18 = 8 sqrt 2. *)
Theorem C21_incompatible_roots : exists x y, wfq (Cfg false true) x /\ wfq (Cfg false true) y /\
  qint_add (Cfg false true) BigI x y = Panic PIncompatible /\ (qval x + qval y)%C = (ZtoC 8 * csqrt 2)%C.
Proof. exact L_C21_incompatible_roots. Qed.
Print Assumptions C21_incompatible_roots.

(** ** C22  Norm and conjugate *)

Theorem C22_conj : forall g t x z, wfq g x -> qint_conj t x = Ok z -> qval z = qconj x /\ qconj z = qval x /\ wfq g z.
Proof. exact L_C22_conj. Qed.
Print Assumptions C22_conj.

Example C22_conj_case : wfq dev (qi 1 (-2) 5) /\ qint_conj i64 (qi 1 (-2) 5) = Ok (qi (-1) 2 5) /\ qint_conj i64 (qi 1 (-2) 3) = Ok (qi 1 2 3).
Proof. qcheck. Qed.

(** For complex numbers the conjugate is the complex conjugate *)
Theorem C22_conj_complex : forall g t x z, wfq g x -> qdiscr x < 0 -> qint_conj t x = Ok z -> qval z = Cconj (qval x).
Proof. exact L_C22_conj_complex. Qed.
Print Assumptions C22_conj_complex.

Theorem C22_norm : forall g t x n, wfq g x -> qint_norm t x = Ok n ->
  (qval x * qconj x)%C = ZtoC n /\ (n = 0 -> qval x = RtoC 0).
Proof. exact L_C22_norm. Qed.
Print Assumptions C22_norm.

Example C22_norm_case : wfq dev (qi 1 (-2) 5) /\ qint_norm i64 (qi 1 (-2) 5) = Ok (-5) /\ qint_norm i64 (qi 1 (-2) 3) = Ok (-11).
Proof. qcheck. Qed.

Theorem C22_norm_multiplicative : forall g t x y z n m k, wfq g x -> wfq g y -> qint_mul g t x y = Ok z ->
  qint_norm t x = Ok n -> qint_norm t y = Ok m -> qint_norm t z = Ok k -> k = n * m.
Proof. exact L_C22_norm_multiplicative. Qed.
Print Assumptions C22_norm_multiplicative.

Example C22_norm_multiplicative_case : wfq devc (qi 1 1 (-3)) /\ wfq devc (qi 2 (-5) (-3)) /\
  qint_mul devc i64 (qi 1 1 (-3)) (qi 2 (-5) (-3)) = Ok (qi 7 (-8) (-3)) /\
  qint_norm i64 (qi 1 1 (-3)) = Ok 3 /\ qint_norm i64 (qi 2 (-5) (-3)) = Ok 19 /\ qint_norm i64 (qi 7 (-8) (-3)) = Ok 57.
Proof. qcheck. Qed.

(** ** C23  Division rounds to the nearest lattice point *)

(** The lattice is that of the root of x or y; that of x for a plain integer y, that of y for a plain
    integer x. *)
Theorem C23_div : forall g t x y z, wfq g x -> wfq g y -> qint_div g t x y = Ok z ->
  wfq g z /\ exists d, (d = qdiscr x \/ d = qdiscr y) /\ (q1 (qcoeffs y) = 0 -> d = qdiscr x) /\
    (q1 (qcoeffs x) = 0 -> q1 (qcoeffs y) <> 0 -> d = qdiscr y) /\ rounded_quotient d (qval x) (qval y) (qval z).
Proof. exact L_C23_div. Qed.
Print Assumptions C23_div.

Example C23_div_case : wfq dev (qi 7 5 13) /\ wfq dev (qi 2 3 13) /\ qint_div dev i64 (qi 7 5 13) (qi 2 3 13) = Ok (qi 1 1 13) /\
  qint_div dev i64 (qi 7 5 2) (qi 0 1 18) = Ok (qi 2 1 2) /\ qint_div dev i64 (qi 7 5 2) (qi (-2) 0 0) = Ok (qi (-4) (-3) 2).
Proof. qcheck. Qed.

Theorem C23_div_int : forall g t x k z, wfq g x -> qint_div_int t x k = Ok z ->
  wfq g z /\ rounded_quotient (qdiscr x) (qval x) (ZtoC k) (qval z).
Proof. exact L_C23_div_int. Qed.
Print Assumptions C23_div_int.

Example C23_div_int_case : wfq dev (qi 7 5 13) /\ qint_div_int i64 (qi 7 5 13) (-2) = Ok (qi (-4) (-3) 13).
Proof. qcheck. Qed.

(** The coordinates of the exact quotient are unique, so the rounded quotient is determined. *)
Theorem C23_unique : forall g d x y z z', good_root g d -> rounded_quotient d x y z -> rounded_quotient d x y z' -> z = z'.
Proof. exact L_C23_unique. Qed.
Print Assumptions C23_unique.

(** Over BigInt division by a non-zero number returns (roots as in C21_bigint_total); division by zero panics for every type. *)
Theorem C23_returns : forall g t x y, wfq g x -> wfq g y ->
  (qnested x y -> qval y <> RtoC 0 -> returns (qint_div g BigI x y)) /\
  (qval y = RtoC 0 -> ~ returns (qint_div g t x y)).
Proof. exact L_C23_returns. Qed.
Print Assumptions C23_returns.

(** ** C24  Euclidean division *)

(** Full statement: for all x and non-zero y over these roots; missing: plain integers y (see
    C24_plain_integer_refuted) and plain integers x over root 0 (the call panics, C24_left_panics). *)
Theorem C24_euclidean_partial : forall g t x y z n m, In (qdiscr x) [-3; -2; -1; 2; 3; 5; 13] -> qdiscr y = qdiscr x ->
  wfq g x -> wfq g y -> q1 (qcoeffs y) <> 0 -> qint_rem g t x y = Ok z ->
  qint_norm t z = Ok n -> qint_norm t y = Ok m -> Z.abs n < Z.abs m.
Proof. exact L_C24_euclidean_partial. Qed.
Print Assumptions C24_euclidean_partial.

Example C24_euclidean_case : wfq dev (qi 7 5 13) /\ wfq dev (qi 2 3 13) /\ qint_rem dev i64 (qi 7 5 13) (qi 2 3 13) = Ok (qi (-4) (-3) 13) /\
  qint_norm i64 (qi (-4) (-3) 13) = Ok 1 /\ qint_norm i64 (qi 2 3 13) = Ok (-17).
Proof. qcheck. Qed.

(** x % k with an integer k on the right has no such gap. *)
Theorem C24_euclidean_int : forall g t x k z n, In (qdiscr x) [-3; -2; -1; 2; 3; 5; 13] -> wfq g x ->
  qint_rem_int t x k = Ok z -> qint_norm t z = Ok n -> Z.abs n < k * k.
Proof. exact L_C24_euclidean_int. Qed.
Print Assumptions C24_euclidean_int.

Example C24_euclidean_int_case : wfq dev (qi 7 5 13) /\ qint_rem_int i64 (qi 7 5 13) 4 = Ok (qi (-1) 1 13) /\ qint_norm i64 (qi (-1) 1 13) = Ok (-3).
Proof. qcheck. Qed.

(** (100 + sqrt 2) % 2 is the quotient 50 + sqrt 2, of norm 2498 > 4 *)
Theorem C24_plain_integer_refuted : exists x y z n m, qreach (Cfg false true) BigI x /\ qreach (Cfg false true) BigI y /\
  qdiscr x = 2 /\ qval y <> RtoC 0 /\ qint_rem (Cfg false true) BigI x y = Ok z /\
  qint_norm BigI z = Ok n /\ qint_norm BigI y = Ok m /\ ~ Z.abs n < Z.abs m.
Proof. exact L_C24_plain_integer_refuted. Qed.
Print Assumptions C24_plain_integer_refuted.

(** A plain integer over root 0 on the left of an irrational number panics, for every type. *)
Theorem C24_left_panics : forall g t x y, wfq g y -> qdiscr x = 0 -> q1 (qcoeffs x) = 0 -> q1 (qcoeffs y) <> 0 ->
  ~ returns (qint_rem g t x y).
Proof. exact L_C24_left_panics. Qed.
Print Assumptions C24_left_panics.

Example C24_left_panics_case : qint_rem dev BigI (qi 7 0 0) (qi 1 1 2) = Panic PDebugAssert /\
  qint_rem (Cfg false false) BigI (qi 7 0 0) (qi 1 1 2) = Panic PDivZero.
Proof. qcheck. Qed.

(** Over BigInt the remainder of two irrational numbers over one root returns. *)
Theorem C24_returns : forall g x y, wfq g x -> wfq g y -> q1 (qcoeffs x) <> 0 -> q1 (qcoeffs y) <> 0 -> qnested x y ->
  returns (qint_rem g BigI x y).
Proof. exact L_C24_returns. Qed.
Print Assumptions C24_returns.

Example C24_returns_case : wfq dev (qi 7 5 2) /\ wfq dev (qi 1 1 18) /\ qnested (qi 7 5 2) (qi 1 1 18) /\
  qint_rem dev i64 (qi 7 5 2) (qi 1 1 18) = Ok (qi 0 1 2).
Proof.
  split; [qcheck|]. split; [qcheck|]. split; [|qcheck]. right. right. exists 3. split; [reflexivity|]. right. reflexivity.
Qed.

(** ** C25  x = (x / y) * y + x % y *)

(** Full statement: for all x and non-zero y; missing: plain integers y (C25_plain_integer_refuted)
    and plain integers x stored over another root (C25_stored_root_refuted). *)
Theorem C25_identity_partial : forall g t x y q z, wfq g x -> wfq g y -> q1 (qcoeffs y) <> 0 ->
  q1 (qcoeffs x) <> 0 \/ qdiscr x = qdiscr y ->
  qint_div g t x y = Ok q -> qint_rem g t x y = Ok z -> qval x = (qval q * qval y + qval z)%C.
Proof. exact L_C25_identity_partial. Qed.
Print Assumptions C25_identity_partial.

Example C25_identity_case : wfq dev (qi 7 5 2) /\ wfq dev (qi 1 1 18) /\
  qint_div dev i64 (qi 7 5 2) (qi 1 1 18) = Ok (qi 1 1 2) /\ qint_rem dev i64 (qi 7 5 2) (qi 1 1 18) = Ok (qi 0 1 2).
Proof. qcheck. Qed.

(** With an integer on the right it always holds. *)
Theorem C25_identity_int : forall g t x k q z, wfq g x -> qint_div_int t x k = Ok q -> qint_rem_int t x k = Ok z ->
  qval x = (qval q * ZtoC k + qval z)%C.
Proof. exact L_C25_identity_int. Qed.
Print Assumptions C25_identity_int.

Example C25_identity_int_case : wfq dev (qi 7 5 2) /\ qint_div_int i64 (qi 7 5 2) 4 = Ok (qi 2 1 2) /\ qint_rem_int i64 (qi 7 5 2) 4 = Ok (qi (-1) 1 2).
Proof. qcheck. Qed.

(** (5 + sqrt 2) / 2 = (5 + sqrt 2) % 2 = 3 + sqrt 2 *)
Theorem C25_plain_integer_refuted : exists x y q z, qreach (Cfg false true) BigI x /\ qreach (Cfg false true) BigI y /\
  qval y <> RtoC 0 /\ qint_div (Cfg false true) BigI x y = Ok q /\ qint_rem (Cfg false true) BigI x y = Ok z /\
  qval x <> (qval q * qval y + qval z)%C.
Proof. exact L_C25_plain_integer_refuted. Qed.
Print Assumptions C25_plain_integer_refuted.

(** 5 = (15 + sqrt 2) / 3 keeps the root 2; divided by sqrt 18 the quotient is 0, the remainder -1 *)
Theorem C25_stored_root_refuted : exists x y q z, qreach (Cfg false true) BigI x /\ qreach (Cfg false true) BigI y /\
  qval y <> RtoC 0 /\ qint_div (Cfg false true) BigI x y = Ok q /\ qint_rem (Cfg false true) BigI x y = Ok z /\
  qval x <> (qval q * qval y + qval z)%C.
Proof. exact L_C25_stored_root_refuted. Qed.
Print Assumptions C25_stored_root_refuted.

(** ** C26  Equality and predicates *)

(** What == means over BigInt.  Over one root it is equality of values; different non-zero roots:
    equality up to conjugation; root 0 against another root: always false.
    Full statement: == is equality of values in all cases. *)
Theorem C26_eq_partial : forall g l r, wfq g l -> wfq g r ->
  exists b, qint_eq BigI l r = Ok b /\
    ((qdiscr l = qdiscr r \/ (qdiscr l <> 0 /\ qdiscr r <> 0)) ->
       (b = true <-> qval l = qval r \/ (qdiscr l <> qdiscr r /\ qval l = qconj r))) /\
    (qdiscr l <> qdiscr r -> (qdiscr l = 0 \/ qdiscr r = 0) -> b = false).
Proof. exact L_C26_eq_partial. Qed.
Print Assumptions C26_eq_partial.

Example C26_eq_case : wfq dev (qi 1 6 2) /\ wfq dev (qi 1 2 18) /\ qint_eq i64 (qi 1 6 2) (qi 1 2 18) = Ok true /\
  qint_eq i64 (qi 1 6 2) (qi 1 5 2) = Ok false.
Proof. qcheck. Qed.

(** Fixed-width types give the same answer whenever they return. *)
Theorem C26_eq_transfer : forall t l r b, qint_eq t l r = Ok b -> qint_eq BigI l r = Ok b.
Proof. exact L_C26_eq_transfer. Qed.
Print Assumptions C26_eq_transfer.

Example C26_eq_transfer_case : qint_eq (SInt 8) (qi 1 6 2) (qi 1 2 18) = Panic POverflow /\ qint_eq (SInt 16) (qi 1 6 2) (qi 1 2 18) = Ok true.
Proof. qcheck. Qed.

(** 3 sqrt 2 == - sqrt 18; and 0 stored over root 2 (sqrt 2 / 3) differs from zero() *)
Theorem C26_eq_refuted :
  (exists l r, qreach (Cfg false true) BigI l /\ qreach (Cfg false true) BigI r /\ qint_eq BigI l r = Ok true /\ qval l <> qval r) /\
  (exists l r, qreach (Cfg false true) BigI l /\ qreach (Cfg false true) BigI r /\ qint_eq BigI l r = Ok false /\ qval l = qval r).
Proof. exact L_C26_eq_refuted. Qed.
Print Assumptions C26_eq_refuted.

Theorem C26_is_rational : forall g x, wfq g x -> (qint_is_rational x = true <-> rational_num (qval x)).
Proof. exact L_C26_is_rational. Qed.
Print Assumptions C26_is_rational.

Example C26_is_rational_case : wfq dev (qi 3 1 2) /\ qint_is_rational (qi 3 1 2) = false /\ qint_is_rational (qi 3 0 2) = true.
Proof. qcheck. Qed.

Theorem C26_is_zero : forall g x, wfq g x -> (qint_is_zero x = true <-> qval x = RtoC 0).
Proof. exact L_C26_is_zero. Qed.
Print Assumptions C26_is_zero.

Example C26_is_zero_case : wfq dev (qi 0 0 2) /\ qint_is_zero (qi 0 0 2) = true /\ qint_is_zero (qi 0 1 2) = false.
Proof. qcheck. Qed.

(** is_one never panics, and is right for an integer stored over no root; the number 1 stored over
    a root is not called one.  Full statement: is_one() is true exactly for the number 1. *)
Theorem C26_is_one_partial : forall g t x, wfq g x ->
  exists b, qint_is_one t x = Ok b /\ (b = true <-> qdiscr x = 0 /\ qval x = RtoC 1).
Proof. exact L_C26_is_one_partial. Qed.
Print Assumptions C26_is_one_partial.

Example C26_is_one_case : wfq dev (qi 1 0 0) /\ qint_is_one i64 (qi 1 0 0) = Ok true /\ qint_is_one i64 (qi 2 0 0) = Ok false.
Proof. qcheck. Qed.

(** (3 + sqrt 2)/3 rounds to 1, stored over root 2; it is not called one *)
Theorem C26_is_one_refuted : exists x, qreach (Cfg false true) BigI x /\ qval x = RtoC 1 /\
  qint_is_one BigI x = Ok false.
Proof. exact L_C26_is_one_refuted. Qed.
Print Assumptions C26_is_one_refuted.

(** is_pure is right for roots 1 mod 4 (rational part zero: x + conj x = 0); for roots 2, 3 mod 4
    it answers is_rational instead; over root 0 it panics. *)
Theorem C26_is_pure_partial : forall g t x b, wfq g x -> qint_is_pure t x = Ok b ->
  good_root g (qdiscr x) /\
  (qdiscr x mod 4 = 1 -> (b = true <-> (qval x + qconj x)%C = RtoC 0)) /\
  (qdiscr x mod 4 <> 1 -> (b = true <-> rational_num (qval x))).
Proof. exact L_C26_is_pure_partial. Qed.
Print Assumptions C26_is_pure_partial.

Example C26_is_pure_case : wfq dev (qi (-1) 2 5) /\ qint_is_pure i64 (qi (-1) 2 5) = Ok true /\ qint_is_pure i64 (qi 0 2 5) = Ok false.
Proof. qcheck. Qed.

(** 3 sqrt 2 is not pure, 3 over root 2 is, and zero() panics *)
Theorem C26_is_pure_refuted :
  qint_is_pure BigI (QInt (QCo 0 3) 2) = Ok false /\ (qval (QInt (QCo 0 3) 2) + qconj (QInt (QCo 0 3) 2))%C = RtoC 0 /\
  qint_is_pure BigI (QInt (QCo 3 0) 2) = Ok true /\ qint_is_pure BigI qint_zero = Panic PUnreachable.
Proof. exact L_C26_is_pure_refuted. Qed.
Print Assumptions C26_is_pure_refuted.

(** ** C27  Gaussian integers *)

Theorem C27_ring : forall t x y z,
  (gauss_add t x y = Ok z -> gval z = (gval x + gval y)%C) /\ (gauss_sub t x y = Ok z -> gval z = (gval x - gval y)%C) /\
  (gauss_mul t x y = Ok z -> gval z = (gval x * gval y)%C) /\ (gauss_conj t x = Ok z -> gval z = Cconj (gval x)).
Proof. exact L_C27_ring. Qed.
Print Assumptions C27_ring.

Example C27_ring_case : gauss_mul i64 (QCo 7 5) (QCo 2 (-3)) = Ok (QCo 29 (-11)) /\ gauss_add (SInt 8) (QCo 100 0) (QCo 100 1) = Panic POverflow /\
  gauss_conj i64 (QCo 7 5) = Ok (QCo 7 (-5)).
Proof. qcheck. Qed.

Theorem C27_norm : forall t x n, gauss_norm t x = Ok n ->
  (gval x * Cconj (gval x))%C = ZtoC n /\ IZR n = (Cmod (gval x) * Cmod (gval x))%R.
Proof. exact L_C27_norm. Qed.
Print Assumptions C27_norm.

Example C27_norm_case : gauss_norm i64 (QCo 7 (-5)) = Ok 74.
Proof. qcheck. Qed.

(** Division rounds both coordinates of the exact quotient *)
Theorem C27_div : forall t x y q, gauss_div t x y = Ok q -> rounded_quotient (-1) (gval x) (gval y) (gval q).
Proof. exact L_C27_div. Qed.
Print Assumptions C27_div.

Theorem C27_div_rem : forall t x y q r, gauss_div t x y = Ok q -> gauss_rem t x y = Ok r -> gval x = (gval q * gval y + gval r)%C.
Proof. exact L_C27_div_rem. Qed.
Print Assumptions C27_div_rem.

Theorem C27_euclidean : forall t x y r n m, gauss_rem t x y = Ok r -> gauss_norm t r = Ok n -> gauss_norm t y = Ok m -> 2 * n <= m.
Proof. exact L_C27_euclidean. Qed.
Print Assumptions C27_euclidean.

Example C27_div_case : gauss_div i64 (QCo 7 5) (QCo 2 (-3)) = Ok (QCo 0 2) /\ gauss_rem i64 (QCo 7 5) (QCo 2 (-3)) = Ok (QCo 1 1) /\
  gauss_norm i64 (QCo 1 1) = Ok 2 /\ gauss_norm i64 (QCo 2 (-3)) = Ok 13.
Proof. qcheck. Qed.

(** Over BigInt everything returns, except division by zero, which panics for every type. *)
Theorem C27_bigint_total : forall t x y,
  returns (gauss_add BigI x y) /\ returns (gauss_sub BigI x y) /\ returns (gauss_mul BigI x y) /\
  returns (gauss_conj BigI x) /\ returns (gauss_norm BigI x) /\
  (gval y <> RtoC 0 -> returns (gauss_div BigI x y) /\ returns (gauss_rem BigI x y)) /\
  (gval y = RtoC 0 -> ~ returns (gauss_div t x y) /\ ~ returns (gauss_rem t x y)).
Proof. exact L_C27_bigint_total. Qed.
Print Assumptions C27_bigint_total.
