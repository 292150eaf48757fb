(** * PropsTypes: property C97 (surds, quadratic integers and Gaussian integers compute the same numbers) and the
    last case of C25.

    Only statements: every theorem is closed by the lemma of the same name in
    ClaimsTypes.v. *)

From Coq Require Import ZArith Znumtheory Reals Lia Lra Bool List.
From Coquelicot Require Import Coquelicot.
From Verif Require Import Base Ext ModelInt ModelSurd Spec SpecInt SurdDecide IntDecide ClaimsTypes.
Import ListNotations.
Open Scope Z_scope.

(** ** C97  The three number types agree *)

(** Surds for which is_quadint() is true are closed under the ring operations and conjugation *)
Theorem C97_closed : forall g t l r s, normal g l -> normal g r -> is_quadint l = true -> is_quadint r = true ->
  (surd_add g t l r = Ok s -> is_quadint s = true) /\ (surd_sub g t l r = Ok s -> is_quadint s = true) /\
  (surd_mul g t l r = Ok s -> is_quadint s = true) /\ (surd_neg t l = Ok s -> is_quadint s = true) /\ (surd_conj t l = Ok s -> is_quadint s = true).
Proof. exact L_C97_closed. Qed.
Print Assumptions C97_closed.

(** The ring operations commute with to_quadint(): when the operands convert exactly and the result converts at all
    (it is irrational), the result converts exactly, to the number that the operation on quadratic integers
    computes; and == says so *)
Theorem C97_quadint_partial : forall g t l r s v x y, normal g l -> normal g r ->
  surd_to_quadint g t l = Ok (Exact x) -> surd_to_quadint g t r = Ok (Exact y) -> surd_to_quadint g t s = Ok v ->
  (surd_add g t l r = Ok s -> exists z, v = Exact z /\ qval z = (qval x + qval y)%C /\
     forall w, qint_add g t x y = Ok w -> qval w = qval z /\ qint_eq BigI w z = Ok true) /\
  (surd_sub g t l r = Ok s -> exists z, v = Exact z /\ qval z = (qval x - qval y)%C /\
     forall w, qint_sub g t x y = Ok w -> qval w = qval z /\ qint_eq BigI w z = Ok true) /\
  (surd_mul g t l r = Ok s -> ~ (imaginary (sval l) /\ imaginary (sval r)) -> exists z, v = Exact z /\ qval z = (qval x * qval y)%C /\
     forall w, qint_mul g t x y = Ok w -> qval w = qval z /\ qint_eq BigI w z = Ok true) /\
  (surd_neg t l = Ok s -> exists z, v = Exact z /\ qval z = (- qval x)%C /\
     forall w, qint_neg t x = Ok w -> qval w = qval z /\ qint_eq BigI w z = Ok true).
Proof. exact L_C97_quadint_partial. Qed.
Print Assumptions C97_quadint_partial.

(** So does conjugation *)
Theorem C97_conj : forall g t l s v x, normal g l -> surd_to_quadint g t l = Ok (Exact x) -> surd_conj t l = Ok s -> surd_to_quadint g t s = Ok v ->
  exists z, v = Exact z /\ qval z = qconj x /\ forall w, qint_conj t x = Ok w -> qval w = qval z /\ qint_eq BigI w z = Ok true.
Proof. exact L_C97_conj. Qed.
Print Assumptions C97_conj.

(** (1 + sqrt 2) * sqrt 18 = 6 + 3 sqrt 2 *)
Example C97_quadint_case : normal (Cfg false true) (new_raw 1 1 1 2) /\ normal (Cfg false true) (new_raw 0 1 1 18) /\
  surd_mul (Cfg false true) (SInt 64) (new_raw 1 1 1 2) (new_raw 0 1 1 18) = Ok (new_raw 6 3 1 2) /\
  surd_to_quadint (Cfg false true) (SInt 64) (new_raw 1 1 1 2) = Ok (Exact (QInt (QCo 1 1) 2)) /\
  surd_to_quadint (Cfg false true) (SInt 64) (new_raw 0 1 1 18) = Ok (Exact (QInt (QCo 0 1) 18)) /\
  surd_to_quadint (Cfg false true) (SInt 64) (new_raw 6 3 1 2) = Ok (Exact (QInt (QCo 6 3) 2)) /\
  qint_mul (Cfg false true) (SInt 64) (QInt (QCo 1 1) 2) (QInt (QCo 0 1) 18) = Ok (QInt (QCo 6 3) 2) /\
  surd_conj (SInt 64) (new_raw 1 1 1 5) = Ok (new_raw 1 (-1) 1 5) /\
  surd_to_quadint (Cfg false true) (SInt 64) (new_raw 1 1 1 5) = Ok (Exact (QInt (QCo 0 2) 5)) /\
  surd_to_quadint (Cfg false true) (SInt 64) (new_raw 1 (-1) 1 5) = Ok (Exact (QInt (QCo 2 (-2)) 5)).
Proof. split; [apply normalb_ok; vm_compute; reflexivity|]. split; [apply normalb_ok; vm_compute; reflexivity|]. repeat split; vm_compute; reflexivity. Qed.

(** The product of two imaginary surds has the wrong sign (C04), so there the types disagree: sqrt(-2) * sqrt(-3) is
    sqrt 6 for surds *)
Theorem C97_quadint_refuted : exists l r s x y z, normal (Cfg true true) l /\ normal (Cfg true true) r /\
  surd_to_quadint (Cfg true true) BigI l = Ok (Exact x) /\ surd_to_quadint (Cfg true true) BigI r = Ok (Exact y) /\
  surd_mul (Cfg true true) BigI l r = Ok s /\ surd_to_quadint (Cfg true true) BigI s = Ok (Exact z) /\ qval z = (- (qval x * qval y))%C /\ qval z <> RtoC 0.
Proof. exact L_C97_quadint_refuted. Qed.
Print Assumptions C97_quadint_refuted.

(** Surds over the root -1 (or 0), GaussianInt: the operations commute with to_gaussint(), coordinate by coordinate *)
Theorem C97_gauss_partial : forall g t l r s a b c d, normal g l -> normal g r -> (discr l = 0 \/ discr l = -1) -> (discr r = 0 \/ discr r = -1) ->
  surd_to_gaussint g t l = Ok (Exact (a, b)) -> surd_to_gaussint g t r = Ok (Exact (c, d)) ->
  (surd_add g t l r = Ok s -> exists m n, surd_to_gaussint g t s = Ok (Exact (m, n)) /\ gauss_add BigI (QCo a b) (QCo c d) = Ok (QCo m n)) /\
  (surd_sub g t l r = Ok s -> exists m n, surd_to_gaussint g t s = Ok (Exact (m, n)) /\ gauss_sub BigI (QCo a b) (QCo c d) = Ok (QCo m n)) /\
  (surd_mul g t l r = Ok s -> ~ (imaginary (sval l) /\ imaginary (sval r)) ->
     exists m n, surd_to_gaussint g t s = Ok (Exact (m, n)) /\ gauss_mul BigI (QCo a b) (QCo c d) = Ok (QCo m n)) /\
  (surd_conj t l = Ok s -> exists m n, surd_to_gaussint g t s = Ok (Exact (m, n)) /\ gauss_conj BigI (QCo a b) = Ok (QCo m n)).
Proof. exact L_C97_gauss_partial. Qed.
Print Assumptions C97_gauss_partial.

(** (7 + 5i)(2 - 3i) = 29 - 11i *)
Example C97_gauss_case : normal (Cfg true true) (new_raw 7 5 1 (-1)) /\ normal (Cfg true true) (new_raw 2 (-3) 1 (-1)) /\
  surd_mul (Cfg true true) (SInt 64) (new_raw 7 5 1 (-1)) (new_raw 2 (-3) 1 (-1)) = Ok (new_raw 29 (-11) 1 (-1)) /\
  surd_to_gaussint (Cfg true true) (SInt 64) (new_raw 29 (-11) 1 (-1)) = Ok (Exact (29, -11)) /\ gauss_mul BigI (QCo 7 5) (QCo 2 (-3)) = Ok (QCo 29 (-11)).
Proof. split; [apply normalb_ok; vm_compute; reflexivity|]. split; [apply normalb_ok; vm_compute; reflexivity|]. repeat split; vm_compute; reflexivity. Qed.

(** i * i is 1 for surds and -1 for Gaussian integers *)
Theorem C97_gauss_refuted : exists l s, normal (Cfg true true) l /\ surd_to_gaussint (Cfg true true) BigI l = Ok (Exact (0, 1)) /\ sval l = Ci /\
  surd_mul (Cfg true true) BigI l l = Ok s /\ surd_to_gaussint (Cfg true true) BigI s = Ok (Exact (1, 0)) /\ gauss_mul BigI (QCo 0 1) (QCo 0 1) = Ok (QCo (-1) 0).
Proof. exact L_C97_gauss_refuted. Qed.
Print Assumptions C97_gauss_refuted.

(** QuadraticInt over the root -1 and GaussianInt are the same numbers with the same operations, except % by a
    plain integer (C24) *)
Theorem C97_quadint_gauss_partial : forall g t x y z w, cplx g = true ->
  qval (QInt x (-1)) = gval x /\
  (qint_add g t (QInt x (-1)) (QInt y (-1)) = Ok w -> gauss_add t x y = Ok z -> qval w = gval z) /\
  (qint_sub g t (QInt x (-1)) (QInt y (-1)) = Ok w -> gauss_sub t x y = Ok z -> qval w = gval z) /\
  (qint_mul g t (QInt x (-1)) (QInt y (-1)) = Ok w -> gauss_mul t x y = Ok z -> qval w = gval z) /\
  (qint_div g t (QInt x (-1)) (QInt y (-1)) = Ok w -> gauss_div t x y = Ok z -> qval w = gval z) /\
  (q1 y <> 0 -> qint_rem g t (QInt x (-1)) (QInt y (-1)) = Ok w -> gauss_rem t x y = Ok z -> qval w = gval z) /\
  (qint_conj t (QInt x (-1)) = Ok w -> gauss_conj t x = Ok z -> w = QInt z (-1)) /\
  (forall n m, qint_norm t (QInt x (-1)) = Ok n -> gauss_norm t x = Ok m -> n = m).
Proof. exact L_C97_quadint_gauss_partial. Qed.
Print Assumptions C97_quadint_gauss_partial.

Example C97_quadint_gauss_case : qint_mul (Cfg true true) (SInt 64) (QInt (QCo 7 5) (-1)) (QInt (QCo 2 (-3)) (-1)) = Ok (QInt (QCo 29 (-11)) (-1)) /\
  qint_rem (Cfg true true) (SInt 64) (QInt (QCo 7 5) (-1)) (QInt (QCo 2 (-3)) (-1)) = Ok (QInt (QCo 1 1) (-1)) /\
  gauss_rem (SInt 64) (QCo 7 5) (QCo 2 (-3)) = Ok (QCo 1 1) /\ qint_norm (SInt 64) (QInt (QCo 7 5) (-1)) = Ok 74 /\ gauss_norm (SInt 64) (QCo 7 5) = Ok 74.
Proof. repeat split; vm_compute; reflexivity. Qed.

(** (7 + 5i) % 2 is (7 + 5i) / 2 for QuadraticInt *)
Theorem C97_quadint_gauss_refuted : qint_rem (Cfg true true) BigI (QInt (QCo 7 5) (-1)) (QInt (QCo 2 0) (-1)) = Ok (QInt (QCo 4 3) (-1)) /\
  gauss_rem BigI (QCo 7 5) (QCo 2 0) = Ok (QCo (-1) (-1)).
Proof. exact L_C97_quadint_gauss_refuted. Qed.
Print Assumptions C97_quadint_gauss_refuted.

(** ** C25  x = (x / y) * y + x % y for an integer x that is stored over a root and an irrational y *)

(** % returns exactly if the root of y is a square times that of x; and then the identity holds exactly if rounding
    the quotient in the coordinates of x's root gives what / gives (which rounds in those of y's root), in
    particular if the roots are the same (C25_identity_partial) *)
Theorem C25_stored_root_exact : forall g t x y q z, wfq g x -> wfq g y -> q1 (qcoeffs x) = 0 -> q1 (qcoeffs y) <> 0 ->
  qint_div g t x y = Ok q -> qint_rem g t x y = Ok z ->
  (qval x = (qval q * qval y + qval z)%C <-> rounded_quotient (qdiscr x) (qval x) (qval y) (qval q)).
Proof. exact L_C25_stored_root_exact. Qed.
Print Assumptions C25_stored_root_exact.

Theorem C25_stored_root_returns : forall g x y, wfq g x -> wfq g y -> q1 (qcoeffs x) = 0 -> q1 (qcoeffs y) <> 0 ->
  (returns (qint_rem g BigI x y) <-> qdiscr x <> 0 /\ exists k, 0 < k /\ qdiscr y = k * k * qdiscr x).
Proof. exact L_C25_stored_root_returns. Qed.
Print Assumptions C25_stored_root_returns.

(** 29 (stored over root 2) = (21 - 4 sqrt 18)(5 + sqrt 18) + (-4 - sqrt 18); for 5 and sqrt 18 the roundings
    differ (C25_stored_root_refuted) *)
Example C25_stored_root_case : wfq (Cfg false true) (QInt (QCo 29 0) 2) /\ wfq (Cfg false true) (QInt (QCo 5 1) 18) /\
  qint_div (Cfg false true) (SInt 64) (QInt (QCo 29 0) 2) (QInt (QCo 5 1) 18) = Ok (QInt (QCo 21 (-4)) 18) /\
  qint_rem (Cfg false true) (SInt 64) (QInt (QCo 29 0) 2) (QInt (QCo 5 1) 18) = Ok (QInt (QCo (-4) (-3)) 2).
Proof. split; [right; apply (good_rootb_ok (Cfg false true)); reflexivity|]. split; [right; apply (good_rootb_ok (Cfg false true)); reflexivity|]. split; vm_compute; reflexivity. Qed.

Theorem C24_roots_exact : forall g d, good_root g d ->
  ((forall x y z n m, wfq g x -> wfq g y -> qdiscr x = d -> qdiscr y = d -> q1 (qcoeffs x) <> 0 -> q1 (qcoeffs y) <> 0 ->
      qint_rem g BigI x y = Ok z -> qint_norm BigI z = Ok n -> qint_norm BigI y = Ok m -> Z.abs n < Z.abs m) <->
   In d [-3; -2; -1; 2; 3; 5; 13]).
Proof. exact L_C24_roots_exact. Qed.
Print Assumptions C24_roots_exact.

Example C24_roots_exact_case : good_root (Cfg true true) (-3) /\ good_root (Cfg false true) 13 /\ good_root (Cfg false true) 17 /\
  exists x y z, wfq (Cfg false true) x /\ wfq (Cfg false true) y /\ qint_rem (Cfg false true) BigI x y = Ok z /\ qint_norm BigI z = Ok 16 /\ qint_norm BigI y = Ok (-16).
Proof.
  split; [apply good_rootb_ok; reflexivity|]. split; [apply good_rootb_ok; reflexivity|]. split; [apply good_rootb_ok; reflexivity|].
  exists (QInt (QCo 4 1) 17), (QInt (QCo 0 2) 17), (QInt (QCo (-4) (-1)) 17). split; [apply wfqb_ok; reflexivity|]. split; [apply wfqb_ok; reflexivity|].
  split; [vm_compute; reflexivity|]. split; vm_compute; reflexivity.
Qed.
