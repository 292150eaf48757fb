(** * PropsTight: properties C02, C31, C37 and C63, points the other theorems leave open.

    Only statements: every theorem is closed by the lemma of the same name in
    ClaimsTight.v. *)

From Coq Require Import ZArith Reals Lia Bool List Arith.
From Verif Require Import Base Ext ModelSurd ModelBlock ModelCF ModelConv Spec SpecCF ClaimsTight.
Import ListNotations.
Open Scope Z_scope.

(** ** C02  A factor shared by the rational part, the denominator and (squared) the root is cancelled *)

(** Over arbitrary precision: (k a + b sqrt(k^2 r)) / (k c) is stored like (a + b sqrt r) / c *)
Theorem C02_cancel : forall g a b c r k, 0 < k -> Z.gcd a c = 1 -> surd_new g BigI (k * a) b (k * c) (k * k * r) = surd_new g BigI a b c r.
Proof. exact L_C02_cancel. Qed.
Print Assumptions C02_cancel.

(** Not so if the rational part and the denominator keep a common factor: (6 + sqrt 12)/6 is (3 + sqrt 3)/3 *)
Theorem C02_cancel_sharp : surd_new (Cfg false true) BigI (2 * 3) 1 (2 * 3) (2 * 2 * 3) = Ok (Surd (SCo 6 1 6) 12) /\
  surd_new (Cfg false true) BigI 3 1 3 3 = Ok (Surd (SCo 3 1 3) 3).
Proof. exact L_C02_cancel_sharp. Qed.
Print Assumptions C02_cancel_sharp.

(** (10 + 3 sqrt 50)/15 = (2 + 3 sqrt 2)/3 *)
Example C02_cancel_case : Z.gcd 2 3 = 1 /\ surd_new (Cfg false true) BigI 10 3 15 50 = Ok (Surd (SCo 2 3 3) 2).
Proof.
  split; reflexivity.
Qed.

(** ** C31  new() can return a fraction without any coefficient *)

(** new([1, 0], [], false): no value (1 + 1/0), and neither a panic nor a usable result *)
Theorem C31_malformed_refuted : exists y, cf_new (Cfg false true) BigI [1; 0] nil false = Ok y /\ a_coeffs y = nil /\ p_coeffs y = nil /\ ~ wfcf y.
Proof. exact L_C31_malformed_refuted. Qed.
Print Assumptions C31_malformed_refuted.

(** ** C37  approximated() with a limit below 1 *)

(** The first coefficient, without the sign of the number *)
Theorem C37_below : forall x limit fuel, wfcf x -> limit < 1 ->
  exists i rest, a_coeffs x = i :: rest /\ cf_approximated BigU fuel x limit = Ok (Approximated (Ratio i 1)).
Proof. exact L_C37_below. Qed.
Print Assumptions C37_below.

(** so -7/2 is reported to be near 3 *)
Theorem C37_below_refuted : cf_approximated BigU 20 (CF [3; 2] nil true) 0 = Ok (Approximated (Ratio 3 1)) /\ cf_val (CF [3; 2] nil true) = (- (7 / 2))%R.
Proof. exact L_C37_below_refuted. Qed.
Print Assumptions C37_below_refuted.

(** ** C63  A generalized move leaves no common factor *)

(** whatever the block was *)
Theorem C63_gmove_primitive : forall t k a b k', block_gmove t k a b = Ok k' ->
  Z.gcd (Z.gcd (pm1 k') (qm1 k')) (Z.gcd (pm2 k') (qm2 k')) <= 1.
Proof. exact L_C63_gmove_primitive. Qed.
Print Assumptions C63_gmove_primitive.

(** 6 + 4 / (2 + ...): the factor 2 is divided out in the second move *)
Example C63_gmove_case : block_gmove BigI block_identity 4 6 = Ok (Block 6 1 4 0) /\ block_gmove BigI (Block 6 1 4 0) 4 2 = Ok (Block 8 3 4 2).
Proof.
  split; reflexivity.
Qed.
