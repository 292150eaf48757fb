(** * PropsBack: property C35, when the conversion returns.

    Only statements: every theorem is closed by the lemma of the same name in
    ClaimsBack.v. *)

From Coq Require Import ZArith Reals Lia Bool List Arith.
From Verif Require Import Base Ext ModelSurd ModelBlock ModelCF ModelConv Spec SpecCF SpecBack ClaimsBack.
Import ListNotations.
Open Scope Z_scope.

(** ** C35  Converting a continued fraction to a surd: when it returns *)

(** Over arbitrary precision the conversion returns (the exact number, C35_exact), or it panics because the roots of the
    numerator and denominator it has computed are not reduced alike *)
Theorem C35_outcome : forall g x, wfcf x -> returns (surd_of_cf g BigU x) \/ surd_of_cf g BigU x = Panic PIncompatible.
Proof. exact L_C35_outcome. Qed.
Print Assumptions C35_outcome.

(** It returns whatever the coefficients before the period, if the discriminant of the period is not divisible by two
    coprime squares *)
Theorem C35_returns_unless : forall g x, wfcf x -> ~ finite x -> ~ two_squares (period_discr (p_coeffs x)) -> returns (surd_of_cf g BigU x).
Proof. exact L_C35_returns_unless. Qed.
Print Assumptions C35_returns_unless.

(** in particular if it is four times a square-free number, or square-free *)
Theorem C35_squarefree : forall g x, wfcf x -> ~ finite x -> (forall k, 2 < k -> ~ (k * k | period_discr (p_coeffs x))) -> returns (surd_of_cf g BigU x).
Proof. exact L_C35_squarefree. Qed.
Print Assumptions C35_squarefree.

(** -[1; 2, 1, 4, (3, 1)] with discriminant 21; and the fraction of C35_panic_refuted, whose discriminant is divisible by 9
    and 25 *)
Example C35_outcome_case : wfcf (CF [1; 2; 1; 4] [3; 1] true) /\ ~ finite (CF [1; 2; 1; 4] [3; 1] true) /\ ~ two_squares (period_discr [3; 1]) /\
  surd_of_cf (Cfg false true) BigU (CF [1; 2; 1; 4] [3; 1] true) = Ok (Surd (SCo (-1233) 1 906) 21) /\
  two_squares (period_discr [14; 15; 1; 50624]) /\ surd_of_cf (Cfg false true) BigU (CF [0; 1; 5; 1] [14; 15; 1; 50624] false) = Panic PIncompatible.
Proof.
  split; [vm_compute; repeat constructor; discriminate|]. split; [discriminate|]. split.
  - intros (k & m & Hk & Hm & _ & Dk & _). change (period_discr [3; 1]) with 21 in Dk. destruct Dk as [z Dk]. assert (0 < z) by nia. assert (k * k <= 21) by nia. assert (k < 5) by nia.
    assert (K : k = 2 \/ k = 3 \/ k = 4) by lia. destruct K as [-> | [-> | ->]]; lia.
  - split; [vm_compute; reflexivity|]. split; [|vm_compute; reflexivity]. exists 3, 5. split; [reflexivity|]. split; [reflexivity|]. split; [reflexivity|].
    split; apply Z.mod_divide; discriminate || reflexivity.
Qed.
