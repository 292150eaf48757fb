(** * PropsSharp: exact conditions that complete the partial property theorems C16, C31, C33 and C52.

    Only statements: every theorem is closed by the lemma of the same name in
    ClaimsSharp.v. *)

From Coq Require Import ZArith Reals Lia Lra Bool List.
From Coquelicot Require Import Coquelicot.
From Verif Require Import Base Ext ModelSurd ModelBlock ModelCF ModelConv Spec SpecCF SurdDecide ClaimsSharp.
Import ListNotations.
Open Scope Z_scope.

(** ** C16  from_sqrt *)

(** The root of an irrational surd is the one with a positive rational part, however it is written *)
Theorem C16_rational_part : forall g t x y p q d r, normal g x -> ~ rational_num (sval x) -> from_sqrt_surd g t x = Ok (SqOk y) ->
  0 < d -> sval y = ((ZtoC p + ZtoC q * csqrt r) / ZtoC d)%C -> 0 < p.
Proof. exact L_C16_rational_part. Qed.
Print Assumptions C16_rational_part.

(** So it is the principal one exactly when the principal one has a positive rational part *)
Theorem C16_principal_iff : forall g t x y v p q d r, normal g x -> ~ rational_num (sval x) -> from_sqrt_surd g t x = Ok (SqOk y) ->
  (v * v)%C = sval x -> principal v -> 0 < d -> v = ((ZtoC p + ZtoC q * csqrt r) / ZtoC d)%C -> (principal (sval y) <-> 0 < p).
Proof. exact L_C16_principal_iff. Qed.
Print Assumptions C16_principal_iff.

Example C16_sharp_case : normal (Cfg false true) (new_raw 3 (-2) 1 2) /\ from_sqrt_surd (Cfg false true) (SInt 64) (new_raw 3 (-2) 1 2) = Ok (SqOk (new_raw 1 (-1) 1 2)) /\
  from_sqrt_surd (Cfg false true) (SInt 64) (new_raw 11 (-6) 1 2) = Ok (SqOk (new_raw 3 (-1) 1 2)).
Proof. check. Qed.

(** ** C52  fract() *)

(** fract() returns exactly for real surds, for imaginary parts below 1, and for roots that are minus a square; else it panics *)
Theorem C52_fract_iff : forall g s, normal g s ->
  (returns (surd_fract g BigI s) <-> (Rabs (snd (sval s)) < 1)%R \/ exists k, discr s = - (k * k)) /\
  (~ returns (surd_fract g BigI s) -> surd_fract g BigI s = Panic PIncompatible).
Proof. exact L_C52_fract_iff. Qed.
Print Assumptions C52_fract_iff.

Example C52_fract_case : normal (Cfg true true) (new_raw 1 2 1 (-2)) /\ surd_fract (Cfg true true) BigI (new_raw 1 2 1 (-2)) = Panic PIncompatible /\
  surd_fract (Cfg true true) BigI (new_raw 7 1 3 (-2)) = Ok (new_raw 1 1 3 (-2)) /\ surd_fract (Cfg true true) BigI (new_raw 7 5 3 (-1)) = Ok (new_raw 1 2 3 (-1)).
Proof. check. Qed.

(** ** C33  Operators between two continued fractions *)

(** With a finite right operand: as for rational operands *)
Theorem C33_finite_right_returns : forall g x y, wfcf x -> returns (surd_of_cf g BigU x) -> wfcf y -> finite y ->
  (finite x \/ cf_domain (cf_val x + cf_val y) -> exists n0, forall fuel, (n0 <= fuel)%nat -> returns (cf_add g BigU fuel x y)) /\
  (finite x \/ cf_domain (cf_val x - cf_val y) -> exists n0, forall fuel, (n0 <= fuel)%nat -> returns (cf_sub g BigU fuel x y)) /\
  (finite x \/ cf_domain (cf_val x * cf_val y) -> exists n0, forall fuel, (n0 <= fuel)%nat -> returns (cf_mul g BigU fuel x y)) /\
  (cf_val y <> 0%R -> finite x \/ cf_domain (cf_val x / cf_val y) -> exists n0, forall fuel, (n0 <= fuel)%nat -> returns (cf_div g BigU fuel x y)).
Proof. exact L_C33_finite_right_returns. Qed.
Print Assumptions C33_finite_right_returns.

(** With an infinite right operand: they return when both operands convert to surds, the roots of the surds are nested (see C06) and the
    result is in the domain of the conversion back *)
Theorem C33_between_returns_partial : forall g x y s r, wfcf x -> wfcf y -> ~ finite y ->
  surd_of_cf g BigU x = Ok s -> surd_of_cf g BigU y = Ok r -> nested_roots s r ->
  (cf_domain (cf_val x + cf_val y) -> exists n0, forall fuel, (n0 <= fuel)%nat -> returns (cf_add g BigU fuel x y)) /\
  (cf_domain (cf_val x - cf_val y) -> exists n0, forall fuel, (n0 <= fuel)%nat -> returns (cf_sub g BigU fuel x y)) /\
  (cf_domain (cf_val x * cf_val y) -> exists n0, forall fuel, (n0 <= fuel)%nat -> returns (cf_mul g BigU fuel x y)) /\
  (cf_val x <> 0%R -> cf_domain (cf_val x / cf_val y) -> exists n0, forall fuel, (n0 <= fuel)%nat -> returns (cf_div g BigU fuel x y)).
Proof. exact L_C33_between_returns_partial. Qed.
Print Assumptions C33_between_returns_partial.

(** When the roots are not nested, sums and differences panic, and so do products and quotients unless both operands are multiples of
    a square root *)
Theorem C33_between_panics : forall g x y s r fuel, wfcf x -> wfcf y -> ~ finite y ->
  surd_of_cf g BigU x = Ok s -> surd_of_cf g BigU y = Ok r -> ~ nested_roots s r ->
  cf_add g BigU fuel x y = Panic PIncompatible /\ cf_sub g BigU fuel x y = Panic PIncompatible /\
  (~ (pure_surd s /\ pure_surd r) -> cf_mul g BigU fuel x y = Panic PIncompatible /\ cf_div g BigU fuel x y = Panic PIncompatible).
Proof. exact L_C33_between_panics. Qed.
Print Assumptions C33_between_panics.

Example C33_between_case : wfcf (CF [1] [2] false) /\ wfcf (CF [2] [1; 4] false) /\ ~ finite (CF [1] [2] false) /\
  surd_of_cf (Cfg false true) BigU (CF [1] [2] false) = Ok (new_raw 0 1 1 2) /\
  nested_roots (new_raw 0 1 1 2) (new_raw 0 1 1 2) /\ cf_add (Cfg false true) BigU 20 (CF [1] [2] false) (CF [1] [2] false) = Ok (CF [2] [1; 4] false) /\
  cf_add (Cfg false true) BigU 20 (CF [1] [2] false) (CF [1] [1; 2] false) = Panic PIncompatible /\
  cf_sub (Cfg false true) BigU 20 (CF [2] [1; 4] false) (CF [2; 2] nil false) = Ok (CF [0] [3; 22; 3; 5] false).
Proof.
  split; [cbn; repeat split; repeat constructor; discriminate|]. split; [cbn; repeat split; repeat constructor; discriminate|]. split; [discriminate|].
  split; [vm_compute; reflexivity|]. split; [right; right; exists 1; split; [lia|left; reflexivity]|]. split; [vm_compute; reflexivity|]. split; vm_compute; reflexivity.
Qed.

(** ** C31  ContinuedFraction::new *)

(** All finite lists of coefficients of any sign, of absolute value 2 or more after the first: the result is right exactly if not the first coefficient
    (negated for negated fractions) is -1 and the second one of the opposite sign, when it has the wrong sign *)
Theorem C31_steep_iff : forall g t a0 l b y, fits t 1 = true -> List.Forall (fun v => fits t v = true) (a0 :: l) -> List.Forall (fun v => 2 <= Z.abs v) l ->
  cf_new g t (a0 :: l) nil b = Ok y -> canonical y /\ finite y /\
  (cf_val y = cf_val (CF (a0 :: l) nil b) <-> ~ (sgnb b * a0 = -1 /\ exists a1 l', l = a1 :: l' /\ a0 * a1 < 0)) /\
  (cf_val y = cf_val (CF (a0 :: l) nil b) \/ cf_val y = (- cf_val (CF (a0 :: l) nil b))%R).
Proof. exact L_C31_steep_iff. Qed.
Print Assumptions C31_steep_iff.

(** and the call always returns *)
Theorem C31_steep_returns : forall g a0 l b, List.Forall (fun v => 2 <= Z.abs v) l -> returns (cf_new g BigI (a0 :: l) nil b).
Proof. exact L_C31_steep_returns. Qed.
Print Assumptions C31_steep_returns.

Example C31_steep_case : cf_new (Cfg false true) (SInt 64) [-1; 3; -4] nil false = Ok (CF [0; 1; 1; 1; 3] nil false) /\
  cf_new (Cfg false true) (SInt 64) [-1; -3; 4] nil false = Ok (CF [1; 2; 1; 3] nil true) /\ List.Forall (fun v => 2 <= Z.abs v) [3; -4].
Proof. split; [vm_compute; reflexivity|]. split; [vm_compute; reflexivity|]. repeat constructor; discriminate. Qed.
