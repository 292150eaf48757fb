(** * PropsMisc: property theorems about printing (C39, C65) and signed/unsigned conversions (C49).

    Only statements: every theorem is closed by the lemma of the same name in
    ClaimsMisc.v. *)

From Coq Require Import ZArith Bool List String.
From Coquelicot Require Import Complex.
From Verif Require Import Base Ext ModelSurd ModelCF ModelFmt Spec SpecText ClaimsMisc.
Import ListNotations.
Open Scope Z_scope.

(** ** C39  Display *)

(** Surds, for both formats, even mixed and at different widths *)
Theorem C39_surd : forall g t t' alt alt' s s' text, normal g s -> normal g s' ->
  surd_fmt t alt s = Ok text -> surd_fmt t' alt' s' = Ok text -> s = s'.
Proof. exact L_C39_surd. Qed.
Print Assumptions C39_surd.

(** Continued fractions, with any coefficients at all *)
Theorem C39_cf : forall x y text, cf_fmt x = Ok text -> cf_fmt y = Ok text -> x = y.
Proof. exact L_C39_cf. Qed.
Print Assumptions C39_cf.

(** Printing returns *)
Theorem C39_returns : forall alt s x, (exists text, surd_fmt BigI alt s = Ok text) /\ (a_coeffs x <> nil -> exists text, cf_fmt x = Ok text).
Proof. exact L_C39_returns. Qed.
Print Assumptions C39_returns.

(** Without the normal form it is false: the texts of 0/1 and of (0 + 0 sqrt 5)/3 are both "0" *)
Theorem C39_not_normal_refuted : exists s s', s <> s' /\ surd_fmt BigI false s = surd_fmt BigI false s'.
Proof. exact L_C39_not_normal_refuted. Qed.
Print Assumptions C39_not_normal_refuted.

Example C39_case : normal (Cfg true true) (Surd (SCo (-3) (-2) 7) (-5)) /\
  surd_fmt BigI true (Surd (SCo (-3) (-2) 7) (-5)) = Ok "(-3-2√5i)/7"%string /\
  surd_fmt BigI false (Surd (SCo (-3) (-2) 7) (-5)) = Ok "(-3-2√-5)/7"%string /\
  cf_fmt (CF [1; 2] [3; 4] true) = Ok "-[1; 2, (3, 4)]"%string.
Proof. split; [apply C39_case_normal|]. repeat split; vm_compute; reflexivity. Qed.

(** ** C65  The meaning of the printed text *)

(** [reads] evaluates the text with the usual conventions of arithmetic; no normal form needed *)
Theorem C65_surd : forall t alt s text, 0 < c2 (coeffs s) -> surd_fmt t alt s = Ok text -> reads text = Some (sval s).
Proof. exact L_C65_surd. Qed.
Print Assumptions C65_surd.

(** Reading the bracket notation back gives the continued fraction *)
Theorem C65_cf : forall x text, List.Forall (fun v => 0 <= v) (a_coeffs x ++ p_coeffs x) -> cf_fmt x = Ok text -> reads_cf text = Some x.
Proof. exact L_C65_cf. Qed.
Print Assumptions C65_cf.

(** "2+3√5/4" would be another number: the parentheses are needed *)
Example C65_case : surd_fmt BigI false (Surd (SCo 2 3 4) 5) = Ok "(2+3√5)/4"%string /\
  reads "2+3√5/4" = Some (ZtoC 2 + ZtoC 3 * csqrt 5 / ZtoC 4)%C /\ reads "2+*3" = None /\
  cf_fmt (CF [1; 2] [3; 4] true) = Ok "-[1; 2, (3, 4)]"%string /\ reads_cf "-[1; 2, (3, 4)]" = Some (CF [1; 2] [3; 4] true) /\ reads_cf "[1, 2]" = None.
Proof. repeat split. Qed.

(** ** C49  to_signed and to_unsigned *)

(** Values representable in both types are kept, in both directions *)
Theorem C49_kept : forall t z, fits (sty t) z = true -> fits (uty t) z = true ->
  to_unsigned (sty t) z = Ok z /\ to_signed (uty t) z = z /\ to_unsigned (uty t) z = Ok z /\ to_signed (sty t) z = z.
Proof. exact L_C49_kept. Qed.
Print Assumptions C49_kept.

(** Signed to unsigned and back is the identity on every value of the signed type, representable or not *)
Theorem C49_back_and_forth : forall t z v, (forall n, t = SInt n -> 1 <= n) -> sty t = t -> fits t z = true -> to_unsigned t z = Ok v ->
  fits (uty t) v = true /\ to_signed (uty t) v = z.
Proof. exact L_C49_back_and_forth. Qed.
Print Assumptions C49_back_and_forth.

(** Unsigned to signed and back likewise *)
Theorem C49_forth_and_back : forall t z, (forall n, t = UInt n -> 1 <= n) -> uty t = t -> fits t z = true ->
  fits (sty t) (to_signed t z) = true /\ to_unsigned (sty t) (to_signed t z) = Ok z.
Proof. exact L_C49_forth_and_back. Qed.
Print Assumptions C49_forth_and_back.

(** No silent change.  Full statement: for every type; missing: fixed width, where the casts wrap
    (C49_signed_refuted, C49_unsigned_refuted).  Proved for BigInt and BigUint. *)
Theorem C49_no_silent_change_partial : forall z v, (to_unsigned BigI z = Ok v -> v = z /\ 0 <= z) /\ (z < 0 -> to_unsigned BigI z = Panic PUnwrap) /\ to_signed BigU z = z.
Proof. exact L_C49_no_silent_change_partial. Qed.
Print Assumptions C49_no_silent_change_partial.

(** -1i8 becomes 255u8, at every width *)
Theorem C49_unsigned_refuted : forall n, 1 <= n -> exists z v, fits (SInt n) z = true /\ to_unsigned (SInt n) z = Ok v /\ v <> z.
Proof. exact L_C49_unsigned_refuted. Qed.
Print Assumptions C49_unsigned_refuted.

(** 255u8 becomes -1i8, at every width *)
Theorem C49_signed_refuted : forall n, 1 <= n -> exists z, fits (UInt n) z = true /\ to_signed (UInt n) z <> z.
Proof. exact L_C49_signed_refuted. Qed.
Print Assumptions C49_signed_refuted.

Example C49_case : fits (SInt 16) 1234 = true /\ fits (UInt 16) 1234 = true /\ to_unsigned (SInt 16) 1234 = Ok 1234 /\
  to_unsigned (SInt 16) (-1234) = Ok 64302 /\ to_signed (UInt 16) 64302 = -1234.
Proof. repeat split; reflexivity. Qed.
