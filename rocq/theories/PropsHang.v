(** * PropsHang: more theorems on property C34.

    Only statements: every theorem is closed by the lemma of the same name in
    ClaimsHang.v. *)

From Coq Require Import ZArith Reals Lia Lra Bool List Arith.
From Coquelicot Require Import Coquelicot.
From Verif Require Import Base Ext ModelSurd ModelBlock ModelCF ModelConv Spec SpecCF SpecHang NumFacts ClaimsHang.
Import ListNotations.
Open Scope Z_scope.

(** ** C34  Exactly when the conversion of a surd returns.  Together with C34_err, C34_value and C34_rational_panics
    this says what the conversion does for every surd in normal form. *)

(** The conversion of an irrational real surd never returns exactly when its continued fraction leads to -(n + sqrt D)/m *)
Theorem C34_hangs_iff : forall g s x xc w, normal g s -> sval s = RtoC x -> sconj s = RtoC xc -> ~ rational_num (sval s) ->
  loop_number s x xc w -> ((forall fuel, surd_to_cf g BigI fuel s = Hang) <-> trapped s w).
Proof. exact L_C34_hangs_iff. Qed.
Print Assumptions C34_hangs_iff.

(** and returns in all other cases *)
Theorem C34_returns_iff : forall g s x xc w, normal g s -> sval s = RtoC x -> sconj s = RtoC xc -> ~ rational_num (sval s) ->
  loop_number s x xc w -> ((exists n0, forall fuel, (n0 <= fuel)%nat -> exists z, surd_to_cf g BigI fuel s = Ok (Some z)) <-> ~ trapped s w).
Proof. exact L_C34_returns_iff. Qed.
Print Assumptions C34_returns_iff.

(** Rational surds: a failed debug_assert! in debug builds, a division by zero in release builds *)
Theorem C34_rational_panics : forall g s, normal g s -> rational_num (sval s) ->
  (dbg g = true -> forall fuel, surd_to_cf g BigI fuel s = Panic PDebugAssert) /\
  (dbg g = false -> exists n0, forall fuel, (n0 <= fuel)%nat -> surd_to_cf g BigI fuel s = Panic PDivZero).
Proof. exact L_C34_rational_panics. Qed.
Print Assumptions C34_rational_panics.

(** A whole family: k - sqrt (n^2 + 1) never returns if it is positive *)
Theorem C34_hang_family : forall g n k fuel, 1 <= n -> n < k -> surd_to_cf g BigI fuel (Surd (SCo k (-1) 1) (n * n + 1)) = Hang.
Proof. exact L_C34_hang_family. Qed.
Print Assumptions C34_hang_family.

(** Not only numbers below their conjugate: (3 + sqrt 2)/7 is above its conjugate, and never returns *)
Theorem C34_hang_above_refuted : let s := Surd (SCo 3 1 7) 2 in exists x xc, normal (Cfg false true) s /\ sval s = RtoC x /\ sconj s = RtoC xc /\
  (0 < xc < x)%R /\ forall fuel, surd_to_cf (Cfg false true) BigI fuel s = Hang.
Proof. exact L_C34_hang_above_refuted. Qed.
Print Assumptions C34_hang_above_refuted.

Example C34_case_rational : normal (Cfg false true) (Surd (SCo 17 0 7) 0) /\ rational_num (sval (Surd (SCo 17 0 7) 0)) /\
  surd_to_cf (Cfg false true) BigI 20 (Surd (SCo 17 0 7) 0) = Panic PDebugAssert /\ surd_to_cf (Cfg false false) BigI 20 (Surd (SCo 17 0 7) 0) = Panic PDivZero.
Proof.
  split; [unfold normal, parts; cbn [coeffs c0 c1 c2 discr]; split; [lia|]; split; [reflexivity|]; split; [auto|intros; lia]|]. split; [|split; reflexivity].
  exists 17, 7. split; [lia|]. unfold sval. cbn [parts coeffs c0 c1 c2 discr]. rewrite ZtoC_0. f_equal. ring.
Qed.

(** 4 - sqrt 10 (n = 3, k = 4) is in the family; 3 - sqrt 10 is negative and returns *)
Example C34_case_family : surd_to_cf (Cfg false true) BigI 1000 (Surd (SCo 4 (-1) 1) (3 * 3 + 1)) = Hang /\
  exists z, surd_to_cf (Cfg false true) BigI 1000 (Surd (SCo 3 (-1) 1) (3 * 3 + 1)) = Ok (Some z).
Proof. split; [vm_compute; reflexivity|]. eexists. vm_compute. reflexivity. Qed.
