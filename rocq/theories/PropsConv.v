(** * PropsConv: property C85, fixed-width surds to continued fractions.

    Only statements: every theorem is closed by the lemma of the same name in
    ClaimsConv.v. *)

From Coq Require Import ZArith Reals Lia Lra Bool List Arith.
From Coquelicot Require Import Coquelicot.
From Verif Require Import Base Ext ModelSurd ModelBlock ModelCF ModelConv Spec SpecCF SpecBound SpecSmall SurdDecide ClaimsCF ClaimsConv.
Import ListNotations.
Open Scope Z_scope.

(** ** C85  Surds with small components are converted and approximated without overflow *)

(** Components at most K in absolute value, with K^5 below 2^(n-1): the signed n-bit conversion answers as over arbitrary precision *)
Theorem C85_to_cf : forall g n K s x fuel, 4 <= K -> K ^ 5 < 2 ^ (n - 1) -> normal g s -> small K s -> sval s = RtoC x -> cf_domain x ->
  surd_to_cf g (SInt n) fuel s = surd_to_cf g BigI fuel s.
Proof. exact L_C85_to_cf. Qed.
Print Assumptions C85_to_cf.

(** so it returns, and what it returns is the number *)
Theorem C85_to_cf_exact : forall g n K s x fuel, 4 <= K -> K ^ 5 < 2 ^ (n - 1) -> normal g s -> small K s -> sval s = RtoC x -> cf_domain x ->
  (3 + period_bound s <= fuel)%nat -> exists z, surd_to_cf g (SInt n) fuel s = Ok (Some z) /\ canonical z /\ ~ finite z /\ cf_val z = x.
Proof. exact L_C85_to_cf_exact. Qed.
Print Assumptions C85_to_cf_exact.

(** approximated(limit) likewise, with K^5 times the limit below 2^(n-1) *)
Theorem C85_approximated : forall g n K s x limit fuel, 4 <= K -> 1 <= limit -> K ^ 5 * limit < 2 ^ (n - 1) -> normal g s -> small K s -> sval s = RtoC x -> cf_domain x ->
  surd_approximated g (SInt n) fuel s limit = surd_approximated g BigI fuel s limit.
Proof. exact L_C85_approximated. Qed.
Print Assumptions C85_approximated.

(** and returns within the number of rounds of arbitrary precision *)
Theorem C85_approximated_returns : forall g n K s x limit fuel, 4 <= K -> 1 <= limit -> K ^ 5 * limit < 2 ^ (n - 1) -> normal g s -> small K s -> sval s = RtoC x -> cf_domain x ->
  (3 + period_bound s <= fuel)%nat -> limit <= fib (S fuel) -> returns (surd_approximated g (SInt n) fuel s limit).
Proof. exact L_C85_approximated_returns. Qed.
Print Assumptions C85_approximated_returns.

(** The coefficients: the first is the integer part of |x|, all others are between 1 and 2 |b c| sqrt r *)
Theorem C85_coefficients : forall g fuel s x z, normal g s -> sval s = RtoC x -> cf_domain x -> surd_to_cf g BigI fuel s = Ok (Some z) ->
  isfloor (Rabs x) (hd 0 (a_coeffs z)) /\ List.Forall (fun v => 1 <= v <= 2 * root_size s) (tl (a_coeffs z)) /\ List.Forall (fun v => 1 <= v <= 2 * root_size s) (p_coeffs z).
Proof. exact L_C85_coefficients. Qed.
Print Assumptions C85_coefficients.

(** 32 bits: components up to 8 are safe.  16 bits: components up to 7 are, 9 sqrt 7 / 8 overflows *)
Example C85_case : 8 ^ 5 * 100 < 2 ^ 31 /\ 7 ^ 5 < 2 ^ 15 /\ normal (Cfg false true) (Surd (SCo 1 1 2) 8) /\ small 8 (Surd (SCo 1 1 2) 8) /\ sval (Surd (SCo 1 1 2) 8) = RtoC ((1 + sqrt 8) / 2) /\
  cf_domain ((1 + sqrt 8) / 2) /\ surd_to_cf (Cfg false true) (SInt 32) 20 (Surd (SCo 1 1 2) 8) = Ok (Some (CF [1] [1; 10; 1; 1] false)) /\
  surd_approximated (Cfg false true) (SInt 32) 20 (Surd (SCo 1 1 2) 8) 100 = Ok (Approximated (Ratio 67 35)) /\
  surd_to_cf (Cfg false true) (SInt 16) 200 (Surd (SCo 0 9 8) 7) = Panic POverflow /\ (exists z, surd_to_cf (Cfg false true) BigI 200 (Surd (SCo 0 9 8) 7) = Ok (Some z)).
Proof.
  destruct ClaimsCF.C34_case_proof as (N & D & E & _).
  split; [reflexivity|]. split; [reflexivity|]. split; [exact N|]. split; [unfold small; cbn; lia|]. split; [exact E|]. split; [exact D|].
  split; [vm_compute; reflexivity|]. split; [vm_compute; reflexivity|]. split; [vm_compute; reflexivity|]. eexists. vm_compute. reflexivity.
Qed.
