(** * PropsFloat: property theorems about floating point (C53-C56).

    Only statements: every theorem is closed by the lemma of the same name in
    ClaimsFloat.v.  [f64], [B2R] and [is_finite] are those of the Flocq library. *)

From Coq Require Import ZArith Reals Lia Lra Bool.
From Coquelicot Require Import Coquelicot.
From Flocq Require Import Core BinarySingleNaN.
From Verif Require Import Base Ext ModelSurd ModelFloat Spec SpecF64 ClaimsFloat.
Open Scope Z_scope.

(** ** C53  to_f64 *)

(** to_f64 answers None exactly for the surds that are not real *)
Theorem C53_none : forall g s, normal g s -> (surd_to_f64 s = None <-> ~ exists x : R, sval s = RtoC x).
Proof. exact L_C53_none. Qed.
Print Assumptions C53_none.

(** If the integers of the surd are at most 2^500, to_f64 is off by at most 2^-50 times the size of the terms that are added *)
Theorem C53_error : forall g s x, normal g s -> sval s = RtoC x -> small s (2 ^ 500) ->
  exists f, surd_to_f64 s = Some f /\ accurate f x (eps50 * term_size s).
Proof. exact L_C53_error. Qed.
Print Assumptions C53_error.

(** Hence the relative error is at most 2^-50 unless the two terms cancel *)
Theorem C53_relative : forall g s x, normal g s -> sval s = RtoC x -> small s (2 ^ 500) -> 0 <= c0 (coeffs s) * c1 (coeffs s) ->
  exists f, surd_to_f64 s = Some f /\ accurate f x (eps50 * Rabs x).
Proof. exact L_C53_relative. Qed.
Print Assumptions C53_relative.

(** The bound on the integers holds for every primitive signed type *)
Theorem C53_primitive : forall bits g s x, 0 < bits <= 128 -> List.Forall (fun z => fits (SInt bits) z = true) (c0 (coeffs s) :: c1 (coeffs s) :: c2 (coeffs s) :: discr s :: nil) ->
  normal g s -> sval s = RtoC x -> exists f, surd_to_f64 s = Some f /\ accurate f x (eps50 * term_size s).
Proof. exact L_C53_primitive. Qed.
Print Assumptions C53_primitive.

(** A rational with numerator and denominator up to 2^53 becomes the nearest f64 *)
Theorem C53_rational : forall g s x, normal g s -> sval s = RtoC x -> c1 (coeffs s) = 0 -> small s (2 ^ 53) ->
  exists f, surd_to_f64 s = Some f /\ nearest f x.
Proof. exact L_C53_rational. Qed.
Print Assumptions C53_rational.

(** The square root of an integer up to 2^53 becomes the nearest f64 *)
Theorem C53_root : forall r, 0 <= r <= 2 ^ 53 -> exists f, surd_to_f64 (Surd (SCo 0 1 1) r) = Some f /\ nearest f (sqrt (IZR r)).
Proof. exact L_C53_root. Qed.
Print Assumptions C53_root.

(** (1 + sqrt 5) / 2 becomes 1.618033988749895 = 7286977268806824 * 2^-52 *)
Example C53_golden : normal (Cfg false true) (Surd (SCo 1 1 2) 5) /\ small (Surd (SCo 1 1 2) 5) (2 ^ 500) /\
  option_map B2SF (surd_to_f64 (Surd (SCo 1 1 2) 5)) = Some (SpecFloat.S754_finite false 7286977268806824 (-52)).
Proof. split; [exact golden_normal|]. split; [exact golden_small|]. vm_compute. reflexivity. Qed.

(** The relative error is not bounded when the terms cancel: 131836323 - 93222358 sqrt 2 > 0 is converted to zero *)
Theorem C53_cancellation_refuted : exists s x f, normal (Cfg false true) s /\ small s (2 ^ 31) /\ sval s = RtoC x /\ (0 < x)%R /\ surd_to_f64 s = Some f /\ B2R f = 0%R.
Proof. exact L_C53_cancellation_refuted. Qed.
Print Assumptions C53_cancellation_refuted.

(** Nor is the answer finite for all integers of arbitrary size: (2^1100 + 1) / 2^1100 becomes NaN *)
Theorem C53_range_refuted : exists s x f, normal (Cfg false true) s /\ sval s = RtoC x /\ (1 < x < 2)%R /\ surd_to_f64 s = Some f /\ is_nan f = true.
Proof. exact L_C53_range_refuted. Qed.
Print Assumptions C53_range_refuted.

(** 1/3 and the square root of 2 *)
Example C53_simple : normal (Cfg false true) (Surd (SCo 1 0 3) 0) /\ small (Surd (SCo 1 0 3) 0) (2 ^ 53) /\
  option_map B2SF (surd_to_f64 (Surd (SCo 1 0 3) 0)) = Some (SpecFloat.S754_finite false 6004799503160661 (-54)) /\
  option_map B2SF (surd_to_f64 (Surd (SCo 0 1 1) 2)) = Some (SpecFloat.S754_finite false 6369051672525773 (-52)).
Proof. split; [exact third_normal|]. split; [exact third_small|]. split; vm_compute; reflexivity. Qed.

(** ** C54  to_complex64 and to_complex32 *)

(** Every surd has a complex64; a real one gets its to_f64 and the imaginary part zero *)
Theorem C54_real : forall s, real_surd s -> exists re, surd_to_f64 s = Some re /\ surd_to_complex64 s = Some (re, fzero).
Proof. exact L_C54_real. Qed.
Print Assumptions C54_real.

(** Both parts of a surd that is not real have a relative error of at most 2^-50 *)
Theorem C54_error : forall g s, normal g s -> discr s < 0 -> small s (2 ^ 500) ->
  exists re im, surd_to_complex64 s = Some (re, im) /\
    accurate re (Re (sval s)) (eps50 * Rabs (Re (sval s))) /\ accurate im (Im (sval s)) (eps50 * Rabs (Im (sval s))).
Proof. exact L_C54_error. Qed.
Print Assumptions C54_error.

(** to_complex32 rounds both parts of to_complex64 to the nearest f32 *)
Theorem C54_single : forall s re im, surd_to_complex64 s = Some (re, im) ->
  exists re' im', surd_to_complex32 s = Some (re', im') /\
    (is_finite re = true -> (Rabs (B2R re) <= bpow radix2 127)%R -> nearest re' (B2R re)) /\
    (is_finite im = true -> (Rabs (B2R im) <= bpow radix2 127)%R -> nearest im' (B2R im)).
Proof. exact L_C54_single. Qed.
Print Assumptions C54_single.

(** Parts that are infinite or NaN stay what they are, and parts from 2^128 on become infinite *)
Theorem C54_single_range : forall s re im, surd_to_complex64 s = Some (re, im) ->
  exists re' im', surd_to_complex32 s = Some (re', im') /\ single_range re re' /\ single_range im im'.
Proof. exact L_C54_single_range. Qed.
Print Assumptions C54_single_range.

(** (1 + sqrt (-3)) / 2 *)
Example C54_omega : normal (Cfg true true) (Surd (SCo 1 1 2) (-3)) /\ discr (Surd (SCo 1 1 2) (-3)) < 0 /\ small (Surd (SCo 1 1 2) (-3)) (2 ^ 500) /\
  option_map (fun p => (B2SF (fst p), B2SF (snd p))) (surd_to_complex64 (Surd (SCo 1 1 2) (-3))) =
    Some (SpecFloat.S754_finite false 4503599627370496 (-53), SpecFloat.S754_finite false 7800463371553962 (-53)) /\
  option_map (fun p => (B2SF (fst p), B2SF (snd p))) (surd_to_complex32 (Surd (SCo 1 1 2) (-3))) =
    Some (SpecFloat.S754_finite false 8388608 (-24), SpecFloat.S754_finite false 14529495 (-24)).
Proof. split; [exact omega_normal|]. split; [reflexivity|]. split; [exact omega_small|]. split; vm_compute; reflexivity. Qed.

(** ** C55  E::value and Pi::value *)

(** No f64 is closer to e than E::value *)
Theorem C55_e : nearest e_value (exp 1).
Proof. exact L_C55_e. Qed.
Print Assumptions C55_e.

(** No f64 is closer to pi than Pi::value *)
Theorem C55_pi : nearest pi_value PI.
Proof. exact L_C55_pi. Qed.
Print Assumptions C55_pi.

(** The two numbers *)
Example C55_values : B2SF e_value = SpecFloat.S754_finite false 6121026514868073 (-51) /\ B2SF pi_value = SpecFloat.S754_finite false 7074237752028440 (-51).
Proof. split; vm_compute; reflexivity. Qed.

(** ** C56  from_f64 *)

(** The surd has the value of the rational that Ratio::from_f64 found, and is in normal form *)
Theorem C56_value : forall t g q s, lowest q -> surd_from_f64 t (Some q) = Ok (Some s) -> sval s = qC q /\ normal g s.
Proof. exact L_C56_value. Qed.
Print Assumptions C56_value.

(** It answers None exactly when there is no such rational or its parts do not fit the type; it never panics *)
Theorem C56_total : forall t q, lowest q -> returns (surd_from_f64 t (Some q)) /\
  (surd_from_f64 t (Some q) = Ok None <-> fits t (numer q) = false \/ fits t (denom q) = false) /\ surd_from_f64 t None = Ok None.
Proof. exact L_C56_total. Qed.
Print Assumptions C56_total.

(** 0.75 *)
Example C56_case : lowest (Ratio 3 4) /\ surd_from_f64 (SInt 32) (Some (Ratio 3 4)) = Ok (Some (Surd (SCo 3 0 4) 0)) /\ surd_from_f64 (SInt 8) (Some (Ratio 1000 3)) = Ok None.
Proof. split; [split; [cbn; lia|reflexivity]|]. split; vm_compute; reflexivity. Qed.
