(** * ClaimsBound: proofs of the property theorems in PropsBound.v. *)

From Coq Require Import ZArith Znumtheory Reals Lia Lra Bool List Arith.
From Coquelicot Require Import Coquelicot.
From Verif Require Import Base Ext ModelSurd ModelBlock ModelCF ModelConv Spec SpecCF SpecBound NumFacts Transfer SurdCore RatioFacts SurdArith SurdTotal SurdOrd SurdRound SurdMisc SurdConv SurdSqrt SurdDecide
  CFCore CFSeq CFIter CFBasic CFSurd CFNew CFOfSurd CFRound CFArith CFShort CFBound.
Import ListNotations.
Open Scope Z_scope.

Lemma L_C75_denominators : forall x n r, wfcf x -> nth_item (conv_next BigU) n (cf_convergents x) = Ok (Some r) -> fib (S n) <= denom r.
Proof.
  intros x n r W E. rewrite (conv_nth BigU x n W (fun j _ => big_fit x j W)) in E. injection E as E.
  destruct (has_dec x n) as [H|H]; [|unfold conv_item in E; rewrite H in E; discriminate].
  destruct (conv_item_convergent x n W H) as (r' & E' & C). rewrite E in E'. inversion E'; subst r'. apply (convergent_fib x n r W H C).
Qed.

Lemma L_C75_ratio_length : forall t r x, lowest r -> cf_of_ratio t r = Ok x ->
  fib (S (length (a_coeffs x))) <= denom r /\ Z.of_nat (length (a_coeffs x)) <= 2 * Z.log2 (denom r) + 1.
Proof.
  intros t r x L H. destruct (cf_of_ratio_ok t r x L H) as (C & F & V). pose proof (lame x r C F L V) as K. split; [exact K|apply fib_log; exact K].
Qed.

Lemma L_C75_approximated : forall x limit fuel, wfcf x -> (1 <= fuel)%nat -> limit <= fib (S fuel) -> returns (cf_approximated BigU fuel x limit).
Proof. exact approx_steps. Qed.

Lemma L_C75_approximated_log : forall x limit fuel, wfcf x -> 2 * Z.log2_up limit + 1 <= Z.of_nat fuel -> returns (cf_approximated BigU fuel x limit).
Proof. intros x limit fuel W H. destruct (fib_limit limit fuel H). apply approx_steps; auto. Qed.

Lemma L_C75_approximated_tight : forall limit fuel, fib (S fuel) < limit -> cf_approximated BigU fuel (CF [1] [1] false) limit = Hang.
Proof. exact golden_slow. Qed.

Lemma L_C75_surd_period : forall g t fuel s x z, fits t 1 = true -> normal g s -> sval s = RtoC x -> ~ rational_num (sval s) -> surd_to_cf g t fuel s = Ok (Some z) ->
  (length (p_coeffs z) <= period_bound s)%nat /\ List.Forall (fun v => v <= 2 * root_size s) (p_coeffs z).
Proof. exact surd_to_cf_period. Qed.

Lemma L_C75_surd_start : forall g t fuel s x z, fits t 1 = true -> normal g s -> sval s = RtoC x -> cf_domain x -> surd_to_cf g t fuel s = Ok (Some z) ->
  (length (a_coeffs z) <= 2)%nat.
Proof. intros g t fuel s x z F N E D H. apply (surd_to_cf_bound g t fuel s x z F N E D H). Qed.

Lemma L_C75_surd_returns : forall g s x fuel, normal g s -> sval s = RtoC x -> cf_domain x -> (3 + period_bound s <= fuel)%nat ->
  exists z, surd_to_cf g BigI fuel s = Ok (Some z).
Proof. exact surd_to_cf_steps. Qed.

Lemma L_C75_surd_approximated : forall g s x limit fuel, normal g s -> sval s = RtoC x -> cf_domain x -> (3 + period_bound s <= fuel)%nat -> limit <= fib (S fuel) ->
  returns (surd_approximated g BigI fuel s limit).
Proof. exact surd_approx_steps. Qed.

Lemma L_C75_reduced : forall g s fuel, normal g s -> ~ rational_num (sval s) -> Z.log2 (Z.abs (discr s)) < Z.of_nat fuel -> returns (surd_reduced BigI fuel s).
Proof. exact surd_reduced_steps. Qed.
