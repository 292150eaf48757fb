(** * ClaimsConv: proofs of the property theorems in PropsConv.v. *)

From Coq Require Import ZArith Znumtheory Reals Lia Lra Bool List Arith.
From Coquelicot Require Import Coquelicot.
From Verif Require Import Base Ext ModelSurd ModelBlock ModelCF ModelConv Spec SpecCF SpecBound SpecSmall SurdDecide CFBound SmallCF ClaimsCF ClaimsBound.
Import ListNotations.
Open Scope Z_scope.

Lemma L_C85_to_cf : forall g n K s x fuel, 4 <= K -> K ^ 5 < 2 ^ (n - 1) -> normal g s -> small K s -> sval s = RtoC x -> cf_domain x ->
  surd_to_cf g (SInt n) fuel s = surd_to_cf g BigI fuel s.
Proof.
  intros g n K s x fuel HK H N S E D. exact (to_cf_small g n K HK H s x fuel N S E D).
Qed.

Lemma L_C85_to_cf_exact : forall g n K s x fuel, 4 <= K -> K ^ 5 < 2 ^ (n - 1) -> normal g s -> small K s -> sval s = RtoC x -> cf_domain x ->
  (3 + period_bound s <= fuel)%nat -> exists z, surd_to_cf g (SInt n) fuel s = Ok (Some z) /\ canonical z /\ ~ finite z /\ cf_val z = x.
Proof.
  intros g n K s x fuel HK H N S E D F. rewrite (to_cf_small g n K HK H s x fuel N S E D).
  destruct (L_C75_surd_returns g s x fuel N E D F) as [z Ez]. exists z. split; [exact Ez|].
  exact (CFArith.surd_to_cf_dom g BigI fuel s x z eq_refl N E D Ez).
Qed.

Lemma L_C85_approximated : forall g n K s x limit fuel, 4 <= K -> 1 <= limit -> K ^ 5 * limit < 2 ^ (n - 1) -> normal g s -> small K s -> sval s = RtoC x -> cf_domain x ->
  surd_approximated g (SInt n) fuel s limit = surd_approximated g BigI fuel s limit.
Proof.
  intros g n K s x limit fuel HK Hl H N S E D. exact (approx_small g n K limit fuel s x HK Hl H N S E D).
Qed.

Lemma L_C85_approximated_returns : forall g n K s x limit fuel, 4 <= K -> 1 <= limit -> K ^ 5 * limit < 2 ^ (n - 1) -> normal g s -> small K s -> sval s = RtoC x -> cf_domain x ->
  (3 + period_bound s <= fuel)%nat -> limit <= fib (S fuel) -> returns (surd_approximated g (SInt n) fuel s limit).
Proof.
  intros g n K s x limit fuel HK Hl H N S E D F L. rewrite (approx_small g n K limit fuel s x HK Hl H N S E D). exact (L_C75_surd_approximated g s x limit fuel N E D F L).
Qed.

Lemma L_C85_coefficients : forall g fuel s x z, normal g s -> sval s = RtoC x -> cf_domain x -> surd_to_cf g BigI fuel s = Ok (Some z) ->
  isfloor (Rabs x) (hd 0 (a_coeffs z)) /\ List.Forall (fun v => 1 <= v <= 2 * root_size s) (tl (a_coeffs z)) /\ List.Forall (fun v => 1 <= v <= 2 * root_size s) (p_coeffs z).
Proof.
  intros g fuel s x z N E D H. destruct (to_cf_coeffs g fuel s x z N E D H) as (n & l & pl & ng & -> & Hn & _ & Fl & _ & Fp). cbn [a_coeffs p_coeffs hd tl]. auto.
Qed.
