(** * PropsSteep: property C86.

    Only statements: every theorem is closed by the lemma of the same name in
    ClaimsSteep.v. *)

From Coq Require Import ZArith Reals Lia Lra Bool List Arith.
From Coquelicot Require Import Coquelicot.
From Verif Require Import Base Ext ModelBlock ModelCF ModelGen Spec SpecCF SpecGen SpecSpell ClaimsSteep.
Import ListNotations.
Open Scope Z_scope.

(** ** C86  simplify() turns a half-regular or nearest-integer fraction into the usual coefficients *)

(** simplify() on an endless fraction whose numerators after the first pair are 1 or -1 and whose denominators are at least 2 in
    absolute value: with arbitrary precision every item comes and is the coefficient of the number; at any width an item
    that comes is that coefficient and the end is never reported *)
Theorem C86_simplify : forall I (inext : I -> res (option (Z * Z) * I)) it f x, yields inext it f -> fst (f O) = 1 ->
  (forall n, (1 <= n)%nat -> Z.abs (fst (f n)) = 1 /\ 2 <= Z.abs (snd (f n))) -> spells f x -> irrational x ->
  (forall n, exists v fuel, cf_digit x n v /\ forall fuel', (fuel <= fuel')%nat -> nth_item (simp_next BigI inext fuel') n (gcf_simplify it) = Ok (Some v)) /\
  (forall t fuel n o, nth_item (simp_next t inext fuel) n (gcf_simplify it) = Ok o -> exists v, o = Some v /\ cf_digit x n v).
Proof. exact L_C86_simplify. Qed.
Print Assumptions C86_simplify.

(** homo(a, b, 0, d) with a, d in {1, -1} on coefficients of any sign that are at least 2 in absolute value after the first:
    the coefficients of (ax + b)/d, in particular of x + b, of -x and of x itself *)
Theorem C86_homo : forall I (inext : I -> res (option Z * I)) it f x a b d, yields inext it f -> Z.abs a = 1 -> Z.abs d = 1 ->
  (forall n, (1 <= n)%nat -> 2 <= Z.abs (f n)) -> cspells f x -> irrational x ->
  (forall n, exists v fuel, cf_digit ((IZR a * x + IZR b) / IZR d) n v /\
    forall fuel', (fuel <= fuel')%nat -> nth_item (homo_next BigI inext fuel') n (icf_homo it a b 0 d) = Ok (Some v)) /\
  (forall t fuel n o, nth_item (homo_next t inext fuel) n (icf_homo it a b 0 d) = Ok o -> exists v, o = Some v /\ cf_digit ((IZR a * x + IZR b) / IZR d) n v).
Proof. exact L_C86_homo. Qed.
Print Assumptions C86_homo.

(** Such a fraction always converges *)
Theorem C86_converges : forall f, (forall n, (1 <= n)%nat -> Z.abs (fst (f n)) = 1 /\ 2 <= Z.abs (snd (f n))) -> exists x, spells f x.
Proof. exact L_C86_converges. Qed.
Print Assumptions C86_converges.

(** Rational limits included, at any width all items have one sign and only the first can be 0 *)
Theorem C86_one_sign : forall t I (inext : I -> res (option (Z * Z) * I)) it f fuel m n v w, yields inext it f -> fst (f O) = 1 ->
  (forall n, (1 <= n)%nat -> Z.abs (fst (f n)) = 1 /\ 2 <= Z.abs (snd (f n))) ->
  nth_item (simp_next t inext fuel) m (gcf_simplify it) = Ok (Some v) -> nth_item (simp_next t inext fuel) n (gcf_simplify it) = Ok (Some w) ->
  0 <= v * w /\ ((1 <= n)%nat -> w <> 0).
Proof. exact L_C86_one_sign. Qed.
Print Assumptions C86_one_sign.

Theorem C86_one_sign_homo : forall t I (inext : I -> res (option Z * I)) it f a b d fuel m n v w, yields inext it f -> Z.abs a = 1 -> Z.abs d = 1 ->
  (forall n, (1 <= n)%nat -> 2 <= Z.abs (f n)) ->
  nth_item (homo_next t inext fuel) m (icf_homo it a b 0 d) = Ok (Some v) -> nth_item (homo_next t inext fuel) n (icf_homo it a b 0 d) = Ok (Some w) ->
  0 <= v * w /\ ((1 <= n)%nat -> w <> 0).
Proof. exact L_C86_one_sign_homo. Qed.
Print Assumptions C86_one_sign_homo.

(** A positive number: the items are positive, the first possibly 0 *)
Theorem C86_positive : forall t I (inext : I -> res (option (Z * Z) * I)) it f x fuel n v, yields inext it f -> fst (f O) = 1 ->
  (forall n, (1 <= n)%nat -> Z.abs (fst (f n)) = 1 /\ 2 <= Z.abs (snd (f n))) -> spells f x -> irrational x -> (0 < x)%R ->
  nth_item (simp_next t inext fuel) n (gcf_simplify it) = Ok (Some v) -> 0 <= v /\ ((1 <= n)%nat -> 1 <= v).
Proof. exact L_C86_positive. Qed.
Print Assumptions C86_positive.

(** 3 - 1/(3 + 1/(2 + 1/(2 + ...))) = 2 + 1/sqrt 2 *)
Example C86_case : yields (from_fn half) O half /\ fst (half O) = 1 /\ (forall n, (1 <= n)%nat -> Z.abs (fst (half n)) = 1 /\ 2 <= Z.abs (snd (half n))) /\
  spells half (2 + sqrt 2 / 2) /\ irrational (2 + sqrt 2 / 2) /\
  map (fun n => nth_item (simp_next BigI (from_fn half) 9) n (gcf_simplify O)) [0; 1; 2; 3; 4]%nat = map (fun v => Ok (Some v)) [2; 1; 2; 2; 2].
Proof. exact C86_case_proof. Qed.

(** The documentation of simplify() says that doing it again ensures positive coefficients.  With terms 1 and -1 it does not: of
    1 + 1/(3 + 1/(1 + 1/(1 + 1/(-1 + 1/(2 + 1/(2 + ...)))))) = 2 + 1/sqrt 2 the second pass, here homo(1,0,0,1), still has an item 0 *)
Theorem C86_again_refuted : exists f x, spells (fun n => (1, f n)) x /\ irrational x /\ (1 < x)%R /\
  map (fun n => nth_item (simp_next BigI (from_fn (fun n => (1, f n))) 30) n (gcf_simplify O)) [0; 1; 2; 3; 4]%nat = map (fun v => Ok (Some v)) [1; 3; 0; -2; -2] /\
  map (fun n => nth_item (homo_next BigI (simp_next BigI (from_fn (fun n => (1, f n))) 30) 30) n (icf_homo (gcf_simplify O) 1 0 0 1)) [0; 1; 2; 3; 4]%nat =
    map (fun v => Ok (Some v)) [1; 0; 1; 1; 2].
Proof. exact L_C86_again_refuted. Qed.
Print Assumptions C86_again_refuted.

(** The one way the library offers to simplify the result again is generalize(), which does not keep the number: for e the first item is 0 *)
Theorem C86_generalize_again_refuted :
  nth_item (simp_next BigI (exp_next BigI) 40) 0 (gcf_simplify (gcf_exp 1)) = Ok (Some 2) /\
  nth_item (simp_next BigI (generalize_next (simp_next BigI (exp_next BigI) 40)) 40) 0 (gcf_simplify (gcf_simplify (gcf_exp 1))) = Ok (Some 0) /\
  ~ cf_digit (exp 1) 0 0.
Proof. exact L_C86_generalize_again_refuted. Qed.
Print Assumptions C86_generalize_again_refuted.
