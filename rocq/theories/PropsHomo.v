(** * PropsHomo: property C79.

    Only statements: every theorem is closed by the lemma of the same name in
    ClaimsHomo.v. *)

From Coq Require Import ZArith Reals Lia Lra Bool List Arith.
From Coquelicot Require Import Coquelicot.
From Verif Require Import Base Ext ModelBlock ModelCF ModelGen Spec SpecCF SpecGen NumFacts GenStored ClaimsHomo.
Import ListNotations.
Open Scope Z_scope.

(** ** C79  What homo() and simplify() spell converges to the number *)

(** The items of homo(a, b, c, d), whatever a, b, c and d with a d <> b c: with arbitrary precision they all come,
    the fraction they form converges to (a x + b)/(c x + d), and from some item on they are the usual coefficients
    of one of its complete quotients.  At any width, what comes is the same. *)
Theorem C79_homo : forall I (inext : I -> res (option Z * I)) it f x e a b c d, e = 1 \/ e = -1 ->
  yields inext it f -> (forall n, (1 <= n)%nat -> 1 <= e * f n) -> cconverges f x -> a * d - b * c <> 0 ->
  exists h, cconverges h ((IZR a * x + IZR b) / (IZR c * x + IZR d)) /\
    (exists m z, irrational z /\ forall n, cf_digit z n (h (m + n)%nat)) /\
    (forall n, exists fuel, forall fuel', (fuel <= fuel')%nat -> nth_item (homo_next BigI inext fuel') n (icf_homo it a b c d) = Ok (Some (h n))) /\
    (forall t fuel n v, nth_item (homo_next t inext fuel) n (icf_homo it a b c d) = Ok (Some v) -> v = h n).
Proof. exact L_C79_homo. Qed.
Print Assumptions C79_homo.

(** On a stored periodic fraction: x.coeffs_signed().homo(a, b, c, d) *)
Theorem C79_homo_stored : forall u x a b c d, wfcf x -> ~ finite x -> coeffs_fit u x -> a * d - b * c <> 0 ->
  exists h, cconverges h ((IZR a * cf_val x + IZR b) / (IZR c * cf_val x + IZR d)) /\
    (exists m z, irrational z /\ forall n, cf_digit z n (h (m + n)%nat)) /\
    (forall n, exists fuel, forall fuel', (fuel <= fuel')%nat -> nth_item (homo_next BigI (signed_next u) fuel') n (icf_homo (cf_coeffs x) a b c d) = Ok (Some (h n))) /\
    (forall t fuel n v, nth_item (homo_next t (signed_next u) fuel) n (icf_homo (cf_coeffs x) a b c d) = Ok (Some v) -> v = h n).
Proof. exact L_C79_homo_stored. Qed.
Print Assumptions C79_homo_stored.

(** simplify() on a fraction with positive terms and an irrational limit *)
Theorem C79_simplify : forall I (inext : I -> res (option (Z * Z) * I)) it f x, yields inext it f -> gpositive f -> gconverges f x -> irrational x ->
  exists h, cconverges h x /\ (forall n, cf_digit x n (h n)) /\
    (forall n, exists fuel, forall fuel', (fuel <= fuel')%nat -> nth_item (simp_next BigI inext fuel') n (gcf_simplify it) = Ok (Some (h n))) /\
    (forall t fuel n v, nth_item (simp_next t inext fuel) n (gcf_simplify it) = Ok (Some v) -> v = h n).
Proof. exact L_C79_simplify. Qed.
Print Assumptions C79_simplify.

(** The coefficients of an irrational number converge to it, *)
Theorem C79_coefficients_converge : forall x f, irrational x -> (forall n, cf_digit x n (f n)) -> cconverges f x.
Proof. exact L_C79_coefficients_converge. Qed.
Print Assumptions C79_coefficients_converge.

(** every irrational number has coefficients, *)
Theorem C79_coefficients_exist : forall x, irrational x -> exists f, forall n, cf_digit x n (f n).
Proof. exact L_C79_coefficients_exist. Qed.
Print Assumptions C79_coefficients_exist.

(** and they determine it *)
Theorem C79_coefficients_determine : forall x y f, irrational x -> irrational y -> (forall n, cf_digit x n (f n)) -> (forall n, cf_digit y n (f n)) -> x = y.
Proof. exact L_C79_coefficients_determine. Qed.
Print Assumptions C79_coefficients_determine.

(** (5 sqrt 2 - 11)/(sqrt 2 - 2) = 6.707... = [6; 1, 2, 2, 2, ...] is spelt 5 + 1/(0 + 1/(1 + 1/(1 + 1/(2 + ...)))), which is right but not usual;
    (17 sqrt 2 - 24)/(12 sqrt 2 - 17) = - sqrt 2 is spelt 1, 2, 2, 0, -2, -2, ... *)
Example C79_case : yields (from_fn root2) O root2 /\ (forall n, (1 <= n)%nat -> 1 <= 1 * root2 n) /\ cconverges root2 (sqrt 2) /\ irrational (sqrt 2) /\
  map (fun n => nth_item (homo_next BigI (from_fn root2) 20) n (icf_homo O 5 (-11) 1 (-2))) [0; 1; 2; 3; 4; 5]%nat =
    map (fun v => Ok (Some v)) [5; 0; 1; 1; 2; 2] /\
  map (fun n => nth_item (homo_next BigI (from_fn root2) 20) n (icf_homo O 17 (-24) 12 (-17))) [0; 1; 2; 3; 4; 5]%nat =
    map (fun v => Ok (Some v)) [1; 2; 2; 0; -2; -2].
Proof. destruct homo_wild_case as (A & B & C & D). split; [exact A|]. split; [exact B|]. split; [exact C|]. split; [exact D|]. vm_compute. split; reflexivity. Qed.
