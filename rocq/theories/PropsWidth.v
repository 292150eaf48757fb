(** * PropsWidth: property C84.

    Only statements: every theorem is closed by the lemma of the same name in
    ClaimsWidth.v. *)

From Coq Require Import ZArith Lia Bool List Arith.
From Verif Require Import Base Ext ModelSurd ModelBlock ModelCF ModelGen ModelSymbols Spec SpecGen SpecCF SpecEnd SpecWidth ClaimsWidth.
Import ListNotations.
Open Scope Z_scope.

(** ** C84  Fixed-width iterators agree with arbitrary precision *)

(** Whatever homo(a, b, c, d) answers over a fixed-width type, an item or the end, it answers over arbitrary-precision
    integers, on the same coefficients, or on a source that itself agrees with one over arbitrary precision *)
Theorem C84_homo : forall t I (inext : I -> res (option Z * I)) it J (jnext : J -> res (option Z * J)) jt a b c d fuel,
  matches inext it jnext jt -> matches (homo_next t inext fuel) (icf_homo it a b c d) (homo_next BigI jnext fuel) (icf_homo jt a b c d).
Proof. exact L_C84_homo. Qed.
Print Assumptions C84_homo.

(** and simplify() *)
Theorem C84_simplify : forall t I (inext : I -> res (option (Z * Z) * I)) it J (jnext : J -> res (option (Z * Z) * J)) jt fuel,
  matches inext it jnext jt -> matches (simp_next t inext fuel) (gcf_simplify it) (simp_next BigI jnext fuel) (gcf_simplify jt).
Proof. exact L_C84_simplify. Qed.
Print Assumptions C84_simplify.

(** and generalize(), which has no arithmetic *)
Theorem C84_generalize : forall I (inext : I -> res (option Z * I)) it J (jnext : J -> res (option Z * J)) jt,
  matches inext it jnext jt -> matches (generalize_next inext) it (generalize_next jnext) jt.
Proof. exact L_C84_generalize. Qed.
Print Assumptions C84_generalize.

(** The items, though not the ends, of homo(), simplify() and bihomo() if the sources agree in their items only *)
Theorem C84_items : forall t I (inext : I -> res (option Z * I)) it J (jnext : J -> res (option Z * J)) jt a b c d fuel,
  begins inext it jnext jt -> begins (homo_next t inext fuel) (icf_homo it a b c d) (homo_next BigI jnext fuel) (icf_homo jt a b c d).
Proof. exact L_C84_items. Qed.
Print Assumptions C84_items.

Theorem C84_simplify_items : forall t I (inext : I -> res (option (Z * Z) * I)) it J (jnext : J -> res (option (Z * Z) * J)) jt fuel,
  begins inext it jnext jt -> begins (simp_next t inext fuel) (gcf_simplify it) (simp_next BigI jnext fuel) (gcf_simplify jt).
Proof. exact L_C84_simplify_items. Qed.
Print Assumptions C84_simplify_items.

Theorem C84_bihomo : forall t X Y (xnext : X -> res (option Z * X)) x (ynext : Y -> res (option Z * Y)) y X' Y' (xnext' : X' -> res (option Z * X')) x' (ynext' : Y' -> res (option Z * Y')) y' a b c d e f g h fuel,
  begins xnext x xnext' x' -> begins ynext y ynext' y' ->
  begins (bihomo_next t xnext ynext fuel) (icf_bihomo x y a b c d e f g h) (bihomo_next BigI xnext' ynext' fuel) (icf_bihomo x' y' a b c d e f g h).
Proof. exact L_C84_bihomo. Qed.
Print Assumptions C84_bihomo.

(** convergents() and decimals() stop when a number does not fit, so only their items agree *)
Theorem C84_convergents : forall t I (inext : I -> res (option (Z * Z) * I)) it J (jnext : J -> res (option (Z * Z) * J)) jt,
  begins inext it jnext jt -> begins (gconv_next t inext) (gcf_convergents it) (gconv_next BigI jnext) (gcf_convergents jt).
Proof. exact L_C84_convergents. Qed.
Print Assumptions C84_convergents.

Theorem C84_decimals : forall t I (inext : I -> res (option (Z * Z) * I)) it J (jnext : J -> res (option (Z * Z) * J)) jt fuel,
  begins inext it jnext jt -> begins (dec_next t inext fuel) (gcf_decimals it) (dec_next BigI jnext fuel) (gcf_decimals jt).
Proof. exact L_C84_decimals. Qed.
Print Assumptions C84_decimals.

(** take(n).collect() *)
Theorem C84_take : forall S S' A (n1 : S -> res (option A * S)) s1 (n2 : S' -> res (option A * S')) s2 n l,
  begins n1 s1 n2 s2 -> take n1 n s1 = Ok l -> take n2 (length l) s2 = Ok l.
Proof. exact L_C84_take. Qed.
Print Assumptions C84_take.

(** approximated(limit): an answer Approximated is the same as over arbitrary precision. (Exact is not: an overflow looks
    like the end, C57_fixed_width_refuted.) *)
Theorem C84_approximated : forall t I (inext : I -> res (option (Z * Z) * I)) it J (jnext : J -> res (option (Z * Z) * J)) jt limit fuel r,
  begins inext it jnext jt -> gcf_approximated t inext fuel it limit = Ok (Approximated r) -> gcf_approximated BigI jnext fuel jt limit = Ok (Approximated r).
Proof. exact L_C84_approximated. Qed.
Print Assumptions C84_approximated.

(** The built-in sources *)
Theorem C84_sources : forall t k, matches (exp_next t) (gcf_exp k) (exp_next BigI) (gcf_exp k) /\
  matches (e_next t) e_cfrac (e_next BigI) e_cfrac /\ matches (pi_next t) pi_gfrac (pi_next BigI) pi_gfrac /\
  (forall s, gamma_gfrac t = Ok s -> gamma_gfrac BigI = Ok s /\ begins (gamma_next t) s (gamma_next BigI) s).
Proof. exact L_C84_sources. Qed.
Print Assumptions C84_sources.

(** Stored fractions, if the coefficients fit the signed type *)
Theorem C84_stored : forall u x, wfcf x -> coeffs_fit u x ->
  matches (signed_next u) (cf_coeffs x) (signed_next BigU) (cf_coeffs x) /\
  matches (general_next u) (cf_generalized x) (general_next BigU) (cf_generalized x).
Proof. exact L_C84_stored. Qed.
Print Assumptions C84_stored.

(** and x.approximated(limit) is the same as over arbitrary precision, if the convergents fit the signed type up to one
    whose denominator reaches the limit (C37_fixed_width_refuted shows what happens otherwise) *)
Theorem C84_stored_approximated : forall u x limit n fuel, wfcf x -> (1 <= n)%nat -> (forall j r, (j <= n)%nat -> convergent x j r -> ratio_sfit u r) ->
  (forall r, convergent x n r -> limit <= denom r) -> cf_approximated u fuel x limit = cf_approximated BigU fuel x limit.
Proof. exact L_C84_stored_approximated. Qed.
Print Assumptions C84_stored_approximated.

(** Pi over 32 and 16 bits: right until an overflow stops it *)
Example C84_case : matches (pi_next (SInt 32)) pi_gfrac (pi_next BigI) pi_gfrac /\
  map (fun n => nth_item (simp_next (SInt 32) (pi_next (SInt 32)) 30) n (gcf_simplify pi_gfrac)) [0; 1; 2; 3; 4]%nat = [Ok (Some 3); Ok (Some 7); Ok (Some 15); Ok (Some 1); Panic POverflow] /\
  take (dec_next (SInt 16) (pi_next (SInt 16)) 30) 9 (gcf_decimals pi_gfrac) = Ok [51; 49; 52] /\ take (dec_next BigI (pi_next BigI) 30) 3 (gcf_decimals pi_gfrac) = Ok [51; 49; 52] /\
  gcf_approximated (SInt 16) (pi_next (SInt 16)) 30 pi_gfrac 100 = Ok (Approximated (Ratio 160 51)) /\
  gcf_approximated (SInt 16) (pi_next (SInt 16)) 30 pi_gfrac 1000 = Ok (Exact (Ratio 644 205)) /\
  cf_approximated (UInt 16) 30 (CF [1] [2] false) 1000 = Ok (Approximated (Ratio 1393 985)).
Proof. split; [apply L_C84_sources; exact 0|]. repeat split; vm_compute; reflexivity. Qed.
