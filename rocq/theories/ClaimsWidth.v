(** * ClaimsWidth: proofs of the property theorems in PropsWidth.v. *)

From Coq Require Import ZArith Lia Bool List Arith.
From Verif Require Import Base Ext ModelSurd ModelBlock ModelCF ModelGen ModelSymbols Spec SpecGen SpecCF SpecEnd SpecWidth Transfer NumFacts CFSeq CFIter GenBlock GenSound GenConv GenLive GenHomo GenEnd GenStored GenWidth ClaimsCF.
Import ListNotations.
Open Scope Z_scope.

Lemma L_C84_homo : forall t I (inext : I -> res (option Z * I)) it J (jnext : J -> res (option Z * J)) jt a b c d fuel,
  matches inext it jnext jt -> matches (homo_next t inext fuel) (icf_homo it a b c d) (homo_next BigI jnext fuel) (icf_homo jt a b c d).
Proof.
  intros t I inext it J jnext jt a b c d fuel M. eapply matches_trans; [apply matches_rle; apply rle_homo_next|]. apply homo_matches. exact M.
Qed.

Lemma L_C84_simplify : forall t I (inext : I -> res (option (Z * Z) * I)) it J (jnext : J -> res (option (Z * Z) * J)) jt fuel,
  matches inext it jnext jt -> matches (simp_next t inext fuel) (gcf_simplify it) (simp_next BigI jnext fuel) (gcf_simplify jt).
Proof.
  intros t I inext it J jnext jt fuel M. eapply matches_trans; [apply matches_rle; apply rle_simp_next|]. apply simp_matches. exact M.
Qed.

Lemma L_C84_generalize : forall I (inext : I -> res (option Z * I)) it J (jnext : J -> res (option Z * J)) jt,
  matches inext it jnext jt -> matches (generalize_next inext) it (generalize_next jnext) jt.
Proof.
  intros I inext it J jnext jt M. apply generalize_matches. exact M.
Qed.

Lemma L_C84_items : forall t I (inext : I -> res (option Z * I)) it J (jnext : J -> res (option Z * J)) jt a b c d fuel,
  begins inext it jnext jt -> begins (homo_next t inext fuel) (icf_homo it a b c d) (homo_next BigI jnext fuel) (icf_homo jt a b c d).
Proof.
  intros t I inext it J jnext jt a b c d fuel M. eapply begins_trans; [apply matches_begins, matches_rle; apply rle_homo_next|]. apply homo_begins. exact M.
Qed.

Lemma L_C84_simplify_items : forall t I (inext : I -> res (option (Z * Z) * I)) it J (jnext : J -> res (option (Z * Z) * J)) jt fuel,
  begins inext it jnext jt -> begins (simp_next t inext fuel) (gcf_simplify it) (simp_next BigI jnext fuel) (gcf_simplify jt).
Proof.
  intros t I inext it J jnext jt fuel M. eapply begins_trans; [apply matches_begins, matches_rle; apply rle_simp_next|]. apply simp_begins. exact M.
Qed.

Lemma L_C84_bihomo : forall t X Y (xnext : X -> res (option Z * X)) x (ynext : Y -> res (option Z * Y)) y X' Y' (xnext' : X' -> res (option Z * X')) x' (ynext' : Y' -> res (option Z * Y')) y' a b c d e f g h fuel,
  begins xnext x xnext' x' -> begins ynext y ynext' y' ->
  begins (bihomo_next t xnext ynext fuel) (icf_bihomo x y a b c d e f g h) (bihomo_next BigI xnext' ynext' fuel) (icf_bihomo x' y' a b c d e f g h).
Proof.
  intros t X Y xnext x ynext y X' Y' xnext' x' ynext' y' a b c d e f g h fuel Mx My. eapply begins_trans; [apply matches_begins, matches_rle; apply rle_bihomo_next|]. apply bihomo_begins; assumption.
Qed.

Lemma L_C84_convergents : forall t I (inext : I -> res (option (Z * Z) * I)) it J (jnext : J -> res (option (Z * Z) * J)) jt,
  begins inext it jnext jt -> begins (gconv_next t inext) (gcf_convergents it) (gconv_next BigI jnext) (gcf_convergents jt).
Proof.
  intros t I inext it J jnext jt M. eapply begins_trans; [apply begins_some; apply gconv_big|]. apply gconv_begins. exact M.
Qed.

Lemma L_C84_decimals : forall t I (inext : I -> res (option (Z * Z) * I)) it J (jnext : J -> res (option (Z * Z) * J)) jt fuel,
  begins inext it jnext jt -> begins (dec_next t inext fuel) (gcf_decimals it) (dec_next BigI jnext fuel) (gcf_decimals jt).
Proof.
  intros t I inext it J jnext jt fuel M. eapply begins_trans; [apply begins_some; apply dec_big|]. apply dec_begins. exact M.
Qed.

Lemma L_C84_take : forall S S' A (n1 : S -> res (option A * S)) s1 (n2 : S' -> res (option A * S')) s2 n l,
  begins n1 s1 n2 s2 -> take n1 n s1 = Ok l -> take n2 (length l) s2 = Ok l.
Proof.
  intros S S' A n1 s1 n2 s2 n. revert s1 s2. induction n as [|n IH]; intros s1 s2 l B H; cbn [take] in H; [inversion H; reflexivity|].
  apply bind_Ok in H. destruct H as ((o, s1') & E & H). destruct o as [v|]; [|inversion H; reflexivity]. apply bind_Ok in H. destruct H as (l' & E' & H). inversion H; subst l.
  destruct (begins_step _ _ _ _ _ _ B E) as (s2' & E2 & B'). cbn [length take]. rewrite E2. cbn [bind]. rewrite (IH _ _ _ B' E'). reflexivity.
Qed.

Lemma L_C84_approximated : forall t I (inext : I -> res (option (Z * Z) * I)) it J (jnext : J -> res (option (Z * Z) * J)) jt limit fuel r,
  begins inext it jnext jt -> gcf_approximated t inext fuel it limit = Ok (Approximated r) -> gcf_approximated BigI jnext fuel jt limit = Ok (Approximated r).
Proof.
  intros t I inext it J jnext jt limit fuel r M H. pose proof (L_C84_convergents t I inext it J jnext jt M) as B. unfold gcf_approximated in *.
  apply bind_Ok in H. destruct H as ((o, s1) & E & H). destruct o as [v|]; [|discriminate]. destruct (begins_step _ _ _ _ _ _ B E) as (s2 & -> & B'). cbn [bind unwrap] in *.
  destruct (limit <? denom v); [exact H|]. exact (gapprox_begins t BigI inext jnext limit r fuel v s1 s2 B' H).
Qed.

Lemma L_C84_sources : forall t k, matches (exp_next t) (gcf_exp k) (exp_next BigI) (gcf_exp k) /\
  matches (e_next t) e_cfrac (e_next BigI) e_cfrac /\ matches (pi_next t) pi_gfrac (pi_next BigI) pi_gfrac /\
  (forall s, gamma_gfrac t = Ok s -> gamma_gfrac BigI = Ok s /\ begins (gamma_next t) s (gamma_next BigI) s).
Proof.
  intros t k. split; [apply matches_rle, rle_exp_next|]. split; [apply matches_rle, rle_e_next|]. split; [apply matches_rle, rle_pi_next|].
  intros s H. split; [|apply begins_some, gamma_big]. assert (R : rle (gamma_gfrac t) (gamma_gfrac BigI)) by (unfold gamma_gfrac; mono). apply R. exact H.
Qed.

Lemma L_C84_stored : forall u x, wfcf x -> coeffs_fit u x ->
  matches (signed_next u) (cf_coeffs x) (signed_next BigU) (cf_coeffs x) /\
  matches (general_next u) (cf_generalized x) (general_next BigU) (cf_generalized x).
Proof.
  intros u x W F. assert (K : forall n j v, (j <= n)%nat -> coeff_at x j = Some v -> sfit u v) by (intros n j v _; apply (fit_at u x F)).
  split; intros n o H.
  - rewrite (L_C28_coeffs u x n (K n)) in H. rewrite (proj1 (L_C28_big_coeffs x n W)). exact H.
  - rewrite (L_C28_generalized u x n (K n)) in H. rewrite (proj2 (L_C28_big_coeffs x n W)). exact H.
Qed.

Lemma L_C84_stored_approximated : forall u x limit n fuel, wfcf x -> (1 <= n)%nat -> (forall j r, (j <= n)%nat -> convergent x j r -> ratio_sfit u r) ->
  (forall r, convergent x n r -> limit <= denom r) -> cf_approximated u fuel x limit = cf_approximated BigU fuel x limit.
Proof.
  intros u x limit n fuel. apply cf_approx_fit.
Qed.
