(** * ClaimsExp: proofs of the property theorems in PropsExp.v. *)

From Coq Require Import ZArith Reals Lia Lra Bool List Factorial.
From Coquelicot Require Import Coquelicot.
From Verif Require Import Base Ext ModelBlock ModelCF ModelGen ModelSymbols Spec SpecCF SpecGen NumFacts SurdOrd SurdRound GenBlock GenSound GenConv GenCont GenLive GenRep
  SymExp SymE ExpNeg ExpIrr ExpNegLive ExpZero ExpOne ClaimsSym.
Import ListNotations.
Open Scope Z_scope.

Lemma L_C41_never_stops : forall I (inext : I -> res (option (Z * Z) * I)) it f (x : R) n, yields inext it f -> fst (f O) = 1 -> (forall j, gden f j <> 0) ->
  is_lim_seq (fun j => IZR (gnum f j) / IZR (gden f j))%R x -> irrational x ->
  exists fuel v, forall fuel', (fuel <= fuel')%nat -> nth_item (simp_next BigI inext fuel') n (gcf_simplify it) = Ok (Some v).
Proof.
  intros I inext it f x n Y F D L Ix. exact (simplify_never_stops inext f (state_at inext it) x (state_next inext it f Y) F D L Ix n).
Qed.

Lemma L_C70_simplify_partial : forall t x fuel n v, x <= 1 ->
  nth_item (simp_next t (exp_next t) fuel) n (gcf_simplify (gcf_exp x)) = Ok (Some v) -> cf_digit (exp (IZR x)) n v.
Proof.
  intros t x fuel n v Hx H. destruct (Z_lt_le_dec x 0) as [N|P]; [exact (exp_simplify_neg t x N fuel n v H)|]. destruct (Z.eq_dec x 0) as [->|N0].
  - destruct (exp_zero_simplify t fuel n v H) as (-> & ->). cbn [cf_digit]. rewrite exp_0. unfold istrunc. split; intros; lra.
  - assert (x = 1) by lia. subst x. rewrite (exp_one_simplify t fuel n v H). apply (L_C47_digits BigI). apply (e_big BigI n (or_introl eq_refl) 0 e_cfrac). reflexivity.
Qed.

Lemma L_C70_same_as_E : forall n, exists v, nth_item (e_next BigI) n e_cfrac = Ok (Some v) /\
  (forall t fuel w, nth_item (simp_next t (exp_next t) fuel) n (gcf_simplify (gcf_exp 1)) = Ok (Some w) -> w = v) /\
  exists fuel, forall fuel', (fuel <= fuel')%nat -> nth_item (simp_next BigI (exp_next BigI) fuel') n (gcf_simplify (gcf_exp 1)) = Ok (Some v).
Proof.
  intros n. exists (e_coeff n). split; [apply (e_big BigI n (or_introl eq_refl) 0 e_cfrac); reflexivity|]. split; [intros t fuel w; apply exp_one_simplify|].
  destruct (exp_simplify_never_stops 1 n ltac:(lia)) as (fuel & v & L). exists fuel. intros fuel' Hf. rewrite (L fuel' Hf). rewrite (exp_one_simplify _ _ _ _ (L fuel' Hf)). reflexivity.
Qed.

Lemma L_C70_returns : forall x n, x <> 0 ->
  exists fuel v, forall fuel', (fuel <= fuel')%nat -> nth_item (simp_next BigI (exp_next BigI) fuel') n (gcf_simplify (gcf_exp x)) = Ok (Some v).
Proof. intros. apply exp_simplify_never_stops. auto. Qed.

Lemma L_C70_zero : forall t fuel n v, nth_item (simp_next t (exp_next t) fuel) n (gcf_simplify (gcf_exp 0)) = Ok (Some v) -> n = O /\ v = 1.
Proof. intros. eapply exp_zero_simplify; eauto. Qed.

Lemma L_C70_decimals_partial : forall t x fuel n c, x <= 0 ->
  nth_item (dec_next t (exp_next t) fuel) n (gcf_decimals (gcf_exp x)) = Ok (Some c) -> exists m, isfloor (10 ^ n * exp (IZR x)) m /\ c = 48 + m mod 10.
Proof.
  intros t x fuel n c Hx H. destruct (Z.eq_dec x 0) as [->|N]; [|apply (exp_decimals_neg t x ltac:(lia) fuel n c H)].
  apply zero_digit. exact (exp_zero_decimals t fuel n c H).
Qed.

Lemma L_C70_decimals_returns : forall x n, x < 0 ->
  exists fuel c, forall fuel', (fuel <= fuel')%nat -> nth_item (dec_next BigI (exp_next BigI) fuel') n (gcf_decimals (gcf_exp x)) = Ok (Some c).
Proof. intros. apply exp_decimals_never_stops. auto. Qed.

Lemma L_C70_irrational : forall x : Z, x <> 0 -> irrational (exp (IZR x)).
Proof. intros. apply exp_irr. auto. Qed.

Lemma L_C70_simplify_refuted : exists t x fuel n v, nth_item (simp_next t (exp_next t) fuel) n (gcf_simplify (gcf_exp x)) = Ok (Some v) /\ ~ cf_digit (exp (IZR x)) n v.
Proof.
  exists BigI, 3, 60%nat, O, 19. split; [vm_compute; reflexivity|]. cbn [cf_digit]. intros (B & _).
  assert (E : (2.715 < exp 1)%R). { pose proof (erem_pos 5) as P. unfold erem in P. enough ((2.715 < esum 5 1)%R) by lra. unfold esum. cbn. lra. }
  assert (K : exp 3 = (exp 1 * (exp 1 * exp 1))%R) by (rewrite <- !exp_plus; f_equal; lra). specialize (B ltac:(left; apply exp_pos)). rewrite K in B. nra.
Qed.

Lemma L_C70_decimals_refuted : nth_item (dec_next BigI (exp_next BigI) 60) 4 (gcf_decimals (gcf_exp 2)) = Ok (Some 58) /\
  nth_item (dec_next BigI (exp_next BigI) 60) 0 (gcf_decimals (gcf_exp 3)) = Ok (Some 67) /\ (forall m, 58 <> 48 + m mod 10) /\ (forall m, 67 <> 48 + m mod 10).
Proof.
  split; [vm_compute; reflexivity|]. split; [vm_compute; reflexivity|]. split; intros m E; pose proof (Z.mod_pos_bound m 10 eq_refl); lia.
Qed.
