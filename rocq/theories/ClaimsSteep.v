(** * ClaimsSteep: proofs of the property theorems in PropsSteep.v. *)

From Coq Require Import ZArith Reals Lia Lra Bool List Arith.
From Coquelicot Require Import Coquelicot.
From Verif Require Import Base Ext ModelBlock ModelCF ModelGen Spec SpecCF SpecGen SpecSpell NumFacts GenSound GenConv GenTail GenLive GenMisc GenCont GenStored GenHomo GenSpell GenSteep SymExp ClaimsCF ClaimsGen.
Import ListNotations.
Open Scope Z_scope.

Lemma L_C86_simplify : forall I (inext : I -> res (option (Z * Z) * I)) it f x, yields inext it f -> fst (f O) = 1 ->
  (forall n, (1 <= n)%nat -> Z.abs (fst (f n)) = 1 /\ 2 <= Z.abs (snd (f n))) -> spells f x -> irrational x ->
  (forall n, exists v fuel, cf_digit x n v /\ forall fuel', (fuel <= fuel')%nat -> nth_item (simp_next BigI inext fuel') n (gcf_simplify it) = Ok (Some v)) /\
  (forall t fuel n o, nth_item (simp_next t inext fuel) n (gcf_simplify it) = Ok o -> exists v, o = Some v /\ cf_digit x n v).
Proof. intros I inext it f x Y F0 H. apply simplify_digits; auto. apply steep_of. exact H. Qed.

Lemma L_C86_homo : forall I (inext : I -> res (option Z * I)) it f x a b d, yields inext it f -> Z.abs a = 1 -> Z.abs d = 1 ->
  (forall n, (1 <= n)%nat -> 2 <= Z.abs (f n)) -> cspells f x -> irrational x ->
  (forall n, exists v fuel, cf_digit ((IZR a * x + IZR b) / IZR d) n v /\
    forall fuel', (fuel <= fuel')%nat -> nth_item (homo_next BigI inext fuel') n (icf_homo it a b 0 d) = Ok (Some v)) /\
  (forall t fuel n o, nth_item (homo_next t inext fuel) n (icf_homo it a b 0 d) = Ok o -> exists v, o = Some v /\ cf_digit ((IZR a * x + IZR b) / IZR d) n v).
Proof. intros I inext it f x a b d. exact (homo_digits inext it f x a b d). Qed.

Lemma L_C86_converges : forall f, (forall n, (1 <= n)%nat -> Z.abs (fst (f n)) = 1 /\ 2 <= Z.abs (snd (f n))) -> exists x, spells f x.
Proof. intros f H. apply steep_spells. apply steep_of. exact H. Qed.

Lemma L_C86_one_sign : forall t I (inext : I -> res (option (Z * Z) * I)) it f fuel m n v w, yields inext it f -> fst (f O) = 1 ->
  (forall n, (1 <= n)%nat -> Z.abs (fst (f n)) = 1 /\ 2 <= Z.abs (snd (f n))) ->
  nth_item (simp_next t inext fuel) m (gcf_simplify it) = Ok (Some v) -> nth_item (simp_next t inext fuel) n (gcf_simplify it) = Ok (Some w) ->
  0 <= v * w /\ ((1 <= n)%nat -> w <> 0).
Proof. intros t I inext it f fuel m n v w Y F0 H. apply simplify_signs with (f := f); auto. apply steep_of. exact H. Qed.

Lemma L_C86_one_sign_homo : forall t I (inext : I -> res (option Z * I)) it f a b d fuel m n v w, yields inext it f -> Z.abs a = 1 -> Z.abs d = 1 ->
  (forall n, (1 <= n)%nat -> 2 <= Z.abs (f n)) ->
  nth_item (homo_next t inext fuel) m (icf_homo it a b 0 d) = Ok (Some v) -> nth_item (homo_next t inext fuel) n (icf_homo it a b 0 d) = Ok (Some w) ->
  0 <= v * w /\ ((1 <= n)%nat -> w <> 0).
Proof. intros t I inext it f a b d fuel m n v w Y Ha Hd H. apply homo_signs with (f := f); auto. Qed.

Lemma L_C86_positive : forall t I (inext : I -> res (option (Z * Z) * I)) it f x fuel n v, yields inext it f -> fst (f O) = 1 ->
  (forall n, (1 <= n)%nat -> Z.abs (fst (f n)) = 1 /\ 2 <= Z.abs (snd (f n))) -> spells f x -> irrational x -> (0 < x)%R ->
  nth_item (simp_next t inext fuel) n (gcf_simplify it) = Ok (Some v) -> 0 <= v /\ ((1 <= n)%nat -> 1 <= v).
Proof.
  intros t I inext it f x fuel n v Y F0 H Sx Ix Px E. destruct (simplify_digits inext it f x Y F0 (steep_of f H) Sx Ix) as (_ & A). destruct (A _ _ _ _ E) as (w & W & D). inversion W; subst w.
  destruct (digit_sign x 1 n Ix (or_introl eq_refl)) as (_ & P & Q); [lra|]. rewrite (cf_digit_unique n x v (digit x n) D (digit_spec n x Ix)). rewrite !Z.mul_1_l in *. auto.
Qed.

Definition half (n : nat) : Z * Z := match n with O => (1, 3) | S O => (-1, 3) | _ => (1, 2) end.

Definition wild (n : nat) : Z := match n with O => 1 | S O => 3 | S (S O) => 1 | S (S (S O)) => 1 | S (S (S (S O))) => -1 | _ => 2 end.

Lemma two_spells : spells (fun n => (1, two n)) (1 + sqrt 2).
Proof.
  apply (signed_spells 1); [left; reflexivity|intros; unfold two; lia|]. destruct (signed_converges 1 two (or_introl eq_refl)) as (x & C & _); [intros; unfold two; lia|].
  rewrite <- (two_value x C). exact C.
Qed.

Lemma half_spells : spells half (2 + sqrt 2 / 2).
Proof.
  pose proof sqrt2_bounds as B. assert (S2 : (sqrt 2 * sqrt 2 = 2)%R) by (apply sqrt_sqrt; lra).
  assert (A : spells (shift half) (3 + 1 / (1 + sqrt 2))) by (apply (spells_cons (shift half) (1 + sqrt 2)); [exact two_spells|lra]).
  assert (E1 : (3 + 1 / (1 + sqrt 2) = 2 + sqrt 2)%R). { replace (1 / (1 + sqrt 2))%R with (sqrt 2 - 1)%R; [lra|]. apply (Rmult_eq_reg_r (1 + sqrt 2)); [|lra]. unfold Rdiv. rewrite Rmult_1_l, Rinv_l by lra. lra. }
  rewrite E1 in A. replace (2 + sqrt 2 / 2)%R with (3 + -1 / (2 + sqrt 2))%R; [exact (spells_cons half (2 + sqrt 2) A ltac:(lra))|].
  apply (Rmult_eq_reg_r (2 + sqrt 2)); [|lra]. unfold Rdiv. rewrite Rmult_plus_distr_r, Rmult_assoc, Rinv_l by lra. lra.
Qed.

Lemma irr_half : irrational (2 + sqrt 2 / 2).
Proof.
  replace (2 + sqrt 2 / 2)%R with ((IZR 1 * sqrt 2 + IZR 4) / (IZR 0 * sqrt 2 + IZR 2))%R by field. apply irr_mobius; [apply irr_r2|lia].
Qed.

Lemma C86_case_proof : yields (from_fn half) O half /\ fst (half O) = 1 /\ (forall n, (1 <= n)%nat -> Z.abs (fst (half n)) = 1 /\ 2 <= Z.abs (snd (half n))) /\
  spells half (2 + sqrt 2 / 2) /\ irrational (2 + sqrt 2 / 2) /\
  map (fun n => nth_item (simp_next BigI (from_fn half) 9) n (gcf_simplify O)) [0; 1; 2; 3; 4]%nat = map (fun v => Ok (Some v)) [2; 1; 2; 2; 2].
Proof.
  split; [apply from_fn_yields|]. split; [reflexivity|]. split; [intros [|[|n]] Hn; cbn; lia|]. split; [apply half_spells|]. split; [apply irr_half|]. vm_compute. reflexivity.
Qed.

Lemma L_C86_again_refuted : exists f x, spells (fun n => (1, f n)) x /\ irrational x /\ (1 < x)%R /\
  map (fun n => nth_item (simp_next BigI (from_fn (fun n => (1, f n))) 30) n (gcf_simplify O)) [0; 1; 2; 3; 4]%nat = map (fun v => Ok (Some v)) [1; 3; 0; -2; -2] /\
  map (fun n => nth_item (homo_next BigI (simp_next BigI (from_fn (fun n => (1, f n))) 30) 30) n (icf_homo (gcf_simplify O) 1 0 0 1)) [0; 1; 2; 3; 4]%nat =
    map (fun v => Ok (Some v)) [1; 0; 1; 1; 2].
Proof.
  exists wild, (2 + sqrt 2 / 2)%R. pose proof sqrt2_bounds as B. assert (S2 : (sqrt 2 * sqrt 2 = 2)%R) by (apply sqrt_sqrt; lra).
  split; [|split; [apply irr_half|split; [lra|split; vm_compute; reflexivity]]].
  set (g := fun n => (1, wild n)). assert (T : spells (shift (shift (shift (shift (shift g))))) (1 + sqrt 2)) by exact two_spells.
  apply spells_cons in T; [|lra]. replace (IZR (snd (shift (shift (shift (shift g))) 0%nat)) + IZR (fst (shift (shift (shift (shift g))) 1%nat)) / (1 + sqrt 2))%R with (sqrt 2 - 2)%R in T.
  2:{ cbn [shift g wild fst snd]. apply (Rmult_eq_reg_r (1 + sqrt 2)); [|lra]. unfold Rdiv. rewrite (Rmult_plus_distr_r (-1)), Rmult_1_l, Rinv_l by lra. lra. }
  apply spells_cons in T; [|lra]. replace (IZR (snd (shift (shift (shift g)) 0%nat)) + IZR (fst (shift (shift (shift g)) 1%nat)) / (sqrt 2 - 2))%R with (- (sqrt 2 / 2))%R in T.
  2:{ cbn [shift g wild fst snd]. apply (Rmult_eq_reg_r (sqrt 2 - 2)); [|lra]. unfold Rdiv. rewrite (Rmult_plus_distr_r 1), !Rmult_1_l, Rinv_l by lra. lra. }
  apply spells_cons in T; [|lra]. replace (IZR (snd (shift (shift g) 0%nat)) + IZR (fst (shift (shift g) 1%nat)) / (- (sqrt 2 / 2)))%R with (1 - sqrt 2)%R in T.
  2:{ cbn [shift g wild fst snd]. assert (K : (/ - (sqrt 2 / 2) * - (sqrt 2 / 2) = 1)%R) by (apply Rinv_l; lra). assert (K2 : ((/ - (sqrt 2 / 2) + sqrt 2) * - (sqrt 2 / 2) = 0)%R) by lra.
    apply Rmult_integral in K2. change (1 / - (sqrt 2 / 2))%R with (1 * / - (sqrt 2 / 2))%R. destruct K2; lra. }
  apply spells_cons in T; [|lra]. replace (IZR (snd (shift g 0%nat)) + IZR (fst (shift g 1%nat)) / (1 - sqrt 2))%R with (2 - sqrt 2)%R in T.
  2:{ cbn [shift g wild fst snd]. apply (Rmult_eq_reg_r (1 - sqrt 2)); [|lra]. unfold Rdiv. rewrite (Rmult_plus_distr_r 3), !Rmult_1_l, Rinv_l by lra. lra. }
  apply spells_cons in T; [|lra]. replace (IZR (snd (g 0%nat)) + IZR (fst (g 1%nat)) / (2 - sqrt 2))%R with (2 + sqrt 2 / 2)%R in T; [exact T|].
  cbn [g wild fst snd]. apply (Rmult_eq_reg_r (2 - sqrt 2)); [|lra]. unfold Rdiv. rewrite (Rmult_plus_distr_r 1), !Rmult_1_l, Rinv_l by lra. lra.
Qed.

Lemma L_C86_generalize_again_refuted :
  nth_item (simp_next BigI (exp_next BigI) 40) 0 (gcf_simplify (gcf_exp 1)) = Ok (Some 2) /\
  nth_item (simp_next BigI (generalize_next (simp_next BigI (exp_next BigI) 40)) 40) 0 (gcf_simplify (gcf_simplify (gcf_exp 1))) = Ok (Some 0) /\
  ~ cf_digit (exp 1) 0 0.
Proof.
  split; [vm_compute; reflexivity|]. split; [vm_compute; reflexivity|]. cbn [cf_digit]. intros (H & _). pose proof (exp_ineq1 1 ltac:(lra)). specialize (H ltac:(lra)). lra.
Qed.

