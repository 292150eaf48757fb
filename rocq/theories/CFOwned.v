(** * CFOwned: what into_coeffs() yields for any period. *)

From Coq Require Import ZArith Lia Bool List Arith.
From Verif Require Import Base Ext ModelBlock ModelCF Spec SpecCF NumFacts CFCore CFSeq CFIter.
Import ListNotations.
Open Scope Z_scope.

Lemma owned_step u o p0 p neg :
  (exists v o', owned_next u (OwnedSt o (p0 :: p) 0 neg) = Ok (Some v, OwnedSt o' (p0 :: p) 0 neg) /\ owned_next u (OwnedSt o [p0] 0 neg) = Ok (Some v, OwnedSt o' [p0] 0 neg)) \/
  (exists k, owned_next u (OwnedSt o (p0 :: p) 0 neg) = Panic k /\ owned_next u (OwnedSt o [p0] 0 neg) = Panic k) \/
  (owned_next u (OwnedSt o (p0 :: p) 0 neg) = Hang /\ owned_next u (OwnedSt o [p0] 0 neg) = Hang).
Proof.
  unfold owned_next; cbn [o_iter p_list p_pos o_neg]; (destruct o as [[|v l]|]; [|destruct (signed_of u neg v); cbn [bind]; eauto 8|]);
    unfold owned_periodic; cbn [p_list p_pos nth_error o_neg length Nat.leb o_iter]; destruct (signed_of u neg p0); cbn [bind]; eauto 8.
Qed.

Lemma owned_first u o p0 p neg n : nth_item (owned_next u) n (OwnedSt o (p0 :: p) 0 neg) = nth_item (owned_next u) n (OwnedSt o [p0] 0 neg).
Proof.
  revert o. induction n as [|n IH]; intros o; destruct (owned_step u o p0 p neg) as [(v & o' & E1 & E2)|[(k & E1 & E2)|(E1 & E2)]]; cbn [nth_item]; rewrite E1, E2; cbn [bind]; auto.
Qed.

Lemma in_period (p0 : Z) p k m : List.Forall (eq p0) p -> (m < k)%nat -> nth_error (concat (repeat (p0 :: p) k)) m = Some p0.
Proof.
  intros F L. assert (A : List.Forall (eq p0) (concat (repeat (p0 :: p) k))).
  { clear L m. induction k as [|k IH]; [constructor|]. cbn [repeat concat]. apply Forall_app. split; [constructor; auto|exact IH]. }
  destruct (nth_error (concat (repeat (p0 :: p) k)) m) as [v|] eqn:E.
  - apply nth_error_In in E. rewrite Forall_forall in A. rewrite (A v E). reflexivity.
  - apply nth_error_None in E. rewrite concat_repeat_len in E. cbn [length] in E. nia.
Qed.

Lemma into_exact u x p0 p : p_coeffs x = p0 :: p -> coeffs_fit u x ->
  (forall n, nth_item (owned_next u) n (cf_into_coeffs x) = Ok (option_map (Z.mul (sgnb (negative x))) (nth_error (a_coeffs x ++ repeat p0 (S n)) n))) /\
  ((forall n, nth_item (owned_next u) n (cf_into_coeffs x) = Ok (option_map (Z.mul (sgnb (negative x))) (coeff_at x n))) <-> List.Forall (eq p0) p).
Proof.
  intros P [Fa Fp]. set (y := CF (a_coeffs x) [p0] (negative x)).
  assert (C : forall n, coeff_at y n = nth_error (a_coeffs x ++ repeat p0 (S n)) n).
  { intros n. unfold coeff_at, y. cbn [a_coeffs p_coeffs]. do 2 f_equal. generalize (S n). clear. induction n as [|n IH]; [reflexivity|]. cbn [repeat concat app]. rewrite IH. reflexivity. }
  assert (A : forall n, nth_item (owned_next u) n (cf_into_coeffs x) = Ok (option_map (Z.mul (sgnb (negative x))) (coeff_at y n))).
  { intros n. unfold cf_into_coeffs. rewrite P, owned_first. change (OwnedSt (Some (a_coeffs x)) [p0] 0 (negative x)) with (cf_into_coeffs y).
    rewrite owned_nth; [unfold signed_items, option_map; destruct (coeff_at y n); reflexivity|cbn; lia|].
    intros j v _ E. rewrite C in E. apply nth_error_In in E. apply in_app_or in E. rewrite Forall_forall in Fa, Fp. destruct E as [E|E]; [auto|].
    apply repeat_spec in E. subst v. apply Fp. rewrite P. left. reflexivity. }
  split; [intros n; rewrite A, C; reflexivity|]. split.
  - intros H. apply Forall_forall. intros v V. apply In_nth_error in V. destruct V as [j V]. set (n := (length (a_coeffs x) + S j)%nat).
    specialize (H n). rewrite A in H. assert (E1 : coeff_at y n = Some p0) by (apply coeff_at_one; [reflexivity|unfold n, y; cbn; lia]).
    assert (E2 : coeff_at x n = Some v).
    { rewrite coeff_at_p by (unfold n; lia). replace (n - length (a_coeffs x))%nat with (S j) by (unfold n; lia). rewrite P. cbn [repeat concat]. rewrite nth_error_app1; [exact V|].
      cbn [length]. assert (j < length p)%nat by (apply nth_error_Some; congruence). lia. }
    rewrite E1, E2 in H. cbn [option_map] in H. inversion H as [K]. destruct (negative x); cbn [sgnb] in K; lia.
  - intros F n. rewrite A. do 2 f_equal. destruct (Nat.lt_ge_cases n (length (a_coeffs x))) as [L|L].
    + rewrite !coeff_at_a by (auto; exact L). reflexivity.
    + rewrite (coeff_at_one y n p0) by (auto; exact L). rewrite coeff_at_p by exact L. rewrite P. symmetry. apply in_period; [exact F|lia].
Qed.
