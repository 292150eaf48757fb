(** * SurdClosed: the surds with denominator 1 are closed under the ring operations, and the stored root of the
    result. *)

From Coq Require Import ZArith Znumtheory Reals Lia Lra Bool.
From Coquelicot Require Import Coquelicot.
From Verif Require Import Base Ext ModelInt ModelSurd Spec SpecInt Transfer NumFacts RatioFacts GenSound SurdCore SurdArith.
Open Scope Z_scope.

Lemma reduce_one a b r s : surd_reduce BigI (Surd (SCo a b 1) r) = Ok s -> c2 (coeffs s) = 1 /\ (discr s = 0 \/ discr s = r).
Proof.
  unfold surd_reduce. change (1 =? 0) with false. cbv iota. intros H.
  assert (C : forall a b r s, (let! p := reduce_common BigI a b 1 r in let '(a, b, c, r) := p in reduce_sign BigI a b c r) = Ok s ->
      c2 (coeffs s) = 1 /\ (discr s = 0 \/ discr s = r)).
  { clear. intros a b r s H. unfold reduce_common in H. autorewrite with bigi in H. 
    destruct ((b =? 0) || (r =? 0)).
    - autorewrite with bigi in H. rewrite ?Z.gcd_1_r in H. do 2 (rewrite quotB in H by lia; autorewrite with bigi in H). autorewrite with bigi in H. rewrite !Z.quot_1_r in H. unfold reduce_sign in H. change (1 <? 0) with false in H. cbv iota in H. inversion H; subst s. cbn. auto.
    - autorewrite with bigi in H. rewrite ?Z.gcd_1_r in H. change (1 * 1) with 1 in H. rewrite !Z.gcd_1_l in H. rewrite sqrtB in H by lia. change (Z.sqrt 1) with 1 in H. autorewrite with bigi in H. change (1 * 1 =? 1) with true in H. cbv iota in H.
      repeat (rewrite (quotB _ 1) in H by lia; autorewrite with bigi in H; rewrite ?Z.quot_1_r in H). cbn [bind] in H. rewrite ?Z.gcd_1_l in H. autorewrite with bigi in H. rewrite ?Z.gcd_1_l in H.
      repeat (rewrite (quotB _ 1) in H by lia; autorewrite with bigi in H; rewrite ?Z.quot_1_r in H). unfold reduce_sign in H. change (1 <? 0) with false in H. cbv iota in H. inversion H; subst s. cbn. auto. }
  destruct (reduce_square BigI a b r) as [[[a' b'] r']| |] eqn:E; cbn [bind] in H; try discriminate.
  apply C in H. destruct H as [H1 H2]. split; [exact H1|].
  assert (r' = 0 \/ r' = r).
  { unfold reduce_square in E. autorewrite with bigi in E. rewrite sqrtB in E by apply Z.abs_nonneg. autorewrite with bigi in E.
    destruct (Z.eqb_spec (Z.sqrt (Z.abs r) * Z.sqrt (Z.abs r)) r) as [K|K]; [|inversion E; auto].
    destruct (Z.ltb_spec r 0); [exfalso; nia|]. autorewrite with bigi in E. inversion E; auto. }
  destruct H2 as [->| ->]; [auto|]. tauto.
Qed.

Lemma from_coeffs_one g co r s : c2 co = 1 -> surd_from_coeffs g BigI co r = Ok s -> c2 (coeffs s) = 1 /\ (discr s = 0 \/ discr s = r).
Proof.
  destruct co as [a b c]. cbn [c2]. intros -> H. unfold surd_from_coeffs in H. destruct (_ && _); [discriminate|]. exact (reduce_one a b r s H).
Qed.

Lemma ratio_one t n q : ratio_new t n 1 = Ok q -> q = Ratio n 1.
Proof.
  intros H. apply ratio_new_ok in H. destruct H as (_ & V & L). apply lowest_unique; [exact L|split; [cbn; lia|cbn; apply Z.gcd_1_r]|].
  rewrite V. reflexivity.
Qed.

Lemma hinted_one s h s' : c2 (coeffs s) = 1 -> reduce_root_hinted BigI s h = Ok s' -> c2 (coeffs s') = 1.
Proof.
  intros C H. unfold reduce_root_hinted in H. autorewrite with bigi in H.
  destruct ((Z.abs h =? 0) || (Z.abs h =? 1) || (Z.abs h <? 0)) eqn:E; [inversion H; congruence|].
  rewrite !orb_false_iff, !Z.eqb_neq, Z.ltb_ge in E. rewrite div_remB in H by lia. autorewrite with bigi in H.
  destruct (_ =? 0); [|inversion H; congruence]. rewrite sqrtB in H by lia. autorewrite with bigi in H.
  destruct (_ =? _); [|inversion H; congruence]. rewrite C in H. rewrite !Z.gcd_1_r in H. autorewrite with bigi in H.
  do 3 (rewrite quotB in H by lia; autorewrite with bigi in H). inversion H; subst s'. reflexivity.
Qed.

Lemma bin_op_one g l r l' r' : c2 (coeffs l) = 1 -> c2 (coeffs r) = 1 -> reduce_bin_op_unwrap g BigI l r = Ok (l', r') ->
  c2 (coeffs l') = 1 /\ c2 (coeffs r') = 1.
Proof.
  intros Cl Cr H. unfold reduce_bin_op_unwrap in H. apply bind_Ok in H. destruct H as (o & H & E). destruct o as [[l1 r1]|]; [|discriminate]. inversion E; subst l1 r1; clear E.
  assert (K : forall (b1 b2 : bool) h1 h2 o, (let! (x, y) :=
        if b1 then let! hint := h1 in let! l := reduce_root_hinted BigI l hint in Ok (l, r)
        else if b2 then let! hint := h2 in let! r := reduce_root_hinted BigI r hint in Ok (l, r)
        else Ok (l, r) in
      Ok (if discr x =? discr y then Some (x, y) else None)) = Ok o -> o = Some (l', r') -> c2 (coeffs l') = 1 /\ c2 (coeffs r') = 1).
  { clear H. intros b1 b2 h1 h2 o H ->. apply bind_Ok in H. destruct H as ([x y] & H & E). destruct (discr x =? discr y); [|discriminate]. inversion E; subst x y; clear E.
    destruct b1; [|destruct b2].
    - apply bind_Ok in H. destruct H as (h & _ & H). apply bind_Ok in H. destruct H as (l1 & H & E). apply hinted_one in H; [|exact Cl]. inversion E; subst; auto.
    - apply bind_Ok in H. destruct H as (h & _ & H). apply bind_Ok in H. destruct H as (l1 & H & E). apply hinted_one in H; [|exact Cr]. inversion E; subst; auto.
    - inversion H; subst; auto. }
  unfold reduce_bin_op in H. destruct (cplx g).
  - destruct (xorb _ _); [discriminate|]. apply bind_Ok in H. destruct H as (al & _ & H). apply bind_Ok in H. destruct H as (ar & _ & H). exact (K _ _ _ _ _ H eq_refl).
  - apply bind_Ok in H. destruct H as (al & _ & H). apply bind_Ok in H. destruct H as (ar & _ & H). exact (K _ _ _ _ _ H eq_refl).
Qed.

(** The result of an operation on two surds with denominator 1: again denominator 1, and the root is 0, or one of
    the two roots up to a square factor *)
Definition root_of (l r s : surd) : Prop :=
  discr s = 0 \/ (exists k, 0 < k /\ discr l = k * k * discr s) \/ (exists k, 0 < k /\ discr r = k * k * discr s).

Lemma root_l l r s : discr s = 0 \/ discr s = discr l -> root_of l r s.
Proof. intros [H|H]; [left; auto|right; left; exists 1; split; [lia|rewrite H; ring]]. Qed.
Lemma root_r l r s : discr s = 0 \/ discr s = discr r -> root_of l r s.
Proof. intros [H|H]; [left; auto|right; right; exists 1; split; [lia|rewrite H; ring]]. Qed.

Section Ops.
Context (g : cfg) (t : ity) (l r s : surd) (Hl : normal g l) (Hr : normal g r) (Cl : c2 (coeffs l) = 1) (Cr : c2 (coeffs r) = 1).

Lemma add_ratio_one x n : c2 (coeffs x) = 1 -> surd_add_ratio g BigI x (Ratio n 1) = Ok s -> c2 (coeffs s) = 1 /\ (discr s = 0 \/ discr s = discr x).
Proof.
  destruct x as [[a b c] d]. cbn [coeffs c2 discr]. intros -> H. unfold surd_add_ratio, sco_add_ratio in H. cbn [coeffs] in H. change (1 =? 1) with true in H. cbv iota in H. autorewrite with bigi in H.
  apply from_coeffs_one in H; auto.
Qed.
Lemma sub_ratio_one x n s0 : c2 (coeffs x) = 1 -> surd_sub_ratio g BigI x (Ratio n 1) = Ok s0 -> c2 (coeffs s0) = 1 /\ (discr s0 = 0 \/ discr s0 = discr x).
Proof.
  destruct x as [[a b c] d]. cbn [coeffs c2 discr]. intros -> H. unfold surd_sub_ratio, sco_sub_ratio in H. cbn [coeffs] in H. change (1 =? 1) with true in H. cbv iota in H. autorewrite with bigi in H.
  apply from_coeffs_one in H; auto.
Qed.
Lemma mul_ratio_one x n : c2 (coeffs x) = 1 -> surd_mul_ratio g BigI x (Ratio n 1) = Ok s -> c2 (coeffs s) = 1 /\ (discr s = 0 \/ discr s = discr x).
Proof.
  destruct x as [[a b c] d]. cbn [coeffs c2 discr]. intros -> H. unfold surd_mul_ratio, sco_mul_ratio in H. cbn [coeffs c0 c1 c2 numer denom] in H. autorewrite with bigi in H.
  apply from_coeffs_one in H; auto.
Qed.

Lemma add_one : surd_add g t l r = Ok s -> c2 (coeffs s) = 1 /\ root_of l r s.
Proof.
  intros H. apply rle_surd_add in H. unfold surd_add in H. rewrite Cl, Cr in H.
  destruct (is_rational r) eqn:Er; [|destruct (is_rational l) eqn:El].
  - apply bind_Ok in H. destruct H as (q & Q & H). apply ratio_one in Q. subst q. apply add_ratio_one in H; [|exact Cl]. split; [apply H|apply root_l, H].
  - apply bind_Ok in H. destruct H as (q & Q & H). apply ratio_one in Q. subst q. apply add_ratio_one in H; [|exact Cr]. split; [apply H|apply root_r, H].
  - apply bind_Ok in H. destruct H as ([l1 r1] & Q & H). pose proof (bin_op_one g l r l1 r1 Cl Cr Q) as [C1 C2].
    apply bin_op_unwrap_ok in Q; [|apply normal_wf; auto|apply normal_wf; auto|auto|auto]. destruct Q as (_ & _ & _ & _ & _ & Kl & _).
    unfold sco_add in H. rewrite C1, C2, Z.eqb_refl in H. autorewrite with bigi in H. apply from_coeffs_one in H; [|reflexivity].
    split; [apply H|]. destruct H as [_ [H|H]]; [left; exact H|]. right. left. rewrite H. exact Kl.
Qed.
Lemma sub_one : surd_sub g t l r = Ok s -> c2 (coeffs s) = 1 /\ root_of l r s.
Proof.
  intros H. apply rle_surd_sub in H. unfold surd_sub in H. rewrite Cl, Cr in H.
  destruct (is_rational r) eqn:Er; [|destruct (is_rational l) eqn:El].
  - apply bind_Ok in H. destruct H as (q & Q & H). apply ratio_one in Q. subst q. apply sub_ratio_one in H; [|exact Cl]. split; [apply H|apply root_l, H].
  - apply bind_Ok in H. destruct H as (q & Q & H). apply ratio_one in Q. subst q. apply bind_Ok in H. destruct H as (s0 & Q & H).
    apply sub_ratio_one in Q; [|exact Cr]. unfold surd_neg in H. autorewrite with bigi in H. inversion H; subst s. cbn [coeffs c2 new_raw]. split; [apply Q|]. apply root_r. exact (proj2 Q).
  - apply bind_Ok in H. destruct H as ([l1 r1] & Q & H). pose proof (bin_op_one g l r l1 r1 Cl Cr Q) as [C1 C2].
    apply bin_op_unwrap_ok in Q; [|apply normal_wf; auto|apply normal_wf; auto|auto|auto]. destruct Q as (_ & _ & _ & _ & _ & Kl & _).
    unfold sco_sub in H. rewrite C1, C2, Z.eqb_refl in H. autorewrite with bigi in H. apply from_coeffs_one in H; [|reflexivity].
    split; [apply H|]. destruct H as [_ [H|H]]; [left; exact H|]. right. left. rewrite H. exact Kl.
Qed.
Lemma mul_one : surd_mul g t l r = Ok s -> c2 (coeffs s) = 1 /\ ((is_pure l = true /\ is_pure r = true) \/ root_of l r s).
Proof.
  intros H. apply rle_surd_mul in H. unfold surd_mul in H. rewrite Cl, Cr in H.
  destruct (is_rational r) eqn:Er; [|destruct (is_rational l) eqn:El].
  - apply bind_Ok in H. destruct H as (q & Q & H). apply ratio_one in Q. subst q. apply mul_ratio_one in H; [|exact Cl]. split; [apply H|right; apply root_l, H].
  - apply bind_Ok in H. destruct H as (q & Q & H). apply ratio_one in Q. subst q. apply mul_ratio_one in H; [|exact Cr]. split; [apply H|right; apply root_r, H].
  - destruct (is_pure l && is_pure r) eqn:P.
    + apply andb_true_iff in P. split; [|left; exact P]. autorewrite with bigi in H. apply bind_Ok in H. destruct H as (d & _ & H). autorewrite with bigi in H.
      change (1 * 1) with 1 in H. change (surd_new g BigI) with (fun a b c r => surd_from_coeffs g BigI (SCo a b c) r) in H. cbv beta in H. apply from_coeffs_one in H; [apply H|reflexivity].
    + apply bind_Ok in H. destruct H as ([l1 r1] & Q & H). pose proof (bin_op_one g l r l1 r1 Cl Cr Q) as [C1 C2].
      apply bin_op_unwrap_ok in Q; [|apply normal_wf; auto|apply normal_wf; auto|auto|auto]. destruct Q as (_ & _ & _ & _ & _ & Kl & _).
      destruct l1 as [[a1 b1 e1] d1], r1 as [[a2 b2 e2] d2]. cbn [coeffs c2 discr] in *. subst e1 e2. unfold sco_mul in H. autorewrite with bigi in H. change (1 * 1) with 1 in H. apply from_coeffs_one in H; [|reflexivity].
      split; [apply H|]. right. destruct H as [_ [H|H]]; [left; exact H|]. right. left. rewrite H. exact Kl.
Qed.
End Ops.
