(** * ClaimsSpell: proofs of the property theorems in PropsSpell.v. *)

From Coq Require Import ZArith Reals Lia Lra Bool List Arith.
From Coquelicot Require Import Coquelicot.
From Verif Require Import Base Ext ModelBlock ModelCF ModelGen Spec SpecCF SpecGen SpecSpell NumFacts GenSound GenConv GenTail GenLive GenMisc GenCont GenApprox SymExp ExpIrr ExpNegLive GenHomo GenSpell ClaimsGen ClaimsHomo.
Import ListNotations.
Open Scope Z_scope.

Lemma L_C80_simplify : forall I (inext : I -> res (option (Z * Z) * I)) it f x, yields inext it f -> fst (f O) = 1 -> spells f x -> irrational x ->
  exists h, cspells h x /\ delivers (simp_next BigI inext) (gcf_simplify it) h /\
    (forall t fuel n o, nth_item (simp_next t inext fuel) n (gcf_simplify it) = Ok o -> o = Some (h n)).
Proof. intros I inext it f x. exact (simplify_spells inext it f x). Qed.

Lemma L_C80_homo : forall I (inext : I -> res (option Z * I)) it f x a b c d, yields inext it f -> cspells f x -> irrational x -> a * d - b * c <> 0 ->
  exists h, cspells h ((IZR a * x + IZR b) / (IZR c * x + IZR d)) /\ delivers (homo_next BigI inext) (icf_homo it a b c d) h /\
    (forall t fuel n o, nth_item (homo_next t inext fuel) n (icf_homo it a b c d) = Ok o -> o = Some (h n)).
Proof. intros I inext it f x a b c d. exact (homo_spells_all inext it f x a b c d). Qed.

Lemma L_C80_simplify_chained : forall I (src : nat -> I -> res (option (Z * Z) * I)) it f x, delivers src it f -> fst (f O) = 1 -> spells f x -> irrational x ->
  exists h, cspells h x /\ delivers (fun fuel => simp_next BigI (src fuel) fuel) (gcf_simplify it) h.
Proof. intros I src it f x. exact (simplify_lazy src it f x). Qed.

Lemma L_C80_homo_chained : forall I (src : nat -> I -> res (option Z * I)) it f x a b c d, delivers src it f -> cspells f x -> irrational x -> a * d - b * c <> 0 ->
  exists h, cspells h ((IZR a * x + IZR b) / (IZR c * x + IZR d)) /\ irrational ((IZR a * x + IZR b) / (IZR c * x + IZR d)) /\
    delivers (fun fuel => homo_next BigI (src fuel) fuel) (icf_homo it a b c d) h.
Proof.
  intros I src it f x a b c d Y Sx Ix D. destruct (homo_lazy src it f x a b c d Y Sx Ix D) as (h & A & B). exists h. split; [exact A|]. split; [apply irr_mobius; auto|exact B].
Qed.

Lemma simp_src {I} t (n1 n2 : I -> res (option (Z * Z) * I)) : (forall s, sub (n1 s) (n2 s)) -> forall fuel s, sub (simp_next t n1 fuel s) (simp_next t n2 fuel s).
Proof.
  intros H. induction fuel as [|fuel IH]; intros [k it]; cbn [simp_next]; [apply sub_refl|]. apply sub_bind; [apply sub_refl|]. intros [[v|] k1]; [apply sub_refl|].
  apply sub_bind; [apply H|]. intros [[[a b]|] it1]; [|apply sub_refl]. apply sub_bind; [apply sub_refl|]. intros k2. apply IH.
Qed.

Lemma exp_sub t s : sub (exp_next t s) (exp_next BigI s).
Proof.
  unfold exp_next, subT, mulT, negT, addT.
  repeat first [apply sub_chk | apply sub_refl | apply sub_bind; [|intros ?] | match goal with |- sub (if ?b then _ else _) _ => destruct b end].
Qed.

Lemma exp_spells x : spells (exp_items x) (exp (IZR x)).
Proof. exists O. split; [intros n _; apply exp_den_nz|apply exp_conv_lim]. Qed.

Lemma exp_yields x : yields (exp_next BigI) (gcf_exp x) (exp_items x).
Proof. intros n. exact (exp_big x n 0). Qed.

Lemma L_C80_exp : forall x, x <> 0 ->
  exists h, cspells h (exp (IZR x)) /\ delivers (simp_next BigI (exp_next BigI)) (gcf_simplify (gcf_exp x)) h /\
    (forall t fuel n o, nth_item (simp_next t (exp_next t) fuel) n (gcf_simplify (gcf_exp x)) = Ok o -> o = Some (h n)).
Proof.
  intros x Hx. destruct (simplify_spells (exp_next BigI) (gcf_exp x) (exp_items x) _ (exp_yields x) eq_refl (exp_spells x) (exp_irr x Hx)) as (h & A & B & C).
  exists h. split; [exact A|]. split; [exact B|]. intros t fuel n o H. apply (C t fuel). revert H. apply nth_any. intros s r. apply (simp_src t _ _ (exp_sub t)).
Qed.

Lemma L_C80_exp_homo : forall x a b c d, x <> 0 -> a * d - b * c <> 0 ->
  exists h, cspells h ((IZR a * exp (IZR x) + IZR b) / (IZR c * exp (IZR x) + IZR d)) /\
    delivers (fun fuel => homo_next BigI (simp_next BigI (exp_next BigI) fuel) fuel) (icf_homo (gcf_simplify (gcf_exp x)) a b c d) h.
Proof.
  intros x a b c d Hx D. destruct (L_C80_exp x Hx) as (g & A & B & _).
  exact (homo_lazy (simp_next BigI (exp_next BigI)) _ g _ a b c d B A (exp_irr x Hx) D).
Qed.

Lemma L_C80_one_number : forall f x y, spells f x -> spells f y -> x = y.
Proof. exact spells_unique. Qed.

Lemma L_C80_positive : forall f x, gpositive f -> gconverges f x -> spells f x.
Proof. intros f x (F & P) C. apply regular_spells; auto. intros n. apply latepos_regular. exact P. Qed.

Lemma L_C80_one_sign : forall e f x, e = 1 \/ e = -1 -> (forall n, (1 <= n)%nat -> 1 <= e * f n) -> cconverges f x -> cspells f x.
Proof. exact signed_spells. Qed.
