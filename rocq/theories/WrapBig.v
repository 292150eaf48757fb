(** * WrapBig: over BigInt nothing overflows, and without debug_assert! none fails. *)

From Coq Require Import ZArith Bool List Lia.
From Verif Require Import Base Ext ModelSurd ModelInt SpecWrap.
Import ListNotations.
Open Scope Z_scope.

Definition clean {A : Type} (m : res A) : Prop := m <> Panic POverflow /\ m <> Panic PDebugAssert.

Lemma clean_ok {A} (a : A) : clean (Ok a).
Proof. split; discriminate. Qed.
Lemma clean_hang {A} : clean (@Hang A).
Proof. split; discriminate. Qed.
Lemma clean_panic {A} k : k <> POverflow -> k <> PDebugAssert -> clean (@Panic A k).
Proof. intros H1 H2; split; congruence. Qed.
Lemma clean_bind {A B} (m : res A) (f : A -> res B) : clean m -> (forall a, clean (f a)) -> clean (bind m f).
Proof.
  intros [H1 H2] Hf. destruct m as [a|k|]; cbn; [apply Hf| |apply clean_hang].
  apply clean_panic; congruence.
Qed.
Lemma clean_lift1 {A B} (op : A -> res B) m : (forall a, clean (op a)) -> clean m -> clean (lift1 op m).
Proof. intros. apply clean_bind; auto. Qed.
Lemma clean_lift2 {A B C} (op : A -> B -> res C) m n : (forall a b, clean (op a b)) -> clean m -> clean n -> clean (lift2 op m n).
Proof. intros. apply clean_bind; auto. intro. apply clean_bind; auto. Qed.
Lemma clean_dassert g b : clean (dassert (release g) b).
Proof. apply clean_ok. Qed.
Lemma clean_chk z : clean (chk BigI z).
Proof. apply clean_ok. Qed.
Lemma clean_unwrap {A} (o : option A) : clean (unwrap o).
Proof. destruct o; [apply clean_ok|apply clean_panic; discriminate]. Qed.
Lemma clean_sqrt x : clean (sqrtT x).
Proof. unfold sqrtT. destruct (x <? 0); [apply clean_panic; discriminate|apply clean_ok]. Qed.

Create HintDb clean.
#[export] Hint Resolve clean_ok clean_hang clean_dassert clean_chk clean_unwrap clean_sqrt : clean.

Ltac clean1 :=
  match goal with
  | |- clean (Ok _) => apply clean_ok
  | |- clean (Panic _) => apply clean_panic; discriminate
  | |- clean (lift1 _ _) => apply clean_lift1; intros
  | |- clean (lift2 _ _ _) => apply clean_lift2; intros
  | |- clean (bind _ _) => apply clean_bind; intros
  | |- clean (if ?b then _ else _) => destruct b
  | |- clean (match ?x with _ => _ end) => destruct x
  | |- forall _, _ => intros
  | |- clean _ => solve [auto with clean nocore]
  end.
Ltac clean := repeat clean1.

Lemma n_addT x y : clean (addT BigI x y). Proof. unfold addT; clean. Qed.
#[export] Hint Resolve n_addT : clean.
Lemma n_subT x y : clean (subT BigI x y). Proof. unfold subT; clean. Qed.
#[export] Hint Resolve n_subT : clean.
Lemma n_mulT x y : clean (mulT BigI x y). Proof. unfold mulT; clean. Qed.
#[export] Hint Resolve n_mulT : clean.
Lemma n_negT x : clean (negT BigI x). Proof. unfold negT; clean. Qed.
#[export] Hint Resolve n_negT : clean.
Lemma n_absT x : clean (absT BigI x). Proof. unfold absT; clean. Qed.
#[export] Hint Resolve n_absT : clean.
Lemma n_quotT x y : clean (quotT BigI x y). Proof. unfold quotT; clean. Qed.
#[export] Hint Resolve n_quotT : clean.
Lemma n_remT x y : clean (remT BigI x y). Proof. unfold remT; clean. Qed.
#[export] Hint Resolve n_remT : clean.
Lemma n_div_remT x y : clean (div_remT BigI x y). Proof. unfold div_remT; clean. Qed.
#[export] Hint Resolve n_div_remT : clean.
Lemma n_div_floorT x y : clean (div_floorT BigI x y). Proof. unfold div_floorT; clean. Qed.
#[export] Hint Resolve n_div_floorT : clean.
Lemma n_gcdT x y : clean (gcdT BigI x y). Proof. unfold gcdT; clean. Qed.
#[export] Hint Resolve n_gcdT : clean.
Lemma n_lcmT x y : clean (lcmT BigI x y). Proof. unfold lcmT; clean. Qed.
#[export] Hint Resolve n_lcmT : clean.

Lemma n_to_unsigned x : clean (to_unsigned BigI x). Proof. unfold to_unsigned; clean. Qed.
#[export] Hint Resolve n_to_unsigned : clean.

Lemma n_ratio_new x1 x2 : clean (ratio_new BigI x1 x2).
Proof. unfold ratio_new; clean. Qed.
#[export] Hint Resolve n_ratio_new : clean.
Lemma n_ratio_arith op x y : (forall a b, clean (op a b)) -> clean (ratio_arith BigI op x y).
Proof. intros H. unfold ratio_arith; clean. Qed.
#[export] Hint Resolve n_ratio_arith : clean.
Lemma n_ratio_add x1 x2 : clean (ratio_add BigI x1 x2).
Proof. unfold ratio_add; clean. Qed.
#[export] Hint Resolve n_ratio_add : clean.
Lemma n_ratio_sub x1 x2 : clean (ratio_sub BigI x1 x2).
Proof. unfold ratio_sub; clean. Qed.
#[export] Hint Resolve n_ratio_sub : clean.
Lemma n_ratio_add_int x1 x2 : clean (ratio_add_int BigI x1 x2).
Proof. unfold ratio_add_int; clean. Qed.
#[export] Hint Resolve n_ratio_add_int : clean.
Lemma n_ratio_sub_int x1 x2 : clean (ratio_sub_int BigI x1 x2).
Proof. unfold ratio_sub_int; clean. Qed.
#[export] Hint Resolve n_ratio_sub_int : clean.
Lemma n_ratio_mul x1 x2 : clean (ratio_mul BigI x1 x2).
Proof. unfold ratio_mul; clean. Qed.
#[export] Hint Resolve n_ratio_mul : clean.
Lemma n_ratio_mul_int x1 x2 : clean (ratio_mul_int BigI x1 x2).
Proof. unfold ratio_mul_int; clean. Qed.
#[export] Hint Resolve n_ratio_mul_int : clean.
Lemma n_ratio_div x1 x2 : clean (ratio_div BigI x1 x2).
Proof. unfold ratio_div; clean. Qed.
#[export] Hint Resolve n_ratio_div : clean.
Lemma n_ratio_div_int x1 x2 : clean (ratio_div_int BigI x1 x2).
Proof. unfold ratio_div_int; clean. Qed.
#[export] Hint Resolve n_ratio_div_int : clean.
Lemma n_ratio_neg x1 : clean (ratio_neg BigI x1).
Proof. unfold ratio_neg; clean. Qed.
#[export] Hint Resolve n_ratio_neg : clean.
Lemma n_ratio_recip x1 : clean (ratio_recip BigI x1).
Proof. unfold ratio_recip; clean. Qed.
#[export] Hint Resolve n_ratio_recip : clean.
Lemma n_ratio_to_integer x1 : clean (ratio_to_integer BigI x1).
Proof. unfold ratio_to_integer; clean. Qed.
#[export] Hint Resolve n_ratio_to_integer : clean.
Lemma n_sco_add x1 x2 : clean (sco_add BigI x1 x2).
Proof. unfold sco_add; clean. Qed.
#[export] Hint Resolve n_sco_add : clean.
Lemma n_sco_sub x1 x2 : clean (sco_sub BigI x1 x2).
Proof. unfold sco_sub; clean. Qed.
#[export] Hint Resolve n_sco_sub : clean.
Lemma n_sco_mul x1 x2 x3 : clean (sco_mul BigI x1 x2 x3).
Proof. unfold sco_mul; clean. Qed.
#[export] Hint Resolve n_sco_mul : clean.
Lemma n_sco_div x1 x2 x3 : clean (sco_div BigI x1 x2 x3).
Proof. unfold sco_div; clean. Qed.
#[export] Hint Resolve n_sco_div : clean.
Lemma n_sco_conj x1 : clean (sco_conj BigI x1).
Proof. unfold sco_conj; clean. Qed.
#[export] Hint Resolve n_sco_conj : clean.
Lemma n_sco_norm x1 x2 : clean (sco_norm BigI x1 x2).
Proof. unfold sco_norm; clean. Qed.
#[export] Hint Resolve n_sco_norm : clean.
Lemma n_sco_add_ratio x1 x2 : clean (sco_add_ratio BigI x1 x2).
Proof. unfold sco_add_ratio; clean. Qed.
#[export] Hint Resolve n_sco_add_ratio : clean.
Lemma n_sco_sub_ratio x1 x2 : clean (sco_sub_ratio BigI x1 x2).
Proof. unfold sco_sub_ratio; clean. Qed.
#[export] Hint Resolve n_sco_sub_ratio : clean.
Lemma n_sco_mul_ratio x1 x2 : clean (sco_mul_ratio BigI x1 x2).
Proof. unfold sco_mul_ratio; clean. Qed.
#[export] Hint Resolve n_sco_mul_ratio : clean.
Lemma n_sco_div_ratio x1 x2 : clean (sco_div_ratio BigI x1 x2).
Proof. unfold sco_div_ratio; clean. Qed.
#[export] Hint Resolve n_sco_div_ratio : clean.
Lemma n_sco_add_int x1 x2 : clean (sco_add_int BigI x1 x2).
Proof. unfold sco_add_int; clean. Qed.
#[export] Hint Resolve n_sco_add_int : clean.
Lemma n_sco_sub_int x1 x2 : clean (sco_sub_int BigI x1 x2).
Proof. unfold sco_sub_int; clean. Qed.
#[export] Hint Resolve n_sco_sub_int : clean.
Lemma n_sco_mul_int x1 x2 : clean (sco_mul_int BigI x1 x2).
Proof. unfold sco_mul_int; clean. Qed.
#[export] Hint Resolve n_sco_mul_int : clean.
Lemma n_sco_div_int x1 x2 : clean (sco_div_int BigI x1 x2).
Proof. unfold sco_div_int; clean. Qed.
#[export] Hint Resolve n_sco_div_int : clean.
Lemma n_panic_if_complex g x1 : clean (panic_if_complex (release g) x1).
Proof. unfold panic_if_complex; clean. Qed.
#[export] Hint Resolve n_panic_if_complex : clean.
Lemma n_reduce_square x1 x2 x3 : clean (reduce_square BigI x1 x2 x3).
Proof. unfold reduce_square; clean. Qed.
#[export] Hint Resolve n_reduce_square : clean.
Lemma n_reduce_common x1 x2 x3 x4 : clean (reduce_common BigI x1 x2 x3 x4).
Proof. unfold reduce_common; clean. Qed.
#[export] Hint Resolve n_reduce_common : clean.
Lemma n_reduce_sign x1 x2 x3 x4 : clean (reduce_sign BigI x1 x2 x3 x4).
Proof. unfold reduce_sign; clean. Qed.
#[export] Hint Resolve n_reduce_sign : clean.
Lemma n_surd_reduce x1 : clean (surd_reduce BigI x1).
Proof. unfold surd_reduce; clean. Qed.
#[export] Hint Resolve n_surd_reduce : clean.
Lemma n_reduce_root_hinted x1 x2 : clean (reduce_root_hinted BigI x1 x2).
Proof. unfold reduce_root_hinted; clean. Qed.
#[export] Hint Resolve n_reduce_root_hinted : clean.
Lemma n_surd_new g x2 x3 x4 x5 : clean (surd_new (release g) BigI x2 x3 x4 x5).
Proof. unfold surd_new; clean. Qed.
#[export] Hint Resolve n_surd_new : clean.
Lemma n_surd_from_coeffs g x2 x3 : clean (surd_from_coeffs (release g) BigI x2 x3).
Proof. unfold surd_from_coeffs; clean. Qed.
#[export] Hint Resolve n_surd_from_coeffs : clean.
Lemma n_surd_from_rationals g x2 x3 x4 : clean (surd_from_rationals (release g) BigI x2 x3 x4).
Proof. unfold surd_from_rationals; clean. Qed.
#[export] Hint Resolve n_surd_from_rationals : clean.
Lemma n_surd_from_equation g x2 x3 x4 : clean (surd_from_equation (release g) BigI x2 x3 x4).
Proof. unfold surd_from_equation; clean. Qed.
#[export] Hint Resolve n_surd_from_equation : clean.
Lemma n_surd_recip g x2 : clean (surd_recip (release g) BigI x2).
Proof. unfold surd_recip; clean. Qed.
#[export] Hint Resolve n_surd_recip : clean.
Lemma n_surd_conj x1 : clean (surd_conj BigI x1).
Proof. unfold surd_conj; clean. Qed.
#[export] Hint Resolve n_surd_conj : clean.
Lemma n_surd_neg x1 : clean (surd_neg BigI x1).
Proof. unfold surd_neg; clean. Qed.
#[export] Hint Resolve n_surd_neg : clean.
Lemma n_surd_add_int g x2 x3 : clean (surd_add_int (release g) BigI x2 x3).
Proof. unfold surd_add_int; clean. Qed.
#[export] Hint Resolve n_surd_add_int : clean.
Lemma n_surd_sub_int g x2 x3 : clean (surd_sub_int (release g) BigI x2 x3).
Proof. unfold surd_sub_int; clean. Qed.
#[export] Hint Resolve n_surd_sub_int : clean.
Lemma n_surd_mul_int g x2 x3 : clean (surd_mul_int (release g) BigI x2 x3).
Proof. unfold surd_mul_int; clean. Qed.
#[export] Hint Resolve n_surd_mul_int : clean.
Lemma n_surd_div_int g x2 x3 : clean (surd_div_int (release g) BigI x2 x3).
Proof. unfold surd_div_int; clean. Qed.
#[export] Hint Resolve n_surd_div_int : clean.
Lemma n_surd_add_ratio g x2 x3 : clean (surd_add_ratio (release g) BigI x2 x3).
Proof. unfold surd_add_ratio; clean. Qed.
#[export] Hint Resolve n_surd_add_ratio : clean.
Lemma n_surd_sub_ratio g x2 x3 : clean (surd_sub_ratio (release g) BigI x2 x3).
Proof. unfold surd_sub_ratio; clean. Qed.
#[export] Hint Resolve n_surd_sub_ratio : clean.
Lemma n_surd_mul_ratio g x2 x3 : clean (surd_mul_ratio (release g) BigI x2 x3).
Proof. unfold surd_mul_ratio; clean. Qed.
#[export] Hint Resolve n_surd_mul_ratio : clean.
Lemma n_surd_div_ratio g x2 x3 : clean (surd_div_ratio (release g) BigI x2 x3).
Proof. unfold surd_div_ratio; clean. Qed.
#[export] Hint Resolve n_surd_div_ratio : clean.
Lemma n_reduce_bin_op g x2 x3 : clean (reduce_bin_op (release g) BigI x2 x3).
Proof. unfold reduce_bin_op; clean. Qed.
#[export] Hint Resolve n_reduce_bin_op : clean.
Lemma n_reduce_bin_op_unwrap g x2 x3 : clean (reduce_bin_op_unwrap (release g) BigI x2 x3).
Proof. unfold reduce_bin_op_unwrap; clean. Qed.
#[export] Hint Resolve n_reduce_bin_op_unwrap : clean.
Lemma n_surd_add g x2 x3 : clean (surd_add (release g) BigI x2 x3).
Proof. unfold surd_add; clean. Qed.
#[export] Hint Resolve n_surd_add : clean.
Lemma n_surd_sub g x2 x3 : clean (surd_sub (release g) BigI x2 x3).
Proof. unfold surd_sub; clean. Qed.
#[export] Hint Resolve n_surd_sub : clean.
Lemma n_surd_mul g x2 x3 : clean (surd_mul (release g) BigI x2 x3).
Proof. unfold surd_mul; clean. Qed.
#[export] Hint Resolve n_surd_mul : clean.
Lemma n_surd_div g x2 x3 : clean (surd_div (release g) BigI x2 x3).
Proof. unfold surd_div; clean. Qed.
#[export] Hint Resolve n_surd_div : clean.
Lemma n_surd_trunc g x2 : clean (surd_trunc (release g) BigI x2).
Proof. unfold surd_trunc; clean. Qed.
#[export] Hint Resolve n_surd_trunc : clean.
Lemma n_surd_fract g x2 : clean (surd_fract (release g) BigI x2).
Proof. unfold surd_fract; clean. Qed.
#[export] Hint Resolve n_surd_fract : clean.
Lemma n_surd_to_integer g x2 : clean (surd_to_integer (release g) BigI x2).
Proof. unfold surd_to_integer; clean. Qed.
#[export] Hint Resolve n_surd_to_integer : clean.
Lemma n_surd_to_gaussint g x2 : clean (surd_to_gaussint (release g) BigI x2).
Proof. unfold surd_to_gaussint; clean. Qed.
#[export] Hint Resolve n_surd_to_gaussint : clean.
Lemma n_surd_to_rational g x2 : clean (surd_to_rational (release g) BigI x2).
Proof. unfold surd_to_rational; clean. Qed.
#[export] Hint Resolve n_surd_to_rational : clean.
Lemma n_surd_floor g x2 : clean (surd_floor (release g) BigI x2).
Proof. unfold surd_floor; clean. Qed.
#[export] Hint Resolve n_surd_floor : clean.
Lemma n_surd_is_positive g x2 : clean (surd_is_positive (release g) BigI x2).
Proof. unfold surd_is_positive; clean. Qed.
#[export] Hint Resolve n_surd_is_positive : clean.
Lemma n_surd_is_negative g x2 : clean (surd_is_negative (release g) BigI x2).
Proof. unfold surd_is_negative; clean. Qed.
#[export] Hint Resolve n_surd_is_negative : clean.
Lemma n_surd_eq x1 x2 : clean (surd_eq BigI x1 x2).
Proof. unfold surd_eq; clean. Qed.
#[export] Hint Resolve n_surd_eq : clean.
Lemma n_reduce_root_loop x1 x2 x3 x4 x5 : clean (reduce_root_loop BigI x1 x2 x3 x4 x5).
Proof.
  revert x2 x3 x4 x5. induction x1 as [|x1 IH]; intros; cbn [reduce_root_loop]; clean.
Qed.
#[export] Hint Resolve n_reduce_root_loop : clean.
Lemma n_reduce_root_primes x1 x2 x3 x4 : clean (reduce_root_primes BigI x1 x2 x3 x4).
Proof.
  revert x1 x3 x4. induction x2 as [|?y x2 IH]; intros; cbn [reduce_root_primes]; clean.
Qed.
#[export] Hint Resolve n_reduce_root_primes : clean.
Lemma n_surd_reduced x1 x2 : clean (surd_reduced BigI x1 x2).
Proof. unfold surd_reduced; clean. Qed.
#[export] Hint Resolve n_surd_reduced : clean.
Lemma n_surd_to_prim g x2 x3 : clean (surd_to_prim (release g) BigI x2 x3).
Proof. unfold surd_to_prim; clean. Qed.
#[export] Hint Resolve n_surd_to_prim : clean.
Lemma n_from_sqrt_int g x2 : clean (from_sqrt_int (release g) BigI x2).
Proof. unfold from_sqrt_int; clean. Qed.
#[export] Hint Resolve n_from_sqrt_int : clean.
Lemma n_from_sqrt_ratio g x2 : clean (from_sqrt_ratio (release g) BigI x2).
Proof. unfold from_sqrt_ratio; clean. Qed.
#[export] Hint Resolve n_from_sqrt_ratio : clean.
Lemma n_sqrt_reconstruct g x2 x3 x4 x5 : clean (sqrt_reconstruct (release g) BigI x2 x3 x4 x5).
Proof. unfold sqrt_reconstruct; clean. Qed.
#[export] Hint Resolve n_sqrt_reconstruct : clean.
Lemma n_get_abc x1 x2 : clean (get_abc BigI x1 x2).
Proof. unfold get_abc; clean. Qed.
#[export] Hint Resolve n_get_abc : clean.
Lemma n_from_sqrt_surd g x2 : clean (from_sqrt_surd (release g) BigI x2).
Proof. unfold from_sqrt_surd; clean. Qed.
#[export] Hint Resolve n_from_sqrt_surd : clean.
Lemma n_four : clean (four BigI).
Proof. unfold four; clean. Qed.
#[export] Hint Resolve n_four : clean.
Lemma n_mod4d2 x1 : clean (mod4d2 BigI x1).
Proof. unfold mod4d2; clean. Qed.
#[export] Hint Resolve n_mod4d2 : clean.
Lemma n_div_rem_round x1 x2 : clean (div_rem_round BigI x1 x2).
Proof. unfold div_rem_round; clean. Qed.
#[export] Hint Resolve n_div_rem_round : clean.
Lemma n_qco_add_int x1 x2 : clean (qco_add_int BigI x1 x2).
Proof. unfold qco_add_int; clean. Qed.
#[export] Hint Resolve n_qco_add_int : clean.
Lemma n_qco_add x1 x2 : clean (qco_add BigI x1 x2).
Proof. unfold qco_add; clean. Qed.
#[export] Hint Resolve n_qco_add : clean.
Lemma n_qco_sub_int x1 x2 : clean (qco_sub_int BigI x1 x2).
Proof. unfold qco_sub_int; clean. Qed.
#[export] Hint Resolve n_qco_sub_int : clean.
Lemma n_qco_sub x1 x2 : clean (qco_sub BigI x1 x2).
Proof. unfold qco_sub; clean. Qed.
#[export] Hint Resolve n_qco_sub : clean.
Lemma n_qco_mul_int x1 x2 : clean (qco_mul_int BigI x1 x2).
Proof. unfold qco_mul_int; clean. Qed.
#[export] Hint Resolve n_qco_mul_int : clean.
Lemma n_qco_div_int x1 x2 : clean (qco_div_int BigI x1 x2).
Proof. unfold qco_div_int; clean. Qed.
#[export] Hint Resolve n_qco_div_int : clean.
Lemma n_qco_rem_int x1 x2 : clean (qco_rem_int BigI x1 x2).
Proof. unfold qco_rem_int; clean. Qed.
#[export] Hint Resolve n_qco_rem_int : clean.
Lemma n_qco_norm x1 x2 : clean (qco_norm BigI x1 x2).
Proof. unfold qco_norm; clean. Qed.
#[export] Hint Resolve n_qco_norm : clean.
Lemma n_qco_mul x1 x2 x3 : clean (qco_mul BigI x1 x2 x3).
Proof. unfold qco_mul; clean. Qed.
#[export] Hint Resolve n_qco_mul : clean.
Lemma n_qco_div_rem x1 x2 x3 : clean (qco_div_rem BigI x1 x2 x3).
Proof. unfold qco_div_rem; clean. Qed.
#[export] Hint Resolve n_qco_div_rem : clean.
Lemma n_qco_div x1 x2 x3 : clean (qco_div BigI x1 x2 x3).
Proof. unfold qco_div; clean. Qed.
#[export] Hint Resolve n_qco_div : clean.
Lemma n_qco_conj x1 x2 : clean (qco_conj BigI x1 x2).
Proof. unfold qco_conj; clean. Qed.
#[export] Hint Resolve n_qco_conj : clean.
Lemma n_qint_from_coeffs g x2 x3 : clean (qint_from_coeffs (release g) BigI x2 x3).
Proof. unfold qint_from_coeffs; clean. Qed.
#[export] Hint Resolve n_qint_from_coeffs : clean.
Lemma n_remove4 x1 x2 x3 : clean (remove4 BigI x1 x2 x3).
Proof.
  revert x2 x3. induction x1 as [|x1 IH]; intros; cbn [remove4]; clean.
Qed.
#[export] Hint Resolve n_remove4 : clean.
Lemma n_qint_new g x2 x3 x4 : clean (qint_new (release g) BigI x2 x3 x4).
Proof. unfold qint_new; clean. Qed.
#[export] Hint Resolve n_qint_new : clean.
Lemma n_qint_conj x1 : clean (qint_conj BigI x1).
Proof. unfold qint_conj; clean. Qed.
#[export] Hint Resolve n_qint_conj : clean.
Lemma n_qint_norm x1 : clean (qint_norm BigI x1).
Proof. unfold qint_norm; clean. Qed.
#[export] Hint Resolve n_qint_norm : clean.
Lemma n_qint_is_pure x1 : clean (qint_is_pure BigI x1).
Proof. unfold qint_is_pure; clean. Qed.
#[export] Hint Resolve n_qint_is_pure : clean.
Lemma n_qint_parts_doubled x1 : clean (qint_parts_doubled BigI x1).
Proof. unfold qint_parts_doubled; clean. Qed.
#[export] Hint Resolve n_qint_parts_doubled : clean.
Lemma n_qint_reduce_root_hinted g x2 x3 : clean (qint_reduce_root_hinted (release g) BigI x2 x3).
Proof. unfold qint_reduce_root_hinted; clean. Qed.
#[export] Hint Resolve n_qint_reduce_root_hinted : clean.
Lemma n_qint_neg x1 : clean (qint_neg BigI x1).
Proof. unfold qint_neg; clean. Qed.
#[export] Hint Resolve n_qint_neg : clean.
Lemma n_qint_reduce_bin_op g x2 x3 : clean (qint_reduce_bin_op (release g) BigI x2 x3).
Proof. unfold qint_reduce_bin_op; clean. Qed.
#[export] Hint Resolve n_qint_reduce_bin_op : clean.
Lemma n_qint_reduce_bin_op_unwrap g x2 x3 : clean (qint_reduce_bin_op_unwrap (release g) BigI x2 x3).
Proof. unfold qint_reduce_bin_op_unwrap; clean. Qed.
#[export] Hint Resolve n_qint_reduce_bin_op_unwrap : clean.
Lemma n_qint_eq x1 x2 : clean (qint_eq BigI x1 x2).
Proof. unfold qint_eq; clean. Qed.
#[export] Hint Resolve n_qint_eq : clean.
Lemma n_qint_is_one x1 : clean (qint_is_one BigI x1).
Proof. unfold qint_is_one; clean. Qed.
#[export] Hint Resolve n_qint_is_one : clean.
Lemma n_qint_add_int x1 x2 : clean (qint_add_int BigI x1 x2).
Proof. unfold qint_add_int; clean. Qed.
#[export] Hint Resolve n_qint_add_int : clean.
Lemma n_qint_sub_int x1 x2 : clean (qint_sub_int BigI x1 x2).
Proof. unfold qint_sub_int; clean. Qed.
#[export] Hint Resolve n_qint_sub_int : clean.
Lemma n_qint_mul_int x1 x2 : clean (qint_mul_int BigI x1 x2).
Proof. unfold qint_mul_int; clean. Qed.
#[export] Hint Resolve n_qint_mul_int : clean.
Lemma n_qint_div_int x1 x2 : clean (qint_div_int BigI x1 x2).
Proof. unfold qint_div_int; clean. Qed.
#[export] Hint Resolve n_qint_div_int : clean.
Lemma n_qint_rem_int x1 x2 : clean (qint_rem_int BigI x1 x2).
Proof. unfold qint_rem_int; clean. Qed.
#[export] Hint Resolve n_qint_rem_int : clean.
Lemma n_qint_add g x2 x3 : clean (qint_add (release g) BigI x2 x3).
Proof. unfold qint_add; clean. Qed.
#[export] Hint Resolve n_qint_add : clean.
Lemma n_qint_sub g x2 x3 : clean (qint_sub (release g) BigI x2 x3).
Proof. unfold qint_sub; clean. Qed.
#[export] Hint Resolve n_qint_sub : clean.
Lemma n_qint_mul g x2 x3 : clean (qint_mul (release g) BigI x2 x3).
Proof. unfold qint_mul; clean. Qed.
#[export] Hint Resolve n_qint_mul : clean.
Lemma n_qint_div g x2 x3 : clean (qint_div (release g) BigI x2 x3).
Proof. unfold qint_div; clean. Qed.
#[export] Hint Resolve n_qint_div : clean.
Lemma n_qint_rem g x2 x3 : clean (qint_rem (release g) BigI x2 x3).
Proof. unfold qint_rem; clean. Qed.
#[export] Hint Resolve n_qint_rem : clean.
Lemma n_surd_to_quadint g x2 : clean (surd_to_quadint (release g) BigI x2).
Proof. unfold surd_to_quadint; clean. Qed.
#[export] Hint Resolve n_surd_to_quadint : clean.
Lemma n_gauss_conj x1 : clean (gauss_conj BigI x1).
Proof. unfold gauss_conj; clean. Qed.
#[export] Hint Resolve n_gauss_conj : clean.
Lemma n_gauss_norm x1 : clean (gauss_norm BigI x1).
Proof. unfold gauss_norm; clean. Qed.
#[export] Hint Resolve n_gauss_norm : clean.
Lemma n_gauss_add x1 x2 : clean (gauss_add BigI x1 x2).
Proof. unfold gauss_add; clean. Qed.
#[export] Hint Resolve n_gauss_add : clean.
Lemma n_gauss_sub x1 x2 : clean (gauss_sub BigI x1 x2).
Proof. unfold gauss_sub; clean. Qed.
#[export] Hint Resolve n_gauss_sub : clean.
Lemma n_gauss_mul x1 x2 : clean (gauss_mul BigI x1 x2).
Proof. unfold gauss_mul; clean. Qed.
#[export] Hint Resolve n_gauss_mul : clean.
Lemma n_gauss_div x1 x2 : clean (gauss_div BigI x1 x2).
Proof. unfold gauss_div; clean. Qed.
#[export] Hint Resolve n_gauss_div : clean.
Lemma n_gauss_rem x1 x2 : clean (gauss_rem BigI x1 x2).
Proof. unfold gauss_rem; clean. Qed.
#[export] Hint Resolve n_gauss_rem : clean.
