(** * WrapRef: every function agrees with its wrapping copy unless it overflows.

    For each copied function [f] (Wrap*.v) the lemma [w_f]: the call in the dev profile and the
    call in the release profile have the same outcome, or the former panics with an overflow or a
    failed debug_assert!. *)

From Coq Require Import ZArith Bool List Lia.
From Verif Require Import Base Ext ModelSurd ModelInt ModelBlock ModelCF ModelConv ModelGen ModelSymbols ModelFmt
  SpecWrap WrapBase WrapExt WrapSurd WrapInt WrapBlock WrapCF WrapConv WrapGen WrapSymbols WrapFmt.
Import ListNotations.
Open Scope Z_scope.

Lemma agree_refl {A} (m : res A) : agree m m.
Proof. left; reflexivity. Qed.

Lemma agree_bind {A B} (m n : res A) (f h : A -> res B) :
  agree m n -> (forall a, agree (f a) (h a)) -> agree (bind m f) (bind n h).
Proof.
  intros [-> | [-> | ->]] Hf; [|right; left; reflexivity|right; right; reflexivity].
  destruct n as [a|k|]; cbn; [apply Hf|left; reflexivity|left; reflexivity].
Qed.

Lemma agree_lift1 {A B} (op op' : A -> res B) m n :
  (forall a, agree (op a) (op' a)) -> agree m n -> agree (lift1 op m) (lift1 op' n).
Proof. intros. apply agree_bind; auto. Qed.

Lemma agree_lift2 {A B C} (op op' : A -> B -> res C) m m' n n' :
  (forall a b, agree (op a b) (op' a b)) -> agree m m' -> agree n n' ->
  agree (lift2 op m n) (lift2 op' m' n').
Proof. intros. apply agree_bind; auto. intro. apply agree_bind; auto. Qed.

Lemma fits_wrap_s n z : (- 2 ^ (n - 1) <=? z) && (z <? 2 ^ (n - 1)) = true ->
  (z + 2 ^ (n - 1)) mod 2 ^ n - 2 ^ (n - 1) = z.
Proof.
  intros H. apply andb_true_iff in H. rewrite Z.leb_le, Z.ltb_lt in H.
  assert (Hn : 1 <= n).
  { destruct (Z.le_gt_cases 1 n); [auto|]. rewrite (Z.pow_neg_r 2 (n - 1)) in H by lia. lia. }
  replace (2 ^ n) with (2 * 2 ^ (n - 1)) by (rewrite <- Z.pow_succ_r by lia; f_equal; lia).
  rewrite Z.mod_small; lia.
Qed.

Lemma agree_chk t z : agree (chk t z) (chk_w t z).
Proof.
  destruct t as [| |n|n]; try apply agree_refl; unfold chk, chk_w, fits.
  - destruct (_ && _) eqn:E; [|right; left; reflexivity]. left. rewrite fits_wrap_s; auto.
  - destruct (_ && _) eqn:E; [|right; left; reflexivity]. left.
    apply andb_true_iff in E. rewrite Z.leb_le, Z.ltb_lt in E. rewrite Z.mod_small; auto.
Qed.

Lemma agree_dassert g b : agree (dassert g b) (dassert (release g) b).
Proof. unfold dassert, release. cbn. destruct (dbg g && negb b); [right; right|left]; reflexivity. Qed.

Create HintDb wrap.
#[export] Hint Resolve agree_refl agree_chk agree_dassert : wrap.

Ltac agree1 :=
  match goal with
  | |- agree ?x ?x => apply agree_refl
  | |- agree (lift1 _ _) (lift1 _ _) => apply agree_lift1; intros
  | |- agree (lift2 _ _ _) (lift2 _ _ _) => apply agree_lift2; intros
  | |- agree (bind _ _) (bind _ _) => apply agree_bind; intros
  | |- agree (if ?b then _ else _) (if ?b then _ else _) => destruct b
  | |- agree (match ?x with _ => _ end) _ => destruct x
  | |- forall _, _ => intros
  | |- agree _ _ => solve [auto with wrap nocore]
  end.
Ltac agree :=
  repeat match goal with |- context [cplx (release ?g)] => change (cplx (release g)) with (cplx g) end;
  repeat agree1.

Lemma w_add t x y : agree (addT t x y) (addT_w t x y). Proof. apply agree_chk. Qed.
Lemma w_sub t x y : agree (subT t x y) (subT_w t x y). Proof. apply agree_chk. Qed.
Lemma w_mul t x y : agree (mulT t x y) (mulT_w t x y). Proof. apply agree_chk. Qed.
Lemma w_neg t x : agree (negT t x) (negT_w t x). Proof. apply agree_chk. Qed.
Lemma w_abs t x : agree (absT t x) (absT_w t x). Proof. apply agree_chk. Qed.
Lemma w_gcd t x y : agree (gcdT t x y) (gcdT_w t x y). Proof. apply agree_chk. Qed.
#[export] Hint Resolve w_add w_sub w_mul w_neg w_abs w_gcd : wrap.
Lemma w_lcm t x y : agree (lcmT t x y) (lcmT_w t x y). Proof. unfold lcmT, lcmT_w; agree. Qed.
#[export] Hint Resolve w_lcm : wrap.

Lemma agree_mapM {A B} (f h : A -> res B) l : (forall a, agree (f a) (h a)) -> agree (mapM f l) (mapM h l).
Proof. intros H. induction l; cbn; agree. Qed.

(** ** Iterators *)
Section Iter.
Context {S A : Type} (next next' : S -> res (option A * S)) (N : forall s, agree (next s) (next' s)).
Lemma w_take n s : agree (take next n s) (take next' n s).
Proof. revert s. induction n; intros; cbn; agree. Qed.
Lemma w_nth_item n s : agree (nth_item next n s) (nth_item next' n s).
Proof. revert s. induction n; intros; cbn; agree. Qed.
Lemma w_last_item n acc s : agree (last_item next n acc s) (last_item next' n acc s).
Proof. revert acc s. induction n; intros; cbn; agree. Qed.
End Iter.
#[export] Hint Resolve w_take w_nth_item w_last_item : wrap.

(** ** Ext.v *)

Lemma w_ratio_new x0 x1 x2 : agree (ratio_new x0 x1 x2) (ratio_new_w x0 x1 x2).
Proof. unfold ratio_new, ratio_new_w; agree. Qed.
#[export] Hint Resolve w_ratio_new : wrap.
Lemma w_ratio_arith t op op' x y : (forall a b, agree (op a b) (op' a b)) ->
  agree (ratio_arith t op x y) (ratio_arith_w t op' x y).
Proof. intros H. unfold ratio_arith, ratio_arith_w; agree. Qed.
#[export] Hint Resolve w_ratio_arith : wrap.
Lemma w_ratio_add x0 x1 x2 : agree (ratio_add x0 x1 x2) (ratio_add_w x0 x1 x2).
Proof. unfold ratio_add, ratio_add_w; agree. Qed.
#[export] Hint Resolve w_ratio_add : wrap.
Lemma w_ratio_sub x0 x1 x2 : agree (ratio_sub x0 x1 x2) (ratio_sub_w x0 x1 x2).
Proof. unfold ratio_sub, ratio_sub_w; agree. Qed.
#[export] Hint Resolve w_ratio_sub : wrap.
Lemma w_ratio_add_int x0 x1 x2 : agree (ratio_add_int x0 x1 x2) (ratio_add_int_w x0 x1 x2).
Proof. unfold ratio_add_int, ratio_add_int_w; agree. Qed.
#[export] Hint Resolve w_ratio_add_int : wrap.
Lemma w_ratio_sub_int x0 x1 x2 : agree (ratio_sub_int x0 x1 x2) (ratio_sub_int_w x0 x1 x2).
Proof. unfold ratio_sub_int, ratio_sub_int_w; agree. Qed.
#[export] Hint Resolve w_ratio_sub_int : wrap.
Lemma w_ratio_mul x0 x1 x2 : agree (ratio_mul x0 x1 x2) (ratio_mul_w x0 x1 x2).
Proof. unfold ratio_mul, ratio_mul_w; agree. Qed.
#[export] Hint Resolve w_ratio_mul : wrap.
Lemma w_ratio_mul_int x0 x1 x2 : agree (ratio_mul_int x0 x1 x2) (ratio_mul_int_w x0 x1 x2).
Proof. unfold ratio_mul_int, ratio_mul_int_w; agree. Qed.
#[export] Hint Resolve w_ratio_mul_int : wrap.
Lemma w_ratio_div x0 x1 x2 : agree (ratio_div x0 x1 x2) (ratio_div_w x0 x1 x2).
Proof. unfold ratio_div, ratio_div_w; agree. Qed.
#[export] Hint Resolve w_ratio_div : wrap.
Lemma w_ratio_div_int x0 x1 x2 : agree (ratio_div_int x0 x1 x2) (ratio_div_int_w x0 x1 x2).
Proof. unfold ratio_div_int, ratio_div_int_w; agree. Qed.
#[export] Hint Resolve w_ratio_div_int : wrap.
Lemma w_ratio_neg x0 x1 : agree (ratio_neg x0 x1) (ratio_neg_w x0 x1).
Proof. unfold ratio_neg, ratio_neg_w; agree. Qed.
#[export] Hint Resolve w_ratio_neg : wrap.
Lemma w_ratio_recip x0 x1 : agree (ratio_recip x0 x1) (ratio_recip_w x0 x1).
Proof. unfold ratio_recip, ratio_recip_w; agree. Qed.
#[export] Hint Resolve w_ratio_recip : wrap.
Lemma w_ratio_to_integer x0 x1 : agree (ratio_to_integer x0 x1) (ratio_to_integer_w x0 x1).
Proof. unfold ratio_to_integer, ratio_to_integer_w; agree. Qed.
#[export] Hint Resolve w_ratio_to_integer : wrap.
(** ** ModelSurd.v *)

Lemma w_sco_add x0 x1 x2 : agree (sco_add x0 x1 x2) (sco_add_w x0 x1 x2).
Proof. unfold sco_add, sco_add_w; agree. Qed.
#[export] Hint Resolve w_sco_add : wrap.
Lemma w_sco_sub x0 x1 x2 : agree (sco_sub x0 x1 x2) (sco_sub_w x0 x1 x2).
Proof. unfold sco_sub, sco_sub_w; agree. Qed.
#[export] Hint Resolve w_sco_sub : wrap.
Lemma w_sco_mul x0 x1 x2 x3 : agree (sco_mul x0 x1 x2 x3) (sco_mul_w x0 x1 x2 x3).
Proof. unfold sco_mul, sco_mul_w; agree. Qed.
#[export] Hint Resolve w_sco_mul : wrap.
Lemma w_sco_div x0 x1 x2 x3 : agree (sco_div x0 x1 x2 x3) (sco_div_w x0 x1 x2 x3).
Proof. unfold sco_div, sco_div_w; agree. Qed.
#[export] Hint Resolve w_sco_div : wrap.
Lemma w_sco_conj x0 x1 : agree (sco_conj x0 x1) (sco_conj_w x0 x1).
Proof. unfold sco_conj, sco_conj_w; agree. Qed.
#[export] Hint Resolve w_sco_conj : wrap.
Lemma w_sco_norm x0 x1 x2 : agree (sco_norm x0 x1 x2) (sco_norm_w x0 x1 x2).
Proof. unfold sco_norm, sco_norm_w; agree. Qed.
#[export] Hint Resolve w_sco_norm : wrap.
Lemma w_sco_add_ratio x0 x1 x2 : agree (sco_add_ratio x0 x1 x2) (sco_add_ratio_w x0 x1 x2).
Proof. unfold sco_add_ratio, sco_add_ratio_w; agree. Qed.
#[export] Hint Resolve w_sco_add_ratio : wrap.
Lemma w_sco_sub_ratio x0 x1 x2 : agree (sco_sub_ratio x0 x1 x2) (sco_sub_ratio_w x0 x1 x2).
Proof. unfold sco_sub_ratio, sco_sub_ratio_w; agree. Qed.
#[export] Hint Resolve w_sco_sub_ratio : wrap.
Lemma w_sco_mul_ratio x0 x1 x2 : agree (sco_mul_ratio x0 x1 x2) (sco_mul_ratio_w x0 x1 x2).
Proof. unfold sco_mul_ratio, sco_mul_ratio_w; agree. Qed.
#[export] Hint Resolve w_sco_mul_ratio : wrap.
Lemma w_sco_div_ratio x0 x1 x2 : agree (sco_div_ratio x0 x1 x2) (sco_div_ratio_w x0 x1 x2).
Proof. unfold sco_div_ratio, sco_div_ratio_w; agree. Qed.
#[export] Hint Resolve w_sco_div_ratio : wrap.
Lemma w_sco_add_int x0 x1 x2 : agree (sco_add_int x0 x1 x2) (sco_add_int_w x0 x1 x2).
Proof. unfold sco_add_int, sco_add_int_w; agree. Qed.
#[export] Hint Resolve w_sco_add_int : wrap.
Lemma w_sco_sub_int x0 x1 x2 : agree (sco_sub_int x0 x1 x2) (sco_sub_int_w x0 x1 x2).
Proof. unfold sco_sub_int, sco_sub_int_w; agree. Qed.
#[export] Hint Resolve w_sco_sub_int : wrap.
Lemma w_sco_mul_int x0 x1 x2 : agree (sco_mul_int x0 x1 x2) (sco_mul_int_w x0 x1 x2).
Proof. unfold sco_mul_int, sco_mul_int_w; agree. Qed.
#[export] Hint Resolve w_sco_mul_int : wrap.
Lemma w_sco_div_int x0 x1 x2 : agree (sco_div_int x0 x1 x2) (sco_div_int_w x0 x1 x2).
Proof. unfold sco_div_int, sco_div_int_w; agree. Qed.
#[export] Hint Resolve w_sco_div_int : wrap.
Lemma w_panic_if_complex g x1 : agree (panic_if_complex g x1) (panic_if_complex_w (release g) x1).
Proof. unfold panic_if_complex, panic_if_complex_w; agree. Qed.
#[export] Hint Resolve w_panic_if_complex : wrap.
Lemma w_reduce_square x0 x1 x2 x3 : agree (reduce_square x0 x1 x2 x3) (reduce_square_w x0 x1 x2 x3).
Proof. unfold reduce_square, reduce_square_w; agree. Qed.
#[export] Hint Resolve w_reduce_square : wrap.
Lemma w_reduce_common x0 x1 x2 x3 x4 : agree (reduce_common x0 x1 x2 x3 x4) (reduce_common_w x0 x1 x2 x3 x4).
Proof. unfold reduce_common, reduce_common_w; agree. Qed.
#[export] Hint Resolve w_reduce_common : wrap.
Lemma w_reduce_sign x0 x1 x2 x3 x4 : agree (reduce_sign x0 x1 x2 x3 x4) (reduce_sign_w x0 x1 x2 x3 x4).
Proof. unfold reduce_sign, reduce_sign_w; agree. Qed.
#[export] Hint Resolve w_reduce_sign : wrap.
Lemma w_surd_reduce x0 x1 : agree (surd_reduce x0 x1) (surd_reduce_w x0 x1).
Proof. unfold surd_reduce, surd_reduce_w; agree. Qed.
#[export] Hint Resolve w_surd_reduce : wrap.
Lemma w_reduce_root_hinted x0 x1 x2 : agree (reduce_root_hinted x0 x1 x2) (reduce_root_hinted_w x0 x1 x2).
Proof. unfold reduce_root_hinted, reduce_root_hinted_w; agree. Qed.
#[export] Hint Resolve w_reduce_root_hinted : wrap.
Lemma w_surd_new g x1 x2 x3 x4 x5 : agree (surd_new g x1 x2 x3 x4 x5) (surd_new_w (release g) x1 x2 x3 x4 x5).
Proof. unfold surd_new, surd_new_w; agree. Qed.
#[export] Hint Resolve w_surd_new : wrap.
Lemma w_surd_from_coeffs g x1 x2 x3 : agree (surd_from_coeffs g x1 x2 x3) (surd_from_coeffs_w (release g) x1 x2 x3).
Proof. unfold surd_from_coeffs, surd_from_coeffs_w; agree. Qed.
#[export] Hint Resolve w_surd_from_coeffs : wrap.
Lemma w_surd_from_rationals g x1 x2 x3 x4 : agree (surd_from_rationals g x1 x2 x3 x4) (surd_from_rationals_w (release g) x1 x2 x3 x4).
Proof. unfold surd_from_rationals, surd_from_rationals_w; agree. Qed.
#[export] Hint Resolve w_surd_from_rationals : wrap.
Lemma w_surd_from_equation g x1 x2 x3 x4 : agree (surd_from_equation g x1 x2 x3 x4) (surd_from_equation_w (release g) x1 x2 x3 x4).
Proof. unfold surd_from_equation, surd_from_equation_w; agree. Qed.
#[export] Hint Resolve w_surd_from_equation : wrap.
Lemma w_surd_recip g x1 x2 : agree (surd_recip g x1 x2) (surd_recip_w (release g) x1 x2).
Proof. unfold surd_recip, surd_recip_w; agree. Qed.
#[export] Hint Resolve w_surd_recip : wrap.
Lemma w_surd_conj x0 x1 : agree (surd_conj x0 x1) (surd_conj_w x0 x1).
Proof. unfold surd_conj, surd_conj_w; agree. Qed.
#[export] Hint Resolve w_surd_conj : wrap.
Lemma w_surd_neg x0 x1 : agree (surd_neg x0 x1) (surd_neg_w x0 x1).
Proof. unfold surd_neg, surd_neg_w; agree. Qed.
#[export] Hint Resolve w_surd_neg : wrap.
Lemma w_surd_add_int g x1 x2 x3 : agree (surd_add_int g x1 x2 x3) (surd_add_int_w (release g) x1 x2 x3).
Proof. unfold surd_add_int, surd_add_int_w; agree. Qed.
#[export] Hint Resolve w_surd_add_int : wrap.
Lemma w_surd_sub_int g x1 x2 x3 : agree (surd_sub_int g x1 x2 x3) (surd_sub_int_w (release g) x1 x2 x3).
Proof. unfold surd_sub_int, surd_sub_int_w; agree. Qed.
#[export] Hint Resolve w_surd_sub_int : wrap.
Lemma w_surd_mul_int g x1 x2 x3 : agree (surd_mul_int g x1 x2 x3) (surd_mul_int_w (release g) x1 x2 x3).
Proof. unfold surd_mul_int, surd_mul_int_w; agree. Qed.
#[export] Hint Resolve w_surd_mul_int : wrap.
Lemma w_surd_div_int g x1 x2 x3 : agree (surd_div_int g x1 x2 x3) (surd_div_int_w (release g) x1 x2 x3).
Proof. unfold surd_div_int, surd_div_int_w; agree. Qed.
#[export] Hint Resolve w_surd_div_int : wrap.
Lemma w_surd_add_ratio g x1 x2 x3 : agree (surd_add_ratio g x1 x2 x3) (surd_add_ratio_w (release g) x1 x2 x3).
Proof. unfold surd_add_ratio, surd_add_ratio_w; agree. Qed.
#[export] Hint Resolve w_surd_add_ratio : wrap.
Lemma w_surd_sub_ratio g x1 x2 x3 : agree (surd_sub_ratio g x1 x2 x3) (surd_sub_ratio_w (release g) x1 x2 x3).
Proof. unfold surd_sub_ratio, surd_sub_ratio_w; agree. Qed.
#[export] Hint Resolve w_surd_sub_ratio : wrap.
Lemma w_surd_mul_ratio g x1 x2 x3 : agree (surd_mul_ratio g x1 x2 x3) (surd_mul_ratio_w (release g) x1 x2 x3).
Proof. unfold surd_mul_ratio, surd_mul_ratio_w; agree. Qed.
#[export] Hint Resolve w_surd_mul_ratio : wrap.
Lemma w_surd_div_ratio g x1 x2 x3 : agree (surd_div_ratio g x1 x2 x3) (surd_div_ratio_w (release g) x1 x2 x3).
Proof. unfold surd_div_ratio, surd_div_ratio_w; agree. Qed.
#[export] Hint Resolve w_surd_div_ratio : wrap.
Lemma w_reduce_bin_op g x1 x2 x3 : agree (reduce_bin_op g x1 x2 x3) (reduce_bin_op_w (release g) x1 x2 x3).
Proof. unfold reduce_bin_op, reduce_bin_op_w; agree. Qed.
#[export] Hint Resolve w_reduce_bin_op : wrap.
Lemma w_reduce_bin_op_unwrap g x1 x2 x3 : agree (reduce_bin_op_unwrap g x1 x2 x3) (reduce_bin_op_unwrap_w (release g) x1 x2 x3).
Proof. unfold reduce_bin_op_unwrap, reduce_bin_op_unwrap_w; agree. Qed.
#[export] Hint Resolve w_reduce_bin_op_unwrap : wrap.
Lemma w_surd_add g x1 x2 x3 : agree (surd_add g x1 x2 x3) (surd_add_w (release g) x1 x2 x3).
Proof. unfold surd_add, surd_add_w; agree. Qed.
#[export] Hint Resolve w_surd_add : wrap.
Lemma w_surd_sub g x1 x2 x3 : agree (surd_sub g x1 x2 x3) (surd_sub_w (release g) x1 x2 x3).
Proof. unfold surd_sub, surd_sub_w; agree. Qed.
#[export] Hint Resolve w_surd_sub : wrap.
Lemma w_surd_mul g x1 x2 x3 : agree (surd_mul g x1 x2 x3) (surd_mul_w (release g) x1 x2 x3).
Proof. unfold surd_mul, surd_mul_w; agree. Qed.
#[export] Hint Resolve w_surd_mul : wrap.
Lemma w_surd_div g x1 x2 x3 : agree (surd_div g x1 x2 x3) (surd_div_w (release g) x1 x2 x3).
Proof. unfold surd_div, surd_div_w; agree. Qed.
#[export] Hint Resolve w_surd_div : wrap.
Lemma w_surd_trunc g x1 x2 : agree (surd_trunc g x1 x2) (surd_trunc_w (release g) x1 x2).
Proof. unfold surd_trunc, surd_trunc_w; agree. Qed.
#[export] Hint Resolve w_surd_trunc : wrap.
Lemma w_surd_fract g x1 x2 : agree (surd_fract g x1 x2) (surd_fract_w (release g) x1 x2).
Proof. unfold surd_fract, surd_fract_w; agree. Qed.
#[export] Hint Resolve w_surd_fract : wrap.
Lemma w_surd_to_integer g x1 x2 : agree (surd_to_integer g x1 x2) (surd_to_integer_w (release g) x1 x2).
Proof. unfold surd_to_integer, surd_to_integer_w; agree. Qed.
#[export] Hint Resolve w_surd_to_integer : wrap.
Lemma w_surd_to_gaussint g x1 x2 : agree (surd_to_gaussint g x1 x2) (surd_to_gaussint_w (release g) x1 x2).
Proof. unfold surd_to_gaussint, surd_to_gaussint_w; agree. Qed.
#[export] Hint Resolve w_surd_to_gaussint : wrap.
Lemma w_surd_to_rational g x1 x2 : agree (surd_to_rational g x1 x2) (surd_to_rational_w (release g) x1 x2).
Proof. unfold surd_to_rational, surd_to_rational_w; agree. Qed.
#[export] Hint Resolve w_surd_to_rational : wrap.
Lemma w_surd_floor g x1 x2 : agree (surd_floor g x1 x2) (surd_floor_w (release g) x1 x2).
Proof. unfold surd_floor, surd_floor_w; agree. Qed.
#[export] Hint Resolve w_surd_floor : wrap.
Lemma w_surd_is_positive g x1 x2 : agree (surd_is_positive g x1 x2) (surd_is_positive_w (release g) x1 x2).
Proof. unfold surd_is_positive, surd_is_positive_w; agree. Qed.
#[export] Hint Resolve w_surd_is_positive : wrap.
Lemma w_surd_is_negative g x1 x2 : agree (surd_is_negative g x1 x2) (surd_is_negative_w (release g) x1 x2).
Proof. unfold surd_is_negative, surd_is_negative_w; agree. Qed.
#[export] Hint Resolve w_surd_is_negative : wrap.
Lemma w_surd_eq x0 x1 x2 : agree (surd_eq x0 x1 x2) (surd_eq_w x0 x1 x2).
Proof. unfold surd_eq, surd_eq_w; agree. Qed.
#[export] Hint Resolve w_surd_eq : wrap.
Lemma w_reduce_root_loop x0 x1 x2 x3 x4 x5 : agree (reduce_root_loop x0 x1 x2 x3 x4 x5) (reduce_root_loop_w x0 x1 x2 x3 x4 x5).
Proof.
  revert x2 x3 x4 x5. induction x1 as [|x1 IH]; intros; [left; reflexivity|].
  cbn [reduce_root_loop reduce_root_loop_w]; agree.
Qed.
#[export] Hint Resolve w_reduce_root_loop : wrap.
Lemma w_reduce_root_primes x0 x1 x2 x3 x4 : agree (reduce_root_primes x0 x1 x2 x3 x4) (reduce_root_primes_w x0 x1 x2 x3 x4).
Proof.
  revert x1 x3 x4. induction x2 as [|?y x2 IH]; intros; [solve [cbn; agree]|].
  cbn [reduce_root_primes reduce_root_primes_w]; agree.
Qed.
#[export] Hint Resolve w_reduce_root_primes : wrap.
Lemma w_surd_reduced x0 x1 x2 : agree (surd_reduced x0 x1 x2) (surd_reduced_w x0 x1 x2).
Proof. unfold surd_reduced, surd_reduced_w; agree. Qed.
#[export] Hint Resolve w_surd_reduced : wrap.
Lemma w_surd_from_prim x0 x1 : surd_from_prim x0 x1 = surd_from_prim_w x0 x1.
Proof. reflexivity. Qed.
#[export] Hint Resolve w_surd_from_prim : wrap.
Lemma w_surd_to_prim g x1 x2 x3 : agree (surd_to_prim g x1 x2 x3) (surd_to_prim_w (release g) x1 x2 x3).
Proof. unfold surd_to_prim, surd_to_prim_w; agree. Qed.
#[export] Hint Resolve w_surd_to_prim : wrap.
Lemma w_from_sqrt_int g x1 x2 : agree (from_sqrt_int g x1 x2) (from_sqrt_int_w (release g) x1 x2).
Proof. unfold from_sqrt_int, from_sqrt_int_w; agree. Qed.
#[export] Hint Resolve w_from_sqrt_int : wrap.
Lemma w_from_sqrt_ratio g x1 x2 : agree (from_sqrt_ratio g x1 x2) (from_sqrt_ratio_w (release g) x1 x2).
Proof. unfold from_sqrt_ratio, from_sqrt_ratio_w; agree. Qed.
#[export] Hint Resolve w_from_sqrt_ratio : wrap.
Lemma w_sqrt_reconstruct g x1 x2 x3 x4 x5 : agree (sqrt_reconstruct g x1 x2 x3 x4 x5) (sqrt_reconstruct_w (release g) x1 x2 x3 x4 x5).
Proof. unfold sqrt_reconstruct, sqrt_reconstruct_w; agree. Qed.
#[export] Hint Resolve w_sqrt_reconstruct : wrap.
Lemma w_get_abc x0 x1 x2 : agree (get_abc x0 x1 x2) (get_abc_w x0 x1 x2).
Proof. unfold get_abc, get_abc_w; agree. Qed.
#[export] Hint Resolve w_get_abc : wrap.
Lemma w_from_sqrt_surd g x1 x2 : agree (from_sqrt_surd g x1 x2) (from_sqrt_surd_w (release g) x1 x2).
Proof. unfold from_sqrt_surd, from_sqrt_surd_w; agree. Qed.
#[export] Hint Resolve w_from_sqrt_surd : wrap.
(** ** ModelInt.v *)

Lemma w_four x0 : agree (four x0) (four_w x0).
Proof. unfold four, four_w; agree. Qed.
#[export] Hint Resolve w_four : wrap.
Lemma w_mod4d2 x0 x1 : agree (mod4d2 x0 x1) (mod4d2_w x0 x1).
Proof. unfold mod4d2, mod4d2_w; agree. Qed.
#[export] Hint Resolve w_mod4d2 : wrap.
Lemma w_div_rem_round x0 x1 x2 : agree (div_rem_round x0 x1 x2) (div_rem_round_w x0 x1 x2).
Proof. unfold div_rem_round, div_rem_round_w; agree. Qed.
#[export] Hint Resolve w_div_rem_round : wrap.
Lemma w_qco_add_int x0 x1 x2 : agree (qco_add_int x0 x1 x2) (qco_add_int_w x0 x1 x2).
Proof. unfold qco_add_int, qco_add_int_w; agree. Qed.
#[export] Hint Resolve w_qco_add_int : wrap.
Lemma w_qco_add x0 x1 x2 : agree (qco_add x0 x1 x2) (qco_add_w x0 x1 x2).
Proof. unfold qco_add, qco_add_w; agree. Qed.
#[export] Hint Resolve w_qco_add : wrap.
Lemma w_qco_sub_int x0 x1 x2 : agree (qco_sub_int x0 x1 x2) (qco_sub_int_w x0 x1 x2).
Proof. unfold qco_sub_int, qco_sub_int_w; agree. Qed.
#[export] Hint Resolve w_qco_sub_int : wrap.
Lemma w_qco_sub x0 x1 x2 : agree (qco_sub x0 x1 x2) (qco_sub_w x0 x1 x2).
Proof. unfold qco_sub, qco_sub_w; agree. Qed.
#[export] Hint Resolve w_qco_sub : wrap.
Lemma w_qco_mul_int x0 x1 x2 : agree (qco_mul_int x0 x1 x2) (qco_mul_int_w x0 x1 x2).
Proof. unfold qco_mul_int, qco_mul_int_w; agree. Qed.
#[export] Hint Resolve w_qco_mul_int : wrap.
Lemma w_qco_div_int x0 x1 x2 : agree (qco_div_int x0 x1 x2) (qco_div_int_w x0 x1 x2).
Proof. unfold qco_div_int, qco_div_int_w; agree. Qed.
#[export] Hint Resolve w_qco_div_int : wrap.
Lemma w_qco_rem_int x0 x1 x2 : agree (qco_rem_int x0 x1 x2) (qco_rem_int_w x0 x1 x2).
Proof. unfold qco_rem_int, qco_rem_int_w; agree. Qed.
#[export] Hint Resolve w_qco_rem_int : wrap.
Lemma w_qco_norm x0 x1 x2 : agree (qco_norm x0 x1 x2) (qco_norm_w x0 x1 x2).
Proof. unfold qco_norm, qco_norm_w; agree. Qed.
#[export] Hint Resolve w_qco_norm : wrap.
Lemma w_qco_mul x0 x1 x2 x3 : agree (qco_mul x0 x1 x2 x3) (qco_mul_w x0 x1 x2 x3).
Proof. unfold qco_mul, qco_mul_w; agree. Qed.
#[export] Hint Resolve w_qco_mul : wrap.
Lemma w_qco_div_rem x0 x1 x2 x3 : agree (qco_div_rem x0 x1 x2 x3) (qco_div_rem_w x0 x1 x2 x3).
Proof. unfold qco_div_rem, qco_div_rem_w; agree. Qed.
#[export] Hint Resolve w_qco_div_rem : wrap.
Lemma w_qco_div x0 x1 x2 x3 : agree (qco_div x0 x1 x2 x3) (qco_div_w x0 x1 x2 x3).
Proof. unfold qco_div, qco_div_w; agree. Qed.
#[export] Hint Resolve w_qco_div : wrap.
Lemma w_qco_conj x0 x1 x2 : agree (qco_conj x0 x1 x2) (qco_conj_w x0 x1 x2).
Proof. unfold qco_conj, qco_conj_w; agree. Qed.
#[export] Hint Resolve w_qco_conj : wrap.
Lemma w_qint_from_coeffs g x1 x2 x3 : agree (qint_from_coeffs g x1 x2 x3) (qint_from_coeffs_w (release g) x1 x2 x3).
Proof. unfold qint_from_coeffs, qint_from_coeffs_w; agree. Qed.
#[export] Hint Resolve w_qint_from_coeffs : wrap.
Lemma w_remove4 x0 x1 x2 x3 : agree (remove4 x0 x1 x2 x3) (remove4_w x0 x1 x2 x3).
Proof.
  revert x2 x3. induction x1 as [|x1 IH]; intros; [left; reflexivity|].
  cbn [remove4 remove4_w]; agree.
Qed.
#[export] Hint Resolve w_remove4 : wrap.
Lemma w_qint_new g x1 x2 x3 x4 : agree (qint_new g x1 x2 x3 x4) (qint_new_w (release g) x1 x2 x3 x4).
Proof. unfold qint_new, qint_new_w; agree. Qed.
#[export] Hint Resolve w_qint_new : wrap.
Lemma w_qint_conj x0 x1 : agree (qint_conj x0 x1) (qint_conj_w x0 x1).
Proof. unfold qint_conj, qint_conj_w; agree. Qed.
#[export] Hint Resolve w_qint_conj : wrap.
Lemma w_qint_norm x0 x1 : agree (qint_norm x0 x1) (qint_norm_w x0 x1).
Proof. unfold qint_norm, qint_norm_w; agree. Qed.
#[export] Hint Resolve w_qint_norm : wrap.
Lemma w_qint_is_pure x0 x1 : agree (qint_is_pure x0 x1) (qint_is_pure_w x0 x1).
Proof. unfold qint_is_pure, qint_is_pure_w; agree. Qed.
#[export] Hint Resolve w_qint_is_pure : wrap.
Lemma w_qint_parts_doubled x0 x1 : agree (qint_parts_doubled x0 x1) (qint_parts_doubled_w x0 x1).
Proof. unfold qint_parts_doubled, qint_parts_doubled_w; agree. Qed.
#[export] Hint Resolve w_qint_parts_doubled : wrap.
Lemma w_qint_reduce_root_hinted g x1 x2 x3 : agree (qint_reduce_root_hinted g x1 x2 x3) (qint_reduce_root_hinted_w (release g) x1 x2 x3).
Proof. unfold qint_reduce_root_hinted, qint_reduce_root_hinted_w; agree. Qed.
#[export] Hint Resolve w_qint_reduce_root_hinted : wrap.
Lemma w_qint_neg x0 x1 : agree (qint_neg x0 x1) (qint_neg_w x0 x1).
Proof. unfold qint_neg, qint_neg_w; agree. Qed.
#[export] Hint Resolve w_qint_neg : wrap.
Lemma w_qint_reduce_bin_op g x1 x2 x3 : agree (qint_reduce_bin_op g x1 x2 x3) (qint_reduce_bin_op_w (release g) x1 x2 x3).
Proof. unfold qint_reduce_bin_op, qint_reduce_bin_op_w; agree. Qed.
#[export] Hint Resolve w_qint_reduce_bin_op : wrap.
Lemma w_qint_reduce_bin_op_unwrap g x1 x2 x3 : agree (qint_reduce_bin_op_unwrap g x1 x2 x3) (qint_reduce_bin_op_unwrap_w (release g) x1 x2 x3).
Proof. unfold qint_reduce_bin_op_unwrap, qint_reduce_bin_op_unwrap_w; agree. Qed.
#[export] Hint Resolve w_qint_reduce_bin_op_unwrap : wrap.
Lemma w_qint_eq x0 x1 x2 : agree (qint_eq x0 x1 x2) (qint_eq_w x0 x1 x2).
Proof. unfold qint_eq, qint_eq_w; agree. Qed.
#[export] Hint Resolve w_qint_eq : wrap.
Lemma w_qint_is_one x0 x1 : agree (qint_is_one x0 x1) (qint_is_one_w x0 x1).
Proof. unfold qint_is_one, qint_is_one_w; agree. Qed.
#[export] Hint Resolve w_qint_is_one : wrap.
Lemma w_qint_add_int x0 x1 x2 : agree (qint_add_int x0 x1 x2) (qint_add_int_w x0 x1 x2).
Proof. unfold qint_add_int, qint_add_int_w; agree. Qed.
#[export] Hint Resolve w_qint_add_int : wrap.
Lemma w_qint_sub_int x0 x1 x2 : agree (qint_sub_int x0 x1 x2) (qint_sub_int_w x0 x1 x2).
Proof. unfold qint_sub_int, qint_sub_int_w; agree. Qed.
#[export] Hint Resolve w_qint_sub_int : wrap.
Lemma w_qint_mul_int x0 x1 x2 : agree (qint_mul_int x0 x1 x2) (qint_mul_int_w x0 x1 x2).
Proof. unfold qint_mul_int, qint_mul_int_w; agree. Qed.
#[export] Hint Resolve w_qint_mul_int : wrap.
Lemma w_qint_div_int x0 x1 x2 : agree (qint_div_int x0 x1 x2) (qint_div_int_w x0 x1 x2).
Proof. unfold qint_div_int, qint_div_int_w; agree. Qed.
#[export] Hint Resolve w_qint_div_int : wrap.
Lemma w_qint_rem_int x0 x1 x2 : agree (qint_rem_int x0 x1 x2) (qint_rem_int_w x0 x1 x2).
Proof. unfold qint_rem_int, qint_rem_int_w; agree. Qed.
#[export] Hint Resolve w_qint_rem_int : wrap.
Lemma w_qint_add g x1 x2 x3 : agree (qint_add g x1 x2 x3) (qint_add_w (release g) x1 x2 x3).
Proof. unfold qint_add, qint_add_w; agree. Qed.
#[export] Hint Resolve w_qint_add : wrap.
Lemma w_qint_sub g x1 x2 x3 : agree (qint_sub g x1 x2 x3) (qint_sub_w (release g) x1 x2 x3).
Proof. unfold qint_sub, qint_sub_w; agree. Qed.
#[export] Hint Resolve w_qint_sub : wrap.
Lemma w_qint_mul g x1 x2 x3 : agree (qint_mul g x1 x2 x3) (qint_mul_w (release g) x1 x2 x3).
Proof. unfold qint_mul, qint_mul_w; agree. Qed.
#[export] Hint Resolve w_qint_mul : wrap.
Lemma w_qint_div g x1 x2 x3 : agree (qint_div g x1 x2 x3) (qint_div_w (release g) x1 x2 x3).
Proof. unfold qint_div, qint_div_w; agree. Qed.
#[export] Hint Resolve w_qint_div : wrap.
Lemma w_qint_rem g x1 x2 x3 : agree (qint_rem g x1 x2 x3) (qint_rem_w (release g) x1 x2 x3).
Proof. unfold qint_rem, qint_rem_w; agree. Qed.
#[export] Hint Resolve w_qint_rem : wrap.
Lemma w_surd_to_quadint g x1 x2 : agree (surd_to_quadint g x1 x2) (surd_to_quadint_w (release g) x1 x2).
Proof. unfold surd_to_quadint, surd_to_quadint_w; agree. Qed.
#[export] Hint Resolve w_surd_to_quadint : wrap.
Lemma w_gauss_conj x0 x1 : agree (gauss_conj x0 x1) (gauss_conj_w x0 x1).
Proof. unfold gauss_conj, gauss_conj_w; agree. Qed.
#[export] Hint Resolve w_gauss_conj : wrap.
Lemma w_gauss_norm x0 x1 : agree (gauss_norm x0 x1) (gauss_norm_w x0 x1).
Proof. unfold gauss_norm, gauss_norm_w; agree. Qed.
#[export] Hint Resolve w_gauss_norm : wrap.
Lemma w_gauss_add x0 x1 x2 : agree (gauss_add x0 x1 x2) (gauss_add_w x0 x1 x2).
Proof. unfold gauss_add, gauss_add_w; agree. Qed.
#[export] Hint Resolve w_gauss_add : wrap.
Lemma w_gauss_sub x0 x1 x2 : agree (gauss_sub x0 x1 x2) (gauss_sub_w x0 x1 x2).
Proof. unfold gauss_sub, gauss_sub_w; agree. Qed.
#[export] Hint Resolve w_gauss_sub : wrap.
Lemma w_gauss_mul x0 x1 x2 : agree (gauss_mul x0 x1 x2) (gauss_mul_w x0 x1 x2).
Proof. unfold gauss_mul, gauss_mul_w; agree. Qed.
#[export] Hint Resolve w_gauss_mul : wrap.
Lemma w_gauss_div x0 x1 x2 : agree (gauss_div x0 x1 x2) (gauss_div_w x0 x1 x2).
Proof. unfold gauss_div, gauss_div_w; agree. Qed.
#[export] Hint Resolve w_gauss_div : wrap.
Lemma w_gauss_rem x0 x1 x2 : agree (gauss_rem x0 x1 x2) (gauss_rem_w x0 x1 x2).
Proof. unfold gauss_rem, gauss_rem_w; agree. Qed.
#[export] Hint Resolve w_gauss_rem : wrap.
(** ** ModelBlock.v *)

Lemma w_block_rmove x0 x1 x2 : agree (block_rmove x0 x1 x2) (block_rmove_w x0 x1 x2).
Proof. unfold block_rmove, block_rmove_w; agree. Qed.
#[export] Hint Resolve w_block_rmove : wrap.
Lemma w_block_gmove x0 x1 x2 x3 : agree (block_gmove x0 x1 x2 x3) (block_gmove_w x0 x1 x2 x3).
Proof. unfold block_gmove, block_gmove_w; agree. Qed.
#[export] Hint Resolve w_block_gmove : wrap.
Lemma w_block_check_integer x0 x1 : agree (block_check_integer x0 x1) (block_check_integer_w x0 x1).
Proof. unfold block_check_integer, block_check_integer_w; agree. Qed.
#[export] Hint Resolve w_block_check_integer : wrap.
Lemma w_block_reduce_recip x0 x1 : agree (block_reduce_recip x0 x1) (block_reduce_recip_w x0 x1).
Proof. unfold block_reduce_recip, block_reduce_recip_w; agree. Qed.
#[export] Hint Resolve w_block_reduce_recip : wrap.
Lemma w_block_reduce_mul x0 x1 x2 : agree (block_reduce_mul x0 x1 x2) (block_reduce_mul_w x0 x1 x2).
Proof. unfold block_reduce_mul, block_reduce_mul_w; agree. Qed.
#[export] Hint Resolve w_block_reduce_mul : wrap.
Lemma w_block_checked_rmove x0 x1 x2 : block_checked_rmove x0 x1 x2 = block_checked_rmove_w x0 x1 x2.
Proof. reflexivity. Qed.
#[export] Hint Resolve w_block_checked_rmove : wrap.
Lemma w_block_checked_gmove x0 x1 x2 x3 : agree (block_checked_gmove x0 x1 x2 x3) (block_checked_gmove_w x0 x1 x2 x3).
Proof. unfold block_checked_gmove, block_checked_gmove_w; agree. Qed.
#[export] Hint Resolve w_block_checked_gmove : wrap.
Lemma w_dblock_rmove_right x0 x1 x2 : agree (dblock_rmove_right x0 x1 x2) (dblock_rmove_right_w x0 x1 x2).
Proof. unfold dblock_rmove_right, dblock_rmove_right_w; agree. Qed.
#[export] Hint Resolve w_dblock_rmove_right : wrap.
Lemma w_dblock_rmove_down x0 x1 x2 : agree (dblock_rmove_down x0 x1 x2) (dblock_rmove_down_w x0 x1 x2).
Proof. unfold dblock_rmove_down, dblock_rmove_down_w; agree. Qed.
#[export] Hint Resolve w_dblock_rmove_down : wrap.
Lemma w_dblock_check_integer x0 x1 : agree (dblock_check_integer x0 x1) (dblock_check_integer_w x0 x1).
Proof. unfold dblock_check_integer, dblock_check_integer_w; agree. Qed.
#[export] Hint Resolve w_dblock_check_integer : wrap.
Lemma w_dblock_reduce_recip x0 x1 : agree (dblock_reduce_recip x0 x1) (dblock_reduce_recip_w x0 x1).
Proof. unfold dblock_reduce_recip, dblock_reduce_recip_w; agree. Qed.
#[export] Hint Resolve w_dblock_reduce_recip : wrap.
(** ** ModelCF.v *)

Lemma w_new_absorb g t neg negv rev x : agree (new_absorb g t neg negv rev x) (new_absorb_w (release g) t neg negv rev x).
Proof.
  assert (H : forall n rev x, (length rev <= n)%nat ->
    agree (new_absorb g t neg negv rev x) (new_absorb_w (release g) t neg negv rev x)); [|eapply H; reflexivity].
  clear rev x. induction n as [|n IH]; intros [|am1 [|am2 rev]] x L; cbn [length] in L; try lia; cbn [new_absorb new_absorb_w]; agree.
  apply IH; lia.
Qed.
#[export] Hint Resolve w_new_absorb : wrap.
Lemma w_new_step g x1 x2 x3 : agree (new_step g x1 x2 x3) (new_step_w (release g) x1 x2 x3).
Proof. unfold new_step, new_step_w; agree. Qed.
#[export] Hint Resolve w_new_step : wrap.
Lemma w_new_loop g x1 x2 x3 : agree (new_loop g x1 x2 x3) (new_loop_w (release g) x1 x2 x3).
Proof.
  revert x2. induction x3 as [|?y x3 IH]; intros; [solve [cbn; agree]|].
  cbn [new_loop new_loop_w]; agree.
Qed.
#[export] Hint Resolve w_new_loop : wrap.
Lemma w_new_trim t p rev : agree (new_trim t p rev) (new_trim_w t p rev).
Proof.
  assert (H : forall n p rev, (length rev <= n)%nat -> agree (new_trim t p rev) (new_trim_w t p rev)); [|eapply H; reflexivity].
  clear rev p. induction n as [|n IH]; intros p [|y rev] L; cbn [length] in L; try lia; cbn [new_trim new_trim_w]; agree.
  all: apply IH; cbn [length] in *; lia.
Qed.
#[export] Hint Resolve w_new_trim : wrap.
Lemma w_new_finish x0 x1 x2 x3 : agree (new_finish x0 x1 x2 x3) (new_finish_w x0 x1 x2 x3).
Proof. unfold new_finish, new_finish_w; agree. Qed.
#[export] Hint Resolve w_new_finish : wrap.
Lemma w_cf_new g x1 x2 x3 x4 : agree (cf_new g x1 x2 x3 x4) (cf_new_w (release g) x1 x2 x3 x4).
Proof. unfold cf_new, cf_new_w; agree. Qed.
#[export] Hint Resolve w_cf_new : wrap.
Lemma w_cf_from_iter g x1 x2 : agree (cf_from_iter g x1 x2) (cf_from_iter_w (release g) x1 x2).
Proof. unfold cf_from_iter, cf_from_iter_w; agree. Qed.
#[export] Hint Resolve w_cf_from_iter : wrap.
Lemma w_cf_of_int x0 x1 : agree (cf_of_int x0 x1) (cf_of_int_w x0 x1).
Proof. unfold cf_of_int, cf_of_int_w; agree. Qed.
#[export] Hint Resolve w_cf_of_int : wrap.
Lemma w_euclid_loop x0 x1 x2 x3 : agree (euclid_loop x0 x1 x2 x3) (euclid_loop_w x0 x1 x2 x3).
Proof.
  revert x2 x3. induction x1 as [|x1 IH]; intros; [left; reflexivity|].
  cbn [euclid_loop euclid_loop_w]; agree.
Qed.
#[export] Hint Resolve w_euclid_loop : wrap.
Lemma w_cf_of_ratio x0 x1 : agree (cf_of_ratio x0 x1) (cf_of_ratio_w x0 x1).
Proof. unfold cf_of_ratio, cf_of_ratio_w; agree. Qed.
#[export] Hint Resolve w_cf_of_ratio : wrap.
Lemma w_signed_of x0 x1 x2 : agree (signed_of x0 x1 x2) (signed_of_w x0 x1 x2).
Proof. unfold signed_of, signed_of_w; agree. Qed.
#[export] Hint Resolve w_signed_of : wrap.
Lemma w_signed_next x0 x1 : agree (signed_next x0 x1) (signed_next_w x0 x1).
Proof. unfold signed_next, signed_next_w; agree. Qed.
#[export] Hint Resolve w_signed_next : wrap.
Lemma w_general_next x0 x1 : agree (general_next x0 x1) (general_next_w x0 x1).
Proof. unfold general_next, general_next_w; agree. Qed.
#[export] Hint Resolve w_general_next : wrap.
Lemma w_owned_periodic x0 x1 : agree (owned_periodic x0 x1) (owned_periodic_w x0 x1).
Proof. unfold owned_periodic, owned_periodic_w; agree. Qed.
#[export] Hint Resolve w_owned_periodic : wrap.
Lemma w_owned_next x0 x1 : agree (owned_next x0 x1) (owned_next_w x0 x1).
Proof. unfold owned_next, owned_next_w; agree. Qed.
#[export] Hint Resolve w_owned_next : wrap.
Lemma w_conv_next u s : agree (conv_next u s) (conv_next_w u s).
Proof. unfold conv_next, conv_next_w. change block_checked_rmove_w with block_checked_rmove. agree. Qed.
#[export] Hint Resolve w_conv_next : wrap.
Lemma w_cf_to_integer x0 x1 : agree (cf_to_integer x0 x1) (cf_to_integer_w x0 x1).
Proof. unfold cf_to_integer, cf_to_integer_w; agree. Qed.
#[export] Hint Resolve w_cf_to_integer : wrap.
Lemma w_cf_last_convergent x0 x1 : agree (cf_last_convergent x0 x1) (cf_last_convergent_w x0 x1).
Proof. unfold cf_last_convergent, cf_last_convergent_w; agree. Qed.
#[export] Hint Resolve w_cf_last_convergent : wrap.
Lemma w_cf_to_rational x0 x1 : agree (cf_to_rational x0 x1) (cf_to_rational_w x0 x1).
Proof. unfold cf_to_rational, cf_to_rational_w; agree. Qed.
#[export] Hint Resolve w_cf_to_rational : wrap.
Lemma w_approx_loop x0 x1 x2 x3 x4 : agree (approx_loop x0 x1 x2 x3 x4) (approx_loop_w x0 x1 x2 x3 x4).
Proof.
  revert x2 x3 x4. induction x1 as [|x1 IH]; intros; [left; reflexivity|].
  cbn [approx_loop approx_loop_w]; agree.
Qed.
#[export] Hint Resolve w_approx_loop : wrap.
Lemma w_cf_approximated x0 x1 x2 x3 : agree (cf_approximated x0 x1 x2 x3) (cf_approximated_w x0 x1 x2 x3).
Proof. unfold cf_approximated, cf_approximated_w; agree. Qed.
#[export] Hint Resolve w_cf_approximated : wrap.
Lemma w_cf_add_int g x1 x2 x3 : agree (cf_add_int g x1 x2 x3) (cf_add_int_w (release g) x1 x2 x3).
Proof. unfold cf_add_int, cf_add_int_w; agree. Qed.
#[export] Hint Resolve w_cf_add_int : wrap.
Lemma w_cf_sub_int g x1 x2 x3 : agree (cf_sub_int g x1 x2 x3) (cf_sub_int_w (release g) x1 x2 x3).
Proof. unfold cf_sub_int, cf_sub_int_w; agree. Qed.
#[export] Hint Resolve w_cf_sub_int : wrap.
(** ** ModelConv.v *)

Lemma w_rho x0 x1 x2 x3 x4 : agree (rho x0 x1 x2 x3 x4) (rho_w x0 x1 x2 x3 x4).
Proof. unfold rho, rho_w; agree. Qed.
#[export] Hint Resolve w_rho : wrap.
Lemma w_is_reduced_pq x0 x1 x2 x3 : agree (is_reduced_pq x0 x1 x2 x3) (is_reduced_pq_w x0 x1 x2 x3).
Proof. unfold is_reduced_pq, is_reduced_pq_w; agree. Qed.
#[export] Hint Resolve w_is_reduced_pq : wrap.
Lemma w_aper_loop x0 x1 x2 x3 x4 x5 x6 : agree (aper_loop x0 x1 x2 x3 x4 x5 x6) (aper_loop_w x0 x1 x2 x3 x4 x5 x6).
Proof.
  revert x2 x3 x4 x5 x6. induction x1 as [|x1 IH]; intros; [left; reflexivity|].
  cbn [aper_loop aper_loop_w]; agree.
Qed.
#[export] Hint Resolve w_aper_loop : wrap.
Lemma w_per_loop x0 x1 x2 x3 x4 x5 x6 x7 : agree (per_loop x0 x1 x2 x3 x4 x5 x6 x7) (per_loop_w x0 x1 x2 x3 x4 x5 x6 x7).
Proof.
  revert x2 x3 x4 x5 x6 x7. induction x1 as [|x1 IH]; intros; [left; reflexivity|].
  cbn [per_loop per_loop_w]; agree.
Qed.
#[export] Hint Resolve w_per_loop : wrap.
Lemma w_quadsurd_to_contfrac g t n a b c r neg :
  agree (quadsurd_to_contfrac g t n a b c r neg) (quadsurd_to_contfrac_w (release g) t n a b c r neg).
Proof.
  unfold quadsurd_to_contfrac, quadsurd_to_contfrac_w. cbn [release dbg].
  assert (E : dassert (release g) (negb (c =? 0) && negb (r <? 0)) = Ok tt) by reflexivity.
  rewrite E. unfold dassert at 1.
  destruct (dbg g) eqn:Hd; cbn [andb bind].
  - destruct (negb (c =? 0) && negb (r <? 0)) eqn:H; cbn [negb bind]; [|right; right; reflexivity].
    apply andb_true_iff in H. destruct H as [_ H]. apply negb_true_iff in H.
    unfold sqrtT at 1. rewrite H. cbn [bind].
    unfold lift2 at 1. cbn [bind]. unfold mulT at 1, chk at 1.
    destruct (fits t _); cbn [bind]; [|right; left; reflexivity].
    unfold dassert at 1. rewrite Hd. destruct (negb (_ =? r)); cbn [negb andb bind]; [agree|right; right; reflexivity].
  - agree.
Qed.
#[export] Hint Resolve w_quadsurd_to_contfrac : wrap.
Lemma w_surd_to_cf g x1 x2 x3 : agree (surd_to_cf g x1 x2 x3) (surd_to_cf_w (release g) x1 x2 x3).
Proof. unfold surd_to_cf, surd_to_cf_w; agree. Qed.
#[export] Hint Resolve w_surd_to_cf : wrap.
Lemma w_surd_approximated g x1 x2 x3 x4 : agree (surd_approximated g x1 x2 x3 x4) (surd_approximated_w (release g) x1 x2 x3 x4).
Proof. unfold surd_approximated, surd_approximated_w; agree. Qed.
#[export] Hint Resolve w_surd_approximated : wrap.
Lemma w_mobius_loop x0 x1 x2 x3 x4 x5 : agree (mobius_loop x0 x1 x2 x3 x4 x5) (mobius_loop_w x0 x1 x2 x3 x4 x5).
Proof.
  revert x2 x3 x4 x5. induction x1 as [|?y x1 IH]; intros; [solve [cbn; agree]|].
  cbn [mobius_loop mobius_loop_w]; agree.
Qed.
#[export] Hint Resolve w_mobius_loop : wrap.
Lemma w_mobius x0 x1 : agree (mobius x0 x1) (mobius_w x0 x1).
Proof. unfold mobius, mobius_w; agree. Qed.
#[export] Hint Resolve w_mobius : wrap.
Lemma w_surd_of_cf g x1 x2 : agree (surd_of_cf g x1 x2) (surd_of_cf_w (release g) x1 x2).
Proof. unfold surd_of_cf, surd_of_cf_w; agree. Qed.
#[export] Hint Resolve w_surd_of_cf : wrap.
Lemma w_back g x1 x2 x3 : agree (back g x1 x2 x3) (back_w (release g) x1 x2 x3).
Proof. unfold back, back_w; agree. Qed.
#[export] Hint Resolve w_back : wrap.
Lemma w_cf_mul_int g x1 x2 x3 x4 : agree (cf_mul_int g x1 x2 x3 x4) (cf_mul_int_w (release g) x1 x2 x3 x4).
Proof. unfold cf_mul_int, cf_mul_int_w; agree. Qed.
#[export] Hint Resolve w_cf_mul_int : wrap.
Lemma w_cf_div_int g x1 x2 x3 x4 : agree (cf_div_int g x1 x2 x3 x4) (cf_div_int_w (release g) x1 x2 x3 x4).
Proof. unfold cf_div_int, cf_div_int_w; agree. Qed.
#[export] Hint Resolve w_cf_div_int : wrap.
Lemma w_cf_op_ratio g u rop rop' sop sop' n x q :
  (forall a b, agree (rop a b) (rop' a b)) -> (forall a b, agree (sop a b) (sop' a b)) ->
  agree (cf_op_ratio g u rop sop n x q) (cf_op_ratio_w (release g) u rop' sop' n x q).
Proof. intros H1 H2. unfold cf_op_ratio, cf_op_ratio_w; agree. Qed.
#[export] Hint Resolve w_cf_op_ratio : wrap.
Lemma w_cf_add_ratio g x1 x2 x3 x4 : agree (cf_add_ratio g x1 x2 x3 x4) (cf_add_ratio_w (release g) x1 x2 x3 x4).
Proof. unfold cf_add_ratio, cf_add_ratio_w; agree. Qed.
#[export] Hint Resolve w_cf_add_ratio : wrap.
Lemma w_cf_sub_ratio g x1 x2 x3 x4 : agree (cf_sub_ratio g x1 x2 x3 x4) (cf_sub_ratio_w (release g) x1 x2 x3 x4).
Proof. unfold cf_sub_ratio, cf_sub_ratio_w; agree. Qed.
#[export] Hint Resolve w_cf_sub_ratio : wrap.
Lemma w_cf_mul_ratio g x1 x2 x3 x4 : agree (cf_mul_ratio g x1 x2 x3 x4) (cf_mul_ratio_w (release g) x1 x2 x3 x4).
Proof. unfold cf_mul_ratio, cf_mul_ratio_w; agree. Qed.
#[export] Hint Resolve w_cf_mul_ratio : wrap.
Lemma w_cf_div_ratio g x1 x2 x3 x4 : agree (cf_div_ratio g x1 x2 x3 x4) (cf_div_ratio_w (release g) x1 x2 x3 x4).
Proof. unfold cf_div_ratio, cf_div_ratio_w; agree. Qed.
#[export] Hint Resolve w_cf_div_ratio : wrap.
Lemma w_cf_op_cf g u rop rop' sopr sopr' sop sop' n x y :
  (forall a b, agree (rop a b) (rop' a b)) -> (forall a b, agree (sopr a b) (sopr' a b)) ->
  (forall a b, agree (sop a b) (sop' a b)) ->
  agree (cf_op_cf g u rop sopr sop n x y) (cf_op_cf_w (release g) u rop' sopr' sop' n x y).
Proof. intros H1 H2 H3. unfold cf_op_cf, cf_op_cf_w; agree. Qed.
#[export] Hint Resolve w_cf_op_cf : wrap.
Lemma w_cf_add g x1 x2 x3 x4 : agree (cf_add g x1 x2 x3 x4) (cf_add_w (release g) x1 x2 x3 x4).
Proof. unfold cf_add, cf_add_w; agree. Qed.
#[export] Hint Resolve w_cf_add : wrap.
Lemma w_cf_sub g x1 x2 x3 x4 : agree (cf_sub g x1 x2 x3 x4) (cf_sub_w (release g) x1 x2 x3 x4).
Proof. unfold cf_sub, cf_sub_w; agree. Qed.
#[export] Hint Resolve w_cf_sub : wrap.
Lemma w_cf_mul g x1 x2 x3 x4 : agree (cf_mul g x1 x2 x3 x4) (cf_mul_w (release g) x1 x2 x3 x4).
Proof. unfold cf_mul, cf_mul_w; agree. Qed.
#[export] Hint Resolve w_cf_mul : wrap.
Lemma w_cf_div g x1 x2 x3 x4 : agree (cf_div g x1 x2 x3 x4) (cf_div_w (release g) x1 x2 x3 x4).
Proof. unfold cf_div, cf_div_w; agree. Qed.
#[export] Hint Resolve w_cf_div : wrap.
(** ** ModelGen.v *)

Section General.
Context (t : ity) {I : Type} (inext inext' : I -> res (option (Z * Z) * I))
  (N : forall s, agree (inext s) (inext' s)).
Lemma w_gconv_next s : agree (gconv_next t inext s) (gconv_next_w t inext' s).
Proof. unfold gconv_next, gconv_next_w; agree. Qed.
Lemma w_simp_next n s : agree (simp_next t inext n s) (simp_next_w t inext' n s).
Proof. revert s. induction n as [|n IH]; intros; [left; reflexivity|]. cbn [simp_next simp_next_w]; agree. Qed.
Lemma w_dec_next n s : agree (dec_next t inext n s) (dec_next_w t inext' n s).
Proof. revert s. induction n as [|n IH]; intros; [left; reflexivity|]. cbn [dec_next dec_next_w]; agree. Qed.
Lemma w_gapprox_loop n l x s : agree (gapprox_loop t inext n l x s) (gapprox_loop_w t inext' n l x s).
Proof.
  pose proof w_gconv_next.
  revert x s. induction n as [|n IH]; intros; [left; reflexivity|]. cbn [gapprox_loop gapprox_loop_w]; agree.
Qed.
Lemma w_gcf_approximated n it l : agree (gcf_approximated t inext n it l) (gcf_approximated_w t inext' n it l).
Proof. pose proof w_gconv_next. pose proof w_gapprox_loop. unfold gcf_approximated, gcf_approximated_w; agree. Qed.
End General.
Section Infinite.
Context (t : ity) {I : Type} (inext inext' : I -> res (option Z * I)) (N : forall s, agree (inext s) (inext' s)).
Lemma w_generalize_next it : agree (generalize_next inext it) (generalize_next inext' it).
Proof. unfold generalize_next; agree. Qed.
Lemma w_homo_next n s : agree (homo_next t inext n s) (homo_next_w t inext' n s).
Proof. revert s. induction n as [|n IH]; intros; [left; reflexivity|]. cbn [homo_next homo_next_w]; agree. Qed.
End Infinite.
Lemma w_bihomo_next t {X Y : Type} (xn xn' : X -> res (option Z * X)) (yn yn' : Y -> res (option Z * Y)) n s :
  (forall s, agree (xn s) (xn' s)) -> (forall s, agree (yn s) (yn' s)) ->
  agree (bihomo_next t xn yn n s) (bihomo_next_w t xn' yn' n s).
Proof.
  intros HX HY. revert s. induction n as [|n IH]; intros; [left; reflexivity|].
  cbn [bihomo_next bihomo_next_w]; agree.
Qed.
Lemma w_exp_next x0 x1 : agree (exp_next x0 x1) (exp_next_w x0 x1).
Proof. unfold exp_next, exp_next_w; agree. Qed.
#[export] Hint Resolve w_exp_next : wrap.
(** ** ModelSymbols.v *)

Lemma w_e_next x0 x1 : agree (e_next x0 x1) (e_next_w x0 x1).
Proof. unfold e_next, e_next_w; agree. Qed.
#[export] Hint Resolve w_e_next : wrap.
Lemma w_pi_next x0 x1 : agree (pi_next x0 x1) (pi_next_w x0 x1).
Proof. unfold pi_next, pi_next_w; agree. Qed.
#[export] Hint Resolve w_pi_next : wrap.
Lemma w_gamma_gfrac x0 : agree (gamma_gfrac x0) (gamma_gfrac_w x0).
Proof. unfold gamma_gfrac, gamma_gfrac_w; agree. Qed.
#[export] Hint Resolve w_gamma_gfrac : wrap.
Lemma w_gamma_next x0 x1 : agree (gamma_next x0 x1) (gamma_next_w x0 x1).
Proof. unfold gamma_next, gamma_next_w; agree. Qed.
#[export] Hint Resolve w_gamma_next : wrap.
(** ** ModelFmt.v *)

Lemma w_surd_fmt x0 x1 x2 : agree (surd_fmt x0 x1 x2) (surd_fmt_w x0 x1 x2).
Proof. unfold surd_fmt, surd_fmt_w; agree. Qed.
#[export] Hint Resolve w_surd_fmt : wrap.
