(** * Transfer: what a computation over a fixed-width type returns, it also
    returns over arbitrary-precision integers. *)

From Coq Require Import ZArith Bool List.
From Verif Require Import Base Ext ModelSurd ModelInt.
Import ListNotations.
Open Scope Z_scope.

Definition rle {A : Type} (x y : res A) : Prop := forall v, x = Ok v -> y = Ok v.

Lemma rle_refl {A} (x : res A) : rle x x.
Proof. intros v H; exact H. Qed.

Lemma rle_panic {A} k (y : res A) : rle (Panic k) y.
Proof. intros v H; discriminate. Qed.

Lemma rle_hang {A} (y : res A) : rle Hang y.
Proof. intros v H; discriminate. Qed.

Lemma rle_bind {A B} (m n : res A) (f h : A -> res B) :
  rle m n -> (forall a, rle (f a) (h a)) -> rle (bind m f) (bind n h).
Proof.
  intros Hm Hf v H. destruct m as [a|k|]; try discriminate.
  rewrite (Hm a eq_refl). exact (Hf a v H).
Qed.

Lemma rle_lift1 {A B} (op op' : A -> res B) m n :
  (forall a, rle (op a) (op' a)) -> rle m n -> rle (lift1 op m) (lift1 op' n).
Proof. intros. apply rle_bind; auto. Qed.

Lemma rle_lift2 {A B C} (op op' : A -> B -> res C) m m' n n' :
  (forall a b, rle (op a b) (op' a b)) -> rle m m' -> rle n n' ->
  rle (lift2 op m n) (lift2 op' m' n').
Proof. intros. apply rle_bind; auto. intro. apply rle_bind; auto. Qed.

Lemma rle_chk t z : rle (chk t z) (chk BigI z).
Proof. unfold chk; intros v; destruct (fits t z); cbn; intros H; inversion H; auto. Qed.

Create HintDb mono.
#[export] Hint Resolve rle_refl rle_panic rle_hang rle_chk : mono.

(** Split a goal [rle _ _] along binds, ifs and matches with equal scrutinees. *)
Ltac mono1 :=
  match goal with
  | |- rle ?x ?x => apply rle_refl
  | |- rle (Panic _) _ => apply rle_panic
  | |- rle Hang _ => apply rle_hang
  | |- rle (lift1 _ _) (lift1 _ _) => apply rle_lift1; intros
  | |- rle (lift2 _ _ _) (lift2 _ _ _) => apply rle_lift2; intros
  | |- rle (bind _ _) (bind _ _) => apply rle_bind; intros
  | |- rle (if ?b then _ else _) (if ?b then _ else _) => destruct b
  | |- rle (match ?x with _ => _ end) _ => destruct x
  | |- forall _, _ => intros
  | |- rle _ _ => solve [auto with mono nocore]
  end.
Ltac mono := repeat mono1.

Lemma rle_add t x y : rle (addT t x y) (addT BigI x y). Proof. unfold addT; mono. Qed.
Lemma rle_sub t x y : rle (subT t x y) (subT BigI x y). Proof. unfold subT; mono. Qed.
Lemma rle_mul t x y : rle (mulT t x y) (mulT BigI x y). Proof. unfold mulT; mono. Qed.
Lemma rle_neg t x : rle (negT t x) (negT BigI x). Proof. unfold negT; mono. Qed.
Lemma rle_abs t x : rle (absT t x) (absT BigI x). Proof. unfold absT; mono. Qed.
Lemma rle_quot t x y : rle (quotT t x y) (quotT BigI x y). Proof. unfold quotT; mono. Qed.
Lemma rle_rem t x y : rle (remT t x y) (remT BigI x y). Proof. unfold remT; mono. Qed.
#[export] Hint Resolve rle_add rle_sub rle_mul rle_neg rle_abs rle_quot rle_rem : mono.
Lemma rle_div_rem t x y : rle (div_remT t x y) (div_remT BigI x y).
Proof. unfold div_remT; mono. Qed.
Lemma rle_div_floor t x y : rle (div_floorT t x y) (div_floorT BigI x y).
Proof. unfold div_floorT; mono. Qed.
Lemma rle_gcd t x y : rle (gcdT t x y) (gcdT BigI x y). Proof. unfold gcdT; mono. Qed.
#[export] Hint Resolve rle_div_rem rle_div_floor rle_gcd : mono.
Lemma rle_lcm t x y : rle (lcmT t x y) (lcmT BigI x y). Proof. unfold lcmT; mono. Qed.
#[export] Hint Resolve rle_lcm : mono.

Lemma rle_unwrap_checked t z : rle (unwrap (checked t z)) (unwrap (checked BigI z)).
Proof. unfold checked; intros v; destruct (fits t z); cbn; intros H; inversion H; auto. Qed.
#[export] Hint Resolve rle_unwrap_checked : mono.

(** ** Ratio *)
Lemma rle_ratio_new t n d : rle (ratio_new t n d) (ratio_new BigI n d).
Proof. unfold ratio_new; mono. Qed.
#[export] Hint Resolve rle_ratio_new : mono.
Lemma rle_ratio_arith t (op op' : Z -> Z -> res Z) x y :
  (forall a b, rle (op a b) (op' a b)) ->
  rle (ratio_arith t op x y) (ratio_arith BigI op' x y).
Proof. intros H; unfold ratio_arith; mono. Qed.
Lemma rle_ratio_add t x y : rle (ratio_add t x y) (ratio_add BigI x y).
Proof. apply rle_ratio_arith; mono. Qed.
Lemma rle_ratio_sub t x y : rle (ratio_sub t x y) (ratio_sub BigI x y).
Proof. apply rle_ratio_arith; mono. Qed.
Lemma rle_ratio_add_int t x y : rle (ratio_add_int t x y) (ratio_add_int BigI x y).
Proof. unfold ratio_add_int; mono. Qed.
Lemma rle_ratio_sub_int t x y : rle (ratio_sub_int t x y) (ratio_sub_int BigI x y).
Proof. unfold ratio_sub_int; mono. Qed.
Lemma rle_ratio_mul t x y : rle (ratio_mul t x y) (ratio_mul BigI x y).
Proof. unfold ratio_mul; mono. Qed.
Lemma rle_ratio_mul_int t x y : rle (ratio_mul_int t x y) (ratio_mul_int BigI x y).
Proof. unfold ratio_mul_int; mono. Qed.
Lemma rle_ratio_div t x y : rle (ratio_div t x y) (ratio_div BigI x y).
Proof. unfold ratio_div; mono. Qed.
Lemma rle_ratio_div_int t x y : rle (ratio_div_int t x y) (ratio_div_int BigI x y).
Proof. unfold ratio_div_int; mono. Qed.
Lemma rle_ratio_neg t x : rle (ratio_neg t x) (ratio_neg BigI x).
Proof. unfold ratio_neg; mono. Qed.
Lemma rle_ratio_recip t x : rle (ratio_recip t x) (ratio_recip BigI x).
Proof. unfold ratio_recip; mono. Qed.
Lemma rle_ratio_to_integer t x : rle (ratio_to_integer t x) (ratio_to_integer BigI x).
Proof. unfold ratio_to_integer; mono. Qed.
#[export] Hint Resolve rle_ratio_add rle_ratio_sub rle_ratio_add_int rle_ratio_sub_int
  rle_ratio_mul rle_ratio_mul_int rle_ratio_div rle_ratio_div_int rle_ratio_neg
  rle_ratio_recip rle_ratio_to_integer : mono.

(** ** Surds *)
Section S.
Context (g : cfg) (t : ity).
Lemma rle_sco_add x y : rle (sco_add t x y) (sco_add BigI x y).
Proof. unfold sco_add; mono. Qed.
Lemma rle_sco_sub x y : rle (sco_sub t x y) (sco_sub BigI x y).
Proof. unfold sco_sub; mono. Qed.
Lemma rle_sco_mul x y d : rle (sco_mul t x y d) (sco_mul BigI x y d).
Proof. unfold sco_mul; mono. Qed.
Lemma rle_sco_div x y d : rle (sco_div t x y d) (sco_div BigI x y d).
Proof. unfold sco_div; mono. Qed.
Lemma rle_sco_conj x : rle (sco_conj t x) (sco_conj BigI x).
Proof. unfold sco_conj; mono. Qed.
Lemma rle_sco_norm x d : rle (sco_norm t x d) (sco_norm BigI x d).
Proof. unfold sco_norm; mono. Qed.
Lemma rle_sco_add_ratio x q : rle (sco_add_ratio t x q) (sco_add_ratio BigI x q).
Proof. unfold sco_add_ratio; mono. Qed.
Lemma rle_sco_sub_ratio x q : rle (sco_sub_ratio t x q) (sco_sub_ratio BigI x q).
Proof. unfold sco_sub_ratio; mono. Qed.
Lemma rle_sco_mul_ratio x q : rle (sco_mul_ratio t x q) (sco_mul_ratio BigI x q).
Proof. unfold sco_mul_ratio; mono. Qed.
Lemma rle_sco_div_ratio x q : rle (sco_div_ratio t x q) (sco_div_ratio BigI x q).
Proof. unfold sco_div_ratio; mono. Qed.
Lemma rle_sco_add_int x q : rle (sco_add_int t x q) (sco_add_int BigI x q).
Proof. unfold sco_add_int; mono. Qed.
Lemma rle_sco_sub_int x q : rle (sco_sub_int t x q) (sco_sub_int BigI x q).
Proof. unfold sco_sub_int; mono. Qed.
Lemma rle_sco_mul_int x q : rle (sco_mul_int t x q) (sco_mul_int BigI x q).
Proof. unfold sco_mul_int; mono. Qed.
Lemma rle_sco_div_int x q : rle (sco_div_int t x q) (sco_div_int BigI x q).
Proof. unfold sco_div_int; mono. Qed.
#[local] Hint Resolve rle_sco_add rle_sco_sub rle_sco_mul rle_sco_div rle_sco_conj rle_sco_norm
  rle_sco_add_ratio rle_sco_sub_ratio rle_sco_mul_ratio rle_sco_div_ratio
  rle_sco_add_int rle_sco_sub_int rle_sco_mul_int rle_sco_div_int : mono.

Lemma rle_reduce_square a b r : rle (reduce_square t a b r) (reduce_square BigI a b r).
Proof. unfold reduce_square; mono. Qed.
Lemma rle_reduce_common a b c r : rle (reduce_common t a b c r) (reduce_common BigI a b c r).
Proof. unfold reduce_common; mono. Qed.
Lemma rle_reduce_sign a b c r : rle (reduce_sign t a b c r) (reduce_sign BigI a b c r).
Proof. unfold reduce_sign; mono. Qed.
#[local] Hint Resolve rle_reduce_square rle_reduce_common rle_reduce_sign : mono.
Lemma rle_surd_reduce s : rle (surd_reduce t s) (surd_reduce BigI s).
Proof. unfold surd_reduce; mono. Qed.
Lemma rle_reduce_root_hinted s h : rle (reduce_root_hinted t s h) (reduce_root_hinted BigI s h).
Proof. unfold reduce_root_hinted; mono. Qed.
#[local] Hint Resolve rle_surd_reduce rle_reduce_root_hinted : mono.
Lemma rle_surd_new a b c r : rle (surd_new g t a b c r) (surd_new g BigI a b c r).
Proof. unfold surd_new; mono. Qed.
Lemma rle_surd_from_coeffs co r : rle (surd_from_coeffs g t co r) (surd_from_coeffs g BigI co r).
Proof. unfold surd_from_coeffs; mono. Qed.
Lemma rle_surd_from_rationals a b r :
  rle (surd_from_rationals g t a b r) (surd_from_rationals g BigI a b r).
Proof. unfold surd_from_rationals; mono. Qed.
#[local] Hint Resolve rle_surd_new rle_surd_from_coeffs rle_surd_from_rationals : mono.
Lemma rle_surd_from_equation a b c :
  rle (surd_from_equation g t a b c) (surd_from_equation g BigI a b c).
Proof. unfold surd_from_equation; mono. Qed.
Lemma rle_surd_recip s : rle (surd_recip g t s) (surd_recip g BigI s).
Proof. unfold surd_recip; mono. Qed.
Lemma rle_surd_conj s : rle (surd_conj t s) (surd_conj BigI s).
Proof. unfold surd_conj; mono. Qed.
Lemma rle_surd_neg s : rle (surd_neg t s) (surd_neg BigI s).
Proof. unfold surd_neg; mono. Qed.
#[local] Hint Resolve rle_surd_from_equation rle_surd_recip rle_surd_conj rle_surd_neg : mono.
Lemma rle_surd_add_int s k : rle (surd_add_int g t s k) (surd_add_int g BigI s k).
Proof. unfold surd_add_int; mono. Qed.
Lemma rle_surd_sub_int s k : rle (surd_sub_int g t s k) (surd_sub_int g BigI s k).
Proof. unfold surd_sub_int; mono. Qed.
Lemma rle_surd_mul_int s k : rle (surd_mul_int g t s k) (surd_mul_int g BigI s k).
Proof. unfold surd_mul_int; mono. Qed.
Lemma rle_surd_div_int s k : rle (surd_div_int g t s k) (surd_div_int g BigI s k).
Proof. unfold surd_div_int; mono. Qed.
Lemma rle_surd_add_ratio s k : rle (surd_add_ratio g t s k) (surd_add_ratio g BigI s k).
Proof. unfold surd_add_ratio; mono. Qed.
Lemma rle_surd_sub_ratio s k : rle (surd_sub_ratio g t s k) (surd_sub_ratio g BigI s k).
Proof. unfold surd_sub_ratio; mono. Qed.
Lemma rle_surd_mul_ratio s k : rle (surd_mul_ratio g t s k) (surd_mul_ratio g BigI s k).
Proof. unfold surd_mul_ratio; mono. Qed.
Lemma rle_surd_div_ratio s k : rle (surd_div_ratio g t s k) (surd_div_ratio g BigI s k).
Proof. unfold surd_div_ratio; mono. Qed.
#[local] Hint Resolve rle_surd_add_int rle_surd_sub_int rle_surd_mul_int rle_surd_div_int
  rle_surd_add_ratio rle_surd_sub_ratio rle_surd_mul_ratio rle_surd_div_ratio : mono.
Lemma rle_reduce_bin_op x y : rle (reduce_bin_op g t x y) (reduce_bin_op g BigI x y).
Proof. unfold reduce_bin_op; mono. Qed.
#[local] Hint Resolve rle_reduce_bin_op : mono.
Lemma rle_reduce_bin_op_unwrap x y :
  rle (reduce_bin_op_unwrap g t x y) (reduce_bin_op_unwrap g BigI x y).
Proof. unfold reduce_bin_op_unwrap; mono. Qed.
#[local] Hint Resolve rle_reduce_bin_op_unwrap : mono.
Lemma rle_surd_add x y : rle (surd_add g t x y) (surd_add g BigI x y).
Proof. unfold surd_add; mono. Qed.
Lemma rle_surd_sub x y : rle (surd_sub g t x y) (surd_sub g BigI x y).
Proof. unfold surd_sub; mono. Qed.
Lemma rle_surd_mul x y : rle (surd_mul g t x y) (surd_mul g BigI x y).
Proof. unfold surd_mul; mono. Qed.
Lemma rle_surd_div x y : rle (surd_div g t x y) (surd_div g BigI x y).
Proof. unfold surd_div; mono. Qed.
#[local] Hint Resolve rle_surd_add rle_surd_sub rle_surd_mul rle_surd_div : mono.
Lemma rle_surd_trunc s : rle (surd_trunc g t s) (surd_trunc g BigI s).
Proof. unfold surd_trunc; mono. Qed.
#[local] Hint Resolve rle_surd_trunc : mono.
Lemma rle_surd_fract s : rle (surd_fract g t s) (surd_fract g BigI s).
Proof. unfold surd_fract; mono. Qed.
Lemma rle_surd_to_integer s : rle (surd_to_integer g t s) (surd_to_integer g BigI s).
Proof. unfold surd_to_integer; mono. Qed.
Lemma rle_surd_to_gaussint s : rle (surd_to_gaussint g t s) (surd_to_gaussint g BigI s).
Proof. unfold surd_to_gaussint; mono. Qed.
Lemma rle_surd_to_rational s : rle (surd_to_rational g t s) (surd_to_rational g BigI s).
Proof. unfold surd_to_rational; mono. Qed.
Lemma rle_surd_floor s : rle (surd_floor g t s) (surd_floor g BigI s).
Proof. unfold surd_floor; mono. Qed.
Lemma rle_surd_is_positive s : rle (surd_is_positive g t s) (surd_is_positive g BigI s).
Proof. unfold surd_is_positive; mono. Qed.
Lemma rle_surd_is_negative s : rle (surd_is_negative g t s) (surd_is_negative g BigI s).
Proof. unfold surd_is_negative; mono. Qed.
Lemma rle_surd_eq x y : rle (surd_eq t x y) (surd_eq BigI x y).
Proof. unfold surd_eq; mono. Qed.
#[local] Hint Resolve rle_surd_fract rle_surd_to_integer rle_surd_to_gaussint rle_surd_to_rational
  rle_surd_floor rle_surd_is_positive rle_surd_is_negative rle_surd_eq : mono.
Lemma rle_surd_to_prim pt s : rle (surd_to_prim g t pt s) (surd_to_prim g BigI pt s).
Proof. unfold surd_to_prim; mono. Qed.
Lemma rle_get_abc x y : rle (get_abc t x y) (get_abc BigI x y).
Proof. unfold get_abc; mono. Qed.

(** ** Quadratic integers *)
Lemma rle_four : rle (four t) (four BigI).
Proof. unfold four; mono. Qed.
#[local] Hint Resolve rle_four : mono.
Lemma rle_mod4d2 v : rle (mod4d2 t v) (mod4d2 BigI v).
Proof. unfold mod4d2; mono. Qed.
#[local] Hint Resolve rle_mod4d2 : mono.
Lemma rle_div_rem_round x y : rle (div_rem_round t x y) (div_rem_round BigI x y).
Proof. unfold div_rem_round; mono. Qed.
#[local] Hint Resolve rle_div_rem_round : mono.
Lemma rle_qco_add_int l k : rle (qco_add_int t l k) (qco_add_int BigI l k).
Proof. unfold qco_add_int; mono. Qed.
#[local] Hint Resolve rle_qco_add_int : mono.
Lemma rle_qco_add l r : rle (qco_add t l r) (qco_add BigI l r).
Proof. unfold qco_add; mono. Qed.
#[local] Hint Resolve rle_qco_add : mono.
Lemma rle_qco_sub_int l k : rle (qco_sub_int t l k) (qco_sub_int BigI l k).
Proof. unfold qco_sub_int; mono. Qed.
#[local] Hint Resolve rle_qco_sub_int : mono.
Lemma rle_qco_sub l r : rle (qco_sub t l r) (qco_sub BigI l r).
Proof. unfold qco_sub; mono. Qed.
#[local] Hint Resolve rle_qco_sub : mono.
Lemma rle_qco_mul_int l k : rle (qco_mul_int t l k) (qco_mul_int BigI l k).
Proof. unfold qco_mul_int; mono. Qed.
#[local] Hint Resolve rle_qco_mul_int : mono.
Lemma rle_qco_div_int l k : rle (qco_div_int t l k) (qco_div_int BigI l k).
Proof. unfold qco_div_int; mono. Qed.
#[local] Hint Resolve rle_qco_div_int : mono.
Lemma rle_qco_rem_int l k : rle (qco_rem_int t l k) (qco_rem_int BigI l k).
Proof. unfold qco_rem_int; mono. Qed.
#[local] Hint Resolve rle_qco_rem_int : mono.
Lemma rle_qco_norm l d : rle (qco_norm t l d) (qco_norm BigI l d).
Proof. unfold qco_norm; mono. Qed.
#[local] Hint Resolve rle_qco_norm : mono.
Lemma rle_qco_mul l r d : rle (qco_mul t l r d) (qco_mul BigI l r d).
Proof. unfold qco_mul; mono. Qed.
#[local] Hint Resolve rle_qco_mul : mono.
Lemma rle_qco_div_rem l r d : rle (qco_div_rem t l r d) (qco_div_rem BigI l r d).
Proof. unfold qco_div_rem; mono. Qed.
#[local] Hint Resolve rle_qco_div_rem : mono.
Lemma rle_qco_div l r d : rle (qco_div t l r d) (qco_div BigI l r d).
Proof. unfold qco_div; mono. Qed.
#[local] Hint Resolve rle_qco_div : mono.
Lemma rle_qco_conj l d : rle (qco_conj t l d) (qco_conj BigI l d).
Proof. unfold qco_conj; mono. Qed.
#[local] Hint Resolve rle_qco_conj : mono.
Lemma rle_qint_from_coeffs co d : rle (qint_from_coeffs g t co d) (qint_from_coeffs g BigI co d).
Proof. unfold qint_from_coeffs; mono. Qed.
#[local] Hint Resolve rle_qint_from_coeffs : mono.
Lemma rle_qint_conj x : rle (qint_conj t x) (qint_conj BigI x).
Proof. unfold qint_conj; mono. Qed.
#[local] Hint Resolve rle_qint_conj : mono.
Lemma rle_qint_norm x : rle (qint_norm t x) (qint_norm BigI x).
Proof. unfold qint_norm; mono. Qed.
#[local] Hint Resolve rle_qint_norm : mono.
Lemma rle_qint_is_pure x : rle (qint_is_pure t x) (qint_is_pure BigI x).
Proof. unfold qint_is_pure; mono. Qed.
#[local] Hint Resolve rle_qint_is_pure : mono.
Lemma rle_qint_parts_doubled x : rle (qint_parts_doubled t x) (qint_parts_doubled BigI x).
Proof. unfold qint_parts_doubled; mono. Qed.
#[local] Hint Resolve rle_qint_parts_doubled : mono.
Lemma rle_qint_reduce_root_hinted x h : rle (qint_reduce_root_hinted g t x h) (qint_reduce_root_hinted g BigI x h).
Proof. unfold qint_reduce_root_hinted; mono. Qed.
#[local] Hint Resolve rle_qint_reduce_root_hinted : mono.
Lemma rle_qint_neg x : rle (qint_neg t x) (qint_neg BigI x).
Proof. unfold qint_neg; mono. Qed.
#[local] Hint Resolve rle_qint_neg : mono.
Lemma rle_qint_reduce_bin_op l r : rle (qint_reduce_bin_op g t l r) (qint_reduce_bin_op g BigI l r).
Proof. unfold qint_reduce_bin_op; mono. Qed.
#[local] Hint Resolve rle_qint_reduce_bin_op : mono.
Lemma rle_qint_reduce_bin_op_unwrap l r : rle (qint_reduce_bin_op_unwrap g t l r) (qint_reduce_bin_op_unwrap g BigI l r).
Proof. unfold qint_reduce_bin_op_unwrap; mono. Qed.
#[local] Hint Resolve rle_qint_reduce_bin_op_unwrap : mono.
Lemma rle_qint_eq l r : rle (qint_eq t l r) (qint_eq BigI l r).
Proof. unfold qint_eq; mono. Qed.
#[local] Hint Resolve rle_qint_eq : mono.
Lemma rle_qint_add_int x k : rle (qint_add_int t x k) (qint_add_int BigI x k).
Proof. unfold qint_add_int; mono. Qed.
#[local] Hint Resolve rle_qint_add_int : mono.
Lemma rle_qint_sub_int x k : rle (qint_sub_int t x k) (qint_sub_int BigI x k).
Proof. unfold qint_sub_int; mono. Qed.
#[local] Hint Resolve rle_qint_sub_int : mono.
Lemma rle_qint_mul_int x k : rle (qint_mul_int t x k) (qint_mul_int BigI x k).
Proof. unfold qint_mul_int; mono. Qed.
#[local] Hint Resolve rle_qint_mul_int : mono.
Lemma rle_qint_div_int x k : rle (qint_div_int t x k) (qint_div_int BigI x k).
Proof. unfold qint_div_int; mono. Qed.
#[local] Hint Resolve rle_qint_div_int : mono.
Lemma rle_qint_rem_int x k : rle (qint_rem_int t x k) (qint_rem_int BigI x k).
Proof. unfold qint_rem_int; mono. Qed.
#[local] Hint Resolve rle_qint_rem_int : mono.
Lemma rle_qint_add l r : rle (qint_add g t l r) (qint_add g BigI l r).
Proof. unfold qint_add; mono. Qed.
#[local] Hint Resolve rle_qint_add : mono.
Lemma rle_qint_sub l r : rle (qint_sub g t l r) (qint_sub g BigI l r).
Proof. unfold qint_sub; mono. Qed.
#[local] Hint Resolve rle_qint_sub : mono.
Lemma rle_qint_mul l r : rle (qint_mul g t l r) (qint_mul g BigI l r).
Proof. unfold qint_mul; mono. Qed.
#[local] Hint Resolve rle_qint_mul : mono.
Lemma rle_qint_div l r : rle (qint_div g t l r) (qint_div g BigI l r).
Proof. unfold qint_div; mono. Qed.
#[local] Hint Resolve rle_qint_div : mono.
Lemma rle_qint_rem l r : rle (qint_rem g t l r) (qint_rem g BigI l r).
Proof. unfold qint_rem; mono. Qed.
#[local] Hint Resolve rle_qint_rem : mono.
Lemma rle_gauss_conj x : rle (gauss_conj t x) (gauss_conj BigI x).
Proof. unfold gauss_conj; mono. Qed.
#[local] Hint Resolve rle_gauss_conj : mono.
Lemma rle_gauss_norm x : rle (gauss_norm t x) (gauss_norm BigI x).
Proof. unfold gauss_norm; mono. Qed.
#[local] Hint Resolve rle_gauss_norm : mono.
Lemma rle_gauss_add x y : rle (gauss_add t x y) (gauss_add BigI x y).
Proof. unfold gauss_add; mono. Qed.
#[local] Hint Resolve rle_gauss_add : mono.
Lemma rle_gauss_sub x y : rle (gauss_sub t x y) (gauss_sub BigI x y).
Proof. unfold gauss_sub; mono. Qed.
#[local] Hint Resolve rle_gauss_sub : mono.
Lemma rle_gauss_mul x y : rle (gauss_mul t x y) (gauss_mul BigI x y).
Proof. unfold gauss_mul; mono. Qed.
#[local] Hint Resolve rle_gauss_mul : mono.
Lemma rle_gauss_div x y : rle (gauss_div t x y) (gauss_div BigI x y).
Proof. unfold gauss_div; mono. Qed.
#[local] Hint Resolve rle_gauss_div : mono.
Lemma rle_gauss_rem x y : rle (gauss_rem t x y) (gauss_rem BigI x y).
Proof. unfold gauss_rem; mono. Qed.
#[local] Hint Resolve rle_gauss_rem : mono.
Lemma rle_remove4 fuel : forall b r, rle (remove4 t fuel b r) (remove4 BigI fuel b r).
Proof. induction fuel as [|fuel IH]; intros b r; cbn [remove4]; mono. Qed.
#[local] Hint Resolve rle_remove4 : mono.
Lemma rle_qint_new a b r : rle (qint_new g t a b r) (qint_new g BigI a b r).
Proof. unfold qint_new; mono. Qed.
#[local] Hint Resolve rle_qint_new : mono.
Lemma rle_surd_to_quadint s : rle (surd_to_quadint g t s) (surd_to_quadint g BigI s).
Proof. unfold surd_to_quadint; mono. Qed.
End S.
