(** * TransferFit: a run over a fixed-width type either panics on overflow or does exactly
    what the run over arbitrary-precision integers does, and the result fits the type. *)

From Coq Require Import ZArith Znumtheory Bool List Lia.
From Verif Require Import Base Ext ModelSurd ModelInt Spec SpecFit Transfer NumFacts SurdCore RatioFacts SurdArith
  SurdMisc SurdConv SurdSqrt.
Import ListNotations.
Open Scope Z_scope.

Notation ole := agrees.

Section S.
Context (g : cfg) (t : ity) (U : usable t).

Lemma ole_panic {A} `{Fit A} k : ole t (@Panic A k) (Panic k).
Proof. right. split; [auto|discriminate]. Qed.
Lemma ole_hang {A} `{Fit A} : ole t (@Hang A) Hang.
Proof. right. split; [auto|discriminate]. Qed.
Lemma ole_ok {A} `{Fit A} (a : A) : fitv t a -> ole t (Ok a) (Ok a).
Proof. right. split; [auto|]. intros v E. inversion E; subst; auto. Qed.
Lemma ole_bind {A B} `{Fit A} `{Fit B} (m n : res A) (f h : A -> res B) :
  ole t m n -> (forall a, fitv t a -> ole t (f a) (h a)) -> ole t (bind m f) (bind n h).
Proof.
  intros [->|[<- Hv]] Hf; [left; reflexivity|]. destruct m as [a|k|].
  - apply Hf. apply Hv. reflexivity.
  - apply ole_panic.
  - apply ole_hang.
Qed.
Lemma ole_lift1 {A B} `{Fit A} `{Fit B} (op op' : A -> res B) m n :
  (forall a, fitv t a -> ole t (op a) (op' a)) -> ole t m n -> ole t (lift1 op m) (lift1 op' n).
Proof. intros. apply ole_bind; auto. Qed.
Lemma ole_lift2 {A B C} `{Fit A} `{Fit B} `{Fit C} (op op' : A -> B -> res C) m m' n n' :
  (forall a b, fitv t a -> fitv t b -> ole t (op a b) (op' a b)) -> ole t m m' -> ole t n n' ->
  ole t (lift2 op m n) (lift2 op' m' n').
Proof. intros. apply ole_bind; auto. intros. apply ole_bind; auto. Qed.

(** [fits t] is an interval around 0 *)
Lemma fits_between x y : fits t x = true -> (0 <= y <= x \/ x <= y <= 0) -> fits t y = true.
Proof.
  destruct U as [U0 _]. destruct t as [| |n|n]; cbn in *; rewrite ?andb_true_iff, ?Z.leb_le, ?Z.ltb_lt in *; lia.
Qed.
Lemma fit0 : fits t 0 = true. Proof. apply U. Qed.
Lemma fit1 : fits t 1 = true. Proof. apply U. Qed.
Lemma fit_sgn x : fits t x = true -> fits t (Z.sgn x) = true.
Proof. intros F. apply (fits_between x); auto. lia. Qed.
Lemma ole_chk z : ole t (chk t z) (chk BigI z).
Proof. unfold chk. cbn. destruct (fits t z) eqn:E; [|left; auto]. apply ole_ok. exact E. Qed.
Lemma ole_sqrt x : fitv t x -> ole t (sqrtT x) (sqrtT x).
Proof.
  intros F. unfold sqrtT. destruct (Z.ltb_spec x 0); [apply ole_panic|]. apply ole_ok.
  apply (fits_between x); auto. left. pose proof (Z.sqrt_nonneg x). pose proof (Z.sqrt_le_lin x ltac:(lia)). lia.
Qed.

Lemma ole_dassert b : ole t (dassert g b) (dassert g b).
Proof. unfold dassert. destruct (dbg g && negb b); [apply ole_panic|apply ole_ok; exact I]. Qed.
Lemma ole_pic s : ole t (panic_if_complex g s) (panic_if_complex g s).
Proof. unfold panic_if_complex. destruct (cplx g && (discr s <? 0)); [apply ole_panic|apply ole_ok; exact I]. Qed.

Create HintDb fitmono.
#[local] Hint Resolve ole_dassert ole_pic ole_panic ole_hang ole_chk ole_sqrt : fitmono.

Ltac fits := 
  repeat match goal with
  | U : usable _ |- _ => fail 1
  | x : _ * _ |- _ => destruct x
  end;
  repeat match goal with
  | H : fitv _ _ |- _ => progress (cbv [fitv Fit_Z Fit_bool Fit_unit Fit_mod4 Fit_prod Fit_option Fit_approx
      Fit_ratio Fit_sco Fit_surd Fit_qco Fit_qint Fit_sqrt fst snd] in H)
  | H : _ /\ _ |- _ => destruct H
  end;
  cbv [fitv Fit_Z Fit_bool Fit_unit Fit_mod4 Fit_prod Fit_option Fit_approx
      Fit_ratio Fit_sco Fit_surd Fit_qco Fit_qint Fit_sqrt fst snd new_raw surd_of_int surd_of_ratio ratio_of approx_value
      surd_zero surd_one qint_zero qint_one numer denom coeffs discr c0 c1 c2 qcoeffs qdiscr q0 q1] in *;
  repeat match goal with |- _ /\ _ => split end;
  auto using fit0, fit1, fit_sgn.

Ltac mono1 :=
  match goal with
  | |- ole _ (Panic _) (Panic _) => apply ole_panic
  | |- ole _ Hang Hang => apply ole_hang
  | |- ole _ (Ok (if ?b then _ else _)) _ => destruct b
  | |- ole _ (Ok (match ?b with _ => _ end)) _ => destruct b
  | |- ole _ (Ok _) (Ok _) => apply ole_ok; solve [fits]
  | |- ole _ (lift1 _ _) (lift1 _ _) => apply ole_lift1; intros
  | |- ole _ (lift2 _ _ _) (lift2 _ _ _) => apply ole_lift2; intros
  | |- ole _ (bind _ _) (bind _ _) => apply ole_bind; intros
  | |- ole _ (if ?b then _ else _) (if ?b then _ else _) => destruct b
  | |- ole _ (match ?x with _ => _ end) _ => destruct x
  | |- fitv _ _ => solve [fits]
  | |- forall _, _ => intros
  | |- ole _ _ _ => solve [auto with fitmono nocore]
  end.
#[local] Hint Extern 1 (fitv _ _) => solve [fits] : fitmono.
Ltac mono := repeat mono1.

Lemma ole_add x y : fitv t x -> fitv t y -> ole t (addT t x y) (addT BigI x y). Proof. intros; unfold addT; mono. Qed.
Lemma ole_sub x y : fitv t x -> fitv t y -> ole t (subT t x y) (subT BigI x y). Proof. intros; unfold subT; mono. Qed.
Lemma ole_mul x y : fitv t x -> fitv t y -> ole t (mulT t x y) (mulT BigI x y). Proof. intros; unfold mulT; mono. Qed.
Lemma ole_neg x : fitv t x -> ole t (negT t x) (negT BigI x). Proof. intros; unfold negT; mono. Qed.
Lemma ole_abs x : fitv t x -> ole t (absT t x) (absT BigI x). Proof. intros; unfold absT; mono. Qed.
Lemma ole_quot x y : fitv t x -> fitv t y -> ole t (quotT t x y) (quotT BigI x y). Proof. intros; unfold quotT; mono. Qed.
Lemma ole_rem x y : fitv t x -> fitv t y -> ole t (remT t x y) (remT BigI x y). Proof.
  intros Hx Hy. unfold remT. destruct (Z.eqb_spec y 0) as [|Y]; [apply ole_panic|].
  apply ole_bind; [apply ole_chk|]. intros q _. apply ole_ok. apply (fits_between x); auto.
  destruct (Z.le_gt_cases 0 x) as [X|X].
  - left. pose proof (Z.rem_nonneg x y Y X). pose proof (Z.rem_le x (Z.abs y) X). rewrite Z.rem_abs_r in * by auto. lia.
  - right. pose proof (Z.rem_nonpos x y Y ltac:(lia)). pose proof (Z.rem_le (- x) (Z.abs y) ltac:(lia)).
    rewrite Z.rem_abs_r, Z.rem_opp_l in * by auto. lia.
Qed.
#[local] Hint Resolve ole_add ole_sub ole_mul ole_neg ole_abs ole_quot ole_rem : fitmono.
Lemma ole_div_rem x y : fitv t x -> fitv t y -> ole t (div_remT t x y) (div_remT BigI x y).
Proof. intros; unfold div_remT; mono. Qed.
Lemma ole_div_floor x y : fitv t x -> fitv t y -> ole t (div_floorT t x y) (div_floorT BigI x y).
Proof. intros; unfold div_floorT; mono. Qed.
Lemma ole_gcd x y : fitv t x -> fitv t y -> ole t (gcdT t x y) (gcdT BigI x y). Proof. intros; unfold gcdT; mono. Qed.
#[local] Hint Resolve ole_div_rem ole_div_floor ole_gcd : fitmono.
Lemma ole_lcm x y : fitv t x -> fitv t y -> ole t (lcmT t x y) (lcmT BigI x y). Proof. intros; unfold lcmT; mono. Qed.
#[local] Hint Resolve ole_lcm : fitmono.


(** ** Ratio *)
Lemma ole_ratio_new n d : fitv t n -> fitv t d -> ole t (ratio_new t n d) (ratio_new BigI n d).
Proof. intros; unfold ratio_new; mono. Qed.
#[local] Hint Resolve ole_ratio_new : fitmono.
Lemma ole_ratio_arith (op op' : Z -> Z -> res Z) x y : fitv t x -> fitv t y ->
  (forall a b, fitv t a -> fitv t b -> ole t (op a b) (op' a b)) ->
  ole t (ratio_arith t op x y) (ratio_arith BigI op' x y).
Proof. intros H1 H2 H; unfold ratio_arith; mono. Qed.
Lemma ole_ratio_add x y : fitv t x -> fitv t y -> ole t (ratio_add t x y) (ratio_add BigI x y).
Proof. intros; unfold ratio_add, ratio_sub; apply ole_ratio_arith; mono. Qed.
Lemma ole_ratio_sub x y : fitv t x -> fitv t y -> ole t (ratio_sub t x y) (ratio_sub BigI x y).
Proof. intros; unfold ratio_add, ratio_sub; apply ole_ratio_arith; mono. Qed.
Lemma ole_ratio_add_int x y : fitv t x -> fitv t y -> ole t (ratio_add_int t x y) (ratio_add_int BigI x y).
Proof. intros; unfold ratio_add_int; mono. Qed.
Lemma ole_ratio_sub_int x y : fitv t x -> fitv t y -> ole t (ratio_sub_int t x y) (ratio_sub_int BigI x y).
Proof. intros; unfold ratio_sub_int; mono. Qed.
Lemma ole_ratio_mul x y : fitv t x -> fitv t y -> ole t (ratio_mul t x y) (ratio_mul BigI x y).
Proof. intros; unfold ratio_mul; mono. Qed.
Lemma ole_ratio_mul_int x y : fitv t x -> fitv t y -> ole t (ratio_mul_int t x y) (ratio_mul_int BigI x y).
Proof. intros; unfold ratio_mul_int; mono. Qed.
Lemma ole_ratio_div x y : fitv t x -> fitv t y -> ole t (ratio_div t x y) (ratio_div BigI x y).
Proof. intros; unfold ratio_div; mono. Qed.
Lemma ole_ratio_div_int x y : fitv t x -> fitv t y -> ole t (ratio_div_int t x y) (ratio_div_int BigI x y).
Proof. intros; unfold ratio_div_int; mono. Qed.
Lemma ole_ratio_neg x : fitv t x -> ole t (ratio_neg t x) (ratio_neg BigI x).
Proof. intros; unfold ratio_neg; mono. Qed.
Lemma ole_ratio_recip x : fitv t x -> ole t (ratio_recip t x) (ratio_recip BigI x).
Proof. intros; unfold ratio_recip; mono. Qed.
Lemma ole_ratio_to_integer x : fitv t x -> ole t (ratio_to_integer t x) (ratio_to_integer BigI x).
Proof. intros; unfold ratio_to_integer; mono. Qed.
#[local] Hint Resolve ole_ratio_add ole_ratio_sub ole_ratio_add_int ole_ratio_sub_int
  ole_ratio_mul ole_ratio_mul_int ole_ratio_div ole_ratio_div_int ole_ratio_neg
  ole_ratio_recip ole_ratio_to_integer : fitmono.

(** ** Surds *)
Lemma ole_sco_add x y : fitv t x -> fitv t y -> ole t (sco_add t x y) (sco_add BigI x y).
Proof. intros; unfold sco_add; mono. Qed.
Lemma ole_sco_sub x y : fitv t x -> fitv t y -> ole t (sco_sub t x y) (sco_sub BigI x y).
Proof. intros; unfold sco_sub; mono. Qed.
Lemma ole_sco_mul x y d : fitv t x -> fitv t y -> fitv t d -> ole t (sco_mul t x y d) (sco_mul BigI x y d).
Proof. intros; unfold sco_mul; mono. Qed.
Lemma ole_sco_div x y d : fitv t x -> fitv t y -> fitv t d -> ole t (sco_div t x y d) (sco_div BigI x y d).
Proof. intros; unfold sco_div; mono. Qed.
Lemma ole_sco_conj x : fitv t x -> ole t (sco_conj t x) (sco_conj BigI x).
Proof. intros; unfold sco_conj; mono. Qed.
Lemma ole_sco_norm x d : fitv t x -> fitv t d -> ole t (sco_norm t x d) (sco_norm BigI x d).
Proof. intros; unfold sco_norm; mono. Qed.
Lemma ole_sco_add_ratio x q : fitv t x -> fitv t q -> ole t (sco_add_ratio t x q) (sco_add_ratio BigI x q).
Proof. intros; unfold sco_add_ratio; mono. Qed.
Lemma ole_sco_sub_ratio x q : fitv t x -> fitv t q -> ole t (sco_sub_ratio t x q) (sco_sub_ratio BigI x q).
Proof. intros; unfold sco_sub_ratio; mono. Qed.
Lemma ole_sco_mul_ratio x q : fitv t x -> fitv t q -> ole t (sco_mul_ratio t x q) (sco_mul_ratio BigI x q).
Proof. intros; unfold sco_mul_ratio; mono. Qed.
Lemma ole_sco_div_ratio x q : fitv t x -> fitv t q -> ole t (sco_div_ratio t x q) (sco_div_ratio BigI x q).
Proof. intros; unfold sco_div_ratio; mono. Qed.
Lemma ole_sco_add_int x q : fitv t x -> fitv t q -> ole t (sco_add_int t x q) (sco_add_int BigI x q).
Proof. intros; unfold sco_add_int; mono. Qed.
Lemma ole_sco_sub_int x q : fitv t x -> fitv t q -> ole t (sco_sub_int t x q) (sco_sub_int BigI x q).
Proof. intros; unfold sco_sub_int; mono. Qed.
Lemma ole_sco_mul_int x q : fitv t x -> fitv t q -> ole t (sco_mul_int t x q) (sco_mul_int BigI x q).
Proof. intros; unfold sco_mul_int; mono. Qed.
Lemma ole_sco_div_int x q : fitv t x -> fitv t q -> ole t (sco_div_int t x q) (sco_div_int BigI x q).
Proof. intros; unfold sco_div_int; mono. Qed.
#[local] Hint Resolve ole_sco_add ole_sco_sub ole_sco_mul ole_sco_div ole_sco_conj ole_sco_norm
  ole_sco_add_ratio ole_sco_sub_ratio ole_sco_mul_ratio ole_sco_div_ratio
  ole_sco_add_int ole_sco_sub_int ole_sco_mul_int ole_sco_div_int : fitmono.

Lemma ole_reduce_square a b r : fitv t a -> fitv t b -> fitv t r -> ole t (reduce_square t a b r) (reduce_square BigI a b r).
Proof. intros; unfold reduce_square; mono. Qed.
Lemma ole_reduce_common a b c r : fitv t a -> fitv t b -> fitv t c -> fitv t r -> ole t (reduce_common t a b c r) (reduce_common BigI a b c r).
Proof. intros; unfold reduce_common; mono. Qed.
Lemma ole_reduce_sign a b c r : fitv t a -> fitv t b -> fitv t c -> fitv t r -> ole t (reduce_sign t a b c r) (reduce_sign BigI a b c r).
Proof. intros; unfold reduce_sign; mono. Qed.
#[local] Hint Resolve ole_reduce_square ole_reduce_common ole_reduce_sign : fitmono.
Lemma ole_surd_reduce s : fitv t s -> ole t (surd_reduce t s) (surd_reduce BigI s).
Proof. intros; unfold surd_reduce; mono. Qed.
Lemma ole_reduce_root_hinted s h : fitv t s -> fitv t h -> ole t (reduce_root_hinted t s h) (reduce_root_hinted BigI s h).
Proof. intros; unfold reduce_root_hinted; mono. Qed.
#[local] Hint Resolve ole_surd_reduce ole_reduce_root_hinted : fitmono.
Lemma ole_surd_new a b c r : fitv t a -> fitv t b -> fitv t c -> fitv t r -> ole t (surd_new g t a b c r) (surd_new g BigI a b c r).
Proof. intros; unfold surd_new; mono. Qed.
Lemma ole_surd_from_coeffs co r : fitv t co -> fitv t r -> ole t (surd_from_coeffs g t co r) (surd_from_coeffs g BigI co r).
Proof. intros; unfold surd_from_coeffs; mono. Qed.
Lemma ole_surd_from_rationals a b r : fitv t a -> fitv t b -> fitv t r -> ole t (surd_from_rationals g t a b r) (surd_from_rationals g BigI a b r).
Proof. intros; unfold surd_from_rationals; mono. Qed.
#[local] Hint Resolve ole_surd_new ole_surd_from_coeffs ole_surd_from_rationals : fitmono.
Lemma ole_surd_from_equation a b c : fitv t a -> fitv t b -> fitv t c -> ole t (surd_from_equation g t a b c) (surd_from_equation g BigI a b c).
Proof. intros; unfold surd_from_equation; mono. Qed.
Lemma ole_surd_recip s : fitv t s -> ole t (surd_recip g t s) (surd_recip g BigI s).
Proof. intros; unfold surd_recip; mono. Qed.
Lemma ole_surd_conj s : fitv t s -> ole t (surd_conj t s) (surd_conj BigI s).
Proof. intros; unfold surd_conj; mono. Qed.
Lemma ole_surd_neg s : fitv t s -> ole t (surd_neg t s) (surd_neg BigI s).
Proof. intros; unfold surd_neg; mono. Qed.
#[local] Hint Resolve ole_surd_from_equation ole_surd_recip ole_surd_conj ole_surd_neg : fitmono.
Lemma ole_surd_add_int s k : fitv t s -> fitv t k -> ole t (surd_add_int g t s k) (surd_add_int g BigI s k).
Proof. intros; unfold surd_add_int; mono. Qed.
Lemma ole_surd_sub_int s k : fitv t s -> fitv t k -> ole t (surd_sub_int g t s k) (surd_sub_int g BigI s k).
Proof. intros; unfold surd_sub_int; mono. Qed.
Lemma ole_surd_mul_int s k : fitv t s -> fitv t k -> ole t (surd_mul_int g t s k) (surd_mul_int g BigI s k).
Proof. intros; unfold surd_mul_int; mono. Qed.
Lemma ole_surd_div_int s k : fitv t s -> fitv t k -> ole t (surd_div_int g t s k) (surd_div_int g BigI s k).
Proof. intros; unfold surd_div_int; mono. Qed.
Lemma ole_surd_add_ratio s k : fitv t s -> fitv t k -> ole t (surd_add_ratio g t s k) (surd_add_ratio g BigI s k).
Proof. intros; unfold surd_add_ratio; mono. Qed.
Lemma ole_surd_sub_ratio s k : fitv t s -> fitv t k -> ole t (surd_sub_ratio g t s k) (surd_sub_ratio g BigI s k).
Proof. intros; unfold surd_sub_ratio; mono. Qed.
Lemma ole_surd_mul_ratio s k : fitv t s -> fitv t k -> ole t (surd_mul_ratio g t s k) (surd_mul_ratio g BigI s k).
Proof. intros; unfold surd_mul_ratio; mono. Qed.
Lemma ole_surd_div_ratio s k : fitv t s -> fitv t k -> ole t (surd_div_ratio g t s k) (surd_div_ratio g BigI s k).
Proof. intros; unfold surd_div_ratio; mono. Qed.
#[local] Hint Resolve ole_surd_add_int ole_surd_sub_int ole_surd_mul_int ole_surd_div_int
  ole_surd_add_ratio ole_surd_sub_ratio ole_surd_mul_ratio ole_surd_div_ratio : fitmono.
Lemma ole_reduce_bin_op x y : fitv t x -> fitv t y -> ole t (reduce_bin_op g t x y) (reduce_bin_op g BigI x y).
Proof. intros; unfold reduce_bin_op; mono. Qed.
#[local] Hint Resolve ole_reduce_bin_op : fitmono.
Lemma ole_reduce_bin_op_unwrap x y : fitv t x -> fitv t y -> ole t (reduce_bin_op_unwrap g t x y) (reduce_bin_op_unwrap g BigI x y).
Proof. intros; unfold reduce_bin_op_unwrap; mono. Qed.
#[local] Hint Resolve ole_reduce_bin_op_unwrap : fitmono.
Lemma ole_surd_add x y : fitv t x -> fitv t y -> ole t (surd_add g t x y) (surd_add g BigI x y).
Proof. intros; unfold surd_add; mono. Qed.
Lemma ole_surd_sub x y : fitv t x -> fitv t y -> ole t (surd_sub g t x y) (surd_sub g BigI x y).
Proof. intros; unfold surd_sub; mono. Qed.
Lemma ole_surd_mul x y : fitv t x -> fitv t y -> ole t (surd_mul g t x y) (surd_mul g BigI x y).
Proof. intros; unfold surd_mul; mono. Qed.
Lemma ole_surd_div x y : fitv t x -> fitv t y -> ole t (surd_div g t x y) (surd_div g BigI x y).
Proof. intros; unfold surd_div; mono. Qed.
#[local] Hint Resolve ole_surd_add ole_surd_sub ole_surd_mul ole_surd_div : fitmono.
Lemma ole_surd_trunc s : fitv t s -> ole t (surd_trunc g t s) (surd_trunc g BigI s).
Proof. intros; unfold surd_trunc; mono. Qed.
#[local] Hint Resolve ole_surd_trunc : fitmono.
Lemma ole_surd_fract s : fitv t s -> ole t (surd_fract g t s) (surd_fract g BigI s).
Proof. intros; unfold surd_fract; mono. Qed.
Lemma ole_surd_to_integer s : fitv t s -> ole t (surd_to_integer g t s) (surd_to_integer g BigI s).
Proof. intros; unfold surd_to_integer; mono. Qed.
Lemma ole_surd_to_gaussint s : fitv t s -> ole t (surd_to_gaussint g t s) (surd_to_gaussint g BigI s).
Proof. intros; unfold surd_to_gaussint; mono. Qed.
Lemma ole_surd_to_rational s : fitv t s -> ole t (surd_to_rational g t s) (surd_to_rational g BigI s).
Proof. intros; unfold surd_to_rational; mono. Qed.
Lemma ole_surd_floor s : fitv t s -> ole t (surd_floor g t s) (surd_floor g BigI s).
Proof. intros; unfold surd_floor; mono. Qed.
Lemma ole_surd_is_positive s : fitv t s -> ole t (surd_is_positive g t s) (surd_is_positive g BigI s).
Proof. intros; unfold surd_is_positive; mono. Qed.
Lemma ole_surd_is_negative s : fitv t s -> ole t (surd_is_negative g t s) (surd_is_negative g BigI s).
Proof. intros; unfold surd_is_negative; mono. Qed.
Lemma ole_surd_eq x y : fitv t x -> fitv t y -> ole t (surd_eq t x y) (surd_eq BigI x y).
Proof. intros; destruct x as [[xa xb xc] xr], y as [[ya yb yc] yr]; unfold surd_eq; cbn [coeffs discr]; mono. Qed.
#[local] Hint Resolve ole_surd_fract ole_surd_to_integer ole_surd_to_gaussint ole_surd_to_rational
  ole_surd_floor ole_surd_is_positive ole_surd_is_negative ole_surd_eq : fitmono.
Lemma ole_surd_to_prim pt s : fitv t s -> ole t (surd_to_prim g t pt s) (surd_to_prim g BigI pt s).
Proof.
  intros; unfold surd_to_prim. destruct (discr s <? 0); [apply ole_ok; exact I|].
  apply ole_bind; [auto with fitmono|]. intros [a|a] Ha; apply ole_ok; [exact I|].
  unfold prim_to, checked. destruct (fits pt a); [exact Ha|exact I].
Qed.
Lemma ole_get_abc x y : fitv t x -> fitv t y -> ole t (get_abc t x y) (get_abc BigI x y).
Proof. intros; unfold get_abc; mono. Qed.

(** ** Quadratic integers *)
Lemma ole_four : ole t (four t) (four BigI).
Proof. intros; unfold four; mono. Qed.
#[local] Hint Resolve ole_four : fitmono.
Lemma ole_mod4d2 v : fitv t v -> ole t (mod4d2 t v) (mod4d2 BigI v).
Proof. intros; unfold mod4d2; mono. Qed.
#[local] Hint Resolve ole_mod4d2 : fitmono.
Lemma ole_div_rem_round x y : fitv t x -> fitv t y -> ole t (div_rem_round t x y) (div_rem_round BigI x y).
Proof. intros; unfold div_rem_round; mono. Qed.
#[local] Hint Resolve ole_div_rem_round : fitmono.
Lemma ole_qco_add_int l k : fitv t l -> fitv t k -> ole t (qco_add_int t l k) (qco_add_int BigI l k).
Proof. intros; unfold qco_add_int; mono. Qed.
#[local] Hint Resolve ole_qco_add_int : fitmono.
Lemma ole_qco_add l r : fitv t l -> fitv t r -> ole t (qco_add t l r) (qco_add BigI l r).
Proof. intros; unfold qco_add; mono. Qed.
#[local] Hint Resolve ole_qco_add : fitmono.
Lemma ole_qco_sub_int l k : fitv t l -> fitv t k -> ole t (qco_sub_int t l k) (qco_sub_int BigI l k).
Proof. intros; unfold qco_sub_int; mono. Qed.
#[local] Hint Resolve ole_qco_sub_int : fitmono.
Lemma ole_qco_sub l r : fitv t l -> fitv t r -> ole t (qco_sub t l r) (qco_sub BigI l r).
Proof. intros; unfold qco_sub; mono. Qed.
#[local] Hint Resolve ole_qco_sub : fitmono.
Lemma ole_qco_mul_int l k : fitv t l -> fitv t k -> ole t (qco_mul_int t l k) (qco_mul_int BigI l k).
Proof. intros; unfold qco_mul_int; mono. Qed.
#[local] Hint Resolve ole_qco_mul_int : fitmono.
Lemma ole_qco_div_int l k : fitv t l -> fitv t k -> ole t (qco_div_int t l k) (qco_div_int BigI l k).
Proof. intros; unfold qco_div_int; mono. Qed.
#[local] Hint Resolve ole_qco_div_int : fitmono.
Lemma ole_qco_rem_int l k : fitv t l -> fitv t k -> ole t (qco_rem_int t l k) (qco_rem_int BigI l k).
Proof. intros; unfold qco_rem_int; mono. Qed.
#[local] Hint Resolve ole_qco_rem_int : fitmono.
Lemma ole_qco_norm l d : fitv t l -> fitv t d -> ole t (qco_norm t l d) (qco_norm BigI l d).
Proof. intros; unfold qco_norm; mono. Qed.
#[local] Hint Resolve ole_qco_norm : fitmono.
Lemma ole_qco_mul l r d : fitv t l -> fitv t r -> fitv t d -> ole t (qco_mul t l r d) (qco_mul BigI l r d).
Proof. intros; unfold qco_mul; mono. Qed.
#[local] Hint Resolve ole_qco_mul : fitmono.
Lemma ole_qco_div_rem l r d : fitv t l -> fitv t r -> fitv t d -> ole t (qco_div_rem t l r d) (qco_div_rem BigI l r d).
Proof. intros; unfold qco_div_rem; mono. Qed.
#[local] Hint Resolve ole_qco_div_rem : fitmono.
Lemma ole_qco_div l r d : fitv t l -> fitv t r -> fitv t d -> ole t (qco_div t l r d) (qco_div BigI l r d).
Proof. intros; unfold qco_div; mono. Qed.
#[local] Hint Resolve ole_qco_div : fitmono.
Lemma ole_qco_conj l d : fitv t l -> fitv t d -> ole t (qco_conj t l d) (qco_conj BigI l d).
Proof. intros; unfold qco_conj; mono. Qed.
#[local] Hint Resolve ole_qco_conj : fitmono.
Lemma ole_qint_from_coeffs co d : fitv t co -> fitv t d -> ole t (qint_from_coeffs g t co d) (qint_from_coeffs g BigI co d).
Proof. intros; unfold qint_from_coeffs; mono. Qed.
#[local] Hint Resolve ole_qint_from_coeffs : fitmono.
Lemma ole_qint_conj x : fitv t x -> ole t (qint_conj t x) (qint_conj BigI x).
Proof. intros; unfold qint_conj; mono. Qed.
#[local] Hint Resolve ole_qint_conj : fitmono.
Lemma ole_qint_norm x : fitv t x -> ole t (qint_norm t x) (qint_norm BigI x).
Proof. intros; unfold qint_norm; mono. Qed.
#[local] Hint Resolve ole_qint_norm : fitmono.
Lemma ole_qint_is_pure x : fitv t x -> ole t (qint_is_pure t x) (qint_is_pure BigI x).
Proof. intros; unfold qint_is_pure; mono. Qed.
#[local] Hint Resolve ole_qint_is_pure : fitmono.
Lemma ole_qint_parts_doubled x : fitv t x -> ole t (qint_parts_doubled t x) (qint_parts_doubled BigI x).
Proof. intros; destruct x as [[xa xb] xr]; unfold qint_parts_doubled; cbn [qcoeffs qdiscr]; mono. Qed.
#[local] Hint Resolve ole_qint_parts_doubled : fitmono.
Lemma ole_qint_reduce_root_hinted x h : fitv t x -> fitv t h -> ole t (qint_reduce_root_hinted g t x h) (qint_reduce_root_hinted g BigI x h).
Proof. intros; unfold qint_reduce_root_hinted; mono. Qed.
#[local] Hint Resolve ole_qint_reduce_root_hinted : fitmono.
Lemma ole_qint_neg x : fitv t x -> ole t (qint_neg t x) (qint_neg BigI x).
Proof. intros; unfold qint_neg; mono. Qed.
#[local] Hint Resolve ole_qint_neg : fitmono.
Lemma ole_qint_reduce_bin_op l r : fitv t l -> fitv t r -> ole t (qint_reduce_bin_op g t l r) (qint_reduce_bin_op g BigI l r).
Proof. intros; unfold qint_reduce_bin_op; mono. Qed.
#[local] Hint Resolve ole_qint_reduce_bin_op : fitmono.
Lemma ole_qint_reduce_bin_op_unwrap l r : fitv t l -> fitv t r -> ole t (qint_reduce_bin_op_unwrap g t l r) (qint_reduce_bin_op_unwrap g BigI l r).
Proof. intros; unfold qint_reduce_bin_op_unwrap; mono. Qed.
#[local] Hint Resolve ole_qint_reduce_bin_op_unwrap : fitmono.
Lemma ole_qint_eq l r : fitv t l -> fitv t r -> ole t (qint_eq t l r) (qint_eq BigI l r).
Proof. intros; unfold qint_eq; mono. Qed.
#[local] Hint Resolve ole_qint_eq : fitmono.
Lemma ole_qint_add_int x k : fitv t x -> fitv t k -> ole t (qint_add_int t x k) (qint_add_int BigI x k).
Proof. intros; unfold qint_add_int; mono. Qed.
#[local] Hint Resolve ole_qint_add_int : fitmono.
Lemma ole_qint_sub_int x k : fitv t x -> fitv t k -> ole t (qint_sub_int t x k) (qint_sub_int BigI x k).
Proof. intros; unfold qint_sub_int; mono. Qed.
#[local] Hint Resolve ole_qint_sub_int : fitmono.
Lemma ole_qint_mul_int x k : fitv t x -> fitv t k -> ole t (qint_mul_int t x k) (qint_mul_int BigI x k).
Proof. intros; unfold qint_mul_int; mono. Qed.
#[local] Hint Resolve ole_qint_mul_int : fitmono.
Lemma ole_qint_div_int x k : fitv t x -> fitv t k -> ole t (qint_div_int t x k) (qint_div_int BigI x k).
Proof. intros; unfold qint_div_int; mono. Qed.
#[local] Hint Resolve ole_qint_div_int : fitmono.
Lemma ole_qint_rem_int x k : fitv t x -> fitv t k -> ole t (qint_rem_int t x k) (qint_rem_int BigI x k).
Proof. intros; unfold qint_rem_int; mono. Qed.
#[local] Hint Resolve ole_qint_rem_int : fitmono.
Lemma ole_qint_add l r : fitv t l -> fitv t r -> ole t (qint_add g t l r) (qint_add g BigI l r).
Proof. intros; unfold qint_add; mono. Qed.
#[local] Hint Resolve ole_qint_add : fitmono.
Lemma ole_qint_sub l r : fitv t l -> fitv t r -> ole t (qint_sub g t l r) (qint_sub g BigI l r).
Proof. intros; unfold qint_sub; mono. Qed.
#[local] Hint Resolve ole_qint_sub : fitmono.
Lemma ole_qint_mul l r : fitv t l -> fitv t r -> ole t (qint_mul g t l r) (qint_mul g BigI l r).
Proof. intros; unfold qint_mul; mono. Qed.
#[local] Hint Resolve ole_qint_mul : fitmono.
Lemma ole_qint_div l r : fitv t l -> fitv t r -> ole t (qint_div g t l r) (qint_div g BigI l r).
Proof. intros; unfold qint_div; mono. Qed.
#[local] Hint Resolve ole_qint_div : fitmono.
Lemma ole_qint_rem l r : fitv t l -> fitv t r -> ole t (qint_rem g t l r) (qint_rem g BigI l r).
Proof. intros; unfold qint_rem; mono. Qed.
#[local] Hint Resolve ole_qint_rem : fitmono.
Lemma ole_gauss_conj x : fitv t x -> ole t (gauss_conj t x) (gauss_conj BigI x).
Proof. intros; unfold gauss_conj; mono. Qed.
#[local] Hint Resolve ole_gauss_conj : fitmono.
Lemma ole_gauss_norm x : fitv t x -> ole t (gauss_norm t x) (gauss_norm BigI x).
Proof. intros; unfold gauss_norm; mono. Qed.
#[local] Hint Resolve ole_gauss_norm : fitmono.
Lemma ole_gauss_add x y : fitv t x -> fitv t y -> ole t (gauss_add t x y) (gauss_add BigI x y).
Proof. intros; unfold gauss_add; mono. Qed.
#[local] Hint Resolve ole_gauss_add : fitmono.
Lemma ole_gauss_sub x y : fitv t x -> fitv t y -> ole t (gauss_sub t x y) (gauss_sub BigI x y).
Proof. intros; unfold gauss_sub; mono. Qed.
#[local] Hint Resolve ole_gauss_sub : fitmono.
Lemma ole_gauss_mul x y : fitv t x -> fitv t y -> ole t (gauss_mul t x y) (gauss_mul BigI x y).
Proof. intros; unfold gauss_mul; mono. Qed.
#[local] Hint Resolve ole_gauss_mul : fitmono.
Lemma ole_gauss_div x y : fitv t x -> fitv t y -> ole t (gauss_div t x y) (gauss_div BigI x y).
Proof. intros; unfold gauss_div; mono. Qed.
#[local] Hint Resolve ole_gauss_div : fitmono.
Lemma ole_gauss_rem x y : fitv t x -> fitv t y -> ole t (gauss_rem t x y) (gauss_rem BigI x y).
Proof. intros; unfold gauss_rem; mono. Qed.
#[local] Hint Resolve ole_gauss_rem : fitmono.
Lemma ole_remove4 fuel : forall b r, fitv t b -> fitv t r -> ole t (remove4 t fuel b r) (remove4 BigI fuel b r).
Proof. induction fuel as [|fuel IH]; intros b r Hb Hr; cbn [remove4]; mono. Qed.
#[local] Hint Resolve ole_remove4 : fitmono.
Lemma ole_qint_new a b r : fitv t a -> fitv t b -> fitv t r -> ole t (qint_new g t a b r) (qint_new g BigI a b r).
Proof. intros; unfold qint_new; mono. Qed.
#[local] Hint Resolve ole_qint_new : fitmono.
Lemma ole_surd_to_quadint s : fitv t s -> ole t (surd_to_quadint g t s) (surd_to_quadint g BigI s).
Proof. intros; destruct s as [[a b c] r]; unfold surd_to_quadint; mono. Qed.

(** ** Square roots: an overflow may also be reported as an error *)
Local Notation osq := (agrees_sqrt t).
Lemma osq_bind {A D} `{Fit A} `{Fit D} (m n : res A) (f h : A -> res (sqrt_result D)) :
  ole t m n -> (forall a, m = Ok a -> n = Ok a -> fitv t a -> osq (f a) (h a)) -> osq (bind m f) (bind n h).
Proof.
  intros [->|[<- Hv]] Hf; [right; left; reflexivity|]. destruct m as [a|k|].
  - apply Hf; auto.
  - right. apply ole_panic.
  - right. apply ole_hang.
Qed.
Lemma ole_osq {D} `{Fit D} (m n : res (sqrt_result D)) : ole t m n -> osq m n.
Proof. intros; right; auto. Qed.

Lemma ole_from_sqrt_int n : fitv t n -> ole t (from_sqrt_int g t n) (from_sqrt_int g BigI n).
Proof. intros; unfold from_sqrt_int; mono. Qed.
#[local] Hint Resolve ole_from_sqrt_int : fitmono.
Lemma osq_from_sqrt_ratio q : fitv t q -> osq (from_sqrt_ratio g t q) (from_sqrt_ratio g BigI q).
Proof.
  intros F. unfold from_sqrt_ratio. destruct (_ && _); [apply ole_osq; mono|].
  destruct (ratio_is_integer q); [apply ole_osq; mono|].
  unfold checked_mul, checked. cbn [fits].
  destruct (fits t (numer q * denom q)) eqn:E; [|left; exists q; auto].
  apply ole_osq. assert (fitv t (numer q * denom q)) by exact E. mono.
Qed.
Lemma ole_sqrt_reconstruct x y r k : fitv t x -> fitv t y -> fitv t r ->
  ole t (sqrt_reconstruct g t x y r k) (sqrt_reconstruct g BigI x y r k).
Proof. intros; unfold sqrt_reconstruct; mono. Qed.
#[local] Hint Resolve ole_sqrt_reconstruct ole_get_abc : fitmono.
Lemma osq_from_sqrt_surd s : normal g s -> fitv t s -> osq (from_sqrt_surd g t s) (from_sqrt_surd g BigI s).
Proof.
  intros N F. unfold from_sqrt_surd. apply osq_bind; [mono|]. intros isneg _ _ _.
  destruct isneg; [apply ole_osq; mono|].
  destruct (is_rational s) eqn:Er.
  { apply osq_bind; [mono|]. intros [q|q] _ _ Fq; [apply ole_osq; mono|].
    destruct (osq_from_sqrt_ratio q Fq) as [(d & -> & Fd)|[->|[-> Fv]]].
    - left. exists (surd_of_ratio d). split; [reflexivity|]. fits.
    - right. left. reflexivity.
    - destruct (from_sqrt_ratio g BigI q) as [[v|d k]|k|]; [apply ole_osq; apply ole_ok; apply (Fv _ eq_refl)| |..];
        apply ole_osq; cbn [bind]; [apply ole_ok; specialize (Fv _ eq_refl); fits|apply ole_panic|apply ole_hang]. }
  destruct s as [[a b c] r].
  assert (Fa : fitv t a /\ fitv t b /\ fitv t c /\ fitv t r) by (split; [|split; [|split]]; fits).
  destruct Fa as (Fa & Fb & Fc & Fr). clear F.
  unfold is_rational in Er. cbn [coeffs discr c1] in Er. apply orb_false_iff in Er. destruct Er as [Eb Er].
  apply Z.eqb_neq in Eb, Er. destruct N as (N1 & _ & _ & N4). cbn [parts coeffs discr c0 c1 c2] in N1, N4.
  apply osq_bind; [mono|]. intros x _ Ex Fx.
  apply osq_bind; [mono|]. intros y _ Ey Fy.
  apply osq_bind; [mono|]. intros xy _ Exy Fxy.
  assert (Lx : lowest x) by (apply ratio_new_ok in Ex; tauto).
  assert (Ly : lowest y) by (apply ratio_new_ok in Ey; tauto).
  assert (Lxy : lowest xy) by (apply ratio_div_ok in Exy; auto using lowest_okd; tauto).
  apply osq_bind; [mono|]. intros xx _ _ Fxx.
  apply osq_bind; [mono|]. intros d2 _ _ Fd2.
  destruct (ratio_is_negative d2); [apply ole_osq; mono|].
  destruct (osq_from_sqrt_ratio d2 Fd2) as [(d & -> & Fd)|[->|[-> Fv]]].
  - cbn [bind]. destruct (sqrt_reconstruct_total g xy y r EOverflow Lxy Ly N4) as [v Hv].
    destruct (ole_sqrt_reconstruct xy y r EOverflow Fxy Fy Fr) as [->|[-> Fv]]; [right; left; reflexivity|].
    rewrite Hv in *. specialize (Fv _ eq_refl). unfold sqrt_reconstruct in Hv. repeat stepH Hv.
    inversion Hv; subst. left. eexists. split; [reflexivity|]. exact Fv.
  - right. left. reflexivity.
  - apply ole_osq. apply ole_bind; [right; auto|]. intros [dl|dd k] Fdl; mono; destruct a0; apply ole_ratio_sub || apply ole_ratio_add; auto.
Qed.

(** ** reduced *)
Lemma ole_reduce_root_loop fuel p p2 : fitv t p -> fitv t p2 -> forall b r, fitv t b -> fitv t r ->
  ole t (reduce_root_loop t fuel p p2 b r) (reduce_root_loop BigI fuel p p2 b r).
Proof. intros Fp Fp2. induction fuel as [|fuel IH]; intros b r Fb Fr; cbn [reduce_root_loop]; mono. Qed.

Lemma ole_reduce_root_primes fuel ps : (0 < fuel)%nat ->
  Forall (fun p => 2 <= p <= 251 /\ (Z.odd p = true \/ p = 2)) ps -> fits t 251 = true ->
  forall b r, r <> 0 -> fitv t b -> fitv t r ->
  ole t (reduce_root_primes t fuel ps b r) (reduce_root_primes BigI fuel ps b r).
Proof.
  intros Hf HP F251. induction HP as [|p ps Hp HP IH]; intros b r Hr Fb Fr; cbn [reduce_root_primes]; [mono|].
  assert (Fp : fits t p = true) by (apply (fits_between 251); [auto|lia]).
  unfold checked at 1 2. rewrite Fp. cbn [fits unwrap bind].
  unfold checked_mul, checked. cbn [fits].
  destruct (fits t (p * p)) eqn:Fpp.
  - assert (Fpz : fitv t p) by exact Fp. assert (Fppz : fitv t (p * p)) by exact Fpp.
    destruct (ole_reduce_root_loop fuel p (p * p) Fpz Fppz b r Fb Fr) as [->|[E Fv]]; [left; reflexivity|].
    rewrite E. rewrite E in Fv. destruct (reduce_root_loop BigI fuel p (p * p) b r) as [[b' r']|k|] eqn:E2;
      cbn [bind]; [|apply ole_panic|apply ole_hang].
    specialize (Fv _ eq_refl). apply reduce_root_loop_ok in E2; [|lia]. destruct E2 as (k & (K1 & K2 & K3) & _).
    apply IH; [intros ->; lia|apply Fv|apply Fv].
  - assert (E : reduce_root_loop BigI fuel p (p * p) b r = Ok (b, r)).
    { destruct fuel as [|fuel]; [lia|]. cbn [reduce_root_loop]. rewrite div_remB by nia. cbn [bind].
      assert (Hlt : Z.abs r < p * p).
      { destruct (Z.le_gt_cases (p * p) (Z.abs r)) as [L|L]; [exfalso|auto].
        destruct (Z.le_gt_cases 0 r) as [R|R].
        - rewrite Z.abs_eq in L by lia. rewrite (fits_between r (p * p)) in Fpp; [discriminate|auto|nia].
        - rewrite Z.abs_neq in L by lia. clear IH HP. 
          change (fits t r = true) in Fr. 
          destruct t as [| |n|n]; cbn in Fr, Fpp, F251; rewrite ?andb_true_iff, ?Z.leb_le, ?Z.ltb_lt in *; try discriminate; try lia.
          apply andb_false_iff in Fpp. rewrite ?Z.leb_gt, ?Z.ltb_ge in Fpp.
          assert (P : p * p = 2 ^ (n - 1)) by nia.
          destruct Hp as [Hp [Ho|Ho]]; [|lia].
          assert (Hn : 1 <= n - 1).
          { destruct (Z.le_gt_cases 1 (n - 1)); auto. exfalso.
            assert (2 ^ (n - 1) <= 2 ^ 0) by (apply Z.pow_le_mono_r; lia). cbn in *. lia. }
          assert (Z.odd (p * p) = true) by (rewrite Z.odd_mul, Ho; reflexivity).
          rewrite P in *. replace (n - 1) with (Z.succ (n - 2)) in H by lia. rewrite Z.pow_succ_r in H by lia.
          rewrite Z.odd_mul in H. discriminate. }
      assert (Z.rem r (p * p) <> 0).
      { intros X. apply Z.rem_divide in X; [|nia]. apply Z.divide_abs_r in X. apply Z.divide_pos_le in X; lia. }
      apply Z.eqb_neq in H. rewrite H. reflexivity. }
    rewrite E. cbn [bind]. apply IH; auto.
Qed.

Lemma SMALL_PRIMES_range : Forall (fun p => 2 <= p <= 251 /\ (Z.odd p = true \/ p = 2)) SMALL_PRIMES.
Proof.
  apply Forall_forall. intros p Hp.
  assert (E : forallb (fun p => (2 <=? p) && (p <=? 251) && (Z.odd p || (p =? 2))) SMALL_PRIMES = true) by reflexivity.
  rewrite forallb_forall in E. apply E in Hp. rewrite !andb_true_iff, orb_true_iff, !Z.leb_le, Z.eqb_eq in Hp. tauto.
Qed.

Lemma SMALL_PRIMES_2 : SMALL_PRIMES = 2 :: tl SMALL_PRIMES.
Proof. reflexivity. Qed.
Opaque SMALL_PRIMES.
Lemma reduce_root_primes_cons u fuel p ps b r : reduce_root_primes u fuel (p :: ps) b r =
  let! p := unwrap (checked u p) in
  match checked_mul u p p with
  | Some p2 => let! (b, r) := reduce_root_loop u fuel p p2 b r in reduce_root_primes u fuel ps b r
  | None => reduce_root_primes u fuel ps b r
  end.
Proof. reflexivity. Qed.
Opaque reduce_root_primes.
Lemma ole_surd_reduced fuel s : fits t 251 = true -> fitv t s ->
  ole t (surd_reduced t fuel s) (surd_reduced BigI fuel s).
Proof.
  intros F251 F. destruct s as [[a b c] r].
  assert (Fa : fitv t a /\ fitv t b /\ fitv t c /\ fitv t r) by (split; [|split; [|split]]; fits).
  destruct Fa as (Fa & Fb & Fc & Fr).
  unfold surd_reduced. apply ole_bind; [|intros; mono].
  assert (F2 : fits t 2 = true) by (apply (fits_between 251); [auto|lia]).
  assert (F4 : fits t 4 = true) by (apply (fits_between 251); [auto|lia]).
  assert (F2z : fitv t 2) by exact F2. assert (F4z : fitv t 4) by exact F4.
  pose proof SMALL_PRIMES_range as HP. pose proof SMALL_PRIMES_2 as E2.
  destruct (Nat.eq_dec fuel 0) as [->|Hf]; [|destruct (Z.eq_dec r 0) as [->|Hr]].
  - rewrite E2 at 1 2. generalize (tl SMALL_PRIMES). intros ps.
    rewrite !reduce_root_primes_cons. unfold checked_mul, checked. rewrite F2. cbn [unwrap bind fits Z.mul Pos.mul].
    rewrite F4. cbn [reduce_root_loop bind]. apply ole_hang.
  - rewrite E2 at 1 2. generalize (tl SMALL_PRIMES). intros ps.
    rewrite !reduce_root_primes_cons. unfold checked_mul, checked. rewrite F2. cbn [unwrap bind fits Z.mul Pos.mul].
    rewrite F4. pose proof (ole_reduce_root_loop fuel 2 4 F2z F4z b 0 Fb Fr) as O.
    pose proof (reduce_root_loop_zero BigI fuel 2 b ltac:(lia)) as Z0. change (2 * 2) with 4 in Z0.
    destruct O as [->|[-> _]]; [left; reflexivity|].
    destruct (reduce_root_loop BigI fuel 2 4 b 0) as [v|k|]; [exfalso; apply Z0; exists v; auto|apply ole_panic|apply ole_hang].
  - apply ole_reduce_root_primes; auto. lia.
Qed.

Lemma surd_from_prim_fit n s : surd_from_prim t n = Some s -> fitv t s /\ surd_from_prim BigI n = Some s.
Proof.
  unfold surd_from_prim, checked. cbn [fits]. destruct (fits t n) eqn:E; [|discriminate].
  intros H. inversion H; subst. assert (fitv t n) by exact E. split; [fits|reflexivity].
Qed.
End S.
