(** * NumFacts: integer squares, gcds and the complex square root. *)

From Coq Require Import ZArith Znumtheory Reals Lia Lra Bool.
From Coquelicot Require Import Coquelicot.
From Verif Require Import Base Ext ModelSurd Spec.
Open Scope Z_scope.

(** ** Squares of integers *)

Lemma div_gcd_rel_prime a b : b <> 0 ->
  exists a' b', a = Z.gcd a b * a' /\ b = Z.gcd a b * b' /\ rel_prime a' b' /\ 0 < Z.gcd a b.
Proof.
  intros Hb.
  destruct (Z.gcd_divide_l a b) as [a' Ha]. destruct (Z.gcd_divide_r a b) as [b' Hb'].
  assert (Hg : 0 < Z.gcd a b).
  { pose proof (Z.gcd_nonneg a b). destruct (Z.eq_dec (Z.gcd a b) 0) as [E|E]; [|lia].
    apply Z.gcd_eq_0_r in E. contradiction. }
  exists a', b'. repeat split; try lia.
  - apply Z.divide_1_l.
  - apply Z.divide_1_l.
  - intros x H1 H2.
    assert (Hd : (x * Z.gcd a b | Z.gcd a b)).
    { apply Z.gcd_greatest.
      - rewrite Ha at 2. apply Z.mul_divide_mono_r; auto.
      - rewrite Hb' at 2. apply Z.mul_divide_mono_r; auto. }
    destruct Hd as [k Hk]. exists k. nia.
Qed.

Lemma square_quotient a b r : b <> 0 -> a * a = b * b * r -> square r.
Proof.
  intros Hb H.
  destruct (div_gcd_rel_prime a b Hb) as (a' & b' & Ha & Hb' & Hp & Hg).
  revert Ha Hb' Hg; generalize (Z.gcd a b); intros d Ha Hb' Hg.
  assert (E : a' * a' = b' * b' * r).
  { apply (Z.mul_reg_l _ _ (d * d)); [nia|]. subst a b. lia. }
  assert (Hd : (b' | 1)).
  { assert (D1 : (b' | a')).
    { apply (Gauss b' a' a'); [exists (b' * r); rewrite E; ring|].
      apply rel_prime_sym; exact Hp. }
    destruct Hp as [_ _ Hp]. apply Hp; [exact D1|apply Z.divide_refl]. }
  apply Z.divide_1_r in Hd.
  exists a'. destruct Hd as [-> | ->]; lia.
Qed.

Lemma sqrt_square_iff r : 0 <= r -> (Z.sqrt r * Z.sqrt r = r <-> square r).
Proof.
  intros Hr; split.
  - intros H; exists (Z.sqrt r); lia.
  - intros [k Hk]. assert (E : r = Z.abs k * Z.abs k) by lia.
    rewrite E. rewrite Z.sqrt_square by lia. reflexivity.
Qed.

Lemma not_square_neg r : r < 0 -> ~ square r.
Proof. intros H [k Hk]. nia. Qed.

Lemma square_mul k r : square r -> square (k * k * r).
Proof. intros [m Hm]; exists (k * m); subst; ring. Qed.

Lemma square_div k r : k <> 0 -> square (k * k * r) -> square r.
Proof. intros Hk [m Hm]. apply (square_quotient m k r Hk). lia. Qed.

Lemma square_mod_dec r : {square r} + {~ square r}.
Proof.
  destruct (Z_lt_dec r 0) as [H|H]; [right; apply not_square_neg; auto|].
  destruct (Z.eq_dec (Z.sqrt r * Z.sqrt r) r) as [E|E].
  - left. exists (Z.sqrt r); lia.
  - right. intros Hs. apply E. apply sqrt_square_iff; [lia|auto].
Qed.

(** ** Embedding of the integers *)

Lemma ZtoC_add x y : ZtoC (x + y) = (ZtoC x + ZtoC y)%C.
Proof. unfold ZtoC. rewrite plus_IZR, RtoC_plus. reflexivity. Qed.
Lemma ZtoC_sub x y : ZtoC (x - y) = (ZtoC x - ZtoC y)%C.
Proof. unfold ZtoC. rewrite minus_IZR, RtoC_minus. reflexivity. Qed.
Lemma ZtoC_mul x y : ZtoC (x * y) = (ZtoC x * ZtoC y)%C.
Proof. unfold ZtoC. rewrite mult_IZR, RtoC_mult. reflexivity. Qed.
Lemma ZtoC_opp x : ZtoC (- x) = (- ZtoC x)%C.
Proof. unfold ZtoC. rewrite opp_IZR, RtoC_opp. reflexivity. Qed.
Lemma ZtoC_0 : ZtoC 0 = RtoC 0. Proof. reflexivity. Qed.
Lemma ZtoC_1 : ZtoC 1 = RtoC 1. Proof. reflexivity. Qed.
Lemma ZtoC_inj x y : ZtoC x = ZtoC y -> x = y.
Proof. unfold ZtoC. intros H. apply RtoC_inj in H. apply eq_IZR; auto. Qed.
Lemma ZtoC_neq0 x : x <> 0 -> ZtoC x <> RtoC 0.
Proof. intros H E. apply H. apply (ZtoC_inj x 0). exact E. Qed.

#[export] Hint Rewrite ZtoC_add ZtoC_sub ZtoC_mul ZtoC_opp ZtoC_0 ZtoC_1 : ztoc.

(** ** The complex square root *)

Lemma csqrt_nonneg r : 0 <= r -> csqrt r = RtoC (sqrt (IZR r)).
Proof. intros H. unfold csqrt. destruct (Z.ltb_spec r 0); [lia|auto]. Qed.
Lemma csqrt_neg r : r < 0 -> csqrt r = (0%R, sqrt (IZR (- r))).
Proof. intros H. unfold csqrt. destruct (Z.ltb_spec r 0); [auto|lia]. Qed.

Lemma sqrt_IZR_sq r : 0 <= r -> (sqrt (IZR r) * sqrt (IZR r) = IZR r)%R.
Proof. intros H. apply sqrt_sqrt. apply IZR_le; auto. Qed.

Lemma csqrt_sq r : (csqrt r * csqrt r)%C = ZtoC r.
Proof.
  destruct (Z_lt_dec r 0) as [H|H].
  - rewrite csqrt_neg by auto. unfold ZtoC, Cmult, RtoC; simpl. f_equal; [|ring].
    replace (0 * 0 - sqrt (IZR (- r)) * sqrt (IZR (- r)))%R
      with (- (sqrt (IZR (- r)) * sqrt (IZR (- r))))%R by ring.
    rewrite sqrt_IZR_sq by lia. rewrite opp_IZR. ring.
  - rewrite csqrt_nonneg by lia. unfold ZtoC. rewrite <- RtoC_mult, sqrt_IZR_sq by lia. reflexivity.
Qed.

Lemma csqrt_0 : csqrt 0 = RtoC 0.
Proof. rewrite csqrt_nonneg by lia. rewrite sqrt_0. reflexivity. Qed.
Lemma csqrt_1 : csqrt 1 = RtoC 1.
Proof. rewrite csqrt_nonneg by lia. rewrite sqrt_1. reflexivity. Qed.

Lemma csqrt_eq0 r : csqrt r = RtoC 0 -> r = 0.
Proof.
  intros H. apply (ZtoC_inj r 0). rewrite <- csqrt_sq, H, ZtoC_0. ring.
Qed.

Lemma sqrt_IZR_square k : 0 <= k -> sqrt (IZR (k * k)) = IZR k.
Proof. intros H. rewrite mult_IZR. apply sqrt_square. apply IZR_le; auto. Qed.

Lemma csqrt_square k : 0 <= k -> csqrt (k * k) = ZtoC k.
Proof. intros H. rewrite csqrt_nonneg by nia. rewrite sqrt_IZR_square by auto. reflexivity. Qed.

Lemma csqrt_mul_nonneg x y : 0 <= x -> csqrt (x * y) = (csqrt x * csqrt y)%C.
Proof.
  intros Hx. rewrite (csqrt_nonneg x Hx).
  assert (Hx' : (0 <= IZR x)%R) by (apply IZR_le; auto).
  destruct (Z_lt_dec y 0) as [Hy|Hy].
  - destruct (Z.eq_dec x 0) as [->|Hx0].
    + simpl. rewrite csqrt_0, sqrt_0. ring.
    + rewrite (csqrt_neg y) by auto. rewrite csqrt_neg by nia.
      unfold Cmult, RtoC; simpl. f_equal; [ring|].
      replace (- (x * y)) with (x * - y) by ring.
      rewrite mult_IZR, sqrt_mult; [ring|auto|apply IZR_le; lia].
  - rewrite (csqrt_nonneg y) by lia. rewrite csqrt_nonneg by nia.
    rewrite mult_IZR, sqrt_mult; [apply RtoC_mult|auto|apply IZR_le; lia].
Qed.

Lemma csqrt_mul_neg x y : x < 0 -> y < 0 -> csqrt (x * y) = (- (csqrt x * csqrt y))%C.
Proof.
  intros Hx Hy. rewrite (csqrt_neg x), (csqrt_neg y), csqrt_nonneg by nia.
  unfold Cmult, Copp, RtoC; simpl. f_equal; [|ring].
  replace (x * y) with (- x * - y) by ring.
  rewrite mult_IZR, sqrt_mult by (apply IZR_le; lia). ring.
Qed.

Lemma csqrt_scale k r : 0 <= k -> csqrt (k * k * r) = (ZtoC k * csqrt r)%C.
Proof. intros H. rewrite csqrt_mul_nonneg by nia. rewrite csqrt_square by auto. reflexivity. Qed.

(** Irrationality: 1 and sqrt r are independent over the integers *)
Lemma csqrt_indep a b r : ~ square r -> (ZtoC a + ZtoC b * csqrt r)%C = RtoC 0 -> a = 0 /\ b = 0.
Proof.
  intros Hr H.
  assert (E : (ZtoC a * ZtoC a)%C = (ZtoC b * ZtoC b * ZtoC r)%C).
  { rewrite <- (csqrt_sq r).
    assert (E1 : ZtoC a = (- (ZtoC b * csqrt r))%C).
    { replace (ZtoC a) with (ZtoC a + ZtoC b * csqrt r - ZtoC b * csqrt r)%C by ring.
      rewrite H. ring. }
    rewrite E1. ring. }
  rewrite <- !ZtoC_mul in E. apply ZtoC_inj in E.
  destruct (Z.eq_dec b 0) as [Hb|Hb].
  - subst b. split; [nia|auto].
  - exfalso. apply Hr. apply (square_quotient a b r Hb E).
Qed.

Lemma csqrt_indep2 a b a' b' r : ~ square r ->
  (ZtoC a + ZtoC b * csqrt r)%C = (ZtoC a' + ZtoC b' * csqrt r)%C -> a = a' /\ b = b'.
Proof.
  intros Hr H. destruct (csqrt_indep (a - a') (b - b') r Hr).
  - rewrite !ZtoC_sub.
    replace (ZtoC a - ZtoC a' + (ZtoC b - ZtoC b') * csqrt r)%C
      with ((ZtoC a + ZtoC b * csqrt r) - (ZtoC a' + ZtoC b' * csqrt r))%C by ring.
    rewrite H. ring.
  - lia.
Qed.

Lemma norm_neq0 a b r : ~ square r -> (a <> 0 \/ b <> 0) -> a * a - b * b * r <> 0.
Proof.
  intros Hr Hab E. destruct (Z.eq_dec b 0) as [->|Hb].
  - destruct Hab; nia.
  - apply Hr. apply (square_quotient a b r Hb). lia.
Qed.
