(** * SmallOps: surd operations on small operands do not overflow. *)

From Coq Require Import ZArith Znumtheory Lia Bool List.
From Verif Require Import Base Ext ModelSurd Spec SpecSmall SurdCore SurdArith SmallFit.
Import ListNotations.
Open Scope Z_scope.

Ltac bstruct :=
  lazymatch goal with
  | H : Z.abs ?e <= _ |- Z.abs ?e <= _ => exact H
  | |- Z.abs (_ * _) <= _ => apply abs_mul; bstruct
  | |- Z.abs (_ + _) <= _ => apply abs_add; bstruct
  | |- Z.abs (_ - _) <= _ => apply abs_sub; bstruct
  | |- Z.abs (- _) <= _ => apply abs_opp; bstruct
  | |- Z.abs (Z.quot _ _) <= _ => apply abs_quot; bstruct
  | |- Z.abs 0 <= _ => apply (Z.le_refl 0)
  | |- Z.abs 1 <= _ => apply (Z.le_refl 1)
  end.
(** lia splits every absolute value in sight: forget them first *)
Ltac pl := repeat match goal with H : context[Z.abs _] |- _ => clear H end; lia.
Ltac bnd := eapply Z.le_trans; [bstruct|]; pl.
Ltac fit R := fit1 R ltac:(bnd).

Section Ops.
Context (g : cfg) (t : ity) (K : Z) (HK : 4 <= K).

Local Notation w := (Z.sqrt K).
Lemma w_facts : 0 <= w /\ w * w <= K /\ 2 * w <= K.
Proof. pose proof (sqrt_sq K ltac:(lia)). pose proof (Z.sqrt_nonneg K). repeat split; try assumption. nia. Qed.

Lemma pows : 4 * K <= K * K /\ 4 * (K * K) <= K * K * K /\ 4 * (K * K * K) <= K * K * K * K /\
  4 * (K * K * K * K) <= K * K * K * K * K /\ 4 * (K * K * K * K * K) <= K * K * K * K * K * K.
Proof. assert (0 <= K * K) by nia. assert (0 <= K * K * K) by nia. assert (0 <= K * K * K * K) by nia. assert (0 <= K * K * K * K * K) by nia. repeat split; nia. Qed.

Lemma wpows : 2 * (K * w) <= K * K /\ 2 * (K * K * w) <= K * K * K /\ 2 * (K * K * K * w) <= K * K * K * K /\ 2 * (K * K * K * K * w) <= K * K * K * K * K.
Proof. destruct w_facts as (H0 & _ & H). assert (0 <= K * K) by nia. assert (0 <= K * K * K) by nia. assert (0 <= K * K * K * K) by nia. repeat split; nia. Qed.

Lemma from_coeffs_fit M a b c r A B C D : room t M -> Z.abs a <= A -> Z.abs b <= B -> Z.abs c <= C -> Z.abs r <= D ->
  B <= M -> C <= M -> D <= M -> A + B * Z.sqrt D <= M -> (c <> 0 -> Z.gcd a c * Z.gcd a c <= M) ->
  surd_from_coeffs g t (SCo a b c) r = surd_from_coeffs g BigI (SCo a b c) r.
Proof.
  intros. unfold surd_from_coeffs. destruct (_ && _); [reflexivity|]. apply (reduce_fit t M H a b c r A B C D); auto.
Qed.

Lemma gcd_c a c C : Z.abs c <= C -> c <> 0 -> Z.gcd a c * Z.gcd a c <= C * C.
Proof. intros H N. pose proof (abs_gcd_r a c C N H). pose proof (Z.gcd_nonneg a c). apply Z.square_le_mono_nonneg; lia. Qed.
Lemma gcd_a a c A : Z.abs a <= A -> a <> 0 -> Z.gcd a c * Z.gcd a c <= A * A.
Proof. intros H N. pose proof (abs_gcd_l a c A N H). pose proof (Z.gcd_nonneg a c). apply Z.square_le_mono_nonneg; lia. Qed.

Ltac facts := pose proof w_facts as (W0 & W1 & W2); pose proof pows as (P1 & P2 & P3 & P4 & P5); pose proof wpows as (V1 & V2 & V3 & V4).

Lemma surd_new_fit a b c r : room t (K ^ 2) -> Z.abs a <= K -> Z.abs b <= K -> Z.abs c <= K -> Z.abs r <= K ->
  surd_new g t a b c r = surd_new g BigI a b c r.
Proof.
  intros R Ha Hb Hc Hr. facts. unfold surd_new. destruct (_ && _); [reflexivity|].
  apply (reduce_fit t (K ^ 2) R a b c r K K K K); auto; try pl.
  intros N. pose proof (gcd_c a c K Hc N). pl.
Qed.


Lemma add_int_fit s k : room t (K ^ 3) -> small K s -> Z.abs k <= K -> surd_add_int g t s k = surd_add_int g BigI s k.
Proof.
  intros R S Hk. facts. destruct s as [[a b c] r], S as (Ha & Hb & Hc & Hr). cbn [coeffs discr c0 c1 c2] in *.
  unfold surd_add_int, sco_add_int. cbn [coeffs discr c0 c1 c2]. bigs. fit R. fit R.
  apply (from_coeffs_fit (K ^ 3) _ _ _ _ (K + K * K) K K K); auto; try bnd; try pl.
  intros N. pose proof (gcd_c (a + k * c) c K Hc N). pl.
Qed.

Lemma sub_int_fit s k : room t (K ^ 3) -> small K s -> Z.abs k <= K -> surd_sub_int g t s k = surd_sub_int g BigI s k.
Proof.
  intros R S Hk. facts. destruct s as [[a b c] r], S as (Ha & Hb & Hc & Hr). cbn [coeffs discr c0 c1 c2] in *.
  unfold surd_sub_int, sco_sub_int. cbn [coeffs discr c0 c1 c2]. bigs. fit R. fit R.
  apply (from_coeffs_fit (K ^ 3) _ _ _ _ (K + K * K) K K K); auto; try bnd; try pl.
  intros N. pose proof (gcd_c (a - k * c) c K Hc N). pl.
Qed.

Lemma mul_int_fit s k : room t (K ^ 3) -> small K s -> Z.abs k <= K -> surd_mul_int g t s k = surd_mul_int g BigI s k.
Proof.
  intros R S Hk. facts. destruct s as [[a b c] r], S as (Ha & Hb & Hc & Hr). cbn [coeffs discr c0 c1 c2] in *.
  unfold surd_mul_int, sco_mul_int. cbn [coeffs discr c0 c1 c2]. bigs. fit R. fit R.
  apply (from_coeffs_fit (K ^ 3) _ _ _ _ (K * K) (K * K) K K); auto; try bnd; try pl.
  intros N. pose proof (gcd_c (a * k) c K Hc N). pl.
Qed.

Lemma div_int_fit s k : room t (K ^ 4) -> small K s -> Z.abs k <= K -> surd_div_int g t s k = surd_div_int g BigI s k.
Proof.
  intros R S Hk. facts. destruct s as [[a b c] r], S as (Ha & Hb & Hc & Hr). cbn [coeffs discr c0 c1 c2] in *.
  unfold surd_div_int, sco_div_int. cbn [coeffs discr c0 c1 c2]. bigs. fit R.
  apply (from_coeffs_fit (K ^ 4) _ _ _ _ K K (K * K) K); auto; try bnd; try pl.
  intros N. pose proof (gcd_c a (c * k) (K * K) ltac:(bnd) N). pl.
Qed.

Lemma add_ratio_fit s q : room t (K ^ 4) -> small K s -> small_ratio K q -> surd_add_ratio g t s q = surd_add_ratio g BigI s q.
Proof.
  intros R S Q. facts. destruct s as [[a b c] r], S as (Ha & Hb & Hc & Hr), q as [n d], Q as (Hn & Hd). cbn [coeffs discr c0 c1 c2 numer denom] in *.
  unfold surd_add_ratio, sco_add_ratio. cbn [coeffs discr c0 c1 c2]. destruct (c =? d); bigs.
  - fit R. apply (from_coeffs_fit (K ^ 4) _ _ _ _ (K + K) K K K); auto; try bnd; try pl.
    intros N. pose proof (gcd_c (a + n) c K Hc N). pl.
  - fit R. fit R. fit R. fit R. fit R. apply (from_coeffs_fit (K ^ 4) _ _ _ _ (K * K + K * K) (K * K) (K * K) K); auto; try bnd; try pl.
    intros N. pose proof (gcd_c (a * d + n * c) (c * d) (K * K) ltac:(bnd) N). pl.
Qed.

Lemma sub_ratio_fit s q : room t (K ^ 4) -> small K s -> small_ratio K q -> surd_sub_ratio g t s q = surd_sub_ratio g BigI s q.
Proof.
  intros R S Q. facts. destruct s as [[a b c] r], S as (Ha & Hb & Hc & Hr), q as [n d], Q as (Hn & Hd). cbn [coeffs discr c0 c1 c2 numer denom] in *.
  unfold surd_sub_ratio, sco_sub_ratio. cbn [coeffs discr c0 c1 c2]. destruct (c =? d); bigs.
  - fit R. apply (from_coeffs_fit (K ^ 4) _ _ _ _ (K + K) K K K); auto; try bnd; try pl.
    intros N. pose proof (gcd_c (a - n) c K Hc N). pl.
  - fit R. fit R. fit R. fit R. fit R. apply (from_coeffs_fit (K ^ 4) _ _ _ _ (K * K + K * K) (K * K) (K * K) K); auto; try bnd; try pl.
    intros N. pose proof (gcd_c (a * d - n * c) (c * d) (K * K) ltac:(bnd) N). pl.
Qed.

Lemma mul_ratio_fit s q : room t (K ^ 4) -> small K s -> small_ratio K q -> surd_mul_ratio g t s q = surd_mul_ratio g BigI s q.
Proof.
  intros R S Q. facts. destruct s as [[a b c] r], S as (Ha & Hb & Hc & Hr), q as [n d], Q as (Hn & Hd). cbn [coeffs discr c0 c1 c2 numer denom] in *.
  unfold surd_mul_ratio, sco_mul_ratio. cbn [coeffs discr c0 c1 c2 numer denom]. bigs. fit R. fit R. fit R.
  apply (from_coeffs_fit (K ^ 4) _ _ _ _ (K * K) (K * K) (K * K) K); auto; try bnd; try pl.
  intros N. pose proof (gcd_c (a * n) (c * d) (K * K) ltac:(bnd) N). pl.
Qed.

Lemma div_ratio_fit s q : room t (K ^ 4) -> small K s -> small_ratio K q -> surd_div_ratio g t s q = surd_div_ratio g BigI s q.
Proof.
  intros R S Q. facts. destruct s as [[a b c] r], S as (Ha & Hb & Hc & Hr), q as [n d], Q as (Hn & Hd). cbn [coeffs discr c0 c1 c2 numer denom] in *.
  unfold surd_div_ratio, sco_div_ratio. cbn [coeffs discr c0 c1 c2 numer denom]. bigs. fit R. fit R. fit R.
  apply (from_coeffs_fit (K ^ 4) _ _ _ _ (K * K) (K * K) (K * K) K); auto; try bnd; try pl.
  intros N. pose proof (gcd_c (a * d) (c * n) (K * K) ltac:(bnd) N). pl.
Qed.

(** ** Ratio::new *)

Lemma ratio_new_fit M n d : room t M -> Z.abs n <= M -> Z.abs d <= M -> ratio_new t n d = ratio_new BigI n d.
Proof.
  intros R Hn Hd. unfold ratio_new. destruct (d =? 0); [reflexivity|]. destruct (n =? 0); [reflexivity|]. destruct (n =? d); [reflexivity|].
  pose proof (abs_gcd n d M M Hn Hd) as Hg. bigs. set (G := Z.gcd n d) in *. clearbody G. fit1 R ltac:(lia). destruct (G =? 0); [reflexivity|].
  assert (H1 : Z.abs (n ÷ G) <= M) by bnd. assert (H2 : Z.abs (d ÷ G) <= M) by bnd.
  fit1 R ltac:(lia). fit1 R ltac:(lia). destruct (_ <? 0); [|reflexivity]. fit1 R ltac:(lia). fit1 R ltac:(lia). reflexivity.
Qed.

Lemma ratio_new_small n d q : 1 <= K -> Z.abs n <= K -> Z.abs d <= K -> ratio_new BigI n d = Ok q -> small_ratio K q.
Proof.
  intros K1 Hn Hd. unfold ratio_new. destruct (d =? 0); [discriminate|]. destruct (n =? 0); [intros H; inversion H; split; cbn; lia|].
  destruct (n =? d); [intros H; inversion H; split; cbn; lia|]. bigs. set (G := Z.gcd n d). clearbody G. destruct (G =? 0); [discriminate|]. bigs.
  pose proof (abs_quot n G K Hn). pose proof (abs_quot d G K Hd). destruct (_ <? 0); bigs; intros X; inversion X; split; cbn [numer denom]; lia.
Qed.

(** ** Roots *)

Lemma hinted_fit s h : room t (K ^ 2) -> small K s -> Z.abs h <= K -> reduce_root_hinted t s h = reduce_root_hinted BigI s h.
Proof.
  intros R S Hh. facts. destruct s as [[a b c] r], S as (Ha & Hb & Hc & Hr). cbn [coeffs discr c0 c1 c2] in *.
  unfold reduce_root_hinted, div_remT, remT, sqrtT. cbn [coeffs discr c0 c1 c2]. bigs. fit1 R ltac:(lia).
  destruct (_ || _) eqn:E; [reflexivity|]. apply orb_false_elim in E. destruct E as [E E1]. apply orb_false_elim in E. destruct E as [E2 E3].
  set (H := Z.abs h) in *. assert (1 < H) by lia. rewrite (proj2 (Z.eqb_neq H 0)) by lia. fit R. destruct (Z.rem r H =? 0); [|reflexivity].
  destruct (H <? 0); [reflexivity|]. bigs. pose proof (sqrt_sq H ltac:(lia)). pose proof (Z.sqrt_nonneg H).
  assert (0 < Z.sqrt H) by (apply Z.sqrt_pos; lia). assert (Z.sqrt H <= w) by (apply Z.sqrt_le_mono; lia).
  fit1 R ltac:(rewrite Z.abs_eq by nia; lia). destruct (_ =? H); [|reflexivity].
  assert (G1 : Z.abs (Z.gcd (Z.sqrt H) a) <= w) by (apply abs_gcd_l; lia). assert (Z.gcd (Z.sqrt H) a <> 0) by (intros N; apply Z.gcd_eq_0_l in N; lia).
  assert (HW : Z.abs (Z.sqrt H) <= w) by lia. set (W := Z.sqrt H) in *. clearbody W.
  bigs. fit1 R ltac:(lia). set (G := Z.gcd W a) in *. clearbody G.
  assert (G2 : Z.abs (Z.gcd G c) <= w) by (apply abs_gcd_l; auto). fit1 R ltac:(lia). set (G' := Z.gcd G c) in *. clearbody G'.
  destruct (G' =? 0); [reflexivity|]. fit R. fit R. fit R. fit R. reflexivity.
Qed.

(** A root factor k^2 taken out *)
Definition scaled (k : Z) (s : surd) : Prop := 1 <= k /\
  Z.abs (c0 (coeffs s)) <= K /\ Z.abs (c1 (coeffs s)) <= K * k /\ Z.abs (c2 (coeffs s)) <= K /\ Z.abs (discr s) * (k * k) <= K.

Lemma scaled1 s : small K s -> scaled 1 s.
Proof. intros (H1 & H2 & H3 & H4). unfold scaled. repeat split; lia. Qed.

Lemma hinted_scaled s h s' : small K s -> reduce_root_hinted BigI s h = Ok s' -> discr s <> 0 -> discr s' <> 0 /\ exists k, scaled k s'.
Proof.
  intros S. pose proof (scaled1 s S) as S1. destruct s as [[a b c] r], S as (Ha & Hb & Hc & Hr). cbn [coeffs discr c0 c1 c2] in *.
  unfold reduce_root_hinted, div_remT, remT, sqrtT. cbn [coeffs discr c0 c1 c2]. bigs.
  destruct (_ || _) eqn:E; [intros X; inversion X; subst; cbn [discr]; eauto|]. apply orb_false_elim in E. destruct E as [E E1]. apply orb_false_elim in E. destruct E as [E2 E3].
  set (H := Z.abs h) in *. assert (1 < H) by lia. rewrite (proj2 (Z.eqb_neq H 0)) by lia. bigs. destruct (Z.rem r H =? 0) eqn:Er; [|intros X; inversion X; subst; cbn [discr]; eauto].
  destruct (H <? 0); [discriminate|]. bigs. pose proof (Z.sqrt_nonneg H). set (W := Z.sqrt H) in *.
  assert (0 < W) by (apply Z.sqrt_pos; lia). clearbody W. destruct (W * W =? H) eqn:EW; [|intros X; inversion X; subst; cbn [discr]; eauto].
  bigs. set (G := Z.gcd _ c). clearbody G. destruct (G =? 0); [discriminate|]. bigs. intros X Nz. inversion X; subst. unfold scaled, new_raw. cbn [coeffs discr c0 c1 c2].
  pose proof (Z.quot_rem r H ltac:(lia)) as Q0. apply Z.eqb_eq in Er. split; [intros Z0; rewrite Z0, Er in Q0; lia|]. exists W. split; [lia|]. split; [bnd|]. split; [|split; [bnd|]].
  - apply abs_quot. apply abs_mul; lia.
  - apply Z.eqb_eq in EW. rewrite EW. pose proof (Z.quot_rem r H ltac:(lia)) as Q. rewrite Er, Z.add_0_r in Q.
    assert (Z.abs r = H * Z.abs (r ÷ H)) by (rewrite Q at 1; rewrite Z.abs_mul, (Z.abs_eq H) by lia; reflexivity). lia.
Qed.

Lemma bin_op_fit l r : room t (K ^ 2) -> small K l -> small K r -> reduce_bin_op g t l r = reduce_bin_op g BigI l r.
Proof.
  intros R Sl Sr. facts. pose proof Sl as (_ & _ & _ & Dl). pose proof Sr as (_ & _ & _ & Dr).
  unfold reduce_bin_op. destruct (cplx g).
  - destruct (xorb _ _); [reflexivity|]. bigs. fit1 R ltac:(lia). fit1 R ltac:(lia).
    destruct (_ <? _).
    { destruct (_ =? 0); [reflexivity|]. fit R. rewrite hinted_fit; auto. bnd. }
    destruct (_ <? _); [|reflexivity]. destruct (_ =? 0); [reflexivity|]. fit R. rewrite hinted_fit; auto. bnd.
  - unfold dassert. destruct (_ && _); [reflexivity|]. cbn [bind]. destruct (_ && _); [reflexivity|]. cbn [bind]. bigs.
    destruct (_ <? _).
    { destruct (_ =? 0); [reflexivity|]. fit R. rewrite hinted_fit; auto. bnd. }
    destruct (_ <? _); [|reflexivity]. destruct (_ =? 0); [reflexivity|]. fit R. rewrite hinted_fit; auto. bnd.
Qed.

(** The two operands after matching the roots *)
Definition matched (l r : surd) : Prop := discr l = discr r /\ discr l <> 0 /\ exists k, (scaled k l /\ small K r) \/ (small K l /\ scaled k r).

Lemma bin_op_matched l r l' r' : small K l -> small K r -> discr l <> 0 -> discr r <> 0 -> reduce_bin_op_unwrap g BigI l r = Ok (l', r') -> matched l' r'.
Proof.
  intros Sl Sr Nl Nr. unfold reduce_bin_op_unwrap. destruct (reduce_bin_op g BigI l r) as [[[u v]|]| |] eqn:E; cbn [bind]; try discriminate.
  intros X. inversion X; subst u v. clear X.
  assert (F : forall x y, (if discr x =? discr y then Some (x, y) else None) = Some (l', r') -> discr x <> 0 -> (exists k, (scaled k x /\ small K y) \/ (small K x /\ scaled k y)) -> matched l' r').
  { intros x y X Z0 Y. destruct (discr x =? discr y) eqn:D; [|discriminate]. inversion X; subst. split; [lia|auto]. }
  unfold reduce_bin_op, dassert in E. destruct (cplx g).
  - destruct (xorb _ _); [discriminate|]. revert E. bigs. destruct (_ <? _).
    { destruct (_ =? 0); [discriminate|]. bigs. destruct (reduce_root_hinted BigI l _) as [u| |] eqn:H; try discriminate. cbn [bind]. intros E. inversion E.
      destruct (hinted_scaled _ _ _ Sl H Nl) as [N0 [k Hk]]. eapply F; eauto. }
    destruct (_ <? _).
    { destruct (_ =? 0); [discriminate|]. bigs. destruct (reduce_root_hinted BigI r _) as [u| |] eqn:H; try discriminate. cbn [bind]. intros E. inversion E.
      destruct (hinted_scaled _ _ _ Sr H Nr) as [N0 [k Hk]]. eapply F; eauto. }
    cbn [bind]. intros E. inversion E. eapply F; eauto. exists 1. left. split; auto using scaled1.
  - destruct (_ && _); [discriminate|]. cbn [bind] in E. destruct (_ && _); [discriminate|]. cbn [bind] in E. revert E. bigs. destruct (_ <? _).
    { destruct (_ =? 0); [discriminate|]. bigs. destruct (reduce_root_hinted BigI l _) as [u| |] eqn:H; try discriminate. cbn [bind]. intros E. inversion E.
      destruct (hinted_scaled _ _ _ Sl H Nl) as [N0 [k Hk]]. eapply F; eauto. }
    destruct (_ <? _).
    { destruct (_ =? 0); [discriminate|]. bigs. destruct (reduce_root_hinted BigI r _) as [u| |] eqn:H; try discriminate. cbn [bind]. intros E. inversion E.
      destruct (hinted_scaled _ _ _ Sr H Nr) as [N0 [k Hk]]. eapply F; eauto. }
    cbn [bind]. intros E. inversion E. eapply F; eauto. exists 1. left. split; auto using scaled1.
Qed.

Lemma scaled_core k d b b' : 1 <= k -> d <> 0 -> Z.abs d * (k * k) <= K -> Z.abs b <= K * k -> Z.abs b' <= K ->
  k <= w /\ Z.abs b <= K * w /\ Z.abs d <= K /\ Z.abs (b * b') <= K * K * w /\ Z.abs (b * b' * d) <= K * K * K /\
  Z.abs (b * b) <= K * K * K /\ Z.abs (b * b * d) <= K * K * K /\ Z.abs (b' * b') <= K * K * K /\ Z.abs (b' * b' * d) <= K * K * K.
Proof.
  intros K1 Nd U4 U2 Q2. rewrite !Z.abs_mul. set (D := Z.abs d) in *. set (X := Z.abs b) in *. set (Y := Z.abs b') in *.
  assert (D1 : 1 <= D) by lia. assert (X0 : 0 <= X) by lia. assert (Y0 : 0 <= Y) by lia. clearbody D X Y. clear Nd d b b'.
  assert (kk : 1 <= k * k) by nia. assert (KK : k * k <= K) by (clear - U4 D1 kk; nia). assert (KW : k <= w) by (apply Z.sqrt_le_square; lia).
  assert (DK : D <= K) by (clear - U4 D1 kk; nia). assert (kd : k * D <= K) by (clear - U4 D1 K1; nia).
  assert (Kw : K * k <= K * w) by (apply Z.mul_le_mono_nonneg_l; lia).
  assert (B2 : X * Y <= K * k * K) by (apply Z.mul_le_mono_nonneg; lia).
  assert (B3 : X * X <= K * k * (K * k)) by (apply Z.mul_le_mono_nonneg; lia).
  assert (B4 : Y * Y <= K * K) by (apply Z.mul_le_mono_nonneg; lia).
  assert (KKK : 0 <= K * K) by (clear - HK; nia).
  assert (G1 : K * K * (k * D) <= K * K * K) by (apply Z.mul_le_mono_nonneg_l; lia).
  assert (G2 : K * K * (k * k) <= K * K * K) by (apply Z.mul_le_mono_nonneg_l; lia).
  assert (G3 : K * K * (D * (k * k)) <= K * K * K) by (apply Z.mul_le_mono_nonneg_l; lia).
  assert (G4 : K * K * D <= K * K * K) by (apply Z.mul_le_mono_nonneg_l; lia).
  assert (G5 : K * (K * k) <= K * (K * w)) by (apply Z.mul_le_mono_nonneg_l; lia).
  assert (G6 : K * K * 1 <= K * K * K) by (apply Z.mul_le_mono_nonneg_l; lia).
  assert (B2d : X * Y * D <= K * k * K * D) by (apply Z.mul_le_mono_nonneg_r; lia).
  assert (B3d : X * X * D <= K * k * (K * k) * D) by (apply Z.mul_le_mono_nonneg_r; lia).
  assert (B4d : Y * Y * D <= K * K * D) by (apply Z.mul_le_mono_nonneg_r; lia).
  repeat split; lia.
Qed.

Lemma matched_facts l r : matched l r -> Z.abs (c0 (coeffs l)) <= K /\ Z.abs (c0 (coeffs r)) <= K /\ Z.abs (c2 (coeffs l)) <= K /\ Z.abs (c2 (coeffs r)) <= K /\
  Z.abs (discr l) <= K /\ Z.abs (c1 (coeffs l)) <= K * w /\ Z.abs (c1 (coeffs r)) <= K * w /\
  Z.abs (c1 (coeffs l) * c1 (coeffs r)) <= K * K * w /\ Z.abs (c1 (coeffs l) * c1 (coeffs r) * discr l) <= K * K * K /\
  Z.abs (c1 (coeffs r) * c1 (coeffs r)) <= K * K * K /\ Z.abs (c1 (coeffs r) * c1 (coeffs r) * discr l) <= K * K * K.
Proof.
  intros (D & N & k & H). facts.
  assert (W3 : 1 <= w) by (apply Z.sqrt_le_square; lia). assert (KW : K * 1 <= K * w) by (apply Z.mul_le_mono_nonneg_l; lia).
  destruct H as [[(K1 & Sl1 & Sl2 & Sl3 & Sl4) (Sr1 & Sr2 & Sr3 & Sr4)]|[(Sl1 & Sl2 & Sl3 & Sl4) (K1 & Sr1 & Sr2 & Sr3 & Sr4)]].
  - destruct (scaled_core k _ _ _ K1 N Sl4 Sl2 Sr2) as (F1 & F2 & F3 & F4 & F5 & F6 & F7 & F8 & F9). repeat split; try assumption. bnd.
  - assert (N' : discr r <> 0) by congruence. destruct (scaled_core k _ _ _ K1 N' Sr4 Sr2 Sl2) as (F1 & F2 & F3 & F4 & F5 & F6 & F7 & F8 & F9).
    rewrite D, (Z.mul_comm (c1 (coeffs l)) (c1 (coeffs r))). repeat split; try assumption. bnd.
Qed.

Lemma bin_op_unwrap_fit l r : room t (K ^ 2) -> small K l -> small K r -> reduce_bin_op_unwrap g t l r = reduce_bin_op_unwrap g BigI l r.
Proof. intros. unfold reduce_bin_op_unwrap. rewrite bin_op_fit by auto. reflexivity. Qed.

Lemma ww : K * w * w <= K * K /\ K * K * w * w <= K * K * K /\ K * K * K * w * w <= K * K * K * K.
Proof.
  pose proof w_facts as (W0 & W1 & W2). assert (0 <= K * K) by nia. assert (0 <= K * K * K) by nia. rewrite <- !(Z.mul_assoc _ w w).
  split; [|split]; apply Z.mul_le_mono_nonneg_l; lia.
Qed.

Lemma room_pow i j : room t (K ^ i) -> 0 <= j <= i -> room t (K ^ j).
Proof. intros R H. apply (room_le t (K ^ i)); auto. apply Z.pow_le_mono_r; lia. Qed.

Lemma rational_false s : is_rational s = false -> discr s <> 0.
Proof. unfold is_rational. intros H. apply orb_false_elim in H. lia. Qed.

Lemma add_fit l r : room t (K ^ 4) -> small K l -> small K r -> surd_add g t l r = surd_add g BigI l r.
Proof.
  intros R Sl Sr. facts. pose proof ww as (X1 & X2 & X3). pose proof (room_pow 4 2 R ltac:(lia)) as R2.
  unfold surd_add. destruct (is_rational r) eqn:Er.
  { destruct Sr as (H1 & H2 & H3 & H4). rewrite (ratio_new_fit (K ^ 4)) by (first [assumption | bnd]).
    destruct (ratio_new BigI _ _) as [q| |] eqn:E; try reflexivity. cbn [bind]. apply ratio_new_small in E; [|pl|assumption|assumption]. apply add_ratio_fit; auto. }
  destruct (is_rational l) eqn:El.
  { destruct Sl as (H1 & H2 & H3 & H4). rewrite (ratio_new_fit (K ^ 4)) by (first [assumption | bnd]).
    destruct (ratio_new BigI _ _) as [q| |] eqn:E; try reflexivity. cbn [bind]. apply ratio_new_small in E; [|pl|assumption|assumption]. apply add_ratio_fit; auto. }
  rewrite bin_op_unwrap_fit by auto. destruct (reduce_bin_op_unwrap g BigI l r) as [[l' r']| |] eqn:E; try reflexivity. cbn [bind].
  apply bin_op_matched in E; auto using rational_false. apply matched_facts in E. destruct E as (E1 & E2 & E3 & E4 & E5 & E6 & E7 & E8 & E9 & _ & _).
  destruct l' as [[a b c] d], r' as [[a' b' c'] d']. cbn [coeffs discr c0 c1 c2] in *. unfold sco_add. cbn [c0 c1 c2]. destruct (c =? c'); bigs.
  - fit R. fit R. apply (from_coeffs_fit (K ^ 4) _ _ _ _ (K + K) (K * w + K * w) K K); auto; try bnd; try pl.
    intros N. pose proof (gcd_c (a + a') c' K E4 N). pl.
  - do 7 fit R. apply (from_coeffs_fit (K ^ 4) _ _ _ _ (K * K + K * K) (K * w * K + K * w * K) (K * K) K); auto; try bnd; try pl.
    intros N. pose proof (gcd_c (a * c' + a' * c) (c' * c) (K * K) ltac:(bnd) N). pl.
Qed.

Lemma neg_fit M s : room t M -> small M s -> surd_neg t s = surd_neg BigI s.
Proof. intros R (H1 & H2 & _ & _). unfold surd_neg. bigs. fit1 R ltac:(lia). fit1 R ltac:(lia). reflexivity. Qed.
Lemma conj_fit M s : room t M -> small M s -> surd_conj t s = surd_conj BigI s.
Proof. intros R (H1 & H2 & _ & _). unfold surd_conj, sco_conj. bigs. fit1 R ltac:(lia). reflexivity. Qed.

Lemma small_le M s : small K s -> K <= M -> small M s.
Proof. intros (H1 & H2 & H3 & H4) L. unfold small. lia. Qed.

(** Reduced components are not larger (b = 0 or the root is not a square) *)
Lemma from_coeffs_small A a b c r s : surd_from_coeffs g BigI (SCo a b c) r = Ok s -> ~ square r \/ b = 0 ->
  Z.abs a <= A -> Z.abs b <= A -> Z.abs c <= A -> Z.abs r <= A -> small A s.
Proof.
  unfold surd_from_coeffs. destruct (_ && _); [discriminate|]. intros H Q Ha Hb Hc Hr. apply reduce_bound in H; auto. unfold small. lia.
Qed.

Lemma sub_ratio_small s q s' : (~ square (discr s) \/ c1 (coeffs s) = 0) -> small K s -> small_ratio K q -> surd_sub_ratio g BigI s q = Ok s' -> small (K * K + K * K) s'.
Proof.
  intros Q S Hq. facts. destruct s as [[a b c] r], S as (Ha & Hb & Hc & Hr), q as [n d], Hq as (Hn & Hd). cbn [coeffs discr c0 c1 c2 numer denom] in *.
  unfold surd_sub_ratio, sco_sub_ratio. cbn [coeffs discr c0 c1 c2]. destruct (c =? d); bigs; intros H.
  - eapply from_coeffs_small in H; eauto; try bnd.
  - eapply from_coeffs_small in H; eauto; try bnd. destruct Q as [Q| ->]; auto.
Qed.

Lemma sub_fit l r : room t (K ^ 4) -> normal g l -> normal g r -> small K l -> small K r -> surd_sub g t l r = surd_sub g BigI l r.
Proof.
  intros R Nl Nr Sl Sr. facts. pose proof ww as (X1 & X2 & X3). pose proof (room_pow 4 2 R ltac:(lia)) as R2.
  assert (Q : ~ square (discr r) \/ c1 (coeffs r) = 0) by (destruct r as [[a b c] d], Nr as (_ & _ & [[? ?]|[? ?]] & _); auto).
  unfold surd_sub. destruct (is_rational r) eqn:Er.
  { destruct Sr as (H1 & H2 & H3 & H4). rewrite (ratio_new_fit (K ^ 4)) by (first [assumption | bnd]).
    destruct (ratio_new BigI _ _) as [q| |] eqn:E; try reflexivity. cbn [bind]. apply ratio_new_small in E; [|pl|assumption|assumption]. apply sub_ratio_fit; auto. }
  destruct (is_rational l) eqn:El.
  { destruct Sl as (H1 & H2 & H3 & H4). rewrite (ratio_new_fit (K ^ 4)) by (first [assumption | bnd]).
    destruct (ratio_new BigI _ _) as [q| |] eqn:E; try reflexivity. cbn [bind]. apply ratio_new_small in E; [|pl|assumption|assumption]. rewrite sub_ratio_fit by auto.
    destruct (surd_sub_ratio g BigI r q) as [u| |] eqn:F; try reflexivity. cbn [bind]. apply sub_ratio_small in F; auto. apply (neg_fit (K * K + K * K)); auto. apply (room_le t (K ^ 4)); auto. pl. }
  rewrite bin_op_unwrap_fit by auto. destruct (reduce_bin_op_unwrap g BigI l r) as [[l' r']| |] eqn:E; try reflexivity. cbn [bind].
  apply bin_op_matched in E; auto using rational_false. apply matched_facts in E. destruct E as (E1 & E2 & E3 & E4 & E5 & E6 & E7 & E8 & E9 & E10 & E11).
  destruct l' as [[a b c] d], r' as [[a' b' c'] d']. cbn [coeffs discr c0 c1 c2] in *.
  unfold sco_sub. cbn [c0 c1 c2]. destruct (c =? c'); bigs.
  - fit R. fit R. apply (from_coeffs_fit (K ^ 4) _ _ _ _ (K + K) (K * w + K * w) K K); auto; try bnd; try pl.
    intros N. pose proof (gcd_c (a - a') c' K E4 N). pl.
  - do 7 fit R. apply (from_coeffs_fit (K ^ 4) _ _ _ _ (K * K + K * K) (K * w * K + K * w * K) (K * K) K); auto; try bnd; try pl.
    intros N. pose proof (gcd_c (a * c' - a' * c) (c' * c) (K * K) ltac:(bnd) N). pl.
Qed.

Lemma sqrt_KK : Z.sqrt (K * K) = K.
Proof. apply Z.sqrt_square. lia. Qed.

Lemma mul_fit l r : room t (K ^ 4) -> small K l -> small K r -> surd_mul g t l r = surd_mul g BigI l r.
Proof.
  intros R Sl Sr. facts. pose proof ww as (X1 & X2 & X3). pose proof (room_pow 4 2 R ltac:(lia)) as R2.
  unfold surd_mul. destruct (is_rational r) eqn:Er.
  { destruct Sr as (H1 & H2 & H3 & H4). rewrite (ratio_new_fit (K ^ 4)) by (first [assumption | bnd]).
    destruct (ratio_new BigI _ _) as [q| |] eqn:E; try reflexivity. cbn [bind]. apply ratio_new_small in E; [|pl|assumption|assumption]. apply mul_ratio_fit; auto. }
  destruct (is_rational l) eqn:El.
  { destruct Sl as (H1 & H2 & H3 & H4). rewrite (ratio_new_fit (K ^ 4)) by (first [assumption | bnd]).
    destruct (ratio_new BigI _ _) as [q| |] eqn:E; try reflexivity. cbn [bind]. apply ratio_new_small in E; [|pl|assumption|assumption]. apply mul_ratio_fit; auto. }
  apply rational_false in Er, El. destruct (_ && _).
  { destruct l as [[a b c] d], r as [[a' b' c'] d'], Sl as (L1 & L2 & L3 & L4), Sr as (T1 & T2 & T3 & T4). cbn [coeffs discr c0 c1 c2] in *.
    bigs. assert (HG : Z.abs (Z.gcd d d') <= K) by (apply abs_gcd_l; auto). set (G := Z.gcd d d') in *. clearbody G. fit R. destruct (G =? 0); [reflexivity|]. do 6 fit R.
    unfold surd_new. destruct (_ && _); [reflexivity|].
    apply (reduce_fit t (K ^ 4) R _ _ _ _ 0 (K * K * K) (K * K) (K * K)); try bnd; try (rewrite ?sqrt_KK; pl).
    intros N. pose proof (gcd_c 0 (c * c') (K * K) ltac:(bnd) N). pl. }
  rewrite bin_op_unwrap_fit by auto. destruct (reduce_bin_op_unwrap g BigI l r) as [[l' r']| |] eqn:E; try reflexivity. cbn [bind].
  apply bin_op_matched in E; auto using rational_false. apply matched_facts in E. destruct E as (E1 & E2 & E3 & E4 & E5 & E6 & E7 & E8 & E9 & E10 & E11).
  destruct l' as [[a b c] d], r' as [[a' b' c'] d']. cbn [coeffs discr c0 c1 c2] in *.
  unfold sco_mul. bigs.
  assert (Y1 : Z.abs (a * a') <= K * K) by bnd. do 8 fit R.
  apply (from_coeffs_fit (K ^ 4) _ _ _ _ (K * K + K * K * K) (K * (K * w) + K * w * K) (K * K) K); auto; try bnd; try pl.
  intros N. pose proof (gcd_c (a * a' + b * b' * d) (c * c') (K * K) ltac:(bnd) N). pl.
Qed.

(** 1/s for components up to L and a root up to D *)
Lemma recip_fit M L D a b c r : room t M -> Z.abs a <= L -> Z.abs b <= L -> Z.abs c <= L -> Z.abs r <= D -> c <> 0 ->
  1 <= L -> 1 <= D -> L * L * D + L * L <= M -> L * L * (L * L) <= M -> L * L * D * (L * L * D) <= M ->
  surd_recip g t (Surd (SCo a b c) r) = surd_recip g BigI (Surd (SCo a b c) r).
Proof.
  intros R Ha Hb Hc Hr Nc L1 D1 M1 M2 M3. assert (0 < L * L) by nia. assert (DL : 1 * D <= L * L * D) by (apply Z.mul_le_mono_nonneg_r; lia). unfold surd_recip. bigs. assert (LD : L * L <= L * L * D) by nia.
  do 7 fit R. unfold surd_new. destruct (_ && _); [reflexivity|].
  pose proof (Z.sqrt_nonneg D). pose proof (sqrt_le D ltac:(lia)). assert (L * L * Z.sqrt D <= L * L * D) by (apply Z.mul_le_mono_nonneg_l; lia).
  apply (reduce_fit t M R _ _ _ _ (L * L) (L * L) (L * L * D + L * L) D); try bnd; try pl.
  intros N. destruct (Z.eq_dec a 0) as [->|Na].
  - assert (F : Z.abs (b * b * r - 0 * 0) <= L * L * D) by (rewrite Z.mul_0_l, Z.sub_0_r; bnd).
    pose proof (gcd_c (- (c * 0)) (b * b * r - 0 * 0) _ F N). pl.
  - assert (N' : - (c * a) <> 0) by (intros Z0; assert (c * a = 0) by (clear - Z0; lia); apply Zmult_integral in H3; tauto).
    assert (F : Z.abs (- (c * a)) <= L * L) by bnd. pose proof (gcd_a (- (c * a)) (b * b * r - a * a) _ F N'). pl.
Qed.

Lemma recip_small_fit s : room t (K ^ 6) -> normal g s -> small K s -> surd_recip g t s = surd_recip g BigI s.
Proof.
  intros R N S. facts. destruct s as [[a b c] r], S as (Ha & Hb & Hc & Hr), N as (N & _). cbn [coeffs discr c0 c1 c2] in *.
  apply (recip_fit (K ^ 6) K K); auto; try pl.
Qed.

Lemma div_ratio_small s q s' : (~ square (discr s) \/ c1 (coeffs s) = 0) -> small K s -> small_ratio K q -> surd_div_ratio g BigI s q = Ok s' ->
  Z.abs (c0 (coeffs s')) <= K * K /\ Z.abs (c1 (coeffs s')) <= K * K /\ Z.abs (c2 (coeffs s')) <= K * K /\ Z.abs (discr s') <= K.
Proof.
  intros Q S Hq. facts. destruct s as [[a b c] r], S as (Ha & Hb & Hc & Hr), q as [n d], Hq as (Hn & Hd). cbn [coeffs discr c0 c1 c2 numer denom] in *.
  unfold surd_div_ratio, sco_div_ratio. cbn [coeffs discr c0 c1 c2 numer denom]. bigs. unfold surd_from_coeffs. destruct (_ && _); [discriminate|].
  intros H. apply reduce_bound in H; [|destruct Q as [Q| ->]; auto]. destruct H as (H1 & H2 & H3 & H4).
  repeat split; eapply Z.le_trans; try eassumption; bnd.
Qed.

Lemma div_fit l r : room t (K ^ 10) -> normal g l -> normal g r -> small K l -> small K r -> surd_div g t l r = surd_div g BigI l r.
Proof.
  intros R Nl Nr Sl Sr. facts. pose proof ww as (X1 & X2 & X3). pose proof (room_pow 10 2 R ltac:(lia)) as R2. pose proof (room_pow 10 4 R ltac:(lia)) as R4.
  assert (P6 : 4 * K ^ 6 <= K ^ 7) by (clear - HK; nia). assert (P7 : 4 * K ^ 7 <= K ^ 8) by (clear - HK; nia).
  assert (P8 : 4 * K ^ 8 <= K ^ 9) by (clear - HK; nia). assert (P9 : 4 * K ^ 9 <= K ^ 10) by (clear - HK; nia).
  assert (Q : ~ square (discr r) \/ c1 (coeffs r) = 0) by (destruct r as [[a b c] d], Nr as (_ & _ & [[? ?]|[? ?]] & _); auto).
  unfold surd_div. destruct (is_rational r) eqn:Er.
  { destruct Sr as (H1 & H2 & H3 & H4). rewrite (ratio_new_fit (K ^ 10)) by (first [assumption | bnd]).
    destruct (ratio_new BigI _ _) as [q| |] eqn:E; try reflexivity. cbn [bind]. apply ratio_new_small in E; [|pl|assumption|assumption]. apply div_ratio_fit; auto. }
  destruct (is_rational l) eqn:El.
  { destruct Sl as (H1 & H2 & H3 & H4). rewrite (ratio_new_fit (K ^ 10)) by (first [assumption | bnd]).
    destruct (ratio_new BigI _ _) as [q| |] eqn:E; try reflexivity. cbn [bind]. apply ratio_new_small in E; [|pl|assumption|assumption]. rewrite div_ratio_fit by auto.
    destruct (surd_div_ratio g BigI r q) as [u| |] eqn:F; try reflexivity. cbn [bind].
    assert (Nu : normal g u) by (unfold surd_div_ratio in F; destruct (sco_div_ratio _ _ _); try discriminate; cbn [bind] in F; apply surd_from_coeffs_ok in F; tauto).
    apply div_ratio_small in F; auto. destruct u as [[a b c] d], F as (F1 & F2 & F3 & F4), Nu as (Nc & _). cbn [coeffs discr c0 c1 c2] in *.
    apply (recip_fit (K ^ 10) (K * K) K); auto; try pl. }
  apply rational_false in Er, El. destruct (_ && _).
  { destruct l as [[a b c] d], r as [[a' b' c'] d'], Sl as (L1 & L2 & L3 & L4), Sr as (T1 & T2 & T3 & T4). cbn [coeffs discr c0 c1 c2] in *.
    bigs. assert (HG : Z.abs (Z.gcd d d') <= K) by (apply abs_gcd_l; auto). set (G := Z.gcd d d') in *. clearbody G. fit R. destruct (G =? 0); [reflexivity|]. do 6 fit R.
    unfold surd_new. destruct (_ && _); [reflexivity|].
    apply (reduce_fit t (K ^ 10) R _ _ _ _ 0 (K * K) (K * K * K) (K * K)); try bnd; try (rewrite ?sqrt_KK; pl).
    intros N. pose proof (gcd_c 0 (c * b' * (d' ÷ G)) (K * K * K) ltac:(bnd) N). pl. }
  rewrite bin_op_unwrap_fit by auto. destruct (reduce_bin_op_unwrap g BigI l r) as [[l' r']| |] eqn:E; try reflexivity. cbn [bind].
  apply bin_op_matched in E; auto using rational_false. apply matched_facts in E. destruct E as (E1 & E2 & E3 & E4 & E5 & E6 & E7 & E8 & E9 & E10 & E11).
  destruct l' as [[a b c] d], r' as [[a' b' c'] d']. cbn [coeffs discr c0 c1 c2] in *.
  unfold sco_div. bigs.
  assert (Y1 : Z.abs (a * a') <= K * K) by bnd. assert (Y2 : Z.abs (a' * a') <= K * K) by bnd. do 14 fit R.
  apply (from_coeffs_fit (K ^ 10) _ _ _ _ (K * (K * K + K * K * K)) (K * (K * w * K + K * (K * w))) (K * (K * K + K * K * K)) K); auto; try bnd; try pl.
  intros N. match goal with |- Z.gcd ?u ?v * _ <= _ => pose proof (gcd_c u v (K * (K * K + K * K * K)) ltac:(bnd) N) end. pl.
Qed.

(** ** Comparison and rounding *)

Lemma eq_fit l r : room t (K ^ 5) -> small K l -> small K r -> surd_eq t l r = surd_eq BigI l r.
Proof.
  intros R Sl Sr. facts. unfold surd_eq. destruct (_ =? _); [reflexivity|]. destruct (_ || _); [reflexivity|].
  destruct l as [[a b c] d], r as [[a' b' c'] d'], Sl as (L1 & L2 & L3 & L4), Sr as (T1 & T2 & T3 & T4). cbn [coeffs discr c0 c1 c2] in *.
  bigs. fit R. fit R. destruct (negb _); [reflexivity|]. bigs. do 8 fit R. reflexivity.
Qed.

Lemma positive_fit s : room t (K ^ 3) -> small K s -> surd_is_positive g t s = surd_is_positive g BigI s.
Proof.
  intros R S. facts. destruct s as [[a b c] d], S as (L1 & L2 & L3 & L4). cbn [coeffs discr c0 c1 c2] in *.
  unfold surd_is_positive. destruct (panic_if_complex _ _); try reflexivity. cbn [bind]. destruct (b =? 0); [reflexivity|].
  destruct (0 <? b); [destruct (0 <? a)|destruct (negb (0 <? a))]; try reflexivity; bigs; do 3 fit R; reflexivity.
Qed.

Lemma negative_fit s : room t (K ^ 3) -> small K s -> surd_is_negative g t s = surd_is_negative g BigI s.
Proof.
  intros R S. facts. destruct s as [[a b c] d], S as (L1 & L2 & L3 & L4). cbn [coeffs discr c0 c1 c2] in *.
  unfold surd_is_negative. destruct (panic_if_complex _ _); try reflexivity. cbn [bind]. destruct (b =? 0); [reflexivity|].
  destruct (b <? 0); [destruct (a <? 0)|destruct (negb (a <? 0))]; try reflexivity; bigs; do 3 fit R; reflexivity.
Qed.

Lemma root_bound b r : Z.abs b <= K -> Z.abs r <= K -> Z.abs (Z.sqrt (b * b * r)) <= K * (w + 1).
Proof.
  intros Hb Hr. destruct (Z_lt_le_dec (b * b * r) 0) as [N|P]; [rewrite Z.sqrt_neg by auto; pose proof w_facts; nia|].
  rewrite Z.abs_eq by apply Z.sqrt_nonneg. assert (b * b * r <= K * K * K) by (rewrite <- (Z.abs_eq (b * b * r)) by auto; bnd).
  transitivity (Z.sqrt (K * (w + 1) * (K * (w + 1)))).
  - apply Z.sqrt_le_mono. pose proof (Z.sqrt_spec K ltac:(lia)) as [_ U]. replace (Z.succ w) with (w + 1) in U by lia.
    transitivity (K * K * K); [auto|]. replace (K * (w + 1) * (K * (w + 1))) with (K * K * ((w + 1) * (w + 1))) by ring. apply Z.mul_le_mono_nonneg_l; nia.
  - rewrite Z.sqrt_square; [lia|]. pose proof w_facts. nia.
Qed.

Lemma floor_fit s : room t (K ^ 3) -> small K s -> surd_floor g t s = surd_floor g BigI s.
Proof.
  intros R S. facts. destruct s as [[a b c] d], S as (L1 & L2 & L3 & L4). cbn [coeffs discr c0 c1 c2] in *.
  unfold surd_floor, sqrtT. destruct (panic_if_complex _ _); try reflexivity. cbn [bind]. bigs. do 2 fit R. destruct (_ <? 0); [reflexivity|]. bigs.
  pose proof (root_bound b d L2 L4) as B. set (W := Z.sqrt (b * b * d)) in *. clearbody W.
  assert (F : forall n, Z.abs n <= 2 * (K * K) ->
    (let! num := if 0 <=? n then Ok n else let! x := chk t (n - c) in chk t (x + 1) in let! m := (if c =? 0 then Panic PDivZero else chk t (num ÷ c)) in Ok (surd_of_int m)) =
    (let! num := if 0 <=? n then Ok n else let! x := chk BigI (n - c) in chk BigI (x + 1) in let! m := (if c =? 0 then Panic PDivZero else chk BigI (num ÷ c)) in Ok (surd_of_int m))).
  { intros n Hn. destruct (0 <=? n); bigs.
    - destruct (c =? 0); [reflexivity|]. fit R. reflexivity.
    - fit R. fit R. destruct (c =? 0); [reflexivity|]. fit R. reflexivity. }
  destruct (0 <=? b); bigs.
  - fit R. rewrite F by bnd. bigs. reflexivity.
  - do 2 fit R. rewrite F by bnd. bigs. reflexivity.
Qed.

Lemma trunc_fit s : room t (K ^ 3) -> small K s -> surd_trunc g t s = surd_trunc g BigI s.
Proof.
  intros R S. facts. destruct s as [[a b c] d], S as (L1 & L2 & L3 & L4). cbn [coeffs discr c0 c1 c2] in *.
  assert (SG : Z.abs (Z.sgn b) <= 1) by (clear; lia). set (e := Z.sgn b) in *.
  unfold surd_trunc, sqrtT. fold e. clearbody e. destruct (d <? 0); bigs.
  - do 3 fit R. destruct (_ <? 0); [reflexivity|]. bigs. pose proof (root_bound b (- d) L2 ltac:(bnd)) as B. set (W := Z.sqrt (b * b * - d)) in *. clearbody W.
    fit R. destruct (c =? 0); [reflexivity|]. do 3 fit R.
    assert (S1 : Z.sqrt 1 = 1) by reflexivity.
    apply (from_coeffs_fit (K ^ 3) _ _ _ _ K (1 * (K * (w + 1))) 1 1); auto; try bnd; try (rewrite ?S1; pl).
    intros N. pose proof (gcd_c (a ÷ c) 1 1 ltac:(lia) N). pl.
  - do 2 fit R. destruct (_ <? 0); [reflexivity|]. bigs. pose proof (root_bound b d L2 L4) as B. set (W := Z.sqrt (b * b * d)) in *. clearbody W.
    do 2 fit R. destruct (c =? 0); [reflexivity|]. fit R. reflexivity.
Qed.

Lemma norm_fit s : room t (K ^ 4) -> small K s -> sco_norm t (coeffs s) (discr s) = sco_norm BigI (coeffs s) (discr s).
Proof.
  intros R S. facts. destruct s as [[a b c] d], S as (L1 & L2 & L3 & L4). cbn [coeffs discr c0 c1 c2] in *.
  unfold sco_norm. cbn [c0 c1 c2]. bigs. do 5 fit R. apply (ratio_new_fit (K ^ 4)); auto; bnd.
Qed.

Lemma to_rational_fit s : room t (K ^ 3) -> small K s -> surd_to_rational g t s = surd_to_rational g BigI s.
Proof.
  intros R S. facts. destruct s as [[a b c] d], S as (L1 & L2 & L3 & L4). cbn [coeffs discr c0 c1 c2] in *.
  unfold surd_to_rational, sqrtT. destruct (panic_if_complex _ _); try reflexivity. cbn [bind coeffs discr c0 c1 c2]. destruct (d =? 0); [reflexivity|].
  bigs. do 2 fit R. destruct (_ <? 0); [reflexivity|]. bigs. pose proof (root_bound b d L2 L4) as B. set (W := Z.sqrt (b * b * d)) in *. clearbody W. fit R. reflexivity.
Qed.

Lemma to_integer_fit s : room t (K ^ 3) -> small K s -> surd_to_integer g t s = surd_to_integer g BigI s.
Proof. intros R S. unfold surd_to_integer. destruct (panic_if_complex _ _); try reflexivity. cbn [bind]. rewrite trunc_fit by auto. reflexivity. Qed.

Lemma abs_quot_mul x y : Z.abs (x ÷ y * y) <= Z.abs x.
Proof.
  destruct (Z.eq_dec y 0) as [->|N]; [rewrite Z.mul_0_r; lia|].
  rewrite Z.abs_mul, <- Z.quot_abs by auto. pose proof (Z.mul_quot_le (Z.abs x) (Z.abs y) ltac:(lia) ltac:(lia)). lia.
Qed.

Lemma fract_fit s : room t (K ^ 3) -> small K s -> 0 <= discr s -> surd_fract g t s = surd_fract g BigI s.
Proof.
  intros R S D. facts. unfold surd_fract. rewrite trunc_fit by auto.
  destruct s as [[a b c] d], S as (L1 & L2 & L3 & L4). cbn [coeffs discr c0 c1 c2] in *.
  unfold surd_trunc, sqrtT. rewrite (proj2 (Z.ltb_ge d 0) D). bigs. destruct (_ <? 0); [reflexivity|]. bigs.
  pose proof (root_bound b d L2 L4) as B. set (W := Z.sqrt (b * b * d)) in *. clearbody W.
  assert (SG : Z.abs (Z.sgn b) <= 1) by (clear; lia). set (e := Z.sgn b) in *. clearbody e. destruct (c =? 0) eqn:C0; [reflexivity|]. bigs.
  set (X := a + e * W). assert (HX : Z.abs X <= K + 1 * (K * (w + 1))) by (unfold X; bnd). clearbody X.
  pose proof (abs_quot_mul X c) as Q1. assert (Q2 : Z.abs (X ÷ c * c) <= K + 1 * (K * (w + 1))) by (eapply Z.le_trans; eauto).
  set (n := X ÷ c) in *. assert (Hn : Z.abs n <= K + 1 * (K * (w + 1))) by (unfold n; bnd). clearbody n.
  unfold surd_sub. cbn [is_rational surd_of_int coeffs discr c0 c1 c2]. change ((0 =? 0) || (0 =? 0)) with true. cbv iota.
  assert (E : ratio_new t n 1 = Ok (Ratio n 1) /\ ratio_new BigI n 1 = Ok (Ratio n 1)).
  { rewrite (ratio_new_fit (K ^ 3)) by (auto; first [bnd | pl]). split; unfold ratio_new; cbn [Z.eqb];
    (destruct (n =? 0) eqn:N0; [apply Z.eqb_eq in N0; subst; reflexivity|]; destruct (n =? 1) eqn:N1; [apply Z.eqb_eq in N1; subst; reflexivity|]);
    bigs; rewrite Z.gcd_1_r; cbn [Z.eqb]; bigs; rewrite !Z.quot_1_r; reflexivity. }
  destruct E as [-> ->]. cbn [bind]. unfold surd_sub_ratio, sco_sub_ratio. cbn [coeffs discr c0 c1 c2]. destruct (c =? 1) eqn:C1; bigs.
  - fit R. apply (from_coeffs_fit (K ^ 3) _ _ _ _ (K + (K + 1 * (K * (w + 1)))) K K K); auto; try bnd; try pl.
    intros N. pose proof (gcd_c (a - n) c K L3 N). pl.
  - do 5 fit R. assert (L3' : Z.abs (c * 1) <= K) by (rewrite Z.mul_1_r; auto). assert (L2' : Z.abs (b * 1) <= K) by (rewrite Z.mul_1_r; auto).
    apply (from_coeffs_fit (K ^ 3) _ _ _ _ (K * 1 + (K + 1 * (K * (w + 1)))) K K K); auto; try bnd; try pl.
    intros N. pose proof (gcd_c (a * 1 - n * c) (c * 1) K L3' N). pl.
Qed.
End Ops.
