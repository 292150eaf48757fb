(** * ClaimsRule: proofs of the property theorems in PropsRule.v. *)

From Coq Require Import ZArith Znumtheory Reals Lia Lra Bool List Arith.
From Coquelicot Require Import Coquelicot.
From Verif Require Import Base Ext ModelSurd ModelBlock ModelCF ModelConv Spec SpecCF SpecLaw Transfer NumFacts RatioFacts SurdCore SurdArith SurdOrd SurdRound SurdTotal SurdMisc SurdConv SurdLaws SurdRoots CFCore CFSeq CFIter CFBasic CFArith CFWide CFPrefix CFStep ClaimsSurd ClaimsCF ClaimsApi ClaimsSharp.
Import ListNotations.
Open Scope Z_scope.

Lemma L_C90_mul : forall g t p q pq x y z m, lowest p -> lowest q -> (0 <= rval p)%R -> (0 <= rval q)%R ->
  from_sqrt_ratio g t p = Ok (SqOk x) -> from_sqrt_ratio g t q = Ok (SqOk y) -> surd_mul g t x y = Ok m ->
  ratio_mul t p q = Ok pq -> from_sqrt_ratio g t pq = Ok (SqOk z) ->
  sval m = sval z /\ forall b, surd_eq t m z = Ok b -> b = true.
Proof.
  intros g t p q pq x y z m Lp Lq Pp Pq Ex Ey Hm Hr Hz.
  destruct (root_mul g t p q x y Lp Lq Pp Pq Ex Ey m pq z Hm Hr Hz) as (V & Nm & Nz). split; [auto|].
  intros b Hb. apply (L_C08_eq_partial g t m z b Nm Nz Hb). auto.
Qed.

Lemma L_C90_div : forall g t p q pq x y z m, lowest p -> lowest q -> (0 <= rval p)%R -> (0 <= rval q)%R ->
  from_sqrt_ratio g t p = Ok (SqOk x) -> from_sqrt_ratio g t q = Ok (SqOk y) -> surd_div g t x y = Ok m ->
  ratio_div t p q = Ok pq -> from_sqrt_ratio g t pq = Ok (SqOk z) ->
  sval m = sval z /\ forall b, surd_eq t m z = Ok b -> b = true.
Proof.
  intros g t p q pq x y z m Lp Lq Pp Pq Ex Ey Hm Hr Hz.
  destruct (root_div g t p q x y Lp Lq Pp Pq Ex Ey m pq z Hm Hr Hz) as (V & Nz). split; [auto|].
  intros b Hb. apply (L_C08_eq_partial g t m z b (surd_div_normal g t x y m (proj2 (root_x g t p x Lp Pp Ex)) (proj2 (root_y g t q y Lq Pq Ey)) Hm) Nz Hb). auto.
Qed.

Lemma L_C90_returns : forall g p q, lowest p -> lowest q -> (0 <= rval p)%R -> (0 <= rval q)%R ->
  exists x y, from_sqrt_ratio g BigI p = Ok (SqOk x) /\ from_sqrt_ratio g BigI q = Ok (SqOk y) /\
    returns (surd_mul g BigI x y) /\
    (returns (surd_div g BigI x y) <-> rval q <> 0%R /\ (rval p <> 0%R \/ rational_num (sval y))).
Proof.
  intros g p q Lp Lq Pp Pq.
  assert (K : forall p, lowest p -> (0 <= rval p)%R -> exists x, from_sqrt_ratio g BigI p = Ok (SqOk x)).
  { intros p0 L P. destruct (from_sqrt_ratio_total g p0 L) as [[x|d k] E]; [eauto|]. apply from_sqrt_ratio_spec in E; auto.
    destruct E as (_ & [(_ & K & _)|[_ K]]); [lra|]. unfold checked_mul, checked in K. cbn in K. discriminate. }
  destruct (K p Lp Pp) as [x Ex]. destruct (K q Lq Pq) as [y Ey]. exists x, y. split; [auto|]. split; [auto|].
  destruct (root_x g BigI p x Lp Pp Ex) as [Vx Nx]. destruct (root_x g BigI q y Lq Pq Ey) as [Vy Ny].
  assert (S : forall s a, normal g s -> (0 <= a)%R -> sval s = RtoC (sqrt a) -> rational_num (RtoC a) -> rational_num (sval s) \/ pure_surd s).
  { intros s a N A V R. destruct (is_rational s) eqn:E; [left; apply (normal_is_rational g s N); auto|]. right. split.
    - intros X. apply (normal_is_rational g s N) in X. congruence.
    - rewrite V, <- RtoC_mult, sqrt_sqrt; auto. }
  assert (Z0 : forall s a, (0 <= a)%R -> sval s = RtoC (sqrt a) -> (sval s <> RtoC 0 <-> a <> 0%R)).
  { intros s a A V. rewrite V. split; intros H E; apply H; [rewrite E, sqrt_0; auto|]. apply RtoC_inj in E. apply sqrt_eq_0; auto. }
  destruct (S x _ Nx Pp Vx (qC_rational p Lp)) as [Rx|Px]; [|destruct (S y _ Ny Pq Vy (qC_rational q Lq)) as [Ry|Py]].
  - split; [apply L_C06_same_field_partial; auto; left; auto|]. rewrite L_C06_div_iff by auto. rewrite (Z0 y _ Pq Vy), (Z0 x _ Pp Vx). unfold nested_roots. tauto.
  - split; [apply L_C06_same_field_partial; auto; right; left; auto|]. rewrite L_C06_div_iff by auto. rewrite (Z0 y _ Pq Vy), (Z0 x _ Pp Vx). unfold nested_roots. tauto.
  - split; [apply L_C06_pure_mul_div; auto|]. rewrite L_C06_div_iff by auto. rewrite (Z0 y _ Pq Vy), (Z0 x _ Pp Vx). tauto.
Qed.

Lemma L_C90_square : forall g t p x m, lowest p -> (0 <= rval p)%R -> from_sqrt_ratio g t p = Ok (SqOk x) ->
  surd_mul g t x x = Ok m -> m = surd_of_ratio p.
Proof. intros g t p x m L P Ex Hm. exact (root_square g t p x L P Ex m Hm). Qed.

Lemma L_C90_of_square : forall g t q qq z, lowest q -> ratio_mul t q q = Ok qq -> from_sqrt_ratio g t qq = Ok (SqOk z) ->
  z = surd_of_ratio (Ratio (Z.abs (numer q)) (denom q)).
Proof. exact root_of_square. Qed.

Lemma L_C90_add_iff : forall g m n, 0 <= m -> 0 <= n ->
  exists x y, from_sqrt_int g BigI m = Ok (SqOk x) /\ from_sqrt_int g BigI n = Ok (SqOk y) /\
    (square m \/ square n \/ (exists k, 0 < k /\ (m = k * k * n \/ n = k * k * m)) ->
     exists s, surd_add g BigI x y = Ok s /\ sval s = (csqrt m + csqrt n)%C) /\
    (~ (square m \/ square n \/ (exists k, 0 < k /\ (m = k * k * n \/ n = k * k * m))) -> surd_add g BigI x y = Panic PIncompatible).
Proof.
  intros g m n Hm Hn. destruct (sqrt_int_ok g m Hm) as [x Ex]. destruct (sqrt_int_ok g n Hn) as [y Ey]. exists x, y. split; [auto|]. split; [auto|].
  destruct (from_sqrt_int_spec g BigI m _ Ex) as (Vx & Nx & _). destruct (from_sqrt_int_spec g BigI n _ Ey) as (Vy & Ny & _).
  rewrite <- (roots_nested_iff g m n x y Hm Hn Ex Ey). split.
  - intros K. destruct (L_C06_same_field_partial g x y Nx Ny K) as [[s Hs] _]. exists s. split; [auto|]. rewrite (L_C03_add g BigI x y s) by auto. congruence.
  - intros K. apply (L_C06_panics g x y); auto.
Qed.

Lemma L_C91_floor_add : forall g t s x k s' v v' w, normal g s -> sval s = RtoC x -> surd_add_int g t s k = Ok s' ->
  surd_floor g t s = Ok v -> surd_floor g t s' = Ok v' -> surd_add_int g t v k = Ok w -> v' = w.
Proof.
  intros g t s x k s' v v' w N V Hs Hv Hv' Hw. apply (surd_add_int_ok g t s k s') in Hs. destruct Hs as [Vs Ns].
  assert (V' : sval s' = RtoC (x + IZR k)) by (rewrite Vs, V, RtoC_plus; auto).
  destruct (floor_is g t s x v N V Hv) as (n & -> & Fn). destruct (floor_is g t s' _ v' Ns V' Hv') as (n' & -> & Fn').
  destruct (surd_of_int_spec g n) as [Vn Nn]. apply (surd_add_int_ok g t _ k w) in Hw. destruct Hw as [Vw Nw].
  assert (E : n' = n + k). { apply (isfloor_unique (x + IZR k)); auto. unfold isfloor in *. rewrite plus_IZR. lra. }
  symmetry. apply (is_of_int g); auto. rewrite Vw, Vn, E, ZtoC_add. auto.
Qed.

Lemma L_C91_floor_floor : forall g t s x v, normal g s -> sval s = RtoC x -> surd_floor g t s = Ok v ->
  is_integer v = true /\ forall w, surd_floor g t v = Ok w -> w = v.
Proof.
  intros g t s x v N V Hv. destruct (floor_is g t s x v N V Hv) as (n & -> & _). destruct (surd_of_int_spec g n) as [Vn Nn]. split; [reflexivity|].
  intros w Hw. destruct (floor_is g t _ (IZR n) w Nn Vn Hw) as (k & -> & F). f_equal. apply (isfloor_unique (IZR n)); auto. unfold isfloor. lra.
Qed.

Lemma L_C91_floor_neg : forall g t s x s' v w, normal g s -> sval s = RtoC x -> surd_neg t s = Ok s' ->
  surd_floor g t s = Ok v -> surd_floor g t s' = Ok w ->
  exists n, v = surd_of_int n /\ w = surd_of_int (if is_integer s then - n else - n - 1).
Proof.
  intros g t s x s' v w N V Hn Hv Hw. destruct (neg_normal g t s s' N Hn) as [N' V']. rewrite V, <- RtoC_opp in V'.
  destruct (floor_is g t s x v N V Hv) as (n & -> & F). destruct (floor_is g t s' _ w N' V' Hw) as (k & -> & F'). exists n. split; [auto|]. f_equal.
  unfold isfloor in *. destruct (is_integer s) eqn:E.
  - apply (L_C18_is_integer g s N) in E. destruct E as [m Em]. rewrite V in Em. unfold ZtoC in Em. apply RtoC_inj in Em. subst x.
    apply (isfloor_unique (- IZR m)); [exact F'|]. rewrite (isfloor_unique (IZR m) n m F ltac:(unfold isfloor; lra)). unfold isfloor. rewrite opp_IZR. lra.
  - apply (isfloor_unique (- x)); [exact F'|]. unfold isfloor. rewrite minus_IZR, opp_IZR.
    assert (x <> IZR n). { intros ->. assert (K : is_integer s = true) by (apply (L_C18_is_integer g s N); exists n; exact V). congruence. } lra.
Qed.

Lemma L_C91_floor_mono : forall g t l r x y v w, normal g l -> normal g r -> sval l = RtoC x -> sval r = RtoC y -> (x <= y)%R ->
  surd_floor g t l = Ok v -> surd_floor g t r = Ok w -> exists m n, v = surd_of_int m /\ w = surd_of_int n /\ m <= n.
Proof.
  intros g t l r x y v w Nl Nr Vl Vr Hxy Hv Hw. destruct (floor_is g t l x v Nl Vl Hv) as (m & -> & F). destruct (floor_is g t r y w Nr Vr Hw) as (n & -> & F').
  exists m, n. split; [auto|]. split; [auto|]. unfold isfloor in *. assert (m < n + 1) by (apply lt_IZR; rewrite plus_IZR; lra). lia.
Qed.

Lemma L_C91_trunc_neg : forall g t s s', normal g s -> surd_neg t s = Ok s' ->
  (forall v w, surd_trunc g t s = Ok v -> surd_trunc g t s' = Ok w -> sval w = (- sval v)%C) /\
  (forall f h, surd_fract g t s = Ok f -> surd_fract g t s' = Ok h -> sval h = (- sval f)%C).
Proof.
  intros g t s s' N Hn. destruct (neg_normal g t s s' N Hn) as [N' V']. split.
  - intros v w Hv Hw. exact (trunc_neg g t s s' v w N Hn Hv Hw).
  - intros f h Hf Hh. destruct (L_C12_trunc_fract g t s f N Hf) as (v & Hv & Vf & _). destruct (L_C12_trunc_fract g t s' h N' Hh) as (w & Hw & Vh & _).
    rewrite Vh, Vf, V', (trunc_neg g t s s' v w N Hn Hv Hw). ring.
Qed.

Lemma L_C91_trunc_trunc : forall g t s v, normal g s -> surd_trunc g t s = Ok v ->
  (forall w, surd_trunc g t v = Ok w -> sval w = sval v) /\ (forall f, surd_fract g t v = Ok f -> f = surd_of_int 0).
Proof.
  intros g t s v N Hv. pose proof (surd_trunc_normal g t s v Hv) as Nv. split; [intros w Hw; exact (trunc_trunc g t s v w N Hv Hw)|].
  intros f Hf. pose proof (surd_fract_ok g t v f Nv Hf) as (Nf & w & Hw & Nw & Vf). apply (is_of_int g); auto.
  rewrite Vf, (trunc_trunc g t s v w N Hv Hw). rewrite ZtoC_0. ring.
Qed.

Lemma L_C92_prefix : forall t x n r y, wfcf x -> nth_item (conv_next BigU) n (cf_convergents x) = Ok (Some r) -> cf_of_ratio t r = Ok y ->
  (first_coeffs x (S n) = [0] -> y = CF [0] nil false) /\
  (first_coeffs x (S n) <> [0] -> n = 0%nat \/ last (first_coeffs x (S n)) 0 <> 1 -> y = CF (first_coeffs x (S n)) nil (negative x)) /\
  (forall l a, first_coeffs x (S n) = l ++ [a; 1] -> y = CF (l ++ [a + 1]) nil (negative x)).
Proof.
  intros t x n r y W H Hy. destruct (conv_at x n r W H) as [Hc Hr]. split; [|split].
  - exact (pre_zero t x n r y Hr Hy).
  - exact (pre_keep t x n r y W Hc Hr Hy).
  - exact (pre_merge t x n r y W Hc Hr Hy).
Qed.

Lemma L_C92_returns : forall x n, wfcf x -> coeff_at x n <> None ->
  exists r y, nth_item (conv_next BigU) n (cf_convergents x) = Ok (Some r) /\ cf_of_ratio BigI r = Ok y.
Proof.
  intros x n W H. destruct (proj2 (L_C29_convergents x n W) H) as (r & E & Cr). exists r. destruct (L_C30_returns r (proj1 Cr)) as [y Hy]. eauto.
Qed.

Lemma L_C92_collect : forall g t x n r y z, wfcf x -> negative x = false -> nth_item (conv_next BigU) n (cf_convergents x) = Ok (Some r) ->
  fits t 1 = true -> List.Forall (fun v => fits t v = true) (first_coeffs x (S n)) ->
  cf_of_ratio t r = Ok y -> cf_new g t (first_coeffs x (S n)) nil false = Ok z -> z = y.
Proof.
  intros g t x n r y z W Hn H F1 Ff Hy Hz. destruct (conv_at x n r W H) as [Hc Hr]. exact (pre_collect t x n r y W Hc Hr Hy g z Hn F1 Ff Hz).
Qed.

Lemma L_C92_last : forall t x r y, canonical x -> finite x ->
  nth_item (conv_next BigU) (pred (length (a_coeffs x))) (cf_convergents x) = Ok (Some r) -> cf_of_ratio t r = Ok y -> y = x.
Proof.
  intros t x r y C F H Hy. pose proof (proj1 C) as W. destruct (conv_at x _ r W H) as [Hc [Lr Vr]].
  destruct (cf_of_ratio_ok t r y Lr Hy) as (Cy & Fy & Vy). apply L_C30_unique; auto. rewrite Vy, Vr. unfold cf_val, finite in *. rewrite F.
  f_equal. f_equal. unfold first_coeffs. rewrite F. unfold wfcf in W. destruct (a_coeffs x) as [|a l]; [contradiction|]. cbn [pred length].
  replace (concat (repeat (@nil Z) (S (length l)))) with (@nil Z); [rewrite app_nil_r; exact (firstn_all (a :: l))|]. clear. generalize (S (length l)). intros k; induction k; auto.
Qed.

Lemma L_C93_surd : forall g t p q s z, lowest p -> lowest q ->
  (ratio_add t p q = Ok s -> surd_add g t (surd_of_ratio p) (surd_of_ratio q) = Ok z -> z = surd_of_ratio s) /\
  (ratio_sub t p q = Ok s -> surd_sub g t (surd_of_ratio p) (surd_of_ratio q) = Ok z -> z = surd_of_ratio s) /\
  (ratio_mul t p q = Ok s -> surd_mul g t (surd_of_ratio p) (surd_of_ratio q) = Ok z -> z = surd_of_ratio s) /\
  (ratio_div t p q = Ok s -> surd_div g t (surd_of_ratio p) (surd_of_ratio q) = Ok z -> z = surd_of_ratio s).
Proof.
  intros g t p q s z Lp Lq. pose proof (lowest_okd p Lp) as Dp. pose proof (lowest_okd q Lq) as Dq.
  destruct (surd_of_ratio_spec g p Lp) as [Vp Np]. destruct (surd_of_ratio_spec g q Lq) as [Vq Nq].
  assert (NI : ~ (imaginary (sval (surd_of_ratio p)) /\ imaginary (sval (surd_of_ratio q)))) by (rewrite Vp; intros [K _]; exact (real_not_imag _ K)).
  split; [|split; [|split]]; intros Hs Hz.
  - destruct (ratio_add_ok t p q s Dp Dq Hs) as [Vs Ls]. apply surd_add_ok in Hz; auto using normal_wf. destruct Hz as [Vz Nz].
    apply (is_of_ratio g); auto. rewrite Vz, Vp, Vq. unfold qC. rewrite <- RtoC_plus, Vs. auto.
  - destruct (ratio_sub_ok t p q s Dp Dq Hs) as [Vs Ls]. apply surd_sub_ok in Hz; auto using normal_wf. destruct Hz as [Vz Nz].
    apply (is_of_ratio g); auto. rewrite Vz, Vp, Vq. unfold qC. rewrite <- RtoC_minus, Vs. auto.
  - destruct (ratio_mul_ok t p q s Dp Dq Hs) as [Vs Ls]. pose proof (L_C04_mul_partial g t _ _ z Np Nq NI Hz) as Vz.
    apply surd_mul_ok in Hz; auto using normal_wf. apply (is_of_ratio g); auto; [tauto|]. rewrite Vz, Vp, Vq. unfold qC. rewrite <- RtoC_mult, Vs. auto.
  - destruct (ratio_div_ok t p q s Dp Dq Hs) as (Q0 & Vs & Ls). destruct (L_C05_div_partial g t _ _ z Np Nq NI Hz) as [D0 Vz].
    apply (surd_div_normal g) in Hz; auto. apply (is_of_ratio g); auto. rewrite Vz, Vp, Vq. unfold qC. rewrite <- RtoC_div, Vs; auto.
    intros E. apply D0. rewrite Vq. unfold qC. rewrite E. auto.
Qed.

Lemma L_C93_surd_returns : forall g p q, lowest p -> lowest q ->
  (exists s, ratio_add BigI p q = Ok s /\ surd_add g BigI (surd_of_ratio p) (surd_of_ratio q) = Ok (surd_of_ratio s)) /\
  (exists s, ratio_sub BigI p q = Ok s /\ surd_sub g BigI (surd_of_ratio p) (surd_of_ratio q) = Ok (surd_of_ratio s)) /\
  (exists s, ratio_mul BigI p q = Ok s /\ surd_mul g BigI (surd_of_ratio p) (surd_of_ratio q) = Ok (surd_of_ratio s)) /\
  (numer q <> 0 -> exists s, ratio_div BigI p q = Ok s /\ surd_div g BigI (surd_of_ratio p) (surd_of_ratio q) = Ok (surd_of_ratio s)).
Proof.
  intros g p q Lp Lq. pose proof (lowest_okd p Lp) as Dp. pose proof (lowest_okd q Lq) as Dq.
  destruct (surd_of_ratio_spec g p Lp) as [Vp Np]. destruct (surd_of_ratio_spec g q Lq) as [Vq Nq].
  assert (Rq : rational_num (sval (surd_of_ratio q))) by (rewrite Vq; apply qC_rational; auto).
  destruct (L_C06_same_field_partial g (surd_of_ratio p) (surd_of_ratio q) Np Nq) as ([z1 E1] & [z2 E2] & [z3 E3] & E4); [right; left; auto|].
  split; [|split; [|split]].
  - destruct (ratio_add_big p q Dp Dq) as (s & Es & _). exists s. split; [auto|]. rewrite E1. f_equal. exact (proj1 (L_C93_surd g BigI p q s z1 Lp Lq) Es E1).
  - destruct (ratio_sub_big p q Dp Dq) as (s & Es & _). exists s. split; [auto|]. rewrite E2. f_equal. exact (proj1 (proj2 (L_C93_surd g BigI p q s z2 Lp Lq)) Es E2).
  - destruct (ratio_mul_big p q Dp Dq) as (s & Es & _). exists s. split; [auto|]. rewrite E3. f_equal. exact (proj1 (proj2 (proj2 (L_C93_surd g BigI p q s z3 Lp Lq))) Es E3).
  - intros Q0. destruct (ratio_div_big p q Dp Dq Q0) as (s & Es & _). exists s. split; [auto|].
    destruct E4 as [z4 E4]; [|auto|].
    + rewrite Vq. unfold qC. intros E. apply RtoC_inj in E. apply Q0. unfold rval in E.
      assert (D : (IZR (denom q) <> 0)%R) by (apply not_0_IZR; auto). apply eq_IZR. apply (Rmult_eq_reg_r (/ IZR (denom q))); [rewrite Rmult_0_l; exact E|apply Rinv_neq_0_compat; auto].
    + rewrite E4. f_equal. exact (proj2 (proj2 (proj2 (L_C93_surd g BigI p q s z4 Lp Lq))) Es E4).
Qed.

Lemma L_C93_cf : forall g u fuel p q x y s w z, fits (sty u) 1 = true -> lowest p -> lowest q -> ratio_sfit u p -> ratio_sfit u q ->
  cf_of_ratio (sty u) p = Ok x -> cf_of_ratio (sty u) q = Ok y -> cf_of_ratio (sty u) s = Ok w ->
  (ratio_add (sty u) p q = Ok s -> cf_add g u fuel x y = Ok z -> z = w) /\
  (ratio_sub (sty u) p q = Ok s -> cf_sub g u fuel x y = Ok z -> z = w) /\
  (ratio_mul (sty u) p q = Ok s -> cf_mul g u fuel x y = Ok z -> z = w) /\
  (ratio_div (sty u) p q = Ok s -> cf_div g u fuel x y = Ok z -> z = w).
Proof.
  intros g u fuel p q x y s w z F1 Lp Lq Sp Sq Hx Hy Hw. pose proof (lowest_okd p Lp) as Dp. pose proof (lowest_okd q Lq) as Dq.
  destruct (ratio_sized _ u p x Lp Sp Hx) as (Wx & Fx & Vx & Zx). destruct (ratio_sized _ u q y Lq Sq Hy) as (Wy & Fy & Vy & Zy).
  split; [|split; [|split]]; intros Hs Hz.
  - destruct (ratio_add_ok _ p q s Dp Dq Hs) as [Vs Ls]. destruct (L_C33_add_partial g u fuel x y z F1 Wx Zx Wy Zy) as [C V]; auto.
    apply (canonical_of_ratio (sty u) z s w); auto. congruence.
  - destruct (ratio_sub_ok _ p q s Dp Dq Hs) as [Vs Ls]. destruct (L_C33_sub_partial g u fuel x y z F1 Wx Zx Wy Zy) as [C V]; auto.
    apply (canonical_of_ratio (sty u) z s w); auto. congruence.
  - destruct (ratio_mul_ok _ p q s Dp Dq Hs) as [Vs Ls]. destruct (L_C33_mul_partial g u fuel x y z F1 Wx Zx Wy Zy) as [C V]; auto.
    apply (canonical_of_ratio (sty u) z s w); auto. congruence.
  - destruct (ratio_div_ok _ p q s Dp Dq Hs) as (_ & Vs & Ls). destruct (L_C33_div_partial g u fuel x y z F1 Wx Zx Wy Zy) as (_ & C & V); auto.
    apply (canonical_of_ratio (sty u) z s w); auto. congruence.
Qed.

Lemma L_C93_cf_returns : forall g p q, lowest p -> lowest q ->
  exists x y n0, cf_of_ratio BigI p = Ok x /\ cf_of_ratio BigI q = Ok y /\ forall fuel, (n0 <= fuel)%nat ->
  returns (cf_add g BigU fuel x y) /\ returns (cf_sub g BigU fuel x y) /\ returns (cf_mul g BigU fuel x y) /\ (numer q <> 0 -> returns (cf_div g BigU fuel x y)).
Proof.
  intros g p q Lp Lq. destruct (L_C30_returns p Lp) as [x Hx]. destruct (L_C30_returns q Lq) as [y Hy].
  destruct (L_C30_of_ratio BigI p x Lp Hx) as ((Wx & _) & Fx & Vx). destruct (L_C30_of_ratio BigI q y Lq Hy) as ((Wy & _) & Fy & Vy).
  destruct (L_C33_finite_right_returns g x y Wx (L_C35_returns_partial g x Wx (or_introl Fx)) Wy Fy) as (A & B & C & D).
  destruct (A (or_introl Fx)) as [n1 A1]. destruct (B (or_introl Fx)) as [n2 B1]. destruct (C (or_introl Fx)) as [n3 C1].
  assert (D' : exists n4, forall fuel, (n4 <= fuel)%nat -> numer q <> 0 -> returns (cf_div g BigU fuel x y)).
  { destruct (Z.eq_dec (numer q) 0) as [E|E]; [exists 0%nat; intros; contradiction|]. destruct D as [n4 D1]; [|left; auto|].
    - rewrite Vy. unfold rval. intros K. apply E. pose proof (lowest_okd q Lq) as Dq.
      assert (D : (IZR (denom q) <> 0)%R) by (apply not_0_IZR; auto). apply eq_IZR. apply (Rmult_eq_reg_r (/ IZR (denom q))); [rewrite Rmult_0_l; exact K|apply Rinv_neq_0_compat; auto].
    - exists n4. intros fuel Hf _. apply D1; auto. }
  destruct D' as [n4 D1]. exists x, y, (n1 + n2 + n3 + n4)%nat. split; [auto|]. split; [auto|]. intros fuel Hf.
  split; [apply A1; lia|]. split; [apply B1; lia|]. split; [apply C1; lia|]. apply D1; lia.
Qed.

Lemma L_C93_through : forall g u p x s, lowest p -> ratio_sfit u p -> cf_of_ratio (sty u) p = Ok x -> surd_of_cf g u x = Ok s -> s = surd_of_ratio p.
Proof.
  intros g u p x s L S Hx Hs. destruct (ratio_sized _ u p x L S Hx) as (W & F & V & Z). destruct (L_C35_exact g u x s W Z Hs) as [N Vs].
  apply (is_of_ratio g); auto. rewrite Vs, V. auto.
Qed.

Lemma L_C94_step : forall g t s x v d r X Y fuel fuel', fits t 1 = true -> normal g s -> sval s = RtoC x -> (0 < x)%R ->
  surd_floor g t s = Ok v -> surd_sub g t s v = Ok d -> surd_recip g t d = Ok r ->
  cf_wide x -> (forall y, sval r = RtoC y -> cf_wide y) ->
  surd_to_cf g t fuel s = Ok (Some X) -> surd_to_cf g t fuel' r = Ok (Some Y) ->
  negative X = false /\ negative Y = false /\ (exists n, v = surd_of_int n /\ coeff_at X 0 = Some n) /\ forall k, coeff_at Y k = coeff_at X (S k).
Proof.
  intros g t s x v d r X Y fuel fuel' F1 N V Px Hv Hd Hr D D' HX HY.
  assert (I : ~ rational_real x) by (destruct D as (xc & (I & _) & _); exact I).
  destruct (step_value g t s x v d r N V I Hv Hd Hr) as (n & -> & F & Nr & Vr).
  destruct (L_C34_exact_partial g t fuel s x X F1 N V D HX) as ((WX & _) & FX & VX).
  destruct (L_C34_exact_partial g t fuel' r _ Y F1 Nr Vr (D' _ Vr) HY) as ((WY & _) & FY & VY).
  destruct (step_tail X Y x n WX FX VX WY FY Px F VY) as (A & B & C & T). split; [auto|]. split; [auto|]. split; [exists n; auto|auto].
Qed.

Lemma L_C94_returns : forall g s x, normal g s -> sval s = RtoC x -> (0 < x)%R -> cf_domain x ->
  exists v d r y, surd_floor g BigI s = Ok v /\ surd_sub g BigI s v = Ok d /\ surd_recip g BigI d = Ok r /\ normal g r /\ sval r = RtoC y /\ (1 < y)%R /\ cf_domain y /\
    cf_wide x /\ cf_wide y /\
    exists n0, forall fuel, (n0 <= fuel)%nat -> (exists X, surd_to_cf g BigI fuel s = Ok (Some X)) /\ exists Y, surd_to_cf g BigI fuel r = Ok (Some Y).
Proof.
  intros g s x N V Px D. assert (I : ~ rational_real x) by (destruct D as (xc & (I & _) & _); exact I).
  destruct (L_C10_returns g s x N V) as [v Hv]. destruct (floor_is g BigI s x v N V Hv) as (n & -> & F). destruct (surd_of_int_spec g n) as [Vn Nn].
  destruct (L_C06_same_field_partial g s (surd_of_int n) N Nn) as (_ & [d Hd] & _ & _); [right; left; rewrite Vn; apply Z_rational|].
  pose proof (surd_sub_ok g BigI s _ d (normal_wf _ _ N) (normal_wf _ _ Nn) Hd) as [Vd Nd].
  assert (D0 : sval d <> RtoC 0). { rewrite Vd, V, Vn. unfold ZtoC. rewrite <- RtoC_minus. intros E. apply RtoC_inj in E. apply I. replace x with (IZR n) by lra. apply rr_Z. }
  destruct (proj2 (proj2 (L_C07_returns g d Nd)) D0) as [r Hr].
  destruct (step_value g BigI s x _ d r N V I Hv Hd Hr) as (n' & En & F' & Nr & Vr). assert (n' = n) as -> by (eapply isfloor_unique; eauto).
  pose proof (domain_step x n Px F D) as D'. exists (surd_of_int n), d, r, (/ (x - IZR n))%R.
  split; [auto|]. split; [auto|]. split; [auto|]. split; [auto|]. split; [auto|]. split.
  { unfold isfloor in F. assert (x <> IZR n). { intros ->. apply I. apply rr_Z. } rewrite <- Rinv_1. apply Rinv_lt_contravar; lra. }
  split; [auto|]. split; [apply cf_domain_wide; auto|]. split; [apply cf_domain_wide; auto|].
  destruct (L_C34_returns_partial g s x N V D) as [n1 R1]. destruct (L_C34_returns_partial g r _ Nr Vr D') as [n2 R2].
  exists (n1 + n2)%nat. intros fuel Hf. split; [apply R1; lia|apply R2; lia].
Qed.
