(** * SurdKinds: which surds are Gaussian integers and algebraic integers. *)

From Coq Require Import ZArith Znumtheory Reals Lia Lra Bool List.
From Coquelicot Require Import Coquelicot.
From Verif Require Import Base Ext ModelSurd Spec SpecLaw Transfer NumFacts SurdCore RatioFacts SurdArith SurdTotal SurdOrd SurdRound SurdMisc SurdConv.
Open Scope Z_scope.

Lemma fval_1 a b r : fval a b 1 r = (ZtoC a + ZtoC b * csqrt r)%C.
Proof. unfold fval, ZtoC. field. intros X. apply RtoC_inj in X. lra. Qed.

Lemma fval_rat_cross a c m : c <> 0 -> fval a 0 c 0 = ZtoC m -> a = m * c.
Proof.
  intros Hc E. rewrite fval_b0 in E. apply ZtoC_inj. rewrite ZtoC_mul, <- E. field. apply ZtoC_neq0. auto.
Qed.

Lemma quadint_meaning g s : normal g s -> (is_quadint s = true <-> exists m n, sval s = (ZtoC m + ZtoC n * csqrt (discr s))%C).
Proof.
  intros N. unfold is_quadint. rewrite sval_fval. unfold normal, parts in N. set (a := c0 (coeffs s)) in *. set (b := c1 (coeffs s)) in *. set (c := c2 (coeffs s)) in *. set (r := discr s) in *.
  destruct N as (Hc & G & Sq & _). split.
  - intros H. apply Z.eqb_eq in H. exists a, b. rewrite H. apply fval_1.
  - intros (m & n & V). apply Z.eqb_eq. apply Z.divide_1_r_nonneg; [lia|]. rewrite <- G.
    destruct Sq as [[Hb Hr]|[Hb Hr]].
    + rewrite Hb, Hr in *. apply Z.gcd_greatest; [apply Z.gcd_greatest|apply Z.divide_refl]; [|apply Z.divide_0_r].
      exists m. apply fval_rat_cross; [lia|]. rewrite V, csqrt_0. ring.
    + destruct (fval_cross a b c m n 1 r) as [E1 E2]; [lia|lia|exact Hr|rewrite V, fval_1; reflexivity|].
      repeat apply Z.gcd_greatest; [exists m; lia|exists n; lia|apply Z.divide_refl].
Qed.

(** Algebraic integers, by the coefficients *)
Lemma alg_integer_coeffs g s : normal g s ->
  (alg_integer (sval s) <-> (c2 (coeffs s) | 2 * c0 (coeffs s)) /\
     (c2 (coeffs s) * c2 (coeffs s) | c0 (coeffs s) * c0 (coeffs s) - c1 (coeffs s) * c1 (coeffs s) * discr s)).
Proof.
  intros N. unfold alg_integer. rewrite sval_fval. unfold normal, parts in N. set (a := c0 (coeffs s)) in *. set (b := c1 (coeffs s)) in *. set (c := c2 (coeffs s)) in *. set (r := discr s) in *.
  destruct N as (Hc & G & Sq & _). assert (Cn : ZtoC c <> RtoC 0) by (apply ZtoC_neq0; lia).
  assert (T : forall p q, fval (a * a + b * b * r + p * a * c + q * c * c) (2 * a * b + p * b * c) 1 r = (ZtoC (c * c) * (fval a b c r * fval a b c r + ZtoC p * fval a b c r + ZtoC q))%C).
  { intros p q. unfold fval. rewrite !ZtoC_add, !ZtoC_mul, ZtoC_1.
    replace (ZtoC r) with (csqrt r * csqrt r)%C by apply csqrt_sq.
    replace (ZtoC 2) with (RtoC 1 + RtoC 1)%C by (rewrite <- RtoC_plus; reflexivity).
    field. split; [auto|intros X; apply RtoC_inj in X; lra]. }
  split.
  - intros (p & q & H). specialize (T p q). rewrite H, Cmult_0_r in T. rewrite fval_1 in T.
    destruct Sq as [[Hb Hr]|[Hb Hr]].
    + rewrite Hb, Hr, csqrt_0, Cmult_0_r, Cplus_0_r in T. rewrite <- ZtoC_0 in T. apply ZtoC_inj in T.
      assert (D : (c | a * a)) by (exists (- (p * a + q * c)); nia).
      assert (R : rel_prime c a). { apply Zgcd_1_rel_prime. rewrite Hb, Z.gcd_0_r, Z.gcd_abs_l in G. rewrite Z.gcd_comm. exact G. }
      apply Gauss in D; [|exact R]. apply Gauss with (c := 1) in R; [|rewrite Z.mul_1_r; exact D]. apply Z.divide_1_r_nonneg in R; [|lia]. rewrite R, Hr.
      split; apply Z.divide_1_l.
    + apply csqrt_indep in T; [|auto]. destruct T as [E1 E2].
      assert (E3 : 2 * a = - p * c) by (apply (Z.mul_reg_l _ _ b); [auto|]; lia). split; [exists (- p); exact E3|]. exists q.
      transitivity (2 * a * a - (a * a + b * b * r)); [ring|]. rewrite E3. lia.
  - intros ([p E3] & [q E4]). exists (- p), q. specialize (T (- p) q).
    replace (a * a + b * b * r + - p * a * c + q * c * c) with 0 in T; [|assert (K1 : p * c * a = 2 * a * a) by (rewrite <- E3; ring); lia].
    replace (2 * a * b + - p * b * c) with 0 in T by (rewrite E3; ring). rewrite fval_1, ZtoC_0, Cmult_0_l, Cplus_0_r in T.
    rewrite ZtoC_mul in T. rewrite <- (Cmult_1_l (_ + ZtoC q)%C). transitivity (/ ZtoC c * / ZtoC c * (ZtoC c * ZtoC c * (fval a b c r * fval a b c r + ZtoC (- p) * fval a b c r + ZtoC q)))%C; [|rewrite <- T; ring].
    set (X := (_ + ZtoC q)%C). clearbody X. field. auto.
Qed.

(** Over a square-free root: the algebraic integers that is_quadint() rejects *)
Lemma odd_div x : x mod 2 = 1 -> x = 2 * (x / 2) + 1.
Proof. intros H. pose proof (Z.div_mod x 2 ltac:(lia)). lia. Qed.

Lemma quadint_rejects g s : normal g s -> squarefree (discr s) ->
  (alg_integer (sval s) /\ is_quadint s = false <->
   c2 (coeffs s) = 2 /\ c0 (coeffs s) mod 2 = 1 /\ c1 (coeffs s) mod 2 = 1 /\ discr s mod 4 = 1).
Proof.
  intros N Sf. rewrite (alg_integer_coeffs g s N). unfold is_quadint. unfold normal, parts in N. set (a := c0 (coeffs s)) in *. set (b := c1 (coeffs s)) in *. set (c := c2 (coeffs s)) in *. set (r := discr s) in *.
  clearbody a b c r. destruct N as (Hc & Hg & _). rewrite Z.eqb_neq. split.
  - intros (([e E3] & [q E4]) & N1).
    assert (Hsf : forall d, prime d -> ~ (d * d | r)). { intros d Pd K. apply Sf in K. pose proof (prime_ge_2 d Pd). lia. }
    assert (Ka : forall d, prime d -> (d | c) -> (d | a) -> False).
    { intros d Pd Dd Ha. apply (Hsf d Pd). pose proof (prime_ge_2 d Pd).
      assert (Hnb : ~ (d | b)). { intros Hbd. assert (X : (d | 1)) by (rewrite <- Hg; apply Z.gcd_greatest; [apply Z.gcd_greatest|]; auto). apply Z.divide_1_r_nonneg in X; lia. }
      assert (X : (d * d | b * b * r)).
      { replace (b * b * r) with (a * a - (a * a - b * b * r)) by ring. apply Z.divide_sub_r.
        - destruct Ha as [k Hk]. exists (k * k). rewrite Hk. ring.
        - rewrite E4. destruct Dd as [k Dk]. exists (q * k * k). rewrite Dk. ring. }
      apply Gauss with (b * b); [auto|]. assert (R : rel_prime d b) by (apply prime_rel_prime; auto).
      apply rel_prime_sym in R. assert (R2 : rel_prime b (d * d)) by (apply rel_prime_mult; auto). apply rel_prime_sym in R2. apply rel_prime_mult; auto. }
    assert (O2 : forall d, prime d -> (d | c) -> d = 2).
    { intros d Pd Dd. destruct (Z.eq_dec d 2) as [|Nd]; [auto|]. exfalso. pose proof (prime_ge_2 d Pd). apply (Ka d Pd Dd).
      assert (X : (d | 2 * a)) by (rewrite E3; apply Z.divide_mul_r; auto). destruct (prime_mult d Pd 2 a X) as [X2|X2]; auto. apply Z.divide_pos_le in X2; lia. }
    assert (D2 : (2 | c)).
    { destruct (Zdivide_dec 2 c) as [|Nd]; [auto|]. exfalso. apply N1. apply no_prime_1; [auto|]. intros d Pd Dd. pose proof (O2 d Pd Dd). subst d. auto. }
    assert (Oa : a mod 2 = 1).
    { pose proof (Z.mod_pos_bound a 2). assert (a mod 2 <> 0); [|lia]. intros X. apply (Ka 2 prime_2 D2). apply Z.mod_divide; lia. }
    assert (C2 : c = 2).
    { destruct D2 as [k Dk]. assert (k = 1); [|lia]. apply no_prime_1; [lia|]. intros d Pd [j Dd].
      assert (Hd : d = 2) by (apply O2; [auto|]; exists (2 * j); rewrite Dk, Dd; ring). subst d.
      assert (a = 2 * (e * j)) by (rewrite Dk, Dd in E3; lia). rewrite H in Oa. rewrite Z.mul_comm, Z.mod_mul in Oa; lia. }
    subst c. split; [auto|]. split; [auto|]. pose proof (odd_div a Oa) as Xa. set (u := a / 2) in *. clearbody u.
    assert (Ob : b mod 2 = 1).
    { pose proof (Z.mod_pos_bound b 2). assert (b mod 2 <> 0); [|lia]. intros X. apply Z.mod_divide in X; [|lia]. destruct X as [k Xk]. clear - Xa Xk E4. subst a b.
      assert (4 * (u * u + u - k * k * r - q) = -1) by lia. lia. }
    split; [auto|]. pose proof (odd_div b Ob) as Xb. set (v := b / 2) in *. clearbody v. clear - Xa Xb E4. subst a b.
    symmetry. apply Z.mod_unique with (u * u + u - (v * v + v) * r - q); [lia|]. lia.
  - intros (C2 & Oa & Ob & Or). subst c. split; [|lia]. split; [exists a; ring|].
    pose proof (odd_div a Oa) as Xa. pose proof (odd_div b Ob) as Xb. set (u := a / 2) in *. set (v := b / 2) in *. clearbody u v.
    pose proof (Z.div_mod r 4 ltac:(lia)) as Xr. rewrite Or in Xr. set (w := r / 4) in *. clearbody w. clear - Xa Xb Xr. subst a b r.
    exists (u * u + u - (v * v + v) * (4 * w + 1) - w). ring.
Qed.

(** Gaussian integers, by the coefficients *)
Lemma gauss_coeffs g s : normal g s ->
  (gauss_num (sval s) <-> exists k, discr s = - (k * k) /\ (c2 (coeffs s) | c0 (coeffs s)) /\ (c2 (coeffs s) | c1 (coeffs s) * k)).
Proof.
  intros N. unfold gauss_num. rewrite sval_fval. unfold normal, parts in N. set (a := c0 (coeffs s)) in *. set (b := c1 (coeffs s)) in *. set (c := c2 (coeffs s)) in *. set (r := discr s) in *.
  destruct N as (Hc & G & Sq & _). assert (Cn : IZR c <> 0%R) by (apply not_0_IZR; lia).
  assert (Cz : ZtoC c <> RtoC 0) by (apply ZtoC_neq0; lia).
  assert (Vn : forall k, 0 <= k -> r = - (k * k) -> fval a b c r = (IZR a / IZR c, IZR (b * k) / IZR c)%R).
  { intros k Hk E. unfold fval. destruct (Z.eq_dec k 0) as [K0|K0].
    - rewrite E, K0. change (- (0 * 0)) with 0. rewrite csqrt_0. unfold ZtoC, RtoC, Cdiv, Cinv, Cmult, Cplus; cbn [fst snd]. rewrite Z.mul_0_r. f_equal; field; auto.
    - rewrite csqrt_neg by nia. replace (- r) with (k * k) by lia. rewrite sqrt_IZR_square by auto.
      unfold ZtoC, RtoC, Cdiv, Cinv, Cmult, Cplus; cbn [fst snd]. rewrite mult_IZR. f_equal; field; auto. }
  split.
  - intros (m & n & V). 
    assert (R : exists k, 0 <= k /\ r = - (k * k)).
    { destruct Sq as [[Hb Hr]|[Hb Hr]]; [exists 0; lia|]. destruct (Z.lt_ge_cases r 0) as [Hn|Hn].
      - assert (B : b * b * - r = n * n * (c * c)).
        { unfold fval in V. rewrite csqrt_neg in V by lia. unfold ZtoC, RtoC, Cdiv, Cinv, Cmult, Cplus in V. cbn [fst snd] in V. injection V as _ V2.
          assert (Q : (sqrt (IZR (- r)) * sqrt (IZR (- r)) = IZR (- r))%R) by (apply sqrt_sqrt; apply IZR_le; lia).
          assert (X : (IZR b * sqrt (IZR (- r)) = IZR n * IZR c)%R) by (rewrite <- V2; field; auto).
          apply eq_IZR. rewrite !(mult_IZR _ (- r)), !mult_IZR, <- Q. transitivity ((IZR b * sqrt (IZR (- r))) * (IZR b * sqrt (IZR (- r))))%R; [ring|]. rewrite X. ring. }
        assert (S : square (- r)). { apply (square_quotient (n * c) b); [auto|]. rewrite B. ring. }
        destruct S as [k Hk]. exists (Z.abs k). split; [lia|]. rewrite Z.abs_square. lia.
      - exfalso. apply Hb. apply (fval_rational_b0 a b c r); [lia|auto|]. exists m, 1. split; [lia|]. rewrite V.
        assert (n = 0). { apply eq_IZR. unfold fval in V. rewrite csqrt_nonneg in V by lia. unfold ZtoC, RtoC, Cdiv, Cinv, Cmult, Cplus in V. cbn [fst snd] in V. injection V as _ V2. rewrite <- V2. field. auto. }
        subst n. unfold ZtoC. rewrite <- RtoC_div by lra. unfold RtoC. f_equal. field. }
    destruct R as (k & Hk & E). exists k. rewrite (Vn k Hk E) in V. injection V as V1 V2. split; [auto|]. split.
    + exists m. apply eq_IZR. rewrite mult_IZR, <- V1. field; auto.
    + exists n. apply eq_IZR. rewrite (mult_IZR n), <- V2. field; auto.
  - intros (k & E & [m Ha] & [n Hb]).
    assert (K : exists k' n', 0 <= k' /\ r = - (k' * k') /\ b * k' = n' * c).
    { destruct (Z.lt_ge_cases k 0); [exists (- k), (- n); lia|exists k, n; lia]. }
    destruct K as (k' & n' & Hk & E' & Hb'). exists m, n'. rewrite (Vn k' Hk E'), Ha, Hb', !mult_IZR. f_equal; field; auto.
Qed.

Lemma gaussint_accepts g s : normal g s -> is_gaussint s = true -> (gauss_num (sval s) <-> exists k, discr s = - (k * k)).
Proof.
  intros N H. unfold is_gaussint in H. apply Z.eqb_eq in H. rewrite (gauss_coeffs g s N). rewrite H. split; intros (k & K); exists k; [tauto|].
  split; [auto|]. split; apply Z.divide_1_l.
Qed.
