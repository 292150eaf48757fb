(** * SurdConv: fract, conversions, predicates, reduced. *)

From Coq Require Import ZArith Znumtheory Reals Lia Lra Bool List.
From Coquelicot Require Import Coquelicot.
From Verif Require Import Base Ext ModelSurd Spec Transfer NumFacts SurdCore RatioFacts SurdArith SurdTotal SurdOrd SurdRound SurdMisc.
Open Scope Z_scope.

(** ** trunc, fract *)
Lemma surd_trunc_normal g t s tr : surd_trunc g t s = Ok tr -> normal g tr.
Proof.
  intros H. apply rle_surd_trunc in H. destruct s as [[a b c] r]. unfold surd_trunc in H.
  autorewrite with bigi in H. destruct (r <? 0).
  - repeat stepH H. apply surd_from_coeffs_ok in H. tauto.
  - repeat stepH H. inversion H; subst. apply surd_of_int_spec.
Qed.

Lemma surd_trunc_rational g s : normal g s -> 0 <= discr s ->
  exists n, surd_trunc g BigI s = Ok (surd_of_int n).
Proof. intros N D. destruct (surd_trunc_real g s N D) as (n & E & _). eauto. Qed.

Lemma surd_fract_ok g t s f : normal g s -> surd_fract g t s = Ok f ->
  normal g f /\ exists tr, surd_trunc g t s = Ok tr /\ normal g tr /\ sval f = (sval s - sval tr)%C.
Proof.
  intros N H. unfold surd_fract in H. stepH H.
  pose proof (surd_trunc_normal _ _ _ _ E) as Na.
  apply surd_sub_ok in H; [|apply normal_wf; auto..]. destruct H as [V Nf].
  split; [auto|]. eauto.
Qed.

Lemma surd_fract_total g s : normal g s -> 0 <= discr s -> returns (surd_fract g BigI s).
Proof.
  intros N D. destruct (surd_trunc_rational g s N D) as [n E]. unfold surd_fract. rewrite E. bigi.
  apply surd_sub_total; try (apply normal_wf; auto); [apply surd_of_int_spec|].
  right; left. reflexivity.
Qed.

(** ** Predicates *)
Lemma normal_is_integer g s : normal g s -> (is_integer s = true <-> integer_num (sval s)).
Proof.
  intros N. pose proof (normal_okc _ _ N) as O. unfold is_integer. rewrite andb_true_iff.
  split.
  - intros [H1 H2]. apply Z.eqb_eq in H1. rewrite (is_rational_true s H2 O), H1, ZtoC_1.
    exists (c0 (coeffs s)). field. intros X; apply RtoC_inj in X; lra.
  - intros [n Hn]. assert (R : is_rational s = true).
    { apply (normal_is_rational g s N). rewrite Hn. apply rational_ZtoC. }
    split; [|auto]. rewrite (is_rational_true s R O) in Hn.
    destruct s as [[a b c] r]. unfold normal, parts in N. cbn [coeffs c0 c1 c2 discr] in *.
    destruct N as (Hc & Hg & Hb & _).
    assert (b = 0).
    { unfold is_rational in R. cbn [coeffs c0 c1 c2 discr] in R. apply orb_prop in R.
      destruct R as [R|R]; apply Z.eqb_eq in R; auto. destruct Hb as [[? ?]|[_ Hb]]; auto.
      exfalso. apply Hb. rewrite R. exists 0. reflexivity. }
    subst b. rewrite Z.gcd_0_r, Z.gcd_abs_l in Hg.
    assert (a = n * c).
    { apply ZtoC_inj. rewrite ZtoC_mul, <- Hn. cfield. }
    subst a. apply Z.eqb_eq. rewrite Z.mul_comm, Z.gcd_comm, Z.gcd_mul_diag_l in Hg by lia. auto.
Qed.

Lemma normal_is_complex g s : normal g s ->
  (is_complex s = true <-> ~ exists x, sval s = RtoC x).
Proof.
  intros N. unfold is_complex. split.
  - intros H [x Hx]. apply Z.ltb_lt in H. pose proof (sval_real_discr g s x N Hx). lia.
  - intros H. destruct (Z.ltb_spec (discr s) 0) as [D|D]; [auto|].
    exfalso. apply H. exists (rs s). apply sval_rs; auto. eapply normal_okc; eauto.
Qed.

Lemma sval_zero_iff g s : normal g s -> (sval s = RtoC 0 <-> c0 (coeffs s) = 0 /\ c1 (coeffs s) = 0).
Proof.
  intros N. pose proof (normal_okc _ _ N) as O. split.
  - intros H. destruct s as [[a b c] r]. unfold normal, parts in N. cbn [coeffs c0 c1 c2 discr] in *.
    assert (b = 0).
    { destruct N as (Hc & Hg & [[? ?]|[Hb Hr]] & _); auto.
      apply (fval_rational_b0 a b c r); [lia|auto|].
      rewrite sval_fval in H. cbn [coeffs c0 c1 c2 discr] in H. rewrite H. exists 0, 1. split; [lia|].
      rewrite ZtoC_0, ZtoC_1. field. intros X; apply RtoC_inj in X; lra. }
    subst b. split; [|auto]. rewrite sval_fval in H. cbn [coeffs c0 c1 c2 discr] in H.
    rewrite fval_b0 in H. apply ZtoC_inj. rewrite ZtoC_0.
    replace (ZtoC a) with (ZtoC a / ZtoC c * ZtoC c)%C.
    + rewrite H. ring.
    + unfold okc in O. cbn in O. cfield.
  - intros [H1 H2]. rewrite sval_fval, H1, H2, fval_b0, ZtoC_0. unfold Cdiv. ring.
Qed.

Lemma normal_is_pure g s : normal g s ->
  (is_pure s = true <-> ~ rational_num (sval s) /\ rational_num (sval s * sval s)%C).
Proof.
  intros N. pose proof (normal_okc _ _ N) as O.
  assert (HR := normal_is_rational g s N).
  assert (Hsq : (sval s * sval s)%C =
    fval (c0 (coeffs s) * c0 (coeffs s) + c1 (coeffs s) * c1 (coeffs s) * discr s)
         (2 * c0 (coeffs s) * c1 (coeffs s)) (c2 (coeffs s) * c2 (coeffs s)) (discr s)).
  { rewrite !sval_fval. unfold fval. rewrite ZtoC_add, !ZtoC_mul.
    pose proof (csqrt_sq (discr s)) as Q.
    replace (ZtoC (discr s)) with (csqrt (discr s) * csqrt (discr s))%C by auto.
    replace (ZtoC 2) with (RtoC 1 + RtoC 1)%C by (rewrite <- RtoC_plus; reflexivity).
    unfold okc in O. cfield. }
  unfold is_pure. rewrite andb_true_iff, negb_true_iff. split.
  - intros [H1 H2]. apply Z.eqb_eq in H1. apply Z.eqb_neq in H2. split.
    + intros X. apply HR in X. destruct N as (_ & _ & [[? ?]|[Hb Hr]] & _); [contradiction|].
      unfold is_rational in X. apply orb_prop in X. destruct X as [X|X]; apply Z.eqb_eq in X; [contradiction|].
      apply Hr. rewrite X. exists 0. reflexivity.
    + rewrite Hsq, H1. replace (2 * 0 * c1 (coeffs s)) with 0 by lia. rewrite fval_b0.
      eexists _, _. split; [|reflexivity]. unfold okc in O. nia.
  - intros [H1 H2]. assert (R : is_rational s = false).
    { destruct (is_rational s) eqn:E; auto. exfalso. apply H1, HR. auto. }
    pose proof (is_rational_false s R) as [Hb Hd]. pose proof (normal_irr_ns g s N R) as Hr.
    rewrite Hsq in H2. apply fval_rational_b0 in H2; auto; [|unfold okc in O; nia].
    split; [apply Z.eqb_eq; nia|apply Z.eqb_neq; auto].
Qed.

(** ** to_integer, to_rational, to_i64 *)
Lemma surd_to_integer_ok g t s r : normal g s -> surd_to_integer g t s = Ok r ->
  match r with
  | Exact v => sval s = ZtoC v
  | Approximated v => ~ integer_num (sval s) /\ surd_trunc g t s = Ok (surd_of_int v) /\ 0 <= discr s
  end.
Proof.
  intros N H. pose proof (normal_okc _ _ N) as O. unfold surd_to_integer in H.
  stepH H. unfold panic_if_complex in E.
  destruct (is_integer s) eqn:I.
  - inversion H; subst. pose proof I as J. unfold is_integer in J. apply andb_prop in J. destruct J as [J1 J2].
    apply Z.eqb_eq in J1. rewrite (is_rational_true s J2 O), J1, ZtoC_1. field.
    intros X; apply RtoC_inj in X; lra.
  - stepH H. inversion H; subst. split.
    { intros X. apply (normal_is_integer g s N) in X. congruence. }
    assert (D : 0 <= discr s).
    { destruct (cplx g) eqn:G; [destruct (Z.ltb_spec (discr s) 0); [discriminate|auto]|].
      destruct N as (_ & _ & _ & N). auto. }
    split; [|auto]. pose proof (rle_surd_trunc g t s _ E0) as E1.
    destruct (surd_trunc_rational g s N D) as [n En]. rewrite E1 in En. inversion En; subst.
    reflexivity.
Qed.

Lemma surd_to_integer_total g s : normal g s -> 0 <= discr s -> returns (surd_to_integer g BigI s).
Proof.
  intros N D. unfold surd_to_integer. rewrite pic_real by auto. bigi.
  destruct (is_integer s); [eexists; reflexivity|].
  destruct (surd_trunc_rational g s N D) as [n En]. rewrite En. eexists; reflexivity.
Qed.

Lemma surd_to_integer_exact g t s v : normal g s -> 0 <= discr s -> sval s = ZtoC v ->
  surd_to_integer g t s = Ok (Exact v).
Proof.
  intros N D H. pose proof (normal_okc _ _ N) as O.
  assert (I : is_integer s = true) by (apply (normal_is_integer g s N); exists v; auto).
  unfold surd_to_integer. rewrite pic_real by auto. bigi. rewrite I. do 2 f_equal.
  unfold is_integer in I. apply andb_prop in I. destruct I as [J1 J2].
  apply Z.eqb_eq in J1. rewrite (is_rational_true s J2 O), J1, ZtoC_1 in H.
  apply ZtoC_inj. rewrite <- H. field. intros X; apply RtoC_inj in X; lra.
Qed.

Lemma surd_to_prim_ok g t pt s n : normal g s ->
  surd_to_prim g t pt s = Ok (Some n) -> sval s = ZtoC n /\ fits pt n = true.
Proof.
  intros N H. unfold surd_to_prim in H. destruct (discr s <? 0); [discriminate|].
  stepH H. apply surd_to_integer_ok in E; auto. destruct a; [discriminate|].
  unfold prim_to, checked in H. destruct (fits pt a) eqn:F; inversion H; subst; auto.
Qed.
Lemma surd_to_prim_complete g t pt s n : normal g s -> sval s = ZtoC n -> fits pt n = true ->
  surd_to_prim g t pt s = Ok (Some n).
Proof.
  intros N V F. destruct (normal_real g s _ N V) as [D _].
  unfold surd_to_prim. destruct (Z.ltb_spec (discr s) 0); [lia|].
  rewrite (surd_to_integer_exact g t s n) by auto. bigi. unfold prim_to, checked. rewrite F. reflexivity.
Qed.
Lemma surd_to_prim_total g pt s : normal g s -> returns (surd_to_prim g BigI pt s).
Proof.
  intros N. unfold surd_to_prim. destruct (Z.ltb_spec (discr s) 0); [eexists; reflexivity|].
  destruct (surd_to_integer_total g s) as [v Ev]; auto. rewrite Ev. bigi.
  destruct v; eexists; reflexivity.
Qed.

Lemma surd_to_rational_ok g t s r : normal g s -> surd_to_rational g t s = Ok r ->
  match r with
  | Exact q => sval s = qC q /\ lowest q
  | Approximated q => ~ rational_num (sval s) /\ denom q = c2 (coeffs s) /\ 0 <= discr s /\
      (0 < c1 (coeffs s) -> (rval q < rs s < rval q + / IZR (denom q))%R)
  end.
Proof.
  intros N H. pose proof (normal_okc _ _ N) as O. apply rle_surd_to_rational in H.
  unfold surd_to_rational in H. stepH H. unfold panic_if_complex in E.
  destruct (Z.eqb_spec (discr s) 0) as [D|D].
  - inversion H; subst. assert (R : is_rational s = true) by (apply (normal_discr0 g s N); auto).
    assert (okd (Ratio (c0 (coeffs s)) (c2 (coeffs s)))) by (unfold okd; exact O).
    split.
    + rewrite qC_eq by auto. rewrite (is_rational_true s R O). reflexivity.
    + destruct N as (Hc & Hg & Hb & _). unfold lowest. cbn [numer denom]. split; [auto|].
      destruct Hb as [[Hb _]|[_ Hb]].
      * rewrite Hb, Z.gcd_0_r, Z.gcd_abs_l in Hg. auto.
      * exfalso. apply Hb. rewrite D. exists 0. reflexivity.
  - assert (Dp : 0 <= discr s).
    { destruct (cplx g) eqn:G; [destruct (Z.ltb_spec (discr s) 0); [discriminate|auto]|].
      destruct N as (_ & _ & _ & N). auto. }
    autorewrite with bigi in H. rewrite sqrtB in H by nia. autorewrite with bigi in H.
    inversion H; subst. cbn [denom]. assert (R : is_rational s = false).
    { destruct (is_rational s) eqn:X; auto. apply (normal_discr0 g s N) in X. contradiction. }
    split. { intros X. apply (normal_is_rational g s N) in X. congruence. }
    split; [auto|]. split; [auto|]. intros Hb.
    pose proof (isqrt_bracket (c1 (coeffs s)) (discr s) ltac:(lia) Dp) as Q.
    pose proof (bsqrt_not_int (c1 (coeffs s)) (discr s) (Z.sqrt (c1 (coeffs s) * c1 (coeffs s) * discr s)) Dp
      ltac:(lia) (normal_irr_ns g s N R)) as Q2.
    unfold rval, rs, rnum. cbn [numer denom]. rewrite plus_IZR.
    assert (Hc : (0 < IZR (c2 (coeffs s)))%R) by (apply IZR_lt; apply N).
    assert (Hi : (0 < / IZR (c2 (coeffs s)))%R) by (apply Rinv_0_lt_compat; auto).
    unfold Rdiv. split; nra.
Qed.

Lemma surd_to_rational_total g s : normal g s -> 0 <= discr s -> returns (surd_to_rational g BigI s).
Proof.
  intros N D. unfold surd_to_rational. rewrite pic_real by auto. bigi.
  destruct (discr s =? 0); [eexists; reflexivity|]. rewrite sqrtB by nia. bigi. eexists; reflexivity.
Qed.

(** ** is_gaussint, is_quadint *)
Lemma normal_is_gaussint g s : normal g s -> (discr s = 0 \/ discr s = -1) ->
  (is_gaussint s = true <-> exists m n, sval s = (IZR m, IZR n)).
Proof.
  intros N D. pose proof (normal_okc _ _ N) as O. unfold is_gaussint.
  assert (V : sval s = (IZR (c0 (coeffs s)) / IZR (c2 (coeffs s)), 
     IZR (c1 (coeffs s) * - discr s) / IZR (c2 (coeffs s)))%R).
  { unfold okc in O. assert (Oc : IZR (c2 (coeffs s)) <> 0%R) by (apply IZR_neq0; auto).
    rewrite sval_fval. unfold fval. destruct D as [D|D]; rewrite D.
    - unfold csqrt. cbn [Z.ltb Z.compare]. rewrite sqrt_0.
      unfold ZtoC, RtoC, Cdiv, Cinv, Cmult, Cplus; cbn [fst snd]. rewrite Z.mul_0_r. f_equal; field; auto.
    - unfold csqrt. cbn [Z.ltb Z.compare Z.opp]. rewrite sqrt_1.
      unfold ZtoC, RtoC, Cdiv, Cinv, Cmult, Cplus; cbn [fst snd]. rewrite Z.mul_1_r. f_equal; field; auto. }
  rewrite V. split.
  - intros H. apply Z.eqb_eq in H. rewrite H. eexists _, _. f_equal; unfold Rdiv; rewrite Rinv_1, Rmult_1_r; reflexivity.
  - intros (m & n & H). injection H as H1 H2. unfold okc in O.
    assert (Oc : IZR (c2 (coeffs s)) <> 0%R) by (apply IZR_neq0; auto).
    assert (A : c0 (coeffs s) = m * c2 (coeffs s)).
    { apply eq_IZR. rewrite mult_IZR, <- H1. field; auto. }
    assert (B : c1 (coeffs s) * - discr s = n * c2 (coeffs s)).
    { apply eq_IZR. rewrite (mult_IZR n), <- H2. field; auto. }
    destruct N as (Hc & Hg & Hb & _). apply Z.eqb_eq.
    assert (Dv : (c2 (coeffs s) | 1)).
    { rewrite <- Hg. apply Z.gcd_greatest; [apply Z.gcd_greatest|apply Z.divide_refl].
      - exists m; auto.
      - destruct D as [D|D].
        + destruct Hb as [[Hb _]|[_ Hb]]; [rewrite Hb; apply Z.divide_0_r|].
          exfalso; apply Hb; rewrite D; exists 0; reflexivity.
        + rewrite D in B. exists n. lia. }
    apply Z.divide_1_r_nonneg in Dv; lia.
Qed.

(** x is an algebraic integer of degree at most two *)
Lemma quadint_sound g s : normal g s -> is_quadint s = true ->
  exists p q : Z, (sval s * sval s + ZtoC p * sval s + ZtoC q)%C = RtoC 0.
Proof.
  intros N H. unfold is_quadint in H. apply Z.eqb_eq in H.
  exists (- (2 * c0 (coeffs s))), (c0 (coeffs s) * c0 (coeffs s) - c1 (coeffs s) * c1 (coeffs s) * discr s).
  rewrite !sval_fval, H. unfold fval. rewrite ZtoC_1, ZtoC_opp, ZtoC_sub, !ZtoC_mul.
  replace (ZtoC (discr s)) with (csqrt (discr s) * csqrt (discr s))%C by apply csqrt_sq.
  replace (ZtoC 2) with (RtoC 1 + RtoC 1)%C by (rewrite <- RtoC_plus; reflexivity).
  field. intros X; apply RtoC_inj in X; lra.
Qed.

Lemma prime_sq_div p x : prime p -> (p | x * x) -> (p | x).
Proof. intros Hp H. destruct (prime_mult p Hp x x H); auto. Qed.

Lemma no_prime_1 c : 0 < c -> (forall p, prime p -> ~ (p | c)) -> c = 1.
Proof.
  intros Hc H. destruct (Z.eq_dec c 1) as [|E]; auto. exfalso.
  revert c Hc H E. apply (well_founded_ind (Z.lt_wf 0) (fun c => 0 < c -> _ -> c <> 1 -> False)).
  intros c IH Hc H E. destruct (prime_dec c) as [P|P]; [apply (H c P); apply Z.divide_refl|].
  apply not_prime_divide in P; [|lia]. destruct P as (n & Hn & D).
  apply (IH n); try lia. intros p Pp Dp. apply (H p Pp). eapply Z.divide_trans; eauto.
Qed.

Lemma quadint_complete g s : normal g s -> discr s mod 4 <> 1 ->
  (forall p, prime p -> ~ (p * p | discr s)) ->
  (exists p q : Z, (sval s * sval s + ZtoC p * sval s + ZtoC q)%C = RtoC 0) -> is_quadint s = true.
Proof.
  intros N Hm Hsf (p & q & H). pose proof (normal_okc _ _ N) as O. unfold okc in O.
  unfold is_quadint. apply Z.eqb_eq.
  destruct N as (Hc & Hg & Hb & _). destruct Hb as [[Hb Hd]|[Hb Hns]].
  { exfalso. apply (Hsf 2 prime_2). rewrite Hd. apply Z.divide_0_r. }
  (* clear denominators *)
  set (a := c0 (coeffs s)) in *. set (b := c1 (coeffs s)) in *. set (c := c2 (coeffs s)) in *. set (r := discr s) in *.
  assert (E : fval (a * a + b * b * r + p * a * c + q * c * c) (2 * a * b + p * b * c) 1 r = fval 0 0 1 r).
  { transitivity (ZtoC (c * c) * (sval s * sval s + ZtoC p * sval s + ZtoC q))%C.
    - rewrite sval_fval. fold a b c r. unfold fval. rewrite !ZtoC_add, !ZtoC_mul, ZtoC_1.
      replace (ZtoC r) with (csqrt r * csqrt r)%C by apply csqrt_sq.
      replace (ZtoC 2) with (RtoC 1 + RtoC 1)%C by (rewrite <- RtoC_plus; reflexivity).
      field. split; [apply ZtoC_neq0; auto|intros X; apply RtoC_inj in X; lra].
    - rewrite H, fval_b0, ZtoC_0. unfold Cdiv. ring. }
  apply fval_cross in E; auto; try lia. destruct E as [E1 E2].
  assert (E3 : 2 * a = - p * c) by nia.
  assert (E4 : a * a - b * b * r = q * c * c) by nia.
  apply no_prime_1; [auto|]. intros d Pd Dd.
  assert (D4 : (d * d | a * a - b * b * r)).
  { rewrite E4. destruct Dd as [k Dk]. exists (q * k * k). rewrite Dk. ring. }
  pose proof (prime_ge_2 d Pd) as Hd2.
  assert (Hnb : (d | a) -> ~ (d | b)).
  { intros Ha Hbd. assert (X : (d | 1)) by (rewrite <- Hg; apply Z.gcd_greatest; [apply Z.gcd_greatest|]; auto).
    apply Z.divide_1_r_nonneg in X; lia. }
  assert (Ka : (d | a) -> False).
  { intros Ha. apply (Hsf d Pd).
    assert (X : (d * d | b * b * r)).
    { replace (b * b * r) with (a * a - (a * a - b * b * r)) by ring.
      apply Z.divide_sub_r; auto. destruct Ha as [k Hk]. exists (k * k). rewrite Hk. ring. }
    apply Gauss with (b * b); [auto|]. 
    assert (R : rel_prime d b) by (apply prime_rel_prime; auto).
    apply rel_prime_sym. apply rel_prime_sym in R.
    assert (R2 : rel_prime b (d * d)) by (apply rel_prime_mult; auto).
    apply rel_prime_sym. apply rel_prime_sym in R2. apply rel_prime_mult; auto. }
  destruct (Z.eq_dec d 2) as [D2|D2].
  - subst d. destruct (Zdivide_dec 2 a) as [Ha|Ha]; [auto|].
    (* a odd *)
    assert (Oa : a mod 2 = 1).
    { pose proof (Z.mod_pos_bound a 2). assert (a mod 2 <> 0) by (intros X; apply Ha, Z.mod_divide; lia). lia. }
    assert (Ob : b mod 2 = 1).
    { pose proof (Z.mod_pos_bound b 2). assert (b mod 2 <> 0); [|lia].
      intros X. destruct D4 as [k Dk].
      pose proof (Z.div_mod a 2 ltac:(lia)). pose proof (Z.div_mod b 2 ltac:(lia)). nia. }
    destruct D4 as [k Dk].
    pose proof (Z.div_mod a 2 ltac:(lia)) as Xa. pose proof (Z.div_mod b 2 ltac:(lia)) as Xb.
    rewrite Oa in Xa. rewrite Ob in Xb.
    apply Hm. symmetry. apply Z.mod_unique with (((a/2)*(a/2) + a/2) - ((b/2)*(b/2) + b/2) * r - k); [lia|].
    set (u := a / 2) in *. set (v := b / 2) in *. nia.
  - apply Ka. assert (X : (d | 2 * a)) by (rewrite E3; apply Z.divide_mul_r; auto).
    destruct (prime_mult d Pd 2 a X) as [X2|X2]; auto.
    apply Z.divide_pos_le in X2; lia.
Qed.

(** ** reduced() *)
Lemma reduce_root_loop_ok t fuel p : forall b r b' r', p <> 0 ->
  reduce_root_loop t fuel p (p * p) b r = Ok (b', r') ->
  exists k, (k <> 0 /\ b' = b * k /\ r = k * k * r') /\ (0 < p -> 0 < k) /\ ~ (p * p | r').
Proof.
  induction fuel as [|fuel IH]; intros b r b' r' Hp H; [discriminate|].
  cbn [reduce_root_loop] in H. stepH H. apply rle_div_rem in E.
  rewrite div_remB in E by nia. inversion E; subst. clear E.
  destruct (Z.eqb_spec (Z.rem r (p * p)) 0) as [E|E].
  - stepH H. change (mulT t b p = Ok a) in E0. apply rle_mul in E0.
    autorewrite with bigi in E0. inversion E0; subst.
    apply IH in H; auto. destruct H as (k & (K1 & K2 & K3) & K4 & K5).
    exists (p * k). split; [|split; [nia|auto]]. split; [nia|]. split; [nia|].
    pose proof (Z.quot_rem r (p * p) ltac:(nia)) as Q. rewrite E, Z.add_0_r in Q.
    rewrite K3 in Q. rewrite Q. ring.
  - inversion H; subst. exists 1. split; [lia|]. split; [lia|].
    intros X. apply E. apply Z.rem_divide; auto. nia.
Qed.

Lemma reduce_root_primes_ok t fuel ps : forall b r b' r',
  (forall p, In p ps -> 0 < p) ->
  reduce_root_primes t fuel ps b r = Ok (b', r') ->
  (exists k, 0 < k /\ b' = b * k /\ r = k * k * r') /\
  (forall p, In p ps -> fits t (p * p) = true -> ~ (p * p | r')).
Proof.
  induction ps as [|p ps IH]; intros b r b' r' Hps H.
  - inversion H; subst. split; [exists 1; lia|]. intros p [].
  - cbn [reduce_root_primes] in H. stepH H.
    unfold checked in E. destruct (fits t p); [|discriminate]. inversion E; subst. clear E.
    assert (Hp : 0 < a) by (apply Hps; left; auto).
    unfold checked_mul, checked in H. destruct (fits t (a * a)) eqn:F.
    + stepH H. destruct a0 as [b1 r1]. apply reduce_root_loop_ok in E; [|lia].
      destruct E as (k & (K1 & K2 & K3) & K4 & K5). specialize (K4 Hp).
      apply IH in H; [|intros; apply Hps; right; auto]. destruct H as ((k' & L1 & L2 & L3) & L4).
      split; [exists (k * k'); split; [nia|]; split; [nia|]; rewrite K3, L3; ring|].
      intros p [Ep|Ip] Fp; [|auto]. subst p. intros [m Hm]. apply K5. exists (k' * k' * m).
      rewrite L3, Hm. ring.
    + apply IH in H; [|intros; apply Hps; right; auto]. destruct H as (Hk & L4).
      split; [auto|]. intros p [Ep|Ip] Fp; [congruence|auto].
Qed.

Lemma small_primes_pos p : In p SMALL_PRIMES -> 0 < p.
Proof.
  assert (X : forallb (fun p => 0 <? p) SMALL_PRIMES = true) by reflexivity.
  rewrite forallb_forall in X. intros H. apply Z.ltb_lt. auto.
Qed.

Opaque SMALL_PRIMES reduce_root_primes.
Lemma surd_reduced_ok g t fuel s s' : normal g s -> surd_reduced t fuel s = Ok s' ->
  normal g s' /\ sval s' = sval s /\
  (forall p, In p SMALL_PRIMES -> fits t (p * p) = true -> (p * p | discr s') -> discr s' = 0).
Proof.
  intros N H. pose proof (normal_okc _ _ N) as O. destruct s as [[a b c] r]. unfold surd_reduced in H.
  pose proof small_primes_pos as HP. revert H HP. generalize SMALL_PRIMES. intros ps H HP.
  stepH H. destruct a0 as [b1 r1].
  apply reduce_root_primes_ok in E; [|apply HP].
  destruct E as ((k & K1 & K2 & K3) & K4).
  apply rle_surd_reduce in H. unfold okc in O. cbn [coeffs c2] in O.
  destruct (surd_reduce_spec a b1 c r1 O) as (s'' & E & V & R).
  unfold new_raw in H. unfold new_raw in E. rewrite H in E. inversion E; subst s''. clear E.
  assert (Hr : cplx g = false -> 0 <= r1).
  { intros G. destruct N as (_ & _ & _ & N). specialize (N G). cbn [discr] in N. rewrite K3 in N. nia. }
  split; [eapply reduced_normal; eauto|]. split.
  - rewrite V, (sval_fval (Surd (SCo a b c) r)). cbn [coeffs c0 c1 c2 discr].
    rewrite K2, K3. unfold fval. rewrite csqrt_scale by lia. rewrite !ZtoC_mul. f_equal. ring.
  - intros p Ip Fp [m Hm]. specialize (K4 p Ip Fp). unfold reduced_from, parts in R.
    destruct R as (_ & _ & [[_ R]|(_ & _ & k' & R1 & R2)]); [auto|].
    exfalso. apply K4. exists (k' * k' * m). rewrite R2, Hm. ring.
Qed.

Transparent SMALL_PRIMES reduce_root_primes.
Lemma reduce_root_loop_total fuel p : forall b r, 2 <= p -> r <> 0 ->
  (Z.log2 (Z.abs r) < Z.of_nat fuel) ->
  exists b' r', reduce_root_loop BigI fuel p (p * p) b r = Ok (b', r') /\ r' <> 0 /\ Z.log2 (Z.abs r') <= Z.log2 (Z.abs r).
Proof.
  induction fuel as [|fuel IH]; intros b r Hp Hr Hf.
  - pose proof (Z.log2_nonneg (Z.abs r)). lia.
  - cbn [reduce_root_loop]. rewrite div_remB by nia. bigi.
    destruct (Z.eqb_spec (Z.rem r (p * p)) 0) as [E|E].
    + pose proof (Z.quot_rem r (p * p) ltac:(nia)) as Q. rewrite E, Z.add_0_r in Q.
      set (r2 := Z.quot r (p * p)) in *. clearbody r2. clear E.
      assert (Hr2 : r2 <> 0) by (intros X; rewrite X in Q; lia).
      assert (Hl : Z.log2 (Z.abs r2) < Z.log2 (Z.abs r)).
      { assert (Hle : 2 * Z.abs r2 <= Z.abs r).
        { rewrite Q, Z.abs_mul, (Z.abs_eq (p * p)) by nia.
          assert (2 <= p * p) by nia. pose proof (Z.abs_nonneg r2). nia. }
        pose proof (Z.log2_double (Z.abs r2) ltac:(lia)) as L.
        pose proof (Z.log2_le_mono _ _ Hle). lia. }
      destruct (IH (b * p) r2 Hp Hr2 ltac:(lia)) as (b' & r' & E' & R' & L').
      exists b', r'. rewrite E'. split; [auto|]. split; [auto|lia].
    + eexists _, _. split; [reflexivity|]. split; [auto|lia].
Qed.

Lemma reduce_root_primes_total fuel ps : forall b r, (forall p, In p ps -> 2 <= p) -> r <> 0 ->
  (Z.log2 (Z.abs r) < Z.of_nat fuel) ->
  exists b' r', reduce_root_primes BigI fuel ps b r = Ok (b', r').
Proof.
  induction ps as [|p ps IH]; intros b r Hps Hr Hf; [eexists _, _; reflexivity|].
  cbn [reduce_root_primes]. unfold checked_mul, checked. cbn [fits unwrap]. bigi.
  destruct (reduce_root_loop_total fuel p b r) as (b' & r' & E & R & L); auto; [apply Hps; left; auto|].
  rewrite E. bigi. apply IH; auto; [intros; apply Hps; right; auto|lia].
Qed.

Lemma small_primes_ge2 p : In p SMALL_PRIMES -> 2 <= p.
Proof.
  assert (X : forallb (fun p => 2 <=? p) SMALL_PRIMES = true) by reflexivity.
  rewrite forallb_forall in X. intros H. apply Z.leb_le. auto.
Qed.

Lemma surd_reduced_total g s : normal g s -> ~ rational_num (sval s) ->
  exists fuel, returns (surd_reduced BigI fuel s).
Proof.
  intros N I. pose proof (normal_okc _ _ N) as O.
  assert (D : discr s <> 0).
  { intros X. apply I. apply (normal_is_rational g s N). apply (normal_discr0 g s N). auto. }
  destruct s as [[a b c] r]. exists (S (Z.to_nat (Z.log2 (Z.abs r)))).
  unfold surd_reduced. cbn [discr] in D.
  destruct (reduce_root_primes_total (S (Z.to_nat (Z.log2 (Z.abs r)))) SMALL_PRIMES b r) as (b' & r' & E).
  - apply small_primes_ge2.
  - auto.
  - rewrite Nat2Z.inj_succ, Z2Nat.id by apply Z.log2_nonneg. lia.
  - rewrite E. bigi. unfold okc in O. cbn [coeffs c2] in O.
    destruct (surd_reduce_spec a b' c r' O) as (s'' & E' & _). exists s''. exact E'.
Qed.

Lemma reduce_root_loop_zero t fuel p : forall b, p <> 0 -> ~ returns (reduce_root_loop t fuel p (p * p) b 0).
Proof.
  induction fuel as [|fuel IH]; intros b Hp [v H]; [discriminate|].
  cbn [reduce_root_loop] in H. stepH H. apply rle_div_rem in E. rewrite div_remB in E by nia.
  rewrite Z.rem_0_l, Z.quot_0_l in E by nia. inversion E; subst. cbn [Z.eqb] in H.
  stepH H. apply (IH a Hp). exists v. auto.
Qed.

Lemma reduce_root_primes_hang fuel ps b : reduce_root_primes BigI fuel (2 :: ps) b 0 = Hang.
Proof.
  cbn [reduce_root_primes]. unfold checked_mul, checked. cbn [fits unwrap]. bigi.
  assert (X : forall n b, reduce_root_loop BigI n 2 (2 * 2) b 0 = Hang).
  { induction n as [|n IHn]; intros b0; [reflexivity|]. cbn [reduce_root_loop].
    rewrite div_remB by lia. bigi. rewrite Z.rem_0_l, Z.quot_0_l by lia. cbn [Z.eqb]. apply IHn. }
  rewrite X. reflexivity.
Qed.

Lemma surd_reduced_hang g s : normal g s -> rational_num (sval s) ->
  forall fuel, surd_reduced BigI fuel s = Hang.
Proof.
  intros N I fuel. apply (normal_is_rational g s N) in I. apply (normal_discr0 g s N) in I.
  destruct s as [[a b c] r]. cbn [discr] in I. subst r. unfold surd_reduced, SMALL_PRIMES.
  rewrite reduce_root_primes_hang. reflexivity.
Qed.
