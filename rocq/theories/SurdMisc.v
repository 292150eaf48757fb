(** * SurdMisc: from_rationals, from_equation, conversions, square roots. *)

From Coq Require Import ZArith Znumtheory Reals Lia Lra Bool List.
From Coquelicot Require Import Coquelicot.
From Verif Require Import Base Ext ModelSurd Spec Transfer NumFacts SurdCore RatioFacts SurdArith SurdTotal SurdOrd SurdRound.
Open Scope Z_scope.

(** ** Ratio operations over any integer type *)
Ltac ratio_ok H L B :=
  apply L in H; destruct B as (q' & E & V & Lq); auto; rewrite H in E; inversion E; subst; auto.
Lemma ratio_add_ok t x y q : okd x -> okd y -> ratio_add t x y = Ok q ->
  rval q = (rval x + rval y)%R /\ lowest q.
Proof. intros Hx Hy H. ratio_ok H rle_ratio_add (ratio_add_big x y). Qed.
Lemma ratio_sub_ok t x y q : okd x -> okd y -> ratio_sub t x y = Ok q ->
  rval q = (rval x - rval y)%R /\ lowest q.
Proof. intros Hx Hy H. ratio_ok H rle_ratio_sub (ratio_sub_big x y). Qed.
Lemma ratio_mul_ok t x y q : okd x -> okd y -> ratio_mul t x y = Ok q ->
  rval q = (rval x * rval y)%R /\ lowest q.
Proof. intros Hx Hy H. ratio_ok H rle_ratio_mul (ratio_mul_big x y). Qed.
Lemma ratio_sub_int_ok t x k q : okd x -> ratio_sub_int t x k = Ok q ->
  rval q = (rval x - IZR k)%R /\ lowest q.
Proof. intros Hx H. ratio_ok H rle_ratio_sub_int (ratio_sub_int_big x k). Qed.
Lemma ratio_add_int_ok t x k q : okd x -> ratio_add_int t x k = Ok q ->
  rval q = (rval x + IZR k)%R /\ lowest q.
Proof. intros Hx H. ratio_ok H rle_ratio_add_int (ratio_add_int_big x k). Qed.
Lemma ratio_div_ok t x y q : okd x -> okd y -> ratio_div t x y = Ok q ->
  numer y <> 0 /\ rval q = (rval x / rval y)%R /\ lowest q.
Proof.
  intros Hx Hy H. apply rle_ratio_div in H.
  destruct (Z.eq_dec (numer y) 0) as [E|E].
  - exfalso. exact (ratio_div_zero x y Hx Hy E q H).
  - split; [auto|]. destruct (ratio_div_big x y Hx Hy E) as (q' & E' & V & L).
    rewrite H in E'. inversion E'; subst; auto.
Qed.
Lemma ratio_neg_ok t x q : okd x -> ratio_neg t x = Ok q ->
  rval q = (- rval x)%R /\ (lowest x -> lowest q) /\ okd q.
Proof.
  intros Hx H. apply rle_ratio_neg in H. destruct (ratio_neg_big x Hx) as (q' & E & V & L).
  rewrite H in E. inversion E; subst; auto.
Qed.
Lemma ratio_recip_ok t x q : okd x -> ratio_recip t x = Ok q ->
  numer x <> 0 /\ rval q = (/ rval x)%R /\ (lowest x -> lowest q) /\ okd q.
Proof.
  intros Hx H. apply rle_ratio_recip in H.
  destruct (Z.eq_dec (numer x) 0) as [E|E].
  - unfold ratio_recip in H. rewrite E in H. discriminate.
  - split; [auto|]. destruct (ratio_recip_big x Hx E) as (q' & E' & V & L).
    rewrite H in E'. inversion E'; subst; auto.
Qed.

(** ** Square roots of rationals *)
Lemma rcsqrt_IZR r : rcsqrt (IZR r) = csqrt r.
Proof.
  unfold rcsqrt, csqrt. destruct (Rlt_dec (IZR r) 0) as [H|H], (Z.ltb_spec r 0) as [J|J]; auto.
  - rewrite opp_IZR. auto.
  - apply lt_IZR in H. lia.
  - exfalso. apply H. apply IZR_lt. auto.
Qed.

Lemma rcsqrt_sq x : (rcsqrt x * rcsqrt x)%C = RtoC x.
Proof.
  unfold rcsqrt. destruct (Rlt_dec x 0) as [H|H].
  - unfold Cmult, RtoC; cbn [fst snd]. f_equal; [|ring].
    replace (0 * 0 - sqrt (- x) * sqrt (- x))%R with (- (sqrt (- x) * sqrt (- x)))%R by ring.
    rewrite sqrt_sqrt by lra. ring.
  - rewrite <- RtoC_mult, sqrt_sqrt by lra. reflexivity.
Qed.

Lemma rcsqrt_ratio q : 0 < denom q ->
  rcsqrt (rval q) = (csqrt (numer q * denom q) / ZtoC (denom q))%C.
Proof.
  intros Hd. destruct q as [n d]. unfold rval. cbn [numer denom] in *.
  assert (Hdp : (0 < IZR d)%R) by (apply IZR_lt; auto).
  assert (E : (IZR n / IZR d)%R = (IZR (n * d) / (IZR d * IZR d))%R) by (rewrite mult_IZR; field; lra).
  assert (Hi : (0 < / (IZR d * IZR d))%R) by (apply Rinv_0_lt_compat; nra).
  rewrite <- rcsqrt_IZR. unfold rcsqrt.
  destruct (Rlt_dec (IZR n / IZR d) 0) as [H|H], (Rlt_dec (IZR (n * d)) 0) as [J|J].
  - rewrite E. replace (- (IZR (n * d) / (IZR d * IZR d)))%R with (- IZR (n * d) / (IZR d * IZR d))%R by (field; lra).
    rewrite sqrt_div by nra. rewrite sqrt_square by lra.
    unfold ZtoC, RtoC, Cdiv, Cinv, Cmult; cbn [fst snd]. f_equal; field; lra.
  - exfalso. rewrite E in H. unfold Rdiv in H. nra.
  - exfalso. rewrite E in H. unfold Rdiv in H. nra.
  - rewrite E. rewrite sqrt_div by nra. rewrite sqrt_square by lra.
    unfold ZtoC. rewrite RtoC_div by lra. reflexivity.
Qed.

Lemma surd_from_rationals_ok g t a b r s : okd a -> okd b -> 0 < denom r ->
  surd_from_rationals g t a b r = Ok s ->
  sval s = (qC a + qC b * rcsqrt (rval r))%C /\ normal g s.
Proof.
  intros Ha Hb Hr H. apply rle_surd_from_rationals in H. unfold surd_from_rationals in H.
  destruct (negb (cplx g) && ratio_is_negative r) eqn:E; [discriminate|].
  autorewrite with bigi in H.
  assert (Hg : cplx g = false -> 0 <= numer r * denom r).
  { intros X. rewrite X in E. cbn [negb andb] in E.
    apply ratio_is_negative_false in E; [|unfold okd; lia]. unfold rval in E.
    apply le_IZR. rewrite mult_IZR. assert (D : (0 < IZR (denom r))%R) by (apply IZR_lt; auto).
    replace (IZR (numer r)) with (IZR (numer r) / IZR (denom r) * IZR (denom r))%R by (field; lra). nra. }
  assert (H' : surd_new g BigI (numer a * (denom b * denom r)) (numer b * denom a)
     (denom a * (denom b * denom r)) (numer r * denom r) = Ok s).
  { unfold surd_new. destruct (negb (cplx g) && (numer r * denom r <? 0)) eqn:X; [|exact H].
    apply andb_prop in X. destruct X as [X1 X2]. apply negb_true_iff in X1. apply Z.ltb_lt in X2.
    specialize (Hg X1). lia. }
  apply surd_new_ok in H'. destruct H' as (Hc & _ & V & N & _). split; [|auto].
  rewrite V, rcsqrt_ratio, !qC_eq by auto. unfold fval. rewrite !ZtoC_mul.
  unfold okd in *. field. repeat split; auto. apply ZtoC_neq0. lia.
Qed.

Lemma surd_from_rationals_total g a b r : okd a -> okd b -> 0 < denom r ->
  (cplx g = false -> (0 <= rval r)%R) -> returns (surd_from_rationals g BigI a b r).
Proof.
  intros Ha Hb Hr Hg. unfold surd_from_rationals.
  destruct (negb (cplx g) && ratio_is_negative r) eqn:E.
  { apply andb_prop in E. destruct E as [E1 E2]. apply negb_true_iff in E1.
    specialize (Hg E1). apply rval_neg in E2; [lra|unfold okd; lia]. }
  bigi.
  destruct (surd_reduce_spec (numer a * (denom b * denom r)) (numer b * denom a)
     (denom a * (denom b * denom r)) (numer r * denom r)) as (s & Es & _).
  - unfold okd in *. apply Z.neq_mul_0; split; auto. apply Z.neq_mul_0; split; auto. lia.
  - exists s. exact Es.
Qed.

Lemma surd_from_rationals_panics g a b r : 0 < denom r ->
  cplx g = false -> (rval r < 0)%R -> forall t, surd_from_rationals g t a b r = Panic PNegRoot.
Proof.
  intros Hr Hg Hn t. unfold surd_from_rationals. rewrite Hg.
  apply rval_neg in Hn; [|unfold okd; lia]. rewrite Hn. reflexivity.
Qed.

(** ** From<T>, From<Ratio> *)
Lemma surd_of_int_spec g n : sval (surd_of_int n) = ZtoC n /\ normal g (surd_of_int n).
Proof.
  split.
  - rewrite sval_fval. cbn [surd_of_int coeffs c0 c1 c2 discr]. rewrite fval_b0, ZtoC_1. field.
    intros X; apply RtoC_inj in X; lra.
  - unfold normal, parts, surd_of_int; cbn [coeffs c0 c1 c2 discr].
    repeat split; try lia; try (rewrite Z.gcd_1_r; auto); auto.
Qed.
Lemma surd_of_ratio_spec g q : lowest q -> sval (surd_of_ratio q) = qC q /\ normal g (surd_of_ratio q).
Proof.
  intros L. pose proof (lowest_okd q L). destruct L as [L1 L2]. split.
  - rewrite sval_fval. cbn [surd_of_ratio coeffs c0 c1 c2 discr]. rewrite fval_b0, qC_eq by auto. auto.
  - unfold normal, parts, surd_of_ratio; cbn [coeffs c0 c1 c2 discr].
    rewrite Z.gcd_0_r, Z.gcd_abs_l. repeat split; auto; lia.
Qed.

(** ** from_equation *)
Lemma surd_from_equation_ok g t a b c s : lowest a -> lowest b -> lowest c ->
  surd_from_equation g t a b c = Ok (Some s) ->
  normal g s /\ (qC a * (sval s * sval s) + qC b * sval s + qC c = RtoC 0)%C /\
  (forall x, (0 < rval a)%R -> sval s = RtoC x -> forall y,
     (rval a * (y * y) + rval b * y + rval c = 0)%R -> (y <= x)%R).
Proof.
  intros La Lb Lc H. pose proof (lowest_okd _ La) as Oa. pose proof (lowest_okd _ Lb) as Ob.
  pose proof (lowest_okd _ Lc) as Oc.
  apply rle_surd_from_equation in H. unfold surd_from_equation in H.
  unfold ratio_is_zero in H. destruct (Z.eqb_spec (numer a) 0) as [Ea|Ea].
  - apply rval_zero in Ea; auto.
    destruct (Z.eqb_spec (numer b) 0) as [Eb|Eb]; [discriminate|].
    stepH H. apply ratio_neg_ok in E; auto. destruct E as (V1 & L1 & O1).
    stepH H. apply ratio_div_ok in E; auto. destruct E as (_ & V2 & L2). inversion H; subst.
    destruct (surd_of_ratio_spec g a1 L2) as [V N]. split; [auto|]. rewrite V. unfold qC.
    split; [|intros x Hx; lra].
    rewrite Ea, V2, V1. rewrite <- !RtoC_mult, <- !RtoC_plus. f_equal.
    field. intros X. apply rval_zero in X; auto.
  - assert (Ha : (rval a <> 0)%R) by (intros X; apply rval_zero in X; auto).
    autorewrite with bigi in H. stepH H. apply ratio_mul_ok in E; auto. destruct E as (V1 & L1).
    destruct (ratio_of_spec ((1 + 1) * (1 + 1))) as [Vf Lf].
    destruct (ratio_of_spec (1 + 1)) as [Vt Lt].
    stepH H. apply ratio_mul_ok in E; auto. destruct E as (V2 & L2).
    stepH H. apply ratio_mul_ok in E; auto. destruct E as (V3 & L3).
    stepH H. apply ratio_sub_ok in E; auto. destruct E as (V4 & L4).
    destruct (negb (cplx g) && ratio_is_negative a3); [discriminate|].
    stepH H. apply ratio_mul_ok in E; auto. destruct E as (V5 & L5).
    stepH H. apply ratio_neg_ok in E; auto. destruct E as (V6 & L6 & O6).
    stepH H. apply ratio_recip_ok in E; auto. destruct E as (_ & V7 & L7 & O7).
    stepH H. apply ratio_mul_ok in E; auto. destruct E as (V8 & L8).
    stepH H. apply surd_from_rationals_ok in E; auto; [|apply L4]. inversion H; subst. clear H.
    destruct E as (V & N). split; [auto|].
    rewrite Vt in V5. rewrite Vf in V2. rewrite V1, V3, V2 in V4.
    rewrite V5 in V7. rewrite V6, V7 in V8.
    assert (Ef : IZR ((1 + 1) * (1 + 1)) = 4%R) by reflexivity. assert (Et : IZR (1 + 1) = 2%R) by reflexivity.
    rewrite Ef in *. rewrite Et in *.
    unfold qC in V. rewrite V8, V7 in V.
    pose proof (rcsqrt_sq (rval a3)) as Sq. set (w := rcsqrt (rval a3)) in *.
    set (A := rval a) in *. set (B := rval b) in *. set (C := rval c) in *.
    assert (Dl : rval a3 = (B * B - 4 * A * C)%R) by lra.
    split.
    + assert (V' : sval s = ((w - RtoC B) / (RtoC 2 * RtoC A))%C).
      { rewrite V.
        replace (RtoC (- B * / (2 * A))) with (- RtoC B / (RtoC 2 * RtoC A))%C.
        2:{ rewrite <- RtoC_opp, <- RtoC_mult, <- RtoC_div by lra. reflexivity. }
        replace (RtoC (/ (2 * A))) with (/ (RtoC 2 * RtoC A))%C.
        2:{ rewrite <- RtoC_mult, <- RtoC_inv by lra. reflexivity. }
        field. split; intros X; apply RtoC_inj in X; lra. }
      rewrite V'. rewrite Dl in Sq.
      assert (Sq' : (w * w)%C = (RtoC B * RtoC B - RtoC 4 * RtoC A * RtoC C)%C).
      { rewrite Sq. rewrite RtoC_minus, !RtoC_mult. reflexivity. }
      unfold qC. fold A B C.
      assert (H2 : RtoC 2 = (RtoC 1 + RtoC 1)%C) by (rewrite <- RtoC_plus; f_equal; lra).
      assert (H4 : RtoC 4 = ((RtoC 1 + RtoC 1) * (RtoC 1 + RtoC 1))%C)
        by (rewrite <- RtoC_plus, <- RtoC_mult; f_equal; lra).
      assert (NA : RtoC A <> RtoC 0) by (intros X; apply RtoC_inj in X; lra).
      assert (N2 : (RtoC 1 + RtoC 1)%C <> RtoC 0) by (rewrite <- H2; intros X; apply RtoC_inj in X; lra).
      rewrite H2.
      transitivity ((w * w - RtoC B * RtoC B + (RtoC 1 + RtoC 1) * (RtoC 1 + RtoC 1) * RtoC A * RtoC C)
         / ((RtoC 1 + RtoC 1) * (RtoC 1 + RtoC 1) * RtoC A))%C.
      { field. repeat split; auto; intros X; apply (f_equal fst) in X; cbn in X; lra. }
      rewrite Sq', H4. field. repeat split; auto; intros X; apply (f_equal fst) in X; cbn in X; lra.
    + intros x HA Ex y Hy. rewrite Ex in V.
      (* the discriminant is non-negative since y is a real root *)
      assert (Hd : (0 <= rval a3)%R).
      { rewrite Dl. replace (B * B - 4 * A * C)%R with ((2 * A * y + B) * (2 * A * y + B) - 4 * A * (A * (y * y) + B * y + C))%R by ring.
        rewrite Hy. pose proof (Rle_0_sqr (2 * A * y + B)) as Q. unfold Rsqr in Q. lra. }
      assert (Ew : w = RtoC (sqrt (rval a3))).
      { unfold w, rcsqrt. destruct (Rlt_dec (rval a3) 0); [lra|auto]. }
      rewrite Ew, <- RtoC_mult, <- RtoC_plus in V. apply RtoC_inj in V.
      assert (Hx : (2 * A * x + B = sqrt (rval a3))%R) by (rewrite V; field; lra).
      assert (Hsq : ((2 * A * y + B) * (2 * A * y + B) = sqrt (rval a3) * sqrt (rval a3))%R).
      { rewrite sqrt_sqrt by auto. rewrite Dl.
        replace (B * B - 4 * A * C)%R with ((2 * A * y + B) * (2 * A * y + B) - 4 * A * (A * (y * y) + B * y + C))%R by ring.
        rewrite Hy. ring. }
      pose proof (sqrt_pos (rval a3)) as Hp.
      assert (Hle : (2 * A * y + B <= sqrt (rval a3))%R) by nra.
      rewrite <- Hx in Hle. apply Rmult_le_reg_l with (2 * A)%R; lra.
Qed.

Lemma surd_from_equation_total g a b c : lowest a -> lowest b -> lowest c ->
  exists o, surd_from_equation g BigI a b c = Ok o /\
    (o = None <-> (rval a = 0 /\ rval b = 0)%R \/
       (cplx g = false /\ (rval a <> 0)%R /\ (rval b * rval b - 4 * rval a * rval c < 0)%R)).
Proof.
  intros La Lb Lc. pose proof (lowest_okd _ La) as Oa. pose proof (lowest_okd _ Lb) as Ob.
  pose proof (lowest_okd _ Lc) as Oc. unfold surd_from_equation, ratio_is_zero.
  destruct (Z.eqb_spec (numer a) 0) as [Ea|Ea].
  - pose proof (proj2 (rval_zero a Oa) Ea) as Ha.
    destruct (Z.eqb_spec (numer b) 0) as [Eb|Eb].
    + pose proof (proj2 (rval_zero b Ob) Eb). exists None. split; [auto|]. split; auto.
    + destruct (ratio_neg_big c Oc) as (q1 & E1 & V1 & L1 & O1). rewrite E1. bigi.
      destruct (ratio_div_big q1 b O1 Ob Eb) as (q2 & E2 & V2 & L2). rewrite E2. bigi.
      eexists. split; [reflexivity|]. split; [discriminate|].
      assert (rval b <> 0)%R by (intros X; apply rval_zero in X; auto).
      intros [[_ X]|[_ [X _]]]; contradiction.
  - assert (Ha : (rval a <> 0)%R) by (intros X; apply rval_zero in X; auto).
    bigi. destruct (ratio_mul_big b b Ob Ob) as (q1 & E1 & V1 & L1). rewrite E1. bigi.
    destruct (ratio_of_spec ((1 + 1) * (1 + 1))) as [Vf Lf].
    destruct (ratio_of_spec (1 + 1)) as [Vt Lt].
    destruct (ratio_mul_big (ratio_of ((1 + 1) * (1 + 1))) a) as (q2 & E2 & V2 & L2); auto. rewrite E2. bigi.
    destruct (ratio_mul_big q2 c) as (q3 & E3 & V3 & L3); auto. rewrite E3. bigi.
    destruct (ratio_sub_big q1 q3) as (q4 & E4 & V4 & L4); auto. rewrite E4. bigi.
    assert (Dl : rval q4 = (rval b * rval b - 4 * rval a * rval c)%R).
    { rewrite V4, V1, V3, V2, Vf. replace (IZR ((1 + 1) * (1 + 1))) with 4%R by reflexivity. ring. }
    destruct (negb (cplx g) && ratio_is_negative q4) eqn:En.
    + exists None. split; [auto|]. split; [|auto]. intros _. right.
      apply andb_prop in En. destruct En as [En1 En2]. apply negb_true_iff in En1.
      apply rval_neg in En2; auto. rewrite Dl in En2. auto.
    + destruct (ratio_mul_big (ratio_of (1 + 1)) a) as (q5 & E5 & V5 & L5); auto. rewrite E5. bigi.
      destruct (ratio_neg_big b Ob) as (q6 & E6 & V6 & L6 & O6). rewrite E6. bigi.
      assert (H5 : numer q5 <> 0).
      { intros X. apply rval_zero in X; auto. rewrite V5, Vt in X.
        replace (IZR (1 + 1)) with 2%R in X by reflexivity. lra. }
      destruct (ratio_recip_big q5) as (q7 & E7 & V7 & L7 & O7); auto. rewrite E7. bigi.
      destruct (ratio_mul_big q6 q7) as (q8 & E8 & V8 & L8); auto. rewrite E8. bigi.
      assert (Hg : cplx g = false -> (0 <= rval q4)%R).
      { intros X. rewrite X in En. cbn [negb andb] in En. apply ratio_is_negative_false; auto. }
      destruct (surd_from_rationals_total g q8 q7 q4) as [s Es]; auto; [apply L4|].
      rewrite Es. bigi. eexists. split; [reflexivity|]. split; [discriminate|].
      intros [[X _]|[X [_ Y]]]; [contradiction|]. specialize (Hg X). lra.
Qed.

(** ** from_sqrt of integers and rationals *)
Lemma from_sqrt_int_spec g t n res : from_sqrt_int g t n = Ok res ->
  match res with
  | SqOk s => sval s = csqrt n /\ normal g s /\ (cplx g = false -> 0 <= n)
  | SqErr d k => d = n /\ k = EComplex /\ n < 0 /\ cplx g = false
  end.
Proof.
  unfold from_sqrt_int. destruct (negb (cplx g) && (n <? 0)) eqn:E; intros H.
  - inversion H; subst. apply andb_prop in E. destruct E as [E1 E2].
    apply negb_true_iff in E1. apply Z.ltb_lt in E2. auto.
  - destruct (surd_new g t 0 1 1 n) eqn:F; try discriminate. inversion H; subst.
    apply surd_new_ok in F. destruct F as (_ & Hg & V & N & _). split; [|split; auto].
    rewrite V, fval_pure, ZtoC_1. field. intros X; apply RtoC_inj in X; lra.
Qed.
Lemma from_sqrt_int_total g n : returns (from_sqrt_int g BigI n).
Proof.
  unfold from_sqrt_int. destruct (negb (cplx g) && (n <? 0)) eqn:E; [eexists; reflexivity|].
  destruct (surd_new_total g 0 1 1 n) as [s Es]; [lia| |rewrite Es; eexists; reflexivity].
  intros X. rewrite X in E. cbn [negb andb] in E. apply Z.ltb_ge in E. auto.
Qed.

Lemma from_sqrt_ratio_spec g t q res : lowest q -> from_sqrt_ratio g t q = Ok res ->
  match res with
  | SqOk s => sval s = rcsqrt (rval q) /\ normal g s /\ (cplx g = false -> (0 <= rval q)%R)
  | SqErr d k => d = q /\ ((k = EComplex /\ (rval q < 0)%R /\ cplx g = false) \/
                           (k = EOverflow /\ checked_mul t (numer q) (denom q) = None))
  end.
Proof.
  intros L H. pose proof (lowest_okd _ L) as O. unfold from_sqrt_ratio in H.
  destruct (negb (cplx g) && ratio_is_negative q) eqn:E.
  { inversion H; subst. apply andb_prop in E. destruct E as [E1 E2].
    apply negb_true_iff in E1. apply rval_neg in E2; auto. }
  assert (Hg : cplx g = false -> (0 <= rval q)%R).
  { intros X. rewrite X in E. apply ratio_is_negative_false; auto. }
  unfold ratio_is_integer in H. destruct (Z.eqb_spec (denom q) 1) as [D|D].
  { destruct (surd_new g t 0 1 1 (numer q)) eqn:F; try discriminate. inversion H; subst.
    apply surd_new_ok in F. destruct F as (_ & _ & V & N & _). split; [|split; auto].
    rewrite V, fval_pure, rcsqrt_ratio by apply L. rewrite D, Z.mul_1_r, ZtoC_1. field.
    intros X; apply RtoC_inj in X; lra. }
  destruct (checked_mul t (numer q) (denom q)) as [m|] eqn:M.
  - destruct (surd_new g t 0 1 (denom q) m) eqn:F; try discriminate. inversion H; subst.
    apply surd_new_ok in F. destruct F as (_ & _ & V & N & _). split; [|split; auto].
    unfold checked_mul, checked in M. destruct (fits t (numer q * denom q)); [|discriminate].
    inversion M; subst. rewrite V, fval_pure, rcsqrt_ratio by apply L. rewrite ZtoC_1.
    unfold okd in O. cfield.
  - inversion H; subst. split; auto.
Qed.

Lemma from_sqrt_ratio_total g q : lowest q -> returns (from_sqrt_ratio g BigI q).
Proof.
  intros L. pose proof (lowest_okd _ L) as O. unfold from_sqrt_ratio.
  destruct (negb (cplx g) && ratio_is_negative q) eqn:E; [eexists; reflexivity|].
  assert (Hg : cplx g = false -> 0 <= numer q).
  { intros X. rewrite X in E. cbn [negb andb] in E.
    apply ratio_is_negative_false in E; auto. destruct L as [L _].
    apply le_IZR. unfold rval in E. assert (D : (0 < IZR (denom q))%R) by (apply IZR_lt; auto).
    replace (IZR (numer q)) with (IZR (numer q) / IZR (denom q) * IZR (denom q))%R by (field; lra). nra. }
  unfold ratio_is_integer, checked_mul, checked. cbn [fits].
  destruct (denom q =? 1).
  - destruct (surd_new_total g 0 1 1 (numer q)) as [s Es]; [lia|auto|rewrite Es; eexists; reflexivity].
  - destruct (surd_new_total g 0 1 (denom q) (numer q * denom q)) as [s Es];
      [auto| |rewrite Es; eexists; reflexivity].
    intros X. specialize (Hg X). destruct L. nia.
Qed.
