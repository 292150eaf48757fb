(** * SurdArith: surd arithmetic computes with complex numbers. *)

From Coq Require Import ZArith Znumtheory Reals Lia Lra Bool.
From Coquelicot Require Import Coquelicot.
From Verif Require Import Base Ext ModelSurd Spec Transfer NumFacts SurdCore RatioFacts.
Open Scope Z_scope.

Definition okc (s : surd) : Prop := c2 (coeffs s) <> 0.

Lemma normal_okc g s : normal g s -> okc s.
Proof. unfold normal, okc, parts. intros (H & _). lia. Qed.
#[export] Hint Resolve normal_okc ZtoC_neq0 : core.

Lemma sval_fval s : sval s = fval (c0 (coeffs s)) (c1 (coeffs s)) (c2 (coeffs s)) (discr s).
Proof. destruct s as [[a b c] r]. reflexivity. Qed.

Lemma qC_eq q : okd q -> qC q = (ZtoC (numer q) / ZtoC (denom q))%C.
Proof. intros H. unfold qC, rval, ZtoC. rewrite RtoC_div; auto. Qed.

Lemma ratio_new_C t n d q : ratio_new t n d = Ok q ->
  d <> 0 /\ qC q = (ZtoC n / ZtoC d)%C /\ lowest q.
Proof.
  intros H. apply ratio_new_ok in H. destruct H as (Hd & V & L). split; [auto|]. split; [|auto].
  unfold qC. rewrite V. unfold ZtoC. rewrite RtoC_div; auto.
Qed.

Ltac inv H := inversion H; subst; clear H.

(** Break a successful computation over BigInt into its steps *)
Ltac stepH H :=
  match type of H with
  | bind ?m _ = Ok _ =>
      let E := fresh "E" in destruct m eqn:E; [|discriminate H|discriminate H];
      autorewrite with bigi in H
  end.

Ltac cfield := field; repeat split; auto.

(** ** with an integer *)
Section Int.
Context (g : cfg) (t : ity) (s : surd) (k : Z) (s' : surd) (Hs : okc s).

Lemma surd_add_int_ok : surd_add_int g t s k = Ok s' ->
  sval s' = (sval s + ZtoC k)%C /\ normal g s'.
Proof.
  intros H. apply rle_surd_add_int in H. unfold surd_add_int, sco_add_int in H.
  autorewrite with bigi in H. apply surd_from_coeffs_ok in H.
  destruct H as (Hc & Hr & V & N & _). cbn [c0 c1 c2] in *. split; [|auto]. rewrite V, sval_fval.
  unfold fval. autorewrite with ztoc. cfield.
Qed.
Lemma surd_sub_int_ok : surd_sub_int g t s k = Ok s' ->
  sval s' = (sval s - ZtoC k)%C /\ normal g s'.
Proof.
  intros H. apply rle_surd_sub_int in H. unfold surd_sub_int, sco_sub_int in H.
  autorewrite with bigi in H. apply surd_from_coeffs_ok in H.
  destruct H as (Hc & Hr & V & N & _). cbn [c0 c1 c2] in *. split; [|auto]. rewrite V, sval_fval.
  unfold fval. autorewrite with ztoc. cfield.
Qed.
Lemma surd_mul_int_ok : surd_mul_int g t s k = Ok s' ->
  sval s' = (sval s * ZtoC k)%C /\ normal g s'.
Proof.
  intros H. apply rle_surd_mul_int in H. unfold surd_mul_int, sco_mul_int in H.
  autorewrite with bigi in H. apply surd_from_coeffs_ok in H.
  destruct H as (Hc & Hr & V & N & _). cbn [c0 c1 c2] in *. split; [|auto]. rewrite V, sval_fval.
  unfold fval. autorewrite with ztoc. cfield.
Qed.
Lemma surd_div_int_ok : surd_div_int g t s k = Ok s' ->
  k <> 0 /\ sval s' = (sval s / ZtoC k)%C /\ normal g s'.
Proof.
  intros H. apply rle_surd_div_int in H. unfold surd_div_int, sco_div_int in H.
  autorewrite with bigi in H. apply surd_from_coeffs_ok in H.
  destruct H as (Hc & Hr & V & N & _). cbn [c0 c1 c2] in *.
  assert (Hk : k <> 0) by (intro; subst k; lia). split; [auto|]. split; [|auto]. rewrite V, sval_fval.
  unfold fval. autorewrite with ztoc. cfield.
Qed.
End Int.

(** ** with a rational *)
Section Rat.
Context (g : cfg) (t : ity) (s : surd) (q : ratio) (s' : surd) (Hs : okc s) (Hq : okd q).

Lemma surd_add_ratio_ok : surd_add_ratio g t s q = Ok s' ->
  sval s' = (sval s + qC q)%C /\ normal g s'.
Proof.
  intros H. apply rle_surd_add_ratio in H. unfold surd_add_ratio, sco_add_ratio in H.
  rewrite qC_eq by auto. unfold okd in *.
  destruct s as [[a b c] r], q as [n d]. unfold okc in *. cbn [coeffs discr c2 numer denom] in *.
  destruct (Z.eqb_spec c d) as [->|Hcd];
    autorewrite with bigi in H; apply surd_from_coeffs_ok in H;
    destruct H as (Hc & Hr & V & N & _); cbn [c0 c1 c2] in *;
    (split; [|auto]); rewrite V, sval_fval;
    unfold fval; cbn [c0 c1 c2 coeffs discr]; autorewrite with ztoc; cfield.
Qed.
Lemma surd_sub_ratio_ok : surd_sub_ratio g t s q = Ok s' ->
  sval s' = (sval s - qC q)%C /\ normal g s'.
Proof.
  intros H. apply rle_surd_sub_ratio in H. unfold surd_sub_ratio, sco_sub_ratio in H.
  rewrite qC_eq by auto. unfold okd in *.
  destruct s as [[a b c] r], q as [n d]. unfold okc in *. cbn [coeffs discr c2 numer denom] in *.
  destruct (Z.eqb_spec c d) as [->|Hcd];
    autorewrite with bigi in H; apply surd_from_coeffs_ok in H;
    destruct H as (Hc & Hr & V & N & _); cbn [c0 c1 c2] in *;
    (split; [|auto]); rewrite V, sval_fval;
    unfold fval; cbn [c0 c1 c2 coeffs discr]; autorewrite with ztoc; cfield.
Qed.
Lemma surd_mul_ratio_ok : surd_mul_ratio g t s q = Ok s' ->
  sval s' = (sval s * qC q)%C /\ normal g s'.
Proof.
  intros H. apply rle_surd_mul_ratio in H. unfold surd_mul_ratio, sco_mul_ratio in H.
  rewrite qC_eq by auto. unfold okd in *.
  destruct s as [[a b c] r], q as [n d]. unfold okc in *. cbn [coeffs discr c2 numer denom] in *.
    autorewrite with bigi in H; apply surd_from_coeffs_ok in H;
    destruct H as (Hc & Hr & V & N & _); cbn [c0 c1 c2] in *;
    (split; [|auto]); rewrite V, sval_fval;
    unfold fval; cbn [c0 c1 c2 coeffs discr]; autorewrite with ztoc; cfield.
Qed.
Lemma surd_div_ratio_ok : surd_div_ratio g t s q = Ok s' ->
  numer q <> 0 /\ sval s' = (sval s / qC q)%C /\ normal g s'.
Proof.
  intros H. apply rle_surd_div_ratio in H. unfold surd_div_ratio, sco_div_ratio in H.
  rewrite qC_eq by auto. unfold okd in *.
  destruct s as [[a b c] r], q as [n d]. unfold okc in *. cbn [coeffs discr c2 numer denom] in *.
    autorewrite with bigi in H; apply surd_from_coeffs_ok in H;
    destruct H as (Hc & Hr & V & N & _); cbn [c0 c1 c2 coeffs numer denom] in *.
  assert (Hn : n <> 0) by (intro; subst n; lia). split; [auto|].
    (split; [|auto]); rewrite V, sval_fval;
    unfold fval; cbn [c0 c1 c2 coeffs discr]; autorewrite with ztoc; cfield.
Qed.
End Rat.

(** ** Unary operations *)

Lemma csqrt_conj_mul a b r :
  ((ZtoC a + ZtoC b * csqrt r) * (ZtoC a - ZtoC b * csqrt r))%C = ZtoC (a * a - b * b * r).
Proof.
  autorewrite with ztoc. rewrite <- (csqrt_sq r). ring.
Qed.

Lemma numer_neq0 a b r : a * a - b * b * r <> 0 -> (ZtoC a + ZtoC b * csqrt r)%C <> RtoC 0.
Proof.
  intros H E. apply H. apply ZtoC_inj. rewrite <- csqrt_conj_mul, E. rewrite ZtoC_0. ring.
Qed.

Lemma fval_neq0 a b c r : c <> 0 -> a * a - b * b * r <> 0 -> fval a b c r <> RtoC 0.
Proof.
  intros Hc H E. apply (numer_neq0 a b r H).
  unfold fval in E. replace (ZtoC a + ZtoC b * csqrt r)%C
    with ((ZtoC a + ZtoC b * csqrt r) / ZtoC c * ZtoC c)%C by cfield.
  rewrite E. ring.
Qed.

Lemma fval_conj_neq0 a b r : a * a - b * b * r <> 0 -> (ZtoC a - ZtoC b * csqrt r)%C <> RtoC 0.
Proof.
  intros H E. apply H. apply ZtoC_inj. rewrite <- csqrt_conj_mul, E. rewrite ZtoC_0. ring.
Qed.

Lemma surd_recip_ok g t s s' : okc s -> surd_recip g t s = Ok s' ->
  sval s <> RtoC 0 /\ sval s' = (/ sval s)%C /\ normal g s'.
Proof.
  intros Hs H. apply rle_surd_recip in H. unfold surd_recip in H.
  destruct s as [[a b c] r]. unfold okc in Hs; cbn [coeffs c2] in Hs.
  autorewrite with bigi in H. apply surd_new_ok in H. destruct H as (Hz & _ & V & N & _).
  assert (Hn : a * a - b * b * r <> 0) by lia.
  rewrite sval_fval. cbn [coeffs c0 c1 c2 discr].
  split; [apply fval_neq0; auto|]. split; [|auto].
  rewrite V. unfold fval.
  replace (b * b * r - a * a) with (- (a * a - b * b * r)) by ring.
  rewrite (ZtoC_opp (a * a - b * b * r)), <- csqrt_conj_mul. autorewrite with ztoc.
  field. repeat split; auto using numer_neq0, fval_conj_neq0.
rewrite csqrt_conj_mul, <- ZtoC_opp. apply ZtoC_neq0. lia.
Qed.

Lemma surd_conj_ok t s s' : surd_conj t s = Ok s' ->
  sval s' = sconj s /\ parts s' = (c0 (coeffs s), - c1 (coeffs s), c2 (coeffs s), discr s).
Proof.
  intros H. apply rle_surd_conj in H. destruct s as [[a b c] r]. cbn in H. inv H.
  split; [|reflexivity]. unfold sval, sconj, parts; cbn [coeffs c0 c1 c2 discr].
  autorewrite with ztoc. unfold Cdiv. ring.
Qed.

Lemma surd_neg_ok t s s' : surd_neg t s = Ok s' ->
  sval s' = (- sval s)%C /\ parts s' = (- c0 (coeffs s), - c1 (coeffs s), c2 (coeffs s), discr s).
Proof.
  intros H. apply rle_surd_neg in H. destruct s as [[a b c] r]. cbn in H. inv H.
  split; [|reflexivity]. unfold sval, sconj, parts; cbn [coeffs c0 c1 c2 discr].
  unfold new_raw; cbn [coeffs c0 c1 c2 discr]. autorewrite with ztoc. unfold Cdiv. ring.
Qed.

Lemma normal_neg g s s' : normal g s ->
  parts s' = (- c0 (coeffs s), - c1 (coeffs s), c2 (coeffs s), discr s) -> normal g s'.
Proof.
  unfold normal. intros H ->. destruct s as [[a b c] r]. cbn in *.
  destruct H as (H1 & H2 & H3 & H4). repeat split; auto.
  - rewrite Z.gcd_opp_l, Z.gcd_opp_r. auto.
  - destruct H3 as [[-> ->]|[H3 H5]]; [left; auto|right; split; [lia|auto]].
Qed.
Lemma normal_conj g s s' : normal g s ->
  parts s' = (c0 (coeffs s), - c1 (coeffs s), c2 (coeffs s), discr s) -> normal g s'.
Proof.
  unfold normal. intros H ->. destruct s as [[a b c] r]. cbn in *.
  destruct H as (H1 & H2 & H3 & H4). repeat split; auto.
  - rewrite Z.gcd_opp_r. auto.
  - destruct H3 as [[-> ->]|[H3 H5]]; [left; auto|right; split; [lia|auto]].
Qed.

(** ** Matching root bases *)

Lemma reduce_root_hinted_big s h : okc s ->
  exists s', reduce_root_hinted BigI s h = Ok s' /\ sval s' = sval s /\ okc s' /\
    (exists k, 0 < k /\ discr s = k * k * discr s') /\
    (forall k d, 0 < k -> d <> 0 -> h = k * k -> discr s = h * d -> discr s' = d).
Proof.
  intros Hs. unfold reduce_root_hinted. bigi.
  destruct s as [[a b c] r]. unfold okc in *. cbn [coeffs c0 c1 c2 discr] in *.
  assert (Hself : exists k, 0 < k /\ r = k * k * r) by (exists 1; split; [lia|ring]).
  destruct ((Z.abs h =? 0) || (Z.abs h =? 1) || (Z.abs h <? 0)) eqn:E0.
  { eexists. split; [reflexivity|]. cbn [coeffs c2 discr]. repeat split; auto.
    intros k d Hk Hd -> Er. rewrite !orb_true_iff, !Z.eqb_eq, Z.ltb_lt in E0. nia. }
  rewrite !orb_false_iff, !Z.eqb_neq, Z.ltb_ge in E0.
  assert (Hh : 2 <= Z.abs h) by lia.
  rewrite div_remB by lia. bigi.
  assert (Hno : forall k d, 0 < k -> d <> 0 -> h = k * k -> r = h * d ->
     Z.rem r (Z.abs h) = 0 /\ Z.sqrt (Z.abs h) * Z.sqrt (Z.abs h) = Z.abs h).
  { intros k d Hk Hd -> ->. rewrite Z.abs_eq by nia. rewrite Z.sqrt_square by lia.
    split; [|auto]. rewrite Z.mul_comm. apply Z.rem_mul. nia. }
  destruct (Z.eqb_spec (Z.rem r (Z.abs h)) 0) as [E1|E1].
  2:{ eexists. split; [reflexivity|]. cbn [coeffs c2 discr]. repeat split; auto.
      intros k d Hk Hd Eh Er. destruct (Hno k d Hk Hd Eh Er). contradiction. }
  rewrite sqrtB by lia. bigi.
  destruct (Z.eqb_spec (Z.sqrt (Z.abs h) * Z.sqrt (Z.abs h)) (Z.abs h)) as [E2|E2].
  2:{ eexists. split; [reflexivity|]. cbn [coeffs c2 discr]. repeat split; auto.
      intros k d Hk Hd Eh Er. destruct (Hno k d Hk Hd Eh Er). contradiction. }
  set (k := Z.sqrt (Z.abs h)) in *.
  assert (Hk : 0 < k) by (pose proof (Z.sqrt_nonneg (Z.abs h)); unfold k; nia).
  set (q := Z.quot r (Z.abs h)).
  assert (Er : r = k * k * q).
  { rewrite E2. unfold q. pose proof (Z.quot_rem r (Z.abs h) ltac:(lia)). lia. }
  assert (Hg : 0 < Z.gcd (Z.gcd k a) c) by (apply gcd_neq0_r; auto).
  set (d := Z.gcd (Z.gcd k a) c) in *.
  assert (Dk : (d | k)) by (apply (Z.divide_trans _ (Z.gcd k a)); apply Z.gcd_divide_l).
  assert (Da : (d | a)) by (apply (Z.divide_trans _ (Z.gcd k a)); [apply Z.gcd_divide_l|apply Z.gcd_divide_r]).
  assert (Dc : (d | c)) by apply Z.gcd_divide_r.
  destruct Dk as [k' Dk], Da as [a' Da], Dc as [c' Dc].
  do 3 (rewrite quotB by lia; bigi).
  rewrite (quot_exact d a a') by lia. rewrite (quot_exact d c c') by lia.
  rewrite (quot_exact d (b * k) (b * k')) by nia.
  assert (Hc' : c' <> 0) by (intro; subst c'; lia).
  eexists. split; [reflexivity|]. cbn [coeffs c2 discr new_raw]. rewrite sval_raw.
  split; [|split; [auto|split; [|]]].
  - rewrite sval_fval. cbn [coeffs c0 c1 c2 discr]. rewrite Er, fval_root by lia.
    rewrite <- (fval_scale d a' (b * k') c' q) by lia.
    replace (d * a') with a by lia. replace (d * c') with c by lia.
    replace (d * (b * k')) with (k * b) by nia. reflexivity.
  - exists k. auto.
  - intros k0 d0 Hk0 Hd0 Eh Er'. unfold q. rewrite Eh, Z.abs_eq by nia.
    rewrite Er', Eh. rewrite Z.mul_comm. apply Z.quot_mul. nia.
Qed.

Lemma abs_scale_lt k x y : 0 < k -> x = k * k * y -> Z.abs x < Z.abs y -> False.
Proof.
  intros Hk -> H. rewrite Z.abs_mul in H. rewrite (Z.abs_eq (k * k)) in H by nia.
  assert (1 <= k * k) by nia. pose proof (Z.abs_nonneg y). nia.
Qed.

Lemma reduce_bin_op_big g l r : okc l -> okc r -> discr l <> 0 -> discr r <> 0 ->
  (cplx g = false -> 0 <= discr l /\ 0 <= discr r) ->
  exists o, reduce_bin_op g BigI l r = Ok o /\
    (forall l' r', o = Some (l', r') ->
       sval l' = sval l /\ sval r' = sval r /\ okc l' /\ okc r' /\ discr l' = discr r' /\
       (exists k, 0 < k /\ discr l = k * k * discr l') /\
       (exists k, 0 < k /\ discr r = k * k * discr r')) /\
    (o = None -> forall k, 0 < k -> discr l <> k * k * discr r /\ discr r <> k * k * discr l).
Proof.
  intros Hl Hr Dl Dr Hg. unfold reduce_bin_op.
  assert (Main : forall b1 b2,
    (b1 = (if cplx g then Z.abs (discr r) <? Z.abs (discr l) else discr r <? discr l)) ->
    (b2 = (if cplx g then Z.abs (discr l) <? Z.abs (discr r) else discr l <? discr r)) ->
    (cplx g = true -> xorb (discr l <? 0) (discr r <? 0) = false) ->
    exists l1 r1,
     (if b1 then
        let! hint := lift2 (quotT BigI) (Ok (discr l)) (Ok (discr r)) in
        let! l := reduce_root_hinted BigI l hint in Ok (l, r)
      else if b2 then
        let! hint := lift2 (quotT BigI) (Ok (discr r)) (Ok (discr l)) in
        let! r := reduce_root_hinted BigI r hint in Ok (l, r)
      else Ok (l, r)) = Ok (l1, r1) /\
      sval l1 = sval l /\ sval r1 = sval r /\ okc l1 /\ okc r1 /\
      (exists k, 0 < k /\ discr l = k * k * discr l1) /\
      (exists k, 0 < k /\ discr r = k * k * discr r1) /\
      (forall k, 0 < k -> discr l = k * k * discr r -> discr l1 = discr r1) /\
      (forall k, 0 < k -> discr r = k * k * discr l -> discr l1 = discr r1)).
  { intros b1 b2 E1 E2 Hx.
    assert (Sl : exists k, 0 < k /\ discr l = k * k * discr l) by (exists 1; split; [lia|ring]).
    assert (Sr : exists k, 0 < k /\ discr r = k * k * discr r) by (exists 1; split; [lia|ring]).
    assert (Sg : forall k, 0 < k -> discr l = k * k * discr r \/ discr r = k * k * discr l ->
                 Z.sgn (discr l) = Z.sgn (discr r)).
    { intros k Hk [->| ->]; rewrite Z.sgn_mul, (Z.sgn_pos (k * k)) by nia; lia. }
    destruct b1.
    - rewrite quotB by auto. bigi.
      destruct (reduce_root_hinted_big l (Z.quot (discr l) (discr r)) Hl)
        as (l1 & El & Vl & Ol & Kl & Ql).
      rewrite El. bigi. exists l1, r. split; [reflexivity|].
      do 6 (split; [auto|]). split.
      + intros k Hk E. apply (Ql k); auto; rewrite E; rewrite Z.quot_mul; auto.
      + intros k Hk E. 
        assert (Habs : Z.abs (discr r) < Z.abs (discr l)).
        { destruct (cplx g); symmetry in E1; apply Z.ltb_lt in E1; auto.
          specialize (Hg eq_refl). lia. }
        exfalso. exact (abs_scale_lt k _ _ Hk E Habs).
    - destruct b2.
      + rewrite quotB by auto. bigi.
        destruct (reduce_root_hinted_big r (Z.quot (discr r) (discr l)) Hr)
          as (r1 & Er & Vr & Or & Kr & Qr).
        rewrite Er. bigi. exists l, r1. split; [reflexivity|].
        do 6 (split; [auto|]). split.
        * intros k Hk E.
          assert (Habs : Z.abs (discr l) < Z.abs (discr r)).
          { destruct (cplx g); symmetry in E2; apply Z.ltb_lt in E2; auto.
            specialize (Hg eq_refl). lia. }
          exfalso. exact (abs_scale_lt k _ _ Hk E Habs).
        * intros k Hk E. symmetry. apply (Qr k); auto; rewrite E; rewrite Z.quot_mul; auto.
      + exists l, r. split; [reflexivity|]. do 6 (split; [auto|]).
        assert (Heq : forall k, 0 < k -> discr l = k * k * discr r \/ discr r = k * k * discr l ->
                 discr l = discr r).
        { intros k Hk E. specialize (Sg k Hk E).
          destruct (cplx g); symmetry in E1, E2; apply Z.ltb_ge in E1, E2; lia. }
        split; intros k Hk E; apply (Heq k); auto. }
  assert (Fin : forall l1 r1,
     sval l1 = sval l -> sval r1 = sval r -> okc l1 -> okc r1 ->
     (exists k, 0 < k /\ discr l = k * k * discr l1) ->
     (exists k, 0 < k /\ discr r = k * k * discr r1) ->
     (forall k, 0 < k -> discr l = k * k * discr r -> discr l1 = discr r1) ->
     (forall k, 0 < k -> discr r = k * k * discr l -> discr l1 = discr r1) ->
     exists o, Ok (if discr l1 =? discr r1 then Some (l1, r1) else None) = Ok o /\
      (forall l' r', o = Some (l', r') ->
       sval l' = sval l /\ sval r' = sval r /\ okc l' /\ okc r' /\ discr l' = discr r' /\
       (exists k, 0 < k /\ discr l = k * k * discr l') /\
       (exists k, 0 < k /\ discr r = k * k * discr r')) /\
      (o = None -> forall k, 0 < k -> discr l <> k * k * discr r /\ discr r <> k * k * discr l)).
  { intros l1 r1 Vl Vr Ol Or Kl Kr F1 F2. eexists. split; [reflexivity|].
    destruct (Z.eqb_spec (discr l1) (discr r1)) as [E|E].
    - split; [|discriminate]. intros l' r' X. inversion X; subst.
      repeat (split; [auto|]). auto.
    - split; [discriminate|]. intros _ k Hk. split; intros X; apply E; eauto. }
  destruct (cplx g) eqn:Eg.
  - destruct (xorb (discr l <? 0) (discr r <? 0)) eqn:Ex.
    + exists None. split; [reflexivity|]. split; [discriminate|]. intros _ k Hk.
      assert (0 < k * k) by nia.
      revert Ex. destruct (Z.ltb_spec (discr l) 0), (Z.ltb_spec (discr r) 0); cbn; try discriminate;
        intros _; split; nia.
    + bigi. destruct (Main _ _ eq_refl eq_refl) as (l1 & r1 & E & H1 & H2 & H3 & H4 & H5 & H6 & H7 & H8);
        [auto|].
      rewrite E. bigi. apply Fin; auto.
  - rewrite (proj2 (Z.eqb_neq _ _) Dl), (proj2 (Z.eqb_neq _ _) Dr).
    unfold dassert. cbn [negb]. rewrite andb_false_r. bigi.
    destruct (Main _ _ eq_refl eq_refl) as (l1 & r1 & E & H1 & H2 & H3 & H4 & H5 & H6 & H7 & H8);
        [discriminate|].
    rewrite E. bigi. apply Fin; auto.
Qed.

(** ** Binary operations *)

Definition wf (g : cfg) (s : surd) : Prop := okc s /\ (cplx g = false -> 0 <= discr s).

Lemma normal_wf g s : normal g s -> wf g s.
Proof.
  intros H. split; [apply (normal_okc g); auto|].
  unfold normal, parts in H. tauto.
Qed.
#[export] Hint Resolve normal_wf : core.

Lemma is_rational_true s : is_rational s = true -> okc s ->
  sval s = (ZtoC (c0 (coeffs s)) / ZtoC (c2 (coeffs s)))%C.
Proof.
  unfold is_rational. intros H Hs. rewrite sval_fval.
  apply orb_prop in H. destruct H as [H|H]; apply Z.eqb_eq in H; rewrite H.
  - apply fval_b0.
  - rewrite fval_rat0. apply fval_b0.
Qed.
Lemma is_rational_false s : is_rational s = false -> c1 (coeffs s) <> 0 /\ discr s <> 0.
Proof.
  unfold is_rational. intros H. apply orb_false_elim in H. destruct H as [H1 H2].
  apply Z.eqb_neq in H1, H2. auto.
Qed.

Lemma bin_op_unwrap_ok g l r l' r' : wf g l -> wf g r ->
  is_rational l = false -> is_rational r = false ->
  reduce_bin_op_unwrap g BigI l r = Ok (l', r') ->
  sval l' = sval l /\ sval r' = sval r /\ okc l' /\ okc r' /\ discr l' = discr r' /\
       (exists k, 0 < k /\ discr l = k * k * discr l') /\
       (exists k, 0 < k /\ discr r = k * k * discr r').
Proof.
  intros Hl Hr Il Ir H. apply is_rational_false in Il, Ir.
  destruct Hl as [Hl Sl], Hr as [Hr Sr], Il as [_ Il], Ir as [_ Ir].
  destruct (reduce_bin_op_big g l r Hl Hr Il Ir) as (o & E & H1 & H2);
    [intros X; auto|].
  unfold reduce_bin_op_unwrap in H. rewrite E in H. cbn [bind] in H.
  destruct o as [[l1 r1]|]; [|discriminate]. inv H. auto.
Qed.

Lemma surd_add_ok g t l r s : wf g l -> wf g r -> surd_add g t l r = Ok s ->
  sval s = (sval l + sval r)%C /\ normal g s.
Proof.
  intros Hl Hr H. apply rle_surd_add in H. unfold surd_add in H.
  destruct (is_rational r) eqn:Er.
  { stepH H. apply ratio_new_C in E. destruct E as (Hc & V & L).
    apply surd_add_ratio_ok in H; [|apply Hl|apply lowest_okd; auto].
    destruct H as [V1 N1]. split; [|auto]. rewrite (is_rational_true r Er) by apply Hr. congruence. }
  destruct (is_rational l) eqn:El.
  { stepH H. apply ratio_new_C in E. destruct E as (Hc & V & L).
    apply surd_add_ratio_ok in H; [|apply Hr|apply lowest_okd; auto].
    destruct H as [V1 N1]. split; [|auto]. rewrite (is_rational_true l El) by apply Hl.
    rewrite V1, V. ring. }
  stepH H. destruct a as [l1 r1].
  apply bin_op_unwrap_ok in E; auto. destruct E as (Vl & Vr & Ol & Or & Ed & _ & _).
  rewrite <- Vl, <- Vr, (sval_fval l1), (sval_fval r1). unfold sco_add in H. rewrite <- Ed.
  unfold okc in *.
  destruct (Z.eqb_spec (c2 (coeffs l1)) (c2 (coeffs r1))) as [E|E]; autorewrite with bigi in H;
    apply surd_from_coeffs_ok in H; destruct H as (Hc & _ & V & N & _); cbn [c0 c1 c2] in *;
    (split; [|auto]); rewrite V; unfold fval; [rewrite E|]; autorewrite with ztoc; cfield.
Qed.

Lemma surd_sub_ok g t l r s : wf g l -> wf g r -> surd_sub g t l r = Ok s ->
  sval s = (sval l - sval r)%C /\ normal g s.
Proof.
  intros Hl Hr H. apply rle_surd_sub in H. unfold surd_sub in H.
  destruct (is_rational r) eqn:Er.
  { stepH H. apply ratio_new_C in E. destruct E as (Hc & V & L).
    apply surd_sub_ratio_ok in H; [|apply Hl|apply lowest_okd; auto].
    destruct H as [V1 N1]. split; [|auto]. rewrite (is_rational_true r Er) by apply Hr. congruence. }
  destruct (is_rational l) eqn:El.
  { stepH H. apply ratio_new_C in E. destruct E as (Hc & V & L).
    stepH H. apply surd_sub_ratio_ok in E; [|apply Hr|apply lowest_okd; auto].
    destruct E as [V1 N1]. apply surd_neg_ok in H. destruct H as [V2 P2].
    split; [|apply (normal_neg g a0); auto]. rewrite (is_rational_true l El) by apply Hl.
    rewrite V2, V1, V. ring. }
  stepH H. destruct a as [l1 r1].
  apply bin_op_unwrap_ok in E; auto. destruct E as (Vl & Vr & Ol & Or & Ed & _ & _).
  rewrite <- Vl, <- Vr, (sval_fval l1), (sval_fval r1). unfold sco_sub in H. rewrite <- Ed.
  unfold okc in *.
  destruct (Z.eqb_spec (c2 (coeffs l1)) (c2 (coeffs r1))) as [E|E]; autorewrite with bigi in H;
    apply surd_from_coeffs_ok in H; destruct H as (Hc & _ & V & N & _); cbn [c0 c1 c2] in *;
    (split; [|auto]); rewrite V; unfold fval; [rewrite E|]; autorewrite with ztoc; cfield.
Qed.

(** Both operands pure imaginary roots: the case the pure shortcut gets wrong *)
Definition both_imag (l r : surd) : bool :=
  is_pure l && is_pure r && (discr l <? 0) && (discr r <? 0).

Lemma is_pure_c0 s : is_pure s = true -> c0 (coeffs s) = 0 /\ c1 (coeffs s) <> 0.
Proof.
  unfold is_pure. intros H. apply andb_prop in H. destruct H as [H1 H2].
  apply Z.eqb_eq in H1. apply negb_true_iff, Z.eqb_neq in H2. auto.
Qed.

Definition sgnC (b : bool) : C := if b then (- RtoC 1)%C else RtoC 1.

Lemma csqrt_mul_sgn x y :
  csqrt (x * y) = (sgnC ((x <? 0) && (y <? 0)) * (csqrt x * csqrt y))%C.
Proof.
  destruct (Z.ltb_spec x 0), (Z.ltb_spec y 0); cbn [andb sgnC].
  - rewrite csqrt_mul_neg by auto. ring.
  - rewrite (Z.mul_comm x y), csqrt_mul_nonneg by auto. ring.
  - rewrite csqrt_mul_nonneg by auto. ring.
  - rewrite csqrt_mul_nonneg by auto. ring.
Qed.

Lemma ltb0_scale k x : 0 < k -> (k * x <? 0) = (x <? 0).
Proof. intros H. destruct (Z.ltb_spec (k * x) 0), (Z.ltb_spec x 0); auto; nia. Qed.

Lemma fval_pure b c r : fval 0 b c r = (ZtoC b * csqrt r / ZtoC c)%C.
Proof. unfold fval. rewrite ZtoC_0. unfold Cdiv. ring. Qed.

Lemma surd_mul_ok g t l r s : wf g l -> wf g r -> surd_mul g t l r = Ok s ->
  normal g s /\
  sval s = if is_rational l || is_rational r then (sval l * sval r)%C
           else (sgnC (both_imag l r) * (sval l * sval r))%C.
Proof.
  intros Hl Hr H. apply rle_surd_mul in H. unfold surd_mul in H.
  destruct (is_rational r) eqn:Er.
  { stepH H. apply ratio_new_C in E. destruct E as (Hc & V & L).
    apply surd_mul_ratio_ok in H; [|apply Hl|apply lowest_okd; auto].
    destruct H as [V1 N1]. split; [auto|]. rewrite orb_true_r.
    rewrite (is_rational_true r Er) by apply Hr. congruence. }
  destruct (is_rational l) eqn:El.
  { stepH H. apply ratio_new_C in E. destruct E as (Hc & V & L).
    apply surd_mul_ratio_ok in H; [|apply Hr|apply lowest_okd; auto].
    destruct H as [V1 N1]. split; [auto|]. cbn [orb].
    rewrite (is_rational_true l El) by apply Hl. rewrite V1, V. ring. }
  cbn [orb]. unfold both_imag.
  destruct (is_pure l && is_pure r) eqn:Ep.
  { apply andb_prop in Ep. destruct Ep as [Pl Pr]. apply is_pure_c0 in Pl, Pr.
    apply is_rational_false in El, Er. destruct El as [Bl Dl], Er as [Br Dr].
    autorewrite with bigi in H.
    destruct (gcd_cofactor (discr l) (discr r) Dr) as (dl & dr & E1 & E2 & _).
    pose proof (gcd_neq0_r (discr l) (discr r) Dr) as Hg.
    do 2 (rewrite quotB in H by lia; autorewrite with bigi in H).
    rewrite !(quot_exact _ (discr l) dl) in H by lia. rewrite !(quot_exact _ (discr r) dr) in H by lia.
    apply surd_new_ok in H. destruct H as (Hc & _ & V & N & _). split; [auto|].
    destruct Hl as [Hl _], Hr as [Hr _]. unfold okc in *.
    rewrite V, !sval_fval, (proj1 Pl), (proj1 Pr), !fval_pure, csqrt_mul_sgn.
    clear V. revert Hg E1 E2; generalize (Z.gcd (discr l) (discr r)); intros k Hk E1 E2.
    rewrite E1, E2.
    rewrite !ltb0_scale by auto. rewrite !(csqrt_mul_nonneg k) by lia.
    cbn [andb]. rewrite !ZtoC_mul. 
    replace (ZtoC k) with (csqrt k * csqrt k)%C by apply csqrt_sq. cfield. }
  cbn [andb sgnC].
  stepH H. destruct a as [l1 r1].
  apply bin_op_unwrap_ok in E; auto. destruct E as (Vl & Vr & Ol & Or & Ed & _ & _).
  rewrite <- Vl, <- Vr, (sval_fval l1), (sval_fval r1). unfold sco_mul in H. rewrite <- Ed. unfold okc in *.
  destruct l1 as [[la lb lc] ld], r1 as [[ra rb rc] rd]. cbn [coeffs discr c0 c1 c2] in *.
  autorewrite with bigi in H.
  apply surd_from_coeffs_ok in H; destruct H as (Hc & _ & V & N & _); cbn [c0 c1 c2] in *.
  (split; [auto|]); rewrite V; unfold fval; autorewrite with ztoc.
  rewrite <- (csqrt_sq ld). cfield.
Qed.

Lemma surd_div_ok g t l r s : wf g l -> wf g r -> surd_div g t l r = Ok s ->
  normal g s /\ sval r <> RtoC 0 /\
  sval s = if is_rational l || is_rational r then (sval l / sval r)%C
           else (sgnC (both_imag l r) * (sval l / sval r))%C.
Proof.
  intros Hl Hr H. apply rle_surd_div in H. unfold surd_div in H.
  destruct (is_rational r) eqn:Er.
  { stepH H. apply ratio_new_C in E. destruct E as (Hc & V & L).
    apply surd_div_ratio_ok in H; [|apply Hl|apply lowest_okd; auto].
    destruct H as (Hn & V1 & N1). split; [auto|]. rewrite orb_true_r.
    rewrite (is_rational_true r Er) by apply Hr. rewrite <- V. split; [|auto].
    unfold qC. intros X. apply RtoC_inj in X. apply rval_zero in X; auto. }
  destruct (is_rational l) eqn:El.
  { stepH H. apply ratio_new_C in E. destruct E as (Hc & V & L).
    stepH H. apply surd_div_ratio_ok in E; [|apply Hr|apply lowest_okd; auto].
    destruct E as (Hn & V1 & N1). apply surd_recip_ok in H; [|eauto].
    destruct H as (Hz & V2 & N2). split; [auto|]. cbn [orb].
    rewrite (is_rational_true l El) by apply Hl. rewrite V2, V1, <- V. rewrite V1 in Hz.
    assert (Hq : qC a <> RtoC 0).
    { unfold qC. intros X. apply RtoC_inj in X. apply rval_zero in X; auto. }
    assert (Hr0 : sval r <> RtoC 0).
    { intros X. apply Hz. rewrite X. field. auto. }
    split; [auto|]. field. auto. }
  cbn [orb]. unfold both_imag.
  destruct (is_pure l && is_pure r) eqn:Ep.
  { apply andb_prop in Ep. destruct Ep as [Pl Pr]. apply is_pure_c0 in Pl, Pr.
    apply is_rational_false in El, Er. destruct El as [Bl Dl], Er as [Br Dr].
    autorewrite with bigi in H.
    destruct (gcd_cofactor (discr l) (discr r) Dr) as (dl & dr & E1 & E2 & _).
    pose proof (gcd_neq0_r (discr l) (discr r) Dr) as Hg.
    do 2 (rewrite quotB in H by lia; autorewrite with bigi in H).
    rewrite !(quot_exact _ (discr l) dl) in H by lia. rewrite !(quot_exact _ (discr r) dr) in H by lia.
    apply surd_new_ok in H. destruct H as (Hc & _ & V & N & _). split; [auto|].
    destruct Hl as [Hl _], Hr as [Hr _]. unfold okc in *.
    rewrite V, !sval_fval, (proj1 Pl), (proj1 Pr), !fval_pure, csqrt_mul_sgn.
    assert (Hcr : csqrt (discr r) <> RtoC 0) by (intros X; apply csqrt_eq0 in X; auto).
    split.
    { intros X. apply Hcr. replace (csqrt (discr r)) with
        (ZtoC (c1 (coeffs r)) * csqrt (discr r) / ZtoC (c2 (coeffs r)) * ZtoC (c2 (coeffs r)) / ZtoC (c1 (coeffs r)))%C by cfield.
      rewrite X. cfield. }
    assert (Hdr : dr <> 0) by (intro; subst dr; lia).
    clear V. revert Hg E1 E2; generalize (Z.gcd (discr l) (discr r)); intros k Hk E1 E2.
    rewrite E1, E2.
    rewrite !ltb0_scale by auto. rewrite !(csqrt_mul_nonneg k) by lia.
    cbn [andb]. rewrite !ZtoC_mul. 
    replace (ZtoC dr) with (csqrt dr * csqrt dr)%C by apply csqrt_sq.
    assert (csqrt dr <> RtoC 0) by (intros X; apply csqrt_eq0 in X; auto).
    assert (csqrt k <> RtoC 0) by (intros X; apply csqrt_eq0 in X; lia). cfield. }
  cbn [andb sgnC].
  stepH H. destruct a as [l1 r1].
  apply bin_op_unwrap_ok in E; auto. destruct E as (Vl & Vr & Ol & Or & Ed & _ & _).
  rewrite <- Vl, <- Vr, (sval_fval l1), (sval_fval r1). unfold sco_div in H. rewrite <- Ed. unfold okc in *.
  destruct l1 as [[la lb lc] ld], r1 as [[ra rb rc] rd]. cbn [coeffs discr c0 c1 c2] in *.
  autorewrite with bigi in H.
  apply surd_from_coeffs_ok in H; destruct H as (Hc & _ & V & N & _); cbn [c0 c1 c2] in *.
  split; [auto|].
  assert (Hn : ra * ra - rb * rb * ld <> 0) by (intros X; rewrite X in Hc; lia).
  split; [apply fval_neq0; auto|].
  rewrite V; unfold fval. rewrite (ZtoC_mul lc), <- (csqrt_conj_mul ra rb ld). autorewrite with ztoc.
  rewrite <- (csqrt_sq ld). field.
  repeat split; auto using numer_neq0, fval_conj_neq0.
Qed.
