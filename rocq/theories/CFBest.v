(** * CFBest: convergents are best approximations, and close approximations are convergents. *)

From Coq Require Import ZArith Znumtheory Reals Lia Lra Bool List Arith.
From Coquelicot Require Import Coquelicot.
From Verif Require Import Base Ext ModelSurd ModelBlock ModelCF ModelConv Spec SpecCF NumFacts Transfer SurdCore RatioFacts SurdArith CFCore CFSeq CFIter CFBasic.
Import ListNotations.
Open Scope Z_scope.

Lemma best_core (P Q P' Q' : Z) (X : R) (p q : Z) : Z.abs (P' * Q - P * Q') = 1 -> 0 < Q -> 0 < q < Q' ->
  ((IZR Q * X - IZR P) * (IZR Q' * X - IZR P') <= 0)%R ->
  (Rabs (IZR Q * X - IZR P) <= Rabs (IZR q * X - IZR p))%R.
Proof.
  intros D HQ Hq S. set (d := P' * Q - P * Q') in *. assert (Dd : d * d = 1) by (destruct (Z.abs_eq_or_opp d); nia).
  set (u := d * (P' * q - Q' * p)). set (v := d * (Q * p - P * q)).
  assert (Eq : q = u * Q + v * Q') by (unfold u, v; transitivity (d * d * q); [rewrite Dd; ring|unfold d; ring]).
  assert (Ep : p = u * P + v * P') by (unfold u, v; transitivity (d * d * p); [rewrite Dd; ring|unfold d; ring]).
  clearbody u v. clear Dd D. clearbody d.
  assert (E : (IZR q * X - IZR p = IZR u * (IZR Q * X - IZR P) + IZR v * (IZR Q' * X - IZR P'))%R).
  { rewrite Eq, Ep, !plus_IZR, !mult_IZR. ring. }
  rewrite E. set (e := (IZR Q * X - IZR P)%R) in *. set (e' := (IZR Q' * X - IZR P')%R) in *. clearbody e e'. clear E.
  assert (C : v = 0 /\ (1 <= u \/ u <= -1) \/ 1 <= v /\ u <= -1 \/ v <= -1 /\ 1 <= u).
  { destruct (Z.lt_trichotomy v 0) as [K|[K|K]].
    - right; right. split; [lia|]. nia.
    - left. split; [auto|]. destruct (Z.eq_dec u 0); [subst; lia|lia].
    - right; left. split; [lia|]. nia. }
  assert (Cu : forall a b : R, (0 <= a * b)%R -> (Rabs (a + b) = Rabs a + Rabs b)%R).
  { intros a b H. unfold Rabs. repeat destruct Rcase_abs; nra. }
  assert (Au : (1 <= Rabs (IZR u))%R) by (rewrite <- abs_IZR; apply IZR_le; lia).
  assert (K : (0 <= IZR u * e * (IZR v * e'))%R).
  { replace (IZR u * e * (IZR v * e'))%R with ((- (IZR u * IZR v)) * (- (e * e')))%R by ring. apply Rmult_le_pos; [|lra].
    rewrite <- mult_IZR, <- opp_IZR. apply IZR_le. nia. }
  rewrite (Cu _ _ K), !Rabs_mult. pose proof (Rabs_pos e). pose proof (Rabs_pos (IZR v)). pose proof (Rabs_pos e'). nra.
Qed.

(** after n+1 coefficients there is a complete quotient, not smaller than the next coefficient *)
Lemma tail_quotient x n : wfcf x -> has x (S n) ->
  exists w, (IZR (cseq x (S n)) <= w)%R /\ cf_val x = (IZR (sgnb (negative x)) * ev (cseq x) (S n) w)%R.
Proof.
  intros W H. pose proof (wfcf_cpos x W) as HC. destruct (finite_dec x) as [F|F].
  - assert (Hn : (S n < lena x)%nat) by (apply H; auto). rewrite cf_val_fin by auto.
    set (m := (pred (lena x) - S n)%nat). assert (pred (lena x) = S n + m)%nat as -> by (unfold m; lia).
    clearbody m. set (f' := fun k => cseq x (S n + k)%nat). exists (cut f' m). split.
    + assert (HC' : cpos f').
      { destruct HC as [A B]. split; unfold f'; [specialize (B (n + 0)%nat); cbn [Nat.add]; lia|]. intros k. apply (B (n + S k)%nat). }
      destruct m as [|m].
      * unfold cut, f'. cbn [ev]. rewrite Nat.add_0_r. lra.
      * rewrite cut_S. pose proof (cut_ge1 (shift f') m (cpos_shift _ HC') (proj2 HC' 0%nat)) as G.
        assert (0 < / cut (shift f') m)%R by (apply Rinv_0_lt_compat; lra). unfold f' at 1. rewrite Nat.add_0_r. lra.
    + f_equal. unfold cut. rewrite ev_app. reflexivity.
  - rewrite cf_val_inf by auto. exists (lim (shiftn (S n) (cseq x))). split.
    + rewrite lim_step by (apply cpos_shiftn; auto). pose proof (lim_ge1_shift (shiftn (S n) (cseq x)) (cpos_shiftn _ _ HC)) as L.
      assert (0 < / lim (shift (shiftn (S n) (cseq x))))%R by (apply Rinv_0_lt_compat; lra).
      rewrite shiftn_at, Nat.add_0_r. lra.
    + f_equal. apply lim_ev. auto.
Qed.

(** neighbouring convergents lie on different sides *)
Lemma opposite x n : wfcf x -> has x (S n) -> let f := cseq x in let s := sgnb (negative x) in
  ((IZR (QQ f (S n)) * cf_val x - IZR (s * PP f (S n))) * (IZR (QQ f (S (S n))) * cf_val x - IZR (s * PP f (S (S n)))) <= 0)%R.
Proof.
  intros W H f s. pose proof (wfcf_cpos x W) as HC. destruct (tail_quotient x n W H) as (w & Hw & ->). fold f in HC, Hw |- *. fold s.
  pose proof (proj2 HC n) as C1. apply IZR_le in C1. pose proof (ev_cpq f HC (S n) w) as E. rewrite cpq_SS in E. destruct E as [D ->]; [lra|].
  rewrite PP_SS, QQ_SS. pose proof (PQ_det f n) as Det. rewrite !mult_IZR, !plus_IZR, !mult_IZR.
  assert (Det' : (IZR (PP f (S n)) * IZR (QQ f n) - IZR (PP f n) * IZR (QQ f (S n)) = IZR (alt (S n)))%R) by (rewrite <- !mult_IZR, <- minus_IZR; f_equal; auto).
  set (p := IZR (PP f (S n))) in *. set (q := IZR (QQ f (S n))) in *. set (p' := IZR (PP f n)) in *. set (q' := IZR (QQ f n)) in *.
  set (c := IZR (f (S n))) in *. set (sg := IZR s). set (dt := IZR (alt (S n))) in *. clearbody p q p' q' c.
  assert (Sg : (sg * sg = 1)%R) by (unfold sg, s; destruct (sgnb_cases (negative x)) as [-> | ->]; lra).
  assert (Dt : (dt * dt = 1)%R) by (unfold dt; destruct (alt_cases (S n)) as [-> | ->]; lra).
  clearbody sg dt. set (Dn := (q * w + q')%R) in *.
  replace ((q * (sg * ((p * w + p') / Dn)) - sg * p) * ((c * q + q') * (sg * ((p * w + p') / Dn)) - sg * (c * p + p')))%R
    with (- ((sg * sg) * ((p * q' - p' * q) * (p * q' - p' * q)) * (w - c) * (/ Dn * / Dn)))%R by (unfold Dn; field; unfold Dn in D; lra).
  rewrite Det', Sg, Dt. assert (0 < / Dn)%R by (apply Rinv_0_lt_compat; auto). assert (0 <= (w - c) * (/ Dn * / Dn))%R by (apply Rmult_le_pos; [lra|nra]). lra.
Qed.

Lemma best_seq x n p q : wfcf x -> has x (S n) -> 0 < q < QQ (cseq x) (S (S n)) ->
  (Rabs (IZR (QQ (cseq x) (S n)) * cf_val x - IZR (sgnb (negative x) * PP (cseq x) (S n))) <= Rabs (IZR q * cf_val x - IZR p))%R.
Proof.
  intros W H Hq. pose proof (wfcf_cpos x W) as HC.
  apply (best_core _ _ (sgnb (negative x) * PP (cseq x) (S (S n))) (QQ (cseq x) (S (S n)))); [|destruct (QQ_mono _ HC n); lia|auto|apply opposite; auto].
  pose proof (PQ_det (cseq x) (S n)) as Det. destruct (alt_cases (S (S n))) as [E|E]; rewrite E in Det; destruct (sgnb_cases (negative x)) as [-> | ->]; lia.
Qed.

Lemma best_next x n r s : wfcf x -> nth_item (conv_next BigU) n (cf_convergents x) = Ok (Some r) ->
  nth_item (conv_next BigU) (S n) (cf_convergents x) = Ok (Some s) -> forall p q, 0 < q < denom s ->
  (Rabs (IZR (denom r) * cf_val x - IZR (numer r)) <= Rabs (IZR q * cf_val x - IZR p))%R.
Proof.
  intros W Hr Hs p q Hq. rewrite (conv_nth BigU x n W (fun j _ => big_fit x j W)) in Hr. rewrite (conv_nth BigU x (S n) W (fun j _ => big_fit x j W)) in Hs.
  inversion Hr as [Hr']. inversion Hs as [Hs'].
  assert (H : has x (S n)) by (destruct (has_dec x (S n)) as [K|K]; [auto|unfold conv_item in Hs'; rewrite K in Hs'; discriminate]).
  rewrite (conv_item_eq x (S n) H) in Hs'. rewrite (conv_item_eq x n (has_le x (S n) n H ltac:(lia))) in Hr'.
  inversion Hs'; subst s. inversion Hr'; subst r. cbn [numer denom] in *. apply best_seq; auto.
Qed.

Lemma approx_best x limit fuel r : wfcf x -> 1 <= limit -> cf_approximated BigU fuel x limit = Ok (Approximated r) -> forall p q, 1 <= q < limit ->
  (Rabs (IZR (denom r) * cf_val x - IZR (numer r)) <= Rabs (IZR q * cf_val x - IZR p))%R.
Proof.
  intros W Hl E p q Hq. pose proof (wfcf_cpos x W) as HC. unfold cf_approximated in E.
  destruct (conv_step BigU x 0 _ W (at_conv_start x) (big_fit x 0 W)) as (s' & Es & As). rewrite Es in E. cbn [bind] in E.
  pose proof (wfcf_has0 x W) as H0. pose proof (conv_item_eq x 0 H0) as E0. rewrite E0 in E, As. cbn [unwrap bind denom] in E. rewrite QQ_1 in E.
  destruct (Z.ltb_spec limit 1); [lia|].
  destruct (approx_loop_spec x limit W fuel 0%nat s' _ _ (As ltac:(discriminate)) H0 ltac:(rewrite E0, QQ_1; reflexivity) E ltac:(cbn; lia)) as [(r' & K & _)|(r' & m & Ev & Cv & Hd & Hm & HQ & Ed)]; [discriminate|].
  inversion Ev; subst r'. clear Ev. pose proof (best_seq x m p q W Hm ltac:(lia)) as B.
  assert (Hn : numer r = sgnb (negative x) * PP (cseq x) (S m)).
  { destruct (conv_item_convergent x m W (has_le x (S m) m Hm ltac:(lia))) as (r2 & E2 & C2). rewrite (conv_item_eq x m (has_le x (S m) m Hm ltac:(lia))) in E2. inversion E2; subst r2. clear E2.
    destruct Cv as [L V], C2 as [L2 V2]. rewrite <- V2 in V. unfold rval in V. cbn [numer denom] in V. rewrite Ed in V.
    apply eq_IZR. pose proof (QQ_mono _ HC m) as (Q1 & _). apply IZR_le in Q1.
    apply (Rmult_eq_reg_r (/ IZR (QQ (cseq x) (S m)))%R); [exact V|]. apply Rinv_neq_0_compat. lra. }
  rewrite Ed, Hn. exact B.
Qed.

(** Legendre's criterion *)
Lemma locate x q : wfcf x -> 1 <= q -> forall k,
  (exists n, has x (S n) /\ QQ (cseq x) (S n) <= q < QQ (cseq x) (S (S n))) \/ (has x k -> QQ (cseq x) (S k) <= q).
Proof.
  intros W Hq. induction k as [|k IH].
  - right. intros _. rewrite QQ_1. lia.
  - destruct IH as [K|IH]; [auto|]. destruct (Z_lt_le_dec q (QQ (cseq x) (S (S k)))) as [L|L].
    + destruct (has_dec x (S k)) as [H|H].
      * left. exists k. split; [auto|]. split; [|auto]. apply IH. apply (has_le _ _ _ H). lia.
      * right. intros H'. exfalso. rewrite (has_some _ _ H') in H. discriminate.
    + right. intros _. auto.
Qed.

Lemma lowest_unique a b : lowest a -> lowest b -> numer a * denom b = numer b * denom a -> a = b.
Proof.
  destruct a as [n d], b as [n' d']. unfold lowest. cbn [numer denom]. intros [D G] [D' G'] E.
  assert (K : d = d').
  { apply Z.divide_antisym_nonneg; [lia|lia| |].
    - apply (Z.gauss d n d'); [exists n'; lia|]. rewrite Z.gcd_comm. auto.
    - apply (Z.gauss d' n' d); [exists n; lia|]. rewrite Z.gcd_comm. auto. }
  subst d'. f_equal. nia.
Qed.

Lemma legendre x r : wfcf x -> lowest r -> (Rabs (cf_val x - rval r) < / (2 * IZR (denom r) * IZR (denom r)))%R ->
  exists n, nth_item (conv_next BigU) n (cf_convergents x) = Ok (Some r).
Proof.
  intros W L B. pose proof (wfcf_cpos x W) as HC. assert (Hq : 1 <= denom r) by (unfold lowest in L; lia).
  set (q := denom r) in *. set (p := numer r) in *.
  assert (Hq' : (1 <= IZR q)%R) by (apply IZR_le; auto).
  (* it is enough to meet the convergent number n closely *)
  assert (Main : forall n, has x n -> QQ (cseq x) (S n) <= q ->
            (Rabs (IZR (QQ (cseq x) (S n)) * cf_val x - IZR (sgnb (negative x) * PP (cseq x) (S n))) <= Rabs (IZR q * cf_val x - IZR p))%R ->
            nth_item (conv_next BigU) n (cf_convergents x) = Ok (Some r)).
  { intros n H Qn Bn. rewrite (conv_nth BigU x n W (fun j _ => big_fit x j W)). f_equal.
    destruct (conv_item_convergent x n W H) as (r' & E' & C'). rewrite E'. rewrite (conv_item_eq x n H) in E'. inversion E'; subst r'. clear E'. f_equal.
    apply lowest_unique; [apply C'|auto|]. cbn [numer denom]. fold p q.
    pose proof (QQ_mono _ HC n) as (Q1 & _). set (P := sgnb (negative x) * PP (cseq x) (S n)) in *. set (Q := QQ (cseq x) (S n)) in *. clearbody P Q.
    set (X := cf_val x) in *. clearbody X.
    destruct (Z.eq_dec (P * q) (p * Q)) as [K|K]; [auto|]. exfalso.
    assert (One : (1 <= Rabs (IZR (P * q - p * Q)))%R) by (rewrite <- abs_IZR; apply IZR_le; lia).
    apply IZR_le in Q1, Qn. unfold rval in B. fold p q in B.
    assert (B' : (2 * IZR q * Rabs (IZR q * X - IZR p) < 1)%R).
    { replace (IZR q * X - IZR p)%R with (IZR q * (X - IZR p / IZR q))%R by (field; lra).
      rewrite Rabs_mult, (Rabs_pos_eq (IZR q)) by lra. assert (0 < 2 * IZR q * IZR q)%R by nra.
      apply (Rmult_lt_compat_l (2 * IZR q * IZR q)) in B; [|auto]. rewrite Rinv_r in B by lra. lra. }
    assert (T : (Rabs (IZR (P * q - p * Q)) <= IZR Q * Rabs (IZR q * X - IZR p) + IZR q * Rabs (IZR Q * X - IZR P))%R).
    { rewrite minus_IZR, !mult_IZR. replace (IZR P * IZR q - IZR p * IZR Q)%R with (IZR Q * (IZR q * X - IZR p) + - (IZR q * (IZR Q * X - IZR P)))%R by ring.
      eapply Rle_trans; [apply Rabs_triang|]. rewrite Rabs_Ropp, !Rabs_mult, (Rabs_pos_eq (IZR q)), (Rabs_pos_eq (IZR Q)) by lra. lra. }
    set (a := Rabs (IZR q * X - IZR p)) in *. set (b := Rabs (IZR Q * X - IZR P)) in *. assert (0 <= a)%R by apply Rabs_pos.
    clearbody a b. nra. }
  destruct (finite_dec x) as [F|F].
  - destruct (locate x q W Hq (pred (lena x))) as [(n & H & Q1 & Q2)|Hk].
    + exists n. apply Main; [apply (has_le _ _ _ H); lia|auto|]. apply best_seq; auto. lia.
    + destruct (has_last x W F) as [H _]. exists (pred (lena x)). apply Main; [auto|auto|].
      destruct (conv_item_convergent x _ W H) as (r' & E' & C'). pose proof (fin_convergent_val x r' W F C') as V.
      rewrite (conv_item_eq x _ H) in E'. inversion E'; subst r'. rewrite <- V. unfold rval. cbn [numer denom].
      pose proof (QQ_mono _ HC (pred (lena x))) as (Q1 & _). apply IZR_le in Q1.
      match goal with |- (Rabs ?u <= _)%R => replace u with 0%R by (field; lra) end. rewrite Rabs_R0. apply Rabs_pos.
  - destruct (locate x q W Hq (S (Z.to_nat q))) as [(n & H & Q1 & Q2)|Hk].
    + exists n. apply Main; [apply (has_le _ _ _ H); lia|auto|]. apply best_seq; auto. lia.
    + exfalso. specialize (Hk (inf_has x _ F)). pose proof (QQ_linear _ HC (S (Z.to_nat q))) as Ln. lia.
Qed.

Lemma loop_below x limit : wfcf x -> forall fuel k s last r, at_conv x (S k) s -> has x k -> conv_item x k = Some last ->
  approx_loop BigU fuel limit last s = Ok (Approximated r) -> denom last < limit -> denom r < limit.
Proof.
  intros W. induction fuel as [|fuel IH]; intros k s last r A H L E Hd; [discriminate|].
  cbn [approx_loop] in E. destruct (conv_step BigU x (S k) s W A (big_fit x (S k) W)) as (s' & Es & As). rewrite Es in E. cbn [bind] in E.
  destruct (conv_item x (S k)) as [w|] eqn:Ew; [|discriminate].
  assert (Hk : has x (S k)) by (destruct (has_dec x (S k)) as [K|K]; [auto|unfold conv_item in Ew; rewrite K in Ew; discriminate]).
  destruct (Z.ltb_spec (denom w) limit).
  - apply (IH (S k) s' w r); auto. apply As. discriminate.
  - inversion E; subst. auto.
Qed.
Lemma approx_below x limit fuel r : wfcf x -> 2 <= limit -> cf_approximated BigU fuel x limit = Ok (Approximated r) -> denom r < limit.
Proof.
  intros W Hl E. unfold cf_approximated in E.
  destruct (conv_step BigU x 0 _ W (at_conv_start x) (big_fit x 0 W)) as (s' & Es & As). rewrite Es in E. cbn [bind] in E.
  pose proof (wfcf_has0 x W) as H0. pose proof (conv_item_eq x 0 H0) as E0. rewrite E0 in E, As. cbn [unwrap bind denom] in E. rewrite QQ_1 in E.
  destruct (Z.ltb_spec limit 1); [lia|].
  apply (loop_below x limit W fuel 0%nat s' _ r (As ltac:(discriminate)) H0) in E; [auto|rewrite E0, QQ_1; reflexivity|cbn; lia].
Qed.
