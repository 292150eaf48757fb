(** * CFSurd: from continued fractions to surds. *)

From Coq Require Import ZArith Znumtheory Reals Lia Lra Bool List Arith.
From Coquelicot Require Import Coquelicot.
From Verif Require Import Base Ext ModelSurd ModelBlock ModelCF ModelConv Spec SpecCF NumFacts Transfer SurdCore RatioFacts SurdArith
  SurdTotal SurdOrd SurdRound SurdMisc CFCore CFSeq CFIter CFBasic.
Import ListNotations.
Open Scope Z_scope.

Definition mstep (v : Z) (m : Z * Z * Z * Z) : Z * Z * Z * Z :=
  let '(a, b, c, d) := m in (c, d, v * c + a, v * d + b).
Definition mfold (l : list Z) : Z * Z * Z * Z := fold_right mstep (1, 0, 0, 1) l.

Lemma chkop_ok {A} t z (f : Z -> res A) v : bind (chk t z) f = Ok v -> f z = Ok v /\ fits t z = true.
Proof. unfold chk. destruct (fits t z); [auto|discriminate]. Qed.
Lemma mobius_loop_ok u l a b c d m : mobius_loop u l a b c d = Ok m -> m = fold_left (fun m v => mstep v m) l (a, b, c, d).
Proof.
  revert a b c d. induction l as [|v l IH]; intros a b c d H; cbn [mobius_loop fold_left mstep] in *; [congruence|].
  unfold lift2, mulT, addT in H. cbn [bind] in H. repeat (match type of H with context [chk u ?z] => unfold chk in H; destruct (fits u z) eqn:?; cbn [bind] in H; [|discriminate] end).
  repeat (match type of H with context [fits u ?z] => destruct (fits u z) eqn:?; cbn [bind] in H; [|discriminate] end).
  apply IH in H. exact H.
Qed.
Lemma mobius_ok u l m : mobius u l = Ok m -> m = mfold l /\ l <> nil.
Proof.
  unfold mobius. intros H. destruct (rev l) as [|v l'] eqn:E; [discriminate|]. apply mobius_loop_ok in H.
  assert (El : l = rev (v :: l')) by (rewrite <- E, rev_involutive; reflexivity). split.
  - rewrite H, El. unfold mfold. cbn [rev]. rewrite fold_right_app, fold_left_rev_right. cbn [fold_right mstep].
    replace (v * 0 + 1) with 1 by lia. replace (v * 1 + 0) with v by lia. reflexivity.
  - intros ->. discriminate.
Qed.
Lemma mobius_loop_total l : List.Forall (fun v => 1 <= v) l -> forall a b c d, 0 <= a -> 0 <= b -> 0 <= c -> 0 <= d -> returns (mobius_loop BigU l a b c d).
Proof.
  induction 1 as [|v l Hv Hl IH]; intros a b c d Ha Hb Hc Hd; [eexists; reflexivity|]. cbn [mobius_loop].
  unfold lift2, mulT, addT, chk, fits. cbn [bind].
  destruct (Z.leb_spec 0 (v * c)); [|nia]. cbn [bind]. destruct (Z.leb_spec 0 (v * c + a)); [|nia]. cbn [bind].
  destruct (Z.leb_spec 0 (v * d)); [|nia]. cbn [bind]. destruct (Z.leb_spec 0 (v * d + b)); [|nia]. cbn [bind]. apply IH; nia.
Qed.
Lemma mobius_total l : l <> nil -> List.Forall (fun v => 1 <= v) l -> mobius BigU l = Ok (mfold l).
Proof.
  intros N F. assert (R : returns (mobius BigU l)).
  { unfold mobius. destruct (rev l) as [|v l'] eqn:E.
    - exfalso. apply N. rewrite <- (rev_involutive l), E. reflexivity.
    - apply Forall_rev in F. rewrite E in F. inversion F; subst. apply mobius_loop_total; auto; lia. }
  destruct R as [m E]. rewrite E. f_equal. apply (mobius_ok _ _ _ E).
Qed.

(** 1 / (l0 + 1 / (l1 + ... + 1 / (lk + w))) *)
Fixpoint tailv (l : list Z) (w : R) : R := match l with nil => w | v :: l => (/ (IZR v + tailv l w))%R end.

Lemma mfold_spec l : List.Forall (fun v => 1 <= v) l ->
  let '(a, b, c, d) := mfold l in
  0 <= a /\ 0 <= b /\ 0 <= c /\ 1 <= d /\ a * d - b * c = alt (length l) /\ d = cont l /\
  (l <> nil -> a <= b /\ c <= d /\ a <= c /\ b <= d /\ 1 <= b /\ 1 <= c) /\
  b = match l with nil => 0 | _ :: l' => cont l' end /\
  forall w, (0 < w)%R -> tailv l w = ((IZR a * w + IZR b) / (IZR c * w + IZR d))%R /\ (0 < tailv l w)%R.
Proof.
  induction l as [|v l IH]; intros H.
  - cbn. repeat split; try lia; try congruence; try lra. field.
  - inversion H as [|? ? Hv Hl]; subst. specialize (IH Hl). unfold mfold in *. cbn [fold_right].
    assert (Base0 : l = nil -> fold_right mstep (1, 0, 0, 1) l = (1, 0, 0, 1)) by (intros ->; reflexivity).
    destruct (fold_right mstep (1, 0, 0, 1) l) as [[[a b] c] d].
    assert (Base1 : l = nil -> a = 1 /\ b = 0 /\ c = 0 /\ d = 1) by (intros E0; specialize (Base0 E0); inversion Base0; auto).
    clear Base0; rename Base1 into Base0.
    destruct IH as (Ha & Hb & Hc & Hd & Det & Ed & Hn & Eb & Hw). cbn [mstep].
    assert (K : forall w, (0 < w)%R -> tailv (v :: l) w = ((IZR c * w + IZR d) / (IZR (v * c + a) * w + IZR (v * d + b)))%R /\ (0 < tailv (v :: l) w)%R).
    { intros w W. destruct (Hw w W) as [E P]. cbn [tailv]. apply IZR_le in Hv. 
      apply IZR_le in Ha, Hb, Hc, Hd. assert (D : (0 < IZR c * w + IZR d)%R) by (assert (0 <= IZR c * w)%R by (apply Rmult_le_pos; lra); lra).
      split; [|apply Rinv_0_lt_compat; lra]. 
      assert (Q : (0 < IZR v + tailv l w)%R) by lra. rewrite E in Q |- *. rewrite !plus_IZR, !mult_IZR.
      assert (X : (IZR v + (IZR a * w + IZR b) / (IZR c * w + IZR d))%R = (((IZR v * IZR c + IZR a) * w + (IZR v * IZR d + IZR b)) / (IZR c * w + IZR d))%R) by (field; lra).
      rewrite X in Q |- *. rewrite Rinv_div. reflexivity. }
    split; [lia|]. split; [lia|]. split; [nia|]. split; [nia|]. split; [cbn [length]; rewrite alt_S, <- Det; ring|].
    split; [cbn [cont]; rewrite Eb, <- Ed; reflexivity|]. split; [|split; [exact Ed|exact K]].
    intros _. destruct l as [|v' l'].
    + destruct Base0 as (-> & -> & -> & ->); [reflexivity|]. lia.
    + destruct Hn as (A1 & A2 & A3 & A4 & A5 & A6); [discriminate|]. repeat split; nia.
Qed.

(** ** Values of periodic fractions *)
Lemma tailv_ev f n : forall m W, tailv (map f (seq m n)) (/ W) = (/ ev (fun k => f (m + k)%nat) n W)%R.
Proof.
  induction n as [|n IH]; intros m W; [reflexivity|]. cbn [seq map tailv ev]. rewrite IH, Nat.add_0_r.
  f_equal. f_equal. f_equal. apply ev_ext. intros k _. unfold shift. f_equal. lia.
Qed.
Lemma map_nth_seq (l : list Z) (f : nat -> Z) : (forall k, (k < length l)%nat -> f k = nth k l 1) -> map f (seq 0 (length l)) = l.
Proof.
  intros H. apply (nth_ext _ _ 1 1); [rewrite map_length, seq_length; reflexivity|]. intros n Hn. rewrite map_length, seq_length in Hn.
  rewrite (nth_indep _ 1 (f 0%nat)) by (rewrite map_length, seq_length; auto). rewrite map_nth, seq_nth by auto. cbn [Nat.add]. auto.
Qed.
Lemma pseq_cpos p : p <> nil -> List.Forall (fun v => 1 <= v) p -> cpos (pseq p) /\ 1 <= pseq p 0.
Proof.
  intros N F. assert (K : forall k, 1 <= pseq p k).
  { intros k. unfold pseq. rewrite List.Forall_forall in F.
    assert (I : In (nth k (concat (repeat p (S k))) 1) (concat (repeat p (S k)))).
    { apply nth_In. rewrite concat_repeat_len. destruct p; [congruence|]. cbn [length]. nia. }
    apply in_concat in I. destruct I as (q & I1 & I2). apply repeat_spec in I1. subst. auto. }
  split; [|apply K]. split; [specialize (K 0%nat); lia|intros; apply K].
Qed.
Lemma pseq_root p : p <> nil -> List.Forall (fun v => 1 <= v) p -> (1 <= lim (pseq p))%R /\ (/ lim (pseq p))%R = tailv p (/ lim (pseq p)).
Proof.
  intros N F. destruct (pseq_cpos p N F) as [HC H1]. split; [apply lim_ge1; auto|].
  rewrite (lim_ev _ (length p) HC) at 1. rewrite (lim_ext (shiftn (length p) (pseq p)) (pseq p)).
  - pose proof (tailv_ev (pseq p) (length p) 0 (lim (pseq p))) as T. rewrite map_nth_seq in T by (intros; apply pseq_nth; auto).
    rewrite T. reflexivity.
  - intros k. rewrite shiftn_at. apply pseq_period. auto.
Qed.
Lemma inf_value x a0 rest : wfcf x -> ~ finite x -> a_coeffs x = a0 :: rest ->
  cf_val x = (IZR (sgnb (negative x)) * (IZR a0 + tailv rest (/ lim (pseq (p_coeffs x)))))%R.
Proof.
  intros W F A. pose proof (wfcf_cpos x W) as HC. rewrite cf_val_inf by auto. f_equal.
  rewrite (lim_ev _ (lena x) HC). rewrite (lim_ext (shiftn (lena x) (cseq x)) (pseq (p_coeffs x))).
  2:{ intros k. rewrite shiftn_at. apply cseq_p. auto. }
  unfold lena. rewrite A. cbn [length ev]. rewrite (cseq_a x 0) by (unfold lena; rewrite A; cbn; lia). rewrite A. cbn [nth].
  f_equal. pose proof (tailv_ev (shift (cseq x)) (length rest) 0 (lim (pseq (p_coeffs x)))) as T. rewrite map_nth_seq in T; [rewrite T; reflexivity|].
  intros k Hk. unfold shift. rewrite cseq_a by (unfold lena; rewrite A; cbn; lia). rewrite A. reflexivity.
Qed.

Lemma equation_root (b c e y : R) (z : C) : (0 < b)%R -> (0 < c)%R -> (0 < y)%R -> (c * (y * y) + e * y + - b = 0)%R ->
  (RtoC c * (z * z) + RtoC e * z + RtoC (- b) = RtoC 0)%C ->
  (forall x, z = RtoC x -> forall y, (c * (y * y) + e * y + - b = 0)%R -> (y <= x)%R) -> z = RtoC y.
Proof.
  intros Hb Hc Hy Ey Ez Mx.
  assert (P : ((z - RtoC y) * (RtoC c * z + (RtoC c * RtoC y + RtoC e)) = RtoC 0)%C).
  { assert (E2 : (RtoC c * (RtoC y * RtoC y) + RtoC e * RtoC y + RtoC (- b) = RtoC 0)%C) by (rewrite <- !RtoC_mult, <- !RtoC_plus, Ey; reflexivity).
    transitivity ((RtoC c * (z * z) + RtoC e * z + RtoC (- b)) - (RtoC c * (RtoC y * RtoC y) + RtoC e * RtoC y + RtoC (- b)))%C; [ring|].
    rewrite Ez, E2. ring. }
  destruct (Ceq_dec0 (z - RtoC y)%C) as [E|E].
  - transitivity ((z - RtoC y) + RtoC y)%C; [ring|rewrite E; ring].
  - destruct (Ceq_dec0 (RtoC c * z + (RtoC c * RtoC y + RtoC e))%C) as [E'|E']; [|exfalso; exact (Cmult_neq_0 _ _ E E' P)].
    exfalso. assert (Zx : z = RtoC (- (c * y + e) / c)).
    { rewrite RtoC_div by lra. rewrite RtoC_opp, RtoC_plus, RtoC_mult.
      assert (Hc0 : RtoC c <> RtoC 0) by (intros K; apply RtoC_inj in K; lra).
      transitivity ((RtoC c * z) / RtoC c)%C; [field; auto|]. f_equal.
      transitivity ((RtoC c * z + (RtoC c * RtoC y + RtoC e)) - (RtoC c * RtoC y + RtoC e))%C; [ring|rewrite E'; ring]. }
    specialize (Mx _ Zx y Ey). assert (Q : (0 < c * y + e)%R).
    { assert (M : (y * (c * y + e) = b)%R) by lra. destruct (Rle_or_lt (c * y + e) 0) as [L|L]; [|auto].
      exfalso. assert (y * (c * y + e) <= 0)%R; [|lra]. rewrite <- (Rmult_0_r y). apply Rmult_le_compat_l; lra. }
    assert (- (c * y + e) / c < 0)%R; [|lra]. unfold Rdiv. rewrite Ropp_mult_distr_l_reverse. apply Ropp_lt_gt_0_contravar.
    apply Rmult_lt_0_compat; [auto|apply Rinv_0_lt_compat; auto].
Qed.
Lemma real_not_imag l r x : sval l = RtoC x -> okc l -> is_rational l || is_rational r = false -> both_imag l r = false.
Proof.
  intros E O H. unfold both_imag. destruct (Z.ltb_spec (discr l) 0) as [L|L]; [|rewrite andb_false_r; reflexivity]. exfalso.
  rewrite sval_fval in E. unfold fval in E. apply orb_false_iff in H. destruct H as [H _]. apply is_rational_false in H. destruct H as [H1 H2].
  unfold csqrt in E. destruct (Z.ltb_spec (discr l) 0); [|lia]. 
  assert (I : snd ((ZtoC (c0 (coeffs l)) + ZtoC (c1 (coeffs l)) * (0%R, sqrt (IZR (- discr l)))) / ZtoC (c2 (coeffs l)))%C =
    (IZR (c1 (coeffs l)) * sqrt (IZR (- discr l)) / IZR (c2 (coeffs l)))%R).
  { unfold ZtoC, RtoC, Cdiv, Cinv, Cplus, Cmult. cbn [fst snd]. assert (IZR (c2 (coeffs l)) <> 0)%R by (apply not_0_IZR; exact O). field. auto. }
  rewrite E in I. cbn [RtoC snd] in I.
  assert (S0 : (0 < sqrt (IZR (- discr l)))%R) by (apply sqrt_lt_R0, IZR_lt; lia).
  assert (N : (IZR (c1 (coeffs l)) * sqrt (IZR (- discr l)) / IZR (c2 (coeffs l)) <> 0)%R).
  { unfold Rdiv. apply Rmult_integral_contrapositive_currified; [apply Rmult_integral_contrapositive_currified; [apply not_0_IZR; auto|lra]|].
    apply Rinv_neq_0_compat. apply not_0_IZR; exact O. }
  apply N. symmetry. exact I.
Qed.

(** ** The conversion *)
Definition surd_fit (u : ity) (x : cf) : Prop :=
  (finite x -> forall j, (j < lena x)%nat -> conv_fit u x j) /\
  (~ finite x -> sfit u (cont (p_coeffs x)) /\ sfit u (cont (tl (a_coeffs x))) /\ sfit u (hd 0 (a_coeffs x))).

Lemma sfit_mobius u l a b c d : l <> nil -> List.Forall (fun v => 1 <= v) l -> mfold l = (a, b, c, d) -> sfit u (cont l) ->
  to_signed u a = a /\ to_signed u b = b /\ to_signed u c = c /\ to_signed u d = d /\ 0 <= a /\ 1 <= b /\ 1 <= c /\ 1 <= d /\
  a * d - b * c = alt (length l) /\
  forall w, (0 < w)%R -> tailv l w = ((IZR a * w + IZR b) / (IZR c * w + IZR d))%R /\ (0 < tailv l w)%R.
Proof.
  intros N F E Sf. pose proof (mfold_spec l F) as M. rewrite E in M. destruct M as (A1 & A2 & A3 & A4 & Det & Ed & Hn & _ & Hw).
  destruct (Hn N) as (B1 & B2 & B3 & B4 & B5 & B6). rewrite <- Ed in Sf.
  repeat split; try lia; try (apply sfit_to_signed; apply (sfit_mono u d); [exact Sf|lia]); try apply Hw; auto.
Qed.

Lemma psurd_ok g u p a b c d db nb ps o : p <> nil -> List.Forall (fun v => 1 <= v) p -> mfold p = (a, b, c, d) -> sfit u (cont p) ->
  subT (sty u) (to_signed u d) (to_signed u a) = Ok db -> negT (sty u) (to_signed u b) = Ok nb ->
  surd_from_equation g (sty u) (ratio_of (to_signed u c)) (ratio_of db) (ratio_of nb) = Ok o -> unwrap o = Ok ps ->
  normal g ps /\ sval ps = RtoC (/ lim (pseq p)).
Proof.
  intros N F E Sf Hdb Hnb Heq Ho. destruct (sfit_mobius u p a b c d N F E Sf) as (Ea & Eb & Ec & Ed & Ha & Hb & Hc & Hd & _ & Hw).
  rewrite Ea, Eb, Ec, Ed in *. apply chk_fits in Hdb, Hnb. destruct Hdb as [-> _], Hnb as [-> _].
  destruct o as [s|]; [|discriminate]. cbn [unwrap] in Ho. inversion Ho; subst s.
  destruct (ratio_of_spec c) as [Vc Lc]. destruct (ratio_of_spec (d - a)) as [Vd Ld]. destruct (ratio_of_spec (- b)) as [Vb Lb].
  destruct (surd_from_equation_ok g _ _ _ _ ps Lc Ld Lb Heq) as (Nm & Eq & Mx). split; [auto|].
  destruct (pseq_root p N F) as [L1 Er]. assert (Y : (0 < / lim (pseq p))%R) by (apply Rinv_0_lt_compat; lra).
  set (y := (/ lim (pseq p))%R) in *. destruct (Hw y Y) as [Ew _]. rewrite Ew in Er. clearbody y. unfold qC in Eq. rewrite Vc, Vd, Vb in *.
  apply IZR_le in Hc, Hd, Hb, Ha. rewrite opp_IZR in *.
  apply (equation_root (IZR b) (IZR c) (IZR (d - a)) y); auto; try lra.
  - assert (D : (0 < IZR c * y + IZR d)%R) by (assert (0 < IZR c * y)%R by (apply Rmult_lt_0_compat; lra); lra).
    assert (K : (y * (IZR c * y + IZR d) = IZR a * y + IZR b)%R) by (rewrite Er at 1; field; lra).
    rewrite minus_IZR. lra.
  - intros x Hx. apply Mx; auto. lra.
Qed.

Lemma surd_of_cf_ok g u x s : wfcf x -> surd_fit u x -> surd_of_cf g u x = Ok s -> normal g s /\ sval s = RtoC (cf_val x).
Proof.
  intros W (Ff & Fi) H. unfold surd_of_cf in H. destruct (finite_dec x) as [F|F].
  - assert (R : cf_is_rational x = true) by (unfold cf_is_rational; unfold finite in F; rewrite F; reflexivity). rewrite R in H.
    rewrite cf_last_convergent_item in H by auto. destruct (has_last x W F) as [HL _].
    destruct (conv_item_convergent x _ W HL) as (r & E & Cv). rewrite E in H. cbn [unwrap bind] in H. inversion H; subst s.
    destruct (surd_of_ratio_spec g r (proj1 Cv)) as [V Nm]. split; [auto|]. rewrite V. unfold qC. rewrite (fin_convergent_val x r); auto.
  - assert (R : cf_is_rational x = false) by (unfold cf_is_rational; unfold finite in F; destruct (p_coeffs x); [congruence|reflexivity]). rewrite R in H.
    destruct (Fi F) as (Fp & Ft & Fh). clear Ff Fi.
    pose proof W as W'. unfold wfcf in W'. destruct (a_coeffs x) as [|a0 rest] eqn:A; [tauto|]. cbn [tl hd] in Ft, Fh. destruct W' as (H0 & HR & HP).
    rewrite (inf_value x a0 rest W F A).
    destruct (mobius u (p_coeffs x)) as [m| |] eqn:Em; [|discriminate|discriminate]. cbn [bind] in H.
    apply mobius_ok in Em. destruct Em as [-> Np]. destruct (mfold (p_coeffs x)) as [[[a b] c] d] eqn:Ef.
    destruct (subT _ _ _) as [db| |] eqn:Edb; [|discriminate|discriminate]. cbn [bind] in H.
    destruct (negT _ _) as [nb| |] eqn:Enb; [|discriminate|discriminate]. cbn [bind] in H.
    destruct (surd_from_equation _ _ _ _ _) as [o| |] eqn:Eo; [|discriminate|discriminate]. cbn [bind] in H.
    destruct (unwrap o) as [ps| |] eqn:Eu; [|discriminate|discriminate]. cbn [bind] in H.
    destruct (psurd_ok g u _ a b c d db nb ps o Np HP Ef Fp Edb Enb Eo Eu) as [Nps Vps].
    destruct (pseq_root _ Np HP) as [L1 _]. assert (Y : (0 < / lim (pseq (p_coeffs x)))%R) by (apply Rinv_0_lt_compat; lra).
    set (y := (/ lim (pseq (p_coeffs x)))%R) in *. clearbody y. clear a b c d Ef Edb Enb Eo Eu.
    match type of H with bind ?m _ = _ => destruct m as [sd| |] eqn:Esd; [|discriminate|discriminate] end. cbn [bind] in H.
    assert (K : normal g sd /\ sval sd = RtoC (tailv rest y)).
    { destruct rest as [|v rest']; cbn [length Nat.eqb] in Esd; [inversion Esd; subst sd; auto|]. cbn [tl] in Esd.
      destruct (mobius u (v :: rest')) as [m| |] eqn:Em; [|discriminate|discriminate]. cbn [bind] in Esd.
      apply mobius_ok in Em. destruct Em as [-> Nr]. destruct (mfold (v :: rest')) as [[[a b] c] d] eqn:Ef.
      destruct (sfit_mobius u _ a b c d Nr HR Ef Ft) as (Ea & Eb & Ec & Ed & Ha & Hb & Hc & Hd & _ & Hw). rewrite Ea, Eb, Ec, Ed in Esd.
      stepH Esd. stepH Esd. stepH Esd. stepH Esd.
      apply surd_mul_int_ok in E. destruct E as [V1 N1].
      apply surd_add_int_ok in E0. destruct E0 as [V2 N2].
      apply surd_mul_int_ok in E1. destruct E1 as [V3 N3].
      apply surd_add_int_ok in E2. destruct E2 as [V4 N4].
      assert (Vx : sval a2 = RtoC (IZR a * y + IZR b)) by (rewrite V2, V1, Vps; unfold ZtoC; rewrite RtoC_plus, RtoC_mult; ring).
      assert (Vy : sval a4 = RtoC (IZR c * y + IZR d)) by (rewrite V4, V3, Vps; unfold ZtoC; rewrite RtoC_plus, RtoC_mult; ring).
      destruct (surd_div_ok g _ _ _ _ (normal_wf _ _ N2) (normal_wf _ _ N4) Esd) as (Nd & _ & Vd). split; [auto|].
      destruct (Hw y Y) as [Ew _]. rewrite Ew. apply IZR_le in Hc, Hd.
      assert (D : (0 < IZR c * y + IZR d)%R) by (assert (0 < IZR c * y)%R by (apply Rmult_lt_0_compat; lra); lra).
      rewrite RtoC_div by lra. rewrite <- Vx, <- Vy. rewrite Vd. destruct (is_rational a2 || is_rational a4) eqn:Er; [reflexivity|].
      rewrite (real_not_imag _ _ _ Vx (normal_okc _ _ N2) Er). cbn [sgnC]. ring. }
    destruct K as [Nsd Vsd]. rewrite (sfit_to_signed u a0 Fh) in H. stepH H. rename a into sd'.
    apply surd_add_int_ok in E. destruct E as [V1 N1].
    destruct (negative x); cbn [sgnb].
    + apply surd_neg_ok in H. destruct H as [Vn Pn]. split; [exact (normal_neg g sd' s N1 Pn)|]. rewrite Vn, V1, Vsd. unfold ZtoC.
      rewrite <- RtoC_plus, <- RtoC_opp. f_equal. ring.
    + inversion H; subst s. split; [auto|]. rewrite V1, Vsd. unfold ZtoC. rewrite <- RtoC_plus. f_equal. ring.
Qed.
