(** * CFRecipe: a way to convert every irrational real surd. *)

From Coq Require Import ZArith Reals Lia Lra Bool List Arith.
From Coquelicot Require Import Coquelicot.
From Verif Require Import Base Ext ModelSurd ModelBlock ModelCF ModelConv Spec SpecCF SpecRecipe NumFacts SurdCore SurdArith SurdMisc SurdTotal SurdRoots SurdOrd CFNew CFBasic CFArith CFStep CFFlip CFSerret GenSound ClaimsSurd ClaimsCF.
From Verif Require Import CFCore CFSeq CFSerret.
Import ListNotations.
Open Scope Z_scope.

(** the conjugate becomes negative after at most [k] steps *)
Fixpoint stops (k : nat) (x c : R) : Prop :=
  (c < 0)%R \/ match k with O => False | S k => stops k (gs x) (/ (c - IZR (fl x))) end.

Lemma nonint x n : ~ rational_real x -> x <> IZR n.
Proof. intros I ->. apply I, rr_Z. Qed.
Lemma gs_gt1 x : ~ rational_real x -> (1 < gs x)%R.
Proof. intros I. pose proof (fl_ok x) as F. pose proof (nonint x (fl x) I). unfold isfloor in F. unfold gs. rewrite <- Rinv_1. apply Rinv_lt_contravar; lra. Qed.
Lemma conj_gs x c : conjugate x c -> conjugate (gs x) (/ (c - IZR (fl x))).
Proof. apply conjugate_step. Qed.
Lemma fl_pos x : (0 < x)%R -> 0 <= fl x.
Proof. intros P. pose proof (fl_ok x) as F. unfold isfloor in F. assert (H : (-1 < IZR (fl x))%R) by lra. apply lt_IZR in H. lia. Qed.
Lemma fl_ge1 x : (1 < x)%R -> 1 <= fl x.
Proof. intros P. pose proof (fl_ok x) as F. unfold isfloor in F. assert (H : (0 < IZR (fl x))%R) by lra. apply lt_IZR in H. lia. Qed.

Lemma stops_far x c : (0 < x)%R -> conjugate x c -> (1 <= Rabs (x - c))%R -> stops 2 x c.
Proof.
  intros P C A. pose proof (conjugate_irr _ _ C) as Ic. pose proof (fl_ok x) as F. unfold isfloor in F. cbn [stops].
  destruct (Rlt_dec c 0) as [L|L]; [auto|right].
  destruct (Rlt_dec c (IZR (fl x))) as [L1|L1]; [left; apply Rinv_lt_0_compat; lra|right].
  assert (B : (1 <= c - IZR (fl x))%R).
  { pose proof (nonint c (fl x) Ic). unfold Rabs in A. destruct (Rcase_abs (x - c)); lra. }
  assert (B' : (1 < c - IZR (fl x))%R) by (pose proof (nonint c (fl x + 1) Ic) as K; rewrite plus_IZR in K; lra).
  pose proof (gs_gt1 x (proj1 C)) as G. pose proof (fl_ge1 _ G) as G1. apply IZR_le in G1.
  assert (D : (/ (c - IZR (fl x)) < 1)%R) by (rewrite <- Rinv_1; apply Rinv_lt_contravar; lra).
  left. apply Rinv_lt_0_compat. lra.
Qed.

Lemma stops_all m : forall x c, (0 < x)%R -> conjugate x c -> (1 <= 2 ^ m * Rabs (x - c))%R -> exists k, stops k x c.
Proof.
  induction m as [|m IH]; intros x c P C A; [exists 2%nat; apply stops_far; auto; cbn in A; lra|].
  pose proof (gs_gt1 x (proj1 C)) as G1. pose proof (conj_gs x c C) as C1. pose proof (gs_gt1 _ (proj1 C1)) as G2. pose proof (conj_gs _ _ C1) as C2.
  set (c1 := (/ (c - IZR (fl x)))%R) in *. set (c2 := (/ (c1 - IZR (fl (gs x))))%R) in *.
  destruct (Rlt_dec c1 0) as [L1|L1]; [exists 1%nat; cbn [stops]; auto|]. destruct (Rlt_dec c2 0) as [L2|L2]; [exists 2%nat; cbn [stops]; auto|].
  destruct (IH (gs (gs x)) c2) as [k Hk]; [lra|auto| |exists (S (S k)); cbn [stops]; auto].
  pose proof (conjugate_irr _ _ C) as I0. pose proof (conjugate_irr _ _ C1) as I1. pose proof (conjugate_irr _ _ C2) as I2.
  assert (P1 : (0 < c1)%R) by (pose proof (nonint c1 0 I1); lra). assert (P2 : (0 < c2)%R) by (pose proof (nonint c2 0 I2); lra).
  assert (Ex : (x = IZR (fl x) + / gs x)%R) by (unfold gs; rewrite Rinv_inv; ring). assert (Ec : (c = IZR (fl x) + / c1)%R) by (unfold c1; rewrite Rinv_inv; ring).
  assert (Ex1 : (gs x = IZR (fl (gs x)) + / gs (gs x))%R) by (unfold gs at 3; rewrite Rinv_inv; ring). assert (Ec1 : (c1 = IZR (fl (gs x)) + / c2)%R) by (unfold c2; rewrite Rinv_inv; ring).
  pose proof (fl_ge1 _ G1) as N1. apply IZR_le in N1. set (n0 := IZR (fl x)) in *. set (n1 := IZR (fl (gs x))) in *. set (x1 := gs x) in *. set (x2 := gs x1) in *.
  clearbody n0 n1 c1 c2 x2. clearbody x1.
  assert (D1 : (x - c = (c1 - x1) / (x1 * c1))%R) by (rewrite Ex, Ec; field; lra).
  assert (D2 : (c1 - x1 = (x2 - c2) / (x2 * c2))%R) by (rewrite Ex1 at 1; rewrite Ec1 at 1; field; lra).
  assert (Fx : (x1 * x2 = n1 * x2 + 1)%R) by (rewrite Ex1 at 1; field; lra). assert (Fc : (c1 * c2 = n1 * c2 + 1)%R) by (rewrite Ec1 at 1; field; lra).
  assert (D : (x2 - c2 = (x - c) * (x1 * x2) * (c1 * c2))%R) by (rewrite D1, D2; field; lra).
  assert (Bx : (2 <= x1 * x2)%R) by (rewrite Fx; nra). assert (Bc : (1 <= c1 * c2)%R) by (rewrite Fc; nra).
  rewrite D, (Rabs_mult _ (c1 * c2)), (Rabs_mult _ (x1 * x2)), (Rabs_pos_eq (x1 * x2)), (Rabs_pos_eq (c1 * c2)) by lra. cbn [pow] in A. pose proof (Rabs_pos (x - c)) as Pa.
  assert (Pm : (0 < 2 ^ m)%R) by (apply pow_lt; lra). set (a := Rabs (x - c)) in *. set (w := (2 ^ m)%R) in *. set (u := (x1 * x2)%R) in *. set (v := (c1 * c2)%R) in *.
  clearbody a w u v. clear - A Pa Pm Bx Bc. assert (0 <= w * a)%R by (apply Rmult_le_pos; lra). assert (2 <= u * v)%R by nra.
  replace (w * (a * u * v))%R with (w * a * (u * v))%R by ring. nra.
Qed.
Lemma stops_ex x c : (0 < x)%R -> conjugate x c -> exists k, stops k x c.
Proof.
  intros P C. assert (N : x <> c). { intros <-. destruct C as (I & Sm & _). apply I. replace x with ((x + x) / 2)%R by field. apply rr_div; [auto|apply (rr_Z 2)|lra]. }
  assert (Pa : (0 < Rabs (x - c))%R) by (apply Rabs_pos_lt; lra). set (a := Rabs (x - c)) in *.
  destruct (Pow_x_infinity 2) with (b := (/ a)%R) as [m Hm]; [rewrite Rabs_pos_eq; lra|]. specialize (Hm m (Nat.le_refl _)). rewrite Rabs_pos_eq in Hm by (apply pow_le; lra).
  apply (stops_all m x c P C). fold a. apply Rge_le in Hm. apply (Rmult_le_compat_r a) in Hm; [|lra]. rewrite Rinv_l in Hm by lra. lra.
Qed.

(** ** putting a coefficient in front *)
Lemma cons_val n a p : wfcf (CF a p false) -> p <> nil -> 0 <= n -> (1 < cf_val (CF a p false))%R ->
  wfcf (CF (n :: a) p false) /\ cf_val (CF (n :: a) p false) = (IZR n + / cf_val (CF a p false))%R.
Proof.
  intros W Hp Hn V. pose proof W as W'. unfold wfcf in W'. cbn [a_coeffs p_coeffs] in W'. destruct a as [|a0 rest]; [destruct W'|]. destruct W' as (H0 & HR & HP).
  destruct (cf_head _ a0 rest W eq_refl) as (f & E & B & _). cbn [negative sgnb] in E.
  assert (A0 : 1 <= a0) by (assert (K : (0 < IZR a0)%R) by lra; apply lt_IZR in K; lia).
  split; [unfold wfcf; cbn [a_coeffs p_coeffs]; auto|].
  assert (W0 : List.Forall (fun v => 0 <= v) (tl (a0 :: rest))) by (cbn [tl]; eapply Forall_impl; [|exact HR]; intros; cbn in *; lia).
  assert (W1 : List.Forall (fun v => 0 <= v) (tl (n :: a0 :: rest))) by (cbn [tl]; constructor; [lia|exact W0]).
  rewrite (proj1 (inf_val_evr (n :: a0 :: rest) p false Hp W1 HP)), (proj1 (inf_val_evr (a0 :: rest) p false Hp W0 HP)).
  cbn [sgnb]. change (List.rev (n :: a0 :: rest)) with (List.rev (a0 :: rest) ++ [n]). rewrite evr_app. cbn [evr]. rewrite !Rmult_1_l. reflexivity.
Qed.
Lemma wfcf_plain a p b : wfcf (CF a p b) -> plain_coeffs a p.
Proof.
  unfold wfcf, plain_coeffs. cbn [a_coeffs p_coeffs]. destruct a as [|a0 [|a1 rest]]; [tauto|intuition|]. intros (H0 & HR & HP). inversion HR as [|x l H1 H2]; subst.
  split; [auto|]. split; [lia|]. split; [eapply Forall_impl; [|exact H2]; intros; cbn in *; lia|]. split; [|left; auto].
  assert (In (last (a1 :: rest) 0) (a1 :: rest)) as I. { clear. revert a1. induction rest as [|b rest IH]; intros a1; [left; reflexivity|]. right. apply (IH b). }
  rewrite Forall_forall in HR. apply HR, I.
Qed.
Lemma mapM_chk t l m : mapM (chk t) l = Ok m -> m = l /\ List.Forall (fun v => fits t v = true) l.
Proof.
  revert m. induction l as [|v l IH]; intros m H; cbn [mapM] in H; [inversion H; auto|].
  apply bind_Ok in H. destruct H as (y & Hy & H). apply bind_Ok in H. destruct H as (ys & Hl & H). inversion H; subst. apply IH in Hl. destruct Hl as [-> F].
  unfold chk in Hy. destruct (fits t v) eqn:E; [|discriminate]. inversion Hy; subst. auto.
Qed.
Lemma mapM_chk_big l : mapM (chk BigI) l = Ok l.
Proof. induction l as [|v l IH]; [reflexivity|]. cbn [mapM]. rewrite IH. reflexivity. Qed.

(** ** soundness *)
Lemma conj_surd g t s x c b xc : normal g s -> sval s = RtoC x -> conjugate x xc -> surd_conj t s = Ok c -> surd_is_negative g t c = Ok b -> (b = true <-> (xc < 0)%R).
Proof.
  intros N V C Hc Hb. destruct (surd_conj_value g s x N V (proj1 C)) as (xc' & C' & Ec & _). rewrite (conjugate_unique _ _ _ C' C) in Ec.
  apply surd_conj_ok in Hc. destruct Hc as [Vc Pc]. assert (Nc : normal g c) by (eapply normal_conj; eauto).
  apply (L_C09_is_negative g t c xc b Nc); [congruence|exact Hb].
Qed.

Lemma unroll_sound g t fuel : forall s x xc l q, normal g s -> sval s = RtoC x -> (0 < x)%R -> conjugate x xc -> unroll g t fuel s = Ok (l, q) ->
  exists y, normal g q /\ sval q = RtoC y /\ (0 < y)%R /\ cf_domain y /\
    forall a p, p <> nil -> wfcf (CF a p false) -> cf_val (CF a p false) = y -> wfcf (CF (l ++ a) p false) /\ cf_val (CF (l ++ a) p false) = x.
Proof.
  induction fuel as [|fuel IH]; intros s x xc l q N V P C H; [discriminate|]. cbn [unroll] in H.
  apply bind_Ok in H. destruct H as (c & Hc & H). apply bind_Ok in H. destruct H as (b & Hb & H). pose proof (conj_surd g t s x c b xc N V C Hc Hb) as Sg. destruct b.
  - inversion H; subst. exists x. split; [auto|]. split; [auto|]. split; [auto|]. split; [|cbn [app]; auto].
    exists xc. split; [auto|]. exists (fl x). rewrite Rabs_pos_eq by lra. split; [apply fl_ok|]. pose proof (fl_pos x P) as F. apply IZR_le in F. assert (xc < 0)%R by tauto. split; intros; lra.
  - apply bind_Ok in H. destruct H as (v & Hv & H). apply bind_Ok in H. destruct H as (n & Hn & H). apply bind_Ok in H. destruct H as (d & Hd & H). apply bind_Ok in H. destruct H as (r & Hr & H).
    apply bind_Ok in H. destruct H as ((l', q') & Hu & H). inversion H; subst. clear H.
    destruct (step_value g t s x v d r N V (proj1 C) Hv Hd Hr) as (m & -> & F & Nr & Vr). destruct (surd_of_int_spec g m) as [Vm Nm].
    rewrite (L_C13_to_integer_complete g t _ m Nm Vm) in Hn. inversion Hn; subst n. cbn [approx_value].
    pose proof (isfloor_unique x m (fl x) F (fl_ok x)) as ->. pose proof (gs_gt1 x (proj1 C)) as G. pose proof (conj_gs x xc C) as C1. fold (gs x) in Vr.
    destruct (IH r (gs x) _ l' q Nr Vr ltac:(lra) C1 Hu) as (y & Nq & Vq & Py & Dy & K). exists y. split; [auto|]. split; [auto|]. split; [auto|]. split; [auto|].
    intros a p Hp Wa Va. destruct (K a p Hp Wa Va) as [W1 V1]. cbn [app]. destruct (cons_val (fl x) (l' ++ a) p W1 Hp (fl_pos x P)) as [W2 V2]; [rewrite V1; exact G|].
    split; [exact W2|]. rewrite V2, V1. unfold gs. rewrite Rinv_inv. ring.
Qed.

Lemma convert_up_sound g t fuel s x X : fits t 1 = true -> normal g s -> sval s = RtoC x -> ~ rational_real x -> (0 < x)%R -> convert_up g t fuel s = Ok X ->
  exists z, X = Some z /\ canonical z /\ ~ finite z /\ cf_val z = x.
Proof.
  intros F1 N V I P H. destruct (surd_conj_value g s x N V I) as (xc & C & _). unfold convert_up in H. apply bind_Ok in H. destruct H as ((l, q) & Hu & H).
  destruct (unroll_sound g t fuel s x xc l q N V P C Hu) as (y & Nq & Vq & Py & Dy & K). apply bind_Ok in H. destruct H as ([z|] & Hz & H).
  - destruct (surd_to_cf_dom g t fuel q y z F1 Nq Vq Dy Hz) as ((Wz & _) & Fz & Vz). apply bind_Ok in H. destruct H as (a & Ha & H). apply bind_Ok in H. destruct H as (p & Hp & H). apply bind_Ok in H. destruct H as (X' & HX & H).
    inversion H; subst. apply mapM_chk in Ha, Hp. destruct Ha as [-> Fa], Hp as [-> Fp].
    assert (Ng : negative z = false). { destruct (negative z) eqn:E; [|reflexivity]. exfalso. destruct (a_coeffs z) as [|a0 rest] eqn:A; [unfold wfcf in Wz; rewrite A in Wz; destruct Wz|].
      destruct (cf_head z a0 rest Wz A) as (f & Ef & Bf & _). unfold wfcf in Wz. rewrite A in Wz. destruct Wz as (H0 & _). apply IZR_le in H0. rewrite E in Ef. cbn [sgnb] in Ef. lra. }
    destruct z as [za zp zb]. cbn [a_coeffs p_coeffs negative] in *. subst zb. destruct (K za zp Fz Wz eq_refl) as [W1 V1].
    destruct (L_C31_new_partial g t (l ++ za) zp false X' F1) as (C1 & P1 & E1); [apply Forall_app; auto|eapply wfcf_plain; exact W1|exact HX|].
    exists X'. split; [auto|]. split; [auto|]. split; [unfold finite; rewrite P1; exact Fz|congruence].
  - exfalso. apply L_C34_err in Hz. destruct (normal_real g q y Nq Vq) as [D _]. lia.
Qed.

(** ** termination over arbitrary precision *)
Lemma unroll_total g k : forall s x xc, normal g s -> sval s = RtoC x -> (0 < x)%R -> conjugate x xc -> stops k x xc ->
  exists l q, forall fuel, (k < fuel)%nat -> unroll g BigI fuel s = Ok (l, q).
Proof.
  induction k as [|k IH]; intros s x xc N V P C St.
  - cbn [stops] in St. destruct (proj1 (proj2 (L_C07_returns g s N))) as [c Hc]. exists nil, s. intros [|fuel] Hf; [lia|]. cbn [unroll]. rewrite Hc. cbn [bind].
    destruct (surd_conj_value g s x N V (proj1 C)) as (xc' & C' & Ec & _). rewrite (conjugate_unique _ _ _ C' C) in Ec. pose proof (surd_conj_ok _ _ _ Hc) as [Vc Pc].
    assert (Nc : normal g c) by (eapply normal_conj; eauto). destruct (proj2 (L_C09_returns g c xc Nc ltac:(congruence))) as [b Hb]. rewrite Hb. cbn [bind].
    pose proof (conj_surd g BigI s x c b xc N V C Hc Hb) as Sg. destruct b; [reflexivity|]. exfalso. destruct Sg as [_ Sg]. destruct St as [St|[]]. apply Sg in St. discriminate.
  - cbn [stops] in St. destruct (proj1 (proj2 (L_C07_returns g s N))) as [c Hc].
    destruct (surd_conj_value g s x N V (proj1 C)) as (xc' & C' & Ec & _). rewrite (conjugate_unique _ _ _ C' C) in Ec. pose proof (surd_conj_ok _ _ _ Hc) as [Vc Pc].
    assert (Nc : normal g c) by (eapply normal_conj; eauto). destruct (proj2 (L_C09_returns g c xc Nc ltac:(congruence))) as [b Hb].
    pose proof (conj_surd g BigI s x c b xc N V C Hc Hb) as Sg. destruct b.
    + exists nil, s. intros [|fuel] Hf; [lia|]. cbn [unroll]. rewrite Hc. cbn [bind]. rewrite Hb. reflexivity.
    + destruct St as [St|St]; [destruct Sg as [_ Sg]; apply Sg in St; discriminate|].
      destruct (L_C10_returns g s x N V) as [v Hv]. destruct (floor_is g BigI s x v N V Hv) as (n & -> & F). destruct (surd_of_int_spec g n) as [Vn Nn].
      destruct (L_C06_same_field_partial g s (surd_of_int n) N Nn) as (_ & [d Hd] & _ & _); [right; left; rewrite Vn; apply Z_rational|].
      pose proof (surd_sub_ok g BigI s _ d (normal_wf _ _ N) (normal_wf _ _ Nn) Hd) as [Vd Nd].
      assert (D0 : sval d <> RtoC 0). { rewrite Vd, V, Vn. unfold ZtoC. rewrite <- RtoC_minus. intros E. apply RtoC_inj in E. apply (nonint x n (proj1 C)). lra. }
      destruct (proj2 (proj2 (L_C07_returns g d Nd)) D0) as [r Hr].
      destruct (step_value g BigI s x _ d r N V (proj1 C) Hv Hd Hr) as (n' & En & F' & Nr & Vr). assert (n' = n) as -> by (eapply isfloor_unique; eauto).
      pose proof (isfloor_unique x n (fl x) F (fl_ok x)) as ->. pose proof (gs_gt1 x (proj1 C)) as G. fold (gs x) in Vr.
      destruct (IH r (gs x) _ Nr Vr ltac:(lra) (conj_gs x xc C) St) as (l & q & Hu). exists (fl x :: l), q. intros [|fuel] Hf; [lia|]. cbn [unroll]. rewrite Hc. cbn [bind]. rewrite Hb. cbn [bind]. rewrite Hv. cbn [bind].
      rewrite (L_C13_to_integer_complete g BigI _ _ Nn Vn). cbn [bind]. rewrite Hd. cbn [bind]. rewrite Hr. cbn [bind]. rewrite (Hu fuel) by lia. reflexivity.
Qed.
Lemma convert_up_total g s x : normal g s -> sval s = RtoC x -> ~ rational_real x -> (0 < x)%R ->
  exists n0, forall fuel, (n0 <= fuel)%nat -> exists X, convert_up g BigI fuel s = Ok X.
Proof.
  intros N V I P. destruct (surd_conj_value g s x N V I) as (xc & C & _). destruct (stops_ex x xc P C) as [k St]. destruct (unroll_total g k s x xc N V P C St) as (l & q & Hu).
  destruct (unroll_sound g BigI (S k) s x xc l q N V P C (Hu (S k) (Nat.lt_succ_diag_r k))) as (y & Nq & Vq & Py & Dy & K). destruct (surd_to_cf_dom_total g q y Nq Vq Dy) as [f0 Hz].
  exists (S k + f0)%nat. intros fuel Hf. unfold convert_up. rewrite (Hu fuel) by lia. cbn [bind]. destruct (Hz fuel ltac:(lia)) as [z Ez]. rewrite Ez. cbn [bind]. rewrite !mapM_chk_big. cbn [bind].
  destruct (surd_to_cf_dom g BigI fuel q y z eq_refl Nq Vq Dy Ez) as ((Wz & _) & Fz & Vz).
  assert (Ng : negative z = false). { destruct (negative z) eqn:E; [|reflexivity]. exfalso. destruct (a_coeffs z) as [|a0 rest] eqn:A; [unfold wfcf in Wz; rewrite A in Wz; destruct Wz|].
    destruct (cf_head z a0 rest Wz A) as (f & Ef & Bf & _). unfold wfcf in Wz. rewrite A in Wz. destruct Wz as (H0 & _). apply IZR_le in H0. rewrite E in Ef. cbn [sgnb] in Ef. lra. }
  destruct z as [za zp zb]. cbn [a_coeffs p_coeffs negative] in *. subst zb. destruct (K za zp Fz Wz Vz) as [W1 V1].
  destruct (cf_new_total g (l ++ za) zp false (wfcf_plain _ _ _ W1)) as [X HX]. rewrite HX. cbn [bind]. eauto.
Qed.

Lemma convert_sound g t fuel s x X : fits t 1 = true -> normal g s -> sval s = RtoC x -> ~ rational_real x -> convert_any g t fuel s = Ok X ->
  exists z, X = Some z /\ canonical z /\ ~ finite z /\ cf_val z = x.
Proof.
  intros F1 N V I H. unfold convert_any in H. apply bind_Ok in H. destruct H as (b & Hb & H). pose proof (L_C09_is_negative g t s x b N V Hb) as Sg. destruct b.
  - apply bind_Ok in H. destruct H as (s' & Hs & H). apply bind_Ok in H. destruct H as (Y & HY & H). inversion H; subst. apply (neg_normal g) in Hs; [|exact N]. destruct Hs as [N' V'].
    rewrite V, <- RtoC_opp in V'. assert (L : (x < 0)%R) by tauto.
    destruct (convert_up_sound g t fuel s' (- x) Y F1 N' V') as (z & -> & Cz & Fz & Vz); [|lra|exact HY|].
    { intros Q. apply I. rewrite <- (Ropp_involutive x). apply rr_opp. auto. }
    destruct (L_C38_neg z Cz) as [Cn Vn]. exists (cf_neg z). split; [reflexivity|]. split; [auto|]. split; [|rewrite Vn, Vz; ring].
    unfold finite in *. destruct (cf_neg_cases z) as [E|(_ & _ & E)]; [rewrite E; exact Fz|contradiction].
  - pose proof (nonint x 0 I). assert (L : ~ (x < 0)%R) by (intros L; apply Sg in L; discriminate). apply (convert_up_sound g t fuel s x X F1 N V I ltac:(lra) H).
Qed.
Lemma convert_total g s x : normal g s -> sval s = RtoC x -> ~ rational_real x -> exists n0, forall fuel, (n0 <= fuel)%nat -> exists X, convert_any g BigI fuel s = Ok X.
Proof.
  intros N V I. destruct (proj2 (L_C09_returns g s x N V)) as [b Hb]. pose proof (L_C09_is_negative g BigI s x b N V Hb) as Sg. unfold convert_any. rewrite Hb. cbn [bind]. destruct b.
  - destruct (proj1 (L_C07_returns g s N)) as [s' Hs]. rewrite Hs. cbn [bind]. apply (neg_normal g) in Hs; [|exact N]. destruct Hs as [N' V']. rewrite V, <- RtoC_opp in V'. assert (L : (x < 0)%R) by tauto.
    destruct (convert_up_total g s' (- x) N' V') as [n0 H]; [|lra|]. { intros Q. apply I. rewrite <- (Ropp_involutive x). apply rr_opp. auto. }
    exists n0. intros fuel Hf. destruct (H fuel Hf) as [X ->]. cbn [bind]. eauto.
  - pose proof (nonint x 0 I). assert (L : ~ (x < 0)%R) by (intros L; apply Sg in L; discriminate). apply (convert_up_total g s x N V I). lra.
Qed.
