(** * CFSigned: the constructor of continued fractions, coefficients of any sign. *)

From Coq Require Import ZArith Znumtheory Reals Lia Lra Bool List Arith.
From Coquelicot Require Import Coquelicot.
From Verif Require Import Base Ext ModelBlock ModelCF Spec SpecCF NumFacts Transfer SurdCore RatioFacts SurdArith CFCore CFSeq CFIter CFBasic CFSurd CFNew.
Import ListNotations.
Open Scope Z_scope.

(** the stored coefficients [rev] followed by 1/i *)
Definition evi (rev : list Z) (i : R) : R := match rev with nil => 0%R | v :: r => evr r (IZR v + i)%R end.

Definition sg (b : bool) : R := IZR (sgnb b).
Lemma sg_negb b : sg (negb b) = (- sg b)%R.
Proof. unfold sg. destruct b; cbn [sgnb negb]; ring. Qed.
Lemma sg_sq b : (sg b * sg b = 1)%R.
Proof. unfold sg. destruct b; cbn [sgnb negb]; ring. Qed.
Lemma sg_bound b i : (-1 < i < 1)%R -> (-1 < sg b * i < 1)%R.
Proof. unfold sg. destruct b; cbn [sgnb]; lra. Qed.

(** [rev] holds the value so far, up to the sign [s]; [ng] tells whether later coefficients are negated *)
Definition okst (s : bool) (rev : list Z) : Prop := wfr rev /\ (exists v r, rev = v :: r /\ 1 <= v) /\ (rev = [1] -> s = false).

Section Step.
Context (g : cfg) (t : ity).

Lemma sub_total x y : t = BigI -> lift2 (subT t) (Ok x) (Ok y) = Ok (x - y).
Proof. intros ->. reflexivity. Qed.
Lemma add_total x y : t = BigI -> lift2 (addT t) (Ok x) (Ok y) = Ok (x + y).
Proof. intros ->. reflexivity. Qed.

Lemma flip_ok ng a a' : (if ng : bool then lift2 (subT t) (Ok 0) (Ok a) else Ok a) = Ok a' -> a' = sgnb ng * a.
Proof. destruct ng; intros H; [apply lift_sub in H; cbn [sgnb]; lia|inversion H; cbn [sgnb]; lia]. Qed.

(** the result of absorbing a negative coefficient *)
Definition absorbed (s : bool) (rev : list Z) (a : Z) : list Z :=
  match rev with
  | nil => nil
  | am1 :: rest =>
    if am1 =? 1 then match rest with am2 :: rest2 => (- a - 1) :: (am2 + 1) :: rest2 | nil => [- a - 1; 1; 0] end
    else (- a - 1) :: 1 :: (am1 - 1) :: rest
  end.
Lemma absorb_eq ng s rev a st : okst s rev -> new_absorb g t ng (Some s) rev a = Ok st -> st = NSt (negb ng) (Some s) (absorbed s rev a).
Proof.
  intros (W & (v & r & -> & Hv) & O) H. cbn [new_absorb absorbed] in *. destruct (dassert g (0 <=? v)); [|discriminate|discriminate]. cbn [bind] in H.
  destruct (Z.eqb_spec v 1) as [->|N1].
  - destruct r as [|am2 rest2].
    + destruct (lift2 (subT t) (lift2 _ _ _) _) as [x| |] eqn:E; [|discriminate|discriminate]. cbn [bind] in H. apply lift_sub2 in E. rewrite (O eq_refl).
      inversion H; subst st. replace x with (- a - 1) by lia. reflexivity.
    + destruct (lift2 (addT t) _ _) as [y| |] eqn:E0; [|discriminate|discriminate]. cbn [bind] in H. apply lift_add in E0.
      destruct (lift2 (subT t) (lift2 _ _ _) _) as [x| |] eqn:E; [|discriminate|discriminate]. cbn [bind] in H. apply lift_sub2 in E.
      inversion H; subst st. replace x with (- a - 1) by lia. subst y. reflexivity.
  - destruct (Z.eqb_spec v 0); [lia|]. destruct (dassert g (1 <? v)); [|discriminate|discriminate]. cbn [bind] in H.
    destruct (lift2 (subT t) (Ok v) _) as [y| |] eqn:E0; [|discriminate|discriminate]. cbn [bind] in H. apply lift_sub in E0.
    destruct (lift2 (subT t) (lift2 _ _ _) _) as [x| |] eqn:E; [|discriminate|discriminate]. cbn [bind] in H. apply lift_sub2 in E.
    inversion H; subst st. replace x with (- a - 1) by lia. subst y. reflexivity.
Qed.

Lemma absorbed_ok s rev a : okst s rev -> a <= -2 -> okst s (absorbed s rev a) /\
  forall j, (-1 < j < 1)%R -> evi (absorbed s rev a) (- j) = evr rev (IZR a + j)%R.
Proof.
  intros (W & (v & r & -> & Hv) & O) Ha. cbn [absorbed].
  assert (Hr : (IZR a <= -2)%R) by (apply IZR_le; auto).
  destruct (Z.eqb_spec v 1) as [->|N1].
  - destruct r as [|am2 rest2].
    + split.
      * split; [cbn; lia|]. split; [exists (- a - 1), [1; 0]; split; [auto|lia]|discriminate].
      * intros j Hj. cbn [evi evr]. rewrite minus_IZR, opp_IZR. field; repeat split; lra.
    + destruct (wfr_tail _ _ W ltac:(discriminate)) as [_ W2]. pose proof (wfr_hd _ _ W2). split.
      * split; [|split; [exists (- a - 1), ((am2 + 1) :: rest2); split; [auto|lia]|discriminate]].
        apply wfr_cons; [lia|]. destruct rest2; [cbn; lia|]. apply wfr_tail in W2; [|discriminate]. apply wfr_cons; [lia|tauto].
      * intros j Hj. cbn [evi evr]. apply evr_congr. rewrite minus_IZR, opp_IZR, plus_IZR. field; repeat split; lra.
  - split.
    + split; [|split; [exists (- a - 1), (1 :: (v - 1) :: r); split; [auto|lia]|discriminate]].
      apply wfr_cons; [lia|]. apply wfr_cons; [lia|]. destruct r; [cbn; lia|]. apply wfr_tail in W; [|discriminate]. apply wfr_cons; [lia|tauto].
    + intros j Hj. cbn [evi evr]. apply evr_congr. rewrite !minus_IZR, opp_IZR. field; repeat split; lra.
Qed.

(** one coefficient *)
Lemma signed_step s ng rev a st : okst s rev -> 2 <= Z.abs a -> new_step g t (NSt ng (Some s) rev) a = Ok st ->
  exists ng' rev', st = NSt ng' (Some s) rev' /\ okst s rev' /\
    forall i, (-1 < i < 1)%R -> evi rev' (sg ng' * i) = evr rev (sg ng * (IZR a + i))%R.
Proof.
  intros O Ha H. unfold new_step in H.
  destruct (if ng then lift2 (subT t) (Ok 0) (Ok a) else Ok a) as [a'| |] eqn:Ea; [|discriminate|discriminate]. cbn [bind] in H. apply flip_ok in Ea.
  assert (Va : IZR a' = (sg ng * IZR a)%R) by (rewrite Ea, mult_IZR; reflexivity).
  assert (Ba : a' <= -2 \/ 2 <= a') by (destruct ng; cbn [sgnb] in Ea; lia). pose proof O as (W & (v & r & Er & Hv) & O1). rewrite Er in H.
  destruct (Z.eqb_spec a' 0); [lia|]. destruct (Z.ltb_spec a' 0) as [Neg|Pos].
  - rewrite <- Er in H. apply absorb_eq in H; [|auto]. destruct (absorbed_ok s rev a' O ltac:(lia)) as [O' V].
    exists (negb ng), (absorbed s rev a'). split; [auto|]. split; [auto|]. intros i Hi. rewrite sg_negb.
    replace (- sg ng * i)%R with (- (sg ng * i))%R by ring. rewrite V by (apply sg_bound; auto). apply evr_congr. rewrite Va. ring.
  - assert (H' : Ok (NSt ng (Some s) (a' :: rev)) = Ok st).
    { rewrite Er. destruct r as [|am2 r]; [exact H|]. destruct (Z.eqb_spec v 0); [lia|]. exact H. }
    inversion H'; subst st. exists ng, (a' :: rev). split; [auto|]. split.
    + split; [apply wfr_cons; [lia|auto]|]. split; [exists a', rev; split; [auto|lia]|]. intros E. rewrite Er in E. discriminate.
    + intros i Hi. cbn [evi]. apply evr_congr. rewrite Va. ring.
Qed.

(** a steep tail has absolute value above 1 *)
Lemma steep_cfl l : l <> nil -> List.Forall (fun v => 2 <= Z.abs v) l -> (cfl l < -1 \/ 1 < cfl l)%R.
Proof.
  induction l as [|v l IH]; intros Hn F; [congruence|]. inversion F as [|? ? Hv Fl]; subst.
  assert (Bv : (IZR v <= -2 \/ 2 <= IZR v)%R) by (destruct (Z.le_ge_cases v 0); [left; apply IZR_le; lia|right; apply IZR_le; lia]).
  destruct l as [|v2 l]; [cbn [cfl]; lra|]. rewrite cfl_cons by discriminate. specialize (IH ltac:(discriminate) Fl).
  set (w := cfl (v2 :: l)) in *. clearbody w.
  assert (B : (-1 < / w < 1)%R).
  { destruct IH as [Hw|Hw].
    - assert (E : (/ w = - / (- w))%R) by (rewrite Rinv_opp; ring). rewrite E.
      assert (0 < / - w < 1)%R; [|lra]. split; [apply Rinv_0_lt_compat; lra|]. rewrite <- Rinv_1. apply Rinv_lt_contravar; lra.
    - split; [assert (0 < / w)%R by (apply Rinv_0_lt_compat; lra); lra|]. rewrite <- Rinv_1. apply Rinv_lt_contravar; lra. }
  lra.
Qed.
(** value of a tail as reciprocal *)
Definition tinv (l : list Z) : R := match l with nil => 0%R | _ => (/ cfl l)%R end.
Lemma tinv_bound l : List.Forall (fun v => 2 <= Z.abs v) l -> (-1 < tinv l < 1)%R.
Proof.
  intros F. destruct l as [|v l]; [cbn; lra|]. destruct (steep_cfl (v :: l) ltac:(discriminate) F) as [Hw|Hw]; unfold tinv; set (w := cfl _) in *; clearbody w.
  - assert (E : (/ w = - / (- w))%R) by (rewrite Rinv_opp; ring). rewrite E.
    assert (0 < / - w < 1)%R; [|lra]. split; [apply Rinv_0_lt_compat; lra|]. rewrite <- Rinv_1. apply Rinv_lt_contravar; lra.
  - split; [assert (0 < / w)%R by (apply Rinv_0_lt_compat; lra); lra|]. rewrite <- Rinv_1. apply Rinv_lt_contravar; lra.
Qed.
Lemma cfl_tinv a l : cfl (a :: l) = (IZR a + tinv l)%R.
Proof. destruct l; [cbn; ring|]. apply cfl_cons. discriminate. Qed.

Lemma signed_loop l : forall s ng rev st, okst s rev -> List.Forall (fun v => 2 <= Z.abs v) l -> new_loop g t (NSt ng (Some s) rev) l = Ok st ->
  exists ng' rev', st = NSt ng' (Some s) rev' /\ okst s rev' /\ evi rev' 0 = evi rev (sg ng * tinv l).
Proof.
  induction l as [|a l IH]; intros s ng rev st O F H.
  - inversion H; subst. exists ng, rev. split; [auto|]. split; [auto|]. cbn [tinv]. rewrite Rmult_0_r. reflexivity.
  - cbn [new_loop] in H. destruct (new_step g t (NSt ng (Some s) rev) a) as [st1| |] eqn:E; [|discriminate|discriminate]. cbn [bind] in H.
    inversion F as [|? ? Ha Fl]; subst. destruct (signed_step s ng rev a st1 O Ha E) as (ng1 & rev1 & -> & O1 & V1).
    destruct (IH _ _ _ _ O1 Fl H) as (ng' & rev' & -> & O' & V'). exists ng', rev'. split; [auto|]. split; [auto|].
    rewrite V', V1 by (apply tinv_bound; auto). rewrite <- cfl_tinv. destruct O as (_ & (v & r & -> & _) & _). cbn [evi evr].
    apply evr_congr. f_equal. unfold tinv. rewrite Rinv_mult. f_equal. unfold sg. destruct ng; cbn [sgnb]; field.
Qed.
End Step.

Section Final.
Context (g : cfg) (t : ity).

Lemma signed_start a b st : steep_coeffs a b -> new_loop g t (NSt b None nil) a = Ok st ->
  (exists v r s, s_rev st = v :: r /\ s_negative st = Some s /\ wfr (v :: r) /\ 1 <= v /\ (sg s * evr r (IZR v) = sg b * cfl a)%R) \/
  (st = NSt b None [0] /\ a = [0]).
Proof.
  intros D H. destruct a as [|a0 l]; [contradiction|]. destruct D as [D F]. cbn [new_loop] in H.
  destruct (new_step g t (NSt b None nil) a0) as [st1| |] eqn:E; [|discriminate|discriminate]. cbn [bind] in H.
  unfold new_step in E. destruct (if b then lift2 (subT t) (Ok 0) (Ok a0) else Ok a0) as [a'| |] eqn:Ea; [|discriminate|discriminate]. cbn [bind] in E. apply flip_ok in Ea.
  rewrite <- Ea in D. assert (Va : IZR a' = (sg b * IZR a0)%R) by (rewrite Ea, mult_IZR; reflexivity).
  assert (Fin : forall s ng rev, okst s rev -> new_loop g t (NSt ng (Some s) rev) l = Ok st -> (sg s * evi rev (sg ng * tinv l) = sg b * cfl (a0 :: l))%R ->
    exists v r s, s_rev st = v :: r /\ s_negative st = Some s /\ wfr (v :: r) /\ 1 <= v /\ (sg s * evr r (IZR v) = sg b * cfl (a0 :: l))%R).
  { intros s ng rev O L V. destruct (signed_loop g t l s ng rev st O F L) as (ng' & rev' & -> & (W' & (v & r & -> & Hv) & _) & V').
    exists v, r, s. cbn [s_rev s_negative]. split; [auto|]. split; [auto|]. split; [auto|]. split; [auto|].
    rewrite <- V, <- V'. cbn [evi]. rewrite Rplus_0_r. reflexivity. }
  destruct (Z.ltb_spec a' 0) as [Neg|Pos].
  - destruct (lift2 (subT t) (Ok 0) (Ok a')) as [m| |] eqn:Em; [|discriminate|discriminate]. cbn [bind] in E. apply lift_sub in Em. inversion E; subst st1.
    left. apply (Fin true (negb b) [m]); auto.
    + split; [cbn; lia|]. split; [exists m, nil; split; [auto|lia]|]. intros E1. inversion E1. lia.
    + cbn [evi evr]. rewrite sg_negb, cfl_tinv. replace (IZR m) with (- IZR a')%R by (rewrite <- opp_IZR; f_equal; lia). rewrite Va. unfold sg. destruct b; cbn [sgnb]; ring.
  - destruct (Z.eqb_spec a' 0) as [Z0|Nz].
    + inversion E; subst st1. subst a'. assert (A0 : a0 = 0) by (destruct b; cbn [sgnb] in Z0; lia). subst a0. replace (sgnb b * 0) with 0 in * by ring.
      destruct l as [|a1 l]; [right; inversion H; auto|left]. cbn [new_loop] in H.
      destruct (new_step g t (NSt b None [0]) a1) as [st2| |] eqn:E2; [|discriminate|discriminate]. cbn [bind] in H.
      inversion F as [|? ? Ha1 Fl]; subst. unfold new_step in E2.
      destruct (if b then lift2 (subT t) (Ok 0) (Ok a1) else Ok a1) as [a1'| |] eqn:Ea1; [|discriminate|discriminate]. cbn [bind] in E2. apply flip_ok in Ea1.
      assert (Va1 : IZR a1' = (sg b * IZR a1)%R) by (rewrite Ea1, mult_IZR; reflexivity).
      assert (Ba : a1' <= -2 \/ 2 <= a1') by (destruct b; cbn [sgnb] in Ea1; lia).
      assert (Bt : (cfl (a1 :: l) <> 0)%R) by (destruct (steep_cfl (a1 :: l) ltac:(discriminate) F); lra).
      assert (Fin2 : forall s ng v, 2 <= v -> new_loop g t (NSt ng (Some s) [v; 0]) l = Ok st -> (sg s * / (IZR v + sg ng * tinv l) = sg b * / (IZR a1 + tinv l))%R ->
        exists v r s, s_rev st = v :: r /\ s_negative st = Some s /\ wfr (v :: r) /\ 1 <= v /\ (sg s * evr r (IZR v) = sg b * cfl (0%Z :: a1 :: l))%R).
      { intros s ng v Hv L V.
        assert (O : okst s [v; 0]) by (split; [cbn; lia|]; split; [exists v, [0]; split; [auto|lia]|discriminate]).
        destruct (signed_loop g t l s ng [v; 0] st O Fl L) as (ng' & rev' & -> & (W' & (v' & r & -> & Hv') & _) & V').
        exists v', r, s. cbn [s_rev s_negative]. split; [auto|]. split; [auto|]. split; [auto|]. split; [auto|].
        cbn [evi] in V'. rewrite Rplus_0_r in V'. rewrite V'. cbn [evr]. rewrite Rplus_0_l, V. rewrite cfl_cons by discriminate. rewrite cfl_tinv. ring. }
      destruct (Z.eqb_spec a1' 0); [lia|]. destruct (Z.ltb_spec a1' 0).
      * cbn [new_absorb Z.eqb] in E2. destruct (dassert g (0 <=? 0)); [|discriminate|discriminate]. cbn [bind] in E2.
        destruct (lift2 (subT t) (Ok 0) (Ok a1')) as [m| |] eqn:Em; [|discriminate|discriminate]. cbn [bind] in E2. apply lift_sub in Em. inversion E2; subst st2.
        apply (Fin2 true (negb b) m); [lia|auto|]. rewrite sg_negb. replace (IZR m) with (- (sg b * IZR a1))%R by (rewrite <- Va1, <- opp_IZR; f_equal; lia).
        rewrite cfl_tinv in Bt. unfold sg. destruct b; cbn [sgnb].
        -- replace (- (-1 * IZR a1) + - -1 * tinv l)%R with (IZR a1 + tinv l)%R by ring. ring.
        -- replace (- (1 * IZR a1) + - (1) * tinv l)%R with (- (IZR a1 + tinv l))%R by ring. rewrite Rinv_opp. ring.
      * inversion E2; subst st2. destruct (Z.ltb_spec a1' 0); [lia|].
        apply (Fin2 false b a1'); [lia|auto|]. rewrite Va1. rewrite cfl_tinv in Bt. unfold sg. destruct b; cbn [sgnb].
        -- replace (-1 * IZR a1 + -1 * tinv l)%R with (- (IZR a1 + tinv l))%R by ring. rewrite Rinv_opp. ring.
        -- replace (1 * IZR a1 + 1 * tinv l)%R with (IZR a1 + tinv l)%R by ring. ring.
    + inversion E; subst st1. left. apply (Fin false b [a']); auto.
      * split; [cbn; lia|]. split; [exists a', nil; split; [auto|lia]|auto].
      * cbn [evi evr]. rewrite cfl_tinv, Va. unfold sg. destruct b; cbn [sgnb]; ring.
Qed.

Lemma cf_new_signed a b y : fits t 1 = true -> fitl t a -> steep_coeffs a b -> cf_new g t a nil b = Ok y ->
  canonical y /\ finite y /\ cf_val y = cf_val (CF a nil b).
Proof.
  intros F1 Fa D H. assert (Na : a <> nil) by (destruct a; [contradiction|discriminate]).
  destruct (new_loop_ok g t _ _ _ _ H Na) as [st Hst]. pose proof (loop_fit g t _ _ _ Hst F1 Fa ltac:(constructor)) as Fst.
  destruct (signed_start a b st D Hst) as [(v & r & s & Er & Es & W & Hv & V)|[-> ->]].
  - rewrite Er in Fst. destruct (finish_ok g t a nil b st v r s y Na Hst Er (or_introl Es) W (fun _ => Hv) ltac:(constructor) Fst ltac:(constructor) H) as (C & P & Vy).
    split; [auto|]. split; [exact P|]. rewrite Vy. exact V.
  - destruct (finish_ok g t [0] nil b _ 0 nil b y Na Hst eq_refl) as (C & P & Vy); auto.
    + right. auto.
    + cbn. lia.
    + congruence.
    + constructor.
Qed.
End Final.

(** ** Totality *)
Section Total.
Context (g : cfg).
Lemma dassert_true : dassert g true = Ok tt.
Proof. unfold dassert. destruct (dbg g); reflexivity. Qed.
Lemma absorb_total ng s rev a : okst s rev -> returns (new_absorb g BigI ng (Some s) rev a).
Proof.
  intros (W & (v & r & -> & Hv) & O). cbn [new_absorb]. destruct (Z.leb_spec 0 v); [|lia]. rewrite dassert_true. cbn [bind].
  destruct (Z.eqb_spec v 1).
  - destruct r; eexists; reflexivity.
  - destruct (Z.eqb_spec v 0); [lia|]. destruct (Z.ltb_spec 1 v); [|lia]. rewrite dassert_true. cbn [bind]. eexists; reflexivity.
Qed.
Lemma flip_total (ng : bool) a : exists a', (if ng then lift2 (subT BigI) (Ok 0) (Ok a) else Ok a) = Ok a' /\ a' = sgnb ng * a.
Proof. destruct ng; eexists; (split; [reflexivity|]); cbn [sgnb]; lia. Qed.
Lemma signed_step_total s ng rev a : okst s rev -> returns (new_step g BigI (NSt ng (Some s) rev) a).
Proof.
  intros O. unfold new_step. destruct (flip_total ng a) as (a' & -> & _). cbn [bind].
  pose proof O as (W & (v & r & Er & Hv) & O1). rewrite Er. destruct (a' =? 0); [destruct (v =? 0); eexists; reflexivity|].
  destruct (a' <? 0); [rewrite <- Er; apply absorb_total; auto|]. destruct r; [eexists; reflexivity|]. destruct (v =? 0); eexists; reflexivity.
Qed.
Lemma signed_loop_total l : forall s ng rev, okst s rev -> List.Forall (fun v => 2 <= Z.abs v) l -> returns (new_loop g BigI (NSt ng (Some s) rev) l).
Proof.
  induction l as [|a l IH]; intros s ng rev O F; [eexists; reflexivity|]. cbn [new_loop].
  destruct (signed_step_total s ng rev a O) as [st E]. rewrite E. cbn [bind]. inversion F; subst.
  destruct (signed_step g BigI s ng rev a st O ltac:(assumption) E) as (ng1 & rev1 & -> & O1 & _). apply IH; auto.
Qed.
Lemma cf_new_signed_total a b : steep_coeffs a b -> returns (cf_new g BigI a nil b).
Proof.
  intros D. assert (Na : a <> nil) by (destruct a; [contradiction|discriminate]).
  assert (L : returns (new_loop g BigI (NSt b None nil) a)).
  { destruct a as [|a0 l]; [contradiction|]. destruct D as [D F]. cbn [new_loop]. unfold new_step. destruct (flip_total b a0) as (a' & -> & Ea). cbn [bind].
    rewrite <- Ea in D. destruct (Z.ltb_spec a' 0).
    - cbn [lift2 bind subT chk fits]. apply signed_loop_total; auto. split; [cbn; lia|]. split; [exists (0 - a'), nil; split; [auto|lia]|]. intros E. inversion E. lia.
    - destruct (Z.eqb_spec a' 0) as [->|].
      + cbn [bind]. destruct l as [|a1 l]; [eexists; reflexivity|]. cbn [new_loop]. unfold new_step. destruct (flip_total b a1) as (a1' & -> & Ea1). cbn [bind].
        inversion F as [|? ? Ha1 Fl]; subst l0 x. destruct (Z.eqb_spec a1' 0); [destruct b; cbn [sgnb] in Ea1; lia|].
        destruct (Z.ltb_spec a1' 0).
        * cbn [new_absorb Z.eqb Z.leb Z.compare]. rewrite dassert_true. cbn [lift2 bind subT chk fits]. apply signed_loop_total; auto.
          split; [cbn; lia|]. split; [exists (0 - a1'), [0]; split; [auto|lia]|]. discriminate.
        * cbn [bind]. apply signed_loop_total; auto. split; [cbn; lia|]. split; [exists a1', [0]; split; [auto|lia]|]. discriminate.
      + cbn [bind]. apply signed_loop_total; auto. split; [cbn; lia|]. split; [exists a', nil; split; [auto|lia]|]. auto. }
  destruct L as [st Hst]. destruct (signed_start g BigI a b st D Hst) as [(v & r & s & Er & Es & W & Hv & V)|[-> ->]].
  - apply (finish_total g a nil b st v r Na Hst Er W (fun _ => Hv)). constructor.
  - apply (finish_total g [0] nil b _ 0 nil Na Hst eq_refl); [cbn; lia|congruence|constructor].
Qed.
End Total.
