(** * CFNew: the constructor of continued fractions. *)

From Coq Require Import ZArith Znumtheory Reals Lia Lra Bool List Arith.
From Coquelicot Require Import Coquelicot.
From Verif Require Import Base Ext ModelBlock ModelCF Spec SpecCF NumFacts Transfer SurdCore RatioFacts SurdArith CFCore CFSeq CFIter CFBasic CFSurd.
Import ListNotations.
Open Scope Z_scope.

(** the value of the coefficients [rev] (last one first) followed by the number w *)
Fixpoint evr (rev : list Z) (w : R) : R := match rev with nil => w | v :: rest => evr rest (IZR v + / w)%R end.

(** all but the first coefficient (the last in the list) are positive *)
Fixpoint wfr (rev : list Z) : Prop :=
  match rev with nil => False | [v] => 0 <= v | v :: rest => 1 <= v /\ wfr rest end.
Definition goodr (rev : list Z) : Prop := match rev with nil => False | v :: rest => 0 <= v /\ (rest = nil \/ wfr rest /\ (v = 0 -> 1 <= hd 0 rest)) end.
Lemma wfr_cons v rest : 1 <= v -> wfr rest -> wfr (v :: rest).
Proof. destruct rest; cbn; [tauto|]. auto. Qed.
Lemma wfr_tail v rest : wfr (v :: rest) -> rest <> nil -> 1 <= v /\ wfr rest.
Proof. destruct rest; [congruence|]. cbn. tauto. Qed.
Lemma wfr_hd v rest : wfr (v :: rest) -> 0 <= v.
Proof. destruct rest; cbn; [auto|]. lia. Qed.
Lemma wfr_goodr rev : wfr rev -> goodr rev.
Proof. destruct rev as [|v [|w r]]; cbn; [tauto|auto|]. intros [A B]. split; [lia|]. right. split; [auto|lia]. Qed.
Lemma goodr_wfr v rest : goodr (v :: rest) -> 1 <= v -> wfr (v :: rest).
Proof. intros [A [->|[B _]]] H; [cbn; lia|]. apply wfr_cons; auto. Qed.

Section Step.
Context (g : cfg) (t : ity).

Lemma lift_add x y v : lift2 (addT t) (Ok x) (Ok y) = Ok v -> v = x + y.
Proof. cbn [lift2 bind]. intros H. apply chk_fits in H. tauto. Qed.
Lemma lift_sub x y v : lift2 (subT t) (Ok x) (Ok y) = Ok v -> v = x - y.
Proof. cbn [lift2 bind]. intros H. apply chk_fits in H. tauto. Qed.
Lemma lift_sub2 x y z v : lift2 (subT t) (lift2 (subT t) (Ok x) (Ok y)) (Ok z) = Ok v -> v = x - y - z.
Proof.
  unfold lift2 at 1. destruct (lift2 (subT t) (Ok x) (Ok y)) eqn:E; [|discriminate|discriminate]. apply lift_sub in E. subst.
  cbn [bind]. intros H. apply chk_fits in H. tauto.
Qed.

(** [rev] stands for the consumed coefficients [L] (last one first) *)
Definition same (rev L : list Z) : Prop := forall w, (0 < w)%R -> evr rev w = evr L w.
Definition same_end (rev L : list Z) : Prop :=
  match L with nil => True | a :: L' => 1 <= a -> exists v r, rev = v :: r /\ 1 <= v /\ evr r (IZR v) = evr L' (IZR a) end.

(** sign [s] decided *)
Definition decided (s : bool) (st : nst) (L : list Z) : Prop :=
  exists rev, st = NSt false (Some s) rev /\ goodr rev /\ (forall v, rev = [v] -> 1 <= v) /\ same rev L /\ same_end rev L.
(** only zeros so far *)
Definition undecided (b : bool) (st : nst) (L : list Z) : Prop :=
  exists rev, st = NSt b None rev /\ (rev = nil \/ rev = [0]) /\ same rev L /\ (L <> nil -> hd 1 L = 0).

Lemma evr_congr L a b : a = b -> evr L a = evr L b. Proof. intros ->; reflexivity. Qed.
Lemma same_cons rev L a : same rev L -> 0 <= a -> same (a :: rev) (a :: L).
Proof.
  intros H Ha w W. cbn [evr]. apply H. apply Rinv_0_lt_compat in W. apply IZR_le in Ha. lra.
Qed.
Lemma same_end_cons rev L a : same rev L -> same_end (a :: rev) (a :: L).
Proof. intros H Ha. exists a, rev. split; [auto|]. split; [auto|]. apply H. apply IZR_lt. lia. Qed.

Lemma decided_step s st L a st' : decided s st L -> 0 <= a -> new_step g t st a = Ok st' -> decided s st' (a :: L).
Proof.
  intros (rev & -> & G & N1 & Sm & _) Ha H. unfold new_step in H. cbn [bind] in H. destruct rev as [|last rest]; [contradiction|].
  destruct (Z.eqb_spec a 0) as [->|Na].
  - destruct (Z.eqb_spec last 0) as [->|Nl].
    + inversion H; subst st'. destruct G as [_ [->|[G G1]]]; [specialize (N1 0 eq_refl); lia|].
      exists rest. split; [reflexivity|]. split; [apply wfr_goodr; auto|]. split; [|split].
      * intros v ->. apply G1. reflexivity.
      * intros w W. pose proof (same_cons _ _ 0 Sm (Z.le_refl 0) w W) as E. rewrite <- E. cbn [evr]. apply evr_congr.
        rewrite !Rplus_0_l. symmetry. apply Rinv_inv.
      * intros Hh; exfalso; revert Hh; clear; lia.
    + inversion H; subst st'. exists (0 :: last :: rest). split; [reflexivity|].
      assert (1 <= last) by (destruct G; lia).
      split; [|split; [|split]].
      * cbn [goodr]. split; [lia|]. right. split; [apply goodr_wfr; auto|]. intros _. cbn. auto.
      * intros v E. discriminate.
      * apply same_cons; auto; lia.
      * intros Hh; exfalso; revert Hh; clear; lia.
  - destruct (Z.ltb_spec a 0); [lia|]. destruct (Z.eqb_spec last 0) as [->|Nl].
    + destruct G as [_ [->|[G G1]]]; [specialize (N1 0 eq_refl); lia|]. specialize (G1 eq_refl).
      destruct rest as [|am2 rest2]; [contradiction|]. cbn [hd] in G1. stepH H. apply chk_fits in E. destruct E as [E _]. subst.
      inversion H; subst st'. exists ((am2 + a) :: rest2). split; [reflexivity|].
      assert (K : forall x, (0 < x)%R -> evr rest2 (IZR (am2 + a) + / x)%R = evr (a :: L) x).
      { intros x X. rewrite <- (same_cons _ _ a Sm Ha x X). cbn [evr]. apply evr_congr. rewrite plus_IZR, Rplus_0_l, Rinv_inv. ring. }
      split; [|split; [|split]].
      * apply wfr_goodr. destruct rest2; [cbn; lia|]. apply wfr_tail in G; [|discriminate]. apply wfr_cons; [lia|tauto].
      * intros v E. inversion E. lia.
      * intros w W. exact (K w W).
      * intros _. exists (am2 + a), rest2. split; [auto|]. split; [lia|].
        transitivity (evr (0 :: am2 :: rest2) (IZR a)); [|apply Sm; apply IZR_lt; lia]. cbn [evr]. apply evr_congr.
        rewrite plus_IZR, Rplus_0_l, Rinv_inv. ring.
    + assert (H' : Ok (NSt false (Some s) (a :: last :: rest)) = Ok st') by (destruct rest; exact H). inversion H'; subst st'. exists (a :: last :: rest). split; [reflexivity|].
      assert (1 <= last) by (destruct G; lia).
      split; [|split; [|split]].
      * apply wfr_goodr. apply wfr_cons; [lia|]. apply goodr_wfr; auto.
      * intros v E. discriminate.
      * apply same_cons; auto; lia.
      * apply same_end_cons. auto.
Qed.

Lemma undecided_step b st L a st' : undecided b st L -> 0 <= a -> new_step g t st a = Ok st' ->
  (a = 0 /\ undecided b st' (a :: L)) \/ (1 <= a /\ decided b st' (a :: L)).
Proof.
  intros (rev & -> & R & Sm & Hz) Ha H.
  assert (Ha' : exists a', (if b then lift2 (subT t) (Ok 0) (Ok a) else Ok a) = Ok a' /\ a' = (if b then - a else a)).
  { unfold new_step in H. destruct b; [|eauto].
    destruct (lift2 (subT t) (Ok 0) (Ok a)) eqn:E; [|discriminate|discriminate]. pose proof (lift_sub _ _ _ E). eexists; split; [reflexivity|lia]. }
  destruct Ha' as (a' & Ea & Va). unfold new_step in H. rewrite Ea in H. cbn [bind] in H. clear Ea.
  destruct (Z.eqb_spec a 0) as [->|Na].
  - left. split; [reflexivity|]. assert (E0 : a' = 0) by (destruct b; lia). rewrite E0 in H. clear Va E0 a'.
    destruct R as [->| ->].
    + inversion H; subst st'. exists [0]. split; [reflexivity|]. split; [auto|]. split; [|auto].
      apply (same_cons _ _ 0 Sm). lia.
    + cbn [Z.eqb] in H. inversion H; subst st'. exists nil. split; [reflexivity|]. split; [auto|]. split; [|auto].
      intros w W. rewrite <- (same_cons _ _ 0 Sm (Z.le_refl 0) w W). cbn [evr]. rewrite !Rplus_0_l. symmetry. apply Rinv_inv.
  - right. split; [lia|]. destruct b.
    + assert (a' < 0) by lia. destruct R as [->| ->].
      * destruct (Z.ltb_spec a' 0); [|lia]. stepH H. apply chk_fits in E. destruct E as [E _].
        inversion H; subst st'. exists [a0]. split; [reflexivity|]. split; [cbn; split; [lia|auto]|]. split; [|split].
        -- intros v Ev. inversion Ev. lia.
        -- replace a0 with a by lia. apply (same_cons _ _ a Sm). lia.
        -- replace a0 with a by lia. apply (same_end_cons _ _ a Sm).
      * destruct (Z.eqb_spec a' 0); [lia|]. destruct (Z.ltb_spec a' 0); [|lia]. cbn [new_absorb Z.eqb] in H.
        stepH H. stepH H. apply chk_fits in E0. destruct E0 as [E0 _]. inversion H; subst st'. cbn [negb]. replace a1 with a by lia.
        exists [a; 0]. split; [reflexivity|]. split; [cbn; split; [lia|]; right; split; [lia|lia]|]. split; [|split].
        -- intros v Ev. discriminate.
        -- apply (same_cons _ _ a Sm). lia.
        -- apply (same_end_cons _ _ a Sm).
    + subst a'. destruct R as [->| ->].
      * destruct (Z.ltb_spec a 0); [lia|]. destruct (Z.eqb_spec a 0); [lia|].
        inversion H; subst st'. exists [a]. split; [reflexivity|]. split; [cbn; split; [lia|auto]|]. split; [|split].
        -- intros v Ev. inversion Ev. lia.
        -- apply (same_cons _ _ a Sm). lia.
        -- apply (same_end_cons _ _ a Sm).
      * destruct (Z.eqb_spec a 0); [lia|]. destruct (Z.ltb_spec a 0); [lia|]. cbn [Z.eqb] in H.
        inversion H; subst st'.
        exists [a; 0]. split; [reflexivity|]. split; [cbn; split; [lia|]; right; split; [lia|lia]|]. split; [|split].
        -- intros v Ev. discriminate.
        -- apply (same_cons _ _ a Sm). lia.
        -- apply (same_end_cons _ _ a Sm).
Qed.

Definition fitl (l : list Z) : Prop := List.Forall (fun v => fits t v = true) l.
Lemma fits_mono v w : fits t w = true -> 0 <= v <= w -> fits t v = true.
Proof.
  unfold fits. destruct t as [| |b|b]; intros F H; auto.
  - lia.
  - apply andb_prop in F. destruct F as [F1 F2]. apply Z.leb_le in F1. apply Z.ltb_lt in F2. apply andb_true_intro.
    split; [apply Z.leb_le|apply Z.ltb_lt]; [|lia]. assert (0 <= 2 ^ (b - 1)) by (apply Z.pow_nonneg; lia). lia.
  - apply andb_prop in F. destruct F as [F1 F2]. apply Z.leb_le in F1. apply Z.ltb_lt in F2. apply andb_true_intro.
    split; [apply Z.leb_le|apply Z.ltb_lt]; lia.
Qed.

Ltac chks := repeat match goal with H : chk t _ = Ok _ |- _ => apply chk_fits in H; destruct H as [H ?] end.
Lemma lift_sub_fit x y v : lift2 (subT t) x y = Ok v -> fits t v = true.
Proof.
  unfold lift2. destruct x as [a| |]; try discriminate. destruct y as [b| |]; try discriminate. cbn [bind]. intros H. apply chk_fits in H. destruct H; subst; auto.
Qed.
Lemma lift_add_fit x y v : lift2 (addT t) x y = Ok v -> fits t v = true.
Proof.
  unfold lift2. destruct x as [a| |]; try discriminate. destruct y as [b| |]; try discriminate. cbn [bind]. intros H. apply chk_fits in H. destruct H; subst; auto.
Qed.

Lemma absorb_fit negate negv rev target st : new_absorb g t negate negv rev target = Ok st -> fits t 1 = true -> fitl rev -> fitl (s_rev st).
Proof.
  intros H F1. assert (F0 : fits t 0 = true) by (apply (fits_mono 0 1); [auto|lia]).
  revert target H. induction rev as [rev IH] using (induction_ltof1 _ (@length Z)). intros target H FL.
  destruct rev as [|am1 rest]; [discriminate|]. cbn [new_absorb] in H.
  destruct (dassert g (0 <=? am1)); [|discriminate|discriminate]. cbn [bind] in H. inversion FL as [|? ? Fm Fr]; subst.
  destruct (am1 =? 1).
  - destruct rest as [|am2 rest2].
    + destruct (lift2 (subT t) (lift2 _ _ _) _) eqn:E; [|discriminate|discriminate]. cbn [bind] in H. inversion H; subst. cbn.
      apply lift_sub_fit in E. repeat constructor; auto.
    + destruct (lift2 (addT t) _ _) eqn:E0; [|discriminate|discriminate]. cbn [bind] in H.
      destruct (lift2 (subT t) (lift2 _ _ _) _) eqn:E; [|discriminate|discriminate]. cbn [bind] in H. inversion H; subst. cbn.
      apply lift_sub_fit in E. apply lift_add_fit in E0. inversion Fr; subst. repeat constructor; auto.
  - destruct (am1 =? 0).
    + destruct rest as [|am2 rest2].
      * destruct (lift2 (subT t) _ _) eqn:E; [|discriminate|discriminate]. cbn [bind] in H. inversion H; subst. cbn.
        apply lift_sub_fit in E. repeat constructor; auto.
      * inversion Fr; subst. destruct (lift2 (addT t) _ _) as [nt| |] eqn:E0; [|discriminate|discriminate]. cbn [bind] in H. destruct (nt <? 0).
        -- apply (IH rest2) in H; auto. unfold ltof. cbn [length]. lia.
        -- inversion H; subst. apply lift_add_fit in E0. cbn. constructor; auto.
    + destruct (dassert g (1 <? am1)); [|discriminate|discriminate]. cbn [bind] in H.
      destruct (lift2 (subT t) (Ok am1) _) eqn:E0; [|discriminate|discriminate]. cbn [bind] in H.
      destruct (lift2 (subT t) (lift2 _ _ _) _) eqn:E; [|discriminate|discriminate]. cbn [bind] in H. inversion H; subst. cbn.
      apply lift_sub_fit in E. apply lift_sub_fit in E0. repeat constructor; auto.
Qed.

Lemma step_fit st a st' : new_step g t st a = Ok st' -> fits t 1 = true -> fits t a = true -> fitl (s_rev st) -> fitl (s_rev st').
Proof.
  intros H F1 Fa FL. destruct st as [negate negv rev]. cbn [s_rev] in FL. unfold new_step in H.
  assert (Ha : exists a', (if negate then lift2 (subT t) (Ok 0) (Ok a) else Ok a) = Ok a' /\ fits t a' = true).
  { destruct negate; [|eauto]. destruct (lift2 (subT t) (Ok 0) (Ok a)) eqn:E; [|discriminate|discriminate]. eexists; split; [reflexivity|]. eapply lift_sub_fit; eauto. }
  destruct Ha as (a' & Ea & Fa'). rewrite Ea in H. cbn [bind] in H. destruct rev as [|last rest].
  - destruct (a' <? 0).
    + destruct (lift2 (subT t) (Ok 0) (Ok a')) eqn:E; [|discriminate|discriminate]. cbn [bind] in H. inversion H; subst.
      apply lift_sub_fit in E. repeat constructor; auto.
    + inversion H; subst. repeat constructor; auto.
  - inversion FL as [|? ? Fl Fr]; subst. destruct (a' =? 0).
    + destruct (last =? 0); inversion H; subst; [auto|]. constructor; auto.
    + destruct (a' <? 0); [eapply absorb_fit; eauto|]. destruct rest as [|am2 rest2].
      * inversion H; subst. constructor; auto.
      * destruct (last =? 0).
        -- destruct (lift2 (addT t) _ _) eqn:E; [|discriminate|discriminate]. cbn [bind] in H. inversion H; subst.
           apply lift_add_fit in E. inversion Fr; subst. constructor; auto.
        -- inversion H; subst. constructor; auto.
Qed.
Lemma loop_fit l : forall st st', new_loop g t st l = Ok st' -> fits t 1 = true -> fitl l -> fitl (s_rev st) -> fitl (s_rev st').
Proof.
  induction l as [|a l IH]; intros st st' H F1 FL FS; [inversion H; subst; auto|]. cbn [new_loop] in H.
  destruct (new_step g t st a) eqn:E; [|discriminate|discriminate]. cbn [bind] in H. inversion FL; subst.
  eapply IH; eauto. eapply step_fit; eauto.
Qed.
Lemma trim_fit rest : forall last r, new_trim t last rest = Ok r -> fitl (last :: rest) -> fitl r.
Proof.
  induction rest as [rest IH] using (induction_ltof1 _ (@length Z)). intros last r H F.
  destruct rest as [|y rest1]; [cbn in H; inversion H; subst; auto|]. cbn [new_trim] in H. inversion F as [|? ? F1 F2]; subst. inversion F2 as [|? ? F3 F4]; subst.
  destruct (last =? 0).
  - destruct rest1 as [|z rest2]; [inversion H; constructor|]. eapply IH; eauto. unfold ltof. cbn [length]. lia.
  - destruct (last =? 1).
    + destruct (lift2 (addT t) _ _) eqn:E; [|discriminate|discriminate]. cbn [bind] in H. apply lift_add_fit in E.
      eapply IH; [|eauto|constructor; auto]. unfold ltof. cbn [length]. lia.
    + inversion H; subst. auto.
Qed.

Lemma mapM_unsigned l l' : mapM (to_unsigned t) l = Ok l' -> fitl l -> List.Forall (fun v => 0 <= v) l -> l' = l.
Proof.
  revert l'. induction l as [|v l IH]; intros l' H F P; [inversion H; auto|]. cbn [mapM] in H.
  destruct (to_unsigned t v) as [w| |] eqn:E; [|discriminate|discriminate]. cbn [bind] in H.
  destruct (mapM (to_unsigned t) l) as [ws| |] eqn:E1; [|discriminate|discriminate]. inversion H; subst. inversion F; subst. inversion P; subst.
  f_equal; [eapply to_unsigned_ok; eauto|]. apply IH; auto.
Qed.

(** *** the end *)
Lemma trim_ok rest : forall last r, new_trim t last rest = Ok r -> wfr (last :: rest) -> (rest <> nil -> 1 <= last) ->
  exists v r', r = v :: r' /\ wfr r /\ evr r' (IZR v) = evr rest (IZR last) /\ (r' <> nil -> 2 <= v) /\ (1 <= last -> 1 <= v).
Proof.
  induction rest as [rest IH] using (induction_ltof1 _ (@length Z)). intros last r H W P.
  destruct rest as [|y rest1].
  { cbn in H. inversion H; subst. exists last, nil. split; [auto|]. split; [auto|]. split; [auto|]. split; [congruence|auto]. }
  cbn [new_trim] in H. assert (1 <= last) by (apply P; discriminate). destruct (Z.eqb_spec last 0); [lia|].
  destruct (Z.eqb_spec last 1) as [->|N1].
  - destruct (lift2 (addT t) _ _) as [y'| |] eqn:E; [|discriminate|discriminate]. cbn [bind] in H. apply lift_add in E. subst y'.
    apply wfr_tail in W; [|discriminate]. destruct W as [_ W]. pose proof (wfr_hd _ _ W).
    destruct (IH rest1 ltac:(unfold ltof; cbn [length]; lia) _ _ H) as (v & r' & -> & W' & V & P2 & P1).
    + destruct rest1; [cbn; lia|]. apply wfr_tail in W; [|discriminate]. apply wfr_cons; [lia|tauto].
    + intros. lia.
    + exists v, r'. split; [auto|]. split; [auto|]. split; [|split; [auto|intros; apply P1; lia]].
      rewrite V. cbn [evr]. apply evr_congr. rewrite plus_IZR. rewrite Rinv_1. ring.
  - inversion H; subst. exists last, (y :: rest1). split; [auto|]. split; [auto|]. split; [auto|]. split; intros; lia.
Qed.

Lemma loop_decided l : forall s st L st', decided s st L -> List.Forall (fun v => 0 <= v) l -> new_loop g t st l = Ok st' -> decided s st' (List.rev l ++ L).
Proof.
  induction l as [|a l IH]; intros s st L st' D P H; [inversion H; subst; auto|]. cbn [new_loop] in H.
  destruct (new_step g t st a) as [st1| |] eqn:E; [|discriminate|discriminate]. cbn [bind] in H. inversion P; subst.
  cbn [List.rev]. rewrite <- app_assoc. apply (IH s st1); auto. eapply decided_step; eauto.
Qed.
Lemma loop_undecided l : forall b st L st', undecided b st L -> List.Forall (fun v => 0 <= v) l -> new_loop g t st l = Ok st' ->
  undecided b st' (List.rev l ++ L) \/ decided b st' (List.rev l ++ L).
Proof.
  induction l as [|a l IH]; intros s st L st' D P H; [inversion H; subst; auto|]. cbn [new_loop] in H.
  destruct (new_step g t st a) as [st1| |] eqn:E; [|discriminate|discriminate]. cbn [bind] in H. inversion P as [|? ? Pa Pl]; subst.
  cbn [List.rev]. rewrite <- app_assoc. destruct (undecided_step _ _ _ _ _ D Pa E) as [[_ U]|[_ U]].
  - apply (IH s st1); auto.
  - right. apply (loop_decided l s st1); auto.
Qed.

(** a first coefficient below -1 followed by a positive one *)
Lemma negative_start b a0 a1 st : a0 <= -2 -> 1 <= a1 -> new_loop g t (NSt b None nil) [a0; a1] = Ok st ->
  exists rev, st = NSt false (Some (negb b)) rev /\ goodr rev /\ (forall v, rev = [v] -> 1 <= v) /\
    (forall w, (0 < w)%R -> evr rev w = (- (evr [a1; a0] w))%R) /\
    (2 <= a1 -> exists v r, rev = v :: r /\ 1 <= v /\ evr r (IZR v) = (- evr [a0] (IZR a1))%R).
Proof.
  intros H0 H1 H. cbn [new_loop] in H.
  destruct (new_step g t (NSt b None nil) a0) as [st1| |] eqn:E; [|discriminate|discriminate]. cbn [bind] in H.
  assert (K : st1 = NSt true (Some (negb b)) [- a0]).
  { unfold new_step in E. destruct b.
    - destruct (lift2 (subT t) (Ok 0) (Ok a0)) as [m| |] eqn:Em; [|discriminate|discriminate]. cbn [bind] in E. apply lift_sub in Em.
      destruct (Z.ltb_spec m 0); [lia|]. destruct (Z.eqb_spec m 0); [lia|]. inversion E; subst. cbn [negb]. repeat f_equal.
    - cbn [bind] in E. destruct (Z.ltb_spec a0 0); [|lia].
      destruct (lift2 (subT t) (Ok 0) (Ok a0)) as [m| |] eqn:Em; [|discriminate|discriminate]. cbn [bind] in E. apply lift_sub in Em.
      inversion E; subst. cbn [negb]. repeat f_equal. }
  subst st1. clear E. destruct (new_step g t (NSt true (Some (negb b)) [- a0]) a1) as [st1| |] eqn:E; [|discriminate|discriminate].
  cbn [bind] in H. inversion H; subst st1. clear H. unfold new_step in E.
  destruct (lift2 (subT t) (Ok 0) (Ok a1)) as [m| |] eqn:Em; [|discriminate|discriminate]. cbn [bind] in E. apply lift_sub in Em.
  destruct (Z.eqb_spec m 0); [lia|]. destruct (Z.ltb_spec m 0); [|lia]. cbn [new_absorb] in E.
  destruct (dassert g (0 <=? - a0)); [|discriminate|discriminate]. cbn [bind] in E.
  destruct (Z.eqb_spec (- a0) 1); [lia|]. destruct (Z.eqb_spec (- a0) 0); [lia|].
  destruct (dassert g (1 <? - a0)); [|discriminate|discriminate]. cbn [bind] in E.
  destruct (lift2 (subT t) (Ok (- a0)) (Ok 1)) as [y| |] eqn:Ey; [|discriminate|discriminate]. cbn [bind] in E. apply lift_sub in Ey.
  destruct (lift2 (subT t) (lift2 (subT t) (Ok 0) (Ok m)) (Ok 1)) as [x| |] eqn:Ex; [|discriminate|discriminate]. cbn [bind] in E. apply lift_sub2 in Ex.
  inversion E; subst st. cbn [negb]. exists [x; 1; y]. split; [reflexivity|]. split; [|split; [|split]].
  - cbn. split; [lia|]. right. split; [lia|lia].
  - intros v Ev. discriminate.
  - intros w W. cbn [evr]. replace x with (a1 - 1) by lia. replace y with (- a0 - 1) by lia. rewrite !minus_IZR, opp_IZR.
    assert (B : (0 < IZR a1 - 1 + / w)%R) by (apply Rinv_0_lt_compat in W; apply IZR_le in H1; lra).
    assert (Hi : (0 < / w)%R) by (apply Rinv_0_lt_compat; auto). set (iw := (/ w)%R) in *. clearbody iw.
    assert (B2 : (IZR a1 + iw <> 0)%R) by lra. field; repeat split; lra.
  - intros H2. exists x, [1; y]. split; [auto|]. split; [lia|]. cbn [evr]. replace x with (a1 - 1) by lia. replace y with (- a0 - 1) by lia. rewrite !minus_IZR, opp_IZR.
    apply IZR_le in H2. field; repeat split; lra.
Qed.
End Step.

(** ** Values of lists of coefficients *)
Lemma evr_app l1 l2 w : evr (l1 ++ l2) w = evr l2 (evr l1 w).
Proof. revert w. induction l1 as [|v l1 IH]; intros w; [reflexivity|]. cbn [app evr]. apply IH. Qed.
Lemma evr_pos l w : List.Forall (fun v => 0 <= v) l -> (0 < w)%R -> (0 < evr l w)%R.
Proof.
  revert w. induction l as [|v l IH]; intros w H W; [auto|]. inversion H; subst. cbn [evr]. apply IH; auto.
  apply Rinv_0_lt_compat in W. assert (0 <= IZR v)%R by (apply IZR_le; auto). lra.
Qed.
Lemma cfl_evr l v : cfl (l ++ [v]) = evr (List.rev l) (IZR v).
Proof.
  induction l as [|a l IH]; [reflexivity|]. cbn [app List.rev]. rewrite cfl_cons by (destruct l; discriminate).
  rewrite evr_app. cbn [evr]. rewrite IH. reflexivity.
Qed.
Lemma cfl_rev v r : cfl (List.rev (v :: r)) = evr r (IZR v).
Proof. cbn [List.rev]. rewrite cfl_evr, rev_involutive. reflexivity. Qed.
Lemma ev_evr f n w : ev f n w = evr (List.rev (map f (seq 0 n))) w.
Proof.
  revert w. induction n as [|n IH]; intros w; [reflexivity|]. rewrite ev_snoc, IH, seq_S, map_app, rev_app_distr. reflexivity.
Qed.

Lemma lim_prefix n : forall f, (forall k, 0 <= f (S k)) -> cpos (shiftn n f) -> 1 <= f n -> is_lim_seq (cut f) (ev f n (lim (shiftn n f))).
Proof.
  induction n as [|n IH]; intros f P C O; [apply cut_lim; auto|].
  cbn [ev shiftn]. apply is_lim_seq_incr_1. eapply is_lim_seq_ext; [intros k; symmetry; apply cut_S|].
  apply is_lim_seq_plus'; [apply is_lim_seq_const|].
  assert (L : (0 < ev (shift f) n (lim (shiftn n (shift f))))%R).
  { apply ev_pos; [intros k; apply P|]. eapply Rlt_le_trans; [apply Rlt_0_1|]. apply lim_ge1; [apply C|]. rewrite shiftn_at, Nat.add_0_r. exact O. }
  apply (is_lim_seq_inv _ (ev (shift f) n (lim (shiftn n (shift f))))).
  - apply IH; [intros k; apply P|exact C|exact O].
  - intros E. inversion E. lra.
Qed.

Lemma inf_val_evr a p b : p <> nil -> List.Forall (fun v => 0 <= v) (tl a) -> List.Forall (fun v => 1 <= v) p ->
  cf_val (CF a p b) = (IZR (sgnb b) * evr (List.rev a) (lim (pseq p)))%R /\ (1 <= lim (pseq p))%R.
Proof.
  intros Hp Ha Pp. set (x := CF a p b). assert (F : ~ finite x) by exact Hp.
  destruct (pseq_cpos p Hp Pp) as [Cp P1].
  destruct (pseq_root p Hp Pp) as [L1 _]. split; [|exact L1].
  rewrite cf_val_inf by auto. cbn [negative x]. f_equal.
  assert (Sh : forall k, shiftn (length a) (cseq x) k = pseq p k).
  { intros k. rewrite shiftn_at. apply (cseq_p x k F). }
  assert (Cs : cpos (shiftn (length a) (cseq x))).
  { split; [rewrite Sh; apply Cp|]. intros k. rewrite Sh. apply Cp. }
  assert (Lm : is_lim_seq (cut (cseq x)) (ev (cseq x) (length a) (lim (shiftn (length a) (cseq x))))).
  { apply lim_prefix; [|auto|].
    - intros k. destruct (le_lt_dec (length a) (S k)) as [Hk|Hk].
      + replace (S k) with (lena x + (S k - length a))%nat by (unfold lena; cbn [a_coeffs x]; lia). rewrite cseq_p by auto.
        apply cpos_nonneg. auto.
      + rewrite cseq_a by exact Hk. cbn [a_coeffs x]. destruct a as [|a0 rest]; [cbn in Hk; lia|]. cbn [tl] in Ha. cbn [nth]. cbn [length] in Hk.
        rewrite Forall_forall in Ha. apply Ha. apply nth_In. lia.
    - pose proof (Sh 0%nat) as S0. rewrite shiftn_at, Nat.add_0_r in S0. rewrite S0. exact P1. }
  apply lim_unique in Lm. rewrite Lm. rewrite ev_evr. rewrite (lim_ext _ _ Sh). f_equal. f_equal.
  apply map_nth_seq. intros k Hk. apply (cseq_a x). exact Hk.
Qed.

Lemma wfr_rev l : wfr l -> exists a0 rest, List.rev l = a0 :: rest /\ 0 <= a0 /\ List.Forall (fun v => 1 <= v) rest.
Proof.
  induction l as [|v l IH]; intros H; [contradiction|]. destruct l as [|w l].
  - exists v, nil. split; [reflexivity|]. split; [exact H|constructor].
  - destruct (wfr_tail v (w :: l) H ltac:(discriminate)) as [V W]. destruct (IH W) as (a0 & rest & E & A & F).
    exists a0, (rest ++ [v]). split; [cbn [List.rev] in *; rewrite E; reflexivity|]. split; [auto|]. apply Forall_app. split; auto.
Qed.
Lemma wfr_nonneg l : wfr l -> List.Forall (fun v => 0 <= v) l.
Proof.
  induction l as [|v l IH]; intros H; [constructor|]. destruct l as [|w l]; [constructor; [exact H|constructor]|].
  destruct (wfr_tail v (w :: l) H ltac:(discriminate)) as [V W]. constructor; [lia|auto].
Qed.

Section Final.
Context (g : cfg) (t : ity).

(** What [new] returns for the coefficients [v :: r] (last one first) *)
Lemma finish_ok a p b st v r s y : a <> nil -> new_loop g t (NSt b None nil) a = Ok st -> s_rev st = v :: r ->
  (s_negative st = Some s \/ (s_negative st = None /\ v = 0 /\ r = nil /\ s = b /\ s_negate st = b)) ->
  wfr (v :: r) -> (r <> nil -> 1 <= v) -> List.Forall (fun v => 1 <= v) p -> fitl t (v :: r) -> fitl t p ->
  cf_new g t a p b = Ok y ->
  canonical y /\ p_coeffs y = p /\
  cf_val y = (IZR (sgnb s) * match p with nil => evr r (IZR v) | _ => evr (v :: r) (lim (pseq p)) end)%R.
Proof.
  intros Ha El Er Es W Hv Pp Fr Fp H. unfold cf_new in H.
  assert (H' : (let! s0 := new_loop g t (NSt b None nil) a in
    match s_rev s0, p with
    | nil, nil => Panic PNoCoeff
    | _, _ =>
      let! (negv, rev) := new_finish t (s_negative s0) (s_rev s0) p in
      let! neg := match negv with
        | Some b => Ok b
        | None => match p with p0 :: _ => if p0 <=? 0 then Panic PUnimplemented else Ok (s_negate s0) | nil => Ok (s_negate s0) end
        end in
      let! a' := mapM (to_unsigned t) (List.rev rev) in
      let! p' := mapM (to_unsigned t) p in
      Ok (CF a' p' neg)
    end) = Ok y) by (destruct a; [congruence|exact H]).
  clear H. rename H' into H. rewrite El in H. cbn [bind] in H. rewrite Er in H.
  destruct p as [|p0 p].
  - unfold new_finish in H. destruct (new_trim t v r) as [rev| |] eqn:Et; [|discriminate|discriminate]. cbn [bind] in H.
    pose proof (trim_fit _ _ _ _ Et Fr) as Fv.
    destruct (trim_ok _ _ _ _ Et W Hv) as (v' & r' & -> & W' & V & P2 & P1).
    destruct (wfr_rev _ W') as (a0 & rest & Erev & A0 & Prest).
    assert (K : exists neg, Ok (CF (List.rev (v' :: r')) nil neg) = Ok y /\ (IZR (sgnb neg) * evr r (IZR v) = IZR (sgnb s) * evr r (IZR v))%R /\
      (v' = 0 -> r' = nil -> neg = false)).
    { assert (Tail : forall neg, (let! a' := mapM (to_unsigned t) (List.rev (v' :: r')) in let! p' := mapM (to_unsigned t) nil in Ok (CF a' p' neg)) = Ok y ->
        Ok (CF (List.rev (v' :: r')) nil neg) = Ok y).
      { intros neg T. destruct (mapM (to_unsigned t) (List.rev (v' :: r'))) as [ws| |] eqn:Em; [|discriminate|discriminate].
        apply mapM_unsigned in Em; [|apply Forall_rev; auto|apply Forall_rev; apply wfr_nonneg; auto]. subst ws. exact T. }
      destruct r' as [|z r'].
      - destruct (Z.eq_dec v' 0) as [->|Nv].
        + cbn [bind] in H. apply Tail in H. exists false. split; [exact H|]. split; [|auto].
          assert (evr r (IZR v) = 0)%R by (rewrite <- V; reflexivity). rewrite H0. ring.
        + assert (Hn : (let! neg := match s_negative st with Some b => Ok b | None => Ok (s_negate st) end in
             let! a' := mapM (to_unsigned t) (List.rev [v']) in let! p' := mapM (to_unsigned t) nil in Ok (CF a' p' neg)) = Ok y).
          { destruct v'; [congruence|exact H|exact H]. }
          destruct Es as [Es|(Es & Ev & Er' & Es' & Eb)].
          * rewrite Es in Hn. cbn [bind] in Hn. apply Tail in Hn. exists s. split; [exact Hn|]. split; [reflexivity|]. congruence.
          * exfalso. subst v r. cbn in Et. inversion Et. congruence.
      - assert (Hn : (let! neg := match s_negative st with Some b => Ok b | None => Ok (s_negate st) end in
             let! a' := mapM (to_unsigned t) (List.rev (v' :: z :: r')) in let! p' := mapM (to_unsigned t) nil in Ok (CF a' p' neg)) = Ok y).
        { destruct v'; exact H. }
        destruct Es as [Es|(Es & Ev & Er' & Es' & Eb)].
        + rewrite Es in Hn. cbn [bind] in Hn. apply Tail in Hn. exists s. split; [exact Hn|]. split; [reflexivity|]. discriminate.
        + exfalso. subst v r. cbn in Et. inversion Et. }
    destruct K as (neg & Hy & Vn & Zn). assert (Ey : y = CF (List.rev (v' :: r')) nil neg) by congruence. subst y. clear Hy. cbn [p_coeffs]. split; [|split; [reflexivity|]].
    + split; [|split]; unfold wfcf; cbn [a_coeffs p_coeffs negative].
      * rewrite Erev. split; [auto|]. split; [auto|constructor].
      * intros _ L. cbn [List.rev]. rewrite last_last. rewrite rev_length in L. cbn [length] in L.
        assert (2 <= v'); [|lia]. apply P2. intros ->. cbn in L. lia.
      * intros E0 _. apply Zn; destruct r' as [|z r']; [inversion E0; auto| |auto|].
        -- apply (f_equal (@length Z)) in E0. rewrite rev_length in E0. discriminate.
        -- apply (f_equal (@length Z)) in E0. rewrite rev_length in E0. discriminate.
    + unfold cf_val. cbn [a_coeffs p_coeffs negative]. rewrite cfl_rev, V. exact Vn.
  - cbn [new_finish bind] in H.
    assert (Hn : (let! a' := mapM (to_unsigned t) (List.rev (v :: r)) in let! p' := mapM (to_unsigned t) (p0 :: p) in Ok (CF a' p' s)) = Ok y).
    { destruct Es as [Es|(Es & Ev & Er' & Es' & Eb)]; rewrite Es in H; [exact H|].
      assert (1 <= p0) by (inversion Pp; auto). destruct (Z.leb_spec p0 0); [lia|]. rewrite Eb in H. rewrite Es'. exact H. }
    clear H. destruct (mapM (to_unsigned t) (List.rev (v :: r))) as [ws| |] eqn:Em; [|discriminate|discriminate].
    apply mapM_unsigned in Em; [|apply Forall_rev; auto|apply Forall_rev; apply wfr_nonneg; auto]. subst ws. cbn [bind] in Hn.
    destruct (mapM (to_unsigned t) (p0 :: p)) as [ws| |] eqn:Em; [|discriminate|discriminate].
    apply mapM_unsigned in Em; [|auto|revert Pp; apply Forall_impl; intros; lia]. subst ws. cbn [bind] in Hn. assert (Ey : y = CF (List.rev (v :: r)) (p0 :: p) s) by congruence. subst y. clear Hn.
    destruct (wfr_rev _ W) as (a0 & rest & Erev & A0 & Prest).
    split; [|split; [reflexivity|]].
    + split; [|split]; unfold wfcf; cbn [a_coeffs p_coeffs negative]; [|discriminate|discriminate].
      rewrite Erev. auto.
    + destruct (inf_val_evr (List.rev (v :: r)) (p0 :: p) s ltac:(discriminate)) as [E _].
      * rewrite Erev. cbn [tl]. revert Prest. apply Forall_impl. intros; lia.
      * auto.
      * rewrite E, rev_involutive. reflexivity.
Qed.

Lemma new_loop_app l1 : forall l2 st, new_loop g t st (l1 ++ l2) = bind (new_loop g t st l1) (fun st => new_loop g t st l2).
Proof.
  induction l1 as [|a l1 IH]; intros l2 st; [reflexivity|]. cbn [app new_loop]. destruct (new_step g t st a); [|reflexivity|reflexivity].
  cbn [bind]. apply IH.
Qed.

Lemma new_loop_ok a p b y : cf_new g t a p b = Ok y -> a <> nil -> exists st, new_loop g t (NSt b None nil) a = Ok st.
Proof.
  intros H N. unfold cf_new in H. destruct a as [|a0 a]; [congruence|].
  destruct (new_loop g t (NSt b None nil) (a0 :: a)) as [st| |]; [eauto|destruct p; discriminate|destruct p; discriminate].
Qed.

Lemma decided_end s st L a : decided s st (a :: L) -> 1 <= a -> exists v r, st = NSt false (Some s) (v :: r) /\ wfr (v :: r) /\ 1 <= v /\
  evr r (IZR v) = evr L (IZR a) /\ forall w, (0 < w)%R -> evr (v :: r) w = evr (a :: L) w.
Proof.
  intros (rev & -> & G & N1 & Sm & Se) Ha. destruct (Se Ha) as (v & r & -> & V & Ev). exists v, r. split; [auto|].
  split; [apply goodr_wfr; auto|]. split; [auto|]. split; [auto|]. exact Sm.
Qed.

Lemma cf_new_ok a p b y : fits t 1 = true -> fitl t a -> fitl t p -> plain_coeffs a p -> cf_new g t a p b = Ok y ->
  canonical y /\ p_coeffs y = p /\ cf_val y = cf_val (CF a p b).
Proof.
  intros F1 Fa Fp [Pp D] H. destruct a as [|a0 a]; [contradiction|].
  destruct (new_loop_ok _ _ _ _ H ltac:(discriminate)) as [st Hst].
  pose proof (loop_fit g t _ _ _ Hst F1 Fa ltac:(constructor)) as Fst.
  destruct a as [|a1 rest].
  - (* one aperiodic coefficient *)
    assert (K : exists v s, s_rev st = [v] /\ (s_negative st = Some s \/ (s_negative st = None /\ v = 0 /\ @nil Z = nil /\ s = b /\ s_negate st = b)) /\
      0 <= v /\ (0 <= a0 -> v = a0 /\ (v = 0 \/ s = b)) /\ (a0 < 0 -> v = - a0 /\ s = negb b)).
    { cbn [new_loop] in Hst. destruct (new_step g t (NSt b None nil) a0) as [st1| |] eqn:E; [|discriminate|discriminate].
      cbn [bind] in Hst. inversion Hst; subst st1. clear Hst. unfold new_step in E.
      assert (Ha' : exists a', (if b then lift2 (subT t) (Ok 0) (Ok a0) else Ok a0) = Ok a' /\ a' = (if b then - a0 else a0)).
      { destruct b; [|eauto]. destruct (lift2 (subT t) (Ok 0) (Ok a0)) eqn:E'; [|discriminate|discriminate]. pose proof (lift_sub _ _ _ _ E'). eexists; split; [reflexivity|lia]. }
      destruct Ha' as (a' & Ea & Va). rewrite Ea in E. cbn [bind] in E. clear Ea. destruct (Z.ltb_spec a' 0) as [Ha'|Ha'].
      - destruct (lift2 (subT t) (Ok 0) (Ok a')) as [m| |] eqn:Em; [|discriminate|discriminate]. cbn [bind] in E. apply lift_sub in Em. inversion E; subst st. cbn.
        exists m, true. split; [auto|]. split; [auto|]. destruct b; cbn [negb] in *; split; [lia| |lia|]; split; intros; try (split; [lia|auto]); try lia.
      - destruct (Z.eqb_spec a' 0) as [Z0|Nz].
        + inversion E; subst st. cbn. exists a', b. split; [auto|]. assert (A0 : a0 = 0) by (destruct b; lia).
          split; [right; auto|]. split; [lia|]. split; [intros; split; [lia|auto]|lia].
        + inversion E; subst st. cbn. exists a', false. split; [auto|]. split; [auto|].
          destruct b; cbn [negb] in *; split; [lia| |lia|]; split; intros; try (split; [lia|auto]); try lia. }
    destruct K as (v & s & Er & Es & Hv & Kp & Kn). rewrite Er in Fst.
    destruct (finish_ok [a0] p b st v nil s y ltac:(discriminate) Hst Er Es Hv ltac:(congruence) Pp Fst Fp H) as (C & P & V).
    split; [auto|]. split; [auto|]. rewrite V. destruct D as [D|D].
    + destruct (Kp D) as [-> Ks]. destruct p as [|p0 p].
      * unfold cf_val. cbn [a_coeffs p_coeffs negative cfl evr]. destruct Ks as [->| ->]; [ring|reflexivity].
      * destruct (inf_val_evr [a0] (p0 :: p) b ltac:(discriminate) ltac:(constructor) Pp) as [E L]. rewrite E.
        destruct Ks as [->| ->]; [|reflexivity]. destruct Es as [Es|(_ & _ & _ & -> & _)]; [|reflexivity].
        exfalso. (* a zero leaves the sign undecided *)
        cbn [new_loop] in Hst. unfold new_step in Hst. destruct b.
        -- destruct (lift2 (subT t) (Ok 0) (Ok 0)) as [m| |] eqn:Em; [|discriminate|discriminate]. apply lift_sub in Em. subst m. cbn in Hst.
           inversion Hst; subst st. discriminate.
        -- cbn in Hst. inversion Hst; subst st. discriminate.
    + subst p. unfold cf_val. cbn [a_coeffs p_coeffs negative cfl evr]. destruct (Z.lt_ge_cases a0 0) as [Ha|Ha].
      * destruct (Kn Ha) as [-> ->]. rewrite opp_IZR. destruct b; cbn [negb sgnb]; ring.
      * destruct (Kp Ha) as [-> Ks]. destruct Ks as [->| ->]; [ring|reflexivity].
  - destruct D as (H1 & Hrest & Hlast & D). set (a := a0 :: a1 :: rest) in *.
    destruct (exists_last (l := a1 :: rest) ltac:(discriminate)) as (l & z & El). rewrite El, last_last in Hlast.
    assert (Ea : a = (a0 :: l) ++ [z]) by (unfold a; rewrite El; reflexivity).
    assert (Erev : List.rev a = z :: List.rev (a0 :: l)) by (rewrite Ea, rev_app_distr; reflexivity).
    assert (Vf : cf_val (CF a nil b) = (IZR (sgnb b) * evr (List.rev (a0 :: l)) (IZR z))%R).
    { unfold cf_val. cbn [a_coeffs p_coeffs negative]. rewrite Ea, cfl_evr. reflexivity. }
    assert (Vi : forall p0 p', p = p0 :: p' -> cf_val (CF a p b) = (IZR (sgnb b) * evr (List.rev a) (lim (pseq p)))%R /\ (1 <= lim (pseq p))%R).
    { intros p0 p' ->. apply inf_val_evr; auto; [discriminate|]. unfold a. cbn [tl]. constructor; auto. }
    assert (Kst : exists v r s, s_rev st = v :: r /\ s_negative st = Some s /\ wfr (v :: r) /\ 1 <= v /\
      (IZR (sgnb s) * evr r (IZR v) = IZR (sgnb b) * evr (List.rev (a0 :: l)) (IZR z))%R /\
      forall w, (0 < w)%R -> (IZR (sgnb s) * evr (v :: r) w = IZR (sgnb b) * evr (List.rev a) w)%R).
    { destruct D as [D|(D & D1 & D2)].
      - assert (U : undecided b (NSt b None nil) nil).
        { exists nil. split; [auto|]. split; [auto|]. split; [intros w W; reflexivity|congruence]. }
        apply (loop_undecided g t a b _ nil st) in U; [|constructor; [auto|constructor; auto]|exact Hst].
        rewrite app_nil_r, Erev in U. destruct U as [U|U].
        + exfalso. destruct U as (rev & _ & _ & _ & Hz). specialize (Hz ltac:(discriminate)). cbn in Hz. lia.
        + destruct (decided_end _ _ _ _ U Hlast) as (v & r & -> & W & V & E1 & E2). exists v, r, b. cbn [s_rev s_negative].
          split; [auto|]. split; [auto|]. split; [auto|]. split; [auto|]. rewrite Erev. split; [rewrite E1; reflexivity|]. intros w Hw. rewrite E2 by auto. reflexivity.
      - unfold a in Hst. change (a0 :: a1 :: rest) with ([a0; a1] ++ rest) in Hst. rewrite new_loop_app in Hst.
        destruct (new_loop g t (NSt b None nil) [a0; a1]) as [st1| |] eqn:E1; [|discriminate|discriminate]. cbn [bind] in Hst.
        destruct (negative_start g t b a0 a1 st1 D D1 E1) as (rev1 & -> & G & N1 & V1 & V2).
        destruct rest as [|a2 rest].
        + cbn in Hst. inversion Hst; subst st. destruct (V2 (D2 eq_refl)) as (v & r & -> & Hv & Vv). exists v, r, (negb b). cbn [s_rev s_negative].
          assert (l = nil /\ z = a1) as [-> ->] by (destruct l as [|x [|? ?]]; inversion El; auto).
          split; [auto|]. split; [auto|]. split; [apply goodr_wfr; auto|]. split; [auto|]. split.
          * rewrite Vv. destruct b; cbn [negb sgnb List.rev app]; ring.
          * intros w Hw. rewrite V1 by auto. rewrite Erev. destruct b; cbn [negb sgnb List.rev app]; ring.
        + assert (U : decided (negb b) (NSt false (Some (negb b)) rev1) rev1).
          { exists rev1. split; [auto|]. split; [auto|]. split; [auto|]. split; [intros w W; reflexivity|].
            destruct rev1 as [|x rr]; [exact I|]. intros Hx. exists x, rr. auto. }
          apply (loop_decided g t (a2 :: rest) (negb b) _ rev1 st) in U; [|auto|exact Hst].
          destruct (exists_last (l := a2 :: rest) ltac:(discriminate)) as (l2 & z2 & El2).
          assert (l = a1 :: l2 /\ z = z2) as [-> ->].
          { rewrite El2 in El. change (a1 :: l2 ++ [z2]) with ((a1 :: l2) ++ [z2]) in El. apply app_inj_tail in El. destruct El; auto. }
          assert (Pl2 : List.Forall (fun v => 0 <= v) (List.rev l2)).
          { apply Forall_rev. rewrite El2 in Hrest. apply Forall_app in Hrest. tauto. }
          rewrite El2, rev_app_distr in U. cbn [List.rev app] in U.
          destruct (decided_end _ _ _ _ U Hlast) as (v & r & -> & W & V & F3 & F4). exists v, r, (negb b). cbn [s_rev s_negative].
          split; [auto|]. split; [auto|]. split; [auto|]. split; [auto|].
          assert (Rl : forall x, (0 < x)%R -> evr (List.rev l2 ++ rev1) x = (- evr (List.rev (a0 :: a1 :: l2)) x)%R).
          { intros x Hx. cbn [List.rev]. rewrite <- app_assoc. cbn [app]. rewrite !evr_app. apply V1. apply evr_pos; auto. }
          split.
          * rewrite F3, Rl by (apply IZR_lt; lia). destruct b; cbn [negb sgnb]; ring.
          * intros w Hw. rewrite F4 by auto. rewrite Erev. cbn [evr]. rewrite Rl.
            -- destruct b; cbn [negb sgnb]; ring.
            -- apply IZR_le in Hlast. apply Rinv_0_lt_compat in Hw. lra. }
    destruct Kst as (v & r & s & Er & Es & W & Hv & E1 & E2). rewrite Er in Fst.
    destruct (finish_ok a p b st v r s y ltac:(discriminate) Hst Er (or_introl Es) W (fun _ => Hv) Pp Fst Fp H) as (C & P & V).
    split; [auto|]. split; [auto|]. rewrite V. destruct p as [|p0 p].
    + rewrite E1, Vf. reflexivity.
    + destruct (Vi p0 p eq_refl) as [Vp L]. rewrite Vp. apply E2. lra.
Qed.
End Final.

(** ** For BigInt coefficients [new] returns *)
Section Total.
Context (g : cfg).
Lemma decided_step_total s st L a : decided s st L -> 0 <= a -> returns (new_step g BigI st a).
Proof.
  intros (rev & -> & G & _) Ha. unfold new_step. cbn [bind]. destruct rev as [|last rest]; [contradiction|].
  destruct (a =? 0); [destruct (last =? 0); eexists; reflexivity|]. destruct (Z.ltb_spec a 0); [lia|].
  destruct rest as [|am2 rest2]; [eexists; reflexivity|]. destruct (last =? 0); eexists; reflexivity.
Qed.
Lemma undecided_step_total b st L a : undecided b st L -> 0 <= a -> returns (new_step g BigI st a).
Proof.
  intros (rev & -> & R & _) Ha. unfold new_step.
  assert (Ea : (if b then lift2 (subT BigI) (Ok 0) (Ok a) else Ok a) = Ok (if b then 0 - a else a)) by (destruct b; reflexivity).
  rewrite Ea. cbn [bind]. set (a' := if b then 0 - a else a). destruct R as [->| ->].
  - destruct (a' <? 0); eexists; reflexivity.
  - destruct (a' =? 0); [eexists; reflexivity|]. destruct (a' <? 0); [|eexists; reflexivity].
    cbn [new_absorb Z.eqb Z.leb Z.compare]. unfold dassert. destruct (dbg g); eexists; reflexivity.
Qed.
Lemma loop_decided_total l : forall s st L, decided s st L -> List.Forall (fun v => 0 <= v) l -> returns (new_loop g BigI st l).
Proof.
  induction l as [|a l IH]; intros s st L D P; [eexists; reflexivity|]. cbn [new_loop]. inversion P; subst.
  destruct (decided_step_total s st L a D ltac:(assumption)) as [st1 E]. rewrite E. cbn [bind].
  eapply IH; eauto. eapply decided_step; eauto.
Qed.
Lemma loop_undecided_total l : forall b st L, undecided b st L -> List.Forall (fun v => 0 <= v) l -> returns (new_loop g BigI st l).
Proof.
  induction l as [|a l IH]; intros s st L D P; [eexists; reflexivity|]. cbn [new_loop]. inversion P as [|? ? Pa Pl]; subst.
  destruct (undecided_step_total s st L a D Pa) as [st1 E]. rewrite E. cbn [bind].
  destruct (undecided_step g BigI _ _ _ _ _ D Pa E) as [[_ U]|[_ U]]; [eapply IH; eauto|eapply loop_decided_total; eauto].
Qed.
Lemma trim_total rest : forall last, returns (new_trim BigI last rest).
Proof.
  induction rest as [rest IH] using (induction_ltof1 _ (@length Z)). intros last.
  destruct rest as [|y rest1]; [eexists; reflexivity|]. cbn [new_trim]. destruct (last =? 0).
  - destruct rest1 as [|z rest2]; [eexists; reflexivity|]. apply IH. unfold ltof. cbn [length]. lia.
  - destruct (last =? 1); [|eexists; reflexivity]. cbn [lift2 bind addT chk fits]. apply IH. unfold ltof. cbn [length]. lia.
Qed.
Lemma mapM_total l : List.Forall (fun v => 0 <= v) l -> mapM (to_unsigned BigI) l = Ok l.
Proof.
  induction l as [|v l IH]; intros H; [reflexivity|]. inversion H; subst. cbn [mapM]. unfold to_unsigned at 1. destruct (Z.ltb_spec v 0); [lia|].
  cbn [bind]. rewrite IH by auto. reflexivity.
Qed.
Lemma fitl_big l : fitl BigI l.
Proof. induction l; constructor; auto. Qed.

Lemma finish_total a p b st v r : a <> nil -> new_loop g BigI (NSt b None nil) a = Ok st -> s_rev st = v :: r ->
  wfr (v :: r) -> (r <> nil -> 1 <= v) -> List.Forall (fun v => 1 <= v) p -> returns (cf_new g BigI a p b).
Proof.
  intros Ha El Er W Hv Pp. unfold cf_new. destruct a as [|a0 a]; [congruence|]. rewrite El. cbn [bind]. rewrite Er. destruct p as [|p0 p].
  - unfold new_finish. destruct (trim_total r v) as [rev Et]. rewrite Et. cbn [bind].
    destruct (trim_ok _ _ _ _ Et W Hv) as (v' & r' & -> & W' & _).
    assert (K : forall neg : option bool, returns (let! neg := match neg with Some b => Ok b | None => Ok (s_negate st) end in
      let! a' := mapM (to_unsigned BigI) (List.rev (v' :: r')) in let! p' := mapM (to_unsigned BigI) nil in Ok (CF a' p' neg))).
    { intros neg. rewrite mapM_total by (apply Forall_rev; apply wfr_nonneg; auto). destruct neg; eexists; reflexivity. }
    destruct r' as [|z r']; [destruct v'; [exact (K (Some false))|apply K|apply K]|destruct v'; apply K].
  - cbn [new_finish bind]. rewrite !mapM_total.
    + assert (1 <= p0) by (inversion Pp; auto). destruct (s_negative st); [|destruct (Z.leb_spec p0 0); [lia|]]; eexists; reflexivity.
    + revert Pp; apply Forall_impl; intros; lia.
    + apply Forall_rev; apply wfr_nonneg; auto.
Qed.

Lemma cf_new_total a p b : plain_coeffs a p -> returns (cf_new g BigI a p b).
Proof.
  intros [Pp D]. destruct a as [|a0 a]; [contradiction|]. destruct a as [|a1 rest].
  - assert (K : exists st v, new_loop g BigI (NSt b None nil) [a0] = Ok st /\ s_rev st = [v] /\ 0 <= v).
    { cbn [new_loop]. unfold new_step.
      assert (Ea : (if b then lift2 (subT BigI) (Ok 0) (Ok a0) else Ok a0) = Ok (if b then 0 - a0 else a0)) by (destruct b; reflexivity).
      rewrite Ea. cbn [bind]. set (a' := if b then 0 - a0 else a0). destruct (Z.ltb_spec a' 0).
      - eexists. exists (0 - a'). split; [reflexivity|]. split; [reflexivity|lia].
      - eexists. exists a'. split; [reflexivity|]. split; [reflexivity|lia]. }
    destruct K as (st & v & El & Er & Hv). apply (finish_total [a0] p b st v nil ltac:(discriminate) El Er Hv ltac:(congruence) Pp).
  - destruct D as (H1 & Hrest & Hlast & D). set (a := a0 :: a1 :: rest) in *.
    assert (El : exists l z, a1 :: rest = l ++ [z] /\ 1 <= z).
    { destruct (exists_last (l := a1 :: rest) ltac:(discriminate)) as (l & z & El). rewrite El, last_last in Hlast. eauto. }
    destruct El as (l & z & El & Hz).
    assert (Erev : List.rev a = z :: List.rev (a0 :: l)) by (unfold a; rewrite El; cbn [List.rev]; rewrite rev_app_distr; reflexivity).
    destruct D as [D|(D & D1 & D2)].
    + assert (U : undecided b (NSt b None nil) nil).
      { exists nil. split; [auto|]. split; [auto|]. split; [intros w W; reflexivity|congruence]. }
      assert (Pa : List.Forall (fun v => 0 <= v) a) by (constructor; [auto|constructor; auto]).
      destruct (loop_undecided_total a b _ nil U Pa) as [st Est].
      destruct (loop_undecided g BigI a b _ nil st U Pa Est) as [U'|U']; rewrite app_nil_r, Erev in U'.
      * exfalso. destruct U' as (rev & _ & _ & _ & Hz'). specialize (Hz' ltac:(discriminate)). cbn in Hz'. lia.
      * destruct (decided_end _ _ _ _ U' Hz) as (v & r & -> & W & V & _).
        apply (finish_total a p b _ v r ltac:(discriminate) Est eq_refl W (fun _ => V) Pp).
    + assert (E1 : returns (new_loop g BigI (NSt b None nil) [a0; a1])).
      { cbn [new_loop]. unfold new_step at 1.
        assert (Ea : (if b then lift2 (subT BigI) (Ok 0) (Ok a0) else Ok a0) = Ok (if b then 0 - a0 else a0)) by (destruct b; reflexivity).
        rewrite Ea. cbn [bind]. clear Ea.
        assert (K : forall nb, returns (let! s := new_step g BigI (NSt true nb [0 - a0]) a1 in Ok s)).
        { intros nb. unfold new_step. cbn [lift2 subT chk fits bind]. destruct (Z.eqb_spec (0 - a1) 0); [lia|]. destruct (Z.ltb_spec (0 - a1) 0); [|lia].
          cbn [new_absorb]. unfold dassert. destruct (Z.leb_spec 0 (0 - a0)); [|lia]. destruct (Z.eqb_spec (0 - a0) 1); [lia|].
          destruct (Z.eqb_spec (0 - a0) 0); [lia|]. destruct (Z.ltb_spec 1 (0 - a0)); [|lia].
          destruct (dbg g); eexists; reflexivity. }
        destruct b.
        - destruct (Z.ltb_spec (0 - a0) 0); [lia|]. cbn [bind]. destruct (Z.eqb_spec (0 - a0) 0); [lia|]. apply K.
        - destruct (Z.ltb_spec a0 0); [|lia]. cbn [lift2 subT chk fits bind negb]. apply K. }
      destruct E1 as [st1 E1]. destruct (negative_start g BigI b a0 a1 st1 D D1 E1) as (rev1 & -> & G & N1 & V1 & V2).
      assert (U : decided (negb b) (NSt false (Some (negb b)) rev1) rev1).
      { exists rev1. split; [auto|]. split; [auto|]. split; [auto|]. split; [intros w W; reflexivity|].
        destruct rev1 as [|x rr]; [exact I|]. intros Hx. exists x, rr. auto. }
      destruct (loop_decided_total rest _ _ _ U Hrest) as [st Est].
      assert (Ea : new_loop g BigI (NSt b None nil) a = Ok st).
      { unfold a. change (a0 :: a1 :: rest) with ([a0; a1] ++ rest). rewrite new_loop_app, E1. exact Est. }
      assert (K : exists v r, s_rev st = v :: r /\ wfr (v :: r) /\ 1 <= v).
      { destruct rest as [|a2 rest].
        - cbn in Est. inversion Est; subst st. destruct (V2 (D2 eq_refl)) as (v & r & -> & Hv & _). exists v, r. split; [auto|]. split; [apply goodr_wfr; auto|auto].
        - destruct (exists_last (l := a2 :: rest) ltac:(discriminate)) as (l2 & z2 & El2).
          assert (1 <= z2).
          { rewrite El2 in El. change (a1 :: l2 ++ [z2]) with ((a1 :: l2) ++ [z2]) in El. apply app_inj_tail in El. destruct El; subst; auto. }
          apply (loop_decided g BigI (a2 :: rest) (negb b) _ rev1 st) in U; [|auto|exact Est].
          rewrite El2, rev_app_distr in U. cbn [List.rev app] in U.
          destruct (decided_end _ _ _ _ U H) as (v & r & -> & W & V & _). exists v, r. auto. }
      destruct K as (v & r & Er & W & Hv). apply (finish_total a p b _ v r ltac:(discriminate) Ea Er W (fun _ => Hv) Pp).
Qed.
End Total.

(** Positive coefficients are kept as they are *)
Section Pos.
Context (g : cfg) (t : ity).
Lemma push_all l : forall s v r, 1 <= v -> List.Forall (fun v => 1 <= v) l ->
  new_loop g t (NSt false (Some s) (v :: r)) l = Ok (NSt false (Some s) (List.rev l ++ v :: r)).
Proof.
  induction l as [|a l IH]; intros s v r Hv F; [reflexivity|]. inversion F; subst. cbn [new_loop].
  assert (E : new_step g t (NSt false (Some s) (v :: r)) a = Ok (NSt false (Some s) (a :: v :: r))).
  { unfold new_step. cbn [bind]. destruct (Z.eqb_spec a 0); [lia|]. destruct (Z.ltb_spec a 0); [lia|]. destruct (Z.eqb_spec v 0); [lia|]. destruct r; reflexivity. }
  rewrite E. cbn [bind]. rewrite IH by auto. cbn [List.rev]. rewrite <- app_assoc. reflexivity.
Qed.
Lemma cf_new_pos n l p b y : 0 <= n -> List.Forall (fun v => 1 <= v) l -> List.Forall (fun v => 1 <= v) p -> p <> nil ->
  fitl t (n :: l) -> fitl t p -> cf_new g t (n :: l) p b = Ok y -> y = CF (n :: l) p b.
Proof.
  intros Hn Fl Fp Np Ga Gp H. destruct (new_loop_ok _ _ _ _ _ _ H ltac:(discriminate)) as [st Est].
  assert (K : s_rev st = List.rev (n :: l) /\ (s_negative st = Some b \/ s_negative st = None /\ s_negate st = b)).
  { pose proof Est as E. cbn [new_loop] in E. destruct (new_step g t (NSt b None nil) n) as [st1| |] eqn:E1; [|discriminate|discriminate]. cbn [bind] in E.
    assert (U0 : undecided b (NSt b None nil) nil).
    { exists nil. split; [auto|]. split; [auto|]. split; [intros w W; reflexivity|congruence]. }
    destruct (Z.eq_dec n 0) as [->|Nn].
    - assert (S1 : st1 = NSt b None [0]).
      { unfold new_step in E1. destruct b.
        - destruct (lift2 (subT t) (Ok 0) (Ok 0)) as [m| |] eqn:Em; [|discriminate|discriminate]. apply lift_sub in Em. subst m. cbn in E1. inversion E1; auto.
        - cbn in E1. inversion E1; auto. }
      subst st1. destruct l as [|a1 l].
      + cbn in E. inversion E; subst st. cbn. auto.
      + inversion Fl; subst. cbn [new_loop] in E. destruct (new_step g t (NSt b None [0]) a1) as [st2| |] eqn:E2; [|discriminate|discriminate]. cbn [bind] in E.
        assert (S2 : st2 = NSt false (Some b) [a1; 0]).
        { unfold new_step in E2. destruct b.
          - destruct (lift2 (subT t) (Ok 0) (Ok a1)) as [m| |] eqn:Em; [|discriminate|discriminate]. apply lift_sub in Em. cbn [bind] in E2.
            destruct (Z.eqb_spec m 0); [lia|]. destruct (Z.ltb_spec m 0); [|lia]. cbn [new_absorb] in E2.
            destruct (dassert g (0 <=? 0)); [|discriminate|discriminate]. cbn [bind Z.eqb] in E2.
            destruct (lift2 (subT t) (Ok 0) (Ok m)) as [m2| |] eqn:Em2; [|discriminate|discriminate]. apply lift_sub in Em2. cbn [bind negb] in E2.
            inversion E2. f_equal. f_equal. lia.
          - cbn [bind] in E2. destruct (Z.eqb_spec a1 0); [lia|]. destruct (Z.ltb_spec a1 0); [lia|]. cbn in E2. inversion E2; auto. }
        subst st2. rewrite push_all in E by auto. inversion E; subst st. cbn [s_rev s_negative s_negate]. split; [|auto].
        cbn [List.rev]. rewrite <- !app_assoc. reflexivity.
    - assert (S1 : st1 = NSt false (Some b) [n]).
      { unfold new_step in E1. destruct b.
        - destruct (lift2 (subT t) (Ok 0) (Ok n)) as [m| |] eqn:Em; [|discriminate|discriminate]. apply lift_sub in Em. cbn [bind] in E1.
          destruct (Z.ltb_spec m 0); [|lia]. destruct (lift2 (subT t) (Ok 0) (Ok m)) as [m2| |] eqn:Em2; [|discriminate|discriminate].
          apply lift_sub in Em2. cbn [bind negb] in E1. inversion E1. f_equal. f_equal. lia.
        - cbn [bind] in E1. destruct (Z.ltb_spec n 0); [lia|]. destruct (Z.eqb_spec n 0); [lia|]. inversion E1; auto. }
      subst st1. rewrite push_all in E by (auto; lia). inversion E; subst st. cbn. auto. }
  destruct K as [Er Es]. unfold cf_new in H. rewrite Est in H. cbn [bind] in H. rewrite Er in H. destruct p as [|p0 p]; [congruence|].
  assert (Hm : match List.rev (n :: l) with nil => True | _ => True end) by (destruct (List.rev (n :: l)); exact I).
  assert (H' : (let! neg := match s_negative st with Some b => Ok b | None => if p0 <=? 0 then Panic PUnimplemented else Ok (s_negate st) end in
     let! a' := mapM (to_unsigned t) (List.rev (List.rev (n :: l))) in let! p' := mapM (to_unsigned t) (p0 :: p) in Ok (CF a' p' neg)) = Ok y).
  { destruct (List.rev (n :: l)); exact H. }
  clear H Hm. rewrite rev_involutive in H'.
  assert (Hneg : match s_negative st with Some b => Ok b | None => if p0 <=? 0 then Panic PUnimplemented else Ok (s_negate st) end = Ok b).
  { destruct Es as [->|[-> ->]]; [reflexivity|]. inversion Fp; subst. destruct (Z.leb_spec p0 0); [lia|reflexivity]. }
  rewrite Hneg in H'. cbn [bind] in H'.
  destruct (mapM (to_unsigned t) (n :: l)) as [ws| |] eqn:Em; [|discriminate|discriminate].
  apply mapM_unsigned in Em; [|auto|constructor; [auto|]; revert Fl; apply Forall_impl; intros; lia]. subst ws. cbn [bind] in H'.
  destruct (mapM (to_unsigned t) (p0 :: p)) as [ws| |] eqn:Em; [|discriminate|discriminate].
  apply mapM_unsigned in Em; [|auto|revert Fp; apply Forall_impl; intros; lia]. subst ws. cbn [bind] in H'. inversion H'. reflexivity.
Qed.
End Pos.
