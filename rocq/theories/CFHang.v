(** * CFHang: exactly when the conversion of a surd never returns. *)

From Coq Require Import ZArith Znumtheory Reals Lia Lra Bool List Arith.
From Coquelicot Require Import Coquelicot.
From Verif Require Import Base Ext ModelSurd ModelBlock ModelCF ModelConv Spec SpecCF SpecHang NumFacts Transfer SurdCore RatioFacts SurdArith
  SurdTotal SurdOrd SurdRound SurdMisc SurdSqrt CFCore CFSeq CFIter CFBasic CFSurd CFNew CFSigned CFOfSurd CFWide.
Import ListNotations.
Open Scope Z_scope.

Definition good (l : list Z) : Prop := pos1 l /\ (l <> nil -> 2 <= last l 0).
Lemma good_nil : good nil.
Proof. split; [constructor|congruence]. Qed.
Lemma good_cons a l : 1 <= a -> (l = nil -> 2 <= a) -> good l -> good (a :: l).
Proof.
  intros A A2 [P L]. split; [constructor; auto|]. intros _. destruct l as [|b l]; [cbn; auto|]. change (last (a :: b :: l) 0) with (last (b :: l) 0). apply L. discriminate.
Qed.
Lemma good_tl a l : good (a :: l) -> 1 <= a /\ (l = nil -> 2 <= a) /\ good l.
Proof.
  intros [P L]. inversion P; subst. split; [auto|]. split; [intros ->; apply (L ltac:(discriminate))|]. split; [auto|]. intros N. destruct l as [|b l]; [congruence|]. apply L. discriminate.
Qed.

Section Run.
Context (d rd : Z) (Hd0 : rd * rd < d) (Hd1 : d < (rd + 1) * (rd + 1)) (Hr0 : 0 <= rd).
Notation X := (X d). Notation bad2 := (bad2 d rd). Notation stuck := (stuck d rd). Notation ends := (ends d rd).
Definition XC (p q : Z) : R := ((IZR p - sqrt (IZR d)) / IZR q)%R.

Lemma rho_conj p q a p' q' : q <> 0 -> p' = a * q - p -> q * q' = d - p' * p' -> XC p q = (IZR a + / XC p' q')%R.
Proof.
  intros Hq Hp Hqq. pose proof (nsq d rd Hd0 Hd1 p') as N0.
  assert (Hq' : q' <> 0) by nia.
  pose proof (s_sq d rd Hd0 Hd1) as S2. unfold XC. set (s := sqrt (IZR d)) in *. clearbody s.
  assert (Hs : (IZR p' - s <> 0)%R).
  { intros E. apply N0. apply eq_IZR. rewrite minus_IZR, mult_IZR. rewrite <- S2. replace s with (IZR p')%R by lra. ring. }
  assert (E : (IZR q' * IZR q = IZR d - IZR p' * IZR p')%R) by (rewrite <- !mult_IZR, <- minus_IZR; f_equal; lia).
  assert (Ep : IZR p = (IZR a * IZR q - IZR p')%R) by (rewrite <- mult_IZR, <- minus_IZR; f_equal; lia).
  assert (Q0 : (IZR q <> 0)%R) by (apply not_0_IZR; auto). assert (Q1 : (IZR q' <> 0)%R) by (apply not_0_IZR; auto).
  rewrite Rinv_div. apply (Rmult_eq_reg_r (IZR q * (IZR p' - s))%R); [|apply Rmult_integral_contrapositive_currified; auto].
  replace ((IZR p - s) / IZR q * (IZR q * (IZR p' - s)))%R with ((IZR p - s) * (IZR p' - s))%R by (field; auto).
  replace ((IZR a + IZR q' / (IZR p' - s)) * (IZR q * (IZR p' - s)))%R with (IZR a * IZR q * (IZR p' - s) + IZR q' * IZR q)%R by (field; auto).
  rewrite E, Ep. rewrite <- S2. ring.
Qed.
Lemma indep a b : (IZR a + IZR b * sqrt (IZR d) = 0)%R -> a = 0 /\ b = 0.
Proof.
  intros E. pose proof (s_sq d rd Hd0 Hd1) as S2. set (s := sqrt (IZR d)) in *.
  assert (Q : a * a = b * b * d).
  { apply eq_IZR. rewrite !mult_IZR, <- S2. replace (IZR a) with (- (IZR b * s))%R by lra. ring. }
  destruct (Z.eq_dec b 0) as [->|B]; [split; [nia|auto]|]. exfalso.
  assert (Sq : square d) by (apply (square_quotient a b); auto). destruct Sq as [k Hk]. apply (nsq d rd Hd0 Hd1 k). lia.
Qed.
Lemma inv_bad m m' : bad2 m m' -> (/ X rd (- m) = - ((sqrt (IZR d) - IZR rd) / IZR m'))%R.
Proof.
  intros (M & M' & E & _). pose proof (s_sq d rd Hd0 Hd1) as S2. pose proof (s_lo d rd Hd0 Hd1 Hr0) as Sl.
  unfold CFOfSurd.X. set (s := sqrt (IZR d)) in *. clearbody s. apply (f_equal IZR) in E. rewrite minus_IZR, !mult_IZR, <- S2 in E.
  apply IZR_lt in M. apply IZR_lt in M'. apply IZR_le in Hr0. rewrite opp_IZR. apply (Rmult_eq_reg_r (IZR m' * (IZR rd + s))%R); [|apply Rmult_integral_contrapositive_currified; lra].
  replace (/ ((IZR rd + s) / - IZR m) * (IZR m' * (IZR rd + s)))%R with (- (IZR m * IZR m'))%R by (field; lra). rewrite E. field. lra.
Qed.
Lemma last_state p q a m m' : q <> 0 -> bad2 m m' -> X p q = (IZR a + / X rd (- m))%R -> q = - m' /\ p = - a * m' - rd.
Proof.
  intros Hq B E. rewrite (inv_bad m m' B) in E. destruct B as (M & M' & _). unfold CFOfSurd.X in E. set (s := sqrt (IZR d)) in *.
  assert (Q0 : (IZR q <> 0)%R) by (apply not_0_IZR; auto). assert (Q1 : (IZR m' <> 0)%R) by (apply not_0_IZR; lia).
  assert (K : ((IZR p + s) * IZR m' = IZR q * (IZR a * IZR m' - s + IZR rd))%R).
  { replace (IZR p + s)%R with ((IZR p + s) / IZR q * IZR q)%R by (field; auto). rewrite E. field. auto. }
  assert (Z0 : (IZR (p * m' - q * a * m' - q * rd) + IZR (m' + q) * sqrt (IZR d) = 0)%R).
  { rewrite !minus_IZR, plus_IZR, !mult_IZR. fold s. lra. }
  apply indep in Z0. destruct Z0 as [Z1 Z2]. assert (q = - m') by lia. split; [auto|]. subst q. nia.
Qed.
Lemma frac_bad m : 0 < m -> (0 < (sqrt (IZR d) - IZR rd) / IZR m < 1)%R.
Proof.
  intros M. pose proof (s_lo d rd Hd0 Hd1 Hr0) as Sl. pose proof (s_hi d rd Hd0 Hd1 Hr0) as Sh. set (s := sqrt (IZR d)) in *.
  assert (M1 : (1 <= IZR m)%R) by (apply IZR_le; lia). split; [apply Rdiv_lt_0_compat; lra|]. apply (Rmult_lt_reg_r (IZR m)); [lra|]. replace ((s - IZR rd) / IZR m * IZR m)%R with (s - IZR rd)%R by (field; lra). lra.
Qed.
Lemma inv_gt1 x a : (1 < x)%R -> (IZR a < IZR a + / x < IZR a + 1)%R.
Proof. intros H. pose proof (inv_lt1 x H). lra. Qed.

Lemma followed l w : tlv l w = followed_by l w.
Proof. induction l as [|a l IH]; [reflexivity|]. cbn. rewrite IH. reflexivity. Qed.

(** both the number and its conjugate above 1 *)
Lemma states m m' l : bad2 m m' -> forall a p q, q <> 0 -> (q | d - p * p) -> good l -> X p q = tlv (a :: l) (X rd (- m)) ->
  (l = nil -> q = - m' /\ p = - a * m' - rd) /\ (l <> nil -> (IZR a < X p q < IZR a + 1)%R /\ (IZR a < XC p q < IZR a + 1)%R) /\
  (1 <= a -> (l = nil -> 2 <= a) -> (1 < X p q)%R /\ (1 < XC p q)%R).
Proof.
  intros B. induction l as [|b l IH]; intros a p q Hq Dv G E.
  - cbn [tlv] in E. pose proof (last_state p q a m m' Hq B E) as [Eq Ep]. split; [auto|]. split; [congruence|]. intros A A2. specialize (A2 eq_refl).
    pose proof (inv_bad m m' B) as Ib. destruct B as (M & M' & _). pose proof (frac_bad m' M') as F. rewrite Ib in E. rewrite E. apply IZR_le in A2. split; [lra|].
    unfold XC. rewrite Ep, Eq. rewrite minus_IZR, mult_IZR, !opp_IZR. pose proof (s_lo d rd Hd0 Hd1 Hr0) as Sl. set (s := sqrt (IZR d)) in *.
    apply IZR_lt in M'. apply IZR_le in Hr0. replace ((- IZR a * IZR m' - IZR rd - s) / - IZR m')%R with (IZR a + (IZR rd + s) / IZR m')%R by (field; lra).
    assert (0 < (IZR rd + s) / IZR m')%R by (apply Rdiv_lt_0_compat; lra). lra.
  - apply good_tl in G. destruct G as (Hb & Hb2 & G).
    set (p' := a * q - p). assert (Dv' : (q | d - p' * p')). { destruct Dv as [k Hk]. exists (k - a * a * q + 2 * a * p). unfold p'. nia. }
    destruct Dv' as [q' Hq']. assert (Hqq : q * q' = d - p' * p') by lia. pose proof (nsq d rd Hd0 Hd1 p') as N0. assert (Nq' : q' <> 0) by nia.
    pose proof (rho_value d rd Hd0 Hd1 p q a p' q' Hq eq_refl Hqq) as V. pose proof (rho_conj p q a p' q' Hq eq_refl Hqq) as VC.
    change (tlv (a :: b :: l) (X rd (- m))) with (IZR a + / tlv (b :: l) (X rd (- m)))%R in E.
    assert (E' : X p' q' = tlv (b :: l) (X rd (- m))).
    { rewrite V in E. assert (K : (/ X p' q' = / tlv (b :: l) (X rd (- m)))%R) by lra. rewrite <- (Rinv_inv (X p' q')), K, Rinv_inv. reflexivity. }
    destruct (IH b p' q' Nq' ltac:(exists q; lia) G E') as (_ & _ & H1). destruct (H1 Hb Hb2) as [X1 XC1].
    pose proof (inv_gt1 _ a X1) as I1. pose proof (inv_gt1 _ a XC1) as I2. rewrite <- V in I1. rewrite <- VC in I2.
    split; [discriminate|]. split; [auto|]. intros A _. apply IZR_le in A. split; lra.
Qed.

(** the circle *)
Lemma stuck_bad m m' : bad2 m m' -> stuck rd (- m).
Proof.
  intros (Hm & Hm' & E & D & D').
  assert (Step : forall m m', 0 < m -> 0 < m' -> m * m' = d - rd * rd -> (m | 2 * rd) -> rho BigI d rd rd (- m) = Ok (- (2 * rd / m), rd, - m')).
  { clear - Hd0 Hd1 Hr0. intros. destruct (rho_any d rd Hd0 Hd1 rd (- m) ltac:(lia)) as (q' & Er & Eq & Nq & Dq & V). { exists (- m'). lia. }
    cbv zeta in *. replace (rd + rd) with (2 * rd) in * by lia. rewrite (div_opp_exact _ _ H H2) in *. destruct H2 as [k Hk]. rewrite Hk, Z.div_mul in * by lia.
    replace (- k * - m - rd) with rd in * by lia. assert (q' = - m') by nia. subst q'. auto. }
  pose proof (Step m m' Hm Hm' E D) as S1. pose proof (Step m' m Hm' Hm ltac:(lia) D') as S2.
  assert (K : forall fuel, aper_loop BigI fuel true d rd rd (- m) = Hang /\ aper_loop BigI fuel true d rd rd (- m') = Hang).
  { induction fuel as [|fuel [IH1 IH2]]; [split; reflexivity|]. cbn [aper_loop]. cbn [bind]. rewrite S1, S2. cbn [bind].
    rewrite !(aper_first d rd) by (right; lia). rewrite IH1, IH2. split; reflexivity. }
  intros fuel. apply K.
Qed.

(** ** a number of this form gets into the circle *)
Lemma trapped_stuck m m' l : bad2 m m' -> forall a p q, q <> 0 -> (q | d - p * p) -> good l -> X p q = tlv (a :: l) (X rd (- m)) -> stuck p q.
Proof.
  intros B. induction l as [|b l IH]; intros a p q Hq Dv G E.
  - pose proof (states m m' nil B a p q Hq Dv G E) as (S & _ & _). destruct (S eq_refl) as [Eq Ep].
    destruct (rho_any d rd Hd0 Hd1 p q Hq Dv) as (q' & Er & Eqq & Nq & _). cbv zeta in Er, Eqq.
    pose proof B as (M & M' & Em & _).
    assert (Ea : (rd + p) / q = a). { replace (rd + p) with (a * q) by (rewrite Ep, Eq; ring). apply Z.div_mul. auto. }
    rewrite Ea in *. assert (Ep' : a * q - p = rd) by (rewrite Ep, Eq; ring). rewrite Ep' in *. assert (q' = - m) by (subst q; nia). subst q'.
    apply (stuck_step d rd _ _ _ _ _ Er); [right; lia|]. apply (stuck_bad m m' B).
  - pose proof (states m m' (b :: l) B a p q Hq Dv G E) as (_ & S & _). destruct (S ltac:(discriminate)) as [S1 S2]. clear S.
    apply good_tl in G. destruct G as (Hb & Hb2 & G).
    destruct (rho_any d rd Hd0 Hd1 p q Hq Dv) as (q' & Er & Eqq & Nq & Dq & V). cbv zeta in *.
    pose proof (s_lo d rd Hd0 Hd1 Hr0) as Sl. pose proof (s_hi d rd Hd0 Hd1 Hr0) as Sh.
    assert (Ea : (rd + p) / q = a).
    { unfold CFOfSurd.X in S1. unfold XC in S2. set (s := sqrt (IZR d)) in *. destruct (Z.lt_total q 0) as [Q|[Q|Q]]; [|contradiction|].
      - assert (QR : (IZR q < 0)%R) by (apply IZR_lt; auto).
        assert (T1 : (IZR p + s < IZR a * IZR q)%R). { replace (IZR p + s)%R with ((IZR p + s) / IZR q * IZR q)%R by (field; lra). nra. }
        assert (T2 : ((IZR a + 1) * IZR q < IZR p + s)%R). { replace (IZR p + s)%R with ((IZR p + s) / IZR q * IZR q)%R by (field; lra). nra. }
        assert (T3 : ((IZR a + 1) * IZR q < IZR p - s)%R). { replace (IZR p - s)%R with ((IZR p - s) / IZR q * IZR q)%R by (field; lra). nra. }
        apply IZR_le in Hr0 as Hr0R.
        assert (Z1 : rd + p < a * q) by (apply lt_IZR; rewrite plus_IZR, mult_IZR; lra).
        assert (Z2 : (a + 1) * q < rd + p) by (apply lt_IZR; rewrite plus_IZR, mult_IZR, plus_IZR; lra).
        symmetry. apply (Z.div_unique_neg _ _ a (rd + p - a * q)); lia.
      - assert (QR : (0 < IZR q)%R) by (apply IZR_lt; auto).
        assert (T1 : (IZR a * IZR q < IZR p + s)%R). { replace (IZR p + s)%R with ((IZR p + s) / IZR q * IZR q)%R by (field; lra). nra. }
        assert (T2 : (IZR p + s < (IZR a + 1) * IZR q)%R). { replace (IZR p + s)%R with ((IZR p + s) / IZR q * IZR q)%R by (field; lra). nra. }
        assert (Z1 : a * q < rd + p + 1) by (apply lt_IZR; rewrite !plus_IZR, mult_IZR; lra).
        assert (Z2 : rd + p < (a + 1) * q) by (apply lt_IZR; rewrite plus_IZR, mult_IZR, plus_IZR; lra).
        symmetry. apply (Z.div_unique_pos _ _ a (rd + p - a * q)); lia. }
    rewrite Ea in *. set (p' := a * q - p) in *.
    change (tlv (a :: b :: l) (X rd (- m))) with (IZR a + / tlv (b :: l) (X rd (- m)))%R in E.
    assert (E' : X p' q' = tlv (b :: l) (X rd (- m))).
    { rewrite V in E. assert (K : (/ X p' q' = / tlv (b :: l) (X rd (- m)))%R) by lra. rewrite <- (Rinv_inv (X p' q')), K, Rinv_inv. reflexivity. }
    destruct (states m m' l B b p' q' Nq Dq G E') as (_ & _ & H1). destruct (H1 Hb Hb2) as [X1 XC1].
    apply (stuck_step d rd _ _ _ _ _ Er); [|apply (IH b p' q'); auto].
    unfold CFOfSurd.X in X1. unfold XC in XC1. set (s := sqrt (IZR d)) in *. apply IZR_le in Hr0 as Hr0R. destruct (Z.lt_total q' 0) as [Q|[Q|Q]]; [right|contradiction|left].
    + assert (QR : (IZR q' < 0)%R) by (apply IZR_lt; auto).
      assert (T1 : (IZR p' + s < 1 * IZR q')%R). { replace (IZR p' + s)%R with ((IZR p' + s) / IZR q' * IZR q')%R by (field; lra). nra. }
      assert (p' < 0) by (apply lt_IZR; lra). lia.
    + assert (QR : (0 < IZR q')%R) by (apply IZR_lt; auto).
      assert (T1 : (1 * IZR q' < IZR p' - s)%R). { replace (IZR p' - s)%R with ((IZR p' - s) / IZR q' * IZR q')%R by (field; lra). nra. }
      apply lt_IZR. lra.
Qed.

(** ** and nothing else does *)
Definition caught (p q : Z) (a : Z) (l : list Z) : Prop := exists m m', bad2 m m' /\ good l /\ X p q = tlv (a :: l) (X rd (- m)).
Definition ended (p q : Z) : Prop := exists l pe qe, ends p q l pe qe.
Lemma ended_step p q a p' q' : rho BigI d rd p q = Ok (a, p', q') -> X p q = (IZR a + / X p' q')%R -> nored rd p' q' -> ended p' q' -> ended p q.
Proof. intros Er V N (l & pe & qe & E). exists (a :: l), pe, qe. apply (ends_step d rd _ _ _ p' q'); auto. Qed.
Lemma caught_step p q a p' q' b l : X p q = (IZR a + / X p' q')%R -> caught p' q' b l -> 1 <= b -> (l = nil -> 2 <= b) -> caught p q a (b :: l).
Proof.
  intros V (m & m' & B & G & E) Hb Hb2. exists m, m'. split; [auto|]. split; [apply good_cons; auto|]. change (tlv (a :: b :: l) (X rd (- m))) with (IZR a + / tlv (b :: l) (X rd (- m)))%R. rewrite V, E. reflexivity.
Qed.
Lemma run2 n : forall p q, Z.abs p <= Z.of_nat n -> st1 d rd p q \/ st2 d rd p q -> ended p q \/ exists a l, caught p q a l /\ 1 <= a /\ (l = nil -> 2 <= a).
Proof.
  induction n as [|n IH]; intros p q Hn St.
  - exfalso. destruct St as [(_ & _ & H & _)|(m & _ & ? & _ & H)]; lia.
  - destruct St as [(Hq & Dv & Hp & Hx)|(m & -> & Hm & Dv & Hx)].
    + assert (A1 : 1 <= (rd + p) / q) by (apply Z.div_le_lower_bound; lia).
      assert (DN : next_pos rd p q \/ ~ next_pos rd p q) by (unfold next_pos; lia). destruct DN as [N|N].
      * left. destruct (ends_below d rd Hd0 Hd1 Hr0 p q (conj Hq Dv) N) as (l & pe & qe & E & P). eexists _, pe, qe. eauto.
      * destruct (step1 d rd Hd0 Hd1 p q Hq Dv N) as (p' & q' & Er & S2 & Ep & V).
        assert (Nr : nored rd p' q') by (destruct S2 as (m & -> & Hm & _ & Hx2); right; lia).
        assert (Ab : Z.abs p' <= Z.of_nat n). { destruct S2 as (m & -> & Hm & _ & Hx2). nia. }
        destruct (IH p' q' Ab (or_intror S2)) as [En|(b & l & C & Hb & Hb2)]; [left; eapply ended_step; eauto|right].
        exists ((rd + p) / q), (b :: l). split; [eapply caught_step; eauto|]. split; [auto|discriminate].
    + destruct (step2 d rd Hd0 Hd1 Hr0 p m Hm Dv ltac:(lia)) as [(D & m' & Hm' & E & Er & Ha & V)|(D & p' & q' & Er & _ & S1 & Ep & V)].
      * destruct (ends_bad d rd Hd0 Hd1 Hr0 m' m Hm' Hm ltac:(lia)) as [[B S]|(l & pe & qe & En & Sh)].
        -- right. exists (- (rd + p) / m), nil. split; [exists m', m; split; [auto|]; split; [apply good_nil|exact V]|]. split; [auto|]. intros _.
           destruct D as [k Hk]. rewrite Hk, Z.div_mul by lia. nia.
        -- left. apply (ended_step p (- m) (- (rd + p) / m) rd (- m')); auto; [right; lia|exists l, pe, qe; auto].
      * assert (A1 : 1 <= - (rd + p) / m) by (apply Z.div_le_lower_bound; lia).
        assert (Nr : nored rd p' q') by (left; apply S1).
        assert (Ab : Z.abs p' <= Z.of_nat n) by (destruct S1 as (_ & _ & ? & _); nia).
        destruct (IH p' q' Ab (or_introl S1)) as [En|(b & l & C & Hb & Hb2)]; [left; eapply ended_step; eauto|right].
        exists (- (rd + p) / m), (b :: l). split; [eapply caught_step; eauto|]. split; [auto|discriminate].
Qed.
Lemma run2_pos p q : 0 < q -> (q | d - p * p) -> ended p q \/ exists a l, caught p q a l.
Proof.
  intros Hq Dv. assert (DN : next_pos rd p q \/ ~ next_pos rd p q) by (unfold next_pos; lia). destruct DN as [N|N].
  - left. destruct (ends_below d rd Hd0 Hd1 Hr0 p q (conj Hq Dv) N) as (l & pe & qe & E & P). eexists _, pe, qe. eauto.
  - destruct (step1 d rd Hd0 Hd1 p q Hq Dv N) as (p' & q' & Er & S2 & Ep & V).
    assert (Nr : nored rd p' q') by (destruct S2 as (m & -> & Hm & _ & Hx2); right; lia).
    destruct (run2 (Z.to_nat (Z.abs p')) p' q' ltac:(lia) (or_intror S2)) as [En|(b & l & C & Hb & Hb2)]; [left; eapply ended_step; eauto|right].
    exists ((rd + p) / q), (b :: l). eapply caught_step; eauto.
Qed.
Lemma run2_neg p m : 0 < m -> (m | d - p * p) -> rd + 1 <= - p -> ended p (- m) \/ exists a l, caught p (- m) a l.
Proof.
  intros Hm Dv Hp. destruct (step2 d rd Hd0 Hd1 Hr0 p m Hm Dv Hp) as [(D & m' & Hm' & E & Er & Ha & V)|(D & p' & q' & Er & A0 & S1 & Ep & V)].
  - destruct (ends_bad d rd Hd0 Hd1 Hr0 m' m Hm' Hm ltac:(lia)) as [[B S]|(l & pe & qe & En & Sh)].
    + right. exists (- (rd + p) / m), nil. exists m', m. split; [auto|]. split; [apply good_nil|exact V].
    + left. apply (ended_step p (- m) (- (rd + p) / m) rd (- m')); auto; [right; lia|exists l, pe, qe; auto].
  - assert (Nr : nored rd p' q') by (left; apply S1).
    destruct (run2 (Z.to_nat (Z.abs p')) p' q' ltac:(lia) (or_introl S1)) as [En|(b & l & C & Hb & Hb2)]; [left; eapply ended_step; eauto|right].
    exists (- (rd + p) / m), (b :: l). eapply caught_step; eauto.
Qed.
Lemma stuck_not_ended p q : stuck p q -> ended p q -> False.
Proof. intros S (l & pe & qe & [f0 H] & _). specialize (H f0 ltac:(lia)). rewrite S in H. discriminate. Qed.
End Run.

Lemma X_bad d m : 0 < m -> (X d (Z.sqrt d) (- m) = - ((IZR (Z.sqrt d) + sqrt (IZR d)) / IZR m))%R.
Proof. intros M. apply IZR_lt in M. unfold X. rewrite opp_IZR. field. lra. Qed.

Section Quad.
Context (g : cfg) (a b c r : Z) (Hb : b <> 0) (Hc : 0 < c) (Hr : 0 <= r) (Hs : ~ square r).
Context (Hpos : (0 < (IZR a + IZR b * sqrt (IZR r)) / IZR c)%R).
Notation dst := (dst a b c r). Notation pst := (pst a b c r). Notation qst_ := (qst_ a b c r).
Lemma quad_hang_iff neg :
  (forall fuel, quadsurd_to_contfrac g BigI fuel a b c r neg = Hang) <-> exists a0 l, caught dst (Z.sqrt dst) pst qst_ a0 l.
Proof.
  destruct (dst_bounds a b c r Hb Hc Hr Hs) as (B0 & B1 & B2).
  pose proof (X_target a b c r Hb Hc Hr) as EX. pose proof (target_pos a b c r Hc Hpos) as TP.
  pose proof (s_lo dst _ B0 B1 B2) as Sl.
  assert (QD : qst_ <> 0 /\ (qst_ | dst - pst * pst) /\ (ended dst (Z.sqrt dst) pst qst_ \/ exists a0 l, caught dst (Z.sqrt dst) pst qst_ a0 l)).
  { destruct (qst_ok a b c r Hb Hc) as [(B & St)|[(B & D & E & Ep & Eq)|(B & D & St)]].
    - destruct (qs_A a b c r Hc _ _ _ St) as [Hq Dv]. split; [lia|]. split; [auto|]. apply run2_pos; auto.
    - assert (Dv : (c | dst - pst * pst)) by (rewrite E, Ep; replace (- a * - a) with (a * a) by ring; auto).
      rewrite Eq. split; [lia|]. split; [apply Z.divide_opp_l; auto|]. apply run2_neg; auto.
      assert (Z.sqrt dst < - pst); [|lia]. apply lt_IZR. rewrite opp_IZR. apply IZR_lt in Hc as Cp.
      assert (XQ : (X dst pst qst_ * - IZR c = IZR pst + sqrt (IZR dst))%R) by (unfold X; rewrite Eq, opp_IZR; field; lra). rewrite EX in XQ.
      assert (0 < target a b c r * IZR c)%R by (apply Rmult_lt_0_compat; auto). lra.
    - destruct (qs_A a (- b) c r Hc _ _ _ St) as [Hq Dv]. split; [lia|]. split; [auto|]. apply run2_pos; auto. }
  destruct QD as (Q0 & Dv & R). split.
  - intros H. destruct R as [(l0 & pe0 & qe0 & En0)|R]; [exfalso|auto].
    destruct (quad_total g a b c r Hb Hc Hr Hs Hpos neg) as [[_ T]|[f0 T]].
    + destruct (quad_run a b c r Hb Hc Hr Hs Hpos) as [[_ S]|(l & pe & qe & ([f0 En] & Rd & V) & Tp & D)].
      * apply (stuck_not_ended dst (Z.sqrt dst) pst qst_ S). exists l0, pe0, qe0. auto.
      * destruct (per_total dst _ B0 B1 B2 (f0 + length (allR (Z.sqrt dst)))%nat pe qe Rd ltac:(lia)) as [pl Ep].
        specialize (H (f0 + length (allR (Z.sqrt dst)))%nat). rewrite (quad_big g a b c r Hb Hc Hr Hs), En in H by lia. cbn [bind] in H. rewrite Ep in H. cbn [bind] in H.
        destruct (per_ok dst _ B0 B1 B2 _ _ _ _ _ _ Rd Ep) as (N & Fp & _). destruct (new_top_total g neg l pl Tp N Fp) as [z Ez]. rewrite Ez in H. discriminate.
    + destruct (T f0 ltac:(lia)) as [z Ez]. rewrite H in Ez. discriminate.
  - intros (a0 & l & m & m' & B & G & Ev) fuel. rewrite (quad_big g a b c r Hb Hc Hr Hs). rewrite (trapped_stuck dst _ B0 B1 B2 m m' l B a0 pst qst_ Q0 Dv G Ev). reflexivity.
Qed.
Lemma caught_trapped s w : w = target a b c r ->
  (norm_divisible s /\ dst = c1 (coeffs s) * c1 (coeffs s) * discr s \/
   ~ norm_divisible s /\ dst = c1 (coeffs s) * c1 (coeffs s) * discr s * c2 (coeffs s) * c2 (coeffs s)) ->
  (exists a0 l, caught dst (Z.sqrt dst) pst qst_ a0 l) <-> trapped s w.
Proof.
  intros Ew Ed. pose proof (X_target a b c r Hb Hc Hr) as EX. rewrite <- Ew in EX. split.
  - intros (a0 & l & m & m' & B & [G1 G2] & Ev). pose proof B as (M & M' & Em & D & D'). exists dst, m, m', a0, l.
    rewrite EX, followed, (X_bad dst m M) in Ev. split; [auto|]. split; [auto|]. split; [auto|]. split; [lia|]. split; [auto|]. split; [auto|]. split; [exact G1|]. split; [exact G2|exact Ev].
  - intros (D & m & m' & a0 & l & HD & M & M' & Em & Dm & Dm' & G1 & G2 & Ev).
    assert (D = dst) by (destruct HD as [[n1 e1]|[n1 e1]], Ed as [[n2 e2]|[n2 e2]]; (congruence || contradiction)). subst D.
    exists a0, l, m, m'. split; [split; [auto|split; [auto|split; [lia|split; auto]]]|]. split; [split; [exact G1|exact G2]|].
    rewrite EX, followed, (X_bad dst m M). exact Ev.
Qed.
End Quad.

Lemma surd_hangs_iff g s x xc w : normal g s -> sval s = RtoC x -> sconj s = RtoC xc -> ~ rational_num (sval s) -> loop_number s x xc w ->
  (forall fuel, surd_to_cf g BigI fuel s = Hang) <-> trapped s w.
Proof.
  intros N E Ec I L. destruct (normal_real g s x N E) as [Hr Ex].
  destruct (wide_pre g s x xc N E Ec I) as (a & b & c & r & Es & Hb & Hc & Hr' & Hsq & Ex' & Exc & X0 & Bn & Bp).
  assert (Cp : (IZR c <> 0)%R) by (apply not_0_IZR; lia).
  assert (Main : forall u neg, u * u = 1 -> (IZR u * x = Rabs x)%R -> ((IZR u * (x - xc) = - Rabs (x - xc))%R <-> u * b < 0) ->
    ((forall fuel, surd_to_cf g BigI fuel s = Hang) <-> (forall fuel, quadsurd_to_contfrac g BigI fuel (u * a) (u * b) c r neg = Hang)) ->
    ((forall fuel, surd_to_cf g BigI fuel s = Hang) <-> trapped s w)).
  { intros u neg U Ux Ub Q. rewrite Q. clear Q.
    assert (UR : (IZR u * IZR u = 1)%R) by (rewrite <- mult_IZR, U; reflexivity).
    assert (Ey : ((IZR (u * a) + IZR (u * b) * sqrt (IZR r)) / IZR c = Rabs x)%R) by (rewrite <- Ux, Ex', !mult_IZR; field; auto).
    assert (Eyc : ((IZR (u * a) - IZR (u * b) * sqrt (IZR r)) / IZR c = IZR u * xc)%R) by (rewrite Exc, !mult_IZR; field; auto).
    assert (X1 : (0 < Rabs x)%R) by (apply Rabs_pos_lt; auto).
    rewrite (quad_hang_iff g (u * a) (u * b) c r ltac:(nia) Hc Hr' Hsq ltac:(rewrite Ey; auto) neg).
    assert (Q : r * (u * b) * (u * b) = b * b * r) by (transitivity ((u * u) * (b * b * r)); [ring|rewrite U; ring]).
    assert (Q2 : u * a * (u * a) = a * a) by (transitivity ((u * u) * (a * a)); [ring|rewrite U; ring]).
    assert (K2 : Z.rem (b * b * r - a * a) c = 0 <-> norm_divisible s).
    { rewrite Es. unfold norm_divisible. cbn [coeffs c0 c1 c2 discr]. rewrite rem_div by auto. split; intros [k Hk]; exists (- k); lia. }
    apply caught_trapped; auto; [nia| |].
    - unfold target. rewrite Ey, Eyc, Q, Q2.
      assert (BT : between0 x xc -> (Rabs xc = IZR u * xc)%R /\ u * b < 0).
      { intros [B|B].
        - rewrite (Rabs_right x) in Ux by lra. assert (u1 : IZR u = 1%R) by nra. rewrite Rabs_right by lra. split; [rewrite u1; ring|]. apply Ub. rewrite u1. rewrite Rabs_left by lra. ring.
        - rewrite (Rabs_left x) in Ux by lra. assert (u1 : IZR u = (-1)%R) by nra. rewrite Rabs_left by lra. split; [rewrite u1; ring|]. apply Ub. rewrite u1. rewrite Rabs_right by lra. ring. }
      assert (TB : u * b < 0 -> between0 x xc).
      { intros B. apply Ub in B. destruct (Rtotal_order x 0) as [T|[T|T]]; [|contradiction|].
        - rewrite (Rabs_left x) in Ux by lra. assert (u1 : IZR u = (-1)%R) by nra. rewrite u1 in B. right. split; [|auto].
          assert (x - xc <> 0)%R. { intros Z0. assert (x = xc) by lra. destruct (Z.lt_total b 0) as [b0|[b0|b0]]; [apply Bn in b0; lra|lia|apply Bp in b0; lra]. }
          assert (x - xc = Rabs (x - xc))%R by lra. pose proof (Rabs_pos_lt (x - xc) H). lra.
        - rewrite (Rabs_right x) in Ux by lra. assert (u1 : IZR u = 1%R) by nra. rewrite u1 in B. left. split; [auto|].
          assert (x - xc <> 0)%R. { intros Z0. assert (x = xc) by lra. destruct (Z.lt_total b 0) as [b0|[b0|b0]]; [apply Bn in b0; lra|lia|apply Bp in b0; lra]. }
          pose proof (Rabs_pos_lt (x - xc) H). lra. }
      destruct L as [(Bt & Nd & ->)|(Nb & ->)].
      + destruct (BT Bt) as [-> Bu]. destruct (Z.ltb_spec (u * b) 0); [|lia]. destruct (Z.eqb_spec (Z.rem (b * b * r - a * a) c) 0) as [R|R]; [exfalso; apply Nd; apply K2; auto|reflexivity].
      + destruct (Z.ltb_spec (u * b) 0) as [Bu|Bu]; [|reflexivity]. destruct (Z.eqb_spec (Z.rem (b * b * r - a * a) c) 0) as [R|R]; [reflexivity|].
        exfalso. apply Nb. split; [apply TB; auto|]. intros D. apply R. apply K2. auto.
    - unfold dst. rewrite Q, Q2. rewrite <- K2. rewrite Es. cbn [coeffs c1 c2 discr].
      destruct (Z.eqb_spec (Z.rem (b * b * r - a * a) c) 0) as [R|R]; [left|right]; auto. }
  assert (SgB : forall u, u * u = 1 -> ((IZR u * (x - xc) = - Rabs (x - xc))%R <-> u * b < 0)).
  { intros u U. assert (Hu : u = 1 \/ u = -1) by nia. destruct Hu as [->| ->].
    - rewrite Z.mul_1_l, Rmult_1_l, Bn. split; intros H; [|rewrite Rabs_left by lra; ring].
      destruct (Z.lt_total b 0) as [b0|[b0|b0]]; [apply Bn; auto|lia|]. apply Bp in b0. rewrite Rabs_right in H by lra. lra.
    - replace (-1 * b < 0) with (- b < 0) by (f_equal; ring). split; intros H.
      + destruct (Z.lt_total b 0) as [b0|[b0|b0]]; [|lia|lia]. apply Bn in b0. rewrite Rabs_left in H by lra. lra.
      + assert (b0 : 0 < b) by lia. apply Bp in b0. rewrite Rabs_right by lra. ring. }
  destruct (surd_is_negative_big g s N Hr) as (ng & En & Ib). rewrite <- Ex in Ib. destruct ng.
  - assert (Xn : (x < 0)%R) by (apply Ib; auto). apply (Main (-1) true); [reflexivity|rewrite Rabs_left by auto; ring|apply SgB; reflexivity|].
    replace (-1 * a) with (- a) by ring. replace (-1 * b) with (- b) by ring.
    assert (Q : forall fuel, surd_to_cf g BigI fuel s = (let! z := quadsurd_to_contfrac g BigI fuel (- a) (- b) c r true in Ok (Some z))).
    { intros fuel. unfold surd_to_cf. destruct (Z.ltb_spec (discr s) 0); [lia|]. rewrite En. cbn [bind]. rewrite Es. bigi. reflexivity. }
    split; intros H fuel; specialize (H fuel); rewrite Q in *; [destruct (quadsurd_to_contfrac g BigI fuel (- a) (- b) c r true); (discriminate || reflexivity)|rewrite H; reflexivity].
  - assert (Xn : (0 < x)%R). { destruct (Rtotal_order x 0) as [T|[T|T]]; [exfalso|congruence|auto]. apply Ib in T. discriminate. }
    apply (Main 1 false); [reflexivity|rewrite Rabs_right by lra; ring|apply SgB; reflexivity|].
    rewrite !Z.mul_1_l.
    assert (Q : forall fuel, surd_to_cf g BigI fuel s = (let! z := quadsurd_to_contfrac g BigI fuel a b c r false in Ok (Some z))).
    { intros fuel. unfold surd_to_cf. destruct (Z.ltb_spec (discr s) 0); [lia|]. rewrite En. cbn [bind]. rewrite Es. bigi. reflexivity. }
    split; intros H fuel; specialize (H fuel); rewrite Q in *; [destruct (quadsurd_to_contfrac g BigI fuel a b c r false); (discriminate || reflexivity)|rewrite H; reflexivity].
Qed.

(** ** rational surds *)
Lemma is_red_false h P Q : is_reduced_pq BigI 0 (h * P * Q) (h * Q * Q) = Ok false.
Proof.
  unfold is_reduced_pq. bigi. destruct (Z.leb_spec (h * P * Q) 0) as [A|A]; [|reflexivity]. cbn [bind].
  destruct (Z.ltb_spec 0 (h * P * Q + h * Q * Q)) as [B|B]; [|reflexivity]. cbn [bind]. f_equal. apply Z.leb_gt. nia.
Qed.
Lemma rat_loop n : forall first h P Q, h <> 0 -> (Z.abs_nat Q <= n)%nat -> exists n0, forall fuel, (n0 <= fuel)%nat ->
  aper_loop BigI fuel first 0 0 (h * P * Q) (h * Q * Q) = Panic PDivZero.
Proof.
  induction n as [|n IH]; intros first h P Q Hh Hn.
  - assert (Q = 0) by lia. subst Q. rewrite !Z.mul_0_r. exists 1%nat. intros fuel Hf. destruct fuel as [|fuel]; [lia|]. cbn [aper_loop].
    pose proof (is_red_false h 0 0) as R. rewrite !Z.mul_0_r in R. destruct first; [|rewrite R]; cbn [bind]; reflexivity.
  - destruct (Z.eq_dec Q 0) as [->|HQ]; [apply (IH first h P 0 Hh); lia|].
    set (R := P mod Q). assert (HR : Z.abs R < Z.abs Q) by (unfold R; apply Z.mod_bound_abs; auto).
    destruct (IH false (- h) Q R ltac:(lia) ltac:(lia)) as [n0 H0]. exists (S n0). intros fuel Hf. destruct fuel as [|fuel]; [lia|]. cbn [aper_loop].
    assert (St : (if first then Ok false else is_reduced_pq BigI 0 (h * P * Q) (h * Q * Q)) = Ok false) by (destruct first; [reflexivity|apply is_red_false]).
    rewrite St. cbn [bind].
    assert (Er : rho BigI 0 0 (h * P * Q) (h * Q * Q) = Ok (P / Q, - h * Q * R, - h * R * R)).
    { assert (Q0 : h * Q * Q <> 0) by (apply Z.neq_mul_0; split; [apply Z.neq_mul_0; auto|auto]).
      unfold rho. bigi. cbn [bind]. unfold div_floorT. destruct (Z.eqb_spec (h * Q * Q) 0); [contradiction|]. rewrite Z.add_0_l.
      assert (Ea : h * P * Q / (h * Q * Q) = P / Q).
      { replace (h * P * Q) with (P * (h * Q)) by ring. replace (h * Q * Q) with (Q * (h * Q)) by ring. apply Z.div_mul_cancel_r; [auto|apply Z.neq_mul_0; auto]. }
      rewrite Ea. cbn [chk fits bind]. bigi. cbn [bind].
      assert (Ep : P / Q * (h * Q * Q) - h * P * Q = - h * Q * R). { unfold R. pose proof (Z.div_mod P Q HQ) as E. rewrite E at 2. ring. }
      bigi. cbn [bind]. rewrite Ep. bigi. cbn [bind]. bigi. cbn [bind].
      assert (Eq : 0 - - h * Q * R * (- h * Q * R) = (- h * R * R) * (h * Q * Q)) by ring. rewrite Eq.
      rewrite quotB by auto. rewrite Z.quot_mul by auto. reflexivity. }
    rewrite Er. cbn [bind]. rewrite H0 by lia. reflexivity.
Qed.
Lemma quad_rat g a c neg : Z.gcd a c = 1 -> 0 < c ->
  (dbg g = true -> forall fuel, quadsurd_to_contfrac g BigI fuel a 0 c 0 neg = Panic PDebugAssert) /\
  (dbg g = false -> exists n0, forall fuel, (n0 <= fuel)%nat -> quadsurd_to_contfrac g BigI fuel a 0 c 0 neg = Panic PDivZero).
Proof.
  intros G Hc. split.
  - intros D fuel. unfold quadsurd_to_contfrac, dassert. rewrite D. destruct (Z.eqb_spec c 0); [lia|]. reflexivity.
  - intros D. destruct (rat_loop (Z.abs_nat c) true 1 a c ltac:(lia) (le_n _)) as [n0 H0]. exists n0. intros fuel Hf. specialize (H0 fuel Hf).
    unfold quadsurd_to_contfrac, dassert. rewrite D. cbn [andb bind]. bigi. cbn [bind]. change (0 <? 0) with false. cbn [bind]. bigi. cbn [bind].
    rewrite remB by lia. cbn [bind]. destruct (Z.eqb_spec (Z.rem (0 * 0 * 0 - a * a) c) 0) as [R|R]; cbn [negb bind].
    + apply rem_div in R; [|auto]. assert (c = 1).
      { destruct R as [k Hk]. assert (D1 : (c | a * a)) by (exists (- k); lia). assert (D2 : (c | a)) by (apply (Z.gauss _ a); [auto|rewrite Z.gcd_comm; auto]).
        assert (D3 : (c | 1)) by (rewrite <- G; apply Z.gcd_greatest; [auto|apply Z.divide_refl]). apply Z.divide_1_r_nonneg in D3; lia. }
      subst c. replace (1 * a * 1) with a in H0 by ring. change (1 * 1 * 1) with 1 in H0. change (sqrtT (0 * 0 * 0)) with (@Ok Z 0). cbn [bind].
      change (0 * 0 * 0) with 0. rewrite H0. reflexivity.
    + bigi. cbn [bind]. change (0 * 0 * 0) with 0. rewrite !Z.mul_0_l. change (sqrtT 0) with (@Ok Z 0). cbn [bind]. rewrite !Z.mul_1_l in H0. rewrite H0. reflexivity.
Qed.
Lemma surd_rat g s : normal g s -> c1 (coeffs s) = 0 ->
  (dbg g = true -> forall fuel, surd_to_cf g BigI fuel s = Panic PDebugAssert) /\
  (dbg g = false -> exists n0, forall fuel, (n0 <= fuel)%nat -> surd_to_cf g BigI fuel s = Panic PDivZero).
Proof.
  intros N B. pose proof N as N'. destruct s as [[a b c] r]. unfold normal, parts in N'. cbn [coeffs c0 c1 c2 discr] in *. subst b.
  destruct N' as (Hc & G & [[_ Er]|[K _]] & _); [|contradiction]. subst r. rewrite Z.gcd_0_r in G.
  assert (G1 : Z.gcd a c = 1) by (rewrite Z.gcd_abs_l in G; auto). assert (G2 : Z.gcd (- a) c = 1) by (rewrite Z.gcd_opp_l; auto).
  destruct (surd_is_negative_big g _ N) as (ng & En & _); [cbn; lia|].
  destruct (quad_rat g (- a) c true G2 Hc) as [P1 P2]. destruct (quad_rat g a c false G1 Hc) as [M1 M2].
  unfold surd_to_cf. cbn [discr]. change (0 <? 0) with false. cbn [coeffs c0 c1 c2]. rewrite En. cbn [bind]. destruct ng.
  - cbn [lift1 negT chk fits bind Z.opp]. split; [intros D fuel; bigi; cbn [bind]; change (- 0) with 0; rewrite P1 by auto; reflexivity|]. intros D. destruct (P2 D) as [n0 H]. exists n0. intros fuel Hf. bigi. cbn [bind]. change (- 0) with 0. rewrite H by auto. reflexivity.
  - split; [intros D fuel; rewrite M1 by auto; reflexivity|]. intros D. destruct (M2 D) as [n0 H]. exists n0. intros fuel Hf. rewrite H by auto. reflexivity.
Qed.
