(** * CFWide: the surd to continued fraction conversion on all irrational surds. *)

From Coq Require Import ZArith Znumtheory Reals Lia Lra Bool List Arith.
From Coquelicot Require Import Coquelicot.
From Verif Require Import Base Ext ModelSurd ModelBlock ModelCF ModelConv Spec SpecCF NumFacts Transfer SurdCore RatioFacts SurdArith
  SurdTotal SurdOrd SurdRound SurdMisc SurdSqrt CFCore CFSeq CFIter CFBasic CFSurd CFNew CFSigned CFOfSurd.
Import ListNotations.
Open Scope Z_scope.

(** value of a list of coefficients followed by the complete quotient w *)
Fixpoint tlv (l : list Z) (w : R) : R := match l with nil => w | a :: l => (IZR a + / tlv l w)%R end.

(** ** Lists of coefficients the loop produces *)
(** a plain tail *)
Definition pos1 (l : list Z) : Prop := List.Forall (fun v => 1 <= v) l.
(** the coefficients after the negative ones *)
Definition shq (l : list Z) : Prop := exists a0 r, l = a0 :: r /\ pos1 l /\ (a0 = 1 -> r <> nil).
(** one or two negative coefficients, then positive ones *)
Definition shn (l : list Z) : Prop :=
  (exists k r, l = - k :: r /\ 2 <= k /\ shq r) \/ (exists k1 k2 r, l = - k1 :: - k2 :: r /\ 2 <= k1 /\ 2 <= k2 /\ shq r).
Inductive shp : list Z -> Prop :=
| shp_pos l : pos1 l -> shp l
| shp_cons a l : 1 <= a -> shp l -> shp (a :: l)
| shp_neg a l : 1 <= a -> shn l -> shp (a :: l).

Section Run.
Context (d rd : Z) (Hd0 : rd * rd < d) (Hd1 : d < (rd + 1) * (rd + 1)) (Hr0 : 0 <= rd).

Lemma nsq p : d - p * p <> 0.
Proof. intros E. assert (H : Z.abs p * Z.abs p = d) by (rewrite <- Z.abs_mul, Z.abs_eq; nia). destruct (Z.le_gt_cases (Z.abs p) rd); nia. Qed.
Lemma rho_value p q a p' q' : q <> 0 -> p' = a * q - p -> q * q' = d - p' * p' -> X d p q = (IZR a + / X d p' q')%R.
Proof.
  intros Hq Hp Hqq.
  pose proof (nsq p') as N0.
  assert (Hq' : q' <> 0) by nia.
  pose proof (s_sq d rd Hd0 Hd1) as S2. unfold X. set (s := sqrt (IZR d)) in *. clearbody s.
  assert (Hs : (IZR p' + s <> 0)%R).
  { intros E. apply N0. apply eq_IZR. rewrite minus_IZR, mult_IZR. rewrite <- S2. replace s with (- IZR p')%R by lra. ring. }
  assert (E : (IZR q' * IZR q = IZR d - IZR p' * IZR p')%R) by (rewrite <- !mult_IZR, <- minus_IZR; f_equal; lia).
  assert (Ep : IZR p = (IZR a * IZR q - IZR p')%R) by (rewrite <- mult_IZR, <- minus_IZR; f_equal; lia).
  assert (Q0 : (IZR q <> 0)%R) by (apply not_0_IZR; auto). assert (Q1 : (IZR q' <> 0)%R) by (apply not_0_IZR; auto).
  rewrite Rinv_div. apply (Rmult_eq_reg_r (IZR q * (IZR p' + s))%R); [|apply Rmult_integral_contrapositive_currified; auto].
  replace ((IZR p + s) / IZR q * (IZR q * (IZR p' + s)))%R with ((IZR p + s) * (IZR p' + s))%R by (field; auto).
  replace ((IZR a + IZR q' / (IZR p' + s)) * (IZR q * (IZR p' + s)))%R with (IZR a * IZR q * (IZR p' + s) + IZR q' * IZR q)%R by (field; auto).
  rewrite E, Ep. rewrite <- S2. ring.
Qed.
(** a step, any sign of q *)
Lemma rho_any p q : q <> 0 -> (q | d - p * p) -> exists q', let a := (rd + p) / q in let p' := a * q - p in
  rho BigI d rd p q = Ok (a, p', q') /\ q * q' = d - p' * p' /\ q' <> 0 /\ (q' | d - p' * p') /\ X d p q = (IZR a + / X d p' q')%R.
Proof.
  intros Hq Hdiv. set (a := (rd + p) / q). set (p' := a * q - p).
  assert (Hdiv' : (q | d - p' * p')).
  { destruct Hdiv as [k Hk]. exists (k - a * a * q + 2 * a * p). unfold p'. nia. }
  destruct Hdiv' as [q' Hq']. exists q'. cbv zeta. fold a. fold p'.
  pose proof (nsq p') as N0.
  split; [|split; [lia|split; [nia|split; [exists q; lia|]]]].
  - unfold rho. bigi. rewrite div_floorB by lia. fold a. cbn [bind]. bigi. fold p'. rewrite Hq'. rewrite quotB by lia.
    rewrite Z.quot_mul by lia. reflexivity.
  - apply (rho_value p q a p' q'); [auto|reflexivity|lia].
Qed.

(** not reduced: the loop goes on *)
Definition nored (p q : Z) : Prop := rd < p \/ p + q <= rd.
Lemma is_reduced_no p q : nored p q -> is_reduced_pq BigI rd p q = Ok false.
Proof.
  intros N. unfold is_reduced_pq. destruct (Z.leb_spec p rd); [|reflexivity]. bigi. destruct N as [N|N]; [lia|].
  destruct (Z.ltb_spec rd (p + q)); [lia|reflexivity].
Qed.
Lemma aper_first p q fuel : nored p q -> aper_loop BigI fuel false d rd p q = aper_loop BigI fuel true d rd p q.
Proof. intros N. destruct fuel; [reflexivity|]. cbn [aper_loop]. rewrite is_reduced_no by auto. reflexivity. Qed.

(** what a run from a state amounts to *)
Definition stuck (p q : Z) : Prop := forall fuel, aper_loop BigI fuel true d rd p q = Hang.
Definition ends (p q : Z) (l : list Z) (pe qe : Z) : Prop :=
  (exists f0, forall fuel, (f0 <= fuel)%nat -> aper_loop BigI fuel true d rd p q = Ok (l, pe, qe)) /\ stR d rd pe qe /\ X d p q = tlv l (X d pe qe).

Lemma stuck_step p q a p' q' : rho BigI d rd p q = Ok (a, p', q') -> nored p' q' -> stuck p' q' -> stuck p q.
Proof.
  intros E N S fuel. destruct fuel; [reflexivity|]. cbn [aper_loop]. cbn [bind]. rewrite E. cbn [bind]. rewrite aper_first by auto. rewrite S. reflexivity.
Qed.
Lemma ends_step p q a p' q' l pe qe : rho BigI d rd p q = Ok (a, p', q') -> X d p q = (IZR a + / X d p' q')%R -> nored p' q' -> ends p' q' l pe qe -> ends p q (a :: l) pe qe.
Proof.
  intros E V N ([f0 H] & R & V'). split; [|split; [auto|]].
  - exists (S f0). intros fuel Hf. destruct fuel; [lia|]. cbn [aper_loop]. cbn [bind]. rewrite E. cbn [bind]. rewrite aper_first by auto. rewrite H by lia. reflexivity.
  - cbn [tlv]. rewrite V, V'. reflexivity.
Qed.

(** the conjugate below the floor *)
Lemma tlv_tailv l : forall w, (/ tlv l w)%R = tailv l (/ w).
Proof.
  induction l as [|a l IH]; intros w; [reflexivity|]. cbn [tlv tailv]. rewrite IH. reflexivity.
Qed.
Lemma ends_below p q : stA d p q -> next_pos rd p q -> exists l pe qe, ends p q ((rd + p) / q :: l) pe qe /\ pos1 l.
Proof.
  intros A N. destruct (aper_big d rd Hd0 Hd1 Hr0 3 p q ltac:(lia) A N) as (a0 & l & pe & qe & E3 & R & F & Ln & Ea & V).
  subst a0. exists l, pe, qe. split; [|auto]. split; [|split; [auto|]].
  - exists 3%nat. intros fuel Hf. replace fuel with ((fuel - 3) + 3)%nat by lia. apply aper_more_n. exact E3.
  - rewrite V. cbn [tlv]. rewrite tlv_tailv. reflexivity.
Qed.

(** the state after the negative coefficients *)
Lemma ends_split p q : stA d p q -> rd + 1 <= p -> q <= p + rd -> p - rd <= q -> exists l pe qe, ends p q l pe qe /\ shq l.
Proof.
  intros A Hp Hq1 Hq2. destruct A as [Hq Hdiv].
  assert (A1 : 1 <= (rd + p) / q) by (apply Z.div_le_lower_bound; lia).
  assert (N : next_pos rd p q) by (unfold next_pos; nia).
  destruct (ends_below p q (conj Hq Hdiv) N) as (l & pe & qe & E & P). exists ((rd + p) / q :: l), pe, qe. split; [exact E|].
  exists ((rd + p) / q), l. split; [auto|]. split; [constructor; auto|].
  intros E1 ->. destruct E as ([f0 H] & R & _). specialize (H (S f0) ltac:(lia)). cbn [aper_loop] in H. cbn [bind] in H.
  destruct (rho_any p q ltac:(lia) Hdiv) as (q' & Er & Eq & _). cbv zeta in Er, Eq. rewrite E1 in *. rewrite Er in H. cbn [bind] in H.
  destruct (aper_loop BigI f0 false d rd (1 * q - p) q') as [[[l1 p1] q1]| |] eqn:E2; [|discriminate|discriminate]. cbn [bind] in H. inversion H; subst l1 p1 q1.
  assert (T : 1 * q - p = pe /\ q' = qe).
  { destruct f0; [discriminate|]. cbn [aper_loop] in E2. destruct (is_reduced_pq BigI rd (1 * q - p) q') as [[]| |]; [|cbn [bind] in E2|discriminate|discriminate].
    - inversion E2. auto.
    - destruct (rho BigI d rd (1 * q - p) q') as [[[? ?] ?]| |]; [|discriminate|discriminate]. cbn [bind] in E2.
      destruct (aper_loop BigI f0 false d rd z0 z1) as [[[? ?] ?]| |]; [|discriminate|discriminate]. discriminate. }
  destruct T as [<- <-]. destruct R as (((Hq' & _) & R1 & R2) & R3). set (p2 := 1 * q - p) in *. assert (Hp2 : rd + 1 + p2 <= q) by (unfold p2; lia). clearbody p2.
  assert (q' < rd + 1 - p2); [|lia]. clear - Eq Hd1 Hd0 Hp2 Hq R1 Hq'. nia.
Qed.

(** the state (rd, -m) *)
Definition bad2 (m m' : Z) : Prop := 0 < m /\ 0 < m' /\ m * m' = d - rd * rd /\ (m | 2 * rd) /\ (m' | 2 * rd).

Lemma div_opp u m : 0 < m -> ~ (m | u) -> u / (- m) = - (u / m) - 1.
Proof. intros Hm Nd. rewrite <- (Z.opp_involutive u) at 1. rewrite Z.div_opp_opp by lia. rewrite Z.div_opp_l_nz; [lia|lia|]. intros E. apply Nd. apply Z.mod_divide; lia. Qed.
Lemma div_opp_exact u m : 0 < m -> (m | u) -> u / (- m) = - (u / m).
Proof. intros Hm D. rewrite <- (Z.opp_involutive u) at 1. rewrite Z.div_opp_opp by lia. rewrite Z.div_opp_l_z; [lia|lia|]. apply Z.mod_divide; [lia|auto]. Qed.

Lemma ends_Q m m' : 0 < m -> 0 < m' -> m * m' = d - rd * rd -> ~ (m | 2 * rd) -> exists l pe qe, ends rd (- m) l pe qe /\ exists k r, l = - k :: r /\ 2 <= k /\ shq r.
Proof.
  intros Hm Hm' E Nd.
  destruct (rho_any rd (- m) ltac:(lia)) as (q' & Er & Eq & Nq & Dq & V). { exists (- m'). lia. }
  cbv zeta in *. replace (rd + rd) with (2 * rd) in * by lia. rewrite (div_opp _ _ Hm Nd) in *.
  pose proof (Z.div_mod (2 * rd) m ltac:(lia)) as DM. pose proof (Z.mod_pos_bound (2 * rd) m Hm) as MB.
  assert (M0 : (2 * rd) mod m <> 0) by (intros M; apply Nd; apply Z.mod_divide; lia).
  set (f := 2 * rd / m) in *. set (k := f + 1). replace (- f - 1) with (- k) in * by (unfold k; lia).
  set (p' := - k * - m - rd) in *. assert (Hp' : p' = k * m - rd) by (unfold p'; ring). clearbody p'.
  set (e := p' - rd). assert (Ee : p' = rd + e) by (unfold e; lia). assert (He : 1 <= e < m) by (unfold e, k in *; lia).
  assert (F1 : 1 <= f).
  { assert (m <= 2 * rd) by nia. apply Z.div_le_lower_bound; lia. }
  assert (K2 : 2 <= k) by (unfold k; lia). clearbody f k e. clear DM MB M0.
  assert (Hq' : 0 < q') by nia.
  assert (B1 : q' <= p' + rd) by nia.
  assert (B2 : p' - rd <= q').
  { assert (e - 1 < q'); [|lia]. assert (Km : k * m = 2 * rd + e) by lia.
    assert (T : m * (e - 1) < m * q'); [|nia]. assert (m * q' = p' * p' - d) by lia.
    assert (p' * p' - rd * rd = e * (k * m)) by (rewrite Km, Ee; ring).
    assert (0 <= (e - 1) * (k - 1) * m) by (apply Z.mul_nonneg_nonneg; [apply Z.mul_nonneg_nonneg; lia|lia]). nia. }
  destruct (ends_split p' q' (conj Hq' Dq) ltac:(lia) B1 B2) as (l & pe & qe & En & Sq).
  exists (- k :: l), pe, qe. split; [|exists k, l; auto]. apply (ends_step _ _ _ p' q'); auto. left. lia.
Qed.

Lemma ends_bad m m' : 0 < m -> 0 < m' -> m * m' = d - rd * rd ->
  (bad2 m m' /\ stuck rd (- m)) \/ exists l pe qe, ends rd (- m) l pe qe /\ shn l.
Proof.
  intros Hm Hm' E. destruct (Zdivide_dec m (2 * rd)) as [D|D].
  2:{ right. destruct (ends_Q m m' Hm Hm' E D) as (l & pe & qe & En & k & r & S). exists l, pe, qe. split; [auto|]. left. exists k, r. auto. }
  assert (Step : forall m m', 0 < m -> 0 < m' -> m * m' = d - rd * rd -> (m | 2 * rd) ->
    rho BigI d rd rd (- m) = Ok (- (2 * rd / m), rd, - m') /\ X d rd (- m) = (IZR (- (2 * rd / m)) + / X d rd (- m'))%R).
  { clear - Hd0 Hd1 Hr0. intros. destruct (rho_any rd (- m) ltac:(lia)) as (q' & Er & Eq & Nq & Dq & V). { exists (- m'). lia. }
    cbv zeta in *. replace (rd + rd) with (2 * rd) in * by lia. rewrite (div_opp_exact _ _ H H2) in *. destruct H2 as [k Hk]. rewrite Hk, Z.div_mul in * by lia.
    replace (- k * - m - rd) with rd in * by lia. assert (q' = - m') by nia. subst q'. auto. }
  destruct (Zdivide_dec m' (2 * rd)) as [D'|D'].
  - left. split; [repeat split; auto|].
    destruct (Step m m' Hm Hm' E D) as [S1 _]. destruct (Step m' m Hm' Hm ltac:(lia) D') as [S2 _].
    assert (K : forall fuel, aper_loop BigI fuel true d rd rd (- m) = Hang /\ aper_loop BigI fuel true d rd rd (- m') = Hang).
    { induction fuel as [|fuel [IH1 IH2]]; [split; reflexivity|]. cbn [aper_loop]. cbn [bind]. rewrite S1, S2. cbn [bind].
      rewrite !aper_first by (right; lia). rewrite IH1, IH2. split; reflexivity. }
    intros fuel. apply K.
  - right. destruct (ends_Q m' m Hm' Hm ltac:(lia) D') as (l & pe & qe & En & k & r & -> & K2 & Sq).
    destruct (Step m m' Hm Hm' E D) as [S1 V1]. exists (- (2 * rd / m) :: - k :: r), pe, qe. split.
    + apply (ends_step _ _ _ rd (- m')); auto. right. lia.
    + right. exists (2 * rd / m), k, r. split; [auto|]. split; [|auto].
      (* m = 2 rd would force m' = 1 *)
      destruct D as [j Hj]. rewrite Hj, Z.div_mul by lia. assert (m' <> 1) by (intros ->; apply D'; apply Z.divide_1_l).
      assert (m < 2 * rd) by nia. nia.
Qed.

(** ** complete quotients above 1 whose conjugates are positive *)
Definition st1 (p q : Z) : Prop := 0 < q /\ (q | d - p * p) /\ rd < p /\ q <= p + rd.
Definition st2 (p q : Z) : Prop := exists m, q = - m /\ 0 < m /\ (m | d - p * p) /\ rd + 1 <= - p - m.

Definition result (p q : Z) : Prop :=
  ((exists m m', bad2 m m') /\ stuck p q) \/ (exists a l pe qe, ends p q (a :: l) pe qe /\ 1 <= a /\ shp (a :: l)).

Lemma div_oppd m z : (m | z) <-> (- m | z).
Proof. split; intros [k H]; exists (- k); lia. Qed.

(** a step from a negative q *)
Lemma step2 p m : 0 < m -> (m | d - p * p) -> rd + 1 <= - p -> let u := - (rd + p) in
  ((m | u) /\ exists m', 0 < m' /\ m * m' = d - rd * rd /\ rho BigI d rd p (- m) = Ok (u / m, rd, - m') /\ 1 <= u / m /\
     X d p (- m) = (IZR (u / m) + / X d rd (- m'))%R) \/
  (~ (m | u) /\ exists p' q', rho BigI d rd p (- m) = Ok (u / m, p', q') /\ 0 <= u / m /\ st1 p' q' /\ p' = - p - (u / m) * m /\
     X d p (- m) = (IZR (u / m) + / X d p' q')%R).
Proof.
  intros Hm Dv Hp. cbv zeta. set (u := - (rd + p)).
  destruct (rho_any p (- m) ltac:(lia)) as (q' & Er & Eq & Nq & Dq & V). { apply -> div_oppd. auto. }
  cbv zeta in *. assert (Ea : (rd + p) / - m = u / m). { replace (rd + p) with (- u) by (unfold u; lia). apply Z.div_opp_opp. lia. }
  rewrite Ea in *. clear Ea. assert (Hu : 1 <= u) by (unfold u; lia).
  destruct (Zdivide_dec m u) as [D|D].
  - left. split; [auto|]. destruct D as [k Hk]. rewrite Hk, Z.div_mul in * by lia.
    replace (k * - m - p) with rd in * by (unfold u in Hk; lia). exists (- q').
    split; [nia|]. split; [lia|]. rewrite Z.opp_involutive. split; [auto|]. split; [nia|auto].
  - right. split; [auto|]. exists (u / m * - m - p), q'. split; [auto|].
    pose proof (Z.div_mod u m ltac:(lia)) as DM. pose proof (Z.mod_pos_bound u m Hm) as MB.
    assert (M0 : u mod m <> 0) by (intros M; apply D; apply Z.mod_divide; lia).
    assert (F0 : 0 <= u / m) by (apply Z.div_pos; lia). split; [auto|].
    set (f := u / m) in *. set (p' := f * - m - p) in *. assert (Hp' : rd + 1 <= p' <= rd + m - 1) by (unfold p', u in *; lia).
    split; [|split; [unfold p'; lia|auto]]. assert (Hq' : 0 < q') by nia. split; [auto|]. split; [auto|]. split; [lia|].
    assert (m * q' = p' * p' - d) by lia. clearbody p' f. clear - Hp' H Hd0 Hm Hr0 Hq'.
    assert (m * q' < m * (p' + rd + 1)); [|nia]. assert ((p' - rd) * (p' + rd) <= (m - 1) * (p' + rd)) by nia. nia.
Qed.
(** a step from a positive q whose conjugate stays above the floor *)
Lemma step1 p q : 0 < q -> (q | d - p * p) -> ~ next_pos rd p q -> exists p' q', rho BigI d rd p q = Ok ((rd + p) / q, p', q') /\ st2 p' q' /\
  p' = ((rd + p) / q) * q - p /\ X d p q = (IZR ((rd + p) / q) + / X d p' q')%R.
Proof.
  intros Hq Dv Nn. destruct (rho_any p q ltac:(lia) Dv) as (q' & Er & Eq & Nq & Dq & V). cbv zeta in *.
  unfold next_pos in Nn. set (a := (rd + p) / q) in *. exists (a * q - p), q'. split; [auto|]. split; [|auto].
  assert (A2 : rd + p < a * q + q) by (pose proof (Z.mul_succ_div_gt (rd + p) q Hq); unfold a; lia).
  set (p' := a * q - p) in *. assert (B : rd - q < p') by (unfold p'; lia). clearbody p' a.
  exists (- q'). split; [lia|]. assert (Hn : q' < 0) by nia. split; [lia|]. split; [apply div_oppd; rewrite Z.opp_involutive; auto|].
  assert (- q' < - p' - rd); [|lia]. assert (q * - q' < q * (- p' - rd)); [|nia]. nia.
Qed.

Lemma run n : forall p q, Z.abs p <= Z.of_nat n -> st1 p q \/ st2 p q -> result p q.
Proof.
  induction n as [|n IH]; intros p q Hn St.
  - exfalso. destruct St as [(_ & _ & H & _)|(m & _ & ? & _ & H)]; lia.
  - destruct St as [(Hq & Dv & Hp & Hx)|(m & -> & Hm & Dv & Hx)].
    + assert (A1 : 1 <= (rd + p) / q) by (apply Z.div_le_lower_bound; lia).
      assert (DN : next_pos rd p q \/ ~ next_pos rd p q) by (unfold next_pos; lia). destruct DN as [N|N].
      * right. destruct (ends_below p q (conj Hq Dv) N) as (l & pe & qe & E & P). exists ((rd + p) / q), l, pe, qe. split; [auto|]. split; [auto|].
        apply shp_pos. constructor; auto.
      * destruct (step1 p q Hq Dv N) as (p' & q' & Er & S2 & Ep & V).
        assert (Nr : nored p' q') by (destruct S2 as (m & -> & Hm & _ & Hx2); right; lia).
        assert (Ab : Z.abs p' <= Z.of_nat n). { destruct S2 as (m & -> & Hm & _ & Hx2). nia. }
        destruct (IH p' q' Ab (or_intror S2)) as [[B S]|(a & l & pe & qe & E & Ha & Sh)].
        -- left. split; [auto|]. apply (stuck_step _ _ _ p' q' Er); auto.
        -- right. exists ((rd + p) / q), (a :: l), pe, qe. split; [apply (ends_step _ _ _ p' q'); auto|]. split; [auto|]. apply shp_cons; auto.
    + destruct (step2 p m Hm Dv ltac:(lia)) as [(D & m' & Hm' & E & Er & Ha & V)|(D & p' & q' & Er & _ & S1 & Ep & V)].
      * destruct (ends_bad m' m Hm' Hm ltac:(lia)) as [[B S]|(l & pe & qe & En & Sh)].
        -- left. split; [exists m', m; auto|]. apply (stuck_step _ _ _ rd (- m') Er); auto. right. lia.
        -- right. exists (- (rd + p) / m), l, pe, qe. split; [apply (ends_step _ _ _ rd (- m')); auto; right; lia|]. split; [auto|]. apply shp_neg; auto.
      * assert (A1 : 1 <= - (rd + p) / m) by (apply Z.div_le_lower_bound; lia).
        assert (Nr : nored p' q') by (left; apply S1).
        assert (Ab : Z.abs p' <= Z.of_nat n) by (destruct S1 as (_ & _ & ? & _); nia).
        destruct (IH p' q' Ab (or_introl S1)) as [[B S]|(a & l & pe & qe & En & Ha & Sh)].
        -- left. split; [auto|]. apply (stuck_step _ _ _ p' q' Er); auto.
        -- right. exists (- (rd + p) / m), (a :: l), pe, qe. split; [apply (ends_step _ _ _ p' q'); auto|]. split; [auto|]. apply shp_cons; auto.
Qed.

(** ** the first step: a positive complete quotient *)
Inductive top : list Z -> Prop :=
| top_plain a l : 0 <= a -> pos1 l -> top (a :: l)
| top_cons a b l : 0 <= a -> 1 <= b -> shp (b :: l) -> top (a :: b :: l)
| top_neg a l : 1 <= a -> shn l -> top (a :: l).

Lemma run_pos p q : 0 < q -> (q | d - p * p) -> - rd <= p ->
  ((exists m m', bad2 m m') /\ stuck p q) \/ exists l pe qe, ends p q l pe qe /\ top l /\ (forall v, hd 0 l = v -> shn (tl l) -> False).
Proof.
  intros Hq Dv Hp. assert (A0 : 0 <= (rd + p) / q) by (apply Z.div_pos; lia).
  assert (DN : next_pos rd p q \/ ~ next_pos rd p q) by (unfold next_pos; lia). destruct DN as [N|N].
  - right. destruct (ends_below p q (conj Hq Dv) N) as (l & pe & qe & E & P). exists ((rd + p) / q :: l), pe, qe. split; [auto|]. split; [apply top_plain; auto|].
    intros v _ S. cbn [tl] in S. destruct S as [(k & r & -> & K & _)|(k & k2 & r & -> & K & _)]; inversion P; lia.
  - destruct (step1 p q Hq Dv N) as (p' & q' & Er & S2 & Ep & V).
    assert (Nr : nored p' q') by (destruct S2 as (m & -> & Hm & _ & Hx2); right; lia).
    destruct (run (Z.to_nat (Z.abs p')) p' q' ltac:(lia) (or_intror S2)) as [[B S]|(a & l & pe & qe & E & Ha & Sh)].
    + left. split; [auto|]. apply (stuck_step _ _ _ p' q' Er); auto.
    + right. exists ((rd + p) / q :: a :: l), pe, qe. split; [apply (ends_step _ _ _ p' q'); auto|]. split; [apply top_cons; auto|].
      intros v _ S. cbn [tl] in S. destruct S as [(k & r & E1 & K & _)|(k & k2 & r & E1 & K & _)]; inversion E1; lia.
Qed.
Lemma run_neg p m : 0 < m -> (m | d - p * p) -> rd + 1 <= - p ->
  ((exists m m', bad2 m m') /\ stuck p (- m)) \/ exists l pe qe, ends p (- m) l pe qe /\ top l /\ (hd 0 l = 1 -> shn (tl l) -> - (rd + p) = m) /\
    (- (rd + p) = m -> hd 0 l = 1 /\ shn (tl l)).
Proof.
  intros Hm Dv Hp. destruct (step2 p m Hm Dv Hp) as [(D & m' & Hm' & E & Er & Ha & V)|(D & p' & q' & Er & A0 & S1 & Ep & V)].
  - destruct (ends_bad m' m Hm' Hm ltac:(lia)) as [[B S]|(l & pe & qe & En & Sh)].
    + left. split; [exists m', m; auto|]. apply (stuck_step _ _ _ rd (- m') Er); auto. right. lia.
    + right. exists (- (rd + p) / m :: l), pe, qe. split; [apply (ends_step _ _ _ rd (- m')); auto; right; lia|]. split; [apply top_neg; auto|].
      cbn [hd tl]. destruct D as [k Hk]. rewrite Hk, Z.div_mul by lia. split; [intros -> _; lia|]. intros Ek. split; [nia|auto].
  - assert (Nr : nored p' q') by (left; apply S1).
    destruct (run (Z.to_nat (Z.abs p')) p' q' ltac:(lia) (or_introl S1)) as [[B S]|(a & l & pe & qe & En & Ha & Sh)].
    + left. split; [auto|]. apply (stuck_step _ _ _ p' q' Er); auto.
    + right. exists (- (rd + p) / m :: a :: l), pe, qe. split; [apply (ends_step _ _ _ p' q'); auto|]. split; [apply top_cons; auto|]. cbn [hd tl]. split.
      * intros _ [(k & r & E1 & K & _)|(k & k2 & r & E1 & K & _)]; inversion E1; lia.
      * intros Em. exfalso. apply D. rewrite Em. apply Z.divide_refl.
Qed.
End Run.

(** ** The constructor on such lists *)
Section New.
Context (g : cfg).

(** [rev] holds all the coefficients so far, in canonical form *)
Definition okr (rev : list Z) : Prop := wfr rev /\ exists v r, rev = v :: r /\ 1 <= v.
Definition closes (s : bool) (st : nst) (rev l : list Z) : Prop := exists v r, st = NSt false (Some s) (v :: r) /\ wfr (v :: r) /\ 1 <= v /\
  forall w, (1 < w)%R -> evr (v :: r) w = evr rev (tlv l w).

Lemma evr_rev l : forall rev w, evr (List.rev l ++ rev) w = evr rev (tlv l w).
Proof.
  induction l as [|a l IH]; intros rev w; [reflexivity|]. cbn [List.rev tlv]. rewrite <- app_assoc. cbn [app]. rewrite IH. reflexivity.
Qed.
Lemma wfr_app l : forall rev, pos1 l -> okr rev -> okr (List.rev l ++ rev).
Proof.
  induction l as [|a l IH]; intros rev P O; [exact O|]. inversion P as [|? ? Pa Pl]; subst. cbn [List.rev]. rewrite <- app_assoc. apply IH; [auto|].
  destruct O as (W & _). split; [apply wfr_cons; auto|]. exists a, rev. auto.
Qed.
Lemma loop_pos s rev l : okr rev -> pos1 l -> exists st, new_loop g BigI (NSt false (Some s) rev) l = Ok st /\ closes s st rev l.
Proof.
  intros O P. destruct O as (W & v & r & -> & Hv). rewrite push_all by auto. eexists. split; [reflexivity|].
  destruct (wfr_app l (v :: r) P) as (W' & v' & r' & E & Hv'); [split; eauto|]. rewrite E in *. exists v', r'. split; [auto|]. split; [auto|]. split; [auto|].
  intros w _. rewrite <- E. apply evr_rev.
Qed.
Lemma step_push s rev a : okr rev -> 1 <= a -> new_step g BigI (NSt false (Some s) rev) a = Ok (NSt false (Some s) (a :: rev)).
Proof.
  intros (W & v & r & -> & Hv) Ha. unfold new_step. cbn [bind]. destruct (Z.eqb_spec a 0); [lia|]. destruct (Z.ltb_spec a 0); [lia|]. destruct (Z.eqb_spec v 0); [lia|]. destruct r; reflexivity.
Qed.
Lemma okr_push rev a : okr rev -> 1 <= a -> okr (a :: rev).
Proof. intros (W & _) Ha. split; [apply wfr_cons; auto|]. exists a, rev. auto. Qed.

Lemma tlv_gt1 l w : pos1 l -> (1 < w)%R -> (1 < tlv l w)%R.
Proof.
  induction l as [|a l IH]; intros P W; [auto|]. inversion P as [|? ? Pa Pl]; subst. cbn [tlv]. specialize (IH Pl W). apply IZR_le in Pa.
  assert (0 < / tlv l w)%R by (apply Rinv_0_lt_compat; lra). lra.
Qed.
Lemma inv_lt1 w : (1 < w)%R -> (0 < / w < 1)%R.
Proof. intros W. split; [apply Rinv_0_lt_compat; lra|]. rewrite <- Rinv_1. apply Rinv_lt_contravar; lra. Qed.

(** after a negative coefficient: [negate] is set, the next coefficients are positive *)
Lemma loop_q s rev l : okr rev -> (1 < length rev)%nat -> shq l -> exists st, new_loop g BigI (NSt true (Some s) rev) l = Ok st /\
  exists v r, st = NSt false (Some s) (v :: r) /\ wfr (v :: r) /\ 1 <= v /\ forall w, (1 < w)%R -> evr (v :: r) w = evr rev (- tlv l w).
Proof.
  intros O Len (a0 & r0 & -> & P & H1). inversion P as [|? ? Pa Pl]; subst. pose proof O as (W & v & r & Er & Hv).
  assert (Os : okst s rev). { split; [auto|]. split; [eauto|]. intros ->. cbn in Len. lia. }
  destruct (Z.eq_dec a0 1) as [->|N1].
  - destruct r0 as [|a1 r0]; [destruct (H1 eq_refl); auto|]. inversion Pl as [|? ? Pa1 Pl1]; subst x l.
    assert (K : exists u y, new_loop g BigI (NSt true (Some s) rev) [1; a1] = Ok (NSt false (Some s) (u :: y)) /\ okr (u :: y) /\
      forall i, (0 < i < 1)%R -> evi (u :: y) i = evr rev (- (1 + / (IZR a1 + i)))%R).
    { apply IZR_le in Pa1 as Pa1R. cbn [new_loop]. unfold new_step at 1. cbn [lift2 subT chk fits bind]. change (0 - 1) with (-1). rewrite Er. cbn [Z.eqb Z.ltb Z.compare].
      destruct (absorb_total g true s (v :: r) (-1)) as [st Est]; [rewrite <- Er; auto|]. rewrite Est. cbn [bind].
      apply absorb_eq in Est; [|rewrite <- Er; auto]. subst st. cbn [absorbed negb]. destruct (Z.eqb_spec v 1) as [->|Nv].
      - destruct r as [|am2 r]; [subst rev; cbn in Len; lia|]. exists (am2 + 1 + a1), r. split; [|split].
        + unfold new_step. cbn [bind]. destruct (Z.eqb_spec a1 0); [lia|]. destruct (Z.ltb_spec a1 0); [lia|]. reflexivity.
        + rewrite Er in W. apply wfr_tail in W; [|discriminate]. destruct W as [_ W]. pose proof (wfr_hd _ _ W). split; [|exists (am2 + 1 + a1), r; split; [auto|lia]].
          destruct r; [cbn; lia|]. apply wfr_tail in W; [|discriminate]. apply wfr_cons; [lia|tauto].
        + intros i Hi. cbn [evi evr]. apply evr_congr. rewrite !plus_IZR. field. repeat split; lra.
      - exists (1 + a1), (v - 1 :: r). split; [|split].
        + unfold new_step. cbn [bind]. destruct (Z.eqb_spec a1 0); [lia|]. destruct (Z.ltb_spec a1 0); [lia|]. reflexivity.
        + split; [|exists (1 + a1), (v - 1 :: r); split; [auto|lia]]. apply wfr_cons; [lia|]. rewrite Er in W. destruct r; [cbn; lia|]. apply wfr_tail in W; [|discriminate]. apply wfr_cons; [lia|tauto].
        + intros i Hi. cbn [evi evr]. apply evr_congr. rewrite minus_IZR, plus_IZR. field. repeat split; lra. }
    destruct K as (u & y & E & O2 & V). destruct (loop_pos s (u :: y) r0 O2 Pl1) as (st & Est & v' & r' & -> & W' & Hv' & V').
    change (1 :: a1 :: r0) with ([1; a1] ++ r0). rewrite new_loop_app, E. cbn [bind]. rewrite Est. eexists. split; [reflexivity|]. exists v', r'.
    split; [auto|]. split; [auto|]. split; [auto|]. intros w Hw. rewrite V' by auto. cbn [app tlv]. specialize (V (/ tlv r0 w)%R (inv_lt1 _ (tlv_gt1 _ _ Pl1 Hw))).
    cbn [evi evr] in V. cbn [evr]. rewrite V. reflexivity.
  - destruct (signed_step_total g s true rev a0 Os) as [st1 E1].
    destruct (signed_step g BigI s true rev a0 st1 Os ltac:(lia) E1) as (ng & rev' & -> & O' & V).
    assert (Eng : ng = false).
    { unfold new_step in E1. cbn [lift2 subT chk fits bind] in E1. rewrite Er in E1. destruct (Z.eqb_spec (0 - a0) 0); [lia|]. destruct (Z.ltb_spec (0 - a0) 0); [|lia].
      rewrite <- Er in E1. apply absorb_eq in E1; [|auto]. inversion E1. reflexivity. }
    subst ng. destruct O' as (W' & Hv' & _). destruct (loop_pos s rev' r0 (conj W' Hv') Pl) as (st & Est & v' & r' & -> & W2 & Hv2 & V').
    cbn [new_loop]. rewrite E1. cbn [bind]. rewrite Est. eexists. split; [reflexivity|]. exists v', r'.
    split; [auto|]. split; [auto|]. split; [auto|]. intros w Hw. rewrite V' by auto. pose proof (inv_lt1 _ (tlv_gt1 _ _ Pl Hw)) as Hi.
    specialize (V (/ tlv r0 w)%R ltac:(lra)). unfold sg in V. cbn [sgnb] in V. destruct Hv' as (v2 & r2 & -> & _). cbn [tlv evr]. cbn [evi] in V. rewrite Rmult_1_l in V. rewrite V.
    apply evr_congr. ring.
Qed.
(** one or two negative coefficients *)
Lemma neg_first s rev k : okst s rev -> 2 <= k -> exists rev', new_step g BigI (NSt false (Some s) rev) (- k) = Ok (NSt true (Some s) rev') /\ okst s rev' /\ (1 < length rev')%nat /\
  forall j, (-1 < j < 1)%R -> evi rev' (- j) = evr rev (IZR (- k) + j)%R.
Proof.
  intros O K. exists (absorbed s rev (- k)). destruct (absorbed_ok s rev (- k) O ltac:(lia)) as [O' V]. split; [|split; [auto|split; [|auto]]].
  - pose proof O as (_ & (v & r & Er & _) & _). unfold new_step. cbn [bind]. rewrite Er. destruct (Z.eqb_spec (- k) 0); [lia|]. destruct (Z.ltb_spec (- k) 0); [|lia]. rewrite <- Er.
    destruct (absorb_total g false s rev (- k) O) as [st Est]. rewrite Est. apply absorb_eq in Est; [|auto]. subst st. reflexivity.
  - destruct O as (_ & (v & r & -> & _) & _). cbn [absorbed]. destruct (v =? 1); [destruct r; cbn; lia|cbn; lia].
Qed.
Lemma shq_gt1 l w : shq l -> (1 < w)%R -> (1 < tlv l w)%R.
Proof. intros (a0 & r & _ & P & _) W. apply tlv_gt1; auto. Qed.
Lemma loop_n s rev l : okst s rev -> shn l -> exists st, new_loop g BigI (NSt false (Some s) rev) l = Ok st /\ closes s st rev l.
Proof.
  intros O [(k & r & -> & K & Q)|(k1 & k2 & r & -> & K1 & K2 & Q)].
  - destruct (neg_first s rev k O K) as (rev' & E & O' & Len & V). cbn [new_loop]. rewrite E. cbn [bind].
    destruct O' as (W' & Hv' & _). destruct (loop_q s rev' r (conj W' Hv') Len Q) as (st & Est & v & r' & -> & W2 & Hv & V2).
    rewrite Est. eexists. split; [reflexivity|]. exists v, r'. split; [auto|]. split; [auto|]. split; [auto|]. intros w Hw. rewrite V2 by auto. cbn [tlv].
    pose proof (inv_lt1 _ (shq_gt1 _ _ Q Hw)) as Hi. specialize (V (/ tlv r w)%R ltac:(lra)). rewrite <- V. destruct Hv' as (v3 & r3 & -> & _). cbn [evi evr]. apply evr_congr. rewrite Rinv_opp. reflexivity.
  - destruct (neg_first s rev k1 O K1) as (rev' & E & O' & Len & V). cbn [new_loop]. rewrite E. cbn [bind].
    pose proof O' as (W' & Hv' & _). destruct Hv' as (v3 & r3 & Er3 & Hv3).
    assert (E2 : new_step g BigI (NSt true (Some s) rev') (- k2) = Ok (NSt true (Some s) (k2 :: rev'))).
    { unfold new_step. cbn [lift2 subT chk fits bind]. replace (0 - - k2) with k2 by lia. rewrite Er3. destruct (Z.eqb_spec k2 0); [lia|]. destruct (Z.ltb_spec k2 0); [lia|].
      destruct (Z.eqb_spec v3 0); [lia|]. destruct r3; reflexivity. }
    rewrite E2. cbn [bind].
    destruct (loop_q s (k2 :: rev') r) as (st & Est & v & r' & -> & W2 & Hv & V2); [apply okr_push; [split; [auto|rewrite Er3; eauto]|lia]|cbn; lia|auto|].
    rewrite Est. eexists. split; [reflexivity|]. exists v, r'. split; [auto|]. split; [auto|]. split; [auto|]. intros w Hw. rewrite V2 by auto. cbn [tlv].
    pose proof (inv_lt1 _ (shq_gt1 _ _ Q Hw)) as Hi. set (i := (/ tlv r w)%R) in *. apply IZR_le in K2 as K2R.
    assert (Hj : (1 < IZR k2 - i)%R) by lra. pose proof (inv_lt1 _ Hj) as Hj2.
    specialize (V (/ (IZR (- k2) + i))%R). rewrite <- V.
    + rewrite Er3. cbn [evi evr]. apply evr_congr. f_equal. rewrite Rinv_opp. fold i. rewrite opp_IZR. rewrite <- Rinv_opp. f_equal. ring.
    + rewrite opp_IZR. replace (- IZR k2 + i)%R with (- (IZR k2 - i))%R by ring. rewrite Rinv_opp. lra.
Qed.
Lemma loop_shp l : shp l -> forall s rev, okr rev -> (forall a l', l = a :: l' -> 1 <= a) -> exists st, new_loop g BigI (NSt false (Some s) rev) l = Ok st /\ closes s st rev l.
Proof.
  intros S. induction S as [l P|a l Ha S IH|a l Ha S]; intros s rev O Hh.
  - apply loop_pos; auto.
  - destruct S as [l P|b l Hb S|b l Hb S].
    + apply loop_pos; [auto|constructor; auto].
    + cbn [new_loop]. rewrite step_push by auto. cbn [bind]. destruct (IH s (a :: rev) (okr_push _ _ O Ha)) as (st & Est & v & r & -> & W & Hv & V); [intros ? ? E; inversion E; lia|].
      eexists. split; [exact Est|]. exists v, r. split; [auto|]. split; [auto|]. split; [auto|]. intros w Hw. rewrite V by auto. reflexivity.
    + cbn [new_loop]. rewrite step_push by auto. cbn [bind]. destruct (IH s (a :: rev) (okr_push _ _ O Ha)) as (st & Est & v & r & -> & W & Hv & V); [intros ? ? E; inversion E; lia|].
      eexists. split; [exact Est|]. exists v, r. split; [auto|]. split; [auto|]. split; [auto|]. intros w Hw. rewrite V by auto. reflexivity.
  - cbn [new_loop]. rewrite step_push by auto. cbn [bind].
    assert (Os : okst s (a :: rev)). { destruct (okr_push _ _ O Ha) as (W & v & r & E & Hv). split; [auto|]. split; [eauto|]. destruct O as (_ & v1 & r1 & -> & _). discriminate. }
    destruct (loop_n s (a :: rev) l Os S) as (st & Est & v & r & -> & W & Hv & V).
    eexists. split; [exact Est|]. exists v, r. split; [auto|]. split; [auto|]. split; [auto|]. intros w Hw. rewrite V by auto. reflexivity.
Qed.

(** the first coefficients *)
Lemma first_pos b a : 1 <= a -> new_step g BigI (NSt b None nil) a = Ok (NSt false (Some b) [a]).
Proof.
  intros Ha. unfold new_step. destruct b.
  - cbn [lift2 subT chk fits bind]. destruct (Z.ltb_spec (0 - a) 0); [|lia]. cbn [negb]. repeat f_equal. lia.
  - cbn [bind]. destruct (Z.ltb_spec a 0); [lia|]. destruct (Z.eqb_spec a 0); [lia|]. reflexivity.
Qed.
Lemma first_zero b a : 1 <= a -> new_loop g BigI (NSt b None nil) [0; a] = Ok (NSt false (Some b) [a; 0]).
Proof.
  intros Ha. cbn [new_loop]. unfold new_step. destruct b.
  - cbn [lift2 subT chk fits bind Z.ltb Z.compare Z.eqb Z.sub Z.add Z.opp]. destruct (Z.eqb_spec (- a) 0); [lia|]. destruct (Z.ltb_spec (- a) 0); [|lia].
    cbn [new_absorb Z.eqb Z.leb Z.compare]. rewrite dassert_true. cbn [lift2 subT chk fits bind negb]. repeat f_equal. lia.
  - cbn [bind]. cbn [Z.ltb Z.compare Z.eqb bind]. destruct (Z.eqb_spec a 0); [lia|]. destruct (Z.ltb_spec a 0); [lia|]. reflexivity.
Qed.
(** the sign that comes out *)
Definition lost (b : bool) (l : list Z) : Prop := b = true /\ hd 0 l = 1 /\ shn (tl l).

Lemma shp_hd l a l' : shp l -> l = a :: l' -> 1 <= a.
Proof. intros S E. destruct S as [l P|b l Hb S|b l Hb S]; [subst; inversion P; auto|congruence|congruence]. Qed.
Lemma shn_hd l : shn l -> exists k r, l = - k :: r /\ 2 <= k.
Proof. intros [(k & r & -> & K & _)|(k & k2 & r & -> & K & _)]; eauto. Qed.
Lemma not_lost b a l : (forall c l', l = c :: l' -> 1 <= c) -> ~ lost b (a :: l).
Proof. intros H (_ & _ & S). cbn [tl] in S. destruct (shn_hd l S) as (k & r & E & K). apply H in E. lia. Qed.
Definition final (s : bool) (st : nst) (l : list Z) : Prop := exists v r, st = NSt false (Some s) (v :: r) /\ wfr (v :: r) /\ 1 <= v /\
  forall w, (1 < w)%R -> evr (v :: r) w = tlv l w.

Lemma top_shp b a l : 0 <= a -> shp l -> (a = 0 -> l <> nil) -> exists st, new_loop g BigI (NSt b None nil) (a :: l) = Ok st /\ final b st (a :: l).
Proof.
  intros Ha S Hn. destruct (Z.eq_dec a 0) as [->|Na].
  - destruct l as [|c l]; [destruct (Hn eq_refl); auto|]. pose proof (shp_hd _ _ _ S eq_refl) as Hc.
    assert (O : okr [c; 0]) by (split; [cbn; lia|exists c, [0]; auto]).
    assert (K : exists st, new_loop g BigI (NSt false (Some b) [c; 0]) l = Ok st /\ closes b st [c; 0] l).
    { inversion S as [? P|? ? _ S'|? ? _ S']; subst.
      - inversion P; subst. apply loop_pos; auto.
      - apply loop_shp; auto. intros. eapply shp_hd; eauto.
      - apply loop_n; auto. split; [apply O|]. split; [apply O|discriminate]. }
    destruct K as (st & Est & v & r & -> & W & Hv & V). change (0 :: c :: l) with ([0; c] ++ l). rewrite new_loop_app, first_zero by auto. cbn [bind].
    eexists. split; [exact Est|]. exists v, r. split; [auto|]. split; [auto|]. split; [auto|]. intros w Hw. rewrite V by auto. reflexivity.
  - assert (O : okr [a]) by (split; [cbn; lia|exists a, nil; split; [auto|lia]]). cbn [new_loop]. rewrite first_pos by lia. cbn [bind].
    destruct (loop_shp l S b [a] O) as (st & Est & v & r & -> & W & Hv & V); [intros; eapply shp_hd; eauto|].
    eexists. split; [exact Est|]. exists v, r. split; [auto|]. split; [auto|]. split; [auto|]. intros w Hw. rewrite V by auto. reflexivity.
Qed.
Lemma loop_top b l : top l -> l <> [0] -> exists st s, new_loop g BigI (NSt b None nil) l = Ok st /\ final s st l /\ (~ lost b l -> s = b) /\ (lost b l -> s = false).
Proof.
  intros T N0. destruct T as [a l Ha P|a c l Ha Hc S|a l Ha S].
  - destruct (top_shp b a l Ha (shp_pos _ P)) as (st & E & F); [congruence|]. exists st, b. split; [auto|]. split; [auto|]. split; [auto|]. intros L. exfalso. revert L. apply not_lost.
    intros c l' ->. inversion P; auto.
  - destruct (top_shp b a (c :: l) Ha S) as (st & E & F); [discriminate|]. exists st, b. split; [auto|]. split; [auto|]. split; [auto|]. intros L. exfalso. revert L. apply not_lost.
    intros ? ? E1; inversion E1; subst; auto.
  - cbn [new_loop]. rewrite first_pos by lia. cbn [bind].
    assert (D : lost b (a :: l) \/ ~ lost b (a :: l)).
    { unfold lost. cbn [hd tl]. destruct b; [|right; intros [? _]; discriminate]. destruct (Z.eq_dec a 1); [left; auto|right; tauto]. }
    destruct D as [L|L].
    + pose proof L as (-> & Ea & _). cbn [hd] in Ea. subst a.
      assert (Es : new_loop g BigI (NSt false (Some true) [1]) l = new_loop g BigI (NSt false (Some false) [1]) l).
      { destruct (shn_hd l S) as (k & r & -> & K). cbn [new_loop]. f_equal. unfold new_step. cbn [bind]. destruct (Z.eqb_spec (- k) 0); [lia|]. destruct (Z.ltb_spec (- k) 0); [|lia].
        cbn [new_absorb]. rewrite dassert_true. reflexivity. }
      rewrite Es. destruct (loop_n false [1] l) as (st & Est & v & r & -> & W & Hv & V); [|auto|].
      { split; [cbn; lia|]. split; [exists 1, nil; split; [auto|lia]|auto]. }
      exists (NSt false (Some false) (v :: r)), false. split; [auto|]. split; [|tauto]. exists v, r. split; [auto|]. split; [auto|]. split; [auto|]. intros w Hw. rewrite V by auto. reflexivity.
    + destruct (loop_n b [a] l) as (st & Est & v & r & -> & W & Hv & V); [|auto|].
      { split; [cbn; lia|]. split; [exists a, nil; split; [auto|lia]|]. intros E. inversion E; subst. destruct b; [|auto]. exfalso. apply L. repeat split; auto. }
      exists (NSt false (Some b) (v :: r)), b. split; [auto|]. split; [|tauto]. exists v, r. split; [auto|]. split; [auto|]. split; [auto|]. intros w Hw. rewrite V by auto. reflexivity.
Qed.
End New.

Section NewT.
Context (g : cfg) (t : ity).
Lemma rle_new_absorb negate negv rev target : rle (new_absorb g t negate negv rev target) (new_absorb g BigI negate negv rev target).
Proof.
  revert target. cut (forall n rev target, (length rev <= n)%nat -> rle (new_absorb g t negate negv rev target) (new_absorb g BigI negate negv rev target)).
  { intros H target. apply (H (length rev)). lia. }
  intros n. induction n as [|n IH]; intros r tg Hl; (destruct r as [|am1 rest]; [cbn [new_absorb]; mono|]); [cbn in Hl; lia|].
  cbn [new_absorb]. apply rle_bind; [mono|]. intros _. destruct (am1 =? 1); [destruct rest; mono|]. destruct (am1 =? 0); [|mono].
  destruct rest as [|am2 rest2]; [mono|]. apply rle_bind; [mono|]. intros nt. destruct (nt <? 0); [|mono]. apply IH. cbn in Hl. lia.
Qed.
Lemma rle_new_step st a : rle (new_step g t st a) (new_step g BigI st a).
Proof.
  unfold new_step. destruct st as [negate negv rev]. apply rle_bind; [mono|]. intros a'. destruct rev as [|last rest]; [mono|].
  destruct (a' =? 0); [mono|]. destruct (a' <? 0); [apply rle_new_absorb|]. mono.
Qed.
Lemma rle_new_loop l : forall st, rle (new_loop g t st l) (new_loop g BigI st l).
Proof. induction l as [|a l IH]; intros st; [apply rle_refl|]. cbn [new_loop]. apply rle_bind; [apply rle_new_step|]. intros. apply IH. Qed.

Lemma new_top b l pl y : fits t 1 = true -> fitl t l -> fitl t pl -> top l -> pl <> nil -> pos1 pl -> (1 < lim (pseq pl))%R -> cf_new g t l pl b = Ok y ->
  canonical y /\ p_coeffs y = pl /\ (lost b l -> cf_val y = tlv l (lim (pseq pl))) /\ (~ lost b l -> cf_val y = (IZR (sgnb b) * tlv l (lim (pseq pl)))%R).
Proof.
  intros F1 Fl Fp T Np Pp L1 H.
  destruct (list_eq_dec Z.eq_dec l [0]) as [->|N0].
  - assert (D : plain_coeffs [0] pl) by (split; [auto|left; lia]).
    destruct (cf_new_ok g t [0] pl b y F1 Fl Fp D H) as (C & P & V). split; [auto|]. split; [auto|]. split.
    + intros (_ & E & _). cbn in E. lia.
    + intros _. rewrite V. rewrite (inf_value (CF [0] pl b) 0 nil); [reflexivity|unfold wfcf; cbn [a_coeffs p_coeffs]; repeat split; auto; try lia; constructor|exact Np|reflexivity].
  - assert (Nl : l <> nil) by (destruct T; discriminate).
    destruct (new_loop_ok g t _ _ _ _ H Nl) as [st Hst]. pose proof (loop_fit g t _ _ _ Hst F1 Fl ltac:(constructor)) as Fst.
    pose proof (rle_new_loop _ _ _ Hst) as Hb.
    destruct (loop_top g b l T N0) as (st' & s & E & (v & r & -> & W & Hv & V) & S1 & S2). rewrite Hb in E. inversion E; subst st. cbn [s_rev] in Fst.
    destruct (finish_ok g t l pl b _ v r s y Nl Hst eq_refl (or_introl eq_refl) W (fun _ => Hv) Pp Fst Fp H) as (C & P & Vy).
    assert (Vy' : cf_val y = (IZR (sgnb s) * tlv l (lim (pseq pl)))%R). { rewrite Vy. destruct pl; [congruence|]. rewrite V by auto. reflexivity. }
    split; [auto|]. split; [auto|]. split.
    + intros L. rewrite Vy', (S2 L). cbn [sgnb]. ring.
    + intros L. rewrite Vy', (S1 L). reflexivity.
Qed.
End NewT.
Lemma new_top_total g b l pl : top l -> pl <> nil -> pos1 pl -> returns (cf_new g BigI l pl b).
Proof.
  intros T Np Pp. destruct (list_eq_dec Z.eq_dec l [0]) as [->|N0].
  - apply cf_new_total. split; [auto|left; lia].
  - assert (Nl : l <> nil) by (destruct T; discriminate).
    destruct (loop_top g b l T N0) as (st' & s & E & (v & r & -> & W & Hv & V) & _).
    apply (finish_total g l pl b _ v r Nl E eq_refl W (fun _ => Hv) Pp).
Qed.

(** ** From the coefficients a, b, c, r *)
Section Quad.
Context (g : cfg) (a b c r : Z) (Hb : b <> 0) (Hc : 0 < c) (Hr : 0 <= r) (Hs : ~ square r).
Let y : R := ((IZR a + IZR b * sqrt (IZR r)) / IZR c)%R.
Let yc : R := ((IZR a - IZR b * sqrt (IZR r)) / IZR c)%R.
Context (Hy : (0 < y)%R).

Definition qst (d p q : Z) : Prop :=
  (0 < b /\ qs_state a b c r d p q) \/ (b < 0 /\ (c | r * b * b - a * a) /\ d = r * b * b /\ p = - a /\ q = - c) \/
  (b < 0 /\ ~ (c | r * b * b - a * a) /\ qs_state a (- b) c r d p q).
Definition dst : Z := if Z.rem (r * b * b - a * a) c =? 0 then r * b * b else r * b * b * c * c.
Definition pst : Z := if Z.rem (r * b * b - a * a) c =? 0 then (if b <? 0 then - a else a) else a * c.
Definition qst_ : Z := if Z.rem (r * b * b - a * a) c =? 0 then (if b <? 0 then - c else c) else c * c.
Lemma qst_ok : qst dst pst qst_.
Proof.
  unfold dst, pst, qst_, qst, qs_state. destruct (Z.eqb_spec (Z.rem (r * b * b - a * a) c) 0) as [E|E]; rewrite rem_div in E by auto.
  - destruct (Z.ltb_spec b 0); [right; left; auto|left; split; [lia|left; auto]].
  - destruct (Z.lt_ge_cases b 0); [right; right; split; [auto|split; [auto|right]]|left; split; [lia|right; auto]].
    replace (r * - b * - b) with (r * b * b) by ring. auto.
Qed.

Lemma quad_peel t fuel neg z : quadsurd_to_contfrac g t fuel a b c r neg = Ok z ->
  exists al pe qe pl, aper_loop t fuel true dst (Z.sqrt dst) pst qst_ = Ok (al, pe, qe) /\
    per_loop t fuel dst (Z.sqrt dst) pe qe pe qe = Ok pl /\ cf_new g t al pl neg = Ok z.
Proof.
  intros H. unfold quadsurd_to_contfrac in H.
  destruct (dassert g _) as [[]| |]; [|discriminate|discriminate]. cbn [bind] in H.
  match type of H with bind ?m _ = _ => destruct m as [[]| |]; [|discriminate|discriminate] end. cbn [bind] in H.
  match type of H with bind ?m _ = _ => destruct m as [d0| |] eqn:Ed; [|discriminate|discriminate] end. cbn [bind] in H. lifts Ed. try subst d0. try subst d1.
  match type of H with bind ?m _ = _ => destruct m as [[p0 q0]| |] eqn:E0; [|discriminate|discriminate] end. cbn [bind] in H.
  assert (E1 : p0 = (if b <? 0 then - a else a) /\ q0 = (if b <? 0 then - c else c)).
  { destruct (b <? 0); [|inversion E0; auto]. unfold lift1 in E0. cbn [bind] in E0. unfold negT in E0. apply chkop_ok in E0. destruct E0 as [E0 _]. apply chkop_ok in E0. destruct E0 as [E0 _]. inversion E0; auto. }
  destruct E1 as [Ep0 Eq0]. clear E0.
  match type of H with bind ?m _ = _ => destruct m as [m0| |] eqn:Em; [|discriminate|discriminate] end. cbn [bind] in H. lifts Em. subst m0.
  assert (ER : Z.rem (r * b * b - p0 * p0) q0 = Z.rem (r * b * b - a * a) c).
  { rewrite Ep0, Eq0. destruct (b <? 0); [|reflexivity]. rewrite Z.rem_opp_r by lia. f_equal. ring. }
  rewrite ER in H. match type of H with bind ?m _ = _ => destruct m as [[[d p] q]| |] eqn:Es; [|discriminate|discriminate] end. cbn [bind] in H.
  assert (St : d = dst /\ p = pst /\ q = qst_).
  { unfold dst, pst, qst_. destruct (Z.eqb_spec (Z.rem (r * b * b - a * a) c) 0) as [E|E]; cbn [negb] in Es.
    - inversion Es; subst; auto.
    - match type of Es with bind ?m _ = _ => destruct m as [d1| |] eqn:Ed; [|discriminate|discriminate] end. cbn [bind] in Es. lifts Ed. try subst d0. try subst d1.
      match type of Es with bind ?m _ = _ => destruct m as [p1| |] eqn:Ep; [|discriminate|discriminate] end. cbn [bind] in Es. lifts Ep. subst p1.
      match type of Es with bind ?m _ = _ => destruct m as [q1| |] eqn:Eq; [|discriminate|discriminate] end. cbn [bind] in Es. lifts Eq. subst q1.
      inversion Es; subst d p q. rewrite Ep0, Eq0. destruct (b <? 0); (split; [ring|split; ring]). }
  destruct St as (-> & -> & ->).
  unfold sqrtT in H. destruct (dst <? 0); [discriminate|]. cbn [bind] in H.
  destruct (aper_loop t fuel true dst (Z.sqrt dst) pst qst_) as [[[al pe] qe]| |] eqn:E1; [|discriminate|discriminate]. cbn [bind] in H.
  destruct (per_loop t fuel dst (Z.sqrt dst) pe qe pe qe) as [pl| |] eqn:E2; [|discriminate|discriminate]. cbn [bind] in H.
  exists al, pe, qe, pl. auto.
Qed.
Lemma quad_big fuel neg : quadsurd_to_contfrac g BigI fuel a b c r neg =
  (let! (al, p, q) := aper_loop BigI fuel true dst (Z.sqrt dst) pst qst_ in
   let! pl := per_loop BigI fuel dst (Z.sqrt dst) p q p q in cf_new g BigI al pl neg).
Proof.
  unfold quadsurd_to_contfrac. unfold dassert at 1. destruct (Z.eqb_spec c 0); [lia|]. destruct (Z.ltb_spec r 0); [lia|]. cbn [negb andb].
  rewrite andb_false_r. cbn [bind].
  assert (Hdbg : (if dbg g then let! s := sqrtT r in let! ss := lift2 (mulT BigI) (Ok s) (Ok s) in dassert g (negb (ss =? r)) else Ok tt) = Ok tt).
  { destruct (dbg g) eqn:G; [|reflexivity]. rewrite sqrtB by auto. bigi. unfold dassert. rewrite G.
    destruct (Z.eqb_spec (Z.sqrt r * Z.sqrt r) r) as [E|E]; [|reflexivity]. exfalso. apply Hs. apply sqrt_square_iff; auto. }
  rewrite Hdbg. cbn [bind]. bigi.
  assert (E0 : (if b <? 0 then let! p := lift1 (negT BigI) (Ok a) in let! q := lift1 (negT BigI) (Ok c) in Ok (p, q) else Ok (a, c)) =
    Ok (if b <? 0 then - a else a, if b <? 0 then - c else c)) by (destruct (b <? 0); reflexivity).
  autorewrite with bigi in E0. rewrite E0. cbn [bind]. bigi.
  assert (ER : Z.rem (r * b * b - (if b <? 0 then - a else a) * (if b <? 0 then - a else a)) (if b <? 0 then - c else c) = Z.rem (r * b * b - a * a) c).
  { destruct (b <? 0); [|reflexivity]. rewrite Z.rem_opp_r by lia. f_equal. ring. }
  rewrite remB by (destruct (b <? 0); lia). cbn [bind]. rewrite ER.
  assert (Hd : 0 <= dst) by (unfold dst; destruct (_ =? 0); nia).
  assert (Es : forall k : Z * Z * Z -> res cf, (let! x := (if negb (Z.rem (r * b * b - a * a) c =? 0)
     then let! d := Ok (r * b * b * (if b <? 0 then - c else c) * (if b <? 0 then - c else c)) in
          let! p := Ok ((if b <? 0 then - a else a) * (if b <? 0 then - c else c)) in let! q := Ok ((if b <? 0 then - c else c) * (if b <? 0 then - c else c)) in Ok (d, p, q)
     else Ok (r * b * b, if b <? 0 then - a else a, if b <? 0 then - c else c)) in k x) = k (dst, pst, qst_)).
  { intros k. unfold dst, pst, qst_. destruct (Z.rem (r * b * b - a * a) c =? 0); cbn [negb bind]; [reflexivity|]. destruct (b <? 0); [|reflexivity]. assert (H1 : forall x, x * - c * - c = x * c * c) by (intros; ring). rewrite H1, !Z.mul_opp_opp. reflexivity. }
  bigi. rewrite Es. rewrite sqrtB by auto. reflexivity.
Qed.

Definition target : R := if (b <? 0) && negb (Z.rem (r * b * b - a * a) c =? 0) then yc else y.
Lemma dst_bounds : Z.sqrt dst * Z.sqrt dst < dst /\ dst < (Z.sqrt dst + 1) * (Z.sqrt dst + 1) /\ 0 <= Z.sqrt dst.
Proof.
  destruct qst_ok as [(B & St)|[(B & D & E & Ep & Eq)|(B & D & St)]].
  - exact (qs_bounds a b c r B Hc Hr Hs dst pst qst_ St).
  - assert (St2 : qs_state a (- b) c r dst a c) by (left; replace (r * - b * - b) with (r * b * b) by ring; split; [exact D|split; [exact E|split; reflexivity]]). exact (qs_bounds a (- b) c r ltac:(lia) Hc Hr Hs dst a c St2).
  - exact (qs_bounds a (- b) c r ltac:(lia) Hc Hr Hs dst pst qst_ St).
Qed.
Lemma X_target : X dst pst qst_ = target.
Proof.
  unfold target. destruct qst_ok as [(B & St)|[(B & D & E & Ep & Eq)|(B & D & St)]].
  - destruct (Z.ltb_spec b 0); [lia|]. cbn [andb]. apply (qs_X a b c r B Hc Hr dst pst qst_ St).
  - rewrite <- rem_div in D by auto. rewrite D. cbn [Z.eqb negb]. rewrite andb_false_r.
    assert (St2 : qs_state a (- b) c r dst a c) by (left; replace (r * - b * - b) with (r * b * b) by ring; rewrite <- rem_div by auto; auto).
    destruct (qs_sqrt a (- b) c r ltac:(lia) Hc Hr dst a c St2) as (k & Hk & E1 & E2 & E3). rewrite Ep, Eq. unfold X, y. rewrite E1, !opp_IZR.
    assert (Cp : (0 < IZR c)%R) by (apply IZR_lt; auto). assert (k1 : IZR k = 1%R) by nra. rewrite k1. field. lra.
  - rewrite <- rem_div in D by auto. destruct (Z.ltb_spec b 0); [|lia]. destruct (Z.eqb_spec (Z.rem (r * b * b - a * a) c) 0); [contradiction|]. cbn [negb andb].
    rewrite (qs_X a (- b) c r ltac:(lia) Hc Hr dst pst qst_ St). unfold yc. rewrite opp_IZR. f_equal. ring.
Qed.
Definition drops (al : list Z) : Prop := hd 0 al = 1 /\ shn (tl al).
Definition dropcond : Prop := b < 0 /\ (c | r * b * b - a * a) /\ a - Z.sqrt (r * b * b) = c.

Lemma target_pos : (0 < target)%R.
Proof.
  unfold target. destruct (b <? 0) eqn:B; cbn [andb]; [|auto]. destruct (negb _); [|auto]. apply Z.ltb_lt in B. apply IZR_lt in B.
  assert (Cp : (0 < IZR c)%R) by (apply IZR_lt; auto). pose proof (sqrt_pos (IZR r)).
  assert (y * IZR c = IZR a + IZR b * sqrt (IZR r))%R by (unfold y; field; lra). assert (yc * IZR c = IZR a - IZR b * sqrt (IZR r))%R by (unfold yc; field; lra). nra.
Qed.
Lemma quad_run :
  ((exists m m', bad2 dst (Z.sqrt dst) m m') /\ stuck dst (Z.sqrt dst) pst qst_) \/
  exists l pe qe, ends dst (Z.sqrt dst) pst qst_ l pe qe /\ top l /\ (drops l <-> dropcond).
Proof.
  destruct dst_bounds as (B0 & B1 & B2). pose proof X_target as EX. pose proof target_pos as TP.
  pose proof (s_lo dst _ B0 B1 B2) as Sl. pose proof (s_hi dst _ B0 B1 B2) as Sh.
  assert (Pos : 0 < qst_ -> - Z.sqrt dst <= pst).
  { intros Hq. assert (- Z.sqrt dst - 1 < pst); [|lia]. apply lt_IZR. rewrite minus_IZR, opp_IZR. apply IZR_lt in Hq.
    assert (XQ : (X dst pst qst_ * IZR qst_ = IZR pst + sqrt (IZR dst))%R) by (unfold X; field; lra). rewrite EX in XQ.
    assert (0 < target * IZR qst_)%R by (apply Rmult_lt_0_compat; auto). lra. }
  destruct qst_ok as [(B & St)|[(B & D & E & Ep & Eq)|(B & D & St)]].
  - destruct (qs_A a b c r Hc _ _ _ St) as [Hq Dv]. destruct (run_pos dst _ B0 B1 B2 pst qst_ Hq Dv (Pos Hq)) as [H|(l & pe & qe & H & T & N)]; [left; auto|right].
    exists l, pe, qe. split; [auto|]. split; [auto|]. split; [intros [_ S]; exfalso; eapply N; eauto|intros [? _]; lia].
  - rewrite Eq. destruct (run_neg dst _ B0 B1 B2 pst c Hc) as [H|(l & pe & qe & H & T & N1 & N2)]; [rewrite E, Ep; replace (- a * - a) with (a * a) by ring; auto| |left; auto|].
    + assert (Z.sqrt dst < - pst); [|lia]. apply lt_IZR. rewrite opp_IZR. apply IZR_lt in Hc as Cp.
      assert (XQ : (X dst pst qst_ * - IZR c = IZR pst + sqrt (IZR dst))%R) by (unfold X; rewrite Eq, opp_IZR; field; lra). rewrite EX in XQ.
      assert (0 < target * IZR c)%R by (apply Rmult_lt_0_compat; auto). lra.
    + right. exists l, pe, qe. split; [auto|]. split; [auto|]. unfold drops, dropcond. rewrite <- E. split.
      * intros [S1 S2]. split; [auto|]. split; [rewrite E; auto|]. specialize (N1 S1 S2). lia.
      * intros (_ & _ & K). apply N2. lia.
  - destruct (qs_A a (- b) c r Hc _ _ _ St) as [Hq Dv]. destruct (run_pos dst _ B0 B1 B2 pst qst_ Hq Dv (Pos Hq)) as [H|(l & pe & qe & H & T & N)]; [left; auto|right].
    exists l, pe, qe. split; [auto|]. split; [auto|]. split; [intros [_ S]; exfalso; eapply N; eauto|intros (_ & ? & _); contradiction].
Qed.

Lemma quad_ok t fuel neg z : fits t 1 = true -> quadsurd_to_contfrac g t fuel a b c r neg = Ok z ->
  canonical z /\ ~ finite z /\ (neg = true -> dropcond -> cf_val z = target) /\ (~ (neg = true /\ dropcond) -> cf_val z = (IZR (sgnb neg) * target)%R).
Proof.
  intros F1 H. destruct (quad_peel t fuel neg z H) as (al & pe & qe & pl & E1 & E2 & E3).
  destruct dst_bounds as (B0 & B1 & B2).
  pose proof (aper_fit _ _ _ _ _ _ _ _ _ _ E1) as Ga. pose proof (per_fit _ _ _ _ _ _ _ _ _ E2) as Gp.
  apply rle_aper_loop in E1. apply rle_per_loop in E2.
  destruct quad_run as [[_ S]|(l & pe' & qe' & ([f0 En] & R & V) & T & D)]; [rewrite S in E1; discriminate|].
  apply (aper_more_n BigI f0) in E1. rewrite En in E1 by lia. inversion E1; subst al pe' qe'. clear E1.
  destruct (per_ok dst _ B0 B1 B2 _ _ _ _ _ _ R E2) as (N & Fp & W).
  pose proof (X_gt1 dst _ B0 B1 B2 _ _ (proj1 R)) as X1.
  apply tailv_root in W; [|auto|auto|apply Rinv_0_lt_compat; lra].
  assert (W' : X dst pe qe = lim (pseq pl)) by (rewrite <- (Rinv_inv (X dst pe qe)), W, Rinv_inv; reflexivity).
  destruct (new_top g t neg l pl z F1 Ga Gp T N Fp ltac:(rewrite <- W'; auto) E3) as (C & P & V1 & V2). rewrite <- W', <- V, X_target in V1, V2.
  split; [auto|]. split; [unfold finite; rewrite P; auto|]. unfold drops, lost in *. split.
  - intros -> Dc. apply V1. split; [auto|]. apply D. auto.
  - intros Dc. apply V2. intros (-> & L). apply Dc. split; [auto|]. apply D. auto.
Qed.
Lemma quad_total neg :
  ((exists m m', bad2 dst (Z.sqrt dst) m m') /\ forall fuel, quadsurd_to_contfrac g BigI fuel a b c r neg = Hang) \/
  exists f0, forall fuel, (f0 <= fuel)%nat -> returns (quadsurd_to_contfrac g BigI fuel a b c r neg).
Proof.
  destruct dst_bounds as (B0 & B1 & B2).
  destruct quad_run as [[B S]|(l & pe & qe & ([f0 En] & R & V) & T & D)].
  - left. split; [auto|]. intros fuel. rewrite quad_big, S. reflexivity.
  - right. exists (f0 + length (allR (Z.sqrt dst)))%nat. intros fuel Hf. rewrite quad_big, En by lia. cbn [bind].
    destruct (per_total dst _ B0 B1 B2 fuel pe qe R ltac:(lia)) as [pl Ep]. rewrite Ep. cbn [bind].
    destruct (per_ok dst _ B0 B1 B2 _ _ _ _ _ _ R Ep) as (N & Fp & _). apply new_top_total; auto.
Qed.
End Quad.

(** *** the public function *)
Section Public.
Context (g : cfg) (s : surd) (x xc : R) (N : normal g s) (E : sval s = RtoC x) (Ec : sconj s = RtoC xc) (I : ~ rational_num (sval s)).

Lemma wide_pre : exists a b c r, s = Surd (SCo a b c) r /\ b <> 0 /\ 0 < c /\ 0 <= r /\ ~ square r /\ x = ((IZR a + IZR b * sqrt (IZR r)) / IZR c)%R /\
  xc = ((IZR a - IZR b * sqrt (IZR r)) / IZR c)%R /\ x <> 0%R /\ (b < 0 <-> (x < xc)%R) /\ (0 < b <-> (xc < x)%R).
Proof.
  destruct (normal_real g s x N E) as [Hr Ex]. pose proof (normal_okc g s N) as O. rewrite (sconj_rconj s O Hr) in Ec. apply RtoC_inj in Ec.
  destruct (sval_irr g s x N E I) as [Hb Hsq].
  assert (X0 : x <> 0%R).
  { intros ->. apply I. exists 0, 1. split; [lia|]. rewrite E. unfold ZtoC. rewrite <- RtoC_div by lra. f_equal. field. }
  destruct s as [[a b c] r]. unfold normal, parts in N. unfold rs, rnum, rconj in *. cbn [coeffs c0 c1 c2 discr] in *. destruct N as (Hc & _).
  exists a, b, c, r. split; [auto|]. split; [auto|]. split; [auto|]. split; [auto|]. split; [auto|]. split; [auto|]. split; [auto|]. split; [auto|].
  assert (Cp : (0 < IZR c)%R) by (apply IZR_lt; auto).
  assert (Sq : (0 < sqrt (IZR r))%R).
  { apply sqrt_lt_R0. apply IZR_lt. destruct (Z.eq_dec r 0); [|lia]. exfalso. apply Hsq. exists 0. lia. }
  assert (D : (IZR b * sqrt (IZR r) * 2 = (x - xc) * IZR c)%R) by (rewrite Ex, <- Ec; field; lra).
  assert (P1 : 0 < b -> (xc < x)%R) by (intros B; apply IZR_lt in B; assert (0 < IZR b * sqrt (IZR r))%R by (apply Rmult_lt_0_compat; auto); nra).
  assert (P2 : b < 0 -> (x < xc)%R) by (intros B; apply IZR_lt in B; assert (0 < - IZR b * sqrt (IZR r))%R by (apply Rmult_lt_0_compat; lra); nra).
  split; (split; [auto|]); intros L; (destruct (Z.lt_total b 0) as [B|[B|B]]; [|lia|]); auto; [apply P1 in B; lra|apply P2 in B; lra].
Qed.

Lemma surd_to_cf_char t fuel z : fits t 1 = true -> surd_to_cf g t fuel s = Ok (Some z) ->
  canonical z /\ ~ finite z /\ (between0 x xc -> ~ norm_divisible s -> cf_val z = xc) /\ (sign_dropped s x xc -> cf_val z = (- x)%R) /\
  (~ (between0 x xc /\ ~ norm_divisible s) -> ~ sign_dropped s x xc -> cf_val z = x).
Proof.
  intros F1 H. destruct (normal_real g s x N E) as [Hr Ex].
  destruct wide_pre as (a & b & c & r & Es & Hb & Hc & Hr' & Hsq & Ex' & Exc & X0 & Bn & Bp).
  unfold surd_to_cf in H. destruct (Z.ltb_spec (discr s) 0); [lia|].
  destruct (surd_is_negative g t s) as [ng| |] eqn:En; [|discriminate|discriminate]. cbn [bind] in H.
  apply (surd_is_negative_ok g t s ng N Hr) in En. rewrite <- Ex in En. unfold norm_divisible, sign_dropped, norm_divisible, between0. rewrite Es in *. cbn [coeffs c0 c1 c2 discr] in *.
  assert (Dv : forall u v, (c | r * (u * b) * (u * b) - (v * a) * (v * a)) -> u * u = 1 -> v * v = 1 -> (c | a * a - b * b * r)).
  { intros u v [k Hk] U V. exists (- k). nia. }
  assert (Dv' : forall u v, u * u = 1 -> v * v = 1 -> (c | a * a - b * b * r) -> (c | r * (u * b) * (u * b) - (v * a) * (v * a))).
  { intros u v U V [k Hk]. exists (- k). nia. }
  destruct ng.
  - assert (Xn : (x < 0)%R) by (apply En; auto).
    unfold lift1 in H. cbn [bind] in H. unfold negT in H. apply chkop_ok in H. destruct H as [H _]. apply chkop_ok in H. destruct H as [H _].
    destruct (quadsurd_to_contfrac g t fuel (- a) (- b) c r true) as [z'| |] eqn:Eq; [|discriminate|discriminate]. inversion H; subst z'. clear H.
    assert (Cp : (IZR c <> 0)%R) by (apply not_0_IZR; lia).
    assert (Ey : ((IZR (- a) + IZR (- b) * sqrt (IZR r)) / IZR c)%R = (- x)%R) by (rewrite Ex', !opp_IZR; field; auto).
    assert (Eyc : ((IZR (- a) - IZR (- b) * sqrt (IZR r)) / IZR c)%R = (- xc)%R) by (rewrite Exc, !opp_IZR; field; auto).
    destruct (quad_ok g (- a) (- b) c r ltac:(lia) Hc Hr' Hsq ltac:(rewrite Ey; lra) t fuel true z F1 Eq) as (C1 & C2 & V1 & V2).
    unfold target, dropcond in V1, V2. rewrite Ey, Eyc in V1, V2. cbn [sgnb] in V2.
    assert (Q : r * - b * - b - - a * - a = r * b * b - a * a) by ring. rewrite Q in *.
    assert (Q2 : r * - b * - b = b * b * r) by ring. rewrite Q2 in *.
    assert (K : (c | r * b * b - a * a) <-> (c | a * a - b * b * r)) by (split; intros [k Hk]; exists (- k); lia). rewrite K in *.
    assert (K2 : Z.rem (r * b * b - a * a) c = 0 <-> (c | a * a - b * b * r)) by (rewrite rem_div by auto; auto).
    split; [auto|]. split; [auto|]. split; [|split].
    + intros B D. rewrite V2 by tauto. destruct (Z.ltb_spec (- b) 0) as [B'|B']; [|assert (b < 0) by lia; apply Bn in H; lra].
      destruct (Z.eqb_spec (Z.rem (r * b * b - a * a) c) 0) as [R|R]; [exfalso; apply D; apply K2; auto|]. cbn [andb negb]. ring.
    + intros ((B & _) & D & R). rewrite V1; [|auto|split; [assert (0 < b) by (apply Bp; auto); lia|split; [auto|lia]]].
      destruct (Z.eqb_spec (Z.rem (r * b * b - a * a) c) 0) as [R'|R']; [|exfalso; apply R'; apply K2; auto]. rewrite andb_false_r. reflexivity.
    + intros B D. rewrite V2.
      * destruct (Z.ltb_spec (- b) 0) as [B'|B']; [|cbn [andb]; ring]. destruct (Z.eqb_spec (Z.rem (r * b * b - a * a) c) 0) as [R|R]; [cbn [andb negb]; ring|].
        exfalso. apply B. split; [right; assert (xc < x)%R by (apply Bp; lia); lra|]. intros R'. apply R. apply K2. auto.
      * intros (_ & B1 & D1 & R1). apply D. split; [assert (xc < x)%R by (apply Bp; lia); lra|]. split; [auto|lia].
  - assert (Xn : (0 < x)%R). { destruct (Rtotal_order x 0) as [T|[T|T]]; [exfalso|congruence|auto]. apply En in T. discriminate. }
    destruct (quadsurd_to_contfrac g t fuel a b c r false) as [z'| |] eqn:Eq; [|discriminate|discriminate]. inversion H; subst z'. clear H.
    destruct (quad_ok g a b c r Hb Hc Hr' Hsq ltac:(rewrite <- Ex'; auto) t fuel false z F1 Eq) as (C1 & C2 & _ & V2).
    specialize (V2 ltac:(intros [? _]; discriminate)). unfold target in V2. rewrite <- Ex', <- Exc in V2. cbn [sgnb] in V2. rewrite Rmult_1_l in V2.
    assert (K : (c | r * b * b - a * a) <-> (c | a * a - b * b * r)) by (split; intros [k Hk]; exists (- k); lia).
    assert (K2 : Z.rem (r * b * b - a * a) c = 0 <-> (c | a * a - b * b * r)) by (rewrite rem_div by auto; auto).
    split; [auto|]. split; [auto|]. split; [|split].
    + intros B D. rewrite V2. destruct (Z.ltb_spec b 0) as [B'|B']; [|assert (0 < b) by lia; apply Bp in H; lra].
      destruct (Z.eqb_spec (Z.rem (r * b * b - a * a) c) 0) as [R|R]; [exfalso; apply D; apply K2; auto|]. reflexivity.
    + intros ((_ & B) & _). lra.
    + intros B _. rewrite V2. destruct (Z.ltb_spec b 0) as [B'|B']; [|reflexivity]. destruct (Z.eqb_spec (Z.rem (r * b * b - a * a) c) 0) as [R|R]; [reflexivity|].
      exfalso. apply B. split; [left; assert (x < xc)%R by (apply Bn; lia); lra|]. intros R'. apply R. apply K2. auto.
Qed.

Lemma surd_to_cf_dichotomy :
  (exists n0, forall fuel, (n0 <= fuel)%nat -> exists z, surd_to_cf g BigI fuel s = Ok (Some z)) \/
  (may_hang s /\ forall fuel, surd_to_cf g BigI fuel s = Hang).
Proof.
  destruct (normal_real g s x N E) as [Hr Ex].
  destruct wide_pre as (a & b & c & r & Es & Hb & Hc & Hr' & Hsq & Ex' & Exc & X0 & Bn & Bp).
  assert (Cp : (IZR c <> 0)%R) by (apply not_0_IZR; lia).
  assert (MH : forall u, u * u = 1 -> (exists m m', bad2 (dst (u * a) (u * b) c r) (Z.sqrt (dst (u * a) (u * b) c r)) m m') -> may_hang s).
  { intros u U (m & m' & M1 & M2 & M3 & M4 & M5). exists (dst (u * a) (u * b) c r), m, m'. rewrite Es. unfold norm_divisible. cbn [coeffs c0 c1 c2 discr].
    split; [|split; [auto|split; [auto|split; [lia|auto]]]]. unfold dst in *.
    assert (Q : r * (u * b) * (u * b) = b * b * r) by (transitivity ((u * u) * (b * b * r)); [ring|rewrite U; ring]).
    assert (Q2 : u * a * (u * a) = a * a) by (transitivity ((u * u) * (a * a)); [ring|rewrite U; ring]). rewrite Q, Q2.
    assert (K2 : Z.rem (b * b * r - a * a) c = 0 <-> (c | a * a - b * b * r)) by (rewrite rem_div by auto; split; intros [k Hk]; exists (- k); lia).
    destruct (Z.eqb_spec (Z.rem (b * b * r - a * a) c) 0) as [R|R]; [left|right]; (split; [|auto]); [apply K2; auto|intros R'; apply R; apply K2; auto]. }
  destruct (surd_is_negative_big g s N Hr) as (ng & En & Ib). rewrite <- Ex in Ib. destruct ng.
  - assert (Xn : (x < 0)%R) by (apply Ib; auto).
    assert (Ey : ((IZR (- a) + IZR (- b) * sqrt (IZR r)) / IZR c)%R = (- x)%R) by (rewrite Ex', !opp_IZR; field; auto).
    destruct (quad_total g (- a) (- b) c r ltac:(lia) Hc Hr' Hsq ltac:(rewrite Ey; lra) true) as [[B T]|[f0 T]].
    + right. split; [apply (MH (-1)); [reflexivity|]; replace (-1 * a) with (- a) by ring; replace (-1 * b) with (- b) by ring; auto|].
      intros fuel. unfold surd_to_cf. destruct (Z.ltb_spec (discr s) 0); [lia|]. rewrite En. cbn [bind]. rewrite Es. bigi. rewrite T. reflexivity.
    + left. exists f0. intros fuel Hf. unfold surd_to_cf. destruct (Z.ltb_spec (discr s) 0); [lia|]. rewrite En. cbn [bind]. rewrite Es. bigi.
      destruct (T fuel Hf) as [z Ez]. rewrite Ez. exists z. reflexivity.
  - assert (Xn : (0 < x)%R). { destruct (Rtotal_order x 0) as [T|[T|T]]; [exfalso|congruence|auto]. apply Ib in T. discriminate. }
    destruct (quad_total g a b c r Hb Hc Hr' Hsq ltac:(rewrite <- Ex'; auto) false) as [[B T]|[f0 T]].
    + right. split; [apply (MH 1); [reflexivity|]; rewrite !Z.mul_1_l; auto|].
      intros fuel. unfold surd_to_cf. destruct (Z.ltb_spec (discr s) 0); [lia|]. rewrite En. cbn [bind]. rewrite Es. bigi. rewrite T. reflexivity.
    + left. exists f0. intros fuel Hf. unfold surd_to_cf. destruct (Z.ltb_spec (discr s) 0); [lia|]. rewrite En. cbn [bind]. rewrite Es. bigi.
      destruct (T fuel Hf) as [z Ez]. rewrite Ez. exists z. reflexivity.
Qed.
End Public.
