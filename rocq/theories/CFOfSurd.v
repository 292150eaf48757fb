(** * CFOfSurd: from surds to continued fractions. *)

From Coq Require Import ZArith Znumtheory Reals Lia Lra Bool List Arith.
From Coquelicot Require Import Coquelicot.
From Verif Require Import Base Ext ModelSurd ModelBlock ModelCF ModelConv Spec SpecCF NumFacts Transfer SurdCore RatioFacts SurdArith
  SurdTotal SurdOrd SurdRound SurdMisc SurdSqrt CFCore CFSeq CFIter CFBasic CFSurd CFNew.
Import ListNotations.
Open Scope Z_scope.

Lemma rle_rho t d rd p q : rle (rho t d rd p q) (rho BigI d rd p q).
Proof. unfold rho; mono. Qed.
Lemma rle_is_reduced_pq t rd p q : rle (is_reduced_pq t rd p q) (is_reduced_pq BigI rd p q).
Proof. unfold is_reduced_pq; mono. Qed.
#[export] Hint Resolve rle_rho rle_is_reduced_pq : mono.
Lemma rle_aper_loop t fuel : forall first d rd p q, rle (aper_loop t fuel first d rd p q) (aper_loop BigI fuel first d rd p q).
Proof. induction fuel as [|fuel IH]; intros; cbn [aper_loop]; mono. Qed.
Lemma rle_per_loop t fuel : forall d rd ip iq p q, rle (per_loop t fuel d rd ip iq p q) (per_loop BigI fuel d rd ip iq p q).
Proof. induction fuel as [|fuel IH]; intros; cbn [per_loop]; mono. Qed.

Lemma rho_fit t d rd p q a p' q' : rho t d rd p q = Ok (a, p', q') -> fits t a = true.
Proof.
  unfold rho. intros H. destruct (lift2 (addT t) (Ok rd) (Ok p)) as [s| |]; [|discriminate|discriminate]. cbn [bind] in H.
  destruct (div_floorT t s q) as [x| |] eqn:E; [|discriminate|discriminate]. cbn [bind] in H.
  unfold div_floorT in E. destruct (q =? 0); [discriminate|]. apply chk_fits in E. destruct E as [-> F].
  destruct (lift2 (subT t) _ _) as [y| |]; [|discriminate|discriminate]. cbn [bind] in H.
  destruct (lift2 (quotT t) _ _) as [z| |]; [|discriminate|discriminate]. cbn [bind] in H. inversion H; subst. auto.
Qed.
Lemma aper_fit t fuel : forall first d rd p q l pe qe, aper_loop t fuel first d rd p q = Ok (l, pe, qe) -> fitl t l.
Proof.
  induction fuel as [|fuel IH]; intros first d rd p q l pe qe H; [discriminate|]. cbn [aper_loop] in H.
  destruct (if first then Ok false else is_reduced_pq t rd p q) as [stop| |]; [|discriminate|discriminate]. cbn [bind] in H.
  destruct stop; [inversion H; constructor|]. destruct (rho t d rd p q) as [[[a p'] q']| |] eqn:E; [|discriminate|discriminate]. cbn [bind] in H.
  destruct (aper_loop t fuel false d rd p' q') as [[[l' pe'] qe']| |] eqn:E1; [|discriminate|discriminate]. cbn [bind] in H. inversion H; subst.
  constructor; [eapply rho_fit; eauto|eapply IH; eauto].
Qed.
Lemma per_fit t fuel : forall d rd ip iq p q l, per_loop t fuel d rd ip iq p q = Ok l -> fitl t l.
Proof.
  induction fuel as [|fuel IH]; intros d rd ip iq p q l H; [discriminate|]. cbn [per_loop] in H.
  destruct (rho t d rd p q) as [[[a p'] q']| |] eqn:E; [|discriminate|discriminate]. cbn [bind] in H. apply rho_fit in E.
  destruct ((p' =? ip) && (q' =? iq)); [inversion H; repeat constructor; auto|].
  destruct (per_loop t fuel d rd ip iq p' q') as [l'| |] eqn:E1; [|discriminate|discriminate]. cbn [bind] in H. inversion H; subst.
  constructor; [auto|eapply IH; eauto].
Qed.

Section Rho.
Context (d rd : Z) (Hd0 : rd * rd < d) (Hd1 : d < (rd + 1) * (rd + 1)) (Hr0 : 0 <= rd).
Let s := sqrt (IZR d).
Lemma s_sq : (s * s = IZR d)%R.
Proof. apply sqrt_IZR_sq. nia. Qed.
Lemma s_lo : (IZR rd < s)%R.
Proof.
  unfold s. rewrite <- (sqrt_IZR_square rd) by auto. apply sqrt_lt_1; [apply IZR_le; nia|apply IZR_le; nia|apply IZR_lt; auto].
Qed.
Lemma s_hi : (s < IZR rd + 1)%R.
Proof.
  unfold s. rewrite <- plus_IZR. rewrite <- (sqrt_IZR_square (rd + 1)) by lia. apply sqrt_lt_1; [apply IZR_le; nia|apply IZR_le; nia|apply IZR_lt; auto].
Qed.
Definition X (p q : Z) : R := ((IZR p + s) / IZR q)%R.

Definition stA (p q : Z) : Prop := 0 < q /\ (q | d - p * p).
(** the first step stays on the right side *)
Definition next_pos (p q : Z) : Prop := - rd <= ((rd + p) / q) * q - p.
Definition stB (p q : Z) : Prop := stA p q /\ p <= rd /\ q - p <= rd.
Definition stR (p q : Z) : Prop := stB p q /\ rd < p + q.

Lemma rho_big p q : stA p q -> next_pos p q -> exists a p' q', rho BigI d rd p q = Ok (a, p', q') /\
  a = (rd + p) / q /\ p' = a * q - p /\ q * q' = d - p' * p' /\ stB p' q' /\ rd - q < p' <= rd /\
  X p q = (IZR a + / X p' q')%R.
Proof.
  intros [Hq Hdiv] Hn. set (a := (rd + p) / q). set (p' := a * q - p).
  assert (A1 : a * q <= rd + p) by (pose proof (Z.mul_div_le (rd + p) q Hq); unfold a; lia).
  assert (A2 : rd + p < a * q + q) by (pose proof (Z.mul_succ_div_gt (rd + p) q Hq); unfold a; lia).
  assert (Hp' : rd - q < p' <= rd) by (unfold p'; lia).
  assert (Hp2 : - rd <= p') by exact Hn.
  assert (Hdiv' : (q | d - p' * p')).
  { destruct Hdiv as [k Hk]. exists (k - a * a * q + 2 * a * p). unfold p'. nia. }
  destruct Hdiv' as [q' Hq']. assert (Hpp : p' * p' <= rd * rd) by nia.
  assert (Hq'0 : 0 < q') by nia.
  exists a, p', q'. split; [|split; [reflexivity|split; [reflexivity|split; [lia|split; [|split; [auto|]]]]]].
  - unfold rho. bigi. rewrite div_floorB by lia. fold a. cbn [bind]. bigi. fold p'. rewrite Hq'. rewrite quotB by lia.
    rewrite Z.quot_mul by lia. reflexivity.
  - split; [split; [auto|exists q; lia]|]. split; [lia|].
    (* q' <= rd + p' *)
    assert (q' < rd + 1 + p'); [|lia]. clearbody p'. clear a A1 A2 Hn Hdiv. nia.
  - unfold X. pose proof s_sq as S2. pose proof s_lo as Sl. assert (Hs : (IZR p' < s)%R) by (eapply Rle_lt_trans; [apply IZR_le; apply Hp'|auto]).
    assert (Hs2 : (0 < IZR p' + s)%R) by (assert (IZR (- rd) <= IZR p')%R by (apply IZR_le; auto); rewrite opp_IZR in H; lra).
    assert (E : (IZR q' * IZR q = IZR d - IZR p' * IZR p')%R) by (rewrite <- !mult_IZR, <- minus_IZR; f_equal; lia).
    assert (Ep : IZR p = (IZR a * IZR q - IZR p')%R) by (rewrite <- mult_IZR, <- minus_IZR; f_equal; unfold p'; lia).
    assert (Q0 : (0 < IZR q)%R) by (apply IZR_lt; auto). assert (Q1 : (0 < IZR q')%R) by (apply IZR_lt; auto).
    rewrite Rinv_div. apply (Rmult_eq_reg_r (IZR q * (IZR p' + s))%R); [|apply Rmult_integral_contrapositive_currified; lra].
    replace ((IZR p + s) / IZR q * (IZR q * (IZR p' + s)))%R with ((IZR p + s) * (IZR p' + s))%R by (field; lra).
    replace ((IZR a + IZR q' / (IZR p' + s)) * (IZR q * (IZR p' + s)))%R with (IZR a * IZR q * (IZR p' + s) + IZR q' * IZR q)%R by (field; lra).
    rewrite E, Ep. rewrite <- S2. ring.
Qed.

Lemma stB_next p q : stB p q -> next_pos p q /\ 1 <= (rd + p) / q.
Proof.
  intros ((Hq & _) & Hp & Hqp). assert (1 <= (rd + p) / q) by (apply Z.div_le_lower_bound; lia). split; [|auto]. unfold next_pos. nia.
Qed.
Lemma stB_step p q : stB p q -> exists a p' q', rho BigI d rd p q = Ok (a, p', q') /\ 1 <= a /\ stR p' q' /\
  X p q = (IZR a + / X p' q')%R /\ q * q' = d - p' * p' /\ p' = a * q - p.
Proof.
  intros B. destruct (stB_next p q B) as [N A1]. destruct B as (SA & Hp & Hqp).
  destruct (rho_big p q SA N) as (a & p' & q' & E & Ea & Ep & Eq & B' & Hp' & V). exists a, p', q'.
  split; [auto|]. split; [lia|]. split; [|auto]. split; [auto|]. destruct B' as ((Hq' & _) & _ & _). destruct SA as [Hq _].
  assert (q <= rd + p') by nia. assert (rd - p' < q'); [|lia]. clear E Ea Ep V N A1. nia.
Qed.
Lemma stR_bounds p q : stR p q -> 1 <= p <= rd /\ 1 <= q <= 2 * rd.
Proof. intros (((Hq & _) & Hp & Hqp) & Hr). lia. Qed.
Lemma rho_inj p1 q1 p2 q2 a1 a2 p' q' : stR p1 q1 -> stR p2 q2 -> rho BigI d rd p1 q1 = Ok (a1, p', q') -> rho BigI d rd p2 q2 = Ok (a2, p', q') ->
  p1 = p2 /\ q1 = q2.
Proof.
  intros R1 R2 E1 E2. pose proof R1 as (B1 & H1). pose proof R2 as (B2 & H2).
  destruct (stB_step p1 q1 B1) as (b1 & x1 & y1 & F1 & _ & R' & _ & Q1 & P1).
  destruct (stB_step p2 q2 B2) as (b2 & x2 & y2 & F2 & _ & _ & _ & Q2 & P2).
  rewrite E1 in F1. rewrite E2 in F2. inversion F1; subst b1 x1 y1. inversion F2; subst b2 x2 y2. clear F1 F2 E1 E2.
  destruct R' as (((Hq' & _) & _ & _) & _). assert (q1 = q2) by nia. subst q2. split; [|auto].
  destruct B1 as (_ & Hp1 & _). destruct B2 as (_ & Hp2 & _). assert (a1 = a2) by nia. subst a2. lia.
Qed.
Lemma is_reduced_R p q : stB p q -> is_reduced_pq BigI rd p q = Ok (rd <? p + q).
Proof.
  intros (_ & Hp & Hqp). unfold is_reduced_pq. bigi. destruct (Z.leb_spec p rd); [|lia]. cbn [bind]. destruct (rd <? p + q); [|reflexivity].
  destruct (Z.leb_spec (q - p) rd); [reflexivity|lia].
Qed.
Lemma X_gt1 p q : stB p q -> (1 < X p q)%R.
Proof.
  intros ((Hq & _) & Hp & Hqp). unfold X. apply IZR_lt in Hq. apply (Rmult_lt_reg_r (IZR q)); [auto|].
  replace ((IZR p + s) / IZR q * IZR q)%R with (IZR p + s)%R by (field; lra). pose proof s_lo.
  assert (IZR (q - p) <= IZR rd)%R by (apply IZR_le; auto). rewrite minus_IZR in H0. lra.
Qed.

(** *** the aperiodic part *)
Lemma aper_big fuel p q : (3 <= fuel)%nat -> stA p q -> next_pos p q ->
  exists a0 l pe qe, aper_loop BigI fuel true d rd p q = Ok (a0 :: l, pe, qe) /\ stR pe qe /\ List.Forall (fun v => 1 <= v) l /\
    (length l <= 1)%nat /\ a0 = (rd + p) / q /\ X p q = (IZR a0 + tailv l (/ X pe qe))%R.
Proof.
  intros Hf A N. destruct fuel as [|[|[|fuel]]]; try lia.
  destruct (rho_big p q A N) as (a0 & p1 & q1 & E0 & Ea & _ & _ & B1 & _ & V0).
  cbn [aper_loop]. cbn [bind]. rewrite E0. cbn [bind]. rewrite (is_reduced_R _ _ B1). cbn [bind].
  destruct (Z.ltb_spec rd (p1 + q1)) as [Hr|Hr].
  - exists a0, nil, p1, q1. cbn [bind]. split; [reflexivity|]. split; [split; auto|]. split; [constructor|]. split; [cbn; lia|]. split; [auto|]. exact V0.
  - destruct (stB_step p1 q1 B1) as (a1 & p2 & q2 & E1 & Ha1 & R2 & V1 & _). rewrite E1. cbn [bind].
    pose proof R2 as [B2 Hr2]. rewrite (is_reduced_R _ _ B2). cbn [bind]. destruct (Z.ltb_spec rd (p2 + q2)); [|lia]. cbn [bind].
    exists a0, [a1], p2, q2. split; [reflexivity|]. split; [auto|]. split; [repeat constructor; auto|]. split; [cbn; lia|]. split; [auto|].
    rewrite V0, V1. reflexivity.
Qed.

(** *** the period *)
Lemma per_ok fuel : forall ip iq p q l, stR p q -> per_loop BigI fuel d rd ip iq p q = Ok l ->
  l <> nil /\ List.Forall (fun v => 1 <= v) l /\ (/ X p q = tailv l (/ X ip iq))%R.
Proof.
  induction fuel as [|fuel IH]; intros ip iq p q l R H; [discriminate|]. cbn [per_loop] in H.
  destruct (stB_step p q (proj1 R)) as (a & p' & q' & E & Ha & R' & V & _). rewrite E in H. cbn [bind] in H.
  destruct ((p' =? ip) && (q' =? iq)) eqn:B.
  - apply andb_prop in B. destruct B as [B1 B2]. apply Z.eqb_eq in B1, B2. subst p' q'. inversion H; subst.
    split; [discriminate|]. split; [repeat constructor; auto|]. rewrite V. reflexivity.
  - destruct (per_loop BigI fuel d rd ip iq p' q') as [l'| |] eqn:E1; [|discriminate|discriminate]. cbn [bind] in H. inversion H; subst.
    destruct (IH _ _ _ _ _ R' E1) as (_ & F & V'). split; [discriminate|]. split; [constructor; auto|]. cbn [tailv]. rewrite V, V'. reflexivity.
Qed.

(** iterating rho *)
Definition nxt (s : Z * Z) : Z * Z := match rho BigI d rd (fst s) (snd s) with Ok (_, p', q') => (p', q') | _ => s end.
Fixpoint iter (n : nat) (s : Z * Z) : Z * Z := match n with O => s | S n => nxt (iter n s) end.
Definition inR (s : Z * Z) := stR (fst s) (snd s).
Lemma nxt_R x : inR x -> inR (nxt x).
Proof.
  intros R. unfold nxt. destruct (stB_step _ _ (proj1 R)) as (a & p' & q' & E & _ & R' & _). rewrite E. exact R'.
Qed.
Lemma nxt_inj x y : inR x -> inR y -> nxt x = nxt y -> x = y.
Proof.
  intros R1 R2 H. unfold nxt in H. destruct (stB_step _ _ (proj1 R1)) as (a & p' & q' & E & _). destruct (stB_step _ _ (proj1 R2)) as (b & p2 & q2 & E2 & _).
  rewrite E, E2 in H. inversion H; subst. destruct (rho_inj _ _ _ _ _ _ _ _ R1 R2 E E2) as [H1 H2]. destruct x, y. cbn in *. congruence.
Qed.
Lemma iter_R n x : inR x -> inR (iter n x).
Proof. intros H. induction n; [auto|]. cbn [iter]. apply nxt_R. auto. Qed.
Lemma iter_comm n x : iter n (nxt x) = nxt (iter n x).
Proof. induction n as [|n IH]; [reflexivity|]. cbn [iter]. rewrite IH. reflexivity. Qed.
Lemma iter_back i : forall j x, inR x -> iter i x = iter (i + j) x -> x = iter j x.
Proof.
  induction i as [|i IH]; intros j x R H; [auto|]. cbn [iter Nat.add] in H. apply nxt_inj in H; [|apply iter_R; auto|apply iter_R; auto]. apply IH; auto.
Qed.
Definition allR : list (Z * Z) := list_prod (map Z.of_nat (seq 1 (Z.to_nat rd))) (map Z.of_nat (seq 1 (Z.to_nat (2 * rd)))).
Lemma inR_all x : inR x -> In x allR.
Proof.
  intros R. destruct x as [p q]. destruct (stR_bounds _ _ R) as [Hp Hq]. cbn [fst snd] in *. apply in_prod.
  - apply in_map_iff. exists (Z.to_nat p). split; [lia|]. apply in_seq. lia.
  - apply in_map_iff. exists (Z.to_nat q). split; [lia|]. apply in_seq. lia.
Qed.
Lemma allR_length : length allR = (Z.to_nat rd * Z.to_nat (2 * rd))%nat.
Proof. unfold allR. rewrite prod_length, !map_length, !seq_length. reflexivity. Qed.

Lemma NoDup_map_seq {A} (f : nat -> A) n : (forall i j, (i < j < n)%nat -> f i <> f j) -> NoDup (map f (seq 0 n)).
Proof.
  induction n as [|n IH]; intros H; [constructor|]. rewrite seq_S, map_app. cbn [map Nat.add].
  apply NoDup_rev in IH; [|intros; apply H; lia]. rewrite <- (rev_involutive (map f (seq 0 n) ++ [f n])). apply NoDup_rev.
  rewrite rev_app_distr. cbn [List.rev app]. constructor; [|auto]. rewrite <- in_rev. intros Hi. apply in_map_iff in Hi.
  destruct Hi as (i & Ei & Hi). apply in_seq in Hi. apply (H i n); [lia|auto].
Qed.
Lemma bounded_dec (P : nat -> Prop) (D : forall k, {P k} + {~ P k}) n : (exists k, (1 <= k <= n)%nat /\ P k) \/ forall k, (1 <= k <= n)%nat -> ~ P k.
Proof.
  induction n as [|n IH]; [right; intros; lia|]. destruct IH as [(k & Hk & Pk)|N]; [left; exists k; split; [lia|auto]|].
  destruct (D (S n)) as [Y|Y]; [left; exists (S n); split; [lia|auto]|]. right. intros k Hk. destruct (Nat.eq_dec k (S n)); [subst; auto|]. apply N. lia.
Qed.
Lemma pair_dec (x y : Z * Z) : {x = y} + {x <> y}.
Proof. decide equality; apply Z.eq_dec. Qed.
Lemma cycle x : inR x -> exists k, (1 <= k <= length allR)%nat /\ iter k x = x.
Proof.
  intros R. destruct (bounded_dec (fun k => iter k x = x) (fun k => pair_dec (iter k x) x) (length allR)) as [Y|N]; [auto|exfalso].
  assert (ND : NoDup (map (fun i => iter i x) (seq 0 (S (length allR))))).
  { apply NoDup_map_seq. intros i j Hij E. replace j with (i + (j - i))%nat in E by lia. apply iter_back in E; [|auto].
    apply (N (j - i)%nat); [lia|auto]. }
  apply (NoDup_incl_length (l' := allR)) in ND.
  - rewrite map_length, seq_length in ND. lia.
  - intros y Hy. apply in_map_iff in Hy. destruct Hy as (i & <- & _). apply inR_all. apply iter_R. auto.
Qed.
Lemma per_total_aux k : forall fuel x i, inR x -> iter (S k) x = i -> (S k <= fuel)%nat ->
  returns (per_loop BigI fuel d rd (fst i) (snd i) (fst x) (snd x)).
Proof.
  induction k as [|k IH]; intros fuel x i R E Hf; (destruct fuel as [|fuel]; [lia|]); cbn [per_loop];
    destruct (stB_step _ _ (proj1 R)) as (a & p' & q' & Er & _ & R' & _); rewrite Er; cbn [bind].
  - cbn [iter] in E. unfold nxt in E. rewrite Er in E. subst i. cbn [fst snd]. rewrite !Z.eqb_refl. cbn [andb]. eexists; reflexivity.
  - destruct ((p' =? fst i) && (q' =? snd i)); [eexists; reflexivity|].
    assert (En : nxt x = (p', q')) by (unfold nxt; rewrite Er; reflexivity).
    assert (E2 : iter (S k) (p', q') = i) by (rewrite <- En, iter_comm; exact E).
    destruct (IH fuel (p', q') i R' E2 ltac:(lia)) as [l El]. cbn [fst snd] in El. rewrite El. eexists; reflexivity.
Qed.
Lemma per_total fuel p q : stR p q -> (length allR <= fuel)%nat -> returns (per_loop BigI fuel d rd p q p q).
Proof.
  intros R Hf. destruct (cycle (p, q) R) as (k & Hk & E). destruct k as [|k]; [lia|].
  apply (per_total_aux k fuel (p, q) (p, q) R E). lia.
Qed.
End Rho.

(** A positive number that reproduces itself through the period is its value *)
Lemma tailv_root l w : l <> nil -> List.Forall (fun v => 1 <= v) l -> (0 < w)%R -> w = tailv l w -> w = (/ lim (pseq l))%R.
Proof.
  intros N F W E. destruct (pseq_root l N F) as [L1 E2]. set (w2 := (/ lim (pseq l))%R) in *.
  assert (W2 : (0 < w2)%R) by (apply Rinv_0_lt_compat; lra). clearbody w2. clear L1.
  pose proof (mfold_spec l F) as M. destruct (mfold l) as [[[a b] c] d]. destruct M as (Ha & Hb & Hc & Hd & _ & _ & Hn & _ & Hw).
  destruct (Hn N) as (_ & _ & _ & _ & Hb1 & Hc1). destruct (Hw w W) as [V1 _]. destruct (Hw w2 W2) as [V2 _].
  rewrite V1 in E. rewrite V2 in E2. apply IZR_le in Ha, Hb1, Hc1, Hd.
  assert (D1 : (0 < IZR c * w + IZR d)%R) by (assert (0 <= IZR c * w)%R by (apply Rmult_le_pos; lra); lra).
  assert (D2 : (0 < IZR c * w2 + IZR d)%R) by (assert (0 <= IZR c * w2)%R by (apply Rmult_le_pos; lra); lra).
  assert (E1' : (w * (IZR c * w + IZR d) = IZR a * w + IZR b)%R) by (rewrite E at 1; field; lra).
  assert (E2' : (w2 * (IZR c * w2 + IZR d) = IZR a * w2 + IZR b)%R) by (rewrite E2 at 1; field; lra).
  assert (K : ((w - w2) * (IZR c * (w * w2) + IZR b) = 0)%R).
  { (* w2 * E1' - w * E2' *)
    assert (T : (w2 * (w * (IZR c * w + IZR d)) - w * (w2 * (IZR c * w2 + IZR d)) = w2 * (IZR a * w + IZR b) - w * (IZR a * w2 + IZR b))%R) by (rewrite E1', E2'; reflexivity).
    ring_simplify in T. ring_simplify. lra. }
  apply Rmult_integral in K. destruct K as [K|K]; [lra|]. exfalso.
  assert (0 <= IZR c * (w * w2))%R by (apply Rmult_le_pos; [lra|apply Rmult_le_pos; lra]). lra.
Qed.

(** ** The conversion *)
Definition qs_state (a b c r d p q : Z) : Prop :=
  ((c | r * b * b - a * a) /\ d = r * b * b /\ p = a /\ q = c) \/
  (~ (c | r * b * b - a * a) /\ d = r * b * b * c * c /\ p = a * c /\ q = c * c).

Lemma rem_div x c : 0 < c -> Z.rem x c = 0 <-> (c | x).
Proof.
  intros Hc. split.
  - intros H. exists (Z.quot x c). pose proof (Z.quot_rem' x c). lia.
  - intros [k ->]. apply Z.rem_mul. lia.
Qed.

Ltac ck H := match type of H with
  | bind (chk _ _) _ = Ok _ => apply chkop_ok in H; destruct H as [H _]
  | bind (lift2 _ _ _) _ = Ok _ => unfold lift2 in H
  end.

Lemma liftB {A} t (op : ity -> Z -> Z -> res Z) (f : Z -> Z -> Z) x y (k : Z -> res A) v :
  (forall x y w, op t x y = Ok w -> w = f x y) -> bind (lift2 (op t) (Ok x) (Ok y)) k = Ok v -> k (f x y) = Ok v.
Proof.
  intros H E. unfold lift2 in E. cbn [bind] in E. destruct (op t x y) as [w| |] eqn:E1; [|discriminate|discriminate]. apply H in E1. subst w. exact E.
Qed.
Lemma op_mul t x y w : mulT t x y = Ok w -> w = x * y. Proof. unfold mulT. intros H. apply chk_fits in H. tauto. Qed.
Lemma op_add t x y w : addT t x y = Ok w -> w = x + y. Proof. unfold addT. intros H. apply chk_fits in H. tauto. Qed.
Lemma op_sub t x y w : subT t x y = Ok w -> w = x - y. Proof. unfold subT. intros H. apply chk_fits in H. tauto. Qed.
Lemma op_rem t x y w : remT t x y = Ok w -> w = Z.rem x y.
Proof.
  unfold remT. destruct (y =? 0); [discriminate|]. destruct (chk t (Z.quot x y)); [|discriminate|discriminate]. cbn. congruence.
Qed.
Lemma liftOk t (op : ity -> Z -> Z -> res Z) (f : Z -> Z -> Z) m n v : (forall x y w, op t x y = Ok w -> w = f x y) ->
  lift2 (op t) m n = Ok v -> exists x y, m = Ok x /\ n = Ok y /\ v = f x y.
Proof.
  intros H E. unfold lift2 in E. destruct m as [x| |]; [|discriminate|discriminate]. destruct n as [y| |]; [|discriminate|discriminate].
  cbn [bind] in E. apply H in E. eauto.
Qed.
Ltac lifts E :=
  match type of E with
  | lift2 (mulT ?t) _ _ = Ok _ => apply (liftOk t mulT Z.mul) in E; [|apply op_mul]
  | lift2 (addT ?t) _ _ = Ok _ => apply (liftOk t addT Z.add) in E; [|apply op_add]
  | lift2 (subT ?t) _ _ = Ok _ => apply (liftOk t subT Z.sub) in E; [|apply op_sub]
  | lift2 (remT ?t) _ _ = Ok _ => apply (liftOk t remT Z.rem) in E; [|apply op_rem]
  end;
  let x := fresh "x" in let y := fresh "y" in let E1 := fresh "L" in let E2 := fresh "L" in
  destruct E as (x & y & E1 & E2 & E); try lifts E1; try lifts E2;
  repeat match goal with L : Ok ?u = Ok ?v |- _ => injection L as L; subst v end; try subst x; try subst y.

Lemma qs_peel g t fuel a b c r neg y : 0 < b -> 0 < c -> quadsurd_to_contfrac g t fuel a b c r neg = Ok y ->
  exists d p q al pe qe pl, qs_state a b c r d p q /\ aper_loop t fuel true d (Z.sqrt d) p q = Ok (al, pe, qe) /\
    per_loop t fuel d (Z.sqrt d) pe qe pe qe = Ok pl /\ cf_new g t al pl neg = Ok y.
Proof.
  intros Hb Hc H. unfold quadsurd_to_contfrac in H.
  destruct (dassert g _) as [[]| |]; [|discriminate|discriminate]. cbn [bind] in H.
  match type of H with bind ?m _ = _ => destruct m as [[]| |]; [|discriminate|discriminate] end. cbn [bind] in H.
  match type of H with bind ?m _ = _ => destruct m as [d0| |] eqn:Ed; [|discriminate|discriminate] end. cbn [bind] in H. lifts Ed. try subst d0. try subst d1.
  destruct (Z.ltb_spec b 0); [lia|]. cbn [bind] in H.
  match type of H with bind ?m _ = _ => destruct m as [m0| |] eqn:Em; [|discriminate|discriminate] end. cbn [bind] in H. lifts Em. subst m0.
  match type of H with bind ?m _ = _ => destruct m as [[[d p] q]| |] eqn:Es; [|discriminate|discriminate] end. cbn [bind] in H.
  assert (St : qs_state a b c r d p q).
  { destruct (Z.eqb_spec (Z.rem (r * b * b - a * a) c) 0) as [E|E]; cbn [negb] in Es.
    - left. inversion Es; subst. split; [apply rem_div; auto|auto].
    - right. split; [rewrite <- rem_div by auto; auto|].
      match type of Es with bind ?m _ = _ => destruct m as [d1| |] eqn:Ed; [|discriminate|discriminate] end. cbn [bind] in Es. lifts Ed. try subst d0. try subst d1.
      match type of Es with bind ?m _ = _ => destruct m as [p1| |] eqn:Ep; [|discriminate|discriminate] end. cbn [bind] in Es. lifts Ep. subst p1.
      match type of Es with bind ?m _ = _ => destruct m as [q1| |] eqn:Eq; [|discriminate|discriminate] end. cbn [bind] in Es. lifts Eq. subst q1.
      inversion Es; subst. auto. }
  unfold sqrtT in H. destruct (d <? 0); [discriminate|]. cbn [bind] in H.
  destruct (aper_loop t fuel true d (Z.sqrt d) p q) as [[[al pe] qe]| |] eqn:E1; [|discriminate|discriminate]. cbn [bind] in H.
  destruct (per_loop t fuel d (Z.sqrt d) pe qe pe qe) as [pl| |] eqn:E2; [|discriminate|discriminate]. cbn [bind] in H.
  exists d, p, q, al, pe, qe, pl. auto.
Qed.

Section Conv.
Context (a b c r : Z) (Hb : 0 < b) (Hc : 0 < c) (Hr : 0 <= r) (Hs : ~ square r).
Let y : R := ((IZR a + IZR b * sqrt (IZR r)) / IZR c)%R.
Let yc : R := ((IZR a - IZR b * sqrt (IZR r)) / IZR c)%R.
Context (n : Z) (Hn : isfloor y n) (Hconj : (yc < IZR n)%R).
Context (d p q : Z) (St : qs_state a b c r d p q).

Lemma qs_bounds : Z.sqrt d * Z.sqrt d < d /\ d < (Z.sqrt d + 1) * (Z.sqrt d + 1) /\ 0 <= Z.sqrt d.
Proof.
  assert (H : exists k, k <> 0 /\ d = k * k * r).
  { destruct St as [(_ & -> & _)|(_ & -> & _)]; [exists b|exists (b * c)]; (split; [nia|ring]). }
  destruct H as (k & Hk & ->). assert (0 <= k * k * r) by nia. destruct (Z.sqrt_spec (k * k * r)) as [L U]; [auto|].
  split; [|split; [lia|apply Z.sqrt_nonneg]].
  assert (Z.sqrt (k * k * r) * Z.sqrt (k * k * r) <> k * k * r); [|lia]. intros E. apply sqrt_square_iff in E; [|auto].
  apply Hs. apply (square_div k); auto.
Qed.
Lemma qs_A : stA d p q.
Proof.
  destruct St as [(D & -> & -> & ->)|(D & -> & -> & ->)]; split; auto; [nia|].
  exists (r * b * b - a * a). ring.
Qed.
Lemma qs_sqrt : (exists k : Z, 0 < IZR k /\ sqrt (IZR d) = IZR k * (IZR b * sqrt (IZR r)) /\ IZR p = IZR k * IZR a /\ IZR q = IZR k * IZR c)%R.
Proof.
  assert (0 < IZR b)%R by (apply IZR_lt; auto). assert (0 < IZR c)%R by (apply IZR_lt; auto). apply IZR_le in Hr.
  destruct St as [(_ & -> & -> & ->)|(_ & -> & -> & ->)].
  - exists 1. split; [lra|]. split; [|split; ring]. rewrite Rmult_1_l.
    replace (r * b * b) with (b * b * r) by ring. rewrite !mult_IZR.
    rewrite sqrt_mult_alt by nra. rewrite sqrt_square by lra. reflexivity.
  - exists c. split; [lra|]. split; [|rewrite !mult_IZR; split; ring].
    replace (r * b * b * c * c) with ((b * c) * (b * c) * r) by ring. rewrite !mult_IZR.
    rewrite sqrt_mult_alt by (apply Rle_0_sqr). rewrite sqrt_square by (apply Rmult_le_pos; lra). ring.
Qed.
Lemma qs_X : X d p q = y.
Proof.
  destruct qs_sqrt as (k & Hk & E1 & E2 & E3). unfold X, y. rewrite E1, E2, E3. assert (0 < IZR c)%R by (apply IZR_lt; auto). field. split; lra.
Qed.
Lemma qs_next : next_pos (Z.sqrt d) p q /\ (Z.sqrt d + p) / q = n.
Proof.
  destruct qs_bounds as (B0 & B1 & B2). pose proof (s_lo d _ B0 B1 B2) as Sl. pose proof (s_hi d _ B0 B1 B2) as Sh.
  destruct qs_A as [Hq _]. pose proof qs_X as EX.
  set (rd := Z.sqrt d) in *. set (a0 := (rd + p) / q).
  assert (A1 : a0 * q <= rd + p) by (pose proof (Z.mul_div_le (rd + p) q Hq); unfold a0; lia).
  assert (A2 : rd + p + 1 <= a0 * q + q) by (pose proof (Z.mul_succ_div_gt (rd + p) q Hq); unfold a0; lia).
  assert (Qp : (0 < IZR q)%R) by (apply IZR_lt; auto).
  assert (XQ : (X d p q * IZR q = IZR p + sqrt (IZR d))%R) by (unfold X; field; lra).
  assert (En : a0 = n).
  { apply (isfloor_unique (X d p q)); [|rewrite EX; auto].
    apply IZR_le in A1, A2. rewrite mult_IZR, plus_IZR in A1. rewrite !plus_IZR, mult_IZR in A2. split.
    - apply (Rmult_le_reg_r (IZR q)); [auto|]. lra.
    - apply (Rmult_lt_reg_r (IZR q)); [auto|]. lra. }
  split; [|exact En]. unfold next_pos. fold a0. rewrite En.
  assert (p - n * q < rd + 1); [|lia]. apply lt_IZR. rewrite minus_IZR, plus_IZR, mult_IZR.
  destruct qs_sqrt as (k & Hk & E1 & E2 & E3).
  assert (Cp : (0 < IZR c)%R) by (apply IZR_lt; auto).
  assert (YC : (yc * IZR c = IZR a - IZR b * sqrt (IZR r))%R) by (unfold yc; field; lra).
  assert (H : (yc * IZR q < IZR n * IZR q)%R) by (apply Rmult_lt_compat_r; auto).
  assert (H2 : (yc * IZR q = IZR p - sqrt (IZR d))%R).
  { rewrite E1, E2, E3. transitivity (IZR k * (yc * IZR c))%R; [ring|]. rewrite YC. ring. }
  lra.
Qed.
End Conv.

Lemma aper_more t fuel : forall first d rd p q, rle (aper_loop t fuel first d rd p q) (aper_loop t (S fuel) first d rd p q).
Proof.
  induction fuel as [|fuel IH]; intros first d rd p q; [apply rle_hang|].
  cbn [aper_loop]. apply rle_bind; [apply rle_refl|]. intros stop. destruct stop; [apply rle_refl|].
  apply rle_bind; [apply rle_refl|]. intros [[a p'] q']. apply rle_bind; [apply IH|]. intros. apply rle_refl.
Qed.
Lemma aper_more_n t k fuel first d rd p q : rle (aper_loop t fuel first d rd p q) (aper_loop t (k + fuel) first d rd p q).
Proof. induction k as [|k IH]; [apply rle_refl|]. intros v H. apply aper_more. apply IH. exact H. Qed.

Section Main.
Context (g : cfg) (a b c r : Z) (Hb : 0 < b) (Hc : 0 < c) (Hr : 0 <= r) (Hs : ~ square r).
Let y : R := ((IZR a + IZR b * sqrt (IZR r)) / IZR c)%R.
Let yc : R := ((IZR a - IZR b * sqrt (IZR r)) / IZR c)%R.
Context (n : Z) (Hn : isfloor y n) (Hconj : (yc < IZR n)%R) (Hy : (0 <= y)%R).

Lemma floor_nonneg : 0 <= n.
Proof. destruct Hn as [_ H]. assert (-1 < n); [|lia]. apply lt_IZR. lra. Qed.

Lemma qs_core d p q : qs_state a b c r d p q -> exists l pe qe,
  (forall fuel, (3 <= fuel)%nat -> aper_loop BigI fuel true d (Z.sqrt d) p q = Ok (n :: l, pe, qe)) /\
  List.Forall (fun v => 1 <= v) l /\ (length l <= 1)%nat /\ stR d (Z.sqrt d) pe qe /\ y = (IZR n + tailv l (/ X d pe qe))%R /\
  Z.sqrt d * Z.sqrt d < d /\ d < (Z.sqrt d + 1) * (Z.sqrt d + 1) /\ 0 <= Z.sqrt d.
Proof.
  intros St. destruct (qs_bounds a b c r Hb Hc Hr Hs d p q St) as (B0 & B1 & B2).
  pose proof (qs_A a b c r Hc d p q St) as A. destruct (qs_next a b c r Hb Hc Hr Hs n Hn Hconj d p q St) as [N E].
  destruct (aper_big d _ B0 B1 B2 3 p q ltac:(lia) A N) as (a0 & l & pe & qe & E3 & R & F & Ln & Ea & V).
  exists l, pe, qe. rewrite <- E, <- Ea. split; [|split; [auto|split; [auto|split; [auto|split; [|auto]]]]].
  - intros fuel Hf. replace fuel with ((fuel - 3) + 3)%nat by lia. apply aper_more_n. exact E3.
  - rewrite <- V. symmetry. apply (qs_X a b c r Hb Hc Hr d p q St).
Qed.

Lemma qs_plain l pl : List.Forall (fun v => 1 <= v) l -> List.Forall (fun v => 1 <= v) pl -> plain_coeffs (n :: l) pl.
Proof.
  intros F Fp. pose proof floor_nonneg as N0. split; [auto|]. destruct l as [|a1 l]; [auto|]. inversion F as [|? ? F1 F2]; subst.
  split; [lia|]. split; [revert F2; apply Forall_impl; intros; lia|]. split; [|auto].
  rewrite Forall_forall in F. apply F. destruct (exists_last (l := a1 :: l) ltac:(discriminate)) as (l' & z & E). rewrite E, last_last. apply in_or_app. right. left. auto.
Qed.

Lemma quadsurd_ok t fuel neg z : fits t 1 = true -> quadsurd_to_contfrac g t fuel a b c r neg = Ok z ->
  canonical z /\ ~ finite z /\ cf_val z = (IZR (sgnb neg) * y)%R /\ (lena z <= 2)%nat.
Proof.
  intros F1 H. destruct (qs_peel g t fuel a b c r neg z Hb Hc H) as (d & p & q & al & pe & qe & pl & St & E1 & E2 & E3).
  destruct (qs_core d p q St) as (l & pe' & qe' & Ea & Fl & Ln & R & V & B0 & B1 & B2).
  pose proof (aper_fit _ _ _ _ _ _ _ _ _ _ E1) as Ga. pose proof (per_fit _ _ _ _ _ _ _ _ _ E2) as Gp.
  apply rle_aper_loop in E1. apply (aper_more_n BigI 3) in E1. rewrite Ea in E1 by lia. inversion E1; subst al pe' qe'. clear E1.
  apply rle_per_loop in E2. destruct (per_ok d _ B0 B1 B2 _ _ _ _ _ _ R E2) as (N & Fp & W).
  pose proof (X_gt1 d _ B0 B1 B2 _ _ (proj1 R)) as X1.
  apply tailv_root in W; [|auto|auto|apply Rinv_0_lt_compat; lra].
  destruct (cf_new_ok g t (n :: l) pl neg z F1 Ga Gp (qs_plain l pl Fl Fp) E3) as (C & P & Vz).
  split; [auto|]. split; [unfold finite; rewrite P; auto|]. rewrite Vz.
  pose proof floor_nonneg as N0. split; [|rewrite (cf_new_pos g t n l pl neg z N0 Fl Fp N Ga Gp E3); unfold lena; cbn; lia].
  rewrite (inf_value (CF (n :: l) pl neg) n l).
  - cbn [negative p_coeffs]. rewrite <- W, <- V. reflexivity.
  - unfold wfcf. cbn [a_coeffs p_coeffs]. auto.
  - unfold finite. cbn [p_coeffs]. auto.
  - reflexivity.
Qed.

Lemma quadsurd_total neg : exists fuel0, forall fuel, (fuel0 <= fuel)%nat -> returns (quadsurd_to_contfrac g BigI fuel a b c r neg).
Proof.
  pose (d := if Z.rem (r * b * b - a * a) c =? 0 then r * b * b else r * b * b * c * c).
  pose (p := if Z.rem (r * b * b - a * a) c =? 0 then a else a * c).
  pose (q := if Z.rem (r * b * b - a * a) c =? 0 then c else c * c).
  assert (St : qs_state a b c r d p q).
  { unfold d, p, q. destruct (Z.eqb_spec (Z.rem (r * b * b - a * a) c) 0) as [E|E].
    - left. split; [apply rem_div; auto|auto].
    - right. split; [rewrite <- rem_div by auto; auto|auto]. }
  destruct (qs_core d p q St) as (l & pe & qe & Ea & Fl & Ln & R & V & B0 & B1 & B2).
  exists (3 + length (allR (Z.sqrt d)))%nat. intros fuel Hf.
  assert (Hd : 0 <= d) by nia.
  destruct (per_total d _ B0 B1 B2 fuel pe qe R ltac:(lia)) as [pl Ep].
  destruct (per_ok d _ B0 B1 B2 _ _ _ _ _ _ R Ep) as (N & Fp & _).
  unfold quadsurd_to_contfrac. unfold dassert at 1. destruct (Z.eqb_spec c 0); [lia|]. destruct (Z.ltb_spec r 0); [lia|]. cbn [negb andb].
  rewrite andb_false_r. cbn [bind].
  assert (Hdbg : (if dbg g then let! s := sqrtT r in let! ss := lift2 (mulT BigI) (Ok s) (Ok s) in dassert g (negb (ss =? r)) else Ok tt) = Ok tt).
  { destruct (dbg g) eqn:G; [|reflexivity]. rewrite sqrtB by auto. bigi. unfold dassert. rewrite G.
    destruct (Z.eqb_spec (Z.sqrt r * Z.sqrt r) r) as [E|E]; [|reflexivity]. exfalso. apply Hs. apply sqrt_square_iff; auto. }
  rewrite Hdbg. cbn [bind]. bigi. destruct (Z.ltb_spec b 0); [lia|]. cbn [bind]. bigi.
  rewrite remB by lia. cbn [bind].
  assert (Es : (if negb (Z.rem (r * b * b - a * a) c =? 0)
     then let! d := lift2 (mulT BigI) (lift2 (mulT BigI) (Ok (r * b * b)) (Ok c)) (Ok c) in
          let! p := lift2 (mulT BigI) (Ok a) (Ok c) in let! q := lift2 (mulT BigI) (Ok c) (Ok c) in Ok (d, p, q)
     else Ok (r * b * b, a, c)) = Ok (d, p, q)).
  { unfold d, p, q. destruct (Z.rem (r * b * b - a * a) c =? 0); reflexivity. }
  bigi. change (Ok (d, p, q)) with (Ok (d, p, q)) in Es. autorewrite with bigi in Es. rewrite Es. cbn [bind].
  rewrite sqrtB by auto. cbn [bind]. rewrite Ea by lia. cbn [bind]. rewrite Ep. cbn [bind].
  apply cf_new_total. apply qs_plain; auto.
Qed.
End Main.

(** *** the public function *)
Lemma sval_irr g s x : normal g s -> sval s = RtoC x -> ~ rational_num (sval s) -> c1 (coeffs s) <> 0 /\ ~ square (discr s).
Proof.
  intros N E I. pose proof N as N'. destruct s as [[a b c] r]. unfold normal, parts in N'. cbn [coeffs c0 c1 c2 discr] in *.
  destruct N' as (Hc & _ & [[-> ->]|[Hb Hsq]] & _); [|auto]. exfalso. apply I. exists a, c. split; [lia|]. unfold sval, parts. cbn [coeffs c0 c1 c2 discr].
  rewrite csqrt_0. rewrite Cmult_0_r, Cplus_0_r. reflexivity.
Qed.
Definition rconj (s : surd) : R := ((IZR (c0 (coeffs s)) - IZR (c1 (coeffs s)) * sqrt (IZR (discr s))) / IZR (c2 (coeffs s)))%R.

Lemma sconj_rconj s : okc s -> 0 <= discr s -> sconj s = RtoC (rconj s).
Proof.
  intros Hc Hr. destruct s as [[a b c] r]. unfold sconj, rconj, parts, okc in *. cbn [coeffs c0 c1 c2 discr] in *. unfold ZtoC. rewrite csqrt_nonneg by auto.
  rewrite RtoC_div, RtoC_minus, RtoC_mult; auto.
Qed.

Section Public.
Context (g : cfg) (s : surd) (x xc : R) (N : normal g s) (E : sval s = RtoC x) (Ec : sconj s = RtoC xc)
  (I : ~ rational_num (sval s)) (Sp : conj_below x xc).

Lemma public_pre : exists a b c r n, s = Surd (SCo a b c) r /\ 0 < c /\ 0 <= r /\ ~ square r /\ x = ((IZR a + IZR b * sqrt (IZR r)) / IZR c)%R /\
  isfloor (Rabs x) n /\ x <> 0%R /\
  ((0 < x)%R -> 0 < b /\ (((IZR a - IZR b * sqrt (IZR r)) / IZR c) < IZR n)%R) /\
  ((x < 0)%R -> 0 < - b /\ (((IZR (- a) - IZR (- b) * sqrt (IZR r)) / IZR c) < IZR n)%R /\ (- x)%R = ((IZR (- a) + IZR (- b) * sqrt (IZR r)) / IZR c)%R).
Proof.
  destruct (normal_real g s x N E) as [Hr Ex]. pose proof (normal_okc g s N) as O. rewrite (sconj_rconj s O Hr) in Ec. apply RtoC_inj in Ec.
  destruct (sval_irr g s x N E I) as [Hb Hsq]. destruct Sp as (n & Hn & Hp & Hm).
  assert (X0 : x <> 0%R).
  { intros ->. apply I. exists 0, 1. split; [lia|]. rewrite E. unfold ZtoC. rewrite <- RtoC_div by lra. f_equal. field. }
  destruct s as [[a b c] r]. unfold normal, parts in N. unfold rs, rnum, rconj in *. cbn [coeffs c0 c1 c2 discr] in *. destruct N as (Hc & _).
  exists a, b, c, r, n. split; [auto|]. split; [auto|]. split; [auto|]. split; [auto|]. split; [auto|]. split; [auto|]. split; [auto|].
  assert (Cp : (0 < IZR c)%R) by (apply IZR_lt; auto).
  assert (Sq : (0 < sqrt (IZR r))%R).
  { apply sqrt_lt_R0. apply IZR_lt. destruct (Z.eq_dec r 0); [|lia]. exfalso. apply Hsq. exists 0. lia. }
  assert (D : (IZR b * sqrt (IZR r) * 2 = (x - xc) * IZR c)%R) by (rewrite Ex, <- Ec; field; lra).
  split.
  - intros Hx. specialize (Hp ltac:(lra)). rewrite Ec. split; [|auto]. destruct Hn as [Hn _]. rewrite Rabs_pos_eq in Hn by lra.
    assert (P : (0 < (x - xc) * IZR c)%R) by (apply Rmult_lt_0_compat; lra). apply lt_IZR.
    apply (Rmult_lt_reg_r (sqrt (IZR r))); [auto|]. lra.
  - intros Hx. specialize (Hm ltac:(lra)). rewrite !opp_IZR. destruct Hn as [Hn _]. rewrite Rabs_left in Hn by lra.
    assert (P : (0 < (xc - x) * IZR c)%R) by (apply Rmult_lt_0_compat; lra). split; [|split].
    + apply lt_IZR. rewrite opp_IZR. apply (Rmult_lt_reg_r (sqrt (IZR r))); [auto|]. lra.
    + replace ((- IZR a - - IZR b * sqrt (IZR r)) / IZR c)%R with (- xc)%R; [auto|]. rewrite <- Ec. field. lra.
    + rewrite Ex. field. lra.
Qed.

Lemma surd_to_cf_ok t fuel z : fits t 1 = true -> surd_to_cf g t fuel s = Ok (Some z) ->
  canonical z /\ ~ finite z /\ cf_val z = x /\ (lena z <= 2)%nat.
Proof.
  intros F1 H. destruct (normal_real g s x N E) as [Hr Ex].
  destruct public_pre as (a & b & c & r & n & Es & Hc & Hr' & Hsq & Ex' & Hn & X0 & Pp & Pm).
  unfold surd_to_cf in H. destruct (Z.ltb_spec (discr s) 0); [lia|].
  destruct (surd_is_negative g t s) as [ng| |] eqn:En; [|discriminate|discriminate]. cbn [bind] in H.
  apply (surd_is_negative_ok g t s ng N Hr) in En. rewrite <- Ex in En. rewrite Es in H. destruct ng.
  - assert (Xn : (x < 0)%R) by (apply En; auto). destruct (Pm Xn) as (Hb & Hcj & Ey).
    unfold lift1 in H. cbn [bind] in H. unfold negT in H. apply chkop_ok in H. destruct H as [H _]. apply chkop_ok in H. destruct H as [H _].
    destruct (quadsurd_to_contfrac g t fuel (- a) (- b) c r true) as [z'| |] eqn:Eq; [|discriminate|discriminate]. inversion H; subst z'.
    rewrite Rabs_left, Ey in Hn by lra.
    destruct (quadsurd_ok g (- a) (- b) c r Hb Hc Hr' Hsq n Hn Hcj ltac:(rewrite <- Ey; lra) t fuel true z F1 Eq) as (C1 & C2 & V & Ln).
    split; [auto|]. split; [auto|]. split; [|auto]. rewrite V, <- Ey. cbn [sgnb]. ring.
  - assert (Xn : (0 < x)%R). { destruct (Rtotal_order x 0) as [T|[T|T]]; [exfalso|congruence|auto]. apply En in T. discriminate. }
    destruct (Pp Xn) as (Hb & Hcj).
    destruct (quadsurd_to_contfrac g t fuel a b c r false) as [z'| |] eqn:Eq; [|discriminate|discriminate]. inversion H; subst z'.
    rewrite Rabs_pos_eq, Ex' in Hn by lra.
    destruct (quadsurd_ok g a b c r Hb Hc Hr' Hsq n Hn Hcj ltac:(rewrite <- Ex'; lra) t fuel false z F1 Eq) as (C1 & C2 & V & Ln).
    split; [auto|]. split; [auto|]. split; [|auto]. rewrite V, <- Ex'. cbn [sgnb]. ring.
Qed.

Lemma surd_to_cf_total : exists fuel0, forall fuel, (fuel0 <= fuel)%nat -> exists z, surd_to_cf g BigI fuel s = Ok (Some z).
Proof.
  destruct (normal_real g s x N E) as [Hr Ex].
  destruct public_pre as (a & b & c & r & n & Es & Hc & Hr' & Hsq & Ex' & Hn & X0 & Pp & Pm).
  destruct (surd_is_negative_big g s N Hr) as (ng & En & Ib). rewrite <- Ex in Ib. destruct ng.
  - assert (Xn : (x < 0)%R) by (apply Ib; auto). destruct (Pm Xn) as (Hb & Hcj & Ey). rewrite Rabs_left, Ey in Hn by lra.
    destruct (quadsurd_total g (- a) (- b) c r Hb Hc Hr' Hsq n Hn Hcj ltac:(rewrite <- Ey; lra) true) as [f0 T].
    exists f0. intros fuel Hf. unfold surd_to_cf. destruct (Z.ltb_spec (discr s) 0); [lia|]. rewrite En. cbn [bind]. rewrite Es. bigi.
    destruct (T fuel Hf) as [z Ez]. rewrite Ez. exists z. reflexivity.
  - assert (Xn : (0 < x)%R). { destruct (Rtotal_order x 0) as [T|[T|T]]; [exfalso|congruence|auto]. apply Ib in T. discriminate. }
    destruct (Pp Xn) as (Hb & Hcj). rewrite Rabs_pos_eq, Ex' in Hn by lra.
    destruct (quadsurd_total g a b c r Hb Hc Hr' Hsq n Hn Hcj ltac:(rewrite <- Ex'; lra) false) as [f0 T].
    exists f0. intros fuel Hf. unfold surd_to_cf. destruct (Z.ltb_spec (discr s) 0); [lia|]. rewrite En. cbn [bind]. rewrite Es. bigi.
    destruct (T fuel Hf) as [z Ez]. rewrite Ez. exists z. reflexivity.
Qed.
End Public.

Lemma surd_to_cf_none g t fuel s : surd_to_cf g t fuel s = Ok None <-> discr s < 0.
Proof.
  unfold surd_to_cf. destruct (Z.ltb_spec (discr s) 0) as [H|H]; [tauto|]. split; [|lia]. intros E. exfalso.
  destruct (surd_is_negative g t s) as [[]| |]; try discriminate; destruct s as [[a b c] r]; cbn [bind] in E.
  - destruct (lift1 (negT t) (Ok a)); [|discriminate|discriminate]. cbn [bind] in E. destruct (lift1 (negT t) (Ok b)); [|discriminate|discriminate]. cbn [bind] in E.
    destruct (quadsurd_to_contfrac _ _ _ _ _ _ _ _); discriminate.
  - destruct (quadsurd_to_contfrac _ _ _ _ _ _ _ _); discriminate.
Qed.
