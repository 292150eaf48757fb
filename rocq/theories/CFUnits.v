(** * CFUnits: the convergents of omega = sqrt n or (1 + sqrt n) / 2 at the ends of the periods are the units
    above 1 of the ring Z[omega], and all of these are powers of the first one (C98). *)

From Coq Require Import ZArith Znumtheory Reals Lia Lra Bool List Arith Wf_nat.
From Coquelicot Require Import Coquelicot.
From Verif Require Import Base Ext ModelSurd ModelBlock ModelCF ModelConv Spec SpecCF NumFacts Transfer SurdCore RatioFacts SurdArith
  SurdTotal SurdOrd SurdRound SurdMisc SurdSqrt CFCore CFSeq CFIter CFBasic CFSurd CFNew CFOfSurd CFRound CFArith CFShort CFBest CFGalois CFPell.
Import ListNotations.
Open Scope Z_scope.

(** Two enumerations of one set in increasing order are the same *)
Lemma enum_mono {A} (a : nat -> A) (m : A -> Z) : (forall k, m (a k) < m (a (S k))) -> forall i j, (i < j)%nat -> m (a i) < m (a j).
Proof. intros H i j Hj. induction j as [|j IH]; [lia|]. pose proof (H j). destruct (Nat.eq_dec i j) as [->|]; [lia|]. specialize (IH ltac:(lia)). lia. Qed.
Lemma enum_eq {A} (a b : nat -> A) (m : A -> Z) : (forall k, m (a k) < m (a (S k))) -> (forall k, m (b k) < m (b (S k))) ->
  (forall k, exists j, a k = b j) -> (forall k, exists j, b k = a j) -> forall k, a k = b k.
Proof.
  intros Ha Hb Iab Iba k. induction k as [k IH] using lt_wf_ind. destruct (Iab k) as [j Ej]. destruct (Iba k) as [i Ei].
  assert (J : (k <= j)%nat).
  { destruct (le_lt_dec k j) as [|L]; [auto|]. exfalso. rewrite <- (IH j L) in Ej. pose proof (enum_mono a m Ha j k L). rewrite Ej in H. lia. }
  assert (I : (k <= i)%nat).
  { destruct (le_lt_dec k i) as [|L]; [auto|]. exfalso. rewrite (IH i L) in Ei. pose proof (enum_mono b m Hb i k L). rewrite Ei in H. lia. }
  destruct (Nat.eq_dec i k) as [->|Ne]; [auto|]. exfalso. pose proof (enum_mono a m Ha k i ltac:(lia)) as K.
  rewrite <- Ei in K. rewrite Ej in K. destruct (Nat.eq_dec j k) as [->|Nj]; [lia|]. pose proof (enum_mono b m Hb k j ltac:(lia)). lia.
Qed.

Section Units.
Context (N T M : Z) (HT : T = 0 \/ T = 1) (HN : 0 < N) (Hsq : ~ square N) (HM : N = T + (1 + T) * (1 + T) * M).
Let v := sqrt (IZR N).
Let rd := Z.sqrt N.
Let Q0 := 1 + T.
Let w := X N T Q0.
Let wc := ((IZR T - v) / IZR Q0)%R.
Notation St := (iter N rd).

(** The norm of p - q * wc, and the product of two such numbers *)
Definition F (p q : Z) : Z := p * p - T * p * q - M * (q * q).
Definition mulu (a b : Z * Z) : Z * Z := (fst a * fst b + M * (snd a * snd b), fst a * snd b + fst b * snd a - T * (snd a * snd b)).
Definition solu (a : Z * Z) : Prop := 0 < fst a /\ 0 < snd a /\ Z.abs (F (fst a) (snd a)) = 1.
Definition valu (a : Z * Z) : R := (IZR (fst a) - IZR (snd a) * wc)%R.

Lemma Q0_cases : Q0 = 1 \/ Q0 = 2.
Proof. unfold Q0. lia. Qed.
Lemma M_pos : 1 <= M /\ M <> 2 \/ T = 0 /\ 2 <= M.
Proof.
  destruct (N_bounds N HN Hsq) as (_ & _ & _ & _ & N2). destruct HT as [E|E]; rewrite E in *; [right; lia|left].
  split; [lia|]. intros ->. apply Hsq. exists 3. lia.
Qed.
Lemma v_sq : (v * v = IZR N)%R.
Proof. apply sqrt_IZR_sq. lia. Qed.
Lemma v_gt1 : (1 < v)%R.
Proof. exact (CFPell.w_gt1 N HN Hsq). Qed.
Lemma w_eq : w = ((IZR T + v) / IZR Q0)%R.
Proof. reflexivity. Qed.
Lemma w_gt1 : (1 < w)%R.
Proof. rewrite w_eq. unfold Q0. pose proof v_gt1. destruct HT as [-> | ->]; cbn [Z.add Pos.add]; lra. Qed.
Lemma wc_sum : (w + wc = IZR T)%R.
Proof. rewrite w_eq. unfold wc, Q0. destruct HT as [-> | ->]; cbn [Z.add Pos.add]; field. Qed.
Lemma wc_sq : (wc * wc = IZR T * wc + IZR M)%R.
Proof.
  pose proof v_sq as V. rewrite HM, plus_IZR, !mult_IZR in V. unfold wc, Q0. destruct HT as [E|E]; rewrite E in *; cbn [Z.add Pos.add] in *; lra.
Qed.
Lemma wc_bounds : (wc < 0)%R /\ (- wc <= w)%R.
Proof. rewrite w_eq. unfold wc, Q0. pose proof v_gt1. destruct HT as [-> | ->]; cbn [Z.add Pos.add]; lra. Qed.
Lemma w_irr : ~ rational_real w.
Proof.
  intros (n & d & Hd & E). apply (CFPell.w_irr N HN Hsq). fold v. exists (Q0 * n - T * d), d. split; [auto|]. apply not_0_IZR in Hd.
  rewrite minus_IZR, !mult_IZR. assert (V : (v = IZR Q0 * w - IZR T)%R) by (rewrite w_eq; unfold Q0; destruct HT as [-> | ->]; cbn [Z.add Pos.add]; field).
  rewrite V, E. field. auto.
Qed.
Lemma w_dom : cf_domain w.
Proof.
  exists wc. split; [split; [exact w_irr|split]|].
  - exists T, 1. split; [lia|]. rewrite wc_sum. field.
  - exists (- M), 1. split; [lia|]. rewrite opp_IZR. pose proof wc_sq. pose proof wc_sum as S. replace w with (IZR T - wc)%R by lra. lra.
  - pose proof w_gt1 as W1. destruct (floor_exists w) as [k Hk]. exists k. rewrite Rabs_pos_eq by lra. split; [exact Hk|]. destruct wc_bounds as [B _].
    split; intros; [|lra]. destruct Hk as [K1 K2]. assert (0 < k) by (apply lt_IZR; lra). apply (IZR_lt 0) in H0. lra.
Qed.
Lemma w_B : inB N rd (T, Q0).
Proof.
  destruct (N_bounds N HN Hsq) as (_ & _ & ? & ? & _). unfold inB, stB, stA, rd, Q0. cbn [fst snd]. split; [split; [lia|]|lia].
  destruct HT as [E|E]; rewrite E in *; [exists N; ring|]. exists (2 * M). rewrite HM at 1. ring.
Qed.

Context (g : cfg) (t : ity) (fuel : nat) (s : surd) (z : cf) (F1 : fits t 1 = true) (Ns : normal g s) (Es : sval s = RtoC w) (H : surd_to_cf g t fuel s = Ok (Some z)).
Let L := length (p_coeffs z).
Let f := cseq z.

Lemma norm_conv k : Q0 * F (PP f (S k)) (QQ f (S k)) = alt (S k) * snd (St (S k) (T, Q0)).
Proof.
  destruct (N_bounds N HN Hsq) as (B0 & B1 & B2 & _). fold rd in B0, B1, B2. destruct (z_facts g t fuel s w z F1 Ns Es w_dom w_gt1 H) as (W & Fz & Ng & C & V). fold f in C, V.
  pose proof (tails N rd B0 B1 B2 f (T, Q0) (S k) C w_B ltac:(rewrite V; reflexivity)) as Tl.
  pose proof (iter_BR N rd B0 B1 B2 k _ w_B) as R. destruct (St (S k) (T, Q0)) as [p q]. cbn [fst snd] in *.
  assert (Hq : 0 < q) by apply R. pose proof (X_gt1 N rd B0 B1 B2 p q (proj1 R)) as X1.
  assert (E : w = ev f (S k) (X N p q)).
  { rewrite <- V at 1. rewrite (lim_ev f (S k) C). f_equal. rewrite <- Tl. apply lim_ext. intros n. rewrite CFCore.shiftn_at, CFShort.shiftn_at. reflexivity. }
  pose proof (ev_cpq f C (S k) (X N p q)) as Ev. rewrite cpq_SS in Ev. destruct Ev as [Dp Ev]; [lra|]. rewrite <- E in Ev.
  pose proof (PQ_det f k) as Det. set (P := PP f (S k)) in *. set (P' := PP f k) in *. set (Q := QQ f (S k)) in *. set (Q' := QQ f k) in *. clearbody P P' Q Q'.
  assert (Qp : (0 < IZR q)%R) by (apply IZR_lt; auto). rewrite w_eq in Ev. unfold X in Ev, Dp, X1. fold v in Ev, Dp, X1.
  assert (Q0p : (0 < IZR Q0)%R) by (apply IZR_lt; unfold Q0; lia).
  assert (Dp2 : (0 < IZR Q * (IZR p + v) + IZR Q' * IZR q)%R).
  { replace (IZR Q * (IZR p + v) + IZR Q' * IZR q)%R with ((IZR Q * ((IZR p + v) / IZR q) + IZR Q') * IZR q)%R by (field; lra). apply Rmult_lt_0_compat; lra. }
  assert (K : ((IZR T + v) * (IZR Q * (IZR p + v) + IZR Q' * IZR q) = IZR Q0 * (IZR P * (IZR p + v) + IZR P' * IZR q))%R).
  { apply (Rmult_eq_reg_r (/ IZR Q0 * / IZR q)); [|apply Rmult_integral_contrapositive; split; apply Rinv_neq_0_compat; lra].
    replace ((IZR T + v) * (IZR Q * (IZR p + v) + IZR Q' * IZR q) * (/ IZR Q0 * / IZR q))%R with ((IZR T + v) / IZR Q0 * (IZR Q * ((IZR p + v) / IZR q) + IZR Q'))%R by (field; lra).
    rewrite Ev at 1. field. split; [lra|]. split; lra. }
  assert (K2 : (IZR (Q * p + Q' * q + T * Q - Q0 * P) * v = IZR (Q0 * (P * p + P' * q) - T * (Q * p + Q' * q) - N * Q))%R).
  { rewrite !minus_IZR, !plus_IZR, !mult_IZR, <- v_sq, !plus_IZR, !mult_IZR. lra. }
  apply (lin_indep N HN Hsq) in K2. destruct K2 as [K3 K4]. rewrite <- Det.
  assert (Fe : Q0 * (Q0 * F P Q) = (Q0 * P - T * Q) * (Q0 * P - T * Q) - N * (Q * Q)).
  { unfold F, Q0. rewrite HM. destruct HT as [-> | ->]; ring. }
  assert (A : Q0 * P - T * Q = Q * p + Q' * q) by lia. assert (B : T * (Q * p + Q' * q) + N * Q = Q0 * (P * p + P' * q)) by lia.
  assert (Z0 : Q0 <> 0) by (unfold Q0; lia). apply (Z.mul_cancel_l _ _ Q0 Z0). rewrite Fe. clear - A B.
  transitivity (Q0 * P * (Q * p + Q' * q) - Q * (T * (Q * p + Q' * q) + N * Q)); [rewrite <- A; ring|]. rewrite B. ring.
Qed.

Lemma return_iff n : (1 <= n)%nat -> St (S n) (T, Q0) = St 1 (T, Q0) <-> snd (St n (T, Q0)) = Q0.
Proof.
  intros Hn. destruct (N_bounds N HN Hsq) as (B0 & B1 & B2 & B3 & _). fold rd in B0, B1, B2, B3. destruct n as [|n]; [lia|].
  pose proof (iter_BR N rd B0 B1 B2 n _ w_B) as R. cbn [iter]. set (st := nxt N rd (St n (T, Q0))) in *. change (St (S n) (T, Q0)) with st in R. clearbody st.
  destruct (nxt_spec N rd B0 B1 B2 st (proj1 R)) as (E1 & E2 & _ & _ & _ & Hq). destruct (nxt_spec N rd B0 B1 B2 _ w_B) as (D1 & D2 & Rn & _).
  assert (Sp : 0 < snd (nxt N rd (T, Q0))) by apply Rn.
  destruct st as [p q]. cbn [fst snd] in *. split; intros K.
  - rewrite K in E2. nia.
  - subst q. assert (Pm : exists m, p = T + Q0 * m).
    { destruct R as (((_ & Dv) & _) & _). cbn [fst snd] in Dv. unfold Q0 in *. destruct HT as [E|E]; rewrite E in *; [exists p; ring|].
      destruct Dv as [c Hc]. exists ((p - 1) / 2). assert (O : p mod 2 = 1); [|rewrite Z.mod_eq in O by lia; pose proof (Z.div_mod (p - 1) 2 ltac:(lia)); pose proof (Z.mod_pos_bound (p - 1) 2); assert ((p - 1) mod 2 = 0) by (rewrite Zminus_mod; rewrite <- Z.mod_eq in O by lia; rewrite O; reflexivity); lia].
      pose proof (Z.mod_pos_bound p 2 ltac:(lia)). pose proof (Z.div_mod p 2 ltac:(lia)). destruct (Z.eq_dec (p mod 2) 1); [auto|]. exfalso. assert (p = 2 * (p / 2)) by lia.
      set (h := p / 2) in *. clearbody h. assert (1 + 4 * M - 4 * (h * h) = 2 * c) by nia. lia. }
    destruct Pm as [m ->]. assert (Hq0 : 0 < Q0) by auto.
    assert (Co : coef rd (T + Q0 * m, Q0) = m + coef rd (T, Q0)).
    { unfold coef. cbn [fst snd]. replace (rd + (T + Q0 * m)) with (m * Q0 + (rd + T)) by ring. apply Z.div_add_l. lia. }
    assert (Ef : fst (nxt N rd (T + Q0 * m, Q0)) = fst (nxt N rd (T, Q0))) by (rewrite E1, D1, Co; ring).
    assert (Eg : snd (nxt N rd (T + Q0 * m, Q0)) = snd (nxt N rd (T, Q0))) by (rewrite Ef in E2; apply (Z.mul_cancel_l _ _ Q0); lia).
    destruct (nxt N rd (T + Q0 * m, Q0)), (nxt N rd (T, Q0)). cbn [fst snd] in *. congruence.
Qed.

Lemma L_pos : (1 <= L)%nat.
Proof. exact (z_L g t fuel s w z F1 Ns Es w_dom w_gt1 H). Qed.
Lemma returns_mult n : (1 <= n)%nat -> St (S n) (T, Q0) = St 1 (T, Q0) <-> exists k, (1 <= k)%nat /\ n = (k * L)%nat.
Proof.
  intros Hn. destruct (N_bounds N HN Hsq) as (B0 & B1 & B2 & B3 & _). fold rd in B0, B1, B2, B3. pose proof L_pos as HL.
  pose proof (z_back g t fuel s w z F1 Ns Es w_dom w_gt1 H N rd T Q0 B0 B1 B2 eq_refl w_B) as Bk. fold L in Bk.
  set (x1 := St 1 (T, Q0)) in *. assert (Ad : forall m, St (S m) (T, Q0) = St m x1) by (intros m; unfold x1; rewrite <- iter_add; f_equal; lia). rewrite Ad in Bk |- *.
  assert (Mu : forall k, St (k * L) x1 = x1) by (induction k as [|k IH]; [reflexivity|]; cbn [Nat.mul]; rewrite iter_add, IH; exact Bk).
  split.
  - intros E. pose proof (Nat.div_mod n L ltac:(lia)) as Dm. pose proof (Nat.mod_upper_bound n L ltac:(lia)) as Hm.
    assert (Er : St (n mod L) x1 = x1).
    { rewrite <- E at 2. rewrite Dm at 2. rewrite Nat.add_comm, iter_add, (Nat.mul_comm L), Mu. reflexivity. }
    assert (Z0 : (n mod L = 0)%nat).
    { destruct (Nat.eq_dec (n mod L) 0) as [K|K]; [auto|]. exfalso. destruct (z_return g t fuel s w z F1 Ns Es w_dom w_gt1 H N rd T Q0 B0 B1 B2 eq_refl w_B (n mod L)) as [_ K2]; [lia| |fold L in K2; lia].
      rewrite Ad. exact Er. }
    exists (n / L)%nat. split; [|lia]. destruct (n / L)%nat eqn:En; [|lia]. cbn in *. lia.
  - intros (k & _ & ->). apply Mu.
Qed.

Lemma item n : nth_item (conv_next BigU) n (cf_convergents z) = Ok (Some (Ratio (PP f (S n)) (QQ f (S n)))).
Proof.
  destruct (z_facts g t fuel s w z F1 Ns Es w_dom w_gt1 H) as (W & Fz & Ng & C & V).
  rewrite (conv_nth BigU z n W (fun j _ => big_fit z j W)), (conv_item_eq z n (inf_has z n Fz)), Ng. cbn [sgnb]. rewrite Z.mul_1_l. reflexivity.
Qed.
Lemma a0_coef : f 0%nat = coef rd (T, Q0).
Proof.
  destruct (N_bounds N HN Hsq) as (B0 & B1 & B2 & B3 & _). fold rd in B0, B1, B2, B3. unfold f.
  rewrite (z_coef g t fuel s w z F1 Ns Es w_dom w_gt1 H N rd T Q0 B0 B1 B2 eq_refl w_B 0). reflexivity.
Qed.

Lemma sol_ge p q : solu (p, q) -> q <= p.
Proof.
  intros (P & Q & E). cbn [fst snd] in *. destruct (Z_le_gt_dec q p) as [|Lt]; [auto|exfalso]. unfold F in E.
  pose proof M_pos as MP. destruct (N_bounds N HN Hsq) as (_ & _ & _ & _ & N2). pose proof HM as HM'. destruct HT as [T0|T0]; rewrite T0 in E, MP, HM'.
  - assert (2 <= M) by lia. assert (p * p - 0 * p * q - M * (q * q) <= -2) by nia. lia.
  - assert (1 <= M) by lia. assert (p * p - 1 * p * q - M * (q * q) <= -2) by nia. lia.
Qed.

(** units are convergents *)
Lemma solution_item p q : solu (p, q) -> exists n, nth_item (conv_next BigU) n (cf_convergents z) = Ok (Some (Ratio p q)).
Proof.
  intros S. pose proof S as (Hx & Hy & E). cbn [fst snd] in *. pose proof (sol_ge p q S) as Ge.
  destruct (z_facts g t fuel s w z F1 Ns Es w_dom w_gt1 H) as (W & Fz & Ng & C & V).
  assert (Sp : N = 5 /\ T = 1 /\ p = 1 /\ q = 1 \/ (2 * IZR q < IZR p - IZR q * wc)%R).
  { assert (Yp : (0 < IZR q)%R) by (apply IZR_lt; auto). pose proof v_gt1 as V1. pose proof v_sq as V2. pose proof Ge as GeR. apply IZR_le in GeR.
    pose proof M_pos as MP. destruct HT as [T0|T0].
    - right. unfold wc, Q0. rewrite T0. replace (1 + 0) with 1 by reflexivity. replace (IZR p - IZR q * ((0 - v) / 1))%R with (IZR p + IZR q * v)%R by field. clear - GeR V1 Yp. nra.
    - assert (Wc : wc = ((1 - v) / 2)%R) by (unfold wc, Q0; rewrite T0; reflexivity). assert (N4 : N = 1 + 4 * M) by (rewrite HM, T0; ring).
      destruct (Z.eq_dec M 1) as [M1|M1].
      + assert (N5 : N = 5) by lia. destruct (Z.eq_dec q 1) as [Q1|Q1].
        * destruct (Z.eq_dec p 1) as [P1|P1]; [left; auto|right]. assert (P2 : 2 <= p) by lia. apply IZR_le in P2. rewrite Q1, Wc. lra.
        * right. assert (K : 7 * q <= 5 * p).
          { unfold F in E. rewrite T0, M1 in E. destruct (Z_le_gt_dec (7 * q) (5 * p)) as [|Lt]; [auto|exfalso].
            assert (25 * (p * p - 1 * p * q - 1 * (q * q)) <= -11 * (q * q)) by nia. nia. }
          apply IZR_le in K. rewrite !mult_IZR in K. rewrite N5 in V2. rewrite Wc. assert (11 / 5 < v)%R by nra. nra.
      + right. assert (M3 : 3 <= M) by lia. assert (N13 : 13 <= N) by lia. apply IZR_le in N13. rewrite Wc. assert (3 < v)%R by nra. nra. }
  destruct Sp as [(N5 & T1 & P1 & Q1)|Sp].
  { exists 0%nat. rewrite item. rewrite PP_1, QQ_1, a0_coef, P1, Q1. unfold coef, rd, Q0. cbn [fst snd]. rewrite N5, T1. reflexivity. }
  apply (legendre z (Ratio p q) W).
  - unfold lowest. cbn [numer denom]. split; [lia|].
    pose proof (Z.gcd_nonneg p q) as G0. destruct (Z.gcd_divide_l p q) as [a Ha]. destruct (Z.gcd_divide_r p q) as [b Hb]. set (e := Z.gcd p q) in *.
    assert (Dv : (e | F p q)). { exists (a * p - T * a * q - M * (b * q)). unfold F. rewrite Ha at 1 3. rewrite Hb at 2. ring. }
    assert (D1 : (e | 1)). { rewrite <- E. apply Z.divide_abs_r. exact Dv. }
    apply Z.divide_1_r in D1. lia.
  - cbn [denom]. rewrite (cf_val_inf z Fz), Ng, V. cbn [sgnb]. rewrite Rmult_1_l. unfold rval. cbn [numer denom].
    assert (Yp : (0 < IZR q)%R) by (apply IZR_lt; auto).
    assert (Ab : (Rabs (IZR (F p q)) = 1)%R) by (rewrite <- abs_IZR, E; reflexivity).
    assert (Fe : IZR (F p q) = (- ((w - IZR p / IZR q) * (IZR q * (IZR p - IZR q * wc))))%R).
    { unfold F. rewrite !minus_IZR, !mult_IZR. pose proof wc_sq as Sq. pose proof wc_sum as Sm. replace w with (IZR T - wc)%R by lra.
      replace (IZR M) with (wc * wc - IZR T * wc)%R by lra. field. lra. }
    rewrite Fe in Ab. rewrite Rabs_Ropp, Rabs_mult in Ab. set (K := (IZR q * (IZR p - IZR q * wc))%R) in *.
    assert (P : (2 * IZR q * IZR q < K)%R) by (unfold K; clear - Sp Yp; nra). assert (P0 : (0 < 2 * IZR q * IZR q)%R) by (clear - Yp; nra). clearbody K.
    rewrite (Rabs_pos_eq K) in Ab by lra.
    replace (Rabs (w - IZR p / IZR q)) with (/ K)%R; [apply Rinv_lt_contravar; [apply Rmult_lt_0_compat; lra|auto]|].
    apply (Rmult_eq_reg_r K); [|lra]. rewrite Ab. field. lra.
Qed.

(** The convergent at the end of period number k + 1 *)
Definition ends (k : nat) : Z * Z := (PP f (S k * L), QQ f (S k * L)).
Lemma ends_item k : nth_item (conv_next BigU) (S k * L - 1) (cf_convergents z) = Ok (Some (Ratio (fst (ends k)) (snd (ends k)))).
Proof. pose proof L_pos. rewrite item. unfold ends. cbn [fst snd]. replace (S (S k * L - 1)) with (S k * L)%nat by nia. reflexivity. Qed.
Lemma item_pos n : 1 <= PP f (S n) /\ 1 <= QQ f (S n).
Proof.
  destruct (z_facts g t fuel s w z F1 Ns Es w_dom w_gt1 H) as (W & Fz & Ng & C & V). split; [|apply QQ_mono; exact C].
  destruct (N_bounds N HN Hsq) as (B0 & B1 & B2 & B3 & _). fold rd in B0, B1, B2, B3.
  assert (F0 : 1 <= f 0%nat). { rewrite a0_coef. apply (nxt_spec N rd B0 B1 B2 _ w_B). }
  assert (K : 1 <= PP f n /\ 1 <= PP f (S n)); [|tauto]. induction n as [|n IH]; [rewrite PP_0, PP_1; lia|]. split; [tauto|]. rewrite PP_SS. pose proof (proj2 C n). unfold f in *. nia.
Qed.
Lemma item_grow n : PP f (S n) < PP f (S (S n)).
Proof.
  destruct (z_facts g t fuel s w z F1 Ns Es w_dom w_gt1 H) as (W & Fz & Ng & C & V). fold f in C. rewrite (PP_SS f n). pose proof (proj2 C n).
  pose proof (item_pos n). assert (1 <= PP f n) by (destruct n; [rewrite PP_0; lia|apply item_pos]). nia.
Qed.
Lemma ends_grow k : fst (ends k) < fst (ends (S k)).
Proof.
  unfold ends. cbn [fst]. pose proof L_pos as HL. assert (K : exists i j, (S k * L = S i /\ S (S k) * L = S j /\ i < j)%nat) by (exists (S k * L - 1)%nat, (S (S k) * L - 1)%nat; nia).
  destruct K as (i & j & -> & -> & Lt). apply (enum_mono (fun n => PP f (S n)) (fun x => x)); [intros n; apply item_grow|exact Lt].
Qed.
Lemma ends_F k : F (fst (ends k)) (snd (ends k)) = (-1) ^ Z.of_nat (S k * L).
Proof.
  pose proof L_pos as HL. assert (Ek : exists n, (S k * L)%nat = S n) by (exists (S k * L - 1)%nat; nia). destruct Ek as [n Ek]. unfold ends. cbn [fst snd]. rewrite Ek.
  pose proof (norm_conv n) as Nm. assert (E : snd (St (S n) (T, Q0)) = Q0). { apply return_iff; [lia|]. apply returns_mult; [lia|]. exists (S k). split; [lia|auto]. }
  rewrite E in Nm. rewrite <- alt_pow. assert (Q0 <> 0) by (unfold Q0; lia). apply (Z.mul_cancel_l _ _ Q0); [auto|]. rewrite Nm. ring.
Qed.
Lemma ends_sol k : solu (ends k).
Proof.
  unfold solu. rewrite ends_F, <- alt_pow. pose proof L_pos as HL. assert (Ek : exists n, (S k * L)%nat = S n) by (exists (S k * L - 1)%nat; nia). destruct Ek as [n Ek].
  unfold ends. cbn [fst snd]. rewrite Ek. pose proof (item_pos n). split; [lia|]. split; [lia|]. destruct (alt_cases (S n)) as [-> | ->]; reflexivity.
Qed.
Lemma sol_ends a : solu a -> exists k, a = ends k.
Proof.
  destruct a as [p q]. intros S. destruct (solution_item p q S) as [n Hn]. destruct S as (Hp & Hq & E). cbn [fst snd] in *. rewrite item in Hn. injection Hn as E1 E2.
  pose proof (norm_conv n) as Nm. rewrite E1, E2 in Nm. destruct (N_bounds N HN Hsq) as (B0 & B1 & B2 & B3 & _). fold rd in B0, B1, B2, B3.
  assert (Sp : 0 < snd (St (S n) (T, Q0))) by apply (iter_BR N rd B0 B1 B2 n _ w_B).
  assert (S1 : snd (St (S n) (T, Q0)) = Q0). { assert (0 < Q0) by (unfold Q0; lia). destruct (alt_cases (S n)) as [K|K]; rewrite K in Nm; destruct (Z.abs_eq_or_opp (F p q)) as [A|A]; rewrite A in E; nia. }
  apply (return_iff (S n) ltac:(lia)) in S1. apply (returns_mult (S n) ltac:(lia)) in S1. destruct S1 as (k & Hk & Ek). exists (pred k). unfold ends. replace (S (pred k)) with k by lia. rewrite <- Ek, E1, E2. reflexivity.
Qed.

(** the group of units *)
Lemma F_mul a b : F (fst (mulu a b)) (snd (mulu a b)) = F (fst a) (snd a) * F (fst b) (snd b).
Proof. unfold mulu, F. cbn [fst snd]. destruct HT as [-> | ->]; ring. Qed.
Lemma F_val p q : IZR (F p q) = ((IZR p - IZR q * wc) * (IZR p - IZR q * w))%R.
Proof. unfold F. rewrite !minus_IZR, !mult_IZR. pose proof wc_sq. pose proof wc_sum. replace w with (IZR T - wc)%R by lra. replace (IZR M) with (wc * wc - IZR T * wc)%R by lra. ring. Qed.
Lemma val_mul a b : valu (mulu a b) = (valu a * valu b)%R.
Proof. unfold valu, mulu. cbn [fst snd]. rewrite !minus_IZR, !plus_IZR, !mult_IZR. pose proof wc_sq. replace (IZR M) with (wc * wc - IZR T * wc)%R by lra. ring. Qed.
Lemma unit_pos a : Z.abs (F (fst a) (snd a)) = 1 -> (1 < valu a)%R -> solu a.
Proof.
  destruct a as [p q]. unfold solu, valu. cbn [fst snd]. intros E V. pose proof (F_val p q) as Fv. set (r := (IZR p - IZR q * wc)%R) in *.
  assert (R1 : (-1 < IZR p - IZR q * w < 1)%R).
  { assert (Ab : (IZR (F p q) = 1 \/ IZR (F p q) = -1)%R). { destruct (Z.abs_eq_or_opp (F p q)) as [A|A]; rewrite A in E; [left|right]; apply (f_equal IZR) in E; rewrite ?opp_IZR in E; lra. }
    rewrite Fv in Ab. set (c := (IZR p - IZR q * w)%R) in *. clearbody r c. split; destruct Ab; nra. }
  destruct wc_bounds as [C1 C2]. pose proof w_gt1 as W1.
  assert (Q : 0 < q). { apply lt_IZR. destruct (Rlt_le_dec 0 (IZR q)); [auto|]. unfold r in V. nra. }
  split; [|split; [exact Q|exact E]]. apply lt_IZR. apply IZR_lt in Q.
  assert (X1 : (IZR p * (w - wc) = r * w - (IZR p - IZR q * w) * wc)%R) by (unfold r; ring). clearbody r.
  assert (0 < r * w - (IZR p - IZR q * w) * wc)%R by (set (c := (IZR p - IZR q * w)%R) in *; clearbody c; nra). nra.
Qed.
Lemma sol_val a : solu a -> (1 < valu a)%R.
Proof.
  destruct a as [p q]. intros (P & Q & E). cbn [fst snd] in *. unfold valu. cbn [fst snd]. assert (1 <= p) by lia. apply IZR_le in H0. apply IZR_lt in Q. destruct wc_bounds. nra.
Qed.
Lemma sol_mul a b : solu a -> solu b -> solu (mulu a b).
Proof.
  intros A B. apply unit_pos.
  - rewrite F_mul, Z.abs_mul. destruct A as (_ & _ & ->). destruct B as (_ & _ & ->). reflexivity.
  - rewrite val_mul. apply sol_val in A, B. nra.
Qed.
Lemma mul_grow a b : solu a -> solu b -> fst a < fst (mulu a b).
Proof.
  intros (A1 & A2 & _) (B1 & B2 & _). unfold mulu. cbn [fst]. assert (1 <= M) by (destruct M_pos as [[? _]|[_ ?]]; lia). assert (0 < M * (snd a * snd b)) by nia. nia.
Qed.

Definition quo (a b : Z * Z) : Z * Z :=
  let e := F (fst b) (snd b) in (e * (fst a * fst b - T * (fst a * snd b) - M * (snd a * snd b)), e * (snd a * fst b - fst a * snd b)).
Lemma quo_mul a b : Z.abs (F (fst b) (snd b)) = 1 -> mulu (quo a b) b = a.
Proof.
  destruct a as [a1 a2], b as [b1 b2]. unfold quo, mulu. cbn [fst snd]. intros E. set (e := F b1 b2) in *.
  assert (E2 : e * e = 1) by (destruct (Z.abs_eq_or_opp e) as [A|A]; rewrite A in E; nia).
  f_equal; [transitivity (e * F b1 b2 * a1)|transitivity (e * F b1 b2 * a2)]; try (fold e; rewrite E2; ring); unfold F; destruct HT as [-> | ->]; ring.
Qed.
Lemma ends_val k j : (k <= j)%nat -> fst (ends k) <= fst (ends j).
Proof. intros Hk. destruct (Nat.eq_dec k j) as [->|]; [lia|]. pose proof (enum_mono ends fst ends_grow k j ltac:(lia)). lia. Qed.
Lemma sol_order a b : solu a -> solu b -> (valu a < valu b)%R -> fst a < fst b.
Proof.
  intros A B V. destruct (sol_ends a A) as [i ->]. destruct (sol_ends b B) as [j ->]. destruct (le_lt_dec j i) as [Le|Lt]; [exfalso|apply (enum_mono ends fst ends_grow); exact Lt].
  destruct (z_facts g t fuel s w z F1 Ns Es w_dom w_gt1 H) as (W & Fz & Ng & C & Vl). fold f in C.
  pose proof (ends_val j i Le) as P. assert (Q : snd (ends j) <= snd (ends i)) by (unfold ends; cbn [snd]; apply (CFBasic.QQ_le f); [exact C|apply Nat.mul_le_mono_r; lia]).
  unfold valu in V. apply IZR_le in P, Q. destruct wc_bounds. nra.
Qed.

Fixpoint pw (k : nat) : Z * Z := match k with O => ends 0 | S k => mulu (pw k) (ends 0) end.
Lemma pw_sol k : solu (pw k).
Proof. induction k as [|k IH]; [apply ends_sol|]. cbn [pw]. apply sol_mul; [exact IH|apply ends_sol]. Qed.
Lemma sol_pw a : solu a -> exists k, a = pw k.
Proof.
  assert (K : forall n a, 0 <= n -> fst a < n -> solu a -> exists k, a = pw k); [|intros S; apply (K (fst a + 1)); [destruct S; lia|lia|exact S]].
  clear a. intros n a0 Hn. revert a0. pattern n. apply Zlt_0_ind; [|exact Hn]. clear n Hn. intros n IH _ a La S.
  destruct (sol_ends a S) as [[|k] Ek]; [exists 0%nat; exact Ek|]. pose proof (ends_sol 0) as S1. pose proof S1 as (_ & _ & E1).
  set (b := quo a (ends 0)). assert (Em : mulu b (ends 0) = a) by (apply quo_mul; exact E1).
  assert (Vb : (valu b * valu (ends 0) = valu a)%R) by (rewrite <- val_mul, Em; reflexivity).
  assert (Lt : (valu (ends 0) < valu a)%R).
  { rewrite Ek. pose proof (enum_mono ends fst ends_grow 0 (Datatypes.S k) ltac:(lia)) as P.
    destruct (z_facts g t fuel s w z F1 Ns Es w_dom w_gt1 H) as (W & Fz & Ng & C & Vl). fold f in C.
    assert (Q : snd (ends 0) <= snd (ends (Datatypes.S k))) by (unfold ends; cbn [snd]; apply (CFBasic.QQ_le f); [exact C|apply Nat.mul_le_mono_r; lia]).
    unfold valu. apply IZR_lt in P. apply IZR_le in Q. destruct wc_bounds. nra. }
  assert (Sb : solu b).
  { apply unit_pos.
    - assert (Fm : F (fst b) (snd b) * F (fst (ends 0)) (snd (ends 0)) = F (fst a) (snd a)) by (rewrite <- F_mul, Em; reflexivity).
      destruct S as (_ & _ & Ea). rewrite <- Fm, Z.abs_mul, E1 in Ea. lia.
    - pose proof (sol_val _ S1). nra. }
  assert (Lb : fst b < fst a) by (rewrite <- Em; apply mul_grow; auto).
  destruct (IH (fst b + 1)) with (a0 := b) as [j Ej]; [destruct Sb; lia|lia|exact Sb|]. exists (Datatypes.S j). cbn [pw]. rewrite <- Ej. symmetry. exact Em.
Qed.
Lemma pw_grow k : fst (pw k) < fst (pw (S k)).
Proof. cbn [pw]. apply mul_grow; [apply pw_sol|apply ends_sol]. Qed.
Theorem ends_pw k : ends k = pw k.
Proof.
  apply (enum_eq ends pw fst ends_grow pw_grow); [intros i; apply sol_pw, ends_sol|intros i; apply sol_ends, pw_sol].
Qed.
End Units.
