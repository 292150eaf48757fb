(** * ExpOne: simplify() on the continued fraction of exp(1) gives the coefficients of e (C70).

    The convergents are the partial sums S_m of the series, which lie on one side of e, so the two columns of the block do
    not bracket e.  An item is nevertheless right: if both sums fall into a wrong unit interval of the current complete
    quotient, then the remainder e - S_(m-1) exceeds (m + 1) (e - S_m), which is only possible next to a huge coefficient
    of e, and those come later than the m-th sum can see. *)

From Coq Require Import ZArith Reals Lia Lra Psatz Bool List Factorial.
From Coquelicot Require Import Coquelicot.
From Verif Require Import Base Ext ModelBlock ModelGen ModelSymbols Spec SpecGen NumFacts SurdOrd SurdRound GenBlock GenSound GenConv GenCont GenTail GenMisc GenLive GenRep
  SymExp SymE ExpNeg ExpIrr ExpNegLive.
Import ListNotations.
Open Scope Z_scope.

Notation E1 := (exp 1).

(** ** The remainders of the series *)
Lemma erem_pos n : (0 < erem n 1)%R.
Proof.
  assert (St : forall j, (esum j 1 < esum (S j) 1)%R).
  { intros j. rewrite esum_S, pow1. pose proof (INR_fact_lt_0 (S j)). assert (0 < 1 / INR (fact (S j)))%R by (apply Rdiv_lt_0_compat; lra). lra. }
  assert (L : Rbar_le (esum (S n) 1) E1).
  { apply (is_lim_seq_incr_compare (fun j => esum j 1) E1); [exact (exp_series 1)|]. intros j. left. apply St. }
  change (esum (S n) 1 <= E1)%R in L. specialize (St n). unfold erem. lra.
Qed.

Lemma erem_small n : (INR (S n) * erem (S n) 1 < / INR (fact (S n)))%R.
Proof.
  set (U := fun j => (esum (S j) 1 + / (INR (S j) * INR (fact (S j))))%R).
  assert (Pf : forall j, (0 < INR (fact j))%R) by (intros; apply INR_fact_lt_0).
  assert (St : forall j, (U (S j) < U j)%R).
  { intros j. unfold U. rewrite (esum_S (S j)), pow1. change (fact (S (S j))) with (S (S j) * fact (S j))%nat. rewrite mult_INR. specialize (Pf (S j)).
    rewrite (S_INR (S j)). assert (0 < INR (S j))%R by (apply lt_0_INR; lia). set (a := INR (S j)) in *. set (F := INR (fact (S j))) in *.
    assert (K : (1 / ((a + 1) * F) + / ((a + 1) * ((a + 1) * F)) < / (a * F))%R); [|lra].
    replace (1 / ((a + 1) * F) + / ((a + 1) * ((a + 1) * F)))%R with ((a + 2) / ((a + 1) * (a + 1) * F))%R by (field; lra).
    apply (Rmult_lt_reg_r (a * ((a + 1) * (a + 1) * F))); [apply Rmult_lt_0_compat; [lra|repeat apply Rmult_lt_0_compat; lra]|].
    field_simplify; lra. }
  assert (Lz : is_lim_seq U E1).
  { unfold U. replace (Finite E1) with (Finite (E1 + 0)%R) by (f_equal; ring). apply (is_lim_seq_plus _ _ E1 0%R); [|  |reflexivity].
    - apply (is_lim_seq_incr_1 (fun j => esum j 1)). exact (exp_series 1).
    - apply (is_lim_seq_le_le (fun _ => 0%R) _ (fun j => 1 * / INR (S j))%R); [|apply is_lim_seq_const|apply lim_over].
      intros j. assert (P : (0 < INR (S j))%R) by (apply lt_0_INR; lia). assert (Fj : (1 <= INR (fact (S j)))%R) by (apply (le_INR 1), lt_O_fact).
      split; [left; apply Rinv_0_lt_compat, Rmult_lt_0_compat; lra|]. rewrite Rmult_1_l. apply Rinv_le_contravar; [auto|]. nra. }
  assert (L : Rbar_le E1 (U (S n))).
  { apply (is_lim_seq_decr_compare U E1 Lz). intros j. left. apply St. }
  change (E1 <= U (S n))%R in L. specialize (St n). unfold erem. assert (K : (E1 - esum (S n) 1 < / (INR (S n) * INR (fact (S n))))%R) by (unfold U in St at 2; lra).
  assert (P : (0 < INR (S n))%R) by (apply lt_0_INR; lia). specialize (Pf (S n)).
  apply (Rmult_lt_compat_l (INR (S n))) in K; [|auto]. replace (INR (S n) * / (INR (S n) * INR (fact (S n))))%R with (/ INR (fact (S n)))%R in K by (field; lra). exact K.
Qed.

Lemma erem_ratio n : (INR (S (S n)) * erem (S n) 1 < erem n 1)%R /\ (1 < INR (fact (S n)) * erem n 1)%R.
Proof.
  pose proof (erem_small n). pose proof (erem_pos (S n)). rewrite (erem_S n 1), pow1, (S_INR (S n)). pose proof (INR_fact_lt_0 (S n)) as F. unfold Rdiv. rewrite Rmult_1_l. split; [lra|].
  rewrite Rmult_plus_distr_l, Rinv_r by lra. assert (0 < INR (fact (S n)) * erem (S n) 1)%R by (apply Rmult_lt_0_compat; auto). lra.
Qed.

(** ** The complete quotients of e *)
Fixpoint th (j : nat) : R := match j with O => E1 | S j => (/ (th j - IZR (e_coeff j)))%R end.

Lemma th_digit j : forall n, cf_digit (th j) n (e_coeff (j + n)).
Proof.
  induction j as [|j IH]; intros n.
  - apply (signed_digit 1); [auto|apply csigned_e|apply e_converges].
  - destruct (IH (S n)) as (a & Ta & Na & D). pose proof (IH O) as T0. cbn [cf_digit] in T0. rewrite Nat.add_0_r in T0.
    rewrite (istrunc_unique _ _ _ Ta T0) in D. cbn [th]. replace (S j + n)%nat with (j + S n)%nat by lia. exact D.
Qed.

Lemma th_irr j : irrational (th j).
Proof. induction j as [|j IH]; [apply e_irrational|apply irr_recip, IH]. Qed.

Lemma th_pos j : (0 < th j)%R.
Proof.
  induction j as [|j IH]; [apply exp_pos|]. cbn [th]. apply Rinv_0_lt_compat. pose proof (th_digit j O) as (T & _). rewrite Nat.add_0_r in T. specialize (T (Rlt_le _ _ IH)).
  pose proof (irr_int _ (e_coeff j) (th_irr j)). lra.
Qed.

Lemma th_floor j : (IZR (e_coeff j) < th j < IZR (e_coeff j) + 1)%R.
Proof.
  pose proof (th_digit j O) as (T & _). rewrite Nat.add_0_r in T. specialize (T (Rlt_le _ _ (th_pos j))). pose proof (irr_int _ (e_coeff j) (th_irr j)). lra.
Qed.

Lemma th_gt1 j : (1 < th j)%R.
Proof. pose proof (th_floor j). pose proof (e_coeff_pos j) as P. apply IZR_le in P. lra. Qed.

Lemma th_next j : (th j = IZR (e_coeff j) + / th (S j))%R.
Proof. cbn [th]. rewrite Rinv_inv. ring. Qed.

(** ** The linear maps after j right coefficients, and the denominators of the convergents of e *)
Fixpoint Lj (j : nat) : lin := match j with O => lid | S j => lrecip (Lj j) (e_coeff j) end.

Fixpoint Qp (j : nat) : Z * Z := match j with O => (1, 0) | S j => let '(a, b) := Qp j in (b, e_coeff j * b + a) end.
Definition Qd (j : nat) : Z := snd (Qp j).

Lemma Qd_SS j : Qd (S (S j)) = e_coeff (S j) * Qd (S j) + Qd j.
Proof. unfold Qd. cbn [Qp]. destruct (Qp j) as [a b]. reflexivity. Qed.

Lemma Qd_pos j : 0 <= Qd j /\ 1 <= Qd (S j) /\ Qd j <= Qd (S j).
Proof.
  induction j as [|j (I0 & I1 & I2)]; [cbn; lia|]. rewrite Qd_SS. pose proof (e_coeff_pos (S j)). nia.
Qed.

Definition sg (j : nat) : Z := if Nat.even j then 1 else -1.
Lemma sg_S j : sg (S j) = - sg j.
Proof. unfold sg. rewrite Nat.even_succ, <- Nat.negb_even. destruct (Nat.even j); reflexivity. Qed.

Lemma Lj_slopes j : la (Lj (S j)) = - sg j * Qd j /\ lc (Lj (S j)) = sg j * Qd (S j).
Proof.
  induction j as [|j (IA & IC)]; [split; reflexivity|]. change (Lj (S (S j))) with (lrecip (Lj (S j)) (e_coeff (S j))). unfold lrecip. cbn [la lc].
  rewrite IA, IC, sg_S, Qd_SS. split; ring.
Qed.

Lemma Lj_det j : la (Lj (S j)) * ld (Lj (S j)) - lb (Lj (S j)) * lc (Lj (S j)) = - sg j.
Proof.
  induction j as [|j IH]; [reflexivity|]. change (Lj (S (S j))) with (lrecip (Lj (S j)) (e_coeff (S j))). unfold lrecip. cbn [la lb lc ld]. rewrite sg_S.
  set (a := la (Lj (S j))) in *. set (b := lb (Lj (S j))) in *. set (c := lc (Lj (S j))) in *. set (d := ld (Lj (S j))) in *. rewrite <- IH. ring.
Qed.

Lemma Lj_e j : (0 < ldn (Lj j) E1)%R /\ lval (Lj j) E1 = th j.
Proof.
  induction j as [|j (I1 & I2)]; [cbn [Lj]; destruct (lval_lid E1) as (-> & ->); split; [lra|reflexivity]|]. cbn [Lj].
  destruct (lval_recip (Lj j) E1 (e_coeff j)) as (D & V); [lra|rewrite I2; apply irr_int, th_irr|]. rewrite V, I2. split; [|reflexivity].
  assert (Ed : (ldn (lrecip (Lj j) (e_coeff j)) E1 = ldn (Lj j) E1 * (th j - IZR (e_coeff j)))%R).
  { rewrite <- I2. unfold ldn, lval, lrecip in *. cbn [la lb lc ld]. rewrite !minus_IZR, !mult_IZR. field. lra. }
  rewrite Ed. apply Rmult_lt_0_compat; [auto|]. pose proof (th_floor j). lra.
Qed.

(** ** The two forms at a partial sum *)
Definition Xf (j : nat) (y : R) : R := (IZR (la (Lj j)) * y + IZR (lb (Lj j)))%R.
Definition Yf (j : nat) (y : R) : R := (IZR (lc (Lj j)) * y + IZR (ld (Lj j)))%R.

Lemma forms j d : let Y := Yf (S j) E1 in let q := IZR (Qd (S j)) in let q' := IZR (Qd j) in let s := IZR (sg j) in
  (0 < Y)%R /\ Xf (S j) E1 = (th (S j) * Y)%R /\ (Y * (th (S j) * q + q') = 1)%R /\
  Xf (S j) (E1 - d) = (th (S j) * Y + s * q' * d)%R /\ Yf (S j) (E1 - d) = (Y - s * q * d)%R.
Proof.
  cbv zeta. destruct (Lj_e (S j)) as (P & V). destruct (Lj_slopes j) as (SA & SC). pose proof (Lj_det j) as D.
  assert (EX : Xf (S j) E1 = (th (S j) * Yf (S j) E1)%R) by (rewrite <- V; unfold lval, Xf, Yf; fold (ldn (Lj (S j)) E1); field; lra).
  split; [exact P|]. split; [exact EX|].
  assert (Aff : Xf (S j) (E1 - d) = (Xf (S j) E1 - IZR (la (Lj (S j))) * d)%R) by (unfold Xf; ring).
  assert (Bff : Yf (S j) (E1 - d) = (Yf (S j) E1 - IZR (lc (Lj (S j))) * d)%R) by (unfold Yf; ring).
  split.
  - rewrite Rmult_plus_distr_l. replace (Yf (S j) E1 * (th (S j) * IZR (Qd (S j))))%R with (Xf (S j) E1 * IZR (Qd (S j)))%R by (rewrite EX; ring).
    assert (S2 : sg j * sg j = 1) by (unfold sg; destruct (Nat.even j); reflexivity).
    assert (Q1 : Qd (S j) = sg j * lc (Lj (S j))) by (rewrite SC, Z.mul_assoc, S2; ring).
    assert (Q0 : Qd j = - sg j * la (Lj (S j))) by (rewrite SA; replace (- sg j * (- sg j * Qd j)) with (sg j * sg j * Qd j) by ring; rewrite S2; ring).
    rewrite Q1, Q0, !mult_IZR, opp_IZR. unfold Xf, Yf. set (a := la (Lj (S j))) in *. set (b := lb (Lj (S j))) in *. set (c := lc (Lj (S j))) in *. set (dd := ld (Lj (S j))) in *.
    transitivity (- IZR (sg j) * (IZR a * IZR dd - IZR b * IZR c))%R; [ring|]. rewrite <- !mult_IZR, <- minus_IZR, D, <- opp_IZR, <- mult_IZR. f_equal. lia.
  - rewrite Aff, Bff, EX, SA, SC, !mult_IZR, opp_IZR. split; ring.
Qed.

(** ** Growth of the denominators *)
Lemma e_coeff_3 p : e_coeff (3 * p + 1) = 1 /\ e_coeff (3 * p + 2) = 2 * (Z.of_nat p + 1) /\ e_coeff (3 * p + 3) = 1.
Proof.
  replace (3 * p + 1)%nat with (S (p * 3 + 0)) by lia. replace (3 * p + 2)%nat with (S (p * 3 + 1)) by lia. replace (3 * p + 3)%nat with (S (p * 3 + 2)) by lia.
  rewrite !e_coeff_at by lia. auto.
Qed.

Lemma Qd_growth p : (2 <= p)%nat -> Z.of_nat (fact (2 * p + 1)) <= Qd (3 * p) * Qd (3 * p + 1).
Proof.
  intros Hp. induction Hp as [|p Hp IH]; [vm_compute; congruence|]. destruct (e_coeff_3 p) as (C1 & C2 & C3).
  replace (3 * S p)%nat with (S (S (3 * p + 1))) by lia. replace (S (S (3 * p + 1)) + 1)%nat with (S (S (S (3 * p + 1)))) by lia.
  rewrite (Qd_SS (S (3 * p + 1))). rewrite (Qd_SS (3 * p + 1)). replace (S (3 * p + 1)) with (S (S (3 * p))) by lia. rewrite (Qd_SS (3 * p)).
  replace (S (S (S (3 * p)))) with (3 * p + 3)%nat by lia. replace (S (S (3 * p))) with (3 * p + 2)%nat by lia. replace (S (3 * p)) with (3 * p + 1)%nat by lia.
  rewrite C1, C2, C3. destruct (Qd_pos (3 * p)) as (U0 & U1 & _). replace (S (3 * p)) with (3 * p + 1)%nat in U1 by lia.
  replace (2 * S p + 1)%nat with (S (S (2 * p + 1))) by lia. change (fact (S (S (2 * p + 1)))) with (S (S (2 * p + 1)) * (S (2 * p + 1) * fact (2 * p + 1)))%nat.
  rewrite !Nat2Z.inj_mul. set (F := Z.of_nat (fact (2 * p + 1))) in *. set (u := Qd (3 * p + 1)) in *. set (v := Qd (3 * p)) in *.
  replace (Z.of_nat (S (S (2 * p + 1)))) with (2 * Z.of_nat p + 3) by lia. replace (Z.of_nat (S (2 * p + 1))) with (2 * Z.of_nat p + 2) by lia.
  set (P := Z.of_nat p) in *. assert (0 <= P) by (unfold P; lia). clearbody P u v F.
  apply Z.le_trans with ((2 * P + 3) * ((2 * P + 2) * (v * u))); [apply Z.mul_le_mono_nonneg_l; [lia|apply Z.mul_le_mono_nonneg_l; lia]|].
  apply Z.le_trans with ((2 * (P + 1) * (u + v)) * ((2 * P + 3) * (u + v))).
  - replace ((2 * P + 3) * ((2 * P + 2) * (v * u))) with ((2 * P + 3) * (2 * P + 2) * (v * u)) by ring.
    replace (2 * (P + 1) * (u + v) * ((2 * P + 3) * (u + v))) with ((2 * P + 3) * (2 * P + 2) * ((u + v) * (u + v))) by ring.
    apply Z.mul_le_mono_nonneg_l; nia.
  - apply Z.mul_le_mono_nonneg; nia.
Qed.

(** ** A wrong item would need remainders too far apart *)
Lemma odd_bounds (q q' T Y d d' i m M : R) : (0 < q -> 0 <= q' -> 0 < Y -> Y * (T * q + q') = 1 -> 1 < T -> 0 < d -> 0 <= m -> (m + 1) * d < d' -> 1 < M * d' ->
  i * (Y - q * d) <= T * Y + q' * d -> T * Y + q' * d' < (i + 1) * (Y - q * d') -> T < i ->
  (m + 1) * (i - T) * ((i + 1) * q + q') < (i + 1 - T) * (i * q + q') /\ q * (T * q + q') < M)%R.
Proof.
  intros Hq Hq' HY Det HT Hd Hm R1 R2 F1 F2 Hi.
  assert (Pi : (0 < i * q)%R) by (apply Rmult_lt_0_compat; lra). assert (PT : (0 < T * q)%R) by (apply Rmult_lt_0_compat; lra).
  set (A := (i * q + q')%R). set (B := ((i + 1) * q + q')%R). assert (PA : (0 < A)%R) by (unfold A; lra). assert (PB : (0 < B)%R) by (unfold B; lra).
  assert (dA : (Y * (i - T) <= d * A)%R) by (unfold A; lra). assert (dB : (d' * B < Y * (i + 1 - T))%R) by (unfold B; lra).
  assert (Pd' : (0 < d')%R) by (apply Rle_lt_trans with ((m + 1) * d)%R; [apply Rmult_le_pos; lra|auto]).
  split.
  - apply (Rmult_lt_reg_l Y); [auto|].
    assert (K1 : ((m + 1) * B * (Y * (i - T)) <= (m + 1) * B * (d * A))%R) by (apply Rmult_le_compat_l; [apply Rmult_le_pos; lra|auto]).
    assert (K2 : ((m + 1) * d * (A * B) < d' * (A * B))%R) by (apply Rmult_lt_compat_r; [apply Rmult_lt_0_compat; auto|auto]).
    assert (K3 : (d' * B * A < Y * (i + 1 - T) * A)%R) by (apply Rmult_lt_compat_r; auto). lra.
  - assert (K1 : (d' * B * q < Y * (i + 1 - T) * q)%R) by (apply Rmult_lt_compat_r; auto).
    assert (K2 : (Y * ((i + 1 - T) * q) <= Y * B)%R) by (apply Rmult_le_compat_l; [lra|unfold B; lra]).
    assert (K3 : (d' * q < Y)%R) by (apply (Rmult_lt_reg_r B); [auto|lra]).
    assert (K4 : (d' * q * (T * q + q') < Y * (T * q + q'))%R) by (apply Rmult_lt_compat_r; [lra|auto]).
    apply (Rmult_lt_reg_l d'); [auto|]. lra.
Qed.

Lemma even_bounds (q q' T Y d d' i m M : R) : (0 < q -> 0 <= q' -> 0 < Y -> Y * (T * q + q') = 1 -> 0 < d -> 0 <= m -> (m + 1) * d < d' -> 1 < M * d' ->
  i * (Y + q * d') <= T * Y - q' * d' -> T * Y - q' * d < (i + 1) * (Y + q * d) -> i + 1 < T -> 1 <= i ->
  (m + 1) * (T - i - 1) * (i * q + q') < (T - i) * ((i + 1) * q + q') /\ q * (i * q + q') < M)%R.
Proof.
  intros Hq Hq' HY Det Hd Hm R1 R2 F1 F2 Hi Hi1.
  assert (Pi : (0 < i * q)%R) by (apply Rmult_lt_0_compat; lra).
  set (A := (i * q + q')%R). set (B := ((i + 1) * q + q')%R). assert (PA : (0 < A)%R) by (unfold A; lra). assert (PB : (0 < B)%R) by (unfold B; lra).
  assert (dA : (d' * A <= Y * (T - i))%R) by (unfold A; lra). assert (dB : (Y * (T - i - 1) < d * B)%R) by (unfold B; lra).
  assert (Pd' : (0 < d')%R) by (apply Rle_lt_trans with ((m + 1) * d)%R; [apply Rmult_le_pos; lra|auto]).
  split.
  - apply (Rmult_lt_reg_l Y); [auto|].
    assert (K1 : ((m + 1) * A * (Y * (T - i - 1)) < (m + 1) * A * (d * B))%R) by (apply Rmult_lt_compat_l; [apply Rmult_lt_0_compat; lra|auto]).
    assert (K2 : ((m + 1) * d * (A * B) < d' * (A * B))%R) by (apply Rmult_lt_compat_r; [apply Rmult_lt_0_compat; auto|auto]).
    assert (K3 : (d' * A * B <= Y * (T - i) * B)%R) by (apply Rmult_le_compat_r; [lra|auto]). lra.
  - assert (K1 : (d' * A * q <= Y * (T - i) * q)%R) by (apply Rmult_le_compat_r; [lra|auto]).
    assert (K2 : (Y * ((T - i) * q) <= Y * (T * q + q'))%R) by (apply Rmult_le_compat_l; lra).
    apply (Rmult_lt_reg_l d'); [auto|]. lra.
Qed.

(** ** From the block to the forms *)
Lemma rep_forms m j k : rep (exp_items 1) (S m) (Lj j) k -> exists a b : R, (0 < a)%R /\ (0 < b)%R /\
  IZR (pm1 k) = (a * Xf j (E1 - erem (S m) 1))%R /\ IZR (qm1 k) = (a * Yf j (E1 - erem (S m) 1))%R /\
  IZR (pm2 k) = (b * Xf j (E1 - erem m 1))%R /\ IZR (qm2 k) = (b * Yf j (E1 - erem m 1))%R.
Proof.
  intros (s & Hs & P1 & Q1 & P2 & Q2). rewrite gcont_old in P2, Q2. unfold lnum, lden in P1, Q1, P2, Q2.
  change (fst (snd (gcont (exp_items 1) (S m)))) with (gnum (exp_items 1) (S m)) in *. change (snd (snd (gcont (exp_items 1) (S m)))) with (gden (exp_items 1) (S m)) in *.
  change (fst (snd (gcont (exp_items 1) m))) with (gnum (exp_items 1) m) in *. change (snd (snd (gcont (exp_items 1) m))) with (gden (exp_items 1) m) in *.
  apply (f_equal IZR) in P1, Q1, P2, Q2. rewrite mult_IZR, plus_IZR, !mult_IZR in P1, Q1, P2, Q2.
  destruct (esum_gcont 1 m) as (A0 & B0). destruct (esum_gcont 1 (S m)) as (A1 & B1). rewrite A1, B1 in P1, Q1. rewrite A0, B0 in P2, Q2.
  assert (Ks : (0 < IZR s)%R) by (apply IZR_lt; lia). pose proof (INR_fact_lt_0 m). pose proof (INR_fact_lt_0 (S m)).
  exists (INR (fact (S m)) / IZR s)%R, (INR (fact m) / IZR s)%R. split; [apply Rdiv_lt_0_compat; auto|]. split; [apply Rdiv_lt_0_compat; auto|].
  unfold Xf, Yf, erem. replace (E1 - (E1 - esum (S m) 1))%R with (esum (S m) 1) by ring. replace (E1 - (E1 - esum m 1))%R with (esum m 1) by ring.
  repeat split; apply (Rmult_eq_reg_l (IZR s)); try lra.
  - rewrite P1. field. lra.
  - rewrite Q1. field. lra.
  - rewrite P2. field. lra.
  - rewrite Q2. field. lra.
Qed.

Lemma quot_range p q i : 0 < q -> 0 < p -> i = Z.quot p q -> i * q <= p < (i + 1) * q.
Proof. intros Hq Hp ->. pose proof (Z.quot_rem p q ltac:(lia)). pose proof (Z.rem_bound_pos p q ltac:(lia) Hq). nia. Qed.

Lemma scale_ineq (a X Y : R) (i p q : Z) : (0 < a)%R -> IZR p = (a * X)%R -> IZR q = (a * Y)%R -> i * q <= p < (i + 1) * q -> (IZR i * Y <= X /\ X < (IZR i + 1) * Y)%R.
Proof.
  intros Ha Ep Eq (H1 & H2). apply IZR_le in H1. apply IZR_lt in H2. rewrite mult_IZR in H1. rewrite mult_IZR, plus_IZR in H2. rewrite Ep, Eq in *.
  split; [apply (Rmult_le_reg_l a)|apply (Rmult_lt_reg_l a)]; auto; lra.
Qed.

(** The emitted item lies next to the right one only in the two bad ways *)
Lemma emit_cases n j k i r1 r2 : rep (exp_items 1) (S n) (Lj (S j)) k -> 0 <= qm1 k < pm1 k -> 0 <= qm2 k < pm2 k -> emits k i r1 r2 ->
  let q := IZR (Qd (S j)) in let q' := IZR (Qd j) in let T := th (S j) in let m := INR (S n) in let M := INR (fact (S n)) in
  1 <= i /\ (i = e_coeff (S j) \/
   (sg j = 1 /\ e_coeff (S j) + 1 <= i /\ ((m + 1) * (IZR i - T) * ((IZR i + 1) * q + q') < (IZR i + 1 - T) * (IZR i * q + q') /\ q * (T * q + q') < M)%R) \/
   (sg j = -1 /\ i <= e_coeff (S j) - 1 /\ ((m + 1) * (T - IZR i - 1) * (IZR i * q + q') < (T - IZR i) * ((IZR i + 1) * q + q') /\ q * (IZR i * q + q') < M)%R)).
Proof.
  intros Rk C1 C2 (N1 & N2 & I1 & I2 & _). cbv zeta.
  pose proof (quot_range (pm1 k) (qm1 k) i ltac:(lia) ltac:(lia) I1) as G1. pose proof (quot_range (pm2 k) (qm2 k) i ltac:(lia) ltac:(lia) I2) as G2.
  assert (Hi : 1 <= i) by nia. split; [auto|].
  destruct (rep_forms _ _ _ Rk) as (a & b & Ha & Hb & P1 & Q1 & P2 & Q2).
  destruct (scale_ineq _ _ _ _ _ _ Ha P1 Q1 G1) as (F1 & F2). destruct (scale_ineq _ _ _ _ _ _ Hb P2 Q2 G2) as (F3 & F4).
  assert (Y1 : (0 < Yf (S j) (E1 - erem (S n) 1))%R). { apply (Rmult_lt_reg_l a); [auto|]. rewrite <- Q1, Rmult_0_r. apply IZR_lt. lia. }
  assert (Y2 : (0 < Yf (S j) (E1 - erem n 1))%R). { apply (Rmult_lt_reg_l b); [auto|]. rewrite <- Q2, Rmult_0_r. apply IZR_lt. lia. }
  clear P1 Q1 P2 Q2 Ha Hb a b G1 G2 N1 N2 I1 I2 C1 C2 Rk.
  destruct (forms j (erem (S n) 1)) as (HY & _ & Det & X1 & X2). destruct (forms j (erem n 1)) as (_ & _ & _ & X3 & X4).
  rewrite X1, X2 in F1, F2. rewrite X3, X4 in F3, F4. rewrite X2 in Y1. rewrite X4 in Y2. clear X1 X2 X3 X4.
  destruct (erem_ratio n) as (R1 & R2). pose proof (erem_pos (S n)) as Pd. pose proof (th_floor (S j)) as TF. pose proof (th_gt1 (S j)) as T1.
  destruct (Qd_pos j) as (Q0 & Q1 & _). assert (Hq : (0 < IZR (Qd (S j)))%R) by (apply IZR_lt; lia). assert (Hq' : (0 <= IZR (Qd j))%R) by (apply IZR_le; lia).
  rewrite (S_INR (S n)) in R1. assert (Hm : (0 <= INR (S n))%R) by apply pos_INR.
  set (Y := Yf (S j) E1) in *. set (q := IZR (Qd (S j))) in *. set (q' := IZR (Qd j)) in *. set (T := th (S j)) in *. set (d := erem (S n) 1) in *. set (d' := erem n 1) in *.
  assert (Hir : (1 <= IZR i)%R) by (apply IZR_le; lia). clearbody Y q q' T d d'.
  assert (Dq : (0 <= q * d /\ 0 <= q' * d)%R) by (split; apply Rmult_le_pos; lra).
  assert (Sg : sg j = 1 \/ sg j = -1) by (unfold sg; destruct (Nat.even j); auto). destruct Sg as [Sg|Sg]; rewrite Sg in F1, F2, F3, F4, Y1, Y2.
  - replace (1 * q' * d)%R with (q' * d)%R in * by ring. replace (1 * q * d)%R with (q * d)%R in * by ring. replace (1 * q' * d')%R with (q' * d')%R in * by ring. replace (1 * q * d')%R with (q * d')%R in * by ring.
    assert (Le : e_coeff (S j) <= i).
    { assert (Ti : (T < IZR i + 1)%R).
      { apply (Rmult_lt_reg_r (Y - q * d)); [auto|]. apply Rle_lt_trans with (T * Y + q' * d)%R; [|auto]. rewrite Rmult_minus_distr_l. assert (0 <= T * (q * d))%R by (apply Rmult_le_pos; lra). lra. }
      assert (IZR (e_coeff (S j)) < IZR (i + 1))%R by (rewrite plus_IZR; lra). apply lt_IZR in H. lia. }
    destruct (Z.eq_dec i (e_coeff (S j))) as [E|NE]; [left; auto|right; left]. split; [auto|]. split; [lia|].
    apply (odd_bounds q q' T Y d d'); auto. assert (Ci : e_coeff (S j) + 1 <= i) by lia. apply IZR_le in Ci. rewrite plus_IZR in Ci. lra.
  - replace (-1 * q' * d)%R with (- (q' * d))%R in * by ring. replace (-1 * q * d)%R with (- (q * d))%R in * by ring. replace (-1 * q' * d')%R with (- (q' * d'))%R in * by ring. replace (-1 * q * d')%R with (- (q * d'))%R in * by ring.
    assert (Le : i <= e_coeff (S j)).
    { assert (Ti : (IZR i <= T)%R).
      { apply (Rmult_le_reg_r (Y - - (q * d))); [auto|]. apply Rle_trans with (T * Y + - (q' * d))%R; [auto|]. assert (0 <= T * (q * d))%R by (apply Rmult_le_pos; lra). lra. }
      assert (IZR i < IZR (e_coeff (S j) + 1))%R by (rewrite plus_IZR; lra). apply lt_IZR in H. lia. }
    destruct (Z.eq_dec i (e_coeff (S j))) as [E|NE]; [left; auto|right; right]. split; [auto|]. split; [lia|].
    apply (even_bounds q q' T Y d d'); auto; try lra. assert (Ci : i + 1 <= e_coeff (S j)) by lia. apply IZR_le in Ci. rewrite plus_IZR in Ci. lra.
Qed.

Lemma Qd_mono a b : (a <= b)%nat -> Qd a <= Qd b.
Proof. induction 1 as [|b Hb IH]; [lia|]. destruct (Qd_pos b). lia. Qed.

Lemma fact_ltR a n : (IZR a < INR (fact n))%R -> a < Z.of_nat (fact n).
Proof. rewrite INR_IZR_INZ. apply lt_IZR. Qed.

Lemma three j : exists p, (j = 3 * p)%nat \/ (j = 3 * p + 1)%nat \/ (j = 3 * p + 2)%nat.
Proof. destruct (split3 j) as (p & r & Hr & ->). exists p. lia. Qed.

(** Too large: only right before a large coefficient *)
Lemma odd_wrong n J i : (1 <= n)%nat -> (1 <= J)%nat -> let q := IZR (Qd J) in let q' := IZR (Qd (J - 1)) in let T := th J in let m := INR (S n) in
  e_coeff J + 1 <= i -> ((m + 1) * (IZR i - T) * ((IZR i + 1) * q + q') < (IZR i + 1 - T) * (IZR i * q + q'))%R -> (q * (T * q + q') < INR (fact (S n)))%R ->
  J = 3%nat /\ n = 3%nat.
Proof.
  intros Hn HJ. cbv zeta. intros Hi B1 B2.
  assert (Qs : exists j, J = S j) by (exists (J - 1)%nat; lia). destruct Qs as (j & ->). replace (S j - 1)%nat with j in * by lia.
  destruct (Qd_pos j) as (Q0 & Q1 & Q2). pose proof (th_floor (S j)) as TF. pose proof (th_next (S j)) as TN. pose proof (th_next (S (S j))) as TN2.
  pose proof (th_floor (S (S j))) as TF1. pose proof (th_floor (S (S (S j)))) as TF2. pose proof (th_gt1 (S (S j))) as G1. pose proof (th_gt1 (S (S (S j)))) as G2.
  set (T := th (S j)) in *. set (T1 := th (S (S j))) in *. set (T2 := th (S (S (S j)))) in *. clearbody T T1 T2.
  apply IZR_le in Q0, Q1, Q2. set (q := IZR (Qd (S j))) in *. set (q' := IZR (Qd j)) in *.
  assert (M2 : (2 <= INR (S n))%R) by (apply (le_INR 2); lia). set (m := INR (S n)) in *.
  pose proof Hi as HiR. apply IZR_le in HiR. rewrite plus_IZR in HiR. set (a := IZR (e_coeff (S j))) in *.
  assert (A1 : (1 <= a)%R) by (apply IZR_le, e_coeff_pos).
  (* m (i - T) < 1 *)
  assert (Crude : (m * (IZR i - T) < 1)%R).
  { assert (P : (0 < (IZR i + 1) * q + q')%R) by (assert (0 < (IZR i + 1) * q)%R by (apply Rmult_lt_0_compat; lra); lra).
    assert (K : ((IZR i + 1 - T) * (IZR i * q + q') <= (IZR i + 1 - T) * ((IZR i + 1) * q + q'))%R) by (apply Rmult_le_compat_l; lra).
    assert (K2 : ((m + 1) * (IZR i - T) < IZR i + 1 - T)%R) by (apply (Rmult_lt_reg_r ((IZR i + 1) * q + q')); [auto|lra]). lra. }
  assert (Ei : i = e_coeff (S j) + 1).
  { destruct (Z.eq_dec i (e_coeff (S j) + 1)) as [E|NE]; [auto|exfalso]. assert (K : e_coeff (S j) + 2 <= i) by lia. apply IZR_le in K. rewrite plus_IZR in K. fold a in K.
    assert (m * 1 <= m * (IZR i - T))%R by (apply Rmult_le_compat_l; lra). lra. }
  assert (Ei' : IZR i = (a + 1)%R) by (rewrite Ei, plus_IZR; reflexivity).
  assert (Gap : (IZR i - T = 1 - / T1)%R) by lra.
  assert (Next : IZR (Qd (S (S j))) = (a * q + q')%R) by (rewrite Qd_SS, plus_IZR, mult_IZR; reflexivity).
  assert (Prod : Qd (S j) * Qd (S (S j)) < Z.of_nat (fact (S n))).
  { apply fact_ltR. rewrite mult_IZR, Next. fold q. apply Rle_lt_trans with (q * (T * q + q'))%R; [|auto]. apply Rmult_le_compat_l; [lra|]. assert (a * q <= T * q)%R by (apply Rmult_le_compat_r; lra). lra. }
  assert (I1 : (0 < / T1 < 1)%R) by (split; [apply Rinv_0_lt_compat; lra|rewrite <- Rinv_1; apply Rinv_lt_contravar; lra]).
  destruct (three (S j)) as (p & [E|[E|E]]).
  - (* S j = 3 p *)
    assert (Hp : (1 <= p)%nat) by lia. assert (Ep : exists p0, p = S p0) by (exists (p - 1)%nat; lia). destruct Ep as (p0 & ->).
    destruct (e_coeff_3 p0) as (_ & _ & C0). destruct (e_coeff_3 (S p0)) as (C1 & C2 & _).
    replace (3 * p0 + 3)%nat with (S j) in C0 by lia. replace (3 * S p0 + 1)%nat with (S (S j)) in C1 by lia. replace (3 * S p0 + 2)%nat with (S (S (S j))) in C2 by lia.
    unfold a in *. rewrite C0 in *. rewrite C1 in *. rewrite C2 in *. clear C0 C1 C2.
    assert (T1e : T1 = ((T2 + 1) / T2)%R) by (rewrite TN2; field; lra).
    assert (G : (IZR i - T = / (T2 + 1))%R) by (rewrite Gap, T1e; field; lra).
    assert (Tx : T = (2 - / (T2 + 1))%R) by lra. rewrite G, Ei' in B1.
    assert (P0 : (0 < / (T2 + 1))%R) by (apply Rinv_0_lt_compat; lra).
    assert (K : ((m + 1) * 4 < 3 * (T2 + 2))%R).
    { assert (S1 : (3 * ((1 + 1 + 1) * q + q') * (1 + / (T2 + 1)) >= 4 * ((1 + 1) * q + q') * (1 + / (T2 + 1)))%R) by (apply Rmult_ge_compat_r; lra).
      assert (S2 : (4 * (m + 1) * / (T2 + 1) * ((1 + 1 + 1) * q + q') < 3 * ((1 + 1 + 1) * q + q') * (1 + / (T2 + 1)))%R) by (rewrite Tx in B1; lra).
      assert (S3 : (4 * (m + 1) * / (T2 + 1) < 3 * (1 + / (T2 + 1)))%R) by (apply (Rmult_lt_reg_r ((1 + 1 + 1) * q + q')); lra).
      apply (Rmult_lt_compat_r (T2 + 1)) in S3; [|lra].
      replace (4 * (m + 1) * / (T2 + 1) * (T2 + 1))%R with (4 * (m + 1))%R in S3 by (field; lra).
      replace (3 * (1 + / (T2 + 1)) * (T2 + 1))%R with (3 * (T2 + 2))%R in S3 by (field; lra). lra. }
    assert (K2 : 4 * (Z.of_nat (S n) + 1) < 3 * (2 * (Z.of_nat (S p0) + 1) + 3)).
    { apply lt_IZR. rewrite !mult_IZR, !plus_IZR, mult_IZR, plus_IZR in *. unfold m in K. rewrite INR_IZR_INZ in K. lra. }
    destruct (Nat.eq_dec p0 0) as [->|Np].
    + assert (Sj : j = 2%nat) by lia. subst j. change (Qd 3 * Qd 4) with 12 in Prod.
      assert (S n = 2 \/ S n = 3 \/ S n = 4)%nat as [Hs|[Hs|Hs]] by lia; [rewrite Hs in Prod; vm_compute in Prod; discriminate|rewrite Hs in Prod; vm_compute in Prod; discriminate|]. lia.
    + exfalso. pose proof (Qd_growth (S p0) ltac:(lia)) as Gr. replace (3 * S p0)%nat with (S j) in Gr by lia. replace (S j + 1)%nat with (S (S j)) in Gr by lia.
      assert (F : (fact (S n) <= fact (2 * S p0 + 1))%nat) by (apply fact_le; lia). lia.
  - (* S j = 3 p + 1 *)
    exfalso. destruct (e_coeff_3 p) as (_ & C2 & _). replace (3 * p + 2)%nat with (S (S j)) in C2 by lia. rewrite C2 in TF1.
    assert (P2 : 2 <= 2 * (Z.of_nat p + 1)) by lia. apply IZR_le in P2. assert (/ T1 < / 2)%R by (apply Rinv_lt_contravar; lra).
    assert (m * / 2 <= m * (IZR i - T))%R by (apply Rmult_le_compat_l; lra). lra.
  - (* S j = 3 p + 2 *)
    exfalso. destruct (e_coeff_3 p) as (_ & C2 & C3). destruct (e_coeff_3 (S p)) as (C4 & _). replace (3 * p + 3)%nat with (S (S j)) in C3 by lia.
    replace (3 * S p + 1)%nat with (S (S (S j))) in C4 by lia. replace (3 * p + 2)%nat with (S j) in C2 by lia. rewrite C3 in TN2. rewrite C4 in TF2.
    assert (T1e : T1 = ((T2 + 1) / T2)%R) by (rewrite TN2; field; lra).
    assert (G : (IZR i - T = / (T2 + 1))%R) by (rewrite Gap, T1e; field; lra).
    assert (/ 3 < / (T2 + 1))%R by (apply Rinv_lt_contravar; lra). assert (m * / 3 <= m * (IZR i - T))%R by (apply Rmult_le_compat_l; lra).
    assert (Hm : (m < 3)%R) by lra. unfold m in Hm. rewrite INR_IZR_INZ in Hm. apply (lt_IZR _ 3) in Hm. assert (S n = 2)%nat as Hs by lia. rewrite Hs in Prod. change (Z.of_nat (fact 2)) with 2 in Prod.
    apply (le_IZR 1) in Q1. rewrite Qd_SS, C2 in Prod. apply (le_IZR 0) in Q0. assert (0 <= Z.of_nat p) by lia. nia.
Qed.

(** Too small: only at the very beginning *)
Lemma even_wrong n J i : (1 <= n)%nat -> (1 <= J)%nat -> let q := IZR (Qd J) in let q' := IZR (Qd (J - 1)) in let T := th J in let m := INR (S n) in
  1 <= i -> i <= e_coeff J - 1 -> ((m + 1) * (T - IZR i - 1) * (IZR i * q + q') < (T - IZR i) * ((IZR i + 1) * q + q'))%R -> (q * (IZR i * q + q') < INR (fact (S n)))%R ->
  J = 2%nat /\ i = 1 /\ (n = 2 \/ n = 3)%nat.
Proof.
  intros Hn HJ. cbv zeta. intros Hi1 Hi B1 B2.
  assert (Qs : exists j, J = S j) by (exists (J - 1)%nat; lia). destruct Qs as (j & ->). replace (S j - 1)%nat with j in * by lia.
  destruct (Qd_pos j) as (Q0 & Q1 & Q2).
  assert (E : exists p, S j = (3 * p + 2)%nat).
  { destruct (three (S j)) as (p & [E|[E|E]]); [| |eauto]; exfalso.
    - assert (Ep : exists p0, p = S p0) by (exists (p - 1)%nat; lia). destruct Ep as (p0 & ->). destruct (e_coeff_3 p0) as (_ & _ & C). replace (3 * p0 + 3)%nat with (S j) in C by lia. lia.
    - destruct (e_coeff_3 p) as (C & _). replace (3 * p + 1)%nat with (S j) in C by lia. lia. }
  destruct E as (p & E). destruct (e_coeff_3 p) as (_ & C2 & C3). replace (3 * p + 2)%nat with (S j) in C2 by lia. replace (3 * p + 3)%nat with (S (S j)) in C3 by lia.
  pose proof (th_floor (S j)) as TF. pose proof (th_next (S j)) as TN. pose proof (th_floor (S (S j))) as TF1. rewrite C3 in TF1. pose proof (th_gt1 (S (S j))) as G1.
  set (T := th (S j)) in *. set (T1 := th (S (S j))) in *. clearbody T T1. pose proof Q0 as Q0r. pose proof Q1 as Q1r. apply IZR_le in Q0r, Q1r.
  set (q := IZR (Qd (S j))) in *. set (q' := IZR (Qd j)) in *. set (m := INR (S n)) in *. assert (M2 : (2 <= m)%R) by (apply (le_INR 2); lia).
  pose proof Hi1 as Hi1r. apply IZR_le in Hi1r. pose proof Hi as Hir. apply IZR_le in Hir. rewrite minus_IZR in Hir. set (a := IZR (e_coeff (S j))) in *.
  assert (Iv : (/ 2 < / T1)%R) by (apply Rinv_lt_contravar; lra).
  assert (Sx : (/ 2 < T - IZR i - 1)%R) by lra. set (s := (T - IZR i - 1)%R) in *.
  assert (PA : (0 < IZR i * q + q')%R) by (assert (0 < IZR i * q)%R by (apply Rmult_lt_0_compat; lra); lra).
  assert (K1 : ((m + 1) * s < 2 * (s + 1))%R).
  { apply (Rmult_lt_reg_r (IZR i * q + q')); [auto|]. assert (Kx : ((T - IZR i) * ((IZR i + 1) * q + q') <= (T - IZR i) * (2 * (IZR i * q + q')))%R).
    { apply Rmult_le_compat_l; [unfold s in Sx; lra|]. assert (1 * q <= IZR i * q)%R by (apply Rmult_le_compat_r; lra). lra. }
    replace (T - IZR i)%R with (s + 1)%R in * by (unfold s; ring). lra. }
  assert (Hm : (m < 5)%R). { assert ((m - 1) * / 2 <= (m - 1) * s)%R by (apply Rmult_le_compat_l; lra). lra. }
  unfold m in Hm. rewrite INR_IZR_INZ in Hm. apply (lt_IZR _ 5) in Hm.
  assert (F24 : (fact (S n) <= 24)%nat) by (change 24%nat with (fact 4); apply fact_le; lia).
  assert (Pz : Qd (S j) * (i * Qd (S j) + Qd j) < Z.of_nat (fact (S n))) by (apply fact_ltR; rewrite mult_IZR, plus_IZR, mult_IZR; exact B2).
  destruct (Nat.eq_dec p 0) as [->|Np].
  - assert (j = 1%nat) by lia. subst j. change (e_coeff 2) with 2 in *. assert (i = 1) by lia. subst i. change (Qd 2) with 1 in *. change (Qd 1) with 1 in *. cbv beta in Pz.
    assert (Hc : (n = 1 \/ n = 2 \/ n = 3)%nat) by lia. destruct Hc as [->|Hc]; [vm_compute in Pz; discriminate|auto].
  - exfalso. pose proof (Qd_mono 5 (S j) ltac:(lia)) as Q5. change (Qd 5) with 7 in Q5. assert (A1 : 7 <= i * Qd (S j)) by nia.
    assert (A2 : 7 * 7 <= Qd (S j) * (i * Qd (S j) + Qd j)) by (apply Z.mul_le_mono_nonneg; lia). apply inj_le in F24. change (Z.of_nat 24) with 24 in F24. lia.
Qed.

Lemma emit_right n j k i r1 r2 : (1 <= n)%nat -> rep (exp_items 1) (S n) (Lj (S j)) k -> 0 <= qm1 k < pm1 k -> 0 <= qm2 k < pm2 k -> emits k i r1 r2 -> i = e_coeff (S j).
Proof.
  intros Hn Rk C1 C2 Em. destruct (emit_cases _ _ _ _ _ _ Rk C1 C2 Em) as (Hi & [E|[(_ & L & B1 & B2)|(_ & L & B1 & B2)]]); [auto|exfalso|exfalso].
  - destruct (odd_wrong n (S j) i Hn ltac:(lia)) as (EJ & En); [auto|rewrite Nat.sub_1_r; exact B1|rewrite Nat.sub_1_r; exact B2|]. injection EJ as ->. subst n.
    destruct Rk as (s & Hs & _ & _ & _ & Q). change (lden (Lj 3) (fst (gcont (exp_items 1) 4))) with 0 in Q. destruct Em as (_ & N2 & _). apply N2. nia.
  - destruct (even_wrong n (S j) i Hn ltac:(lia)) as (EJ & Ei & En); [auto|auto|rewrite Nat.sub_1_r; exact B1|rewrite Nat.sub_1_r; exact B2|]. injection EJ as ->. subst i.
    destruct Em as (N1 & N2 & I1 & I2 & _). destruct Rk as (s & Hs & P1 & Q1 & P2 & Q2). destruct En as [-> | ->].
    + change (lnum (Lj 2) (snd (gcont (exp_items 1) 3))) with 4 in P1. change (lden (Lj 2) (snd (gcont (exp_items 1) 3))) with 2 in Q1. assert (E : pm1 k = 2 * qm1 k) by nia. rewrite E, Z.quot_mul in I1 by auto. discriminate.
    + change (lnum (Lj 2) (fst (gcont (exp_items 1) 4))) with 4 in P2. change (lden (Lj 2) (fst (gcont (exp_items 1) 4))) with 2 in Q2. assert (E : pm2 k = 2 * qm2 k) by nia. rewrite E, Z.quot_mul in I2 by auto. discriminate.
Qed.

(** ** The invariant of the run: both sums agree with e on the coefficients given out *)
Definition oinv (j : nat) (o : option nat) (k : block) : Prop :=
  at_pos (exp_items 1) o (Lj j) k /\ (j = O \/ exists n, o = Some (S n) /\ (1 <= n)%nat /\ 0 <= qm1 k < pm1 k /\ 0 <= qm2 k < pm2 k).

Lemma oinv_move j o k k' : oinv j o k -> moved k (fst (exp_items 1 (npos o))) (snd (exp_items 1 (npos o))) k' -> oinv j (Some (npos o)) k'.
Proof.
  intros (A & C) M. pose proof (at_move (exp_items 1) eq_refl _ _ _ _ A M) as A'. split; [exact A'|]. destruct C as [C|(n & -> & Hn & C1 & C2)]; [auto|].
  destruct j as [|j]; [auto|right]. cbn [npos] in *. exists (S n). split; [auto|]. split; [lia|].
  assert (D2 : 0 <= qm2 k' < pm2 k'). { destruct M as (g & Hg & _ & P & _ & Q). nia. }
  split; [|exact D2].
  destruct (rep_forms _ _ _ A) as (a & b & Ha & _ & P1 & Q1 & _). destruct (rep_forms _ _ _ A') as (a' & b' & Ha' & _ & P1' & Q1' & _).
  assert (Y0 : (0 <= Yf (S j) (E1 - erem (S n) 1))%R). { apply (Rmult_le_reg_l a); [auto|]. rewrite <- Q1, Rmult_0_r. apply IZR_le. lia. }
  assert (X0 : (Yf (S j) (E1 - erem (S n) 1) < Xf (S j) (E1 - erem (S n) 1))%R). { apply (Rmult_lt_reg_l a); [auto|]. rewrite <- Q1, <- P1. apply IZR_lt. lia. }
  destruct (forms j 0) as (Ye & Xe & _). pose proof (th_gt1 (S j)) as T1.
  assert (XY : (Yf (S j) E1 < Xf (S j) E1)%R). { rewrite Xe. assert (1 * Yf (S j) E1 < th (S j) * Yf (S j) E1)%R by (apply Rmult_lt_compat_r; auto). lra. }
  pose proof (erem_pos (S n)) as Pd. pose proof (erem_pos (S (S n))) as Pd2.
  assert (Lt : (erem (S (S n)) 1 < erem (S n) 1)%R) by (rewrite (erem_S (S n) 1), pow1; pose proof (INR_fact_lt_0 (S (S n))); assert (0 < 1 / INR (fact (S (S n))))%R by (apply Rdiv_lt_0_compat; lra); lra).
  set (d := erem (S n) 1) in *. set (d2 := erem (S (S n)) 1) in *. clearbody d d2.
  assert (AY : (d * Yf (S j) (E1 - d2) = (d - d2) * Yf (S j) E1 + d2 * Yf (S j) (E1 - d))%R) by (unfold Yf; ring).
  assert (AX : (d * (Xf (S j) (E1 - d2) - Yf (S j) (E1 - d2)) = (d - d2) * (Xf (S j) E1 - Yf (S j) E1) + d2 * (Xf (S j) (E1 - d) - Yf (S j) (E1 - d)))%R) by (unfold Xf, Yf; ring).
  assert (PY : (0 < Yf (S j) (E1 - d2))%R).
  { apply (Rmult_lt_reg_l d); [auto|]. rewrite AY, Rmult_0_r. assert (0 < (d - d2) * Yf (S j) E1)%R by (apply Rmult_lt_0_compat; lra). assert (0 <= d2 * Yf (S j) (E1 - d))%R by (apply Rmult_le_pos; lra). lra. }
  assert (PX : (0 < Xf (S j) (E1 - d2) - Yf (S j) (E1 - d2))%R).
  { apply (Rmult_lt_reg_l d); [auto|]. rewrite AX, Rmult_0_r. assert (0 < (d - d2) * (Xf (S j) E1 - Yf (S j) E1))%R by (apply Rmult_lt_0_compat; lra).
    assert (0 < d2 * (Xf (S j) (E1 - d) - Yf (S j) (E1 - d)))%R by (apply Rmult_lt_0_compat; lra). lra. }
  split; [apply le_IZR|apply lt_IZR].
  - rewrite Q1'. apply Rmult_le_pos; lra.
  - rewrite Q1', P1'. apply Rmult_lt_compat_l; lra.
Qed.

Lemma esum_ge2 n : (2 <= esum (S n) 1)%R.
Proof.
  induction n as [|n IH]; [unfold esum; cbn; lra|]. rewrite esum_S, pow1. pose proof (INR_fact_lt_0 (S (S n))).
  assert (0 < 1 / INR (fact (S (S n))))%R by (apply Rdiv_lt_0_compat; lra). lra.
Qed.

Lemma oinv_emit j o k i r1 r2 : oinv j o k -> emits k i r1 r2 -> i = e_coeff j /\ oinv (S j) o (Block (qm1 k) (qm2 k) r1 r2).
Proof.
  intros (A & C) Em.
  assert (K : i = e_coeff j /\ exists n, o = Some (S n) /\ (1 <= n)%nat /\ 0 < qm1 k /\ 0 <= pm1 k /\ 0 < qm2 k /\ 0 <= pm2 k).
  { pose proof Em as (N1 & N2 & I1 & I2 & _). destruct C as [->|(n & -> & Hn & C1 & C2)].
    - destruct o as [[|[|n]]|]; cbn [at_pos Lj] in A.
      + destruct A as (s & Hs & _ & _ & _ & Q2). change (lden lid (fst (gcont (exp_items 1) 0))) with 0 in Q2. nia.
      + destruct A as (s & Hs & P1 & Q1 & P2 & Q2). change (lnum lid (snd (gcont (exp_items 1) 1))) with 2 in P1. change (lden lid (snd (gcont (exp_items 1) 1))) with 1 in Q1.
        change (lnum lid (fst (gcont (exp_items 1) 1))) with 1 in P2. change (lden lid (fst (gcont (exp_items 1) 1))) with 1 in Q2.
        assert (s = 1) by (apply Z.mul_eq_1 in Q1; lia). subst s. rewrite Z.mul_1_l in *. rewrite P1, Q1 in I1. rewrite P2, Q2 in I2. subst i. discriminate.
      + destruct (rep_forms _ O _ A) as (a & b & Ha & Hb & P1 & Q1 & P2 & Q2).
        assert (Y1 : forall y, Yf 0 y = 1%R) by (intros y; unfold Yf; cbn [Lj lid lc ld]; ring). assert (X1 : forall y, Xf 0 y = y) by (intros y; unfold Xf; cbn [Lj lid la lb]; ring).
        rewrite Y1 in Q1, Q2. rewrite X1 in P1, P2.
        replace (E1 - erem (S (S n)) 1)%R with (esum (S (S n)) 1) in P1 by (unfold erem; ring). replace (E1 - erem (S n) 1)%R with (esum (S n) 1) in P2 by (unfold erem; ring).
        pose proof (esum_ge2 (S n)) as G1. pose proof (esum_ge2 n) as G2.
        assert (Pq1 : 0 < qm1 k) by (apply lt_IZR; rewrite Q1; lra). assert (Pq2 : 0 < qm2 k) by (apply lt_IZR; rewrite Q2; lra).
        assert (Pp1 : 0 < pm1 k) by (apply lt_IZR; rewrite P1; apply Rmult_lt_0_compat; lra). assert (Pp2 : 0 < pm2 k) by (apply lt_IZR; rewrite P2; apply Rmult_lt_0_compat; lra).
        destruct (scale_ineq _ _ 1%R _ _ _ Ha P1 Q1 (quot_range _ _ _ Pq1 Pp1 I1)) as (F1 & F2).
        pose proof (th_floor 0) as (_ & E3). cbn [th e_coeff] in E3. pose proof (erem_pos (S (S n))) as Pd. unfold erem in Pd.
        split; [|exists (S n); repeat split; lia]. cbn [e_coeff]. assert (L1 : 1 < i) by (apply lt_IZR; lra). assert (L2 : i < 3) by (apply lt_IZR; lra). lia.
      + destruct A as (_ & ->). destruct (N1 eq_refl).
    - split; [|exists n; repeat split; lia]. destruct j as [|j].
      + destruct (rep_forms _ O _ A) as (a & b & Ha & Hb & P1 & Q1 & P2 & Q2).
        assert (Y1 : forall y, Yf 0 y = 1%R) by (intros y; unfold Yf; cbn [Lj lid lc ld]; ring). assert (X1 : forall y, Xf 0 y = y) by (intros y; unfold Xf; cbn [Lj lid la lb]; ring).
        rewrite Y1 in Q1, Q2. rewrite X1 in P1, P2. replace (E1 - erem (S n) 1)%R with (esum (S n) 1) in P1 by (unfold erem; ring).
        destruct (scale_ineq _ _ 1%R _ _ _ Ha P1 Q1 (quot_range (pm1 k) (qm1 k) i ltac:(lia) ltac:(lia) I1)) as (F1 & F2).
        pose proof (esum_ge2 n). pose proof (th_floor 0) as (_ & E3). cbn [th e_coeff] in E3. pose proof (erem_pos (S n)) as Pd. unfold erem in Pd.
        cbn [e_coeff]. assert (L1 : 1 < i) by (apply lt_IZR; lra). assert (L2 : i < 3) by (apply lt_IZR; lra). lia.
      + eapply emit_right; eauto. }
  destruct K as (Ei & n & -> & Hn & Q1 & P1 & Q2 & P2). split; [exact Ei|]. split.
  - cbn [Lj]. rewrite <- Ei. apply at_emit; auto.
  - right. exists n. split; [auto|]. split; [auto|]. cbn [pm1 pm2 qm1 qm2]. destruct Em as (_ & _ & _ & _ & -> & ->).
    split; apply Z.rem_bound_pos; lia.
Qed.

Section Run.
Context (t : ity).

Lemma simp_one fuel : forall j o k v k' it', oinv j o k -> simp_next t (exp_next t) fuel (k, exp_at 1 (npos o)) = Ok (Some v, (k', it')) ->
  v = e_coeff j /\ exists o', it' = exp_at 1 (npos o') /\ oinv (S j) o' k'.
Proof.
  induction fuel as [|fuel IH]; intros j o k v k' it' A H; cbn [simp_next] in H; [discriminate|].
  apply bind_Ok in H. destruct H as ((u, k1) & R & H). apply reduce_recip_inv in R. destruct R as [(i & r1 & r2 & C & -> & ->)|(C & -> & ->)].
  - inversion H; subst. apply check_integer_inv in C. destruct (oinv_emit _ _ _ _ _ _ A C) as (E & A'). split; [auto|]. exists o. auto.
  - apply bind_Ok in H. destruct H as ((u, it1) & N & H). destruct u as [(a, b)|]; [|discriminate].
    apply bind_Ok in H. destruct H as (k2 & M & H). apply gmove_inv in M. destruct (exp_step _ _ _ _ _ N) as (E & ->).
    apply (IH j (Some (npos o)) k2); [|exact H]. eapply oinv_move; [exact A|]. rewrite <- E. exact M.
Qed.

Lemma simp_one_nth fuel n : forall j o k v, oinv j o k -> nth_item (simp_next t (exp_next t) fuel) n (k, exp_at 1 (npos o)) = Ok (Some v) -> v = e_coeff (j + n).
Proof.
  induction n as [|n IH]; intros j o k v A H; destruct (nth_item_cases _ _ _ _ H) as (i & (k', it') & N); destruct (simp_one _ _ _ _ _ _ _ A N) as (E & o' & -> & A').
  - apply nth_head in H. destruct H as (s' & H). rewrite N in H. rewrite Nat.add_0_r. congruence.
  - rewrite (nth_item_S _ _ _ _ _ N) in H. rewrite (IH _ _ _ _ A' H). f_equal. lia.
Qed.

Lemma exp_one_simplify fuel n v : nth_item (simp_next t (exp_next t) fuel) n (gcf_simplify (gcf_exp 1)) = Ok (Some v) -> v = e_coeff n.
Proof.
  intros H. apply (simp_one_nth fuel n 0 None block_identity v); [|exact H]. split; [split; reflexivity|auto].
Qed.
End Run.
