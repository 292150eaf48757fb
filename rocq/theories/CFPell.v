(** * CFPell: the convergents of a square root and Pell's equation (C74). *)

From Coq Require Import ZArith Znumtheory Reals Lia Lra Bool List Arith Wf_nat.
From Coquelicot Require Import Coquelicot.
From Verif Require Import Base Ext ModelSurd ModelBlock ModelCF ModelConv Spec SpecCF NumFacts Transfer SurdCore RatioFacts SurdArith
  SurdTotal SurdOrd SurdRound SurdMisc SurdSqrt CFCore CFSeq CFIter CFBasic CFSurd CFNew CFOfSurd CFRound CFArith CFShort CFBest CFGalois.
Import ListNotations.
Open Scope Z_scope.

Lemma alt_pow n : alt n = (-1) ^ Z.of_nat n.
Proof.
  induction n as [|n IH]; [reflexivity|]. rewrite alt_S, IH, Nat2Z.inj_succ, Z.pow_succ_r by lia. lia.
Qed.
Lemma alt_mul n k : Nat.Even n -> alt (k * n) = 1.
Proof. intros [m ->]. unfold alt. replace (k * (2 * m))%nat with (2 * (k * m))%nat by lia. rewrite Nat.even_mul. reflexivity. Qed.

Section Pell.
Context (N : Z) (HN : 0 < N) (Hsq : ~ square N).
Let w := sqrt (IZR N).
Let rd := Z.sqrt N.
Notation St := (iter N rd).

Lemma N_bounds : rd * rd < N /\ N < (rd + 1) * (rd + 1) /\ 0 <= rd /\ 1 <= rd /\ 2 <= N.
Proof.
  pose proof (Z.sqrt_spec N ltac:(lia)) as [S1 S2]. pose proof (Z.sqrt_nonneg N) as S3. fold rd in S1, S2, S3.
  assert (rd * rd <> N) by (intros K; apply Hsq; exists rd; lia). assert (N <> 1) by (intros K; apply Hsq; exists 1; lia).
  assert (rd <> 0) by (intros K; rewrite K in *; lia). lia.
Qed.
Lemma w_sq : (w * w = IZR N)%R.
Proof. apply sqrt_IZR_sq. lia. Qed.
Lemma w_gt1 : (1 < w)%R.
Proof. unfold w. rewrite <- sqrt_1. destruct N_bounds as (_ & _ & _ & _ & ?). apply sqrt_lt_1; [lra|apply IZR_le; lia|apply IZR_lt; lia]. Qed.
Lemma w_irr : ~ rational_real w.
Proof.
  intros (n & d & Hd & E). apply Hsq. apply (square_quotient n d N); [auto|]. apply eq_IZR. rewrite !mult_IZR, <- w_sq, E. field. apply not_0_IZR. auto.
Qed.
Lemma w_rat : rational_real (w * w).
Proof. exists N, 1. split; [lia|]. rewrite w_sq. field. Qed.
Lemma w_state : w = X N 0 1.
Proof. unfold X. fold w. field. Qed.
Lemma w_B : inB N rd (0, 1).
Proof. destruct N_bounds as (_ & _ & ? & ? & _). apply root_B; try lia. exists N. ring. Qed.
Lemma lin_indep (a b : Z) : (IZR a * w = IZR b)%R -> a = 0 /\ b = 0.
Proof.
  intros E. destruct (Z.eq_dec a 0) as [->|Ha]; [split; [auto|]; apply eq_IZR; lra|]. exfalso. apply w_irr. exists b, a. split; [auto|]. apply not_0_IZR in Ha. rewrite <- E. field. auto.
Qed.

Context (g : cfg) (t : ity) (fuel : nat) (s : surd) (z : cf) (F1 : fits t 1 = true) (Ns : normal g s) (Es : sval s = RtoC w) (H : surd_to_cf g t fuel s = Ok (Some z)).
Let L := length (p_coeffs z).
Let f := cseq z.
Let D := sqrt_domain w w_gt1 w_irr w_rat.

Lemma norm_conv k : PP f (S k) * PP f (S k) - N * (QQ f (S k) * QQ f (S k)) = alt (S k) * snd (St (S k) (0, 1)).
Proof.
  destruct N_bounds as (B0 & B1 & B2 & _). destruct (z_facts g t fuel s w z F1 Ns Es D w_gt1 H) as (W & Fz & Ng & C & V). fold f in C, V.
  pose proof (tails N rd B0 B1 B2 f (0, 1) (S k) C w_B ltac:(rewrite V; exact w_state)) as T.
  pose proof (iter_BR N rd B0 B1 B2 k _ w_B) as R. destruct (St (S k) (0, 1)) as [p q]. cbn [fst snd] in *.
  assert (Hq : 0 < q) by apply R. pose proof (X_gt1 N rd B0 B1 B2 p q (proj1 R)) as X1.
  assert (E : w = ev f (S k) (X N p q)).
  { rewrite <- V at 1. rewrite (lim_ev f (S k) C). f_equal. rewrite <- T. apply lim_ext. intros n. rewrite CFCore.shiftn_at, CFShort.shiftn_at. reflexivity. }
  pose proof (ev_cpq f C (S k) (X N p q)) as Ev. rewrite cpq_SS in Ev. destruct Ev as [Dp Ev]; [lra|]. rewrite <- E in Ev.
  pose proof (PQ_det f k) as Det. set (P := PP f (S k)) in *. set (P' := PP f k) in *. set (Q := QQ f (S k)) in *. set (Q' := QQ f k) in *. clearbody P P' Q Q'.
  assert (Qp : (0 < IZR q)%R) by (apply IZR_lt; auto). unfold X in *. fold w in Ev, Dp, X1.
  assert (Dp2 : (0 < IZR Q * (IZR p + w) + IZR Q' * IZR q)%R).
  { replace (IZR Q * (IZR p + w) + IZR Q' * IZR q)%R with ((IZR Q * ((IZR p + w) / IZR q) + IZR Q') * IZR q)%R by (field; lra). apply Rmult_lt_0_compat; lra. }
  assert (K : (w * (IZR Q * (IZR p + w) + IZR Q' * IZR q) = IZR P * (IZR p + w) + IZR P' * IZR q)%R).
  { apply (Rmult_eq_reg_r (/ IZR q)); [|apply Rinv_neq_0_compat; lra].
    replace (w * (IZR Q * (IZR p + w) + IZR Q' * IZR q) * / IZR q)%R with (w * (IZR Q * ((IZR p + w) / IZR q) + IZR Q'))%R by (field; lra).
    rewrite Ev at 1. field. split; lra. }
  assert (K2 : (IZR (Q * p + Q' * q - P) * w = IZR (P * p + P' * q - N * Q))%R).
  { rewrite !minus_IZR, !plus_IZR, !mult_IZR, <- w_sq. lra. }
  apply lin_indep in K2. destruct K2 as [K3 K4]. rewrite <- Det.
  transitivity (P * P - Q * (N * Q)); [ring|]. replace (N * Q) with (P * p + P' * q) by lia. replace (P * P) with (P * (Q * p + Q' * q)) by (f_equal; lia). ring.
Qed.

Lemma a0_rd : coef rd (0, 1) = rd.
Proof. unfold coef. cbn [fst snd]. rewrite Z.add_0_r. apply Z.div_1_r. Qed.

Lemma return_iff n : (1 <= n)%nat -> St (S n) (0, 1) = St 1 (0, 1) <-> snd (St n (0, 1)) = 1.
Proof.
  intros Hn. destruct N_bounds as (B0 & B1 & B2 & B3 & _).
  rewrite (root_return N rd 1 B0 B1 B2 ltac:(lia) ltac:(lia) ltac:(exists N; ring) n Hn), a0_rd. destruct n as [|n]; [lia|].
  pose proof (iter_BR N rd B0 B1 B2 n _ w_B) as R. destruct (St (S n) (0, 1)) as [p q]. cbn [fst snd] in *. split; intros K; [congruence|]. subst q.
  destruct R as ((_ & Hp & _) & Hr). cbn [fst snd] in *. f_equal. lia.
Qed.

Lemma L_pos : (1 <= L)%nat.
Proof. exact (z_L g t fuel s w z F1 Ns Es D w_gt1 H). Qed.
Lemma returns_mult n : (1 <= n)%nat -> St (S n) (0, 1) = St 1 (0, 1) <-> exists k, (1 <= k)%nat /\ n = (k * L)%nat.
Proof.
  intros Hn. destruct N_bounds as (B0 & B1 & B2 & B3 & _). pose proof L_pos as HL.
  pose proof (z_back g t fuel s w z F1 Ns Es D w_gt1 H N rd 0 1 B0 B1 B2 w_state w_B) as Bk. fold L in Bk.
  set (x1 := St 1 (0, 1)) in *. assert (Ad : forall m, St (S m) (0, 1) = St m x1) by (intros m; unfold x1; rewrite <- iter_add; f_equal; lia). rewrite Ad in Bk |- *.
  assert (M : forall k, St (k * L) x1 = x1) by (induction k as [|k IH]; [reflexivity|]; cbn [Nat.mul]; rewrite iter_add, IH; exact Bk).
  split.
  - intros E. pose proof (Nat.div_mod n L ltac:(lia)) as Dm. pose proof (Nat.mod_upper_bound n L ltac:(lia)) as Hm.
    assert (Er : St (n mod L) x1 = x1).
    { rewrite <- E at 2. rewrite Dm at 2. rewrite Nat.add_comm, iter_add, (Nat.mul_comm L), M. reflexivity. }
    assert (Z0 : (n mod L = 0)%nat).
    { destruct (Nat.eq_dec (n mod L) 0) as [K|K]; [auto|]. exfalso. destruct (z_return g t fuel s w z F1 Ns Es D w_gt1 H N rd 0 1 B0 B1 B2 w_state w_B (n mod L)) as [_ K2]; [lia| |fold L in K2; lia].
      rewrite Ad. exact Er. }
    exists (n / L)%nat. split; [|lia]. destruct (n / L)%nat eqn:En; [|lia]. cbn in *. lia.
  - intros (k & _ & ->). apply M.
Qed.

Lemma item n : nth_item (conv_next BigU) n (cf_convergents z) = Ok (Some (Ratio (PP f (S n)) (QQ f (S n)))).
Proof.
  destruct (z_facts g t fuel s w z F1 Ns Es D w_gt1 H) as (W & Fz & Ng & C & V).
  rewrite (conv_nth BigU z n W (fun j _ => big_fit z j W)), (conv_item_eq z n (inf_has z n Fz)), Ng. cbn [sgnb]. rewrite Z.mul_1_l. reflexivity.
Qed.

(** solutions are convergents *)
Lemma solution_item x y : 0 < x -> 0 < y -> Z.abs (x * x - N * (y * y)) = 1 -> exists n, nth_item (conv_next BigU) n (cf_convergents z) = Ok (Some (Ratio x y)).
Proof.
  intros Hx Hy E. destruct (z_facts g t fuel s w z F1 Ns Es D w_gt1 H) as (W & Fz & Ng & C & V). destruct N_bounds as (_ & _ & _ & _ & N2).
  apply (legendre z (Ratio x y) W).
  - unfold lowest. cbn [numer denom]. split; [lia|].
    pose proof (Z.gcd_nonneg x y) as G0. destruct (Z.gcd_divide_l x y) as [u Hu]. destruct (Z.gcd_divide_r x y) as [v Hv]. set (e := Z.gcd x y) in *.
    assert (Dv : (e | 1)). { destruct (Z.abs_eq_or_opp (x * x - N * (y * y))) as [K|K]; rewrite K in E; [exists (u * x - N * v * y)|exists (N * v * y - u * x)]; nia. }
    apply Z.divide_1_r in Dv. lia.
  - cbn [denom]. rewrite (cf_val_inf z Fz), Ng, V. cbn [sgnb]. rewrite Rmult_1_l. unfold rval. cbn [numer denom].
    assert (Xp : (0 < IZR x)%R) by (apply IZR_lt; auto). assert (Yp : (0 < IZR y)%R) by (apply IZR_lt; auto). pose proof w_gt1 as W1. pose proof w_sq as W2.
    assert (Ge : y <= x). { destruct (Z.abs_eq_or_opp (x * x - N * (y * y))) as [K|K]; rewrite K in E; nia. } apply IZR_le in Ge.
    assert (Ab : (Rabs (IZR x * IZR x - IZR N * (IZR y * IZR y)) = 1)%R) by (rewrite <- !mult_IZR, <- minus_IZR, <- abs_IZR, E; reflexivity).
    replace (IZR x * IZR x - IZR N * (IZR y * IZR y))%R with (- ((w - IZR x / IZR y) * (IZR y * (IZR x + w * IZR y))))%R in Ab by (rewrite <- W2; field; lra).
    rewrite Rabs_Ropp, Rabs_mult in Ab. assert (Wy : (IZR y < w * IZR y)%R) by (clear - W1 Yp; nra).
    assert (P0 : (0 < 2 * IZR y * IZR y)%R) by (clear - Yp; nra).
    assert (P : (2 * IZR y * IZR y < IZR y * (IZR x + w * IZR y))%R) by (clear - Wy Ge Yp; nra).
    rewrite (Rabs_pos_eq (IZR y * (IZR x + w * IZR y))) in Ab by lra.
    set (K := (IZR y * (IZR x + w * IZR y))%R) in *. clearbody K.
    replace (Rabs (w - IZR x / IZR y)) with (/ K)%R; [apply Rinv_lt_contravar; [apply Rmult_lt_0_compat; lra|auto]|].
    apply (Rmult_eq_reg_r K); [|lra]. rewrite Ab. field. lra.
Qed.

Lemma pell_iff x y e : 0 < x -> 0 < y -> (Z.abs e = 1) ->
  (x * x - N * (y * y) = e <-> exists k, (1 <= k)%nat /\ nth_item (conv_next BigU) (k * L - 1) (cf_convergents z) = Ok (Some (Ratio x y)) /\ e = (-1) ^ Z.of_nat (k * L)).
Proof.
  intros Hx Hy He. pose proof L_pos as HL. destruct N_bounds as (B0 & B1 & B2 & B3 & _). split.
  - intros E. destruct (solution_item x y Hx Hy ltac:(rewrite E; auto)) as [n Hn]. pose proof Hn as Hn'. rewrite item in Hn. injection Hn as E1 E2.
    pose proof (norm_conv n) as Nm. rewrite E1, E2, E in Nm. assert (Sp : 0 < snd (St (S n) (0, 1))) by apply (iter_BR N rd B0 B1 B2 n _ w_B).
    assert (S1 : snd (St (S n) (0, 1)) = 1) by (destruct (alt_cases (S n)) as [K|K]; rewrite K in Nm; lia).
    apply (return_iff (S n) ltac:(lia)) in S1. apply (returns_mult (S n) ltac:(lia)) in S1. destruct S1 as (k & Hk & Ek). exists k. split; [auto|].
    rewrite <- Ek. replace (S n - 1)%nat with n by lia. split; [auto|]. rewrite <- alt_pow, Nm.
    assert (snd (St (S n) (0, 1)) = 1) as ->; [|ring]. apply return_iff; [lia|]. apply returns_mult; [lia|]. exists k. auto.
  - intros (k & Hk & Hn & ->). assert (Ek : exists n, (k * L)%nat = S n) by (exists (k * L - 1)%nat; nia). destruct Ek as [n Ek]. rewrite Ek in Hn |- *. replace (S n - 1)%nat with n in Hn by lia.
    rewrite item in Hn. injection Hn as E1 E2. pose proof (norm_conv n) as Nm. rewrite E1, E2 in Nm. rewrite Nm.
    assert (snd (St (S n) (0, 1)) = 1) as ->. { apply return_iff; [lia|]. apply returns_mult; [lia|]. exists k. auto. }
    rewrite <- alt_pow. ring.
Qed.

Lemma item_pos n : 1 <= PP f (S n) /\ 1 <= QQ f (S n).
Proof.
  destruct (z_facts g t fuel s w z F1 Ns Es D w_gt1 H) as (W & Fz & Ng & C & V). split; [|apply QQ_mono; exact C].
  destruct N_bounds as (B0 & B1 & B2 & B3 & _).
  assert (F0 : 1 <= f 0%nat). { unfold f. rewrite (z_coef g t fuel s w z F1 Ns Es D w_gt1 H N rd 0 1 B0 B1 B2 w_state w_B 0). cbn [iter]. rewrite a0_rd. auto. }
  assert (K : 1 <= PP f n /\ 1 <= PP f (S n)); [|tauto]. induction n as [|n IH]; [rewrite PP_0, PP_1; lia|]. split; [tauto|]. rewrite PP_SS. pose proof (proj2 C n). unfold f in *. nia.
Qed.
Lemma item_mono n m : (n <= m)%nat -> PP f (S n) <= PP f (S m) /\ QQ f (S n) <= QQ f (S m).
Proof.
  destruct (z_facts g t fuel s w z F1 Ns Es D w_gt1 H) as (W & Fz & Ng & C & V). fold f in C. intros Hm. induction m as [|m IH]; [assert (n = 0)%nat as -> by lia; lia|].
  destruct (Nat.eq_dec n (S m)) as [->|Ne]; [lia|]. destruct IH as [I1 I2]; [lia|]. split.
  - rewrite (PP_SS f m). pose proof (proj2 C m). pose proof (item_pos m). pose proof (PP_mono f C m). nia.
  - destruct (QQ_mono f C (S m)) as (_ & ? & _). lia.
Qed.

(** the smallest solution *)
Lemma pell_least : exists x y, nth_item (conv_next BigU) ((if Nat.even L then L else 2 * L) - 1) (cf_convergents z) = Ok (Some (Ratio x y)) /\ 0 < x /\ 0 < y /\
  x * x - N * (y * y) = 1 /\ forall x' y', 0 < x' -> 0 < y' -> x' * x' - N * (y' * y') = 1 -> x <= x' /\ y <= y'.
Proof.
  pose proof L_pos as HL. set (k0 := (if Nat.even L then 1 else 2)%nat).
  assert (E0 : ((if Nat.even L then L else 2 * L) = k0 * L)%nat) by (unfold k0; destruct (Nat.even L); lia). rewrite E0.
  assert (Ev : alt (k0 * L) = 1). { unfold alt, k0. destruct (Nat.even L) eqn:Ee; [rewrite Nat.mul_1_l, Ee; reflexivity|]. rewrite Nat.even_mul. reflexivity. }
  assert (K0 : (1 <= k0)%nat) by (unfold k0; destruct (Nat.even L); lia).
  exists (PP f (S (k0 * L - 1))), (QQ f (S (k0 * L - 1))). pose proof (item_pos (k0 * L - 1)) as [P1 P2]. split; [apply item|]. split; [lia|]. split; [lia|]. split.
  - apply (pell_iff _ _ 1); [lia|lia|reflexivity|]. exists k0. split; [auto|]. split; [apply item|]. rewrite <- alt_pow. auto.
  - intros x' y' Hx Hy E. apply (pell_iff x' y' 1 Hx Hy eq_refl) in E. destruct E as (k & Hk & Hi & Es'). rewrite item in Hi. injection Hi as <- <-. rewrite <- alt_pow in Es'.
    apply item_mono. assert (k0 <= k)%nat; [|nia]. unfold k0 in *. destruct (Nat.even L) eqn:Ee; [auto|]. destruct (Nat.eq_dec k 1) as [->|]; [|lia]. exfalso.
    unfold alt in Es'. rewrite Nat.mul_1_l, Ee in Es'. discriminate.
Qed.

(** x^2 - N y^2 = -1 has a solution exactly if the period is odd *)
Lemma pell_negative : (exists x y, x * x - N * (y * y) = -1) <-> Nat.odd L = true.
Proof.
  pose proof L_pos as HL. split.
  - intros (x & y & E). assert (Hy : y <> 0) by (intros ->; nia). assert (Hx : x <> 0).
    { intros ->. destruct N_bounds as (_ & _ & _ & _ & N2). assert (1 <= y * y) by nia. nia. }
    assert (E' : Z.abs x * Z.abs x - N * (Z.abs y * Z.abs y) = -1) by (rewrite <- E; rewrite <- !Z.abs_mul, !Z.abs_eq by nia; reflexivity).
    apply (pell_iff _ _ (-1)) in E'; [|lia|lia|reflexivity]. destruct E' as (k & _ & _ & Es'). rewrite <- alt_pow in Es'. unfold alt in Es'. rewrite Nat.even_mul in Es'.
    rewrite <- Nat.negb_even. destruct (Nat.even k), (Nat.even L); cbn in *; auto; discriminate.
  - intros Od. exists (PP f (S (1 * L - 1))), (QQ f (S (1 * L - 1))). pose proof (item_pos (1 * L - 1)) as [P1 P2]. apply (pell_iff _ _ (-1)); [lia|lia|reflexivity|].
    exists 1%nat. split; [auto|]. split; [apply item|]. rewrite <- alt_pow. unfold alt. rewrite Nat.mul_1_l. rewrite <- Nat.negb_even in Od. destruct (Nat.even L); [discriminate|reflexivity].
Qed.
End Pell.
