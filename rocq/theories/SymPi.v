(** * SymPi: the continued fraction of pi (C46). *)

From Coq Require Import ZArith Reals Lia Lra Psatz Bool List Factorial.
From Coquelicot Require Import Coquelicot.
From Verif Require Import Base Ext ModelBlock ModelGen ModelSymbols Spec SpecGen NumFacts RatioFacts GenSound GenConv GenTail GenMisc GenCont SymE.
Import ListNotations.
Open Scope Z_scope.

(** ** The items *)
Definition pi_items (n : nat) : Z * Z :=
  match n with O => (1, 0) | S O => (4, 1) | S (S m) => ((Z.of_nat m + 1) * (Z.of_nat m + 1), 2 * Z.of_nat m + 3) end.

Definition pi_state (n : nat) (s : pi_st) : Prop :=
  s = match n with O => PiSt 0 0 | S O => PiSt 1 0 | S (S m) => PiSt (Z.of_nat m + 1) (2 * Z.of_nat m + 3) end.

Lemma pi_step t n s v s' : pi_state n s -> pi_next t s = Ok (Some v, s') -> v = pi_items n /\ pi_state (S n) s'.
Proof.
  unfold pi_state. intros -> H. unfold pi_next, lift2, addT, mulT in H. cbn [bind] in H. apply bind_Ok in H. destruct H as (two & H2 & H).
  assert (E2 : two = 2) by (unfold chk in H2; destruct (fits t (1 + 1)); inversion H2; reflexivity). subst two. clear H2.
  destruct n as [|[|m]]; cbn [pi_a pi_b] in H.
  - cbn [Z.eqb] in H. inversion H; subst. split; reflexivity.
  - cbn [Z.eqb] in H. apply bind_Ok in H. destruct H as (b & H3 & H). apply bind_Ok in H. destruct H as (f & H4 & H). unfold chk in *.
    destruct (fits t (1 + 2)); [|discriminate]. destruct (fits t (2 + 2)); [|discriminate]. inversion H3; inversion H4; subst. inversion H; subst. split; reflexivity.
  - assert (Hm : 0 <= Z.of_nat m) by lia. unfold pi_items. replace (Z.of_nat (S m)) with (Z.of_nat m + 1) by lia. set (z := Z.of_nat m) in *. clearbody z.
    destruct (Z.eqb_spec (z + 1) 0); [lia|]. destruct (Z.eqb_spec (2 * z + 3) 0); [lia|].
    apply bind_Ok in H. destruct H as (sq & H3 & H). apply bind_Ok in H. destruct H as (a & H4 & H). apply bind_Ok in H. destruct H as (b & H5 & H). unfold chk in *.
    destruct (fits t ((z + 1) * (z + 1))); [|discriminate]. destruct (fits t (z + 1 + 1)); [|discriminate]. destruct (fits t (2 * z + 3 + 2)); [|discriminate].
    assert (sq = (z + 1) * (z + 1)) by congruence. assert (a = z + 1 + 1) by congruence. assert (b = 2 * z + 3 + 2) by congruence. subst sq a b.
    assert (v = ((z + 1) * (z + 1), 2 * z + 3)) by congruence. assert (s' = PiSt (z + 1 + 1) (2 * z + 3 + 2)) by congruence. subst v s'. split; [reflexivity|]. f_equal. lia.
Qed.

Lemma pi_determined t n : forall i s v, pi_state i s -> nth_item (pi_next t) n s = Ok (Some v) -> v = pi_items (i + n).
Proof.
  induction n as [|n IH]; intros i s v St H; destruct (nth_item_cases _ _ _ _ H) as (w & s1 & N); destruct (pi_step _ _ _ _ _ St N) as (E1 & E2).
  - apply nth_head in H. destruct H as (s2 & H). rewrite N in H. rewrite Nat.add_0_r. congruence.
  - rewrite (nth_item_S _ _ _ _ _ N) in H. rewrite (IH _ _ _ E2 H). f_equal. lia.
Qed.

Lemma pi_runs t n s : t = BigI \/ t = BigU -> pi_state n s -> exists v s', pi_next t s = Ok (Some v, s').
Proof.
  intros Ht St.
  assert (F : forall z, 0 <= z -> chk t z = Ok z) by (intros z Hz; unfold chk; destruct Ht as [->| ->]; cbn [fits]; [reflexivity|rewrite (proj2 (Z.leb_le 0 z)) by lia; reflexivity]).
  assert (P : 0 <= pi_a s /\ 0 <= pi_b s) by (unfold pi_state in St; subst s; destruct n as [|[|m]]; cbn [pi_a pi_b]; lia).
  unfold pi_next, lift2, addT, mulT. cbn [bind]. rewrite F by lia. cbn [bind]. destruct (pi_a s =? 0); [eauto|]. destruct (pi_b s =? 0).
  - rewrite F by lia. cbn [bind]. rewrite F by lia. cbn [bind]. eauto.
  - rewrite F by nia. cbn [bind]. rewrite F by lia. cbn [bind]. rewrite F by lia. cbn [bind]. eauto.
Qed.

Lemma pi_big t n : t = BigI \/ t = BigU -> forall i s, pi_state i s -> nth_item (pi_next t) n s = Ok (Some (pi_items (i + n))).
Proof.
  intros Ht. induction n as [|n IH]; intros i s St; destruct (pi_runs t i s Ht St) as (v & s' & E); destruct (pi_step _ _ _ _ _ St E) as (-> & St').
  - rewrite nth_item_0, E, Nat.add_0_r. reflexivity.
  - rewrite (nth_item_S _ _ _ _ _ E), (IH _ _ St'). do 3 f_equal. lia.
Qed.

Lemma pi_pos : gpositive pi_items.
Proof. split; [reflexivity|]. intros [|[|m]] H; [lia|cbn; lia|]. cbn [pi_items fst snd]. nia. Qed.

(** ** Integrals of (sqrt 2 cos x - 1)^n over [-pi/4, pi/4] *)
Definition kf (n : nat) (x : R) : R := ((sqrt 2 * cos x - 1) ^ n)%R.
Definition K (n : nat) : R := RInt (kf n) (- (PI / 4)) (PI / 4).

Lemma kf_cont n x : continuous (kf n) x.
Proof. apply (ex_derive_continuous (kf n)). unfold kf. auto_derive. auto. Qed.
Lemma K_is n : is_RInt (kf n) (- (PI / 4)) (PI / 4) (K n).
Proof. apply (RInt_correct (V := R_CompleteNormedModule) (kf n)). apply (ex_RInt_continuous (V := R_CompleteNormedModule) (kf n)). intros x _. apply kf_cont. Qed.

Lemma sqrt2_sq : (sqrt 2 * sqrt 2 = 2)%R. Proof. apply sqrt_sqrt. lra. Qed.

Lemma kf_derive n x : is_derive (fun x => (sqrt 2 * cos x - 1) ^ S n * - (sqrt 2 * sin x))%R x
  (INR (S n) * kf n x - (2 * INR (S n) + 1) * kf (S n) x - INR (S (S n)) * kf (S (S n)) x)%R.
Proof.
  unfold kf. auto_derive; [auto|]. cbn [Init.Nat.pred]. rewrite !S_INR.
  assert (E : forall k : nat, (match k with O => 1 | S _ => INR k + 1 end = INR k + 1)%R) by (intros [|k]; cbn [INR]; ring). rewrite !E. cbn [pow]. unfold Rminus.
  set (c := cos x). set (p := ((sqrt 2 * c + - (1)) ^ n)%R).
  assert (S2 : (sin x * sin x = 1 - c * c)%R) by (pose proof (sin2_cos2 x) as H; unfold Rsqr in H; fold c in H; lra).
  set (s := sin x) in *. pose proof sqrt2_sq as Q. set (r := sqrt 2) in *. clearbody c p s r.
  match goal with |- ?L = ?M => assert (D : (L - M = - (INR n + 1) * p * (r * r * (s * s) - (1 - 2 * (r * c - 1) - (r * c - 1) * (r * c - 1))) * -1)%R) by ring end.
  rewrite S2, Q in D. replace (r * c - 1)%R with (r * c + - (1))%R in D by ring.
  assert (Z0 : (2 * (1 - c * c) - (1 - 2 * (r * c + - (1)) - (r * c + - (1)) * (r * c + - (1))) = c * c * (r * r - 2))%R) by ring.
  rewrite Z0, Q in D. lra.
Qed.

Lemma cos_quarter : (sqrt 2 * cos (PI / 4) = 1)%R.
Proof. rewrite cos_PI4. field. apply Rgt_not_eq, sqrt_lt_R0. lra. Qed.

Lemma K_rec n : (INR (S (S n)) * K (S (S n)) = - (2 * INR (S n) + 1) * K (S n) + INR (S n) * K n)%R.
Proof.
  set (F := fun x => ((sqrt 2 * cos x - 1) ^ S n * - (sqrt 2 * sin x))%R).
  set (f := fun x => (INR (S n) * kf n x - (2 * INR (S n) + 1) * kf (S n) x - INR (S (S n)) * kf (S (S n)) x)%R).
  assert (C : forall c k x, continuous (fun x => c * kf k x)%R x) by (intros c k x; apply (continuous_scal_r c (kf k)); apply kf_cont).
  assert (I : forall c k, is_RInt (fun x => c * kf k x)%R (- (PI / 4)) (PI / 4) (c * K k)%R) by (intros c k; apply (is_RInt_scal (kf k) _ _ c); apply K_is).
  assert (H : is_RInt f (- (PI / 4)) (PI / 4) (minus (F (PI / 4)%R) (F (- (PI / 4))%R))).
  { apply (is_RInt_derive F f); [intros x _; apply kf_derive|]. intros x _. unfold f.
    apply (continuous_minus (fun x => INR (S n) * kf n x - (2 * INR (S n) + 1) * kf (S n) x)%R (fun x => INR (S (S n)) * kf (S (S n)) x)%R); [|apply C].
    apply (continuous_minus (fun x => INR (S n) * kf n x)%R (fun x => (2 * INR (S n) + 1) * kf (S n) x)%R); apply C. }
  assert (H2 : is_RInt f (- (PI / 4)) (PI / 4) (INR (S n) * K n - (2 * INR (S n) + 1) * K (S n) - INR (S (S n)) * K (S (S n)))%R).
  { unfold f. apply (is_RInt_minus (fun x => INR (S n) * kf n x - (2 * INR (S n) + 1) * kf (S n) x)%R (fun x => INR (S (S n)) * kf (S (S n)) x)%R); [|apply I].
    apply (is_RInt_minus (fun x => INR (S n) * kf n x)%R (fun x => (2 * INR (S n) + 1) * kf (S n) x)%R); apply I. }
  pose proof (is_RInt_unique _ _ _ _ H2) as E. rewrite (is_RInt_unique _ _ _ _ H) in E.
  assert (B : forall x, (sqrt 2 * cos x = 1)%R -> F x = 0%R) by (intros x Ex; unfold F; rewrite Ex, Rminus_eq_0, pow_i by lia; ring).
  rewrite (B (PI / 4)%R), (B (- (PI / 4))%R) in E; [|rewrite cos_neg; apply cos_quarter|apply cos_quarter].
  unfold minus, plus, opp in E. cbn in E. cbn. lra.
Qed.

Lemma K0 : K 0 = (PI / 2)%R.
Proof.
  apply is_RInt_unique. replace (PI / 2)%R with (scal (PI / 4 - - (PI / 4)) 1)%R by (unfold scal; cbn; unfold mult; cbn; field).
  apply (is_RInt_ext (fun _ => 1%R)); [intros; reflexivity|]. apply (is_RInt_const (V := R_NormedModule)).
Qed.

Lemma K1 : K 1 = (2 - PI / 2)%R.
Proof.
  apply is_RInt_unique. set (F := fun x => (sqrt 2 * sin x - x)%R).
  replace (2 - PI / 2)%R with (minus (F (PI / 4)) (F (- (PI / 4))))%R.
  - apply (is_RInt_derive F (kf 1)); intros x _; [unfold F, kf; auto_derive; auto; cbn; ring|apply kf_cont].
  - unfold F, minus, plus, opp. cbn. rewrite sin_neg, sin_PI4. assert (sqrt 2 <> 0)%R by (apply Rgt_not_eq, sqrt_lt_R0; lra). pose proof sqrt2_sq. field_simplify_eq; [lra|auto].
Qed.

Lemma K_bound n : (Rabs (K n) <= (1 / 2) ^ n * 4)%R.
Proof.
  assert (PI4 : (0 < PI / 4 <= 1)%R) by (pose proof PI_RGT_0; pose proof PI_4; lra).
  apply Rle_trans with ((PI / 4 - - (PI / 4)) * (1 / 2) ^ n)%R.
  - apply abs_RInt_le_const; [lra|eexists; apply K_is|]. intros x Hx. unfold kf. rewrite <- RPow_abs. apply pow_incr. split; [apply Rabs_pos|].
    assert (Q : (sqrt 2 <= 3 / 2)%R) by (rewrite <- (sqrt_square (3 / 2)) by lra; apply sqrt_le_1; lra). assert (Q0 : (0 < sqrt 2)%R) by (apply sqrt_lt_R0; lra).
    assert (C1 : (cos x <= 1)%R) by apply COS_bound.
    assert (C2 : (cos (PI / 4) <= cos x)%R).
    { destruct (Rle_or_lt 0 x).
      - destruct (Req_dec x (PI / 4)) as [->|]; [lra|]. left. apply cos_decreasing_1; lra.
      - rewrite <- (cos_neg x). destruct (Req_dec (- x) (PI / 4)) as [->|]; [lra|]. left. apply cos_decreasing_1; lra. }
    pose proof cos_quarter as Cq. rewrite Rabs_right; [|nra]. nra.
  - assert (0 <= (1 / 2) ^ n)%R by (apply pow_le; lra). nra.
Qed.

(** ** The remainders *)
Definition pd (n : nat) : R := (IZR (gnum pi_items n) - PI * IZR (gden pi_items n))%R.

Lemma pd_SS n : pd (S (S n)) = ((2 * INR (S n) + 1) * pd (S n) + INR (S n) * INR (S n) * pd n)%R.
Proof.
  unfold pd. rewrite gnum_SS, gden_SS. cbn [pi_items fst snd]. replace (2 * Z.of_nat n + 3) with (2 * Z.of_nat (S n) + 1) by lia. replace (Z.of_nat n + 1) with (Z.of_nat (S n)) by lia.
  rewrite !plus_IZR, !mult_IZR, plus_IZR, mult_IZR, <- INR_IZR_INZ. ring.
Qed.

Lemma pd_K n : pd n = (-2 * INR (fact n) * (-1) ^ n * K n)%R /\ pd (S n) = (-2 * INR (fact (S n)) * (-1) ^ S n * K (S n))%R.
Proof.
  induction n as [|n [IH1 IH2]].
  - rewrite K0, K1. unfold pd. rewrite gnum_0, gden_0, gnum_1, gden_1. cbn. split; field.
  - split; [auto|]. rewrite pd_SS, IH1, IH2. rewrite (fact_S_R (S n)), (fact_S_R n). pose proof (K_rec n) as R. set (a := INR (S (S n))) in *.
    replace (-2 * (a * (INR (S n) * INR (fact n))) * (-1) ^ S (S n) * K (S (S n)))%R with (-2 * (INR (S n) * INR (fact n)) * (-1) ^ S (S n) * (a * K (S (S n))))%R by ring.
    rewrite R. cbn [pow]. ring.
Qed.

Lemma pi_den n : (INR (fact n) <= IZR (gden pi_items n) /\ INR (fact (S n)) <= IZR (gden pi_items (S n)))%R.
Proof.
  induction n as [|n [IH1 IH2]]; [rewrite gden_0, gden_1; cbn; lra|]. split; [auto|]. rewrite gden_SS. cbn [pi_items fst snd].
  replace (2 * Z.of_nat n + 3) with (2 * Z.of_nat (S n) + 1) by lia. replace (Z.of_nat n + 1) with (Z.of_nat (S n)) by lia.
  rewrite !plus_IZR, !mult_IZR, plus_IZR, mult_IZR, <- INR_IZR_INZ. rewrite (fact_S_R (S n)), (S_INR (S n)).
  assert (0 <= INR (S n))%R by apply pos_INR. assert (0 < INR (fact (S n)))%R by apply INR_fact_lt_0. assert (0 < INR (fact n))%R by apply INR_fact_lt_0.
  clear - IH1 IH2 H H0 H1. nra.
Qed.

Lemma pi_converges : gconverges pi_items PI.
Proof.
  unfold gconverges.
  assert (G : forall n, gval (prefix pi_items (S n)) = (PI + pd n / IZR (gden pi_items n))%R).
  { intros n. destruct (gval_gcont pi_items n eq_refl) as [D ->]; [apply latepos_regular; exact (proj2 pi_pos)|]. unfold pd. field. apply not_0_IZR; auto. }
  apply (is_lim_seq_ext (fun n => PI + pd n / IZR (gden pi_items n))%R); [intros n; rewrite G; reflexivity|].
  replace (Finite PI) with (Finite (PI + 0)) by (rewrite Rplus_0_r; reflexivity).
  apply (is_lim_seq_plus _ _ PI 0%R); [apply is_lim_seq_const| |reflexivity].
  assert (L : is_lim_seq (fun n => 8 * (1 / 2) ^ n)%R 0%R).
  { replace (Finite 0%R) with (Rbar_mult 8%R 0%R) by (cbn; f_equal; ring). apply (is_lim_seq_scal_l (fun n => (1 / 2) ^ n)%R 8%R 0%R). apply is_lim_seq_geom. rewrite Rabs_right; lra. }
  apply (is_lim_seq_le_le (fun n => - (8 * (1 / 2) ^ n))%R _ (fun n => 8 * (1 / 2) ^ n)%R).
  - intros n. apply Rabs_le_between. destruct (pd_K n) as [-> _]. destruct (pi_den n) as [D _]. pose proof (K_bound n) as B. assert (Fp : (0 < INR (fact n))%R) by apply INR_fact_lt_0.
    unfold Rdiv. rewrite !Rabs_mult, Rabs_inv, (Rabs_right (IZR (gden _ _))) by lra. rewrite pow_1_abs, (Rabs_right (INR (fact n))) by lra. rewrite (Rabs_left (-2)) by lra.
    replace (- -2 * INR (fact n) * 1 * Rabs (K n) * / IZR (gden pi_items n))%R with (2 * Rabs (K n) * (INR (fact n) / IZR (gden pi_items n)))%R by (field; lra).
    assert (Q : (INR (fact n) / IZR (gden pi_items n) <= 1)%R) by (apply (Rmult_le_reg_r (IZR (gden pi_items n))); [lra|]; unfold Rdiv; rewrite Rmult_assoc, Rinv_l; lra).
    assert (Q0 : (0 <= INR (fact n) / IZR (gden pi_items n))%R) by (apply Rdiv_le_0_compat; lra). pose proof (Rabs_pos (K n)). nra.
  - replace (Finite 0%R) with (Finite (- 0)) by (f_equal; ring). apply (is_lim_seq_opp _ (Finite 0%R)). exact L.
  - exact L.
Qed.
