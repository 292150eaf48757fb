(** * SymE: the continued fraction of e (C47). *)

From Coq Require Import ZArith Reals Lia Lra Psatz Bool List Factorial.
From Coquelicot Require Import Coquelicot.
From Verif Require Import Base Ext ModelBlock ModelGen ModelSymbols Spec SpecGen NumFacts RatioFacts GenSound GenConv GenTail GenMisc GenCont.
Import ListNotations.
Open Scope Z_scope.

(** ** The items *)
Definition e_coeff (n : nat) : Z :=
  match n with O => 2 | S m => if (m mod 3 =? 1)%nat then 2 * (Z.of_nat (m / 3) + 1) else 1 end.

Lemma e_coeff_at q r : (r < 3)%nat -> e_coeff (S (q * 3 + r)) = if (r =? 1)%nat then 2 * (Z.of_nat q + 1) else 1.
Proof.
  intros H. unfold e_coeff. rewrite Nat.add_comm, Nat.mod_add by lia. rewrite Nat.mod_small by lia.
  rewrite Nat.div_add by lia. rewrite Nat.div_small by lia. reflexivity.
Qed.

Lemma split3 m : exists q r, (r < 3)%nat /\ m = (q * 3 + r)%nat.
Proof. exists (m / 3)%nat, (m mod 3)%nat. split; [apply Nat.mod_upper_bound; lia|]. rewrite (Nat.div_mod m 3) at 1 by lia. lia. Qed.

Definition e_state (n : nat) (s : e_st) : Prop :=
  match n with
  | O => s = e_cfrac
  | S m => exists q r, (r < 3)%nat /\ m = (q * 3 + r)%nat /\ s = ESt (2 * (Z.of_nat q + 1)) (Z.of_nat r)
  end.

Lemma e_step t n s v s' : e_state n s -> e_next t s = Ok (Some v, s') -> v = e_coeff n /\ e_state (S n) s'.
Proof.
  intros St H. destruct n as [|m].
  - cbn [e_state] in St. subst s. unfold e_next, e_cfrac in H. cbn [e_i e_m Z.eqb] in H. unfold lift2, addT, chk in H. cbn [bind] in H.
    destruct (fits t (1 + 1)); cbn [bind] in H; [|discriminate]. inversion H; subst. split; [reflexivity|]. exists O, O. split; [lia|]. split; reflexivity.
  - destruct St as (q & r & Hr & E & ->). subst m. rewrite e_coeff_at by auto. unfold e_next in H. cbn [e_i e_m] in H.
    destruct (Z.eqb_spec (2 * (Z.of_nat q + 1)) 0); [lia|]. destruct r as [|[|[|r]]]; [| | |lia]; cbn [Z.of_nat Z.eqb Pos.eqb Pos.of_succ_nat Pos.succ Nat.eqb Z.add Pos.add] in *.
    + inversion H; subst. split; [reflexivity|]. exists q, 1%nat. split; [lia|]. split; [lia|reflexivity].
    + inversion H; subst. split; [reflexivity|]. exists q, 2%nat. split; [lia|]. split; [lia|reflexivity].
    + unfold lift2, addT, chk in H. cbn [bind] in H. destruct (fits t (1 + 1)); cbn [bind] in H; [|discriminate].
      destruct (fits t (1 + 1 + _)); cbn [bind] in H; [|discriminate]. assert (v = 1) by congruence. split; [auto|]. exists (S q), O. split; [lia|]. split; [lia|].
      assert (E : s' = ESt (1 + 1 + 2 * (Z.of_nat q + 1)) 0) by congruence. rewrite E. f_equal. lia.
Qed.

Lemma e_determined t n : forall i s v, e_state i s -> nth_item (e_next t) n s = Ok (Some v) -> v = e_coeff (i + n).
Proof.
  induction n as [|n IH]; intros i s v St H; destruct (nth_item_cases _ _ _ _ H) as (w & s1 & N); destruct (e_step _ _ _ _ _ St N) as (E1 & E2).
  - apply nth_head in H. destruct H as (s2 & H). rewrite N in H. rewrite Nat.add_0_r. congruence.
  - rewrite (nth_item_S _ _ _ _ _ N) in H. rewrite (IH _ _ _ E2 H). f_equal. lia.
Qed.

Lemma e_runs t s : t = BigI \/ t = BigU -> (exists n, e_state n s) -> exists v s', e_next t s = Ok (Some v, s').
Proof.
  intros Ht (n & St). unfold e_next. destruct (Z.eqb_spec (e_i s) 0).
  - unfold lift2, addT, chk. destruct Ht as [->| ->]; cbn [bind fits Z.add Pos.add Pos.succ Z.leb Z.compare]; eauto.
  - destruct (e_m s =? 2); [|eauto]. assert (0 <= e_i s).
    { destruct n as [|m]; cbn [e_state] in St; [subst s; cbn; lia|]. destruct St as (q & r & _ & _ & ->). cbn [e_i]. lia. }
    assert (F : forall z, 0 <= z -> chk t z = Ok z) by (intros z Hz; unfold chk; destruct Ht as [->| ->]; cbn [fits]; [reflexivity|rewrite (proj2 (Z.leb_le 0 z)) by lia; reflexivity]).
    unfold lift2, addT. cbn [bind]. rewrite F by lia. cbn [bind]. rewrite F by lia. cbn [bind]. eauto.
Qed.

Lemma e_big t n : t = BigI \/ t = BigU -> forall i s, e_state i s -> nth_item (e_next t) n s = Ok (Some (e_coeff (i + n))).
Proof.
  intros Ht. induction n as [|n IH]; intros i s St; destruct (e_runs t s Ht (ex_intro _ i St)) as (v & s' & E); destruct (e_step _ _ _ _ _ St E) as (-> & St').
  - rewrite nth_item_0, E, Nat.add_0_r. reflexivity.
  - rewrite (nth_item_S _ _ _ _ _ E), (IH _ _ St'). do 3 f_equal. lia.
Qed.

(** ** Integrals of x^a (x-1)^b e^x over [0, 1] *)
Definition jf (a b : nat) (x : R) : R := (x ^ a * (x - 1) ^ b * exp x)%R.
Definition J (a b : nat) : R := RInt (jf a b) 0 1.

Lemma jf_cont a b x : continuous (jf a b) x.
Proof. unfold jf. apply (ex_derive_continuous (jf a b)). unfold jf. auto_derive. auto. Qed.
Lemma jf_int a b : ex_RInt (jf a b) 0 1.
Proof. apply (ex_RInt_continuous (V := R_CompleteNormedModule) (jf a b)). intros x _. apply jf_cont. Qed.

Lemma J_is a b : is_RInt (jf a b) 0 1 (J a b).
Proof. apply (RInt_correct (V := R_CompleteNormedModule) (jf a b)). apply jf_int. Qed.

Lemma jf_derive a b x : is_derive (jf (S a) (S b)) x (INR (S a) * jf a (S b) x + INR (S b) * jf (S a) b x + jf (S a) (S b) x)%R.
Proof.
  unfold jf. auto_derive; [auto|]. cbn [Init.Nat.pred]. rewrite !S_INR.
  assert (E : forall k : nat, (match k with O => 1 | S _ => INR k + 1 end = INR k + 1)%R) by (intros [|k]; cbn [INR]; ring). rewrite !E. cbn [pow]. unfold Rminus. ring.
Qed.

Lemma J_parts a b : (INR (S a) * J a (S b) + INR (S b) * J (S a) b + J (S a) (S b) = 0)%R.
Proof.
  assert (H : is_RInt (fun x => INR (S a) * jf a (S b) x + INR (S b) * jf (S a) b x + jf (S a) (S b) x)%R 0 1 (minus (jf (S a) (S b) 1) (jf (S a) (S b) 0))).
  { apply (is_RInt_derive (jf (S a) (S b))); [intros x _; apply jf_derive|]. intros x _.
    apply (continuous_plus (fun x => INR (S a) * jf a (S b) x + INR (S b) * jf (S a) b x)%R (jf (S a) (S b))); [|apply jf_cont].
    apply (continuous_plus (fun x => INR (S a) * jf a (S b) x)%R (fun x => INR (S b) * jf (S a) b x)%R);
      [apply (continuous_scal_r (INR (S a)) (jf a (S b)))|apply (continuous_scal_r (INR (S b)) (jf (S a) b))]; apply jf_cont. }
  assert (H2 : is_RInt (fun x => INR (S a) * jf a (S b) x + INR (S b) * jf (S a) b x + jf (S a) (S b) x)%R 0 1 (INR (S a) * J a (S b) + INR (S b) * J (S a) b + J (S a) (S b))%R).
  { apply (is_RInt_plus (fun x => INR (S a) * jf a (S b) x + INR (S b) * jf (S a) b x)%R (jf (S a) (S b))); [|apply J_is].
    apply (is_RInt_plus (fun x => INR (S a) * jf a (S b) x)%R (fun x => INR (S b) * jf (S a) b x)%R);
      [apply (is_RInt_scal (jf a (S b)) 0 1 (INR (S a)))|apply (is_RInt_scal (jf (S a) b) 0 1 (INR (S b)))]; apply J_is. }
  rewrite <- (is_RInt_unique _ _ _ _ H2), (is_RInt_unique _ _ _ _ H). unfold jf, minus, plus, opp. cbn. rewrite Rminus_eq_0. ring.
Qed.

Lemma J_shift a b : J a (S b) = (J (S a) b - J a b)%R.
Proof.
  unfold J. symmetry. rewrite <- (RInt_minus (jf (S a) b) (jf a b)) by apply jf_int. apply RInt_ext. intros x _. unfold jf, minus, plus, opp. cbn. ring.
Qed.

Lemma J00 : J 0 0 = (exp 1 - 1)%R.
Proof.
  apply is_RInt_unique. replace (exp 1 - 1)%R with (minus (exp 1) (exp 0)) by (rewrite exp_0; reflexivity).
  apply (is_RInt_ext exp); [intros x _; unfold jf; cbn; ring|]. apply (is_RInt_derive exp exp); intros x _; [auto_derive; auto; ring|].
  apply (ex_derive_continuous exp). auto_derive. auto.
Qed.

Lemma J10 : J 1 0 = 1%R.
Proof.
  apply is_RInt_unique. replace 1%R with (minus ((1 - 1) * exp 1) ((0 - 1) * exp 0))%R at 2 by (rewrite exp_0; unfold minus, plus, opp; cbn; ring).
  apply (is_RInt_derive (fun x => (x - 1) * exp x)%R (jf 1 0)); intros x _; [unfold jf; auto_derive; auto; ring|apply jf_cont].
Qed.

Lemma J_bound a b : (Rabs (J a b) <= 3)%R.
Proof.
  replace 3%R with ((1 - 0) * 3)%R by ring. apply abs_RInt_le_const; [lra|apply jf_int|]. intros x Hx. unfold jf. rewrite !Rabs_mult.
  assert (E : (exp x <= 3)%R). { apply Rle_trans with (exp 1); [|apply exp_le_3]. destruct (Req_dec x 1) as [->|]; [lra|]. left. apply exp_increasing. lra. }
  rewrite (Rabs_right (exp x)) by (left; apply exp_pos). rewrite <- !RPow_abs.
  assert (P : forall z n, (Rabs z <= 1)%R -> (0 <= Rabs z ^ n <= 1)%R).
  { intros z n Hz. split; [apply pow_le, Rabs_pos|]. rewrite <- (pow1 n). apply pow_incr. split; [apply Rabs_pos|auto]. }
  assert (P1 := P x a ltac:(rewrite Rabs_right; lra)). assert (P2 := P (x - 1)%R b ltac:(rewrite Rabs_left1; lra)). pose proof (exp_pos x).
  replace 3%R with (1 * 1 * 3)%R by ring. apply Rmult_le_compat; try lra; [apply Rmult_le_pos; lra|]. apply Rmult_le_compat; lra.
Qed.

(** ** The remainders P - e Q *)
Definition EA (n : nat) : R := (J n n / INR (fact n))%R.
Definition EB (n : nat) : R := (J (S n) n / INR (fact n))%R.
Definition EC (n : nat) : R := (J n (S n) / INR (fact n))%R.

Lemma fact_S_R n : INR (fact (S n)) = (INR (S n) * INR (fact n))%R.
Proof. change (fact (S n)) with (S n * fact n)%nat. apply mult_INR. Qed.

Lemma EA_S n : EA (S n) = (- (EB n + EC n))%R.
Proof.
  unfold EA, EB, EC. rewrite fact_S_R. pose proof (J_parts n n) as P. assert (INR (fact n) <> 0)%R by apply INR_fact_neq_0. assert (INR (S n) <> 0)%R by (apply not_0_INR; lia).
  replace (J (S n) (S n)) with (- (INR (S n) * J n (S n) + INR (S n) * J (S n) n))%R by lra. field. auto.
Qed.
Lemma EC_eq n : EC n = (EB n - EA n)%R.
Proof. unfold EA, EB, EC. rewrite J_shift. field. apply INR_fact_neq_0. Qed.
Lemma EB_S n : EB (S n) = (- (2 * INR (S n)) * EA (S n) + EC n)%R.
Proof.
  unfold EA, EB, EC. rewrite fact_S_R. pose proof (J_parts n (S n)) as P. pose proof (J_shift n (S n)) as P1. pose proof (J_shift (S n) (S n)) as P2.
  assert (INR (fact n) <> 0)%R by apply INR_fact_neq_0. assert (INR (S n) <> 0)%R by (apply not_0_INR; lia). rewrite P1, P2 in P. rewrite (S_INR (S n)) in P.
  replace (J (S (S n)) (S n)) with (- (2 * INR (S n)) * J (S n) (S n) + INR (S n) * J n (S n))%R by lra. field. auto.
Qed.

Definition e_pairs (n : nat) : Z * Z := (1, e_coeff n).
Definition ED (n : nat) : R := (IZR (gnum e_pairs n) - exp 1 * IZR (gden e_pairs n))%R.

Lemma ED_SS n : ED (S (S n)) = (IZR (e_coeff (S (S n))) * ED (S n) + ED n)%R.
Proof. unfold ED. rewrite gnum_SS, gden_SS. cbn [e_pairs fst snd]. rewrite !plus_IZR, !mult_IZR. ring. Qed.

Lemma ED_values k : ED (k * 3) = EC k /\ ED (k * 3 + 1) = (- EA (S k))%R /\ ED (k * 3 + 2) = EB (S k).
Proof.
  assert (C1 : forall k, e_coeff (k * 3 + 1) = 1) by (intros j; rewrite Nat.add_1_r, <- (Nat.add_0_r (j * 3)), (e_coeff_at j 0) by lia; reflexivity).
  assert (C2 : forall k, e_coeff (k * 3 + 2) = 2 * (Z.of_nat k + 1)) by (intros j; replace (j * 3 + 2)%nat with (S (j * 3 + 1)) by lia; rewrite e_coeff_at by lia; reflexivity).
  assert (C3 : forall k, e_coeff (k * 3 + 3) = 1) by (intros j; replace (j * 3 + 3)%nat with (S (j * 3 + 2)) by lia; rewrite e_coeff_at by lia; reflexivity).
  assert (Two : forall j, ED (j * 3) = EC j -> ED (j * 3 + 1) = (- EA (S j))%R -> ED (j * 3 + 2) = EB (S j)).
  { intros j E1 E2. replace (j * 3 + 2)%nat with (S (S (j * 3))) by lia. rewrite ED_SS. replace (S (S (j * 3))) with (j * 3 + 2)%nat by lia. replace (S (j * 3)) with (j * 3 + 1)%nat by lia.
    rewrite C2, E1, E2, EB_S, mult_IZR, plus_IZR, <- INR_IZR_INZ, S_INR. ring. }
  induction k as [|k (I1 & I2 & I3)].
  - assert (E0 : ED (0 * 3) = EC 0). { unfold ED, EC. cbn [Nat.mul]. rewrite gnum_0, gden_0, J_shift, J00, J10. cbn. field. }
    assert (E1 : ED (0 * 3 + 1) = (- EA 1)%R).
    { rewrite EA_S. unfold ED, EB, EC. cbn [Nat.mul Nat.add]. rewrite gnum_1, gden_1, J_shift, J00, J10. cbn. field. }
    split; [auto|]. split; [auto|]. apply Two; auto.
  - assert (E0 : ED (S k * 3) = EC (S k)).
    { replace (S k * 3)%nat with (S (S (k * 3 + 1))) by lia. rewrite ED_SS. replace (S (S (k * 3 + 1))) with (k * 3 + 3)%nat by lia. replace (S (k * 3 + 1)) with (k * 3 + 2)%nat by lia.
      rewrite C3, I2, I3, EC_eq. ring. }
    assert (E1 : ED (S k * 3 + 1) = (- EA (S (S k)))%R).
    { replace (S k * 3 + 1)%nat with (S (S (k * 3 + 2))) by lia. rewrite ED_SS. replace (S (S (k * 3 + 2))) with (S k * 3 + 1)%nat by lia. replace (S (k * 3 + 2)) with (S k * 3)%nat by lia.
      rewrite C1, E0, I3, EA_S. ring. }
    split; [auto|]. split; [auto|]. apply Two; auto.
Qed.

Lemma div_fact_bound a b n : (Rabs (J a b / INR (fact n)) <= 3)%R.
Proof.
  pose proof (J_bound a b) as B. assert (F : (1 <= INR (fact n))%R) by (apply (le_INR 1); pose proof (lt_O_fact n); lia). unfold Rdiv. rewrite Rabs_mult.
  assert (I1 : (0 < / INR (fact n) <= 1)%R) by (split; [apply Rinv_0_lt_compat; lra|apply Rle_trans with (/ 1)%R; [apply Rinv_le_contravar; lra|lra]]).
  rewrite (Rabs_right (/ _)) by lra. pose proof (Rabs_pos (J a b)). nra.
Qed.

Lemma ED_bound n : (Rabs (ED n) <= 3)%R.
Proof.
  destruct (split3 n) as (q & r & Hr & ->). destruct (ED_values q) as (E1 & E2 & E3).
  destruct r as [|[|[|r]]]; [rewrite Nat.add_0_r, E1; unfold EC|rewrite E2, Rabs_Ropp; unfold EA|rewrite E3; unfold EB|exfalso; clear - Hr; lia]; apply div_fact_bound.
Qed.

Lemma e_coeff_pos n : 1 <= e_coeff n.
Proof. destruct n as [|m]; [cbn; lia|]. unfold e_coeff. destruct (m mod 3 =? 1)%nat; lia. Qed.

Lemma e_den n : Z.of_nat n + 1 <= gden e_pairs (S n) /\ 1 <= gden e_pairs n.
Proof.
  induction n as [|n [IH1 IH2]]; [rewrite gden_1, gden_0; cbn; lia|]. split; [|lia]. rewrite gden_SS. cbn [e_pairs fst snd]. pose proof (e_coeff_pos (S (S n))). nia.
Qed.

Lemma csigned_e : csigned 1 e_coeff.
Proof. split; [cbn; lia|]. intros n _. pose proof (e_coeff_pos n). lia. Qed.

Lemma lim_over c : is_lim_seq (fun n => c * / INR (S n))%R 0%R.
Proof.
  replace (Finite 0%R) with (Rbar_mult c 0%R) by (cbn; f_equal; ring). apply (is_lim_seq_scal_l (fun n => / INR (S n)) c 0%R).
  apply (is_lim_seq_incr_1 (fun n => / INR n)%R). apply (is_lim_seq_inv _ p_infty); [apply is_lim_seq_INR|discriminate].
Qed.

Lemma e_converges : cconverges e_coeff (exp 1).
Proof.
  unfold cconverges, gconverges. change (fun n => (1, e_coeff n)) with e_pairs.
  assert (G : forall n, gval (prefix e_pairs (S n)) = (exp 1 + ED n / IZR (gden e_pairs n))%R).
  { intros n. destruct (gval_gcont e_pairs n eq_refl) as [D ->]; [apply latepos_regular; intros j _; cbn [e_pairs fst snd]; pose proof (e_coeff_pos j); lia|].
    unfold ED. field. apply not_0_IZR; auto. }
  apply (is_lim_seq_ext (fun n => exp 1 + ED n / IZR (gden e_pairs n))%R); [intros n; rewrite G; reflexivity|].
  replace (Finite (exp 1)) with (Finite (exp 1 + 0)) by (rewrite Rplus_0_r; reflexivity).
  apply (is_lim_seq_plus _ _ (exp 1) 0%R); [apply is_lim_seq_const| |reflexivity].
  apply is_lim_seq_incr_1. apply (is_lim_seq_le_le (fun n => - (3 * / INR (S n)))%R _ (fun n => 3 * / INR (S n))%R).
  - intros n. apply Rabs_le_between. pose proof (ED_bound (S n)) as B. destruct (e_den n) as [D _]. apply IZR_le in D. rewrite plus_IZR, <- INR_IZR_INZ, <- S_INR in D.
    assert (P : (0 < INR (S n))%R) by (apply lt_0_INR; lia). unfold Rdiv. rewrite Rabs_mult, Rabs_inv, (Rabs_right (IZR _)) by lra.
    apply Rmult_le_compat; [apply Rabs_pos|left; apply Rinv_0_lt_compat; lra|auto|apply Rinv_le_contravar; auto].
  - replace (Finite 0%R) with (Finite (- 0)) by (f_equal; ring). apply (is_lim_seq_opp _ (Finite 0%R)). apply lim_over.
  - apply lim_over.
Qed.

Lemma e_irrational : irrational (exp 1).
Proof.
  destruct (signed_converges 1 e_coeff (or_introl eq_refl) (proj2 csigned_e)) as (x & C & I). rewrite (cconverges_unique _ _ _ e_converges C). auto.
Qed.
