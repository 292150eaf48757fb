(** * SymExp: the continued fraction of exp(x) (C45). *)

From Coq Require Import ZArith Reals Lia Lra Psatz Bool List Factorial.
From Coquelicot Require Import Coquelicot.
From Verif Require Import Base Ext ModelBlock ModelGen Spec SpecGen NumFacts RatioFacts GenSound GenConv GenCont.
Import ListNotations.
Open Scope Z_scope.

Definition exp_items (x : Z) (n : nat) : Z * Z :=
  match n with O => (1, 1) | S O => (x, 1) | S (S m) => (- ((Z.of_nat m + 1) * x), Z.of_nat m + 2 + x) end.

Lemma exp_step t x i ab s' : exp_next t (ExpSt x (Z.of_nat i)) = Ok (Some ab, s') -> ab = exp_items x i /\ s' = ExpSt x (Z.of_nat (S i)).
Proof.
  unfold exp_next. cbn [exp_i exponent]. intros H. apply bind_Ok in H. destruct H as (r & H1 & H). apply bind_Ok in H. destruct H as (i' & H2 & H).
  unfold addT, chk in H2. destruct (fits t (Z.of_nat i + 1)); [|discriminate]. inversion H2; subst i'. inversion H; subst. split; [|f_equal; lia].
  destruct i as [|[|m]]; [inversion H1; reflexivity|inversion H1; reflexivity|].
  replace (Z.of_nat (S (S m))) with (Z.of_nat m + 2) in H1 by lia. assert (Hm : 0 <= Z.of_nat m) by lia. unfold exp_items. set (z := Z.of_nat m) in *. clearbody z.
  destruct (Z.eqb_spec (z + 2) 0); [lia|]. destruct (Z.eqb_spec (z + 2) 1); [lia|].
  unfold subT, mulT, negT, addT, chk in H1.
  destruct (fits t (z + 2 - 1)); cbn [bind] in H1; [|discriminate].
  destruct (fits t ((z + 2 - 1) * x)); cbn [bind] in H1; [|discriminate].
  destruct (fits t (- ((z + 2 - 1) * x))); cbn [bind] in H1; [|discriminate].
  destruct (fits t (z + 2 + x)); cbn [bind] in H1; [|discriminate]. assert (E : ab = (- ((z + 2 - 1) * x), z + 2 + x)) by congruence. rewrite E. f_equal; ring.
Qed.

Lemma exp_determined t x n : forall i ab, nth_item (exp_next t) n (ExpSt x (Z.of_nat i)) = Ok (Some ab) -> ab = exp_items x (i + n).
Proof.
  induction n as [|n IH]; intros i ab H; destruct (nth_item_cases _ _ _ _ H) as (v & s1 & N); destruct (exp_step _ _ _ _ _ N) as (E1 & E2).
  - apply nth_head in H. destruct H as (s & H). rewrite N in H. inversion H; subst. rewrite Nat.add_0_r. auto.
  - rewrite (nth_item_S _ _ _ _ _ N) in H. subst s1. rewrite (IH _ _ H). f_equal. lia.
Qed.

Lemma exp_big x n : forall i, nth_item (exp_next BigI) n (ExpSt x (Z.of_nat i)) = Ok (Some (exp_items x (i + n))).
Proof.
  assert (St : forall i, exists ab, exp_next BigI (ExpSt x (Z.of_nat i)) = Ok (Some ab, ExpSt x (Z.of_nat (S i)))).
  { intros i. unfold exp_next, subT, mulT, negT, addT, chk. cbn [exp_i exponent fits bind]. replace (Z.of_nat (S i)) with (Z.of_nat i + 1) by lia.
    destruct (Z.of_nat i =? 0); [eexists; reflexivity|]. destruct (Z.of_nat i =? 1); eexists; reflexivity. }
  induction n as [|n IH]; intros i; destruct (St i) as (ab & E); destruct (exp_step _ _ _ _ _ E) as (-> & _).
  - rewrite nth_item_0, E, Nat.add_0_r. reflexivity.
  - rewrite (nth_item_S _ _ _ _ _ E), IH. do 3 f_equal. lia.
Qed.

(** ** The recurrences *)
Lemma exp_den x n : gden (exp_items x) n = Z.of_nat (fact n) /\ gden (exp_items x) (S n) = Z.of_nat (fact (S n)).
Proof.
  induction n as [|n [IH1 IH2]]; [split; [reflexivity|rewrite gden_1; reflexivity]|]. split; [auto|]. rewrite gden_SS, IH1, IH2. cbn [exp_items fst snd].
  change (fact (S (S n))) with (S (S n) * fact (S n))%nat. change (fact (S n)) with (S n * fact n)%nat. rewrite !Nat2Z.inj_mul, !Nat2Z.inj_succ. ring.
Qed.

Lemma exp_num x n : gnum (exp_items x) (S n) = Z.of_nat (S n) * gnum (exp_items x) n + x ^ Z.of_nat (S n).
Proof.
  induction n as [|n IH].
  - rewrite gnum_1, gnum_0. cbn [exp_items fst snd]. change (Z.of_nat 1) with 1. rewrite Z.pow_1_r. ring.
  - rewrite gnum_SS. cbn [exp_items fst snd]. rewrite (Nat2Z.inj_succ (S n)), (Z.pow_succ_r x (Z.of_nat (S n))) by lia.
    replace (x ^ Z.of_nat (S n)) with (gnum (exp_items x) (S n) - Z.of_nat (S n) * gnum (exp_items x) n) by lia. rewrite !Nat2Z.inj_succ. ring.
Qed.

Lemma exp_sum x n : (IZR (gnum (exp_items x) n) / IZR (gden (exp_items x) n))%R = sum_f_R0 (fun k => IZR x ^ k / INR (fact k))%R n.
Proof.
  induction n as [|n IH].
  - cbn. field.
  - rewrite tech5, <- IH, exp_num. rewrite !(proj1 (exp_den x _)), <- !INR_IZR_INZ. change (fact (S n)) with (S n * fact n)%nat. rewrite mult_INR.
    rewrite plus_IZR, mult_IZR, <- INR_IZR_INZ, <- pow_IZR. assert (INR (fact n) <> 0)%R by apply INR_fact_neq_0. assert (INR (S n) <> 0)%R by (apply not_0_INR; lia). field. auto.
Qed.

Lemma exp_series x : is_lim_seq (sum_f_R0 (fun k => IZR x ^ k / INR (fact k))%R) (exp (IZR x)).
Proof.
  pose proof (is_exp_Reals (IZR x)) as H. apply is_pseries_R in H. apply (is_lim_seq_ext (fun n => sum_n (fun k => / INR (fact k) * IZR x ^ k)%R n)); [|exact H].
  intros n. rewrite <- sum_n_Reals. apply sum_n_ext. intros k. unfold Rdiv. apply Rmult_comm.
Qed.
