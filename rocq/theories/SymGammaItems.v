(** * SymGammaItems: the items of Gamma's continued fraction and its convergents (C48). *)

From Coq Require Import ZArith Reals Lia Lra Psatz Bool List Factorial.
From Coquelicot Require Import Coquelicot.
From Verif Require Import Base Ext ModelBlock ModelGen ModelSymbols Spec SpecGen SpecSym NumFacts Transfer SurdCore RatioFacts GenSound GenConv GenMisc GenCont SymGamma.
Import ListNotations.
Open Scope Z_scope.

(** ** The integer sequences *)
Fixpoint gqp (n : nat) : Z * Z :=
  match n with O => (1, 2) | S m => (snd (gqp m), 2 * Z.of_nat (S (S m)) * snd (gqp m) - Z.of_nat (S m) * Z.of_nat (S m) * fst (gqp m)) end.
Definition gq (n : nat) : Z := fst (gqp n).
Lemma gq_SS n : gq (S (S n)) = 2 * Z.of_nat (S (S n)) * gq (S n) - Z.of_nat (S n) * Z.of_nat (S n) * gq n.
Proof. reflexivity. Qed.

(** n * s_n *)
Fixpoint gt (n : nat) : Z :=
  match n with O => 0 | S m => Z.of_nat (S m) * Z.of_nat m * gt m + (Z.of_nat m - 1) * gq m end.
Lemma gt_S n : gt (S n) = Z.of_nat (S n) * Z.of_nat n * gt n + (Z.of_nat n - 1) * gq n.
Proof. reflexivity. Qed.

Definition grho (n : nat) : R :=
  match n with
  | O | 1%nat | 2%nat => 1
  | 3%nat => 3
  | 4%nat => 10
  | S m => INR n / 2 * IZR (gt m)
  end%R.

Definition gamma_items (n : nat) : Z * Z :=
  match n with
  | O => (1, 0) | 1%nat => (1, 2) | 2%nat => (-1, 4) | 3%nat => (-5, 16) | 4%nat => (36, 59) | 5%nat => (-15740, 404)
  | S (S m) => (- (Z.of_nat (S m) * Z.of_nat (S m) * gt (S (S m)) * gt m / 4), Z.of_nat n * Z.of_nat n * gt (S m) + Z.of_nat (S m) * Z.of_nat m / 2 * gq m)
  end.

Lemma gq_pos n : 0 < gq n /\ Z.of_nat (S n) * gq n <= gq (S n).
Proof. induction n as [|n [IH1 IH2]]; [cbn; lia|]. split; [nia|]. rewrite gq_SS. nia. Qed.

Lemma gt_pos n : 0 < gt (4 + n).
Proof.
  induction n as [|n IH]; [reflexivity|]. rewrite Nat.add_succ_r, gt_S. destruct (gq_pos (4 + n)) as [P0 _]. nia.
Qed.
Lemma gt_nz n : gt (S n) <> 0.
Proof. destruct n as [|[|[|n]]]; [vm_compute; discriminate..|]. pose proof (gt_pos n). cbn [Nat.add] in H. lia. Qed.
Lemma gt_even n : Z.Even (Z.of_nat n) -> Z.Even (gt n).
Proof.
  destruct n as [|n]; [intros _; exists 0; reflexivity|]. intros [k E]. rewrite gt_S, E. exists (k * Z.of_nat n * gt n + (k - 1) * gq n). nia.
Qed.

Lemma div2_exact n : 2 * (Z.of_nat (S n) * Z.of_nat n / 2) = Z.of_nat (S n) * Z.of_nat n.
Proof.
  assert (Z.Even (Z.of_nat (S n) * Z.of_nat n)).
  { apply Z.even_spec. rewrite Nat2Z.inj_succ, Z.even_mul, Z.even_succ, <- Z.negb_odd. destruct (Z.odd (Z.of_nat n)); reflexivity. }
  destruct H as [k ->]. rewrite (Z.mul_comm 2 k), Z.div_mul by lia. lia.
Qed.

Lemma div4_exact m : 4 * (Z.of_nat (S m) * Z.of_nat (S m) * gt (S (S m)) * gt m / 4) = Z.of_nat (S m) * Z.of_nat (S m) * gt (S (S m)) * gt m.
Proof.
  destruct (Z.Even_or_Odd (Z.of_nat (S m))) as [[k E]|[k E]].
  - rewrite E. replace (2 * k * (2 * k) * gt (S (S m)) * gt m) with (k * k * gt (S (S m)) * gt m * 4) by ring. rewrite Z.div_mul by lia. ring.
  - destruct (gt_even (S (S m))) as [x X]; [exists (k + 1); lia|]. destruct (gt_even m) as [y Y]; [exists k; lia|]. rewrite X, Y.
    replace (Z.of_nat (S m) * Z.of_nat (S m) * (2 * x) * (2 * y)) with (Z.of_nat (S m) * Z.of_nat (S m) * x * y * 4) by ring. rewrite Z.div_mul by lia. ring.
Qed.

(** s_n *)
Definition sv (n : nat) : R := (IZR (gt n) / INR n)%R.

Lemma sv_nz n : sv (S n) <> 0%R.
Proof. unfold sv, Rdiv. apply Rmult_integral_contrapositive. split; [apply IZR_neq0, gt_nz|]. apply Rinv_neq_0_compat, Rgt_not_eq, SR_pos. Qed.

Lemma sv_SS n : sv (S (S n)) = (INR (S n) * INR (S n) * sv (S n) + INR n / INR (S (S n)) * IZR (gq (S n)))%R.
Proof.
  unfold sv. rewrite (gt_S (S n)), plus_IZR, !mult_IZR, <- !INR_IZR_INZ. replace (Z.of_nat (S n) - 1) with (Z.of_nat n) by lia. rewrite <- INR_IZR_INZ.
  pose proof (SR_pos n). pose proof (SR_pos (S n)). field. lra.
Qed.

Ltac gvals :=
  change (gt 1) with (-1); change (gt 2) with (-2); change (gt 3) with (-5); change (gt 4) with 8; change (gt 5) with 787;
  change (grho 1) with 1%R; change (grho 2) with 1%R; change (grho 3) with 3%R; change (grho 4) with 10%R; change (grho 5) with (INR 5 / 2 * IZR 8)%R.

Lemma items_a m : IZR (fst (gamma_items (S (S m)))) = (grho (S (S m)) * grho (S m) * (- sv (S (S m)) / sv (S m)))%R.
Proof.
  destruct m as [|[|[|[|m]]]].
  1-4: unfold sv; gvals; cbn [gamma_items fst INR]; field.
  { set (k := S (S (S (S m)))). change (fst (gamma_items (S (S k)))) with (- (Z.of_nat (S k) * Z.of_nat (S k) * gt (S (S k)) * gt k / 4)).
    change (grho (S (S k))) with (INR (S (S k)) / 2 * IZR (gt (S k)))%R. change (grho (S k)) with (INR (S k) / 2 * IZR (gt k))%R.
    assert (E := div4_exact k). apply (f_equal IZR) in E. rewrite mult_IZR in E. rewrite !mult_IZR, <- !INR_IZR_INZ in E. rewrite opp_IZR.
    unfold sv. pose proof (SR_pos k). pose proof (SR_pos (S k)). assert (IZR (gt (S k)) <> 0)%R by (apply IZR_neq0, gt_nz).
    match type of E with (4 * ?q = _)%R => replace q with (IZR (Z.of_nat (S k) * Z.of_nat (S k) * gt (S (S k)) * gt k / 4)) in E by reflexivity; set (qq := IZR (Z.of_nat (S k) * Z.of_nat (S k) * gt (S (S k)) * gt k / 4)) in * end.
    replace qq with (4 * qq / 4)%R by field. rewrite E. field. repeat split; auto; lra. }
Qed.

Lemma items_b m : IZR (snd (gamma_items (S (S m)))) = (grho (S (S m)) * (2 * INR (S (S m)) + INR m / INR (S (S m)) * IZR (gq m) / sv (S m)))%R.
Proof.
  destruct m as [|[|[|[|m]]]].
  1-4: unfold sv; gvals; change (gq 0) with 1; change (gq 1) with 2; change (gq 2) with 7; change (gq 3) with 34; cbn [gamma_items snd INR]; field.
  { set (k := S (S (S (S m)))). change (snd (gamma_items (S (S k)))) with (Z.of_nat (S (S k)) * Z.of_nat (S (S k)) * gt (S k) + Z.of_nat (S k) * Z.of_nat k / 2 * gq k).
    change (grho (S (S k))) with (INR (S (S k)) / 2 * IZR (gt (S k)))%R.
    assert (E := div2_exact k). set (hh := Z.of_nat (S k) * Z.of_nat k / 2) in *. apply (f_equal IZR) in E. rewrite !mult_IZR, <- !INR_IZR_INZ in E. rewrite plus_IZR, !mult_IZR, <- !INR_IZR_INZ.
    unfold sv. pose proof (SR_pos k). pose proof (SR_pos (S k)). assert (IZR (gt (S k)) <> 0)%R by (apply IZR_neq0, gt_nz).
    replace (IZR hh) with (2 * IZR hh / 2)%R by field. rewrite E. field. repeat split; auto; lra. }
Qed.

Lemma grho_nz n : grho n <> 0%R.
Proof.
  destruct n as [|[|[|[|[|n]]]]]; cbn [grho]; try lra. apply Rmult_integral_contrapositive. split; [|apply IZR_neq0, gt_nz].
  pose proof (SR_pos (S (S (S (S n))))). lra.
Qed.

(** ** Convergents *)
Lemma gq_Q n : IZR (gq n) = (INR (fact n) * Q n)%R /\ IZR (gq (S n)) = (INR (fact (S n)) * Q (S n))%R.
Proof.
  induction n as [|n [IH1 IH2]].
  - unfold Q, u. cbn. split; field.
  - split; [auto|]. rewrite gq_SS, minus_IZR, !mult_IZR, <- !INR_IZR_INZ, IH1, IH2. pose proof (Q_rec n) as R. rewrite (fact_SR (S n)), (fact_SR n).
    replace (INR (S (S n)) * (INR (S n) * INR (fact n)) * Q (S (S n)))%R with (INR (S n) * INR (fact n) * (INR (S (S n)) * Q (S (S n))))%R by ring. rewrite R. ring.
Qed.

Definition pp (n : nat) : R := (INR (fact n) * P n)%R.
Lemma pp_SS n : pp (S (S n)) = (2 * INR (S (S n)) * pp (S n) - INR (S n) * INR (S n) * pp n - INR n / INR (S (S n)))%R.
Proof.
  unfold pp. pose proof (P_rec n) as R. rewrite (fact_SR (S n)), (fact_SR n) in *. pose proof (fact_pos n). pose proof (SR_pos n). pose proof (SR_pos (S n)).
  replace (INR (S (S n)) * (INR (S n) * INR (fact n)) * P (S (S n)))%R with (INR (S n) * INR (fact n) * (INR (S (S n)) * P (S (S n))))%R by ring. rewrite R. field. lra.
Qed.

Lemma wronskian n : (IZR (gq (S n)) * pp n - IZR (gq n) * pp (S n) = sv (S n))%R.
Proof.
  induction n as [|n IH].
  - unfold pp, P, u, h, sv. cbn. field.
  - rewrite gq_SS, pp_SS, minus_IZR, !mult_IZR, <- !INR_IZR_INZ, sv_SS, <- IH. pose proof (SR_pos (S n)). field. lra.
Qed.

Fixpoint prodrho (n : nat) : R := match n with O => 1%R | S m => (prodrho m * grho (S m))%R end.
Lemma prodrho_nz n : prodrho n <> 0%R.
Proof. induction n as [|n IH]; cbn [prodrho]; [lra|]. apply Rmult_integral_contrapositive. split; [auto|apply grho_nz]. Qed.

Lemma gamma_gcont n :
  (IZR (gnum gamma_items n) = prodrho n * pp n /\ IZR (gden gamma_items n) = prodrho n * IZR (gq n) /\
   IZR (gnum gamma_items (S n)) = prodrho (S n) * pp (S n) /\ IZR (gden gamma_items (S n)) = prodrho (S n) * IZR (gq (S n)))%R.
Proof.
  induction n as [|n (I1 & I2 & I3 & I4)].
  - rewrite gnum_0, gden_0, gnum_1, gden_1. unfold pp, P, u, h. cbn. repeat split; field.
  - split; [exact I3|]. split; [exact I4|]. rewrite gnum_SS, gden_SS, !plus_IZR, !mult_IZR, I1, I2, I3, I4, items_a, items_b.
    pose proof (sv_nz n) as Sn. pose proof (SR_pos (S n)). cbn [prodrho]. pose proof (wronskian n) as W. rewrite sv_SS, pp_SS, gq_SS, minus_IZR, !mult_IZR, <- !INR_IZR_INZ.
    set (s := sv (S n)) in *. set (q1 := IZR (gq (S n))) in *. set (q0 := IZR (gq n)) in *. set (p1 := pp (S n)) in *. set (p0 := pp n) in *. set (r2 := grho (S (S n))). set (r1 := grho (S n)). set (R := prodrho n).
    clearbody s q1 q0 p1 p0 r2 r1 R. split; [|field; lra].
    assert (W' : (q1 * p0 = s + q0 * p1)%R) by lra. 
    replace (r2 * (2 * INR (S (S n)) + INR n / INR (S (S n)) * q0 / s) * (R * r1 * p1) + r2 * r1 * (- (INR (S n) * INR (S n) * s + INR n / INR (S (S n)) * q1) / s) * (R * p0))%R
      with (R * r1 * r2 * (2 * INR (S (S n)) * p1 + INR n / INR (S (S n)) * q0 * p1 / s - INR (S n) * INR (S n) * p0 - INR n / INR (S (S n)) * (q1 * p0) / s))%R by (field; lra).
    rewrite W'. field. lra.
Qed.

Lemma gamma_den n : gden gamma_items n <> 0.
Proof.
  destruct (gamma_gcont n) as (_ & E & _). intros Z0. rewrite Z0 in E. pose proof (prodrho_nz n). destruct (gq_pos n) as [Q0 _]. apply IZR_lt in Q0.
  symmetry in E. apply Rmult_integral in E. destruct E; [auto|lra].
Qed.

Lemma gamma_quot n : (IZR (gnum gamma_items n) / IZR (gden gamma_items n) = P n / Q n)%R.
Proof.
  destruct (gamma_gcont n) as (A & B & _). rewrite A, B. unfold pp. destruct (gq_Q n) as [-> _]. pose proof (prodrho_nz n). pose proof (fact_pos n). pose proof (Q_pos n). field. repeat split; auto; lra.
Qed.

Lemma gamma_lim : is_lim_seq (fun n => IZR (gnum gamma_items n) / IZR (gden gamma_items n))%R euler_gamma.
Proof. apply (is_lim_seq_ext (fun n => P n / Q n)%R); [intros; symmetry; apply gamma_quot|apply PQ_limit]. Qed.

(** ** The iterator *)
Definition gstate (n : nat) (s : gamma_st) : Prop :=
  match n with
  | O => s = GammaSt 0 2 1 (Ratio (-1) 1) (Ratio 1 1)
  | 1%nat => s = GammaSt 1 2 1 (Ratio (-1) 1) (Ratio 1 1)
  | S (S m) => ga_n s = Z.of_nat n /\ ga_qm1 s = gq (S m) /\ ga_qm2 s = gq m /\
      lowest (ga_sm1 s) /\ rval (ga_sm1 s) = sv (S m) /\ lowest (ga_rm1 s) /\ rval (ga_rm1 s) = grho (S m)
  end.

Lemma to_integer_big r z : lowest r -> rval r = IZR z -> ratio_to_integer BigI r = Ok z.
Proof.
  intros L E. destruct (ratio_of_spec z) as [V Lz]. rewrite (lowest_unique r (ratio_of z)) by (auto; congruence).
  unfold ratio_to_integer, lift2, quotT, ratio_of. cbn [numer denom bind Z.eqb]. rewrite Z.quot_1_r. reflexivity.
Qed.

Lemma gamma_transfer t s v s' : gamma_next t s = Ok (Some v, s') -> gamma_next BigI s = Ok (Some v, s').
Proof.
  assert (R : forall t n k, checked t k = Some n -> n = k) by (intros t0 n k; unfold checked; destruct (fits t0 k); congruence).
  unfold gamma_next. destruct s as [k qm1 qm2 sm1 rm1]. destruct (k =? 0); [auto|]. destruct (k =? 1).
  - match goal with |- ?x = _ -> ?y = _ => assert (M : rle x y) by mono; apply M end.
  - destruct (checked t k) as [n|] eqn:C; [|discriminate]. apply R in C. subst n. change (checked BigI k) with (Some k). cbv beta iota.
    match goal with |- ?x = _ -> ?y = _ => assert (M : rle x y) by mono; apply M end.
Qed.

Lemma rho_case m h0 (s1 : ratio) : lowest s1 -> rval s1 = sv (S m) -> 2 * h0 = Z.of_nat (S (S m)) * Z.of_nat (S m) ->
  exists r, (if Z.of_nat (S (S m)) =? 2 then Ok (Ratio 1 1)
             else if Z.of_nat (S (S m)) =? 3 then let! c := unwrap (checked BigI 3) in Ok (ratio_of c)
             else if Z.of_nat (S (S m)) =? 4 then let! c := unwrap (checked BigI 10) in Ok (ratio_of c)
             else ratio_mul BigI (ratio_of h0) s1) = Ok r /\ lowest r /\ rval r = grho (S (S m)).
Proof.
  intros L V Hh. destruct m as [|[|[|m]]].
  - exists (ratio_of 1). destruct (ratio_of_spec 1) as [A B]. split; [reflexivity|]. split; [auto|exact A].
  - exists (ratio_of 3). destruct (ratio_of_spec 3) as [A B]. split; [reflexivity|]. split; [auto|exact A].
  - exists (ratio_of 10). destruct (ratio_of_spec 10) as [A B]. split; [reflexivity|]. split; [auto|exact A].
  - set (k := S (S (S m))) in *. destruct (Z.eqb_spec (Z.of_nat (S (S k))) 2); [unfold k in *; lia|]. destruct (Z.eqb_spec (Z.of_nat (S (S k))) 3); [unfold k in *; lia|]. destruct (Z.eqb_spec (Z.of_nat (S (S k))) 4); [unfold k in *; lia|].
    destruct (ratio_of_spec h0) as [A B]. destruct (ratio_mul_big (ratio_of h0) s1) as (r & E & Vr & Lr); auto. exists r. split; [auto|]. split; [auto|]. rewrite Vr, A, V.
    change (grho (S (S k))) with (INR (S (S k)) / 2 * IZR (gt (S k)))%R. unfold sv. apply (f_equal IZR) in Hh. rewrite !mult_IZR, <- !INR_IZR_INZ in Hh.
    replace (IZR h0) with (2 * IZR h0 / 2)%R by field. rewrite Hh. pose proof (SR_pos k). field. lra.
Qed.

Lemma gamma_step n s : gstate n s -> exists s', gamma_next BigI s = Ok (Some (gamma_items n), s') /\ gstate (S n) s'.
Proof.
  destruct n as [|[|m]].
  - cbn [gstate]. intros ->. eexists. split; reflexivity.
  - cbn [gstate]. intros ->. eexists. split; [reflexivity|]. cbn [gstate ga_n ga_qm1 ga_qm2 ga_sm1 ga_rm1].
    destruct (ratio_of_spec (-1)) as [A B]. destruct (ratio_of_spec 1) as [C D]. repeat (split; [first [reflexivity|exact B|exact D]|]).
    exact C.
  - destruct s as [k qm1 qm2 sm1 rm1]. cbn [gstate ga_n ga_qm1 ga_qm2 ga_sm1 ga_rm1]. intros (-> & -> & -> & Ls & Vs & Lr & Vr).
    unfold gamma_next. set (k := Z.of_nat (S (S m))). assert (Ek : Z.of_nat (S m) = k - 1) by (unfold k; lia). assert (Em : Z.of_nat m = k - 2) by (unfold k; lia). assert (Hk : 2 <= k) by (unfold k; lia).
    destruct (Z.eqb_spec k 0); [lia|]. destruct (Z.eqb_spec k 1); [lia|].
    change (checked BigI k) with (Some k). change (unwrap (checked BigI (k - 1))) with (@Ok Z (k - 1)). change (unwrap (checked BigI (k - 2))) with (@Ok Z (k - 2)). change (unwrap (checked BigI 2)) with (@Ok Z 2).
    cbv beta iota. bigi.
    destruct (ratio_of_spec ((k - 1) * (k - 1))) as [V1 L1].
    destruct (ratio_mul_big (ratio_of ((k - 1) * (k - 1))) sm1) as (x1 & E1 & W1 & M1); auto. rewrite E1. bigi.
    destruct (ratio_new_big (k - 2) k) as (x2 & E2 & W2 & M2); [lia|]. rewrite E2. bigi.
    destruct (ratio_mul_int_big x2 (gq (S m))) as (x3 & E3 & W3 & M3); auto. rewrite E3. bigi.
    destruct (ratio_add_big x1 x3) as (x4 & E4 & W4 & M4); auto. rewrite E4. bigi.
    destruct (ratio_neg_big x4) as (x5 & E5 & W5 & M5 & O5); auto. rewrite E5. bigi.
    assert (Ns : numer sm1 <> 0) by (intros Z0; apply (proj2 (rval_zero sm1 (lowest_okd _ Ls))) in Z0; rewrite Vs in Z0; apply (sv_nz m); auto).
    destruct (ratio_div_big x5 sm1) as (x6 & E6 & W6 & M6); auto. rewrite E6. bigi.
    destruct (ratio_new_big ((k - 2) * gq m) k) as (x7 & E7 & W7 & M7); [lia|]. rewrite E7. bigi.
    destruct (ratio_div_big x7 sm1) as (x8 & E8 & W8 & M8); auto. rewrite E8. bigi.
    destruct (ratio_add_int_big x8 (2 * k)) as (x9 & E9 & W9 & M9); auto. rewrite E9. bigi.
    assert (Hh : 2 * Z.quot (k * (k - 1)) 2 = Z.of_nat (S (S m)) * Z.of_nat (S m)).
    { rewrite Ek. fold k. rewrite Z.quot_div_nonneg by nia. pose proof (div2_exact (S m)) as D. rewrite Ek in D. exact D. }
    destruct (rho_case m _ sm1 Ls Vs Hh) as (r & Er & Lrr & Vrr). fold k in Er.
    rewrite quotB by lia. rewrite bindB. rewrite Er. bigi.
    destruct (ratio_mul_big r rm1) as (y1 & F1 & X1 & N1); auto. rewrite F1. bigi.
    destruct (ratio_mul_big y1 x6) as (y2 & F2 & X2 & N2); auto. rewrite F2. bigi.
    assert (IK : IZR k = INR (S (S m))) by (unfold k; rewrite <- INR_IZR_INZ; reflexivity). assert (IK1 : IZR (k - 1) = INR (S m)) by (rewrite <- Ek, <- INR_IZR_INZ; reflexivity). assert (IK2 : IZR (k - 2) = INR m) by (rewrite <- Em, <- INR_IZR_INZ; reflexivity).
    assert (S4 : rval x4 = sv (S (S m))).
    { rewrite W4, W1, W3, W2, V1, Vs, mult_IZR, IK, IK1, IK2. symmetry. apply sv_SS. }
    rewrite (to_integer_big y2 (fst (gamma_items (S (S m))))); [|exact N2|rewrite X2, X1, W6, W5, S4, Vs, Vrr, Vr; symmetry; apply items_a]. bigi.
    destruct (ratio_mul_big r x9) as (y3 & F3 & X3 & N3); auto. rewrite F3. bigi.
    rewrite (to_integer_big y3 (snd (gamma_items (S (S m))))); [|exact N3|].
    2:{ rewrite X3, W9, W8, W7, Vrr, Vs, !mult_IZR, IK, IK2, items_b. pose proof (sv_nz m). pose proof (SR_pos (S m)). field. split; auto; lra. }
    bigi. eexists. split; [rewrite <- surjective_pairing; reflexivity|].
    cbn [ga_n ga_qm1 ga_qm2 ga_sm1 ga_rm1]. split; [unfold k; lia|]. split; [rewrite gq_SS; fold k; rewrite Ek; ring|]. auto.
Qed.

Lemma gamma_start t s : gamma_gfrac t = Ok s -> gstate 0 s.
Proof.
  unfold gamma_gfrac, lift2, addT, ratio_neg, negT. cbn [bind]. unfold chk. destruct (fits t (1 + 1)); [|discriminate]. cbn [bind numer denom].
  destruct (fits t (- (1))); [|discriminate]. cbn [bind]. intros H. inversion H. reflexivity.
Qed.

Lemma gamma_big n : forall i s, gstate i s -> nth_item (gamma_next BigI) n s = Ok (Some (gamma_items (i + n))).
Proof.
  induction n as [|n IH]; intros i s St; destruct (gamma_step i s St) as (s' & E & St').
  - rewrite nth_item_0, E, Nat.add_0_r. reflexivity.
  - rewrite (nth_item_S _ _ _ _ _ E), (IH _ _ St'). do 3 f_equal. lia.
Qed.

Lemma gamma_step_t t i s v s' : gstate i s -> gamma_next t s = Ok (Some v, s') -> v = gamma_items i /\ gstate (S i) s'.
Proof. intros St H. apply gamma_transfer in H. destruct (gamma_step i s St) as (s2 & E & St'). rewrite H in E. inversion E; subst. auto. Qed.

Lemma gamma_determined t n : forall i s v, gstate i s -> nth_item (gamma_next t) n s = Ok (Some v) -> v = gamma_items (i + n).
Proof.
  induction n as [|n IH]; intros i s v St H; destruct (nth_item_cases _ _ _ _ H) as (w & s1 & N); destruct (gamma_step_t _ _ _ _ _ St N) as (E1 & E2).
  - apply nth_head in H. destruct H as (s2 & H). rewrite N in H. rewrite Nat.add_0_r. congruence.
  - rewrite (nth_item_S _ _ _ _ _ N) in H. rewrite (IH _ _ _ E2 H). f_equal. lia.
Qed.

(** ** The closed form of the auxiliary sequences *)
Lemma rs_rev f n : rs f (S n) = rs (fun j => f (n - j)%nat) (S n).
Proof.
  induction n as [|n IH]; [reflexivity|]. rewrite (rs_shift (fun j => f (S n - j)%nat)). cbn [rs] in *. rewrite Nat.sub_0_r.
  replace (rs (fun j => f (S n - S j)%nat) n + f (S n - S n)%nat)%R with (rs f n + f n)%R by exact IH. ring.
Qed.
Lemma rs_sum f n : rs f (S n) = sum_f_R0 f n.
Proof. induction n as [|n IH]; [cbn; ring|]. cbn [sum_f_R0]. rewrite <- IH. reflexivity. Qed.

Lemma binom_fact n j : (j <= n)%nat -> (INR (binom n j) * INR (fact j) * INR (fact (n - j)) = INR (fact n))%R.
Proof.
  induction j as [|j IH]; intros H; [rewrite binom_0_r, Nat.sub_0_r; cbn [fact INR]; ring|]. rewrite <- IH by lia. pose proof (binom_up n j) as U. rewrite fact_SR.
  replace (n - j)%nat with (S (n - S j)) by lia. rewrite (fact_SR (n - S j)). replace (INR (S (n - S j))) with (INR n - INR j)%R by (replace (S (n - S j)) with (n - j)%nat by lia; rewrite minus_INR by lia; reflexivity).
  replace (INR (binom n (S j)) * (INR (S j) * INR (fact j)) * INR (fact (n - S j)))%R with (INR (S j) * INR (binom n (S j)) * INR (fact j) * INR (fact (n - S j)))%R by ring. rewrite U. ring.
Qed.
Lemma binom_sym n j : (j <= n)%nat -> binom n (n - j) = binom n j.
Proof.
  intros H. apply INR_eq. pose proof (binom_fact n j H) as A. pose proof (binom_fact n (n - j)) as B. replace (n - (n - j))%nat with j in B by lia. specialize (B ltac:(lia)).
  pose proof (fact_pos j). pose proof (fact_pos (n - j)). apply (Rmult_eq_reg_r (INR (fact j) * INR (fact (n - j)))); [nra|nra].
Qed.

Lemma weight_rev n k : (k <= n)%nat -> (INR (fact n) * u n (n - k) = INR (binom n k) ^ 2 * INR (fact k))%R.
Proof.
  intros H. unfold u. rewrite binom_sym by auto. pose proof (binom_fact n k H) as A. rewrite <- A. pose proof (fact_pos (n - k)). field. lra.
Qed.

Lemma gq_sum n : IZR (gq n) = binom_sum n.
Proof.
  destruct (gq_Q n) as [-> _]. unfold Q, binom_sum. rewrite rs_rev, <- rs_scal, <- rs_sum. apply rs_ext. intros k Hk. apply weight_rev. lia.
Qed.
Lemma pp_sum n : pp n = binom_harm_sum n.
Proof.
  unfold pp, P, binom_harm_sum. rewrite rs_rev, <- rs_scal, <- rs_sum. apply rs_ext. intros k Hk. rewrite <- Rmult_assoc, weight_rev by lia. unfold h. replace (n - (n - k))%nat with k by lia. reflexivity.
Qed.
Lemma gamma_quot_sum n : (IZR (gnum gamma_items n) / IZR (gden gamma_items n) = binom_harm_sum n / binom_sum n)%R.
Proof. rewrite gamma_quot, <- pp_sum, <- gq_sum. unfold pp. destruct (gq_Q n) as [-> _]. pose proof (fact_pos n). pose proof (Q_pos n). field. lra. Qed.
