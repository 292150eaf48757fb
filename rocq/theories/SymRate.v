(** * SymRate: how fast the convergents of the constants close in (C88). *)

From Coq Require Import ZArith Reals Lia Lra Psatz Bool List Factorial Arith.
From Coquelicot Require Import Coquelicot.
From Verif Require Import Base Ext ModelBlock ModelGen ModelSymbols ModelCF Spec SpecCF SpecGen NumFacts RatioFacts GenSound GenConv GenTail GenMisc GenCont GenApprox SymE SymPi SymExp.
Import ListNotations.
Open Scope Z_scope.

(** ** Positive terms: even convergents below, odd ones above *)
Section Sides.
Context (f : nat -> Z * Z) (P : gpositive f).
Let c (n : nat) : R := gval (prefix f (S n)).

Lemma step_side n : if Nat.even n then (c n < c (S n))%R else (c (S n) < c n)%R.
Proof.
  induction n as [|n IH]; [exact (first_step f P)|]. rewrite Nat.even_succ, <- Nat.negb_even.
  destruct (next_between f P n) as [U D]. cbv zeta in U, D. unfold c in *. destruct (Nat.even n); cbn [negb]; [apply U|apply D]; exact IH.
Qed.

Lemma limit_side x n : gconverges f x -> if Nat.even n then (c n < x)%R else (x < c n)%R.
Proof.
  intros C. pose proof (step_side n) as S1. pose proof (limit_between f P x n C) as B. cbv zeta in B. unfold c in *. destruct (Nat.even n); lra.
Qed.

Lemma two_steps x n : gconverges f x -> (Rabs (x - c (S (S n))) < Rabs (x - c n))%R.
Proof.
  intros C. pose proof (limit_side x n C) as A. pose proof (limit_side x (S (S n)) C) as B. pose proof (step_side n) as S1.
  destruct (next_between f P n) as [U D]. cbv zeta in U, D. unfold c in *. cbn [Nat.even] in B.
  destruct (Nat.even n); [specialize (U S1); rewrite !Rabs_right by lra|specialize (D S1); rewrite !Rabs_left by lra]; lra.
Qed.

(** The distance of neighbours shrinks by the factor a_(n+2) B_n / B_(n+2) *)
Lemma width_step n : ((c (S (S n)) - c (S n)) * IZR (gden f (S (S n))) = - (c (S n) - c n) * (IZR (fst (f (S (S n)))) * IZR (gden f n)))%R.
Proof.
  unfold c. rewrite !(gpos_c f P). destruct (gpos_den f P n) as [D1 D2]. destruct (gpos_den f P (S n)) as [_ D3].
  assert (E1 : IZR (gnum f (S (S n))) = (IZR (snd (f (S (S n)))) * IZR (gnum f (S n)) + IZR (fst (f (S (S n)))) * IZR (gnum f n))%R) by (rewrite gnum_SS, plus_IZR, !mult_IZR; reflexivity).
  assert (E2 : IZR (gden f (S (S n))) = (IZR (snd (f (S (S n)))) * IZR (gden f (S n)) + IZR (fst (f (S (S n)))) * IZR (gden f n))%R) by (rewrite gden_SS, plus_IZR, !mult_IZR; reflexivity).
  apply IZR_le in D1, D2, D3.
  replace ((IZR (gnum f (S (S n))) / IZR (gden f (S (S n))) - IZR (gnum f (S n)) / IZR (gden f (S n))) * IZR (gden f (S (S n))))%R
    with (IZR (gnum f (S (S n))) - IZR (gnum f (S n)) / IZR (gden f (S n)) * IZR (gden f (S (S n))))%R by (field; lra).
  rewrite E1, E2. field. lra.
Qed.
End Sides.

(** ** Simple fractions *)
Section Simple.
Context (f : nat -> Z) (P : csigned 1 f).
Let g (n : nat) : Z * Z := (1, f n).

Lemma simple_pos : gpositive g.
Proof. split; [reflexivity|]. intros n Hn. cbn [g fst snd]. pose proof (proj2 P n Hn). lia. Qed.

Lemma simple_det n : Z.abs (gnum g (S n) * gden g n - gnum g n * gden g (S n)) = 1.
Proof.
  induction n as [|n IH]; [rewrite gnum_0, gden_0, gnum_1, gden_1; cbn [g fst snd]; replace ((f 1%nat * f O + 1) * 1 - f O * f 1%nat) with 1 by ring; reflexivity|].
  rewrite gnum_SS, gden_SS. cbn [g fst snd]. fold g.
  replace ((f (S (S n)) * gnum g (S n) + 1 * gnum g n) * gden g (S n) - gnum g (S n) * (f (S (S n)) * gden g (S n) + 1 * gden g n))
    with (- (gnum g (S n) * gden g n - gnum g n * gden g (S n))) by ring. rewrite Z.abs_opp. exact IH.
Qed.

Lemma simple_lowest n : lowest (Ratio (gnum g n) (gden g n)).
Proof.
  destruct (gpos_den g simple_pos n) as [D _]. split; cbn [numer denom]; [lia|].
  pose proof (simple_det n) as H. pose proof (Z.gcd_nonneg (gnum g n) (gden g n)) as G0.
  apply Z.divide_1_r_nonneg; [exact G0|]. rewrite <- H. apply Z.divide_abs_r. apply Z.divide_sub_r; [apply Z.divide_mul_r, Z.gcd_divide_r|apply Z.divide_mul_l, Z.gcd_divide_l].
Qed.

Lemma simple_width n : Rabs (gval (prefix g (S (S n))) - gval (prefix g (S n))) = (/ (IZR (gden g n) * IZR (gden g (S n))))%R.
Proof.
  rewrite !(gpos_c g simple_pos). destruct (gpos_den g simple_pos n) as [D1 D2]. pose proof (simple_det n) as H. apply (f_equal IZR) in H.
  rewrite abs_IZR, minus_IZR, !mult_IZR in H. apply IZR_le in D1, D2.
  replace (IZR (gnum g (S n)) / IZR (gden g (S n)) - IZR (gnum g n) / IZR (gden g n))%R
    with ((IZR (gnum g (S n)) * IZR (gden g n) - IZR (gnum g n) * IZR (gden g (S n))) * / (IZR (gden g n) * IZR (gden g (S n))))%R by (field; lra).
  rewrite Rabs_mult, H, Rmult_1_l. apply Rabs_right. apply Rle_ge, Rlt_le, Rinv_0_lt_compat, Rmult_lt_0_compat; lra.
Qed.

Lemma den_grows n : gden g n <= gden g (S n).
Proof.
  destruct n as [|n]; [rewrite gden_0, gden_1; cbn [g snd]; pose proof (proj2 P 1%nat (le_n _)); lia|]. rewrite gden_SS. cbn [g fst snd]. fold g.
  destruct (gpos_den g simple_pos n) as [D1 D2]. pose proof (proj2 P (S (S n)) ltac:(lia)). nia.
Qed.

Lemma simple_error x n : cconverges f x -> (0 < Rabs (x - gval (prefix g (S n))) < / (IZR (gden g n) * IZR (gden g n)))%R.
Proof.
  intros C. destruct (limit_error g simple_pos x n C) as [E1 E2]. split; [exact E1|]. rewrite simple_width in E2.
  apply (Rlt_le_trans _ _ _ E2). destruct (gpos_den g simple_pos n) as [D1 _]. pose proof (den_grows n) as G. apply IZR_le in D1, G.
  apply Rinv_le_contravar; [apply Rmult_lt_0_compat|apply Rmult_le_compat_l]; lra.
Qed.

Lemma cfl_gval l : l <> nil -> cfl l = gval (map (fun v => (1, v)) l).
Proof.
  induction l as [|v l IH]; [congruence|]. intros _. destruct l as [|w l]; [reflexivity|]. specialize (IH ltac:(discriminate)).
  cbn [map] in *. change (cfl (v :: w :: l)) with (IZR v + / cfl (w :: l))%R.
  change (gval ((1, v) :: (1, w) :: map (fun v => (1, v)) l)) with (IZR v + 1 / gval ((1%Z, w) :: map (fun v => (1%Z, v)) l))%R. rewrite <- IH.
  unfold Rdiv. rewrite Rmult_1_l. reflexivity.
Qed.

Lemma simple_val n : cf_val (CF (prefix f (S n)) nil false) = gval (prefix g (S n)).
Proof.
  unfold cf_val. cbn [negative p_coeffs a_coeffs sgnb]. rewrite Rmult_1_l, cfl_gval by (rewrite prefix_S; discriminate). unfold prefix. rewrite map_map. reflexivity.
Qed.

Lemma simple_plain n : plain_coeffs (prefix f (S n)) nil.
Proof.
  destruct P as [P0 P1]. split; [constructor|]. unfold prefix. destruct n as [|n]; cbn [seq map]; [right; reflexivity|].
  assert (P' : forall k, (1 <= k)%nat -> 1 <= f k) by (intros k Hk; specialize (P1 k Hk); lia).
  split; [specialize (P' 1%nat (le_n _)); lia|]. split; [|split; [|left; lia]].
  - apply List.Forall_forall. intros v Hv. apply in_map_iff in Hv. destruct Hv as (k & <- & Hk). apply in_seq in Hk. specialize (P' k ltac:(lia)). lia.
  - change (f 1%nat :: map f (seq 2 n)) with (map f (seq 1 (S n))). replace (S n) with (n + 1)%nat by lia. rewrite seq_app, map_app. cbn [seq map]. rewrite last_last. apply P'. lia.
Qed.
End Simple.

(** ** pi *)
Lemma pi_den_ratio m : gden pi_items m <= gden pi_items (S m) <= (2 * Z.of_nat m + 5) * ((Z.of_nat m + 1) * (Z.of_nat m + 1)) * gden pi_items m.
Proof.
  induction m as [|m [IH1 IH2]]; [rewrite gden_0, gden_1; cbn; lia|]. rewrite gden_SS. cbn [pi_items fst snd].
  destruct (gpos_den pi_items pi_pos m) as [D1 D2]. replace (Z.of_nat (S m)) with (Z.of_nat m + 1) by lia. pose proof (Zle_0_nat m) as Hz.
  set (z := Z.of_nat m) in *. set (u := gden pi_items m) in *. set (v := gden pi_items (S m)) in *. clearbody z u v. clear IH2.
  assert (H1 : 0 <= (z + 1) * (z + 1)) by nia. split.
  - pose proof (Z.mul_nonneg_nonneg _ _ H1 (ltac:(lia) : 0 <= u)). nia.
  - assert (H2 : (z + 1) * (z + 1) * u <= (z + 1) * (z + 1) * v) by (apply Z.mul_le_mono_nonneg_l; lia).
    assert (H3 : (2 * z + 3) * v + (z + 1) * (z + 1) * v <= (2 * (z + 1) + 5) * ((z + 1 + 1) * (z + 1 + 1)) * v).
    { rewrite <- Z.mul_add_distr_r. apply Z.mul_le_mono_nonneg_r; [lia|]. nia. }
    lia.
Qed.

Lemma pi_shrink m : 5 * ((Z.of_nat m + 2) * (Z.of_nat m + 2)) * gden pi_items (S m) <= gden pi_items (S (S (S m))).
Proof.
  destruct (pi_den_ratio m) as [_ R]. rewrite (gden_SS pi_items (S m)), (gden_SS pi_items m). cbn [pi_items fst snd].
  replace (Z.of_nat (S m)) with (Z.of_nat m + 1) by lia. destruct (gpos_den pi_items pi_pos m) as [D1 D2]. pose proof (Zle_0_nat m) as Hz.
  set (z := Z.of_nat m) in *. set (u := gden pi_items m) in *. set (v := gden pi_items (S m)) in *. clearbody z u v.
  replace ((2 * (z + 1) + 3) * ((2 * z + 3) * v + (z + 1) * (z + 1) * u) + (z + 1 + 1) * (z + 1 + 1) * v)
    with (5 * ((z + 2) * (z + 2)) * v + ((2 * z + 5) * ((z + 1) * (z + 1)) * u - v)) by ring. lia.
Qed.

Lemma pi_width_step n : (5 * Rabs (gval (prefix pi_items (S (S (S (S n))))) - gval (prefix pi_items (S (S (S n))))) <=
  Rabs (gval (prefix pi_items (S (S (S n)))) - gval (prefix pi_items (S (S n)))))%R.
Proof.
  pose proof (width_step pi_items pi_pos (S n)) as W. cbn [pi_items fst snd] in W. pose proof (pi_shrink n) as K.
  destruct (gpos_den pi_items pi_pos (S n)) as [D1 _]. destruct (gpos_den pi_items pi_pos (S (S n))) as [_ D3].
  replace (Z.of_nat (S n) + 1) with (Z.of_nat n + 2) in W by lia. rewrite <- mult_IZR in W.
  set (a := (Z.of_nat n + 2) * (Z.of_nat n + 2)) in *. assert (Ha : 0 <= a) by (unfold a; nia). clearbody a.
  set (w1 := (gval (prefix pi_items (S (S (S (S n))))) - gval (prefix pi_items (S (S (S n)))))%R) in *.
  set (w0 := (gval (prefix pi_items (S (S (S n)))) - gval (prefix pi_items (S (S n))))%R) in *. clearbody w1 w0.
  set (u := gden pi_items (S n)) in *. set (v := gden pi_items (S (S (S n)))) in *. clearbody u v.
  apply (f_equal Rabs) in W. rewrite !Rabs_mult, Rabs_Ropp in W. rewrite (Rabs_right (IZR v)) in W by (apply Rle_ge, IZR_le; lia).
  rewrite (Rabs_right (IZR (a * u))) in W by (apply Rle_ge, IZR_le; nia).
  rewrite <- Z.mul_assoc in K. apply IZR_le in K. rewrite mult_IZR in K. assert (A0 : (0 <= IZR (a * u))%R) by (apply IZR_le; nia). apply IZR_le in D3.
  pose proof (Rabs_pos w0) as P0. set (x := Rabs w1) in *. set (y := Rabs w0) in *. clearbody x y.
  set (s := IZR (a * u)) in *. set (V := IZR v) in *. clearbody s V. clear - W K A0 D3 P0.
  apply (Rmult_le_reg_r V); [lra|]. replace (5 * x * V)%R with (y * (5 * s))%R by lra. apply Rmult_le_compat_l; lra.
Qed.

Lemma pi_width n : (Rabs (gval (prefix pi_items (S (S (S n)))) - gval (prefix pi_items (S (S n)))) <= (/ 5) ^ n)%R.
Proof.
  induction n as [|n IH].
  - rewrite !(gpos_c pi_items pi_pos). unfold gnum, gden. cbn [gcont pi_items Z.of_nat fst snd]. cbn [pow].
    match goal with |- (Rabs (IZR ?a / IZR ?b - IZR ?c / IZR ?d) <= _)%R => let a' := eval vm_compute in a in let b' := eval vm_compute in b in let c' := eval vm_compute in c in let d' := eval vm_compute in d in
      change (Rabs (IZR a' / IZR b' - IZR c' / IZR d') <= 1)%R end. apply Rabs_le. lra.
  - pose proof (pi_width_step n). cbn [pow]. lra.
Qed.

Lemma pi_error n : (0 < Rabs (PI - gval (prefix pi_items (S (S n)))) < (/ 5) ^ n)%R.
Proof.
  destruct (limit_error pi_items pi_pos PI (S n) pi_converges) as [A B]. split; [exact A|]. apply (Rlt_le_trans _ _ _ B). apply pi_width.
Qed.

(** Each convergent of pi is closer than the one before *)
Lemma pi_closer n : (Rabs (PI - gval (prefix pi_items (S (S n)))) < Rabs (PI - gval (prefix pi_items (S n))))%R.
Proof.
  pose proof (limit_side pi_items pi_pos PI n pi_converges) as A. pose proof (limit_side pi_items pi_pos PI (S n) pi_converges) as B. pose proof (limit_side pi_items pi_pos PI (S (S n)) pi_converges) as C.
  cbv zeta in A, B, C. destruct n as [|n].
  - cbn [Nat.even] in A, B, C. unfold prefix in *. cbn [seq map pi_items gval Z.of_nat] in *.
    replace (IZR 0 + IZR 4 / (IZR 1 + IZR ((0 + 1) * (0 + 1)) / IZR (2 * 0 + 3)))%R with 3%R in C by (cbn; field).
    replace (IZR 0 + IZR 4 / IZR 1)%R with 4%R in * by (cbn; field). rewrite Rabs_left by lra. rewrite Rabs_right by lra. lra.
  - pose proof (pi_width_step n) as W. pose proof (step_side pi_items pi_pos (S n)) as S1. pose proof (step_side pi_items pi_pos (S (S n))) as S2. cbv zeta in S1, S2.
    set (c0 := gval (prefix pi_items (S (S n)))) in *. set (c1 := gval (prefix pi_items (S (S (S n))))) in *. set (c2 := gval (prefix pi_items (S (S (S (S n)))))) in *. clearbody c0 c1 c2.
    assert (E2 : Nat.even (S (S n)) = negb (Nat.even (S n))) by (rewrite Nat.even_succ, <- Nat.negb_even; reflexivity).
    change (Nat.even (S (S (S n)))) with (Nat.even (S n)) in C. rewrite E2 in *. destruct (Nat.even (S n)); cbn [negb] in *.
    + rewrite (Rabs_left (c2 - c1)), (Rabs_right (c1 - c0)) in W by lra. rewrite Rabs_left, Rabs_right by lra. lra.
    + rewrite (Rabs_right (c2 - c1)), (Rabs_left (c1 - c0)) in W by lra. rewrite Rabs_right, Rabs_left by lra. lra.
Qed.

(** ** exp *)
Lemma ex_derive_n_exp k x : ex_derive_n exp k x.
Proof. destruct k as [|k]; [exact I|]. exists (exp x). exact (is_derive_n_exp (S k) x). Qed.
Lemma Derive_n_exp k x : Derive_n exp k x = exp x.
Proof. apply is_derive_n_unique. apply is_derive_n_exp. Qed.

Lemma exp_error x n : exists z, (Rmin 0 x <= z <= Rmax 0 x)%R /\
  (exp x - sum_f_R0 (fun k => x ^ k / INR (fact k)) n = x ^ S n / INR (fact (S n)) * exp z)%R.
Proof.
  destruct (Rtotal_order x 0) as [H|[->|H]].
  - set (h := fun y => exp (- y)).
    assert (Dh : forall k y, Derive_n h k y = ((-1) ^ k * exp (- y))%R).
    { intros k y. unfold h. rewrite (Derive_n_comp_opp exp k y), Derive_n_exp; [reflexivity|]. apply filter_forall. intros w j _. apply ex_derive_n_exp. }
    assert (Eh : forall k y, ex_derive_n h k y).
    { intros k y. unfold h. apply (ex_derive_n_comp_opp exp). apply filter_forall. intros w j _. apply ex_derive_n_exp. }
    destruct (Taylor_Lagrange h n 0 (- x)%R) as (z & Hz & E); [lra|intros; apply Eh|].
    exists (- z)%R. rewrite Rmin_right, Rmax_left by lra. split; [lra|]. unfold h in E at 1. rewrite Ropp_involutive in E. rewrite E, Dh. rewrite Rminus_0_r.
    rewrite (sum_eq (fun m => ((- x) ^ m / INR (fact m) * Derive_n h m 0)%R) (fun k => (x ^ k / INR (fact k))%R)).
    2: { intros i _. rewrite Dh, Ropp_0, exp_0. replace (x ^ i)%R with ((- x) ^ i * (-1) ^ i)%R by (rewrite <- Rpow_mult_distr; f_equal; ring). field. apply INR_fact_neq_0. }
    replace (x ^ S n)%R with ((- x) ^ S n * (-1) ^ S n)%R by (rewrite <- Rpow_mult_distr; f_equal; ring). field. apply INR_fact_neq_0.
  - exists 0%R. rewrite Rmin_left, Rmax_left by lra. split; [lra|]. cbn [pow]. rewrite exp_0.
    assert (E : sum_f_R0 (fun k => (0 ^ k / INR (fact k))%R) n = 1%R).
    { induction n as [|n IH]; [cbn; field|]. cbn [sum_f_R0]. rewrite IH. cbn [pow]. unfold Rdiv. ring. }
    rewrite E. unfold Rdiv. ring.
  - destruct (Taylor_Lagrange exp n 0 x) as (z & Hz & E); [lra|intros; apply ex_derive_n_exp|].
    exists z. rewrite Rmin_left, Rmax_right by lra. split; [lra|]. rewrite E, Derive_n_exp. rewrite Rminus_0_r.
    rewrite (sum_eq (fun m => (x ^ m / INR (fact m) * Derive_n exp m 0)%R) (fun k => (x ^ k / INR (fact k))%R)).
    2: { intros i _. rewrite Derive_n_exp, exp_0. ring. }
    ring.
Qed.

Lemma exp_error_bound x n : (Rabs (exp x - sum_f_R0 (fun k => x ^ k / INR (fact k)) n) <= Rabs x ^ S n / INR (fact (S n)) * Rmax 1 (exp x))%R.
Proof.
  destruct (exp_error x n) as (z & Hz & E). rewrite E, Rabs_mult. unfold Rdiv. rewrite Rabs_mult, <- RPow_abs.
  assert (F : (0 < / INR (fact (S n)))%R) by (apply Rinv_0_lt_compat, INR_fact_lt_0). rewrite (Rabs_right (/ INR (fact (S n)))) by lra.
  rewrite (Rabs_right (exp z)) by (left; apply exp_pos). apply Rmult_le_compat_l; [apply Rmult_le_pos; [apply pow_le, Rabs_pos|lra]|].
  destruct (Rle_dec 0 x) as [Hx|Hx].
  - rewrite Rmax_right in Hz by lra. apply Rle_trans with (exp x); [|apply Rmax_r]. destruct (Req_dec z x) as [->|N]; [lra|]. left. apply exp_increasing. lra.
  - rewrite Rmax_left in Hz by lra. apply Rle_trans with 1%R; [|apply Rmax_l]. rewrite <- exp_0. destruct (Req_dec z 0) as [->|N]; [lra|]. left. apply exp_increasing. lra.
Qed.

(** ** e *)
Lemma e_den_big k : (2 ^ S k * INR (fact (S k)) <= IZR (gden e_pairs (3 * k + 2)))%R.
Proof.
  assert (St : forall m, (IZR (e_coeff (S (S m))) * IZR (gden e_pairs (S m)) <= IZR (gden e_pairs (S (S m))))%R).
  { intros m. rewrite gden_SS. cbn [e_pairs fst snd]. rewrite plus_IZR, !mult_IZR. destruct (e_den m) as [_ D]. apply IZR_le in D. lra. }
  assert (Mo : forall m, (IZR (gden e_pairs (S m)) <= IZR (gden e_pairs (S (S m))))%R).
  { intros m. specialize (St m). pose proof (e_coeff_pos (S (S m))) as C. apply IZR_le in C. destruct (e_den m) as [D _]. assert (D' : 1 <= gden e_pairs (S m)) by lia. apply IZR_le in D'. nra. }
  assert (Ec : forall j, e_coeff (3 * j + 2) = 2 * (Z.of_nat j + 1)).
  { intros j. replace (3 * j + 2)%nat with (S (3 * j + 1)) by lia. unfold e_coeff. replace ((3 * j + 1) mod 3)%nat with 1%nat by (symmetry; rewrite Nat.add_comm, Nat.mul_comm, Nat.mod_add by lia; reflexivity).
    cbn [Nat.eqb]. replace ((3 * j + 1) / 3)%nat with j by (symmetry; rewrite Nat.add_comm, Nat.mul_comm, Nat.div_add by lia; reflexivity). lia. }
  induction k as [|k IH].
  - cbn. unfold gden. cbn. lra.
  - replace (3 * S k + 2)%nat with (S (S (3 * k + 3)))%nat by lia. pose proof (St (3 * k + 3)%nat) as H1. pose proof (Mo (3 * k + 2)%nat) as H2. pose proof (Mo (3 * k + 1)%nat) as H3.
    replace (S (3 * k + 3)) with (S (S (3 * k + 2))) in * by lia. replace (S (S (3 * k + 1))) with (S (3 * k + 2)) in H3 by lia. replace (S (3 * k + 1)) with (3 * k + 2)%nat in H3 by lia.
    replace (S (S (S (3 * k + 2)))) with (3 * S k + 2)%nat in * by lia. rewrite Ec in H1.
    assert (H4 : (IZR (gden e_pairs (3 * k + 2)) <= IZR (gden e_pairs (S (S (3 * k + 2)))))%R) by lra.
    rewrite (fact_S_R (S k)). change (2 ^ S (S k))%R with (2 * 2 ^ S k)%R. rewrite mult_IZR, plus_IZR, <- INR_IZR_INZ in H1. rewrite (S_INR (S k)).
    pose proof (pos_INR (S k)) as P1. apply Rle_trans with (2 := H1).
    apply Rle_trans with (2 * (INR (S k) + 1) * IZR (gden e_pairs (3 * k + 2)))%R; [|apply Rmult_le_compat_l; lra].
    apply Rle_trans with (2 * (INR (S k) + 1) * (2 ^ S k * INR (fact (S k))))%R; [|apply Rmult_le_compat_l; lra]. right. ring.
Qed.
