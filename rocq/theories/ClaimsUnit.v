(** * ClaimsUnit: proofs of the property theorems in PropsUnit.v. *)

From Coq Require Import ZArith Znumtheory Reals Lia Lra Bool List Arith.
From Coquelicot Require Import Coquelicot.
From Verif Require Import Base Ext ModelInt ModelSurd ModelBlock ModelCF ModelConv Spec SpecInt SpecCF SpecUnit Transfer NumFacts GenSound SurdCore SurdArith SurdRound SurdMisc SurdDecide CFOfSurd CFArith CFPell CFUnits IntCore IntArith IntOps IntMore IntDecide IntEuclid ClaimsInt SpecEuclid.
Import ListNotations.
Open Scope Z_scope.

Lemma ring_ctx g n : good_root g n -> 0 < n -> exists T M, (T = 0 \/ T = 1) /\ n = T + (1 + T) * (1 + T) * M /\ omega n = RtoC (X n T (1 + T)) /\
  (forall a, RtoC (valu n T a) = (ZtoC (fst a) - ZtoC (snd a) * omega_conj n)%C) /\ (omega n = ZtoC T - omega_conj n)%C /\ forall a b, nrm n a b = F T M (a + T * b) b.
Proof.
  intros G Hn. destruct (md1 n) eqn:Hm.
  - destruct (md1_quot n Hm) as (k & E & _ & Q). destruct (omega_md1 n Hm) as [W1 W2]. exists 1, k. split; [auto|]. split; [rewrite E; ring|]. rewrite W1, W2, csqrt_nonneg by lia.
    split; [|split; [|split]].
    + unfold X. rewrite <- RtoC_plus. unfold Cdiv. rewrite <- RtoC_inv, <- RtoC_mult by lra. f_equal.
    + intros [p q]. unfold valu, ZtoC. cbn [fst snd]. rewrite <- RtoC_minus. unfold Cdiv. rewrite <- RtoC_inv by lra. rewrite <- !RtoC_mult, <- RtoC_minus. f_equal.
    + unfold ZtoC. rewrite <- RtoC_plus, <- RtoC_minus. unfold Cdiv. rewrite <- RtoC_inv, <- !RtoC_mult, <- RtoC_minus by lra. f_equal. field.
    + intros a b. unfold nrm, F. rewrite Hm, Q. ring.
  - destruct (omega_md0 n Hm) as [W1 W2]. exists 0, n. split; [auto|]. split; [ring|]. rewrite W1, W2, csqrt_nonneg by lia.
    split; [|split; [|split]].
    + unfold X. f_equal. replace (1 + 0) with 1 by reflexivity. field.
    + intros [p q]. unfold valu, ZtoC. cbn [fst snd]. replace (1 + 0) with 1 by reflexivity. rewrite <- RtoC_opp, <- RtoC_mult, <- RtoC_minus. f_equal. field.
    + rewrite ZtoC_0. ring.
    + intros a b. unfold nrm, F. rewrite Hm. ring.
Qed.

Lemma over_pair g n u : over g n u -> qval u = qval (QInt (qcoeffs u) n) /\ qconj u = qconj (QInt (qcoeffs u) n) /\
  nrm (qdiscr u) (q0 (qcoeffs u)) (q1 (qcoeffs u)) = nrm n (q0 (qcoeffs u)) (q1 (qcoeffs u)).
Proof.
  destruct u as [[a b] d]. intros [W O]. cbn [qcoeffs qdiscr q0 q1] in *. destruct (Z.eq_dec b 0) as [->|Nb]; [|rewrite (O Nb); auto].
  unfold qval, qconj. cbn [qcoeffs qdiscr q0 q1]. rewrite !ZtoC_0. split; [ring|]. split; [ring|]. unfold nrm. destruct (md1 d), (md1 n); ring.
Qed.

Lemma over_valu g n T u : (forall a, RtoC (valu n T a) = (ZtoC (fst a) - ZtoC (snd a) * omega_conj n)%C) -> (omega n = ZtoC T - omega_conj n)%C -> over g n u ->
  let a := q0 (qcoeffs u) in let b := q1 (qcoeffs u) in
  qval u = RtoC (valu n T (a + T * b, b)) /\ qconj u = RtoC (valu n T (a, - b)).
Proof.
  intros V O Ou a b. destruct (over_pair g n u Ou) as (E1 & E2 & _). rewrite E1, E2, !V. unfold qval, qconj. cbn [qcoeffs qdiscr fst snd]. fold a b.
  autorewrite with ztoc. split; [rewrite O; ring|ring].
Qed.

Lemma pair_unique g n T a b : good_root g n -> (forall a, RtoC (valu n T a) = (ZtoC (fst a) - ZtoC (snd a) * omega_conj n)%C) -> (omega n = ZtoC T - omega_conj n)%C ->
  valu n T a = valu n T b -> a = b.
Proof.
  intros (S & _) V O E. apply (f_equal RtoC) in E. rewrite !V in E. destruct a as [p q], b as [p' q']. cbn [fst snd] in E.
  assert (K : forall p q, (ZtoC p - ZtoC q * omega_conj n)%C = qval (QInt (QCo (p - T * q) q) n)).
  { intros x y. unfold qval. cbn [qcoeffs qdiscr q0 q1]. rewrite O. unfold Z.sub. autorewrite with ztoc. ring. }
  rewrite !K in E. apply qval_inj in E; [|exact S]. destruct E as [E1 ->]. f_equal. lia.
Qed.

Lemma L_C98_units : forall g t fuel n s z u, fits t 1 = true -> good_root g n -> 0 < n -> normal g s -> sval s = omega n -> surd_to_cf g t fuel s = Ok (Some z) ->
  over g n u ->
  let len := length (p_coeffs z) in
  ((exists e, qint_norm BigI u = Ok e /\ Z.abs e = 1) /\ (exists r, qval u = RtoC r /\ (1 < r)%R)) <->
  exists k p q, (1 <= k)%nat /\ nth_item (conv_next BigU) (k * len - 1) (cf_convergents z) = Ok (Some (Ratio p q)) /\ qval u = (ZtoC p - ZtoC q * omega_conj n)%C.
Proof.
  intros g t fuel n s z u F1 G Hn Ns Es H Ou len. destruct (ring_ctx g n G Hn) as (T & M & HT & HM & Ew & V & O & Nr). rewrite Ew in Es. pose proof (proj1 G) as Sq.
  destruct (over_valu g n T u V O Ou) as [Vu _]. destruct (over_pair g n u Ou) as (_ & _ & Np). set (a := q0 (qcoeffs u)) in *. set (b := q1 (qcoeffs u)) in *.
  assert (K : solu T M (a + T * b, b) <-> exists k, (a + T * b, b) = ends z k).
  { split; [apply (sol_ends n T M HT Hn Sq HM g t fuel s z F1 Ns Es H)|intros [k ->]; apply (ends_sol n T M HT Hn Sq HM g t fuel s z F1 Ns Es H)]. }
  split.
  - intros [(e & He & E1) (r & Er & R1)]. pose proof (qint_norm_ok g BigI u e (proj1 Ou) He) as Ne. fold a b in Ne. rewrite Np, Nr in Ne.
    assert (S : solu T M (a + T * b, b)).
    { apply (unit_pos n T M HT Hn Sq HM); cbn [fst snd]; [rewrite <- Ne; exact E1|]. rewrite Vu in Er. apply RtoC_inj in Er. rewrite Er. exact R1. }
    apply K in S. destruct S as [k Ek]. exists (S k), (fst (ends z k)), (snd (ends z k)). split; [lia|]. split; [apply (ends_item n T M HT Hn Sq HM g t fuel s z F1 Ns Es H)|].
    rewrite Vu, V, Ek. reflexivity.
  - intros (k & p & q & Hk & Hi & Eu). destruct k as [|k]; [lia|]. unfold len in Hi. rewrite (ends_item n T M HT Hn Sq HM g t fuel s z F1 Ns Es H) in Hi. assert (E1 : fst (ends z k) = p) by congruence. assert (E2 : snd (ends z k) = q) by congruence.
    assert (Ep : (a + T * b, b) = ends z k).
    { apply (pair_unique g n T _ _ G V O). apply RtoC_inj. rewrite <- Vu, Eu, V, E1, E2. reflexivity. }
    assert (S : solu T M (a + T * b, b)) by (apply K; exists k; exact Ep). split.
    + destruct (q_int_total g u 1 (proj1 Ou)) as (_ & _ & _ & _ & _ & [e He]). exists e. split; [exact He|]. apply (qint_norm_ok g) in He; [|apply Ou]. fold a b in He. rewrite He, Np, Nr. apply S.
    + exists (valu n T (a + T * b, b)). split; [exact Vu|]. apply (sol_val n T M HT Hn Sq HM z). exact S.
Qed.

Lemma L_C98_norm : forall g t t' fuel n s z u k p q e, fits t 1 = true -> good_root g n -> 0 < n -> normal g s -> sval s = omega n -> surd_to_cf g t fuel s = Ok (Some z) ->
  over g n u -> (1 <= k)%nat -> let len := length (p_coeffs z) in
  nth_item (conv_next BigU) (k * len - 1) (cf_convergents z) = Ok (Some (Ratio p q)) -> qval u = (ZtoC p - ZtoC q * omega_conj n)%C ->
  qint_norm t' u = Ok e -> e = (-1) ^ Z.of_nat (k * len).
Proof.
  intros g t t' fuel n s z u k p q e F1 G Hn Ns Es H Ou Hk len Hi Eu He. destruct (ring_ctx g n G Hn) as (T & M & HT & HM & Ew & V & O & Nr). rewrite Ew in Es. pose proof (proj1 G) as Sq.
  destruct (over_valu g n T u V O Ou) as [Vu _]. destruct (over_pair g n u Ou) as (_ & _ & Np). apply (qint_norm_ok g) in He; [|apply Ou]. rewrite Np, Nr in He.
  set (a := q0 (qcoeffs u)) in *. set (b := q1 (qcoeffs u)) in *.
  destruct k as [|k]; [lia|]. unfold len in Hi. rewrite (ends_item n T M HT Hn Sq HM g t fuel s z F1 Ns Es H) in Hi. assert (E1 : fst (ends z k) = p) by congruence. assert (E2 : snd (ends z k) = q) by congruence.
  assert (Ep : (a + T * b, b) = ends z k).
  { apply (pair_unique g n T _ _ G V O). apply RtoC_inj. rewrite <- Vu, Eu, V, E1, E2. reflexivity. }
  pose proof (ends_F n T M HT Hn Sq HM g t fuel s z F1 Ns Es H k) as Fe. rewrite <- Ep in Fe. cbn [fst snd] in Fe. rewrite He. exact Fe.
Qed.

Lemma power_ok g t n T M u k v : (T = 0 \/ T = 1) -> 0 < n -> ~ square n -> n = T + (1 + T) * (1 + T) * M -> over g n u -> qint_power g t u k = Ok v ->
  over g n v /\ forall z, qval u = RtoC (valu n T (ends z 0)) -> qval v = RtoC (valu n T (pw T M z k)).
Proof.
  intros HT Hn Sq HM Ou. revert v. induction k as [|k IH]; intros v Hv; cbn [qint_power] in Hv.
  - injection Hv as <-. split; [exact Ou|]. intros z E. exact E.
  - apply bind_Ok in Hv. destruct Hv as (p & Hp & Hm). destruct (IH p Hp) as [Op Vp]. apply rle_qint_mul in Hm. destruct (over_mul g n p u v Op Ou Hm) as [Ov Vv].
    split; [exact Ov|]. intros z E. rewrite Vv, (Vp z E), E. cbn [pw]. rewrite (val_mul n T M HT Hn HM), RtoC_mult. reflexivity.
Qed.

Lemma L_C98_powers : forall g t t' fuel n s z u k v p q, fits t 1 = true -> good_root g n -> 0 < n -> normal g s -> sval s = omega n -> surd_to_cf g t fuel s = Ok (Some z) ->
  over g n u -> let len := length (p_coeffs z) in
  nth_item (conv_next BigU) (len - 1) (cf_convergents z) = Ok (Some (Ratio p q)) -> qval u = (ZtoC p - ZtoC q * omega_conj n)%C ->
  qint_power g t' u k = Ok v ->
  exists p' q', nth_item (conv_next BigU) (S k * len - 1) (cf_convergents z) = Ok (Some (Ratio p' q')) /\ qval v = (ZtoC p' - ZtoC q' * omega_conj n)%C.
Proof.
  intros g t t' fuel n s z u k v p q F1 G Hn Ns Es H Ou len Hi Eu Hv. destruct (ring_ctx g n G Hn) as (T & M & HT & HM & Ew & V & O & Nr). rewrite Ew in Es. pose proof (proj1 G) as Sq.
  pose proof (ends_item n T M HT Hn Sq HM g t fuel s z F1 Ns Es H) as It. exists (fst (ends z k)), (snd (ends z k)). split; [apply It|].
  specialize (It 0%nat). rewrite Nat.mul_1_l in It. fold len in It. rewrite Hi in It. assert (E1 : fst (ends z 0) = p) by congruence. assert (E2 : snd (ends z 0) = q) by congruence.
  destruct (power_ok g t' n T M u k v HT Hn Sq HM Ou Hv) as [_ P]. rewrite (P z); [|rewrite Eu, V, E1, E2; reflexivity].
  rewrite <- (ends_pw n T M HT Hn Sq HM g t fuel s z F1 Ns Es H k). apply V.
Qed.

Lemma L_C98_returns : forall g n, good_root g n -> 0 < n -> exists s, normal g s /\ sval s = omega n /\
  exists n0, forall fuel, (n0 <= fuel)%nat -> exists z u p q, surd_to_cf g BigI fuel s = Ok (Some z) /\
    nth_item (conv_next BigU) (length (p_coeffs z) - 1) (cf_convergents z) = Ok (Some (Ratio p q)) /\ over g n u /\ qval u = (ZtoC p - ZtoC q * omega_conj n)%C /\
    forall k, returns (qint_power g BigI u k).
Proof.
  intros g n G Hn. destruct (ring_ctx g n G Hn) as (T & M & HT & HM & Ew & V & O & Nr). pose proof (proj1 G) as Sq.
  assert (Sx : exists s, normal g s /\ sval s = RtoC (X n T (1 + T))).
  { exists (Surd (SCo T 1 (1 + T)) n). split.
    - split; [cbn [coeffs c2]; lia|]. split; [cbn [coeffs c0 c1 c2]; destruct HT as [-> | ->]; reflexivity|]. split; [right; cbn [coeffs c1 discr]; split; [lia|exact Sq]|]. intros _. cbn [discr]; lia.
    - unfold sval, parts. cbn [coeffs discr c0 c1 c2]. rewrite csqrt_nonneg by lia. unfold ZtoC, Cdiv. rewrite <- RtoC_inv by (apply not_0_IZR; lia). rewrite <- !RtoC_mult, <- RtoC_plus, <- RtoC_mult. f_equal. unfold X. rewrite Rmult_1_l. reflexivity. }
  destruct Sx as (s & Ns & Es). exists s. split; [exact Ns|]. split; [rewrite Ew; exact Es|].
  destruct (surd_to_cf_dom_total g s _ Ns Es (w_dom n T M HT Hn Sq HM)) as [n0 Tt]. exists n0. intros fuel Hf. destruct (Tt fuel Hf) as [z Ez].
  pose proof (ends_item n T M HT Hn Sq HM g BigI fuel s z eq_refl Ns Es Ez 0) as It. rewrite Nat.mul_1_l in It.
  set (p := fst (ends z 0)) in *. set (q := snd (ends z 0)) in *. assert (Ou : over g n (QInt (QCo (p - T * q) q) n)) by (split; [right; exact G|intros _; reflexivity]).
  exists z, (QInt (QCo (p - T * q) q) n), p, q. split; [exact Ez|]. split; [exact It|]. split; [exact Ou|].
  split.
  - unfold qval. cbn [qcoeffs qdiscr q0 q1]. rewrite O. unfold Z.sub. autorewrite with ztoc. ring.
  - induction k as [|k [v Hv]]; cbn [qint_power]; [eexists; reflexivity|]. rewrite Hv. cbn [bind]. destruct (power_ok g BigI n T M _ k v HT Hn Sq HM Ou Hv) as [Ov _].
    apply (q_ops_total g v _ (proj1 Ov) (proj1 Ou) (over_nested g n _ _ Ov Ou)).
Qed.

Lemma unit_cases n T M (HT : T = 0 \/ T = 1) (Hn : 0 < n) (HM : n = T + (1 + T) * (1 + T) * M) a b : Z.abs (F T M (a + T * b) b) = 1 ->
  let r := valu n T (a + T * b, b) in let c := valu n T (a, - b) in
  (r = 1 \/ r = -1 \/ 1 < r \/ 1 < - r \/ 1 < c \/ 1 < - c)%R.
Proof.
  intros E r c. assert (P : (r * c = 1 \/ r * c = -1)%R).
  { pose proof (F_val n T M HT Hn HM (a + T * b) b) as Fv. assert (Cc : c = (IZR (a + T * b) - IZR b * X n T (1 + T))%R).
    { unfold c, valu. cbn [fst snd]. pose proof (wc_sum n T M HT HM) as W. set (x := X n T (1 + T)) in *. set (c' := (_ / IZR (1 + T))%R) in *. replace x with (IZR T - c')%R by lra. rewrite (plus_IZR a), (mult_IZR T b), (opp_IZR b). ring. }
    rewrite <- Cc in Fv. change (IZR (F T M (a + T * b) b) = (r * c)%R) in Fv. rewrite <- Fv.
    destruct (Z.abs_eq_or_opp (F T M (a + T * b) b)) as [A|A]; rewrite A in E; [left; rewrite E; reflexivity|right]. rewrite <- (Z.opp_involutive (F T M (a + T * b) b)), E. reflexivity. }
  clearbody r c. destruct (Rle_lt_dec r 1) as [H1|]; [|tauto]. destruct (Rle_lt_dec (- r) 1) as [H2|]; [|tauto]. destruct (Rle_lt_dec c 1) as [H3|]; [|tauto]. destruct (Rle_lt_dec (- c) 1) as [H4|]; [|tauto].
  destruct (Req_dec r 1); [tauto|]. destruct (Req_dec r (-1)); [tauto|]. exfalso.
  assert (A : (Rabs r < 1)%R) by (apply Rabs_def1; lra). assert (B : (Rabs c <= 1)%R) by (apply Rabs_le; lra). assert (D : (Rabs (r * c) = 1)%R) by (destruct P as [-> | ->]; unfold Rabs; destruct Rcase_abs; lra).
  rewrite Rabs_mult in D. pose proof (Rabs_pos r). pose proof (Rabs_pos c). nra.
Qed.

Lemma L_C98_all : forall g t fuel n s z u w e p q, fits t 1 = true -> good_root g n -> 0 < n -> normal g s -> sval s = omega n -> surd_to_cf g t fuel s = Ok (Some z) ->
  over g n u -> nth_item (conv_next BigU) (length (p_coeffs z) - 1) (cf_convergents z) = Ok (Some (Ratio p q)) -> qval u = (ZtoC p - ZtoC q * omega_conj n)%C ->
  over g n w -> qint_norm BigI w = Ok e -> Z.abs e = 1 ->
  qval w = RtoC 1 \/ qval w = (- RtoC 1)%C \/ exists k v, qint_power g BigI u k = Ok v /\ (qval v = qval w \/ qval v = - qval w \/ qval v = qconj w \/ qval v = - qconj w)%C.
Proof.
  intros g t fuel n s z u w e p q F1 G Hn Ns Es H Ou Hi Eu Ow He E1. destruct (ring_ctx g n G Hn) as (T & M & HT & HM & Ew & V & O & Nr). rewrite Ew in Es. pose proof (proj1 G) as Sq.
  destruct (over_valu g n T w V O Ow) as [Vw Cw]. destruct (over_pair g n w Ow) as (_ & _ & Np). apply (qint_norm_ok g) in He; [|apply Ow]. rewrite Np, Nr in He.
  set (a := q0 (qcoeffs w)) in *. set (b := q1 (qcoeffs w)) in *.
  pose proof (ends_item n T M HT Hn Sq HM g t fuel s z F1 Ns Es H 0) as It. rewrite Nat.mul_1_l, Hi in It. assert (P1 : fst (ends z 0) = p) by congruence. assert (P2 : snd (ends z 0) = q) by congruence.
  assert (Eu' : qval u = RtoC (valu n T (ends z 0))) by (rewrite Eu, V, P1, P2; reflexivity).
  assert (Rt : forall k, returns (qint_power g BigI u k)).
  { induction k as [|k [v Hv]]; cbn [qint_power]; [eexists; reflexivity|]. rewrite Hv. cbn [bind]. destruct (power_ok g BigI n T M u k v HT Hn Sq HM Ou Hv) as [Ov _].
    apply (q_ops_total g v _ (proj1 Ov) (proj1 Ou) (over_nested g n _ _ Ov Ou)). }
  assert (K : forall x, Z.abs (F T M (fst x) (snd x)) = 1 -> (1 < valu n T x)%R -> exists k v, qint_power g BigI u k = Ok v /\ qval v = RtoC (valu n T x)).
  { intros x Fx Vx. apply (unit_pos n T M HT Hn Sq HM x Fx) in Vx. destruct (sol_pw n T M HT Hn Sq HM g t fuel s z F1 Ns Es H x Vx) as [k ->]. destruct (Rt k) as [v Hv].
    exists k, v. split; [exact Hv|]. apply (power_ok g BigI n T M u k v HT Hn Sq HM Ou Hv). exact Eu'. }
  assert (Op : forall x y, valu n T (- x, - y) = (- valu n T (x, y))%R) by (intros x y; unfold valu; cbn [fst snd]; rewrite !opp_IZR; ring).
  rewrite He in E1. destruct (unit_cases n T M HT Hn HM a b E1) as [R|[R|[R|[R|[R|R]]]]].
  - left. rewrite Vw, R. reflexivity.
  - right. left. rewrite Vw, R, <- RtoC_opp. f_equal.
  - right. right. destruct (K (a + T * b, b) E1 R) as (k & v & Hv & Ev). exists k, v. split; [exact Hv|]. left. congruence.
  - right. right. rewrite <- Op in R. destruct (K (- (a + T * b), - b)) as (k & v & Hv & Ev); [cbn [fst snd]; rewrite <- E1; f_equal; unfold F; ring|exact R|].
    exists k, v. split; [exact Hv|]. right. left. rewrite Ev, Vw, Op, RtoC_opp. reflexivity.
  - right. right. destruct (K (a, - b)) as (k & v & Hv & Ev); [cbn [fst snd]; rewrite <- E1; f_equal; unfold F; destruct HT as [-> | ->]; ring|exact R|].
    exists k, v. split; [exact Hv|]. right. right. left. congruence.
  - right. right. rewrite <- Op in R. destruct (K (- a, - - b)) as (k & v & Hv & Ev); [cbn [fst snd]; rewrite <- E1; f_equal; unfold F; destruct HT as [-> | ->]; ring|exact R|].
    exists k, v. split; [exact Hv|]. right. right. right. rewrite Ev, Cw, Op, RtoC_opp. reflexivity.
Qed.

Lemma L_C98_negative : forall g t fuel n s z, fits t 1 = true -> good_root g n -> 0 < n -> normal g s -> sval s = omega n -> surd_to_cf g t fuel s = Ok (Some z) ->
  ((exists w, over g n w /\ qint_norm BigI w = Ok (-1)) <-> Nat.odd (length (p_coeffs z)) = true).
Proof.
  intros g t fuel n s z F1 G Hn Ns Es H. destruct (ring_ctx g n G Hn) as (T & M & HT & HM & Ew & V & O & Nr). rewrite Ew in Es. pose proof (proj1 G) as Sq.
  pose proof (ends_F n T M HT Hn Sq HM g t fuel s z F1 Ns Es H) as Fe.
  assert (Od : forall m, (-1) ^ Z.of_nat m = if Nat.even m then 1 else -1) by (intros m; rewrite <- alt_pow; reflexivity). split.
  - intros (w & Ow & He). destruct (over_pair g n w Ow) as (_ & _ & Np). apply (qint_norm_ok g) in He; [|apply Ow]. rewrite Np, Nr in He.
    set (a := q0 (qcoeffs w)) in *. set (b := q1 (qcoeffs w)) in *.
    assert (K : forall x, F T M (fst x) (snd x) = -1 -> (1 < valu n T x)%R -> Nat.odd (length (p_coeffs z)) = true).
    { intros x Fx Vx. apply (unit_pos n T M HT Hn Sq HM x ltac:(rewrite Fx; reflexivity)) in Vx. destruct (sol_ends n T M HT Hn Sq HM g t fuel s z F1 Ns Es H x Vx) as [k Ek].
      specialize (Fe k). rewrite <- Ek, Fx, Od, Nat.even_mul in Fe. rewrite <- Nat.negb_even. destruct (Nat.even (S k)), (Nat.even (length (p_coeffs z))); try reflexivity; discriminate. }
    assert (Op : forall x y, valu n T (- x, - y) = (- valu n T (x, y))%R) by (intros x y; unfold valu; cbn [fst snd]; rewrite !opp_IZR; ring).
    assert (One : forall e, (e = 1 \/ e = -1) -> valu n T (a + T * b, b) = IZR e -> False).
    { intros e E X. assert (Ex : valu n T (a + T * b, b) = valu n T (e, 0)) by (rewrite X; unfold valu; cbn [fst snd]; ring). apply (pair_unique g n T _ _ G V O) in Ex. injection Ex as X1 X2.
      rewrite X1, X2 in He. unfold F in He. destruct E as [-> | ->]; lia. }
    destruct (unit_cases n T M HT Hn HM a b ltac:(rewrite <- He; reflexivity)) as [R|[R|[R|[R|[R|R]]]]].
    + exfalso. apply (One 1); auto.
    + exfalso. apply (One (-1)); auto.
    + apply (K (a + T * b, b)); [exact (eq_sym He)|exact R].
    + rewrite <- Op in R. apply (K _) in R; [exact R|]. cbn [fst snd]. rewrite He. unfold F. ring.
    + apply (K _) in R; [exact R|]. cbn [fst snd]. rewrite He. unfold F. destruct HT as [-> | ->]; ring.
    + rewrite <- Op in R. apply (K _) in R; [exact R|]. cbn [fst snd]. rewrite He. unfold F. destruct HT as [-> | ->]; ring.
  - intros L. set (p := fst (ends z 0)). set (q := snd (ends z 0)). exists (QInt (QCo (p - T * q) q) n). assert (Ou : over g n (QInt (QCo (p - T * q) q) n)) by (split; [right; exact G|intros _; reflexivity]).
    split; [exact Ou|]. destruct (q_int_total g _ 1 (proj1 Ou)) as (_ & _ & _ & _ & _ & [e He]). rewrite He. f_equal. apply (qint_norm_ok g) in He; [|apply Ou]. cbn [qcoeffs qdiscr q0 q1] in He.
    rewrite He, Nr. replace (p - T * q + T * q) with p by ring. unfold p, q. rewrite Fe, Od, Nat.mul_1_l. rewrite <- Nat.negb_even in L. destruct (Nat.even (length (p_coeffs z))); [discriminate|reflexivity].
Qed.
