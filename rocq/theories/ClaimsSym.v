(** * ClaimsSym: proofs of the property theorems about exp and the symbolic constants (PropsSym.v). *)

From Coq Require Import ZArith Reals Lia Lra Bool List Arith Factorial.
From Coquelicot Require Import Coquelicot.
From Verif Require Import Base Ext ModelBlock ModelCF ModelGen ModelSymbols Spec SpecCF SpecGen SpecSym Transfer NumFacts RatioFacts GenBlock GenSound GenConv GenTail GenLive GenMisc
  GenCont GenStored ClaimsGen SymExp SymE SymPi PiIrrational SymGamma SymGammaItems.
Import ListNotations.
Open Scope Z_scope.

Lemma nth_mono {I A} (n1 n2 : I -> res (option A * I)) : (forall s, rle (n1 s) (n2 s)) -> forall n s, rle (nth_item n1 n s) (nth_item n2 n s).
Proof. intros M. induction n as [|n IH]; intros s; cbn [nth_item]; apply rle_bind; [apply M| |apply M|]; intros [[v|] s']; try apply rle_refl; apply IH. Qed.

Lemma simp_mono t {I} (n1 n2 : I -> res (option (Z * Z) * I)) : (forall s, rle (n1 s) (n2 s)) -> forall fuel s, rle (simp_next t n1 fuel s) (simp_next t n2 fuel s).
Proof.
  intros M. induction fuel as [|fuel IH]; intros [k it]; cbn [simp_next]; [apply rle_hang|]. apply rle_bind; [apply rle_refl|]. intros [[v|] k']; [apply rle_refl|].
  apply rle_bind; [apply M|]. intros [[[a b]|] it']; [|apply rle_refl]. apply rle_bind; [apply rle_refl|]. intros k2. apply IH.
Qed.

Lemma dec_mono t {I} (n1 n2 : I -> res (option (Z * Z) * I)) : (forall s, rle (n1 s) (n2 s)) -> forall fuel s, rle (dec_next t n1 fuel s) (dec_next t n2 fuel s).
Proof.
  intros M. induction fuel as [|fuel IH]; intros [k it]; cbn [dec_next]; [apply rle_hang|]. apply rle_bind; [apply rle_refl|]. intros ten. apply rle_bind; [apply rle_refl|].
  intros [[v|] k']; [apply rle_refl|]. apply rle_bind; [apply M|]. intros [[[a b]|] it']; [|apply rle_refl]. apply rle_bind; [apply rle_refl|]. intros [[[p q]|] k2]; [apply IH|apply rle_refl].
Qed.

Lemma homo_mono t {I} (n1 n2 : I -> res (option Z * I)) : (forall s, rle (n1 s) (n2 s)) -> forall fuel s, rle (homo_next t n1 fuel s) (homo_next t n2 fuel s).
Proof.
  intros M. induction fuel as [|fuel IH]; intros [k it]; cbn [homo_next]; [apply rle_hang|]. apply rle_bind; [apply rle_refl|]. intros [[v|] k']; [apply rle_refl|].
  apply rle_bind; [apply M|]. intros [[v|] it']; [|apply rle_refl]. apply rle_bind; [apply rle_refl|]. intros k2. apply IH.
Qed.

Lemma L_C45_partial_sum : forall t x n r, nth_item (gconv_next t (exp_next t)) n (gcf_convergents (gcf_exp x)) = Ok (Some r) ->
  lowest r /\ rval r = sum_f_R0 (fun k => IZR x ^ k / INR (fact k))%R n.
Proof.
  intros t x n r H. destruct (gconv_determined t (exp_next t) (gcf_exp x) (exp_items x) n r) as (L & _ & V); auto; [|rewrite <- exp_sum; auto].
  intros j ab Hj. apply (exp_determined t x j O ab). exact Hj.
Qed.

Lemma L_C45_returns : forall x n, exists r, nth_item (gconv_next BigI (exp_next BigI)) n (gcf_convergents (gcf_exp x)) = Ok (Some r).
Proof.
  intros x n. apply (gconv_returns _ _ _ (exp_items x)); [intros j _; apply (exp_big x j O)|reflexivity|]. intros j _. destruct (exp_den x j) as [-> _]. pose proof (lt_O_fact j). lia.
Qed.

Lemma L_C45_limit : forall x, exists c, (forall n, exists r, nth_item (gconv_next BigI (exp_next BigI)) n (gcf_convergents (gcf_exp x)) = Ok (Some r) /\ rval r = c n) /\ is_lim_seq c (exp (IZR x)).
Proof.
  intros x. exists (sum_f_R0 (fun k => IZR x ^ k / INR (fact k))%R). split; [|apply exp_series]. intros n. destruct (L_C45_returns x n) as (r & E). exists r. split; [auto|].
  apply (L_C45_partial_sum _ _ _ _ E).
Qed.

Lemma pi_rle t s : rle (pi_next t s) (pi_next BigI s).
Proof. unfold pi_next. mono. Qed.

Lemma pi_yields t : t = BigI \/ t = BigU -> yields (pi_next t) pi_gfrac pi_items.
Proof. intros Ht n. apply (pi_big t n Ht O). reflexivity. Qed.

Lemma pi_source t n v : nth_item (pi_next t) n pi_gfrac = Ok (Some v) -> v = pi_items n.
Proof. apply (pi_determined t n O). reflexivity. Qed.

Lemma pi_dens n : gden pi_items n <> 0.
Proof. destruct (pi_den n) as [D _]. pose proof (INR_fact_lt_0 n). intros Z0. rewrite Z0 in D. lra. Qed.

Lemma L_C46_items : forall t n v, nth_item (pi_next t) n pi_gfrac = Ok (Some v) ->
  v = match n with O => (1, 0) | 1%nat => (4, 1) | _ => let m := Z.of_nat n in ((m - 1) ^ 2, 2 * m - 1) end.
Proof.
  intros t n v H. rewrite (pi_source t n v H). destruct n as [|[|m]]; [reflexivity..|]. cbn [pi_items]. cbv zeta. rewrite !Nat2Z.inj_succ. f_equal; [rewrite Z.pow_2_r; f_equal; lia|lia].
Qed.

Lemma L_C46_limit : forall t, t = BigI \/ t = BigU -> exists f, yields (pi_next t) pi_gfrac f /\ gpositive f /\ gconverges f PI.
Proof. intros t Ht. exists pi_items. split; [apply pi_yields; auto|]. split; [exact pi_pos|exact pi_converges]. Qed.

Lemma L_C46_convergents : exists c, (forall n, exists r, nth_item (gconv_next BigI (pi_next BigI)) n (gcf_convergents pi_gfrac) = Ok (Some r) /\ rval r = c n) /\ is_lim_seq c PI /\
  forall t n r, nth_item (gconv_next t (pi_next t)) n (gcf_convergents pi_gfrac) = Ok (Some r) -> lowest r /\ rval r = c n.
Proof.
  exists (fun n => IZR (gnum pi_items n) / IZR (gden pi_items n))%R.
  assert (D : forall t n r, nth_item (gconv_next t (pi_next t)) n (gcf_convergents pi_gfrac) = Ok (Some r) -> lowest r /\ rval r = (IZR (gnum pi_items n) / IZR (gden pi_items n))%R).
  { intros t n r H. destruct (gconv_determined t (pi_next t) pi_gfrac pi_items n r) as (L & _ & V); auto. intros j ab Hj. apply (pi_source t). exact Hj. }
  split; [|split; [|exact D]].
  - intros n. destruct (gconv_returns _ (pi_next BigI) pi_gfrac pi_items n) as (r & E); [intros j _; apply (pi_yields BigI); auto|reflexivity|intros j _; apply pi_dens|]. exists r. split; [auto|]. apply (D _ _ _ E).
  - apply (is_lim_seq_ext (fun n => gval (prefix pi_items (S n)))); [|exact pi_converges].
    intros n. apply (gval_gcont pi_items n eq_refl). apply latepos_regular. exact (proj2 pi_pos).
Qed.

Lemma L_C46_simplify : forall t fuel n v, nth_item (simp_next t (pi_next t) fuel) n (gcf_simplify pi_gfrac) = Ok (Some v) -> cf_digit PI n v.
Proof.
  intros t fuel n v H. apply (nth_mono _ (simp_next t (pi_next BigI) fuel)) in H; [|apply simp_mono; apply pi_rle].
  apply (L_C41_simplify t _ (pi_next BigI) pi_gfrac pi_items PI fuel n v); auto using pi_yields, pi_pos, pi_converges.
Qed.

Lemma L_C46_simplify_returns : forall n, exists fuel v, forall fuel', (fuel <= fuel')%nat -> nth_item (simp_next BigI (pi_next BigI) fuel') n (gcf_simplify pi_gfrac) = Ok (Some v).
Proof. intros n. apply (L_C41_returns _ (pi_next BigI) pi_gfrac pi_items PI n); auto using pi_yields, pi_pos, pi_converges, pi_irrational. Qed.

Lemma L_C46_decimals : forall t fuel n c, nth_item (dec_next t (pi_next t) fuel) n (gcf_decimals pi_gfrac) = Ok (Some c) ->
  exists m, isfloor (10 ^ n * PI)%R m /\ c = 48 + m mod 10.
Proof.
  intros t fuel n v H. apply (nth_mono _ (dec_next t (pi_next BigI) fuel)) in H; [|apply dec_mono; apply pi_rle].
  apply (L_C43_decimals t _ (pi_next BigI) pi_gfrac pi_items PI fuel n v); auto using pi_yields, pi_pos, pi_converges. pose proof PI_RGT_0. pose proof PI_4. lra.
Qed.

Lemma L_C46_decimals_returns : forall n, exists fuel c, forall fuel', (fuel <= fuel')%nat -> nth_item (dec_next BigI (pi_next BigI) fuel') n (gcf_decimals pi_gfrac) = Ok (Some c).
Proof. intros n. apply (L_C43_returns _ (pi_next BigI) pi_gfrac pi_items PI n); auto using pi_yields, pi_pos, pi_converges, pi_irrational. pose proof PI_RGT_0. pose proof PI_4. lra. Qed.

Lemma e_rle t s : rle (e_next t s) (e_next BigI s).
Proof. unfold e_next. mono. Qed.

Lemma e_yields t : t = BigI \/ t = BigU -> yields (e_next t) e_cfrac e_coeff.
Proof. intros Ht n. apply (e_big t n Ht O). reflexivity. Qed.

Lemma e_source t n v : nth_item (e_next t) n e_cfrac = Ok (Some v) -> v = e_coeff n.
Proof. apply (e_determined t n O). reflexivity. Qed.

Lemma e_signed : csigned 1 e_coeff.
Proof. split; [cbn; lia|]. intros n _. pose proof (e_coeff_pos n). lia. Qed.

Lemma L_C47_items : forall t v,
  (nth_item (e_next t) 0 e_cfrac = Ok (Some v) -> v = 2) /\
  forall k, (nth_item (e_next t) (3 * k + 1) e_cfrac = Ok (Some v) -> v = 1) /\
    (nth_item (e_next t) (3 * k + 2) e_cfrac = Ok (Some v) -> v = 2 * (Z.of_nat k + 1)) /\
    (nth_item (e_next t) (3 * k + 3) e_cfrac = Ok (Some v) -> v = 1).
Proof.
  intros t v. split; [intros H; rewrite (e_source t _ v H); reflexivity|]. intros k. split; [|split]; intros H; rewrite (e_source t _ v H).
  - replace (3 * k + 1)%nat with (S (k * 3 + 0)) by lia. rewrite e_coeff_at by lia. reflexivity.
  - replace (3 * k + 2)%nat with (S (k * 3 + 1)) by lia. rewrite e_coeff_at by lia. reflexivity.
  - replace (3 * k + 3)%nat with (S (k * 3 + 2)) by lia. rewrite e_coeff_at by lia. reflexivity.
Qed.

Lemma L_C47_limit : forall t, t = BigI \/ t = BigU -> exists f, yields (e_next t) e_cfrac f /\ csigned 1 f /\ cconverges f (exp 1).
Proof. intros t Ht. exists e_coeff. split; [apply e_yields; auto|]. split; [exact e_signed|exact e_converges]. Qed.

Lemma L_C47_digits : forall t n v, nth_item (e_next t) n e_cfrac = Ok (Some v) -> cf_digit (exp 1) n v.
Proof.
  intros t n v H. rewrite (e_source t n v H). destruct (L_C42_coefficients 1 e_coeff (or_introl eq_refl) e_signed) as (x & C & _ & D).
  rewrite (cconverges_unique _ _ _ e_converges C). apply D.
Qed.

Lemma L_C47_homo : forall t a b c d fuel n v, 0 <= c * d -> c <> 0 \/ d <> 0 ->
  nth_item (homo_next t (e_next t) fuel) n (icf_homo e_cfrac a b c d) = Ok (Some v) -> cf_digit ((IZR a * exp 1 + IZR b) / (IZR c * exp 1 + IZR d)) n v.
Proof.
  intros t a b c d fuel n v D N H. apply (nth_mono _ (homo_next t (e_next BigI) fuel)) in H; [|apply homo_mono; apply e_rle].
  apply (L_C42_homo_partial t _ (e_next BigI) e_cfrac e_coeff (exp 1) 1 a b c d fuel n v); auto using e_yields, e_signed, e_converges; [left; lia|].
  intros E. destruct (Z.eq_dec c 0) as [->|C]; [destruct N; [lia|]; rewrite Rmult_0_l, Rplus_0_l in E; apply eq_IZR in E; lia|].
  apply (e_irrational (- d) c C). rewrite opp_IZR. apply (Rmult_eq_reg_l (IZR c)); [|apply IZR_neq0; auto]. replace (IZR c * (- IZR d / IZR c))%R with (- IZR d)%R by (field; apply IZR_neq0; auto). lra.
Qed.

Lemma gamma_source t s n v : gamma_gfrac t = Ok s -> nth_item (gamma_next t) n s = Ok (Some v) -> v = gamma_items n.
Proof. intros S0 H. apply (gamma_determined t n O s v); [apply (gamma_start t); auto|exact H]. Qed.

Lemma gamma_yields s : gamma_gfrac BigI = Ok s -> yields (gamma_next BigI) s gamma_items.
Proof. intros S0 n. apply (gamma_big n O). apply (gamma_start BigI); auto. Qed.

Lemma L_C48_constant : is_lim_seq (fun n => harm (S n) - ln (INR (S n)))%R euler_gamma.
Proof. exact gamma_limit. Qed.

Lemma L_C48_value : forall t s n r, gamma_gfrac t = Ok s -> nth_item (gconv_next t (gamma_next t)) n (gcf_convergents s) = Ok (Some r) ->
  lowest r /\ rval r = (binom_harm_sum n / binom_sum n)%R.
Proof.
  intros t s n r S0 H. destruct (gconv_determined t (gamma_next t) s gamma_items n r) as (L & _ & V); auto; [|split; [auto|rewrite V; apply gamma_quot_sum]].
  intros j ab Hj. apply (gamma_source t s j ab S0 Hj).
Qed.

Lemma L_C48_returns : exists s, gamma_gfrac BigI = Ok s /\ forall n, returns (nth_item (gamma_next BigI) n s) /\ exists r, nth_item (gconv_next BigI (gamma_next BigI)) n (gcf_convergents s) = Ok (Some r).
Proof.
  eexists. split; [reflexivity|]. intros n. split; [eexists; apply gamma_yields; reflexivity|].
  apply (gconv_returns _ _ _ gamma_items); [intros j _; apply gamma_yields; reflexivity|reflexivity|]. intros j _. apply gamma_den.
Qed.

Lemma L_C48_limit : exists c s, gamma_gfrac BigI = Ok s /\ (forall n, exists r, nth_item (gconv_next BigI (gamma_next BigI)) n (gcf_convergents s) = Ok (Some r) /\ rval r = c n) /\ is_lim_seq c euler_gamma.
Proof.
  exists (fun n => binom_harm_sum n / binom_sum n)%R. destruct L_C48_returns as (s & E & R). exists s. split; [auto|]. split.
  - intros n. destruct (R n) as [_ (r & Er)]. exists r. split; [auto|]. apply (L_C48_value BigI s n r E Er).
  - eapply is_lim_seq_ext; [|exact gamma_lim]. intros n. apply gamma_quot_sum.
Qed.

Lemma L_C48_rate : forall t s n r, gamma_gfrac t = Ok s -> nth_item (gconv_next t (gamma_next t)) n (gcf_convergents s) = Ok (Some r) ->
  (Rabs (rval r - euler_gamma) <= 10 / sqrt (INR (S n)))%R.
Proof.
  intros t s n r S0 H. destruct (L_C48_value t s n r S0 H) as [_ ->]. rewrite <- gamma_quot_sum, gamma_quot. apply gamma_error.
  - rewrite <- sqrt_1 at 1. apply sqrt_le_1_alt. rewrite S_INR. pose proof (pos_INR n). lra.
  - apply sqrt_sqrt. left. apply SR_pos.
Qed.

Lemma L_C48_auxiliary : forall t s n s', gamma_gfrac t = Ok s -> after (gamma_next t) (S (S n)) s s' -> IZR (ga_qm1 s') = binom_sum (S n) /\ IZR (ga_qm2 s') = binom_sum n.
Proof.
  intros t s n s' S0 H. assert (G : forall k i s, gstate i s -> after (gamma_next t) k s s' -> gstate (i + k) s').
  { clear. induction k as [|k IH]; intros i s St H; cbn [after] in H; [subst; rewrite Nat.add_0_r; auto|]. destruct H as (a & s1 & E & H). destruct (gamma_step_t _ _ _ _ _ St E) as [_ St'].
    replace (i + S k)%nat with (S i + k)%nat by lia. apply (IH _ _ St' H). }
  apply (G _ O) in H; [|apply (gamma_start t); auto]. cbn [gstate Nat.add] in H. destruct H as (_ & -> & -> & _). split; apply gq_sum.
Qed.
