(** * CFBasic: conversions from and to rational numbers, rounding, approximation. *)

From Coq Require Import ZArith Znumtheory Reals Lia Lra Bool List Arith.
From Coquelicot Require Import Coquelicot.
From Verif Require Import Base Ext ModelBlock ModelCF Spec SpecCF NumFacts Transfer SurdCore RatioFacts SurdArith CFCore CFSeq CFIter.
Import ListNotations.
Open Scope Z_scope.

Lemma cfl_ge1 l : l <> nil -> List.Forall (fun v => 1 <= v) l -> (1 <= cfl l)%R.
Proof.
  destruct l as [|a l]; [congruence|]. intros _ H. inversion H as [|? ? Ha Hl]; subst. clear H. revert a Ha.
  induction l as [|b l IH]; intros a Ha; [apply IZR_le; auto|].
  rewrite cfl_cons by discriminate. inversion Hl; subst. pose proof (IH H2 b H1) as K.
  assert (0 < / cfl (b :: l))%R by (apply Rinv_0_lt_compat; lra). apply IZR_le in Ha. lra.
Qed.
Lemma cfl_gt1 l : l <> nil -> List.Forall (fun v => 1 <= v) l -> last l 0 <> 1 -> (1 < cfl l)%R.
Proof.
  destruct l as [|a [|b l]]; [congruence| |]; intros _ H L; inversion H as [|? ? Ha Hl]; subst.
  - cbn in *. apply IZR_lt. lia.
  - rewrite cfl_cons by discriminate. pose proof (cfl_ge1 (b :: l) ltac:(discriminate) Hl).
    assert (0 < / cfl (b :: l))%R by (apply Rinv_0_lt_compat; lra). apply IZR_le in Ha. lra.
Qed.

(** value = sign * (first coefficient + fraction) *)
Lemma cf_head x a0 rest : wfcf x -> a_coeffs x = a0 :: rest ->
  exists f, cf_val x = (IZR (sgnb (negative x)) * (IZR a0 + f))%R /\ (0 <= f <= 1)%R /\ (canonical x -> f < 1)%R /\
    (f = 0%R <-> rest = nil /\ p_coeffs x = nil).
Proof.
  intros W A. pose proof W as W'. unfold wfcf in W'. rewrite A in W'. destruct W' as (H0 & HR & HP).
  destruct (finite_dec x) as [F|F].
  - unfold cf_val. unfold finite in F. rewrite F, A. destruct rest as [|b rest].
    + exists 0%R. cbn [cfl]. split; [ring|]. repeat split; lra.
    + exists (/ cfl (b :: rest))%R. rewrite cfl_cons by discriminate. pose proof (cfl_ge1 (b :: rest) ltac:(discriminate) HR) as G.
      assert (P : (0 < / cfl (b :: rest))%R) by (apply Rinv_0_lt_compat; lra).
      split; [reflexivity|]. split; [split; [lra|rewrite <- Rinv_1; apply Rinv_le_contravar; lra]|]. split.
      * intros (_ & C & _). specialize (C F). rewrite A in C. specialize (C ltac:(cbn; lia)).
        assert (K : (1 < cfl (b :: rest))%R) by (apply cfl_gt1; [discriminate|auto|exact C]).
        rewrite <- Rinv_1. apply Rinv_lt_contravar; lra.
      * split; [lra|intros [K _]; discriminate].
  - pose proof (wfcf_cpos x W) as HC. rewrite cf_val_inf by auto. rewrite lim_step by auto. exists (/ lim (shift (cseq x)))%R.
    assert (cseq x 0 = a0) as -> by (rewrite cseq_a; unfold lena; rewrite A; [reflexivity|cbn; lia]).
    pose proof (lim_gt1_shift _ HC) as G. assert (P : (0 < / lim (shift (cseq x)))%R) by (apply Rinv_0_lt_compat; lra).
    assert (P' : (/ lim (shift (cseq x)) < 1)%R) by (rewrite <- Rinv_1 at 1; apply Rinv_lt_contravar; lra).
    split; [reflexivity|]. split; [lra|]. split; [auto|]. split; [lra|intros [_ K]; contradiction].
Qed.

(** ** to_integer *)
Lemma sgnb_cases b : sgnb b = 1 \/ sgnb b = -1. Proof. destruct b; auto. Qed.
Lemma cf_to_integer_ok u x r : canonical x -> (forall v, coeff_at x 0 = Some v -> sfit u v) -> cf_to_integer u x = Ok r ->
  istrunc (cf_val x) (approx_value r) /\
  ((exists n, r = Exact n) <-> exists n, cf_val x = IZR n).
Proof.
  intros Cn F H. pose proof (proj1 Cn) as W. unfold cf_to_integer in H. destruct (a_coeffs x) as [|a0 rest] eqn:A; [discriminate|].
  rewrite sfit_signed in H by (apply F; unfold coeff_at; rewrite A; reflexivity). cbn [bind] in H. inversion H; subst r; clear H.
  destruct (cf_head x a0 rest W A) as (f & V & Fr & Fc & Fz). specialize (Fc Cn).
  assert (H0 : 0 <= a0) by (unfold wfcf in W; rewrite A in W; tauto). assert (R0 := H0). apply IZR_le in R0.
  assert (Ev : approx_value (if cf_is_integer x then Exact (sgnb (negative x) * a0) else Approximated (sgnb (negative x) * a0)) = sgnb (negative x) * a0)
    by (destruct (cf_is_integer x); reflexivity).
  rewrite Ev, V. split.
  - unfold istrunc. rewrite mult_IZR. destruct (negative x) eqn:Ng; cbn [sgnb].
    + split; intros K.
      * assert (a0 = 0) by (assert (IZR a0 <= 0)%R by lra; apply le_IZR in H; lia). subst. 
        assert (f = 0%R) by lra. lra.
      * lra.
    + split; intros K; [lra|]. lra.
  - unfold cf_is_integer. rewrite A. cbn [length]. destruct rest as [|b rest]; cbn [length Nat.eqb andb].
    + destruct (p_coeffs x) as [|p0 p] eqn:P; cbn [length Nat.eqb].
      * split; [intros _|eauto]. exists (sgnb (negative x) * a0). rewrite mult_IZR. assert (f = 0%R) by (apply Fz; auto). subst. ring.
      * split; [intros [n K]; discriminate|]. intros [n E]. exfalso.
        assert (f <> 0%R) by (intros K; apply Fz in K; destruct K; discriminate).
        assert (G : (IZR a0 < IZR (sgnb (negative x) * n) < IZR a0 + 1)%R).
        { rewrite mult_IZR, <- E, <- Rmult_assoc, <- mult_IZR.
          replace (sgnb (negative x) * sgnb (negative x)) with 1 by (destruct (sgnb_cases (negative x)) as [-> | ->]; reflexivity). lra. }
        rewrite <- plus_IZR in G. destruct G as [G1 G2]. apply lt_IZR in G1, G2. lia.
    + split; [intros [n K]; discriminate|]. intros [n E]. exfalso.
      assert (f <> 0%R) by (intros K; apply Fz in K; destruct K; discriminate).
      assert (G : (IZR a0 < IZR (sgnb (negative x) * n) < IZR a0 + 1)%R).
      { rewrite mult_IZR, <- E, <- Rmult_assoc, <- mult_IZR.
        replace (sgnb (negative x) * sgnb (negative x)) with 1 by (destruct (sgnb_cases (negative x)) as [-> | ->]; reflexivity). lra. }
      rewrite <- plus_IZR in G. destruct G as [G1 G2]. apply lt_IZR in G1, G2. lia.
Qed.
Lemma cf_to_integer_total x : wfcf x -> returns (cf_to_integer BigU x).
Proof.
  intros W. unfold cf_to_integer. pose proof W as W'. unfold wfcf in W'. destruct (a_coeffs x) as [|a0 rest] eqn:A; [tauto|].
  rewrite sfit_signed by (cbn; tauto). eexists. reflexivity.
Qed.

(** ** to_rational *)
Lemma has_last x : wfcf x -> finite x -> has x (pred (lena x)) /\ coeff_at x (lena x) = None.
Proof.
  intros W F. unfold wfcf in W. unfold lena. destruct (a_coeffs x) as [|a0 rest] eqn:A; [tauto|]. cbn [length pred]. split.
  - intros _. rewrite A. cbn [length]. lia.
  - apply has_none. split; [auto|]. rewrite A. cbn [length]. lia.
Qed.
Lemma cf_last_convergent_item u x : wfcf x -> finite x -> (forall j, (j < lena x)%nat -> conv_fit u x j) ->
  cf_last_convergent u x = unwrap (conv_item x (pred (lena x))).
Proof.
  intros W F HF. unfold cf_last_convergent. fold (lena x). destruct (has_last x W F) as [HL HN].
  pose proof (fun k s A (H : conv_fit u x k) => conv_step u x k s W A H) as St.
  assert (L0 : (0 < lena x)%nat) by (unfold lena; unfold wfcf in W; destruct (a_coeffs x); [tauto|cbn; lia]).
  rewrite (last_item_ok (conv_next u) (at_conv x) (conv_item x) _ St (lena x) 0 _ (S (lena x)) None (at_conv_start x)).
  - cbn [bind]. destruct (lena x) eqn:E; [lia|]. reflexivity.
  - intros j Hj. destruct (lt_dec j (lena x)); [apply HF; auto|]. intros K. exfalso. apply K.
    apply (coeff_at_none_ge x (lena x)); auto. lia.
  - intros j Hj. apply conv_item_some. rewrite has_some; [discriminate|]. apply (has_le x _ j HL). lia.
  - unfold conv_item. cbn [Nat.add]. rewrite HN. reflexivity.
  - lia.
Qed.
Lemma fin_convergent_val x r : wfcf x -> finite x -> convergent x (pred (lena x)) r -> rval r = cf_val x.
Proof.
  intros W F (_ & V). rewrite V, cf_val_fin by auto. f_equal. apply first_coeffs_cut. apply has_last; auto.
Qed.
Lemma cf_to_rational_fin u x : wfcf x -> finite x -> (forall j, (j < lena x)%nat -> conv_fit u x j) ->
  exists r, cf_to_rational u x = Ok (Exact r) /\ lowest r /\ rval r = cf_val x.
Proof.
  intros W F HF. unfold cf_to_rational. assert (cf_is_rational x = true) as ->.
  { unfold cf_is_rational. unfold finite in F. rewrite F. reflexivity. }
  rewrite cf_last_convergent_item by auto. destruct (has_last x W F) as [HL _].
  destruct (conv_item_convergent x _ W HL) as (r & E & Cv). rewrite E. cbn [unwrap bind]. exists r. split; [reflexivity|].
  split; [apply Cv|]. apply fin_convergent_val; auto.
Qed.
Lemma cf_to_rational_inf u x : wfcf x -> ~ finite x -> (forall j, (j <= lena x + length (p_coeffs x))%nat -> conv_fit u x j) ->
  exists r, cf_to_rational u x = Ok (Approximated r) /\ convergent x (lena x + length (p_coeffs x)) r.
Proof.
  intros W F HF. unfold cf_to_rational. assert (cf_is_rational x = false) as ->.
  { unfold cf_is_rational. unfold finite in F. destruct (p_coeffs x); [congruence|reflexivity]. }
  fold (lena x). rewrite conv_nth by auto. destruct (conv_item_convergent x (lena x + length (p_coeffs x)) W (inf_has _ _ F)) as (r & E & Cv).
  cbn [bind]. rewrite E. cbn [unwrap bind]. eauto.
Qed.

(** ** From integers and rationals *)
Lemma trunc_pos n d : 0 <= n -> 0 < d -> Z.quot n d = n / d /\ Z.rem n d = n mod d.
Proof. intros. split; [apply Z.quot_div_nonneg; lia|apply Z.rem_mod_nonneg; lia]. Qed.

Lemma to_unsigned_ok t v w : fits t v = true -> 0 <= v -> to_unsigned t v = Ok w -> w = v.
Proof.
  unfold to_unsigned, fits. destruct t as [| |b|b]; intros F H E; try congruence.
  - destruct (Z.ltb_spec v 0); [lia|congruence].
  - inversion E. apply andb_prop in F. destruct F as [_ F]. apply Z.ltb_lt in F. apply Z.mod_small. split; [auto|].
    eapply Z.lt_le_trans; [exact F|]. apply Z.pow_le_mono_r; lia.
Qed.
Lemma chk_fits t z v : chk t z = Ok v -> v = z /\ fits t z = true.
Proof. unfold chk. destruct (fits t z) eqn:E; [|discriminate]. intros H; inversion H; auto. Qed.
Lemma div_rem_ok t n d q r : div_remT t n d = Ok (q, r) -> d <> 0 /\ q = Z.quot n d /\ r = Z.rem n d /\ fits t q = true.
Proof.
  unfold div_remT, quotT, remT. destruct (Z.eqb_spec d 0); [discriminate|]. intros H.
  destruct (chk t (Z.quot n d)) eqn:E; [|discriminate|discriminate]. cbn [bind] in H. inversion H; subst.
  apply chk_fits in E. destruct E; subst. auto.
Qed.

Lemma euclid_spec t fuel n d l : 0 < d < n -> euclid_loop t fuel n d = Ok l ->
  l <> nil /\ List.Forall (fun v => 1 <= v) l /\ last l 0 <> 1 /\ cfl l = (IZR n / IZR d)%R.
Proof.
  revert n d l. induction fuel as [|fuel IH]; intros n d l Hd H; [discriminate|]. cbn [euclid_loop] in H.
  destruct (Z.eqb_spec d 0); [lia|].
  destruct (div_remT t n d) as [[q r]| |] eqn:E; [|discriminate|discriminate]. cbn [bind] in H.
  apply div_rem_ok in E. destruct E as (_ & -> & -> & Fq). destruct (trunc_pos n d) as [Q R]; [lia|lia|]. rewrite Q, R in *. clear Q R.
  destruct (to_unsigned t (n / d)) as [w| |] eqn:E; [|discriminate|discriminate]. cbn [bind] in H.
  apply to_unsigned_ok in E; [|auto|apply Z.div_pos; lia]. subst w.
  assert (Q1 : 1 <= n / d) by (apply Z.div_le_lower_bound; lia). pose proof (Z.mod_pos_bound n d ltac:(lia)) as M.
  pose proof (Z.div_mod n d ltac:(lia)) as DM. set (q := n / d) in *. set (r := n mod d) in *. clearbody q r.
  destruct (euclid_loop t fuel d r) as [l'| |] eqn:E; [|discriminate|discriminate]. cbn [bind] in H. inversion H; subst l; clear H.
  destruct (Z.eq_dec r 0) as [->|Hr].
  - destruct fuel; [discriminate|]. cbn [euclid_loop] in E. change (0 =? 0) with true in E. cbn iota in E. inversion E; subst l'.
    split; [discriminate|]. split; [constructor; auto|]. split; [cbn; nia|]. cbn [cfl]. rewrite DM, Z.add_0_r, mult_IZR. field. apply not_0_IZR; lia.
  - destruct (IH d r l' ltac:(lia) E) as (N & Fa & La & V). split; [discriminate|]. split; [constructor; auto|].
    split; [destruct l'; [congruence|exact La]|]. rewrite cfl_cons by auto. rewrite V, DM, plus_IZR, mult_IZR. field.
    split; apply not_0_IZR; lia.
Qed.
Lemma euclid_eq t fuel n l : 0 < n -> euclid_loop t fuel n n = Ok l -> l = [1].
Proof.
  intros Hn H. destruct fuel as [|fuel]; [discriminate|]. cbn [euclid_loop] in H. destruct (Z.eqb_spec n 0); [lia|].
  destruct (div_remT t n n) as [[q r]| |] eqn:E; [|discriminate|discriminate]. cbn [bind] in H.
  apply div_rem_ok in E. destruct E as (_ & -> & -> & Fq). rewrite Z.quot_same, Z.rem_same in * by lia.
  destruct (to_unsigned t 1) as [w| |] eqn:E; [|discriminate|discriminate]. cbn [bind] in H. apply to_unsigned_ok in E; [|auto|lia]. subst w.
  destruct fuel; [discriminate|]. cbn [euclid_loop] in H. change (0 =? 0) with true in H. cbn in H. congruence.
Qed.

Lemma cf_of_ratio_ok t r x : lowest r -> cf_of_ratio t r = Ok x ->
  canonical x /\ finite x /\ cf_val x = rval r.
Proof.
  intros (Hd & Hg) H. unfold cf_of_ratio, ratio_is_zero in H. destruct (Z.eqb_spec (numer r) 0) as [Z0|Z0].
  { inversion H; subst x; clear H. split; [|split]; [|reflexivity|].
    - split; [|split]; cbn; try lia; auto. split; [lia|]. split; constructor.
    - unfold cf_val, rval. rewrite Z0. cbn [a_coeffs p_coeffs negative sgnb cfl]. unfold Rdiv. ring. }
  set (n0 := numer r) in *. set (d := denom r) in *.
  assert (Hn : (exists n, (if n0 <? 0 then lift2 (subT t) (Ok 0) (Ok n0) else Ok n0) = Ok n /\ n = Z.abs n0) \/
    (forall n, (if n0 <? 0 then lift2 (subT t) (Ok 0) (Ok n0) else Ok n0) <> Ok n)).
  { destruct (Z.ltb_spec n0 0).
    - unfold lift2, subT. cbn [bind]. destruct (chk t (0 - n0)) eqn:E; [left|right; congruence|right; congruence].
      apply chk_fits in E. destruct E; subst. eexists; split; [reflexivity|lia].
    - left. eexists; split; [reflexivity|lia]. }
  destruct Hn as [(n & En & Vn)|Hn]; [|destruct (if n0 <? 0 then _ else _) eqn:K; [destruct (Hn _ eq_refl)|discriminate|discriminate]].
  rewrite En in H. cbn [bind] in H. assert (Pn : 0 < n) by lia.
  assert (Gn : Z.gcd n d = 1) by (subst n; rewrite Z.gcd_abs_l; auto).
  assert (Vr : rval r = (IZR (sgnb (n0 <? 0)) * (IZR n / IZR d))%R).
  { unfold rval. fold n0 d. subst n. destruct (Z.ltb_spec n0 0); cbn [sgnb].
    - rewrite Z.abs_neq by lia. rewrite opp_IZR. field. apply not_0_IZR; lia.
    - rewrite Z.abs_eq by lia. field. apply not_0_IZR; lia. }
  assert (Neg0 : forall l, [0] = l -> cfl l = 0%R) by (intros; subst; reflexivity).
  destruct (Z.ltb_spec n d).
  - destruct (euclid_loop t (euclid_fuel n) d n) as [l| |] eqn:E; [|discriminate|discriminate]. cbn [bind] in H. inversion H; subst x; clear H.
    destruct (euclid_spec t _ d n l ltac:(lia) E) as (N & Fa & La & V). split; [|split]; [|reflexivity|].
    + split; [|split]; cbn [a_coeffs p_coeffs negative].
      * cbn. split; [lia|]. split; [auto|constructor].
      * intros _ _. destruct l; [congruence|exact La].
      * intros K. inversion K. congruence.
    + unfold cf_val. cbn [a_coeffs p_coeffs negative]. rewrite cfl_cons by auto. rewrite V, Vr. field. split; apply not_0_IZR; lia.
  - destruct (euclid_loop t (euclid_fuel d) n d) as [l| |] eqn:E; [|discriminate|discriminate]. cbn [bind] in H. inversion H; subst x; clear H.
    destruct (Z.eq_dec n d) as [Ed|Ed].
    + rewrite Ed in E. apply euclid_eq in E; [|lia]. subst l. split; [|split]; [|reflexivity|].
      * split; [|split]; cbn; try lia; [|intros K; discriminate]. split; [lia|]. split; constructor.
      * unfold cf_val. cbn [a_coeffs p_coeffs negative cfl]. rewrite Vr, Ed. field. apply not_0_IZR; lia.
    + destruct (euclid_spec t _ n d l ltac:(lia) E) as (N & Fa & La & V). split; [|split]; [|reflexivity|].
      * split; [|split]; cbn [a_coeffs p_coeffs negative].
        -- unfold wfcf. cbn [a_coeffs p_coeffs]. destruct l; [congruence|]. inversion Fa; subst. split; [lia|]. auto.
        -- intros _ _. exact La.
        -- intros K. subst l. inversion Fa; lia.
      * unfold cf_val. cbn [a_coeffs p_coeffs negative]. rewrite V, Vr. reflexivity.
Qed.

Lemma euclid_total k : forall fuel n d, 0 <= n -> 0 <= d < 2 ^ Z.of_nat k -> (2 * k + 1 <= fuel)%nat -> returns (euclid_loop BigI fuel n d).
Proof.
  induction k as [|k IH]; intros fuel n d Hn Hd Hf.
  - assert (d = 0) by (change (2 ^ Z.of_nat 0) with 1 in Hd; lia). subst. destruct fuel; [lia|]. eexists; reflexivity.
  - destruct fuel as [|fuel]; [lia|]. cbn [euclid_loop]. destruct (Z.eqb_spec d 0); [eexists; reflexivity|].
    rewrite div_remB by auto. cbn [bind]. destruct (trunc_pos n d) as [-> ->]; [lia|lia|]. pose proof (Z.mod_pos_bound n d ltac:(lia)) as M.
    unfold to_unsigned at 1. assert (0 <= n / d) by (apply Z.div_pos; lia). destruct (Z.ltb_spec (n / d) 0); [lia|]. cbn [bind].
    set (r := n mod d) in *. clearbody r. enough (returns (euclid_loop BigI fuel d r)) as [l ->] by (eexists; reflexivity).
    destruct fuel as [|fuel]; [lia|]. cbn [euclid_loop]. destruct (Z.eqb_spec r 0); [eexists; reflexivity|].
    rewrite div_remB by auto. cbn [bind]. destruct (trunc_pos d r) as [-> ->]; [lia|lia|].
    unfold to_unsigned at 1. assert (1 <= d / r) by (apply Z.div_le_lower_bound; lia). destruct (Z.ltb_spec (d / r) 0); [lia|]. cbn [bind].
    pose proof (Z.mod_pos_bound d r ltac:(lia)) as M2. pose proof (Z.div_mod d r ltac:(lia)) as DM.
    enough (returns (euclid_loop BigI fuel r (d mod r))) as [l ->] by (eexists; reflexivity).
    apply IH; [lia| |lia]. split; [lia|]. rewrite Nat2Z.inj_succ, Z.pow_succ_r in Hd by lia. nia.
Qed.
Lemma euclid_fuel_total n d : 0 <= n -> 0 < d -> returns (euclid_loop BigI (euclid_fuel d) n d).
Proof.
  intros Hn Hd. apply (euclid_total (S (Z.to_nat (Z.log2 d)))); [auto| |].
  - split; [lia|]. rewrite Nat2Z.inj_succ, Z2Nat.id by apply Z.log2_nonneg. apply Z.log2_spec. auto.
  - unfold euclid_fuel. rewrite Z.abs_eq by lia. lia.
Qed.
Lemma cf_of_ratio_total r : lowest r -> returns (cf_of_ratio BigI r).
Proof.
  intros (Hd & Hg). unfold cf_of_ratio, ratio_is_zero. destruct (Z.eqb_spec (numer r) 0); [eexists; reflexivity|].
  assert (exists n, (if numer r <? 0 then lift2 (subT BigI) (Ok 0) (Ok (numer r)) else Ok (numer r)) = Ok n /\ 0 < n) as (n' & -> & Hn).
  { destruct (Z.ltb_spec (numer r) 0); eexists; (split; [reflexivity|lia]). }
  cbn [bind]. destruct (Z.ltb_spec n' (denom r)).
  - destruct (euclid_fuel_total (denom r) n' ltac:(lia) ltac:(lia)) as [l ->]. eexists; reflexivity.
  - destruct (euclid_fuel_total n' (denom r) ltac:(lia) ltac:(lia)) as [l ->]. eexists; reflexivity.
Qed.
Lemma cf_of_int_ok t n x : cf_of_int t n = Ok x -> fits t n = true -> canonical x /\ finite x /\ cf_val x = IZR n.
Proof.
  unfold cf_of_int. intros H F. destruct (Z.ltb_spec n 0).
  - unfold lift2, subT in H. cbn [bind] in H. destruct (chk t (0 - n)) as [m| |] eqn:E; [|discriminate|discriminate]. cbn [bind] in H.
    apply chk_fits in E. destruct E as [-> Fm]. destruct (to_unsigned t (0 - n)) as [w| |] eqn:E; [|discriminate|discriminate].
    apply to_unsigned_ok in E; [|auto|lia]. subst w. cbn [bind] in H. inversion H; subst x.
    split; [|split]; [|reflexivity|].
    + split; [|split]; cbn [a_coeffs p_coeffs negative length].
      * split; [lia|]. split; constructor.
      * lia.
      * intros K. inversion K. lia.
    + unfold cf_val. cbn [a_coeffs p_coeffs negative cfl sgnb]. rewrite ?Z.sub_0_l, opp_IZR. ring.
  - destruct (to_unsigned t n) as [w| |] eqn:E; [|discriminate|discriminate].
    apply to_unsigned_ok in E; [|auto|lia]. subst w. cbn [bind] in H. inversion H; subst x.
    split; [|split]; [|reflexivity|].
    + split; [|split]; cbn [a_coeffs p_coeffs negative length].
      * split; [lia|]. split; constructor.
      * lia.
      * reflexivity.
    + unfold cf_val. cbn [a_coeffs p_coeffs negative cfl sgnb]. ring.
Qed.

(** the numerators and denominators of a finite fraction do not exceed the last ones *)
Lemma PP_le f k n : cpos f -> (1 <= k <= n)%nat -> PP f k <= PP f n.
Proof.
  intros Hf [H1 H2]. induction H2 as [|n H2 IH]; [lia|]. specialize (IH ). destruct n as [|n]; [lia|].
  rewrite PP_SS. pose proof (PP_mono f Hf n). pose proof (PP_mono f Hf (S n)). pose proof (proj2 Hf n). nia.
Qed.
Lemma QQ_le f k n : cpos f -> (k <= n)%nat -> QQ f k <= QQ f n.
Proof. intros Hf H. induction H as [|n H IH]; [lia|]. pose proof (QQ_mono f Hf n). lia. Qed.

Lemma fin_conv_fit u x r : wfcf x -> finite x -> lowest r -> cf_val x = rval r -> ratio_sfit u r ->
  forall j, (j < lena x)%nat -> conv_fit u x j.
Proof.
  intros W F L V (Fn & Fd) j Hj _. pose proof (wfcf_cpos x W) as HC. destruct (has_last x W F) as [HL _].
  destruct (conv_item_convergent x _ W HL) as (r' & E & Cv). pose proof (fin_convergent_val x r' W F Cv) as V'.
  assert (r' = r) by (apply lowest_unique; [apply Cv|auto|congruence]). subst r'.
  unfold conv_item in E. rewrite (has_some _ _ HL) in E. inversion E as [E1]. rewrite <- E1 in Fn, Fd. cbn [numer denom] in Fn, Fd.
  replace (S (pred (lena x))) with (lena x) in * by lia.
  pose proof (PP_mono _ HC (lena x)) as P0.
  replace (Z.abs (sgnb (negative x) * PP (cseq x) (lena x))) with (PP (cseq x) (lena x)) in Fn by (destruct (sgnb_cases (negative x)) as [-> | ->]; lia).
  split.
  - apply (sfit_mono _ _ _ Fn). split; [apply PP_mono; auto|]. apply PP_le; auto. lia.
  - apply (sfit_mono _ _ _ Fd). split; [apply QQ_mono; auto|]. apply QQ_le; auto.
Qed.

(** ** approximated *)
Lemma conv_item_eq x n : has x n -> conv_item x n = Some (Ratio (sgnb (negative x) * PP (cseq x) (S n)) (QQ (cseq x) (S n))).
Proof. intros H. unfold conv_item. rewrite has_some by auto. reflexivity. Qed.

(** distance of a convergent that is not the last one *)
Lemma conv_error x n r : wfcf x -> has x (S n) -> convergent x n r ->
  (0 < Rabs (cf_val x - rval r) <= / (IZR (QQ (cseq x) (S n)) * IZR (QQ (cseq x) (S (S n)))))%R.
Proof.
  intros W H Cv. pose proof (wfcf_cpos x W) as HC.
  assert (Vr : rval r = (IZR (sgnb (negative x)) * cut (cseq x) n)%R).
  { rewrite (proj2 Cv), first_coeffs_cut; auto. apply (has_le _ _ _ H). lia. }
  assert (Sg : forall a b : R, Rabs (IZR (sgnb (negative x)) * a - IZR (sgnb (negative x)) * b) = Rabs (a - b)).
  { intros a b. destruct (sgnb_cases (negative x)) as [-> | ->]; [f_equal; ring|]. rewrite <- (Rabs_Ropp (a - b)). f_equal. ring. }
  destruct (finite_dec x) as [F|F].
  - rewrite cf_val_fin, Vr, Sg by auto. assert (Hn : (S n < lena x)%nat) by (apply H; auto).
    set (m := (pred (lena x) - S n)%nat). assert (pred (lena x) = S n + m)%nat as -> by (unfold m; lia).
    clearbody m.
    assert (E : cut (cseq x) (S n + m) = ev (cseq x) (S n) (cut (fun k => cseq x (S n + k)%nat) m)) by (unfold cut; rewrite ev_app; reflexivity).
    rewrite E. set (f' := fun k => cseq x (S n + k)%nat).
    assert (HC' : cpos f').
    { destruct HC as [A B]. split; unfold f'; [specialize (B (n + 0)%nat); cbn [Nat.add]; lia|]. intros k. apply (B (n + S k)%nat). }
    assert (Wl : (IZR (cseq x (S n)) <= cut f' m)%R).
    { destruct m as [|m].
      - unfold cut, f'. cbn [ev]. rewrite Nat.add_0_r. lra.
      - rewrite cut_S. pose proof (cut_ge1 (shift f') m (cpos_shift _ HC') (proj2 HC' 0%nat)) as G.
        assert (0 < / cut (shift f') m)%R by (apply Rinv_0_lt_compat; lra). unfold f' at 1. rewrite Nat.add_0_r. lra. }
    pose proof (proj2 HC n) as C1. apply IZR_le in C1. destruct (ev_error _ HC n (cut f' m)) as [-> D]; [lra|].
    pose proof (QQ_mono _ HC n) as (Q1 & _ & Q0). apply IZR_le in Q1, Q0. set (w := cut f' m) in *. clearbody w.
    unfold Rdiv. rewrite Rabs_mult. assert (Rabs (IZR (alt n)) = 1%R) as ->.
    { destruct (alt_cases n) as [-> | ->]; [apply Rabs_R1|]. rewrite Rabs_left; lra. }
    rewrite Rmult_1_l, Rabs_inv. rewrite Rabs_pos_eq by (apply Rmult_le_pos; lra).
    split; [apply Rinv_0_lt_compat, Rmult_lt_0_compat; lra|]. rewrite (QQ_SS _ n), plus_IZR, mult_IZR.
    set (Q := IZR (QQ (cseq x) (S n))) in *. set (Q' := IZR (QQ (cseq x) n)) in *. set (c := IZR (cseq x (S n))) in *. clearbody Q Q' c.
    assert (0 < c * Q)%R by (apply Rmult_lt_0_compat; lra).
    apply Rinv_le_contravar; [apply Rmult_lt_0_compat; lra|]. apply Rmult_le_compat_l; [lra|].
    rewrite (Rmult_comm Q w). apply Rplus_le_compat_r, Rmult_le_compat_r; lra.
  - rewrite cf_val_inf, Vr, Sg by auto. pose proof (lim_error_lt n (cseq x) HC). lra.
Qed.

Lemma approx_loop_spec x limit : wfcf x -> forall fuel k s last v, at_conv x (S k) s -> has x k -> conv_item x k = Some last ->
  approx_loop BigU fuel limit last s = Ok v -> denom last <= limit ->
  (exists r, v = Exact r /\ lowest r /\ rval r = cf_val x) \/
  (exists r m, v = Approximated r /\ convergent x m r /\ denom r <= limit /\ has x (S m) /\ limit <= QQ (cseq x) (S (S m)) /\ denom r = QQ (cseq x) (S m)).
Proof.
  intros W. pose proof (wfcf_cpos x W) as HC. induction fuel as [|fuel IH]; intros k s last v A H L E Hd; [discriminate|].
  cbn [approx_loop] in E. destruct (conv_step BigU x (S k) s W A (big_fit x (S k) W)) as (s' & Es & As). rewrite Es in E. cbn [bind] in E.
  destruct (conv_item_convergent x k W H) as (r0 & E0 & Cv). rewrite L in E0. inversion E0; subst r0. clear E0.
  destruct (conv_item x (S k)) as [w|] eqn:Ew.
  - assert (Hk : has x (S k)) by (destruct (has_dec x (S k)) as [K|K]; [auto|unfold conv_item in Ew; rewrite K in Ew; discriminate]).
    rewrite (conv_item_eq x (S k) Hk) in Ew. inversion Ew; subst w. cbn [denom] in E.
    destruct (Z.ltb_spec (QQ (cseq x) (S (S k))) limit).
    + eapply (IH (S k) s' _ v (As ltac:(discriminate)) Hk); eauto; [apply conv_item_eq; auto|]. cbn [denom]. lia.
    + inversion E; subst v. right. exists last, k. rewrite (conv_item_eq x k H) in L. inversion L; subst last. cbn [denom] in *. auto 10.
  - inversion E; subst v. left. exists last. split; [reflexivity|]. split; [apply Cv|].
    assert (N : coeff_at x (S k) = None) by (destruct (coeff_at x (S k)) eqn:K; [|auto]; unfold conv_item in Ew; rewrite K in Ew; discriminate).
    apply has_none in N. destruct N as [F N]. apply fin_convergent_val; auto. replace (pred (lena x)) with k; [auto|].
    specialize (H F). unfold lena in *. lia.
Qed.
Lemma cf_approximated_ok x limit fuel v : wfcf x -> 1 <= limit -> cf_approximated BigU fuel x limit = Ok v ->
  (exists r, v = Exact r /\ lowest r /\ rval r = cf_val x) \/
  (exists r m, v = Approximated r /\ convergent x m r /\ denom r <= limit /\ (0 < Rabs (cf_val x - rval r) <= / (IZR (denom r) * IZR limit))%R).
Proof.
  intros W Hl E. pose proof (wfcf_cpos x W) as HC. unfold cf_approximated in E.
  destruct (conv_step BigU x 0 _ W (at_conv_start x) (big_fit x 0 W)) as (s' & Es & As). rewrite Es in E. cbn [bind] in E.
  pose proof (wfcf_has0 x W) as H0. pose proof (conv_item_eq x 0 H0) as E0. rewrite E0 in E, As. cbn [unwrap bind denom] in E. rewrite QQ_1 in E.
  destruct (Z.ltb_spec limit 1); [lia|].
  destruct (approx_loop_spec x limit W fuel 0%nat s' _ v (As ltac:(discriminate)) H0 ltac:(rewrite E0, QQ_1; reflexivity) E ltac:(cbn; lia)) as [K|(r & m & Ev & Cv & Hd & Hm & HQ & Ed)]; [auto|].
  right. exists r, m. repeat split; auto; try apply Cv.
  - apply (conv_error x m r W Hm Cv).
  - eapply Rle_trans; [apply (conv_error x m r W Hm Cv)|]. rewrite Ed. pose proof (QQ_mono _ HC m) as (Q1 & _).
    apply IZR_le in Q1, HQ. apply IZR_le in Hl. apply Rinv_le_contravar; [apply Rmult_lt_0_compat; lra|]. apply Rmult_le_compat_l; lra.
Qed.
Lemma approx_loop_total x limit : wfcf x -> forall fuel k s last, at_conv x (S k) s ->
  limit <= Z.of_nat fuel + Z.of_nat k -> (0 < fuel)%nat -> returns (approx_loop BigU fuel limit last s).
Proof.
  intros W. pose proof (wfcf_cpos x W) as HC. induction fuel as [|fuel IH]; intros k s last A Hl Hf; [lia|].
  cbn [approx_loop]. destruct (conv_step BigU x (S k) s W A (big_fit x (S k) W)) as (s' & Es & As). rewrite Es. cbn [bind].
  destruct (conv_item x (S k)) as [w|] eqn:Ew; [|eexists; reflexivity].
  assert (Hk : has x (S k)) by (destruct (has_dec x (S k)) as [K|K]; [auto|unfold conv_item in Ew; rewrite K in Ew; discriminate]).
  rewrite (conv_item_eq x (S k) Hk) in Ew. inversion Ew; subst w. cbn [denom].
  destruct (Z.ltb_spec (QQ (cseq x) (S (S k))) limit); [|eexists; reflexivity].
  pose proof (QQ_linear _ HC (S k)). apply (IH (S k)); [apply As; discriminate|lia|lia].
Qed.
Lemma cf_approximated_total x limit : wfcf x -> exists fuel0, forall fuel, (fuel0 <= fuel)%nat -> returns (cf_approximated BigU fuel x limit).
Proof.
  intros W. exists (S (Z.to_nat limit)). intros fuel Hf. unfold cf_approximated.
  destruct (conv_step BigU x 0 _ W (at_conv_start x) (big_fit x 0 W)) as (s' & Es & As). rewrite Es. cbn [bind].
  pose proof (wfcf_has0 x W) as H0. pose proof (conv_item_eq x 0 H0) as E0. rewrite E0 in *. cbn [unwrap bind denom].
  destruct (limit <? _).
  - unfold wfcf in W. destruct (a_coeffs x); [tauto|]. eexists; reflexivity.
  - apply (approx_loop_total x limit W _ 0%nat); [apply As; discriminate|lia|lia].
Qed.
