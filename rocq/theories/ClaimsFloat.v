(** * ClaimsFloat: proofs of the property theorems about floating point (PropsFloat.v). *)

From Coq Require Import ZArith Reals Lia Lra Bool.
From Coquelicot Require Import Coquelicot.
From Flocq Require Import Core BinarySingleNaN.
From Verif Require Import Base Ext ModelSurd ModelFloat Spec SpecF64 NumFacts RatioFacts Transfer SurdMisc GenSound FloatFacts FloatConst FloatMore.
Open Scope Z_scope.

Lemma sval_parts s a b c r : parts s = (a, b, c, r) -> c <> 0 ->
  sval s = if r <? 0 then (IZR a / IZR c, IZR b * sqrt (IZR (- r)) / IZR c)%R else RtoC ((IZR a + IZR b * sqrt (IZR r)) / IZR c).
Proof.
  intros E Hc. unfold sval. rewrite E. apply IZR_neq in Hc. unfold csqrt, ZtoC. destruct (r <? 0).
  - replace (RtoC (IZR a) + RtoC (IZR b) * ((0, sqrt (IZR (- r)))%R : C))%C with (IZR a, IZR b * sqrt (IZR (- r)))%R by (unfold Cplus, Cmult, RtoC; cbn [fst snd]; f_equal; ring).
    unfold Cdiv, Cmult, Cinv, RtoC. cbn [fst snd]. f_equal; field; exact Hc.
  - rewrite <- RtoC_mult, <- RtoC_plus, <- RtoC_div by exact Hc. reflexivity.
Qed.

Lemma real_parts g s x a b c r : normal g s -> parts s = (a, b, c, r) -> sval s = RtoC x -> 0 < c /\ 0 <= r /\ x = ((IZR a + IZR b * sqrt (IZR r)) / IZR c)%R.
Proof.
  intros N E V. unfold normal in N. rewrite E in N. destruct N as (Hc & _ & Hb & _). rewrite (sval_parts s _ _ _ _ E) in V by lia.
  split; [exact Hc|]. destruct (Z.ltb_spec r 0) as [L|L].
  - exfalso. unfold RtoC in V. apply (f_equal snd) in V. cbn [snd] in V. destruct Hb as [[_ ->]|[Hb _]]; [lia|].
    assert (0 < IZR c)%R by (apply (IZR_lt 0); exact Hc). assert (0 < sqrt (IZR (- r)))%R by (apply sqrt_lt_R0, (IZR_lt 0); lia).
    apply IZR_neq in Hb. apply (Rmult_integral_contrapositive_currified (IZR b * sqrt (IZR (- r))) (/ IZR c)) in V; [exact V| |].
    + apply Rmult_integral_contrapositive_currified; [exact Hb|lra].
    + apply Rinv_neq_0_compat. lra.
  - split; [exact L|]. apply RtoC_inj. symmetry. exact V.
Qed.

Lemma golden_normal : normal (Cfg false true) (Surd (SCo 1 1 2) 5).
Proof.
  split; [cbn; lia|]. split; [reflexivity|]. split; [|intros _; cbn; lia]. right. split; [cbn; lia|]. intros (k & H). cbn [parts discr] in H.
  assert (K : Z.abs k <= 2 \/ 3 <= Z.abs k) by lia. nia.
Qed.

Lemma golden_small : small (Surd (SCo 1 1 2) 5) (2 ^ 500).
Proof. unfold small. cbn [coeffs c0 c1 c2 discr]. assert (5 <= 2 ^ 500) by (apply Z.leb_le; vm_compute; reflexivity). cbn [Z.abs]. lia. Qed.

Lemma third_normal : normal (Cfg false true) (Surd (SCo 1 0 3) 0).
Proof. split; [cbn; lia|]. split; [reflexivity|]. split; [left; split; reflexivity|]. intros _. cbn. lia. Qed.

Lemma third_small : small (Surd (SCo 1 0 3) 0) (2 ^ 53).
Proof. unfold small. cbn [coeffs c0 c1 c2 discr Z.abs]. lia. Qed.

Lemma L_C53_none : forall g s, normal g s -> (surd_to_f64 s = None <-> ~ exists x : R, sval s = RtoC x).
Proof.
  intros g s N. pose proof N as N'. unfold normal in N'. destruct (parts s) as [[[a b] c] r] eqn:E. destruct N' as (Hc & _).
  assert (D : discr s = r) by (unfold parts in E; congruence).
  split.
  - intros H (x & V). destruct (real_parts g s x a b c r N E V) as (_ & Hr & _). unfold surd_to_f64 in H. rewrite D, (proj2 (Z.ltb_ge r 0) Hr) in H. discriminate.
  - intros H. unfold surd_to_f64. destruct (Z.ltb_spec (discr s) 0) as [L|L]; [reflexivity|]. exfalso. apply H.
    exists ((IZR a + IZR b * sqrt (IZR r)) / IZR c)%R. rewrite (sval_parts s _ _ _ _ E) by lia. rewrite D in L. rewrite (proj2 (Z.ltb_ge r 0) L). reflexivity.
Qed.

Lemma L_C53_error : forall g s x, normal g s -> sval s = RtoC x -> small s (2 ^ 500) ->
  exists f, surd_to_f64 s = Some f /\ accurate f x (eps50 * term_size s).
Proof.
  intros g s x N V (B0 & B1 & B2 & B3). destruct (parts s) as [[[a b] c] r] eqn:E. destruct (real_parts g s x a b c r N E V) as (Hc & Hr & ->).
  destruct s as [[a' b' c'] r']. unfold parts in E. cbn [coeffs c0 c1 c2 discr] in *. injection E as -> -> -> ->.
  destruct (to_f64_error a b c r) as (f & Ef & Ff & Er); try lia. exists f. split; [exact Ef|]. split; [exact Ff|]. unfold term_size. cbn [coeffs c0 c1 c2 discr]. rewrite eps50_bpow. exact Er.
Qed.

Lemma L_C53_relative : forall g s x, normal g s -> sval s = RtoC x -> small s (2 ^ 500) -> 0 <= c0 (coeffs s) * c1 (coeffs s) ->
  exists f, surd_to_f64 s = Some f /\ accurate f x (eps50 * Rabs x).
Proof.
  intros g s x N V B P. destruct (L_C53_error g s x N V B) as (f & Ef & Ff & Er). exists f. split; [exact Ef|]. split; [exact Ff|].
  replace (Rabs x) with (term_size s); [exact Er|]. destruct (parts s) as [[[a b] c] r] eqn:E. destruct (real_parts g s x a b c r N E V) as (Hc & Hr & ->).
  destruct s as [[a' b' c'] r']. unfold parts in E. cbn [coeffs c0 c1 c2 discr] in *. injection E as -> -> -> ->. unfold term_size. cbn [coeffs c0 c1 c2 discr].
  assert (0 < IZR c)%R by (apply (IZR_lt 0); exact Hc). unfold Rdiv. rewrite Rabs_mult, (Rabs_pos_eq (/ IZR c)) by (left; apply Rinv_0_lt_compat; lra). f_equal.
  pose proof (sqrt_pos (IZR r)) as S0. set (q := sqrt (IZR r)) in *. clearbody q.
  assert (C : (0 <= a /\ 0 <= b) \/ (a <= 0 /\ b <= 0)) by nia.
  destruct C as [[A1 A2]|[A1 A2]]; apply IZR_le in A1, A2.
  - rewrite !Rabs_pos_eq; nra.
  - rewrite (Rabs_left1 (IZR a)), (Rabs_left1 (IZR b)) by lra. rewrite Rabs_left1; nra.
Qed.

Lemma L_C53_primitive : forall bits g s x, 0 < bits <= 128 -> List.Forall (fun z => fits (SInt bits) z = true) (c0 (coeffs s) :: c1 (coeffs s) :: c2 (coeffs s) :: discr s :: nil) ->
  normal g s -> sval s = RtoC x -> exists f, surd_to_f64 s = Some f /\ accurate f x (eps50 * term_size s).
Proof.
  intros bits g s x Hb F N V. apply (L_C53_error g s x N V).
  assert (K : forall z, fits (SInt bits) z = true -> Z.abs z <= 2 ^ 500).
  { intros z H. cbn [fits] in H. apply andb_prop in H. destruct H as [H1 H2]. apply Z.leb_le in H1. 
    assert (2 ^ (bits - 1) <= 2 ^ 500) by (apply Z.pow_le_mono_r; lia). first [apply Z.leb_le in H2 | apply Z.ltb_lt in H2]; lia. }
  inversion F as [|? ? H0 F1]; subst. inversion F1 as [|? ? H1 F2]; subst. inversion F2 as [|? ? H2 F3]; subst. inversion F3 as [|? ? H3 F4]; subst.
  split; [apply K; exact H0|]. split; [apply K; exact H1|]. split; [apply K; exact H2|apply K; exact H3].
Qed.

Lemma L_C53_rational : forall g s x, normal g s -> sval s = RtoC x -> c1 (coeffs s) = 0 -> small s (2 ^ 53) ->
  exists f, surd_to_f64 s = Some f /\ nearest f x.
Proof.
  intros g s x N V Z1 (B0 & B1 & B2 & B3). destruct (parts s) as [[[a b] c] r] eqn:E. destruct (real_parts g s x a b c r N E V) as (Hc & Hr & ->).
  destruct s as [[a' b' c'] r']. unfold parts in E. cbn [coeffs c0 c1 c2 discr] in *. injection E as -> -> -> ->. subst b.
  assert (r = 0) by (destruct N as (_ & _ & [[_ K]|[K _]] & _); [exact K|exfalso; apply K; reflexivity]). subst r.
  destruct (rational_nearest a c) as (f & Ef & Nf); try lia. exists f. split; [exact Ef|]. replace ((IZR a + 0 * sqrt 0) / IZR c)%R with (IZR a / IZR c)%R by (rewrite Rmult_0_l, Rplus_0_r; reflexivity). exact Nf.
Qed.

Lemma L_C53_root : forall r, 0 <= r <= 2 ^ 53 -> exists f, surd_to_f64 (Surd (SCo 0 1 1) r) = Some f /\ nearest f (sqrt (IZR r)).
Proof. intros r H. apply root_nearest; lia. Qed.

Lemma L_C53_cancellation_refuted : exists s x f, normal (Cfg false true) s /\ small s (2 ^ 31) /\ sval s = RtoC x /\ (0 < x)%R /\ surd_to_f64 s = Some f /\ B2R f = 0%R.
Proof.
  exists (Surd (SCo 131836323 (-93222358) 1) 2), ((IZR 131836323 + IZR (-93222358) * sqrt (IZR 2)) / IZR 1)%R, fzero.
  split; [|split; [|split; [|split; [|split]]]].
  - split; [cbn; lia|]. split; [reflexivity|]. split; [|intros _; cbn; lia]. right. split; [cbn; lia|]. intros (k & H). cbn [parts discr] in H.
    assert (K : Z.abs k <= 1 \/ 2 <= Z.abs k) by lia. nia.
  - unfold small. cbn [coeffs c0 c1 c2 discr Z.abs]. lia.
  - apply (sval_parts (Surd (SCo 131836323 (-93222358) 1) 2) 131836323 (-93222358) 1 2); [reflexivity|lia].
  - unfold Rdiv. rewrite Rinv_1, Rmult_1_r. pose proof (sqrt_pos (IZR 2)) as S0. assert (S2 : (sqrt (IZR 2) * sqrt (IZR 2) = 2)%R) by (apply sqrt_sqrt; lra).
    set (q := sqrt (IZR 2)) in *. clearbody q. 
    assert (Q : (93222358 * q < 131836323)%R); [|lra]. apply Rnot_le_lt. intros L. assert (131836323 * 131836323 <= (93222358 * q) * (93222358 * q))%R by (apply Rmult_le_compat; lra). nra.
  - unfold surd_to_f64. cbn [discr coeffs c0 c1 c2 Z.ltb Z.compare]. apply (f_equal Some). apply B2SF_inj. vm_compute. reflexivity.
  - reflexivity.
Qed.

Lemma L_C53_range_refuted : exists s x f, normal (Cfg false true) s /\ sval s = RtoC x /\ (1 < x < 2)%R /\ surd_to_f64 s = Some f /\ is_nan f = true.
Proof.
  assert (P : (1 < IZR (2 ^ 1100))%R) by (apply (IZR_lt 1); reflexivity).
  exists (Surd (SCo (2 ^ 1100 + 1) 0 (2 ^ 1100)) 0), ((IZR (2 ^ 1100 + 1) + IZR 0 * sqrt (IZR 0)) / IZR (2 ^ 1100))%R, B754_nan.
  split; [|split; [|split; [|split]]].
  - split; [reflexivity|]. split; [vm_compute; reflexivity|]. split; [left; split; reflexivity|]. intros _. cbn. lia.
  - apply (sval_parts (Surd (SCo (2 ^ 1100 + 1) 0 (2 ^ 1100)) 0) (2 ^ 1100 + 1) 0 (2 ^ 1100) 0); [reflexivity|]. apply Z.neq_sym, Z.lt_neq. reflexivity.
  - rewrite plus_IZR. set (w := IZR (2 ^ 1100)) in *. clearbody w. rewrite Rmult_0_l, Rplus_0_r. replace ((w + 1) / w)%R with (1 + / w)%R by (field; lra).
    assert (0 < / w < 1)%R; [|lra]. split; [apply Rinv_0_lt_compat; lra|]. rewrite <- Rinv_1. apply Rinv_lt_contravar; lra.
  - unfold surd_to_f64. cbn [discr coeffs c0 c1 c2 Z.ltb Z.compare]. apply (f_equal Some). apply B2SF_inj. vm_compute. reflexivity.
  - reflexivity.
Qed.

Lemma omega_normal : normal (Cfg true true) (Surd (SCo 1 1 2) (-3)).
Proof. split; [cbn; lia|]. split; [reflexivity|]. split; [|intros K; discriminate]. right. split; [cbn; lia|]. intros (k & H). cbn [parts discr] in H. nia. Qed.

Lemma omega_small : small (Surd (SCo 1 1 2) (-3)) (2 ^ 500).
Proof. unfold small. cbn [coeffs c0 c1 c2 discr]. assert (5 <= 2 ^ 500) by (apply Z.leb_le; vm_compute; reflexivity). cbn [Z.abs]. lia. Qed.

Lemma L_C54_real : forall s, real_surd s -> exists re, surd_to_f64 s = Some re /\ surd_to_complex64 s = Some (re, fzero).
Proof.
  intros s H. unfold real_surd in H. unfold surd_to_complex64. rewrite (proj2 (Z.ltb_ge _ 0) H). unfold surd_to_f64. rewrite (proj2 (Z.ltb_ge _ 0) H). eexists. split; reflexivity.
Qed.

Lemma L_C54_error : forall g s, normal g s -> discr s < 0 -> small s (2 ^ 500) ->
  exists re im, surd_to_complex64 s = Some (re, im) /\
    accurate re (Re (sval s)) (eps50 * Rabs (Re (sval s))) /\ accurate im (Im (sval s)) (eps50 * Rabs (Im (sval s))).
Proof.
  intros g s N L (B0 & B1 & B2 & B3). destruct (parts s) as [[[a b] c] r] eqn:E. unfold normal in N. rewrite E in N. destruct N as (Hc & _).
  rewrite (sval_parts s a b c r E) by lia. destruct s as [[a' b' c'] r']. unfold parts in E. cbn [coeffs c0 c1 c2 discr] in *. injection E as -> -> -> ->.
  unfold surd_to_complex64. cbn [coeffs c0 c1 c2 discr]. rewrite (proj2 (Z.ltb_lt r 0) L). cbn [Re Im fst snd].
  eexists. eexists. split; [reflexivity|]. split; [apply re_part; lia|apply im_part; lia].
Qed.

Lemma L_C54_single : forall s re im, surd_to_complex64 s = Some (re, im) ->
  exists re' im', surd_to_complex32 s = Some (re', im') /\
    (is_finite re = true -> (Rabs (B2R re) <= bpow radix2 127)%R -> nearest re' (B2R re)) /\
    (is_finite im = true -> (Rabs (B2R im) <= bpow radix2 127)%R -> nearest im' (B2R im)).
Proof.
  intros s re im H. unfold surd_to_complex32. rewrite H. eexists. eexists. split; [reflexivity|]. split; intros F B; apply f32_nearest; assumption.
Qed.

Lemma L_C54_single_range : forall s re im, surd_to_complex64 s = Some (re, im) ->
  exists re' im', surd_to_complex32 s = Some (re', im') /\ single_range re re' /\ single_range im im'.
Proof. intros s re im H. unfold surd_to_complex32. rewrite H. do 2 eexists. split; [reflexivity|]. split; apply f32_range. Qed.

Lemma L_C55_e : nearest e_value (exp 1).
Proof. exact e_value_nearest. Qed.

Lemma L_C55_pi : nearest pi_value PI.
Proof. exact pi_value_nearest. Qed.

Lemma L_C56_value : forall t g q s, lowest q -> surd_from_f64 t (Some q) = Ok (Some s) -> sval s = qC q /\ normal g s.
Proof.
  intros t g q s L H. unfold surd_from_f64 in H. destruct (checked t (numer q)) as [n|] eqn:En; [|discriminate]. destruct (checked t (denom q)) as [d|] eqn:Ed; [|discriminate].
  apply bind_Ok in H. destruct H as (r & Hr & H). injection H as <-. 
  unfold checked in En, Ed. destruct (fits t (numer q)); [|discriminate]. destruct (fits t (denom q)); [|discriminate]. injection En as <-. injection Ed as <-.
  destruct (ratio_new_ok _ _ _ _ Hr) as (_ & Vr & Lr). destruct (surd_of_ratio_spec g r Lr) as [V N]. split; [|exact N]. rewrite V. unfold qC. rewrite Vr. reflexivity.
Qed.

Lemma L_C56_total : forall t q, lowest q -> returns (surd_from_f64 t (Some q)) /\
  (surd_from_f64 t (Some q) = Ok None <-> fits t (numer q) = false \/ fits t (denom q) = false) /\ surd_from_f64 t None = Ok None.
Proof.
  intros t q [Ld Lg].
  assert (R : fits t (numer q) = true -> fits t (denom q) = true -> returns (ratio_new t (numer q) (denom q))).
  { intros Fn Fd.
    assert (F1 : fits t 1 = true) by (destruct t; cbn [fits] in *; lia).
    unfold ratio_new, gcdT, lift2, quotT. rewrite Lg. destruct (Z.eqb_spec (denom q) 0); [lia|]. destruct (numer q =? 0); [eexists; reflexivity|].
    destruct (numer q =? denom q); [eexists; reflexivity|]. unfold chk at 1. rewrite F1. cbn [bind]. cbn [Z.eqb]. rewrite !Z.quot_1_r. unfold chk. rewrite Fn, Fd. cbn [bind].
    destruct (Z.ltb_spec (denom q) 0); [lia|]. eexists; reflexivity. }
  unfold surd_from_f64, checked. destruct (fits t (numer q)) eqn:En; [destruct (fits t (denom q)) eqn:Ed|].
  - destruct (R eq_refl eq_refl) as (r & ->). cbn [bind]. split; [eexists; reflexivity|]. split; [|reflexivity]. split; [discriminate|intros [H|H]; discriminate].
  - split; [eexists; reflexivity|]. split; [|reflexivity]. split; [intros _; right; reflexivity|intros _; reflexivity].
  - split; [eexists; reflexivity|]. split; [|reflexivity]. split; [intros _; left; reflexivity|intros _; reflexivity].
Qed.
