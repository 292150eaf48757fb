(** * SurdEqual: equality and rounding put right. *)

From Coq Require Import ZArith Reals Lia Lra Bool List Arith.
From Coquelicot Require Import Coquelicot.
From Verif Require Import Base Ext ModelSurd Spec SpecCF SpecFixed SpecEqual NumFacts SurdCore SurdArith SurdMisc SurdTotal SurdRoots SurdOrd SurdRound SurdConv SurdLaws GenSound ClaimsSurd ClaimsSharp SurdRebase SurdFixed.
Open Scope Z_scope.

(** the conjugate depends on the number alone *)
Lemma conj_of_value g r z : normal g r -> normal g z -> sval r = sval z -> is_rational r = false -> sconj r = sconj z.
Proof.
  intros Nr Nz V Q. assert (I : ~ rational_num (sval r)) by (intros K; apply (normal_is_rational g r Nr) in K; congruence).
  pose proof (c2_ne g r Nr) as C. pose proof (c2_ne g z Nz) as C'. pose proof (normal_okc g z Nz) as Oz. unfold okc in Oz.
  assert (P : c0 (coeffs z) * c2 (coeffs r) = c0 (coeffs r) * c2 (coeffs z)) by (apply (rational_part g r _ (c1 (coeffs z)) _ (discr z)); auto; rewrite V; apply sval_fval).
  assert (T : forall s, normal g s -> sconj s = (ZtoC 2 * ZtoC (c0 (coeffs s)) / ZtoC (c2 (coeffs s)) - sval s)%C).
  { intros s Ns. pose proof (c2_ne g s Ns) as Cs. unfold sval, sconj. destruct s as [[a b c] w]. cbn [parts coeffs c0 c1 c2 discr] in *. rewrite two. field. auto. }
  rewrite (T r Nr), (T z Nz), V. f_equal. apply (f_equal ZtoC) in P. rewrite !ZtoC_mul in P.
  transitivity (ZtoC 2 * (ZtoC (c0 (coeffs r)) * ZtoC (c2 (coeffs z))) / (ZtoC (c2 (coeffs r)) * ZtoC (c2 (coeffs z))))%C; [field; auto|]. rewrite <- P. field. auto.
Qed.
Lemma conj_rational g s : normal g s -> is_rational s = true -> sconj s = sval s.
Proof.
  intros N Q. pose proof (rat_discr g s N Q) as D. destruct s as [[a b c] r]. cbn in D. subst r. unfold sval, sconj. cbn [parts coeffs c0 c1 c2 discr]. rewrite csqrt_0. f_equal. ring.
Qed.
Lemma conj_exists g s : normal g s -> exists c, surd_conj BigI s = Ok c /\ normal g c /\ sval c = sconj s /\ sconj c = sval s /\ is_rational c = is_rational s /\ discr c = discr s.
Proof.
  intros N. destruct (surd_conj_total s) as [c Hc]. exists c. split; [auto|]. pose proof Hc as Hc'. apply surd_conj_ok in Hc'. destruct Hc' as [V P]. destruct (conj_surd g BigI s c N Hc) as (Nc & _ & D).
  split; [auto|]. split; [auto|]. destruct s as [[a b c'] r], c as [[a1 b1 c1] r1]. cbn in P. inversion P; subst. split; [|split; [|auto]].
  - unfold sconj, sval. cbn [parts coeffs c0 c1 c2 discr]. f_equal. replace (ZtoC (- b)) with (- ZtoC b)%C by (rewrite ZtoC_opp; reflexivity). ring.
  - unfold is_rational. cbn. f_equal. destruct (Z.eqb_spec b 0), (Z.eqb_spec (- b) 0); auto; lia.
Qed.

Lemma equal_sound g t l r b : normal g l -> normal g r -> equal_fixed g t l r = Ok b -> (b = true <-> sval l = sval r).
Proof.
  intros Nl Nr H. unfold equal_fixed in H. apply bind_Ok in H. destruct H as (e & He & H). pose proof (L_C08_eq_partial g t l r e Nl Nr He) as E. destruct e; cbn [negb] in H.
  2:{ inversion H; subst b. split; [discriminate|]. intros V. apply E. auto. }
  pose proof (proj1 E eq_refl) as E'. clear E. destruct (is_rational l || is_rational r) eqn:Q.
  { inversion H; subst b. split; [intros _|auto]. destruct E' as [V|[_ V]]; [auto|]. apply orb_prop in Q. destruct (is_rational r) eqn:Qr; [rewrite V; apply (conj_rational g r Nr Qr)|].
    exfalso. destruct Q as [Q|Q]; [|discriminate]. destruct (conj_exists g r Nr) as (c & _ & Nc & Vc & _ & Qc & _). apply (normal_is_rational g l Nl) in Q. rewrite V, <- Vc in Q. apply (normal_is_rational g c Nc) in Q. congruence. }
  apply orb_false_iff in Q. destruct Q as [Ql Qr].
  apply bind_Ok in H. destruct H as (lc & Hlc & H). apply bind_Ok in H. destruct H as (a & Ha & H). apply bind_Ok in H. destruct H as (rc & Hrc & H). apply bind_Ok in H. destruct H as (d & Hd & H). apply bind_Ok in H. destruct H as (k & Hk & H). inversion H; subst b. clear H.
  destruct (conj_surd g t l lc Nl Hlc) as (Nlc & Vlc & _). destruct (conj_surd g t r rc Nr Hrc) as (Nrc & Vrc & _).
  apply surd_sub_ok in Ha; auto using normal_wf. destruct Ha as [Va Na]. rewrite Vlc, (dif_ok g l Nl) in Va. apply surd_sub_ok in Hd; auto using normal_wf. destruct Hd as [Vd Nd]. rewrite Vrc, (dif_ok g r Nr) in Vd.
  destruct (dif_irr g l Nl Ql) as (_ & _ & D0). destruct (div_fixed_sound g t d a k Nd Na Hk) as [Nk Vk]. rewrite Va, Vd in Vk. specialize (Vk D0). rewrite (proj2 (L_C18_is_zero_one g k Nk)), Vk.
  destruct E' as [V|[_ V]].
  - split; [auto|]. intros _. rewrite <- (dif_ok g r Nr), <- (dif_ok g l Nl), <- V, (conj_of_value g l r Nl Nr V Ql) in *. field. rewrite V. rewrite V in D0. auto.
  - destruct (conj_exists g r Nr) as (c & _ & Nc & Vc & Wc & Qc & _). assert (V' : sval l = sval c) by congruence. pose proof (conj_of_value g l c Nl Nc V' Ql) as U. rewrite Wc in U.
    assert (K : dif r = (- dif l)%C) by (rewrite <- (dif_ok g r Nr), <- (dif_ok g l Nl), U, V; ring). rewrite K. replace (- dif l / dif l)%C with (- RtoC 1)%C by (field; auto). split.
    + intros M. exfalso. apply (f_equal fst) in M. cbn in M. lra.
    + intros M. exfalso. apply D0. rewrite <- (dif_ok g l Nl), U, M. ring.
Qed.
Lemma equal_total g l r : normal g l -> normal g r -> returns (equal_fixed g BigI l r).
Proof.
  intros Nl Nr. unfold equal_fixed. destruct (L_C08_eq_returns l r) as [e He]. rewrite He. cbn [bind]. destruct e; cbn [negb]; [|eexists; reflexivity]. destruct (is_rational l || is_rational r) eqn:Q; [eexists; reflexivity|]. apply orb_false_iff in Q. destruct Q as [Ql Qr].
  assert (nest : forall s s', discr s' = discr s -> nested_roots s s') by (intros s s' E; right; right; exists 1; split; [lia|left; lia]).
  destruct (conj_exists g l Nl) as (lc & Hlc & Nlc & Vlc & _ & _ & Dl). destruct (conj_exists g r Nr) as (rc & Hrc & Nrc & Vrc & _ & _ & Dr). rewrite Hlc. cbn [bind].
  destruct (L_C06_same_field_partial g l lc Nl Nlc (nest l lc Dl)) as (_ & [a Ha] & _). rewrite Ha. cbn [bind]. rewrite Hrc. cbn [bind]. destruct (L_C06_same_field_partial g r rc Nr Nrc (nest r rc Dr)) as (_ & [d Hd] & _). rewrite Hd. cbn [bind].
  apply surd_sub_ok in Ha; auto using normal_wf. destruct Ha as [Va Na]. rewrite Vlc, (dif_ok g l Nl) in Va. apply surd_sub_ok in Hd; auto using normal_wf. destruct Hd as [Vd Nd]. rewrite Vrc, (dif_ok g r Nr) in Vd.
  destruct (dif_irr g l Nl Ql) as (Ia & Qa & A0). destruct (dif_irr g r Nr Qr) as (Ib & Qb & B0). assert (Pa : pure_surd a) by (unfold pure_surd; rewrite Va; auto). assert (Pd : pure_surd d) by (unfold pure_surd; rewrite Vd; auto).
  destruct (div_fixed_total g d a Nd) as [k Hk]; [intros _; apply (L_C06_pure_mul_div g d a Nd Na Pd Pa)|]. rewrite Hk. eexists. reflexivity.
Qed.
