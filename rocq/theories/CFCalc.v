(** * CFCalc: converting every real surd and every continued fraction, and calculating with fractions. *)

From Coq Require Import ZArith Reals Lia Lra Bool List Arith.
From Coquelicot Require Import Coquelicot.
From Verif Require Import Base Ext ModelSurd ModelBlock ModelCF ModelConv Spec SpecCF SpecRecipe SpecReturn SpecRebase SpecCompare SpecCalc NumFacts SurdCore SurdArith SurdMisc SurdTotal SurdRoots SurdOrd SurdRound CFOfSurd CFStep CFArith GenSound ClaimsSurd ClaimsCF ClaimsOrder ClaimsRecipe ClaimsReturn CFRecipe CFReturn SurdCompare SurdRebase.
Import ListNotations.
Open Scope Z_scope.

Lemma convert_all_sound g t fuel s x X : fits t 1 = true -> normal g s -> sval s = RtoC x -> convert_all g t fuel s = Ok X -> exists z, X = Some z /\ canonical z /\ cf_val z = x.
Proof.
  intros F N V H. unfold convert_all in H. destruct (is_rational s) eqn:Q.
  - apply (normal_is_rational g s N) in Q. destruct (L_C13_to_rational_complete g t s x N V Q) as (q & Eq & Vq). rewrite Eq in H. cbn [bind approx_value] in H. apply bind_Ok in H. destruct H as (z & Hz & H).
    inversion H; subst X. exists z. split; [auto|]. destruct (L_C13_to_rational_exact g t s q N Eq) as [_ L]. destruct (L_C30_of_ratio t q z L Hz) as (C & _ & E). split; [auto|]. congruence.
  - assert (I : ~ rational_real x) by (intros K; apply (real_of g s x N V) in K; congruence). destruct (L_C102_right g t fuel s x X F N V I H) as (z & E & C & _ & Vz). eauto.
Qed.
Lemma convert_all_total g s x : normal g s -> sval s = RtoC x -> exists n0, forall fuel, (n0 <= fuel)%nat -> returns (convert_all g BigI fuel s).
Proof.
  intros N V. unfold convert_all. destruct (is_rational s) eqn:Q.
  - exists 0%nat. intros fuel _. apply (normal_is_rational g s N) in Q. destruct (L_C13_to_rational_complete g BigI s x N V Q) as (q & Eq & Vq). destruct (L_C13_to_rational_exact g BigI s q N Eq) as [_ L].
    rewrite Eq. cbn [bind approx_value]. destruct (L_C30_returns q L) as [z Hz]. rewrite Hz. eexists. reflexivity.
  - assert (I : ~ rational_real x) by (intros K; apply (real_of g s x N V) in K; congruence). destruct (L_C102_returns g s x N V I) as [n0 H]. exists n0. exact H.
Qed.
Lemma return_all_sound g u x s : fits (sty u) 1 = true -> wfcf x -> held u x -> return_all g u x = Ok s -> normal g s /\ sval s = RtoC (cf_val x).
Proof.
  intros F W [H1 H2] H. unfold return_all in H. destruct (p_coeffs x) as [|p l] eqn:P.
  - destruct (L_C38_to_rational_finite u x W P (H1 P)) as (r & Er & L & Vr). rewrite Er in H. cbn [bind approx_value] in H. inversion H; subst s. destruct (surd_of_ratio_spec g r L) as [V N]. split; [auto|]. rewrite V. unfold qC. rewrite Vr. reflexivity.
  - assert (Fi : ~ finite x) by (unfold finite; rewrite P; discriminate). apply (return_sound g u x s F W Fi); auto. rewrite P. auto.
Qed.
Lemma held_big x : wfcf x -> held BigU x.
Proof. intros W. split; [intros _ r L _; apply (proj2 (L_C38_big_sized x W) r L)|intros F; apply big_cont; auto]. Qed.
Lemma return_all_total g x : wfcf x -> exists s, return_all g BigU x = Ok s /\ normal g s /\ sval s = RtoC (cf_val x).
Proof.
  intros W. assert (R : returns (return_all g BigU x)).
  { unfold return_all. destruct (p_coeffs x) as [|p l] eqn:P.
    - destruct (L_C38_to_rational_finite BigU x W P (proj1 (held_big x W) P)) as (r & Er & _). rewrite Er. eexists. reflexivity.
    - apply return_total; auto. unfold finite. rewrite P. discriminate. }
  destruct R as [s Hs]. exists s. split; [auto|]. apply (return_all_sound g BigU x s eq_refl W (held_big x W) Hs).
Qed.

(** there and back, back and there *)
Lemma there_and_back g s x : normal g s -> sval s = RtoC x ->
  exists n0, forall fuel, (n0 <= fuel)%nat -> exists z r, convert_all g BigI fuel s = Ok (Some z) /\ return_all g BigU z = Ok r /\ normal g r /\ sval r = sval s.
Proof.
  intros N V. destruct (convert_all_total g s x N V) as [n0 H]. exists n0. intros fuel Hf. destruct (H fuel Hf) as [X HX]. destruct (convert_all_sound g BigI fuel s x X eq_refl N V HX) as (z & -> & C & Vz).
  destruct (return_all_total g z (proj1 C)) as (r & Hr & Nr & Vr). exists z, r. split; [auto|]. split; [auto|]. split; [auto|]. congruence.
Qed.
Lemma back_and_there g x : canonical x ->
  exists s n0, return_all g BigU x = Ok s /\ forall fuel, (n0 <= fuel)%nat -> exists z, convert_all g BigI fuel s = Ok (Some z) /\ negative z = negative x /\ forall n, coeff_at z n = coeff_at x n.
Proof.
  intros C. destruct (return_all_total g x (proj1 C)) as (s & Hs & Ns & Vs). destruct (convert_all_total g s _ Ns Vs) as [n0 H]. exists s, n0. split; [auto|]. intros fuel Hf. destruct (H fuel Hf) as [X HX].
  destruct (convert_all_sound g BigI fuel s _ X eq_refl Ns Vs HX) as (z & -> & Cz & Vz). exists z. split; [auto|]. apply (L_C101_equal z x Cz C). auto.
Qed.

(** one field *)
Lemma one_field_surds g l r x y : normal g l -> normal g r -> sval l = RtoC x -> sval r = RtoC y -> one_field x y -> same_field l r.
Proof.
  intros Nl Nr Vl Vr F. destruct (is_rational l) eqn:Ql; [left; apply (normal_is_rational g l Nl); auto|]. destruct (is_rational r) eqn:Qr; [right; left; apply (normal_is_rational g r Nr); auto|]. right. right.
  assert (Ix : ~ rational_real x) by (intros K; apply (real_of g l x Nl Vl) in K; congruence). assert (Iy : ~ rational_real y) by (intros K; apply (real_of g r y Nr Vr) in K; congruence).
  destruct F as [F|[F|(p & q & Rp & (n & d & D & Eq) & E)]]; [contradiction|contradiction|].
  destruct (irr_conj g l x Nl Vl Ql) as (_ & Cx & Ex). destruct (irr_conj g r y Nr Vr Qr) as (_ & Cy & Ey). assert (D' : IZR d <> 0%R) by (apply not_0_IZR; auto).
  assert (N0 : n <> 0) by (intros ->; apply Iy; rewrite E, Eq; replace (p + 0 / IZR d * x)%R with p by (field; auto); auto).
  assert (Rq : rational_real q) by (exists n, d; auto).
  assert (Cy' : conjugate y (p + q * rconj l)).
  { destruct Cx as (_ & A & B). split; [auto|]. rewrite E. split.
    - apply (rr_ext (p + p + q * (x + rconj l))); [ring|]. apply rr_add; [apply rr_add; auto|apply rr_mul; auto].
    - apply (rr_ext (p * p + (p * q * (x + rconj l) + q * q * (x * rconj l)))); [ring|]. apply rr_add; [apply rr_mul; auto|]. apply rr_add; (apply rr_mul; [apply rr_mul; auto|auto]). }
  pose proof (conjugate_unique _ _ _ Cy' Cy) as U. rewrite <- U in Ey. assert (K : (q * (x - rconj l) = y - (p + q * rconj l))%R) by (rewrite E; ring). rewrite Ex, Ey, Eq in K.
  destruct (normal_real g l x Nl Vl) as [Dl _]. destruct (normal_real g r y Nr Vr) as [Dr _]. pose proof (normal_okc g l Nl) as Ol. pose proof (normal_okc g r Nr) as Or. unfold okc in Or, Ol. clear - K Dl Dr Ol Or Ql Qr D' N0 D.
  apply is_rational_false in Ql, Qr. destruct l as [[a b c] v], r as [[a' b' c'] w]. cbn [coeffs c0 c1 c2 discr] in *. exists (n * b * c'), (d * b' * c). split; [nia|]. split; [nia|].
  assert (C : IZR c <> 0%R) by (apply not_0_IZR; auto). assert (C' : IZR c' <> 0%R) by (apply not_0_IZR; auto). apply IZR_le in Dr, Dl.
  assert (E : (IZR n * IZR b * IZR c' * sqrt (IZR v) = IZR d * IZR b' * IZR c * sqrt (IZR w))%R).
  { transitivity ((IZR n / IZR d * (2 * IZR b * sqrt (IZR v) / IZR c)) * (IZR d * IZR c * IZR c' / 2))%R; [field; auto|]. rewrite K. field. auto. }
  apply eq_IZR. rewrite !mult_IZR. rewrite <- (sqrt_sqrt (IZR v)), <- (sqrt_sqrt (IZR w)) by auto.
  transitivity ((IZR n * IZR b * IZR c' * sqrt (IZR v)) * (IZR n * IZR b * IZR c' * sqrt (IZR v)))%R; [ring|]. rewrite E. ring.
Qed.

(** ** calculating *)
Lemma calc_sound g u op f fuel x y X : fits (sty u) 1 = true -> wfcf x -> wfcf y -> held u x -> held u y ->
  (forall a b s, normal g a -> normal g b -> sval a = RtoC (cf_val x) -> sval b = RtoC (cf_val y) -> op a b = Ok s -> normal g s /\ sval s = RtoC f) ->
  calc g u op fuel x y = Ok X -> exists z, X = Some z /\ canonical z /\ cf_val z = f.
Proof.
  intros F Wx Wy Hx Hy O H. unfold calc in H. apply bind_Ok in H. destruct H as (a & Ha & H). apply bind_Ok in H. destruct H as (b & Hb & H). apply bind_Ok in H. destruct H as (s & Hs & H).
  destruct (return_all_sound g u x a F Wx Hx Ha) as [Na Va]. destruct (return_all_sound g u y b F Wy Hy Hb) as [Nb Vb]. destruct (O a b s Na Nb Va Vb Hs) as [Ns Vs]. apply (convert_all_sound g (sty u) fuel s f X F Ns Vs H).
Qed.
Lemma calc_total g op f x y : wfcf x -> wfcf y ->
  (forall a b, normal g a -> normal g b -> sval a = RtoC (cf_val x) -> sval b = RtoC (cf_val y) -> exists s, op a b = Ok s /\ normal g s /\ sval s = RtoC f) ->
  exists n0, forall fuel, (n0 <= fuel)%nat -> exists z, calc g BigU op fuel x y = Ok (Some z) /\ canonical z /\ cf_val z = f.
Proof.
  intros Wx Wy O. destruct (return_all_total g x Wx) as (a & Ha & Na & Va). destruct (return_all_total g y Wy) as (b & Hb & Nb & Vb). destruct (O a b Na Nb Va Vb) as (s & Hs & Ns & Vs).
  destruct (convert_all_total g s f Ns Vs) as [n0 H]. exists n0. intros fuel Hf. destruct (H fuel Hf) as [X HX]. destruct (convert_all_sound g BigI fuel s f X eq_refl Ns Vs HX) as (z & -> & C & Vz).
  exists z. split; [|auto]. unfold calc. rewrite Ha. cbn [bind]. rewrite Hb. cbn [bind]. rewrite Hs. exact HX.
Qed.
Lemma calc_right g u fuel x y X : fits (sty u) 1 = true -> wfcf x -> wfcf y -> held u x -> held u y ->
  (calc g u (add_any g (sty u)) fuel x y = Ok X -> exists z, X = Some z /\ canonical z /\ cf_val z = (cf_val x + cf_val y)%R) /\
  (calc g u (sub_any g (sty u)) fuel x y = Ok X -> exists z, X = Some z /\ canonical z /\ cf_val z = (cf_val x - cf_val y)%R) /\
  (calc g u (mul_any g (sty u)) fuel x y = Ok X -> exists z, X = Some z /\ canonical z /\ cf_val z = (cf_val x * cf_val y)%R) /\
  (calc g u (div_any g (sty u)) fuel x y = Ok X -> cf_val y <> 0%R -> exists z, X = Some z /\ canonical z /\ cf_val z = (cf_val x / cf_val y)%R).
Proof.
  intros F Wx Wy Hx Hy. split; [|split; [|split]]; intros H; [| | |intros Y]; (eapply calc_sound; [exact F|exact Wx|exact Wy|exact Hx|exact Hy| |exact H]); intros a b s Na Nb Va Vb Hs;
    destruct (any_sound g (sty u) a b _ _ s Na Nb Va Vb) as (A & B & C & D); auto. destruct (D Hs) as [N V]. auto.
Qed.
Lemma calc_returns g x y : wfcf x -> wfcf y -> one_field (cf_val x) (cf_val y) -> exists n0, forall fuel, (n0 <= fuel)%nat ->
  returns (calc g BigU (add_any g BigI) fuel x y) /\ returns (calc g BigU (sub_any g BigI) fuel x y) /\ returns (calc g BigU (mul_any g BigI) fuel x y) /\ (cf_val y <> 0%R -> returns (calc g BigU (div_any g BigI) fuel x y)).
Proof.
  intros Wx Wy O. assert (T : forall a b, normal g a -> normal g b -> sval a = RtoC (cf_val x) -> sval b = RtoC (cf_val y) ->
    returns (add_any g BigI a b) /\ returns (sub_any g BigI a b) /\ returns (mul_any g BigI a b) /\ (cf_val y <> 0%R -> returns (div_any g BigI a b))).
  { intros a b Na Nb Va Vb. apply (any_total g a b _ _ Na Nb Va Vb). apply (one_field_surds g a b _ _ Na Nb Va Vb O). }
  destruct (calc_total g (add_any g BigI) (cf_val x + cf_val y) x y Wx Wy) as [n1 H1].
  { intros a b Na Nb Va Vb. destruct (T a b Na Nb Va Vb) as ([s Hs] & _). exists s. split; [auto|]. apply (any_sound g BigI a b _ _ s Na Nb Va Vb). auto. }
  destruct (calc_total g (sub_any g BigI) (cf_val x - cf_val y) x y Wx Wy) as [n2 H2].
  { intros a b Na Nb Va Vb. destruct (T a b Na Nb Va Vb) as (_ & [s Hs] & _). exists s. split; [auto|]. apply (any_sound g BigI a b _ _ s Na Nb Va Vb). auto. }
  destruct (calc_total g (mul_any g BigI) (cf_val x * cf_val y) x y Wx Wy) as [n3 H3].
  { intros a b Na Nb Va Vb. destruct (T a b Na Nb Va Vb) as (_ & _ & [s Hs] & _). exists s. split; [auto|]. apply (any_sound g BigI a b _ _ s Na Nb Va Vb). auto. }
  destruct (Req_EM_T (cf_val y) 0) as [Y|Y].
  - exists (n1 + n2 + n3)%nat. intros fuel Hf. destruct (H1 fuel ltac:(lia)) as (z1 & E1 & _). destruct (H2 fuel ltac:(lia)) as (z2 & E2 & _). destruct (H3 fuel ltac:(lia)) as (z3 & E3 & _).
    split; [eexists; exact E1|]. split; [eexists; exact E2|]. split; [eexists; exact E3|]. contradiction.
  - destruct (calc_total g (div_any g BigI) (cf_val x / cf_val y) x y Wx Wy) as [n4 H4].
    { intros a b Na Nb Va Vb. destruct (T a b Na Nb Va Vb) as (_ & _ & _ & D). destruct (D Y) as [s Hs]. exists s. split; [auto|]. destruct (any_sound g BigI a b _ _ s Na Nb Va Vb) as (_ & _ & _ & K). destruct (K Hs) as [N V]. auto. }
    exists (n1 + n2 + n3 + n4)%nat. intros fuel Hf. destruct (H1 fuel ltac:(lia)) as (z1 & E1 & _). destruct (H2 fuel ltac:(lia)) as (z2 & E2 & _). destruct (H3 fuel ltac:(lia)) as (z3 & E3 & _). destruct (H4 fuel ltac:(lia)) as (z4 & E4 & _).
    split; [eexists; exact E1|]. split; [eexists; exact E2|]. split; [eexists; exact E3|]. intros _. eexists; exact E4.
Qed.

Lemma order_right g u fuel x y c : fits (sty u) 1 = true -> wfcf x -> wfcf y -> held u x -> held u y -> order_fractions g u fuel x y = Ok c -> is_order c (cf_val x) (cf_val y).
Proof.
  intros F Wx Wy Hx Hy H. unfold order_fractions in H. apply bind_Ok in H. destruct H as (a & Ha & H). apply bind_Ok in H. destruct H as (b & Hb & H).
  destruct (return_all_sound g u x a F Wx Hx Ha) as [Na Va]. destruct (return_all_sound g u y b F Wy Hy Hb) as [Nb Vb]. apply (order_sound g (sty u) fuel a b _ _ c Na Nb Va Vb H).
Qed.
Lemma order_returns g x y : wfcf x -> wfcf y -> exists n0, forall fuel, (n0 <= fuel)%nat -> returns (order_fractions g BigU fuel x y).
Proof.
  intros Wx Wy. destruct (return_all_total g x Wx) as (a & Ha & Na & Va). destruct (return_all_total g y Wy) as (b & Hb & Nb & Vb). destruct (order_total g a b _ _ Na Nb Va Vb) as [n0 H].
  exists n0. intros fuel Hf. unfold order_fractions. rewrite Ha. cbn [bind]. rewrite Hb. exact (H fuel Hf).
Qed.
