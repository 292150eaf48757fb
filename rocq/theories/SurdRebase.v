(** * SurdRebase: writing a surd with the root of another one of the same field. *)

From Coq Require Import ZArith Reals Lia Lra Bool List Arith.
From Coquelicot Require Import Coquelicot.
From Verif Require Import Base Ext ModelSurd Spec SpecCF SpecRebase NumFacts SurdCore SurdArith SurdMisc SurdTotal SurdRoots SurdOrd SurdRound SurdConv SurdLaws CFOfSurd CFStep CFArith GenSound ClaimsSurd SurdCompare.
Open Scope Z_scope.

Lemma not_imag x y : ~ (imaginary (RtoC x) /\ imaginary y).
Proof. intros [[_ H] _]. apply H. reflexivity. Qed.
Lemma rr_quot x y : rational_real x -> rational_real y -> y <> 0%R -> rational_real (x / y).
Proof.
  intros Hx (n & d & D & E) Y. apply rr_mul; auto. assert (Nn : n <> 0) by (intros ->; apply Y; rewrite E; unfold Rdiv; ring). exists d, n. split; [auto|]. rewrite E. field. split; apply not_0_IZR; auto.
Qed.
Lemma rr_ext x y : x = y -> rational_real x -> rational_real y.
Proof. intros ->. auto. Qed.
Lemma real_of g s x : normal g s -> sval s = RtoC x -> (is_rational s = true <-> rational_real x).
Proof. intros N V. rewrite (normal_is_rational g s N), V. symmetry. apply rational_real_C. Qed.
Lemma pure_of g s x : normal g s -> sval s = RtoC x -> ~ rational_real x -> rational_real (x * x) -> pure_surd s.
Proof. intros N V I Q. unfold pure_surd. rewrite V. split; [intros K; apply I; apply rational_real_C; auto|]. rewrite <- RtoC_mult. apply rational_real_C. auto. Qed.
Lemma rat_discr g s : normal g s -> is_rational s = true -> discr s = 0.
Proof. intros (_ & _ & [[_ E]|[Hb Ns]] & _) I; [auto|]. unfold is_rational in I. apply orb_prop in I. rewrite !Z.eqb_eq in I. tauto. Qed.

(** the difference of conjugates *)
Lemma skew_irr x xc : conjugate x xc -> ~ rational_real (x - xc) /\ rational_real ((x - xc) * (x - xc)).
Proof.
  intros (I & A & B). split.
  - intros K. apply I. apply (rr_ext (((x + xc) + (x - xc)) / 2)); [field|]. apply rr_quot; [apply rr_add; auto|apply rr_Z|lra].
  - apply (rr_ext ((x + xc) * (x + xc) + (-4) * (x * xc))); [ring|]. apply rr_add; apply rr_mul; auto. apply rr_Z.
Qed.

Section Two.
Context (g : cfg) (l r : surd) (x xc y yc : R) (Nl : normal g l) (Nr : normal g r) (Vl : sval l = RtoC x) (Vr : sval r = RtoC y)
  (Cx : conjugate x xc) (Cy : conjugate y yc) (Ul : sconj l = RtoC xc) (Ur : sconj r = RtoC yc).

Lemma dif_ne : (x - xc <> 0)%R.
Proof. intros E. apply (proj1 (skew_irr x xc Cx)). rewrite E. apply rr_Z. Qed.

Lemma rebase_sound_irr t z : is_rational l = false -> is_rational r = false -> rebase g t l r = Ok z -> normal g z /\ sval z = sval r.
Proof.
  intros Il Ir H. unfold rebase in H. rewrite Il, Ir in H. cbn [orb] in H.
  apply bind_Ok in H. destruct H as (lc & Hlc & H). apply bind_Ok in H. destruct H as (a & Ha & H). apply bind_Ok in H. destruct H as (rc & Hrc & H). apply bind_Ok in H. destruct H as (b & Hb & H).
  apply bind_Ok in H. destruct H as (k & Hk & H). apply bind_Ok in H. destruct H as (q & Hq & H). apply bind_Ok in H. destruct H as (h & Hh & H). apply bind_Ok in H. destruct H as (w & Hw & H).
  apply surd_conj_ok in Hlc. destruct Hlc as [Vlc Plc]. pose proof (normal_conj g l lc Nl Plc) as Nlc. apply surd_conj_ok in Hrc. destruct Hrc as [Vrc Prc]. pose proof (normal_conj g r rc Nr Prc) as Nrc.
  apply surd_sub_ok in Ha; auto using normal_wf. destruct Ha as [Va Na]. rewrite Vl, Vlc, Ul, <- RtoC_minus in Va. apply surd_sub_ok in Hb; auto using normal_wf. destruct Hb as [Vb Nb]. rewrite Vr, Vrc, Ur, <- RtoC_minus in Vb.
  pose proof (surd_div_ok g t b a k (normal_wf g b Nb) (normal_wf g a Na) Hk) as (Nk & _ & _). destruct (L_C05_div_partial g t b a k Nb Na) as [_ Vk]; [rewrite Vb; apply not_imag|auto|]. rewrite Vb, Va, <- RtoC_div in Vk by apply dif_ne.
  pose proof (surd_mul_ok g t k a q (normal_wf g k Nk) (normal_wf g a Na) Hq) as (Nq & _). pose proof (L_C04_mul_partial g t k a q Nk Na) as Vq. rewrite Vk in Vq. specialize (Vq (not_imag _ _) Hq). rewrite Va, <- RtoC_mult in Vq.
  apply surd_add_ok in Hh; auto using normal_wf. destruct Hh as [Vh Nh]. rewrite Vr, Vrc, Ur, <- RtoC_plus in Vh. apply surd_add_ok in Hw; auto using normal_wf. destruct Hw as [Vw Nw]. rewrite Vh, Vq, <- RtoC_plus in Vw.
  apply surd_div_int_ok in H; [|apply (normal_okc g); auto]. destruct H as (_ & Vz & Nz). split; [auto|]. rewrite Vz, Vw, Vr. unfold ZtoC. rewrite <- RtoC_div by lra. f_equal. field. apply dif_ne.
Qed.

Lemma rebase_total_irr : is_rational l = false -> is_rational r = false -> exists z, rebase g BigI l r = Ok z /\ (rational_real ((y - yc) / (x - xc)) -> fr (discr l) z).
Proof.
  intros Il Ir. unfold rebase. rewrite Il, Ir. cbn [orb].
  destruct (surd_conj_total l) as [lc Hlc]. rewrite Hlc. cbn [bind]. apply surd_conj_ok in Hlc. destruct Hlc as [Vlc Plc]. pose proof (normal_conj g l lc Nl Plc) as Nlc.
  assert (Dl : discr lc = discr l) by (destruct lc as [[? ? ?] ?]; cbn in Plc; inversion Plc; reflexivity).
  assert (nest : forall s s', discr s' = discr s -> nested_roots s s') by (intros s s' E; right; right; exists 1; split; [lia|left; lia]).
  destruct (L_C06_same_field_partial g l lc Nl Nlc (nest l lc Dl)) as (_ & [a Ha] & _). rewrite Ha. cbn [bind].
  pose proof (sub_fr g (discr l) l lc a Nl Nlc (or_intror eq_refl) (or_intror Dl) Ha) as Fa. apply surd_sub_ok in Ha; auto using normal_wf. destruct Ha as [Va Na]. rewrite Vl, Vlc, Ul, <- RtoC_minus in Va.
  destruct (surd_conj_total r) as [rc Hrc]. rewrite Hrc. cbn [bind]. apply surd_conj_ok in Hrc. destruct Hrc as [Vrc Prc]. pose proof (normal_conj g r rc Nr Prc) as Nrc.
  assert (Dr : discr rc = discr r) by (destruct rc as [[? ? ?] ?]; cbn in Prc; inversion Prc; reflexivity).
  destruct (L_C06_same_field_partial g r rc Nr Nrc (nest r rc Dr)) as ([h Hh] & [b Hb] & _). rewrite Hb. cbn [bind]. apply surd_sub_ok in Hb; auto using normal_wf. destruct Hb as [Vb Nb]. rewrite Vr, Vrc, Ur, <- RtoC_minus in Vb.
  destruct (skew_irr x xc Cx) as [Ia Qa]. destruct (skew_irr y yc Cy) as [Ib Qb]. pose proof (pure_of g a _ Na Va Ia Qa) as Pa. pose proof (pure_of g b _ Nb Vb Ib Qb) as Pb.
  destruct (L_C06_pure_mul_div g b a Nb Na Pb Pa) as [_ [k Hk]]. rewrite Hk. cbn [bind].
  pose proof (surd_div_ok g BigI b a k (normal_wf g b Nb) (normal_wf g a Na) Hk) as (Nk & _ & _). destruct (L_C05_div_partial g BigI b a k Nb Na) as [_ Vk]; [rewrite Vb; apply not_imag|auto|]. rewrite Vb, Va, <- RtoC_div in Vk by apply dif_ne.
  assert (Rk : is_rational k = true <-> rational_real ((y - yc) / (x - xc))) by (apply (real_of g k _ Nk Vk)).
  assert (Hq : returns (surd_mul g BigI k a)).
  { destruct (is_rational k) eqn:Ik.
    - apply (L_C06_same_field_partial g k a Nk Na). left. apply (normal_is_rational g k Nk). auto.
    - apply (L_C06_pure_mul_div g k a Nk Na); auto. apply (pure_of g k _ Nk Vk); [intros K; apply Rk in K; discriminate|].
      apply (rr_ext (((y - yc) * (y - yc)) / ((x - xc) * (x - xc)))); [field; apply dif_ne|]. apply rr_quot; auto. apply Rmult_integral_contrapositive_currified; apply dif_ne. }
  destruct Hq as [q Hq]. rewrite Hq. cbn [bind]. pose proof (surd_mul_ok g BigI k a q (normal_wf g k Nk) (normal_wf g a Na) Hq) as (Nq & _).
  rewrite Hh. cbn [bind]. apply surd_add_ok in Hh; auto using normal_wf. destruct Hh as [Vh Nh]. rewrite Vr, Vrc, Ur, <- RtoC_plus in Vh.
  assert (Rh : is_rational h = true) by (apply (real_of g h _ Nh Vh); apply Cy).
  destruct (L_C06_same_field_partial g h q Nh Nq) as ([w Hw] & _); [left; apply (normal_is_rational g h Nh); auto|]. rewrite Hw. cbn [bind].
  pose proof (add_fr g (discr q) h q w Nh Nq (or_introl (rat_discr g h Nh Rh)) (or_intror eq_refl) Hw) as Fw. apply surd_add_ok in Hw; auto using normal_wf. destruct Hw as [Vw Nw].
  destruct (surd_div_int_total g w (normal_wf g w Nw) 2) as [z Hz]; [lia|]. exists z. split; [auto|]. intros K. apply Rk in K.
  assert (Fz : fr (discr w) z) by (unfold surd_div_int in Hz; apply bind_Ok in Hz; destruct Hz as (co & _ & Hz); apply from_coeffs_fr in Hz; auto).
  pose proof (mul_fr g (discr a) k a q Nk Na (or_introl (rat_discr g k Nk K)) (or_intror eq_refl) Hq) as Fq.
  apply (fr_trans (discr a)); [exact Fa|]. apply (fr_trans (discr q)); [exact Fq|]. apply (fr_trans (discr w)); [exact Fw|]. exact Fz.
Qed.
End Two.

Lemma fr_nested l z : fr (discr l) z -> is_rational z = false -> nested_roots l z.
Proof.
  intros [E|(k & Hk & E)] I; [exfalso; unfold is_rational in I; rewrite E, orb_true_r in I; discriminate|]. right. right. exists k. auto.
Qed.
Lemma irr_conj g s x : normal g s -> sval s = RtoC x -> is_rational s = false -> sconj s = RtoC (rconj s) /\ conjugate x (rconj s) /\ (x - rconj s = 2 * IZR (c1 (coeffs s)) * sqrt (IZR (discr s)) / IZR (c2 (coeffs s)))%R.
Proof.
  intros N V I. assert (Ir : ~ rational_real x) by (intros K; apply (real_of g s x N V) in K; congruence). destruct (surd_conjugate g s x N V Ir) as [A B]. split; [auto|]. split; [auto|].
  destruct (normal_real g s x N V) as [_ ->]. pose proof (normal_okc g s N) as O. unfold okc in O. unfold rs, rnum, rconj. field. apply not_0_IZR. destruct s as [[? ? ?] ?]. cbn in *. auto.
Qed.
Lemma ratio_rational p q m n : 0 <= p -> 0 <= q -> m <> 0 -> n <> 0 -> m * m * p = n * n * q -> (sqrt (IZR p) <> 0)%R -> rational_real (sqrt (IZR q) / sqrt (IZR p)).
Proof.
  intros Hp Hq Hm Hn E P. apply (f_equal IZR) in E. rewrite !mult_IZR in E. apply (f_equal sqrt) in E. apply IZR_le in Hp, Hq.
  rewrite (sqrt_mult_alt (IZR m * IZR m)), (sqrt_mult_alt (IZR n * IZR n)) in E by apply Rle_0_sqr. change (IZR m * IZR m)%R with (Rsqr (IZR m)) in E. change (IZR n * IZR n)%R with (Rsqr (IZR n)) in E.
  rewrite !sqrt_Rsqr_abs, <- !abs_IZR in E. exists (Z.abs m), (Z.abs n). split; [lia|]. assert (N0 : IZR (Z.abs n) <> 0%R) by (apply not_0_IZR; lia).
  apply (Rmult_eq_reg_r (sqrt (IZR p) * IZR (Z.abs n))); [|apply Rmult_integral_contrapositive_currified; auto]. transitivity (IZR (Z.abs n) * sqrt (IZR q))%R; [field; auto|]. rewrite <- E. field. auto.
Qed.

Theorem rebase_sound g t l r x y z : normal g l -> normal g r -> sval l = RtoC x -> sval r = RtoC y -> rebase g t l r = Ok z -> normal g z /\ sval z = sval r.
Proof.
  intros Nl Nr Vl Vr H. destruct (is_rational l || is_rational r) eqn:Q; [unfold rebase in H; rewrite Q in H; inversion H; subst; auto|]. apply orb_false_iff in Q. destruct Q as [Ql Qr].
  destruct (irr_conj g l x Nl Vl Ql) as (A & B & _). destruct (irr_conj g r y Nr Vr Qr) as (C & D & _). apply (rebase_sound_irr g l r x _ y _ Nl Nr Vl Vr B A C t z Ql Qr H).
Qed.
Theorem rebase_total g l r x y : normal g l -> normal g r -> sval l = RtoC x -> sval r = RtoC y -> exists z, rebase g BigI l r = Ok z /\ (same_field l r -> nested_roots l z).
Proof.
  intros Nl Nr Vl Vr. destruct (is_rational l || is_rational r) eqn:Q.
  - exists r. unfold rebase. rewrite Q. split; [auto|]. intros _. apply orb_prop in Q. destruct Q as [Q|Q]; [left; apply (normal_is_rational g l Nl); auto|right; left; apply (normal_is_rational g r Nr); auto].
  - apply orb_false_iff in Q. destruct Q as [Ql Qr]. destruct (irr_conj g l x Nl Vl Ql) as (A & B & E1). destruct (irr_conj g r y Nr Vr Qr) as (C & D & E2).
    destruct (rebase_total_irr g l r x _ y _ Nl Nr Vl Vr B D A C Ql Qr) as (z & Hz & F). exists z. split; [auto|]. intros [S|[S|(m & n & Hm & Hn & S)]]; [apply (normal_is_rational g l Nl) in S; congruence|apply (normal_is_rational g r Nr) in S; congruence|].
    destruct (rebase_sound g BigI l r x y z Nl Nr Vl Vr Hz) as [Nz Vz]. apply fr_nested.
    + apply F. rewrite E1, E2. pose proof (dif_ne x _ B) as X0. rewrite E1 in X0. destruct (normal_real g l x Nl Vl) as [Dl _]. destruct (normal_real g r y Nr Vr) as [Dr _].
      assert (P : sqrt (IZR (discr l)) <> 0%R) by (intros K; apply X0; rewrite K; unfold Rdiv; ring). pose proof (ratio_rational (discr l) (discr r) m n Dl Dr Hm Hn S P) as R.
      assert (C1 : IZR (c1 (coeffs l)) <> 0%R) by (intros K; apply X0; rewrite K; unfold Rdiv; ring).
      assert (C2 : IZR (c2 (coeffs l)) <> 0%R) by (pose proof (normal_okc g l Nl) as O; unfold okc in O; apply not_0_IZR; destruct l as [[? ? ?] ?]; cbn in *; auto).
      assert (C3 : IZR (c2 (coeffs r)) <> 0%R) by (pose proof (normal_okc g r Nr) as O; unfold okc in O; apply not_0_IZR; destruct r as [[? ? ?] ?]; cbn in *; auto).
      apply (rr_ext ((IZR (c1 (coeffs r)) * IZR (c2 (coeffs l))) / (IZR (c2 (coeffs r)) * IZR (c1 (coeffs l))) * (sqrt (IZR (discr r)) / sqrt (IZR (discr l))))); [field; auto|].
      apply rr_mul; auto. apply rr_quot; [apply rr_mul; apply rr_Z|apply rr_mul; apply rr_Z|apply Rmult_integral_contrapositive_currified; auto].
    + destruct (is_rational z) eqn:Qz; [|auto]. apply (normal_is_rational g z Nz) in Qz. rewrite Vz in Qz. apply (normal_is_rational g r Nr) in Qz. congruence.
Qed.

(** the four operations *)
Lemma any_sound g t l r x y s : normal g l -> normal g r -> sval l = RtoC x -> sval r = RtoC y ->
  (add_any g t l r = Ok s -> normal g s /\ sval s = RtoC (x + y)) /\ (sub_any g t l r = Ok s -> normal g s /\ sval s = RtoC (x - y)) /\
  (mul_any g t l r = Ok s -> normal g s /\ sval s = RtoC (x * y)) /\ (div_any g t l r = Ok s -> normal g s /\ (y <> 0%R -> sval s = RtoC (x / y))).
Proof.
  intros Nl Nr Vl Vr. unfold add_any, sub_any, mul_any, div_any. split; [|split; [|split]].
  - intros H. apply bind_Ok in H. destruct H as (z & Hz & H). destruct (rebase_sound g t l r x y z Nl Nr Vl Vr Hz) as [Nz Vz]. apply surd_add_ok in H; auto using normal_wf. destruct H as [V N]. split; [auto|]. rewrite V, Vz, Vl, Vr, RtoC_plus. reflexivity.
  - intros H. apply bind_Ok in H. destruct H as (z & Hz & H). destruct (rebase_sound g t l r x y z Nl Nr Vl Vr Hz) as [Nz Vz]. apply surd_sub_ok in H; auto using normal_wf. destruct H as [V N]. split; [auto|]. rewrite V, Vz, Vl, Vr, RtoC_minus. reflexivity.
  - intros H. apply bind_Ok in H. destruct H as (z & Hz & H). destruct (rebase_sound g t l r x y z Nl Nr Vl Vr Hz) as [Nz Vz]. split; [apply surd_mul_ok in H; auto using normal_wf; tauto|].
    rewrite (L_C04_mul_partial g t l z s Nl Nz); auto; [rewrite Vz, Vl, Vr, RtoC_mult; reflexivity|rewrite Vl; apply not_imag].
  - destruct (surd_is_zero l) eqn:Z0; intros H.
    + inversion H; subst s. split; [auto|]. intros Y. apply (proj1 (L_C18_is_zero_one g l Nl)) in Z0. rewrite Vl in Z0. apply RtoC_inj in Z0. rewrite Vl, Z0. f_equal. unfold Rdiv. ring.
    + apply bind_Ok in H. destruct H as (z & Hz & H). destruct (rebase_sound g t l r x y z Nl Nr Vl Vr Hz) as [Nz Vz]. split; [apply surd_div_ok in H; auto using normal_wf; tauto|]. intros Y.
      destruct (L_C05_div_partial g t l z s Nl Nz) as [_ V]; auto; [rewrite Vl; apply not_imag|]. rewrite V, Vz, Vl, Vr, RtoC_div by auto. reflexivity.
Qed.
Lemma any_total g l r x y : normal g l -> normal g r -> sval l = RtoC x -> sval r = RtoC y -> same_field l r ->
  returns (add_any g BigI l r) /\ returns (sub_any g BigI l r) /\ returns (mul_any g BigI l r) /\ (y <> 0%R -> returns (div_any g BigI l r)).
Proof.
  intros Nl Nr Vl Vr F. destruct (rebase_total g l r x y Nl Nr Vl Vr) as (z & Hz & K). specialize (K F). destruct (rebase_sound g BigI l r x y z Nl Nr Vl Vr Hz) as [Nz Vz].
  unfold add_any, sub_any, mul_any, div_any. rewrite Hz. cbn [bind]. destruct (L_C06_same_field_partial g l z Nl Nz K) as (A & B & C & D). split; [auto|]. split; [auto|]. split; [auto|].
  intros Y. destruct (surd_is_zero l) eqn:Z0; [eexists; reflexivity|]. apply D; [rewrite Vz, Vr; intros E; apply RtoC_inj in E; auto|]. left. intros E. apply (proj1 (L_C18_is_zero_one g l Nl)) in E. congruence.
Qed.

(** for numbers of different fields there is no sum that is a surd *)
Lemma value_root g r z y : normal g r -> normal g z -> sval r = RtoC y -> sval z = RtoC y -> is_rational r = false -> exists m n, m <> 0 /\ n <> 0 /\ m * m * discr r = n * n * discr z.
Proof.
  intros Nr Nz Vr Vz Q. assert (Qz : is_rational z = false) by (destruct (is_rational z) eqn:K; [|auto]; apply (real_of g z y Nz Vz) in K; apply (real_of g r y Nr Vr) in K; congruence).
  destruct (irr_conj g r y Nr Vr Q) as (_ & C1 & E1). destruct (irr_conj g z y Nz Vz Qz) as (_ & C2 & E2). rewrite (conjugate_unique _ _ _ C2 C1), E1 in E2.
  destruct (normal_real g r y Nr Vr) as [Dr _]. destruct (normal_real g z y Nz Vz) as [Dz _]. pose proof (normal_okc g r Nr) as Or. pose proof (normal_okc g z Nz) as Oz. unfold okc in Or, Oz.
  apply is_rational_false in Q, Qz. destruct r as [[a b c] p], z as [[a' b' c'] q]. cbn [coeffs c0 c1 c2 discr] in *. exists (b * c'), (b' * c). split; [nia|]. split; [nia|].
  assert (C : IZR c <> 0%R) by (apply not_0_IZR; auto). assert (C' : IZR c' <> 0%R) by (apply not_0_IZR; auto). apply IZR_le in Dr, Dz.
  assert (E : (IZR b * IZR c' * sqrt (IZR p) = IZR b' * IZR c * sqrt (IZR q))%R).
  { apply (Rmult_eq_reg_r (2 / (IZR c * IZR c'))); [|unfold Rdiv; apply Rmult_integral_contrapositive_currified; [lra|apply Rinv_neq_0_compat; apply Rmult_integral_contrapositive_currified; auto]].
    transitivity (2 * IZR b * sqrt (IZR p) / IZR c)%R; [field; auto|]. rewrite E2. field. auto. }
  apply eq_IZR. rewrite !mult_IZR. rewrite <- (sqrt_sqrt (IZR p)), <- (sqrt_sqrt (IZR q)) by auto. 
  transitivity ((IZR b * IZR c' * sqrt (IZR p)) * (IZR b * IZR c' * sqrt (IZR p)))%R; [ring|]. rewrite E. ring.
Qed.
Lemma any_panics g l r x y : normal g l -> normal g r -> sval l = RtoC x -> sval r = RtoC y -> ~ same_field l r ->
  add_any g BigI l r = Panic PIncompatible /\ sub_any g BigI l r = Panic PIncompatible.
Proof.
  intros Nl Nr Vl Vr F. destruct (rebase_total g l r x y Nl Nr Vl Vr) as (z & Hz & _). destruct (rebase_sound g BigI l r x y z Nl Nr Vl Vr Hz) as [Nz Vz].
  assert (Qr : is_rational r = false) by (destruct (is_rational r) eqn:K; [|auto]; exfalso; apply F; right; left; apply (normal_is_rational g r Nr); auto).
  unfold add_any, sub_any. rewrite Hz. cbn [bind]. assert (K : ~ nested_roots l z); [|destruct (L_C06_panics g l z Nl Nz K) as (A & B & _); auto].
  intros [K|[K|(k & Hk & K)]]; apply F; [left; auto|right; left; rewrite <- Vz; auto|]. right. right.
  destruct (value_root g r z y Nr Nz Vr) as (m & n & Hm & Hn & E); auto; [rewrite Vz; auto|]. destruct K as [K|K].
  - exists n, (k * m). split; [auto|]. split; [nia|]. rewrite K. transitivity (k * k * (n * n * discr z)); [ring|]. rewrite <- E. ring.
  - exists (n * k), m. split; [nia|]. split; [auto|]. rewrite E, K. ring.
Qed.
