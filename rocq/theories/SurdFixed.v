(** * SurdFixed: products and quotients with the right sign, and arithmetic in all quadratic fields. *)

From Coq Require Import ZArith Reals Lia Lra Bool List Arith.
From Coquelicot Require Import Coquelicot.
From Verif Require Import Base Ext ModelSurd Spec SpecFixed NumFacts SurdCore SurdArith SurdMisc SurdTotal SurdRoots SurdOrd SurdRound SurdConv SurdLaws GenSound ClaimsSurd ClaimsSharp SurdRebase.
Open Scope Z_scope.

Lemma flag l r : is_imaginary l && is_imaginary r = both_imag l r.
Proof. unfold is_imaginary, both_imag, is_complex. destruct (is_pure l), (is_pure r), (discr l <? 0), (discr r <? 0); reflexivity. Qed.
Lemma rational_not_pure g s : normal g s -> is_rational s = true -> is_pure s = false.
Proof.
  intros N Q. apply (normal_is_rational g s N) in Q. destruct (is_pure s) eqn:P; [|auto]. apply (normal_is_pure g s N) in P. tauto.
Qed.
Lemma rational_flag g l r : normal g l -> normal g r -> is_rational l || is_rational r = true -> both_imag l r = false.
Proof. intros Nl Nr H. unfold both_imag. apply orb_prop in H. destruct H as [H|H]; [rewrite (rational_not_pure g l Nl H)|rewrite (rational_not_pure g r Nr H), andb_false_r]; reflexivity. Qed.

Lemma mul_fixed_sound g t l r s : normal g l -> normal g r -> mul_fixed g t l r = Ok s -> normal g s /\ sval s = (sval l * sval r)%C.
Proof.
  intros Nl Nr H. unfold mul_fixed in H. rewrite flag in H. apply bind_Ok in H. destruct H as (p & Hp & H). apply surd_mul_ok in Hp; auto using normal_wf. destruct Hp as [Np Vp].
  assert (V : sval p = (sgnC (both_imag l r) * (sval l * sval r))%C).
  { rewrite Vp. destruct (is_rational l || is_rational r) eqn:Q; [|auto]. rewrite (rational_flag g l r Nl Nr Q). unfold sgnC. ring. }
  destruct (both_imag l r); unfold sgnC in V.
  - apply surd_neg_ok in H. destruct H as [Vs Ps]. split; [apply (normal_neg g p s Np Ps)|]. rewrite Vs, V. ring.
  - inversion H; subst s. split; [auto|]. rewrite V. ring.
Qed.
Lemma div_fixed_sound g t l r s : normal g l -> normal g r -> div_fixed g t l r = Ok s -> normal g s /\ (sval r <> RtoC 0 -> sval s = (sval l / sval r)%C).
Proof.
  intros Nl Nr H. unfold div_fixed in H. rewrite flag in H. destruct (surd_is_zero l) eqn:Z0.
  { inversion H; subst s. split; [auto|]. intros Y. apply (proj1 (L_C18_is_zero_one g l Nl)) in Z0. rewrite Z0. field. auto. }
  apply bind_Ok in H. destruct H as (p & Hp & H). apply surd_div_ok in Hp; auto using normal_wf. destruct Hp as (Np & Y & Vp).
  assert (V : sval p = (sgnC (both_imag l r) * (sval l / sval r))%C).
  { rewrite Vp. destruct (is_rational l || is_rational r) eqn:Q; [|auto]. rewrite (rational_flag g l r Nl Nr Q). unfold sgnC. ring. }
  destruct (both_imag l r); unfold sgnC in V.
  - apply surd_neg_ok in H. destruct H as [Vs Ps]. split; [apply (normal_neg g p s Np Ps)|]. intros _. rewrite Vs, V. ring.
  - inversion H; subst s. split; [auto|]. intros _. rewrite V. ring.
Qed.
Lemma mul_fixed_total g l r : returns (surd_mul g BigI l r) -> returns (mul_fixed g BigI l r).
Proof. intros [p Hp]. unfold mul_fixed. rewrite Hp. cbn [bind]. destruct (_ && _); [apply surd_neg_total|eexists; reflexivity]. Qed.
Lemma div_fixed_total g l r : normal g l -> (sval l <> RtoC 0 -> returns (surd_div g BigI l r)) -> returns (div_fixed g BigI l r).
Proof.
  intros Nl H. unfold div_fixed. destruct (surd_is_zero l) eqn:Z0; [eexists; reflexivity|]. destruct H as [p Hp]; [intros E; apply (proj1 (L_C18_is_zero_one g l Nl)) in E; congruence|].
  rewrite Hp. cbn [bind]. destruct (_ && _); [apply surd_neg_total|eexists; reflexivity].
Qed.

(** rational numbers among the complex ones *)
Lemma rn_Z n : rational_num (ZtoC n).
Proof. exists n, 1. split; [lia|]. replace (ZtoC 1) with (RtoC 1) by reflexivity. field. apply (ZtoC_neq0 1). lia. Qed.
Lemma rn_add x y : rational_num x -> rational_num y -> rational_num (x + y)%C.
Proof.
  intros (n & d & D & ->) (m & e & E & ->). exists (n * e + m * d), (d * e). split; [nia|]. rewrite ZtoC_add, !ZtoC_mul. field. split; apply ZtoC_neq0; auto.
Qed.
Lemma rn_mul x y : rational_num x -> rational_num y -> rational_num (x * y)%C.
Proof.
  intros (n & d & D & ->) (m & e & E & ->). exists (n * m), (d * e). split; [nia|]. rewrite !ZtoC_mul. field. split; apply ZtoC_neq0; auto.
Qed.
Lemma rn_quot x y : rational_num x -> rational_num y -> y <> RtoC 0 -> rational_num (x / y)%C.
Proof.
  intros Hx (m & e & E & Y) Y0. apply rn_mul; auto. assert (M : m <> 0) by (intros ->; apply Y0; rewrite Y; replace (ZtoC 0) with (RtoC 0) by reflexivity; field; apply ZtoC_neq0; auto).
  exists e, m. split; [auto|]. rewrite Y. field. split; apply ZtoC_neq0; auto.
Qed.
Lemma rn_ext x y : x = y -> rational_num x -> rational_num y.
Proof. intros ->. auto. Qed.

(** the difference of conjugates *)
Definition dif (s : surd) : C := (ZtoC 2 * ZtoC (c1 (coeffs s)) * csqrt (discr s) / ZtoC (c2 (coeffs s)))%C.
Lemma c2_ne g s : normal g s -> ZtoC (c2 (coeffs s)) <> RtoC 0.
Proof. intros N. apply ZtoC_neq0. pose proof (normal_okc g s N) as O. unfold okc in O. destruct s as [[? ? ?] ?]. cbn in *. auto. Qed.
Lemma two : ZtoC 2 = (RtoC 1 + RtoC 1)%C.
Proof. unfold ZtoC. rewrite <- RtoC_plus. f_equal. Qed.
Lemma two_ne : ZtoC 2 <> RtoC 0.
Proof. apply ZtoC_neq0. lia. Qed.
Ltac two2 := let E := fresh in intros E; apply (f_equal fst) in E; cbn in E; lra.
Lemma dif_ok g s : normal g s -> (sval s - sconj s)%C = dif s.
Proof. intros N. pose proof (c2_ne g s N) as C. unfold dif, sval, sconj. destruct s as [[a b c] r]. cbn [parts coeffs c0 c1 c2 discr] in *. rewrite two. field. auto. Qed.
Lemma tr_ok g s : normal g s -> rational_num (sval s + sconj s)%C.
Proof.
  intros N. pose proof (c2_ne g s N) as C. apply (rn_ext (ZtoC (2 * c0 (coeffs s)) / ZtoC (c2 (coeffs s)))%C); [|apply rn_quot; auto; apply rn_Z].
  rewrite ZtoC_mul, two. unfold sval, sconj. destruct s as [[a b c] r]. cbn [parts coeffs c0 c1 c2 discr] in *. field. auto.
Qed.
Lemma dif_irr g s : normal g s -> is_rational s = false -> ~ rational_num (dif s) /\ rational_num (dif s * dif s)%C /\ dif s <> RtoC 0.
Proof.
  intros N Q. pose proof (c2_ne g s N) as C. assert (I : ~ rational_num (dif s)).
  { intros K. assert (R : rational_num (sval s)); [|apply (normal_is_rational g s N) in R; congruence]. apply (rn_ext ((sval s + sconj s + dif s) / ZtoC 2)%C).
    - rewrite <- (dif_ok g s N), two. field. two2.
    - apply rn_quot; [apply rn_add; auto; apply (tr_ok g s N)|apply rn_Z|apply two_ne]. }
  split; [auto|]. split; [|intros E; apply I; rewrite E; apply (rn_Z 0)].
  apply (rn_ext (ZtoC 2 * ZtoC (c1 (coeffs s)) / ZtoC (c2 (coeffs s)) * (ZtoC 2 * ZtoC (c1 (coeffs s)) / ZtoC (c2 (coeffs s))) * ZtoC (discr s))%C).
  - rewrite <- (csqrt_sq (discr s)). unfold dif. field. auto.
  - assert (R : rational_num (ZtoC 2 * ZtoC (c1 (coeffs s)) / ZtoC (c2 (coeffs s)))%C) by (apply rn_quot; auto; [apply rn_mul|]; apply rn_Z). apply rn_mul; [apply rn_mul; auto|apply rn_Z].
Qed.
Lemma conj_surd g t s c : normal g s -> surd_conj t s = Ok c -> normal g c /\ sval c = sconj s /\ discr c = discr s.
Proof. intros N H. apply surd_conj_ok in H. destruct H as [V P]. split; [apply (normal_conj g s c N P)|]. split; [auto|]. destruct c as [[? ? ?] ?]; cbn in P; inversion P; reflexivity. Qed.

Lemma rebase_fixed_sound g t l r z : normal g l -> normal g r -> rebase_fixed g t l r = Ok z -> normal g z /\ sval z = sval r.
Proof.
  intros Nl Nr H. unfold rebase_fixed in H. destruct (is_rational l || is_rational r) eqn:Q; [inversion H; subst; auto|]. apply orb_false_iff in Q. destruct Q as [Ql Qr].
  apply bind_Ok in H. destruct H as (lc & Hlc & H). apply bind_Ok in H. destruct H as (a & Ha & H). apply bind_Ok in H. destruct H as (rc & Hrc & H). apply bind_Ok in H. destruct H as (b & Hb & H).
  apply bind_Ok in H. destruct H as (k & Hk & H). apply bind_Ok in H. destruct H as (q & Hq & H). apply bind_Ok in H. destruct H as (h & Hh & H). apply bind_Ok in H. destruct H as (w & Hw & H).
  destruct (conj_surd g t l lc Nl Hlc) as (Nlc & Vlc & _). destruct (conj_surd g t r rc Nr Hrc) as (Nrc & Vrc & _).
  apply surd_sub_ok in Ha; auto using normal_wf. destruct Ha as [Va Na]. rewrite Vlc, (dif_ok g l Nl) in Va. apply surd_sub_ok in Hb; auto using normal_wf. destruct Hb as [Vb Nb]. rewrite Vrc in Vb.
  destruct (dif_irr g l Nl Ql) as (_ & _ & D0).
  destruct (div_fixed_sound g t b a k Nb Na Hk) as [Nk Vk]. rewrite Va in Vk. specialize (Vk D0). destruct (mul_fixed_sound g t k a q Nk Na Hq) as [Nq Vq].
  apply surd_add_ok in Hh; auto using normal_wf. destruct Hh as [Vh Nh]. apply surd_add_ok in Hw; auto using normal_wf. destruct Hw as [Vw Nw].
  apply surd_div_int_ok in H; [|apply (normal_okc g); auto]. destruct H as (_ & Vz & Nz). split; [auto|]. rewrite Vz, Vw, Vh, Vq, Vk, Va, Vb, Vrc, two. field. split; first [assumption|two2].
Qed.

Lemma root_ratio p q m n : m <> 0 -> n <> 0 -> m * m * p = n * n * q -> csqrt p <> RtoC 0 -> rational_num (csqrt q / csqrt p)%C.
Proof.
  intros Hm Hn E P. assert (N0 : ZtoC n <> RtoC 0) by (apply ZtoC_neq0; auto). apply (f_equal ZtoC) in E. rewrite !ZtoC_mul, <- (csqrt_sq p), <- (csqrt_sq q) in E.
  destruct (Ceq_dec (ZtoC n * csqrt q - ZtoC m * csqrt p)%C (RtoC 0)) as [K|K].
  - exists m, n. split; [auto|]. assert (K' : (ZtoC n * csqrt q)%C = (ZtoC m * csqrt p)%C) by (replace (ZtoC n * csqrt q)%C with ((ZtoC n * csqrt q - ZtoC m * csqrt p) + ZtoC m * csqrt p)%C by ring; rewrite K; ring).
    replace (csqrt q / csqrt p)%C with ((ZtoC n * csqrt q) / (ZtoC n * csqrt p))%C by (field; auto). rewrite K'. field. auto.
  - exists (- m), n. split; [auto|]. assert (K2 : (ZtoC n * csqrt q + ZtoC m * csqrt p)%C = RtoC 0).
    { replace (ZtoC n * csqrt q + ZtoC m * csqrt p)%C with ((ZtoC n * ZtoC n * (csqrt q * csqrt q) - ZtoC m * ZtoC m * (csqrt p * csqrt p)) / (ZtoC n * csqrt q - ZtoC m * csqrt p))%C by (field; auto). rewrite <- E. field. auto. }
    assert (K' : (ZtoC n * csqrt q)%C = (- ZtoC m * csqrt p)%C) by (replace (ZtoC n * csqrt q)%C with ((ZtoC n * csqrt q + ZtoC m * csqrt p) - ZtoC m * csqrt p)%C by ring; rewrite K2; ring).
    replace (csqrt q / csqrt p)%C with ((ZtoC n * csqrt q) / (ZtoC n * csqrt p))%C by (field; auto). rewrite K'. rewrite ZtoC_opp. field. auto.
Qed.

Lemma rebase_fixed_total g l r : normal g l -> normal g r -> exists z, rebase_fixed g BigI l r = Ok z /\ (same_field l r -> nested_roots l z).
Proof.
  intros Nl Nr. destruct (is_rational l || is_rational r) eqn:Q.
  { exists r. unfold rebase_fixed. rewrite Q. split; [auto|]. intros _. apply orb_prop in Q. destruct Q as [Q|Q]; [left; apply (normal_is_rational g l Nl); auto|right; left; apply (normal_is_rational g r Nr); auto]. }
  pose proof Q as Q'. apply orb_false_iff in Q. destruct Q as [Ql Qr].
  assert (T : exists z, rebase_fixed g BigI l r = Ok z /\ (rational_num (dif r / dif l)%C -> fr (discr l) z)).
  { unfold rebase_fixed. rewrite Q'. destruct (surd_conj_total l) as [lc Hlc]. rewrite Hlc. cbn [bind]. destruct (conj_surd g BigI l lc Nl Hlc) as (Nlc & Vlc & Dl).
    assert (nest : forall s s', discr s' = discr s -> nested_roots s s') by (intros s s' E; right; right; exists 1; split; [lia|left; lia]).
    destruct (L_C06_same_field_partial g l lc Nl Nlc (nest l lc Dl)) as (_ & [a Ha] & _). rewrite Ha. cbn [bind].
    pose proof (sub_fr g (discr l) l lc a Nl Nlc (or_intror eq_refl) (or_intror Dl) Ha) as Fa. apply surd_sub_ok in Ha; auto using normal_wf. destruct Ha as [Va Na]. rewrite Vlc, (dif_ok g l Nl) in Va.
    destruct (surd_conj_total r) as [rc Hrc]. rewrite Hrc. cbn [bind]. destruct (conj_surd g BigI r rc Nr Hrc) as (Nrc & Vrc & Dr).
    destruct (L_C06_same_field_partial g r rc Nr Nrc (nest r rc Dr)) as ([h Hh] & [b Hb] & _). rewrite Hb. cbn [bind]. apply surd_sub_ok in Hb; auto using normal_wf. destruct Hb as [Vb Nb]. rewrite Vrc, (dif_ok g r Nr) in Vb.
    destruct (dif_irr g l Nl Ql) as (Ia & Qa & A0). destruct (dif_irr g r Nr Qr) as (Ib & Qb & B0).
    assert (Pa : pure_surd a) by (unfold pure_surd; rewrite Va; auto). assert (Pb : pure_surd b) by (unfold pure_surd; rewrite Vb; auto).
    destruct (div_fixed_total g b a Nb) as [k Hk]; [intros _; apply (L_C06_pure_mul_div g b a Nb Na Pb Pa)|]. rewrite Hk. cbn [bind]. destruct (div_fixed_sound g BigI b a k Nb Na Hk) as [Nk Vk]. rewrite Va, Vb in Vk. specialize (Vk A0).
    assert (Rk : is_rational k = true <-> rational_num (dif r / dif l)%C) by (rewrite (normal_is_rational g k Nk), Vk; tauto).
    assert (Hq : returns (surd_mul g BigI k a)).
    { destruct (is_rational k) eqn:Ik.
      - apply (L_C06_same_field_partial g k a Nk Na). left. apply (normal_is_rational g k Nk). auto.
      - apply (L_C06_pure_mul_div g k a Nk Na); auto. unfold pure_surd. rewrite Vk. split; [intros K; apply Rk in K; discriminate|].
        apply (rn_ext ((dif r * dif r) / (dif l * dif l))%C); [field; auto|]. apply rn_quot; auto. apply Cmult_neq_0; auto. }
    destruct (mul_fixed_total g k a Hq) as [q Hq']. rewrite Hq'. cbn [bind]. destruct (mul_fixed_sound g BigI k a q Nk Na Hq') as [Nq _].
    rewrite Hh. cbn [bind]. apply surd_add_ok in Hh; auto using normal_wf. destruct Hh as [Vh Nh]. rewrite Vrc in Vh.
    assert (Rh : is_rational h = true) by (apply (normal_is_rational g h Nh); rewrite Vh; apply (tr_ok g r Nr)).
    destruct (L_C06_same_field_partial g h q Nh Nq) as ([w Hw] & _); [left; apply (normal_is_rational g h Nh); auto|]. rewrite Hw. cbn [bind].
    pose proof (add_fr g (discr q) h q w Nh Nq (or_introl (rat_discr g h Nh Rh)) (or_intror eq_refl) Hw) as Fw. apply surd_add_ok in Hw; auto using normal_wf. destruct Hw as [Vw Nw].
    destruct (surd_div_int_total g w (normal_wf g w Nw) 2) as [z Hz]; [lia|]. exists z. split; [auto|]. intros K. apply Rk in K.
    assert (Fz : fr (discr w) z) by (unfold surd_div_int in Hz; apply bind_Ok in Hz; destruct Hz as (co & _ & Hz); apply from_coeffs_fr in Hz; auto).
    assert (Fq : fr (discr a) q).
    { unfold mul_fixed in Hq'. rewrite flag, (rational_flag g k a Nk Na) in Hq' by (rewrite K; reflexivity). destruct Hq as [q' Hq]. rewrite Hq in Hq'. cbn [bind] in Hq'. inversion Hq'; subst q'.
      apply (mul_fr g (discr a) k a q Nk Na (or_introl (rat_discr g k Nk K)) (or_intror eq_refl) Hq). }
    apply (fr_trans (discr a)); [exact Fa|]. apply (fr_trans (discr q)); [exact Fq|]. apply (fr_trans (discr w)); [exact Fw|]. exact Fz. }
  destruct T as (z & Hz & F). exists z. split; [auto|]. destruct (rebase_fixed_sound g BigI l r z Nl Nr Hz) as [Nz Vz].
  intros [S|[S|(m & n & Hm & Hn & S)]]; [apply (normal_is_rational g l Nl) in S; congruence|apply (normal_is_rational g r Nr) in S; congruence|]. apply fr_nested.
  - apply F. pose proof (c2_ne g l Nl) as C2. pose proof (c2_ne g r Nr) as C3. destruct (dif_irr g l Nl Ql) as (_ & _ & D0).
    assert (P : csqrt (discr l) <> RtoC 0) by (intros K; apply D0; unfold dif; rewrite K; field; auto). assert (C1 : ZtoC (c1 (coeffs l)) <> RtoC 0) by (intros K; apply D0; unfold dif; rewrite K; field; auto).
    pose proof (root_ratio (discr l) (discr r) m n Hm Hn S P) as R.
    apply (rn_ext ((ZtoC (c1 (coeffs r)) * ZtoC (c2 (coeffs l))) / (ZtoC (c2 (coeffs r)) * ZtoC (c1 (coeffs l))) * (csqrt (discr r) / csqrt (discr l)))%C).
    + unfold dif. rewrite two. field. repeat split; first [assumption|two2].
    + apply rn_mul; auto. apply rn_quot; [apply rn_mul; apply rn_Z|apply rn_mul; apply rn_Z|apply Cmult_neq_0; auto].
  - destruct (is_rational z) eqn:Qz; [|auto]. apply (normal_is_rational g z Nz) in Qz. rewrite Vz in Qz. apply (normal_is_rational g r Nr) in Qz. congruence.
Qed.

Lemma all_sound g t l r s : normal g l -> normal g r ->
  (add_all g t l r = Ok s -> normal g s /\ sval s = (sval l + sval r)%C) /\ (sub_all g t l r = Ok s -> normal g s /\ sval s = (sval l - sval r)%C) /\
  (mul_all g t l r = Ok s -> normal g s /\ sval s = (sval l * sval r)%C) /\ (div_all g t l r = Ok s -> normal g s /\ (sval r <> RtoC 0 -> sval s = (sval l / sval r)%C)).
Proof.
  intros Nl Nr. unfold add_all, sub_all, mul_all, div_all. split; [|split; [|split]]; intros H; apply bind_Ok in H; destruct H as (z & Hz & H); destruct (rebase_fixed_sound g t l r z Nl Nr Hz) as [Nz Vz]; rewrite <- Vz.
  - apply surd_add_ok in H; auto using normal_wf. tauto.
  - apply surd_sub_ok in H; auto using normal_wf. tauto.
  - apply (mul_fixed_sound g t l z s Nl Nz H).
  - apply (div_fixed_sound g t l z s Nl Nz H).
Qed.
Lemma all_total g l r : normal g l -> normal g r -> same_field l r ->
  returns (add_all g BigI l r) /\ returns (sub_all g BigI l r) /\ returns (mul_all g BigI l r) /\ (sval r <> RtoC 0 -> returns (div_all g BigI l r)).
Proof.
  intros Nl Nr F. destruct (rebase_fixed_total g l r Nl Nr) as (z & Hz & K). specialize (K F). destruct (rebase_fixed_sound g BigI l r z Nl Nr Hz) as [Nz Vz].
  unfold add_all, sub_all, mul_all, div_all. rewrite Hz. cbn [bind]. destruct (L_C06_same_field_partial g l z Nl Nz K) as (A & B & C & D). split; [auto|]. split; [auto|]. split; [apply mul_fixed_total; auto|].
  intros Y. apply div_fixed_total; auto. intros L0. apply D; auto. rewrite Vz. auto.
Qed.

(** different fields *)
Lemma value_root_C g r z : normal g r -> normal g z -> sval r = sval z -> is_rational r = false -> exists m n, m <> 0 /\ n <> 0 /\ m * m * discr r = n * n * discr z.
Proof.
  intros Nr Nz V Q. assert (I : ~ rational_num (sval r)) by (intros K; apply (normal_is_rational g r Nr) in K; congruence).
  assert (Qz : is_rational z = false) by (destruct (is_rational z) eqn:K; [|auto]; apply (normal_is_rational g z Nz) in K; rewrite <- V in K; contradiction).
  pose proof (c2_ne g r Nr) as C. pose proof (c2_ne g z Nz) as C'. pose proof (normal_okc g r Nr) as Or. pose proof (normal_okc g z Nz) as Oz. unfold okc in Or, Oz.
  assert (P : c0 (coeffs z) * c2 (coeffs r) = c0 (coeffs r) * c2 (coeffs z)) by (apply (rational_part g r _ (c1 (coeffs z)) _ (discr z)); auto; rewrite V; apply sval_fval).
  apply is_rational_false in Q, Qz. destruct r as [[a b c] p], z as [[a' b' c'] q]. cbn [coeffs c0 c1 c2 discr] in *. exists (b * c'), (b' * c). split; [nia|]. split; [nia|].
  apply (f_equal ZtoC) in P. rewrite !ZtoC_mul in P. unfold sval in V. cbn in V.
  assert (E : (ZtoC b * ZtoC c' * csqrt p)%C = (ZtoC b' * ZtoC c * csqrt q)%C).
  { transitivity (ZtoC c * ZtoC c' * ((ZtoC a + ZtoC b * csqrt p) / ZtoC c) - ZtoC a * ZtoC c')%C; [field; auto|]. rewrite V, <- P. field. auto. }
  apply ZtoC_inj. rewrite !ZtoC_mul. rewrite <- (csqrt_sq p), <- (csqrt_sq q).
  transitivity ((ZtoC b * ZtoC c' * csqrt p) * (ZtoC b * ZtoC c' * csqrt p))%C; [ring|]. rewrite E. ring.
Qed.
Lemma all_panics g l r : normal g l -> normal g r -> ~ same_field l r -> add_all g BigI l r = Panic PIncompatible /\ sub_all g BigI l r = Panic PIncompatible.
Proof.
  intros Nl Nr F. destruct (rebase_fixed_total g l r Nl Nr) as (z & Hz & _). destruct (rebase_fixed_sound g BigI l r z Nl Nr Hz) as [Nz Vz].
  assert (Qr : is_rational r = false) by (destruct (is_rational r) eqn:K; [|auto]; exfalso; apply F; right; left; apply (normal_is_rational g r Nr); auto).
  unfold add_all, sub_all. rewrite Hz. cbn [bind]. assert (K : ~ nested_roots l z); [|destruct (L_C06_panics g l z Nl Nz K) as (A & B & _); auto].
  intros [K|[K|(k & Hk & K)]]; apply F; [left; auto|right; left; rewrite <- Vz; auto|]. right. right.
  destruct (value_root_C g r z Nr Nz) as (m & n & Hm & Hn & E); auto. destruct K as [K|K].
  - exists n, (k * m). split; [auto|]. split; [nia|]. rewrite K. transitivity (k * k * (n * n * discr z)); [ring|]. rewrite <- E. ring.
  - exists (n * k), m. split; [nia|]. split; [auto|]. rewrite E, K. ring.
Qed.
