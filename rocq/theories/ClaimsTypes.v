(** * ClaimsTypes: proofs of the property theorems in PropsTypes.v. *)

From Coq Require Import ZArith Znumtheory Reals Lia Lra Bool List.
From Coquelicot Require Import Coquelicot.
From Verif Require Import Base Ext ModelInt ModelSurd Spec SpecInt Transfer NumFacts RatioFacts GenSound SurdCore SurdArith SurdRound SurdMisc SurdDecide SurdClosed IntCore IntArith IntDiv IntOps IntMore IntDecide IntEuclid ClaimsSurd ClaimsInt ClaimsApi.
Import ListNotations.
Open Scope Z_scope.

Lemma L_C97_closed : forall g t l r s, normal g l -> normal g r -> is_quadint l = true -> is_quadint r = true ->
  (surd_add g t l r = Ok s -> is_quadint s = true) /\ (surd_sub g t l r = Ok s -> is_quadint s = true) /\
  (surd_mul g t l r = Ok s -> is_quadint s = true) /\ (surd_neg t l = Ok s -> is_quadint s = true) /\ (surd_conj t l = Ok s -> is_quadint s = true).
Proof.
  intros g t l r s Hl Hr Ql Qr. unfold is_quadint in *. apply Z.eqb_eq in Ql, Qr.
  split; [|split; [|split; [|split]]]; intros H; apply Z.eqb_eq.
  - apply (add_one g t l r s Hl Hr Ql Qr H).
  - apply (sub_one g t l r s Hl Hr Ql Qr H).
  - apply (mul_one g t l r s Hl Hr Ql Qr H).
  - apply rle_surd_neg in H. unfold surd_neg in H. autorewrite with bigi in H. inversion H; subst s. exact Ql.
  - apply rle_surd_conj in H. unfold surd_conj, sco_conj in H. autorewrite with bigi in H. inversion H; subst s. exact Ql.
Qed.

Lemma exact_quadint g t s v : surd_to_quadint g t s = Ok v -> is_quadint s = true <-> exists z, v = Exact z.
Proof.
  intros H. destruct s as [[a b c] d]. unfold surd_to_quadint in H. destruct (is_quadint (Surd (SCo a b c) d)).
  - apply bind_Ok in H. destruct H as (q & _ & E). inversion E. split; [intros _; exists q; reflexivity|reflexivity].
  - repeat (apply bind_Ok in H; destruct H as (? & _ & H)). inversion H. split; [discriminate|intros [z E]; discriminate].
Qed.

Lemma to_quadint_wf g t s q : normal g s -> surd_to_quadint g t s = Ok (Exact q) -> wfq g q /\ qval q = sval s /\ ~ rational_num (sval s).
Proof.
  intros N H. split; [|split].
  - destruct s as [[a b c] d]. unfold surd_to_quadint in H. destruct (is_quadint (Surd (SCo a b c) d)).
    + apply bind_Ok in H. destruct H as (q' & Q & E). inversion E; subst q'. apply qint_new_ok in Q. apply Q.
    + repeat (apply bind_Ok in H; destruct H as (? & _ & H)). inversion H.
  - exact (L_C60_quadint_exact g t s q N H).
  - intros X. rewrite <- (normal_is_rational g s N) in X. apply rle_surd_to_quadint in H. destruct (L_C60_quadint_returns g s N) as [K _]. specialize (K (ex_intro _ _ H)).
    unfold normal, parts in N. destruct s as [[a b c] d]. cbn [coeffs c0 c1 c2 discr] in *. destruct N as (_ & _ & [[_ ?]|[Nb Sq]] & _); [lia|].
    unfold is_rational in X. cbn [coeffs c1 discr] in X. apply orb_true_iff in X. rewrite !Z.eqb_eq in X. lia.
Qed.

Lemma irr_root g x : wfq g x -> ~ rational_num (qval x) -> qdiscr x <> 0.
Proof. intros W I E. apply I. apply (L_C26_is_rational g x W). unfold qint_is_rational. apply Z.eqb_eq. destruct W as [[? _]|[S _]]; [assumption|]. exfalso. apply S. rewrite E. exists 0. reflexivity. Qed.

Lemma same_eq g x y : wfq g x -> wfq g y -> qval x = qval y -> ~ rational_num (qval x) -> qint_eq BigI x y = Ok true.
Proof.
  intros Wx Wy E I. destruct (L_C26_eq_partial g x y Wx Wy) as (b & B & K & _). rewrite B. f_equal. apply K; [|left; exact E].
  right. split; [exact (irr_root g x Wx I)|apply (irr_root g y Wy)]. rewrite <- E. exact I.
Qed.

Lemma L_C97_quadint_partial : forall g t l r s v x y, normal g l -> normal g r ->
  surd_to_quadint g t l = Ok (Exact x) -> surd_to_quadint g t r = Ok (Exact y) -> surd_to_quadint g t s = Ok v ->
  (surd_add g t l r = Ok s -> exists z, v = Exact z /\ qval z = (qval x + qval y)%C /\
     forall w, qint_add g t x y = Ok w -> qval w = qval z /\ qint_eq BigI w z = Ok true) /\
  (surd_sub g t l r = Ok s -> exists z, v = Exact z /\ qval z = (qval x - qval y)%C /\
     forall w, qint_sub g t x y = Ok w -> qval w = qval z /\ qint_eq BigI w z = Ok true) /\
  (surd_mul g t l r = Ok s -> ~ (imaginary (sval l) /\ imaginary (sval r)) -> exists z, v = Exact z /\ qval z = (qval x * qval y)%C /\
     forall w, qint_mul g t x y = Ok w -> qval w = qval z /\ qint_eq BigI w z = Ok true) /\
  (surd_neg t l = Ok s -> exists z, v = Exact z /\ qval z = (- qval x)%C /\
     forall w, qint_neg t x = Ok w -> qval w = qval z /\ qint_eq BigI w z = Ok true).
Proof.
  intros g t l r s v x y Hl Hr Hx Hy Hv.
  destruct (to_quadint_wf g t l x Hl Hx) as (Wx & Vx & Ix). destruct (to_quadint_wf g t r y Hr Hy) as (Wy & Vy & Iy).
  assert (Ql : is_quadint l = true) by (apply (exact_quadint g t l _ Hx); eauto). assert (Qr : is_quadint r = true) by (apply (exact_quadint g t r _ Hy); eauto).
  assert (F : is_quadint s = true -> normal g s -> forall e, sval s = e -> exists z, v = Exact z /\ qval z = e /\ forall w, wfq g w -> qval w = e -> qval w = qval z /\ qint_eq BigI w z = Ok true).
  { intros Q N e E. apply (exact_quadint g t s v Hv) in Q. destruct Q as [z ->]. destruct (to_quadint_wf g t s z N Hv) as (Wz & Vz & Iz).
    exists z. split; [reflexivity|]. split; [congruence|]. intros w W V. assert (X : qval w = qval z) by congruence. split; [exact X|]. apply (same_eq g); auto. rewrite X, Vz. exact Iz. }
  destruct (L_C97_closed g t l r s Hl Hr Ql Qr) as (A1 & A2 & A3 & A4 & _).
  assert (Wl : wf g l) by (apply normal_wf; auto). assert (Wr : wf g r) by (apply normal_wf; auto).
  split; [|split; [|split]].
  - intros H. destruct (surd_add_ok g t l r s Wl Wr H) as [V N]. destruct (F (A1 H) N _ V) as (z & E & Z & K). exists z. split; [exact E|]. split; [rewrite Vx, Vy; exact Z|].
    intros w Hw. apply (L_C21_add_sub_mul g t x y w Wx Wy) in Hw. destruct Hw as [Vw Ww]. apply K; [exact Ww|congruence].
  - intros H. destruct (surd_sub_ok g t l r s Wl Wr H) as [V N]. destruct (F (A2 H) N _ V) as (z & E & Z & K). exists z. split; [exact E|]. split; [rewrite Vx, Vy; exact Z|].
    intros w Hw. apply (L_C21_add_sub_mul g t x y w Wx Wy) in Hw. destruct Hw as [Vw Ww]. apply K; [exact Ww|congruence].
  - intros H I. pose proof (L_C04_mul_partial g t l r s Hl Hr I H) as V. destruct (surd_mul_ok g t l r s Wl Wr H) as [N _]. destruct (F (A3 H) N _ V) as (z & E & Z & K). exists z. split; [exact E|]. split; [rewrite Vx, Vy; exact Z|].
    intros w Hw. apply (L_C21_add_sub_mul g t x y w Wx Wy) in Hw. destruct Hw as [Vw Ww]. apply K; [exact Ww|congruence].
  - intros H. destruct (surd_neg_ok t l s H) as [V N]. apply (normal_neg g) in N; [|exact Hl]. destruct (F (A4 H) N _ V) as (z & E & Z & K). exists z. split; [exact E|]. split; [rewrite Vx; exact Z|].
    intros w Hw. apply (proj2 (proj2 (proj2 (L_C21_with_int g t x 0 w Wx)))) in Hw. destruct Hw as [Vw Ww]. apply K; [exact Ww|congruence].
Qed.

Lemma conj_unique x y z : ~ rational_num x -> rational_num (x + y)%C -> rational_num (x * y)%C -> rational_num (x + z)%C -> rational_num (x * z)%C -> y = z.
Proof.
  intros I A B A' B'. assert (Q : rational_num (y - z)%C).
  { replace (y - z)%C with ((x + y) + - (x + z))%C by ring. apply rational_add; [exact A|apply rational_opp; exact A']. }
  assert (P : rational_num (x * (y - z))%C).
  { replace (x * (y - z))%C with (x * y + - (x * z))%C by ring. apply rational_add; [exact B|apply rational_opp; exact B']. }
  destruct (Ceq_dec (y - z)%C (RtoC 0)) as [E|E]; [replace y with ((y - z) + z)%C by ring; rewrite E; ring|].
  exfalso. apply I. replace x with ((x * (y - z)) * / (y - z))%C by (field; exact E). apply rational_mul; [exact P|apply rational_inv; assumption].
Qed.

Lemma sconj_trace s : okc s -> rational_num (sval s + sconj s)%C /\ rational_num (sval s * sconj s)%C.
Proof.
  intros K. destruct s as [[a b c] d]. unfold okc in K. unfold sval, sconj, parts. cbn [coeffs c0 c1 c2 discr] in *.
  assert (Hc : ZtoC c <> RtoC 0) by (apply ZtoC_neq0; auto). split.
  - exists (a + a), c. split; [exact K|]. autorewrite with ztoc. field. exact Hc.
  - exists (a * a - b * b * d), (c * c). split; [nia|]. autorewrite with ztoc. rewrite <- (csqrt_sq d). field. exact Hc.
Qed.

Lemma qconj_trace x : rational_num (qval x + qconj x)%C /\ rational_num (qval x * qconj x)%C.
Proof.
  destruct x as [[a b] d]. split; [|rewrite qval_qconj; apply rational_ZtoC].
  pose proof (qval_dbl a b d) as V. pose proof (qconj_dbl a b d) as W. exists (fst (dbl d a b) + fst (dbl d a b)), 2. split; [lia|].
  set (u := qval _) in *. set (v := qconj _) in *. set (f := fst _) in *. rewrite ZtoC_add. change (ZtoC 2) with (RtoC 2).
  transitivity ((RtoC 2 * u + RtoC 2 * v) / RtoC 2)%C; [field; apply RtoC2_neq0|]. rewrite V, W. f_equal. ring.
Qed.

Lemma L_C97_conj : forall g t l s v x, normal g l -> surd_to_quadint g t l = Ok (Exact x) -> surd_conj t l = Ok s -> surd_to_quadint g t s = Ok v ->
  exists z, v = Exact z /\ qval z = qconj x /\ forall w, qint_conj t x = Ok w -> qval w = qval z /\ qint_eq BigI w z = Ok true.
Proof.
  intros g t l s v x Hl Hx H Hv. destruct (to_quadint_wf g t l x Hl Hx) as (Wx & Vx & Ix).
  assert (Ql : is_quadint l = true) by (apply (exact_quadint g t l _ Hx); eauto).
  destruct (L_C97_closed g t l l s Hl Hl Ql Ql) as (_ & _ & _ & _ & A). specialize (A H). apply (exact_quadint g t s v Hv) in A. destruct A as [z ->].
  destruct (surd_conj_ok t l s H) as [V N]. apply (normal_conj g) in N; [|exact Hl]. destruct (to_quadint_wf g t s z N Hv) as (Wz & Vz & Iz).
  assert (E : sconj l = qconj x).
  { apply (conj_unique (sval l)); [exact Ix| | | |]; try (apply sconj_trace, (normal_okc g), Hl); rewrite <- Vx; apply qconj_trace. }
  exists z. split; [reflexivity|]. split; [congruence|]. intros w Hw. apply (L_C22_conj g t x w Wx) in Hw. destruct Hw as (Vw & _ & Ww).
  assert (X : qval w = qval z) by congruence. split; [exact X|]. apply (same_eq g); auto. rewrite X, Vz. exact Iz.
Qed.

Lemma L_C97_quadint_refuted : exists l r s x y z, normal (Cfg true true) l /\ normal (Cfg true true) r /\
  surd_to_quadint (Cfg true true) BigI l = Ok (Exact x) /\ surd_to_quadint (Cfg true true) BigI r = Ok (Exact y) /\
  surd_mul (Cfg true true) BigI l r = Ok s /\ surd_to_quadint (Cfg true true) BigI s = Ok (Exact z) /\ qval z = (- (qval x * qval y))%C /\ qval z <> RtoC 0.
Proof.
  exists (new_raw 0 1 1 (-2)), (new_raw 0 1 1 (-3)), (new_raw 0 1 1 6), (QInt (QCo 0 1) (-2)), (QInt (QCo (-1) 2) (-3)), (QInt (QCo 0 1) 6).
  assert (N1 : normal (Cfg true true) (new_raw 0 1 1 (-2))) by (apply normalb_ok; vm_compute; reflexivity).
  assert (N2 : normal (Cfg true true) (new_raw 0 1 1 (-3))) by (apply normalb_ok; vm_compute; reflexivity).
  assert (N3 : normal (Cfg true true) (new_raw 0 1 1 6)) by (apply normalb_ok; vm_compute; reflexivity).
  assert (E1 : surd_to_quadint (Cfg true true) BigI (new_raw 0 1 1 (-2)) = Ok (Exact (QInt (QCo 0 1) (-2)))) by (vm_compute; reflexivity).
  assert (E2 : surd_to_quadint (Cfg true true) BigI (new_raw 0 1 1 (-3)) = Ok (Exact (QInt (QCo (-1) 2) (-3)))) by (vm_compute; reflexivity).
  assert (E3 : surd_to_quadint (Cfg true true) BigI (new_raw 0 1 1 6) = Ok (Exact (QInt (QCo 0 1) 6))) by (vm_compute; reflexivity).
  assert (M : surd_mul (Cfg true true) BigI (new_raw 0 1 1 (-2)) (new_raw 0 1 1 (-3)) = Ok (new_raw 0 1 1 6)) by (vm_compute; reflexivity).
  split; [exact N1|]. split; [exact N2|]. split; [exact E1|]. split; [exact E2|]. split; [exact M|]. split; [exact E3|].
  pose proof (L_C60_quadint_exact _ _ _ _ N1 E1) as V1. pose proof (L_C60_quadint_exact _ _ _ _ N2 E2) as V2. pose proof (to_quadint_wf _ _ _ _ N3 E3) as (_ & V3 & I3).
  assert (I : forall d, 0 < d -> imaginary (sval (new_raw 0 1 1 (- d)))).
  { intros d D. rewrite sval_raw. unfold fval. rewrite csqrt_neg by lia. rewrite Z.opp_involutive. unfold imaginary, ZtoC, Cdiv, Cinv, Cmult, Cplus, RtoC. cbn [fst snd].
    assert (0 < sqrt (IZR d))%R by (apply sqrt_lt_R0, IZR_lt, D). split; [field|]. replace (_ + _)%R with (sqrt (IZR d)) by field. lra. }
  split.
  - rewrite V1, V2, V3. apply (L_C04_mul_imaginary (Cfg true true) BigI _ _ _ N1 N2); [apply (I 2); lia|apply (I 3); lia|exact M].
  - rewrite V3. intros X. apply I3. rewrite X. apply (rational_ZtoC 0).
Qed.

Lemma gauss_exact g t s p : surd_to_gaussint g t s = Ok (Exact p) -> is_quadint s = true.
Proof. unfold surd_to_gaussint. change (is_gaussint s) with (is_quadint s). destruct (is_quadint s); [reflexivity|]. intros H. apply bind_Ok in H. destruct H as (? & _ & H). inversion H. Qed.

Lemma gauss_value g t s m n : normal g s -> surd_to_gaussint g t s = Ok (Exact (m, n)) -> discr s = 0 \/ discr s = -1 -> sval s = gval (QCo m n).
Proof. intros N H D. apply (L_C60_gaussint_exact_partial g t s m n N H). exact D. Qed.

Lemma gauss_back g t s : normal g s -> is_quadint s = true -> discr s = 0 \/ discr s = -1 ->
  exists m n, surd_to_gaussint g t s = Ok (Exact (m, n)) /\ sval s = gval (QCo m n).
Proof.
  intros N Q D. assert (E : surd_to_gaussint g t s = Ok (Exact (c0 (coeffs s), c1 (coeffs s)))) by (unfold surd_to_gaussint; change (is_gaussint s) with (is_quadint s); rewrite Q; reflexivity).
  exists (c0 (coeffs s)), (c1 (coeffs s)). split; [exact E|]. exact (gauss_value g t s _ _ N E D).
Qed.

Lemma root_m1 l r s : (discr l = 0 \/ discr l = -1) -> (discr r = 0 \/ discr r = -1) -> root_of l r s -> discr s = 0 \/ discr s = -1.
Proof.
  intros Dl Dr [H|[(k & K & H)|(k & K & H)]]; [auto| |].
  - destruct Dl as [E|E]; rewrite E in H; [left; nia|]. right. assert (k * k * - discr s = 1) by lia. assert (0 < - discr s) by nia. nia.
  - destruct Dr as [E|E]; rewrite E in H; [left; nia|]. right. assert (k * k * - discr s = 1) by lia. assert (0 < - discr s) by nia. nia.
Qed.

Lemma L_C97_gauss_partial : forall g t l r s a b c d, normal g l -> normal g r -> (discr l = 0 \/ discr l = -1) -> (discr r = 0 \/ discr r = -1) ->
  surd_to_gaussint g t l = Ok (Exact (a, b)) -> surd_to_gaussint g t r = Ok (Exact (c, d)) ->
  (surd_add g t l r = Ok s -> exists m n, surd_to_gaussint g t s = Ok (Exact (m, n)) /\ gauss_add BigI (QCo a b) (QCo c d) = Ok (QCo m n)) /\
  (surd_sub g t l r = Ok s -> exists m n, surd_to_gaussint g t s = Ok (Exact (m, n)) /\ gauss_sub BigI (QCo a b) (QCo c d) = Ok (QCo m n)) /\
  (surd_mul g t l r = Ok s -> ~ (imaginary (sval l) /\ imaginary (sval r)) ->
     exists m n, surd_to_gaussint g t s = Ok (Exact (m, n)) /\ gauss_mul BigI (QCo a b) (QCo c d) = Ok (QCo m n)) /\
  (surd_conj t l = Ok s -> exists m n, surd_to_gaussint g t s = Ok (Exact (m, n)) /\ gauss_conj BigI (QCo a b) = Ok (QCo m n)).
Proof.
  intros g t l r s a b c d Hl Hr Dl Dr El Er.
  pose proof (gauss_exact g t l _ El) as Ql. pose proof (gauss_exact g t r _ Er) as Qr.
  pose proof (gauss_value g t l a b Hl El Dl) as Vl. pose proof (gauss_value g t r c d Hr Er Dr) as Vr.
  assert (Wl : wf g l) by (apply normal_wf; auto). assert (Wr : wf g r) by (apply normal_wf; auto).
  pose proof (proj1 (Z.eqb_eq _ _) Ql) as Cl. pose proof (proj1 (Z.eqb_eq _ _) Qr) as Cr.
  destruct (L_C97_closed g t l r s Hl Hr Ql Qr) as (A1 & A2 & A3 & _ & A5).
  destruct (L_C27_bigint_total BigI (QCo a b) (QCo c d)) as ([w1 W1] & [w2 W2] & [w3 W3] & [w4 W4] & _).
  assert (F : forall w, normal g s -> is_quadint s = true -> discr s = 0 \/ discr s = -1 -> sval s = gval w -> exists m n, surd_to_gaussint g t s = Ok (Exact (m, n)) /\ w = QCo m n).
  { intros w N Q D V. destruct (gauss_back g t s N Q D) as (m & n & E & V'). exists m, n. split; [exact E|]. apply gval_inj. congruence. }
  split; [|split; [|split]].
  - intros H. destruct (surd_add_ok g t l r s Wl Wr H) as [V N]. destruct (add_one g t l r s Hl Hr Cl Cr H) as [_ R].
    destruct (F w1 N (A1 H) (root_m1 l r s Dl Dr R)) as (m & n & E & ->); [|exists m, n; auto].
    rewrite (proj1 (L_C27_ring BigI _ _ _) W1), V, Vl, Vr. reflexivity.
  - intros H. destruct (surd_sub_ok g t l r s Wl Wr H) as [V N]. destruct (sub_one g t l r s Hl Hr Cl Cr H) as [_ R].
    destruct (F w2 N (A2 H) (root_m1 l r s Dl Dr R)) as (m & n & E & ->); [|exists m, n; auto].
    rewrite (proj1 (proj2 (L_C27_ring BigI _ _ _)) W2), V, Vl, Vr. reflexivity.
  - intros H I. pose proof (L_C04_mul_partial g t l r s Hl Hr I H) as V. destruct (surd_mul_ok g t l r s Wl Wr H) as [N _]. destruct (mul_one g t l r s Hl Hr Cl Cr H) as [_ R].
    destruct (F w3 N (A3 H)) as (m & n & E & ->); [| |exists m, n; auto].
    + destruct R as [[P P']|R]; [|exact (root_m1 l r s Dl Dr R)]. exfalso. apply I.
      assert (J : forall u p q, normal g u -> discr u = 0 \/ discr u = -1 -> surd_to_gaussint g t u = Ok (Exact (p, q)) -> is_pure u = true -> sval u = gval (QCo p q) -> imaginary (sval u)).
      { intros u p q _ _ E Pu Vu. rewrite Vu. apply is_pure_c0 in Pu. pose proof (gauss_exact g t u _ E) as Qu. unfold surd_to_gaussint in E. change (is_gaussint u) with (is_quadint u) in E. rewrite Qu in E. inversion E; subst p q.
        unfold imaginary, gval. cbn [q0 q1 fst snd]. destruct Pu as [-> Pu]. split; [reflexivity|]. intros X. apply eq_IZR in X. contradiction. }
      split; [exact (J l a b Hl Dl El P Vl)|exact (J r c d Hr Dr Er P' Vr)].
    + rewrite (proj1 (proj2 (proj2 (L_C27_ring BigI _ _ _))) W3), V, Vl, Vr. reflexivity.
  - intros H. destruct (surd_conj_ok t l s H) as [V N]. assert (D : discr s = discr l) by (unfold parts in N; congruence). apply (normal_conj g) in N; [|exact Hl].
    destruct (F w4 N (A5 H)) as (m & n & E & ->); [rewrite D; exact Dl| |exists m, n; auto].
    rewrite (proj2 (proj2 (proj2 (L_C27_ring BigI _ (QCo c d) _))) W4), V, <- Vl. unfold sconj, sval, parts. destruct l as [[x y z] e]. cbn [coeffs c0 c1 c2 discr] in *. subst z.
    destruct Dl as [-> | ->].
    + unfold normal, parts in Hl. cbn [coeffs c0 c1 c2 discr] in Hl. destruct Hl as (_ & _ & [[-> _]|[_ S]] & _); [|exfalso; apply S; exists 0; reflexivity]. rewrite ZtoC_1, ZtoC_0.
      replace ((ZtoC x - RtoC 0 * csqrt 0) / RtoC 1)%C with (ZtoC x) by (field; apply RtoC1_neq0). replace ((ZtoC x + RtoC 0 * csqrt 0) / RtoC 1)%C with (ZtoC x) by (field; apply RtoC1_neq0).
      unfold ZtoC, Cconj, RtoC. cbn [fst snd]. f_equal. ring.
    + rewrite csqrt_neg by lia. change (- -1) with 1. rewrite sqrt_1, ZtoC_1. unfold Cminus, ZtoC, Cconj, Cdiv, Cinv, Cmult, Cplus, Copp, RtoC. cbn [fst snd]. f_equal; field.
Qed.

Lemma L_C97_gauss_refuted : exists l s, normal (Cfg true true) l /\ surd_to_gaussint (Cfg true true) BigI l = Ok (Exact (0, 1)) /\ sval l = Ci /\
  surd_mul (Cfg true true) BigI l l = Ok s /\ surd_to_gaussint (Cfg true true) BigI s = Ok (Exact (1, 0)) /\ gauss_mul BigI (QCo 0 1) (QCo 0 1) = Ok (QCo (-1) 0).
Proof.
  exists (new_raw 0 1 1 (-1)), (new_raw 1 0 1 0). split; [apply normalb_ok; vm_compute; reflexivity|]. split; [vm_compute; reflexivity|].
  split; [|repeat split; vm_compute; reflexivity]. rewrite sval_raw. unfold fval. rewrite csqrt_neg by lia. change (- -1) with 1. rewrite sqrt_1. unfold ZtoC, Ci, Cdiv, Cinv, Cmult, Cplus, RtoC. cbn [fst snd]. f_equal; field.
Qed.

Lemma L_C97_quadint_gauss_partial : forall g t x y z w, cplx g = true ->
  qval (QInt x (-1)) = gval x /\
  (qint_add g t (QInt x (-1)) (QInt y (-1)) = Ok w -> gauss_add t x y = Ok z -> qval w = gval z) /\
  (qint_sub g t (QInt x (-1)) (QInt y (-1)) = Ok w -> gauss_sub t x y = Ok z -> qval w = gval z) /\
  (qint_mul g t (QInt x (-1)) (QInt y (-1)) = Ok w -> gauss_mul t x y = Ok z -> qval w = gval z) /\
  (qint_div g t (QInt x (-1)) (QInt y (-1)) = Ok w -> gauss_div t x y = Ok z -> qval w = gval z) /\
  (q1 y <> 0 -> qint_rem g t (QInt x (-1)) (QInt y (-1)) = Ok w -> gauss_rem t x y = Ok z -> qval w = gval z) /\
  (qint_conj t (QInt x (-1)) = Ok w -> gauss_conj t x = Ok z -> w = QInt z (-1)) /\
  (forall n m, qint_norm t (QInt x (-1)) = Ok n -> gauss_norm t x = Ok m -> n = m).
Proof.
  intros g t x y z w C. destruct m1_hyp as [S M]. assert (G : good_root g (-1)) by (split; [exact S|split; [exact M|rewrite C; discriminate]]).
  assert (Wx : wfq g (QInt x (-1))) by (right; exact G). assert (Wy : wfq g (QInt y (-1))) by (right; exact G).
  pose proof (gval_qval x) as Vx. pose proof (gval_qval y) as Vy. split; [symmetry; exact Vx|].
  destruct (L_C21_add_sub_mul g t _ _ w Wx Wy) as (B1 & B2 & B3). destruct (L_C27_ring t x y z) as (R1 & R2 & R3 & _).
  split; [|split; [|split; [|split; [|split; [|split]]]]].
  - intros H K. rewrite (proj1 (B1 H)), (R1 K), Vx, Vy. reflexivity.
  - intros H K. rewrite (proj1 (B2 H)), (R2 K), Vx, Vy. reflexivity.
  - intros H K. rewrite (proj1 (B3 H)), (R3 K), Vx, Vy. reflexivity.
  - intros H K. destruct (L_C23_div g t _ _ w Wx Wy H) as (_ & d & D & _ & _ & Q). cbn [qdiscr] in D. assert (d = -1) by tauto. subst d.
    apply L_C27_div in K. rewrite Vx, Vy in K. exact (L_C23_unique g (-1) _ _ _ _ G Q K).
  - intros Y H K. apply rle_qint_rem in H. destruct (gauss_rem_big t x y z K) as (Y0 & _ & q & Hq & E).
    assert (NS : qnested (QInt x (-1)) (QInt y (-1))) by (right; right; exists 1; split; [lia|left; reflexivity]).
    destruct (proj1 (L_C23_returns g BigI _ _ Wx Wy) NS) as [q' Hq']; [rewrite <- Vy; exact Y0|].
    pose proof (L_C25_identity_partial g BigI _ _ q' w Wx Wy Y (or_intror eq_refl) Hq' H) as E'.
    assert (X : qval q' = gval q). { destruct (L_C23_div g BigI _ _ q' Wx Wy Hq') as (_ & d & D & _ & _ & Q). cbn [qdiscr] in D. assert (d = -1) by tauto. subst d.
      apply L_C27_div in Hq. rewrite Vx, Vy in Hq. exact (L_C23_unique g (-1) _ _ _ _ G Q Hq). }
    rewrite X, <- Vx, <- Vy in E'. rewrite E' in E at 1. transitivity ((gval q * gval y + qval w) - gval q * gval y)%C; [ring|rewrite E; ring].
  - intros H K. apply rle_qint_conj in H. apply rle_gauss_conj in K. destruct x as [a b]. unfold qint_conj, qco_conj in H. cbn [qcoeffs qdiscr] in H. change (-1 =? 0) with false in H. cbv iota in H.
    change (mod4d2 BigI (-1)) with (@Ok mod4 M23) in H. cbn [bind q0 q1] in H. unfold gauss_conj in K. cbn [q0 q1] in K. autorewrite with bigi in H, K. inversion H; inversion K. reflexivity.
  - intros n m H K. apply rle_qint_norm in H. apply rle_gauss_norm in K. destruct x as [a b]. unfold qint_norm, qco_norm in H. cbn [qcoeffs qdiscr] in H. change (-1 =? 0) with false in H. cbv iota in H.
    change (mod4d2 BigI (-1)) with (@Ok mod4 M23) in H. cbn [bind q0 q1] in H. unfold gauss_norm in K. cbn [q0 q1] in K. autorewrite with bigi in H, K. inversion H; inversion K. lia.
Qed.

Lemma L_C97_quadint_gauss_refuted : qint_rem (Cfg true true) BigI (QInt (QCo 7 5) (-1)) (QInt (QCo 2 0) (-1)) = Ok (QInt (QCo 4 3) (-1)) /\
  gauss_rem BigI (QCo 7 5) (QCo 2 0) = Ok (QCo (-1) (-1)).
Proof. split; vm_compute; reflexivity. Qed.

Lemma hinted_int g x h x' : q1 (qcoeffs x) = 0 -> qint_reduce_root_hinted g BigI x h = Ok x' -> x' = x \/ qdiscr x' = 0.
Proof.
  intros B H. unfold qint_reduce_root_hinted in H. autorewrite with bigi in H. destruct (_ || _); [inversion H; auto|].
  apply bind_Ok in H. destruct H as ([q m] & _ & H). destruct (m =? 0); [|inversion H; auto]. apply bind_Ok in H. destruct H as (k & _ & H). autorewrite with bigi in H.
  destruct (_ =? _); [|inversion H; auto]. right. rewrite B in H.
  assert (F : forall a, qint_from_coeffs g BigI (QCo a (0 * k)) q = Ok x' -> qdiscr x' = 0).
  { intros a F. rewrite Z.mul_0_l in F. unfold qint_from_coeffs in F. destruct (_ && _); [discriminate|]. apply bind_Ok in F. destruct F as (m' & _ & F). destruct (m' =? 0); [discriminate|].
    apply bind_Ok in F. destruct F as (e & _ & F). apply bind_Ok in F. destruct F as (e' & _ & F). apply bind_Ok in F. destruct F as (e'' & _ & F). apply bind_Ok in F. destruct F as ([[u v] w] & E & F).
    assert (v = 0) as ->. { destruct (e'' =? q); [|inversion E; reflexivity]. destruct (q <? 0).
      - apply bind_Ok in E. destruct E as (b' & E1 & E). autorewrite with bigi in E1. apply bind_Ok in E. destruct E as (m1 & _ & E). inversion E1. inversion E. subst. reflexivity.
      - apply bind_Ok in E. destruct E as (b' & E1 & E). inversion E. reflexivity. }
    cbn in F. inversion F; reflexivity. }
  apply bind_Ok in H. destruct H as (mm & _ & H). destruct mm; [discriminate| |].
  - apply bind_Ok in H. destruct H as (sc & _ & H). autorewrite with bigi in H. exact (F _ H).
  - autorewrite with bigi in H. exact (F _ H).
Qed.

Lemma int_unwrap g x y l r : good_root g (qdiscr x) -> good_root g (qdiscr y) -> q1 (qcoeffs x) = 0 -> q1 (qcoeffs y) <> 0 ->
  qint_reduce_bin_op_unwrap g BigI x y = Ok (l, r) -> l = x /\ exists k, 0 < k /\ qdiscr y = k * k * qdiscr x.
Proof.
  intros Gx Gy Bx By H. pose proof (q_unwrap_ok g x y l r Gx Gy H) as (_ & _ & _ & _ & D & G & _). assert (L0 : qdiscr l <> 0) by (intros E; rewrite E in G; destruct G as (S & _); apply S; exists 0; reflexivity).
  unfold qint_reduce_bin_op_unwrap in H. apply bind_Ok in H. destruct H as (o & H & E). destruct o as [[l1 r1]|]; [|discriminate]. inversion E; subst l1 r1; clear E.
  assert (K : forall (b1 b2 : bool) h1 h2 o, (let! (u, v) :=
        if b1 then let! hint := h1 in let! l := qint_reduce_root_hinted g BigI x hint in Ok (l, y)
        else if b2 then let! hint := h2 in let! r := qint_reduce_root_hinted g BigI y hint in Ok (x, r)
        else Ok (x, y) in
      Ok (if qdiscr u =? qdiscr v then Some (u, v) else None)) = Ok o -> o = Some (l, r) -> l = x /\ exists k, 0 < k /\ qdiscr y = k * k * qdiscr x).
  { clear H. intros b1 b2 h1 h2 o H ->. apply bind_Ok in H. destruct H as ([u v] & H & E). destruct (Z.eqb_spec (qdiscr u) (qdiscr v)) as [Q|]; [|discriminate]. inversion E; subst u v; clear E.
    destruct b1; [|destruct b2].
    - apply bind_Ok in H. destruct H as (h & _ & H). apply bind_Ok in H. destruct H as (l1 & H & E). apply hinted_int in H; [|exact Bx]. inversion E; subst l1 r. destruct H as [->|H]; [|contradiction]. split; [reflexivity|]. exists 1. split; [lia|]. rewrite Q. ring.
    - apply bind_Ok in H. destruct H as (h & _ & H). apply bind_Ok in H. destruct H as (r1 & H & E). inversion E; subst l r1. split; [reflexivity|].
      destruct (q_hinted_big g y h Gy) as (r2 & E2 & _ & _ & Bz & Dz & _). rewrite H in E2. inversion E2; subst r2. destruct Dz as [[Z0 _]|[_ Dz]]; [tauto|]. rewrite Q. exact Dz.
    - inversion H; subst l r. split; [reflexivity|]. exists 1. split; [lia|]. rewrite Q. ring. }
  unfold qint_reduce_bin_op in H. destruct (cplx g).
  - destruct (xorb _ _); [discriminate|]. apply bind_Ok in H. destruct H as (al & _ & H). apply bind_Ok in H. destruct H as (ar & _ & H). exact (K _ _ _ _ _ H eq_refl).
  - apply bind_Ok in H. destruct H as (al & _ & H). apply bind_Ok in H. destruct H as (ar & _ & H). exact (K _ _ _ _ _ H eq_refl).
Qed.

Lemma int_unwrap_total g x y k : good_root g (qdiscr x) -> good_root g (qdiscr y) -> q1 (qcoeffs y) <> 0 -> 0 < k -> qdiscr y = k * k * qdiscr x ->
  exists l r, qint_reduce_bin_op_unwrap g BigI x y = Ok (l, r) /\ common g x y l r.
Proof.
  intros Gx Gy By K E. assert (X0 : qdiscr x <> 0) by (intros Q; rewrite Q in Gx; destruct Gx as (S & _); apply S; exists 0; reflexivity).
  assert (Y0 : qdiscr y <> 0) by (intros Q; rewrite Q in Gy; destruct Gy as (S & _); apply S; exists 0; reflexivity).
  assert (K1 : 1 <= k * k) by nia.
  assert (Q : Z.quot (qdiscr y) (qdiscr x) = k * k) by (apply quot_exact; lia).
  destruct (q_hinted_big g y (k * k) Gy) as (r & Hr & _ & _ & _ & _ & D). specialize (D By k (qdiscr x) K eq_refl E).
  assert (A : Z.abs (qdiscr x) <= Z.abs (qdiscr y)) by (rewrite E, Z.abs_mul, (Z.abs_eq (k * k)) by nia; pose proof (Z.abs_nonneg (qdiscr x)); nia).
  enough (U : exists l r, qint_reduce_bin_op_unwrap g BigI x y = Ok (l, r)) by (destruct U as (l & r' & U); exists l, r'; split; [exact U|exact (q_unwrap_ok g x y l r' Gx Gy U)]).
  unfold qint_reduce_bin_op_unwrap, qint_reduce_bin_op. rewrite !quotB by auto. rewrite Q. bigi. rewrite Hr. bigi.
  destruct (cplx g) eqn:Cx.
  - assert (xorb (qdiscr x <? 0) (qdiscr y <? 0) = false) as -> by (destruct (Z.ltb_spec (qdiscr x) 0), (Z.ltb_spec (qdiscr y) 0); try reflexivity; nia).
    destruct (Z.ltb_spec (Z.abs (qdiscr y)) (Z.abs (qdiscr x))); [lia|]. destruct (Z.ltb_spec (Z.abs (qdiscr x)) (Z.abs (qdiscr y))) as [L|L]; bigi.
    + rewrite D, Z.eqb_refl. bigi. eauto.
    + assert (k = 1) by nia. subst k. replace (qdiscr y) with (qdiscr x) by lia. rewrite Z.eqb_refl. bigi. eauto.
  - destruct Gx as (_ & _ & Px), Gy as (_ & _ & Py). specialize (Px Cx). specialize (Py Cx). apply Z.eqb_neq in X0, Y0. rewrite X0, Y0. unfold dassert. rewrite !andb_false_r. bigi.
    destruct (Z.ltb_spec (qdiscr y) (qdiscr x)); [lia|]. destruct (Z.ltb_spec (qdiscr x) (qdiscr y)) as [L|L]; bigi.
    + rewrite D, Z.eqb_refl. bigi. eauto.
    + assert (qdiscr y = qdiscr x) as -> by lia. rewrite Z.eqb_refl. bigi. eauto.
Qed.

Lemma L_C25_stored_root_exact : forall g t x y q z, wfq g x -> wfq g y -> q1 (qcoeffs x) = 0 -> q1 (qcoeffs y) <> 0 ->
  qint_div g t x y = Ok q -> qint_rem g t x y = Ok z ->
  (qval x = (qval q * qval y + qval z)%C <-> rounded_quotient (qdiscr x) (qval x) (qval y) (qval q)).
Proof.
  intros g t x y q z Wx Wy Bx By Hq Hz. destruct (qint_rem_ok g t x y z Wx Wy By Hz) as (_ & Gx & l & r & q' & d & u & v & _ & Ed & Hu & R & _ & V & _).
  pose proof (wfq_irr g y Wy By) as Gy. destruct (int_unwrap g x y l r Gx Gy Bx By Hu) as [-> _]. subst d.
  assert (Y0 : qval y <> RtoC 0) by (destruct R as (? & ? & ? & ? & ? & _ & Y & _); exact Y). rewrite V. split.
  - intros E. replace (qval q) with (qval (QInt q' (qdiscr x))); [exact R|].
    assert (X : (qval (QInt q' (qdiscr x)) * qval y = qval q * qval y)%C).
    { transitivity (qval q * qval y + (qval x - qval (QInt q' (qdiscr x)) * qval y) - qval x + qval (QInt q' (qdiscr x)) * qval y)%C; [rewrite <- E; ring|ring]. }
    apply (f_equal (fun w => (w * / qval y)%C)) in X. rewrite <- !Cmult_assoc, !Cinv_r, !Cmult_1_r in X by exact Y0. exact X.
  - intros Q. rewrite (L_C23_unique g (qdiscr x) _ _ _ _ Gx Q R). ring.
Qed.

Lemma L_C25_stored_root_returns : forall g x y, wfq g x -> wfq g y -> q1 (qcoeffs x) = 0 -> q1 (qcoeffs y) <> 0 ->
  (returns (qint_rem g BigI x y) <-> qdiscr x <> 0 /\ exists k, 0 < k /\ qdiscr y = k * k * qdiscr x).
Proof.
  intros g x y Wx Wy Bx By. pose proof (wfq_irr g y Wy By) as Gy. split.
  - intros [z Hz]. destruct (qint_rem_ok g BigI x y z Wx Wy By Hz) as (_ & Gx & l & r & q' & d & u & v & _ & _ & Hu & _).
    destruct (int_unwrap g x y l r Gx Gy Bx By Hu) as [_ K]. split; [|exact K]. intros E. rewrite E in Gx. destruct Gx as (S & _). apply S. exists 0. reflexivity.
  - intros (X0 & k & K & E). assert (Gx : good_root g (qdiscr x)) by (destruct Wx as [[_ ?]|G]; [contradiction|exact G]).
    destruct (int_unwrap_total g x y k Gx Gy By K E) as (l & r & U & C). unfold qint_rem, qint_is_rational. apply Z.eqb_neq in By as Bb. rewrite Bb, U. cbn [bind].
    destruct C as (_ & _ & _ & _ & D & G & _ & _ & B2).
    destruct (div_core g (qdiscr l) (q0 (qcoeffs l)) (q1 (qcoeffs l)) (q0 (qcoeffs r)) (q1 (qcoeffs r)) G) as (q & r' & E' & _); [tauto|].
    rewrite <- !qco_eta in E'. rewrite E'. cbn [bind]. rewrite <- D. fct; auto.
Qed.

Lemma half_round (i : Z) : i = 0 \/ i = 1 -> isround (IZR i / IZR 2) i.
Proof. intros [->| ->]; unfold isround; split; intros; lra. Qed.

Lemma bad_pair g d a b a' b' i : good_root g d -> b <> 0 -> b' <> 0 -> (i = 0 \/ i = 1) ->
  (RtoC 2 * qval (QInt (QCo a b) d) = (ZtoC i + omega d) * qval (QInt (QCo a' b') d))%C -> Z.abs (nrm d a' b') <= Z.abs (nrm d a b) ->
  exists x y z n m, wfq g x /\ wfq g y /\ qdiscr x = d /\ qdiscr y = d /\ q1 (qcoeffs x) <> 0 /\ q1 (qcoeffs y) <> 0 /\ qint_rem g BigI x y = Ok z /\
    qint_norm BigI z = Ok n /\ qint_norm BigI y = Ok m /\ Z.abs m <= Z.abs n.
Proof.
  intros G B B' I E L. set (x := QInt (QCo a b) d) in *. set (y := QInt (QCo a' b') d) in *.
  assert (Wx : wfq g x) by (right; exact G). assert (Wy : wfq g y) by (right; exact G).
  destruct (q_rem_total g x y Wx Wy B B') as [z Hz]; [right; right; exists 1; split; [lia|left; unfold x, y; cbn [qdiscr]; ring]|].
  destruct (qint_rem_ok g BigI x y z Wx Wy B' Hz) as (Wz & _ & l & r & q & d' & u & v & Cm & Ed & _ & R & _ & V & _).
  assert (D' : d' = d). { destruct Cm as (_ & _ & _ & _ & _ & _ & [D|D] & _); rewrite Ed, D; reflexivity. }
  subst d'. rewrite D' in R, V. clear D' Cm.
  assert (Y0 : qval y <> RtoC 0) by (destruct R as (? & ? & ? & ? & ? & _ & Y & _); exact Y).
  assert (Q : qval (QInt q d) = (ZtoC i + omega d)%C).
  { apply (L_C23_unique g d (qval x) (qval y) _ _ G R). exists i, 1, 2, i, 1. split; [lia|]. split; [exact Y0|]. rewrite ZtoC_1. split; [|split; [ring|split; [apply half_round, I|apply (half_round 1); auto]]].
    change (ZtoC 2) with (RtoC 2). transitivity ((RtoC 2 * qval x) / (RtoC 2 * qval y))%C; [field; split; first [exact Y0|apply RtoC2_neq0]|]. rewrite E. field. split; first [exact Y0|apply RtoC2_neq0]. }
  assert (Vz : qval z = (- qval x)%C). { rewrite V, Q, <- E. replace (RtoC 2) with (RtoC 1 + RtoC 1)%C by (rewrite <- RtoC_plus; f_equal; lra). ring. }
  assert (Ix : ~ rational_num (qval x)). { intros X. apply (L_C26_is_rational g x Wx) in X. apply Z.eqb_eq in X. exact (B X). }
  assert (Cz : qconj z = (- qconj x)%C).
  { apply (conj_unique (qval z)); [| | |destruct (qconj_trace x) as [P _]|destruct (qconj_trace x) as [_ P]]; try apply qconj_trace.
    - rewrite Vz. intros X. apply Ix. apply rational_opp in X. replace (qval x) with (- - qval x)%C by ring. exact X.
    - rewrite Vz. replace (- qval x + - qconj x)%C with (- (qval x + qconj x))%C by ring. apply rational_opp, P.
    - rewrite Vz. replace (- qval x * - qconj x)%C with (qval x * qconj x)%C by ring. exact P. }
  destruct (q_int_total g z 1 Wz) as (_ & _ & _ & _ & _ & [n Hn]). destruct (q_int_total g y 1 Wy) as (_ & _ & _ & _ & _ & [m Hm]).
  exists x, y, z, n, m. split; [exact Wx|]. split; [exact Wy|]. split; [reflexivity|]. split; [reflexivity|]. split; [exact B|]. split; [exact B'|].
  split; [exact Hz|]. split; [exact Hn|]. split; [exact Hm|]. apply (qint_norm_val g) in Hn, Hm; auto. rewrite Vz, Cz in Hn.
  pose proof (qval_qconj a b d) as Nx. pose proof (qval_qconj a' b' d) as Ny. fold x in Nx. fold y in Ny.
  assert (n = nrm d a b) as ->. { apply ZtoC_inj. rewrite <- Hn, <- Nx. ring. }
  assert (m = nrm d a' b') as ->. { apply ZtoC_inj. rewrite <- Hm. exact Ny. } exact L.
Qed.

Lemma bad_root g d : good_root g d -> ~ In d [-3; -2; -1; 2; 3; 5; 13] ->
  exists x y z n m, wfq g x /\ wfq g y /\ qdiscr x = d /\ qdiscr y = d /\ q1 (qcoeffs x) <> 0 /\ q1 (qcoeffs y) <> 0 /\ qint_rem g BigI x y = Ok z /\
    qint_norm BigI z = Ok n /\ qint_norm BigI y = Ok m /\ Z.abs m <= Z.abs n.
Proof.
  intros G N. pose proof G as (S & M & _). assert (K2 : RtoC 2 = (RtoC 1 + RtoC 1)%C) by (rewrite <- RtoC_plus; f_equal; lra).
  assert (Z2 : ZtoC 2 = (RtoC 1 + RtoC 1)%C) by (rewrite <- K2; reflexivity).
  assert (N0 : d <> 0 /\ d <> 1 /\ d <> 4 /\ d <> 9). { repeat split; intros ->; apply S; [exists 0|exists 1|exists 2|exists 3]; reflexivity. }
  cbn [In] in N. destruct (md1 d) eqn:H.
  - destruct (md1_quot d H) as (e & Ee & Q1 & Q2). destruct (Z_lt_le_dec d 0).
    + apply (bad_pair g d e 2 0 2 1); auto; try lia.
      * pose proof (omega_sq1 d e H Ee) as W. unfold qval. cbn [qcoeffs qdiscr q0 q1]. rewrite ZtoC_1, ZtoC_0, !Z2, !K2. set (w := omega d) in *. clearbody w.
        replace ((RtoC 1 + w) * (RtoC 0 + (RtoC 1 + RtoC 1) * w))%C with ((RtoC 1 + RtoC 1) * (w + w * w))%C by ring. rewrite W. ring.
      * unfold nrm. rewrite H, Q2. rewrite (Z.abs_eq (0 * 0 + 0 * 2 + _)), (Z.abs_eq (e * e + e * 2 + _)) by nia. nia.
    + apply (bad_pair g d e 1 0 2 0); auto; try lia.
      * pose proof (omega_sq1 d e H Ee) as W. unfold qval. cbn [qcoeffs qdiscr q0 q1]. rewrite ZtoC_1, ZtoC_0, !Z2, !K2. set (w := omega d) in *. clearbody w.
        replace ((RtoC 0 + w) * (RtoC 0 + (RtoC 1 + RtoC 1) * w))%C with ((RtoC 1 + RtoC 1) * (w * w))%C by ring. rewrite W. ring.
      * unfold nrm. rewrite H, Q2. rewrite (Z.abs_neq (0 * 0 + 0 * 2 + _)), (Z.abs_eq (e * e + e * 1 + _)) by nia. nia.
  - apply (bad_pair g d d 1 2 2 0); auto; try lia.
    + pose proof (omega_sq0 d H) as W. unfold qval. cbn [qcoeffs qdiscr q0 q1]. rewrite ZtoC_1, ZtoC_0, !Z2, !K2. set (w := omega d) in *. clearbody w.
      replace ((RtoC 0 + w) * (RtoC 1 + RtoC 1 + (RtoC 1 + RtoC 1) * w))%C with ((RtoC 1 + RtoC 1) * (w + w * w))%C by ring. rewrite W. ring.
    + unfold nrm. rewrite H. replace (2 * 2 - 2 * 2 * d) with (4 * (1 - d)) by ring. replace (d * d - 1 * 1 * d) with (d * (d - 1)) by ring.
      rewrite !Z.abs_mul. unfold md1 in H. apply Z.eqb_neq in H. assert (4 <= Z.abs d); [|change (Z.abs 4) with 4; nia].
      assert (D : d <> -4) by (intros ->; apply M; reflexivity). lia.
Qed.

Lemma L_C24_roots_exact : forall g d, good_root g d ->
  ((forall x y z n m, wfq g x -> wfq g y -> qdiscr x = d -> qdiscr y = d -> q1 (qcoeffs x) <> 0 -> q1 (qcoeffs y) <> 0 ->
      qint_rem g BigI x y = Ok z -> qint_norm BigI z = Ok n -> qint_norm BigI y = Ok m -> Z.abs n < Z.abs m) <->
   In d [-3; -2; -1; 2; 3; 5; 13]).
Proof.
  intros g d G. split.
  - intros F. destruct (in_dec Z.eq_dec d [-3; -2; -1; 2; 3; 5; 13]) as [I|N]; [exact I|exfalso].
    destruct (bad_root g d G N) as (x & y & z & n & m & Wx & Wy & Dx & Dy & Bx & By & Hz & Hn & Hm & L).
    pose proof (F x y z n m Wx Wy Dx Dy Bx By Hz Hn Hm). lia.
  - intros I x y z n m Wx Wy Dx Dy Bx By. apply (L_C24_euclidean_partial g BigI x y z n m); auto; congruence.
Qed.
