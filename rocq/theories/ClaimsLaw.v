(** * ClaimsLaw: proofs of the property theorems in PropsLaw.v. *)

From Coq Require Import ZArith Znumtheory Reals Lia Lra Bool List Arith.
From Coquelicot Require Import Coquelicot.
From Verif Require Import Base Ext ModelBlock ModelSurd ModelInt ModelCF ModelConv Spec SpecInt SpecCF SpecLaw Transfer NumFacts RatioFacts SurdCore SurdArith SurdOrd SurdRound SurdTotal SurdMisc SurdDecide
  CFCore CFSeq CFIter CFBasic CFOfSurd CFWide CFArith IntDecide CFBest SurdLaws ClaimsSurd ClaimsInt ClaimsCF ClaimsApi.
Import ListNotations.
Open Scope Z_scope.

Lemma L_C66_convergents : forall x n r s, wfcf x -> nth_item (conv_next BigU) n (cf_convergents x) = Ok (Some r) ->
  nth_item (conv_next BigU) (S n) (cf_convergents x) = Ok (Some s) -> forall p q, 0 < q < denom s ->
  (Rabs (IZR (denom r) * cf_val x - IZR (numer r)) <= Rabs (IZR q * cf_val x - IZR p))%R.
Proof. exact best_next. Qed.

Lemma L_C66_approximated : forall x limit fuel r, wfcf x -> 1 <= limit -> cf_approximated BigU fuel x limit = Ok (Approximated r) ->
  forall p q, 1 <= q < limit -> (Rabs (IZR (denom r) * cf_val x - IZR (numer r)) <= Rabs (IZR q * cf_val x - IZR p))%R.
Proof. exact approx_best. Qed.

Lemma L_C66_nearest : forall x limit fuel r, wfcf x -> 2 <= limit -> cf_approximated BigU fuel x limit = Ok (Approximated r) ->
  forall p q, 1 <= q <= denom r -> (Rabs (cf_val x - rval r) <= Rabs (cf_val x - IZR p / IZR q))%R.
Proof.
  intros x limit fuel r W Hl H p q Hq.
  destruct (cf_approximated_ok x limit fuel _ W ltac:(lia) H) as [(r' & K & _)|(r' & m & K & Cv & Hd & _)]; [discriminate|]. inversion K; subst r'. clear K.
  assert (Hq' : q < limit).
  { destruct (Z_lt_le_dec q limit); [auto|]. exfalso. assert (E : denom r = limit) by lia.
    apply (approx_below x limit fuel r W Hl) in H. lia. }
  pose proof (approx_best x limit fuel r W ltac:(lia) H p q ltac:(lia)) as B.
  assert (Q1 : (1 <= IZR q)%R) by (apply IZR_le; lia). assert (Q2 : (IZR q <= IZR (denom r))%R) by (apply IZR_le; lia).
  unfold rval. set (X := cf_val x) in *. clearbody X.
  replace (IZR (denom r) * X - IZR (numer r))%R with (IZR (denom r) * (X - IZR (numer r) / IZR (denom r)))%R in B by (field; lra).
  replace (IZR q * X - IZR p)%R with (IZR q * (X - IZR p / IZR q))%R in B by (field; lra).
  rewrite !Rabs_mult, (Rabs_pos_eq (IZR q)), (Rabs_pos_eq (IZR (denom r))) in B by lra.
  pose proof (Rabs_pos (X - IZR (numer r) / IZR (denom r))). pose proof (Rabs_pos (X - IZR p / IZR q)). nra.
Qed.

Lemma L_C66_surd : forall g s x limit fuel r, normal g s -> sval s = RtoC x -> cf_wide x -> 1 <= limit ->
  surd_approximated g BigI fuel s limit = Ok (Approximated r) ->
  forall p q, 1 <= q < limit -> (Rabs (IZR (denom r) * x - IZR (numer r)) <= Rabs (IZR q * x - IZR p))%R.
Proof.
  intros g s x limit fuel r N V D Hl H p q Hq. unfold surd_approximated in H. destruct (surd_to_cf g BigI fuel s) as [[z|]| |] eqn:E; try discriminate. cbn [bind unwrap] in H.
  destruct (surd_to_cf_wide g BigI fuel s x z eq_refl N V D E) as ((W & _) & Fz & Vz). rewrite <- Vz.
  exact (approx_best z limit fuel r W Hl H p q Hq).
Qed.

Lemma L_C66_legendre : forall x r, wfcf x -> lowest r -> (Rabs (cf_val x - rval r) < / (2 * IZR (denom r) * IZR (denom r)))%R ->
  exists n, nth_item (conv_next BigU) n (cf_convergents x) = Ok (Some r).
Proof. exact legendre. Qed.

Lemma L_C67_closed : forall g r x y, squarefree r -> in_field g r x -> in_field g r y ->
  (exists s, surd_add g BigI x y = Ok s /\ in_field g r s) /\ (exists s, surd_sub g BigI x y = Ok s /\ in_field g r s) /\
  (exists s, surd_mul g BigI x y = Ok s /\ in_field g r s) /\ (exists s, surd_neg BigI x = Ok s /\ in_field g r s) /\
  (exists s, surd_conj BigI x = Ok s /\ in_field g r s) /\
  (sval x <> RtoC 0 -> exists s, surd_recip g BigI x = Ok s /\ in_field g r s) /\
  (sval y <> RtoC 0 -> sval x <> RtoC 0 \/ rational_num (sval y) -> exists s, surd_div g BigI x y = Ok s /\ in_field g r s).
Proof.
  intros g r x y Q Fx Fy. destruct (f_add g r Q x y Fx Fy) as (s1 & ? & ? & _). destruct (f_sub g r Q x y Fx Fy) as (s2 & ? & ? & _).
  destruct (f_mul g r Q x y Fx Fy) as (s3 & ? & ? & _). destruct (f_neg g r x Fx) as (s4 & ? & ? & _). destruct (f_conj g r x Fx) as (s5 & ? & ? & _).
  split; [eauto|]. split; [eauto|]. split; [eauto|]. split; [eauto|]. split; [eauto|]. split.
  - intros Hx. destruct (f_recip g r Q x Fx Hx) as (s & ? & ? & _). eauto.
  - intros Hy Hx. destruct (f_div g r Q x y Fx Fy Hy Hx) as (s & ? & ? & _). eauto.
Qed.

Lemma L_C67_unique : forall g r x y, in_field g r x -> in_field g r y -> sval x = sval y -> x = y.
Proof. exact f_unique. Qed.

Lemma L_C67_add_laws : forall g r x y z, squarefree r -> in_field g r x -> in_field g r y -> in_field g r z ->
  (exists s, surd_add g BigI x y = Ok s /\ surd_add g BigI y x = Ok s) /\
  (exists s, (let! u := surd_add g BigI x y in surd_add g BigI u z) = Ok s /\ (let! v := surd_add g BigI y z in surd_add g BigI x v) = Ok s) /\
  surd_add g BigI x (surd_of_int 0) = Ok x /\
  (let! n := surd_neg BigI x in surd_add g BigI x n) = Ok (surd_of_int 0) /\
  (exists s, surd_sub g BigI x y = Ok s /\ (let! n := surd_neg BigI y in surd_add g BigI x n) = Ok s).
Proof.
  intros g r x y z Q Fx Fy Fz. pose proof (f_int g r 0) as F0. split; [|split; [|split; [|split]]].
  - run g r Q. same g r. congruence || (rewrite V, V0; ring).
  - run g r Q. same g r. rewrite V0, V, V2, V1. ring.
  - run g r Q. f_equal. apply (f_unique g r); auto. rewrite V, int_val, ZtoC_0. ring.
  - run g r Q. f_equal. apply (f_unique g r); auto. rewrite V0, V, int_val, ZtoC_0. ring.
  - run g r Q. same g r. rewrite V, V1, V0. ring.
Qed.

Lemma L_C67_mul_laws : forall g r x y z, squarefree r -> 0 < r -> in_field g r x -> in_field g r y -> in_field g r z ->
  (exists s, surd_mul g BigI x y = Ok s /\ surd_mul g BigI y x = Ok s) /\
  (exists s, (let! u := surd_mul g BigI x y in surd_mul g BigI u z) = Ok s /\ (let! v := surd_mul g BigI y z in surd_mul g BigI x v) = Ok s) /\
  surd_mul g BigI x (surd_of_int 1) = Ok x /\
  (exists s, (let! v := surd_add g BigI y z in surd_mul g BigI x v) = Ok s /\
             (let! u := surd_mul g BigI x y in let! v := surd_mul g BigI x z in surd_add g BigI u v) = Ok s) /\
  (sval x <> RtoC 0 -> (let! i := surd_recip g BigI x in surd_mul g BigI x i) = Ok (surd_of_int 1)) /\
  (sval y <> RtoC 0 -> sval x <> RtoC 0 \/ rational_num (sval y) ->
     (exists s, surd_div g BigI x y = Ok s /\ (let! i := surd_recip g BigI y in surd_mul g BigI x i) = Ok s) /\
     (let! s := surd_div g BigI x y in surd_mul g BigI s y) = Ok x).
Proof.
  intros g r x y z Q R Fx Fy Fz. pose proof (f_int g r 1) as F1. split; [|split; [|split; [|split; [|split]]]].
  - run g r Q. same g r. rewrite V, V0. ring.
  - run g r Q. same g r. rewrite V0, V, V2, V1. ring.
  - run g r Q. f_equal. apply (f_unique g r); auto. rewrite V, int_val, ZtoC_1. ring.
  - run g r Q. same g r. rewrite V0, V, V3, V1, V2. ring.
  - intros Hx. run g r Q. f_equal. apply (f_unique g r); auto. rewrite V0, V, int_val, ZtoC_1. field. auto.
  - intros Hy Hx. destruct (f_div g r Q x y Fx Fy Hy Hx) as (s & E & F & V). specialize (V R). rewrite E. cbn [bind]. split.
    + run g r Q. same g r. rewrite V, V1, V0. reflexivity.
    + run g r Q. f_equal. apply (f_unique g r); auto. rewrite V0, V. field. auto.
Qed.

Lemma L_C67_conj_laws : forall g r x y, squarefree r -> in_field g r x -> in_field g r y ->
  (exists s, (let! u := surd_add g BigI x y in surd_conj BigI u) = Ok s /\
             (let! u := surd_conj BigI x in let! v := surd_conj BigI y in surd_add g BigI u v) = Ok s) /\
  (0 < r -> exists s, (let! u := surd_mul g BigI x y in surd_conj BigI u) = Ok s /\
             (let! u := surd_conj BigI x in let! v := surd_conj BigI y in surd_mul g BigI u v) = Ok s).
Proof.
  intros g r x y Q Fx Fy. split.
  - run g r Q. same g r. rewrite V0, V3, V1, V2. symmetry. apply (f_conj_add g r); auto.
  - intros R. run g r Q. same g r. rewrite V0, V3, V1, V2. symmetry. apply (f_conj_mul g r); auto.
Qed.

Lemma L_C67_eq_add : forall g t x y z xy yx yz a b e, normal g x -> normal g y -> normal g z ->
  surd_add g t x y = Ok xy -> surd_add g t y x = Ok yx -> surd_add g t y z = Ok yz -> surd_add g t xy z = Ok a -> surd_add g t x yz = Ok b ->
  (surd_eq t xy yx = Ok e -> e = true) /\ (surd_eq t a b = Ok e -> e = true).
Proof.
  intros g t x y z xy yx yz a b e Nx Ny Nz H1 H2 H3 H4 H5. apply surd_add_ok in H1, H2, H3; auto using normal_wf. destruct H1 as [V1 N1], H2 as [V2 N2], H3 as [V3 N3].
  apply surd_add_ok in H4, H5; auto using normal_wf. destruct H4 as [V4 N4], H5 as [V5 N5].
  split; intros E; eapply (L_C08_eq_partial g) in E; eauto; apply E; left; [rewrite V1, V2|rewrite V4, V5, V1, V3]; ring.
Qed.

Lemma L_C67_eq_mul : forall g t x y z xy xz yx yz y_z a b c d e, normal g x -> normal g y -> normal g z -> real_surd x -> real_surd y -> real_surd z ->
  surd_mul g t x y = Ok xy -> surd_mul g t y x = Ok yx -> surd_mul g t y z = Ok yz -> surd_mul g t x z = Ok xz -> surd_add g t y z = Ok y_z ->
  surd_mul g t xy z = Ok a -> surd_mul g t x yz = Ok b -> surd_mul g t x y_z = Ok c -> surd_add g t xy xz = Ok d ->
  (surd_eq t xy yx = Ok e -> e = true) /\ (surd_eq t a b = Ok e -> e = true) /\ (surd_eq t c d = Ok e -> e = true).
Proof.
  intros g t x y z xy xz yx yz y_z a b c d e Nx Ny Nz Rx Ry Rz H1 H2 H3 H4 H5 H6 H7 H8 H9.
  destruct (real_val x Rx) as [vx Ex], (real_val y Ry) as [vy Ey], (real_val z Rz) as [vz Ez].
  assert (M : forall l r s u, normal g l -> normal g r -> sval l = RtoC u -> surd_mul g t l r = Ok s -> sval s = (sval l * sval r)%C /\ normal g s).
  { intros l r s u Nl Nr El H. split; [|apply surd_mul_ok in H; auto using normal_wf; tauto].
    apply (L_C04_mul_partial g t l r s Nl Nr); auto. intros [[_ K] _]. rewrite El in K. apply K. reflexivity. }
  destruct (M x y xy vx Nx Ny Ex H1) as [V1 N1]. destruct (M y x yx vy Ny Nx Ey H2) as [V2 N2]. destruct (M y z yz vy Ny Nz Ey H3) as [V3 N3].
  destruct (M x z xz vx Nx Nz Ex H4) as [V4 N4]. apply surd_add_ok in H5; auto using normal_wf. destruct H5 as [V5 N5].
  assert (E1 : sval xy = RtoC (vx * vy)) by (rewrite V1, Ex, Ey, RtoC_mult; reflexivity).
  destruct (M xy z a _ N1 Nz E1 H6) as [V6 N6]. destruct (M x yz b _ Nx N3 Ex H7) as [V7 N7]. destruct (M x y_z c _ Nx N5 Ex H8) as [V8 N8].
  apply surd_add_ok in H9; auto using normal_wf. destruct H9 as [V9 N9].
  split; [|split]; intros E; eapply (L_C08_eq_partial g) in E; eauto; apply E; left;
    [rewrite V1, V2|rewrite V6, V7, V1, V3|rewrite V8, V9, V5, V1, V4]; ring.
Qed.

Lemma L_C67_order : forall g t x y s m n p q z, normal g x -> normal g y -> real_surd x -> real_surd y ->
  surd_is_positive g t x = Ok p -> surd_is_negative g t x = Ok q -> surd_is_positive g t y = Ok z ->
  surd_add g t x y = Ok s -> surd_mul g t x y = Ok m -> surd_neg t x = Ok n ->
  (p = true -> z = true -> forall b, surd_is_positive g t s = Ok b \/ surd_is_positive g t m = Ok b -> b = true) /\
  (forall b, surd_is_positive g t n = Ok b -> b = q) /\
  (p = true -> q = false) /\ (p = false -> q = false -> sval x = RtoC 0).
Proof.
  intros g t x y s m n p q z Nx Ny Rx Ry Hp Hq Hz Hs Hm Hn.
  destruct (real_val x Rx) as [vx Ex], (real_val y Ry) as [vy Ey].
  assert (M : sval m = RtoC (vx * vy)).
  { rewrite (L_C04_mul_partial g t x y m Nx Ny); auto; [rewrite Ex, Ey, RtoC_mult; reflexivity|]. intros [[_ K] _]. rewrite Ex in K. apply K. reflexivity. }
  assert (Nm : normal g m) by (apply surd_mul_ok in Hm; auto using normal_wf; tauto).
  apply surd_add_ok in Hs; auto using normal_wf. destruct Hs as [S Ns]. rewrite Ex, Ey, <- RtoC_plus in S.
  apply surd_neg_ok in Hn. destruct Hn as [Vn Pn]. pose proof (normal_neg g x n Nx Pn) as Nn. rewrite Ex, <- RtoC_opp in Vn.
  pose proof (L_C09_is_positive g t x vx p Nx Ex Hp) as P. pose proof (L_C09_is_negative g t x vx q Nx Ex Hq) as Ng. pose proof (L_C09_is_positive g t y vy z Ny Ey Hz) as Z.
  split; [|split; [|split]].
  - intros Ep Ez b [B|B]; [apply (L_C09_is_positive g t s _ b Ns S) in B|apply (L_C09_is_positive g t m _ b Nm M) in B]; apply B; apply P in Ep; apply Z in Ez; [lra|apply Rmult_lt_0_compat; auto].
  - intros b B. apply (L_C09_is_positive g t n _ b Nn Vn) in B. destruct b, q; auto; [|exfalso].
    + assert (K : (0 < - vx)%R) by (apply B; auto). symmetry. apply Ng. lra.
    + assert (K : (vx < 0)%R) by (apply Ng; auto). assert (false = true) by (apply B; lra). discriminate.
  - intros Ep. apply P in Ep. destruct q; [|auto]. assert (vx < 0)%R by (apply Ng; auto). lra.
  - intros -> ->. rewrite Ex. f_equal. destruct (Rtotal_order vx 0) as [K|[K|K]]; [|auto|].
    + apply Ng in K. discriminate.
    + apply P in K. discriminate.
Qed.

Lemma mul_out t (a b : res Z) : (exists x, a = Ok x) \/ a = Panic POverflow -> (exists x, b = Ok x) \/ b = Panic POverflow ->
  (exists x, lift2 (mulT t) a b = Ok x) \/ lift2 (mulT t) a b = Panic POverflow.
Proof.
  intros [[x ->]| ->] [[y ->]| ->]; cbn [lift2 bind]; auto. unfold mulT, chk. destruct (fits t (x * y)); eauto.
Qed.

Lemma sco_eqb_sym a b : sco_eqb a b = sco_eqb b a.
Proof. unfold sco_eqb. rewrite (Z.eqb_sym (c0 a)), (Z.eqb_sym (c1 a)), (Z.eqb_sym (c2 a)). reflexivity. Qed.

Lemma L_C68_reflexive : forall t x, surd_eq t x x = Ok true.
Proof. intros t x. unfold surd_eq. rewrite Z.eqb_refl. f_equal. apply sco_eqb_eq. reflexivity. Qed.

Lemma L_C68_symmetric : forall t x y, surd_eq t x y = surd_eq t y x.
Proof.
  intros t x y. unfold surd_eq. rewrite (Z.eqb_sym (discr y) (discr x)). destruct (discr x =? discr y); [f_equal; apply sco_eqb_sym|].
  rewrite orb_comm. destruct (_ || _); [reflexivity|]. destruct (coeffs x) as [a b c], (coeffs y) as [a' b' c'].
  destruct (mul_out t (Ok a) (Ok c')) as [[u ->]| ->]; eauto; destruct (mul_out t (Ok a') (Ok c)) as [[v ->]| ->]; eauto; cbn [bind]; try reflexivity.
  rewrite (Z.eqb_sym v u). destruct (negb (u =? v)); [reflexivity|].
  match goal with |- bind ?m _ = bind ?n _ =>
    assert (Hm : (exists p, m = Ok p) \/ m = Panic POverflow) by (repeat apply mul_out; eauto);
    assert (Hn : (exists q, n = Ok q) \/ n = Panic POverflow) by (repeat apply mul_out; eauto);
    destruct Hm as [[p ->]| ->]; destruct Hn as [[q ->]| ->] end; cbn [bind]; try reflexivity.
  f_equal. apply Z.eqb_sym.
Qed.

Lemma L_C68_transitive_partial : forall g t x y z b, normal g x -> normal g y -> normal g z ->
  surd_eq t x y = Ok true -> surd_eq t y z = Ok true -> surd_eq t x z = Ok b ->
  (discr x = discr y /\ discr y = discr z) \/ (0 < c1 (coeffs x) /\ 0 < c1 (coeffs y) /\ 0 < c1 (coeffs z)) ->
  b = true.
Proof.
  intros g t x y z b Nx Ny Nz H1 H2 H3 D. apply (L_C08_eq_partial g) in H1, H2, H3; auto.
  assert (E1 : sval x = sval y) by (destruct (proj1 H1 eq_refl) as [E|[D' E]]; [auto|]; exfalso; destruct D as [D|(D1 & D2 & D3)]; [tauto|]; exact (conj_sign g x y Nx Ny E D1 D2)).
  assert (E2 : sval y = sval z) by (destruct (proj1 H2 eq_refl) as [E|[D' E]]; [auto|]; exfalso; destruct D as [D|(D1 & D2 & D3)]; [tauto|]; exact (conj_sign g y z Ny Nz E D2 D3)).
  apply H3. left. congruence.
Qed.

Lemma L_C68_refuted : exists x y z, normal (Cfg false true) x /\ normal (Cfg false true) y /\ normal (Cfg false true) z /\
  surd_eq BigI x y = Ok true /\ surd_eq BigI y z = Ok true /\ surd_eq BigI x z = Ok false.
Proof.
  exists (new_raw 0 2 1 2), (new_raw 0 1 1 8), (new_raw 0 (-2) 1 2).
  split; [apply normalb_ok; vm_compute; reflexivity|]. split; [apply normalb_ok; vm_compute; reflexivity|]. split; [apply normalb_ok; vm_compute; reflexivity|].
  repeat split; vm_compute; reflexivity.
Qed.

Lemma L_C68_cf : forall x y, cf_eqb x y = true <-> x = y.
Proof. exact cf_eqb_eq. Qed.

Lemma L_C68_qint : forall t x y b b', qint_eq t x x = Ok true /\ (qint_eq t x y = Ok b -> qint_eq t y x = Ok b' -> b = b').
Proof.
  intros t x y b b'. split.
  - unfold qint_eq. rewrite Z.eqb_refl. unfold qco_eqb. rewrite !Z.eqb_refl. reflexivity.
  - unfold qint_eq. rewrite (Z.eqb_sym (qdiscr y) (qdiscr x)). destruct (qdiscr x =? qdiscr y).
    { intros H H'. inversion H; inversion H'; subst. unfold qco_eqb. rewrite (Z.eqb_sym (q0 (qcoeffs y))), (Z.eqb_sym (q1 (qcoeffs y))). reflexivity. }
    rewrite (orb_comm (qdiscr y =? 0)). destruct (_ || _); [congruence|].
    destruct (qint_parts_doubled t x) as [[la lb]| |]; try discriminate. destruct (qint_parts_doubled t y) as [[ra rb]| |]; try discriminate. cbn [bind].
    rewrite (Z.eqb_sym ra la). destruct (la =? ra); [|congruence].
    match goal with |- bind ?m _ = _ -> bind ?n _ = _ -> _ => destruct m as [u| |]; try discriminate; destruct n as [v| |]; try discriminate end. cbn [bind].
    intros H H'. inversion H; inversion H'; subst. apply Z.eqb_sym.
Qed.

Lemma L_C68_qint_refuted : exists x y z, wfq (Cfg false true) x /\ wfq (Cfg false true) y /\ wfq (Cfg false true) z /\
  qint_eq BigI x y = Ok true /\ qint_eq BigI y z = Ok true /\ qint_eq BigI x z = Ok false.
Proof.
  exists (QInt (QCo 0 3) 2), (QInt (QCo 0 1) 18), (QInt (QCo 0 (-3)) 2).
  split; [apply wfqb_ok; vm_compute; reflexivity|]. split; [apply wfqb_ok; vm_compute; reflexivity|]. split; [apply wfqb_ok; vm_compute; reflexivity|].
  repeat split; vm_compute; reflexivity.
Qed.

