(** * ClaimsApi: proofs of the property theorems in PropsApi.v. *)

From Coq Require Import ZArith Reals Lia Lra Bool List Arith.
From Coquelicot Require Import Coquelicot.
From Verif Require Import Base Ext ModelBlock ModelSurd ModelInt ModelCF ModelGen ModelConv Spec SpecInt SpecCF SpecGen Transfer NumFacts RatioFacts SurdCore SurdArith SurdOrd SurdRound SurdDecide CFCore CFBasic
  CFSeq CFOfSurd CFArith CFShort GenBlock GenSound GenConv GenTail GenLive GenMisc GenCont GenBihomo GenStored GenApprox ClaimsSurd ClaimsInt ClaimsCF ClaimsGen.
Import ListNotations.
Open Scope Z_scope.

Lemma root2_99_70 : (/ (IZR 169 * IZR 169) < Rabs (sqrt 2 - rval (Ratio 99 70)))%R.
Proof.
  unfold rval. cbn [numer denom]. assert (Q : (sqrt 2 * sqrt 2 = 2)%R) by (apply sqrt_sqrt; lra). pose proof sqrt2_bounds as B. set (q := sqrt 2) in *. clearbody q.
  assert (K : (0 < 99 / 70 - q)%R) by nra. rewrite Rabs_left by lra.
  assert (M : ((99 / 70 - q) * (99 / 70 + q) = 1 / 4900)%R) by (ring_simplify; replace (q ^ 2)%R with 2%R by (rewrite <- Q; ring); lra).
  nra.
Qed.

Lemma L_C57_choice : forall t I (inext : I -> res (option (Z * Z) * I)) fuel it limit v, gcf_approximated t inext fuel it limit = Ok v ->
  exists m r, nth_item (gconv_next t inext) m (gcf_convergents it) = Ok (Some r) /\
    (forall j q, (1 <= j <= m)%nat -> nth_item (gconv_next t inext) j (gcf_convergents it) = Ok (Some q) -> denom q < limit) /\
    ((v = Exact r /\ nth_item (gconv_next t inext) (S m) (gcf_convergents it) = Ok None) \/
     (v = Approximated r /\ m = O /\ limit < denom r) \/
     (v = Approximated r /\ exists q, nth_item (gconv_next t inext) (S m) (gcf_convergents it) = Ok (Some q) /\ limit <= denom q)).
Proof. intros. eapply approx_choice; eauto. Qed.

Lemma L_C57_error_partial : forall t I (inext : I -> res (option (Z * Z) * I)) fuel it f x limit r, yields inext it f -> gpositive f -> gconverges f x -> 1 <= limit ->
  gcf_approximated t inext fuel it limit = Ok (Approximated r) ->
  exists m, lowest r /\ denom r <= limit /\ rval r = gval (prefix f (S m)) /\ (0 < Rabs (x - rval r) < Rabs (gval (prefix f (S (S m))) - rval r))%R.
Proof.
  intros t I inext fuel it f x limit r Y P C L H. destruct (approx_choice _ _ _ _ _ _ H) as (m & q & E & B & D). exists m.
  assert (q = r) by (destruct D as [[D _]|[[D _]|[D _]]]; congruence). subst q.
  destruct (gconv_value t inext it f m r) as (Lr & V); [apply yields_known; auto|exact (proj1 P)|apply latepos_regular; exact (proj2 P)|exact E|].
  repeat split; try apply Lr; auto; [|rewrite V; apply limit_error; auto|rewrite V; apply limit_error; auto].
  destruct m as [|m]; [|specialize (B (S m) r ltac:(lia) E); lia].
  assert (D1 : denom r = 1).
  { destruct Lr as [Lp Lg]. unfold prefix in V. cbn [seq map gval] in V. destruct (f O) as [a b]. unfold rval in V. pose proof (IZR_lt _ _ Lp).
    assert (V' : IZR (numer r) = IZR (b * denom r)) by (rewrite mult_IZR, <- V; field; lra). apply eq_IZR in V'.
    apply Z.divide_1_r_nonneg; [lia|]. rewrite <- Lg. apply Z.gcd_greatest; [exists b; exact V'|apply Z.divide_refl]. }
  lia.
Qed.

Lemma L_C57_returns : forall I (inext : I -> res (option (Z * Z) * I)) it f x limit, yields inext it f -> fst (f O) = 1 -> (forall n, gregular (prefix f n)) ->
  (forall n, (1 <= n)%nat -> fst (f n) <> 0) -> gconverges f x -> 1 <= limit ->
  exists n0, forall fuel, (n0 <= fuel)%nat -> exists r, gcf_approximated BigI inext fuel it limit = Ok (Approximated r).
Proof. intros. eapply approx_returns; eauto. Qed.

Lemma L_C57_exact : forall I (inext : I -> res (option (Z * Z) * I)) it l limit, yields_list inext it l -> gpositive_list l ->
  exists v, (forall fuel, (length l <= fuel)%nat -> gcf_approximated BigI inext fuel it limit = Ok v) /\ (forall r, v = Exact r -> lowest r /\ rval r = gval l).
Proof. intros. eapply approx_finite; eauto. Qed.

Lemma L_C57_refuted : exists r, yields (from_fn (fun n => (1, root2 n))) O (fun n => (1, root2 n)) /\ gpositive (fun n => (1, root2 n)) /\
  gconverges (fun n => (1, root2 n)) (sqrt 2) /\ gcf_approximated BigI (from_fn (fun n => (1, root2 n))) 20 O 169 = Ok (Approximated r) /\
  (/ (IZR 169 * IZR 169) < Rabs (sqrt 2 - rval r))%R.
Proof.
  exists (Ratio 99 70). destruct simplify_case as (A & B & C & _). repeat (split; [assumption || (vm_compute; reflexivity)|]). apply root2_99_70.
Qed.

Lemma L_C57_fixed_width_refuted : exists r, gcf_approximated (SInt 8) (from_fn (fun n => (1, root2 n))) 20 O 100 = Ok (Exact r).
Proof. eexists. vm_compute. reflexivity. Qed.

Lemma L_C57_hang_refuted : forall fuel, gcf_approximated BigI (from_fn (fun n => match n with O => (1, 1) | _ => (0, 1) end)) fuel O 2 = Hang.
Proof.
  intros fuel. unfold gcf_approximated. assert (K : forall fuel m p q, (1 <= m)%nat -> gapprox_loop BigI (from_fn (fun n => match n with O => (1, 1) | _ => (0, 1) end)) fuel 2 (Ratio 1 1) (Block 1 p 1 q, m) = Hang).
  { intros f. induction f as [|f IH]; intros m p q Hm; [reflexivity|]. cbn [gapprox_loop]. unfold gconv_next, from_fn. destruct m as [|m]; [lia|]. cbn [bind].
    unfold block_checked_gmove. cbn. apply IH. lia. }
  destruct fuel as [|fuel]; [reflexivity|]. vm_compute gconv_next. cbn [bind unwrap]. apply K. lia.
Qed.

Lemma list_eqb_eq l : forall m, list_eqb l m = true <-> l = m.
Proof.
  induction l as [|x l IH]; intros [|y m]; cbn [list_eqb]; split; intros H; try reflexivity; try discriminate.
  - apply andb_prop in H. destruct H as [H1 H2]. apply Z.eqb_eq in H1. apply IH in H2. congruence.
  - inversion H; subst. rewrite Z.eqb_refl. apply IH. reflexivity.
Qed.

Lemma cf_eqb_eq x y : cf_eqb x y = true <-> x = y.
Proof.
  destruct x as [a p n], y as [a' p' n']. unfold cf_eqb. cbn [a_coeffs p_coeffs negative]. split; intros H.
  - apply andb_prop in H. destruct H as [H H3]. apply andb_prop in H. destruct H as [H1 H2].
    apply list_eqb_eq in H1, H2. apply Bool.eqb_prop in H3. congruence.
  - inversion H; subst. rewrite (proj2 (list_eqb_eq a' a') eq_refl), (proj2 (list_eqb_eq p' p') eq_refl), Bool.eqb_reflx. reflexivity.
Qed.

Lemma fin_rational x : wfcf x -> finite x -> rational_real (cf_val x).
Proof.
  intros W F. unfold finite in F. unfold cf_val. rewrite F.
  assert (R : forall l, List.Forall (fun v => 1 <= v) l -> l <> nil -> exists n d, 0 < n /\ 0 < d /\ cfl l = (IZR n / IZR d)%R).
  { induction l as [|v l IH]; intros P Ne; [congruence|]. inversion P as [|? ? Hv Pl]; subst. destruct l as [|w l].
    - exists v, 1. repeat split; try lia. cbn [cfl]. field.
    - destruct (IH Pl ltac:(discriminate)) as (n & d & Hn & Hd & E). exists (v * n + d), n. repeat split; try nia.
      change (cfl (v :: w :: l)) with (IZR v + / cfl (w :: l))%R. rewrite E, plus_IZR, mult_IZR. pose proof (IZR_lt _ _ Hn). pose proof (IZR_lt _ _ Hd). field. lra. }
  unfold wfcf in W. destruct (a_coeffs x) as [|a0 rest]; [destruct W|]. destruct W as (W0 & W1 & _). destruct rest as [|w rest].
  - exists (sgnb (negative x) * a0), 1. split; [lia|]. cbn [cfl]. rewrite mult_IZR. field.
  - destruct (R (w :: rest) W1 ltac:(discriminate)) as (n & d & Hn & Hd & E). exists (sgnb (negative x) * (a0 * n + d)), n. split; [lia|].
    change (cfl (a0 :: w :: rest)) with (IZR a0 + / cfl (w :: rest))%R. rewrite E, mult_IZR, plus_IZR, mult_IZR. pose proof (IZR_lt _ _ Hn). pose proof (IZR_lt _ _ Hd). field. lra.
Qed.

Lemma inf_not_rational x : wfcf x -> ~ finite x -> ~ rational_real (cf_val x).
Proof. intros W F (n & d & Hd & E). exact (stored_irrational x W F n d Hd E). Qed.

Lemma fin_inf_differ x y : wfcf x -> wfcf y -> finite x -> ~ finite y -> cf_val x <> cf_val y.
Proof. intros Wx Wy Fx Fy V. apply (inf_not_rational y Wy Fy). rewrite <- V. apply fin_rational; auto. Qed.

Lemma coeff_cseq x n : ~ finite x -> coeff_at x n = Some (cseq x n).
Proof. intros F. apply has_some. intros G. contradiction. Qed.

Lemma twos_val l p : List.Forall (fun v => v = 2) l -> List.Forall (fun v => v = 2) p -> p <> nil -> cf_val (CF (1 :: l) p false) = sqrt 2.
Proof.
  intros Hl Hp Np. rewrite <- val_r2. assert (F : ~ finite (CF (1 :: l) p false)) by exact Np. assert (F2 : ~ finite (CF [1] [2] false)) by discriminate.
  rewrite (cf_val_inf _ F), (cf_val_inf _ F2). cbn [negative]. f_equal. apply lim_ext.
  assert (T : forall l p n, List.Forall (fun v => v = 2) l -> List.Forall (fun v => v = 2) p -> p <> nil -> coeff_at (CF (1 :: l) p false) (S n) = Some 2).
  { clear. intros l p n Hl Hp Np. destruct (coeff_at_inf (CF (1 :: l) p false) (S n) Np) as [v E]. rewrite E. f_equal.
    unfold coeff_at in E. cbn [a_coeffs p_coeffs app nth_error] in E. apply nth_error_In in E.
    assert (A : List.Forall (fun v => v = 2) (l ++ concat (repeat p (S (S n))))).
    { apply List.Forall_app. split; [auto|]. generalize (S (S n)). clear - Hp. induction n as [|m IH]; [constructor|]. cbn [repeat concat]. apply List.Forall_app. split; [exact Hp|exact IH]. }
    rewrite Forall_forall in A. apply A. exact E. }
  intros [|n]; [reflexivity|]. unfold cseq. rewrite (T l p n), (T nil [2] n); auto; discriminate.
Qed.

Lemma L_C58_sound : forall x y, cf_eqb x y = true -> cf_val x = cf_val y.
Proof. intros x y H. apply cf_eqb_eq in H. congruence. Qed.

Lemma L_C58_rational : forall x y, canonical x -> canonical y -> finite x -> (cf_eqb x y = true <-> cf_val x = cf_val y).
Proof.
  intros x y Cx Cy Fx. split; [apply L_C58_sound|]. intros V. apply cf_eqb_eq.
  destruct (p_coeffs y) eqn:Py; [apply L_C30_unique; auto|]. exfalso.
  apply (fin_inf_differ x y (proj1 Cx) (proj1 Cy) Fx); [unfold finite; rewrite Py; discriminate|exact V].
Qed.

Lemma L_C58_surds_partial : forall g h t u fuel fuel' s r v x y, fits t 1 = true -> fits u 1 = true -> normal g s -> normal h r -> sval s = RtoC v -> sval r = RtoC v ->
  cf_domain v -> surd_to_cf g t fuel s = Ok (Some x) -> surd_to_cf h u fuel' r = Ok (Some y) -> cf_eqb x y = true.
Proof.
  intros g h t u fuel fuel' s r v x y Ft Fu Ns Nr Vs Vr D Hx Hy. apply cf_eqb_eq.
  destruct (surd_to_cf_dom g t fuel s v x Ft Ns Vs D Hx) as ((Wx & _) & Fx & Vx).
  destruct (surd_to_cf_dom h u fuel' r v y Fu Nr Vr D Hy) as ((Wy & _) & Fy & Vy).
  destruct (surd_to_cf_short g t fuel s v x Ft Ns Vs D Hx y Wy Fy Vy) as [L1 L2].
  destruct (surd_to_cf_short h u fuel' r v y Fu Nr Vr D Hy x Wx Fx Vx) as [M1 M2].
  apply same_lengths; auto; [congruence|lia|lia].
Qed.

Lemma L_C58_shortest : forall g t fuel s v x y, fits t 1 = true -> normal g s -> sval s = RtoC v -> cf_domain v -> surd_to_cf g t fuel s = Ok (Some x) ->
  wfcf y -> ~ finite y -> cf_val y = v -> (length (a_coeffs x) <= length (a_coeffs y))%nat /\ (length (p_coeffs x) <= length (p_coeffs y))%nat.
Proof. intros g t fuel s v x y F N V D H. intros. eapply surd_to_cf_short; eauto. Qed.

Lemma L_C58_periodic : forall x y, wfcf x -> wfcf y -> ~ finite x -> ~ finite y ->
  (cf_val x = cf_val y <-> negative x = negative y /\ forall n, coeff_at x n = coeff_at y n) /\
  (length (a_coeffs x) = length (a_coeffs y) -> length (p_coeffs x) = length (p_coeffs y) -> (cf_eqb x y = true <-> cf_val x = cf_val y)).
Proof.
  intros x y Wx Wy Fx Fy. split.
  - split.
    + intros V. destruct (val_same x y Wx Wy Fx Fy V) as [Ng Sq]. split; auto. intros n. rewrite !coeff_cseq by auto. f_equal. apply Sq.
    + intros [Ng Sq]. rewrite (cf_val_inf x Fx), (cf_val_inf y Fy), Ng. f_equal. apply lim_ext. intros n. specialize (Sq n).
      rewrite !coeff_cseq in Sq by auto. congruence.
  - intros La Lp. split; [apply L_C58_sound|]. intros V. apply cf_eqb_eq. apply same_lengths; auto.
Qed.

Lemma L_C58_refuted : exists x y z, cf_new (Cfg false true) BigI [1] [2] false = Ok x /\ cf_new (Cfg false true) BigI [1; 2] [2] false = Ok y /\
  cf_new (Cfg false true) BigI [1] [2; 2] false = Ok z /\ canonical x /\ canonical y /\ canonical z /\
  cf_val x = sqrt 2 /\ cf_val y = sqrt 2 /\ cf_val z = sqrt 2 /\ cf_eqb x y = false /\ cf_eqb x z = false /\ cf_eqb y z = false.
Proof.
  exists (CF [1] [2] false), (CF [1; 2] [2] false), (CF [1] [2; 2] false).
  split; [reflexivity|]. split; [reflexivity|]. split; [reflexivity|].
  assert (K : forall l p, List.Forall (fun v => v = 2) l -> List.Forall (fun v => v = 2) p -> p <> nil -> canonical (CF (1 :: l) p false)).
  { intros l p Hl Hp Np. unfold canonical, wfcf. cbn [a_coeffs p_coeffs negative].
    assert (T : forall m, List.Forall (fun v => v = 2) m -> List.Forall (fun v => 1 <= v) m) by (intros m Hm; eapply List.Forall_impl; [|exact Hm]; cbn; intros; lia).
    repeat split; auto; try lia; try (intros; congruence). }
  repeat (split; [first [apply K; repeat constructor; discriminate|apply twos_val; repeat constructor; discriminate|reflexivity]|]). reflexivity.
Qed.

Lemma fin_value a b : cf_val (CF [a] nil b) = IZR (sgnb b * a).
Proof. unfold cf_val. cbn [p_coeffs a_coeffs negative cfl]. rewrite mult_IZR. reflexivity. Qed.

Lemma canon_int n : exists x, canonical x /\ finite x /\ cf_val x = IZR n /\ x = CF [Z.abs n] nil (n <? 0).
Proof.
  exists (CF [Z.abs n] nil (n <? 0)). split; [|split; [reflexivity|split; [|reflexivity]]].
  - unfold canonical, wfcf. cbn [a_coeffs p_coeffs negative]. repeat split; try lia; try constructor.
    + intros _ L. cbn in L. lia.
    + intros H _. inversion H. apply Z.ltb_ge. lia.
  - rewrite fin_value. f_equal. destruct (Z.ltb_spec n 0); cbn [sgnb]; lia.
Qed.

Lemma canon_of_int x n : canonical x -> cf_val x = IZR n -> x = CF [Z.abs n] nil (n <? 0).
Proof.
  intros Cx V. destruct (canon_int n) as (y & Cy & Fy & Vy & Ey). subst y.
  destruct (p_coeffs x) eqn:Px; [apply L_C30_unique; auto; congruence|]. exfalso.
  apply (fin_inf_differ _ x (proj1 Cy) (proj1 Cx) Fy); [unfold finite; rewrite Px; discriminate|congruence].
Qed.

Lemma L_C59_constants : canonical cf_zero /\ cf_val cf_zero = 0%R /\ canonical cf_one /\ cf_val cf_one = 1%R.
Proof.
  destruct (canon_int 0) as (x & C0 & _ & V0 & ->). destruct (canon_int 1) as (y & C1 & _ & V1 & ->). exact (conj C0 (conj V0 (conj C1 V1))).
Qed.

Lemma L_C59_is_zero : forall x, canonical x -> (cf_is_zero x = true <-> cf_val x = 0%R).
Proof.
  intros x Cx. split.
  - destruct x as [[|[| |] [|]] [|] b]; cbn; try discriminate. intros _. rewrite fin_value. f_equal. lia.
  - intros V. rewrite (canon_of_int x 0 Cx V). reflexivity.
Qed.

Lemma L_C59_is_one_partial : forall x, canonical x -> (cf_is_one x = true <-> cf_val x = 1%R \/ cf_val x = (-1)%R).
Proof.
  intros x Cx. split.
  - destruct x as [[|[|[| |]|] [|]] [|] b]; cbn; try discriminate. intros _. rewrite fin_value. destruct b; [right|left]; reflexivity.
  - intros [V|V]; [rewrite (canon_of_int x 1 Cx V)|rewrite (canon_of_int x (-1) Cx V)]; reflexivity.
Qed.

Lemma L_C59_is_rational : forall x, wfcf x -> (cf_is_rational x = true <-> rational_real (cf_val x)).
Proof.
  intros x W. unfold cf_is_rational. rewrite Nat.eqb_eq. split.
  - intros H. apply fin_rational; auto. unfold finite. destruct (p_coeffs x); [auto|discriminate].
  - intros R. destruct (p_coeffs x) eqn:P; [reflexivity|]. exfalso. apply (inf_not_rational x W); auto. unfold finite. rewrite P. discriminate.
Qed.

Lemma L_C59_is_integer : forall x, canonical x -> (cf_is_integer x = true <-> exists n : Z, cf_val x = IZR n).
Proof.
  intros x Cx. unfold cf_is_integer. split.
  - intros H. apply andb_prop in H. destruct H as [H1 H2]. apply Nat.eqb_eq in H1, H2. destruct x as [[|a [|]] [|] b]; try discriminate.
    rewrite fin_value. eauto.
  - intros [n V]. rewrite (canon_of_int x n Cx V). reflexivity.
Qed.

Lemma L_C59_is_one_refuted : cf_of_int BigI (-1) = Ok (CF [1] nil true) /\ cf_neg cf_one = CF [1] nil true /\ cf_val (CF [1] nil true) = (-1)%R /\
  cf_is_one (CF [1] nil true) = true.
Proof. repeat split. rewrite fin_value. reflexivity. Qed.

Lemma L_C59_collect_partial : forall g t l y, fits t 1 = true -> List.Forall (fun v => fits t v = true) l -> plain_coeffs l nil \/ steep_coeffs l false ->
  cf_from_iter g t l = Ok y -> canonical y /\ cf_val y = cf_val (CF l nil false).
Proof.
  intros g t l y F1 Fl D H. unfold cf_from_iter in H. destruct D as [D|D].
  - destruct (L_C31_new_partial g t l nil false y F1) as (K1 & _ & K2); [rewrite app_nil_r; auto|auto|auto|auto].
  - destruct (L_C31_signed_partial g t l false y F1 Fl D H) as (K1 & _ & K2). auto.
Qed.

Lemma trunc_gauss g t s v : normal g s -> discr s < 0 -> surd_trunc g t s = Ok v ->
  istrunc (fst (sval s)) (c0 (coeffs v)) /\ istrunc (snd (sval s)) (c1 (coeffs v)).
Proof.
  intros N D H. apply rle_surd_trunc in H. destruct (surd_trunc_complex g s N D) as (s' & m & n & E & V & Nv & T1 & T2).
  assert (s' = v) by congruence. subst s'.
  assert (K : c0 (coeffs v) = m /\ c1 (coeffs v) = n); [|destruct K as [-> ->]; auto].
  assert (R : reduced_from (-1) v).
  { clear V Nv T1 T2 E. unfold surd_trunc in H. destruct s as [[a b c] r]. unfold normal, parts in N. cbn [coeffs c0 c1 c2 discr] in *.
    destruct N as (Hc & _). destruct (Z.ltb_spec r 0); [|lia]. revert H. bigi. rewrite sqrtB by nia. bigi. do 2 (rewrite quotB by lia; bigi).
    intros H. apply surd_from_coeffs_ok in H. exact (proj2 (proj2 (proj2 (proj2 H)))). }
  destruct v as [[a b c] r]. rewrite sval_fval in V. unfold normal, reduced_from, parts in *. cbn [coeffs c0 c1 c2 discr] in *.
  destruct Nv as (Hc & G & _). destruct R as (_ & _ & R).
  assert (Rr : (b = 0 /\ r = 0) \/ r = -1) by (destruct R as [R|(_ & _ & k & Hk & R)]; [auto|right; nia]).
  pose proof (IZR_lt _ _ Hc) as Hc'.
  assert (E2 : a = m * c /\ b = n * c).
  { unfold fval in V. destruct Rr as [[-> ->]| ->].
    - unfold csqrt, ZtoC, RtoC, Cdiv, Cinv, Cmult, Cplus in V; cbn in V. inversion V as [[V1 V2]]. split; apply eq_IZR; rewrite mult_IZR, <- ?V1, <- ?V2; field; lra.
    - rewrite csqrt_neg in V by lia. change (- -1) with 1 in V. rewrite sqrt_1 in V.
      unfold ZtoC, RtoC, Cdiv, Cinv, Cmult, Cplus in V; cbn [fst snd] in V. inversion V as [[V1 V2]]. split; apply eq_IZR; rewrite mult_IZR, <- ?V1, <- ?V2; field; lra. }
  destruct E2 as [-> ->]. assert (c = 1).
  { rewrite Z.gcd_mul_mono_r_nonneg in G by lia. apply Z.divide_1_r_nonneg; [lia|]. rewrite <- G. apply Z.gcd_greatest; [apply Z.divide_factor_r|apply Z.divide_refl]. }
  subst c. lia.
Qed.

Lemma L_C60_quadint_exact : forall g t s q, normal g s -> surd_to_quadint g t s = Ok (Exact q) -> qval q = sval s.
Proof.
  intros g t s q N H. destruct s as [[a b c] r]. unfold surd_to_quadint in H. unfold is_quadint in H. cbn [coeffs c2] in H.
  destruct (Z.eqb_spec c 1) as [->|]; [|unfold bind, lift2 in H; repeat (match type of H with context [match ?x with _ => _ end] => destruct x end; try discriminate)].
  apply bind_Ok in H. destruct H as (q' & Hq & E). inversion E; subst q'. unfold normal, parts in N. cbn [coeffs c0 c1 c2 discr] in N. destruct N as (_ & _ & [[-> ->]|[Hb Sq]] & _).
  - exfalso. apply rle_qint_new in Hq. destruct (L_C20_returns g a 0 0) as [K _]. destruct (proj1 K) as [B|B]; [eexists; eauto|lia|lia].
  - rewrite (L_C20_new_partial g t a b r q Sq Hq), sval_fval. cbn [coeffs c0 c1 c2 discr]. unfold fval. unfold ZtoC. field. intros X. apply RtoC_inj in X. lra.
Qed.

Lemma L_C60_quadint_approx : forall g t s q, normal g s -> surd_to_quadint g t s = Ok (Approximated q) ->
  exists a b c m n, 0 < c /\ sval s = ((ZtoC a + ZtoC b * csqrt (discr s)) / ZtoC c)%C /\ qval q = (ZtoC m + ZtoC n * csqrt (discr s))%C /\
    istrunc (IZR a / IZR c) m /\ istrunc (IZR b / IZR c) n.
Proof.
  intros g t s q N H. apply rle_surd_to_quadint in H. destruct s as [[a b c] r]. unfold surd_to_quadint in H. unfold is_quadint in H. cbn [coeffs c2] in H.
  destruct (Z.eqb_spec c 1) as [->|C1]; [apply bind_Ok in H; destruct H as (? & _ & H); discriminate|].
  exists a, b, c, (Z.quot a c), (Z.quot b c). pose proof N as N0. unfold normal, parts in N. cbn [coeffs c0 c1 c2 discr] in *. destruct N as (Hc & _ & Sq & _).
  revert H. bigi. do 2 (rewrite quotB by lia; bigi). intros H. apply bind_Ok in H. destruct H as (q' & Hq & E). inversion E; subst q'.
  split; [exact Hc|]. split; [rewrite sval_fval; reflexivity|]. split.
  - destruct Sq as [[-> ->]|[Hb Sq]]; [|exact (L_C20_new_partial g BigI _ _ r q Sq Hq)].
    exfalso. destruct (L_C20_returns g (Z.quot a c) (Z.quot 0 c) 0) as [K _]. destruct (proj1 K) as [B|B]; [eexists; eauto|lia|lia].
  - split; apply trunc_div; auto; apply istrunc_IZR.
Qed.

Lemma L_C60_quadint_returns : forall g s, normal g s -> (returns (surd_to_quadint g BigI s) <-> 0 < discr s \/ (discr s < 0 /\ discr s mod 4 <> 0)).
Proof.
  intros g s N. destruct s as [[a b c] r]. unfold surd_to_quadint, is_quadint. cbn [coeffs c2 discr]. unfold normal, parts in N. cbn [coeffs c0 c1 c2 discr] in *.
  destruct N as (Hc & _ & _ & Hg).
  assert (K : forall x y, returns (qint_new g BigI x y r) <-> 0 < r \/ (r < 0 /\ r mod 4 <> 0)).
  { intros x y. destruct (L_C20_returns g x y r) as [K _]. rewrite K. split; [intros [?|(? & ? & ?)]; auto|]. intros [?|(? & ?)]; auto. right. repeat split; auto.
    destruct (cplx g); auto. specialize (Hg eq_refl). lia. }
  assert (J : forall x y (f : qint -> approx qint), returns (let! q := qint_new g BigI x y r in Ok (f q)) <-> returns (qint_new g BigI x y r)).
  { intros x y f. split; intros [v Hv]; [apply bind_Ok in Hv; destruct Hv as (q & Hq & _); eexists; eauto|rewrite Hv; eexists; reflexivity]. }
  destruct (Z.eqb_spec c 1) as [->|C1]; [rewrite J; apply K|]. bigi. do 2 (rewrite quotB by lia; bigi). rewrite J. apply K.
Qed.

Lemma L_C60_quadint_when : forall g t s v, normal g s -> surd_to_quadint g t s = Ok v ->
  ((exists q, v = Exact q) <-> exists m n : Z, sval s = (ZtoC m + ZtoC n * csqrt (discr s))%C).
Proof.
  intros g t s v N H. split.
  - intros [q ->]. destruct s as [[a b c] r]. pose proof N as N0. unfold normal, parts in N. unfold surd_to_quadint, is_quadint in H. cbn [coeffs c0 c1 c2 discr] in *.
    destruct (Z.eqb_spec c 1) as [->|].
    + exists a, b. rewrite sval_fval. cbn [coeffs c0 c1 c2 discr]. unfold fval, ZtoC. field. intros X. apply RtoC_inj in X. lra.
    + exfalso. apply bind_Ok in H. destruct H as (? & _ & H). apply bind_Ok in H. destruct H as (? & _ & H). apply bind_Ok in H. destruct H as (? & _ & H). discriminate.
  - intros (m & n & V). destruct v as [q|q]; [|exists q; reflexivity]. exfalso. pose proof (rle_surd_to_quadint g t s _ H) as H'.
    destruct s as [[a b c] r]. pose proof N as N0. unfold normal, parts in N. cbn [coeffs c0 c1 c2 discr] in *. destruct N as (Hc & G & Sq & _).
    assert (D : r <> 0) by (destruct (L_C60_quadint_returns g _ N0) as [K _]; cbn [discr] in K; specialize (K (ex_intro _ _ H')); lia).
    destruct Sq as [[_ ?]|[Hb Sq]]; [lia|]. rewrite sval_fval in V. cbn [coeffs c0 c1 c2 discr] in V.
    destruct (fval_cross a b c m n 1 r) as [E1 E2]; [lia|lia|exact Sq| |].
    { rewrite V. unfold fval, ZtoC. field. intros X. apply RtoC_inj in X. lra. }
    assert (c = 1). { apply Z.divide_1_r_nonneg; [lia|]. rewrite <- G. repeat apply Z.gcd_greatest; [exists m; lia|exists n; lia|apply Z.divide_refl]. }
    subst c. unfold surd_to_quadint, is_quadint in H. cbn [coeffs c2] in H. rewrite Z.eqb_refl in H. apply bind_Ok in H. destruct H as (? & _ & H). discriminate.
Qed.

Lemma L_C60_quadint_refuted : (surd_to_quadint (Cfg false true) BigI (surd_of_int 3) = Panic PUnreachable) /\
  exists s q, normal (Cfg false true) s /\ alg_integer (sval s) /\ surd_to_quadint (Cfg false true) BigI s = Ok (Approximated q) /\ qval q = RtoC 0.
Proof.
  split; [reflexivity|]. exists (new_raw 1 1 2 5), (QInt (QCo 0 0) 0). split; [apply normalb_ok; vm_compute; reflexivity|]. split; [|split; [reflexivity|]].
  - exists (-1), (-1). rewrite sval_raw. unfold fval. pose proof (csqrt_sq 5) as Q.
    set (w := csqrt 5) in *. clearbody w.
    replace (ZtoC 5) with (RtoC 1 + RtoC 1 + RtoC 1 + RtoC 1 + RtoC 1)%C in Q by (unfold ZtoC; rewrite <- !RtoC_plus; f_equal; lra).
    replace (ZtoC 2) with (RtoC 1 + RtoC 1)%C by (unfold ZtoC; rewrite <- !RtoC_plus; f_equal; lra).
    replace (ZtoC (-1)) with (- RtoC 1)%C by (unfold ZtoC; rewrite <- !RtoC_opp; f_equal; lra).
    rewrite ZtoC_1. set (o := RtoC 1) in *.
    replace ((o + o * w) / (o + o) * ((o + o * w) / (o + o)) + - o * ((o + o * w) / (o + o)) + - o)%C
      with ((o * o * (w * w) + o * o + (o * o + o * o) * w - (o + o) * (o * o + o * o * w) - (o + o) * (o + o) * o) / ((o + o) * (o + o)))%C.
    + rewrite Q. unfold o. apply injective_projections; cbn; field.
    + unfold o. field. split; intros X; apply (f_equal fst) in X; cbn in X; lra.
  - unfold qval. cbn [qcoeffs q0 q1 qdiscr]. unfold ZtoC. change (IZR 0) with 0%R. apply injective_projections; unfold Cplus, Cmult, RtoC; cbn [fst snd]; ring.
Qed.

Lemma L_C60_gaussint_exact_partial : forall g t s m n, normal g s -> surd_to_gaussint g t s = Ok (Exact (m, n)) ->
  (sval s = (IZR m, IZR n) <-> discr s = 0 \/ discr s = -1).
Proof.
  intros g t s m n N H. unfold surd_to_gaussint, is_gaussint in H. destruct (Z.eqb_spec (c2 (coeffs s)) 1) as [C1|]; [|apply bind_Ok in H; destruct H as (? & _ & H); discriminate].
  inversion H. destruct s as [[a b c] r]. rewrite sval_fval. unfold normal, parts in N. cbn [coeffs c0 c1 c2 discr] in *. subst a b c. destruct N as (_ & _ & Sq & _).
  split.
  - intros V. destruct Sq as [[_ ->]|[Hb Sq]]; [auto|right]. unfold fval in V. destruct (Z.lt_ge_cases r 0) as [Hr|Hr].
    + rewrite csqrt_neg in V by lia. unfold ZtoC, RtoC, Cdiv, Cinv, Cmult, Cplus in V. cbn [fst snd] in V. injection V as _ V2.
      assert (Nn : IZR n <> 0%R) by (apply not_0_IZR; auto).
      assert (S1 : sqrt (IZR (- r)) = 1%R) by (apply (Rmult_eq_reg_l (IZR n)); [|exact Nn]; rewrite <- V2 at 2; field).
      assert (Q : (sqrt (IZR (- r)) * sqrt (IZR (- r)) = IZR (- r))%R) by (apply sqrt_sqrt; apply IZR_le; lia).
      rewrite S1, Rmult_1_l in Q. apply (eq_IZR 1) in Q. lia.
    + exfalso. rewrite csqrt_nonneg in V by lia. unfold ZtoC, RtoC, Cdiv, Cinv, Cmult, Cplus in V. cbn [fst snd] in V. injection V as _ V2. apply Hb. apply eq_IZR. rewrite <- V2. field.
  - intros D. assert (K : (n = 0 /\ r = 0) \/ r = -1) by (destruct D as [->|]; [left; destruct Sq as [?|[_ Sq]]; [auto|exfalso; apply Sq; exists 0; reflexivity]|auto]).
    unfold fval. destruct K as [[-> ->]| ->].
    + unfold csqrt, ZtoC, RtoC, Cdiv, Cinv, Cmult, Cplus. cbn. f_equal; field.
    + rewrite csqrt_neg by lia. change (- -1) with 1. rewrite sqrt_1. unfold ZtoC, RtoC, Cdiv, Cinv, Cmult, Cplus. cbn [fst snd]. f_equal; field.
Qed.

Lemma L_C60_gaussint_approx : forall g t s m n, normal g s -> surd_to_gaussint g t s = Ok (Approximated (m, n)) ->
  (discr s < 0 -> istrunc (fst (sval s)) m /\ istrunc (snd (sval s)) n) /\
  (0 <= discr s -> n = 0 /\ snd (sval s) = 0%R /\ (IZR m - 1 < fst (sval s) < IZR m + 1)%R).
Proof.
  intros g t s m n N H. unfold surd_to_gaussint in H. destruct (is_gaussint s); [discriminate|]. apply bind_Ok in H. destruct H as (v & Hv & E). inversion E; subst m n. split.
  - intros D. eapply trunc_gauss; eauto.
  - intros D. apply rle_surd_trunc in Hv. destruct (surd_trunc_real g s N D) as (k & Ek & B & _). rewrite Hv in Ek. inversion Ek; subst v. cbn [surd_of_int coeffs c0 c1 c2].
    rewrite (sval_rs s (normal_okc g s N) D). cbn [fst snd RtoC]. auto.
Qed.

Lemma L_C60_gaussint_refuted : exists s, normal (Cfg true true) s /\ sval s = RtoC (sqrt 2) /\ surd_to_gaussint (Cfg true true) BigI s = Ok (Exact (0, 1)).
Proof.
  exists (new_raw 0 1 1 2). split; [apply normalb_ok; vm_compute; reflexivity|]. split; [|reflexivity].
  rewrite sval_raw. unfold fval. rewrite csqrt_nonneg by lia. unfold ZtoC, RtoC, Cdiv, Cinv, Cmult, Cplus. cbn [fst snd]. f_equal; field.
Qed.

Lemma L_C60_gaussint_returns : forall g s, normal g s -> returns (surd_to_gaussint g BigI s).
Proof.
  intros g s N. unfold surd_to_gaussint. destruct (is_gaussint s); [eexists; reflexivity|]. destruct (L_C11_returns g s N) as [v Hv]. rewrite Hv. eexists. reflexivity.
Qed.
