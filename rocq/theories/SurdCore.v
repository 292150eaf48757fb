(** * SurdCore: reduce() keeps the value and establishes normal form. *)

From Coq Require Import ZArith Znumtheory Reals Lia Lra Bool.
From Coquelicot Require Import Coquelicot.
From Verif Require Import Base Ext ModelSurd Spec Transfer NumFacts.
Open Scope Z_scope.

(** ** Computing over BigInt *)
Lemma addB x y : lift2 (addT BigI) (Ok x) (Ok y) = Ok (x + y). Proof. reflexivity. Qed.
Lemma subB x y : lift2 (subT BigI) (Ok x) (Ok y) = Ok (x - y). Proof. reflexivity. Qed.
Lemma mulB x y : lift2 (mulT BigI) (Ok x) (Ok y) = Ok (x * y). Proof. reflexivity. Qed.
Lemma negB x : lift1 (negT BigI) (Ok x) = Ok (- x). Proof. reflexivity. Qed.
Lemma addB' x y : addT BigI x y = Ok (x + y). Proof. reflexivity. Qed.
Lemma subB' x y : subT BigI x y = Ok (x - y). Proof. reflexivity. Qed.
Lemma mulB' x y : mulT BigI x y = Ok (x * y). Proof. reflexivity. Qed.
Lemma negB' x : negT BigI x = Ok (- x). Proof. reflexivity. Qed.
Lemma absB x : absT BigI x = Ok (Z.abs x). Proof. reflexivity. Qed.
Lemma gcdB x y : gcdT BigI x y = Ok (Z.gcd x y). Proof. reflexivity. Qed.
Lemma bindB {A B} (x : A) (f : A -> res B) : bind (Ok x) f = f x. Proof. reflexivity. Qed.
Lemma quotB x y : y <> 0 -> lift2 (quotT BigI) (Ok x) (Ok y) = Ok (Z.quot x y).
Proof. intros H; unfold lift2, bind, quotT. destruct (Z.eqb_spec y 0); [lia|reflexivity]. Qed.
Lemma quotB' x y : y <> 0 -> quotT BigI x y = Ok (Z.quot x y).
Proof. intros H; unfold quotT. destruct (Z.eqb_spec y 0); [lia|reflexivity]. Qed.
Lemma remB x y : y <> 0 -> lift2 (remT BigI) (Ok x) (Ok y) = Ok (Z.rem x y).
Proof. intros H; unfold lift2, bind, remT. destruct (Z.eqb_spec y 0); [lia|reflexivity]. Qed.
Lemma remB' x y : y <> 0 -> remT BigI x y = Ok (Z.rem x y).
Proof. intros H; unfold remT. destruct (Z.eqb_spec y 0); [lia|reflexivity]. Qed.
Lemma div_remB x y : y <> 0 -> div_remT BigI x y = Ok (Z.quot x y, Z.rem x y).
Proof. intros H; unfold div_remT. rewrite quotB', remB' by auto. reflexivity. Qed.
Lemma div_floorB x y : y <> 0 -> div_floorT BigI x y = Ok (x / y).
Proof. intros H; unfold div_floorT. destruct (Z.eqb_spec y 0); [lia|reflexivity]. Qed.
Lemma sqrtB x : 0 <= x -> sqrtT x = Ok (Z.sqrt x).
Proof. intros H; unfold sqrtT. destruct (Z.ltb_spec x 0); [lia|reflexivity]. Qed.
#[export] Hint Rewrite addB subB mulB negB addB' subB' mulB' negB' absB gcdB @bindB : bigi.

Ltac bigi := autorewrite with bigi.

(** Split on the innermost boolean test *)
Ltac zcase :=
  match goal with
  | |- context [?x =? ?y] => destruct (Z.eqb_spec x y)
  | |- context [?x <? ?y] => destruct (Z.ltb_spec x y)
  | |- context [?x <=? ?y] => destruct (Z.leb_spec x y)
  end.
Ltac zcaseH H :=
  match type of H with
  | context [?x =? ?y] => destruct (Z.eqb_spec x y)
  | context [?x <? ?y] => destruct (Z.ltb_spec x y)
  | context [?x <=? ?y] => destruct (Z.leb_spec x y)
  end.

(** ** Values of tuples *)

Definition fval (a b c r : Z) : C := ((ZtoC a + ZtoC b * csqrt r) / ZtoC c)%C.

Lemma sval_raw a b c r : sval (new_raw a b c r) = fval a b c r.
Proof. reflexivity. Qed.

Lemma fval_scale k a b c r : k <> 0 -> c <> 0 -> fval (k * a) (k * b) (k * c) r = fval a b c r.
Proof.
  intros Hk Hc. unfold fval. autorewrite with ztoc. field.
  split; apply ZtoC_neq0; auto.
Qed.

Lemma fval_root k a b c r : 0 <= k -> fval a b c (k * k * r) = fval a (k * b) c r.
Proof.
  intros Hk. unfold fval. rewrite csqrt_scale by auto. autorewrite with ztoc.
  unfold Cdiv. ring.
Qed.

Lemma fval_neg a b c r : c <> 0 -> fval (- a) (- b) (- c) r = fval a b c r.
Proof.
  intros Hc. rewrite <- (fval_scale (-1) a b c r); [|lia|auto]. f_equal; ring.
Qed.

Lemma fval_rat0 a b c : fval a b c 0 = fval a 0 c 0.
Proof. unfold fval. rewrite csqrt_0. autorewrite with ztoc. unfold Cdiv; ring. Qed.
Lemma fval_b0 a c r : fval a 0 c r = (ZtoC a / ZtoC c)%C.
Proof. unfold fval. autorewrite with ztoc. unfold Cdiv; ring. Qed.

(** ** gcd facts *)
Lemma gcd_neq0_r a b : b <> 0 -> 0 < Z.gcd a b.
Proof.
  intros H. pose proof (Z.gcd_nonneg a b).
  destruct (Z.eq_dec (Z.gcd a b) 0) as [E|E]; [|lia].
  apply Z.gcd_eq_0_r in E. contradiction.
Qed.
Lemma gcd_neq0_l a b : a <> 0 -> 0 < Z.gcd a b.
Proof. rewrite Z.gcd_comm. apply gcd_neq0_r. Qed.

Lemma quot_exact k x y : k <> 0 -> x = k * y -> Z.quot x k = y.
Proof. intros Hk ->. rewrite Z.mul_comm. apply Z.quot_mul; auto. Qed.

Lemma sq_inj x y : 0 <= x -> 0 <= y -> x * x = y * y -> x = y.
Proof. nia. Qed.

Lemma gcd_cofactor a b : b <> 0 ->
  exists a' b', a = Z.gcd a b * a' /\ b = Z.gcd a b * b' /\ Z.gcd a' b' = 1.
Proof.
  intros Hb. pose proof (gcd_neq0_r a b Hb) as Hg.
  destruct (Z.gcd_divide_l a b) as [a' Ha]. destruct (Z.gcd_divide_r a b) as [b' Hb'].
  exists a', b'. split; [lia|]. split; [lia|].
  pose proof (Z.gcd_div_gcd a b (Z.gcd a b) ltac:(lia) eq_refl) as E.
  rewrite <- (Z.div_unique_exact a (Z.gcd a b) a') in E by lia.
  rewrite <- (Z.div_unique_exact b (Z.gcd a b) b') in E by lia. exact E.
Qed.

(** ** The steps of reduce *)

Lemma reduce_square_spec a b c r : c <> 0 ->
  exists a' b' r', reduce_square BigI a b r = Ok (a', b', r') /\
    fval a' b' c r' = fval a b c r /\
    ((b' = 0 /\ r' = 0) \/ (b' = b /\ r' = r /\ a' = a /\ ~ square r)) .
Proof.
  intros Hc. unfold reduce_square. bigi. rewrite sqrtB by lia. bigi.
  destruct (Z.eqb_spec (Z.sqrt (Z.abs r) * Z.sqrt (Z.abs r)) r) as [E|E].
  - assert (Hr : 0 <= r) by nia.
    destruct (Z.ltb_spec r 0); [lia|]. bigi.
    rewrite Z.abs_eq in * by auto.
    exists (a + b * Z.sqrt r), 0, 0. split; [reflexivity|]. split; [|left; auto].
    rewrite fval_b0. rewrite <- E at 2. unfold fval.
    rewrite csqrt_square by apply Z.sqrt_nonneg. autorewrite with ztoc. reflexivity.
  - exists a, b, r. split; [reflexivity|]. split; [reflexivity|]. right. repeat split; auto.
    intros Hs. apply E. destruct (Z_lt_dec r 0) as [Hr|Hr].
    + exfalso. exact (not_square_neg r Hr Hs).
    + rewrite Z.abs_eq by lia. apply sqrt_square_iff; [lia|auto].
Qed.

(** a and c have no common factor with b left, and the value is unchanged *)
Lemma reduce_common_spec a b c r : c <> 0 -> ((b = 0 /\ r = 0) \/ ~ square r) ->
  exists a' b' c' r', reduce_common BigI a b c r = Ok (a', b', c', r') /\
    fval a' b' c' r' = fval a b c r /\ c' <> 0 /\ Z.gcd (Z.gcd a' b') c' = 1 /\
    ((b' = 0 /\ r' = 0) \/ (b' <> 0 /\ ~ square r' /\ b <> 0 /\ exists k, 0 < k /\ r = k * k * r')).
Proof.
  intros Hc Hr. unfold reduce_common.
  destruct ((b =? 0) || (r =? 0)) eqn:Eb.
  - assert (E : b = 0 \/ r = 0) by (apply orb_prop in Eb; destruct Eb as [H|H];
      apply Z.eqb_eq in H; auto). clear Eb.
    bigi. destruct (gcd_cofactor a c Hc) as (a' & c' & Ha & Hc' & Hg).
    pose proof (gcd_neq0_r a c Hc) as Hgp.
    rewrite quotB by lia. bigi. rewrite quotB by lia. bigi.
    rewrite (quot_exact _ _ _ (Z.neq_sym _ _ (Z.lt_neq _ _ Hgp)) Ha).
    rewrite (quot_exact _ _ _ (Z.neq_sym _ _ (Z.lt_neq _ _ Hgp)) Hc').
    exists a', 0, c', 0. split; [reflexivity|].
    assert (Hc0 : c' <> 0) by (intro; subst c'; lia).
    split; [|split; [auto|split; [|left; auto]]].
    + transitivity (fval a 0 c 0).
      * rewrite <- (fval_scale (Z.gcd a c) a' 0 c' 0) by lia. rewrite <- Ha, <- Hc'.
        f_equal; ring.
      * destruct E as [->| ->]; [rewrite !fval_b0|rewrite (fval_rat0 a b)]; reflexivity.
    + rewrite Z.gcd_0_r. rewrite Z.gcd_abs_l. exact Hg.
  - assert (Hb0 : b <> 0 /\ r <> 0)
      by (apply orb_false_elim in Eb; destruct Eb as [H1 H2]; apply Z.eqb_neq in H1, H2; auto).
    clear Eb. destruct Hb0 as [Hb0 Hr0].
    assert (Hns : ~ square r) by (destruct Hr as [[? ?]|?]; [contradiction|auto]). clear Hr.
    pose proof (gcd_neq0_r a c Hc) as Hgp.
    bigi. set (h := Z.gcd a c) in *.
    pose proof (gcd_neq0_r (h * h) r Hr0) as Hg2.
    rewrite sqrtB by lia. bigi.
    (* after the optional division by the square factor *)
    assert (Hmid : exists a1 c1 r1 h1,
      (if Z.sqrt (Z.gcd (h * h) r) * Z.sqrt (Z.gcd (h * h) r) =? Z.gcd (h * h) r
       then
        let! r0 := lift2 (quotT BigI) (Ok r) (Ok (Z.gcd (h * h) r)) in
        let! a0 := lift2 (quotT BigI) (Ok a) (Ok (Z.sqrt (Z.gcd (h * h) r))) in
        let! c0 := lift2 (quotT BigI) (Ok c) (Ok (Z.sqrt (Z.gcd (h * h) r))) in
        let! gac := lift2 (quotT BigI) (Ok h) (Ok (Z.sqrt (Z.gcd (h * h) r))) in
        Ok (a0, c0, r0, gac)
       else Ok (a, c, r, h)) = Ok (a1, c1, r1, h1) /\
      fval a1 b c1 r1 = fval a b c r /\ c1 <> 0 /\ h1 = Z.gcd a1 c1 /\
      exists k, 0 < k /\ r = k * k * r1).
    { destruct (Z.eqb_spec (Z.sqrt (Z.gcd (h * h) r) * Z.sqrt (Z.gcd (h * h) r))
                           (Z.gcd (h * h) r)) as [E|E].
      - set (k := Z.sqrt (Z.gcd (h * h) r)) in *.
        assert (Hk : 0 < k) by (pose proof (Z.sqrt_nonneg (Z.gcd (h * h) r)); nia).
        rewrite <- E in *.
        destruct (Z.gcd_divide_l (h * h) r) as [u Hu].
        destruct (Z.gcd_divide_r (h * h) r) as [r1 Hr1]. rewrite <- E in Hu, Hr1.
        assert (Hkh : (k | h)).
        { assert (Hs : square u).
          { apply (square_quotient h k u); nia. }
          destruct Hs as [v Hv]. exists (Z.abs v). subst u.
          assert (Hsq : h * h = (Z.abs v * k) * (Z.abs v * k)) by nia.
          apply sq_inj; [lia|nia|exact Hsq]. }
        destruct Hkh as [h1 Hh1].
        destruct (Z.gcd_divide_l a c) as [a' Ha]. destruct (Z.gcd_divide_r a c) as [c' Hc'].
        fold h in Ha, Hc'.
        assert (Ea : a = k * (a' * h1)) by (rewrite Ha, Hh1; ring).
        assert (Ec : c = k * (c' * h1)) by (rewrite Hc', Hh1; ring).
        rewrite quotB by nia. bigi. rewrite quotB by lia. bigi.
        rewrite quotB by lia. bigi. rewrite quotB by lia. bigi.
        rewrite (quot_exact (k * k) r r1) by nia.
        rewrite (quot_exact k a (a' * h1)) by (auto; lia).
        rewrite (quot_exact k c (c' * h1)) by (auto; lia).
        rewrite (quot_exact k h h1) by lia.
        exists (a' * h1), (c' * h1), r1, h1. split; [reflexivity|].
        assert (Hc1 : c' * h1 <> 0) by (intro X; rewrite X in Ec; lia).
        split; [|split; [auto|split]].
        + rewrite Hr1, (Z.mul_comm r1), fval_root by lia.
          rewrite Ea, Ec. rewrite fval_scale by lia. reflexivity.
        + apply (Z.mul_reg_l _ _ k); [lia|]. rewrite <- (Z.gcd_mul_mono_l_nonneg _ _ k) by lia.
          rewrite <- Ea, <- Ec. fold h. lia.
        + exists k. split; [auto|lia].
      - exists a, c, r, h. split; [reflexivity|]. split; [reflexivity|]. split; [auto|].
        split; [reflexivity|]. exists 1. split; [lia|ring]. }
    destruct Hmid as (a1 & c1 & r1 & h1 & Heq & Hv & Hc1 & Hh1 & k & Hk & Hkr).
    rewrite Heq. bigi.
    assert (Hg3 : 0 < Z.gcd h1 b) by (apply gcd_neq0_r; auto).
    set (d := Z.gcd h1 b) in *.
    assert (Hda : (d | a1)).
    { apply (Z.divide_trans _ h1); [apply Z.gcd_divide_l|]. rewrite Hh1. apply Z.gcd_divide_l. }
    assert (Hdc : (d | c1)).
    { apply (Z.divide_trans _ h1); [apply Z.gcd_divide_l|]. rewrite Hh1. apply Z.gcd_divide_r. }
    assert (Hdb : (d | b)) by apply Z.gcd_divide_r.
    destruct Hda as [a2 Ha2], Hdb as [b2 Hb2], Hdc as [c2 Hc2].
    rewrite quotB by lia. bigi. rewrite quotB by lia. bigi. rewrite quotB by lia. bigi.
    rewrite (quot_exact d a1 a2), (quot_exact d b b2), (quot_exact d c1 c2) by lia.
    exists a2, b2, c2, r1. split; [reflexivity|].
    assert (Hc20 : c2 <> 0) by (intro; subst c2; lia).
    split; [|split; [auto|split]].
    + rewrite <- Hv. rewrite <- (fval_scale d a2 b2 c2 r1) by lia.
      rewrite !(Z.mul_comm d). rewrite <- Ha2, <- Hb2, <- Hc2. reflexivity.
    + apply (Z.mul_reg_l _ _ d); [lia|].
      rewrite <- (Z.gcd_mul_mono_l_nonneg _ _ d), <- (Z.gcd_mul_mono_l_nonneg _ _ d) by lia.
      rewrite !(Z.mul_comm d). rewrite <- Ha2, <- Hb2, <- Hc2.
      rewrite <- Z.gcd_assoc, (Z.gcd_comm b c1), Z.gcd_assoc, <- Hh1. fold d. lia.
    + right. split; [intro; subst b2; lia|]. split; [|split; [auto|exists k; auto]].
      intros Hs. apply Hns. rewrite Hkr. apply square_mul. auto.
Qed.

Lemma reduce_sign_spec a b c r : c <> 0 ->
  exists s', reduce_sign BigI a b c r = Ok s' /\ sval s' = fval a b c r /\
    discr s' = r /\ 0 < c2 (coeffs s') /\
    ((parts s' = (a, b, c, r)) \/ (parts s' = (-a, -b, -c, r))).
Proof.
  intros Hc. unfold reduce_sign. destruct (Z.ltb_spec c 0) as [H|H].
  - bigi. eexists. split; [reflexivity|]. rewrite sval_raw. cbn [discr c2 coeffs parts new_raw].
    repeat split; try lia.
    + rewrite <- (fval_neg a b c r Hc). f_equal; ring.
    + right. unfold parts. cbn [c0 c1 c2 coeffs discr new_raw]. rewrite !Z.sub_0_l. reflexivity.
  - eexists. split; [reflexivity|]. cbn. repeat split; try lia. left; reflexivity.
Qed.

(** What reduce() guarantees about its result *)
Definition reduced_from (r : Z) (s : surd) : Prop :=
  let '(a, b, c, r') := parts s in
  0 < c /\ Z.gcd (Z.gcd a b) c = 1 /\
  ((b = 0 /\ r' = 0) \/ (b <> 0 /\ ~ square r' /\ exists k, 0 < k /\ r = k * k * r')).

Lemma gcd3_opp a b c : Z.gcd (Z.gcd (- a) (- b)) (- c) = Z.gcd (Z.gcd a b) c.
Proof. rewrite !Z.gcd_opp_l, !Z.gcd_opp_r. reflexivity. Qed.

Theorem surd_reduce_spec a b c r : c <> 0 ->
  exists s', surd_reduce BigI (new_raw a b c r) = Ok s' /\
    sval s' = fval a b c r /\ reduced_from r s'.
Proof.
  intros Hc. unfold surd_reduce, new_raw. destruct (Z.eqb_spec c 0); [contradiction|].
  destruct (reduce_square_spec a b c r Hc) as (a1 & b1 & r1 & E1 & V1 & H1).
  rewrite E1. bigi.
  assert (H1' : (b1 = 0 /\ r1 = 0) \/ ~ square r1).
  { destruct H1 as [H1|(? & -> & ? & ?)]; auto. }
  destruct (reduce_common_spec a1 b1 c r1 Hc H1') as (a2 & b2 & c2 & r2 & E2 & V2 & C2 & G2 & H2).
  rewrite E2. bigi.
  destruct (reduce_sign_spec a2 b2 c2 r2 C2) as (s & E3 & V3 & D3 & P3 & Q3).
  exists s. split; [exact E3|]. split; [congruence|].
  unfold reduced_from.
  assert (HH : (b2 = 0 /\ r2 = 0) \/ (b2 <> 0 /\ ~ square r2 /\ exists k, 0 < k /\ r = k * k * r2)).
  { destruct H2 as [H2|(Hb & Hs & Hb1 & Hk)]; [left; auto|right].
    repeat split; auto. destruct H1 as [[? ?]|(? & -> & ? & ?)]; [contradiction|auto]. }
  destruct s as [[sa sb sc] sr]. cbn in *.
  destruct Q3 as [Q|Q]; inversion Q; subst.
  - repeat split; auto.
  - repeat split; auto.
    + rewrite gcd3_opp. auto.
    + destruct HH as [[-> ->]|(? & ? & ?)]; [left; auto|right; repeat split; auto; lia].
Qed.

Lemma reduced_normal g r s : reduced_from r s -> (cplx g = false -> 0 <= r) -> normal g s.
Proof.
  unfold reduced_from, normal. destruct (parts s) as [[[a b] c] r'].
  intros (H1 & H2 & H3) Hg. repeat split; auto.
  - destruct H3 as [?|(? & ? & ?)]; auto.
  - intros X. specialize (Hg X). destruct H3 as [[? ?]|(? & ? & k & Hk & E)]; nia.
Qed.

(** ** new and from_coeffs *)

Lemma surd_from_coeffs_new g t a b c r :
  surd_from_coeffs g t (SCo a b c) r = surd_new g t a b c r.
Proof. reflexivity. Qed.

(** All of [new]: it returns, with the right value in normal form, or panics *)
Theorem surd_new_big g a b c r :
  (c <> 0 /\ (cplx g = false -> 0 <= r) /\
   exists s', surd_new g BigI a b c r = Ok s' /\ sval s' = fval a b c r /\
     normal g s' /\ reduced_from r s') \/
  (c = 0 /\ (cplx g = false -> 0 <= r) /\ surd_new g BigI a b c r = Panic PZeroDenom) \/
  (cplx g = false /\ r < 0 /\ surd_new g BigI a b c r = Panic PNegRoot).
Proof.
  unfold surd_new. destruct (negb (cplx g) && (r <? 0)) eqn:E.
  - right; right. apply andb_prop in E. destruct E as [E1 E2].
    apply Z.ltb_lt in E2. destruct (cplx g); [discriminate|auto].
  - assert (Hg : cplx g = false -> 0 <= r).
    { intros X. rewrite X in E. cbn in E. apply Z.ltb_ge in E. auto. }
    destruct (Z.eq_dec c 0) as [->|Hc].
    + right; left. repeat split; auto.
    + left. split; [auto|]. split; [auto|].
      destruct (surd_reduce_spec a b c r Hc) as (s & E1 & V & R).
      exists s. split; [auto|]. split; [auto|]. split; [apply (reduced_normal g r); auto|auto].
Qed.

Lemma surd_new_ok g t a b c r s : surd_new g t a b c r = Ok s ->
  c <> 0 /\ (cplx g = false -> 0 <= r) /\ sval s = fval a b c r /\ normal g s /\ reduced_from r s.
Proof.
  intros H. apply rle_surd_new in H.
  destruct (surd_new_big g a b c r) as [(Hc & Hr & s' & E & V & N & R)|[(Hc & Hr & E)|(Hc & Hr & E)]];
    rewrite H in E; try discriminate.
  inversion E; subst. auto.
Qed.

Lemma surd_from_coeffs_ok g t co r s : surd_from_coeffs g t co r = Ok s ->
  c2 co <> 0 /\ (cplx g = false -> 0 <= r) /\ sval s = fval (c0 co) (c1 co) (c2 co) r /\ normal g s /\
  reduced_from r s.
Proof. destruct co as [a b c]. apply surd_new_ok. Qed.
