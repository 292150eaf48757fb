(** * RatioFacts: the rational operations compute with rational numbers. *)

From Coq Require Import ZArith Znumtheory Reals Lia Lra Bool.
From Coquelicot Require Import Coquelicot.
From Verif Require Import Base Ext ModelSurd Spec Transfer NumFacts SurdCore.
Open Scope Z_scope.

Definition okd (q : ratio) : Prop := denom q <> 0.
Lemma lowest_okd q : lowest q -> okd q.
Proof. unfold lowest, okd; lia. Qed.
#[export] Hint Resolve lowest_okd : core.

Lemma IZR_neq0 z : z <> 0 -> IZR z <> 0%R.
Proof. intros H E. apply H. apply eq_IZR. exact E. Qed.
#[export] Hint Resolve IZR_neq0 : core.

Lemma ratio_new_big n d : d <> 0 ->
  exists q, ratio_new BigI n d = Ok q /\ rval q = (IZR n / IZR d)%R /\ lowest q.
Proof.
  intros Hd. unfold ratio_new. destruct (Z.eqb_spec d 0); [contradiction|].
  destruct (Z.eqb_spec n 0) as [->|Hn].
  { exists (Ratio 0 1). split; [reflexivity|]. unfold rval, lowest; cbn [numer denom].
    split; [field; auto|]. split; [lia|reflexivity]. }
  destruct (Z.eqb_spec n d) as [->|Hnd].
  { exists (Ratio 1 1). split; [reflexivity|]. unfold rval, lowest; cbn [numer denom].
    split; [field; auto|]. split; [lia|reflexivity]. }
  bigi. pose proof (gcd_neq0_r n d Hd) as Hg.
  destruct (gcd_cofactor n d Hd) as (n' & d' & En & Ed & E1).
  rewrite quotB by lia. bigi. rewrite quotB by lia. bigi.
  rewrite (quot_exact _ n n') by lia. rewrite (quot_exact _ d d') by lia.
  revert En Ed Hg. generalize (Z.gcd n d). intros k -> -> Hg.
  assert (Hd' : d' <> 0) by nia.
  destruct (Z.ltb_spec d' 0).
  - bigi. eexists. split; [reflexivity|]. unfold rval, lowest; cbn [numer denom].
    rewrite !Z.sub_0_l, !opp_IZR, !mult_IZR. split; [field; repeat split; auto; apply IZR_neq0; lia|].
    split; [lia|]. rewrite Z.gcd_opp_l, Z.gcd_opp_r. auto.
  - eexists. split; [reflexivity|]. unfold rval, lowest; cbn [numer denom].
    rewrite !mult_IZR. split; [field; repeat split; auto; apply IZR_neq0; lia|].
    split; [lia|]. auto.
Qed.

Lemma ratio_new_ok t n d q : ratio_new t n d = Ok q ->
  d <> 0 /\ rval q = (IZR n / IZR d)%R /\ lowest q.
Proof.
  intros H. apply rle_ratio_new in H.
  destruct (Z.eq_dec d 0) as [->|Hd]; [discriminate|].
  destruct (ratio_new_big n d Hd) as (q' & E & H1 & H2). rewrite H in E. inversion E; subst. auto.
Qed.

Lemma ratio_of_spec n : rval (ratio_of n) = IZR n /\ lowest (ratio_of n).
Proof.
  unfold rval, lowest, ratio_of; cbn [numer denom]. split; [field|]. split; [lia|].
  apply Z.gcd_1_r.
Qed.

(** lcm over BigInt *)
Lemma lcmB x y : x <> 0 -> y <> 0 ->
  exists l u v, lcmT BigI x y = Ok l /\ l = x * u /\ l = y * v /\ l <> 0.
Proof.
  intros Hx Hy. unfold lcmT.
  destruct (Z.eqb_spec x 0); [contradiction|]. destruct (Z.eqb_spec y 0); [contradiction|].
  cbn [orb]. bigi.
  destruct (gcd_cofactor x y Hy) as (x' & y' & Ex & Ey & E1).
  pose proof (gcd_neq0_r x y Hy) as Hg.
  rewrite quotB' by lia. bigi. rewrite (quot_exact _ y y') by lia.
  revert Ex Ey Hg. generalize (Z.gcd x y). intros k -> -> Hg.
  destruct (Z.abs_spec (k * x' * y')) as [[_ ->]|[_ ->]].
  - exists (k * x' * y'), y', x'. repeat split; nia.
  - exists (- (k * x' * y')), (- y'), (- x'). repeat split; nia.
Qed.

Lemma ratio_arith_big op x y : okd x -> okd y ->
  exists n l, ratio_arith BigI (fun a b => Ok (op a b)) x y = ratio_new BigI n l /\ l <> 0 /\
    exists a b, n = op a b /\ (IZR a / IZR l)%R = rval x /\ (IZR b / IZR l)%R = rval y.
Proof.
  unfold okd. intros Hx Hy. unfold ratio_arith.
  destruct (Z.eqb_spec (denom x) (denom y)) as [E|E].
  - bigi. eexists _, _. split; [reflexivity|]. split; [auto|].
    exists (numer x), (numer y). split; [reflexivity|]. unfold rval. rewrite E. auto.
  - destruct (lcmB (denom x) (denom y) Hx Hy) as (l & u & v & El & E1 & E2 & Hl).
    rewrite El. bigi. rewrite quotB by auto. bigi. rewrite quotB by auto. bigi.
    rewrite (quot_exact _ _ u Hx E1). rewrite (quot_exact _ _ v Hy E2).
    eexists _, _. split; [reflexivity|]. split; [auto|].
    exists (numer x * u), (numer y * v). split; [reflexivity|]. unfold rval.
    assert (u <> 0) by (intro; subst; lia). assert (v <> 0) by (intro; subst; lia).
    split.
    + rewrite E1, !mult_IZR. field. auto.
    + rewrite E2, !mult_IZR. field. auto.
Qed.

Lemma ratio_add_big x y : okd x -> okd y ->
  exists q, ratio_add BigI x y = Ok q /\ rval q = (rval x + rval y)%R /\ lowest q.
Proof.
  intros Hx Hy. destruct (ratio_arith_big Z.add x y Hx Hy) as (n & l & E & Hl & a & b & En & Ea & Eb).
  destruct (ratio_new_big n l Hl) as (q & Eq & V & L). exists q.
  split; [rewrite <- Eq; exact E|]. split; [|auto].
  rewrite V, <- Ea, <- Eb, En, plus_IZR. field. auto.
Qed.

Lemma ratio_sub_big x y : okd x -> okd y ->
  exists q, ratio_sub BigI x y = Ok q /\ rval q = (rval x - rval y)%R /\ lowest q.
Proof.
  intros Hx Hy. destruct (ratio_arith_big Z.sub x y Hx Hy) as (n & l & E & Hl & a & b & En & Ea & Eb).
  destruct (ratio_new_big n l Hl) as (q & Eq & V & L). exists q.
  split; [rewrite <- Eq; exact E|]. split; [|auto].
  rewrite V, <- Ea, <- Eb, En, minus_IZR. field. auto.
Qed.

Lemma ratio_add_int_big x k : okd x ->
  exists q, ratio_add_int BigI x k = Ok q /\ rval q = (rval x + IZR k)%R /\ lowest q.
Proof.
  intros Hx. unfold ratio_add_int. bigi.
  destruct (ratio_new_big (numer x + denom x * k) (denom x) Hx) as (q & Eq & V & L).
  exists q. split; [auto|]. split; [|auto]. rewrite V. unfold rval.
  rewrite plus_IZR, mult_IZR. field. auto.
Qed.
Lemma ratio_sub_int_big x k : okd x ->
  exists q, ratio_sub_int BigI x k = Ok q /\ rval q = (rval x - IZR k)%R /\ lowest q.
Proof.
  intros Hx. unfold ratio_sub_int. bigi.
  destruct (ratio_new_big (numer x - denom x * k) (denom x) Hx) as (q & Eq & V & L).
  exists q. split; [auto|]. split; [|auto]. rewrite V. unfold rval.
  rewrite minus_IZR, mult_IZR. field. auto.
Qed.

Lemma ratio_mul_big x y : okd x -> okd y ->
  exists q, ratio_mul BigI x y = Ok q /\ rval q = (rval x * rval y)%R /\ lowest q.
Proof.
  intros Hx Hy. unfold ratio_mul. bigi.
  destruct (gcd_cofactor (numer x) (denom y) Hy) as (a & d & Ea & Ed & _).
  pose proof (gcd_neq0_r (numer x) (denom y) Hy) as Hg1.
  destruct (gcd_cofactor (numer y) (denom x) Hx) as (c & b & Ec & Eb & _).
  pose proof (gcd_neq0_r (numer y) (denom x) Hx) as Hg2.
  rewrite (Z.gcd_comm (denom x)).
  do 4 (rewrite quotB by lia; bigi).
  rewrite (quot_exact _ _ a) by lia. rewrite (quot_exact _ _ c) by lia.
  rewrite (quot_exact _ _ b) by lia. rewrite (quot_exact _ _ d) by lia.
  destruct x as [xn xd], y as [yn yd]; unfold okd, rval in *; cbn [numer denom] in *.
  revert Ea Ed Ec Eb Hg1 Hg2. generalize (Z.gcd xn yd) as k, (Z.gcd yn xd) as m.
  intros k m -> -> -> -> Hk Hm.
  assert (Hb : b <> 0) by nia. assert (Hd : d <> 0) by nia.
  assert (Hbd : b * d <> 0) by nia.
  destruct (ratio_new_big (a * c) (b * d) Hbd) as (q & Eq & V & L). exists q.
  split; [auto|]. split; [|auto]. change (rval q = (IZR (k * a) / IZR (m * b) * (IZR (m * c) / IZR (k * d)))%R).
  rewrite V, !mult_IZR. field. repeat split; auto; apply IZR_neq0; lia.
Qed.

Lemma ratio_mul_int_big x k : okd x ->
  exists q, ratio_mul_int BigI x k = Ok q /\ rval q = (rval x * IZR k)%R /\ lowest q.
Proof.
  intros Hx. unfold ratio_mul_int. bigi. rewrite Z.gcd_comm.
  destruct (gcd_cofactor k (denom x) Hx) as (a & d & Ea & Ed & _).
  pose proof (gcd_neq0_r k (denom x) Hx) as Hg.
  do 2 (rewrite quotB by lia; bigi).
  rewrite (quot_exact _ k a) by lia. rewrite (quot_exact _ _ d) by lia.
  destruct x as [xn xd]; unfold okd, rval in *; cbn [numer denom] in *.
  revert Ea Ed Hg. generalize (Z.gcd k xd) as m. intros m -> -> Hm.
  assert (Hd : d <> 0) by nia.
  destruct (ratio_new_big (xn * a) d Hd) as (q & Eq & V & L). exists q.
  split; [auto|]. split; [|auto]. change (rval q = (IZR xn / IZR (m * d) * IZR (m * a))%R).
  rewrite V, !mult_IZR. field. repeat split; auto; apply IZR_neq0; lia.
Qed.

Lemma ratio_div_big x y : okd x -> okd y -> numer y <> 0 ->
  exists q, ratio_div BigI x y = Ok q /\ rval q = (rval x / rval y)%R /\ lowest q.
Proof.
  intros Hx Hy Hn. unfold ratio_div. bigi.
  destruct (gcd_cofactor (numer x) (numer y) Hn) as (a & d & Ea & Ed & _).
  pose proof (gcd_neq0_r (numer x) (numer y) Hn) as Hg1.
  destruct (gcd_cofactor (denom x) (denom y) Hy) as (c & b & Ec & Eb & _).
  pose proof (gcd_neq0_r (denom x) (denom y) Hy) as Hg2.
  do 4 (rewrite quotB by lia; bigi).
  rewrite (quot_exact _ _ a) by lia. rewrite (quot_exact _ _ b) by lia.
  rewrite (quot_exact _ _ c) by lia. rewrite (quot_exact _ _ d) by lia.
  destruct x as [xn xd], y as [yn yd]; unfold okd, rval in *; cbn [numer denom] in *.
  revert Ea Ed Ec Eb Hg1 Hg2. generalize (Z.gcd xn yn) as k, (Z.gcd xd yd) as m.
  intros k m -> -> -> -> Hk Hm.
  assert (Hb : c <> 0) by nia. assert (Hd : d <> 0) by nia. assert (b <> 0) by nia.
  assert (Hbd : c * d <> 0) by nia.
  destruct (ratio_new_big (a * b) (c * d) Hbd) as (q & Eq & V & L). exists q.
  split; [auto|]. split; [|auto].
  change (rval q = (IZR (k * a) / IZR (m * c) / (IZR (k * d) / IZR (m * b)))%R).
  rewrite V, !mult_IZR. field. repeat split; auto; apply IZR_neq0; lia.
Qed.

Lemma ratio_div_zero x y : okd x -> okd y -> numer y = 0 -> forall q, ratio_div BigI x y <> Ok q.
Proof.
  intros Hx Hy Hn q. unfold ratio_div. bigi. rewrite Hn.
  destruct (Z.eq_dec (numer x) 0) as [E|E].
  - rewrite E. cbn [Z.gcd Z.abs]. unfold lift2 at 2, quotT at 1. cbn. discriminate.
  - rewrite Z.gcd_0_r. pose proof (gcd_neq0_r (denom x) (denom y) Hy) as Hg2.
    do 4 (rewrite quotB by lia; bigi).
    rewrite Z.quot_0_l by lia. rewrite Z.mul_0_r. cbn. discriminate.
Qed.

Lemma ratio_neg_big x : okd x ->
  exists q, ratio_neg BigI x = Ok q /\ rval q = (- rval x)%R /\ (lowest x -> lowest q) /\ okd q.
Proof.
  intros Hx. unfold ratio_neg. bigi. eexists. split; [reflexivity|].
  unfold rval, lowest, okd in *; cbn [numer denom]. rewrite opp_IZR. split; [field; auto|].
  rewrite Z.gcd_opp_l. auto.
Qed.

Lemma ratio_recip_big x : okd x -> numer x <> 0 ->
  exists q, ratio_recip BigI x = Ok q /\ rval q = (/ rval x)%R /\ (lowest x -> lowest q) /\ okd q.
Proof.
  intros Hx Hn. unfold ratio_recip. destruct (Z.eqb_spec (numer x) 0); [contradiction|].
  unfold okd in *.
  destruct (Z.ltb_spec 0 (numer x)).
  - eexists. split; [reflexivity|]. unfold rval, lowest; cbn [numer denom].
    split; [field; split; apply IZR_neq0; auto|]. split; [|auto]. rewrite (Z.gcd_comm (denom x)). lia.
  - bigi. eexists. split; [reflexivity|]. unfold rval, lowest; cbn [numer denom].
    rewrite !Z.sub_0_l, !opp_IZR. split; [field; split; apply IZR_neq0; auto|]. split; [|lia].
    rewrite Z.gcd_opp_l, Z.gcd_opp_r, (Z.gcd_comm (denom x)). lia.
Qed.

(** The numerator decides the sign *)
Lemma rval_zero q : okd q -> (rval q = 0%R <-> numer q = 0).
Proof.
  unfold okd, rval; intros H; split; intros E.
  - apply eq_IZR. apply (Rmult_eq_reg_r (/ IZR (denom q))%R).
    + rewrite Rmult_0_l. exact E.
    + apply Rinv_neq_0_compat; auto.
  - rewrite E. field. auto.
Qed.
Lemma rval_neg q : okd q -> (ratio_is_negative q = true <-> (rval q < 0)%R).
Proof.
  unfold okd, rval, ratio_is_negative. intros H.
  assert (Hs : (IZR (numer q) / IZR (denom q))%R
    = (IZR (numer q * denom q) * / (IZR (denom q) * IZR (denom q)))%R)
    by (rewrite mult_IZR; field; auto).
  rewrite Hs.
  assert (Hp : (0 < / (IZR (denom q) * IZR (denom q)))%R).
  { apply Rinv_0_lt_compat. rewrite <- mult_IZR. apply IZR_lt. nia. }
  transitivity (numer q * denom q < 0).
  - rewrite orb_true_iff, !andb_true_iff, !Z.ltb_lt. nia.
  - split; intros H1.
    + apply IZR_lt in H1. nra.
    + apply lt_IZR. nra.
Qed.
Lemma ratio_is_negative_false q : okd q -> ratio_is_negative q = false -> (0 <= rval q)%R.
Proof.
  intros H E. destruct (Rlt_le_dec (rval q) 0) as [X|X]; [|auto].
  apply rval_neg in X; auto. congruence.
Qed.

(** Two ratios in lowest terms with the same value are equal *)
Lemma lowest_unique p q : lowest p -> lowest q -> rval p = rval q -> p = q.
Proof.
  destruct p as [a b], q as [c d]. unfold lowest, rval; cbn [numer denom].
  intros [Hb G1] [Hd G2] E.
  assert (E' : a * d = c * b).
  { apply eq_IZR. rewrite !mult_IZR.
    assert (IZR b <> 0 /\ IZR d <> 0)%R by (split; apply IZR_neq0; lia).
    replace (IZR a * IZR d)%R with (IZR a / IZR b * IZR b * IZR d)%R by (field; tauto).
    rewrite E. field. tauto. }
  apply Zgcd_1_rel_prime in G1, G2.
  assert (D1 : (b | d)).
  { apply (Gauss b a d); [exists c; lia|apply rel_prime_sym; auto]. }
  assert (D2 : (d | b)).
  { apply (Gauss d c b); [exists a; lia|apply rel_prime_sym; auto]. }
  assert (b = d) by (apply Z.divide_antisym_nonneg; lia || auto). subst d.
  f_equal. nia.
Qed.

(** Lift to C *)
Lemma qC_add p q : RtoC (p + q) = (RtoC p + RtoC q)%C. Proof. apply RtoC_plus. Qed.
