(** * SurdRoots: products, quotients and sums of square roots; how rounding commutes with negation and integers. *)

From Coq Require Import ZArith Znumtheory Reals Lia Lra Bool List Arith.
From Coquelicot Require Import Coquelicot.
From Verif Require Import Base Ext ModelBlock ModelSurd Spec SpecLaw Transfer NumFacts RatioFacts SurdCore SurdArith SurdRound SurdTotal SurdMisc SurdConv SurdOrd SurdLaws ClaimsSurd.
Open Scope Z_scope.

Lemma qC_rational q : lowest q -> rational_num (qC q).
Proof. intros L. pose proof (lowest_okd q L) as D. exists (numer q), (denom q). split; [exact D|]. apply qC_eq; auto. Qed.
Lemma Z_rational n : rational_num (ZtoC n).
Proof. exists n, 1. split; [lia|]. rewrite ZtoC_1. field. intros X; apply RtoC_inj in X; lra. Qed.

Lemma rational_unique g x y : normal g x -> normal g y -> rational_num (sval x) -> sval x = sval y -> x = y.
Proof.
  intros Nx Ny R E. apply (f_unique g 0); auto; split; auto; right; auto. rewrite <- E; auto.
Qed.

Lemma is_of_ratio g x q : normal g x -> lowest q -> sval x = qC q -> x = surd_of_ratio q.
Proof.
  intros N L E. destruct (surd_of_ratio_spec g q L) as [V N']. apply (rational_unique g); auto; [|congruence].
  rewrite E. apply qC_rational; auto.
Qed.
Lemma is_of_int g x n : normal g x -> sval x = ZtoC n -> x = surd_of_int n.
Proof.
  intros N E. destruct (surd_of_int_spec g n) as [V N']. apply (rational_unique g); auto; [|congruence].
  rewrite E. apply Z_rational.
Qed.

Lemma rcsqrt_nn x : (0 <= x)%R -> rcsqrt x = RtoC (sqrt x).
Proof. intros H. unfold rcsqrt. destruct (Rlt_dec x 0); [lra|auto]. Qed.
Lemma real_not_imag x : ~ imaginary (RtoC x).
Proof. unfold imaginary, RtoC. cbn. tauto. Qed.

Section two.
Variables (g : cfg) (t : ity) (p q : ratio) (x y : surd).
Hypotheses (Lp : lowest p) (Lq : lowest q) (Pp : (0 <= rval p)%R) (Pq : (0 <= rval q)%R).
Hypotheses (Ex : from_sqrt_ratio g t p = Ok (SqOk x)) (Ey : from_sqrt_ratio g t q = Ok (SqOk y)).

Lemma root_x : sval x = RtoC (sqrt (rval p)) /\ normal g x.
Proof. destruct (from_sqrt_ratio_spec g t p _ Lp Ex) as (V & N & _). rewrite rcsqrt_nn in V by auto. auto. Qed.
Lemma root_y : sval y = RtoC (sqrt (rval q)) /\ normal g y.
Proof. destruct (from_sqrt_ratio_spec g t q _ Lq Ey) as (V & N & _). rewrite rcsqrt_nn in V by auto. auto. Qed.

Lemma root_mul m pq z : surd_mul g t x y = Ok m -> ratio_mul t p q = Ok pq -> from_sqrt_ratio g t pq = Ok (SqOk z) ->
  sval m = sval z /\ normal g m /\ normal g z.
Proof.
  intros Hm Hr Hz. destruct root_x as [Vx Nx], root_y as [Vy Ny].
  destruct (ratio_mul_ok t p q pq (lowest_okd _ Lp) (lowest_okd _ Lq) Hr) as [Vr Lr].
  destruct (from_sqrt_ratio_spec g t pq _ Lr Hz) as (Vz & Nz & _).
  assert (P : (0 <= rval pq)%R) by (rewrite Vr; apply Rmult_le_pos; auto).
  rewrite rcsqrt_nn in Vz by auto. split; [|split; [|auto]].
  - rewrite (L_C04_mul_partial g t x y m Nx Ny) by (auto; rewrite Vx; intros [K _]; exact (real_not_imag _ K)).
    rewrite Vx, Vy, Vz, Vr, sqrt_mult by auto. rewrite RtoC_mult. auto.
  - apply (surd_mul_ok g t x y m) in Hm; auto. tauto.
Qed.

Lemma root_div m pq z : surd_div g t x y = Ok m -> ratio_div t p q = Ok pq -> from_sqrt_ratio g t pq = Ok (SqOk z) ->
  sval m = sval z /\ normal g z.
Proof.
  intros Hm Hr Hz. destruct root_x as [Vx Nx], root_y as [Vy Ny].
  destruct (ratio_div_ok t p q pq (lowest_okd _ Lp) (lowest_okd _ Lq) Hr) as (Q0 & Vr & Lr).
  destruct (from_sqrt_ratio_spec g t pq _ Lr Hz) as (Vz & Nz & _).
  destruct (L_C05_div_partial g t x y m Nx Ny) as [D V]; auto; [rewrite Vx; intros [K _]; exact (real_not_imag _ K)|].
  assert (Q : (0 < rval q)%R).
  { destruct (Req_dec (rval q) 0) as [E|E]; [|lra]. exfalso. apply D. rewrite Vy, E, sqrt_0. auto. }
  assert (P : (0 <= rval pq)%R) by (rewrite Vr; apply Rmult_le_pos; [auto|left; apply Rinv_0_lt_compat; auto]).
  rewrite rcsqrt_nn in Vz by auto. split; [|auto].
  rewrite V, Vx, Vy, Vz, Vr, sqrt_div by auto. rewrite RtoC_div; auto. apply Rgt_not_eq, sqrt_lt_R0; auto.
Qed.

Lemma root_square m : surd_mul g t x x = Ok m -> m = surd_of_ratio p.
Proof.
  intros Hm. destruct root_x as [Vx Nx]. apply (is_of_ratio g); auto.
  - apply (surd_mul_ok g t x x m) in Hm; auto. tauto.
  - rewrite (L_C04_mul_partial g t x x m Nx Nx) by (auto; rewrite Vx; intros [K _]; exact (real_not_imag _ K)).
    rewrite Vx, <- RtoC_mult, sqrt_sqrt by auto. auto.
Qed.
End two.

Lemma root_of_square g t q qq z : lowest q -> ratio_mul t q q = Ok qq -> from_sqrt_ratio g t qq = Ok (SqOk z) ->
  z = surd_of_ratio (Ratio (Z.abs (numer q)) (denom q)).
Proof.
  intros L Hr Hz. pose proof (lowest_okd q L) as D.
  destruct (ratio_mul_ok t q q qq D D Hr) as [Vr Lr].
  destruct (from_sqrt_ratio_spec g t qq _ Lr Hz) as (Vz & Nz & _).
  assert (L' : lowest (Ratio (Z.abs (numer q)) (denom q))).
  { destruct L as [L1 L2]. split; cbn [numer denom]; [auto|]. rewrite Z.gcd_abs_l. auto. }
  apply (is_of_ratio g); auto. rewrite Vz, rcsqrt_nn by (rewrite Vr; nra). rewrite Vr.
  unfold qC. f_equal. unfold rval. cbn [numer denom]. rewrite abs_IZR.
  assert (P : (0 < IZR (denom q))%R) by (apply IZR_lt; apply L).
  fold (Rsqr (IZR (numer q) / IZR (denom q))). rewrite sqrt_Rsqr_abs. unfold Rdiv. rewrite Rabs_mult, (Rabs_pos_eq (/ _)); auto.
  left. apply Rinv_0_lt_compat; auto.
Qed.

(** ** Roots of integers *)

Lemma sqrt_int_stored g n x : ~ square n -> 0 <= n -> from_sqrt_int g BigI n = Ok (SqOk x) -> x = Surd (SCo 0 1 1) n.
Proof.
  intros Hs Hn H. unfold from_sqrt_int, surd_new, surd_reduce, new_raw in H. replace (n <? 0) with false in H by lia. rewrite andb_false_r in H.
  change (1 =? 0) with false in H. cbn iota in H. unfold reduce_square, reduce_common, reduce_sign in H. autorewrite with bigi in H.
  rewrite sqrtB in H by lia. cbn [bind] in H. autorewrite with bigi in H. cbn [bind] in H.
  assert (E : Z.sqrt (Z.abs n) * Z.sqrt (Z.abs n) =? n = false). { apply Z.eqb_neq. intros K. apply Hs. exists (Z.sqrt (Z.abs n)). auto. }
  rewrite E in H. cbn [bind] in H.
  assert (N0 : n <> 0) by (intros ->; apply Hs; exists 0; auto). replace (n =? 0) with false in H by lia. change (1 =? 0) with false in H. cbn [orb bind] in H.
  autorewrite with bigi in H. cbn [bind] in H. change (Z.gcd 0 1) with 1 in H. change (1 * 1) with 1 in H.
  rewrite Z.gcd_1_l in H. rewrite (sqrtB 1) in H by lia. change (Z.sqrt 1) with 1 in H. cbn [bind] in H. autorewrite with bigi in H. cbn [bind] in H.
  change (1 * 1 =? 1) with true in H. cbn iota in H. rewrite !quotB in H by lia. cbn [bind] in H. rewrite !Z.quot_1_r in H. autorewrite with bigi in H. cbn [bind] in H.
  change (Z.gcd 1 1) with 1 in H. rewrite !quotB in H by lia. cbn [bind] in H. rewrite !Z.quot_1_r in H. cbn in H. inversion H; auto.
Qed.

Lemma sqrt_int_rational g n x : 0 <= n -> from_sqrt_int g BigI n = Ok (SqOk x) -> (rational_num (sval x) <-> square n).
Proof.
  intros Hn H. destruct (from_sqrt_int_spec g BigI n _ H) as (V & N & _). split.
  - intros R. destruct (square_mod_dec n) as [S|S]; [auto|]. exfalso.
    pose proof (sqrt_int_stored g n x S Hn H) as E. apply (normal_is_rational g x N) in R. subst x. unfold is_rational in R. cbn in R.
    apply S. exists 0. lia.
  - intros [k ->]. rewrite V. replace (k * k) with (Z.abs k * Z.abs k) by lia. rewrite csqrt_square by lia. apply Z_rational.
Qed.

Lemma sqrt_int_ok g n : 0 <= n -> exists x, from_sqrt_int g BigI n = Ok (SqOk x).
Proof.
  intros Hn. destruct (from_sqrt_int_total g n) as [[x|d k] E]; [eauto|]. apply from_sqrt_int_spec in E. lia.
Qed.

Lemma roots_nested_iff g m n x y : 0 <= m -> 0 <= n -> from_sqrt_int g BigI m = Ok (SqOk x) -> from_sqrt_int g BigI n = Ok (SqOk y) ->
  (nested_roots x y <-> square m \/ square n \/ exists k, 0 < k /\ (m = k * k * n \/ n = k * k * m)).
Proof.
  intros Hm Hn Ex Ey. pose proof (sqrt_int_rational g m x Hm Ex) as Rx. pose proof (sqrt_int_rational g n y Hn Ey) as Ry. unfold nested_roots.
  rewrite Rx, Ry. destruct (square_mod_dec m) as [S|S]; [tauto|]. destruct (square_mod_dec n) as [S'|S']; [tauto|].
  rewrite (sqrt_int_stored g m x S Hm Ex), (sqrt_int_stored g n y S' Hn Ey). cbn [discr]. reflexivity.
Qed.

(** ** Rounding *)

Lemma isfloor_unique x m n : isfloor x m -> isfloor x n -> m = n.
Proof. intros [A B] [A' B']. assert (m < n + 1) by (apply lt_IZR; rewrite plus_IZR; lra). assert (n < m + 1) by (apply lt_IZR; rewrite plus_IZR; lra). lia. Qed.
Lemma istrunc_unique x m n : istrunc x m -> istrunc x n -> m = n.
Proof.
  intros [A B] [A' B']. assert (m < n + 1 /\ n < m + 1); [|lia].
  destruct (Rle_dec 0 x) as [H|H].
  - specialize (A H). specialize (A' H). split; apply lt_IZR; rewrite plus_IZR; lra.
  - specialize (B ltac:(lra)). specialize (B' ltac:(lra)). split; apply lt_IZR; rewrite plus_IZR; lra.
Qed.
Lemma istrunc_opp x m : istrunc x m -> istrunc (- x) (- m).
Proof. intros [A B]. unfold istrunc. rewrite opp_IZR. split; intros H; [specialize (B ltac:(lra))|specialize (A ltac:(lra))]; lra. Qed.
Lemma istrunc_int m : istrunc (IZR m) m.
Proof. unfold istrunc. split; intros; lra. Qed.

Lemma floor_is g t s x v : normal g s -> sval s = RtoC x -> surd_floor g t s = Ok v -> exists n, v = surd_of_int n /\ isfloor x n.
Proof.
  intros N V H. apply rle_surd_floor in H. destruct (normal_real g s x N V) as [D ->].
  destruct (surd_floor_big g s N D) as (n & E & S). rewrite H in E. inversion E; subst. eauto.
Qed.

Lemma neg_normal g t s s' : normal g s -> surd_neg t s = Ok s' -> normal g s' /\ sval s' = (- sval s)%C.
Proof.
  intros N H. split; [|apply (L_C07_neg g t); auto]. apply rle_surd_neg in H.
  destruct (f_neg g (discr s) s (conj N (or_introl eq_refl))) as (s1 & E & [N1 _] & _). congruence.
Qed.

Lemma trunc_neg g t s s' v w : normal g s -> surd_neg t s = Ok s' -> surd_trunc g t s = Ok v -> surd_trunc g t s' = Ok w -> sval w = (- sval v)%C.
Proof.
  intros N Hn Hv Hw. destruct (neg_normal g t s s' N Hn) as [N' V'].
  apply surd_neg_ok in Hn. destruct Hn as [_ P]. apply rle_surd_trunc in Hv. apply rle_surd_trunc in Hw.
  destruct (Z.lt_ge_cases (discr s) 0) as [D|D].
  - assert (D' : discr s' < 0). { destruct s' as [[a' b' c'] r']. unfold parts in P. cbn in P. injection P; intros. cbn. lia. }
    destruct (surd_trunc_complex g s N D) as (u & m & n & E & Vu & _ & T1 & T2). rewrite Hv in E. inversion E; subst u.
    destruct (surd_trunc_complex g s' N' D') as (u & m' & n' & E' & Vu' & _ & T1' & T2'). rewrite Hw in E'. inversion E'; subst u.
    rewrite V' in T1', T2'. unfold Copp in T1', T2'. cbn [fst snd] in T1', T2'.
    rewrite (istrunc_unique _ _ _ T1' (istrunc_opp _ _ T1)) in Vu'. rewrite (istrunc_unique _ _ _ T2' (istrunc_opp _ _ T2)) in Vu'.
    rewrite Vu', Vu. unfold Copp. cbn [fst snd]. rewrite !opp_IZR. auto.
  - destruct s as [[a b c] r], s' as [[a' b' c'] r']. unfold parts in P. cbn in P. injection P; intros; subst a' b' c' r'. cbn [discr] in D.
    pose proof (normal_okc _ _ N) as Hc. unfold okc in Hc. cbn in Hc.
    unfold surd_trunc in Hv, Hw. replace (r <? 0) with false in * by lia. autorewrite with bigi in Hv, Hw. cbn [bind] in Hv, Hw.
    replace (- b * - b * r) with (b * b * r) in Hw by ring.
    rewrite sqrtB in Hv, Hw by nia. cbn [bind] in Hv, Hw. autorewrite with bigi in Hv, Hw. cbn [bind] in Hv, Hw. autorewrite with bigi in Hv, Hw.
    rewrite quotB in Hv, Hw by auto. cbn [bind] in Hv, Hw. inversion Hv; subst v. inversion Hw; subst w.
    rewrite !(proj1 (surd_of_int_spec g _)), <- ZtoC_opp. f_equal. rewrite Z.sgn_opp.
    replace (- a + - Z.sgn b * Z.sqrt (b * b * r)) with (- (a + Z.sgn b * Z.sqrt (b * b * r))) by ring. apply Z.quot_opp_l; auto.
Qed.

Lemma trunc_trunc g t s v w : normal g s -> surd_trunc g t s = Ok v -> surd_trunc g t v = Ok w -> sval w = sval v.
Proof.
  intros N Hv Hw. pose proof (surd_trunc_normal g t s v Hv) as Nv.
  assert (K : exists m n, sval v = (IZR m, IZR n)).
  { apply rle_surd_trunc in Hv. destruct (Z.lt_ge_cases (discr s) 0) as [D|D].
    - destruct (surd_trunc_complex g s N D) as (u & m & n & E & Vu & _). rewrite Hv in E. inversion E; subst u. eauto.
    - destruct (surd_trunc_real g s N D) as (n & E & _). rewrite Hv in E. inversion E; subst. exists n, 0. rewrite (proj1 (surd_of_int_spec g n)). reflexivity. }
  destruct K as (m & n & V). apply rle_surd_trunc in Hw. destruct (Z.lt_ge_cases (discr v) 0) as [D|D].
  - destruct (surd_trunc_complex g v Nv D) as (u & m' & n' & E & Vu & _ & T1 & T2). rewrite Hw in E. inversion E; subst u.
    rewrite V in T1, T2. cbn [fst snd] in T1, T2. rewrite Vu, V. f_equal; f_equal; eapply istrunc_unique; eauto; apply istrunc_int.
  - assert (R : exists x, sval v = RtoC x).
    { destruct (Req_dec (IZR n) 0) as [E|E]; [exists (IZR m); rewrite V, E; reflexivity|]. exfalso.
      assert (X : ~ exists x, sval v = RtoC x). { intros [x X]. rewrite V in X. inversion X. lra. }
      apply (normal_is_complex g v Nv) in X. unfold is_complex in X. apply Z.ltb_lt in X. lia. }
    destruct R as [x R]. assert (Ex : x = IZR m) by (rewrite V in R; inversion R; auto). subst x.
    pose proof (is_of_int g v m Nv R) as ->. destruct (L_C11_trunc_real_partial g BigI _ _ w Nv R Hw) as (k & Vk & _ & T & _).
    cbn [surd_of_int coeffs c1] in T. specialize (T ltac:(rewrite Rmult_0_l; lra)). rewrite Vk, R. unfold ZtoC. f_equal. f_equal.
    eapply istrunc_unique; eauto. apply istrunc_int.
Qed.

Lemma surd_div_normal g t x y m : normal g x -> normal g y -> surd_div g t x y = Ok m -> normal g m.
Proof. intros Nx Ny H. apply surd_div_ok in H; auto using normal_wf. tauto. Qed.
