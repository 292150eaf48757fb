(** * SmallInt: quadratic integers with small components do not overflow. *)

From Coq Require Import ZArith Znumtheory Lia Bool List.
From Verif Require Import Base Ext ModelSurd ModelInt Spec SpecInt SpecSmall IntOps SmallFit SmallOps.
Import ListNotations.
Open Scope Z_scope.

Lemma Ok_inj {A} (a b : A) : Ok a = Ok b -> a = b.
Proof. congruence. Qed.

Section QCo.
Context (t : ity) (M : Z) (R : room t M) (M16 : 16 <= M).

Lemma four_fit : four t = Ok 4.
Proof. unfold four. bigs. do 3 fit1 R ltac:(lia). reflexivity. Qed.
Lemma two_fit : lift2 (addT t) (Ok 1) (Ok 1) = Ok 2.
Proof. bigs. fit1 R ltac:(lia). reflexivity. Qed.

Lemma mod4_fit v : Z.abs v <= M -> mod4d2 t v = mod4d2 BigI v.
Proof.
  intros Hv. unfold mod4d2. rewrite four_fit. change (four BigI) with (Ok 4). unfold remT. bigs. change (4 =? 0) with false. cbv iota.
  fit1 R ltac:(pose proof (abs_quot v 4 M Hv); lia). pose proof (Z.rem_bound_abs v 4 ltac:(lia)) as B. set (m := Z.rem v 4) in *. clearbody m.
  destruct (m =? 0); [reflexivity|]. destruct (v <? 0).
  - fit1 R ltac:(lia). fit1 R ltac:(lia). change (1 + 1 =? 0) with false. cbv iota. fit1 R ltac:(eapply Z.le_trans; [apply abs_quot; apply abs_add; [apply Z.le_refl|apply Z.lt_le_incl, B]|cbn; lia]). reflexivity.
  - fit1 R ltac:(lia). change (1 + 1 =? 0) with false. cbv iota. fit1 R ltac:(eapply Z.le_trans; [apply abs_quot; apply Z.lt_le_incl, B|cbn; lia]). reflexivity.
Qed.

(** Rounded division: the quotient and the remainder are not larger than the operands *)
Lemma round_fit x y : Z.abs x + Z.abs y <= M -> div_rem_round t x y = div_rem_round BigI x y.
Proof.
  intros H. unfold div_rem_round, div_remT, remT. rewrite two_fit. change (lift2 (addT BigI) (Ok 1) (Ok 1)) with (Ok 2). bigs. change (2 =? 0) with false. cbv iota.
  fit1 R ltac:(lia). assert (O : Z.abs (Z.abs y ÷ 2) <= Z.abs y) by (apply abs_quot; lia). fit1 R ltac:(lia).
  assert (O2 : Z.abs (Z.abs y ÷ 2 * Z.sgn x) <= Z.abs y) by (rewrite Z.abs_mul; assert (Z.abs (Z.sgn x) <= 1) by lia; nia).
  fit1 R ltac:(lia). set (o := Z.abs y ÷ 2 * Z.sgn x) in *. assert (SO : 0 <= x * o).
  { unfold o. assert (0 <= Z.abs y ÷ 2) by (apply Z.quot_pos; lia). assert (0 <= x * Z.sgn x) by (destruct x; cbn; lia). nia. }
  clearbody o. fit1 R ltac:(lia). destruct (y =? 0) eqn:Y0; [reflexivity|]. apply Z.eqb_neq in Y0.
  fit1 R ltac:(pose proof (abs_quot (x + o) y _ (Z.le_refl _)); lia).
  assert (B : Z.abs (Z.rem (x + o) y - o) <= Z.abs y).
  { pose proof (Z.rem_bound_abs (x + o) y Y0) as B1. pose proof (Z.rem_sign_mul (x + o) y Y0) as S. set (m := Z.rem (x + o) y) in *. clearbody m.
    destruct (Z_lt_le_dec x 0); destruct (Z_lt_le_dec 0 o); try nia; destruct (Z.eq_dec x 0); subst; nia. }
  fit1 R ltac:(lia). reflexivity.
Qed.

Lemma round_bound x y q r : div_rem_round BigI x y = Ok (q, r) -> Z.abs q <= Z.abs x + Z.abs y /\ Z.abs r <= Z.abs y.
Proof.
  unfold div_rem_round, div_remT, remT. change (lift2 (addT BigI) (Ok 1) (Ok 1)) with (Ok 2). bigs. change (2 =? 0) with false. cbv iota. bigs.
  assert (O : Z.abs (Z.abs y ÷ 2) <= Z.abs y) by (apply abs_quot; lia).
  assert (O2 : Z.abs (Z.abs y ÷ 2 * Z.sgn x) <= Z.abs y) by (rewrite Z.abs_mul; assert (Z.abs (Z.sgn x) <= 1) by lia; nia).
  set (o := Z.abs y ÷ 2 * Z.sgn x) in *. assert (SO : 0 <= x * o).
  { unfold o. assert (0 <= Z.abs y ÷ 2) by (apply Z.quot_pos; lia). assert (0 <= x * Z.sgn x) by (destruct x; cbn; lia). nia. }
  clearbody o. destruct (y =? 0) eqn:Y0; [discriminate|]. apply Z.eqb_neq in Y0. bigs. intros H. inversion H; subst. split.
  - pose proof (abs_quot (x + o) y _ (Z.le_refl _)). lia.
  - pose proof (Z.rem_bound_abs (x + o) y Y0) as B1. pose proof (Z.rem_sign_mul (x + o) y Y0) as S. set (m := Z.rem (x + o) y) in *. clearbody m.
    destruct (Z_lt_le_dec x 0); destruct (Z_lt_le_dec 0 o); try nia; destruct (Z.eq_dec x 0); subst; nia.
Qed.

Ltac fitM := fit1 R ltac:(eapply Z.le_trans; [bstruct|]; pl).
Ltac fours := rewrite ?four_fit; change (four BigI) with (@Ok Z 4); bigs; change (4 =? 0) with false; cbv iota.

Section Sizes.
Context (L D : Z) (L1 : 1 <= L) (D1 : 1 <= D).
(** The largest intermediate result of a norm or a product *)
Notation N := (3 * (L * L) + L * L * (D + 1)).
Context (HN : N <= M).

Lemma sizes : L <= L * L /\ 0 < L * L /\ L * L <= L * L * D /\ D <= L * L * D.
Proof. assert (0 < L * L) by nia. repeat split; nia. Qed.

Lemma norm_fit x d : small_qco L x -> Z.abs d <= D -> qco_norm t x d = qco_norm BigI x d.
Proof.
  intros (Hx & Hy) Hd. pose proof sizes as (S1 & S2 & S3 & S4). destruct x as [x y]. cbn [q0 q1] in *. unfold qco_norm. cbn [q0 q1].
  destruct (d =? 0); [bigs; fitM; reflexivity|]. rewrite mod4_fit by (eapply Z.le_trans; [exact Hd|pl]). destruct (mod4d2 BigI d) as [[| |]| |]; try reflexivity; cbn [bind].
  - fours. repeat fitM. reflexivity.
  - bigs. repeat fitM. reflexivity.
Qed.

Lemma norm_bound x d n : small_qco L x -> Z.abs d <= D -> qco_norm BigI x d = Ok n -> Z.abs n <= N.
Proof.
  intros (Hx & Hy) Hd. pose proof sizes as (S1 & S2 & S3 & S4). destruct x as [x y]. cbn [q0 q1] in *. unfold qco_norm. cbn [q0 q1].
  destruct (d =? 0); [bigs; intros X; apply Ok_inj in X; subst; bnd|]. destruct (mod4d2 BigI d) as [[| |]| |]; try discriminate; cbn [bind].
  - fours. bigs. intros X. apply Ok_inj in X; subst. bnd.
  - bigs. intros X. apply Ok_inj in X; subst. bnd.
Qed.
End Sizes.

(** Products of a small and another operand *)
Lemma mul_fit x y d L E D : small_qco L x -> small_qco E y -> Z.abs d <= D -> 1 <= L -> 1 <= E -> 1 <= D -> 3 * (L * E) + L * E * (D + 1) <= M ->
  qco_mul t x y d = qco_mul BigI x y d.
Proof.
  intros (Ha & Hb) (Ha' & Hb') Hd L1 E1 D1 HN. assert (S2 : 0 < L * E) by nia. assert (S3 : L * E <= L * E * D) by nia. assert (S4 : D <= L * E * D) by nia.
  assert (S5 : E <= L * E) by (clear - L1 E1; nia). assert (S6 : L <= L * E) by (clear - L1 E1; nia).
  destruct x as [a b], y as [a' b']. cbn [q0 q1] in *. unfold qco_mul. cbn [q0 q1].
  rewrite mod4_fit by (eapply Z.le_trans; [exact Hd|pl]). destruct (mod4d2 BigI d) as [[| |]| |]; try reflexivity; cbn [bind].
  - fours. repeat fitM. reflexivity.
  - bigs. repeat fitM. reflexivity.
Qed.

Lemma mul_bound x y d L E D p : small_qco L x -> small_qco E y -> Z.abs d <= D -> 1 <= L -> 1 <= E -> 1 <= D -> qco_mul BigI x y d = Ok p ->
  small_qco (3 * (L * E) + L * E * (D + 1)) p.
Proof.
  intros (Ha & Hb) (Ha' & Hb') Hd L1 E1 D1. assert (S2 : 0 < L * E) by nia. assert (S3 : L * E <= L * E * D) by nia.
  destruct x as [a b], y as [a' b']. cbn [q0 q1] in *. unfold qco_mul. cbn [q0 q1].
  destruct (mod4d2 BigI d) as [[| |]| |]; try discriminate; cbn [bind].
  - fours. bigs. intros X. apply Ok_inj in X; subst. split; cbn [q0 q1]; bnd.
  - bigs. intros X. apply Ok_inj in X; subst. split; cbn [q0 q1]; bnd.
Qed.

Lemma div_int_fit x n : Z.abs (q0 x) + Z.abs n <= M -> Z.abs (q1 x) + Z.abs n <= M -> qco_div_int t x n = qco_div_int BigI x n /\ qco_rem_int t x n = qco_rem_int BigI x n.
Proof. intros. unfold qco_div_int, qco_rem_int. rewrite !round_fit by auto. auto. Qed.

Lemma div_rem_fit x y d L D : small_qco L x -> small_qco L y -> Z.abs d <= D -> 1 <= L -> 1 <= D ->
  let N := 3 * (L * L) + L * L * (D + 1) in let P := 3 * (L * N) + L * N * (D + 1) in P + N <= M ->
  qco_div_rem t x y d = qco_div_rem BigI x y d.
Proof.
  intros Sx Sy Hd L1 D1 N P HP. pose proof Sx as (Ha & Hb). pose proof Sy as (Ha' & Hb').
  assert (S2 : 0 < L * L) by nia. assert (S3 : L * L <= L * L * D) by nia. assert (S4 : D <= L * L * D) by nia.
  assert (N1 : 1 <= N) by (unfold N; nia). assert (LN : N <= L * N) by (clear - N1 L1; clearbody N; nia). assert (LND : 0 <= L * N * D) by (clear - LN N1 D1; clearbody N; nia).
  assert (NM : N + N <= M) by (unfold P in HP; lia). assert (NM' : 3 * (L * L) + L * L * (D + 1) <= M) by (fold N; lia).
  assert (PM : 3 * (L * N) + L * N * (D + 1) <= M) by (fold P; lia).
  unfold qco_div_rem. rewrite mod4_fit by (eapply Z.le_trans; [exact Hd|pl]).
  rewrite (norm_fit L D) by auto.
  assert (K : forall a b, Z.abs a <= N -> Z.abs b <= N ->
    (let! n := qco_norm BigI y d in let! (aq, ar) := div_rem_round t a n in let! (bq, br) := div_rem_round t b n in
     let! p := qco_mul t y (QCo ar br) d in let! rem := qco_div_int t p n in Ok (QCo aq bq, rem)) =
    (let! n := qco_norm BigI y d in let! (aq, ar) := div_rem_round BigI a n in let! (bq, br) := div_rem_round BigI b n in
     let! p := qco_mul BigI y (QCo ar br) d in let! rem := qco_div_int BigI p n in Ok (QCo aq bq, rem))).
  { intros a b A B. destruct (qco_norm BigI y d) as [n| |] eqn:En; try reflexivity. cbn [bind].
    apply (norm_bound L D L1 D1) in En; auto. fold N in En. clear Ha Hb Ha' Hb' S3 S4 S2.
    rewrite round_fit by lia. destruct (div_rem_round BigI a n) as [[aq ar]| |] eqn:E1; try reflexivity. cbn [bind].
    rewrite round_fit by lia. destruct (div_rem_round BigI b n) as [[bq br]| |] eqn:E2; try reflexivity. cbn [bind].
    apply round_bound in E1, E2. destruct E1 as [_ E1], E2 as [_ E2].
    assert (Sr : small_qco N (QCo ar br)) by (split; cbn [q0 q1]; eapply Z.le_trans; eauto).
    rewrite (mul_fit _ _ _ L N D) by auto. destruct (qco_mul BigI y (QCo ar br) d) as [p| |] eqn:E3; try reflexivity. cbn [bind].
    apply (mul_bound _ _ _ L N D) in E3; auto. destruct E3 as [P1 P2]. fold P in P1, P2.
    rewrite (proj1 (div_int_fit p n ltac:(clear - P1 En HP; lia) ltac:(clear - P2 En HP; lia))). reflexivity. }
  destruct x as [a b], y as [a' b']. cbn [q0 q1] in *.
  assert (NE : N = 3 * (L * L) + L * L * (D + 1)) by reflexivity. clearbody N. clearbody P.
  destruct (mod4d2 BigI d) as [[| |]| |]; try reflexivity; cbn [bind].
  - fours. repeat fitM. apply K; bnd.
  - bigs. repeat fitM. apply K; bnd.
Qed.
End QCo.

Section QInt.
Context (g : cfg) (t : ity).

Lemma from_coeffs_fit M a b d N : room t M -> 16 <= M -> ~ square d -> Z.abs a <= N -> Z.abs b <= N -> Z.abs d <= N -> N <= M ->
  qint_from_coeffs g t (QCo a b) d = qint_from_coeffs g BigI (QCo a b) d.
Proof.
  intros R M16 Sq Ha Hb Hd HN. unfold qint_from_coeffs. destruct (_ && _); [reflexivity|]. rewrite (four_fit t M R) by auto. change (four BigI) with (Ok 4).
  unfold remT, sqrtT. bigs. change (4 =? 0) with false. cbv iota. fit1 R ltac:(pose proof (abs_quot d 4 N Hd); lia). destruct (Z.rem d 4 =? 0); [reflexivity|].
  fit1 R ltac:(lia). destruct (Z.abs d <? 0) eqn:E0; [lia|]. bigs. pose proof (sqrt_sq (Z.abs d) ltac:(lia)) as Q. pose proof (Z.sqrt_nonneg (Z.abs d)).
  fit1 R ltac:(rewrite Z.abs_eq by nia; lia). destruct (_ =? d) eqn:E; [|reflexivity].
  exfalso. apply Sq. exists (Z.sqrt (Z.abs d)). lia.
Qed.

Lemma root_zero x : wfq g x -> qdiscr x = 0 -> q1 (qcoeffs x) = 0.
Proof. intros [[H _]|[H _]] E; [auto|]. exfalso. apply H. exists 0. auto. Qed.

(** Operands over the same root are left alone *)
Lemma bin_op_same M x y : room t M -> Z.abs (qdiscr x) <= M -> qdiscr x = qdiscr y ->
  qint_reduce_bin_op_unwrap g t x y = qint_reduce_bin_op_unwrap g BigI x y /\
  (forall x' y', qint_reduce_bin_op_unwrap g BigI x y = Ok (x', y') -> x' = x /\ y' = y).
Proof.
  intros R H E. unfold qint_reduce_bin_op_unwrap, qint_reduce_bin_op, dassert. rewrite <- E. rewrite xorb_nilpotent, Z.ltb_irrefl. destruct (cplx g).
  - bigs. fit1 R ltac:(lia). rewrite !Z.ltb_irrefl. bigs. rewrite <- E, Z.eqb_refl. cbn [bind]. split; [reflexivity|]. intros x' y' X. inversion X. auto.
  - destruct (_ && _); [split; [reflexivity|discriminate]|]. cbn [bind]. bigs. rewrite <- E, Z.eqb_refl. split; [reflexivity|]. intros x' y' X. inversion X. auto.
Qed.

(** A plain integer as an operand of the root matching *)
Lemma bin_op_zero M x y : room t M -> Z.abs (qdiscr y) <= M -> qdiscr x = 0 -> qdiscr y <> 0 ->
  qint_reduce_bin_op_unwrap g t x y = qint_reduce_bin_op_unwrap g BigI x y /\ forall p, qint_reduce_bin_op_unwrap g BigI x y <> Ok p.
Proof.
  intros R H E N. unfold qint_reduce_bin_op_unwrap, qint_reduce_bin_op, dassert. rewrite E. destruct (cplx g).
  - destruct (xorb _ _); [split; [reflexivity|discriminate]|]. bigs. fit1 R ltac:(pose proof (Z.abs_nonneg (qdiscr y)); cbn; lia). fit1 R ltac:(lia).
    change (Z.abs 0) with 0. destruct (Z.abs (qdiscr y) <? 0) eqn:L1; [lia|]. destruct (0 <? Z.abs (qdiscr y)) eqn:L2; [|lia]. split; [reflexivity|discriminate].
  - rewrite Z.eqb_refl. destruct (_ && _); [split; [reflexivity|discriminate]|]. cbn [bind]. destruct (_ && _); [split; [reflexivity|discriminate]|]. cbn [bind].
    bigs. destruct (qdiscr y <? 0) eqn:L1.
    + destruct (qdiscr y =? 0) eqn:L3; [lia|]. change (Z.quot 0 (qdiscr y)) with 0. fit1 R ltac:(cbn; pose proof (Z.abs_nonneg (qdiscr y)); lia).
      unfold qint_reduce_root_hinted. bigs. fit1 R ltac:(cbn; pose proof (Z.abs_nonneg (qdiscr y)); lia). change (Z.abs 0 =? 0) with true. cbn [orb bind].
      rewrite E. destruct (0 =? qdiscr y) eqn:L4; [lia|]. split; [reflexivity|discriminate].
    + destruct (0 <? qdiscr y) eqn:L2; [|lia]. split; [reflexivity|discriminate].
Qed.

Context (K : Z) (HK : 4 <= K).

Lemma pow_ge i : 2 <= i -> 16 <= K ^ i.
Proof. intros. transitivity (K ^ 2); [nia|]. apply Z.pow_le_mono_r; lia. Qed.

Lemma add_int_fit x k : room t (K ^ 2) -> small_qint K x -> Z.abs k <= K -> qint_add_int t x k = qint_add_int BigI x k /\ qint_sub_int t x k = qint_sub_int BigI x k.
Proof.
  intros R ((Ha & Hb) & Hd) Hk. pose proof (pows K HK) as (P1 & _). unfold qint_add_int, qint_sub_int, qco_add_int, qco_sub_int. bigs.
  split; fit R; reflexivity.
Qed.

Lemma mul_int_fit x k : room t (K ^ 2) -> small_qint K x -> Z.abs k <= K -> qint_mul_int t x k = qint_mul_int BigI x k.
Proof.
  intros R ((Ha & Hb) & Hd) Hk. pose proof (pows K HK) as (P1 & _). unfold qint_mul_int, qco_mul_int. destruct (k =? 0); [reflexivity|]. bigs.
  do 2 fit R. reflexivity.
Qed.

Lemma div_rem_int_fit x k : room t (K ^ 2) -> small_qint K x -> Z.abs k <= K -> qint_div_int t x k = qint_div_int BigI x k /\ qint_rem_int t x k = qint_rem_int BigI x k.
Proof.
  intros R ((Ha & Hb) & Hd) Hk. pose proof (pow_ge 2 ltac:(lia)). pose proof (pows K HK) as (P1 & _). unfold qint_div_int, qint_rem_int.
  destruct (div_int_fit t (K ^ 2) R ltac:(auto) (qcoeffs x) k ltac:(lia) ltac:(lia)) as [-> ->]. auto.
Qed.

Lemma conj_neg_fit x : room t (K ^ 2) -> small_qint K x -> qint_conj t x = qint_conj BigI x /\ qint_neg t x = qint_neg BigI x.
Proof.
  intros R ((Ha & Hb) & Hd). pose proof (pow_ge 2 ltac:(lia)) as M16. pose proof (pows K HK) as (P1 & _). split.
  - unfold qint_conj, qco_conj. destruct (_ =? 0); [reflexivity|]. rewrite (mod4_fit t (K ^ 2) R M16) by (clear - Hd P1; lia).
    destruct (mod4d2 BigI _) as [[| |]| |]; try reflexivity; cbn [bind]; bigs; [do 2 fit R|fit R]; reflexivity.
  - unfold qint_neg. bigs. do 2 fit R. reflexivity.
Qed.

Lemma qnorm_fit x : room t (K ^ 4) -> small_qint K x -> qint_norm t x = qint_norm BigI x.
Proof.
  intros R (Hx & Hd). pose proof (pows K HK) as (P1 & P2 & P3 & _). apply (norm_fit t (K ^ 4) R (pow_ge 4 ltac:(lia)) K K); auto; pl.
Qed.

(** Two operands over one root, or with a plain integer *)
Lemma irr_roots x y : wfq g x -> wfq g y -> one_root x y -> q1 (qcoeffs x) <> 0 -> q1 (qcoeffs y) <> 0 -> qdiscr x = qdiscr y /\ ~ square (qdiscr x).
Proof.
  intros Wx Wy H Nx Ny. assert (E : qdiscr x = qdiscr y).
  { destruct H as [H|[H|H]]; [auto|exfalso; apply Nx; apply root_zero; auto|exfalso; apply Ny; apply root_zero; auto]. }
  split; [auto|]. apply (wfq_irr g x Wx Nx).
Qed.

Lemma qadd_fit x y : room t (K ^ 2) -> wfq g x -> wfq g y -> one_root x y -> small_qint K x -> small_qint K y -> qint_add g t x y = qint_add g BigI x y.
Proof.
  intros R Wx Wy O Sx Sy. pose proof Sx as ((Ha & Hb) & Hd). pose proof Sy as ((Ha' & Hb') & Hd'). pose proof (pows K HK) as (P1 & _). unfold qint_add, qint_is_rational.
  destruct (q1 (qcoeffs y) =? 0) eqn:Y0; [apply add_int_fit; auto|]. destruct (q1 (qcoeffs x) =? 0) eqn:X0; [apply add_int_fit; auto|].
  apply Z.eqb_neq in X0, Y0. destruct (irr_roots x y Wx Wy O X0 Y0) as [E Sq].
  destruct (bin_op_same (K ^ 2) x y R ltac:(bnd) E) as [-> U]. destruct (qint_reduce_bin_op_unwrap g BigI x y) as [[x' y']| |]; try reflexivity. cbn [bind].
  destruct (U x' y' eq_refl) as [-> ->]. unfold qco_add. bigs. do 2 fit R. apply (from_coeffs_fit (K ^ 2) _ _ _ (K + K)); auto; try congruence; try bnd; try pl. all: try (apply pow_ge; lia).
Qed.

Lemma qsub_fit x y : room t (K ^ 2) -> wfq g x -> wfq g y -> one_root x y -> small_qint K x -> small_qint K y -> qint_sub g t x y = qint_sub g BigI x y.
Proof.
  intros R Wx Wy O Sx Sy. pose proof Sx as ((Ha & Hb) & Hd). pose proof Sy as ((Ha' & Hb') & Hd'). pose proof (pows K HK) as (P1 & _). unfold qint_sub, qint_is_rational.
  destruct (q1 (qcoeffs y) =? 0) eqn:Y0; [apply add_int_fit; auto|]. destruct (q1 (qcoeffs x) =? 0) eqn:X0.
  { destruct (add_int_fit y _ R Sy Ha) as [_ ->]. unfold qint_sub_int, qco_sub_int, qint_neg. bigs. cbn [qcoeffs qdiscr q0 q1]. do 2 fit R. reflexivity. }
  apply Z.eqb_neq in X0, Y0. destruct (irr_roots x y Wx Wy O X0 Y0) as [E Sq].
  destruct (bin_op_same (K ^ 2) x y R ltac:(bnd) E) as [-> U]. destruct (qint_reduce_bin_op_unwrap g BigI x y) as [[x' y']| |]; try reflexivity. cbn [bind].
  destruct (U x' y' eq_refl) as [-> ->]. unfold qco_sub. bigs. do 2 fit R. apply (from_coeffs_fit (K ^ 2) _ _ _ (K + K)); auto; try congruence; try bnd; try pl. all: try (apply pow_ge; lia).
Qed.

Lemma room_pow' i j : room t (K ^ i) -> 0 <= j <= i -> room t (K ^ j).
Proof. intros R H. apply (room_le t (K ^ i)); auto. apply Z.pow_le_mono_r; lia. Qed.

Lemma qmul_fit x y : room t (K ^ 4) -> wfq g x -> wfq g y -> one_root x y -> small_qint K x -> small_qint K y -> qint_mul g t x y = qint_mul g BigI x y.
Proof.
  intros R Wx Wy O Sx Sy. pose proof Sx as ((Ha & Hb) & Hd). pose proof Sy as ((Ha' & Hb') & Hd'). pose proof (pows K HK) as (P1 & P2 & P3 & _). pose proof (room_pow' 4 2 R ltac:(lia)) as R2.
  unfold qint_mul, qint_is_rational.
  destruct (q1 (qcoeffs y) =? 0) eqn:Y0; [apply mul_int_fit; auto|]. destruct (q1 (qcoeffs x) =? 0) eqn:X0; [apply mul_int_fit; auto|].
  apply Z.eqb_neq in X0, Y0. destruct (irr_roots x y Wx Wy O X0 Y0) as [E Sq].
  destruct (bin_op_same (K ^ 4) x y R ltac:(bnd) E) as [-> U]. destruct (qint_reduce_bin_op_unwrap g BigI x y) as [[x' y']| |]; try reflexivity. cbn [bind].
  destruct (U x' y' eq_refl) as [-> ->]. rewrite (mul_fit t (K ^ 4) R (pow_ge 4 ltac:(lia)) _ _ _ K K K) by (auto; try apply Sx; try apply Sy; pl).
  destruct (qco_mul BigI _ _ _) as [[a b]| |] eqn:F; try reflexivity. cbn [bind]. apply (mul_bound 16 ltac:(lia) _ _ _ K K K) in F; auto; try apply Sx; try apply Sy; try pl. destruct F as [F1 F2]. cbn [q0 q1] in *.
  apply (from_coeffs_fit (K ^ 4) _ _ _ (3 * (K * K) + K * K * (K + 1))); auto; try congruence; try bnd; try pl. all: try (apply pow_ge; lia).
Qed.

Lemma div_size : 5 <= K -> let N := 3 * (K * K) + K * K * (K + 1) in let P := 3 * (K * N) + K * N * (K + 1) in P + N <= K ^ 6.
Proof.
  intros K5 N P. assert (N1 : 5 * N <= 9 * (K * K * K)) by (unfold N; nia). assert (N0 : 0 <= N) by (unfold N; nia).
  assert (P1 : 25 * P <= 81 * (K * K * K * K * K)).
  { unfold P. assert (A : K * N * (K + 4) * 5 <= 9 * (K * N * K)) by (assert (0 <= K * N) by nia; nia).
    assert (B : 5 * (K * K * N) <= 9 * (K * K * K * K * K)) by (assert (0 <= K * K) by nia; nia). nia. }
  assert (Q1 : 5 * (K * K * K * K * K) <= K ^ 6) by (assert (0 <= K * K * K * K * K) by nia; nia).
  assert (Q2 : 5 * (K * K * K * K) <= K * K * K * K * K) by (assert (0 <= K * K * K * K) by nia; nia).
  assert (Q3 : 5 * (K * K * K) <= K * K * K * K) by (assert (0 <= K * K * K) by nia; nia). lia.
Qed.

Lemma qdiv_rem_bound x y d q r : small_qco K x -> small_qco K y -> Z.abs d <= K -> qco_div_rem BigI x y d = Ok (q, r) ->
  let N := 3 * (K * K) + K * K * (K + 1) in let P := 3 * (K * N) + K * N * (K + 1) in small_qco (P + N) q /\ small_qco (P + N) r.
Proof.
  intros Sx Sy Hd. intros H N P. pose proof Sx as (Ha & Hb). pose proof Sy as (Ha' & Hb').
  assert (K1 : 1 <= K) by lia. assert (S2 : 0 < K * K) by (clear - HK; nia). assert (S3 : K * K <= K * K * K) by (clear - HK S2; nia).
  assert (N1 : 1 <= N) by (unfold N; lia). assert (LN : 3 * N <= 3 * (K * N)) by (clear - N1 K1; clearbody N; nia). assert (LND : 0 <= K * N * (K + 1)) by (clear - N1 K1; clearbody N; nia).
  assert (NP : N <= P) by (unfold P; lia). unfold qco_div_rem in H.
  assert (F : forall a b, Z.abs a <= N -> Z.abs b <= N ->
    (let! n := qco_norm BigI y d in let! (aq, ar) := div_rem_round BigI a n in let! (bq, br) := div_rem_round BigI b n in
     let! p := qco_mul BigI y (QCo ar br) d in let! rem := qco_div_int BigI p n in Ok (QCo aq bq, rem)) = Ok (q, r) -> small_qco (P + N) q /\ small_qco (P + N) r).
  { intros a b A B X. destruct (qco_norm BigI y d) as [n| |] eqn:En; try discriminate. cbn [bind] in X.
    apply (norm_bound 16 ltac:(lia) K K K1 K1) in En; auto. fold N in En.
    destruct (div_rem_round BigI a n) as [[aq ar]| |] eqn:E1; try discriminate. cbn [bind] in X.
    destruct (div_rem_round BigI b n) as [[bq br]| |] eqn:E2; try discriminate. cbn [bind] in X.
    apply (round_bound 16 ltac:(lia)) in E1, E2. destruct E1 as [E1 E1'], E2 as [E2 E2'].
    assert (Sr : small_qco N (QCo ar br)) by (split; cbn [q0 q1]; eapply Z.le_trans; eauto).
    destruct (qco_mul BigI y (QCo ar br) d) as [p| |] eqn:E3; try discriminate. cbn [bind] in X.
    apply (mul_bound 16 ltac:(lia) _ _ _ K N K) in E3; auto. destruct E3 as [P1 P2]. fold P in P1, P2.
    unfold qco_div_int in X. destruct (div_rem_round BigI (q0 p) n) as [[c ?]| |] eqn:E4; try discriminate. cbn [bind] in X.
    destruct (div_rem_round BigI (q1 p) n) as [[c' ?]| |] eqn:E5; try discriminate. cbn [bind] in X. apply (round_bound 16 ltac:(lia)) in E4, E5.
    apply Ok_inj in X. inversion X. split; split; cbn [q0 q1].
    - clear - E1 A En NP. lia.
    - clear - E2 B En NP. lia.
    - destruct E4 as [E4 _]. clear - E4 P1 En NP. lia.
    - destruct E5 as [E5 _]. clear - E5 P2 En NP. lia. }
  destruct (mod4d2 BigI d) as [[| |]| |]; try discriminate; cbn [bind] in H.
  - revert H. change (four BigI) with (@Ok Z 4). bigs. change (4 =? 0) with false. cbv iota. bigs. intros H.
    match type of H with bind _ (fun n => bind (div_rem_round _ ?u _) (fun x => let '(_, _) := x in bind (div_rem_round _ ?v _) _)) = _ => apply (F u v) end; auto; unfold N; bnd.
  - revert H. bigs. intros H.
    match type of H with bind _ (fun n => bind (div_rem_round _ ?u _) (fun x => let '(_, _) := x in bind (div_rem_round _ ?v _) _)) = _ => apply (F u v) end; auto; unfold N; bnd.
Qed.

Lemma qdiv_rem_fit x y : room t (K ^ 6) -> 5 <= K -> wfq g x -> wfq g y -> one_root x y -> small_qint K x -> small_qint K y ->
  qint_div g t x y = qint_div g BigI x y /\ qint_rem g t x y = qint_rem g BigI x y.
Proof.
  intros R K5 Wx Wy O Sx Sy. pose proof Sx as ((Ha & Hb) & Hd). pose proof Sy as ((Ha' & Hb') & Hd'). pose proof (room_pow' 6 2 R ltac:(lia)) as R2.
  pose proof (div_size K5) as Sz. cbv zeta in Sz. set (N := 3 * (K * K) + K * K * (K + 1)) in *. set (P := 3 * (K * N) + K * N * (K + 1)) in *.
  assert (KP : K <= P + N) by (assert (0 <= N) by (unfold N; clear - HK; nia); assert (0 <= P) by (unfold P; clearbody N; clear - HK H; nia); enough (K <= N) by lia; unfold N; clear - HK; nia).
  assert (DR : forall d, Z.abs d <= K -> qco_div_rem t (qcoeffs x) (qcoeffs y) d = qco_div_rem BigI (qcoeffs x) (qcoeffs y) d).
  { intros d D. apply (div_rem_fit t (K ^ 6) R (pow_ge 6 ltac:(lia)) _ _ _ K K); try apply Sx; try apply Sy; auto; lia. }
  assert (FC : forall a b d, ~ square d -> small_qco (P + N) (QCo a b) -> Z.abs d <= K -> qint_from_coeffs g t (QCo a b) d = qint_from_coeffs g BigI (QCo a b) d).
  { intros a b d Sq (A & B) D. cbn [q0 q1] in A, B. apply (from_coeffs_fit (K ^ 6) _ _ _ (P + N)); auto; [apply pow_ge; lia|lia]. }
  assert (DB : forall d q r, Z.abs d <= K -> qco_div_rem BigI (qcoeffs x) (qcoeffs y) d = Ok (q, r) -> small_qco (P + N) q /\ small_qco (P + N) r).
  { intros d q r D. apply qdiv_rem_bound; auto; [apply Sx|apply Sy]. }
  clearbody N P. split.
  - unfold qint_div, qint_is_rational. destruct (q1 (qcoeffs y) =? 0) eqn:Y0; [apply div_rem_int_fit; auto|]. apply Z.eqb_neq in Y0. destruct (q1 (qcoeffs x) =? 0) eqn:X0.
    + unfold qco_div. rewrite DR by auto. destruct (qco_div_rem BigI _ _ _) as [[[a b] r]| |] eqn:E; try reflexivity. cbn [bind]. apply FC; auto; [apply (wfq_irr g y Wy Y0)|].
      apply (DB _ _ _ Hd' E).
    + apply Z.eqb_neq in X0. destruct (irr_roots x y Wx Wy O X0 Y0) as [E Sq].
      destruct (bin_op_same (K ^ 2) x y R2 ltac:(clear - Hd HK; nia) E) as [-> U]. destruct (qint_reduce_bin_op_unwrap g BigI x y) as [[x' y']| |]; try reflexivity. cbn [bind].
      destruct (U x' y' eq_refl) as [-> ->]. unfold qco_div. rewrite DR by auto. destruct (qco_div_rem BigI _ _ _) as [[[a b] r]| |] eqn:F; try reflexivity. cbn [bind]. apply FC; auto; [congruence|].
      apply (DB _ _ _ Hd F).
  - unfold qint_rem, qint_is_rational. destruct (q1 (qcoeffs y) =? 0) eqn:Y0; [apply div_rem_int_fit; auto|]. apply Z.eqb_neq in Y0. pose proof (proj1 (wfq_irr g y Wy Y0)) as SY || pose proof (wfq_irr g y Wy Y0) as SY.
    assert (C : qdiscr x = qdiscr y \/ qdiscr x <> qdiscr y /\ qdiscr x = 0).
    { destruct (Z.eq_dec (qdiscr x) (qdiscr y)); [auto|]. right. split; [auto|]. destruct O as [O|[O|O]]; [congruence|auto|]. exfalso. apply Y0, root_zero; auto. }
    destruct C as [E|[E1 E]].
    + destruct (bin_op_same (K ^ 2) x y R2 ltac:(clear - Hd HK; nia) E) as [-> U]. destruct (qint_reduce_bin_op_unwrap g BigI x y) as [[x' y']| |]; try reflexivity. cbn [bind].
      destruct (U x' y' eq_refl) as [-> ->]. rewrite DR by auto. destruct (qco_div_rem BigI _ _ _) as [[q [a b]]| |] eqn:F; try reflexivity. cbn [bind]. apply FC; auto.
      apply (DB _ _ _ Hd F).
    + destruct (bin_op_zero (K ^ 2) x y R2 ltac:(clear - Hd' HK; nia) E ltac:(congruence)) as [-> U]. destruct (qint_reduce_bin_op_unwrap g BigI x y) as [p| |] eqn:F; try reflexivity. exfalso. exact (U p eq_refl).
Qed.

Lemma doubled_fit x : room t (K ^ 2) -> small_qint K x -> qint_parts_doubled t x = qint_parts_doubled BigI x /\
  (forall u v, qint_parts_doubled BigI x = Ok (u, v) -> Z.abs v <= 2 * K).
Proof.
  intros R ((Ha & Hb) & Hd). pose proof (pow_ge 2 ltac:(lia)) as M16. pose proof (pows K HK) as (P1 & _). unfold qint_parts_doubled.
  destruct (qcoeffs x) as [a b]. cbn [q0 q1] in *. rewrite (mod4_fit t (K ^ 2) R M16) by (clear - Hd P1; lia).
  destruct (mod4d2 BigI _) as [[| |]| |]; cbn [bind]; bigs; split; try reflexivity; try discriminate; try (repeat fit R; reflexivity); intros u v X; apply Ok_inj in X; inversion X; subst; clear - Hb HK; lia.
Qed.

Lemma qeq_fit x y : room t (K ^ 4) -> small_qint K x -> small_qint K y -> qint_eq t x y = qint_eq BigI x y.
Proof.
  intros R Sx Sy. pose proof (room_pow' 4 2 R ltac:(lia)) as R2. unfold qint_eq. destruct (_ =? _); [reflexivity|]. destruct (_ || _); [reflexivity|].
  destruct (doubled_fit x R2 Sx) as [-> B1]. destruct (qint_parts_doubled BigI x) as [[u v]| |]; try reflexivity. cbn [bind]. specialize (B1 u v eq_refl).
  destruct (doubled_fit y R2 Sy) as [-> B2]. destruct (qint_parts_doubled BigI y) as [[u' v']| |]; try reflexivity. cbn [bind]. specialize (B2 u' v' eq_refl).
  destruct (u =? u'); [|reflexivity]. pose proof (pows K HK) as (P1 & P2 & P3 & _). destruct Sx as [_ Dx], Sy as [_ Dy]. clear R2. bigs.
  repeat fit R. reflexivity.
Qed.
End QInt.

Section Gauss.
Context (t : ity) (K : Z) (K6 : 6 <= K).

Let HK : 4 <= K.
Proof. lia. Qed.

Lemma neg1_fit M : 16 <= M -> room t M -> negT t 1 = Ok (-1).
Proof. intros M16 R. unfold negT. change (Z.opp 1) with (-1). apply (chk_room t M); auto. cbn. lia. Qed.

Lemma gauss_basic_fit x y : room t (K ^ 3) -> small_qco K x -> small_qco K y ->
  gauss_conj t x = gauss_conj BigI x /\ gauss_norm t x = gauss_norm BigI x /\ gauss_add t x y = gauss_add BigI x y /\ gauss_sub t x y = gauss_sub BigI x y /\ gauss_mul t x y = gauss_mul BigI x y.
Proof.
  intros R Sx Sy. pose proof Sx as (Ha & Hb). pose proof Sy as (Ha' & Hb'). pose proof (pows K HK) as (P1 & P2 & P3 & _). pose proof (pow_ge K HK 3 ltac:(lia)) as M16.
  repeat split.
  - unfold gauss_conj. bigs. fit R. reflexivity.
  - unfold gauss_norm. bigs. repeat fit R. reflexivity.
  - unfold gauss_add, qco_add. bigs. repeat fit R. reflexivity.
  - unfold gauss_sub, qco_sub. bigs. repeat fit R. reflexivity.
  - unfold gauss_mul, lift1. cbn [bind]. rewrite (neg1_fit _ M16 R). change (negT BigI 1) with (@Ok Z (-1)). cbn [bind].
    apply (mul_fit t (K ^ 3) R M16 _ _ _ K K 1); auto; try (cbn; lia); try lia. clear - K6. nia.
Qed.

Lemma gauss_div_fit x y : room t (K ^ 5) -> small_qco K x -> small_qco K y -> gauss_div t x y = gauss_div BigI x y /\ gauss_rem t x y = gauss_rem BigI x y.
Proof.
  intros R Sx Sy. pose proof (pow_ge K HK 5 ltac:(lia)) as M16.
  assert (D : qco_div_rem t x y (-1) = qco_div_rem BigI x y (-1)).
  { apply (div_rem_fit t (K ^ 5) R M16 _ _ _ K 1); auto; try (cbn; lia); try lia. clear - K6.
    assert (A : 6 * (K * K) <= K * K * K) by nia. assert (B : 36 * (K * K * K) <= K * K * K * K * K) by (assert (0 <= K * K * K) by nia; nia). nia. }
  unfold gauss_div, gauss_rem, qco_div, lift1. cbn [bind]. rewrite (neg1_fit _ M16 R). change (negT BigI 1) with (@Ok Z (-1)). cbn [bind]. rewrite D. auto.
Qed.
End Gauss.
