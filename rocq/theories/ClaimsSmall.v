(** * ClaimsSmall: proofs of the property theorems in PropsSmall.v. *)

From Coq Require Import ZArith Znumtheory Reals Lia Lra Bool List.
From Coquelicot Require Import Coquelicot.
From Verif Require Import Base Ext ModelSurd ModelInt Spec SpecInt SpecSmall SurdCore SurdDecide IntDecide SmallFit SmallOps SmallInt.
Import ListNotations.
Open Scope Z_scope.

Lemma L_C69_new : forall g n K a b c r, 4 <= K -> K ^ 2 < 2 ^ (n - 1) -> Z.abs a <= K -> Z.abs b <= K -> Z.abs c <= K -> Z.abs r <= K ->
  surd_new g (SInt n) a b c r = surd_new g BigI a b c r.
Proof. intros g n K a b c r HK H A B C R. apply (surd_new_fit g _ K HK); auto. apply room_sint. auto. Qed.

Lemma L_C69_add_sub_mul : forall g n K x y, 4 <= K -> K ^ 4 < 2 ^ (n - 1) -> normal g x -> normal g y -> small K x -> small K y ->
  surd_add g (SInt n) x y = surd_add g BigI x y /\ surd_sub g (SInt n) x y = surd_sub g BigI x y /\ surd_mul g (SInt n) x y = surd_mul g BigI x y.
Proof.
  intros g n K x y HK H Nx Ny Sx Sy. apply room_sint in H.
  repeat split; [apply (add_fit g _ K HK)|apply (sub_fit g _ K HK)|apply (SmallOps.mul_fit g _ K HK)]; auto.
Qed.

Lemma L_C69_recip : forall g n K x, 4 <= K -> K ^ 6 < 2 ^ (n - 1) -> normal g x -> small K x -> surd_recip g (SInt n) x = surd_recip g BigI x.
Proof. intros g n K x HK H Nx Sx. apply (recip_small_fit g _ K HK); auto. apply room_sint. auto. Qed.

Lemma L_C69_div : forall g n K x y, 4 <= K -> K ^ 10 < 2 ^ (n - 1) -> normal g x -> normal g y -> small K x -> small K y ->
  surd_div g (SInt n) x y = surd_div g BigI x y.
Proof. intros g n K x y HK H Nx Ny Sx Sy. apply (div_fit g _ K HK); auto. apply room_sint. auto. Qed.

Lemma L_C69_int_operand : forall g n K x k, 4 <= K -> K ^ 4 < 2 ^ (n - 1) -> small K x -> Z.abs k <= K ->
  surd_add_int g (SInt n) x k = surd_add_int g BigI x k /\ surd_sub_int g (SInt n) x k = surd_sub_int g BigI x k /\
  surd_mul_int g (SInt n) x k = surd_mul_int g BigI x k /\ surd_div_int g (SInt n) x k = surd_div_int g BigI x k.
Proof.
  intros g n K x k HK H Sx Hk. apply room_sint in H. pose proof (room_pow (SInt n) K HK 4 3 H ltac:(lia)) as H3.
  repeat split; [apply (SmallOps.add_int_fit g _ K HK)|apply (sub_int_fit g _ K HK)|apply (SmallOps.mul_int_fit g _ K HK)|apply (SmallOps.div_int_fit g _ K HK)]; auto.
Qed.

Lemma L_C69_ratio_operand : forall g n K x q, 4 <= K -> K ^ 4 < 2 ^ (n - 1) -> small K x -> small_ratio K q ->
  surd_add_ratio g (SInt n) x q = surd_add_ratio g BigI x q /\ surd_sub_ratio g (SInt n) x q = surd_sub_ratio g BigI x q /\
  surd_mul_ratio g (SInt n) x q = surd_mul_ratio g BigI x q /\ surd_div_ratio g (SInt n) x q = surd_div_ratio g BigI x q.
Proof.
  intros g n K x q HK H Sx Sq. apply room_sint in H.
  repeat split; [apply (add_ratio_fit g _ K HK)|apply (sub_ratio_fit g _ K HK)|apply (mul_ratio_fit g _ K HK)|apply (div_ratio_fit g _ K HK)]; auto.
Qed.

Lemma L_C69_query : forall g n K x, 4 <= K -> K ^ 3 < 2 ^ (n - 1) -> small K x ->
  surd_neg (SInt n) x = surd_neg BigI x /\ surd_conj (SInt n) x = surd_conj BigI x /\
  surd_is_positive g (SInt n) x = surd_is_positive g BigI x /\ surd_is_negative g (SInt n) x = surd_is_negative g BigI x /\
  surd_floor g (SInt n) x = surd_floor g BigI x /\ surd_trunc g (SInt n) x = surd_trunc g BigI x /\
  (0 <= discr x -> surd_fract g (SInt n) x = surd_fract g BigI x) /\
  surd_to_rational g (SInt n) x = surd_to_rational g BigI x /\ surd_to_integer g (SInt n) x = surd_to_integer g BigI x.
Proof.
  intros g n K x HK H Sx. apply room_sint in H. assert (S3 : small (K ^ 3) x) by (apply (small_le K); auto; nia).
  repeat split; [apply (neg_fit _ (K ^ 3))|apply (conj_fit _ (K ^ 3))|apply (positive_fit g _ K HK)|apply (negative_fit g _ K HK)|apply (floor_fit g _ K HK)|apply (trunc_fit g _ K HK)
    |intros; apply (fract_fit g _ K HK)|apply (to_rational_fit g _ K HK)|apply (to_integer_fit g _ K HK)]; auto.
Qed.

Lemma L_C69_eq : forall n K x y, 4 <= K -> K ^ 5 < 2 ^ (n - 1) -> small K x -> small K y -> surd_eq (SInt n) x y = surd_eq BigI x y.
Proof. intros n K x y HK H Sx Sy. apply (eq_fit _ K HK); auto. apply room_sint. auto. Qed.

Lemma L_C69_qint_add_sub : forall g n K x y, 4 <= K -> K ^ 2 < 2 ^ (n - 1) -> wfq g x -> wfq g y -> one_root x y -> small_qint K x -> small_qint K y ->
  qint_add g (SInt n) x y = qint_add g BigI x y /\ qint_sub g (SInt n) x y = qint_sub g BigI x y.
Proof. intros g n K x y HK H Wx Wy O Sx Sy. apply room_sint in H. split; [apply (qadd_fit g _ K HK)|apply (qsub_fit g _ K HK)]; auto. Qed.

Lemma L_C69_qint_mul : forall g n K x y, 4 <= K -> K ^ 4 < 2 ^ (n - 1) -> wfq g x -> wfq g y -> one_root x y -> small_qint K x -> small_qint K y ->
  qint_mul g (SInt n) x y = qint_mul g BigI x y /\ qint_norm (SInt n) x = qint_norm BigI x /\ qint_eq (SInt n) x y = qint_eq BigI x y.
Proof. intros g n K x y HK H Wx Wy O Sx Sy. apply room_sint in H. repeat split; [apply (qmul_fit g _ K HK)|apply (qnorm_fit _ K HK)|apply (qeq_fit _ K HK)]; auto. Qed.

Lemma L_C69_qint_div_rem : forall g n K x y, 5 <= K -> K ^ 6 < 2 ^ (n - 1) -> wfq g x -> wfq g y -> one_root x y -> small_qint K x -> small_qint K y ->
  qint_div g (SInt n) x y = qint_div g BigI x y /\ qint_rem g (SInt n) x y = qint_rem g BigI x y.
Proof. intros g n K x y HK H Wx Wy O Sx Sy. apply room_sint in H. apply (qdiv_rem_fit g _ K ltac:(lia)); auto. Qed.

Lemma L_C69_qint_int_operand : forall n K x k, 4 <= K -> K ^ 2 < 2 ^ (n - 1) -> small_qint K x -> Z.abs k <= K ->
  qint_add_int (SInt n) x k = qint_add_int BigI x k /\ qint_sub_int (SInt n) x k = qint_sub_int BigI x k /\ qint_mul_int (SInt n) x k = qint_mul_int BigI x k /\
  qint_div_int (SInt n) x k = qint_div_int BigI x k /\ qint_rem_int (SInt n) x k = qint_rem_int BigI x k.
Proof.
  intros n K x k HK H Sx Hk. apply room_sint in H. destruct (SmallInt.add_int_fit _ K HK x k H Sx Hk). destruct (div_rem_int_fit _ K HK x k H Sx Hk).
  pose proof (SmallInt.mul_int_fit _ K HK x k H Sx Hk). auto.
Qed.

Lemma L_C69_qint_conj_neg : forall n K x, 4 <= K -> K ^ 2 < 2 ^ (n - 1) -> small_qint K x ->
  qint_conj (SInt n) x = qint_conj BigI x /\ qint_neg (SInt n) x = qint_neg BigI x.
Proof. intros n K x HK H Sx. apply (conj_neg_fit _ K HK); auto. apply room_sint. auto. Qed.

Lemma L_C69_gauss : forall n K x y, 6 <= K -> K ^ 3 < 2 ^ (n - 1) -> small_qco K x -> small_qco K y ->
  gauss_conj (SInt n) x = gauss_conj BigI x /\ gauss_norm (SInt n) x = gauss_norm BigI x /\ gauss_add (SInt n) x y = gauss_add BigI x y /\
  gauss_sub (SInt n) x y = gauss_sub BigI x y /\ gauss_mul (SInt n) x y = gauss_mul BigI x y.
Proof. intros n K x y HK H Sx Sy. apply (gauss_basic_fit _ K HK); auto. apply room_sint. auto. Qed.

Lemma L_C69_gauss_div_rem : forall n K x y, 6 <= K -> K ^ 5 < 2 ^ (n - 1) -> small_qco K x -> small_qco K y ->
  gauss_div (SInt n) x y = gauss_div BigI x y /\ gauss_rem (SInt n) x y = gauss_rem BigI x y.
Proof. intros n K x y HK H Sx Sy. apply (gauss_div_fit _ K HK); auto. apply room_sint. auto. Qed.

Lemma L_C69_sharp : 55108 ^ 4 < 2 ^ (64 - 1) /\
  exists x y, normal (Cfg false true) x /\ normal (Cfg false true) y /\ small 55110 x /\ small 55110 y /\ surd_add (Cfg false true) (SInt 64) x y = Panic POverflow /\
  surd_add (Cfg false true) BigI x y <> Panic POverflow.
Proof.
  split; [vm_compute; reflexivity|]. exists (Surd (SCo 55110 1 55110) 2), (Surd (SCo 55109 1 55109) 2).
  split; [apply normalb_ok; vm_compute; reflexivity|]. split; [apply normalb_ok; vm_compute; reflexivity|].
  split; [vm_compute; intuition congruence|]. split; [vm_compute; intuition congruence|]. split; [vm_compute; reflexivity|vm_compute; discriminate].
Qed.
