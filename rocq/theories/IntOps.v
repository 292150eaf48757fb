(** * IntOps: the operators of QuadraticInt. *)

From Coq Require Import ZArith Znumtheory Reals Lia Lra Bool List.
From Coquelicot Require Import Coquelicot.
From Verif Require Import Base Ext ModelSurd ModelInt Spec SpecInt Transfer NumFacts SurdCore RatioFacts SurdArith SurdTotal SurdOrd SurdRound IntCore IntArith.
Open Scope Z_scope.

Lemma omega_conj_sq1 d k : md1 d = true -> d = 4 * k + 1 -> (omega_conj d * omega_conj d)%C = (omega_conj d + ZtoC k)%C.
Proof.
  intros H E. pose proof (omega_sq1 d k H E) as Q. rewrite omega_conj_eq, H. set (w := omega d) in *. clearbody w.
  replace ((RtoC 1 - w) * (RtoC 1 - w))%C with (RtoC 1 - w - w + w * w)%C by ring. rewrite Q. ring.
Qed.
Lemma omega_conj_sq0 d : md1 d = false -> (omega_conj d * omega_conj d)%C = ZtoC d.
Proof. intros H. pose proof (omega_sq0 d H) as Q. rewrite omega_conj_eq, H, <- Q. ring. Qed.
Lemma cmul_conj d a b a' b' :
  qconj (QInt (cmul d a b a' b') d) = (qconj (QInt (QCo a b) d) * qconj (QInt (QCo a' b') d))%C.
Proof.
  unfold qconj, cmul. cbn [qcoeffs qdiscr q0 q1]. destruct (md1 d) eqn:H; cbn [q0 q1].
  - destruct (md1_quot d H) as (k & E & -> & _). pose proof (omega_conj_sq1 d k H E) as Q. autorewrite with ztoc.
    set (w := omega_conj d) in *. clearbody w.
    replace ((ZtoC a + ZtoC b * w) * (ZtoC a' + ZtoC b' * w))%C
      with (ZtoC a * ZtoC a' + (ZtoC a * ZtoC b' + ZtoC b * ZtoC a') * w + ZtoC b * ZtoC b' * (w * w))%C by ring.
    rewrite Q. ring.
  - pose proof (omega_conj_sq0 d H) as Q. autorewrite with ztoc. rewrite <- Q. ring.
Qed.

(** ** Rewriting a number over a smaller root *)
Lemma scale_mod4 r q : (r * r * q) mod 4 <> 0 -> Z.odd r = true /\ (r * r * q) mod 4 = q mod 4.
Proof.
  intros H. destruct (Z.odd r) eqn:O.
  - split; [auto|]. apply Z.odd_spec in O. destruct O as [s ->].
    replace ((2 * s + 1) * (2 * s + 1) * q) with (q + (s * s + s) * q * 4) by ring. apply Z.mod_add. lia.
  - exfalso. apply H. rewrite <- Z.negb_even in O. apply negb_false_iff, Z.even_spec in O. destruct O as [s ->].
    replace (2 * s * (2 * s) * q) with (s * s * q * 4) by ring. apply Z.mod_mul. lia.
Qed.

Lemma good_root_scale g k d : 0 < k -> good_root g (k * k * d) -> good_root g d.
Proof.
  intros K (S & M & P). destruct (scale_mod4 k d M) as [_ E]. rewrite square_k in S by auto.
  split; [auto|]. split; [congruence|]. intros C. specialize (P C). nia.
Qed.

Lemma q_hinted_big g x h : good_root g (qdiscr x) ->
  exists x', qint_reduce_root_hinted g BigI x h = Ok x' /\ qval x' = qval x /\ qconj x' = qconj x /\
    (q1 (qcoeffs x') = 0 <-> q1 (qcoeffs x) = 0) /\
    ((q1 (qcoeffs x') = 0 /\ qdiscr x' = 0) \/
     (good_root g (qdiscr x') /\ exists k, 0 < k /\ qdiscr x = k * k * qdiscr x')) /\
    (q1 (qcoeffs x) <> 0 -> forall k d, 0 < k -> h = k * k -> qdiscr x = h * d -> qdiscr x' = d).
Proof.
  intros G. destruct x as [[a b] d]. cbn [qcoeffs qdiscr q1] in *.
  assert (Same : (forall k d0, 0 < k -> h = k * k -> d = h * d0 -> d = d0) ->
    exists x', Ok (QInt (QCo a b) d) = Ok x' /\ qval x' = qval (QInt (QCo a b) d) /\ qconj x' = qconj (QInt (QCo a b) d) /\
    (q1 (qcoeffs x') = 0 <-> b = 0) /\
    ((q1 (qcoeffs x') = 0 /\ qdiscr x' = 0) \/
     (good_root g (qdiscr x') /\ exists k, 0 < k /\ d = k * k * qdiscr x')) /\
    (b <> 0 -> forall k d0, 0 < k -> h = k * k -> d = h * d0 -> qdiscr x' = d0)).
  { intros C. exists (QInt (QCo a b) d). cbn [qdiscr qcoeffs q1]. split; [auto|]. split; [auto|]. split; [auto|].
    split; [tauto|]. split; [|auto]. right. split; [auto|]. exists 1. lia. }
  unfold qint_reduce_root_hinted. bigi. cbn [qcoeffs qdiscr q0 q1].
  destruct (Z.eqb_spec (Z.abs h) 0) as [H0|H0]; [apply Same; intros; nia|].
  destruct (Z.eqb_spec (Z.abs h) 1) as [H1|H1]; [apply Same; intros; nia|].
  destruct (Z.ltb_spec (Z.abs h) 0) as [H2|H2]; [lia|]. cbn [orb].
  rewrite div_remB by auto. bigi. set (n := Z.abs h) in *.
  pose proof (Z.quot_rem d n H0) as QR. set (q := Z.quot d n) in *.
  destruct (Z.eqb_spec (Z.rem d n) 0) as [R|R].
  2:{ apply Same. intros k d0 K E E0. exfalso. apply R. rewrite E0. unfold n. rewrite (Z.abs_eq h) by nia.
      rewrite Z.mul_comm. apply Z.rem_mul. nia. }
  rewrite R, Z.add_0_r in QR. rewrite sqrtB by lia. bigi. set (r := Z.sqrt n).
  destruct (Z.eqb_spec (r * r) n) as [Rn|Rn].
  2:{ apply Same. intros k d0 K E E0. exfalso. apply Rn. unfold r. replace n with (k * k) by lia.
      rewrite Z.sqrt_square by lia. reflexivity. }
  pose proof (Z.sqrt_nonneg n) as Rpos. fold r in Rpos.
  assert (Hr : 0 < r) by nia.
  assert (Hn : r * r = Z.abs h) by exact Rn.
  clearbody q r. clear Same R. clearbody n. subst n.
  assert (Gq : good_root g q) by (apply (good_root_scale g r); [auto|]; rewrite <- QR; exact G).
  assert (Cmp : forall k d0, 0 < k -> h = k * k -> d = h * d0 -> q = d0).
  { intros k d0 K E E0. rewrite Z.abs_eq in Hn by nia. rewrite Hn in QR. apply (Z.mul_reg_l _ _ h); nia. }
  destruct G as (S & M & P). rewrite mod4d2_good by auto. cbn [bind].
  assert (O := M). rewrite QR in O. destruct (scale_mod4 r q O) as [Or Eq].
  assert (Emd : md1 d = md1 q) by (unfold md1; rewrite QR, Eq; reflexivity).
  assert (Rt : csqrt d = (ZtoC r * csqrt q)%C) by (rewrite QR; apply csqrt_scale; lia).
  assert (Fin : forall a' b', b' = b * r ->
     (ZtoC a' + ZtoC b' * omega q = ZtoC a + ZtoC b * omega d)%C ->
     (ZtoC a' + ZtoC b' * omega_conj q = ZtoC a + ZtoC b * omega_conj d)%C ->
     exists x', qint_from_coeffs g BigI (QCo a' b') q = Ok x' /\
       qval x' = qval (QInt (QCo a b) d) /\ qconj x' = qconj (QInt (QCo a b) d) /\
    (q1 (qcoeffs x') = 0 <-> b = 0) /\
    ((q1 (qcoeffs x') = 0 /\ qdiscr x' = 0) \/
     (good_root g (qdiscr x') /\ exists k, 0 < k /\ d = k * k * qdiscr x')) /\
    (b <> 0 -> forall k d0, 0 < k -> h = k * k -> d = h * d0 -> qdiscr x' = d0)).
  { intros a' b' Eb V Cv. destruct (from_coeffs_good_total g a' b' q Gq) as [x' E]. exists x'. split; [auto|].
    rewrite from_coeffs_good in E by auto. destruct (Z.eqb_spec b' 0) as [B|B]; inversion E; subst x'.
    - assert (b = 0) by nia. subst b b'. rewrite !qval_int, !qconj_int. cbn [qcoeffs qdiscr q0 q1].
      rewrite !Z.mul_0_l, ZtoC_0 in V.
      assert (X : ZtoC a' = ZtoC a).
      { replace (ZtoC a') with (ZtoC a' + RtoC 0 * omega q)%C by ring. rewrite V. ring. }
      split; [auto|]. split; [auto|]. split; [tauto|]. split; [left; auto|]. intros C; destruct C; auto.
    - split; [exact V|]. split; [exact Cv|]. cbn [qcoeffs qdiscr q1]. split; [nia|]. split; [|eauto].
      right. split; [auto|]. exists r. auto. }
  destruct (md1 d) eqn:Hd.
  - bigi. rewrite quotB by lia. bigi.
    apply Z.odd_spec in Or. destruct Or as [s Es]. rewrite (quot_exact (1 + 1) (r - 1) s) by lia.
    apply Fin; [reflexivity|..]; destruct (omega_md1 d Hd) as [O1 O2]; symmetry in Emd; destruct (omega_md1 q Emd) as [O3 O4];
    rewrite ?O1, ?O2, ?O3, ?O4, Rt, Es; autorewrite with ztoc; change (ZtoC 2) with (RtoC 2); field; cneq.
  - bigi. apply Fin; [reflexivity|..]; destruct (omega_md0 d Hd) as [O1 O2]; symmetry in Emd; destruct (omega_md0 q Emd) as [O3 O4];
    rewrite ?O1, ?O2, ?O3, ?O4, Rt; autorewrite with ztoc; ring.
Qed.

(** ** Bringing two numbers over a common root *)
Lemma abs_scale_gt k x y : 0 < k -> x = k * k * y -> y <> 0 -> Z.abs y <= Z.abs x.
Proof. intros K -> Y. rewrite !Z.abs_mul, (Z.abs_eq k) by lia. assert (1 <= k * k) by nia. pose proof (Z.abs_nonneg y). nia. Qed.

Definition common (g : cfg) (l r l' r' : qint) : Prop :=
  qval l' = qval l /\ qconj l' = qconj l /\ qval r' = qval r /\ qconj r' = qconj r /\
  qdiscr l' = qdiscr r' /\ good_root g (qdiscr l') /\ (qdiscr l' = qdiscr l \/ qdiscr l' = qdiscr r) /\
  (q1 (qcoeffs l') = 0 <-> q1 (qcoeffs l) = 0) /\ (q1 (qcoeffs r') = 0 <-> q1 (qcoeffs r) = 0).

Lemma q_bin_op_big g l r : good_root g (qdiscr l) -> good_root g (qdiscr r) ->
  exists o, qint_reduce_bin_op g BigI l r = Ok o /\
    (forall l' r', o = Some (l', r') -> common g l r l' r') /\
    (o = None -> q1 (qcoeffs l) <> 0 -> q1 (qcoeffs r) <> 0 ->
       forall k, 0 < k -> qdiscr l <> k * k * qdiscr r /\ qdiscr r <> k * k * qdiscr l).
Proof.
  intros Gl Gr.
  assert (Dl : qdiscr l <> 0) by (destruct Gl as (_ & M & _); intros E; rewrite E in M; apply M; reflexivity).
  assert (Dr : qdiscr r <> 0) by (destruct Gr as (_ & M & _); intros E; rewrite E in M; apply M; reflexivity).
  (* the common part: reduce the larger one *)
  assert (Red : xorb (qdiscr l <? 0) (qdiscr r <? 0) = false ->
    exists p, (if Z.abs (qdiscr r) <? Z.abs (qdiscr l) then
        let! l1 := qint_reduce_root_hinted g BigI l (Z.quot (qdiscr l) (qdiscr r)) in Ok (l1, r)
      else if Z.abs (qdiscr l) <? Z.abs (qdiscr r) then
        let! r1 := qint_reduce_root_hinted g BigI r (Z.quot (qdiscr r) (qdiscr l)) in Ok (l, r1)
      else Ok (l, r)) = Ok p /\
      (qdiscr (fst p) = qdiscr (snd p) -> common g l r (fst p) (snd p)) /\
      (qdiscr (fst p) <> qdiscr (snd p) -> q1 (qcoeffs l) <> 0 -> q1 (qcoeffs r) <> 0 ->
       forall k, 0 < k -> qdiscr l <> k * k * qdiscr r /\ qdiscr r <> k * k * qdiscr l)).
  { intros X.
    destruct (Z.ltb_spec (Z.abs (qdiscr r)) (Z.abs (qdiscr l))) as [L1|L1];
      [|destruct (Z.ltb_spec (Z.abs (qdiscr l)) (Z.abs (qdiscr r))) as [L2|L2]].
    - destruct (q_hinted_big g l (Z.quot (qdiscr l) (qdiscr r)) Gl) as (l1 & E & V & Cv & B & D & C). rewrite E.
      exists (l1, r). cbn [bind fst snd]. split; [auto|]. split.
      + intros Ed. destruct D as [[_ D]|[D _]]; [congruence|]. red. rewrite Ed in *. tauto.
      + intros Ed Bl Br k K. split; intros Ek.
        * apply Ed. apply (C Bl k); [auto| |].
          -- apply quot_exact; lia.
          -- rewrite Ek at 1. rewrite (quot_exact (qdiscr r) (qdiscr l) (k * k)) by lia. lia.
        * apply (abs_scale_gt k) in Ek; lia.
    - destruct (q_hinted_big g r (Z.quot (qdiscr r) (qdiscr l)) Gr) as (r1 & E & V & Cv & B & D & C). rewrite E.
      exists (l, r1). cbn [bind fst snd]. split; [auto|]. split.
      + intros Ed. red. rewrite <- Ed in *. tauto.
      + intros Ed Bl Br k K. split; intros Ek.
        * apply (abs_scale_gt k) in Ek; lia.
        * apply Ed. symmetry. apply (C Br k); [auto| |].
          -- apply quot_exact; lia.
          -- rewrite Ek at 1. rewrite (quot_exact (qdiscr l) (qdiscr r) (k * k)) by lia. lia.
    - exists (l, r). cbn [fst snd]. split; [auto|]. split.
      + intros Ed. red. rewrite Ed in *. tauto.
      + intros Ed. exfalso. apply Ed.
        destruct (Z.ltb_spec (qdiscr l) 0), (Z.ltb_spec (qdiscr r) 0); try discriminate; lia. }
  unfold qint_reduce_bin_op. destruct (cplx g) eqn:Cx.
  - destruct (xorb (qdiscr l <? 0) (qdiscr r <? 0)) eqn:X.
    + eexists. split; [reflexivity|]. split; [discriminate|]. intros _ _ _ k K.
      destruct (Z.ltb_spec (qdiscr l) 0), (Z.ltb_spec (qdiscr r) 0); try discriminate; nia.
    + destruct (Red eq_refl) as ([l1 r1] & E & C1 & C2). cbn [fst snd] in *. bigi.
      rewrite !quotB by auto. bigi. rewrite E. bigi. eexists. split; [reflexivity|].
      destruct (Z.eqb_spec (qdiscr l1) (qdiscr r1)) as [Q|Q]; split; try discriminate.
      * intros l' r' H. inversion H; subst. auto.
      * intros _. auto.
  - destruct Gl as (_ & _ & Pl). destruct Gr as (_ & _ & Pr). specialize (Pl Cx). specialize (Pr Cx).
    apply Z.eqb_neq in Dl, Dr. rewrite Dl, Dr. unfold dassert. rewrite !andb_false_r. bigi.
    apply Z.eqb_neq in Dl, Dr. rewrite !Z.abs_eq in Red by auto.
    destruct Red as ([l1 r1] & E & C1 & C2).
    { destruct (Z.ltb_spec (qdiscr l) 0), (Z.ltb_spec (qdiscr r) 0); try reflexivity; lia. }
    cbn [fst snd] in *. rewrite !quotB by auto. bigi. rewrite E. bigi. eexists. split; [reflexivity|].
    destruct (Z.eqb_spec (qdiscr l1) (qdiscr r1)) as [Q|Q]; split; try discriminate.
    * intros l' r' H. inversion H; subst. auto.
    * intros _. auto.
Qed.

Lemma q_unwrap_ok g l r l' r' : good_root g (qdiscr l) -> good_root g (qdiscr r) ->
  qint_reduce_bin_op_unwrap g BigI l r = Ok (l', r') -> common g l r l' r'.
Proof.
  intros Gl Gr H. unfold qint_reduce_bin_op_unwrap in H.
  destruct (q_bin_op_big g l r Gl Gr) as (o & E & C & _). rewrite E in H. cbn [bind] in H.
  destruct o as [p|]; [|discriminate]. inversion H; subst. auto.
Qed.
Lemma q_unwrap_total g l r : good_root g (qdiscr l) -> good_root g (qdiscr r) -> qnested l r ->
  q1 (qcoeffs l) <> 0 -> q1 (qcoeffs r) <> 0 ->
  exists l' r', qint_reduce_bin_op_unwrap g BigI l r = Ok (l', r') /\ common g l r l' r'.
Proof.
  intros Gl Gr N Bl Br. destruct (q_bin_op_big g l r Gl Gr) as (o & E & C & D).
  destruct N as [N|[N|(k & K & N)]]; [tauto|tauto|]. unfold qint_reduce_bin_op_unwrap. rewrite E. cbn [bind].
  destruct o as [[l' r']|]; [eauto|]. destruct (D eq_refl Bl Br k K). tauto.
Qed.

(** ** Values of the operators *)
Lemma wfq_irr g x : wfq g x -> q1 (qcoeffs x) <> 0 -> good_root g (qdiscr x).
Proof. intros [[B _]|G] H; [contradiction|auto]. Qed.
Lemma qval_b0 x : q1 (qcoeffs x) = 0 -> qval x = ZtoC (q0 (qcoeffs x)) /\ qconj x = ZtoC (q0 (qcoeffs x)).
Proof. intros H. unfold qval, qconj. rewrite H, ZtoC_0. split; ring. Qed.
Lemma qint_eta x : x = QInt (QCo (q0 (qcoeffs x)) (q1 (qcoeffs x))) (qdiscr x).
Proof. destruct x as [[a b] d]. reflexivity. Qed.
Lemma qco_eta x : x = QCo (q0 x) (q1 x).
Proof. destruct x; reflexivity. Qed.

Ltac qunf := unfold qval, qconj; cbn [qcoeffs qdiscr q0 q1]; autorewrite with ztoc.

Lemma qint_add_int_ok g t x k z : wfq g x -> qint_add_int t x k = Ok z ->
  qval z = (qval x + ZtoC k)%C /\ qconj z = (qconj x + ZtoC k)%C /\ wfq g z.
Proof.
  intros W H. apply rle_qint_add_int in H. destruct x as [[a b] d]. unfold qint_add_int, qco_add_int in H.
  cbn [qcoeffs qdiscr q0 q1] in H. autorewrite with bigi in H. inversion H; subst. qunf. split; [ring|]. split; [ring|exact W].
Qed.
Lemma qint_sub_int_ok g t x k z : wfq g x -> qint_sub_int t x k = Ok z ->
  qval z = (qval x - ZtoC k)%C /\ qconj z = (qconj x - ZtoC k)%C /\ wfq g z.
Proof.
  intros W H. apply rle_qint_sub_int in H. destruct x as [[a b] d]. unfold qint_sub_int, qco_sub_int in H.
  cbn [qcoeffs qdiscr q0 q1] in H. autorewrite with bigi in H. inversion H; subst. qunf. split; [ring|]. split; [ring|exact W].
Qed.
Lemma qint_mul_int_ok g t x k z : wfq g x -> qint_mul_int t x k = Ok z ->
  qval z = (qval x * ZtoC k)%C /\ qconj z = (qconj x * ZtoC k)%C /\ wfq g z.
Proof.
  intros W H. apply rle_qint_mul_int in H. destruct x as [[a b] d]. unfold qint_mul_int, qco_mul_int in H.
  cbn [qcoeffs qdiscr q0 q1] in H. autorewrite with bigi in H.
  destruct (Z.eqb_spec k 0) as [->|K].
  - inversion H; subst. unfold qint_zero. qunf. split; [ring|]. split; [ring|]. left. auto.
  - inversion H; subst. qunf. split; [ring|]. split; [ring|].
    destruct W as [[B D]|G]; [left; cbn in *; subst; auto|right; auto].
Qed.
Lemma qint_neg_ok g t x z : wfq g x -> qint_neg t x = Ok z ->
  qval z = (- qval x)%C /\ qconj z = (- qconj x)%C /\ wfq g z.
Proof.
  intros W H. apply rle_qint_neg in H. destruct x as [[a b] d]. unfold qint_neg in H.
  cbn [qcoeffs qdiscr q0 q1] in H. autorewrite with bigi in H. inversion H; subst. qunf. split; [ring|]. split; [ring|].
  destruct W as [[B D]|G]; [left; cbn in *; subst; auto|right; auto].
Qed.
Lemma qint_conj_ok g t x z : wfq g x -> qint_conj t x = Ok z ->
  qval z = qconj x /\ qconj z = qval x /\ wfq g z.
Proof.
  intros W H. apply rle_qint_conj in H. destruct x as [[a b] d]. unfold qint_conj in H. cbn [qcoeffs qdiscr] in H.
  destruct W as [[B D]|G]; cbn [qcoeffs qdiscr q1] in *.
  - subst. unfold qco_conj in H. cbn in H. inversion H; subst. rewrite !qval_int, !qconj_int.
    split; [auto|]. split; [auto|]. left. auto.
  - destruct G as (S & M & P). destruct (qco_conj_good d S M a b) as (co & E & V & Cv). rewrite E in H. inversion H; subst.
    split; [auto|]. split; [auto|]. right. split; auto.
Qed.
Lemma qint_norm_ok g t x n : wfq g x -> qint_norm t x = Ok n -> n = nrm (qdiscr x) (q0 (qcoeffs x)) (q1 (qcoeffs x)).
Proof.
  intros W H. apply rle_qint_norm in H. destruct x as [[a b] d]. unfold qint_norm in H.
  destruct W as [[B D]|(S & M & P)]; cbn [qcoeffs qdiscr q0 q1] in *.
  - subst. unfold qco_norm in H. cbn [Z.eqb q0 q1] in H. autorewrite with bigi in H. inversion H; subst.
    unfold nrm, md1. cbn [Z.modulo]. change (0 mod 4 =? 1) with false. cbn iota. ring.
  - rewrite qco_norm_good in H by auto. inversion H; subst. reflexivity.
Qed.
Lemma qint_norm_val g t x n : wfq g x -> qint_norm t x = Ok n -> (qval x * qconj x)%C = ZtoC n.
Proof. intros W H. rewrite (qint_norm_ok g t x n W H). rewrite (qint_eta x) at 1 2. apply qval_qconj. Qed.

Lemma qint_add_ok g t x y z : wfq g x -> wfq g y -> qint_add g t x y = Ok z ->
  qval z = (qval x + qval y)%C /\ qconj z = (qconj x + qconj y)%C /\ wfq g z.
Proof.
  intros Wx Wy H. apply rle_qint_add in H. unfold qint_add, qint_is_rational in H.
  destruct (Z.eqb_spec (q1 (qcoeffs y)) 0) as [B|B].
  { apply (qint_add_int_ok g) in H; auto. destruct (qval_b0 y B) as [-> ->]. auto. }
  destruct (Z.eqb_spec (q1 (qcoeffs x)) 0) as [B'|B'].
  { apply (qint_add_int_ok g) in H; auto. destruct (qval_b0 x B') as [-> ->]. destruct H as (-> & -> & W).
    split; [ring|]. split; [ring|auto]. }
  stepH H. destruct a as [l r]. apply q_unwrap_ok in E; [|eapply wfq_irr; eauto..].
  destruct E as (V1 & C1 & V2 & C2 & D & G & _). destruct l as [[a b] d], r as [[a' b'] d']. cbn [qcoeffs qdiscr] in *. subst d'.
  unfold qco_add in H. cbn [q0 q1] in H. autorewrite with bigi in H.
  apply from_coeffs_good_ok in H; auto. destruct H as (-> & -> & W & _).
  rewrite <- V1, <- V2, <- C1, <- C2. qunf. split; [ring|]. split; [ring|auto].
Qed.
Lemma qint_sub_ok g t x y z : wfq g x -> wfq g y -> qint_sub g t x y = Ok z ->
  qval z = (qval x - qval y)%C /\ qconj z = (qconj x - qconj y)%C /\ wfq g z.
Proof.
  intros Wx Wy H. apply rle_qint_sub in H. unfold qint_sub, qint_is_rational in H.
  destruct (Z.eqb_spec (q1 (qcoeffs y)) 0) as [B|B].
  { apply (qint_sub_int_ok g) in H; auto. destruct (qval_b0 y B) as [-> ->]. auto. }
  destruct (Z.eqb_spec (q1 (qcoeffs x)) 0) as [B'|B'].
  { stepH H. apply (qint_sub_int_ok g) in E; auto. destruct E as (V & C & W). apply (qint_neg_ok g) in H; auto.
    destruct (qval_b0 x B') as [-> ->]. destruct H as (-> & -> & W'). rewrite V, C.
    split; [ring|]. split; [ring|auto]. }
  stepH H. destruct a as [l r]. apply q_unwrap_ok in E; [|eapply wfq_irr; eauto..].
  destruct E as (V1 & C1 & V2 & C2 & D & G & _). destruct l as [[a b] d], r as [[a' b'] d']. cbn [qcoeffs qdiscr] in *. subst d'.
  unfold qco_sub in H. cbn [q0 q1] in H. autorewrite with bigi in H.
  apply from_coeffs_good_ok in H; auto. destruct H as (-> & -> & W & _).
  rewrite <- V1, <- V2, <- C1, <- C2. qunf. split; [ring|]. split; [ring|auto].
Qed.
Lemma qint_mul_ok g t x y z : wfq g x -> wfq g y -> qint_mul g t x y = Ok z ->
  qval z = (qval x * qval y)%C /\ qconj z = (qconj x * qconj y)%C /\ wfq g z.
Proof.
  intros Wx Wy H. apply rle_qint_mul in H. unfold qint_mul, qint_is_rational in H.
  destruct (Z.eqb_spec (q1 (qcoeffs y)) 0) as [B|B].
  { apply (qint_mul_int_ok g) in H; auto. destruct (qval_b0 y B) as [-> ->]. auto. }
  destruct (Z.eqb_spec (q1 (qcoeffs x)) 0) as [B'|B'].
  { apply (qint_mul_int_ok g) in H; auto. destruct (qval_b0 x B') as [-> ->]. destruct H as (-> & -> & W).
    split; [ring|]. split; [ring|auto]. }
  stepH H. destruct a as [l r]. apply q_unwrap_ok in E; [|eapply wfq_irr; eauto..].
  destruct E as (V1 & C1 & V2 & C2 & D & G & _). destruct l as [[a b] d], r as [[a' b'] d']. cbn [qcoeffs qdiscr] in *. subst d'.
  rewrite qco_mul_good in H by apply G. cbn [bind] in H. rewrite (qco_eta (cmul d a b a' b')) in H.
  apply from_coeffs_good_ok in H; auto. destruct H as (-> & -> & W & _). rewrite <- qco_eta.
  rewrite <- V1, <- V2, <- C1, <- C2. rewrite cmul_val, cmul_conj. auto.
Qed.
