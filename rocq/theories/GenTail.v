(** * GenTail: tails of convergent fractions converge; what simplify(), homo() and decimals() emit is right. *)

From Coq Require Import ZArith Reals Lia Lra Psatz Bool List.
From Coquelicot Require Import Coquelicot.
From Verif Require Import Base Ext ModelBlock ModelGen Spec SpecGen NumFacts GenBlock GenSound GenConv.
Import ListNotations.
Open Scope Z_scope.

Definition allpos (f : nat -> Z * Z) : Prop := forall n, 1 <= fst (f n) /\ 1 <= snd (f n).
Definition latepos (f : nat -> Z * Z) : Prop := forall n, (1 <= n)%nat -> 1 <= fst (f n) /\ 1 <= snd (f n).

Lemma latepos_shift f : latepos f -> allpos (shift f).
Proof. intros H n. apply H. lia. Qed.
Lemma allpos_late f : allpos f -> latepos f.
Proof. intros H n _. apply H. Qed.

Lemma gval_SS f n : gval (prefix f (S (S n))) = (IZR (snd (f O)) + IZR (fst (f 1%nat)) / gval (prefix (shift f) (S n)))%R.
Proof.
  rewrite (prefix_S f (S n)), (prefix_S (shift f) n). destruct (f O) as [a b]. change (f 1%nat) with (shift f O).
  destruct (shift f O) as [a' b'] eqn:E. cbn [fst snd]. reflexivity.
Qed.

Lemma gval_1 f : gval (prefix f 1) = IZR (snd (f O)).
Proof. unfold prefix. cbn [seq map gval]. destruct (f O). reflexivity. Qed.

Lemma allpos_gval f n : allpos f -> (1 <= gval (prefix f (S n)))%R.
Proof.
  revert f. induction n as [|n IH]; intros f H.
  - rewrite gval_1. apply IZR_le. apply H.
  - rewrite gval_SS. specialize (IH (shift f) (latepos_shift f (allpos_late f H))).
    pose proof (IZR_le _ _ (proj2 (H O))). pose proof (IZR_le _ _ (proj1 (H 1%nat))).
    assert (0 <= IZR (fst (f 1%nat)) / gval (prefix (shift f) (S n)))%R by (apply Rmult_le_pos; [lra|]; left; apply Rinv_0_lt_compat; lra). lra.
Qed.

Lemma allpos_gval_ub f n : allpos f -> (gval (prefix f (S n)) <= IZR (snd (f O)) + IZR (fst (f 1%nat)))%R.
Proof.
  intros H. pose proof (IZR_le _ _ (proj1 (H 1%nat))). destruct n as [|n].
  - rewrite gval_1. lra.
  - rewrite gval_SS. pose proof (allpos_gval (shift f) n (latepos_shift f (allpos_late f H))) as P.
    assert (IZR (fst (f 1%nat)) / gval (prefix (shift f) (S n)) <= IZR (fst (f 1%nat)))%R; [|lra].
    apply (Rmult_le_reg_r (gval (prefix (shift f) (S n)))); [lra|]. unfold Rdiv. rewrite Rmult_assoc, Rinv_l by lra. nra.
Qed.

Lemma allpos_regular f n : allpos f -> gregular (prefix f n).
Proof.
  revert f. induction n as [|n IH]; intros f H; [exact Logic.I|]. rewrite prefix_S. cbn [gregular].
  split; [|apply IH, latepos_shift, allpos_late; auto]. destruct n as [|n]; [left; reflexivity|right].
  pose proof (allpos_gval (shift f) n (latepos_shift f (allpos_late f H))). lra.
Qed.

Lemma latepos_regular f n : latepos f -> gregular (prefix f n).
Proof.
  intros H. destruct n as [|n]; [exact Logic.I|]. rewrite prefix_S. cbn [gregular]. split; [|apply allpos_regular, latepos_shift; auto].
  destruct n as [|n]; [left; reflexivity|right]. pose proof (allpos_gval (shift f) n (latepos_shift f H)). lra.
Qed.

Lemma tail_converges f x : latepos f -> gconverges f x ->
  exists y, gconverges (shift f) y /\ (1 <= y)%R /\ x = (IZR (snd (f O)) + IZR (fst (f 1%nat)) / y)%R.
Proof.
  intros H C. pose proof (latepos_shift f H) as A. set (b0 := IZR (snd (f O))). set (a1 := IZR (fst (f 1%nat))).
  assert (Ha : (1 <= a1)%R) by (apply IZR_le; apply (H 1%nat); lia).
  set (B := (IZR (snd (shift f O)) + IZR (fst (shift f 1%nat)))%R).
  assert (HB : (1 <= B)%R) by (pose proof (IZR_le _ _ (proj2 (A O))); pose proof (IZR_le _ _ (proj1 (A 1%nat))); unfold B; lra).
  assert (C1 : is_lim_seq (fun n => (gval (prefix f (S (S n))) - b0)%R) (x - b0)%R).
  { apply (is_lim_seq_minus _ _ x b0); [|apply is_lim_seq_const|reflexivity]. apply (is_lim_seq_incr_1 (fun n => gval (prefix f (S n)))). exact C. }
  assert (E : forall n, (gval (prefix f (S (S n))) - b0)%R = (a1 / gval (prefix (shift f) (S n)))%R) by (intros n; rewrite gval_SS; unfold a1, b0; ring).
  assert (L : (a1 / B <= x - b0)%R).
  { assert (R : Rbar_le (a1 / B)%R (x - b0)%R); [|exact R].
    apply (is_lim_seq_le (fun _ => (a1 / B)%R) (fun n => (gval (prefix f (S (S n))) - b0)%R)); [|apply is_lim_seq_const|exact C1].
    intros n. rewrite E. pose proof (allpos_gval (shift f) n A). pose proof (allpos_gval_ub (shift f) n A) as U. fold B in U.
    unfold Rdiv. apply Rmult_le_compat_l; [lra|]. apply Rinv_le_contravar; lra. }
  assert (P : (0 < x - b0)%R) by (assert (0 < a1 / B)%R by (apply Rmult_lt_0_compat; [lra|apply Rinv_0_lt_compat; lra]); lra).
  assert (C2 : gconverges (shift f) (a1 / (x - b0))%R).
  { unfold gconverges. apply (is_lim_seq_ext (fun n => (a1 / (gval (prefix f (S (S n))) - b0))%R)).
    - intros n. rewrite E. pose proof (allpos_gval (shift f) n A). field. split; lra.
    - unfold Rdiv. apply (is_lim_seq_mult _ _ a1 (/ (x - b0))%R); [apply is_lim_seq_const| |reflexivity].
      apply (is_lim_seq_inv _ (x - b0)%R); [exact C1|]. intros K. inversion K. lra. }
  exists (a1 / (x - b0))%R. split; [auto|]. split.
  - assert (R : Rbar_le 1%R (a1 / (x - b0))%R); [|exact R].
    apply (is_lim_seq_le (fun _ => 1%R) (fun n => gval (prefix (shift f) (S n)))); [|apply is_lim_seq_const|exact C2]. intros n. apply allpos_gval; auto.
  - field. split; lra.
Qed.

(** ** Endless sources of pairs *)
Section Endless.
Context (t : ity) {I : Type} (inext : I -> res (option (Z * Z) * I)).

Definition etail (it : I) (u w : R) : Prop := exists f, yields inext it f /\ allpos f /\ gconverges f u /\ w = IZR (fst (f O)).

Lemma gconverges_pos f x : allpos f -> gconverges f x -> (1 <= x)%R.
Proof.
  intros A C. assert (R : Rbar_le 1%R x); [|exact R].
  apply (is_lim_seq_le (fun _ => 1%R) (fun n => gval (prefix f (S n)))); [|apply is_lim_seq_const|exact C]. intros n. apply allpos_gval; auto.
Qed.

Lemma etail_pos it u w : etail it u w -> (0 < u)%R /\ (0 <= w)%R.
Proof.
  intros (f & Y & A & C & ->). split; [pose proof (gconverges_pos f u A C); lra|]. apply IZR_le. destruct (A O). lia.
Qed.

Lemma etail_next it u w a b it' : etail it u w -> inext it = Ok (Some (a, b), it') ->
  1 <= a /\ 0 <= b /\ exists u' w' s, etail it' u' w' /\ (0 < s)%R /\ (s * u = IZR b * u' + w')%R /\ (s * w = IZR a * u')%R.
Proof.
  intros (f & Y & A & C & ->) N. destruct (yields_next _ _ _ _ _ Y N) as (E & Y').
  assert (E0 : f O = (a, b)) by congruence. destruct (A O) as [A1 A2]. rewrite E0 in A1, A2 |- *. cbn [fst snd] in *. split; [lia|]. split; [lia|].
  destruct (tail_converges f u (allpos_late f A) C) as (y & Cy & Py & Ey). exists y, (IZR (fst (f 1%nat))), y.
  split; [exists (shift f); split; [auto|]; split; [apply latepos_shift, allpos_late; auto|]; split; [auto|reflexivity]|]. split; [lra|]. rewrite E0 in Ey. cbn [snd] in Ey.
  split; [rewrite Ey; field; lra|ring].
Qed.

Lemma first_live it f x a b it1 k1 : yields inext it f -> gpositive f -> gconverges f x -> inext it = Ok (Some (a, b), it1) -> moved block_identity a b k1 ->
  live etail k1 it1 x /\ good0 k1.
Proof.
  intros Y (F & L) C N M. destruct (yields_next _ _ _ _ _ Y N) as (E & Y'). assert (E0 : f O = (a, b)) by congruence.
  destruct (tail_converges f x L C) as (y & Cy & Py & Ey). rewrite E0 in F, Ey. cbn [fst snd] in *. subst a.
  split; [|eapply moved_good0_first; eauto]. exists y, (IZR (fst (f 1%nat))). split; [exists (shift f); split; [auto|]; split; [apply latepos_shift; auto|]; split; [auto|reflexivity]|].
  destruct M as (g & Hg & P1 & P2 & Q1 & Q2). unfold block_identity in *. cbn [pm1 pm2 qm1 qm2] in *.
  assert (g = 1) by (apply Z.mul_eq_1 in P2; lia). subst g. split; [left; nia|]. unfold num, den. assert (qm1 k1 = 1) by lia. assert (qm2 k1 = 0) by lia. assert (pm1 k1 = b) by lia. assert (pm2 k1 = 1) by lia.
  rewrite H, H0, H1, H2. split; [lra|]. rewrite Ey. field. lra.
Qed.

Lemma simplify_sound it f x fuel n v : yields inext it f -> gpositive f -> gconverges f x ->
  nth_item (simp_next t inext fuel) n (gcf_simplify it) = Ok (Some v) -> cf_digit x n v.
Proof.
  intros Y P C H. eapply (simp_sound t inext etail etail_pos etail_next); [|intros; eapply first_live; eauto|exact H]. reflexivity.
Qed.

(** decimals() *)
Lemma dec_first fuel k it c s' : qm1 k = 0 -> dec_next t inext fuel (k, it) = Ok (Some c, s') ->
  exists a b it1 k1 f1, inext it = Ok (Some (a, b), it1) /\ moved k a b k1 /\ dec_next t inext f1 (k1, it1) = Ok (Some c, s').
Proof.
  intros Q H. destruct fuel as [|fuel]; [discriminate|]. cbn [dec_next] in H. apply bind_Ok in H. destruct H as (ten & _ & H).
  apply bind_Ok in H. destruct H as ((o, k1) & R & H).
  apply reduce_mul_inv in R. destruct R as [(i & r1 & r2 & C & -> & ->)|(C & -> & ->)]; [apply check_integer_inv in C; tauto|].
  apply bind_Ok in H. destruct H as ((o, it1) & N & H). destruct o as [(a, b)|]; [|discriminate].
  apply bind_Ok in H. destruct H as ((o, k2) & M & H). destruct o as [(p, q)|]; [|discriminate]. apply checked_gmove_inv in M. eauto 10.
Qed.

Lemma dec_nth fuel n : forall k it y c, slive etail k it y -> (0 <= y < 10)%R -> nth_item (dec_next t inext fuel) n (k, it) = Ok (Some c) ->
  exists m, isfloor (10 ^ n * y) m /\ c = 48 + m mod 10.
Proof.
  induction n as [|n IH]; intros k it y c L B H.
  - apply nth_head in H. destruct H as ((k', it') & H). destruct (dec_slive t inext etail etail_pos etail_next _ _ _ _ _ _ _ L H) as ((T & _) & Bc & _).
    specialize (T (proj1 B)). exists (c - 48). split; [unfold isfloor; rewrite pow_O, Rmult_1_l; exact T|].
    assert (c - 48 < 10) by (apply lt_IZR; lra). rewrite Z.mod_small by lia. ring.
  - destruct (nth_item_cases _ _ _ _ H) as (c0 & (k', it') & N). rewrite (nth_item_S _ _ _ _ _ N) in H.
    destruct (dec_slive t inext etail etail_pos etail_next _ _ _ _ _ _ _ L N) as ((T & _) & Bc & L'). specialize (T (proj1 B)).
    destruct (IH _ _ _ _ L' ltac:(lra) H) as (m & Fm & Em). exists (m + 10 ^ Z.of_nat (S n) * (c0 - 48)). split.
    + unfold isfloor in *. rewrite plus_IZR, mult_IZR, <- pow_IZR. cbn [pow] in *. set (z := (10 ^ n)%R) in *.
      replace (10 * z * y)%R with (z * (10 * (y - IZR (c0 - 48))) + 10 * z * IZR (c0 - 48))%R by ring. lra.
    + rewrite Em. f_equal. rewrite Nat2Z.inj_succ, Z.pow_succ_r by lia.
      replace (m + 10 * 10 ^ Z.of_nat n * (c0 - 48)) with (m + (10 ^ Z.of_nat n * (c0 - 48)) * 10) by ring. rewrite Z.mod_add by lia. reflexivity.
Qed.

Lemma decimals_sound it f x fuel n c : yields inext it f -> gpositive f -> gconverges f x -> (0 <= x < 10)%R ->
  nth_item (dec_next t inext fuel) n (gcf_decimals it) = Ok (Some c) -> exists m, isfloor (10 ^ n * x) m /\ c = 48 + m mod 10.
Proof.
  intros Y P C B H. destruct (nth_item_cases _ _ _ _ H) as (c0 & (k', it') & N).
  destruct (dec_first fuel block_identity it c0 (k', it') eq_refl N) as (a & b & it1 & k1 & f1 & N1 & M & D). pose proof (first_live _ _ _ _ _ _ _ Y P C N1 M) as L.
  destruct n as [|n].
  - assert (c = c0). { apply nth_head in H. destruct H as (s' & H). rewrite N in H. congruence. } subst c0.
    apply (dec_nth f1 0 k1 it1 x c L B). rewrite nth_item_0, D. reflexivity.
  - rewrite (nth_item_S _ _ _ _ _ N) in H. destruct (dec_slive t inext etail etail_pos etail_next _ _ _ _ _ _ _ L D) as ((T & _) & Bc & L').
    specialize (T (proj1 B)). destruct (dec_nth _ _ _ _ _ _ L' ltac:(lra) H) as (m & Fm & Em). exists (m + 10 ^ Z.of_nat (S n) * (c0 - 48)). split.
    + unfold isfloor in *. rewrite plus_IZR, mult_IZR, <- pow_IZR. cbn [pow] in *. set (z := (10 ^ n)%R) in *.
      replace (10 * z * x)%R with (z * (10 * (x - IZR (c0 - 48))) + 10 * z * IZR (c0 - 48))%R by ring. lra.
    + rewrite Em. f_equal. rewrite Nat2Z.inj_succ, Z.pow_succ_r by lia.
      replace (m + 10 * 10 ^ Z.of_nat n * (c0 - 48)) with (m + (10 ^ Z.of_nat n * (c0 - 48)) * 10) by ring. rewrite Z.mod_add by lia. reflexivity.
Qed.
End Endless.

(** ** Finite sources of pairs *)
Definition lpos (l : list (Z * Z)) : Prop := List.Forall (fun ab => 1 <= fst ab /\ 1 <= snd ab) l.

Lemma lpos_gval ab l : lpos (ab :: l) -> (1 <= gval (ab :: l))%R.
Proof.
  revert ab. induction l as [|[a' b'] l IH]; intros [a b] H; inversion H as [|? ? [H1 H2] H3]; cbn [fst snd] in *.
  - apply IZR_le. auto.
  - specialize (IH (a', b') H3). change (gval ((a, b) :: (a', b') :: l)) with (IZR b + IZR a' / gval ((a', b') :: l))%R.
    inversion H3 as [|? ? [W4 W5] W6]; cbn [fst snd] in *. apply IZR_le in H2, W4.
    assert (0 <= IZR a' / gval ((a', b') :: l))%R by (apply Rmult_le_pos; [lra|]; left; apply Rinv_0_lt_compat; lra). lra.
Qed.

Section Finite.
Context (t : ity) {I : Type} (inext : I -> res (option (Z * Z) * I)).

Definition ltail (it : I) (u w : R) : Prop :=
  exists l, yields_list inext it l /\ lpos l /\ match l with nil => u = 1%R /\ w = 0%R | (a, _) :: _ => u = gval l /\ w = IZR a end.

Lemma ltail_pos it u w : ltail it u w -> (0 < u)%R /\ (0 <= w)%R.
Proof.
  intros ([|[a b] l] & Y & A & -> & ->); [lra|]. split; [pose proof (lpos_gval _ _ A); lra|]. inversion A as [|? ? [H1 H2] H3]; cbn [fst snd] in *. apply IZR_le. lia.
Qed.

Lemma ltail_next it u w a b it' : ltail it u w -> inext it = Ok (Some (a, b), it') ->
  1 <= a /\ 0 <= b /\ exists u' w' s, ltail it' u' w' /\ (0 < s)%R /\ (s * u = IZR b * u' + w')%R /\ (s * w = IZR a * u')%R.
Proof.
  intros ([|[a0 b0] l] & Y & A & Eu & Ew) N.
  - destruct (yields_list_nil _ _ Y) as (s & E). rewrite N in E. discriminate.
  - destruct (yields_list_cons _ _ _ _ Y) as (it1 & E & Y'). rewrite N in E. inversion E; subst a0 b0 it1.
    inversion A as [|? ? [H1 H2] H3]; cbn [fst snd] in *. split; [lia|]. split; [lia|]. destruct l as [|[a1 b1] l].
    + exists 1%R, 0%R, 1%R. split; [exists []; auto|]. cbn [gval] in Eu. rewrite Eu, Ew. repeat split; lra.
    + pose proof (lpos_gval _ _ H3) as P. exists (gval ((a1, b1) :: l)), (IZR a1), (gval ((a1, b1) :: l)). split; [exists ((a1, b1) :: l); auto|]. split; [lra|].
      change (gval ((a, b) :: (a1, b1) :: l)) with (IZR b + IZR a1 / gval ((a1, b1) :: l))%R in Eu. rewrite Eu, Ew. split; [field; lra|ring].
Qed.

Lemma simplify_sound_list it l fuel n v : yields_list inext it l -> gpositive_list l ->
  nth_item (simp_next t inext fuel) n (gcf_simplify it) = Ok (Some v) -> cf_digit (gval l) n v.
Proof.
  intros Y P H. eapply (simp_sound t inext ltail ltail_pos ltail_next); [| |exact H]; [reflexivity|].
  intros a b it1 k1 N M. destruct l as [|[a0 b0] l]; [contradiction|]. destruct P as (-> & P). fold (lpos l) in P.
  destruct (yields_list_cons _ _ _ _ Y) as (it2 & E & Y'). rewrite N in E. inversion E; subst a b0 it2.
  destruct M as (g & Hg & P1 & P2 & Q1 & Q2). unfold block_identity in *. cbn [pm1 pm2 qm1 qm2] in *.
  assert (g = 1) by (apply Z.mul_eq_1 in P2; lia). subst g.
  assert (A : pm1 k1 = b /\ pm2 k1 = 1 /\ qm1 k1 = 1 /\ qm2 k1 = 0) by lia. destruct A as (A1 & A2 & A3 & A4).
  destruct l as [|[a1 b1] l].
  - exists 1%R, 0%R. split; [exists []; auto|]. unfold alive, good, num, den. rewrite A1, A2, A3, A4. split; [left; lia|]. split; [lra|]. cbn [gval]. field.
  - pose proof (lpos_gval _ _ P) as G. exists (gval ((a1, b1) :: l)), (IZR a1). split; [exists ((a1, b1) :: l); auto|].
    unfold alive, good, num, den. rewrite A1, A2, A3, A4. split; [left; lia|]. split; [lra|].
    change (gval ((1, b) :: (a1, b1) :: l)) with (IZR b + IZR a1 / gval ((a1, b1) :: l))%R. field. lra.
Qed.
End Finite.

(** ** Endless sources of coefficients, all with the sign [e] *)

Lemma gval_sign e (f : nat -> Z) n : e = 1 \/ e = -1 ->
  gval (prefix (fun n => (1, e * f n)) n) = (IZR e * gval (prefix (fun n => (1%Z, f n)) n))%R.
Proof.
  intros He. revert f. induction n as [|n IH]; intros f; [cbn; ring|]. destruct n as [|n].
  - rewrite !gval_1. cbn [snd]. rewrite mult_IZR. reflexivity.
  - rewrite !gval_SS. cbn [fst snd]. change (shift (fun n => (1, e * f n))) with (fun n => (1, e * shift f n)).
    change (shift (fun n => (1, f n))) with (fun n => (1, shift f n)). rewrite IH, mult_IZR.
    set (z := gval _). unfold Rdiv. destruct He as [->| ->].
    + rewrite !Rmult_1_l. reflexivity.
    + replace (-1 * z)%R with (- z)%R by ring. rewrite Rinv_opp. ring.
Qed.

Lemma cconverges_sign e f x : e = 1 \/ e = -1 -> cconverges f x -> gconverges (fun n => (1, e * f n)) (IZR e * x)%R.
Proof.
  intros He C. unfold gconverges. apply (is_lim_seq_ext (fun n => IZR e * gval (prefix (fun n => (1%Z, f n)) (S n)))%R).
  - intros n. rewrite gval_sign; auto.
  - apply (is_lim_seq_mult _ _ (IZR e) x); [apply is_lim_seq_const|exact C|reflexivity].
Qed.

Lemma cconverges_unsign e f x : e = 1 \/ e = -1 -> gconverges (fun n => (1, e * f n)) x -> cconverges f (IZR e * x)%R.
Proof.
  intros He C. apply (is_lim_seq_ext (fun n => IZR e * gval (prefix (fun n => (1%Z, e * f n)%Z) (S n)))%R).
  - intros n. rewrite gval_sign by auto. destruct He as [->| ->]; ring.
  - apply (is_lim_seq_mult _ _ (IZR e) x); [apply is_lim_seq_const|exact C|reflexivity].
Qed.

Lemma csigned_late e f : csigned e f -> latepos (fun n => (1, e * f n)).
Proof. intros (_ & H) n Hn. cbn [fst snd]. split; [lia|apply H; auto]. Qed.

(** [u] is the absolute value of the number *)
Lemma ctail e f x : e = 1 \/ e = -1 -> (forall n, (1 <= n)%nat -> 1 <= e * f n) -> cconverges f x ->
  exists y, cconverges (shift f) y /\ (1 <= IZR e * y)%R /\ x = (IZR (f O) + / y)%R.
Proof.
  intros He L C. assert (LP : latepos (fun n => (1, e * f n))) by (intros n Hn; cbn [fst snd]; split; [lia|auto]).
  destruct (tail_converges _ _ LP (cconverges_sign e f x He C)) as (y & Cy & Py & Ey). cbn [fst snd] in Ey.
  exists (IZR e * y)%R. split; [apply (cconverges_unsign e (shift f)); auto|]. rewrite mult_IZR in Ey.
  destruct He as [->| ->].
  - split; [lra|]. rewrite !Rmult_1_l in *. rewrite Ey. field. lra.
  - split; [lra|]. assert (E : x = (- (-1 * IZR (f O) + 1 / y))%R) by lra. rewrite E. field. lra.
Qed.

Section Signed.
Context (t : ity) {I : Type} (inext : I -> res (option Z * I)) (e : Z) (He : e = 1 \/ e = -1).

Definition stail (it : I) (u w : R) : Prop := exists f, yields inext it f /\ csigned e f /\ cconverges f (IZR e * u) /\ w = 1%R.

Lemma csigned_pos f x : csigned e f -> cconverges f x -> (0 < IZR e * x)%R.
Proof.
  intros (H0 & L) C. destruct (ctail e f x He L C) as (y & Cy & Py & Ey). apply IZR_le in H0. rewrite mult_IZR in H0. rewrite Ey, Rmult_plus_distr_l.
  assert (0 < IZR e * / y)%R; [|lra]. destruct He as [->| ->]; [rewrite Rmult_1_l in *; apply Rinv_0_lt_compat; lra|].
  replace (IZR (-1) * / y)%R with (/ (- y))%R by (field; lra). apply Rinv_0_lt_compat. lra.
Qed.

Lemma sq_e : (IZR e * IZR e = 1)%R.
Proof. destruct He as [->| ->]; ring. Qed.

Lemma stail_pos it u w : stail it u w -> (0 < u)%R /\ (0 <= w)%R.
Proof.
  intros (f & Y & A & C & ->). split; [|lra]. pose proof (csigned_pos f _ A C) as P. rewrite <- Rmult_assoc, sq_e in P. lra.
Qed.

Lemma csigned_shift f : csigned e f -> csigned e (shift f).
Proof. intros (_ & L). split; [specialize (L 1%nat ltac:(lia)); unfold shift; lia|]. intros n Hn. apply L. lia. Qed.

Lemma stail_next it u w b it' : stail it u w -> inext it = Ok (Some b, it') ->
  0 <= e * b /\ exists u' w' s, stail it' u' w' /\ (0 < s)%R /\ (s * u = IZR (e * b) * u' + w')%R /\ (s * w = u')%R.
Proof.
  intros (f & Y & A & C & ->) N. destruct (yields_next _ _ _ _ _ Y N) as (E & Y'). assert (E0 : f O = b) by congruence.
  split; [rewrite <- E0; apply A|]. destruct (ctail e f _ He (proj2 A) C) as (y & Cy & Py & Ey). rewrite E0 in Ey.
  exists (IZR e * y)%R, 1%R, (IZR e * y)%R. split.
  - exists (shift f). split; [auto|]. split; [apply csigned_shift; auto|]. split; [|reflexivity]. rewrite <- Rmult_assoc, sq_e, Rmult_1_l. auto.
  - split; [lra|]. rewrite mult_IZR. assert (y <> 0%R) by (destruct He as [K|K]; rewrite K in Py; lra). split; [|ring].
    replace (IZR e * y * u)%R with (y * (IZR e * u))%R by ring. rewrite Ey. replace (IZR e * IZR b * (IZR e * y) + 1)%R with (IZR e * IZR e * IZR b * y + 1)%R by ring.
    rewrite sq_e. field. auto.
Qed.

(** The coefficients for which the answers are right *)
Definition homo_ok (a b c d : Z) : Prop := 0 <= e * c * d \/ (0 < e * a * b /\ Z.abs c <= Z.abs a /\ Z.abs d <= Z.abs b).

Lemma homo_live it f x a b c d : yields inext it f -> csigned e f -> cconverges f x -> homo_ok a b c d -> (IZR c * x + IZR d <> 0)%R ->
  zlive stail e (Block a b c d) it ((IZR a * x + IZR b) / (IZR c * x + IZR d)).
Proof.
  intros Y A C G D. exists (IZR e * x)%R, 1%R. split.
  - exists f. split; [auto|]. split; [auto|]. split; [|reflexivity]. rewrite <- Rmult_assoc, sq_e, Rmult_1_l. auto.
  - assert (Eq : forall z, (IZR (e * z) * (IZR e * x) = IZR z * x)%R) by (intros z; rewrite mult_IZR; replace (IZR e * IZR z * (IZR e * x))%R with (IZR e * IZR e * (IZR z * x))%R by ring; rewrite sq_e; ring).
    unfold alive, good, good2, num, den, fl. cbn [pm1 pm2 qm1 qm2]. rewrite !Eq, !Rmult_1_r. split; [|split; [auto|reflexivity]].
    rewrite !Z.abs_mul. replace (Z.abs e) with 1 by (destruct He as [->| ->]; reflexivity). rewrite !Z.mul_1_l. exact G.
Qed.

Lemma homo_sound_signed it f x a b c d fuel n v : yields inext it f -> csigned e f -> cconverges f x -> homo_ok a b c d -> (IZR c * x + IZR d <> 0)%R ->
  nth_item (homo_next t inext fuel) n (icf_homo it a b c d) = Ok (Some v) -> cf_digit ((IZR a * x + IZR b) / (IZR c * x + IZR d)) n v.
Proof.
  intros Y A C G D H. eapply (homo_nth t inext stail e He stail_pos stail_next); [|exact H]. eapply homo_live; eauto.
Qed.

(** With c = 0 the first coefficient is arbitrary *)
Lemma homo_first_live it f x a b d b1 it1 k1 : yields inext it f -> (forall n, (1 <= n)%nat -> 1 <= e * f n) -> cconverges f x -> d <> 0 ->
  inext it = Ok (Some b1, it1) -> moved (Block a b 0 d) 1 b1 k1 -> zlive stail e k1 it1 ((IZR a * x + IZR b) / IZR d).
Proof.
  intros Y L C D N M. destruct (yields_next _ _ _ _ _ Y N) as (E & Y'). assert (E0 : f O = b1) by congruence.
  destruct (ctail e f _ He L C) as (y & Cy & Py & Ey). rewrite E0 in Ey. exists (IZR e * y)%R, 1%R. split.
  - exists (shift f). split; [auto|]. split.
    + split; [specialize (L 1%nat ltac:(lia)); unfold shift; lia|]. intros m Hm. apply L. lia.
    + split; [|reflexivity]. rewrite <- Rmult_assoc, sq_e, Rmult_1_l. auto.
  - assert (Eq : forall z, (IZR (e * z) * (IZR e * y) = IZR z * y)%R) by (intros z; rewrite mult_IZR; replace (IZR e * IZR z * (IZR e * y))%R with (IZR e * IZR e * (IZR z * y))%R by ring; rewrite sq_e; ring).
    unfold alive, good, num, den, fl. cbn [pm1 pm2 qm1 qm2]. rewrite !Eq, !Rmult_1_r.
    destruct M as (g & Hg & P1 & P2 & Q1 & Q2). cbn [pm1 pm2 qm1 qm2] in *. assert (Z2 : qm2 k1 = 0) by nia. rewrite Z2.
    split; [left; lia|]. assert (Hd : IZR d <> 0%R) by (apply not_0_IZR; auto).
    assert (Hy : y <> 0%R) by (destruct He as [K|K]; rewrite K in Py; lra).
    apply (f_equal IZR) in P1, P2, Q1. rewrite ?plus_IZR, ?mult_IZR in *. assert (Hg' : (1 <= IZR g)%R) by (apply IZR_le; auto).
    assert (Eq1 : IZR (qm1 k1) = (IZR d / IZR g)%R) by (field_simplify_eq; lra).
    assert (Ep1 : IZR (pm1 k1) = ((IZR a * IZR b1 + IZR b) / IZR g)%R) by (field_simplify_eq; lra).
    assert (Ep2 : IZR (pm2 k1) = (IZR a / IZR g)%R) by (field_simplify_eq; lra).
    rewrite Eq1, Ep1, Ep2. split.
    + rewrite Rplus_0_r. apply Rmult_integral_contrapositive. split; [|auto]. unfold Rdiv. apply Rmult_integral_contrapositive. split; [auto|apply Rinv_neq_0_compat; lra].
    + rewrite Ey. field. repeat split; auto; lra.
Qed.

Lemma homo_sound_affine it f x a b d fuel n v : yields inext it f -> (forall n, (1 <= n)%nat -> 1 <= e * f n) -> cconverges f x -> d <> 0 ->
  nth_item (homo_next t inext fuel) n (icf_homo it a b 0 d) = Ok (Some v) -> cf_digit ((IZR a * x + IZR b) / IZR d) n v.
Proof.
  intros Y L C D H. eapply (homo_sound t inext stail e He stail_pos stail_next); [| |exact H]; [reflexivity|].
  intros. eapply homo_first_live; eauto.
Qed.
End Signed.
