(** * GenSerret: homo(a, b, c, d) with determinant 1 or -1 ends up in the coefficients it reads. *)

From Coq Require Import ZArith Reals Lia Lra Bool List Arith.
From Coquelicot Require Import Coquelicot.
From Verif Require Import Base Ext ModelBlock ModelCF ModelGen Spec SpecCF SpecGen SpecSerret NumFacts GenSound GenConv GenTail GenMisc GenHomo CFPeriod CFSerret.
Open Scope Z_scope.

Lemma conv_cons (h : nat -> Z) w : w <> 0%R -> cconverges (fun n => h (S n)) w -> cconverges h (IZR (h O) + / w)%R.
Proof.
  intros W C. unfold cconverges, gconverges in *. apply is_lim_seq_incr_1.
  apply (is_lim_seq_ext (fun n => IZR (h O) + / gval (prefix (fun n => (1%Z, h (S n))) (S n)))%R).
  - intros n. rewrite gval_SS. cbn [fst snd]. unfold Rdiv. rewrite Rmult_1_l. reflexivity.
  - apply is_lim_seq_plus'; [apply is_lim_seq_const|]. apply (is_lim_seq_inv _ w C). intros E. apply W. congruence.
Qed.
Lemma conv_prefix m : forall (h : nat -> Z) z, irr z -> cconverges (fun n => h (m + n)%nat) z -> exists y, uni z y /\ cconverges h y.
Proof.
  induction m as [|m IH]; intros h z I C.
  - exists z. split; [|exact C]. exists 1, 0, 0, 1. split; [reflexivity|ring].
  - destruct (IH (fun n => h (S n)) z I C) as (w & U & Cw). pose proof (uni_irr z w I U) as J. exists (IZR (h O) + / w)%R. split.
    + apply (uni_trans _ w); auto. exists (h O), 1, 1, 0. split; [f_equal; lia|]. field. apply irr_nz. auto.
    + apply conv_cons; auto. apply irr_nz. auto.
Qed.

Lemma cq_S n z : cq (S n) z = Nat.iter n gs (gs (Rabs z)).
Proof. replace (S n) with (n + 1)%nat by lia. rewrite cq_add. reflexivity. Qed.
Lemma digit_cq e n : e = 1 \/ e = -1 -> forall z v, irr z -> (0 < IZR e * z)%R -> cf_digit z n v -> v = e * fl (cq n z).
Proof.
  intros He.
  assert (T : forall z a, (0 < IZR e * z)%R -> istrunc z a -> Rabs z = (IZR e * z)%R /\ e * a = fl (Rabs z)).
  { intros z a P Ta. assert (A : Rabs z = (IZR e * z)%R) by (destruct He as [-> | ->]; [rewrite Rabs_right by lra|rewrite Rabs_left by lra]; lra).
    split; [auto|]. symmetry. apply fl_is. rewrite A. destruct Ta as [Ta1 Ta2]. unfold isfloor. rewrite mult_IZR. destruct He as [-> | ->]; [specialize (Ta1 ltac:(lra))|specialize (Ta2 ltac:(lra))]; lra. }
  induction n as [|n IH]; intros z v I P D.
  - destruct (T z v P D) as [A F]. change (cq 0 z) with (Rabs z). rewrite <- F. destruct He as [-> | ->]; lia.
  - destruct D as (a & Ta & Na & D). destruct (T z a P Ta) as [A F]. rewrite cq_S.
    pose proof (fl_ok (Rabs z)) as Fl. unfold isfloor in Fl.
    assert (J : irr (z - IZR a)) by (replace (z - IZR a)%R with (IZR (- a) + z)%R by (rewrite opp_IZR; ring); apply irr_add; auto).
    assert (Q : (IZR e * (z - IZR a) = Rabs z - IZR (fl (Rabs z)))%R) by (rewrite <- F, A, mult_IZR; ring).
    pose proof (irr_nz _ J) as Nz. assert (Q0 : (0 < IZR e * (z - IZR a))%R). { destruct (Rle_lt_or_eq_dec 0 (IZR e * (z - IZR a))) as [X|X]; [lra|auto|]. exfalso. destruct He as [-> | ->]; lra. }
    assert (G : gs (Rabs z) = (IZR e * / (z - IZR a))%R). { unfold gs. rewrite <- Q. destruct He as [-> | ->]; field; auto. }
    assert (P' : (0 < IZR e * / (z - IZR a))%R) by (rewrite <- G; unfold gs; apply Rinv_0_lt_compat; lra).
    rewrite (IH (/ (z - IZR a))%R v (irr_inv _ J) P' D). f_equal. f_equal. unfold cq. f_equal. rewrite G.
    destruct He as [-> | ->]; [rewrite Rabs_right by lra|rewrite Rabs_left by lra]; lra.
Qed.
Lemma irr_sign z : irr z -> exists e, (e = 1 \/ e = -1) /\ (0 < IZR e * z)%R.
Proof. intros I. pose proof (irr_nz z I). destruct (Rlt_dec 0 z); [exists 1|exists (-1)]; split; auto; lra. Qed.

(** two sequences that are, from some place on, the coefficients of equivalent numbers *)
Lemma digits_meet x y m k (f h : nat -> Z) z w : irr x -> uni x y -> irr z -> irr w -> uni x z -> uni y w ->
  (forall n, cf_digit z n (f (m + n)%nat)) -> (forall n, cf_digit w n (h (k + n)%nat)) ->
  exists i j e, (e = 1 \/ e = -1) /\ forall n, h (i + n)%nat = e * f (j + n)%nat.
Proof.
  intros I U Iz Iw Uz Uw Df Dh. assert (E : eqv z w). { apply uni_eqv; auto. apply (uni_trans _ x); auto; [apply uni_sym; auto|]. apply (uni_trans _ y); auto. }
  destruct E as (i & j & E). destruct (irr_sign z Iz) as (e & He & Pe). destruct (irr_sign w Iw) as (e' & He' & Pe').
  exists (k + j)%nat, (m + i)%nat, (e' * e). split; [destruct He as [-> | ->], He' as [-> | ->]; auto|]. intros n.
  specialize (Df (i + n)%nat). specialize (Dh (j + n)%nat). rewrite Nat.add_assoc in Df, Dh.
  apply (digit_cq e _ He z _ Iz Pe) in Df. apply (digit_cq e' _ He' w _ Iw Pe') in Dh. rewrite Df, Dh.
  replace (cq (i + n) z) with (cq (j + n) w) by (rewrite !(Nat.add_comm _ n), !cq_add, E; reflexivity).
  destruct He as [-> | ->]; lia.
Qed.

Lemma homo_meets {I} (inext : I -> res (option Z * I)) e it f a b c d : e = 1 \/ e = -1 ->
  yields inext it f -> (forall n, (1 <= n)%nat -> 1 <= e * f n) -> Z.abs (a * d - b * c) = 1 ->
  exists h i j e', (e' = 1 \/ e' = -1) /\ (forall n, h (i + n)%nat = e' * f (j + n)%nat) /\
    (forall n, exists fuel, forall fuel', (fuel <= fuel')%nat -> nth_item (homo_next BigI inext fuel') n (icf_homo it a b c d) = Ok (Some (h n))) /\
    (forall t fuel n v, nth_item (homo_next t inext fuel) n (icf_homo it a b c d) = Ok (Some v) -> v = h n).
Proof.
  intros He Y L D. destruct (signed_converges e f He L) as (x & C & Ix). change (irr x) in Ix. assert (D0 : a * d - b * c <> 0) by lia.
  destruct (homo_spells_any inext e it f x a b c d He Y L C D0) as (h & Ch & (k & w & Iw & Dw) & G & A). change (irr w) in Iw.
  set (y := ((IZR a * x + IZR b) / (IZR c * x + IZR d))%R) in *.
  assert (U : uni x y).
  { exists a, b, c, d. split; [auto|]. unfold y. field. intros E. apply (irr_lin _ _ _ Ix) in E. destruct E as [-> ->]. lia. }
  destruct (ctail e f x He L C) as (z & Cz & Pz & Ez). assert (Uz : uni x z).
  { exists 0, 1, 1, (- f O). split; [lia|]. rewrite opp_IZR, Ez. field. intros E. rewrite E in Pz. lra. }
  assert (Iz : irr z) by (apply (uni_irr x); auto).
  destruct (conv_prefix k h w Iw (digits_converge_any w _ Iw Dw)) as (y' & Uw & Cy). rewrite (cconverges_unique _ _ _ Cy Ch) in Uw.
  destruct (digits_meet x y 1 k f h z w Ix U Iz Iw Uz (uni_sym _ _ Uw)) as (i & j & e' & He' & M); [|exact Dw|].
  { intros n. apply (signed_digit e n He (fun n => f (S n)) z); [|exact Cz]. split; [specialize (L 1%nat ltac:(lia)); lia|intros q Hq; apply L; lia]. }
  exists h, i, j, e'. auto.
Qed.
