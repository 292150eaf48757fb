(** * ExpNegLive: with unbounded integers exp(x).simplify() never stops, and exp(x).decimals() neither if x < 0 (C70). *)

From Coq Require Import ZArith Reals Lia Lra Psatz Bool List Factorial.
From Coquelicot Require Import Coquelicot.
From Verif Require Import Base Ext ModelBlock ModelGen Spec SpecGen NumFacts SurdOrd SurdRound GenBlock GenSound GenConv GenCont GenTail GenLive GenRep SymExp ExpNeg ExpIrr.
Import ListNotations.
Open Scope Z_scope.

Definition exp_at (x : Z) (i : nat) : exp_st := ExpSt x (Z.of_nat i).

Lemma exp_st_big x i : exp_next BigI (exp_at x i) = Ok (Some (exp_items x i), exp_at x (S i)).
Proof.
  pose proof (exp_big x 0 i) as H. apply nth_head in H. destruct H as (s' & H). unfold exp_at. rewrite H. rewrite Nat.add_0_r.
  destruct (exp_step _ _ _ _ _ H) as (_ & ->). reflexivity.
Qed.

Lemma exp_den_nz x n : gden (exp_items x) n <> 0.
Proof. rewrite (proj1 (exp_den x n)). pose proof (lt_O_fact n). lia. Qed.

Lemma exp_conv_lim x : is_lim_seq (fun n => IZR (gnum (exp_items x) n) / IZR (gden (exp_items x) n))%R (exp (IZR x)).
Proof. apply (is_lim_seq_ext (sum_f_R0 (fun k => IZR x ^ k / INR (fact k))%R)); [intros n; symmetry; apply exp_sum|apply exp_series]. Qed.

Lemma exp_simplify_never_stops x n : x <> 0 ->
  exists fuel v, forall fuel', (fuel <= fuel')%nat -> nth_item (simp_next BigI (exp_next BigI) fuel') n (gcf_simplify (gcf_exp x)) = Ok (Some v).
Proof.
  intros Hx. apply (simplify_never_stops (exp_next BigI) (exp_items x) (exp_at x) (exp (IZR x)) (exp_st_big x) eq_refl (exp_den_nz x) (exp_conv_lim x) (exp_irr x Hx)).
Qed.

Section Neg.
Context (x : Z) (Hx : x < 0).
Notation f := (exp_items x).
Notation st := (exp_at x).
Notation X := (exp (IZR x)).
Notation tl := (ntail x).

Definition dinv (o : option nat) (L : lin) (k : block) : Prop :=
  at_pos f o L k /\ (L = lid \/ slive tl k (st (npos o)) (lval L X)).

Lemma lval_lid y : lval lid y = y /\ ldn lid y = 1%R.
Proof. unfold lval, ldn, lid. cbn [la lb lc ld]. split; field. Qed.

Lemma rep_early m k : rep f (S m) lid k -> early x m k.
Proof.
  intros (s & Hs & P1 & Q1 & P2 & Q2). exists s. rewrite gcont_old in P2, Q2. unfold lnum, lden, lid in *. cbn [la lb lc ld] in *.
  unfold gnum, gden. lia.
Qed.

Lemma dinv_slive o L k i r1 r2 : dinv o L k -> emits k i r1 r2 -> slive tl k (st (npos o)) (lval L X).
Proof.
  intros (A & [-> |S]) E; [|exact S]. rewrite (proj1 (lval_lid X)). destruct o as [[|m]|].
  - cbn [at_pos] in A. destruct A as (s & Hs & _ & _ & _ & Q2). unfold lden, lid in Q2. cbn [gcont fst snd lc ld] in Q2. destruct E as (_ & N & _). nia.
  - cbn [at_pos npos] in *. apply rep_early in A. destruct (Z.lt_ge_cases (Z.of_nat m + 2 + x) 0) as [Q|Q].
    + destruct (early_quiet x Hx _ _ _ _ _ A Q E).
    + apply early_live; auto.
  - destruct A as (_ & ->). destruct E as (K & _). destruct (K eq_refl).
Qed.

Lemma tl_pos it u w : tl it u w -> (0 < u)%R /\ (0 <= w)%R.
Proof. apply ntail_pos; auto. Qed.
Lemma tl_next it u w a b it' : tl it u w -> exp_next BigI it = Ok (Some (a, b), it') ->
  1 <= a /\ 0 <= b /\ exists u' w' s, tl it' u' w' /\ (0 < s)%R /\ (s * u = IZR b * u' + w')%R /\ (s * w = IZR a * u')%R.
Proof. apply ntail_next; auto. Qed.

Lemma dinv_move o L k k' : dinv o L k -> moved k (fst (f (npos o))) (snd (f (npos o))) k' -> dinv (Some (npos o)) L k'.
Proof.
  intros (A & S) M. split; [apply (at_move f eq_refl) with (k := k); auto|]. destruct S as [S|S]; [auto|right].
  eapply (slive_gmove (exp_next BigI) tl tl_next); [exact S| |exact M]. rewrite <- surjective_pairing. apply exp_st_big.
Qed.

Lemma dinv_emit o L k i r1 r2 : dinv o L k -> emits k i r1 r2 -> block_check_integer BigI k = Ok (Some (i, r1, r2)) -> ldn L X <> 0%R ->
  istrunc (lval L X) i /\ dinv o (lten L i) (Block (r1 * 10) (r2 * 10) (qm1 k) (qm2 k)).
Proof.
  intros DI E C D. pose proof (dinv_slive _ _ _ _ _ _ DI E) as ((u & w & T & A) & G0). destruct (tl_pos _ _ _ T) as [Hu Hw].
  destruct (emit_mul BigI _ _ _ _ _ _ _ Hu Hw C A G0) as (Tr & A' & G'). split; [auto|]. split.
  - destruct DI as (AP & _). destruct o as [m|]; cbn [at_pos] in *; [apply rep_ten; auto|]. destruct AP as (_ & ->). destruct E as (K & _). destruct (K eq_refl).
  - right. rewrite (proj2 (lval_ten L X i D)). split; [exists u, w; auto|exact G'].
Qed.

Definition dgood (s : block * exp_st) : Prop :=
  exists o L, snd s = st (npos o) /\ dinv o L (fst s) /\ ldn L X <> 0%R /\ irrational (lval L X) /\ (0 <= lval L X < 10)%R.

Lemma dec_runs N : forall o L k, dinv o L k -> ldn L X <> 0%R -> irrational (lval L X) -> (0 <= lval L X < 10)%R ->
  (forall k', path k (from f (npos o)) N k' -> exists i r1 r2, emits k' i r1 r2) ->
  exists v s', dec_next BigI (exp_next BigI) (S N) (k, st (npos o)) = Ok (Some v, s') /\ dgood s'.
Proof.
  induction N as [|N IH]; intros o L k DI D Iy B H; cbn [dec_next]; unfold checked, fits, unwrap at 1; cbn [bind]; unfold block_reduce_mul at 1;
    destruct (check_integer_big k) as [(i & r1 & r2 & C)|(C & NE)]; rewrite C; cbn [bind].
  1,3: unfold lift2, mulT, chk, fits; cbn [bind];
    pose proof (check_integer_inv _ _ _ _ _ C) as E; destruct (dinv_emit _ _ _ _ _ _ DI E C D) as ((Tr & _) & DI'); specialize (Tr (proj1 B));
    assert (0 <= i <= 9) by (split; [apply Z.lt_succ_r, lt_IZR; rewrite succ_IZR; lra|apply Z.lt_succ_r, lt_IZR; rewrite succ_IZR; lra]);
    unfold addT, chk; replace ((0 <=? i) && (i <? 2 ^ 8)) with true by (symmetry; apply andb_true_iff; split; [apply Z.leb_le|apply Z.ltb_lt]; lia); cbn [unwrap bind];
    unfold fits; replace ((0 <=? i + 48) && (i + 48 <? 2 ^ 8)) with true by (symmetry; apply andb_true_iff; split; [apply Z.leb_le|apply Z.ltb_lt]; lia); cbn [bind];
    eexists; eexists; (split; [reflexivity|]); exists o, (lten L i); cbn [fst snd]; destruct (lval_ten L X i D) as (D' & E');
    (split; [reflexivity|]); (split; [exact DI'|]); (split; [exact D'|]); rewrite E'; (split; [apply irr_ten; auto|lra]).
  - exfalso. destruct (H k eq_refl) as (i & r1 & r2 & E). exact (NE _ _ _ E).
  - rewrite exp_st_big. cbn [bind]. destruct (f (npos o)) as [a b] eqn:E0.
    destruct (checked_gmove_big k a b) as (p & q & k1 & M). rewrite M. cbn [bind]. apply checked_gmove_inv in M.
    apply (IH (Some (npos o)) L (block_update k1 p q)); auto.
    + eapply dinv_move; eauto. rewrite E0. exact M.
    + intros k' P. apply H. exists (block_update k1 p q). unfold from at 1 2. rewrite Nat.add_0_r, E0. split; [exact M|].
      eapply path_ext; [|exact P]. intros j. unfold from, shift. cbn [npos]. f_equal. lia.
Qed.

Lemma dgood_step s : dgood s -> exists fuel v s', dec_next BigI (exp_next BigI) fuel s = Ok (Some v, s') /\ dgood s'.
Proof.
  destruct s as [k it]. intros (o & L & E & DI & D & Iy & B). cbn [fst snd] in *. subst it.
  assert (Ex : exists N, forall k', path k (from f (npos o)) N k' -> exists i r1 r2, emits k' i r1 r2).
  { destruct o as [m|].
    - apply (rep_eventually f X (exp_den_nz x) (exp_conv_lim x) m L k); auto; [apply DI|]. intros i. apply irr_int. auto.
    - destruct DI as ((-> & ->) & _). destruct (gmove_big block_identity 1 1) as (k1 & M). apply gmove_inv in M.
      destruct (rep_eventually f X (exp_den_nz x) (exp_conv_lim x) 0 lid k1 (rep_first f k1 eq_refl M) D (fun i => irr_int _ i Iy)) as (N & HN).
      exists (S N). cbn [npos]. intros k' (k2 & M2 & P). assert (E : k2 = k1).
      { unfold from in M2. cbn [Nat.add exp_items fst snd] in M2. clear - M M2. destruct M as (g & Hg & A1 & A2 & B1 & B2). destruct M2 as (h & Hh & C1 & C2 & D1 & D2).
        unfold block_identity in *. cbn [pm1 pm2 qm1 qm2] in *. assert (g = 1) by (apply Z.mul_eq_1 in A2; lia). assert (h = 1) by (apply Z.mul_eq_1 in C2; lia).
        subst g h. destruct k1 as [x1 x2 x3 x4], k2 as [y1 y2 y3 y4]. cbn [pm1 pm2 qm1 qm2] in *. f_equal; lia. }
      subst k2. apply HN. eapply path_ext; [|exact P]. intros j. unfold from, shift. f_equal. }
  destruct Ex as (N & HN). destruct (dec_runs N o L k DI D Iy B HN) as (v & s' & R & G). eauto.
Qed.

Lemma exp_decimals_never_stops n : exists fuel v, forall fuel', (fuel <= fuel')%nat -> nth_item (dec_next BigI (exp_next BigI) fuel') n (gcf_decimals (gcf_exp x)) = Ok (Some v).
Proof.
  apply (nth_live (dec_next BigI (exp_next BigI)) dgood (dec_fuel BigI (exp_next BigI)) dgood_step). exists None, lid. cbn [fst snd npos gcf_decimals].
  split; [reflexivity|]. split; [split; [split; reflexivity|auto]|]. destruct (lval_lid X) as (-> & ->). split; [lra|]. split; [apply exp_irr; lia|].
  split; [left; apply exp_pos|]. apply Rlt_trans with 1%R; [|lra]. rewrite <- exp_0. apply exp_increasing. apply IZR_lt in Hx. exact Hx.
Qed.
End Neg.
