(** * GenLive: with unbounded integers simplify(), homo() and decimals() never stop on irrational numbers. *)

From Coq Require Import ZArith Reals Lia Lra Psatz Bool List.
From Coquelicot Require Import Coquelicot.
From Verif Require Import Base Ext ModelBlock ModelGen Spec SpecGen NumFacts SurdOrd SurdRound GenBlock GenSound GenConv GenTail.
Import ListNotations.
Open Scope Z_scope.

(** ** Irrational numbers *)
Lemma irr_int y i : irrational y -> y <> IZR i.
Proof. intros H E. apply (H i 1); [lia|]. rewrite E. field. Qed.

Lemma irr_recip y i : irrational y -> irrational (/ (y - IZR i)).
Proof.
  intros H p q Hq E. assert (D : (y - IZR i <> 0)%R) by (pose proof (irr_int y i H); lra). assert (Q : IZR q <> 0%R) by (apply not_0_IZR; auto).
  assert (P : p <> 0). { intros ->. apply (Rinv_neq_0_compat _ D). rewrite E. unfold Rdiv. ring. }
  apply (H (i * p + q) p P). assert (P' : IZR p <> 0%R) by (apply not_0_IZR; auto). rewrite plus_IZR, mult_IZR.
  assert (E2 : (y - IZR i = IZR q / IZR p)%R) by (rewrite <- (Rinv_inv (y - IZR i)), E; field; auto).
  replace y with (IZR i + (y - IZR i))%R by ring. rewrite E2. field. auto.
Qed.

Lemma irr_ten y i : irrational y -> irrational (10 * (y - IZR i)).
Proof.
  intros H p q Hq E. assert (Q : IZR q <> 0%R) by (apply not_0_IZR; auto). apply (H (p + 10 * i * q) (10 * q)); [lia|].
  rewrite plus_IZR, !mult_IZR. assert (E2 : (y - IZR i = IZR p / IZR q / 10)%R) by lra. replace y with (IZR i + (y - IZR i))%R by ring. rewrite E2. field. auto.
Qed.

Lemma irr_mobius x a b c d : irrational x -> a * d - b * c <> 0 -> irrational ((IZR a * x + IZR b) / (IZR c * x + IZR d)).
Proof.
  intros H Det p q Hq E. assert (D : (IZR c * x + IZR d <> 0)%R).
  { intros K. destruct (Z.eq_dec c 0) as [->|Hc].
    - rewrite Rmult_0_l, Rplus_0_l in K. apply eq_IZR_R0 in K. subst d. lia.
    - apply (H (- d) c Hc). rewrite opp_IZR. assert (IZR c <> 0%R) by (apply not_0_IZR; auto). field_simplify_eq; auto. lra. }
  assert (Q : IZR q <> 0%R) by (apply not_0_IZR; auto).
  assert (E2 : (IZR (q * a - p * c) * x = IZR (p * d - q * b))%R).
  { rewrite !minus_IZR, !mult_IZR. assert (K : (IZR q * (IZR a * x + IZR b) = IZR p * (IZR c * x + IZR d))%R).
    { apply (Rmult_eq_reg_r (/ (IZR q * (IZR c * x + IZR d)))); [|apply Rinv_neq_0_compat, Rmult_integral_contrapositive; auto].
      transitivity ((IZR a * x + IZR b) / (IZR c * x + IZR d))%R; [field; auto|]. rewrite E. field. auto. }
    lra. }
  destruct (Z.eq_dec (q * a - p * c) 0) as [Z0|NZ].
  - rewrite Z0, Rmult_0_l in E2. symmetry in E2. apply eq_IZR_R0 in E2. apply Det.
    assert (K : q * (a * d - b * c) = 0) by (replace (q * (a * d - b * c)) with ((q * a) * d - (q * b) * c) by ring; replace (q * a) with (p * c) by lia; replace (q * b) with (p * d) by lia; ring).
    apply Z.mul_eq_0 in K. tauto.
  - apply (H (p * d - q * b) (q * a - p * c) NZ). rewrite <- E2. assert (IZR (q * a - p * c) <> 0%R) by (apply not_0_IZR; auto). field. auto.
Qed.

(** ** The bounds come together *)
Lemma trunc_quot p q : q <> 0 -> istrunc (IZR p / IZR q) (Z.quot p q).
Proof.
  intros Hq. destruct (Z.lt_ge_cases q 0) as [N|N].
  - rewrite <- Z.quot_opp_opp by auto. replace (IZR p / IZR q)%R with (IZR (- p) / IZR (- q))%R by (rewrite !opp_IZR; field; apply not_0_IZR; auto).
    apply trunc_div; [lia|]. apply istrunc_IZR.
  - apply trunc_div; [lia|]. apply istrunc_IZR.
Qed.

Lemma trunc_near y : (forall i, y <> IZR i) -> exists i lo hi, (lo < y < hi)%R /\ forall z, (lo < z < hi)%R -> istrunc z i.
Proof.
  intros H. destruct (Rlt_or_le 0 y) as [P|P].
  - exists (Int_part y), (IZR (Int_part y)), (IZR (Int_part y) + 1)%R. destruct (base_Int_part y) as [A B]. pose proof (H (Int_part y)).
    split; [lra|]. intros z Hz. assert (Pi : (0 <= IZR (Int_part y))%R).
    { apply IZR_le. assert (- 1 < Int_part y); [|lia]. apply lt_IZR. lra. }
    split; intros; lra.
  - set (j := Int_part (- y)). exists (- j), (- IZR j - 1)%R, (- IZR j)%R. destruct (base_Int_part (- y)) as [A B]. fold j in A, B.
    pose proof (H (- j)) as N. rewrite opp_IZR in N. split; [lra|]. intros z Hz. assert (Pi : (0 <= IZR j)%R).
    { apply IZR_le. assert (- 1 < j); [|lia]. apply lt_IZR. lra. }
    unfold istrunc. rewrite opp_IZR. split; intros; lra.
Qed.

Fixpoint path (k : block) (f : nat -> Z * Z) (n : nat) (k' : block) : Prop :=
  match n with
  | O => k' = k
  | S n => exists k1, moved k (fst (f O)) (snd (f O)) k1 /\ path k1 (shift f) n k'
  end.

Lemma path_snoc n : forall k f k', path k f (S n) k' -> exists k1, path k f n k1 /\ moved k1 (fst (f n)) (snd (f n)) k'.
Proof.
  induction n as [|n IH]; intros k f k' (k1 & M & P).
  - cbn [path] in P. subst k1. exists k. split; [reflexivity|auto].
  - destruct (IH _ _ _ P) as (k2 & P2 & M2). exists k2. split; [exists k1; auto|exact M2].
Qed.

Lemma path_reads n : forall k f k', path k f n k' -> reads k (prefix f n) k'.
Proof.
  induction n as [|n IH]; intros k f k' P.
  - cbn [path] in P. subst k'. apply reads_nil.
  - destruct (path_snoc _ _ _ _ P) as (k1 & P1 & M). rewrite prefix_snoc. apply IH in P1. destruct (f n) as [a b]. eapply reads_snoc; eauto.
Qed.

Lemma lin_lim f T c1 c2 : gconverges f T -> is_lim_seq (fun n => (c1 * gval (prefix f (S n)) + c2)%R) (c1 * T + c2)%R.
Proof.
  intros C. apply (is_lim_seq_plus _ _ (c1 * T)%R c2); [|apply is_lim_seq_const|reflexivity].
  apply (is_lim_seq_mult _ _ c1 T); [apply is_lim_seq_const|exact C|reflexivity].
Qed.

Lemma eventually_emits k f T : (forall n, gregular (prefix f n)) -> gconverges f T -> den k T (IZR (fst (f O))) <> 0%R ->
  (forall i, (num k T (IZR (fst (f O))) / den k T (IZR (fst (f O))))%R <> IZR i) ->
  exists N, forall k', path k f N k' -> exists i r1 r2, emits k' i r1 r2.
Proof.
  intros G C D NI. set (a0 := IZR (fst (f O))) in *. set (y := (num k T a0 / den k T a0)%R) in *.
  destruct (trunc_near y NI) as (i & lo & hi & B & Tz).
  assert (Ld : is_lim_seq (fun n => den k (gval (prefix f (S n))) a0) (den k T a0)) by (apply lin_lim; auto).
  assert (Ln : is_lim_seq (fun n => num k (gval (prefix f (S n))) a0) (num k T a0)) by (apply lin_lim; auto).
  assert (Le : is_lim_seq (fun n => (num k (gval (prefix f (S n))) a0 / den k (gval (prefix f (S n))) a0)%R) y).
  { apply (is_lim_seq_div _ _ (num k T a0) (den k T a0)); auto; [intros K; inversion K; auto|]. unfold is_Rbar_div, is_Rbar_mult, Rbar_inv, Rbar_mult'. reflexivity. }
  apply is_lim_seq_spec in Ld, Le.
  assert (P1 : (0 < Rabs (den k T a0))%R) by (apply Rabs_pos_lt; auto).
  assert (P2 : (0 < Rmin (y - lo) (hi - y))%R) by (apply Rmin_glb_lt; lra).
  destruct (Ld (mkposreal _ P1)) as (N1 & H1). destruct (Le (mkposreal _ P2)) as (N2 & H2). cbn [pos] in H1, H2.
  set (N := Nat.max N1 N2).
  assert (Q : forall n, (N <= n)%nat -> den k (gval (prefix f (S n))) a0 <> 0%R /\ istrunc (num k (gval (prefix f (S n))) a0 / den k (gval (prefix f (S n))) a0) i).
  { intros n Hn. specialize (H1 n ltac:(lia)). specialize (H2 n ltac:(lia)). split.
    - intros K. rewrite K in H1. replace (0 - den k T a0)%R with (- den k T a0)%R in H1 by ring. rewrite Rabs_Ropp in H1. lra.
    - apply Tz. pose proof (Rmin_l (y - lo) (hi - y)). pose proof (Rmin_r (y - lo) (hi - y)). apply Rabs_def2 in H2. lra. }
  assert (K : forall n k', (N <= n)%nat -> path k f (S n) k' -> qm1 k' <> 0 /\ Z.quot (pm1 k') (qm1 k') = i).
  { intros n k' Hn P. apply path_reads in P. destruct (Q n Hn) as (Q1 & Q2).
    assert (Np : prefix f (S n) <> []) by (rewrite prefix_S; discriminate).
    assert (Hd : exists b1 l1, prefix f (S n) = (fst (f O), b1) :: l1) by (rewrite prefix_S; destruct (f O); eauto).
    destruct (reads_col1 _ _ _ (fst (f O)) Np (G (S n)) Hd P) as (c & Hc & Ep & Eq). fold a0 in Ep, Eq.
    assert (Nq : qm1 k' <> 0). { intros K. rewrite K in Eq. symmetry in Eq. apply Rmult_integral in Eq. destruct Eq; auto. }
    split; [auto|]. eapply istrunc_unique; [apply trunc_quot; auto|]. rewrite Ep, Eq.
    replace (c * num k (gval (prefix f (S n))) a0 / (c * den k (gval (prefix f (S n))) a0))%R with (num k (gval (prefix f (S n))) a0 / den k (gval (prefix f (S n))) a0)%R; [auto|].
    field. auto. }
  exists (S (S N)). intros k' P. destruct (K (S N) k' ltac:(lia) P) as (A1 & A2). destruct (path_snoc _ _ _ _ P) as (k1 & P' & M).
  destruct (K N k1 (le_n N) P') as (B1 & B2). destruct M as (g & Hg & _ & M2 & _ & M4).
  assert (Nq : qm2 k' <> 0) by (intros K0; rewrite K0 in M4; lia).
  assert (E2 : Z.quot (pm2 k') (qm2 k') = i) by (rewrite <- B2, <- M2, <- M4; rewrite Z.quot_mul_cancel_l by lia; reflexivity).
  exists i, (Z.rem (pm1 k') (qm1 k')), (Z.rem (pm2 k') (qm2 k')). unfold emits. auto 10.
Qed.

(** ** Unbounded integers *)
Lemma check_integer_big k : (exists i r1 r2, block_check_integer BigI k = Ok (Some (i, r1, r2))) \/ (block_check_integer BigI k = Ok None /\ forall i r1 r2, ~ emits k i r1 r2).
Proof.
  unfold block_check_integer. destruct (Z.eqb_spec (qm1 k) 0) as [E|N1]; cbn [orb].
  { right. split; [reflexivity|]. intros i r1 r2 (K & _). auto. }
  destruct (Z.eqb_spec (qm2 k) 0) as [E|N2].
  { right. split; [reflexivity|]. intros i r1 r2 (_ & K & _). auto. }
  unfold div_remT, quotT, remT, chk, fits. destruct (Z.eqb_spec (qm1 k) 0); [contradiction|]. destruct (Z.eqb_spec (qm2 k) 0); [contradiction|]. cbn [bind].
  destruct (Z.eqb_spec (Z.quot (pm1 k) (qm1 k)) (Z.quot (pm2 k) (qm2 k))); [left; eauto|right].
  split; [reflexivity|]. intros i r1 r2 (_ & _ & I1 & I2 & _). congruence.
Qed.

Lemma gmove_big k a b : exists k', block_gmove BigI k a b = Ok k'.
Proof.
  unfold block_gmove, lift2, gcdT, mulT, addT, chk, fits. cbn [bind].
  destruct (1 <? _) eqn:E; [|eauto]. apply Z.ltb_lt in E. unfold quotT, chk, fits.
  destruct (Z.eqb_spec (Z.gcd (Z.gcd (Z.gcd (pm1 k * b + pm2 k * a) (qm1 k * b + qm2 k * a)) (pm1 k)) (qm1 k)) 0); [lia|]. cbn [bind]. eauto.
Qed.

Lemma rmove_big k v : exists k', block_rmove BigI k v = Ok k'.
Proof. unfold block_rmove, lift2, mulT, addT, chk, fits. cbn [bind]. eauto. Qed.

(** ** More fuel does not change the answer *)
Section Fuel.
Context (t : ity) {I : Type}.

Lemma simp_fuel (inext : I -> res (option (Z * Z) * I)) f1 : forall f2 s r, simp_next t inext f1 s = Ok r -> (f1 <= f2)%nat -> simp_next t inext f2 s = Ok r.
Proof.
  induction f1 as [|f1 IH]; intros f2 [k it] r H L; [discriminate|]. destruct f2 as [|f2]; [lia|]. cbn [simp_next] in *.
  apply bind_Ok in H. destruct H as ((o, k1) & R & H). rewrite R. cbn [bind]. destruct o; [exact H|].
  apply bind_Ok in H. destruct H as ((o, it1) & N & H). rewrite N. cbn [bind]. destruct o as [[a b]|]; [|exact H].
  apply bind_Ok in H. destruct H as (k2 & M & H). rewrite M. cbn [bind]. apply IH; auto. lia.
Qed.

Lemma homo_fuel (inext : I -> res (option Z * I)) f1 : forall f2 s r, homo_next t inext f1 s = Ok r -> (f1 <= f2)%nat -> homo_next t inext f2 s = Ok r.
Proof.
  induction f1 as [|f1 IH]; intros f2 [k it] r H L; [discriminate|]. destruct f2 as [|f2]; [lia|]. cbn [homo_next] in *.
  apply bind_Ok in H. destruct H as ((o, k1) & R & H). rewrite R. cbn [bind]. destruct o; [exact H|].
  apply bind_Ok in H. destruct H as ((o, it1) & N & H). rewrite N. cbn [bind]. destruct o as [b|]; [|exact H].
  apply bind_Ok in H. destruct H as (k2 & M & H). rewrite M. cbn [bind]. apply IH; auto. lia.
Qed.

Lemma dec_fuel (inext : I -> res (option (Z * Z) * I)) f1 : forall f2 s r, dec_next t inext f1 s = Ok r -> (f1 <= f2)%nat -> dec_next t inext f2 s = Ok r.
Proof.
  induction f1 as [|f1 IH]; intros f2 [k it] r H L; [discriminate|]. destruct f2 as [|f2]; [lia|]. cbn [dec_next] in *.
  apply bind_Ok in H. destruct H as (ten & T & H). rewrite T. cbn [bind].
  apply bind_Ok in H. destruct H as ((o, k1) & R & H). rewrite R. cbn [bind]. destruct o; [exact H|].
  apply bind_Ok in H. destruct H as ((o, it1) & N & H). rewrite N. cbn [bind]. destruct o as [[a b]|]; [|exact H].
  apply bind_Ok in H. destruct H as ((o, k2) & M & H). rewrite M. cbn [bind]. destruct o as [[p q]|]; [|exact H]. apply IH; auto. lia.
Qed.

(** Items come out one after another *)
Lemma nth_live {A S : Type} (nx : nat -> S -> res (option A * S)) (Inv : S -> Prop) :
  (forall f1 f2 s r, nx f1 s = Ok r -> (f1 <= f2)%nat -> nx f2 s = Ok r) ->
  (forall s, Inv s -> exists fuel v s', nx fuel s = Ok (Some v, s') /\ Inv s') ->
  forall n s, Inv s -> exists fuel v, forall fuel', (fuel <= fuel')%nat -> nth_item (nx fuel') n s = Ok (Some v).
Proof.
  intros Mono Step. induction n as [|n IH]; intros s H; destruct (Step s H) as (fuel & v & s' & E & H').
  - exists fuel, v. intros fuel' L. rewrite nth_item_0, (Mono _ _ _ _ E L). reflexivity.
  - destruct (IH s' H') as (fuel2 & v2 & K). exists (Nat.max fuel fuel2), v2. intros fuel' L.
    rewrite (nth_item_S (nx fuel') n s v s'); [apply K; lia|]. apply (Mono fuel); auto. lia.
Qed.
End Fuel.

(** ** simplify() *)
Section Simp.
Context {I : Type} (inext : I -> res (option (Z * Z) * I)).

Lemma simp_emits N : forall k it f, yields inext it f -> (forall k', path k f N k' -> exists i r1 r2, emits k' i r1 r2) ->
  exists v s', simp_next BigI inext (S N) (k, it) = Ok (Some v, s').
Proof.
  induction N as [|N IH]; intros k it f Y H; cbn [simp_next]; unfold block_reduce_recip at 1;
    destruct (check_integer_big k) as [(i & r1 & r2 & C)|(C & NE)]; rewrite C; cbn [bind]; eauto.
  - exfalso. destruct (H k eq_refl) as (i & r1 & r2 & E). exact (NE _ _ _ E).
  - destruct (yields_step inext it f Y) as (it' & E & Y'). rewrite E. cbn [bind]. destruct (f O) as [a b] eqn:E0.
    destruct (gmove_big k a b) as (k1 & M). rewrite M. cbn [bind]. apply (IH k1 it' (shift f) Y'). intros k' P. apply H. exists k1. rewrite E0. split; [|exact P]. eapply gmove_inv; eauto.
Qed.

Lemma simp_step k it y : live (etail inext) k it y -> irrational y ->
  exists fuel v k' it', simp_next BigI inext fuel (k, it) = Ok (Some v, (k', it')) /\ live (etail inext) k' it' (/ (y - IZR v)) /\ irrational (/ (y - IZR v)).
Proof.
  intros L Iy. pose proof L as (u & w & (f & Y & A & C & ->) & (G & D & Ey)).
  destruct (eventually_emits k f u (fun n => allpos_regular f n A) C D) as (N & H); [rewrite <- Ey; intros i; apply irr_int; auto|].
  destruct (simp_emits N k it f Y H) as (v & (k', it') & E). exists (S N), v, k', it'. split; [auto|].
  destruct (simp_live BigI inext _ (etail_pos inext) (etail_next inext) _ _ _ _ _ _ _ L E) as (_ & K & _).
  split; [apply K, irr_int; auto|apply irr_recip; auto].
Qed.

Lemma simplify_live it f x n : yields inext it f -> gpositive f -> gconverges f x -> irrational x ->
  exists fuel v, forall fuel', (fuel <= fuel')%nat -> nth_item (simp_next BigI inext fuel') n (gcf_simplify it) = Ok (Some v).
Proof.
  intros Y P C Ix.
  assert (First : exists fuel v k' it', simp_next BigI inext fuel (gcf_simplify it) = Ok (Some v, (k', it')) /\ live (etail inext) k' it' (/ (x - IZR v)) /\ irrational (/ (x - IZR v))).
  { destruct (yields_step inext it f Y) as (it1 & E & Y1). destruct (f O) as [a b] eqn:E0. destruct (gmove_big block_identity a b) as (k1 & M).
    pose proof (gmove_inv _ _ _ _ _ M) as M'. destruct (first_live inext _ _ _ _ _ _ _ Y P C E M') as (L & _).
    destruct (simp_step k1 it1 x L Ix) as (fuel & v & k' & it' & S1 & L' & I'). exists (S fuel), v, k', it'. split; [|auto].
    unfold gcf_simplify. cbn [simp_next]. unfold block_reduce_recip, block_check_integer, block_identity at 1. cbn [qm1 Z.eqb orb bind]. rewrite E. cbn [bind]. rewrite M. exact S1. }
  destruct First as (fuel & v & k' & it' & E & L & I').
  set (Inv := fun s : block * I => exists y, live (etail inext) (fst s) (snd s) y /\ irrational y).
  assert (Step : forall s, Inv s -> exists fuel v s', simp_next BigI inext fuel s = Ok (Some v, s') /\ Inv s').
  { intros [k2 it2] (y & Ly & Iy). destruct (simp_step k2 it2 y Ly Iy) as (f2 & v2 & k3 & it3 & E2 & L2 & I2). exists f2, v2, (k3, it3). split; [auto|]. eexists; eauto. }
  destruct n as [|n].
  - exists fuel, v. intros fuel' Hl. rewrite nth_item_0, (simp_fuel _ _ _ _ _ _ E Hl). reflexivity.
  - destruct (nth_live (simp_next BigI inext) Inv (simp_fuel BigI inext) Step n (k', it')) as (fuel2 & v2 & K); [eexists; eauto|].
    exists (Nat.max fuel fuel2), v2. intros fuel' Hl. rewrite (nth_item_S _ n _ v (k', it')); [apply K; lia|]. apply (simp_fuel _ _ fuel); auto. lia.
Qed.
End Simp.

(** ** decimals() *)
Section Dec.
Context {I : Type} (inext : I -> res (option (Z * Z) * I)).

Lemma dec_emits N : forall k it f y, yields inext it f -> slive (etail inext) k it y -> (0 <= y < 10)%R -> (forall k', path k f N k' -> exists i r1 r2, emits k' i r1 r2) ->
  exists v s', dec_next BigI inext (S N) (k, it) = Ok (Some v, s').
Proof.
  induction N as [|N IH]; intros k it f y Y L B H; cbn [dec_next]; unfold checked, fits, unwrap at 1; cbn [bind]; unfold block_reduce_mul at 1;
    destruct (check_integer_big k) as [(i & r1 & r2 & C)|(C & NE)]; rewrite C; cbn [bind].
  1,3: unfold lift2, mulT, chk, fits; cbn [bind];
    destruct L as ((u & w & T & A) & _); destruct (etail_pos inext _ _ _ T) as [Hu Hw];
    destruct (emit_trunc _ _ _ _ _ _ _ Hu Hw (check_integer_inv _ _ _ _ _ C) A) as ((Tr & _) & _); specialize (Tr (proj1 B));
    assert (0 <= i <= 9) by (split; [apply Z.lt_succ_r, lt_IZR; rewrite succ_IZR; lra|apply Z.lt_succ_r, lt_IZR; rewrite succ_IZR; lra]);
    unfold addT, chk; replace ((0 <=? i) && (i <? 2 ^ 8)) with true by (symmetry; apply andb_true_iff; split; [apply Z.leb_le|apply Z.ltb_lt]; lia); cbn [unwrap bind];
    unfold fits; replace ((0 <=? i + 48) && (i + 48 <? 2 ^ 8)) with true by (symmetry; apply andb_true_iff; split; [apply Z.leb_le|apply Z.ltb_lt]; lia); cbn [bind]; eauto.
  - exfalso. destruct (H k eq_refl) as (i & r1 & r2 & E). exact (NE _ _ _ E).
  - destruct (yields_step inext it f Y) as (it' & E & Y'). rewrite E. cbn [bind]. destruct (f O) as [a b] eqn:E0.
    destruct (checked_gmove_big k a b) as (p & q & k1 & M). rewrite M. cbn [bind]. apply checked_gmove_inv in M. apply (IH _ it' (shift f) y Y'); [|auto|].
    + eapply slive_gmove; eauto. apply etail_next.
    + intros k' P. apply H. exists (block_update k1 p q). rewrite E0. split; [exact M|exact P].
Qed.

Lemma dec_step k it y : slive (etail inext) k it y -> irrational y -> (0 <= y < 10)%R ->
  exists fuel v k' it', dec_next BigI inext fuel (k, it) = Ok (Some v, (k', it')) /\
    slive (etail inext) k' it' (10 * (y - IZR (v - 48))) /\ irrational (10 * (y - IZR (v - 48))) /\ (0 <= 10 * (y - IZR (v - 48)) < 10)%R.
Proof.
  intros L Iy B. pose proof L as ((u & w & (f & Y & A & C & ->) & (G & D & Ey)) & _).
  destruct (eventually_emits k f u (fun n => allpos_regular f n A) C D) as (N & H); [rewrite <- Ey; intros i; apply irr_int; auto|].
  destruct (dec_emits N k it f y Y L B H) as (v & (k', it') & E). exists (S N), v, k', it'. split; [auto|].
  destruct (dec_slive BigI inext _ (etail_pos inext) (etail_next inext) _ _ _ _ _ _ _ L E) as ((T & _) & _ & K).
  specialize (T (proj1 B)). split; [exact K|]. split; [apply irr_ten; auto|lra].
Qed.

Lemma decimals_live it f x n : yields inext it f -> gpositive f -> gconverges f x -> irrational x -> (0 <= x < 10)%R ->
  exists fuel v, forall fuel', (fuel <= fuel')%nat -> nth_item (dec_next BigI inext fuel') n (gcf_decimals it) = Ok (Some v).
Proof.
  intros Y P C Ix B.
  set (Inv := fun s : block * I => exists y, slive (etail inext) (fst s) (snd s) y /\ irrational y /\ (0 <= y < 10)%R).
  assert (Step : forall s, Inv s -> exists fuel v s', dec_next BigI inext fuel s = Ok (Some v, s') /\ Inv s').
  { intros [k2 it2] (y & Ly & Iy & By). destruct (dec_step k2 it2 y Ly Iy By) as (f2 & v2 & k3 & it3 & E2 & L2 & I2 & B2). exists f2, v2, (k3, it3). split; [auto|]. eexists; eauto. }
  assert (First : exists fuel v s', dec_next BigI inext fuel (gcf_decimals it) = Ok (Some v, s') /\ Inv s').
  { destruct (yields_step inext it f Y) as (it1 & E & Y1). destruct (f O) as [a b] eqn:E0. destruct (checked_gmove_big block_identity a b) as (p & q & k1 & M).
    pose proof (checked_gmove_inv _ _ _ _ _ _ _ M) as M'. pose proof (first_live inext _ _ _ _ _ _ _ Y P C E M') as L.
    destruct (Step (block_update k1 p q, it1)) as (fuel & v & s' & S1 & H1); [exists x; split; [exact L|auto]|].
    exists (S fuel), v, s'. split; [|auto].
    unfold gcf_decimals. cbn [dec_next]. unfold checked, fits, unwrap at 1. cbn [bind]. unfold block_reduce_mul, block_check_integer, block_identity at 1. cbn [qm1 Z.eqb orb bind].
    rewrite E. cbn [bind]. rewrite M. exact S1. }
  destruct First as (fuel & v & s' & E & L).
  destruct n as [|n].
  - exists fuel, v. intros fuel' Hl. rewrite nth_item_0, (dec_fuel _ _ _ _ _ _ E Hl). reflexivity.
  - destruct (nth_live (dec_next BigI inext) Inv (dec_fuel BigI inext) Step n s' L) as (fuel2 & v2 & K).
    exists (Nat.max fuel fuel2), v2. intros fuel' Hl. rewrite (nth_item_S _ n _ v s'); [apply K; lia|]. apply (dec_fuel _ _ fuel); auto. lia.
Qed.
End Dec.

(** ** homo() *)
Section Homo.
Context {I : Type} (inext : I -> res (option Z * I)) (e : Z) (He : e = 1 \/ e = -1).

Lemma homo_emits N : forall k it f, yields inext it f -> (forall k', path k (fun n => (1, f n)) N k' -> exists i r1 r2, emits k' i r1 r2) ->
  exists v s', homo_next BigI inext (S N) (k, it) = Ok (Some v, s').
Proof.
  induction N as [|N IH]; intros k it f Y H; cbn [homo_next]; unfold block_reduce_recip at 1;
    destruct (check_integer_big k) as [(i & r1 & r2 & C)|(C & NE)]; rewrite C; cbn [bind]; eauto.
  - exfalso. destruct (H k eq_refl) as (i & r1 & r2 & E). exact (NE _ _ _ E).
  - destruct (yields_step inext it f Y) as (it' & E & Y'). rewrite E. cbn [bind].
    destruct (rmove_big k (f O)) as (k1 & M). rewrite M. cbn [bind]. apply (IH k1 it' (shift f) Y'). intros k' P. apply H. exists k1. cbn [fst snd]. split; [|exact P]. eapply rmove_inv; eauto.
Qed.

Lemma allsign_nz f n : (forall n, 1 <= e * f n) -> gval (prefix (fun n => (1, f n)) (S n)) <> 0%R.
Proof.
  intros L K. assert (A : allpos (fun n => (1, e * f n))) by (intros j; cbn [fst snd]; split; [lia|apply L]).
  pose proof (allpos_gval _ n A) as P. rewrite gval_sign, K in P by auto. lra.
Qed.

Lemma csigned_regular n : forall f, (forall n, (1 <= n)%nat -> 1 <= e * f n) -> gregular (prefix (fun n => (1, f n)) n).
Proof.
  induction n as [|n IH]; intros f L; [exact Logic.I|]. rewrite prefix_S. cbn [gregular].
  change (shift (fun n => (1, f n))) with (fun n => (1, shift f n)). split.
  - destruct n as [|n]; [left; reflexivity|right]. apply allsign_nz. intros m. apply L. lia.
  - apply IH. intros m Hm. apply L. lia.
Qed.

Lemma homo_step k it y : zlive (stail inext e) e k it y -> irrational y ->
  exists fuel v k' it', homo_next BigI inext fuel (k, it) = Ok (Some v, (k', it')) /\ zlive (stail inext e) e k' it' (/ (y - IZR v)) /\ irrational (/ (y - IZR v)).
Proof.
  intros L Iy. pose proof L as (u & w & (f & Y & A & C & ->) & (G & D & Ey)).
  assert (Ed : den (fl e k) u 1 = den k (IZR e * u) 1) by (unfold den, fl; cbn [pm1 pm2 qm1 qm2]; rewrite mult_IZR; ring).
  assert (En : num (fl e k) u 1 = num k (IZR e * u) 1) by (unfold num, fl; cbn [pm1 pm2 qm1 qm2]; rewrite mult_IZR; ring).
  rewrite Ed in D. rewrite En, Ed in Ey.
  destruct (eventually_emits k (fun n => (1, f n)) (IZR e * u)) as (N & H); auto.
  - intros n. apply csigned_regular. apply A.
  - cbn [fst]. intros i. rewrite <- Ey. apply irr_int; auto.
  - destruct (homo_emits N k it f Y H) as (v & (k', it') & E). exists (S N), v, k', it'. split; [auto|].
    destruct (GenSound.homo_live BigI inext _ e He (stail_pos inext e He) (stail_next inext e He) _ _ _ _ _ _ _ L E) as (_ & K & _).
    split; [apply K, irr_int; auto|apply irr_recip; auto].
Qed.

Let Inv (s : block * I) : Prop := exists y, zlive (stail inext e) e (fst s) (snd s) y /\ irrational y.
Lemma homo_inv s : Inv s -> exists fuel v s', homo_next BigI inext fuel s = Ok (Some v, s') /\ Inv s'.
Proof.
  destruct s as [k2 it2]. intros (y & Ly & Iy). destruct (homo_step k2 it2 y Ly Iy) as (f2 & v2 & k3 & it3 & E2 & L2 & I2). exists f2, v2, (k3, it3). split; [auto|]. eexists; eauto.
Qed.

Lemma homo_live_signed it f x a b c d n : yields inext it f -> csigned e f -> cconverges f x -> homo_ok e a b c d -> irrational x -> a * d - b * c <> 0 ->
  exists fuel v, forall fuel', (fuel <= fuel')%nat -> nth_item (homo_next BigI inext fuel') n (icf_homo it a b c d) = Ok (Some v).
Proof.
  intros Y A C G Ix Det. apply (nth_live (homo_next BigI inext) Inv (homo_fuel BigI inext) homo_inv).
  assert (D : (IZR c * x + IZR d <> 0)%R).
  { intros K. destruct (Z.eq_dec c 0) as [->|Hc].
    - rewrite Rmult_0_l, Rplus_0_l in K. apply eq_IZR_R0 in K. subst d. lia.
    - apply (Ix (- d) c Hc). rewrite opp_IZR. assert (IZR c <> 0%R) by (apply not_0_IZR; auto). field_simplify_eq; auto. lra. }
  eexists. split; [apply GenTail.homo_live with (f := f); eauto|]. apply irr_mobius; auto.
Qed.

Lemma homo_live_affine it f x a b d n : yields inext it f -> (forall n, (1 <= n)%nat -> 1 <= e * f n) -> cconverges f x -> irrational x -> a * d <> 0 ->
  exists fuel v, forall fuel', (fuel <= fuel')%nat -> nth_item (homo_next BigI inext fuel') n (icf_homo it a b 0 d) = Ok (Some v).
Proof.
  intros Y L C Ix Det. assert (Hd : d <> 0) by (intros ->; lia).
  assert (First : exists fuel v s', homo_next BigI inext fuel (icf_homo it a b 0 d) = Ok (Some v, s') /\ Inv s').
  { destruct (yields_step inext it f Y) as (it1 & E & Y1). destruct (rmove_big (Block a b 0 d) (f O)) as (k1 & M).
    pose proof (rmove_inv _ _ _ _ M) as M'. pose proof (homo_first_live inext e He _ _ _ _ _ _ _ _ _ Y L C Hd E M') as L1.
    destruct (homo_inv (k1, it1)) as (fuel & v & s' & S1 & H1).
    { eexists. split; [exact L1|]. pose proof (irr_mobius x a b 0 d Ix ltac:(lia)) as Im. rewrite Rmult_0_l, Rplus_0_l in Im. exact Im. }
    exists (S fuel), v, s'. split; [|auto]. unfold icf_homo, block_new. cbn [homo_next]. unfold block_reduce_recip, block_check_integer. cbn [qm1 Z.eqb orb bind].
    rewrite E. cbn [bind]. rewrite M. exact S1. }
  destruct First as (fuel & v & s' & E & H).
  destruct n as [|n].
  - exists fuel, v. intros fuel' Hl. rewrite nth_item_0, (homo_fuel _ _ _ _ _ _ E Hl). reflexivity.
  - destruct (nth_live (homo_next BigI inext) Inv (homo_fuel BigI inext) homo_inv n s' H) as (fuel2 & v2 & K).
    exists (Nat.max fuel fuel2), v2. intros fuel' Hl. rewrite (nth_item_S _ n _ v s'); [apply K; lia|]. apply (homo_fuel _ _ fuel); auto. lia.
Qed.
End Homo.
