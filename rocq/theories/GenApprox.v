(** * GenApprox: approximated() of generalized continued fractions (C57). *)

From Coq Require Import ZArith Reals Lia Lra Psatz Bool List.
From Coquelicot Require Import Coquelicot.
From Verif Require Import Base Ext ModelBlock ModelCF ModelGen Spec SpecGen NumFacts RatioFacts GenBlock GenSound GenConv GenTail GenCont.
Import ListNotations.
Open Scope Z_scope.

(** ** What the loop returns *)
Section Choice.
Context (t : ity) {I : Type} (inext : I -> res (option (Z * Z) * I)).
Notation item := (nth_item (gconv_next t inext)).

(** The last accepted convergent: [last], or item [m - 1] *)
Definition accepted (last : ratio) (s : block * I) (m : nat) (r : ratio) : Prop :=
  match m with O => r = last | S k => item k s = Ok (Some r) end.

Lemma loop_choice limit fuel : forall last s v, gapprox_loop t inext fuel limit last s = Ok v ->
  exists m r, accepted last s m r /\ (forall j, (j < m)%nat -> exists q, item j s = Ok (Some q) /\ denom q < limit) /\
    ((v = Exact r /\ item m s = Ok None) \/ (v = Approximated r /\ exists q, item m s = Ok (Some q) /\ limit <= denom q)).
Proof.
  induction fuel as [|fuel IH]; intros last s v H; [discriminate|]. cbn [gapprox_loop] in H. apply bind_Ok in H. destruct H as ((o, s') & N & H).
  destruct o as [q|].
  - destruct (Z.ltb_spec (denom q) limit) as [L|L].
    + destruct (IH q s' v H) as (m & r & A & B & C). exists (S m), r. repeat split.
      * cbn [accepted]. destruct m as [|k]; cbn [accepted] in A; [subst r; rewrite nth_item_0, N; reflexivity|]. rewrite (nth_item_S _ _ _ _ _ N). exact A.
      * intros [|j] Hj; [exists q; rewrite nth_item_0, N; auto|]. rewrite (nth_item_S _ _ _ _ _ N). apply B. lia.
      * rewrite (nth_item_S _ _ _ _ _ N). exact C.
    + inversion H; subst v. exists O, last. repeat split; [intros j Hj; lia|]. right. split; [auto|]. exists q. rewrite nth_item_0, N. auto.
  - inversion H; subst v. exists O, last. repeat split; [intros j Hj; lia|]. left. rewrite nth_item_0, N. auto.
Qed.

Lemma approx_choice fuel it limit v : gcf_approximated t inext fuel it limit = Ok v ->
  exists m r, item m (gcf_convergents it) = Ok (Some r) /\ (forall j q, (1 <= j <= m)%nat -> item j (gcf_convergents it) = Ok (Some q) -> denom q < limit) /\
    ((v = Exact r /\ item (S m) (gcf_convergents it) = Ok None) \/
     (v = Approximated r /\ m = O /\ limit < denom r) \/
     (v = Approximated r /\ exists q, item (S m) (gcf_convergents it) = Ok (Some q) /\ limit <= denom q)).
Proof.
  unfold gcf_approximated. intros H. apply bind_Ok in H. destruct H as ((o, s) & N & H). destruct o as [c|]; [|discriminate]. cbn [unwrap bind] in H.
  destruct (Z.ltb_spec limit (denom c)) as [L|L].
  - inversion H; subst v. exists O, c. rewrite nth_item_0, N. repeat split; [intros; lia|]. auto.
  - destruct (loop_choice _ _ _ _ _ H) as (m & r & A & B & C). exists m, r. repeat split.
    + destruct m as [|k]; cbn [accepted] in A; [subst r; rewrite nth_item_0, N; reflexivity|]. rewrite (nth_item_S _ _ _ _ _ N). exact A.
    + intros [|j] q Hj Hq; [lia|]. rewrite (nth_item_S _ _ _ _ _ N) in Hq. destruct (B j ltac:(lia)) as (q' & E & D). congruence.
    + rewrite (nth_item_S _ _ _ _ _ N). destruct C as [C|C]; auto.
Qed.

(** The loop ends as soon as some item is too large, or there is no item *)
Lemma loop_ends limit n : forall last s, (forall j, (j < n)%nat -> exists q, item j s = Ok (Some q)) ->
  (exists o, item n s = Ok o /\ match o with Some q => limit <= denom q | None => True end) ->
  forall fuel, (n < fuel)%nat -> returns (gapprox_loop t inext fuel limit last s).
Proof.
  induction n as [|n IH]; intros last s K (o & E & D) fuel Hf; (destruct fuel as [|fuel]; [lia|]); cbn [gapprox_loop].
  - destruct (nth_head _ _ _ E) as (s' & N). rewrite N. cbn [bind]. destruct o as [q|]; [|eexists; reflexivity].
    destruct (Z.ltb_spec (denom q) limit); [lia|]. eexists; reflexivity.
  - destruct (K O ltac:(lia)) as (q & E0). destruct (nth_head _ _ _ E0) as (s' & N). rewrite N. cbn [bind].
    destruct (Z.ltb (denom q) limit); [|eexists; reflexivity]. apply IH; [| |lia].
    + intros j Hj. rewrite <- (nth_item_S _ j _ _ _ N). apply K. lia.
    + exists o. rewrite <- (nth_item_S _ n _ _ _ N). auto.
Qed.

Lemma approx_ends limit n it : (forall j, (j <= n)%nat -> exists q, item j (gcf_convergents it) = Ok (Some q)) ->
  (exists o, item (S n) (gcf_convergents it) = Ok o /\ match o with Some q => limit <= denom q | None => True end) ->
  forall fuel, (n < fuel)%nat -> returns (gcf_approximated t inext fuel it limit).
Proof.
  intros K (o & E & D) fuel Hf. unfold gcf_approximated. destruct (K O ltac:(lia)) as (c & E0). destruct (nth_head _ _ _ E0) as (s & N). rewrite N. cbn [bind unwrap].
  destruct (Z.ltb limit (denom c)); [eexists; reflexivity|]. apply (loop_ends limit n); auto.
  - intros j Hj. rewrite <- (nth_item_S _ j _ _ _ N). apply K. lia.
  - exists o. rewrite <- (nth_item_S _ n _ _ _ N). auto.
Qed.
End Choice.

(** ** Positive terms: the value is strictly between neighbouring convergents *)
Section Between.
Context (f : nat -> Z * Z) (P : gpositive f).
Let c (n : nat) : R := gval (prefix f (S n)).

Lemma gpos_den n : 1 <= gden f n /\ 1 <= gden f (S n).
Proof.
  destruct P as [_ Pf]. induction n as [|n [IH1 IH2]]; [rewrite gden_0, gden_1; specialize (Pf 1%nat ltac:(lia)); lia|].
  split; [auto|]. rewrite gden_SS. specialize (Pf (S (S n)) ltac:(lia)). nia.
Qed.

Lemma gpos_c n : c n = (IZR (gnum f n) / IZR (gden f n))%R.
Proof. unfold c. apply gval_gcont; [exact (proj1 P)|]. apply latepos_regular. exact (proj2 P). Qed.

Lemma weighted a b x y u v : (0 < a)%R -> (0 < b)%R -> (0 < u)%R -> (0 < v)%R -> (x / u < y / v)%R -> (x / u < (b * y + a * x) / (b * v + a * u) < y / v)%R.
Proof.
  intros Ha Hb Hu Hv H. assert (K : (x * v < y * u)%R).
  { apply (Rmult_lt_compat_r (u * v)) in H; [|apply Rmult_lt_0_compat; auto]. replace (x / u * (u * v))%R with (x * v)%R in H by (field; lra). replace (y / v * (u * v))%R with (y * u)%R in H by (field; lra). exact H. }
  assert (D : (0 < b * v + a * u)%R) by (apply Rplus_lt_0_compat; apply Rmult_lt_0_compat; auto).
  split; apply Rminus_gt_0_lt.
  - replace ((b * y + a * x) / (b * v + a * u) - x / u)%R with (b * (y * u - x * v) / ((b * v + a * u) * u))%R by (field; split; lra).
    apply Rdiv_lt_0_compat; apply Rmult_lt_0_compat; lra.
  - replace (y / v - (b * y + a * x) / (b * v + a * u))%R with (a * (y * u - x * v) / ((b * v + a * u) * v))%R by (field; split; lra).
    apply Rdiv_lt_0_compat; apply Rmult_lt_0_compat; lra.
Qed.

Lemma weighted_gt a b x y u v : (0 < a)%R -> (0 < b)%R -> (0 < u)%R -> (0 < v)%R -> (y / v < x / u)%R -> (y / v < (b * y + a * x) / (b * v + a * u) < x / u)%R.
Proof. intros Ha Hb Hu Hv H. rewrite (Rplus_comm (b * y)), (Rplus_comm (b * v)). apply weighted; auto. Qed.

(** The next convergent is strictly between the last two *)
Lemma next_between n : (c n < c (S n) -> c n < c (S (S n)) < c (S n))%R /\ (c (S n) < c n -> c (S n) < c (S (S n)) < c n)%R.
Proof.
  rewrite !gpos_c. rewrite gnum_SS, gden_SS, !plus_IZR, !mult_IZR. destruct (gpos_den n) as [D1 D2]. pose proof (proj2 P (S (S n)) ltac:(lia)) as [A B].
  apply IZR_le in D1, D2, A, B. split; intros H; [apply weighted|apply weighted_gt]; lra.
Qed.

Lemma first_step : (c 0 < c 1)%R.
Proof.
  rewrite !gpos_c, gnum_0, gden_0, gnum_1, gden_1, plus_IZR, mult_IZR. pose proof (proj2 P 1%nat ltac:(lia)) as [A B]. apply IZR_le in A, B.
  apply Rminus_gt_0_lt. replace ((IZR (snd (f 1%nat)) * IZR (snd (f O)) + IZR (fst (f 1%nat))) / IZR (snd (f 1%nat)) - IZR (snd (f O)) / 1)%R with (IZR (fst (f 1%nat)) / IZR (snd (f 1%nat)))%R by (field; lra).
  apply Rdiv_lt_0_compat; lra.
Qed.

Lemma steps_differ n : (c n < c (S n) \/ c (S n) < c n)%R.
Proof.
  induction n as [|n IH]; [left; apply first_step|]. destruct (next_between n) as [U D]. destruct IH as [H|H]; [right; apply (U H)|left; apply (D H)].
Qed.

(** All later convergents lie between two neighbours *)
Definition inside (n : nat) (x : R) : Prop := (c n <= x <= c (S n) \/ c (S n) <= x <= c n)%R.

Lemma inside_down n x : inside (S n) x -> inside n x.
Proof.
  unfold inside. destruct (next_between n) as [U D]. destruct (steps_differ n) as [H|H]; [specialize (U H)|specialize (D H)]; lra.
Qed.

Lemma later_inside n j : inside n (c (n + j)).
Proof.
  revert n. induction j as [|j IH]; intros n.
  - rewrite Nat.add_0_r. unfold inside. destruct (steps_differ n); lra.
  - apply inside_down. replace (n + S j)%nat with (S n + j)%nat by lia. apply IH.
Qed.

Lemma lim_le_const (u : nat -> R) (x K : R) N : is_lim_seq u x -> (forall j, (u (N + j)%nat <= K)%R) -> (x <= K)%R.
Proof.
  intros H B. apply (is_lim_seq_le (fun j => u (j + N)%nat) (fun _ => K) x K).
  - intros j. rewrite Nat.add_comm. apply B.
  - apply (is_lim_seq_incr_n u N). exact H.
  - apply is_lim_seq_const.
Qed.

Lemma lim_ge_const (u : nat -> R) (x K : R) N : is_lim_seq u x -> (forall j, (K <= u (N + j)%nat)%R) -> (K <= x)%R.
Proof.
  intros H B. apply (is_lim_seq_le (fun _ => K) (fun j => u (j + N)%nat) K x).
  - intros j. rewrite Nat.add_comm. apply B.
  - apply is_lim_seq_const.
  - apply (is_lim_seq_incr_n u N). exact H.
Qed.

Lemma limit_inside x n : gconverges f x -> inside n x.
Proof.
  intros H. unfold gconverges in H. fold c in H. pose proof (later_inside n) as L. unfold inside in *. destruct (steps_differ n) as [S1|S1].
  - left. split; [apply (lim_ge_const c x _ n H)|apply (lim_le_const c x _ n H)]; intros j; specialize (L j); lra.
  - right. split; [apply (lim_ge_const c x _ n H)|apply (lim_le_const c x _ n H)]; intros j; specialize (L j); lra.
Qed.

Lemma limit_between x n : gconverges f x -> (c n < x < c (S n) \/ c (S n) < x < c n)%R.
Proof.
  intros H. pose proof (limit_inside x n H) as I0. pose proof (limit_inside x (S n) H) as I1. pose proof (limit_inside x (S (S n)) H) as I2. unfold inside in *.
  destruct (next_between n) as [U D]. destruct (next_between (S n)) as [U' D']. destruct (steps_differ n) as [S1|S1]; [specialize (U S1)|specialize (D S1)].
  - assert (S2 : (c (S (S n)) < c (S n))%R) by lra. specialize (D' S2). lra.
  - assert (S2 : (c (S n) < c (S (S n)))%R) by lra. specialize (U' S2). lra.
Qed.

Lemma limit_error x n : gconverges f x -> (0 < Rabs (x - c n) < Rabs (c (S n) - c n))%R.
Proof. intros H. destruct (limit_between x n H) as [B|B]; unfold Rabs; repeat destruct Rcase_abs; lra. Qed.
End Between.

(** ** Termination *)
Section Ends.
Context (f : nat -> Z * Z).

(** Neighbouring convergents differ when no numerator vanishes *)
Lemma gcont_det n : fst (f O) = 1 -> (forall j, (1 <= j)%nat -> fst (f j) <> 0) -> gnum f (S n) * gden f n - gnum f n * gden f (S n) <> 0.
Proof.
  intros F H. induction n as [|n IH].
  - rewrite gnum_0, gden_0, gnum_1, gden_1. specialize (H 1%nat ltac:(lia)). lia.
  - rewrite gnum_SS, gden_SS. specialize (H (S (S n)) ltac:(lia)). nia.
Qed.

Lemma close_denoms p q p' q' L : 0 < q -> 0 < q' -> q < L -> q' < L -> p * q' <> p' * q -> (/ (IZR L * IZR L) < Rabs (IZR p / IZR q - IZR p' / IZR q'))%R.
Proof.
  intros H1 H2 H3 H4 H5. assert (A : 1 <= Z.abs (p * q' - p' * q)) by lia. apply IZR_le in A. rewrite abs_IZR in A. rewrite minus_IZR, !mult_IZR in A.
  pose proof (IZR_lt _ _ H1) as Q1. pose proof (IZR_lt _ _ H2) as Q2. pose proof (IZR_lt _ _ H3) as Q3. pose proof (IZR_lt _ _ H4) as Q4.
  assert (D : (0 < IZR q * IZR q')%R) by (apply Rmult_lt_0_compat; auto).
  replace (IZR p / IZR q - IZR p' / IZR q')%R with ((IZR p * IZR q' - IZR p' * IZR q) / (IZR q * IZR q'))%R by (field; lra).
  unfold Rdiv. rewrite Rabs_mult, (Rabs_pos_eq (/ _)) by (left; apply Rinv_0_lt_compat; auto).
  apply Rlt_le_trans with (/ (IZR q * IZR q'))%R.
  - apply Rinv_lt_contravar; [apply Rmult_lt_0_compat; [auto|]; apply Rmult_lt_0_compat; lra|]. apply Rmult_gt_0_lt_compat; lra.
  - rewrite <- (Rmult_1_l (/ _)) at 1. apply Rmult_le_compat_r; [left; apply Rinv_0_lt_compat; auto|auto].
Qed.

Lemma big_denom (c : nat -> R) (r : nat -> ratio) (x : R) limit : is_lim_seq c x -> (forall n, lowest (r n) /\ rval (r n) = c n) -> (forall n, c (S n) <> c n) -> 1 <= limit ->
  exists n, limit <= denom (r (S n)).
Proof.
  intros H V D L. apply IZR_le in L. assert (E : (0 < / (IZR limit * IZR limit) / 2)%R) by (apply Rdiv_lt_0_compat; [apply Rinv_0_lt_compat, Rmult_lt_0_compat|]; lra).
  apply is_lim_seq_spec in H. destruct (H (mkposreal _ E)) as (N & HN). cbn [pos] in HN.
  destruct (Z.lt_ge_cases (denom (r (S N))) limit) as [L1|L1]; [|exists N; lia]. destruct (Z.lt_ge_cases (denom (r (S (S N)))) limit) as [L2|L2]; [|exists (S N); lia].
  exfalso. pose proof (HN (S N) ltac:(lia)) as B1. pose proof (HN (S (S N)) ltac:(lia)) as B2. specialize (D (S N)).
  destruct (V (S N)) as ((P1 & _) & V1). destruct (V (S (S N))) as ((P2 & _) & V2). rewrite <- V1 in B1, D. rewrite <- V2 in B2, D. unfold rval in B1, B2, D.
  assert (Ne : numer (r (S (S N))) * denom (r (S N)) <> numer (r (S N)) * denom (r (S (S N)))).
  { intros Eq. apply D. apply (f_equal IZR) in Eq. rewrite !mult_IZR in Eq. apply IZR_lt in P1, P2. field_simplify_eq; [|split; lra]. lra. }
  pose proof (close_denoms _ _ _ _ limit P2 P1 L2 L1 Ne) as K.
  set (u := (IZR (numer (r (S N))) / IZR (denom (r (S N))))%R) in *. set (v := (IZR (numer (r (S (S N)))) / IZR (denom (r (S (S N)))))%R) in *.
  set (e := (/ (IZR limit * IZR limit))%R) in *. revert B1 B2 K. unfold Rabs. repeat destruct Rcase_abs; lra.
Qed.

Context {I : Type} (inext : I -> res (option (Z * Z) * I)).

Lemma approx_returns it x limit : yields inext it f -> fst (f O) = 1 -> (forall n, gregular (prefix f n)) -> (forall n, (1 <= n)%nat -> fst (f n) <> 0) -> gconverges f x -> 1 <= limit ->
  exists n0, forall fuel, (n0 <= fuel)%nat -> exists r, gcf_approximated BigI inext fuel it limit = Ok (Approximated r).
Proof.
  intros Y F G A H L.
  assert (It : forall n, exists r, nth_item (gconv_next BigI inext) n (gcf_convergents it) = Ok (Some r)).
  { intros n. apply (gconv_big inext n 0 f block_identity it); auto; [apply yields_known; auto|apply reads_nil]. }
  assert (V : forall n r, nth_item (gconv_next BigI inext) n (gcf_convergents it) = Ok (Some r) -> lowest r /\ rval r = gval (prefix f (S n))).
  { intros n r. apply (gconv_value BigI inext it f n r); auto. apply yields_known; auto. }
  set (r := fun n => match nth_item (gconv_next BigI inext) n (gcf_convergents it) with Ok (Some r) => r | _ => Ratio 0 1 end).
  assert (Er : forall n, nth_item (gconv_next BigI inext) n (gcf_convergents it) = Ok (Some (r n))) by (intros n; unfold r; destruct (It n) as (q & ->); reflexivity).
  destruct (big_denom (fun n => gval (prefix f (S n))) r x limit H) as (n & Hn); auto.
  { intros n Eq. destruct (gval_gcont f n F (G _)) as [D1 E1]. destruct (gval_gcont f (S n) F (G _)) as [D2 E2]. rewrite E1, E2 in Eq.
    apply (gcont_det n F A). apply IZR_neq in D1, D2. apply eq_IZR. rewrite minus_IZR, !mult_IZR.
    field_simplify_eq in Eq; [split; auto|]. rewrite Eq. ring. }
  exists (S n). intros fuel Hf.
  destruct (approx_ends BigI inext limit n it) with (fuel := fuel) as (v & E); [intros j Hj; eauto|exists (Some (r (S n))); auto|lia|].
  destruct (approx_choice _ _ _ _ _ _ E) as (m & q & _ & _ & C). destruct C as [[_ C]|[[-> _]|[-> _]]]; [|eauto|eauto]. rewrite Er in C. discriminate.
Qed.
End Ends.

(** ** More fuel, finite sources *)
Section Fuel.
Context (t : ity) {I : Type} (inext : I -> res (option (Z * Z) * I)).

Lemma loop_fuel limit f1 : forall f2 last s v, gapprox_loop t inext f1 limit last s = Ok v -> (f1 <= f2)%nat -> gapprox_loop t inext f2 limit last s = Ok v.
Proof.
  induction f1 as [|f1 IH]; intros f2 last s v H Hf; [discriminate|]. destruct f2 as [|f2]; [lia|]. cbn [gapprox_loop] in *.
  destruct (gconv_next t inext s) as [[[q|] s']| |]; cbn [bind] in *; auto. destruct (denom q <? limit); auto. apply IH; auto. lia.
Qed.

Lemma approx_fuel limit f1 f2 it v : gcf_approximated t inext f1 it limit = Ok v -> (f1 <= f2)%nat -> gcf_approximated t inext f2 it limit = Ok v.
Proof.
  unfold gcf_approximated. destruct (gconv_next t inext (gcf_convergents it)) as [[[q|] s']| |]; cbn [bind unwrap]; auto. destruct (limit <? denom q); auto. apply loop_fuel.
Qed.
End Fuel.

Lemma nth_item_none {S A : Type} (next : S -> res (option A * S)) n : forall m s, nth_item next n s = Ok None -> (n <= m)%nat -> nth_item next m s = Ok None.
Proof.
  induction n as [|n IH]; intros m s H Hm.
  - destruct (nth_head _ _ _ H) as (s' & N). destruct m as [|m]; cbn [nth_item]; rewrite N; reflexivity.
  - destruct m as [|m]; [lia|]. cbn [nth_item] in *. destruct (next s) as [[[x|] s']| |]; cbn [bind] in *; auto. apply IH; auto. lia.
Qed.

Lemma prefix_firstn {A} (d : A) l : forall j, (j <= length l)%nat -> prefix (fun j => nth j l d) j = firstn j l.
Proof.
  induction l as [|x l IH]; intros [|j] Hj; try reflexivity; cbn [length] in Hj; [lia|]. rewrite prefix_S. cbn [firstn nth]. f_equal. apply IH. lia.
Qed.

Lemma approx_finite {I} (inext : I -> res (option (Z * Z) * I)) it l limit : yields_list inext it l -> gpositive_list l ->
  exists v, (forall fuel, (length l <= fuel)%nat -> gcf_approximated BigI inext fuel it limit = Ok v) /\ (forall r, v = Exact r -> lowest r /\ rval r = gval l).
Proof.
  intros Y P. set (f := fun j => nth j l (1, 1)).
  assert (Pf : gpositive f).
  { destruct l as [|[a b] l]; [destruct P|]. destruct P as [-> P]. split; [reflexivity|]. intros [|n] Hn; [lia|]. unfold f. cbn [nth].
    destruct (Nat.lt_ge_cases n (length l)) as [K|K]; [rewrite Forall_forall in P; apply P, nth_In; auto|rewrite nth_overflow by lia; cbn; lia]. }
  assert (G : forall n, gregular (prefix f n)) by (intros n; apply latepos_regular; exact (proj2 Pf)).
  assert (Kn : forall n, (n <= length l)%nat -> known inext it f n).
  { intros n Hn j Hj. rewrite (Y j) by lia. unfold f. rewrite (nth_error_nth' l (1, 1)) by lia. reflexivity. }
  assert (It : forall n, (n < length l)%nat -> exists r, nth_item (gconv_next BigI inext) n (gcf_convergents it) = Ok (Some r)).
  { intros n Hn. apply (gconv_big inext n 0 f block_identity it); [apply (Kn (S n)); lia|exact (proj1 Pf)|intros j _; apply G|apply reads_nil]. }
  assert (En : nth_item (gconv_next BigI inext) (length l) (gcf_convergents it) = Ok None).
  { apply (gconv_end_aux inext l 0 f block_identity it Y); [|exact (proj1 Pf)|intros j _; apply G|apply reads_nil]. intros j x E. apply (nth_error_nth l j (1, 1) E). }
  assert (Ne : (0 < length l)%nat) by (destruct l; [destruct P|cbn; lia]).
  destruct (approx_ends BigI inext limit (length l - 1) it) with (fuel := length l) as (v & E); [intros j Hj; apply It; lia| |lia|].
  { replace (S (length l - 1)) with (length l) by lia. exists None. auto. }
  exists v. split; [intros fuel Hf; apply (approx_fuel _ _ _ (length l)); auto|]. intros r ->.
  destruct (approx_choice _ _ _ _ _ _ E) as (m & q & Em & _ & C). assert (q = r /\ nth_item (gconv_next BigI inext) (S m) (gcf_convergents it) = Ok None) as [-> Nm].
  { destruct C as [[C D]|[[C _]|[C _]]]; [|discriminate|discriminate]. split; [congruence|auto]. }
  assert (S m = length l).
  { destruct (Nat.lt_trichotomy (S m) (length l)) as [K|[K|K]]; auto; exfalso.
    - destruct (It _ K) as (q & Eq). congruence.
    - rewrite (nth_item_none _ _ m _ En ltac:(lia)) in Em. discriminate. }
  destruct (gconv_value BigI inext it f m r) as (Lr & V); auto; [apply Kn; lia|exact (proj1 Pf)|]. split; [auto|]. rewrite V, H. unfold f. rewrite prefix_firstn, firstn_all by lia. reflexivity.
Qed.
