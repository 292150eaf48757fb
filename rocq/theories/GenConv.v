(** * GenConv: iterators as sequences, continuants, and the convergents iterator (C40). *)

From Coq Require Import ZArith Reals Lia Lra Psatz Bool List.
From Coquelicot Require Import Coquelicot.
From Verif Require Import Base Ext ModelBlock ModelGen Spec SpecGen NumFacts RatioFacts GenBlock GenSound.
Import ListNotations.
Open Scope Z_scope.

(** ** Iterators *)
Definition shift {A} (f : nat -> A) : nat -> A := fun n => f (S n).

Lemma prefix_S {A} (f : nat -> A) n : prefix f (S n) = f O :: prefix (shift f) n.
Proof. unfold prefix. cbn [seq map]. f_equal. rewrite <- seq_shift, map_map. reflexivity. Qed.

Lemma prefix_snoc {A} (f : nat -> A) n : prefix f (S n) = prefix f n ++ [f n].
Proof. unfold prefix. rewrite seq_S, map_app. reflexivity. Qed.

Lemma prefix_length {A} (f : nat -> A) n : length (prefix f n) = n.
Proof. unfold prefix. rewrite map_length, seq_length. reflexivity. Qed.

Section It.
Context {S A : Type} (next : S -> res (option A * S)).

Lemma nth_item_0 s : nth_item next 0 s = bind (next s) (fun p => Ok (fst p)).
Proof. cbn [nth_item]. destruct (next s) as [[[x|] s']| |]; reflexivity. Qed.

Lemma nth_item_S n s x s' : next s = Ok (Some x, s') -> nth_item next (Datatypes.S n) s = nth_item next n s'.
Proof. intros E. cbn [nth_item]. rewrite E. reflexivity. Qed.

Lemma nth_head s o : nth_item next 0 s = Ok o -> exists s', next s = Ok (o, s').
Proof. rewrite nth_item_0. destruct (next s) as [[o' s']| |]; cbn [bind fst]; try discriminate. intros H. inversion H. eauto. Qed.

(** The first items are those of [f] *)
Definition known (s : S) (f : nat -> A) (n : nat) : Prop := forall j, (j < n)%nat -> nth_item next j s = Ok (Some (f j)).

Lemma known_step s f n : known s f (Datatypes.S n) -> exists s', next s = Ok (Some (f O), s') /\ known s' (shift f) n.
Proof.
  intros H. destruct (nth_head s _ (H O ltac:(lia))) as (s' & E). exists s'. split; [auto|].
  intros j Hj. rewrite <- (nth_item_S j s (f O) s' E). apply H. lia.
Qed.

Lemma yields_step s f : yields next s f -> exists s', next s = Ok (Some (f O), s') /\ yields next s' (shift f).
Proof.
  intros H. destruct (nth_head s _ (H O)) as (s' & E). exists s'. split; [auto|].
  intros j. rewrite <- (nth_item_S j s (f O) s' E). apply H.
Qed.

Lemma yields_next s f x s' : yields next s f -> next s = Ok (x, s') -> x = Some (f O) /\ yields next s' (shift f).
Proof. intros H E. destruct (yields_step s f H) as (s1 & E1 & Y). rewrite E in E1. inversion E1; subst. auto. Qed.

Lemma yields_known s f n : yields next s f -> known s f n.
Proof. intros H j _. apply H. Qed.

Lemma yields_list_nil s : yields_list next s [] -> exists s', next s = Ok (None, s').
Proof. intros H. apply nth_head. apply (H O). cbn. lia. Qed.

Lemma yields_list_cons s x l : yields_list next s (x :: l) -> exists s', next s = Ok (Some x, s') /\ yields_list next s' l.
Proof.
  intros H. destruct (nth_head s _ (H O ltac:(cbn; lia))) as (s' & E). cbn [nth_error] in E. exists s'. split; [auto|].
  intros j Hj. rewrite <- (nth_item_S j s x s' E). rewrite (H (Datatypes.S j)) by (cbn; lia). reflexivity.
Qed.

Lemma nth_item_cases n s v : nth_item next n s = Ok (Some v) -> exists x s', next s = Ok (Some x, s').
Proof. destruct n; cbn [nth_item]; intros H; apply bind_Ok in H; destruct H as ((o, s') & N & H); destruct o; try discriminate; eauto. Qed.
End It.

(** ** Continuants: [app l] is the product of the matrices (b 1; a 0), applied to a column *)
Fixpoint app (l : list (Z * Z)) (u v : Z) : Z * Z :=
  match l with
  | nil => (u, v)
  | (a, b) :: l => let '(x, y) := app l u v in (b * x + y, a * x)
  end.

Lemma app_snoc l a b u v : app (l ++ [(a, b)]) u v = app l (b * u + v) (a * u).
Proof. induction l as [|[a' b'] l IH]; cbn [app List.app]; [reflexivity|]. rewrite IH. reflexivity. Qed.

Lemma app_gval l a0 : l <> [] -> gregular l -> (exists b0 l', l = (a0, b0) :: l') ->
  exists p, p <> 0%R /\ IZR (fst (app l 1 0)) = (gval l * p)%R /\ IZR (snd (app l 1 0)) = (IZR a0 * p)%R.
Proof.
  revert a0. induction l as [|[a b] l IH]; [congruence|]. intros a0 _ G (b0 & l' & E). inversion E; subst a0 b0 l'.
  destruct l as [|[a' b'] l].
  - exists 1%R. cbn [app fst snd gval]. replace (b * 1 + 0) with b by ring. replace (a * 1) with a by ring. repeat split; lra.
  - destruct G as (G1 & G2). destruct G1 as [G1|G1]; [discriminate|].
    destruct (IH a' ltac:(discriminate) G2) as (p & Hp & E1 & E2); [eauto|].
    cbn [app]. cbn [app] in E1, E2. destruct (app l 1 0) as [x0 y0]. cbn [fst snd] in *.
    exists (gval ((a', b') :: l) * p)%R. split; [apply Rmult_integral_contrapositive; auto|].
    rewrite plus_IZR, mult_IZR, E1, E2. rewrite mult_IZR, E1.
    split; [|ring]. change (gval ((a, b) :: (a', b') :: l)) with (IZR b + IZR a' / gval ((a', b') :: l))%R. field. auto.
Qed.

(** Blocks reached from [k0] by reading [l], up to a common factor *)
Definition reads (k0 : block) (l : list (Z * Z)) (k : block) : Prop :=
  exists c, 1 <= c /\ forall u v, let '(x, y) := app l u v in
    c * (pm1 k * u + pm2 k * v) = pm1 k0 * x + pm2 k0 * y /\ c * (qm1 k * u + qm2 k * v) = qm1 k0 * x + qm2 k0 * y.

Lemma reads_nil k : reads k [] k.
Proof. exists 1. split; [lia|]. intros u v. cbn [app]. lia. Qed.

Lemma reads_snoc k0 l k a b k' : reads k0 l k -> moved k a b k' -> reads k0 (l ++ [(a, b)]) k'.
Proof.
  intros (c & Hc & H) (g & Hg & P1 & P2 & Q1 & Q2). exists (c * g). split; [nia|]. intros u v. rewrite app_snoc.
  specialize (H (b * u + v) (a * u)). destruct (app l (b * u + v) (a * u)) as [x y]. destruct H as [<- <-]. split.
  - replace (c * g * (pm1 k' * u + pm2 k' * v)) with (c * ((g * pm1 k') * u + (g * pm2 k') * v)) by ring. rewrite P1, P2. ring.
  - replace (c * g * (qm1 k' * u + qm2 k' * v)) with (c * ((g * qm1 k') * u + (g * qm2 k') * v)) by ring. rewrite Q1, Q2. ring.
Qed.

Lemma reads_col1 k0 l k a0 : l <> [] -> gregular l -> (exists b0 l', l = (a0, b0) :: l') -> reads k0 l k ->
  exists p, p <> 0%R /\ (IZR (pm1 k) = p * num k0 (gval l) (IZR a0))%R /\ (IZR (qm1 k) = p * den k0 (gval l) (IZR a0))%R.
Proof.
  intros Nl G Hl (c & Hc & H). destruct (app_gval l a0 Nl G Hl) as (p & Hp & E1 & E2). specialize (H 1 0).
  destruct (app l 1 0) as [x y]. cbn [fst snd] in *. destruct H as [H1 H2].
  assert (Hc' : IZR c <> 0%R) by (apply not_0_IZR; lia).
  exists (p / IZR c)%R. split; [unfold Rdiv; apply Rmult_integral_contrapositive; split; [auto|apply Rinv_neq_0_compat; auto]|].
  unfold num, den. apply (f_equal IZR) in H1, H2. rewrite !mult_IZR, !plus_IZR, !mult_IZR, E1, E2 in H1, H2.
  split; field_simplify_eq; auto; lra.
Qed.

(** ** convergents() *)
Section Conv.
Context (t : ity) {I : Type} (inext : I -> res (option (Z * Z) * I)).

Lemma gconv_known n : forall m f k it l r, known inext it (fun j => f (m + j)%nat) (S n) -> reads block_identity l k -> l = prefix f m ->
  nth_item (gconv_next t inext) n (k, it) = Ok (Some r) ->
  exists k', reads block_identity (prefix f (S (m + n))) k' /\ ratio_new t (pm1 k') (qm1 k') = Ok r.
Proof.
  induction n as [|n IH]; intros m f k it l r K R El H.
  - destruct (known_step inext _ _ _ K) as (it' & E & _). rewrite Nat.add_0_r in *. rewrite nth_item_0 in H. apply bind_Ok in H. destruct H as ((o, s) & N & H).
    cbn [fst] in H. assert (o = Some r) by congruence. subst o. unfold gconv_next in N. rewrite E in N. cbn [bind] in N.
    destruct (f m) as [a b] eqn:Ef. apply bind_Ok in N. destruct N as ((o, k1) & M & N). destruct o as [[p q]|]; [|discriminate].
    apply checked_gmove_inv in M. apply bind_Ok in N. destruct N as (r' & Er & N). inversion N; subst r' s. exists (block_update k1 p q).
    split; [|exact Er]. rewrite prefix_snoc, Ef. subst l. eapply reads_snoc; eauto.
  - destruct (known_step inext _ _ _ K) as (it' & E & K'). cbn [nth_item] in H. apply bind_Ok in H. destruct H as ((o, (k2, it2)) & N & H).
    destruct o as [r0|]; [|discriminate]. unfold gconv_next in N. rewrite E in N. cbn [bind] in N. rewrite Nat.add_0_r in N.
    destruct (f m) as [a b] eqn:Ef. apply bind_Ok in N. destruct N as ((o, k1) & M & N). destruct o as [[p q]|]; [|discriminate].
    apply checked_gmove_inv in M. apply bind_Ok in N. destruct N as (r' & Er & N). inversion N; subst r' k2 it2.
    replace (m + S n)%nat with (S m + n)%nat by lia. eapply (IH (S m) f _ it' _ r); [|eapply reads_snoc; eauto| |exact H].
    + intros j Hj. rewrite (K' j Hj). unfold shift. f_equal. f_equal. f_equal. lia.
    + rewrite prefix_snoc, Ef, El. reflexivity.
Qed.

Lemma gconv_value it f n r : known inext it f (S n) -> fst (f O) = 1 -> gregular (prefix f (S n)) ->
  nth_item (gconv_next t inext) n (gcf_convergents it) = Ok (Some r) -> lowest r /\ rval r = gval (prefix f (S n)).
Proof.
  intros K F G H. destruct (gconv_known n 0 f block_identity it [] r) as (k & R & E); auto; [apply reads_nil|].
  cbn [Nat.add] in R. destruct (f O) as [a0 b0] eqn:E0. cbn [fst] in F. subst a0.
  assert (Np : prefix f (S n) <> []) by (rewrite prefix_S; discriminate).
  assert (Hd : exists b1 l1, prefix f (S n) = (1, b1) :: l1) by (rewrite prefix_S, E0; eauto).
  destruct (reads_col1 _ _ _ 1 Np G Hd R) as (p & Hp & P & Q).
  destruct (ratio_new_ok _ _ _ _ E) as (D & V & L). split; [auto|]. rewrite V, P, Q.
  unfold num, den, block_identity. cbn [pm1 pm2 qm1 qm2]. field. auto.
Qed.
End Conv.

(** With unbounded integers a convergent comes out whenever there is one *)
Lemma checked_gmove_big k a b : exists p q k', block_checked_gmove BigI k a b = Ok (Some (p, q), k').
Proof.
  unfold block_checked_gmove. cbn [checked_mul checked_add checked fits obind].
  unfold checked_mul, checked_add, checked, fits, obind, gcdT, chk, fits. cbn [bind].
  destruct (1 <? _) eqn:E; [|eauto]. apply Z.ltb_lt in E. unfold lift2, quotT, chk, fits. cbn [bind].
  destruct (Z.eqb_spec (Z.gcd (Z.gcd (Z.gcd (b * pm1 k + a * pm2 k) (b * qm1 k + a * qm2 k)) (pm1 k)) (qm1 k)) 0); [lia|]. cbn [bind]. eauto.
Qed.

Section ConvBig.
Context {I : Type} (inext : I -> res (option (Z * Z) * I)).

Lemma gconv_big_step f m k it it' : fst (f O) = 1 -> gregular (prefix f (S m)) -> reads block_identity (prefix f m) k ->
  inext it = Ok (Some (f m), it') -> exists r k', gconv_next BigI inext (k, it) = Ok (Some r, (k', it')) /\ reads block_identity (prefix f (S m)) k'.
Proof.
  intros F G R E. unfold gconv_next. rewrite E. cbn [bind]. destruct (f m) as [a b] eqn:Ef.
  destruct (checked_gmove_big k a b) as (p & q & k1 & M). rewrite M. cbn [bind]. apply checked_gmove_inv in M.
  assert (R' : reads block_identity (prefix f (S m)) (block_update k1 p q)) by (rewrite prefix_snoc, Ef; eapply reads_snoc; eauto).
  destruct (f O) as [a0 b0] eqn:E0. cbn [fst] in F. subst a0.
  assert (Np : prefix f (S m) <> []) by (rewrite prefix_S; discriminate).
  assert (Hd : exists b1 l1, prefix f (S m) = (1, b1) :: l1) by (rewrite prefix_S, E0; eauto).
  destruct (reads_col1 _ _ _ 1 Np G Hd R') as (c & Hc & P & Q).
  cbn [block_update pm1 qm1] in P, Q. assert (Nq : q <> 0).
  { intros ->. unfold den, block_identity in Q. cbn [qm1 qm2] in Q. lra. }
  destruct (ratio_new_big p q Nq) as (r & Er & _). rewrite Er. cbn [bind]. eauto.
Qed.

Lemma gconv_big n : forall m f k it, known inext it (fun j => f (m + j)%nat) (S n) -> fst (f O) = 1 ->
  (forall j, (j <= m + n)%nat -> gregular (prefix f (S j))) -> reads block_identity (prefix f m) k ->
  exists r, nth_item (gconv_next BigI inext) n (k, it) = Ok (Some r).
Proof.
  induction n as [|n IH]; intros m f k it K F G R; destruct (known_step inext _ _ _ K) as (it' & E & K'); rewrite Nat.add_0_r in E;
    destruct (gconv_big_step f m k it it' F) as (r & k' & S1 & R'); auto; try (apply G; lia).
  - exists r. rewrite nth_item_0, S1. reflexivity.
  - rewrite (nth_item_S _ _ _ _ _ S1). apply (IH (S m) f); auto.
    + intros j Hj. rewrite (K' j Hj). unfold shift. f_equal. f_equal. f_equal. lia.
    + intros j Hj. apply G. lia.
Qed.
End ConvBig.
