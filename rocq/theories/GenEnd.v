(** * GenEnd: homo(), simplify(), decimals() and convergents() on sources that end (C82, C83). *)

From Coq Require Import ZArith Lia Bool List.
From Verif Require Import Base Ext ModelBlock ModelCF ModelGen Spec SpecGen SpecCF SpecEnd NumFacts CFSeq CFIter GenBlock GenSound GenConv GenLive GenHomo.
Import ListNotations.
Open Scope Z_scope.

(** ** Items come from the beginning of the source only *)
Lemma begins_step {S S' A} (n1 : S -> res (option A * S)) s1 (n2 : S' -> res (option A * S')) s2 v s1' : begins n1 s1 n2 s2 -> n1 s1 = Ok (Some v, s1') ->
  exists s2', n2 s2 = Ok (Some v, s2') /\ begins n1 s1' n2 s2'.
Proof.
  intros B E. assert (H : nth_item n1 0 s1 = Ok (Some v)) by (rewrite nth_item_0, E; reflexivity). apply B in H. apply nth_head in H. destruct H as (s2' & H). exists s2'. split; [exact H|].
  intros n w K. rewrite <- (nth_item_S n2 n s2 v s2' H). apply B. rewrite (nth_item_S n1 n s1 v s1' E). exact K.
Qed.

(** A simulation gives [begins] *)
Lemma begins_sim {S S' A} (n1 : S -> res (option A * S)) (n2 : S' -> res (option A * S')) (R : S -> S' -> Prop) :
  (forall s1 s2 v s1', R s1 s2 -> n1 s1 = Ok (Some v, s1') -> exists s2', n2 s2 = Ok (Some v, s2') /\ R s1' s2') -> forall s1 s2, R s1 s2 -> begins n1 s1 n2 s2.
Proof.
  intros H s1 s2 Hr n. revert s1 s2 Hr. induction n as [|n IH]; intros s1 s2 Hr v E.
  - apply nth_head in E. destruct E as (s1' & E). destruct (H _ _ _ _ Hr E) as (s2' & E2 & _). rewrite nth_item_0, E2. reflexivity.
  - cbn [nth_item] in E. apply bind_Ok in E. destruct E as ((o, s1') & E & K). destruct o as [w|]; [|discriminate]. destruct (H _ _ _ _ Hr E) as (s2' & E2 & Hr').
    rewrite (nth_item_S n2 n s2 w s2' E2). exact (IH _ _ Hr' _ K).
Qed.

Section Begin.
Context {I J : Type}.

Lemma homo_begins t (n1 : I -> res (option Z * I)) (n2 : J -> res (option Z * J)) fuel k i j : begins n1 i n2 j -> begins (homo_next t n1 fuel) (k, i) (homo_next t n2 fuel) (k, j).
Proof.
  intros B. apply (begins_sim _ _ (fun p q => fst p = fst q /\ begins n1 (snd p) n2 (snd q))); [|auto]. clear. induction fuel as [|fuel IH]; intros [k i] [k' j] v s1 (E & B) H; [discriminate|]. cbn [fst snd] in *. subst k'. cbn [homo_next] in *.
  apply bind_Ok in H. destruct H as ((o, k1) & -> & H). cbn [bind]. destruct o as [w|]; [inversion H; subst; eexists; split; [reflexivity|auto]|].
  apply bind_Ok in H. destruct H as ((o, i1) & E & H). destruct o as [w|]; [|discriminate]. destruct (begins_step _ _ _ _ _ _ B E) as (j1 & -> & B'). cbn [bind].
  apply bind_Ok in H. destruct H as (k2 & -> & H). cbn [bind]. exact (IH (k2, i1) (k2, j1) _ _ (conj eq_refl B') H).
Qed.

Lemma simp_begins t (n1 : I -> res (option (Z * Z) * I)) (n2 : J -> res (option (Z * Z) * J)) fuel k i j : begins n1 i n2 j -> begins (simp_next t n1 fuel) (k, i) (simp_next t n2 fuel) (k, j).
Proof.
  intros B. apply (begins_sim _ _ (fun p q => fst p = fst q /\ begins n1 (snd p) n2 (snd q))); [|auto]. clear. induction fuel as [|fuel IH]; intros [k i] [k' j] v s1 (E & B) H; [discriminate|]. cbn [fst snd] in *. subst k'. cbn [simp_next] in *.
  apply bind_Ok in H. destruct H as ((o, k1) & -> & H). cbn [bind]. destruct o as [w|]; [inversion H; subst; eexists; split; [reflexivity|auto]|].
  apply bind_Ok in H. destruct H as ((o, i1) & E & H). destruct o as [(a, b)|]; [|discriminate]. destruct (begins_step _ _ _ _ _ _ B E) as (j1 & -> & B'). cbn [bind].
  apply bind_Ok in H. destruct H as (k2 & -> & H). cbn [bind]. exact (IH (k2, i1) (k2, j1) _ _ (conj eq_refl B') H).
Qed.

Lemma dec_begins t (n1 : I -> res (option (Z * Z) * I)) (n2 : J -> res (option (Z * Z) * J)) fuel k i j : begins n1 i n2 j -> begins (dec_next t n1 fuel) (k, i) (dec_next t n2 fuel) (k, j).
Proof.
  intros B. apply (begins_sim _ _ (fun p q => fst p = fst q /\ begins n1 (snd p) n2 (snd q))); [|auto]. clear. induction fuel as [|fuel IH]; intros [k i] [k' j] v s1 (E & B) H; [discriminate|]. cbn [fst snd] in *. subst k'. cbn [dec_next] in *.
  apply bind_Ok in H. destruct H as (ten & -> & H). cbn [bind]. apply bind_Ok in H. destruct H as ((o, k1) & -> & H). cbn [bind]. destruct o as [w|].
  - apply bind_Ok in H. destruct H as (d & -> & H). cbn [bind]. apply bind_Ok in H. destruct H as (c & -> & H). cbn [bind]. inversion H; subst; eexists; split; [reflexivity|auto].
  - apply bind_Ok in H. destruct H as ((o, i1) & E & H). destruct o as [(a, b)|]; [|discriminate]. destruct (begins_step _ _ _ _ _ _ B E) as (j1 & -> & B'). cbn [bind].
    apply bind_Ok in H. destruct H as ((o, k2) & -> & H). cbn [bind]. destruct o as [(p, q)|]; [|discriminate]. exact (IH (block_update k2 p q, i1) (block_update k2 p q, j1) _ _ (conj eq_refl B') H).
Qed.

Lemma gconv_begins t (n1 : I -> res (option (Z * Z) * I)) (n2 : J -> res (option (Z * Z) * J)) k i j : begins n1 i n2 j -> begins (gconv_next t n1) (k, i) (gconv_next t n2) (k, j).
Proof.
  intros B. apply (begins_sim _ _ (fun p q => fst p = fst q /\ begins n1 (snd p) n2 (snd q))); [|auto]. clear. intros [k i] [k' j] v s1 (E & B) H. cbn [fst snd] in *. subst k'. unfold gconv_next in *.
  apply bind_Ok in H. destruct H as ((o, i1) & E & H). destruct o as [(a, b)|]; [|discriminate]. destruct (begins_step _ _ _ _ _ _ B E) as (j1 & -> & B'). cbn [bind].
  apply bind_Ok in H. destruct H as ((o, k2) & -> & H). cbn [bind]. destruct o as [(p, q)|]; [|discriminate]. apply bind_Ok in H. destruct H as (r & -> & H). cbn [bind]. inversion H; subst; eexists; split; [reflexivity|auto].
Qed.

Lemma generalize_begins (n1 : I -> res (option Z * I)) (n2 : J -> res (option Z * J)) i j : begins n1 i n2 j -> begins (generalize_next n1) i (generalize_next n2) j.
Proof.
  intros B. apply (begins_sim _ _ (fun p q => begins n1 p n2 q)); [|auto]. clear. intros i j v i1 B H. unfold generalize_next in *.
  apply bind_Ok in H. destruct H as ((o, i2) & E & H). destruct o as [w|]; [|discriminate]. inversion H; subst. destruct (begins_step _ _ _ _ _ _ B E) as (j1 & -> & B'). cbn [bind]. eauto.
Qed.
End Begin.

Lemma bihomo_begins {X X' Y Y'} t (x1 : X -> res (option Z * X)) (x2 : X' -> res (option Z * X')) (y1 : Y -> res (option Z * Y)) (y2 : Y' -> res (option Z * Y')) fuel k a a' b b' :
  begins x1 a x2 a' -> begins y1 b y2 b' -> begins (bihomo_next t x1 y1 fuel) (k, a, b) (bihomo_next t x2 y2 fuel) (k, a', b').
Proof.
  intros Bx By. apply (begins_sim _ _ (fun p q => fst (fst p) = fst (fst q) /\ begins x1 (snd (fst p)) x2 (snd (fst q)) /\ begins y1 (snd p) y2 (snd q))); [|auto]. clear.
  induction fuel as [|fuel IH]; intros [[k a] b] [[k' a'] b'] v s1 (E & Bx & By) H; [discriminate|]. cbn [fst snd] in *. subst k'. cbn [bihomo_next] in *.
  apply bind_Ok in H. destruct H as ((o, k1) & -> & H). cbn [bind]. destruct o as [w|[mr md]]; [inversion H; subst; eexists; split; [reflexivity|auto]|].
  apply bind_Ok in H. destruct H as (((k2, a1), st1) & E1 & H).
  assert (G1 : st1 = true \/ exists a1', (if mr then let! (o, x) := x2 a' in match o with Some v => let! k := dblock_rmove_right t k1 v in Ok (k, x, false) | None => Ok (k1, x, true) end else Ok (k1, a', false)) = Ok (k2, a1', st1) /\ begins x1 a1 x2 a1').
  { destruct mr; [|inversion E1; subst; right; eauto]. apply bind_Ok in E1. destruct E1 as ((o, a2) & Ex & E1). destruct o as [w|]; [|inversion E1; auto]. right.
    destruct (begins_step _ _ _ _ _ _ Bx Ex) as (a2' & -> & B'). cbn [bind]. apply bind_Ok in E1. destruct E1 as (k3 & -> & E1). cbn [bind]. inversion E1; subst. eauto. }
  destruct st1; [discriminate|]. destruct G1 as [G1|(a1' & G1 & Bx')]; [discriminate|]. rewrite G1. cbn [bind].
  apply bind_Ok in H. destruct H as (((k3, b1), st2) & E2 & H).
  assert (G2 : st2 = true \/ exists b1', (if md then let! (o, y) := y2 b' in match o with Some v => let! k := dblock_rmove_down t k2 v in Ok (k, y, false) | None => Ok (k2, y, true) end else Ok (k2, b', false)) = Ok (k3, b1', st2) /\ begins y1 b1 y2 b1').
  { destruct md; [|inversion E2; subst; right; eauto]. apply bind_Ok in E2. destruct E2 as ((o, b2) & Ey & E2). destruct o as [w|]; [|inversion E2; auto]. right.
    destruct (begins_step _ _ _ _ _ _ By Ey) as (b2' & -> & B'). cbn [bind]. apply bind_Ok in E2. destruct E2 as (k4 & -> & E2). cbn [bind]. inversion E2; subst. eauto. }
  destruct st2; [discriminate|]. destruct G2 as [G2|(b1' & G2 & By')]; [discriminate|]. rewrite G2. cbn [bind]. apply (IH (k3, a1, b1) (k3, a1', b1') v s1); auto.
Qed.

(** A list of items and an endless sequence that begins with it *)
Lemma list_begins {S S' A} (n1 : S -> res (option A * S)) s1 (n2 : S' -> res (option A * S')) s2 l (f : nat -> A) :
  yields_list n1 s1 l -> yields n2 s2 f -> (forall n, (n < length l)%nat -> nth_error l n = Some (f n)) -> begins n1 s1 n2 s2.
Proof.
  intros H1 H2 H n v E. rewrite H2. destruct (Nat.le_gt_cases n (length l)) as [L|L].
  - rewrite H1 in E by exact L. inversion E as [K]. destruct (Nat.lt_ge_cases n (length l)) as [L'|L']; [rewrite H in K by exact L'; congruence|]. apply nth_error_None in L'. congruence.
  - exfalso. assert (Z : forall m s, nth_item n1 m s = Ok None -> forall k, nth_item n1 (m + k) s = Ok None).
    { clear. induction m as [|m IH]; intros s E k.
      - rewrite nth_item_0 in E. apply bind_Ok in E. destruct E as ((o, s') & E & K). cbn [fst] in K. injection K as ->. destruct k as [|k]; [rewrite Nat.add_0_r, nth_item_0, E; reflexivity|]. cbn [Nat.add nth_item]. rewrite E. reflexivity.
      - cbn [Nat.add nth_item] in *. apply bind_Ok in E. destruct E as ((o, s') & E & K). rewrite E. cbn [bind]. destruct o; [apply IH; exact K|reflexivity]. }
    pose proof (H1 (length l) (le_n _)) as E0. rewrite (proj2 (nth_error_None l (length l)) (le_n _)) in E0. specialize (Z _ _ E0 (n - length l)%nat). replace (length l + (n - length l))%nat with n in Z by lia. congruence.
Qed.

(** ** They end *)
Lemma list_step {S A} (nx : S -> res (option A * S)) s l : yields_list nx s l ->
  match l with [] => exists s', nx s = Ok (None, s') | v :: l => exists s', nx s = Ok (Some v, s') /\ yields_list nx s' l end.
Proof.
  intros H. pose proof (H O ltac:(lia)) as E. destruct l as [|v l]; cbn [nth_error] in E; apply nth_head in E; destruct E as (s' & E); exists s'; [exact E|]. split; [exact E|].
  intros n Hn. rewrite <- (nth_item_S nx n s v s' E). apply (H (Datatypes.S n)). cbn [length]. lia.
Qed.
Lemma list_cons {S A} (nx : S -> res (option A * S)) s v s' l : nx s = Ok (Some v, s') -> yields_list nx s' l -> yields_list nx s (v :: l).
Proof. intros E H [|n] Hn; [rewrite nth_item_0, E; reflexivity|]. rewrite (nth_item_S nx n s v s' E). apply H. cbn [length] in Hn. lia. Qed.
Lemma list_nil {S A} (nx : S -> res (option A * S)) s s' : nx s = Ok (None, s') -> yields_list nx s [].
Proof. intros E n Hn. cbn [length] in Hn. assert (n = O) by lia. subst n. rewrite nth_item_0, E. reflexivity. Qed.

Lemma reduce_recip_big k : (exists i r1 r2, block_reduce_recip BigI k = Ok (Some i, Block (qm1 k) (qm2 k) r1 r2) /\ Z.abs r1 < Z.abs (qm1 k)) \/ block_reduce_recip BigI k = Ok (None, k).
Proof.
  unfold block_reduce_recip. destruct (check_integer_big k) as [(d & r1 & r2 & C)|(C & _)]; rewrite C; cbn [bind]; [left|right; reflexivity].
  apply check_integer_inv in C. destruct C as (N1 & _ & _ & _ & -> & _). exists d. do 2 eexists. split; [reflexivity|]. apply Z.rem_bound_abs. exact N1.
Qed.

Lemma nth_same_call {S A} (nx : S -> res (option A * S)) s1 s2 n : nx s1 = nx s2 -> nth_item nx n s1 = nth_item nx n s2.
Proof. intros E. destruct n as [|n]; cbn [nth_item]; rewrite E; reflexivity. Qed.

Lemma homo_ends {I} (inext : I -> res (option (Z) * I)) : forall l it k, yields_list inext it l -> exists h, forall fuel, (length l < fuel)%nat -> yields_list (homo_next BigI inext fuel) (k, it) h.
Proof.
  induction l as [|v l IHl]; intros it k Y.
  - destruct (list_step _ _ _ Y) as (it' & St).
    assert (G : forall m k, (Z.to_nat (Z.abs (qm1 k)) < m)%nat -> exists h, forall fuel, (length (@nil (Z)) < fuel)%nat -> yields_list (homo_next BigI inext fuel) (k, it) h).
    { induction m as [|m IH]; intros k' Hm; [lia|]. destruct (reduce_recip_big k') as [(i & r1 & r2 & E & L)|E].
      - destruct (IH (Block (qm1 k') (qm2 k') r1 r2) ltac:(cbn [qm1]; lia)) as (h & H). exists (i :: h). intros [|fuel] Hf; [lia|].
        apply (list_cons _ _ i (Block (qm1 k') (qm2 k') r1 r2, it)); [|apply H; exact Hf]. cbn [homo_next]. rewrite E. reflexivity.
      - exists []. intros [|fuel] Hf; [lia|]. apply (list_nil _ _ (k', it')). cbn [homo_next]. rewrite E. cbn [bind]. rewrite St. reflexivity. }
    exact (G _ k (le_n _)).
  - destruct (list_step _ _ _ Y) as (it' & St & Y').
    assert (G : forall m k, (Z.to_nat (Z.abs (qm1 k)) < m)%nat -> exists h, forall fuel, (length (v :: l) < fuel)%nat -> yields_list (homo_next BigI inext fuel) (k, it) h).
    { induction m as [|m IH]; intros k' Hm; [lia|]. destruct (reduce_recip_big k') as [(i & r1 & r2 & E & L)|E].
      - destruct (IH (Block (qm1 k') (qm2 k') r1 r2) ltac:(cbn [qm1]; lia)) as (h & H). exists (i :: h). intros [|fuel] Hf; [lia|].
        apply (list_cons _ _ i (Block (qm1 k') (qm2 k') r1 r2, it)); [|apply H; exact Hf]. cbn [homo_next]. rewrite E. reflexivity.
      - destruct (rmove_big k' v) as (k2 & M). destruct (IHl it' k2 Y') as (h & H). exists h. intros [|fuel] Hf; [lia|]. cbn [length] in Hf.
        assert (Step : homo_next BigI inext (S fuel) (k', it) = homo_next BigI inext fuel (k2, it')) by (cbn [homo_next]; rewrite E; cbn [bind]; rewrite St; cbn [bind]; rewrite M; reflexivity).
        pose proof (H fuel ltac:(lia) O ltac:(lia)) as H0. apply nth_head in H0. destruct H0 as (s' & H0).
        intros n Hn. rewrite (nth_same_call _ (k', it) (k2, it')); [apply (H (S fuel)); lia|]. rewrite Step, H0. symmetry. apply (homo_fuel _ _ fuel); [exact H0|lia]. }
    exact (G _ k (le_n _)).
Qed.

Lemma simp_ends {I} (inext : I -> res (option (Z * Z) * I)) : forall l it k, yields_list inext it l -> exists h, forall fuel, (length l < fuel)%nat -> yields_list (simp_next BigI inext fuel) (k, it) h.
Proof.
  induction l as [|v l IHl]; intros it k Y.
  - destruct (list_step _ _ _ Y) as (it' & St).
    assert (G : forall m k, (Z.to_nat (Z.abs (qm1 k)) < m)%nat -> exists h, forall fuel, (length (@nil (Z * Z)) < fuel)%nat -> yields_list (simp_next BigI inext fuel) (k, it) h).
    { induction m as [|m IH]; intros k' Hm; [lia|]. destruct (reduce_recip_big k') as [(i & r1 & r2 & E & L)|E].
      - destruct (IH (Block (qm1 k') (qm2 k') r1 r2) ltac:(cbn [qm1]; lia)) as (h & H). exists (i :: h). intros [|fuel] Hf; [lia|].
        apply (list_cons _ _ i (Block (qm1 k') (qm2 k') r1 r2, it)); [|apply H; exact Hf]. cbn [simp_next]. rewrite E. reflexivity.
      - exists []. intros [|fuel] Hf; [lia|]. apply (list_nil _ _ (k', it')). cbn [simp_next]. rewrite E. cbn [bind]. rewrite St. reflexivity. }
    exact (G _ k (le_n _)).
  - destruct (list_step _ _ _ Y) as (it' & St & Y').
    assert (G : forall m k, (Z.to_nat (Z.abs (qm1 k)) < m)%nat -> exists h, forall fuel, (length (v :: l) < fuel)%nat -> yields_list (simp_next BigI inext fuel) (k, it) h).
    { induction m as [|m IH]; intros k' Hm; [lia|]. destruct (reduce_recip_big k') as [(i & r1 & r2 & E & L)|E].
      - destruct (IH (Block (qm1 k') (qm2 k') r1 r2) ltac:(cbn [qm1]; lia)) as (h & H). exists (i :: h). intros [|fuel] Hf; [lia|].
        apply (list_cons _ _ i (Block (qm1 k') (qm2 k') r1 r2, it)); [|apply H; exact Hf]. cbn [simp_next]. rewrite E. reflexivity.
      - destruct (gmove_big k' (fst v) (snd v)) as (k2 & M). destruct (IHl it' k2 Y') as (h & H). exists h. intros [|fuel] Hf; [lia|]. cbn [length] in Hf.
        assert (Step : simp_next BigI inext (S fuel) (k', it) = simp_next BigI inext fuel (k2, it')) by (cbn [simp_next]; rewrite E; cbn [bind]; rewrite St; cbn [bind]; destruct v as [a b]; cbn [fst snd] in M; rewrite M; reflexivity).
        pose proof (H fuel ltac:(lia) O ltac:(lia)) as H0. apply nth_head in H0. destruct H0 as (s' & H0).
        intros n Hn. rewrite (nth_same_call _ (k', it) (k2, it')); [apply (H (S fuel)); lia|]. rewrite Step, H0. symmetry. apply (simp_fuel _ _ fuel); [exact H0|lia]. }
    exact (G _ k (le_n _)).
Qed.


(** ** They stay ended *)
Lemma silent_fixed {S A} (nx : S -> res (option A * S)) (P : S -> Prop) : (forall s, P s -> exists s', nx s = Ok (None, s') /\ P s') -> forall s, P s -> forall n, silent nx n s.
Proof. intros H s Hs n. revert s Hs. induction n as [|n IH]; intros s Hs; cbn [silent]; [exact Logic.I|]. destruct (H s Hs) as (s' & E & Hs'). exists s'. split; [exact E|apply IH; exact Hs']. Qed.
Lemma silent_one {S A} (nx : S -> res (option A * S)) s : (forall n, silent nx n s) -> exists s', nx s = Ok (None, s') /\ forall n, silent nx n s'.
Proof.
  intros H. pose proof (H 1%nat) as H1. cbn [silent] in H1. destruct H1 as (s' & E & _). exists s'. split; [exact E|]. intros n. pose proof (H (Datatypes.S n)) as K. cbn [silent] in K. destruct K as (s'' & E' & K). congruence.
Qed.

(** Enough: an invariant under which the first None is followed by None only *)
Lemma fused_inv {S A} (nx : S -> res (option A * S)) (P : S -> Prop) : (forall s o s', P s -> nx s = Ok (o, s') -> P s') -> (forall s s', P s -> nx s = Ok (None, s') -> forall m, silent nx m s') -> forall s, P s -> fused nx s.
Proof.
  intros H1 H2 s Hs n. revert s Hs. induction n as [|n IH]; intros s Hs s1 s2 R E; cbn [run] in R; [subst s1; exact (H2 _ _ Hs E)|]. destruct R as (o & s3 & E3 & R). exact (IH _ (H1 _ _ _ Hs E3) _ _ R E).
Qed.
Lemma fused_step {S A} (nx : S -> res (option A * S)) s o s' : fused nx s -> nx s = Ok (o, s') -> fused nx s'.
Proof. intros F E n s1 s2 R. apply (F (Datatypes.S n)). exists o, s'. auto. Qed.
Lemma fused_none {S A} (nx : S -> res (option A * S)) s s' : fused nx s -> nx s = Ok (None, s') -> forall m, silent nx m s'.
Proof. intros F E. exact (F O s s' eq_refl E). Qed.

Lemma homo_fused {I} t (inext : I -> res (option (Z) * I)) fuel k it : fused inext it -> fused (homo_next t inext fuel) (k, it).
Proof.
  intros F. apply (fused_inv _ (fun s => fused inext (snd s))); [| |exact F]; clear.
  - induction fuel as [|fuel IH]; intros [k it] o s' F H; [discriminate|]. cbn [homo_next snd] in *. 
    apply bind_Ok in H. destruct H as ((u, k1) & E & H). destruct u as [w|]; [inversion H; subst; exact F|]. apply bind_Ok in H. destruct H as ((u, it1) & Ei & H). pose proof (fused_step _ _ _ _ F Ei) as F'. destruct u as [w|]; [|inversion H; subst; exact F'].
    apply bind_Ok in H. destruct H as (k2 & _ & H). exact (IH (_, it1) _ _ F' H).
  - intros s s' F H. apply (silent_fixed _ (fun s => block_reduce_recip t (fst s) = Ok (None, fst s) /\ (forall n, silent inext n (snd s)) /\ fuel <> O)).
    + clear s s' F H. intros [k it] (E & Q & Hf). cbn [fst snd] in *. destruct (silent_one _ _ Q) as (it' & Ei & Q'). exists (k, it'). destruct fuel as [|fuel]; [contradiction|]. cbn [homo_next]. rewrite E. cbn [bind]. rewrite Ei. cbn [bind fst snd]. auto.
    + assert (Hf : fuel <> O) by (intros ->; destruct s; discriminate). cut (block_reduce_recip t (fst s') = Ok (None, fst s') /\ (forall n, silent inext n (snd s'))); [tauto|]. clear Hf. revert s s' F H. induction fuel as [|fuel IH]; intros [k it] s' F H; [discriminate|]. cbn [homo_next snd] in *. 
      apply bind_Ok in H. destruct H as ((u, k1) & E & H). destruct u as [w|]; [discriminate|]. apply bind_Ok in H. destruct H as ((u, it1) & Ei & H). destruct u as [w|].
      * pose proof (fused_step _ _ _ _ F Ei) as F'. apply bind_Ok in H. destruct H as (k2 & _ & H). exact (IH (_, it1) _ F' H).
      * inversion H; subst. cbn [fst snd]. split; [|exact (fused_none _ _ _ F Ei)]. apply reduce_recip_inv in E. destruct E as [(j & r1 & r2 & _ & E & _)|(C & _ & ->)]; [discriminate|]. unfold block_reduce_recip. rewrite C. reflexivity.
Qed.

Lemma simp_fused {I} t (inext : I -> res (option (Z * Z) * I)) fuel k it : fused inext it -> fused (simp_next t inext fuel) (k, it).
Proof.
  intros F. apply (fused_inv _ (fun s => fused inext (snd s))); [| |exact F]; clear.
  - induction fuel as [|fuel IH]; intros [k it] o s' F H; [discriminate|]. cbn [simp_next snd] in *. 
    apply bind_Ok in H. destruct H as ((u, k1) & E & H). destruct u as [w|]; [inversion H; subst; exact F|]. apply bind_Ok in H. destruct H as ((u, it1) & Ei & H). pose proof (fused_step _ _ _ _ F Ei) as F'. destruct u as [w|]; [|inversion H; subst; exact F'].
    destruct w as [a b]. apply bind_Ok in H. destruct H as (k2 & _ & H). exact (IH (_, it1) _ _ F' H).
  - intros s s' F H. apply (silent_fixed _ (fun s => block_reduce_recip t (fst s) = Ok (None, fst s) /\ (forall n, silent inext n (snd s)) /\ fuel <> O)).
    + clear s s' F H. intros [k it] (E & Q & Hf). cbn [fst snd] in *. destruct (silent_one _ _ Q) as (it' & Ei & Q'). exists (k, it'). destruct fuel as [|fuel]; [contradiction|]. cbn [simp_next]. rewrite E. cbn [bind]. rewrite Ei. cbn [bind fst snd]. auto.
    + assert (Hf : fuel <> O) by (intros ->; destruct s; discriminate). cut (block_reduce_recip t (fst s') = Ok (None, fst s') /\ (forall n, silent inext n (snd s'))); [tauto|]. clear Hf. revert s s' F H. induction fuel as [|fuel IH]; intros [k it] s' F H; [discriminate|]. cbn [simp_next snd] in *. 
      apply bind_Ok in H. destruct H as ((u, k1) & E & H). destruct u as [w|]; [discriminate|]. apply bind_Ok in H. destruct H as ((u, it1) & Ei & H). destruct u as [w|].
      * pose proof (fused_step _ _ _ _ F Ei) as F'. destruct w as [a b]. apply bind_Ok in H. destruct H as (k2 & _ & H). exact (IH (_, it1) _ F' H).
      * inversion H; subst. cbn [fst snd]. split; [|exact (fused_none _ _ _ F Ei)]. apply reduce_recip_inv in E. destruct E as [(j & r1 & r2 & _ & E & _)|(C & _ & ->)]; [discriminate|]. unfold block_reduce_recip. rewrite C. reflexivity.
Qed.

Lemma dec_fused {I} (inext : I -> res (option (Z * Z) * I)) fuel k it : fused inext it -> fused (dec_next BigI inext fuel) (k, it).
Proof.
  intros F. apply (fused_inv _ (fun s => fused inext (snd s))); [| |exact F]; clear.
  - induction fuel as [|fuel IH]; intros [k it] o s' F H; [discriminate|]. cbn [dec_next snd] in *. apply bind_Ok in H. destruct H as (ten & T & H). assert (ten = 10) by (unfold checked, fits, unwrap in T; congruence). subst ten.
    apply bind_Ok in H. destruct H as ((u, k1) & E & H). destruct u as [w|]; [apply bind_Ok in H; destruct H as (d & _ & H); apply bind_Ok in H; destruct H as (c & _ & H); inversion H; subst; exact F|]. apply bind_Ok in H. destruct H as ((u, it1) & Ei & H). pose proof (fused_step _ _ _ _ F Ei) as F'. destruct u as [w|]; [|inversion H; subst; exact F'].
    destruct w as [a b]. destruct (checked_gmove_big k1 a b) as (p & q & k2 & M). rewrite M in H. cbn [bind] in H. exact (IH (_, it1) _ _ F' H).
  - intros s s' F H. apply (silent_fixed _ (fun s => block_reduce_mul BigI (fst s) 10 = Ok (None, fst s) /\ (forall n, silent inext n (snd s)) /\ fuel <> O)).
    + clear s s' F H. intros [k it] (E & Q & Hf). cbn [fst snd] in *. destruct (silent_one _ _ Q) as (it' & Ei & Q'). exists (k, it'). destruct fuel as [|fuel]; [contradiction|]. cbn [dec_next]. unfold checked, fits, unwrap. cbn [bind]. rewrite E. cbn [bind]. rewrite Ei. cbn [bind fst snd]. auto.
    + assert (Hf : fuel <> O) by (intros ->; destruct s; discriminate). cut (block_reduce_mul BigI (fst s') 10 = Ok (None, fst s') /\ (forall n, silent inext n (snd s'))); [tauto|]. clear Hf. revert s s' F H. induction fuel as [|fuel IH]; intros [k it] s' F H; [discriminate|]. cbn [dec_next snd] in *. apply bind_Ok in H. destruct H as (ten & T & H). assert (ten = 10) by (unfold checked, fits, unwrap in T; congruence). subst ten.
      apply bind_Ok in H. destruct H as ((u, k1) & E & H). destruct u as [w|]; [apply bind_Ok in H; destruct H as (d & _ & H); apply bind_Ok in H; destruct H as (c & _ & H); discriminate|]. apply bind_Ok in H. destruct H as ((u, it1) & Ei & H). destruct u as [w|].
      * pose proof (fused_step _ _ _ _ F Ei) as F'. destruct w as [a b]. destruct (checked_gmove_big k1 a b) as (p & q & k2 & M). rewrite M in H. cbn [bind] in H. exact (IH (_, it1) _ F' H).
      * inversion H; subst. cbn [fst snd]. split; [|exact (fused_none _ _ _ F Ei)]. apply reduce_mul_inv in E. destruct E as [(j & r1 & r2 & _ & E & _)|(C & _ & ->)]; [discriminate|]. unfold block_reduce_mul. rewrite C. reflexivity.
Qed.

Lemma gconv_fused {I} (inext : I -> res (option (Z * Z) * I)) k it : fused inext it -> fused (gconv_next BigI inext) (k, it).
Proof.
  intros F. apply (fused_inv _ (fun s => fused inext (snd s))); [| |exact F]; clear.
  - intros [k it] o s' F H. unfold gconv_next in H. cbn [snd] in *. apply bind_Ok in H. destruct H as ((u, it1) & Ei & H). pose proof (fused_step _ _ _ _ F Ei) as F'. destruct u as [(a, b)|]; [|inversion H; subst; exact F'].
    apply bind_Ok in H. destruct H as ((u, k2) & _ & H). destruct u as [(p, q)|]; [|inversion H; subst; exact F']. apply bind_Ok in H. destruct H as (r & _ & H). inversion H; subst; exact F'.
  - intros [k it] s' F H. unfold gconv_next in H. cbn [snd] in *. apply bind_Ok in H. destruct H as ((o, it1) & Ei & H). destruct o as [(a, b)|].
    + destruct (checked_gmove_big k a b) as (p & q & k2 & M). rewrite M in H. cbn [bind] in H. apply bind_Ok in H. destruct H as (r & _ & H). discriminate.
    + inversion H; subst. apply (silent_fixed _ (fun s => forall n, silent inext n (snd s))); [|exact (fused_none _ _ _ F Ei)]. clear. intros [k it] Q. destruct (silent_one _ _ Q) as (it' & Ei & Q'). exists (k, it'). unfold gconv_next. cbn [snd] in *. rewrite Ei. cbn [bind]. auto.
Qed.

Lemma generalize_fused {I} (inext : I -> res (option Z * I)) it : fused inext it -> fused (generalize_next inext) it.
Proof.
  intros F. apply (fused_inv _ (fused inext)); [| |exact F]; clear.
  - intros it o s' F H. unfold generalize_next in H. apply bind_Ok in H. destruct H as ((u, it1) & Ei & H). pose proof (fused_step _ _ _ _ F Ei) as F'. destruct u as [v|]; inversion H; subst; exact F'.
  - intros it it' F H. unfold generalize_next in H. apply bind_Ok in H. destruct H as ((o, it1) & Ei & H). destruct o as [v|]; [discriminate|]. inversion H; subst.
    apply (silent_fixed _ (fun s => forall n, silent inext n s)); [|exact (fused_none _ _ _ F Ei)]. clear. intros it Q. destruct (silent_one _ _ Q) as (it' & Ei & Q'). exists it'. unfold generalize_next. rewrite Ei. cbn [bind]. auto.
Qed.

(** The iterators over stored coefficients *)
Definition okst (c : coeffs_st) : Prop := a_iter c <> None -> p_iter c = None.
Definition gone (c : coeffs_st) : Prop := a_iter c = None /\ (p_iter c = None \/ p_iter c = Some [] /\ p_ref c = []).
Lemma coeffs_okst c o c' : okst c -> coeffs_next c = (o, c') -> okst c'.
Proof.
  unfold coeffs_next, okst. destruct c as [[[|v a]|] p q]; cbn [a_iter p_ref p_iter]; intros O.
  - destruct p as [|w p]; intros H; inversion H; subst; cbn [a_iter p_iter]; congruence.
  - intros H; inversion H; subst; cbn [a_iter p_iter]. intros _. apply O. discriminate.
  - destruct q as [[|u q]|]; [destruct p| |]; intros H; inversion H; subst; cbn [a_iter p_iter]; congruence.
Qed.
Lemma coeffs_gone c c' : okst c -> coeffs_next c = (None, c') -> gone c'.
Proof.
  unfold coeffs_next, gone, okst. destruct c as [[[|v a]|] p q]; cbn [a_iter p_ref p_iter]; intros O.
  - destruct p as [|w p]; [|discriminate]. intros H. inversion H; subst. cbn [a_iter p_iter p_ref]. split; [reflexivity|]. left. apply O. discriminate.
  - discriminate.
  - destruct q as [[|u q]|]; [destruct p; [|discriminate]|discriminate|]; intros H; inversion H; subst; cbn [a_iter p_iter p_ref]; auto.
Qed.
Lemma gone_next c : gone c -> exists c', coeffs_next c = (None, c') /\ gone c'.
Proof. unfold gone, coeffs_next. destruct c as [a p q]. cbn [a_iter p_iter p_ref]. intros (-> & [->|(-> & ->)]); eexists; split; try reflexivity; cbn [a_iter p_iter p_ref]; auto. Qed.
Lemma start_okst x : okst (cf_coeffs_unsigned x). Proof. intros _. reflexivity. Qed.

Lemma coeffs_fused x : fused coeffs_nextM (cf_coeffs_unsigned x).
Proof.
  apply (fused_inv _ okst); [| |apply start_okst]; unfold coeffs_nextM.
  - intros s o s' O H. injection H as H. exact (coeffs_okst _ _ _ O H).
  - intros s s' O H. injection H as H. apply (silent_fixed _ gone); [|exact (coeffs_gone _ _ O H)]. clear. intros s G. destruct (gone_next s G) as (s' & E & G'). exists s'. unfold coeffs_nextM. rewrite E. auto.
Qed.
Lemma signed_fused u x : fused (signed_next u) (cf_coeffs x).
Proof.
  apply (fused_inv _ (fun s => okst (fst s))); [| |apply start_okst]; unfold signed_next.
  - intros [c n] o s' O H. cbn [fst] in *. destruct (coeffs_next c) as [[v|] c1] eqn:E; [apply bind_Ok in H; destruct H as (w & _ & H)|]; inversion H; subst; exact (coeffs_okst _ _ _ O E).
  - intros [c n] s' O H. cbn [fst] in *. destruct (coeffs_next c) as [[v|] c1] eqn:E; [apply bind_Ok in H; destruct H as (w & _ & H); discriminate|]. inversion H; subst.
    apply (silent_fixed _ (fun s => gone (fst s))); [|exact (coeffs_gone _ _ O E)]. clear. intros [c n] G. destruct (gone_next c G) as (c' & E & G'). exists (c', n). rewrite E. auto.
Qed.
Lemma general_fused u x : fused (general_next u) (cf_generalized x).
Proof.
  apply (fused_inv _ (fun s => okst (fst s))); [| |apply start_okst]; unfold general_next.
  - intros [c n] o s' O H. cbn [fst] in *. destruct (coeffs_next c) as [[v|] c1] eqn:E; [apply bind_Ok in H; destruct H as (w & _ & H)|]; inversion H; subst; exact (coeffs_okst _ _ _ O E).
  - intros [c n] s' O H. cbn [fst] in *. destruct (coeffs_next c) as [[v|] c1] eqn:E; [apply bind_Ok in H; destruct H as (w & _ & H); discriminate|]. inversion H; subst.
    apply (silent_fixed _ (fun s => gone (fst s))); [|exact (coeffs_gone _ _ O E)]. clear. intros [c n] G. destruct (gone_next c G) as (c' & E & G'). exists (c', n). rewrite E. auto.
Qed.
Lemma conv_fused x : wfcf x -> fused (conv_next BigU) (cf_convergents x).
Proof.
  intros W. apply (fused_inv _ (fun s => okst (cv_coeffs s) /\ ((exists n, at_conv x n s) \/ gone (cv_coeffs s)))); [| |split; [apply start_okst|left; exists O; apply at_conv_start]].
  - intros s o s' (O & I) H. split.
    + unfold conv_next in H. destruct (coeffs_next (cv_coeffs s)) as [[a|] c] eqn:E; pose proof (coeffs_okst _ _ _ O E) as O'; [|inversion H; subst; exact O'].
      destruct (block_checked_rmove _ _ _) as [(p, q)|]; [|inversion H; subst; exact O']. apply bind_Ok in H. destruct H as (r & _ & H).
      destruct (cv_neg s); [apply bind_Ok in H; destruct H as (r' & _ & H)|]; inversion H; subst; exact O'.
    + destruct I as [(n & A)|G].
      * destruct (conv_step BigU x n s W A (big_fit x n W)) as (s1 & E & K). rewrite E in H. inversion H; subst. destruct (conv_item x n) eqn:Ei; [left; exists (S n); apply K; discriminate|].
        right. unfold conv_next in E. destruct (coeffs_next (cv_coeffs s)) as [[a|] c] eqn:Ec; [|inversion E; subst; exact (coeffs_gone _ _ O Ec)].
        exfalso. destruct A as (A & _). destruct (at_coeff_next x n _ A) as (c' & Ec' & _). rewrite Ec in Ec'. unfold conv_item in Ei. inversion Ec' as [[Ha Hc]]. rewrite <- Ha in Ei. discriminate.
      * destruct (gone_next _ G) as (c' & E & G'). unfold conv_next in H. rewrite E in H. inversion H; subst. right; exact G'.
  - intros s s' (O & I) H. apply (silent_fixed _ (fun s => gone (cv_coeffs s))).
    + clear. intros s G. destruct (gone_next _ G) as (c' & E & G'). unfold conv_next. rewrite E. eexists. split; [reflexivity|exact G'].
    + destruct I as [(n & A)|G].
      * destruct (conv_step BigU x n s W A (big_fit x n W)) as (s1 & E & _). rewrite E in H. inversion H as [[Ei Es]]. subst s1. rewrite Ei in E.
        unfold conv_next in E. destruct (coeffs_next (cv_coeffs s)) as [[a|] c] eqn:Ec; [|inversion E; subst; exact (coeffs_gone _ _ O Ec)].
        exfalso. destruct A as (A & _). destruct (at_coeff_next x n _ A) as (c' & Ec' & _). rewrite Ec in Ec'. unfold conv_item in Ei. inversion Ec' as [[Ha Hc]]. rewrite <- Ha in Ei. discriminate.
      * destruct (gone_next _ G) as (c' & E & G'). unfold conv_next in H. rewrite E in H. inversion H; subst. exact G'.
Qed.
Lemma owned_fused u x : fused (owned_next u) (cf_into_coeffs x).
Proof.
  intros n s1 s2 _ H. unfold owned_next in H. assert (G : o_iter s2 = None /\ p_list s2 = []).
  { assert (P : forall s, o_iter s = None -> owned_periodic u s = Ok (None, s2) -> o_iter s2 = None /\ p_list s2 = []).
    { intros s Hs. unfold owned_periodic. destruct (p_list s) eqn:E; [intros K; inversion K; subst; auto|]. destruct (nth_error _ _); [|discriminate]. intros K. apply bind_Ok in K. destruct K as (w & _ & K). discriminate. }
    destruct (o_iter s1) as [[|v l]|] eqn:E; [eapply P; [|exact H]; reflexivity| |exact (P _ E H)]. apply bind_Ok in H. destruct H as (w & _ & H). discriminate. }
  apply (silent_fixed _ (fun s => o_iter s = None /\ p_list s = [])); [|exact G]. clear. intros s (E1 & E2). exists s. unfold owned_next, owned_periodic. rewrite E1, E2. auto.
Qed.

(** ** decimals() ends too *)
Lemma moved_det k a b k' : moved k a b k' -> det k <> 0 -> a <> 0 -> det k' <> 0.
Proof.
  intros M D A. destruct k as [p p' q q'], k' as [P P' Q Q']. unfold moved, det in *. cbn [pm1 pm2 qm1 qm2] in *. destruct M as (g & G & M1 & M2 & M3 & M4).
  intros E. assert (K : a * (p * q' - p' * q) = 0).
  { replace (a * (p * q' - p' * q)) with ((p * (q * b + q' * a)) - (q * (p * b + p' * a))) by ring. rewrite <- M1, <- M2, <- M3, <- M4. replace (g * P' * (g * Q) - g * Q' * (g * P)) with (- (g * g) * (P * Q' - P' * Q)) by ring. rewrite E. ring. }
  apply Z.mul_eq_0 in K. lia.
Qed.
Lemma digit_det k i r1 r2 : block_check_integer BigI k = Ok (Some (i, r1, r2)) -> det (Block (r1 * 10) (r2 * 10) (qm1 k) (qm2 k)) = 10 * det k /\ Z.abs (det k) <= 2 * Z.abs (qm1 k * qm2 k).
Proof.
  intros H. apply check_integer_inv in H. destruct H as (N1 & N2 & E1 & E2 & -> & ->). destruct k as [p p' q q']. unfold det. cbn [pm1 pm2 qm1 qm2] in *.
  pose proof (Z.quot_rem' p q) as R1. pose proof (Z.quot_rem' p' q') as R2. rewrite <- E1 in R1. rewrite <- E2 in R2.
  pose proof (Z.rem_bound_abs p q N1) as B1. pose proof (Z.rem_bound_abs p' q' N2) as B2. set (u := Z.rem p q) in *. set (v := Z.rem p' q') in *. clearbody u v. clear E1 E2.
  assert (D : p * q' - p' * q = u * q' - v * q) by (subst; ring). split; [rewrite D; ring|]. rewrite D, Z.abs_mul. clear D R1 R2.
  assert (Z.abs (u * q' - v * q) <= Z.abs (u * q') + Z.abs (v * q)) by lia. rewrite !Z.abs_mul in H. pose proof (Z.abs_nonneg u). pose proof (Z.abs_nonneg v). generalize dependent (Z.abs u). generalize dependent (Z.abs v). generalize dependent (Z.abs q). generalize dependent (Z.abs q'). clear. intros. nia.
Qed.
Lemma nth_not_some {S A} (nx : S -> res (option A * S)) s n v : (forall w s', nx s <> Ok (Some w, s')) -> nth_item nx n s <> Ok (Some v).
Proof. intros H. destruct n as [|n]; cbn [nth_item]; destruct (nx s) as [[[w|] s']| |] eqn:E; cbn [bind]; try discriminate; exfalso; exact (H _ _ eq_refl). Qed.
Lemma dec_stops {I} (inext : I -> res (option (Z * Z) * I)) : forall l it k, yields_list inext it l -> det k <> 0 -> Forall (fun ab => fst ab <> 0) l ->
  exists N, forall fuel v, nth_item (dec_next BigI inext fuel) N (k, it) <> Ok (Some v).
Proof.
  induction l as [|ab l IHl]; intros it k Y D FA; (assert (G : forall m k, (Z.to_nat (20 * Z.abs (qm1 k * qm2 k) + 1 - Z.abs (det k)) < m)%nat -> det k <> 0 -> exists N, forall fuel v, nth_item (dec_next BigI inext fuel) N (k, it) <> Ok (Some v)); [|exact (G _ k (le_n _) D)]); clear k D; induction m as [|m IH]; intros k Hm D; try lia; destruct (block_reduce_mul BigI k 10) as [[o k']| |] eqn:E; try (exists O; intros fuel v; apply nth_not_some; intros w s'; destruct fuel; [discriminate|]; cbn [dec_next]; unfold checked, fits, unwrap; cbn [bind]; rewrite E; discriminate);
  pose proof E as E0; apply reduce_mul_inv in E0; destruct E0 as [(i & r1 & r2 & C & -> & ->)|(C & -> & ->)].
  1,3: (apply digit_det in C; destruct C as (D' & B); destruct (IH (Block (r1 * 10) (r2 * 10) (qm1 k) (qm2 k))) as (N & H); [cbn [qm1 qm2]; lia|lia|]; exists (S N); intros fuel v;
      destruct fuel as [|fuel]; [apply nth_not_some; discriminate|]; destruct (dec_next BigI inext (S fuel) (k, it)) as [[[w|] s']| |] eqn:K; try (apply nth_not_some; intros; rewrite K; discriminate);
      rewrite (nth_item_S _ N _ _ _ K); cbn [dec_next] in K; unfold checked, fits, unwrap in K; cbn [bind] in K; rewrite E in K; cbn [bind] in K;
      apply bind_Ok in K; destruct K as (d & _ & K); apply bind_Ok in K; destruct K as (c & _ & K); inversion K; subst; apply H).
  - destruct (list_step _ _ _ Y) as (it' & St). exists O. intros fuel v. apply nth_not_some. intros w s'. destruct fuel; [discriminate|]. cbn [dec_next]. unfold checked, fits, unwrap. cbn [bind]. rewrite E. cbn [bind]. rewrite St. discriminate.
  - destruct (list_step _ _ _ Y) as (it' & St & Y'). inversion FA as [|? ? A FA']; subst. destruct ab as [a b]. cbn [fst] in A. destruct (checked_gmove_big k a b) as (p & q & k2 & M).
    destruct (IHl it' (block_update k2 p q) Y' (moved_det _ _ _ _ (checked_gmove_inv _ _ _ _ _ _ _ M) D A) FA') as (N & H). exists N. intros fuel v. destruct fuel as [|fuel]; [apply nth_not_some; discriminate|].
    assert (Step : dec_next BigI inext (S fuel) (k, it) = dec_next BigI inext fuel (block_update k2 p q, it')) by (cbn [dec_next]; unfold checked, fits, unwrap; cbn [bind]; rewrite E; cbn [bind]; rewrite St; cbn [bind]; rewrite M; reflexivity).
    destruct (dec_next BigI inext fuel (block_update k2 p q, it')) as [r| |] eqn:K; try (apply nth_not_some; intros; rewrite Step; discriminate).
    rewrite (nth_same_call _ (k, it) (block_update k2 p q, it')); [apply H|]. rewrite Step. symmetry. apply (dec_fuel _ _ fuel); [exact K|lia].
Qed.
