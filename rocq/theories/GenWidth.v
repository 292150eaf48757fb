(** * GenWidth: the iterators over a fixed-width type against those over arbitrary-precision integers (C84). *)

From Coq Require Import ZArith Lia Bool List Arith.
From Verif Require Import Base Ext ModelSurd ModelBlock ModelCF ModelGen ModelSymbols Spec SpecGen SpecCF SpecEnd SpecWidth Transfer NumFacts CFCore CFSeq CFIter CFBasic CFSurd CFNew CFOfSurd CFWide CFRound CFArith GenBlock GenSound GenConv GenLive GenHomo GenEnd.
Import ListNotations.
Open Scope Z_scope.

(** ** Simulations *)
Lemma matches_step {S S' A} (n1 : S -> res (option A * S)) s1 (n2 : S' -> res (option A * S')) s2 v s1' : matches n1 s1 n2 s2 -> n1 s1 = Ok (Some v, s1') ->
  exists s2', n2 s2 = Ok (Some v, s2') /\ matches n1 s1' n2 s2'.
Proof.
  intros B E. assert (H : nth_item n1 0 s1 = Ok (Some v)) by (rewrite nth_item_0, E; reflexivity). apply B in H. apply nth_head in H. destruct H as (s2' & H). exists s2'. split; [exact H|].
  intros n w K. rewrite <- (nth_item_S n2 n s2 v s2' H). apply B. rewrite (nth_item_S n1 n s1 v s1' E). exact K.
Qed.
Lemma matches_none {S S' A} (n1 : S -> res (option A * S)) s1 (n2 : S' -> res (option A * S')) s2 s1' : matches n1 s1 n2 s2 -> n1 s1 = Ok (None, s1') ->
  exists s2', n2 s2 = Ok (None, s2').
Proof.
  intros B E. assert (H : nth_item n1 0 s1 = Ok None) by (rewrite nth_item_0, E; reflexivity). apply B in H. rewrite nth_item_0 in H. apply bind_Ok in H. destruct H as ((o, s2') & E2 & H). destruct o; [discriminate|]. eauto.
Qed.
Lemma matches_sim {S S' A} (n1 : S -> res (option A * S)) (n2 : S' -> res (option A * S')) (R : S -> S' -> Prop) :
  (forall s1 s2 v s1', R s1 s2 -> n1 s1 = Ok (Some v, s1') -> exists s2', n2 s2 = Ok (Some v, s2') /\ R s1' s2') ->
  (forall s1 s2 s1', R s1 s2 -> n1 s1 = Ok (None, s1') -> exists s2', n2 s2 = Ok (None, s2')) -> forall s1 s2, R s1 s2 -> matches n1 s1 n2 s2.
Proof.
  intros H H0 s1 s2 Hr n. revert s1 s2 Hr. induction n as [|n IH]; intros s1 s2 Hr v E; cbn [nth_item] in E; apply bind_Ok in E; destruct E as ((o, s1') & E & K); (destruct o as [w|]; [destruct (H _ _ _ _ Hr E) as (s2' & E2 & Hr')|destruct (H0 _ _ _ Hr E) as (s2' & E2)]).
  - rewrite nth_item_0, E2. exact K.
  - rewrite nth_item_0, E2. exact K.
  - rewrite (nth_item_S n2 n s2 w s2' E2). exact (IH _ _ Hr' _ K).
  - cbn [nth_item]. rewrite E2. exact K.
Qed.
Lemma matches_rle {S A} (n1 n2 : S -> res (option A * S)) s : (forall s, rle (n1 s) (n2 s)) -> matches n1 s n2 s.
Proof.
  intros H. apply (matches_sim n1 n2 eq); [| |reflexivity].
  - intros s1 s2 v s1' <- E. exists s1'. split; [apply H; exact E|reflexivity].
  - intros s1 s2 s1' <- E. exists s1'. apply H; exact E.
Qed.
Lemma matches_begins {S S' A} (n1 : S -> res (option A * S)) s1 (n2 : S' -> res (option A * S')) s2 : matches n1 s1 n2 s2 -> begins n1 s1 n2 s2.
Proof. intros M n v. apply M. Qed.
Lemma begins_trans {S1 S2 S3 A} (n1 : S1 -> res (option A * S1)) s1 (n2 : S2 -> res (option A * S2)) s2 (n3 : S3 -> res (option A * S3)) s3 :
  begins n1 s1 n2 s2 -> begins n2 s2 n3 s3 -> begins n1 s1 n3 s3.
Proof. intros H1 H2 n v K. apply H2, H1, K. Qed.
Lemma matches_trans {S1 S2 S3 A} (n1 : S1 -> res (option A * S1)) s1 (n2 : S2 -> res (option A * S2)) s2 (n3 : S3 -> res (option A * S3)) s3 :
  matches n1 s1 n2 s2 -> matches n2 s2 n3 s3 -> matches n1 s1 n3 s3.
Proof. intros H1 H2 n v K. apply H2, H1, K. Qed.

(** ** Wider blocks *)
Lemma rle_block_rmove t k a : rle (block_rmove t k a) (block_rmove BigI k a). Proof. unfold block_rmove; mono. Qed.
Lemma rle_block_gmove t k a b : rle (block_gmove t k a b) (block_gmove BigI k a b). Proof. unfold block_gmove; mono. Qed.
Lemma rle_check_integer t k : rle (block_check_integer t k) (block_check_integer BigI k).
Proof. unfold block_check_integer. destruct (_ || _); mono. Qed.
#[local] Hint Resolve rle_block_rmove rle_block_gmove rle_check_integer : mono.
Lemma rle_reduce_recip t k : rle (block_reduce_recip t k) (block_reduce_recip BigI k). Proof. unfold block_reduce_recip; mono. Qed.
Lemma rle_reduce_mul t k b : rle (block_reduce_mul t k b) (block_reduce_mul BigI k b). Proof. unfold block_reduce_mul; mono. Qed.
Lemma rle_rmove_right t k a : rle (dblock_rmove_right t k a) (dblock_rmove_right BigI k a). Proof. unfold dblock_rmove_right; mono. Qed.
Lemma rle_rmove_down t k a : rle (dblock_rmove_down t k a) (dblock_rmove_down BigI k a). Proof. unfold dblock_rmove_down; mono. Qed.
Lemma rle_dcheck_integer t k : rle (dblock_check_integer t k) (dblock_check_integer BigI k).
Proof. unfold dblock_check_integer. mono. Qed.
#[local] Hint Resolve rle_reduce_recip rle_reduce_mul rle_rmove_right rle_rmove_down rle_dcheck_integer : mono.
Lemma rle_dreduce_recip t k : rle (dblock_reduce_recip t k) (dblock_reduce_recip BigI k). Proof. unfold dblock_reduce_recip; mono. Qed.
#[local] Hint Resolve rle_dreduce_recip : mono.

(** ** Wider iterators, same source *)
Section Same.
Context (t : ity) {I : Type}.
Lemma rle_homo_next (inext : I -> res (option Z * I)) fuel : forall s, rle (homo_next t inext fuel s) (homo_next BigI inext fuel s).
Proof.
  induction fuel as [|fuel IH]; intros [k it]; [apply rle_hang|]. cbn [homo_next]. apply rle_bind; [apply rle_reduce_recip|]. intros [[i|] k']; [apply rle_refl|].
  apply rle_bind; [apply rle_refl|]. intros [[v|] it']; [|apply rle_refl]. apply rle_bind; [apply rle_block_rmove|]. intros k''. apply IH.
Qed.
Lemma rle_simp_next (inext : I -> res (option (Z * Z) * I)) fuel : forall s, rle (simp_next t inext fuel s) (simp_next BigI inext fuel s).
Proof.
  induction fuel as [|fuel IH]; intros [k it]; [apply rle_hang|]. cbn [simp_next]. apply rle_bind; [apply rle_reduce_recip|]. intros [[i|] k']; [apply rle_refl|].
  apply rle_bind; [apply rle_refl|]. intros [[[a b]|] it']; [|apply rle_refl]. apply rle_bind; [apply rle_block_gmove|]. intros k''. apply IH.
Qed.
Lemma rle_bihomo_next {X Y} (xnext : X -> res (option Z * X)) (ynext : Y -> res (option Z * Y)) fuel : forall s, rle (bihomo_next t xnext ynext fuel s) (bihomo_next BigI xnext ynext fuel s).
Proof.
  induction fuel as [|fuel IH]; intros [[k x] y]; [apply rle_hang|]. cbn [bihomo_next]. apply rle_bind; [apply rle_dreduce_recip|]. intros [[i|[mr md]] k']; [apply rle_refl|].
  apply rle_bind; [destruct mr; [apply rle_bind; [apply rle_refl|]; intros [[v|] x']; [|apply rle_refl]; apply rle_bind; [apply rle_rmove_right|]; intros; apply rle_refl|apply rle_refl]|].
  intros [[k1 x1] [|]]; [apply rle_refl|].
  apply rle_bind; [destruct md; [apply rle_bind; [apply rle_refl|]; intros [[v|] x']; [|apply rle_refl]; apply rle_bind; [apply rle_rmove_down|]; intros; apply rle_refl|apply rle_refl]|].
  intros [[k2 y1] [|]]; [apply rle_refl|]. apply IH.
Qed.

(** checked arithmetic *)
Lemma checked_big x y : checked t x = Some y -> y = x.
Proof. unfold checked. destruct (fits t x); [|discriminate]. intros E; inversion E; auto. Qed.
Lemma checked_gmove_big k a b p k' : block_checked_gmove t k a b = Ok (Some p, k') -> block_checked_gmove BigI k a b = Ok (Some p, k').
Proof.
  unfold block_checked_gmove. unfold checked_mul, checked_add, obind.
  destruct (checked t (b * pm1 k)) as [z1|] eqn:E1; [|discriminate]. apply checked_big in E1. subst z1. destruct (checked t (a * pm2 k)) as [z1|] eqn:E1; [|discriminate]. apply checked_big in E1. subst z1.
  destruct (checked t (b * pm1 k + a * pm2 k)) as [z1|] eqn:E1; [|discriminate]. apply checked_big in E1. subst z1.
  destruct (checked t (b * qm1 k)) as [z1|] eqn:E1; [|discriminate]. apply checked_big in E1. subst z1. destruct (checked t (a * qm2 k)) as [z1|] eqn:E1; [|discriminate]. apply checked_big in E1. subst z1.
  destruct (checked t (b * qm1 k + a * qm2 k)) as [z1|] eqn:E1; [|discriminate]. apply checked_big in E1. subst z1. cbn [checked fits].
  match goal with |- ?x = _ -> ?y = _ => assert (R : rle x y) by mono; apply R end.
Qed.
Lemma gconv_big (inext : I -> res (option (Z * Z) * I)) s r s' : gconv_next t inext s = Ok (Some r, s') -> gconv_next BigI inext s = Ok (Some r, s').
Proof.
  destruct s as [k it]. unfold gconv_next. intros H. apply bind_Ok in H. destruct H as ((o, it1) & -> & H). cbn [bind]. destruct o as [[a b]|]; [|discriminate].
  apply bind_Ok in H. destruct H as ((o, k1) & E & H). destruct o as [[p q]|]; [|discriminate]. rewrite (checked_gmove_big _ _ _ _ _ E). cbn [bind].
  apply bind_Ok in H. destruct H as (r' & E' & H). apply rle_ratio_new in E'. rewrite E'. exact H.
Qed.
Lemma dec_big (inext : I -> res (option (Z * Z) * I)) fuel : forall s c s', dec_next t inext fuel s = Ok (Some c, s') -> dec_next BigI inext fuel s = Ok (Some c, s').
Proof.
  induction fuel as [|fuel IH]; intros [k it] c s' H; [discriminate|]. cbn [dec_next] in *. apply bind_Ok in H. destruct H as (ten & E & H). apply rle_unwrap_checked in E. rewrite E. cbn [bind].
  apply bind_Ok in H. destruct H as ((o, k1) & E1 & H). apply rle_reduce_mul in E1. rewrite E1. cbn [bind]. destruct o as [i|]; [exact H|].
  apply bind_Ok in H. destruct H as ((o, it1) & -> & H). cbn [bind]. destruct o as [[a b]|]; [|discriminate].
  apply bind_Ok in H. destruct H as ((o, k2) & E2 & H). destruct o as [[p q]|]; [|discriminate]. rewrite (checked_gmove_big _ _ _ _ _ E2). cbn [bind]. apply IH. exact H.
Qed.
Lemma begins_some {S A} (n1 n2 : S -> res (option A * S)) s : (forall s v s', n1 s = Ok (Some v, s') -> n2 s = Ok (Some v, s')) -> begins n1 s n2 s.
Proof. intros H. apply (begins_sim n1 n2 eq); [|reflexivity]. intros s1 s2 v s1' <- E. exists s1'. auto. Qed.
End Same.

(** ** Different sources *)
Section Match.
Context {I J : Type}.
Lemma homo_matches t (n1 : I -> res (option Z * I)) (n2 : J -> res (option Z * J)) fuel k i j : matches n1 i n2 j -> matches (homo_next t n1 fuel) (k, i) (homo_next t n2 fuel) (k, j).
Proof.
  intros B. apply (matches_sim _ _ (fun p q => fst p = fst q /\ matches n1 (snd p) n2 (snd q))); [| |auto]; clear.
  - induction fuel as [|fuel IH]; intros [k i] [k' j] v s1 (E & B) H; [discriminate|]. cbn [fst snd] in *. subst k'. cbn [homo_next] in *.
    apply bind_Ok in H. destruct H as ((o, k1) & -> & H). cbn [bind]. destruct o as [w|]; [inversion H; subst; eexists; split; [reflexivity|auto]|].
    apply bind_Ok in H. destruct H as ((o, i1) & E & H). destruct o as [w|]; [|discriminate]. destruct (matches_step _ _ _ _ _ _ B E) as (j1 & -> & B'). cbn [bind].
    apply bind_Ok in H. destruct H as (k2 & -> & H). cbn [bind]. exact (IH (k2, i1) (k2, j1) _ _ (conj eq_refl B') H).
  - induction fuel as [|fuel IH]; intros [k i] [k' j] s1 (E & B) H; [discriminate|]. cbn [fst snd] in *. subst k'. cbn [homo_next] in *.
    apply bind_Ok in H. destruct H as ((o, k1) & -> & H). cbn [bind]. destruct o as [w|]; [discriminate|].
    apply bind_Ok in H. destruct H as ((o, i1) & E & H). destruct o as [w|].
    2:{ destruct (matches_none _ _ _ _ _ B E) as (j1 & ->). cbn [bind]. eauto. }
    destruct (matches_step _ _ _ _ _ _ B E) as (j1 & -> & B'). cbn [bind].
    apply bind_Ok in H. destruct H as (k2 & -> & H). cbn [bind]. exact (IH (k2, i1) (k2, j1) _ (conj eq_refl B') H).
Qed.
Lemma simp_matches t (n1 : I -> res (option (Z * Z) * I)) (n2 : J -> res (option (Z * Z) * J)) fuel k i j : matches n1 i n2 j -> matches (simp_next t n1 fuel) (k, i) (simp_next t n2 fuel) (k, j).
Proof.
  intros B. apply (matches_sim _ _ (fun p q => fst p = fst q /\ matches n1 (snd p) n2 (snd q))); [| |auto]; clear.
  - induction fuel as [|fuel IH]; intros [k i] [k' j] v s1 (E & B) H; [discriminate|]. cbn [fst snd] in *. subst k'. cbn [simp_next] in *.
    apply bind_Ok in H. destruct H as ((o, k1) & -> & H). cbn [bind]. destruct o as [w|]; [inversion H; subst; eexists; split; [reflexivity|auto]|].
    apply bind_Ok in H. destruct H as ((o, i1) & E & H). destruct o as [(a, b)|]; [|discriminate]. destruct (matches_step _ _ _ _ _ _ B E) as (j1 & -> & B'). cbn [bind].
    apply bind_Ok in H. destruct H as (k2 & -> & H). cbn [bind]. exact (IH (k2, i1) (k2, j1) _ _ (conj eq_refl B') H).
  - induction fuel as [|fuel IH]; intros [k i] [k' j] s1 (E & B) H; [discriminate|]. cbn [fst snd] in *. subst k'. cbn [simp_next] in *.
    apply bind_Ok in H. destruct H as ((o, k1) & -> & H). cbn [bind]. destruct o as [w|]; [discriminate|].
    apply bind_Ok in H. destruct H as ((o, i1) & E & H). destruct o as [(a, b)|].
    2:{ destruct (matches_none _ _ _ _ _ B E) as (j1 & ->). cbn [bind]. eauto. }
    destruct (matches_step _ _ _ _ _ _ B E) as (j1 & -> & B'). cbn [bind].
    apply bind_Ok in H. destruct H as (k2 & -> & H). cbn [bind]. exact (IH (k2, i1) (k2, j1) _ (conj eq_refl B') H).
Qed.
Lemma generalize_matches (n1 : I -> res (option Z * I)) (n2 : J -> res (option Z * J)) i j : matches n1 i n2 j -> matches (generalize_next n1) i (generalize_next n2) j.
Proof.
  intros B. apply (matches_sim _ _ (fun p q => matches n1 p n2 q)); [| |auto]; clear; [intros i j v i1 B H|intros i j i1 B H]; unfold generalize_next in *.
  - apply bind_Ok in H. destruct H as ((o, i2) & E & H). destruct o as [w|]; [|discriminate]. inversion H; subst. destruct (matches_step _ _ _ _ _ _ B E) as (j1 & -> & B'). cbn [bind]. eauto.
  - apply bind_Ok in H. destruct H as ((o, i2) & E & H). destruct o as [w|]; [discriminate|]. destruct (matches_none _ _ _ _ _ B E) as (j1 & ->). cbn [bind]. eauto.
Qed.
End Match.

(** ** The built-in sources *)
Lemma rle_exp_next t s : rle (exp_next t s) (exp_next BigI s). Proof. unfold exp_next. mono. Qed.
Lemma rle_e_next t s : rle (e_next t s) (e_next BigI s). Proof. unfold e_next. mono. Qed.
Lemma rle_pi_next t s : rle (pi_next t s) (pi_next BigI s). Proof. unfold pi_next. mono. Qed.
Lemma gamma_big t s v s' : gamma_next t s = Ok (Some v, s') -> gamma_next BigI s = Ok (Some v, s').
Proof.
  destruct s as [k qm1 qm2 sm1 rm1]. unfold gamma_next. destruct (k =? 0); [auto|]. destruct (k =? 1).
  { match goal with |- ?x = _ -> ?y = _ => assert (R : rle x y) by mono; apply R end. }
  destruct (checked t k) as [n|] eqn:E; [|discriminate]. unfold checked in E. destruct (fits t k); [|discriminate]. inversion E; subst n. change (checked BigI k) with (Some k). cbv iota.
  match goal with |- ?x = _ -> ?y = _ => assert (R : rle x y) by mono; apply R end.
Qed.

(** ** approximated() *)
Lemma gapprox_begins {I J} t t' (n1 : I -> res (option (Z * Z) * I)) (n2 : J -> res (option (Z * Z) * J)) limit r fuel : forall last s1 s2,
  begins (gconv_next t n1) s1 (gconv_next t' n2) s2 -> gapprox_loop t n1 fuel limit last s1 = Ok (Approximated r) -> gapprox_loop t' n2 fuel limit last s2 = Ok (Approximated r).
Proof.
  induction fuel as [|fuel IH]; intros last s1 s2 B H; [discriminate|]. cbn [gapprox_loop] in *. apply bind_Ok in H. destruct H as ((o, s1') & E & H). destruct o as [v|]; [|discriminate].
  destruct (begins_step _ _ _ _ _ _ B E) as (s2' & -> & B'). cbn [bind]. destruct (denom v <? limit); [exact (IH _ _ _ B' H)|exact H].
Qed.
Lemma approx_fit u x limit n : wfcf x -> (forall j, (j <= n)%nat -> conv_fit u x j) -> (forall v, conv_item x n = Some v -> limit <= denom v) ->
  forall fuel k s1 s2 last, at_conv x (S k) s1 -> at_conv x (S k) s2 -> (S k <= n)%nat -> approx_loop u fuel limit last s1 = approx_loop BigU fuel limit last s2.
Proof.
  intros W F St. induction fuel as [|fuel IH]; intros k s1 s2 last A1 A2 L; [reflexivity|]. cbn [approx_loop].
  destruct (conv_step u x (S k) s1 W A1 (F _ L)) as (s1' & -> & B1). destruct (conv_step BigU x (S k) s2 W A2 (big_fit x (S k) W)) as (s2' & -> & B2). cbn [bind].
  destruct (conv_item x (S k)) as [v|] eqn:E; [|reflexivity]. destruct (Z.ltb_spec (denom v) limit) as [D|D]; [|reflexivity].
  apply (IH (S k)); [apply B1; discriminate|apply B2; discriminate|]. destruct (Nat.eq_dec (S k) n) as [Q|]; [|lia]. rewrite Q in E. specialize (St v E). lia.
Qed.
Lemma cf_approx_fit u x limit n fuel : wfcf x -> (1 <= n)%nat -> (forall j r, (j <= n)%nat -> convergent x j r -> ratio_sfit u r) -> (forall r, convergent x n r -> limit <= denom r) ->
  cf_approximated u fuel x limit = cf_approximated BigU fuel x limit.
Proof.
  intros W L F St. assert (F' : forall j, (j <= n)%nat -> conv_fit u x j) by (intros j Hj; apply conv_sized; [auto|]; intros r; apply F; auto).
  unfold cf_approximated. destruct (conv_step u x 0 _ W (at_conv_start x) (F' 0%nat ltac:(lia))) as (s1 & -> & A1). destruct (conv_step BigU x 0 _ W (at_conv_start x) (big_fit x 0 W)) as (s2 & -> & A2). cbn [bind].
  destruct (conv_item x 0) as [v|] eqn:E; [|reflexivity]. cbn [unwrap bind]. destruct (limit <? denom v).
  - destruct x as [a p ng]. cbn [a_coeffs]. destruct a as [|i a]; [reflexivity|]. f_equal. f_equal. f_equal.
    pose proof (F' 0%nat ltac:(lia)) as K. unfold conv_fit in K. destruct (K ltac:(discriminate)) as [K1 _]. change (PP (cseq (CF (i :: a) p ng)) 1) with (i * 1 + 0) in K1. rewrite Z.mul_1_r, Z.add_0_r in K1.
    rewrite (sfit_to_signed u i K1). rewrite (sfit_to_signed BigU i); [reflexivity|]. cbn [wfcf a_coeffs] in W. exact (proj1 W).
  - apply (approx_fit u x limit n W F') with (k := 0%nat); [|apply A1; discriminate|apply A2; discriminate|exact L].
    intros w Ew. apply St. unfold conv_item in Ew. destruct (coeff_at x n) eqn:Ec; [|discriminate]. destruct (has_dec x n) as [Hn|Hn]; [|congruence].
    destruct (conv_item_convergent x n W Hn) as (r & Er & Cr). unfold conv_item in Er. rewrite Ec in Er. congruence.
Qed.
