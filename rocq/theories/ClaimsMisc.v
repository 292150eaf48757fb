(** * ClaimsMisc: proofs of the property theorems about printing and integer conversions (PropsMisc.v). *)

From Coq Require Import ZArith Lia Bool List String.
From Coquelicot Require Import Complex.
From Verif Require Import Base Ext ModelSurd ModelCF ModelFmt Spec SpecText FmtFacts FmtText.
Import ListNotations.
Open Scope Z_scope.

Lemma L_C39_surd : forall g t t' alt alt' s s' text, normal g s -> normal g s' ->
  surd_fmt t alt s = Ok text -> surd_fmt t' alt' s' = Ok text -> s = s'.
Proof.
  intros g t t' alt alt' s s' text N N' H H'. apply (surd_fmt_back g) in H; [|auto]. apply (surd_fmt_back g) in H'; [|auto]. congruence.
Qed.

Lemma L_C39_cf : forall x y text, cf_fmt x = Ok text -> cf_fmt y = Ok text -> x = y.
Proof. exact cf_fmt_inj. Qed.

Lemma L_C39_returns : forall alt s x, (exists text, surd_fmt BigI alt s = Ok text) /\ (a_coeffs x <> nil -> exists text, cf_fmt x = Ok text).
Proof.
  intros alt s x. split.
  - unfold surd_fmt. destruct s as [[a b c] d]. destruct (alt && (d <? 0)); eexists; reflexivity.
  - destruct x as [[|a0 a] p n]; intros H; [contradiction H; reflexivity|]. rewrite cf_fmt_eq. eauto.
Qed.

Lemma L_C39_not_normal_refuted : exists s s', s <> s' /\ surd_fmt BigI false s = surd_fmt BigI false s'.
Proof. exists (Surd (SCo 0 0 1) 0), (Surd (SCo 0 0 3) 5). split; [discriminate|reflexivity]. Qed.

Lemma C39_case_normal : normal (Cfg true true) (Surd (SCo (-3) (-2) 7) (-5)).
Proof.
  unfold normal, parts. cbn [coeffs c0 c1 c2 discr]. split; [lia|]. split; [reflexivity|]. split; [|discriminate]. right. split; [lia|]. intros [k Hk]. nia.
Qed.

Lemma L_C65_surd : forall t alt s text, 0 < c2 (coeffs s) -> surd_fmt t alt s = Ok text -> reads text = Some (sval s).
Proof. exact surd_fmt_reads. Qed.

Lemma L_C65_cf : forall x text, List.Forall (fun v => 0 <= v) (a_coeffs x ++ p_coeffs x) -> cf_fmt x = Ok text -> reads_cf text = Some x.
Proof. exact cf_fmt_reads. Qed.

Lemma L_C49_kept : forall t z, fits (sty t) z = true -> fits (uty t) z = true ->
  to_unsigned (sty t) z = Ok z /\ to_signed (uty t) z = z /\ to_unsigned (uty t) z = Ok z /\ to_signed (sty t) z = z.
Proof.
  intros t z. destruct t as [| |n|n]; cbn [sty uty to_unsigned to_signed fits]; intros A B; repeat split; auto.
  - apply Z.leb_le in B. destruct (z <? 0) eqn:E; [apply Z.ltb_lt in E; lia|reflexivity].
  - apply Z.leb_le in B. destruct (z <? 0) eqn:E; [apply Z.ltb_lt in E; lia|reflexivity].
  - apply andb_prop in A, B. rewrite Z.mod_small; [reflexivity|]. lia.
  - apply andb_prop in A. destruct A as [_ ->]. reflexivity.
  - apply andb_prop in A, B. rewrite Z.mod_small; [reflexivity|]. lia.
  - apply andb_prop in A. destruct A as [_ ->]. reflexivity.
Qed.

Lemma pow_half n : 1 <= n -> 2 ^ n = 2 * 2 ^ (n - 1) /\ 0 < 2 ^ (n - 1).
Proof. intros H. split; [rewrite <- Z.pow_succ_r by lia; f_equal; lia|apply Z.pow_pos_nonneg; lia]. Qed.

Lemma mod_half n z : 1 <= n -> - 2 ^ (n - 1) <= z < 2 ^ (n - 1) -> z mod 2 ^ n = if z <? 0 then z + 2 ^ n else z.
Proof.
  intros Hn B. destruct (pow_half n Hn) as [E P]. destruct (z <? 0) eqn:S; [apply Z.ltb_lt in S|apply Z.ltb_ge in S].
  - symmetry. apply (Z.mod_unique _ _ (-1)); lia.
  - apply Z.mod_small. lia.
Qed.

Lemma L_C49_back_and_forth : forall t z v, (forall n, t = SInt n -> 1 <= n) -> sty t = t -> fits t z = true -> to_unsigned t z = Ok v ->
  fits (uty t) v = true /\ to_signed (uty t) v = z.
Proof.
  intros t z v Hn S F H. destruct t as [| |n|n]; try discriminate; cbn [to_unsigned uty to_signed fits] in *.
  - destruct (z <? 0) eqn:E; [discriminate|]. inversion H; subst. apply Z.ltb_ge in E. split; [apply Z.leb_le; auto|reflexivity].
  - specialize (Hn n eq_refl). destruct (pow_half n Hn) as [E P]. apply andb_prop in F. destruct F as [F1 F2]. apply Z.leb_le in F1. apply Z.ltb_lt in F2.
    assert (v = z mod 2 ^ n) by congruence. subst v. rewrite mod_half by lia. clear H.
    destruct (z <? 0) eqn:K; [apply Z.ltb_lt in K|apply Z.ltb_ge in K].
    + split; [apply andb_true_intro; split; [apply Z.leb_le|apply Z.ltb_lt]; lia|]. destruct (z + 2 ^ n <? 2 ^ (n - 1)) eqn:Q; [apply Z.ltb_lt in Q; lia|lia].
    + split; [apply andb_true_intro; split; [apply Z.leb_le|apply Z.ltb_lt]; lia|]. destruct (z <? 2 ^ (n - 1)) eqn:Q; [reflexivity|apply Z.ltb_ge in Q; lia].
Qed.

Lemma L_C49_forth_and_back : forall t z, (forall n, t = UInt n -> 1 <= n) -> uty t = t -> fits t z = true ->
  fits (sty t) (to_signed t z) = true /\ to_unsigned (sty t) (to_signed t z) = Ok z.
Proof.
  intros t z Hn S F. destruct t as [| |n|n]; try discriminate; cbn [to_unsigned sty to_signed fits] in *.
  - apply Z.leb_le in F. destruct (z <? 0) eqn:E; [apply Z.ltb_lt in E; lia|auto].
  - specialize (Hn n eq_refl). destruct (pow_half n Hn) as [E P]. apply andb_prop in F. destruct F as [F1 F2]. apply Z.leb_le in F1. apply Z.ltb_lt in F2.
    destruct (z <? 2 ^ (n - 1)) eqn:K; [apply Z.ltb_lt in K|apply Z.ltb_ge in K].
    + split; [apply andb_true_intro; split; [apply Z.leb_le|apply Z.ltb_lt]; lia|]. rewrite Z.mod_small by lia. reflexivity.
    + split; [apply andb_true_intro; split; [apply Z.leb_le|apply Z.ltb_lt]; lia|]. rewrite mod_half by lia.
      destruct (z - 2 ^ n <? 0) eqn:Q; [f_equal; lia|apply Z.ltb_ge in Q; lia].
Qed.

Lemma L_C49_no_silent_change_partial : forall z v, (to_unsigned BigI z = Ok v -> v = z /\ 0 <= z) /\ (z < 0 -> to_unsigned BigI z = Panic PUnwrap) /\ to_signed BigU z = z.
Proof.
  intros z v. cbn [to_unsigned to_signed]. destruct (z <? 0) eqn:E; [apply Z.ltb_lt in E|apply Z.ltb_ge in E].
  - split; [discriminate|auto].
  - split; [intros H; inversion H; subst; auto|]. split; [lia|reflexivity].
Qed.

Lemma L_C49_unsigned_refuted : forall n, 1 <= n -> exists z v, fits (SInt n) z = true /\ to_unsigned (SInt n) z = Ok v /\ v <> z.
Proof.
  intros n Hn. destruct (pow_half n Hn) as [E P]. exists (-1), (2 ^ n - 1). split; [|split; [|lia]].
  - cbn [fits]. apply andb_true_intro; split; [apply Z.leb_le|apply Z.ltb_lt]; lia.
  - cbn [to_unsigned]. rewrite mod_half by lia. f_equal. change (-1 <? 0) with true. cbv iota. lia.
Qed.

Lemma L_C49_signed_refuted : forall n, 1 <= n -> exists z, fits (UInt n) z = true /\ to_signed (UInt n) z <> z.
Proof.
  intros n Hn. destruct (pow_half n Hn) as [E P]. exists (2 ^ n - 1). split.
  - cbn [fits]. apply andb_true_intro; split; [apply Z.leb_le|apply Z.ltb_lt]; lia.
  - cbn [to_signed]. destruct (2 ^ n - 1 <? 2 ^ (n - 1)) eqn:Q; [apply Z.ltb_lt in Q; lia|lia].
Qed.
