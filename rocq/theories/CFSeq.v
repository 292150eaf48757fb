(** * CFSeq: continued fractions as coefficient sequences. *)

From Coq Require Import ZArith Znumtheory Reals Lia Lra Bool List Arith.
From Coquelicot Require Import Coquelicot.
From Verif Require Import Base Ext ModelBlock ModelCF Spec SpecCF NumFacts CFCore.
Import ListNotations.
Open Scope Z_scope.

(** ** Lists repeated *)
Lemma concat_repeat_len (p : list Z) n : length (concat (repeat p n)) = (n * length p)%nat.
Proof. induction n as [|n IH]; [reflexivity|]. cbn [repeat concat]. rewrite app_length, IH. reflexivity. Qed.
Lemma concat_repeat_app (p : list Z) n m : concat (repeat p (n + m)) = concat (repeat p n) ++ concat (repeat p m).
Proof. rewrite repeat_app, concat_app. reflexivity. Qed.
Lemma concat_repeat_nil n : concat (repeat (@nil Z) n) = nil.
Proof. induction n as [|n IH]; [reflexivity|]. exact IH. Qed.

Lemma nth_stable (l p : list Z) k n m : (k < n)%nat -> (n <= m)%nat ->
  nth_error (l ++ concat (repeat p n)) k = nth_error (l ++ concat (repeat p m)) k.
Proof.
  intros Hk Hm. destruct p as [|v p]; [rewrite !concat_repeat_nil; reflexivity|].
  replace m with (n + (m - n))%nat by lia. rewrite concat_repeat_app, app_assoc.
  symmetry. apply nth_error_app1. rewrite app_length, concat_repeat_len. cbn [length]. nia.
Qed.

(** the coefficients, continued with 1 after the end of a finite fraction *)
Definition cseq (x : cf) (n : nat) : Z := match coeff_at x n with Some v => v | None => 1 end.

Lemma coeff_at_lt x k n : (k < n)%nat -> coeff_at x k = nth_error (a_coeffs x ++ concat (repeat (p_coeffs x) n)) k.
Proof. intros H. unfold coeff_at. apply nth_stable; lia. Qed.
Lemma coeff_at_a x k : (k < length (a_coeffs x))%nat -> coeff_at x k = nth_error (a_coeffs x) k.
Proof. intros H. unfold coeff_at. apply nth_error_app1. auto. Qed.
Lemma coeff_at_p x k : (length (a_coeffs x) <= k)%nat ->
  coeff_at x k = nth_error (concat (repeat (p_coeffs x) (S k))) (k - length (a_coeffs x)).
Proof. intros H. unfold coeff_at. apply nth_error_app2. auto. Qed.
Lemma coeff_at_fin x k : finite x -> coeff_at x k = nth_error (a_coeffs x) k.
Proof. intros H. unfold coeff_at, finite in *. rewrite H, concat_repeat_nil, app_nil_r. reflexivity. Qed.
Lemma coeff_at_inf x k : ~ finite x -> exists v, coeff_at x k = Some v.
Proof.
  intros H. unfold coeff_at. destruct (nth_error _ k) eqn:E; [eauto|]. apply nth_error_None in E.
  rewrite app_length, concat_repeat_len in E. unfold finite in H. destruct (p_coeffs x) as [|v p]; [congruence|]. cbn [length] in E. nia.
Qed.
(** is there a coefficient number k *)
Definition has (x : cf) (k : nat) : Prop := finite x -> (k < length (a_coeffs x))%nat.
Lemma has_some x k : has x k -> coeff_at x k = Some (cseq x k).
Proof.
  unfold cseq, has. destruct (coeff_at x k) eqn:E; [auto|]. intros H. exfalso.
  destruct (p_coeffs x) eqn:P.
  - assert (F : finite x) by exact P. rewrite coeff_at_fin in E by auto. apply nth_error_None in E. specialize (H F). lia.
  - destruct (coeff_at_inf x k) as [v V]; [|congruence]. unfold finite. congruence.
Qed.
Lemma has_le x k j : has x k -> (j <= k)%nat -> has x j.
Proof. unfold has. intros H L F. specialize (H F). lia. Qed.
Lemma has_none x k : coeff_at x k = None <-> finite x /\ (length (a_coeffs x) <= k)%nat.
Proof.
  split.
  - intros E. destruct (p_coeffs x) eqn:P.
    + assert (F : finite x) by exact P. split; [auto|]. rewrite coeff_at_fin in E by auto. apply nth_error_None in E. auto.
    + destruct (coeff_at_inf x k) as [v V]; [unfold finite; congruence|congruence].
  - intros [F L]. rewrite coeff_at_fin by auto. apply nth_error_None. auto.
Qed.
Lemma has_dec x k : has x k \/ coeff_at x k = None.
Proof.
  destruct (coeff_at x k) eqn:E; [left|auto]. intros F. destruct (lt_dec k (length (a_coeffs x))); [auto|].
  exfalso. assert (coeff_at x k = None) by (apply has_none; split; [auto|lia]). congruence.
Qed.

Lemma first_coeffs_seq x n : has x (pred n) -> first_coeffs x n = map (cseq x) (seq 0 n).
Proof.
  intros H. apply nth_error_ext || idtac.
  assert (G : forall k, nth_error (first_coeffs x n) k = nth_error (map (cseq x) (seq 0 n)) k).
  { intros k. unfold first_coeffs. destruct (lt_dec k n) as [L|L].
    - rewrite nth_error_map. assert (nth_error (seq 0 n) k = Some k) as ->.
      { rewrite (nth_error_nth' _ 0%nat) by (rewrite seq_length; auto). rewrite seq_nth by auto. reflexivity. }
      cbn [option_map]. rewrite <- (has_some x k) by (apply (has_le _ _ _ H); lia). rewrite (coeff_at_lt x k n L).
      rewrite <- (firstn_skipn n (a_coeffs x ++ concat (repeat (p_coeffs x) n))) at 2.
      destruct (lt_dec k (length (firstn n (a_coeffs x ++ concat (repeat (p_coeffs x) n))))) as [K|K].
      + rewrite nth_error_app1; auto.
      + exfalso. rewrite firstn_length, app_length, concat_repeat_len in K. unfold has, finite in H.
        destruct (p_coeffs x) as [|v p] eqn:P; [specialize (H eq_refl); cbn [length] in K; nia|cbn [length] in K; nia].
    - rewrite (proj2 (nth_error_None _ _)), (proj2 (nth_error_None _ _)); [reflexivity| |].
      + rewrite map_length, seq_length. lia.
      + rewrite firstn_length. lia. }
  clear H. revert G. generalize (first_coeffs x n) (map (cseq x) (seq 0 n)). clear.
  intros l l'. revert l'. induction l as [|v l IH]; intros [|v' l'] G.
  - reflexivity.
  - specialize (G 0%nat). discriminate.
  - specialize (G 0%nat). discriminate.
  - f_equal; [specialize (G 0%nat); cbn in G; congruence|]. apply IH. intros k. apply (G (S k)).
Qed.

Lemma cfl_cons a l : l <> nil -> cfl (a :: l) = (IZR a + / cfl l)%R.
Proof. destruct l; [congruence|reflexivity]. Qed.
Lemma cfl_map_seq f m n : cfl (map f (seq m (S n))) = cut (fun k => f (m + k)%nat) n.
Proof.
  revert m. induction n as [|n IH]; intros m.
  - cbn. unfold cut. cbn [ev]. rewrite Nat.add_0_r. reflexivity.
  - change (seq m (S (S n))) with (m :: seq (S m) (S n)). cbn [map]. rewrite cfl_cons by discriminate.
    rewrite IH, cut_S. rewrite Nat.add_0_r. f_equal. f_equal. apply cut_ext. intros k. unfold shift. f_equal. lia.
Qed.
Lemma first_coeffs_cut x n : has x n -> cfl (first_coeffs x (S n)) = cut (cseq x) n.
Proof. intros H. rewrite first_coeffs_seq by auto. rewrite cfl_map_seq. reflexivity. Qed.

(** ** Well-formed fractions *)
Lemma wfcf_in x k v : wfcf x -> coeff_at x k = Some v -> 0 <= v /\ ((0 < k)%nat -> 1 <= v).
Proof.
  unfold wfcf, coeff_at. destruct (a_coeffs x) as [|a0 l] eqn:A; [tauto|]. intros (H0 & HA & HP) E.
  destruct k as [|k]; [inversion E; subst; split; [auto|lia]|]. cbn [app nth_error] in E. apply nth_error_In in E.
  apply in_app_or in E. rewrite List.Forall_forall in HA, HP. assert (1 <= v); [|lia]. destruct E as [E|E]; [auto|].
  apply in_concat in E. destruct E as (q & E1 & E2). apply repeat_spec in E1. subst. auto.
Qed.
Lemma wfcf_cpos x : wfcf x -> cpos (cseq x).
Proof.
  intros H. split; [|intros n]; unfold cseq.
  - destruct (coeff_at x 0) eqn:E; [|lia]. apply (wfcf_in x 0 z H E).
  - destruct (coeff_at x (S n)) eqn:E; [|lia]. apply (wfcf_in x (S n) z H E). lia.
Qed.
Lemma wfcf_has0 x : wfcf x -> has x 0.
Proof. unfold wfcf, has. destruct (a_coeffs x); [tauto|]. cbn [length]. intros. lia. Qed.

Definition lena (x : cf) := length (a_coeffs x).
Lemma cf_val_fin x : wfcf x -> finite x -> cf_val x = (IZR (sgnb (negative x)) * cut (cseq x) (pred (lena x)))%R.
Proof.
  intros H F. unfold cf_val. pose proof F as F'. unfold finite in F'. rewrite F'. f_equal.
  rewrite <- first_coeffs_cut.
  - unfold first_coeffs, lena. rewrite F', concat_repeat_nil, app_nil_r.
    unfold wfcf in H. destruct (a_coeffs x); [tauto|]. cbn [pred length]. rewrite firstn_all2; [reflexivity|]. cbn [length]. lia.
  - intros _. unfold lena. unfold wfcf in H. destruct (a_coeffs x); [tauto|]. cbn [length]. lia.
Qed.
Lemma inf_has x k : ~ finite x -> has x k.
Proof. intros H F. contradiction. Qed.
Lemma cf_val_inf x : ~ finite x -> cf_val x = (IZR (sgnb (negative x)) * lim (cseq x))%R.
Proof.
  intros F. unfold cf_val. unfold finite in F. destruct (p_coeffs x) eqn:P; [congruence|]. f_equal. unfold lim. f_equal.
  apply Lim_seq_ext. intros n. apply first_coeffs_cut. apply inf_has. unfold finite. congruence.
Qed.

(** ** The periodic part *)
Definition pseq (p : list Z) (k : nat) : Z := nth k (concat (repeat p (S k))) 1.
Lemma pseq_period p k : p <> nil -> pseq p (length p + k) = pseq p k.
Proof.
  intros H. unfold pseq.
  assert (R1 : concat (repeat p (S (length p + k))) = p ++ concat (repeat p (length p + k))) by reflexivity. rewrite R1.
  rewrite app_nth2 by lia. replace (length p + k - length p)%nat with k by lia.
  pose proof (nth_stable nil p k (S k) (length p + k)) as N. cbn [app] in N.
  assert (length p <> 0)%nat by (destruct p; [congruence|discriminate]).
  rewrite (nth_error_nth' _ 1), (nth_error_nth' _ 1) in N by (rewrite concat_repeat_len; nia).
  assert (N' := N ltac:(lia) ltac:(lia)). congruence.
Qed.
Lemma pseq_nth p k : (k < length p)%nat -> pseq p k = nth k p 1.
Proof. intros H. unfold pseq. cbn [repeat concat]. apply app_nth1. auto. Qed.
Lemma cseq_a x k : (k < lena x)%nat -> cseq x k = nth k (a_coeffs x) 1.
Proof. intros H. unfold cseq. rewrite coeff_at_a by auto. rewrite (nth_error_nth' _ 1) by auto. reflexivity. Qed.
Lemma cseq_p x k : ~ finite x -> cseq x (lena x + k) = pseq (p_coeffs x) k.
Proof.
  intros F. unfold cseq. destruct (coeff_at_inf x (lena x + k) F) as [v E]. rewrite E.
  rewrite coeff_at_p in E by (unfold lena; lia). replace (lena x + k - length (a_coeffs x))%nat with k in E by (unfold lena; lia).
  pose proof (nth_stable nil (p_coeffs x) k (S k) (S (lena x + k)) ltac:(lia) ltac:(lia)) as N. cbn [app] in N. rewrite <- N in E.
  unfold pseq. symmetry. apply nth_error_nth. auto.
Qed.
Lemma cseq_periodic x k : ~ finite x -> cseq x (lena x + (length (p_coeffs x) + k)) = cseq x (lena x + k).
Proof. intros F. rewrite !cseq_p by auto. apply pseq_period. exact F. Qed.
Lemma finite_dec x : finite x \/ ~ finite x.
Proof. unfold finite. destruct (p_coeffs x); [left; reflexivity|right; discriminate]. Qed.
