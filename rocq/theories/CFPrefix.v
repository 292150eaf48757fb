(** * CFPrefix: the continued fraction of a convergent is a beginning of the fraction it came from. *)

From Coq Require Import ZArith Reals Lia Lra Bool List Arith.
From Coquelicot Require Import Coquelicot.
From Verif Require Import Base Ext ModelBlock ModelSurd ModelCF Spec SpecCF NumFacts RatioFacts CFCore CFSeq CFIter CFBasic CFNew CFSigned ClaimsCF.
Import ListNotations.
Open Scope Z_scope.

Lemma cpos_tail x k : wfcf x -> (1 <= k)%nat -> coeff_at x k <> None -> 1 <= cseq x k.
Proof.
  intros W Hk H. unfold cseq. destruct (coeff_at x k) as [v|] eqn:E; [|contradiction]. unfold coeff_at in E. unfold wfcf in W.
  destruct (a_coeffs x) as [|a0 l]; [contradiction|]. destruct W as (_ & Fl & Fp). destruct k as [|k]; [lia|]. cbn [app nth_error] in E.
  apply nth_error_In in E. apply in_app_or in E. destruct E as [E|E].
  - rewrite Forall_forall in Fl. auto.
  - apply in_concat in E. destruct E as (p & Hp & E). apply repeat_spec in Hp. subst p. rewrite Forall_forall in Fp. auto.
Qed.

Lemma prefix_wf x n : wfcf x -> coeff_at x n <> None -> exists a l, first_coeffs x (S n) = a :: l /\ 0 <= a /\ List.Forall (fun v => 1 <= v) l /\ length l = n.
Proof.
  intros W H. assert (Hh : has x n) by (destruct (has_dec x n); [auto|contradiction]). rewrite first_coeffs_seq by (cbn [pred]; auto).
  cbn [seq map]. eexists _, _. split; [reflexivity|]. split; [|split].
  - unfold cseq, coeff_at. unfold wfcf in W. destruct (a_coeffs x) as [|a0 l]; [contradiction|]. cbn. lia.
  - apply Forall_forall. intros v Hv. apply in_map_iff in Hv. destruct Hv as (k & <- & Hk). apply in_seq in Hk. apply cpos_tail; auto; [lia|].
    rewrite has_some; [discriminate|]. apply (has_le x n); auto. lia.
  - rewrite map_length, seq_length. auto.
Qed.

Lemma cfl_app2 l a : cfl (l ++ [a; 1]) = cfl (l ++ [a + 1]).
Proof.
  induction l as [|b l IH].
  - cbn [app cfl]. rewrite plus_IZR. field.
  - cbn [app]. rewrite !(cfl_cons b) by (destruct l; discriminate). rewrite IH. auto.
Qed.

Lemma wf_canonical a l b : 0 <= a -> List.Forall (fun v => 1 <= v) l -> l = nil \/ last l 0 <> 1 -> a :: l <> [0] -> canonical (CF (a :: l) nil b).
Proof.
  intros Ha Hl Hlast Hz. unfold canonical, wfcf. cbn [a_coeffs p_coeffs negative]. split; [split; [auto|split; auto]|]. split.
  - intros _ Hlen. destruct l as [|c l]; [cbn in Hlen; lia|]. destruct Hlast as [K|K]; [discriminate|]. exact K.
  - intros K. contradiction.
Qed.
Lemma zero_canonical : canonical (CF [0] nil false).
Proof. unfold canonical, wfcf. cbn. split; [split; [lia|split; constructor]|]. split; [intros; lia|auto]. Qed.

Lemma conv_at x n r : wfcf x -> nth_item (conv_next BigU) n (cf_convergents x) = Ok (Some r) -> coeff_at x n <> None /\ convergent x n r.
Proof.
  intros W H. destruct (L_C29_convergents x n W) as [A B]. destruct (coeff_at x n) as [v|] eqn:E; [|rewrite A in H by auto; discriminate].
  split; [discriminate|]. destruct (B ltac:(discriminate)) as (r' & E' & C). congruence.
Qed.

Section conv.
Variables (t : ity) (x : cf) (n : nat) (r : ratio) (y : cf).
Hypotheses (W : wfcf x) (Hc : coeff_at x n <> None) (Hr : convergent x n r) (Hy : cf_of_ratio t r = Ok y).

Lemma pre_val : canonical y /\ finite y /\ cf_val y = (IZR (sgnb (negative x)) * cfl (first_coeffs x (S n)))%R.
Proof. destruct Hr as [L V]. destruct (cf_of_ratio_ok t r y L Hy) as (C & F & E). rewrite E, V. auto. Qed.

Lemma pre_zero : first_coeffs x (S n) = [0] -> y = CF [0] nil false.
Proof.
  intros E. destruct pre_val as (C & F & V). rewrite E in V. cbn [cfl] in V. apply L_C30_unique; auto; [apply zero_canonical|reflexivity|].
  rewrite V. unfold cf_val. cbn. lra.
Qed.

Lemma pre_keep : first_coeffs x (S n) <> [0] -> n = 0%nat \/ last (first_coeffs x (S n)) 0 <> 1 -> y = CF (first_coeffs x (S n)) nil (negative x).
Proof.
  intros Hz Hl. destruct pre_val as (C & F & V). destruct (prefix_wf x n W Hc) as (a & l & E & Ha & Fl & Len). rewrite E in *.
  apply L_C30_unique; auto; [|reflexivity]. apply wf_canonical; auto.
  destruct l as [|c l]; [auto|]. right. destruct Hl as [->|Hl]; [discriminate|]. exact Hl.
Qed.

Lemma pre_merge l0 a : first_coeffs x (S n) = l0 ++ [a; 1] -> y = CF (l0 ++ [a + 1]) nil (negative x).
Proof.
  intros E. destruct pre_val as (C & F & V). destruct (prefix_wf x n W Hc) as (a' & l & E' & Ha & Fl & Len). rewrite E in *.
  rewrite cfl_app2 in V. apply L_C30_unique; auto; [|reflexivity].
  destruct l0 as [|b l0].
  - cbn [app] in *. injection E'; intros; subst. apply wf_canonical; auto; [lia|]. intros K; injection K; lia.
  - cbn [app] in *. injection E'; intros; subst. apply Forall_app in Fl. destruct Fl as [F1 F2]. inversion F2; subst.
    apply wf_canonical; auto.
    + apply Forall_app. split; auto. constructor; [lia|constructor].
    + right. rewrite last_last. lia.
    + destruct l0; discriminate.
Qed.

Lemma pre_collect g z : negative x = false -> fits t 1 = true -> List.Forall (fun v => fits t v = true) (first_coeffs x (S n)) ->
  cf_new g t (first_coeffs x (S n)) nil false = Ok z -> z = y.
Proof.
  intros Hn F1 Ff Hz. destruct pre_val as (C & F & V). rewrite Hn in V. destruct (prefix_wf x n W Hc) as (a & l & E & Ha & Fl & Len).
  destruct (L_C31_new_partial g t (first_coeffs x (S n)) nil false z F1) as (Cz & Pz & Vz); auto.
  - rewrite app_nil_r. auto.
  - rewrite E. unfold plain_coeffs. split; [constructor|]. destruct l as [|c l]; [tauto|]. inversion Fl; subst.
    split; [lia|]. split; [eapply Forall_impl; [|eassumption]; cbn; intros; lia|]. split; [|tauto].
    clear -Fl. revert c Fl. induction l as [|d l IH]; intros c Fl; [inversion Fl; auto|]. inversion Fl; subst. apply (IH d); auto.
  - apply L_C30_unique; auto. rewrite Vz, V. reflexivity.
Qed.
End conv.
