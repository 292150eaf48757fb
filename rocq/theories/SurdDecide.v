(** * SurdDecide: a decision procedure for the normal form, used by the examples. *)

From Coq Require Import ZArith Bool Lia.
From Verif Require Import Base ModelSurd Spec NumFacts.
Open Scope Z_scope.

Definition nonsquareb (r : Z) : bool := (r <? 0) || negb (Z.sqrt r * Z.sqrt r =? r).
Lemma nonsquareb_ok r : nonsquareb r = true -> ~ square r.
Proof.
  unfold nonsquareb. intros H. apply orb_prop in H. destruct H as [H|H].
  - apply Z.ltb_lt in H. apply not_square_neg. auto.
  - apply negb_true_iff, Z.eqb_neq in H. intros S. apply H.
    apply sqrt_square_iff; auto. destruct S as [k ->]. nia.
Qed.

Definition normalb (g : cfg) (s : surd) : bool :=
  let '(a, b, c, r) := parts s in
  (0 <? c) && (Z.gcd (Z.gcd a b) c =? 1) &&
  (((b =? 0) && (r =? 0)) || (negb (b =? 0) && nonsquareb r)) && (cplx g || (0 <=? r)).

Lemma normalb_ok g s : normalb g s = true -> normal g s.
Proof.
  unfold normalb, normal. destruct (parts s) as [[[a b] c] r].
  rewrite !andb_true_iff, !orb_true_iff, !andb_true_iff, negb_true_iff.
  intros [[[H1 H2] H3] H4]. apply Z.ltb_lt in H1. apply Z.eqb_eq in H2.
  split; [auto|]. split; [auto|]. split.
  - destruct H3 as [[X Y]|[X Y]]; [left; apply Z.eqb_eq in X, Y; auto|right].
    apply Z.eqb_neq in X. split; auto. apply nonsquareb_ok; auto.
  - intros G. rewrite G in H4. destruct H4; [discriminate|]. apply Z.leb_le; auto.
Qed.

(** Closes a conjunction of computations and normal-form facts about concrete surds. *)
Ltac check :=
  repeat match goal with |- _ /\ _ => split end;
  first [apply normalb_ok; vm_compute; reflexivity | vm_compute; reflexivity].
