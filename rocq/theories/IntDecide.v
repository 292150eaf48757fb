(** * IntDecide: a decision procedure for well-formedness, used by the examples. *)

From Coq Require Import ZArith Bool Lia.
From Verif Require Import Base ModelSurd ModelInt Spec SpecInt NumFacts SurdDecide.
Open Scope Z_scope.

Definition good_rootb (g : cfg) (d : Z) : bool :=
  nonsquareb d && negb (d mod 4 =? 0) && (cplx g || (0 <=? d)).
Lemma good_rootb_ok g d : good_rootb g d = true -> good_root g d.
Proof.
  unfold good_rootb. rewrite !andb_true_iff, negb_true_iff, orb_true_iff. intros [[A B] C].
  split; [apply nonsquareb_ok; auto|]. split; [apply Z.eqb_neq; auto|]. intros X. rewrite X in C.
  destruct C as [C|C]; [discriminate|]. apply Z.leb_le; auto.
Qed.
Definition wfqb (g : cfg) (x : qint) : bool :=
  ((q1 (qcoeffs x) =? 0) && (qdiscr x =? 0)) || good_rootb g (qdiscr x).
Lemma wfqb_ok g x : wfqb g x = true -> wfq g x.
Proof.
  unfold wfqb. intros H. apply orb_prop in H. destruct H as [H|H]; [left|right; apply good_rootb_ok; auto].
  apply andb_prop in H. destruct H as [A B]. apply Z.eqb_eq in A, B. auto.
Qed.

(** Closes a conjunction of computations and well-formedness facts about concrete numbers. *)
Ltac qcheck :=
  repeat match goal with |- _ /\ _ => split end;
  first [apply wfqb_ok; vm_compute; reflexivity | apply good_rootb_ok; vm_compute; reflexivity | vm_compute; reflexivity
        | vm_compute; discriminate].
