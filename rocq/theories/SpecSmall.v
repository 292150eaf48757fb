(** * SpecSmall: operands with small components. *)

From Coq Require Import ZArith.
From Verif Require Import Base Ext ModelSurd ModelInt.
Open Scope Z_scope.

(** No component exceeds [K] in absolute value *)
Definition small (K : Z) (s : surd) : Prop :=
  Z.abs (c0 (coeffs s)) <= K /\ Z.abs (c1 (coeffs s)) <= K /\ Z.abs (c2 (coeffs s)) <= K /\ Z.abs (discr s) <= K.
Definition small_ratio (K : Z) (q : ratio) : Prop := Z.abs (numer q) <= K /\ Z.abs (denom q) <= K.
Definition small_qco (K : Z) (x : qco) : Prop := Z.abs (q0 x) <= K /\ Z.abs (q1 x) <= K.
Definition small_qint (K : Z) (x : qint) : Prop := small_qco K (qcoeffs x) /\ Z.abs (qdiscr x) <= K.

(** Two quadratic integers over one root, or one of them stored as a plain integer *)
Definition one_root (x y : qint) : Prop := qdiscr x = qdiscr y \/ qdiscr x = 0 \/ qdiscr y = 0.
