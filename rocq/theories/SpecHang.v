(** * SpecHang: the surds on which the conversion to a continued fraction never returns. *)

From Coq Require Import ZArith Reals List.
From Verif Require Import Base Ext ModelSurd Spec SpecCF.
Import ListNotations.
Open Scope Z_scope.

(** [a0; a1, ..., ak, w]: coefficients followed by a complete quotient *)
Fixpoint followed_by (l : list Z) (w : R) : R :=
  match l with
  | nil => w
  | a :: l => (IZR a + / followed_by l w)%R
  end.

(** The number the loop works on: the absolute value, except that it is that of the conjugate for numbers between 0
    and their conjugate whose norm is not divisible by c (see C34_value) *)
Definition loop_number (s : surd) (x xc w : R) : Prop :=
  (between0 x xc /\ ~ norm_divisible s /\ w = Rabs xc) \/ (~ (between0 x xc /\ ~ norm_divisible s) /\ w = Rabs x).

(** With D and n as in [may_hang]: the number is [a0; a1, ..., ak, -(n + sqrt D)/m] for some usual coefficients a0, ..., ak *)
Definition trapped (s : surd) (w : R) : Prop :=
  exists D m m' a0 l,
    (norm_divisible s /\ D = c1 (coeffs s) * c1 (coeffs s) * discr s \/
     ~ norm_divisible s /\ D = c1 (coeffs s) * c1 (coeffs s) * discr s * c2 (coeffs s) * c2 (coeffs s)) /\
    0 < m /\ 0 < m' /\ D = Z.sqrt D * Z.sqrt D + m * m' /\ (m | 2 * Z.sqrt D) /\ (m' | 2 * Z.sqrt D) /\
    List.Forall (fun a => 1 <= a) l /\ (l <> nil -> 2 <= last l 0) /\
    w = followed_by (a0 :: l) (- ((IZR (Z.sqrt D) + sqrt (IZR D)) / IZR m)).
