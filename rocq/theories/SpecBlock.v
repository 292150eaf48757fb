(** * SpecBlock: what the coefficient blocks of cont_frac/block.rs stand for. *)

From Coq Require Import ZArith Reals.
From Verif Require Import ModelBlock.

(** A block stands for the map x |-> (pm1 x + pm2) / (qm1 x + qm2) *)
Definition bnum (k : block) (x : R) : R := (IZR (pm1 k) * x + IZR (pm2 k))%R.
Definition bden (k : block) (x : R) : R := (IZR (qm1 k) * x + IZR (qm2 k))%R.
Definition mobius (k : block) (x : R) : R := (bnum k x / bden k x)%R.

(** A dual block stands for the map
    (x, y) |-> (pm11 xy + pm12 x + pm21 y + pm22) / (qm11 xy + qm12 x + qm21 y + qm22) *)
Definition dbnum (k : dblock) (x y : R) : R :=
  (IZR (pm11 k) * (x * y) + IZR (pm12 k) * x + IZR (pm21 k) * y + IZR (pm22 k))%R.
Definition dbden (k : dblock) (x y : R) : R :=
  (IZR (qm11 k) * (x * y) + IZR (qm12 k) * x + IZR (qm21 k) * y + IZR (qm22 k))%R.
Definition bimobius (k : dblock) (x y : R) : R := (dbnum k x y / dbden k x y)%R.
