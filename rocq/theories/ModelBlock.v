(** * ModelBlock: model of /repo/src/cont_frac/block.rs, and generic iterator drivers. *)

From Coq Require Import ZArith Bool List.
From Verif Require Import Base Ext.
Import ListNotations.
Open Scope Z_scope.

(** ** Driving an iterator

    A Rust iterator is a state and a [next] function.  [take] is
    [Iterator::take(n).collect()], [nth_item] is [Iterator::nth] and [last_item]
    is [Iterator::last] (with fuel, as the iterator may be infinite). *)
Section Iter.
Context {S A : Type} (next : S -> res (option A * S)).

Fixpoint take (n : nat) (s : S) : res (list A) :=
  match n with
  | O => Ok nil
  | Datatypes.S n =>
    let! (o, s) := next s in
    match o with
    | None => Ok nil
    | Some x => let! l := take n s in Ok (x :: l)
    end
  end.

Fixpoint nth_item (n : nat) (s : S) : res (option A) :=
  let! (o, s) := next s in
  match n, o with
  | _, None => Ok None
  | O, Some x => Ok (Some x)
  | Datatypes.S n, Some _ => nth_item n s
  end.

Fixpoint last_item (fuel : nat) (acc : option A) (s : S) : res (option A) :=
  match fuel with
  | O => Hang
  | Datatypes.S fuel =>
    let! (o, s) := next s in
    match o with
    | None => Ok acc
    | Some x => last_item fuel (Some x) s
    end
  end.
End Iter.

(** An iterator over a finite list: [vec.into_iter()] *)
Definition list_next {A : Type} (l : list A) : res (option A * list A) :=
  match l with nil => Ok (None, nil) | x :: l => Ok (Some x, l) end.

(** block.rs:7-13 *)
Record block := Block { pm1 : Z; pm2 : Z; qm1 : Z; qm2 : Z }.

(** block.rs:16-24  new *)
Definition block_new (a b c d : Z) : block := Block a b c d.
(** block.rs:26-30  update *)
Definition block_update (k : block) (p q : Z) : block := Block p (pm1 k) q (qm1 k).
(** block.rs:34-42  identity *)
Definition block_identity : block := Block 1 0 0 1.

Section Block.
Context (t : ity).
Local Notation "x ⊕ y" := (lift2 (addT t) x y) (at level 50, left associativity).
Local Notation "x ⊗ y" := (lift2 (mulT t) x y) (at level 40, left associativity).
Local Notation "x ⊘ y" := (lift2 (quotT t) x y) (at level 40, left associativity).
Local Notation "# x" := (@Ok Z x) (at level 5, format "# x").

(** block.rs:49-54 *)
Definition block_rmove (k : block) (a : Z) : res block :=
  let! p := #a ⊗ #(pm1 k) ⊕ #(pm2 k) in
  let! q := #a ⊗ #(qm1 k) ⊕ #(qm2 k) in
  Ok (block_update k p q).

(** block.rs:56-69 *)
Definition block_gmove (k : block) (a b : Z) : res block :=
  let! p := #(pm1 k) ⊗ #b ⊕ #(pm2 k) ⊗ #a in
  let! q := #(qm1 k) ⊗ #b ⊕ #(qm2 k) ⊗ #a in
  let! g := gcdT t p q in
  let! g := gcdT t g (pm1 k) in
  let! g := gcdT t g (qm1 k) in
  if 1 <? g then
    let! x := #(pm1 k) ⊘ #g in
    let! y := #(qm1 k) ⊘ #g in
    let! p := #p ⊘ #g in
    let! q := #q ⊘ #g in
    Ok (block_update (Block x (pm2 k) y (qm2 k)) p q)
  else Ok (block_update k p q).

(** block.rs:71-87 *)
Definition block_check_integer (k : block) : res (option (Z * Z * Z)) :=
  if (qm1 k =? 0) || (qm2 k =? 0) then Ok None
  else
    let! (im1, rm1) := div_remT t (pm1 k) (qm1 k) in
    let! (im2, rm2) := div_remT t (pm2 k) (qm2 k) in
    Ok (if im1 =? im2 then Some (im1, rm1, rm2) else None).

(** block.rs:89-101 *)
Definition block_reduce_recip (k : block) : res (option Z * block) :=
  let! o := block_check_integer k in
  match o with
  | Some (i, rm1, rm2) => Ok (Some i, Block (qm1 k) (qm2 k) rm1 rm2)
  | None => Ok (None, k)
  end.

(** block.rs:103-115 *)
Definition block_reduce_mul (k : block) (base : Z) : res (option Z * block) :=
  let! o := block_check_integer k in
  match o with
  | Some (i, rm1, rm2) =>
    let! x := #rm1 ⊗ #base in
    let! y := #rm2 ⊗ #base in
    Ok (Some i, Block x y (qm1 k) (qm2 k))
  | None => Ok (None, k)
  end.

(** Option::and_then / [?] *)
Definition obind {A B : Type} (o : option A) (f : A -> option B) : option B :=
  match o with Some x => f x | None => None end.

(** block.rs:119-128; the block itself is unchanged *)
Definition block_checked_rmove (k : block) (a : Z) : option (Z * Z) :=
  obind (obind (checked_mul t a (pm1 k)) (fun v => checked_add t v (pm2 k))) (fun p =>
  obind (obind (checked_mul t a (qm1 k)) (fun v => checked_add t v (qm2 k))) (fun q =>
  Some (p, q))).

(** block.rs:135-152: returns the new convergent and the (possibly rescaled) block *)
Definition block_checked_gmove (k : block) (a b : Z) : res (option (Z * Z) * block) :=
  let o :=
    obind (checked_mul t b (pm1 k)) (fun bpm1 =>
    obind (checked_mul t a (pm2 k)) (fun apm2 =>
    obind (checked_add t bpm1 apm2) (fun p =>
    obind (checked_mul t b (qm1 k)) (fun bqm1 =>
    obind (checked_mul t a (qm2 k)) (fun aqm2 =>
    obind (checked_add t bqm1 aqm2) (fun q => Some (p, q))))))) in
  match o with
  | None => Ok (None, k)
  | Some (p, q) =>
    let! g := gcdT t p q in
    let! g := gcdT t g (pm1 k) in
    let! g := gcdT t g (qm1 k) in
    if 1 <? g then
      let! x := #(pm1 k) ⊘ #g in
      let! y := #(qm1 k) ⊘ #g in
      let! p := #p ⊘ #g in
      let! q := #q ⊘ #g in
      Ok (Some (p, q), Block x (pm2 k) y (qm2 k))
    else Ok (Some (p, q), k)
  end.

End Block.

(** block.rs:155-167 *)
Record dblock := DBlock {
  pm11 : Z; pm12 : Z; pm21 : Z; pm22 : Z;
  qm11 : Z; qm12 : Z; qm21 : Z; qm22 : Z }.

(** block.rs:184-191  update_right.  Line 190 reads
    [self.qm22 = replace(&mut self.qm22, q2)]: it stores the old qm22 back into
    qm22, so that qm22 and qm12 are left unchanged and q2 is dropped. *)
Definition dblock_update_right (k : dblock) (p1 q1 p2 q2 : Z) : dblock :=
  DBlock p1 p2 (pm11 k) (pm12 k) q1 (qm12 k) (qm11 k) (qm22 k).

(** block.rs:193-200  update_down *)
Definition dblock_update_down (k : dblock) (p1 q1 p2 q2 : Z) : dblock :=
  DBlock p1 (pm11 k) p2 (pm21 k) q1 (qm11 k) q2 (qm21 k).

Section DBlock.
Context (t : ity).
Local Notation "x ⊕ y" := (lift2 (addT t) x y) (at level 50, left associativity).
Local Notation "x ⊗ y" := (lift2 (mulT t) x y) (at level 40, left associativity).
Local Notation "# x" := (@Ok Z x) (at level 5, format "# x").

(** block.rs:207-214 *)
Definition dblock_rmove_right (k : dblock) (a : Z) : res dblock :=
  let! p1 := #a ⊗ #(pm11 k) ⊕ #(pm21 k) in
  let! q1 := #a ⊗ #(qm11 k) ⊕ #(qm21 k) in
  let! p2 := #a ⊗ #(pm12 k) ⊕ #(pm22 k) in
  let! q2 := #a ⊗ #(qm12 k) ⊕ #(qm22 k) in
  Ok (dblock_update_right k p1 q1 p2 q2).

(** block.rs:216-223 *)
Definition dblock_rmove_down (k : dblock) (a : Z) : res dblock :=
  let! p1 := #a ⊗ #(pm11 k) ⊕ #(pm12 k) in
  let! q1 := #a ⊗ #(qm11 k) ⊕ #(qm12 k) in
  let! p2 := #a ⊗ #(pm21 k) ⊕ #(pm22 k) in
  let! q2 := #a ⊗ #(qm21 k) ⊕ #(qm22 k) in
  Ok (dblock_update_down k p1 q1 p2 q2).

(** block.rs:225-248: [inl] is Ok(..), [inr (right, down)] is Err((right, down)) *)
Definition dblock_check_integer (k : dblock) : res ((Z * (Z * Z * Z * Z)) + (bool * bool)) :=
  if qm22 k =? 0 then Ok (inr (qm21 k =? 0, qm12 k =? 0))
  else if qm11 k =? 0 then Ok (inr (qm12 k =? 0, qm21 k =? 0))
  else
    let! (i11, r11) := div_remT t (pm11 k) (qm11 k) in
    let! (i12, r12) := div_remT t (pm12 k) (qm12 k) in
    let! (i21, r21) := div_remT t (pm21 k) (qm21 k) in
    let! (i22, r22) := div_remT t (pm22 k) (qm22 k) in
    Ok (if (i11 =? i12) && (i11 =? i21) && (i11 =? i22)
        then inl (i11, (r11, r12, r21, r22))
        else inr (negb (i11 =? i12) || negb (i21 =? i22),
                  negb (i11 =? i21) || negb (i12 =? i22))).

(** block.rs:250-263 *)
Definition dblock_reduce_recip (k : dblock) : res ((Z + (bool * bool)) * dblock) :=
  let! o := dblock_check_integer k in
  match o with
  | inl (i, (r11, r12, r21, r22)) =>
    Ok (inl i, DBlock (qm11 k) (qm12 k) (qm21 k) (qm22 k) r11 r12 r21 r22)
  | inr f => Ok (inr f, k)
  end.
End DBlock.
