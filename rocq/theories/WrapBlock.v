(** * WrapBlock: the functions of ModelBlock.v with wrapping arithmetic (release builds).

    A copy of ModelBlock.v in which [+], [-], [*], unary minus, abs and gcd come from WrapBase.v: each
    definition [f_w] is the text of [f] with the names of the copied functions suffixed by [_w].
    Types and functions without integer arithmetic are shared with ModelBlock.v. *)

From Coq Require Import ZArith Bool List.
From Verif Require Import Base Ext ModelBlock WrapBase WrapExt.
Import ListNotations.
Open Scope Z_scope.

Section Block.
Context (t : ity).
Local Notation "x ⊕ y" := (lift2 (addT_w t) x y) (at level 50, left associativity).
Local Notation "x ⊗ y" := (lift2 (mulT_w t) x y) (at level 40, left associativity).
Local Notation "x ⊘ y" := (lift2 (quotT t) x y) (at level 40, left associativity).
Local Notation "# x" := (@Ok Z x) (at level 5, format "# x").
(** block.rs:49-54 *)
Definition block_rmove_w (k : block) (a : Z) : res block :=
  let! p := #a ⊗ #(pm1 k) ⊕ #(pm2 k) in
  let! q := #a ⊗ #(qm1 k) ⊕ #(qm2 k) in
  Ok (block_update k p q).

(** block.rs:56-69 *)
Definition block_gmove_w (k : block) (a b : Z) : res block :=
  let! p := #(pm1 k) ⊗ #b ⊕ #(pm2 k) ⊗ #a in
  let! q := #(qm1 k) ⊗ #b ⊕ #(qm2 k) ⊗ #a in
  let! g := gcdT_w t p q in
  let! g := gcdT_w t g (pm1 k) in
  let! g := gcdT_w t g (qm1 k) in
  if 1 <? g then
    let! x := #(pm1 k) ⊘ #g in
    let! y := #(qm1 k) ⊘ #g in
    let! p := #p ⊘ #g in
    let! q := #q ⊘ #g in
    Ok (block_update (Block x (pm2 k) y (qm2 k)) p q)
  else Ok (block_update k p q).

(** block.rs:71-87 *)
Definition block_check_integer_w (k : block) : res (option (Z * Z * Z)) :=
  if (qm1 k =? 0) || (qm2 k =? 0) then Ok None
  else
    let! (im1, rm1) := div_remT t (pm1 k) (qm1 k) in
    let! (im2, rm2) := div_remT t (pm2 k) (qm2 k) in
    Ok (if im1 =? im2 then Some (im1, rm1, rm2) else None).

(** block.rs:89-101 *)
Definition block_reduce_recip_w (k : block) : res (option Z * block) :=
  let! o := block_check_integer_w k in
  match o with
  | Some (i, rm1, rm2) => Ok (Some i, Block (qm1 k) (qm2 k) rm1 rm2)
  | None => Ok (None, k)
  end.

(** block.rs:103-115 *)
Definition block_reduce_mul_w (k : block) (base : Z) : res (option Z * block) :=
  let! o := block_check_integer_w k in
  match o with
  | Some (i, rm1, rm2) =>
    let! x := #rm1 ⊗ #base in
    let! y := #rm2 ⊗ #base in
    Ok (Some i, Block x y (qm1 k) (qm2 k))
  | None => Ok (None, k)
  end.

(** block.rs:119-128; the block itself is unchanged *)
Definition block_checked_rmove_w (k : block) (a : Z) : option (Z * Z) :=
  obind (obind (checked_mul t a (pm1 k)) (fun v => checked_add t v (pm2 k))) (fun p =>
  obind (obind (checked_mul t a (qm1 k)) (fun v => checked_add t v (qm2 k))) (fun q =>
  Some (p, q))).

(** block.rs:135-152: returns the new convergent and the (possibly rescaled) block *)
Definition block_checked_gmove_w (k : block) (a b : Z) : res (option (Z * Z) * block) :=
  let o :=
    obind (checked_mul t b (pm1 k)) (fun bpm1 =>
    obind (checked_mul t a (pm2 k)) (fun apm2 =>
    obind (checked_add t bpm1 apm2) (fun p =>
    obind (checked_mul t b (qm1 k)) (fun bqm1 =>
    obind (checked_mul t a (qm2 k)) (fun aqm2 =>
    obind (checked_add t bqm1 aqm2) (fun q => Some (p, q))))))) in
  match o with
  | None => Ok (None, k)
  | Some (p, q) =>
    let! g := gcdT_w t p q in
    let! g := gcdT_w t g (pm1 k) in
    let! g := gcdT_w t g (qm1 k) in
    if 1 <? g then
      let! x := #(pm1 k) ⊘ #g in
      let! y := #(qm1 k) ⊘ #g in
      let! p := #p ⊘ #g in
      let! q := #q ⊘ #g in
      Ok (Some (p, q), Block x (pm2 k) y (qm2 k))
    else Ok (Some (p, q), k)
  end.
End Block.

Section DBlock.
Context (t : ity).
Local Notation "x ⊕ y" := (lift2 (addT_w t) x y) (at level 50, left associativity).
Local Notation "x ⊗ y" := (lift2 (mulT_w t) x y) (at level 40, left associativity).
Local Notation "# x" := (@Ok Z x) (at level 5, format "# x").
(** block.rs:207-214 *)
Definition dblock_rmove_right_w (k : dblock) (a : Z) : res dblock :=
  let! p1 := #a ⊗ #(pm11 k) ⊕ #(pm21 k) in
  let! q1 := #a ⊗ #(qm11 k) ⊕ #(qm21 k) in
  let! p2 := #a ⊗ #(pm12 k) ⊕ #(pm22 k) in
  let! q2 := #a ⊗ #(qm12 k) ⊕ #(qm22 k) in
  Ok (dblock_update_right k p1 q1 p2 q2).

(** block.rs:216-223 *)
Definition dblock_rmove_down_w (k : dblock) (a : Z) : res dblock :=
  let! p1 := #a ⊗ #(pm11 k) ⊕ #(pm12 k) in
  let! q1 := #a ⊗ #(qm11 k) ⊕ #(qm12 k) in
  let! p2 := #a ⊗ #(pm21 k) ⊕ #(pm22 k) in
  let! q2 := #a ⊗ #(qm21 k) ⊕ #(qm22 k) in
  Ok (dblock_update_down k p1 q1 p2 q2).

(** block.rs:225-248: [inl] is Ok(..), [inr (right, down)] is Err((right, down)) *)
Definition dblock_check_integer_w (k : dblock) : res ((Z * (Z * Z * Z * Z)) + (bool * bool)) :=
  if qm22 k =? 0 then Ok (inr (qm21 k =? 0, qm12 k =? 0))
  else if qm11 k =? 0 then Ok (inr (qm12 k =? 0, qm21 k =? 0))
  else
    let! (i11, r11) := div_remT t (pm11 k) (qm11 k) in
    let! (i12, r12) := div_remT t (pm12 k) (qm12 k) in
    let! (i21, r21) := div_remT t (pm21 k) (qm21 k) in
    let! (i22, r22) := div_remT t (pm22 k) (qm22 k) in
    Ok (if (i11 =? i12) && (i11 =? i21) && (i11 =? i22)
        then inl (i11, (r11, r12, r21, r22))
        else inr (negb (i11 =? i12) || negb (i21 =? i22),
                  negb (i11 =? i21) || negb (i12 =? i22))).

(** block.rs:250-263 *)
Definition dblock_reduce_recip_w (k : dblock) : res ((Z + (bool * bool)) * dblock) :=
  let! o := dblock_check_integer_w k in
  match o with
  | inl (i, (r11, r12, r21, r22)) =>
    Ok (inl i, DBlock (qm11 k) (qm12 k) (qm21 k) (qm22 k) r11 r12 r21 r22)
  | inr f => Ok (inr f, k)
  end.
End DBlock.
