(** * WrapGen: the functions of ModelGen.v with wrapping arithmetic (release builds).

    A copy of ModelGen.v in which [+], [-], [*], unary minus, abs and gcd come from WrapBase.v: each
    definition [f_w] is the text of [f] with the names of the copied functions suffixed by [_w].
    Types and functions without integer arithmetic are shared with ModelGen.v. *)

From Coq Require Import ZArith Bool List.
From Verif Require Import Base Ext ModelBlock ModelGen WrapBase WrapExt WrapBlock.
Import ListNotations.
Open Scope Z_scope.

Section General.
Context (t : ity) {I : Type} (inext : I -> res (option (Z * Z) * I)).
(** general.rs:52-57, 73-87  Convergents *)
Definition gconv_next_w (s : block * I) : res (option ratio * (block * I)) :=
  let '(k, it) := s in
  let! (o, it) := inext it in
  match o with
  | None => Ok (None, (k, it))
  | Some (a, b) =>
    let! (o, k) := block_checked_gmove_w t k a b in
    match o with
    | None => Ok (None, (k, it))
    | Some (p, q) =>
      let k := block_update k p q in
      let! r := ratio_new_w t p q in Ok (Some r, (k, it))
    end
  end.

(** general.rs:89-106  Simplified *)
Fixpoint simp_next_w (fuel : nat) (s : block * I) : res (option Z * (block * I)) :=
  match fuel with
  | O => Hang
  | S fuel =>
    let '(k, it) := s in
    let! (o, k) := block_reduce_recip_w t k in
    match o with
    | Some i => Ok (Some i, (k, it))
    | None =>
      let! (o, it) := inext it in
      match o with
      | Some (a, b) => let! k := block_gmove_w t k a b in simp_next_w fuel (k, it)
      | None => Ok (None, (k, it))
      end
    end
  end.

(** general.rs:108-132  DecimalDigits: the digits are ASCII codes *)
Fixpoint dec_next_w (fuel : nat) (s : block * I) : res (option Z * (block * I)) :=
  match fuel with
  | O => Hang
  | S fuel =>
    let '(k, it) := s in
    let! ten := unwrap (checked t 10) in
    let! (o, k) := block_reduce_mul_w t k ten in
    match o with
    | Some i =>
      let! d := unwrap (checked (UInt 8) i) in
      let! c := addT_w (UInt 8) d 48 in Ok (Some c, (k, it))
    | None =>
      let! (o, it) := inext it in
      match o with
      | Some (a, b) =>
        let! (o, k) := block_checked_gmove_w t k a b in
        match o with
        | None => Ok (None, (k, it))
        | Some (p, q) => dec_next_w fuel (block_update k p q, it)
        end
      | None => Ok (None, (k, it))
      end
    end
  end.

(** general.rs:145-156 *)
Fixpoint gapprox_loop_w (fuel : nat) (limit : Z) (last : ratio) (s : block * I) : res (approx ratio) :=
  match fuel with
  | O => Hang
  | S fuel =>
    let! (o, s) := gconv_next_w s in
    match o with
    | Some v => if denom v <? limit then gapprox_loop_w fuel limit v s else Ok (Approximated last)
    | None => Ok (Exact last)
    end
  end.

(** general.rs:134-158  Computable for iterators of pairs *)
Definition gcf_approximated_w (fuel : nat) (it : I) (limit : Z) : res (approx ratio) :=
  let! (o, s) := gconv_next_w (gcf_convergents it) in
  let! last := unwrap o in
  if limit <? denom last then Ok (Approximated last) else gapprox_loop_w fuel limit last s.
End General.

Section Infinite.
Context (t : ity) {I : Type} (inext : I -> res (option Z * I)).
(** infinite.rs:61-85  HomographicResult *)
Fixpoint homo_next_w (fuel : nat) (s : block * I) : res (option Z * (block * I)) :=
  match fuel with
  | O => Hang
  | S fuel =>
    let '(k, it) := s in
    let! (o, k) := block_reduce_recip_w t k in
    match o with
    | Some i => Ok (Some i, (k, it))
    | None =>
      let! (o, it) := inext it in
      match o with
      | Some v => let! k := block_rmove_w t k v in homo_next_w fuel (k, it)
      | None => Ok (None, (k, it))
      end
    end
  end.
End Infinite.

Section Bihomo.
Context (t : ity) {X Y : Type}
  (xnext : X -> res (option Z * X)) (ynext : Y -> res (option Z * Y)).
(** infinite.rs:87-123  BihomographicResult *)
Fixpoint bihomo_next_w (fuel : nat) (s : dblock * X * Y) : res (option Z * (dblock * X * Y)) :=
  match fuel with
  | O => Hang
  | S fuel =>
    let '(k, x, y) := s in
    let! (o, k) := dblock_reduce_recip_w t k in
    match o with
    | inl i => Ok (Some i, (k, x, y))
    | inr (mright, mdown) =>
      let! (k, x, stop) :=
        if mright : bool then
          let! (o, x) := xnext x in
          match o with
          | Some v => let! k := dblock_rmove_right_w t k v in Ok (k, x, false)
          | None => Ok (k, x, true)
          end
        else Ok (k, x, false) in
      if stop : bool then Ok (None, (k, x, y))
      else
        let! (k, y, stop) :=
          if mdown : bool then
            let! (o, y) := ynext y in
            match o with
            | Some v => let! k := dblock_rmove_down_w t k v in Ok (k, y, false)
            | None => Ok (k, y, true)
            end
          else Ok (k, y, false) in
        if stop : bool then Ok (None, (k, x, y)) else bihomo_next_w fuel (k, x, y)
    end
  end.
End Bihomo.
Definition exp_next_w (t : ity) (s : exp_st) : res (option (Z * Z) * exp_st) :=
  let! r :=
    if exp_i s =? 0 then Ok (1, 1)
    else if exp_i s =? 1 then Ok (exponent s, 1)
    else
      let! x := subT_w t (exp_i s) 1 in
      let! x := mulT_w t x (exponent s) in
      let! x := negT_w t x in
      let! y := addT_w t (exp_i s) (exponent s) in
      Ok (x, y) in
  let! i := addT_w t (exp_i s) 1 in
  Ok (Some r, ExpSt (exponent s) i).

