(** * ModelGen: model of /repo/src/cont_frac/general.rs and infinite.rs.

    The source iterators are arbitrary: a state type [I] and a [next] function. *)

From Coq Require Import ZArith Bool List.
From Verif Require Import Base Ext ModelBlock.
Import ListNotations.
Open Scope Z_scope.

Section General.
Context (t : ity) {I : Type} (inext : I -> res (option (Z * Z) * I)).

(** general.rs:52-57, 73-87  Convergents *)
Definition gconv_next (s : block * I) : res (option ratio * (block * I)) :=
  let '(k, it) := s in
  let! (o, it) := inext it in
  match o with
  | None => Ok (None, (k, it))
  | Some (a, b) =>
    let! (o, k) := block_checked_gmove t k a b in
    match o with
    | None => Ok (None, (k, it))
    | Some (p, q) =>
      let k := block_update k p q in
      let! r := ratio_new t p q in Ok (Some r, (k, it))
    end
  end.

(** general.rs:19-25 *)
Definition gcf_convergents (it : I) : block * I := (block_identity, it).

(** general.rs:89-106  Simplified *)
Fixpoint simp_next (fuel : nat) (s : block * I) : res (option Z * (block * I)) :=
  match fuel with
  | O => Hang
  | S fuel =>
    let '(k, it) := s in
    let! (o, k) := block_reduce_recip t k in
    match o with
    | Some i => Ok (Some i, (k, it))
    | None =>
      let! (o, it) := inext it in
      match o with
      | Some (a, b) => let! k := block_gmove t k a b in simp_next fuel (k, it)
      | None => Ok (None, (k, it))
      end
    end
  end.

(** general.rs:27-36 *)
Definition gcf_simplify (it : I) : block * I := (block_identity, it).

(** general.rs:108-132  DecimalDigits: the digits are ASCII codes *)
Fixpoint dec_next (fuel : nat) (s : block * I) : res (option Z * (block * I)) :=
  match fuel with
  | O => Hang
  | S fuel =>
    let '(k, it) := s in
    let! ten := unwrap (checked t 10) in
    let! (o, k) := block_reduce_mul t k ten in
    match o with
    | Some i =>
      let! d := unwrap (checked (UInt 8) i) in
      let! c := addT (UInt 8) d 48 in Ok (Some c, (k, it))
    | None =>
      let! (o, it) := inext it in
      match o with
      | Some (a, b) =>
        let! (o, k) := block_checked_gmove t k a b in
        match o with
        | None => Ok (None, (k, it))
        | Some (p, q) => dec_next fuel (block_update k p q, it)
        end
      | None => Ok (None, (k, it))
      end
    end
  end.

(** general.rs:38-45 *)
Definition gcf_decimals (it : I) : block * I := (block_identity, it).

(** general.rs:145-156 *)
Fixpoint gapprox_loop (fuel : nat) (limit : Z) (last : ratio) (s : block * I) : res (approx ratio) :=
  match fuel with
  | O => Hang
  | S fuel =>
    let! (o, s) := gconv_next s in
    match o with
    | Some v => if denom v <? limit then gapprox_loop fuel limit v s else Ok (Approximated last)
    | None => Ok (Exact last)
    end
  end.

(** general.rs:134-158  Computable for iterators of pairs *)
Definition gcf_approximated (fuel : nat) (it : I) (limit : Z) : res (approx ratio) :=
  let! (o, s) := gconv_next (gcf_convergents it) in
  let! last := unwrap o in
  if limit <? denom last then Ok (Approximated last) else gapprox_loop fuel limit last s.
End General.

(** ** Infinite simple continued fractions, infinite.rs *)
Section Infinite.
Context (t : ity) {I : Type} (inext : I -> res (option Z * I)).

(** infinite.rs:13-15  generalize: zip(self, repeat(one)) *)
Definition generalize_next (it : I) : res (option (Z * Z) * I) :=
  let! (o, it) := inext it in
  match o with
  | Some v => Ok (Some (v, 1), it)
  | None => Ok (None, it)
  end.

(** infinite.rs:61-85  HomographicResult *)
Fixpoint homo_next (fuel : nat) (s : block * I) : res (option Z * (block * I)) :=
  match fuel with
  | O => Hang
  | S fuel =>
    let '(k, it) := s in
    let! (o, k) := block_reduce_recip t k in
    match o with
    | Some i => Ok (Some i, (k, it))
    | None =>
      let! (o, it) := inext it in
      match o with
      | Some v => let! k := block_rmove t k v in homo_next fuel (k, it)
      | None => Ok (None, (k, it))
      end
    end
  end.

(** infinite.rs:17-32 *)
Definition icf_homo (it : I) (a b c d : Z) : block * I := (block_new a b c d, it).
End Infinite.

Section Bihomo.
Context (t : ity) {X Y : Type}
  (xnext : X -> res (option Z * X)) (ynext : Y -> res (option Z * Y)).

(** infinite.rs:87-123  BihomographicResult *)
Fixpoint bihomo_next (fuel : nat) (s : dblock * X * Y) : res (option Z * (dblock * X * Y)) :=
  match fuel with
  | O => Hang
  | S fuel =>
    let '(k, x, y) := s in
    let! (o, k) := dblock_reduce_recip t k in
    match o with
    | inl i => Ok (Some i, (k, x, y))
    | inr (mright, mdown) =>
      let! (k, x, stop) :=
        if mright : bool then
          let! (o, x) := xnext x in
          match o with
          | Some v => let! k := dblock_rmove_right t k v in Ok (k, x, false)
          | None => Ok (k, x, true)
          end
        else Ok (k, x, false) in
      if stop : bool then Ok (None, (k, x, y))
      else
        let! (k, y, stop) :=
          if mdown : bool then
            let! (o, y) := ynext y in
            match o with
            | Some v => let! k := dblock_rmove_down t k v in Ok (k, y, false)
            | None => Ok (k, y, true)
            end
          else Ok (k, y, false) in
        if stop : bool then Ok (None, (k, x, y)) else bihomo_next fuel (k, x, y)
    end
  end.

(** infinite.rs:34-55 *)
Definition icf_bihomo (x : X) (y : Y) (a b c d e f g h : Z) : dblock * X * Y :=
  (DBlock a b c d e f g h, x, y).
End Bihomo.

(** ** exp, general.rs:164-202 *)
Record exp_st := ExpSt { exponent : Z; exp_i : Z }.

Definition exp_next (t : ity) (s : exp_st) : res (option (Z * Z) * exp_st) :=
  let! r :=
    if exp_i s =? 0 then Ok (1, 1)
    else if exp_i s =? 1 then Ok (exponent s, 1)
    else
      let! x := subT t (exp_i s) 1 in
      let! x := mulT t x (exponent s) in
      let! x := negT t x in
      let! y := addT t (exp_i s) (exponent s) in
      Ok (x, y) in
  let! i := addT t (exp_i s) 1 in
  Ok (Some r, ExpSt (exponent s) i).

Definition gcf_exp (target : Z) : exp_st := ExpSt target 0.
