(** * WrapCF: the functions of ModelCF.v with wrapping arithmetic (release builds).

    A copy of ModelCF.v in which [+], [-], [*], unary minus, abs and gcd come from WrapBase.v: each
    definition [f_w] is the text of [f] with the names of the copied functions suffixed by [_w].
    Types and functions without integer arithmetic are shared with ModelCF.v. *)

From Coq Require Import ZArith Bool List.
From Verif Require Import Base Ext ModelBlock ModelCF WrapBase WrapExt WrapBlock.
Import ListNotations.
Open Scope Z_scope.

Section New.
Context (g : cfg) (t : ity).
Local Notation "x ⊕ y" := (lift2 (addT_w t) x y) (at level 50, left associativity).
Local Notation "x ⊖ y" := (lift2 (subT_w t) x y) (at level 50, left associativity).
Local Notation "# x" := (@Ok Z x) (at level 5, format "# x").
(** simple.rs:112-164: absorb a negative coefficient [target] into the
    non-negative coefficients found so far *)
Fixpoint new_absorb_w (negate : bool) (negv : option bool) (rev : list Z) (target : Z) : res nst :=
  match rev with
  | nil => Panic PUnwrap
  | am1 :: rest =>
    let! _ := dassert g (0 <=? am1) in
    if am1 =? 1 then
      match rest with
      | am2 :: rest2 =>
        let! am2' := #am2 ⊕ #1 in
        let! x := #0 ⊖ #target ⊖ #1 in
        Ok (NSt (negb negate) negv (x :: am2' :: rest2))
      | nil =>
        let! x := #0 ⊖ #target ⊖ #1 in
        Ok (NSt (negb negate) (Some false) [x; 1; 0])
      end
    else if am1 =? 0 then
      match rest with
      | am2 :: rest2 =>
        let! new_target := #am2 ⊕ #target in
        if new_target <? 0 then new_absorb_w negate negv rest2 new_target
        else Ok (NSt negate negv (new_target :: rest2))
      | nil =>
        let! x := #0 ⊖ #target in
        Ok (NSt (negb negate) (Some true) [x; 0])
      end
    else
      let! _ := dassert g (1 <? am1) in
      let! y := #am1 ⊖ #1 in
      let! x := #0 ⊖ #target ⊖ #1 in
      Ok (NSt (negb negate) negv (x :: 1 :: y :: rest))
  end.

(** simple.rs:79-178: one aperiodic coefficient *)
Definition new_step_w (s : nst) (a : Z) : res nst :=
  let 'NSt negate negv rev := s in
  let! a := if negate then #0 ⊖ #a else Ok a in
  match rev with
  | nil =>
    if a <? 0 then
      let! x := #0 ⊖ #a in Ok (NSt (negb negate) (Some true) [x])
    else Ok (NSt negate (if a =? 0 then negv else Some false) [a])
  | last :: rest =>
    if a =? 0 then
      if last =? 0 then Ok (NSt negate negv rest) else Ok (NSt negate negv (a :: rev))
    else if a <? 0 then new_absorb_w negate negv rev a
    else
      match rest with
      | am2 :: rest2 =>
        if last =? 0 then
          let! x := #am2 ⊕ #a in Ok (NSt negate negv (x :: rest2))
        else
          Ok (NSt negate (match negv with None => Some (a <? 0) | _ => negv end) (a :: rev))
      | nil =>
        Ok (NSt negate (match negv with None => Some (a <? 0) | _ => negv end) (a :: rev))
      end
  end.

(** simple.rs:77-183 *)
Fixpoint new_loop_w (s : nst) (l : list Z) : res nst :=
  match l with
  | nil => Ok s
  | a :: l => let! s := new_step_w s a in new_loop_w s l
  end.

(** simple.rs:190-202: remove a trailing zero or one *)
Fixpoint new_trim_w (last : Z) (rest : list Z) : res (list Z) :=
  match rest with
  | nil => Ok [last]
  | y :: rest1 =>
    if last =? 0 then
      match rest1 with nil => Ok nil | z :: rest2 => new_trim_w z rest2 end
    else if last =? 1 then
      let! y := #y ⊕ #last in new_trim_w y rest1
    else Ok (last :: rest)
  end.

(** simple.rs:189-207 *)
Definition new_finish_w (negv : option bool) (rev p : list Z) : res (option bool * list Z) :=
  match p with
  | nil =>
    let! rev := match rev with nil => Ok nil | x :: r => new_trim_w x r end in
    Ok (match rev with [0] => Some false | _ => negv end, rev)
  | _ :: _ => Ok (negv, rev)
  end.

(** simple.rs:58-227  ContinuedFraction::new *)
Definition cf_new_w (a p : list Z) (negate : bool) : res cf :=
  match a, p with
  | nil, nil => Panic PNoCoeff
  | _, _ =>
    let! s := new_loop_w (NSt negate None nil) a in
    match s_rev s, p with
    | nil, nil => Panic PNoCoeff
    | _, _ =>
      let! (negv, rev) := new_finish_w (s_negative s) (s_rev s) p in
      let! neg :=
        match negv with
        | Some b => Ok b
        | None =>
          match p with
          | p0 :: _ => if p0 <=? 0 then Panic PUnimplemented else Ok (s_negate s)
          | nil => Ok (s_negate s)
          end
        end in
      let! a' := mapM (to_unsigned t) (List.rev rev) in
      let! p' := mapM (to_unsigned t) p in
      Ok (CF a' p' neg)
    end
  end.

(** simple.rs:230-234  FromIterator (the items are collected into a vector first) *)
Definition cf_from_iter_w (items : list Z) : res cf := cf_new_w items nil false.

(** simple.rs:611-627  From<T> *)
Definition cf_of_int_w (n : Z) : res cf :=
  if n <? 0 then
    let! m := #0 ⊖ #n in let! u := to_unsigned t m in Ok (CF [u] nil true)
  else let! u := to_unsigned t n in Ok (CF [u] nil false).

(** simple.rs:652-657: the Euclidean loop *)
Fixpoint euclid_loop_w (fuel : nat) (n d : Z) : res (list Z) :=
  match fuel with
  | O => Hang
  | S fuel =>
    if d =? 0 then Ok nil
    else
      let! (quo, rem) := div_remT t n d in
      let! u := to_unsigned t quo in
      let! l := euclid_loop_w fuel d rem in
      Ok (u :: l)
  end.

(** simple.rs:629-665  From<Ratio<T>> *)
Definition cf_of_ratio_w (r : ratio) : res cf :=
  if ratio_is_zero r then Ok (CF [0] nil false)
  else
    let! n := if numer r <? 0 then #0 ⊖ #(numer r) else Ok (numer r) in
    let d := denom r in
    let neg := numer r <? 0 in
    if n <? d then
      let! l := euclid_loop_w (euclid_fuel n) d n in Ok (CF (0 :: l) nil neg)
    else
      let! l := euclid_loop_w (euclid_fuel d) n d in Ok (CF l nil neg).
End New.

Section Iterators.
Context (g : cfg) (u : ity).
Let t := sty u.
(** simple.rs:339-359 SignedCoefficients, 425-432 *)
Definition signed_of_w (neg : bool) (v : Z) : res Z :=
  if neg then negT_w t (to_signed u v) else Ok (to_signed u v).

Definition signed_next_w (s : coeffs_st * bool) : res (option Z * (coeffs_st * bool)) :=
  let '(c, neg) := s in
  match coeffs_next c with
  | (Some v, c) => let! w := signed_of_w neg v in Ok (Some w, (c, neg))
  | (None, c) => Ok (None, (c, neg))
  end.

(** simple.rs:284-308 GeneralCoefficients, 416-423 *)
Definition general_next_w (s : coeffs_st * bool) : res (option (Z * Z) * (coeffs_st * bool)) :=
  let '(c, neg) := s in
  match coeffs_next c with
  | (Some v, c) => let! w := signed_of_w neg v in Ok (Some (1, w), (c, neg))
  | (None, c) => Ok (None, (c, neg))
  end.

(** simple.rs:388-401: the periodic part; [p_pos] never changes unless it is out of range,
    where the indexing panics first *)
Definition owned_periodic_w (s : owned_st) : res (option Z * owned_st) :=
  match p_list s with
  | nil => Ok (None, s)
  | _ :: _ =>
    match nth_error (p_list s) (p_pos s) with
    | None => Panic PUnwrap
    | Some v =>
      let pos := if Nat.leb (length (p_list s)) (p_pos s)
                 then (p_pos s - length (p_list s))%nat else p_pos s in
      let! w := signed_of_w (o_neg s) v in
      Ok (Some w, OwnedSt (o_iter s) (p_list s) pos (o_neg s))
    end
  end.

(** simple.rs:370-403 *)
Definition owned_next_w (s : owned_st) : res (option Z * owned_st) :=
  match o_iter s with
  | Some (v :: it) =>
    let! w := signed_of_w (o_neg s) v in
    Ok (Some w, OwnedSt (Some it) (p_list s) (p_pos s) (o_neg s))
  | Some nil => owned_periodic_w (OwnedSt None (p_list s) (p_pos s) (o_neg s))
  | None => owned_periodic_w s
  end.

Definition conv_next_w (s : conv_st) : res (option ratio * conv_st) :=
  match coeffs_next (cv_coeffs s) with
  | (None, c) => Ok (None, ConvSt c (cv_block s) (cv_neg s))
  | (Some a, c) =>
    match block_checked_rmove_w u (cv_block s) a with
    | None => Ok (None, ConvSt c (cv_block s) (cv_neg s))
    | Some (p, q) =>
      let s' := ConvSt c (block_update (cv_block s) p q) (cv_neg s) in
      let! r := ratio_new_w t (to_signed u p) (to_signed u q) in
      if cv_neg s then let! r := ratio_neg_w t r in Ok (Some r, s') else Ok (Some r, s')
    end
  end.

(** simple.rs:460-470 *)
Definition cf_to_integer_w (x : cf) : res (approx Z) :=
  match a_coeffs x with
  | nil => Panic PUnwrap
  | a :: _ =>
    let! a := signed_of_w (negative x) a in
    Ok (if cf_is_integer x then Exact a else Approximated a)
  end.

(** [self.convergents().last().unwrap()] for a finite fraction *)
Definition cf_last_convergent_w (x : cf) : res ratio :=
  let! o := last_item conv_next_w (S (length (a_coeffs x))) None (cf_convergents x) in
  unwrap o.

(** simple.rs:472-485 *)
Definition cf_to_rational_w (x : cf) : res (approx ratio) :=
  if cf_is_rational x then
    let! r := cf_last_convergent_w x in Ok (Exact r)
  else
    let! o := nth_item conv_next_w (length (a_coeffs x) + length (p_coeffs x)) (cf_convergents x) in
    let! r := unwrap o in Ok (Approximated r).

(** simple.rs:500-511: the loop of [approximated] *)
Fixpoint approx_loop_w (fuel : nat) (limit : Z) (last : ratio) (s : conv_st) : res (approx ratio) :=
  match fuel with
  | O => Hang
  | S fuel =>
    let! (o, s) := conv_next_w s in
    match o with
    | Some v => if denom v <? limit then approx_loop_w fuel limit v s
                else Ok (Approximated last)
    | None => Ok (Exact last)
    end
  end.

(** simple.rs:488-513  Computable::approximated *)
Definition cf_approximated_w (fuel : nat) (x : cf) (limit : Z) : res (approx ratio) :=
  let! (o, s) := conv_next_w (cf_convergents x) in
  let! last := unwrap o in
  if limit <? denom last then
    match a_coeffs x with
    | nil => Panic PUnwrap
    | i :: _ => Ok (Approximated (ratio_of (to_signed u i)))
    end
  else approx_loop_w fuel limit last s.

(** simple.rs:683-748  Add<T> *)
Definition cf_add_int_w (x : cf) (rhs : Z) : res cf :=
  match a_coeffs x with
  | nil => Panic PUnwrap
  | i :: rest =>
    let! (new_i, flipped) :=
      match negative x, rhs <? 0 with
      | true, true =>
        let! m := negT_w t rhs in let! r := to_unsigned t m in
        let! n := addT_w u r i in Ok (n, false)
      | true, false =>
        let! r := to_unsigned t rhs in
        if i <? r then let! n := subT_w u r i in Ok (n, true)
        else let! n := subT_w u i r in Ok (n, false)
      | false, true =>
        let! m := negT_w t rhs in let! r := to_unsigned t m in
        if i <? r then let! n := subT_w u r i in Ok (n, true)
        else let! n := subT_w u i r in Ok (n, false)
      | false, false =>
        let! r := to_unsigned t rhs in
        let! n := addT_w u i r in Ok (n, false)
      end in
    if flipped : bool then
      let! m := negT_w t (to_signed u new_i) in
      cf_new_w g t (m :: map (to_signed u) rest) (map (to_signed u) (p_coeffs x)) (negative x)
    else
      let y := CF (new_i :: rest) (p_coeffs x) (negative x) in
      Ok (if cf_is_zero y then CF (a_coeffs y) (p_coeffs y) false else y)
  end.

(** simple.rs:750-762  Sub<T> *)
Definition cf_sub_int_w (x : cf) (rhs : Z) : res cf :=
  let! m := negT_w t rhs in cf_add_int_w x m.
End Iterators.
