(** * ModelCF: model of /repo/src/cont_frac/simple.rs (ContinuedFraction),
    except the operators that go through QuadraticSurd (ModelConv.v) and
    formatting (ModelFmt.v). *)

From Coq Require Import ZArith Bool List.
From Verif Require Import Base Ext ModelBlock.
Import ListNotations.
Open Scope Z_scope.

(** simple.rs:18-28 *)
Record cf := CF { a_coeffs : list Z; p_coeffs : list Z; negative : bool }.

(** simple.rs:18  #[derive(PartialEq)]: field by field; == of vectors *)
Fixpoint list_eqb (l m : list Z) : bool :=
  match l, m with
  | nil, nil => true
  | x :: l, y :: m => (x =? y) && list_eqb l m
  | _, _ => false
  end.
Definition cf_eqb (x y : cf) : bool :=
  list_eqb (a_coeffs x) (a_coeffs y) && list_eqb (p_coeffs x) (p_coeffs y) && Bool.eqb (negative x) (negative y).

(** simple.rs:30-55 *)
Definition cf_is_rational (x : cf) : bool := Nat.eqb (length (p_coeffs x)) 0.
Definition cf_is_integer (x : cf) : bool :=
  Nat.eqb (length (a_coeffs x)) 1 && Nat.eqb (length (p_coeffs x)) 0.

(** ** The constructor *)
Section New.
Context (g : cfg) (t : ity).
Local Notation "x ⊕ y" := (lift2 (addT t) x y) (at level 50, left associativity).
Local Notation "x ⊖ y" := (lift2 (subT t) x y) (at level 50, left associativity).
Local Notation "# x" := (@Ok Z x) (at level 5, format "# x").

(** State of the loop at simple.rs:77-183: the flag [negate], the final sign
    [negative] (None = undecided) and [dedup_a], stored last element first. *)
Record nst := NSt { s_negate : bool; s_negative : option bool; s_rev : list Z }.

(** simple.rs:112-164: absorb a negative coefficient [target] into the
    non-negative coefficients found so far *)
Fixpoint new_absorb (negate : bool) (negv : option bool) (rev : list Z) (target : Z) : res nst :=
  match rev with
  | nil => Panic PUnwrap
  | am1 :: rest =>
    let! _ := dassert g (0 <=? am1) in
    if am1 =? 1 then
      match rest with
      | am2 :: rest2 =>
        let! am2' := #am2 ⊕ #1 in
        let! x := #0 ⊖ #target ⊖ #1 in
        Ok (NSt (negb negate) negv (x :: am2' :: rest2))
      | nil =>
        let! x := #0 ⊖ #target ⊖ #1 in
        Ok (NSt (negb negate) (Some false) [x; 1; 0])
      end
    else if am1 =? 0 then
      match rest with
      | am2 :: rest2 =>
        let! new_target := #am2 ⊕ #target in
        if new_target <? 0 then new_absorb negate negv rest2 new_target
        else Ok (NSt negate negv (new_target :: rest2))
      | nil =>
        let! x := #0 ⊖ #target in
        Ok (NSt (negb negate) (Some true) [x; 0])
      end
    else
      let! _ := dassert g (1 <? am1) in
      let! y := #am1 ⊖ #1 in
      let! x := #0 ⊖ #target ⊖ #1 in
      Ok (NSt (negb negate) negv (x :: 1 :: y :: rest))
  end.

(** simple.rs:79-178: one aperiodic coefficient *)
Definition new_step (s : nst) (a : Z) : res nst :=
  let 'NSt negate negv rev := s in
  let! a := if negate then #0 ⊖ #a else Ok a in
  match rev with
  | nil =>
    if a <? 0 then
      let! x := #0 ⊖ #a in Ok (NSt (negb negate) (Some true) [x])
    else Ok (NSt negate (if a =? 0 then negv else Some false) [a])
  | last :: rest =>
    if a =? 0 then
      if last =? 0 then Ok (NSt negate negv rest) else Ok (NSt negate negv (a :: rev))
    else if a <? 0 then new_absorb negate negv rev a
    else
      match rest with
      | am2 :: rest2 =>
        if last =? 0 then
          let! x := #am2 ⊕ #a in Ok (NSt negate negv (x :: rest2))
        else
          Ok (NSt negate (match negv with None => Some (a <? 0) | _ => negv end) (a :: rev))
      | nil =>
        Ok (NSt negate (match negv with None => Some (a <? 0) | _ => negv end) (a :: rev))
      end
  end.

(** simple.rs:77-183 *)
Fixpoint new_loop (s : nst) (l : list Z) : res nst :=
  match l with
  | nil => Ok s
  | a :: l => let! s := new_step s a in new_loop s l
  end.

(** simple.rs:190-202: remove a trailing zero or one *)
Fixpoint new_trim (last : Z) (rest : list Z) : res (list Z) :=
  match rest with
  | nil => Ok [last]
  | y :: rest1 =>
    if last =? 0 then
      match rest1 with nil => Ok nil | z :: rest2 => new_trim z rest2 end
    else if last =? 1 then
      let! y := #y ⊕ #last in new_trim y rest1
    else Ok (last :: rest)
  end.

(** simple.rs:189-207 *)
Definition new_finish (negv : option bool) (rev p : list Z) : res (option bool * list Z) :=
  match p with
  | nil =>
    let! rev := match rev with nil => Ok nil | x :: r => new_trim x r end in
    Ok (match rev with [0] => Some false | _ => negv end, rev)
  | _ :: _ => Ok (negv, rev)
  end.

(** simple.rs:58-227  ContinuedFraction::new *)
Definition cf_new (a p : list Z) (negate : bool) : res cf :=
  match a, p with
  | nil, nil => Panic PNoCoeff
  | _, _ =>
    let! s := new_loop (NSt negate None nil) a in
    match s_rev s, p with
    | nil, nil => Panic PNoCoeff
    | _, _ =>
      let! (negv, rev) := new_finish (s_negative s) (s_rev s) p in
      let! neg :=
        match negv with
        | Some b => Ok b
        | None =>
          match p with
          | p0 :: _ => if p0 <=? 0 then Panic PUnimplemented else Ok (s_negate s)
          | nil => Ok (s_negate s)
          end
        end in
      let! a' := mapM (to_unsigned t) (List.rev rev) in
      let! p' := mapM (to_unsigned t) p in
      Ok (CF a' p' neg)
    end
  end.

(** simple.rs:230-234  FromIterator (the items are collected into a vector first) *)
Definition cf_from_iter (items : list Z) : res cf := cf_new items nil false.

(** simple.rs:611-627  From<T> *)
Definition cf_of_int (n : Z) : res cf :=
  if n <? 0 then
    let! m := #0 ⊖ #n in let! u := to_unsigned t m in Ok (CF [u] nil true)
  else let! u := to_unsigned t n in Ok (CF [u] nil false).

(** simple.rs:652-657: the Euclidean loop *)
Fixpoint euclid_loop (fuel : nat) (n d : Z) : res (list Z) :=
  match fuel with
  | O => Hang
  | S fuel =>
    if d =? 0 then Ok nil
    else
      let! (quo, rem) := div_remT t n d in
      let! u := to_unsigned t quo in
      let! l := euclid_loop fuel d rem in
      Ok (u :: l)
  end.

(** Enough fuel for the Euclidean algorithm with divisor d: d halves every two steps *)
Definition euclid_fuel (d : Z) : nat := (4 + 2 * Z.to_nat (Z.log2 (Z.abs d)))%nat.

(** simple.rs:629-665  From<Ratio<T>> *)
Definition cf_of_ratio (r : ratio) : res cf :=
  if ratio_is_zero r then Ok (CF [0] nil false)
  else
    let! n := if numer r <? 0 then #0 ⊖ #(numer r) else Ok (numer r) in
    let d := denom r in
    let neg := numer r <? 0 in
    if n <? d then
      let! l := euclid_loop (euclid_fuel n) d n in Ok (CF (0 :: l) nil neg)
    else
      let! l := euclid_loop (euclid_fuel d) n d in Ok (CF l nil neg).

End New.

(** ** Iterators *)

(** simple.rs:236-242  Coefficients: [None]/[Some rest] as in the source *)
Record coeffs_st := CoeffsSt { a_iter : option (list Z); p_ref : list Z; p_iter : option (list Z) }.

(** simple.rs:244-280 *)
Definition coeffs_next (s : coeffs_st) : option Z * coeffs_st :=
  match a_iter s with
  | Some (v :: it) => (Some v, CoeffsSt (Some it) (p_ref s) (p_iter s))
  | Some nil =>
    match p_ref s with
    | v :: it => (Some v, CoeffsSt None (p_ref s) (Some it))
    | nil => (None, CoeffsSt None (p_ref s) (p_iter s))
    end
  | None =>
    match p_iter s with
    | Some (v :: it) => (Some v, CoeffsSt None (p_ref s) (Some it))
    | Some nil =>
      match p_ref s with
      | v :: it => (Some v, CoeffsSt None (p_ref s) (Some it))
      | nil => (None, CoeffsSt None (p_ref s) (Some nil))
      end
    | None => (None, s)
    end
  end.

(** simple.rs:406-414 *)
Definition cf_coeffs_unsigned (x : cf) : coeffs_st :=
  CoeffsSt (Some (a_coeffs x)) (p_coeffs x) None.
Definition coeffs_nextM (s : coeffs_st) : res (option Z * coeffs_st) := Ok (coeffs_next s).

(** simple.rs:361-368  OwnedCoefficients *)
Record owned_st := OwnedSt { o_iter : option (list Z); p_list : list Z; p_pos : nat; o_neg : bool }.

(** simple.rs:434-441 *)
Definition cf_into_coeffs (x : cf) : owned_st := OwnedSt (Some (a_coeffs x)) (p_coeffs x) 0 (negative x).

Section Iterators.
(** The coefficients have an unsigned type [u]; its signed counterpart is [sty u]. *)
Context (g : cfg) (u : ity).
Let t := sty u.

(** simple.rs:339-359 SignedCoefficients, 425-432 *)
Definition signed_of (neg : bool) (v : Z) : res Z :=
  if neg then negT t (to_signed u v) else Ok (to_signed u v).

Definition signed_next (s : coeffs_st * bool) : res (option Z * (coeffs_st * bool)) :=
  let '(c, neg) := s in
  match coeffs_next c with
  | (Some v, c) => let! w := signed_of neg v in Ok (Some w, (c, neg))
  | (None, c) => Ok (None, (c, neg))
  end.
Definition cf_coeffs (x : cf) : coeffs_st * bool := (cf_coeffs_unsigned x, negative x).

(** simple.rs:284-308 GeneralCoefficients, 416-423 *)
Definition general_next (s : coeffs_st * bool) : res (option (Z * Z) * (coeffs_st * bool)) :=
  let '(c, neg) := s in
  match coeffs_next c with
  | (Some v, c) => let! w := signed_of neg v in Ok (Some (1, w), (c, neg))
  | (None, c) => Ok (None, (c, neg))
  end.
Definition cf_generalized (x : cf) : coeffs_st * bool := (cf_coeffs_unsigned x, negative x).

(** simple.rs:388-401: the periodic part; [p_pos] never changes unless it is out of range,
    where the indexing panics first *)
Definition owned_periodic (s : owned_st) : res (option Z * owned_st) :=
  match p_list s with
  | nil => Ok (None, s)
  | _ :: _ =>
    match nth_error (p_list s) (p_pos s) with
    | None => Panic PUnwrap
    | Some v =>
      let pos := if Nat.leb (length (p_list s)) (p_pos s)
                 then (p_pos s - length (p_list s))%nat else p_pos s in
      let! w := signed_of (o_neg s) v in
      Ok (Some w, OwnedSt (o_iter s) (p_list s) pos (o_neg s))
    end
  end.

(** simple.rs:370-403 *)
Definition owned_next (s : owned_st) : res (option Z * owned_st) :=
  match o_iter s with
  | Some (v :: it) =>
    let! w := signed_of (o_neg s) v in
    Ok (Some w, OwnedSt (Some it) (p_list s) (p_pos s) (o_neg s))
  | Some nil => owned_periodic (OwnedSt None (p_list s) (p_pos s) (o_neg s))
  | None => owned_periodic s
  end.

(** simple.rs:310-315 Convergents, 317-337 *)
Record conv_st := ConvSt { cv_coeffs : coeffs_st; cv_block : block; cv_neg : bool }.
Definition conv_next (s : conv_st) : res (option ratio * conv_st) :=
  match coeffs_next (cv_coeffs s) with
  | (None, c) => Ok (None, ConvSt c (cv_block s) (cv_neg s))
  | (Some a, c) =>
    match block_checked_rmove u (cv_block s) a with
    | None => Ok (None, ConvSt c (cv_block s) (cv_neg s))
    | Some (p, q) =>
      let s' := ConvSt c (block_update (cv_block s) p q) (cv_neg s) in
      let! r := ratio_new t (to_signed u p) (to_signed u q) in
      if cv_neg s then let! r := ratio_neg t r in Ok (Some r, s') else Ok (Some r, s')
    end
  end.

(** simple.rs:450-458 *)
Definition cf_convergents (x : cf) : conv_st :=
  ConvSt (cf_coeffs_unsigned x) block_identity (negative x).

(** simple.rs:460-470 *)
Definition cf_to_integer (x : cf) : res (approx Z) :=
  match a_coeffs x with
  | nil => Panic PUnwrap
  | a :: _ =>
    let! a := signed_of (negative x) a in
    Ok (if cf_is_integer x then Exact a else Approximated a)
  end.

(** [self.convergents().last().unwrap()] for a finite fraction *)
Definition cf_last_convergent (x : cf) : res ratio :=
  let! o := last_item conv_next (S (length (a_coeffs x))) None (cf_convergents x) in
  unwrap o.

(** simple.rs:472-485 *)
Definition cf_to_rational (x : cf) : res (approx ratio) :=
  if cf_is_rational x then
    let! r := cf_last_convergent x in Ok (Exact r)
  else
    let! o := nth_item conv_next (length (a_coeffs x) + length (p_coeffs x)) (cf_convergents x) in
    let! r := unwrap o in Ok (Approximated r).

(** simple.rs:500-511: the loop of [approximated] *)
Fixpoint approx_loop (fuel : nat) (limit : Z) (last : ratio) (s : conv_st) : res (approx ratio) :=
  match fuel with
  | O => Hang
  | S fuel =>
    let! (o, s) := conv_next s in
    match o with
    | Some v => if denom v <? limit then approx_loop fuel limit v s
                else Ok (Approximated last)
    | None => Ok (Exact last)
    end
  end.

(** simple.rs:488-513  Computable::approximated *)
Definition cf_approximated (fuel : nat) (x : cf) (limit : Z) : res (approx ratio) :=
  let! (o, s) := conv_next (cf_convergents x) in
  let! last := unwrap o in
  if limit <? denom last then
    match a_coeffs x with
    | nil => Panic PUnwrap
    | i :: _ => Ok (Approximated (ratio_of (to_signed u i)))
    end
  else approx_loop fuel limit last s.

(** ** Zero, One, Neg and integer addition *)

(** simple.rs:553-607 *)
Definition cf_zero : cf := CF [0] nil false.
Definition cf_is_zero (x : cf) : bool :=
  match a_coeffs x, p_coeffs x with [0], nil => true | _, _ => false end.
Definition cf_one : cf := CF [1] nil false.
Definition cf_is_one (x : cf) : bool :=
  match a_coeffs x, p_coeffs x with [1], nil => true | _, _ => false end.

(** simple.rs:764-775 *)
Definition cf_neg (x : cf) : cf :=
  if cf_is_zero x then x else CF (a_coeffs x) (p_coeffs x) (negb (negative x)).

(** simple.rs:683-748  Add<T> *)
Definition cf_add_int (x : cf) (rhs : Z) : res cf :=
  match a_coeffs x with
  | nil => Panic PUnwrap
  | i :: rest =>
    let! (new_i, flipped) :=
      match negative x, rhs <? 0 with
      | true, true =>
        let! m := negT t rhs in let! r := to_unsigned t m in
        let! n := addT u r i in Ok (n, false)
      | true, false =>
        let! r := to_unsigned t rhs in
        if i <? r then let! n := subT u r i in Ok (n, true)
        else let! n := subT u i r in Ok (n, false)
      | false, true =>
        let! m := negT t rhs in let! r := to_unsigned t m in
        if i <? r then let! n := subT u r i in Ok (n, true)
        else let! n := subT u i r in Ok (n, false)
      | false, false =>
        let! r := to_unsigned t rhs in
        let! n := addT u i r in Ok (n, false)
      end in
    if flipped : bool then
      let! m := negT t (to_signed u new_i) in
      cf_new g t (m :: map (to_signed u) rest) (map (to_signed u) (p_coeffs x)) (negative x)
    else
      let y := CF (new_i :: rest) (p_coeffs x) (negative x) in
      Ok (if cf_is_zero y then CF (a_coeffs y) (p_coeffs y) false else y)
  end.

(** simple.rs:750-762  Sub<T> *)
Definition cf_sub_int (x : cf) (rhs : Z) : res cf :=
  let! m := negT t rhs in cf_add_int x m.

End Iterators.
