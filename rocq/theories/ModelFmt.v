(** * ModelFmt: the Display implementations of QuadraticSurd
    (/repo/src/quadratic/surd.rs:936-1043) and ContinuedFraction
    (/repo/src/cont_frac/simple.rs:515-550).  Strings are UTF-8 byte strings.
    Every argument is written with a plain [{}], so width, fill, precision and sign flags
    of the caller's format string have no effect; only the [#] flag is looked at. *)

From Coq Require Import ZArith Bool List String DecimalString.
From Verif Require Import Base ModelSurd ModelCF.
Import ListNotations.
Open Scope string_scope.
Open Scope Z_scope.

(** Display of an integer: decimal, with a leading minus sign if negative *)
Definition show (z : Z) : string := NilZero.string_of_int (Z.to_int z).

(** surd.rs:943-1002: [{:#}] of a surd with a negative root; [r] is minus the root *)
Definition fmt_complex (a b c r : Z) : string :=
  match (a =? 0)%Z, (b =? 0)%Z, (b =? 1)%Z, (b =? -1)%Z, (c =? 1)%Z, (r =? 1)%Z with
  | true, true, _, _, _, _ => "0"
  | true, false, true, _, true, true => "i"
  | true, false, true, _, true, false => "√" ++ show r ++ "i"
  | true, false, true, _, false, true => "i/" ++ show c
  | true, false, true, _, false, false => "√" ++ show r ++ "i/" ++ show c
  | true, false, false, true, true, true => "-i"
  | true, false, false, true, true, false => "-√" ++ show r ++ "i"
  | true, false, false, true, false, true => "-i/" ++ show c
  | true, false, false, true, false, false => "-√" ++ show r ++ "i/" ++ show c
  | true, false, false, false, true, true => show b ++ "i"
  | true, false, false, false, true, false => show b ++ "√" ++ show r ++ "i"
  | true, false, false, false, false, true => show b ++ "i/" ++ show c
  | true, false, false, false, false, false => show b ++ "√" ++ show r ++ "i/" ++ show c
  | false, true, _, _, true, _ => show a
  | false, true, _, _, false, _ => show a ++ "/" ++ show c
  | false, false, true, _, true, true => show a ++ "+i"
  | false, false, true, _, true, false => show a ++ "+√" ++ show r ++ "i"
  | false, false, false, true, true, true => show a ++ "-i"
  | false, false, false, true, true, false => show a ++ "-√" ++ show r ++ "i"
  | false, false, false, false, true, true =>
    if (b <? 0)%Z then show a ++ show b ++ "i" else show a ++ "+" ++ show b ++ "i"
  | false, false, false, false, true, false =>
    if (b <? 0)%Z then show a ++ show b ++ "√" ++ show r ++ "i"
    else show a ++ "+" ++ show b ++ "√" ++ show r ++ "i"
  | false, false, true, _, false, true => "(" ++ show a ++ "+i)/" ++ show c
  | false, false, true, _, false, false => "(" ++ show a ++ "+√" ++ show r ++ "i)/" ++ show c
  | false, false, false, true, false, true => "(" ++ show a ++ "-i)/" ++ show c
  | false, false, false, true, false, false => "(" ++ show a ++ "-√" ++ show r ++ "i)/" ++ show c
  | false, false, false, false, false, true =>
    if (b <? 0)%Z then "(" ++ show a ++ show b ++ "i)/" ++ show c
    else "(" ++ show a ++ "+" ++ show b ++ "i)/" ++ show c
  | false, false, false, false, false, false =>
    if (b <? 0)%Z then "(" ++ show a ++ show b ++ "√" ++ show r ++ "i)/" ++ show c
    else "(" ++ show a ++ "+" ++ show b ++ "√" ++ show r ++ "i)/" ++ show c
  end.

(** surd.rs:1004-1040 *)
Definition fmt_plain (a b c d : Z) : string :=
  match (a =? 0)%Z, (b =? 0)%Z, (b =? 1)%Z, (b =? -1)%Z, (c =? 1)%Z with
  | true, true, _, _, _ => "0"
  | true, false, true, _, true => "√" ++ show d
  | true, false, true, _, false => "√" ++ show d ++ "/" ++ show c
  | true, false, false, true, true => "-√" ++ show d
  | true, false, false, true, false => "-√" ++ show d ++ "/" ++ show c
  | true, false, false, false, true => show b ++ "√" ++ show d
  | true, false, false, false, false => show b ++ "√" ++ show d ++ "/" ++ show c
  | false, true, _, _, true => show a
  | false, true, _, _, false => show a ++ "/" ++ show c
  | false, false, true, _, true => show a ++ "+√" ++ show d
  | false, false, false, true, true => show a ++ "-√" ++ show d
  | false, false, false, false, true =>
    if (b <? 0)%Z then show a ++ show b ++ "√" ++ show d
    else show a ++ "+" ++ show b ++ "√" ++ show d
  | false, false, true, _, false => "(" ++ show a ++ "+√" ++ show d ++ ")/" ++ show c
  | false, false, false, true, false => "(" ++ show a ++ "-√" ++ show d ++ ")/" ++ show c
  | false, false, false, false, false =>
    if (b <? 0)%Z then "(" ++ show a ++ show b ++ "√" ++ show d ++ ")/" ++ show c
    else "(" ++ show a ++ "+" ++ show b ++ "√" ++ show d ++ ")/" ++ show c
  end.

(** surd.rs:936-1043; [alternate] is the [#] flag of the formatter *)
Definition surd_fmt (t : ity) (alternate : bool) (s : surd) : res string :=
  let 'Surd (SCo a b c) d := s in
  if alternate && (d <? 0) then
    let! r := negT t d in Ok (fmt_complex a b c r)
  else Ok (fmt_plain a b c d).

(** [while let Some(v) = it.next() { write!(f, ", {}", v) }] *)
Fixpoint fmt_rest (l : list Z) : string :=
  match l with nil => "" | v :: l => ", " ++ show v ++ fmt_rest l end.

(** simple.rs:515-550 *)
Definition cf_fmt (x : cf) : res string :=
  match a_coeffs x with
  | nil => Panic PUnwrap
  | a0 :: rest =>
    let sign := if negative x then "-" else "" in
    let per :=
      match p_coeffs x with
      | nil => "]"
      | p0 :: ps => "(" ++ show p0 ++ fmt_rest ps ++ ")]"
      end in
    match rest, p_coeffs x with
    | nil, nil => Ok (sign ++ "[" ++ show a0 ++ "]")
    | nil, _ :: _ => Ok (sign ++ "[" ++ show a0 ++ "; " ++ per)
    | a1 :: rest, ps =>
      Ok (sign ++ "[" ++ show a0 ++ "; " ++ show a1 ++ fmt_rest rest ++
          (match ps with nil => "" | _ => ", " end) ++ per)
    end
  end.
