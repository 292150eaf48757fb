(** * SpecText: what a printed text means.

    Independent of the model: a text is split into numbers, roots and single characters ([lex]); [reads] evaluates
    the result with the usual conventions of arithmetic (juxtaposition multiplies, products and quotients
    bind tighter than sums, from left to right; "i" is the imaginary unit; the root covers the number behind it),
    and [reads_cf] reads the bracket notation of continued fractions. *)

From Coq Require Import ZArith Bool List String Ascii.
From Coquelicot Require Import Complex.
From Verif Require Import Base ModelCF Spec.
Import ListNotations.
Open Scope Z_scope.

Inductive token := TNum (n : Z) | TRoot | TChar (c : ascii).

Definition digit (c : ascii) : option Z :=
  let n := Z.of_N (N_of_ascii c) in if (48 <=? n) && (n <=? 57) then Some (n - 48) else None.

Definition flush (num : option Z) (l : list token) : list token :=
  match num with Some n => TNum n :: l | None => l end.

(** [num]: the number being read; the root sign U+221A is the three bytes 226 136 154 *)
Fixpoint lex (num : option Z) (s : string) : list token :=
  match s with
  | EmptyString => flush num nil
  | String c s' =>
    match digit c with
    | Some d => lex (Some (10 * match num with Some n => n | None => 0 end + d)) s'
    | None =>
      flush num
        match s with
        | String "226" (String "136" (String "154" s'')) => TRoot :: lex None s''
        | _ => TChar c :: lex None s'
        end
    end
  end.

Definition factor (cur : option C) (x : C) : option C :=
  Some (match cur with Some y => (y * x)%C | None => x end).
Definition addterm (sum : option C) (neg : bool) (x : C) : option C :=
  let x := if neg then (- x)%C else x in
  Some (match sum with Some y => (y + x)%C | None => x end).

(** [sum]: the terms read so far; [neg]: whether the term being read is subtracted; [cur]: its value so far;
    [outer]: the same for the open parentheses *)
Fixpoint eval (l : list token) (sum : option C) (neg : bool) (cur : option C) (outer : list (option C * bool)) : option C :=
  match l with
  | nil => match cur, outer with Some x, nil => addterm sum neg x | _, _ => None end
  | TNum n :: l => match cur with None => eval l sum neg (Some (ZtoC n)) outer | Some _ => None end
  | TRoot :: TNum n :: l => eval l sum neg (factor cur (csqrt n)) outer
  | TRoot :: TChar "-" :: TNum n :: l => eval l sum neg (factor cur (csqrt (- n))) outer
  | TChar "i" :: l => eval l sum neg (factor cur Ci) outer
  | TChar "/" :: TNum n :: l => match cur with Some x => eval l sum neg (Some (x / ZtoC n)%C) outer | None => None end
  | TChar "+" :: l => match cur with Some x => eval l (addterm sum neg x) false None outer | None => None end
  | TChar "-" :: l =>
    match cur, sum, neg with
    | Some x, _, _ => eval l (addterm sum neg x) true None outer
    | None, None, false => eval l None true None outer
    | _, _, _ => None
    end
  | TChar "(" :: l => match cur with None => eval l None false None ((sum, neg) :: outer) | Some _ => None end
  | TChar ")" :: l =>
    match cur, outer with
    | Some x, (sum', neg') :: outer => eval l sum' neg' (addterm sum neg x) outer
    | _, _ => None
    end
  | _ => None
  end.

Definition reads (s : string) : option C := eval (lex None s) None false None nil.

(** "3, 4)]": a period *)
Fixpoint period (l : list token) : option (list Z) :=
  match l with
  | TNum n :: TChar ")" :: TChar "]" :: nil => Some [n]
  | TNum n :: TChar "," :: TChar " " :: l => match period l with Some p => Some (n :: p) | None => None end
  | _ => None
  end.
(** "2, 5, (3, 4)]" or "2, 5]": what follows the first coefficient *)
Fixpoint items (l : list token) : option (list Z * list Z) :=
  match l with
  | TChar "(" :: l => match period l with Some p => Some (nil, p) | None => None end
  | TNum n :: TChar "]" :: nil => Some ([n], nil)
  | TNum n :: TChar "," :: TChar " " :: l => match items l with Some (a, p) => Some (n :: a, p) | None => None end
  | _ => None
  end.
Definition reads_tokens (neg : bool) (l : list token) : option cf :=
  match l with
  | TChar "[" :: TNum n :: TChar "]" :: nil => Some (CF [n] nil neg)
  | TChar "[" :: TNum n :: TChar ";" :: TChar " " :: l => match items l with Some (a, p) => Some (CF (n :: a) p neg) | None => None end
  | _ => None
  end.
Definition reads_cf (s : string) : option cf :=
  match lex None s with
  | TChar "-" :: l => reads_tokens true l
  | l => reads_tokens false l
  end.
