(** * WrapFmt: the functions of ModelFmt.v with wrapping arithmetic (release builds).

    A copy of ModelFmt.v in which [+], [-], [*], unary minus, abs and gcd come from WrapBase.v: each
    definition [f_w] is the text of [f] with the names of the copied functions suffixed by [_w].
    Types and functions without integer arithmetic are shared with ModelFmt.v. *)

From Coq Require Import ZArith Bool List String DecimalString.
From Verif Require Import Base ModelSurd ModelCF ModelFmt WrapBase WrapSurd WrapCF.
Import ListNotations.
Open Scope string_scope.
Open Scope Z_scope.

(** surd.rs:936-1043; [alternate] is the [#] flag of the formatter *)
Definition surd_fmt_w (t : ity) (alternate : bool) (s : surd) : res string :=
  let 'Surd (SCo a b c) d := s in
  if alternate && (d <? 0) then
    let! r := negT_w t d in Ok (fmt_complex a b c r)
  else Ok (fmt_plain a b c d).

