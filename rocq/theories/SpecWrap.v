(** * SpecWrap: comparing a release build with a debug build. *)

From Coq Require Import ZArith Bool.
From Verif Require Import Base.

(** The release profile with the same cargo features: debug_assert! is not compiled in *)
Definition release (g : cfg) : cfg := Cfg (cplx g) false.

(** [m] is a call with overflow checks (and perhaps debug_assert!), [m'] the same call without:
    either they have the same outcome (value, panic or hang), or the first one panics because of
    an overflow or a debug_assert! *)
Definition agree {A : Type} (m m' : res A) : Prop :=
  m = m' \/ m = Panic POverflow \/ m = Panic PDebugAssert.
