(** * WrapBase: integer arithmetic of release builds.

    Base.v models the dev profile, where an overflow panics.  In the release profile (overflow
    checks off) [+], [-], [*], unary minus and [abs] of the primitive types wrap around instead.
    BigInt never overflows; BigUint panics when a difference would be negative, in every profile.
    Division and remainder are not redefined: [MIN / -1] and [MIN % -1] panic in every profile. *)

From Coq Require Import ZArith Bool.
From Verif Require Import Base.
Open Scope Z_scope.

(** Two's complement representative of [z] *)
Definition chk_w (t : ity) (z : Z) : res Z :=
  match t with
  | BigI | BigU => chk t z
  | SInt n => Ok ((z + 2 ^ (n - 1)) mod 2 ^ n - 2 ^ (n - 1))
  | UInt n => Ok (z mod 2 ^ n)
  end.

Definition addT_w (t : ity) (x y : Z) : res Z := chk_w t (x + y).
Definition subT_w (t : ity) (x y : Z) : res Z := chk_w t (x - y).
Definition mulT_w (t : ity) (x y : Z) : res Z := chk_w t (x * y).
Definition negT_w (t : ity) (x : Z) : res Z := chk_w t (- x).
Definition absT_w (t : ity) (x : Z) : res Z := chk_w t (Z.abs x).

(** num_integer::Integer::gcd: if it is |MIN|, its final [abs] wraps to MIN *)
Definition gcdT_w (t : ity) (x y : Z) : res Z := chk_w t (Z.gcd x y).
(** num_integer::Integer::lcm *)
Definition lcmT_w (t : ity) (x y : Z) : res Z :=
  if (x =? 0) || (y =? 0) then Ok 0
  else let! g := gcdT_w t x y in let! q := quotT t y g in let! p := mulT_w t x q in absT_w t p.
