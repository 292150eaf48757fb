(** * Base: outcomes, integer types, primitive integer operations.

    Everything the crate computes is generic in an integer type [T].  This file
    models the primitive operations on such a type, and the outcome of running
    Rust code: a value, a panic, or no answer within a given amount of fuel. *)

From Coq Require Import ZArith Bool List.
Import ListNotations.
Open Scope Z_scope.

(** ** Outcomes *)

(** Why a panic happened.  One constructor per kind of panic site in /repo/src. *)
Inductive panic_kind :=
| POverflow        (* arithmetic overflow (overflow-checks on, as in the dev profile) *)
| PDivZero         (* integer division or remainder by zero *)
| PNegSqrt         (* integer square root of a negative number *)
| PZeroDenom       (* "denominator is zero" surd.rs:296, and Ratio with zero denominator *)
| PNegRoot         (* "Negative root is not supported..." surd.rs:380,392,408 integer.rs:276 *)
| PComplexOp       (* "operation not supported on complex numbers" surd.rs:259 *)
| PIncompatible    (* "two root bases are not compatible!" surd.rs:1115 integer.rs:468 *)
| PMod4            (* "The discriminant must not be 0 modulo 4!" integer.rs:279 *)
| PUnwrap          (* unwrap()/expect() on None/Err *)
| PUnreachable     (* unreachable!() *)
| PUnimplemented   (* unimplemented!() *)
| PDebugAssert     (* failed debug_assert! *)
| PNoCoeff.        (* "at least one coefficient is required!" / "no effective coefficient!" simple.rs:68,186 *)

(** [Hang] means: the loop did not finish within the supplied fuel. *)
Inductive res (A : Type) : Type :=
| Ok (a : A)
| Panic (k : panic_kind)
| Hang.
Arguments Ok {A} a.
Arguments Panic {A} k.
Arguments Hang {A}.

Definition bind {A B : Type} (m : res A) (f : A -> res B) : res B :=
  match m with
  | Ok a => f a
  | Panic k => Panic k
  | Hang => Hang
  end.

Notation "'let!' x := m 'in' f" := (bind m (fun x => f))
  (at level 200, x pattern, m at level 100, f at level 200, right associativity).

(** Lifting of a partial binary operation to computations: operands first. *)
Definition lift1 {A B : Type} (op : A -> res B) (m : res A) : res B := bind m op.
Definition lift2 {A B C : Type} (op : A -> B -> res C) (m : res A) (n : res B) : res C :=
  bind m (fun x => bind n (fun y => op x y)).

(** [Option::unwrap] *)
Definition unwrap {A : Type} (o : option A) : res A :=
  match o with Some a => Ok a | None => Panic PUnwrap end.

(** ** Configuration: cargo features and build profile *)

Record cfg := Cfg {
  cplx : bool;   (* cargo feature "complex" (Cargo.toml:35) *)
  dbg  : bool    (* debug_assertions: is debug_assert! compiled in *)
}.

(** ** Integer types *)

(** The types the crate is instantiated with: BigInt, BigUint, iN and uN
    (lib.rs:55-69, traits.rs:109-149). *)
Inductive ity := BigI | BigU | SInt (bits : Z) | UInt (bits : Z).

Definition fits (t : ity) (z : Z) : bool :=
  match t with
  | BigI => true
  | BigU => 0 <=? z
  | SInt n => (- 2 ^ (n - 1) <=? z) && (z <? 2 ^ (n - 1))
  | UInt n => (0 <=? z) && (z <? 2 ^ n)
  end.

(** An arithmetic result that does not fit the type is an overflow panic. *)
Definition chk (t : ity) (z : Z) : res Z := if fits t z then Ok z else Panic POverflow.

Definition addT (t : ity) (x y : Z) : res Z := chk t (x + y).
Definition subT (t : ity) (x y : Z) : res Z := chk t (x - y).
Definition mulT (t : ity) (x y : Z) : res Z := chk t (x * y).
Definition negT (t : ity) (x : Z) : res Z := chk t (- x).
Definition absT (t : ity) (x : Z) : res Z := chk t (Z.abs x).

(** Rust's [/] and [%] truncate toward zero; [MIN / -1] and [MIN % -1] overflow. *)
Definition quotT (t : ity) (x y : Z) : res Z :=
  if y =? 0 then Panic PDivZero else chk t (Z.quot x y).
Definition remT (t : ity) (x y : Z) : res Z :=
  if y =? 0 then Panic PDivZero
  else let! _ := chk t (Z.quot x y) in Ok (Z.rem x y).

(** num_integer::Integer::div_rem: the pair of truncated quotient and remainder *)
Definition div_remT (t : ity) (x y : Z) : res (Z * Z) :=
  let! q := quotT t x y in let! r := remT t x y in Ok (q, r).
(** num_integer::Integer::div_floor: quotient rounded toward minus infinity *)
Definition div_floorT (t : ity) (x y : Z) : res Z :=
  if y =? 0 then Panic PDivZero else chk t (x / y).
(** num_integer::Integer::gcd: non-negative; |MIN| overflows *)
Definition gcdT (t : ity) (x y : Z) : res Z := chk t (Z.gcd x y).
(** num_integer::Integer::lcm: (x * (y / gcd)).abs(), 0 if either is 0 *)
Definition lcmT (t : ity) (x y : Z) : res Z :=
  if (x =? 0) || (y =? 0) then Ok 0
  else let! g := gcdT t x y in let! q := quotT t y g in let! p := mulT t x q in absT t p.
(** num_integer::sqrt / Roots::sqrt: floor of the square root, panics if negative *)
Definition sqrtT (x : Z) : res Z := if x <? 0 then Panic PNegSqrt else Ok (Z.sqrt x).

(** num_traits::CheckedAdd / CheckedMul: None instead of an overflow panic *)
Definition checked (t : ity) (z : Z) : option Z := if fits t z then Some z else None.
Definition checked_add (t : ity) (x y : Z) : option Z := checked t (x + y).
Definition checked_mul (t : ity) (x y : Z) : option Z := checked t (x * y).

(** ** Signed and unsigned counterparts, traits.rs:61-149 *)

(** WithUnsigned::Unsigned *)
Definition uty (t : ity) : ity :=
  match t with BigI => BigU | BigU => BigU | SInt n => UInt n | UInt n => UInt n end.
(** WithSigned::Signed *)
Definition sty (t : ity) : ity :=
  match t with BigI => BigI | BigU => BigI | SInt n => SInt n | UInt n => SInt n end.

(** WithUnsigned::to_unsigned, traits.rs:93-106 ([as] casts wrap), 124-140
    (BigInt: to_biguint().unwrap() panics on a negative number). *)
Definition to_unsigned (t : ity) (z : Z) : res Z :=
  match t with
  | BigI => if z <? 0 then Panic PUnwrap else Ok z
  | BigU => Ok z
  | SInt n => Ok (z mod 2 ^ n)
  | UInt n => Ok z
  end.

(** WithSigned::to_signed, traits.rs:79-92, 115-122, 142-149 *)
Definition to_signed (t : ity) (z : Z) : Z :=
  match t with
  | BigI => z
  | BigU => z
  | SInt n => z
  | UInt n => if z <? 2 ^ (n - 1) then z else z - 2 ^ n
  end.

(** debug_assert! *)
Definition dassert (g : cfg) (b : bool) : res unit :=
  if dbg g && negb b then Panic PDebugAssert else Ok tt.

(** Monadic map over a list, left to right *)
Fixpoint mapM {A B : Type} (f : A -> res B) (l : list A) : res (list B) :=
  match l with
  | nil => Ok nil
  | x :: xs => let! y := f x in let! ys := mapM f xs in Ok (y :: ys)
  end.

(** Approximation, traits.rs:33-47 *)
Inductive approx (A : Type) := Approximated (a : A) | Exact (a : A).
Arguments Approximated {A} a.
Arguments Exact {A} a.
Definition approx_value {A : Type} (x : approx A) : A :=
  match x with Approximated a => a | Exact a => a end.
