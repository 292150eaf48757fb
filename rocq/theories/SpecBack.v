(** * SpecBack: vocabulary for when a periodic continued fraction can be made into a surd. *)

From Coq Require Import ZArith List.
From Verif Require Import SpecCF.
Import ListNotations.
Open Scope Z_scope.

(** The period without its first and last coefficient; as a continuant, 0 for a period of one coefficient *)
Definition inner_cont (p : list Z) : Z :=
  match p with _ :: ((_ :: _) as l) => cont (removelast l) | _ => 0 end.

(** The discriminant of the quadratic equation that the period gives: the square of the trace of its matrix,
    minus four times the determinant, which is 1 or -1 *)
Definition period_discr (p : list Z) : Z :=
  let tr := cont p + inner_cont p in tr * tr - 4 * (if Nat.even (length p) then 1 else -1).

(** Two coprime squares other than 1 divide [z] *)
Definition two_squares (z : Z) : Prop :=
  exists k m, 1 < k /\ 1 < m /\ Z.gcd k m = 1 /\ (k * k | z) /\ (m * m | z).
