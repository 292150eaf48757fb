(** * SpecFit: "every component fits the integer type" and "a checked run agrees with
    the run over arbitrary-precision integers". *)

From Coq Require Import ZArith Bool List.
From Verif Require Import Base Ext ModelSurd ModelInt.
Open Scope Z_scope.

(** [fitv t v]: every integer inside [v] is representable in [t]. *)
Class Fit (A : Type) := fitv : ity -> A -> Prop.
#[export] Instance Fit_Z : Fit Z := fun t z => fits t z = true.
#[export] Instance Fit_bool : Fit bool := fun _ _ => True.
#[export] Instance Fit_unit : Fit unit := fun _ _ => True.
#[export] Instance Fit_mod4 : Fit mod4 := fun _ _ => True.
#[export] Instance Fit_prod {A B} `{Fit A} `{Fit B} : Fit (A * B) :=
  fun t p => fitv t (fst p) /\ fitv t (snd p).
#[export] Instance Fit_option {A} `{Fit A} : Fit (option A) :=
  fun t o => match o with Some a => fitv t a | None => True end.
#[export] Instance Fit_approx {A} `{Fit A} : Fit (approx A) :=
  fun t o => match o with Approximated a => fitv t a | Exact a => fitv t a end.
#[export] Instance Fit_ratio : Fit ratio := fun t q => fitv t (numer q) /\ fitv t (denom q).
#[export] Instance Fit_sco : Fit sco := fun t c => fitv t (c0 c) /\ fitv t (c1 c) /\ fitv t (c2 c).
#[export] Instance Fit_surd : Fit surd := fun t s => fitv t (coeffs s) /\ fitv t (discr s).
#[export] Instance Fit_qco : Fit qco := fun t c => fitv t (q0 c) /\ fitv t (q1 c).
#[export] Instance Fit_qint : Fit qint := fun t s => fitv t (qcoeffs s) /\ fitv t (qdiscr s).
#[export] Instance Fit_sqrt {D} `{Fit D} : Fit (sqrt_result D) :=
  fun t r => match r with SqOk s => fitv t s | SqErr d _ => fitv t d end.

(** Types that can hold 0 and 1: all but degenerate widths. *)
Definition usable (t : ity) : Prop := fits t 0 = true /\ fits t 1 = true.

(** A run over [t] (first argument) against the run over BigInt (second argument): it
    either stops with an overflow panic, or ends in the same way, and then a returned value
    fits the type. *)
Definition agrees {A} `{Fit A} (t : ity) (m n : res A) : Prop :=
  m = Panic POverflow \/ (m = n /\ forall v, m = Ok v -> fitv t v).

(** The same for [from_sqrt], which may also report an overflow instead of panicking. *)
Definition agrees_sqrt {D} `{Fit D} (t : ity) (m n : res (sqrt_result D)) : Prop :=
  (exists d, m = Ok (SqErr d EOverflow) /\ fitv t d) \/ agrees t m n.
