(** * ModelSymbols: model of /repo/src/symbols.rs (the f64 [value()]s are in ModelFloat.v). *)

From Coq Require Import ZArith Bool List.
From Verif Require Import Base Ext ModelBlock.
Import ListNotations.
Open Scope Z_scope.

Section Symbols.
Context (t : ity).
Local Notation "x ⊕ y" := (lift2 (addT t) x y) (at level 50, left associativity).
Local Notation "x ⊖ y" := (lift2 (subT t) x y) (at level 50, left associativity).
Local Notation "x ⊗ y" := (lift2 (mulT t) x y) (at level 40, left associativity).
Local Notation "x ⊘ y" := (lift2 (quotT t) x y) (at level 40, left associativity).
Local Notation "# x" := (@Ok Z x) (at level 5, format "# x").

(** symbols.rs:43-50  ECoefficients { i, m } *)
Record e_st := ESt { e_i : Z; e_m : Z }.
(** symbols.rs:38-40 *)
Definition e_cfrac : e_st := ESt 0 0.
(** symbols.rs:52-75 *)
Definition e_next (s : e_st) : res (option Z * e_st) :=
  if e_i s =? 0 then
    let! two := #1 ⊕ #1 in Ok (Some two, ESt two (e_m s))
  else
    let r := if e_m s =? 1 then e_i s else 1 in
    if e_m s =? 2 then
      let! i := #1 ⊕ #1 ⊕ #(e_i s) in Ok (Some r, ESt i 0)
    else Ok (Some r, ESt (e_i s) (e_m s + 1)).

(** symbols.rs:96-100  PiCoefficients { a, b } *)
Record pi_st := PiSt { pi_a : Z; pi_b : Z }.
(** symbols.rs:83-88 *)
Definition pi_gfrac : pi_st := PiSt 0 0.
(** symbols.rs:102-124 *)
Definition pi_next (s : pi_st) : res (option (Z * Z) * pi_st) :=
  let! two := #1 ⊕ #1 in
  if pi_a s =? 0 then Ok (Some (1, 0), PiSt 1 (pi_b s))
  else if pi_b s =? 0 then
    let! b := #1 ⊕ #two in
    let! f := #two ⊕ #two in
    Ok (Some (f, 1), PiSt (pi_a s) b)
  else
    let! sq := #(pi_a s) ⊗ #(pi_a s) in
    let! a := #(pi_a s) ⊕ #1 in
    let! b := #(pi_b s) ⊕ #two in
    Ok (Some (sq, pi_b s), PiSt a b).

(** symbols.rs:150-157  GammaCoefficients { n, qm1, qm2, sm1, rm1 }.
    [n] is a usize; its overflow after 2^64 items is not modelled. *)
Record gamma_st := GammaSt { ga_n : Z; ga_qm1 : Z; ga_qm2 : Z; ga_sm1 : ratio; ga_rm1 : ratio }.
(** symbols.rs:130-143 *)
Definition gamma_gfrac : res gamma_st :=
  let! two := #1 ⊕ #1 in
  let! m1 := ratio_neg t (Ratio 1 1) in
  Ok (GammaSt 0 two 1 m1 (Ratio 1 1)).

(** symbols.rs:159-216 *)
Definition gamma_next (s : gamma_st) : res (option (Z * Z) * gamma_st) :=
  let 'GammaSt k qm1 qm2 sm1 rm1 := s in
  if k =? 0 then Ok (Some (1, 0), GammaSt 1 qm1 qm2 sm1 rm1)
  else if k =? 1 then
    let! two := unwrap (checked t 2) in Ok (Some (1, two), GammaSt 2 qm1 qm2 sm1 rm1)
  else
    match checked t k with
    | None => Ok (None, s)
    | Some n =>
      let! nm1 := unwrap (checked t (k - 1)) in
      let! nm2 := unwrap (checked t (k - 2)) in
      let! two := unwrap (checked t 2) in
      let! q := #two ⊗ #n ⊗ #qm1 ⊖ #nm1 ⊗ #nm1 ⊗ #qm2 in
      let! n1sq := #nm1 ⊗ #nm1 in
      let! s1 := ratio_mul t (ratio_of n1sq) sm1 in
      let! f := ratio_new t nm2 n in
      let! s2 := ratio_mul_int t f qm1 in
      let! s' := ratio_add t s1 s2 in
      let! ns := ratio_neg t s' in
      let! a := ratio_div t ns sm1 in
      let! x := #nm2 ⊗ #qm2 in
      let! x := ratio_new t x n in
      let! x := ratio_div t x sm1 in
      let! tn := #two ⊗ #n in
      let! b := ratio_add_int t x tn in
      let! rho :=
        if k =? 2 then Ok (Ratio 1 1)
        else if k =? 3 then let! c := unwrap (checked t 3) in Ok (ratio_of c)
        else if k =? 4 then let! c := unwrap (checked t 10) in Ok (ratio_of c)
        else
          let! h := #n ⊗ #nm1 ⊘ #two in
          ratio_mul t (ratio_of h) sm1 in
      let! ra := ratio_mul t rho rm1 in
      let! ra := ratio_mul t ra a in
      let! astar := ratio_to_integer t ra in
      let! rb := ratio_mul t rho b in
      let! bstar := ratio_to_integer t rb in
      Ok (Some (astar, bstar), GammaSt (k + 1) q qm1 s' rho)
    end.
End Symbols.
