(** * PropsExp: property theorem C70, and one more theorem for C41.

    Only statements: every theorem is closed by the lemma of the same name in
    ClaimsExp.v. *)

From Coq Require Import ZArith Reals Lia Lra Bool List Factorial.
From Coquelicot Require Import Coquelicot.
From Verif Require Import Base Ext ModelBlock ModelCF ModelGen ModelSymbols Spec SpecCF SpecGen ClaimsExp.
Import ListNotations.
Open Scope Z_scope.

(** ** C41  simplify() *)

(** Whatever the signs of the pairs: if the quotients of the continuants converge to an irrational number, simplify() never
    stops producing items *)
Theorem C41_never_stops : forall I (inext : I -> res (option (Z * Z) * I)) it f (x : R) n, yields inext it f -> fst (f O) = 1 -> (forall j, gden f j <> 0) ->
  is_lim_seq (fun j => IZR (gnum f j) / IZR (gden f j))%R x -> irrational x ->
  exists fuel v, forall fuel', (fuel <= fuel')%nat -> nth_item (simp_next BigI inext fuel') n (gcf_simplify it) = Ok (Some v).
Proof. exact L_C41_never_stops. Qed.
Print Assumptions C41_never_stops.

(** ** C70  exp(x).simplify() and exp(x).decimals() *)

(** For x <= 1 every item of simplify() is the coefficient of e^x at that position *)
Theorem C70_simplify_partial : forall t x fuel n v, x <= 1 ->
  nth_item (simp_next t (exp_next t) fuel) n (gcf_simplify (gcf_exp x)) = Ok (Some v) -> cf_digit (exp (IZR x)) n v.
Proof. exact L_C70_simplify_partial. Qed.
Print Assumptions C70_simplify_partial.

(** The items for x = 1 are those of E.cfrac(), and all of them come *)
Theorem C70_same_as_E : forall n, exists v, nth_item (e_next BigI) n e_cfrac = Ok (Some v) /\
  (forall t fuel w, nth_item (simp_next t (exp_next t) fuel) n (gcf_simplify (gcf_exp 1)) = Ok (Some w) -> w = v) /\
  exists fuel, forall fuel', (fuel <= fuel')%nat -> nth_item (simp_next BigI (exp_next BigI) fuel') n (gcf_simplify (gcf_exp 1)) = Ok (Some v).
Proof. exact L_C70_same_as_E. Qed.
Print Assumptions C70_same_as_E.

(** With arbitrary precision simplify() goes on for ever whenever x is not 0 *)
Theorem C70_returns : forall x n, x <> 0 ->
  exists fuel v, forall fuel', (fuel <= fuel')%nat -> nth_item (simp_next BigI (exp_next BigI) fuel') n (gcf_simplify (gcf_exp x)) = Ok (Some v).
Proof. exact L_C70_returns. Qed.
Print Assumptions C70_returns.

(** exp(0) yields its one coefficient and no second item for any number of steps *)
Theorem C70_zero : forall t fuel n v, nth_item (simp_next t (exp_next t) fuel) n (gcf_simplify (gcf_exp 0)) = Ok (Some v) -> n = O /\ v = 1.
Proof. exact L_C70_zero. Qed.
Print Assumptions C70_zero.

(** For x <= 0 the n-th character of decimals() is the last decimal digit of the integer part of 10^n e^x *)
Theorem C70_decimals_partial : forall t x fuel n c, x <= 0 ->
  nth_item (dec_next t (exp_next t) fuel) n (gcf_decimals (gcf_exp x)) = Ok (Some c) -> exists m, isfloor (10 ^ n * exp (IZR x)) m /\ c = 48 + m mod 10.
Proof. exact L_C70_decimals_partial. Qed.
Print Assumptions C70_decimals_partial.

(** With arbitrary precision these characters come for ever when x is negative *)
Theorem C70_decimals_returns : forall x n, x < 0 ->
  exists fuel c, forall fuel', (fuel <= fuel')%nat -> nth_item (dec_next BigI (exp_next BigI) fuel') n (gcf_decimals (gcf_exp x)) = Ok (Some c).
Proof. exact L_C70_decimals_returns. Qed.
Print Assumptions C70_decimals_returns.

(** e^x is irrational for every integer x but 0, so that it has a coefficient at every position *)
Theorem C70_irrational : forall x : Z, x <> 0 -> irrational (exp (IZR x)).
Proof. exact L_C70_irrational. Qed.
Print Assumptions C70_irrational.

(** exp(3): the first coefficient comes out as 19 although e^3 is more than 20 *)
Theorem C70_simplify_refuted : exists t x fuel n v, nth_item (simp_next t (exp_next t) fuel) n (gcf_simplify (gcf_exp x)) = Ok (Some v) /\ ~ cf_digit (exp (IZR x)) n v.
Proof. exact L_C70_simplify_refuted. Qed.
Print Assumptions C70_simplify_refuted.

(** exp(2): the character at position 4 is ':', the one after '9'; exp(3): the first character is the letter 'C' *)
Theorem C70_decimals_refuted : nth_item (dec_next BigI (exp_next BigI) 60) 4 (gcf_decimals (gcf_exp 2)) = Ok (Some 58) /\
  nth_item (dec_next BigI (exp_next BigI) 60) 0 (gcf_decimals (gcf_exp 3)) = Ok (Some 67) /\ (forall m, 58 <> 48 + m mod 10) /\ (forall m, 67 <> 48 + m mod 10).
Proof. exact L_C70_decimals_refuted. Qed.
Print Assumptions C70_decimals_refuted.

(** Items of exp(1) and exp(-2), characters of exp(-1) *)
Example C70_case :
  map (fun n => nth_item (simp_next BigI (exp_next BigI) 40) n (gcf_simplify (gcf_exp 1))) [0; 1; 2; 3; 4; 5; 6; 7; 8]%nat = map (fun v => Ok (Some v)) [2; 1; 2; 1; 1; 4; 1; 1; 6] /\
  map (fun n => nth_item (simp_next BigI (exp_next BigI) 40) n (gcf_simplify (gcf_exp (-2)))) [0; 1; 2; 3; 4]%nat = map (fun v => Ok (Some v)) [0; 7; 2; 1; 1] /\
  map (fun n => nth_item (dec_next (SInt 64) (exp_next (SInt 64)) 40) n (gcf_decimals (gcf_exp (-1)))) [0; 1; 2; 3; 4; 5]%nat = map (fun v => Ok (Some v)) [48; 51; 54; 55; 56; 55].
Proof. split; [vm_compute; reflexivity|]. split; vm_compute; reflexivity. Qed.
