(** * PropsDigits: property C81.

    Only statements: every theorem is closed by the lemma of the same name in
    ClaimsDigits.v. *)

From Coq Require Import ZArith Reals Lia Lra Bool List Arith.
From Coquelicot Require Import Coquelicot.
From Verif Require Import Base Ext ModelBlock ModelCF ModelGen Spec SpecGen SpecSpell SpecDigits NumFacts SymExp ExpIrr ClaimsSpell ClaimsDigits.
Import ListNotations.
Open Scope Z_scope.

(** ** C81  The characters of decimals() add up to the number whatever the signs *)

(** decimals() on an endless generalized fraction with terms of any sign whose convergents tend to an irrational x: if all
    characters come, the sums of (code - 48) / 10^n tend to x, even where a code is not that of a digit *)
Theorem C81_spells : forall I (inext : I -> res (option (Z * Z) * I)) it f x c, yields inext it f -> fst (f O) = 1 -> spells f x -> irrational x ->
  delivers (dec_next BigI inext) (gcf_decimals it) c -> dspells c x.
Proof. exact L_C81_spells. Qed.
Print Assumptions C81_spells.

(** Each character is the digit on which two neighbouring convergents, less what the earlier characters say, agree *)
Theorem C81_rule : forall I (inext : I -> res (option (Z * Z) * I)) it f x c n, yields inext it f -> fst (f O) = 1 -> spells f x -> irrational x ->
  (forall i, (i <= n)%nat -> exists fuel, forall fuel', (fuel <= fuel')%nat -> nth_item (dec_next BigI inext fuel') i (gcf_decimals it) = Ok (Some (c i))) ->
  exists j, next_digit f c n j (c n - 48) /\ next_digit f c n (S j) (c n - 48).
Proof. exact L_C81_rule. Qed.
Print Assumptions C81_rule.

(** It never hangs or ends: the first n characters come, or after m < n of them the call panics because that common digit is
    below 0 or above 207 (48 + 207 = 255) *)
Theorem C81_progress : forall I (inext : I -> res (option (Z * Z) * I)) it f x n, yields inext it f -> fst (f O) = 1 -> spells f x -> irrational x ->
  exists c m fuel, (m <= n)%nat /\ (forall i fuel', (i < m)%nat -> (fuel <= fuel')%nat -> nth_item (dec_next BigI inext fuel') i (gcf_decimals it) = Ok (Some (c i))) /\
    (m = n \/ exists p d j, next_digit f c m j d /\ next_digit f c m (S j) d /\ no_char d p /\
      forall fuel', (fuel <= fuel')%nat -> nth_item (dec_next BigI inext fuel') m (gcf_decimals it) = Panic p).
Proof. exact L_C81_progress. Qed.
Print Assumptions C81_progress.

(** If every character after the first is '0' to '9' then they are the digits of x: character n is the last digit of the
    integer part of 10^n x, the first one the whole integer part *)
Theorem C81_true_digits : forall I (inext : I -> res (option (Z * Z) * I)) it f x c n, yields inext it f -> fst (f O) = 1 -> spells f x -> irrational x ->
  delivers (dec_next BigI inext) (gcf_decimals it) c -> (forall i, (1 <= i)%nat -> 48 <= c i <= 57) ->
  exists m, isfloor (10 ^ n * x)%R m /\ c n = 48 + (if Nat.eqb n 0 then m else m mod 10).
Proof. exact L_C81_true_digits. Qed.
Print Assumptions C81_true_digits.

(** A number below 0 or above 230 makes some call panic *)
Theorem C81_outside : forall I (inext : I -> res (option (Z * Z) * I)) it f x, yields inext it f -> fst (f O) = 1 -> spells f x -> irrational x -> (x < 0 \/ 230 < x)%R ->
  exists n p fuel, forall fuel', (fuel <= fuel')%nat -> nth_item (dec_next BigI inext fuel') n (gcf_decimals it) = Panic p.
Proof. exact L_C81_outside. Qed.
Print Assumptions C81_outside.

(** At any width a character that comes is the one of arbitrary precision *)
Theorem C81_any : forall t I (inext : I -> res (option (Z * Z) * I)) it fuel n c, nth_item (dec_next t inext fuel) n (gcf_decimals it) = Ok (Some c) ->
  nth_item (dec_next BigI inext fuel) n (gcf_decimals it) = Ok (Some c).
Proof. exact L_C81_any. Qed.
Print Assumptions C81_any.

(** exp(x).decimals(), x <> 0: if all characters come they add up to e^x, at any width; from x = 6 on some call panics *)
Theorem C81_exp : forall x, x <> 0 ->
  (forall c, delivers (dec_next BigI (exp_next BigI)) (gcf_decimals (gcf_exp x)) c -> dspells c (exp (IZR x)) /\
    forall t fuel n v, nth_item (dec_next t (exp_next t) fuel) n (gcf_decimals (gcf_exp x)) = Ok (Some v) -> v = c n) /\
  (6 <= x -> exists n p fuel, forall fuel', (fuel <= fuel')%nat -> nth_item (dec_next BigI (exp_next BigI) fuel') n (gcf_decimals (gcf_exp x)) = Panic p).
Proof. exact L_C81_exp. Qed.
Print Assumptions C81_exp.

(** exp(2).decimals() is spelt 7 . 3 8 8 10 5 6 0 9 ...: e^2 = 7.3890560989... *)
Example C81_case : 2 <> 0 /\ spells (exp_items 2) (exp (IZR 2)) /\ irrational (exp (IZR 2)) /\
  map (fun n => nth_item (dec_next BigI (exp_next BigI) 60) n (gcf_decimals (gcf_exp 2))) [0; 1; 2; 3; 4; 5; 6; 7; 8]%nat =
    map (fun v => Ok (Some (48 + v))) [7; 3; 8; 8; 10; 5; 6; 0; 9] /\
  nth_item (dec_next BigI (exp_next BigI) 60) 0 (gcf_decimals (gcf_exp 6)) = Panic PUnwrap.
Proof. split; [lia|]. split; [apply exp_spells|]. split; [apply exp_irr; lia|]. vm_compute. split; reflexivity. Qed.
