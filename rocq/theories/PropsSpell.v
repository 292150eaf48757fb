(** * PropsSpell: property C80.

    Only statements: every theorem is closed by the lemma of the same name in
    ClaimsSpell.v. *)

From Coq Require Import ZArith Reals Lia Lra Bool List Arith.
From Coquelicot Require Import Coquelicot.
From Verif Require Import Base Ext ModelBlock ModelCF ModelGen Spec SpecCF SpecGen SpecSpell NumFacts SymExp ExpIrr ClaimsSpell.
Import ListNotations.
Open Scope Z_scope.

(** ** C80  simplify() and homo() keep the number whatever the signs, and can be chained *)

(** simplify() on an endless generalized fraction with terms of any sign whose convergents tend to an irrational x: all items
    come and the regular fraction they form spells x; at any width what comes is the same and the end is never reported *)
Theorem C80_simplify : forall I (inext : I -> res (option (Z * Z) * I)) it f x, yields inext it f -> fst (f O) = 1 -> spells f x -> irrational x ->
  exists h, cspells h x /\ delivers (simp_next BigI inext) (gcf_simplify it) h /\
    (forall t fuel n o, nth_item (simp_next t inext fuel) n (gcf_simplify it) = Ok o -> o = Some (h n)).
Proof. exact L_C80_simplify. Qed.
Print Assumptions C80_simplify.

(** homo(a, b, c, d) on coefficients of any sign that spell an irrational x *)
Theorem C80_homo : forall I (inext : I -> res (option Z * I)) it f x a b c d, yields inext it f -> cspells f x -> irrational x -> a * d - b * c <> 0 ->
  exists h, cspells h ((IZR a * x + IZR b) / (IZR c * x + IZR d)) /\ delivers (homo_next BigI inext) (icf_homo it a b c d) h /\
    (forall t fuel n o, nth_item (homo_next t inext fuel) n (icf_homo it a b c d) = Ok o -> o = Some (h n)).
Proof. exact L_C80_homo. Qed.
Print Assumptions C80_homo.

(** Both also on a source that itself has to work for its items, so that calls can be chained: what comes out satisfies what
    is asked of what goes in *)
Theorem C80_simplify_chained : forall I (src : nat -> I -> res (option (Z * Z) * I)) it f x, delivers src it f -> fst (f O) = 1 -> spells f x -> irrational x ->
  exists h, cspells h x /\ delivers (fun fuel => simp_next BigI (src fuel) fuel) (gcf_simplify it) h.
Proof. exact L_C80_simplify_chained. Qed.
Print Assumptions C80_simplify_chained.

Theorem C80_homo_chained : forall I (src : nat -> I -> res (option Z * I)) it f x a b c d, delivers src it f -> cspells f x -> irrational x -> a * d - b * c <> 0 ->
  exists h, cspells h ((IZR a * x + IZR b) / (IZR c * x + IZR d)) /\ irrational ((IZR a * x + IZR b) / (IZR c * x + IZR d)) /\
    delivers (fun fuel => homo_next BigI (src fuel) fuel) (icf_homo it a b c d) h.
Proof. exact L_C80_homo_chained. Qed.
Print Assumptions C80_homo_chained.

(** exp(x).simplify() spells e^x for every integer x <> 0, although for x >= 2 its items are not the usual coefficients *)
Theorem C80_exp : forall x, x <> 0 ->
  exists h, cspells h (exp (IZR x)) /\ delivers (simp_next BigI (exp_next BigI)) (gcf_simplify (gcf_exp x)) h /\
    (forall t fuel n o, nth_item (simp_next t (exp_next t) fuel) n (gcf_simplify (gcf_exp x)) = Ok o -> o = Some (h n)).
Proof. exact L_C80_exp. Qed.
Print Assumptions C80_exp.

(** exp(x).simplify().homo(a, b, c, d) spells (a e^x + b)/(c e^x + d) *)
Theorem C80_exp_homo : forall x a b c d, x <> 0 -> a * d - b * c <> 0 ->
  exists h, cspells h ((IZR a * exp (IZR x) + IZR b) / (IZR c * exp (IZR x) + IZR d)) /\
    delivers (fun fuel => homo_next BigI (simp_next BigI (exp_next BigI) fuel) fuel) (icf_homo (gcf_simplify (gcf_exp x)) a b c d) h.
Proof. exact L_C80_exp_homo. Qed.
Print Assumptions C80_exp_homo.

(** A fraction spells one number at most, *)
Theorem C80_one_number : forall f x y, spells f x -> spells f y -> x = y.
Proof. exact L_C80_one_number. Qed.
Print Assumptions C80_one_number.

(** positive terms that converge spell their limit, *)
Theorem C80_positive : forall f x, gpositive f -> gconverges f x -> spells f x.
Proof. exact L_C80_positive. Qed.
Print Assumptions C80_positive.

(** and so do coefficients that are of one sign after the first *)
Theorem C80_one_sign : forall e f x, e = 1 \/ e = -1 -> (forall n, (1 <= n)%nat -> 1 <= e * f n) -> cconverges f x -> cspells f x.
Proof. exact L_C80_one_sign. Qed.
Print Assumptions C80_one_sign.

(** exp(2).simplify() is spelt 7, 2, 1, 1, 2, 1, -19, ... where e^2 = [7; 2, 1, 1, 3, 18, ...]; the fractions are 7, 15/2, 22/3,
    37/5, 96/13, 133/18, -2431/-329 = 7.3891, ... *)
Example C80_case : 2 <> 0 /\ spells (exp_items 2) (exp (IZR 2)) /\ irrational (exp (IZR 2)) /\
  map (fun n => nth_item (simp_next BigI (exp_next BigI) 40) n (gcf_simplify (gcf_exp 2))) [0; 1; 2; 3; 4; 5; 6; 7]%nat =
    map (fun v => Ok (Some v)) [7; 2; 1; 1; 2; 1; -19; -5] /\
  map (fun n => nth_item (homo_next BigI (simp_next BigI (exp_next BigI) 40) 40) n (icf_homo (gcf_simplify (gcf_exp 2)) 1 1 1 (-1))) [0; 1; 2; 3; 4]%nat =
    map (fun v => Ok (Some v)) [1; 3; 5; 7; 9].
Proof. split; [lia|]. split; [apply exp_spells|]. split; [apply exp_irr; lia|]. vm_compute. split; reflexivity. Qed.
