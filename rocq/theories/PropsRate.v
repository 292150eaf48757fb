(** * PropsRate: property C88.

    Only statements: every theorem is closed by the lemma of the same name in
    ClaimsRate.v. *)

From Coq Require Import ZArith Reals Lia Lra Bool List Arith Factorial.
From Coquelicot Require Import Coquelicot.
From Verif Require Import Base Ext ModelSurd ModelBlock ModelCF ModelGen ModelSymbols Spec SpecCF SpecGen SpecSym GenStored ClaimsGen ClaimsApi ClaimsRate.
Import ListNotations.
Open Scope Z_scope.

(** ** C88 Convergents come with an error bound *)

(** Even convergents of a positive fraction lie below the number, odd ones above *)
Theorem C88_sides : forall t I (inext : I -> res (option (Z * Z) * I)) it f x n r, yields inext it f -> gpositive f -> gconverges f x ->
  nth_item (gconv_next t inext) n (gcf_convergents it) = Ok (Some r) -> if Nat.even n then (rval r < x)%R else (x < rval r)%R.
Proof. exact L_C88_sides. Qed.
Print Assumptions C88_sides.

(** The error is less than the distance to the next convergent *)
Theorem C88_next : forall t I (inext : I -> res (option (Z * Z) * I)) it f x n r q, yields inext it f -> gpositive f -> gconverges f x ->
  nth_item (gconv_next t inext) n (gcf_convergents it) = Ok (Some r) -> nth_item (gconv_next t inext) (S n) (gcf_convergents it) = Ok (Some q) ->
  (0 < Rabs (x - rval r) < Rabs (rval q - rval r))%R.
Proof. exact L_C88_next. Qed.
Print Assumptions C88_next.

(** The convergent after the next one is closer *)
Theorem C88_closer : forall t I (inext : I -> res (option (Z * Z) * I)) it f x n r q, yields inext it f -> gpositive f -> gconverges f x ->
  nth_item (gconv_next t inext) n (gcf_convergents it) = Ok (Some r) -> nth_item (gconv_next t inext) (S (S n)) (gcf_convergents it) = Ok (Some q) ->
  (Rabs (x - rval q) < Rabs (x - rval r))%R.
Proof. exact L_C88_closer. Qed.
Print Assumptions C88_closer.

Example C88_next_case : yields (from_fn (fun n => (1, root2 n))) O (fun n => (1, root2 n)) /\ gpositive (fun n => (1, root2 n)) /\ gconverges (fun n => (1, root2 n)) (sqrt 2) /\
  nth_item (gconv_next BigI (from_fn (fun n => (1, root2 n)))) 3 (gcf_convergents O) = Ok (Some (Ratio 17 12)) /\
  nth_item (gconv_next BigI (from_fn (fun n => (1, root2 n)))) 4 (gcf_convergents O) = Ok (Some (Ratio 41 29)).
Proof.
  destruct L_C57_refuted as (r & Y & P & C & _).
  split; [exact Y|split; [exact P|split; [exact C|split; vm_compute; reflexivity]]].
Qed.

(** Each further convergent of pi divides the error by 5 at least, over every integer type *)
Theorem C88_pi : forall t n r, nth_item (gconv_next t (pi_next t)) (S n) (gcf_convergents pi_gfrac) = Ok (Some r) -> (0 < Rabs (PI - rval r) < (/ 5) ^ n)%R.
Proof. exact L_C88_pi. Qed.
Print Assumptions C88_pi.

Theorem C88_pi_sides : forall t n r, nth_item (gconv_next t (pi_next t)) n (gcf_convergents pi_gfrac) = Ok (Some r) -> if Nat.even n then (rval r < PI)%R else (PI < rval r)%R.
Proof. exact L_C88_pi_sides. Qed.
Print Assumptions C88_pi_sides.

(** What approximated() gives for pi *)
Theorem C88_pi_approximated : forall t fuel limit v, 1 <= limit -> gcf_approximated t (pi_next t) fuel pi_gfrac limit = Ok v ->
  exists m r, (v = Exact r \/ v = Approximated r) /\ lowest r /\ denom r <= limit /\ nth_item (gconv_next t (pi_next t)) m (gcf_convergents pi_gfrac) = Ok (Some r) /\
    (0 < Rabs (PI - rval r) < 5 * (/ 5) ^ m)%R /\
    (v = Approximated r -> exists q, nth_item (gconv_next t (pi_next t)) (S m) (gcf_convergents pi_gfrac) = Ok (Some q) /\ limit <= denom q).
Proof. exact L_C88_pi_approximated. Qed.
Print Assumptions C88_pi_approximated.

Example C88_pi_case : nth_item (gconv_next (SInt 64) (pi_next (SInt 64))) 6 (gcf_convergents pi_gfrac) = Ok (Some (Ratio 644 205)) /\
  gcf_approximated (SInt 64) (pi_next (SInt 64)) 20 pi_gfrac 1000 = Ok (Approximated (Ratio 2529 805)).
Proof. split; vm_compute; reflexivity. Qed.

(** Taylor's bound for exp *)
Theorem C88_exp : forall t x n r, nth_item (gconv_next t (exp_next t)) n (gcf_convergents (gcf_exp x)) = Ok (Some r) ->
  (Rabs (exp (IZR x) - rval r) <= Rabs (IZR x) ^ S n / INR (fact (S n)) * Rmax 1 (exp (IZR x)))%R.
Proof. exact L_C88_exp. Qed.
Print Assumptions C88_exp.

Example C88_exp_case : nth_item (gconv_next (SInt 32) (exp_next (SInt 32))) 5 (gcf_convergents (gcf_exp (-1))) = Ok (Some (Ratio 11 30)).
Proof. vm_compute. reflexivity. Qed.

(** Collecting the first coefficients of an endless source into a continued fraction *)
Theorem C88_collect : forall g t I (inext : I -> res (option Z * I)) it f x l z, yields inext it f -> csigned 1 f -> cconverges f x -> l <> nil ->
  (forall j, (j < length l)%nat -> nth_item inext j it = Ok (nth_error l j)) -> fits t 1 = true -> List.Forall (fun v => fits t v = true) l ->
  cf_from_iter g t l = Ok z ->
  canonical z /\ exists r, lowest r /\ rval r = cf_val z /\ (0 < Rabs (x - rval r) < / (IZR (denom r) * IZR (denom r)))%R.
Proof. exact L_C88_collect. Qed.
Print Assumptions C88_collect.

Theorem C88_collect_returns : forall g f n, csigned 1 f -> returns (cf_from_iter g BigI (prefix f (S n))).
Proof. exact L_C88_collect_returns. Qed.
Print Assumptions C88_collect_returns.

(** The first 3 k + 3 coefficients of E *)
Theorem C88_e : forall g t k l z, length l = (3 * k + 3)%nat -> (forall j, (j < length l)%nat -> nth_item (e_next t) j e_cfrac = Ok (nth_error l j)) ->
  fits t 1 = true -> List.Forall (fun v => fits t v = true) l -> cf_from_iter g t l = Ok z ->
  (0 < Rabs (exp 1 - cf_val z) < / ((2 ^ S k * INR (fact (S k))) * (2 ^ S k * INR (fact (S k)))))%R.
Proof. exact L_C88_e. Qed.
Print Assumptions C88_e.

Example C88_e_case : (forall j, (j < 6)%nat -> nth_item (e_next (SInt 32)) j e_cfrac = Ok (nth_error [2; 1; 2; 1; 1; 4] j)) /\
  List.Forall (fun v => fits (SInt 32) v = true) [2; 1; 2; 1; 1; 4] /\ cf_from_iter (Cfg false true) (SInt 32) [2; 1; 2; 1; 1; 4] = Ok (CF [2; 1; 2; 1; 1; 4] nil false).
Proof.
  split; [intros j Hj; do 6 (destruct j as [|j]; [vm_compute; reflexivity|]); lia|]. split; [repeat constructor|vm_compute; reflexivity].
Qed.
