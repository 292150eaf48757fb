(** * PropsSerret: numbers related by an integer transformation of determinant 1 or -1 have the same coefficients from some place on (C99). *)

From Coq Require Import ZArith Reals Lia Lra List.
From Coquelicot Require Import Coquelicot.
From Verif Require Import Base Ext ModelSurd ModelBlock ModelCF ModelConv ModelGen Spec SpecCF SpecGen SpecSerret SurdDecide NumFacts ClaimsCF ClaimsSerret.
Import ListNotations.
Open Scope Z_scope.

(** Two periodic fractions have the same coefficients from some place on exactly if their values are equivalent *)
Theorem C99_fractions : forall x y, wfcf x -> wfcf y -> ~ finite x -> ~ finite y -> (equivalent (cf_val x) (cf_val y) <-> same_tail x y).
Proof. exact L_C99_fractions. Qed.
Print Assumptions C99_fractions.

(** Two surds are equivalent exactly if the periods of the fractions made from them are the same list, begun at another place *)
Theorem C99_surds : forall g h t u fuel fuel' s r v w x y, fits t 1 = true -> fits u 1 = true -> normal g s -> normal h r -> sval s = RtoC v -> sval r = RtoC w ->
  cf_domain v -> cf_domain w -> surd_to_cf g t fuel s = Ok (Some x) -> surd_to_cf h u fuel' r = Ok (Some y) ->
  (equivalent v w <-> rotation (p_coeffs x) (p_coeffs y)).
Proof. exact L_C99_surds. Qed.
Print Assumptions C99_surds.

(** In particular -s, 1/s, s + k and s - k have the period of s, up to the place where it begins *)
Theorem C99_operations : forall g t t' u fuel fuel' s r k v w x y, fits t 1 = true -> fits u 1 = true -> normal g s -> sval s = RtoC v -> sval r = RtoC w ->
  surd_neg t' s = Ok r \/ surd_recip g t' s = Ok r \/ surd_add_int g t' s k = Ok r \/ surd_sub_int g t' s k = Ok r ->
  cf_domain v -> cf_domain w -> surd_to_cf g t fuel s = Ok (Some x) -> surd_to_cf g u fuel' r = Ok (Some y) ->
  rotation (p_coeffs x) (p_coeffs y).
Proof. exact L_C99_operations. Qed.
Print Assumptions C99_operations.

(** homo(a, b, c, d) with determinant 1 or -1: what comes out are, from some item on and up to one sign, the coefficients that go in *)
Theorem C99_homo : forall I (inext : I -> res (option Z * I)) it f e a b c d, e = 1 \/ e = -1 ->
  yields inext it f -> (forall n, (1 <= n)%nat -> 1 <= e * f n) -> Z.abs (a * d - b * c) = 1 ->
  exists h i j e', (e' = 1 \/ e' = -1) /\ (forall n, h (i + n)%nat = e' * f (j + n)%nat) /\
    (forall n, exists fuel, forall fuel', (fuel <= fuel')%nat -> nth_item (homo_next BigI inext fuel') n (icf_homo it a b c d) = Ok (Some (h n))) /\
    (forall t fuel n v, nth_item (homo_next t inext fuel) n (icf_homo it a b c d) = Ok (Some v) -> v = h n).
Proof. exact L_C99_homo. Qed.
Print Assumptions C99_homo.

(** On a stored fraction: x.coeffs_signed().homo(a, b, c, d) becomes periodic, with the period of x *)
Theorem C99_homo_stored : forall u x a b c d, wfcf x -> ~ finite x -> coeffs_fit u x -> Z.abs (a * d - b * c) = 1 ->
  exists i j e, (e = 1 \/ e = -1) /\
    (forall n v, coeff_at x (j + n) = Some v -> exists fuel, forall fuel', (fuel <= fuel')%nat -> nth_item (homo_next BigI (signed_next u) fuel') (i + n) (icf_homo (cf_coeffs x) a b c d) = Ok (Some (e * v))) /\
    (forall t fuel n v w, coeff_at x (j + n) = Some v -> nth_item (homo_next t (signed_next u) fuel) (i + n) (icf_homo (cf_coeffs x) a b c d) = Ok (Some w) -> w = e * v).
Proof. exact L_C99_homo_stored. Qed.
Print Assumptions C99_homo_stored.

(** sqrt 8 = 2 sqrt 2 = [2; (1, 4)] and 1/(sqrt 8 - 2) = (1 + sqrt 2)/2 = [1; (4, 1)] *)
Example C99_case : let s := Surd (SCo 0 2 1) 2 in let r := Surd (SCo 1 1 2) 2 in let v := ((IZR 0 + IZR 2 * sqrt 2) / IZR 1)%R in let w := ((IZR 1 + IZR 1 * sqrt 2) / IZR 2)%R in
  normal (Cfg false true) s /\ normal (Cfg false true) r /\ sval s = RtoC v /\ sval r = RtoC w /\ cf_domain v /\ cf_domain w /\ equivalent v w /\
  surd_to_cf (Cfg false true) (SInt 32) 20 s = Ok (Some (CF [2] [1; 4] false)) /\ surd_to_cf (Cfg false true) (SInt 32) 20 r = Ok (Some (CF [1] [4; 1] false)) /\
  (let! u := surd_sub_int (Cfg false true) (SInt 32) s 2 in surd_recip (Cfg false true) (SInt 32) u) = Ok r.
Proof.
  cbv zeta. pose proof sqrt2_bounds as B. split; [apply normalb_ok; reflexivity|]. split; [apply normalb_ok; reflexivity|].
  split; [apply sval_root2; lia|]. split; [apply sval_root2; lia|]. split; [apply (dom_sqrt2 _ 0 2 1 2); try lia; try reflexivity; rewrite ?plus_IZR, ?mult_IZR; lra|].
  split; [apply (dom_sqrt2 _ 1 1 2 1); try lia; try reflexivity; rewrite ?plus_IZR, ?mult_IZR; lra|]. split.
  - exists 0, 1, 1, (-2). split; [reflexivity|]. assert (Q : (sqrt 2 * sqrt 2 = 2)%R) by (apply sqrt_sqrt; lra).
    set (q := sqrt 2) in *. clearbody q. apply (Rmult_eq_reg_r (2 * q - 2)); [|lra]. transitivity (q * q - 1)%R; [field|]. rewrite Q. field. lra.
  - split; [vm_compute; reflexivity|]. split; [vm_compute; reflexivity|]. vm_compute. reflexivity.
Qed.

(** sqrt 2 = [1; (2)] is not equivalent to sqrt 8 = [2; (1, 4)] *)
Example C99_case_other : ~ equivalent ((IZR 0 + IZR 1 * sqrt 2) / IZR 1) ((IZR 0 + IZR 2 * sqrt 2) / IZR 1).
Proof.
  pose proof sqrt2_bounds as B. intros E.
  apply (C99_surds (Cfg false true) (Cfg false true) (SInt 32) (SInt 32) 20 20 (Surd (SCo 0 1 1) 2) (Surd (SCo 0 2 1) 2) _ _ (CF [1] [2] false) (CF [2] [1; 4] false)) in E.
  - destruct E as (l1 & l2 & E1 & E2). cbn [p_coeffs] in E1, E2. apply (f_equal (@length Z)) in E1, E2. rewrite app_length in E1, E2. cbn in E1, E2. lia.
  - reflexivity.
  - reflexivity.
  - apply normalb_ok. reflexivity.
  - apply normalb_ok. reflexivity.
  - apply sval_root2. lia.
  - apply sval_root2. lia.
  - apply (dom_sqrt2 _ 0 1 1 1); try lia; try reflexivity; rewrite ?plus_IZR, ?mult_IZR; lra.
  - apply (dom_sqrt2 _ 0 2 1 2); try lia; try reflexivity; rewrite ?plus_IZR, ?mult_IZR; lra.
  - vm_compute. reflexivity.
  - vm_compute. reflexivity.
Qed.

(** (3 x + 2)/(4 x + 3) for x = [2; (1, 1, 1, 4)] = sqrt 7: from the sixth item on, the coefficients of x from the second *)
Example C99_case_homo : let x := CF [2] [1; 1; 1; 4] false in wfcf x /\ ~ finite x /\ coeffs_fit (UInt 64) x /\ Z.abs (3 * 3 - 2 * 4) = 1 /\
  map (fun n => nth_item (homo_next (SInt 64) (signed_next (UInt 64)) 40) n (icf_homo (cf_coeffs x) 3 2 4 3)) (seq 0 12) = map (fun v => Ok (Some v)) [0; 1; 2; 1; 2; 1; 1; 1; 4; 1; 1; 1].
Proof.
  cbv zeta. split; [cbn; repeat split; try lia; repeat constructor; lia|]. split; [discriminate|]. split; [split; repeat constructor; cbn; lia|]. split; [reflexivity|]. vm_compute. reflexivity.
Qed.
