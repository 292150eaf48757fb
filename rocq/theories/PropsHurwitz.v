(** * PropsHurwitz: how close the convergents come, and that nothing comes closer (C100). *)

From Coq Require Import ZArith Reals Lia Lra List.
From Coquelicot Require Import Coquelicot.
From Verif Require Import Base Ext ModelSurd ModelBlock ModelCF ModelConv Spec SpecCF SurdDecide NumFacts ClaimsCF ClaimsHurwitz.
Import ListNotations.
Open Scope Z_scope.

(** The error of a convergent lies between these bounds *)
Theorem C100_bounds : forall x n r s, wfcf x -> ~ finite x -> nth_item (conv_next BigU) n (cf_convergents x) = Ok (Some r) ->
  nth_item (conv_next BigU) (S n) (cf_convergents x) = Ok (Some s) ->
  (/ (IZR (denom r) * (IZR (denom r) + IZR (denom s))) < Rabs (cf_val x - rval r) < / (IZR (denom r) * IZR (denom s)))%R /\
  (Rabs (cf_val x - rval r) + Rabs (cf_val x - rval s) = / (IZR (denom r) * IZR (denom s)))%R.
Proof. exact L_C100_bounds. Qed.
Print Assumptions C100_bounds.

(** The next coefficient says how close a convergent is *)
Theorem C100_coefficient : forall x n r a, wfcf x -> ~ finite x -> nth_item (conv_next BigU) n (cf_convergents x) = Ok (Some r) -> coeff_at x (S n) = Some a ->
  (/ (IZR (a + 2) * (IZR (denom r) * IZR (denom r))) < Rabs (cf_val x - rval r) < / (IZR a * (IZR (denom r) * IZR (denom r))))%R.
Proof. exact L_C100_coefficient. Qed.
Print Assumptions C100_coefficient.

(** Of two consecutive convergents at least one is closer than 1/(2 q^2) *)
Theorem C100_two : forall x n r s, wfcf x -> ~ finite x -> nth_item (conv_next BigU) n (cf_convergents x) = Ok (Some r) ->
  nth_item (conv_next BigU) (S n) (cf_convergents x) = Ok (Some s) ->
  exists u, (u = r \/ u = s) /\ (Rabs (cf_val x - rval u) < / (2 * (IZR (denom u) * IZR (denom u))))%R.
Proof. exact L_C100_two. Qed.
Print Assumptions C100_two.

(** Of three consecutive convergents at least one is closer than 1/(sqrt 5 q^2) *)
Theorem C100_three : forall x n r s w, wfcf x -> ~ finite x -> nth_item (conv_next BigU) n (cf_convergents x) = Ok (Some r) ->
  nth_item (conv_next BigU) (S n) (cf_convergents x) = Ok (Some s) -> nth_item (conv_next BigU) (S (S n)) (cf_convergents x) = Ok (Some w) ->
  exists u, (u = r \/ u = s \/ u = w) /\ (Rabs (cf_val x - rval u) < / (sqrt 5 * (IZR (denom u) * IZR (denom u))))%R.
Proof. exact L_C100_three. Qed.
Print Assumptions C100_three.

(** For the golden ratio no constant above sqrt 5 will do: only finitely many fractions are that close *)
Theorem C100_golden : forall c, (sqrt 5 < c)%R -> exists N, forall p q, 0 < q -> N <= q -> (/ (c * (IZR q * IZR q)) < Rabs ((1 + sqrt 5) / 2 - IZR p / IZR q))%R.
Proof. exact L_C100_golden. Qed.
Print Assumptions C100_golden.

(** No fraction at all comes closer than the largest coefficient after the first allows *)
Theorem C100_far : forall x A p q, wfcf x -> ~ finite x -> (forall a, In a (tl (a_coeffs x) ++ p_coeffs x) -> a <= A) -> 0 < q ->
  (/ (IZR (A + 2) * (IZR q * IZR q)) < Rabs (cf_val x - IZR p / IZR q))%R.
Proof. exact L_C100_far. Qed.
Print Assumptions C100_far.

(** The same for a surd and the fraction made from it *)
Theorem C100_surd : forall g t fuel s v x A p q, fits t 1 = true -> normal g s -> sval s = RtoC v -> cf_domain v -> surd_to_cf g t fuel s = Ok (Some x) ->
  (forall a, In a (tl (a_coeffs x) ++ p_coeffs x) -> a <= A) -> 0 < q ->
  (/ (IZR (A + 2) * (IZR q * IZR q)) < Rabs (v - IZR p / IZR q))%R.
Proof. exact L_C100_surd. Qed.
Print Assumptions C100_surd.

(** Every real irrational surd keeps such a distance from all fractions *)
Theorem C100_any_surd : forall g s v, normal g s -> sval s = RtoC v -> ~ rational_real v ->
  exists A, 0 < A /\ forall p q, 0 < q -> (/ (IZR A * (IZR q * IZR q)) < Rabs (v - IZR p / IZR q))%R.
Proof. exact L_C100_any_surd. Qed.
Print Assumptions C100_any_surd.

(** sqrt 7 = [2; (1, 1, 1, 4)] with the convergents 8/3, 37/14, 45/17; no fraction is closer to it than 1/(6 q^2) *)
Example C100_case : let x := CF [2] [1; 1; 1; 4] false in wfcf x /\ ~ finite x /\
  map (fun n => nth_item (conv_next BigU) n (cf_convergents x)) [3; 4; 5]%nat = map (fun r => Ok (Some r)) [Ratio 8 3; Ratio 37 14; Ratio 45 17] /\
  coeff_at x 4 = Some 4 /\ forall a, In a (tl (a_coeffs x) ++ p_coeffs x) -> a <= 4.
Proof.
  cbv zeta. split; [cbn; repeat split; try lia; repeat constructor; lia|]. split; [discriminate|]. split; [vm_compute; reflexivity|]. split; [reflexivity|].
  cbn. intros a H. intuition lia.
Qed.

(** sqrt 8 = 2 sqrt 2 = [2; (1, 4)] *)
Example C100_case_surd : let s := Surd (SCo 0 2 1) 2 in let v := ((IZR 0 + IZR 2 * sqrt 2) / IZR 1)%R in
  normal (Cfg false true) s /\ sval s = RtoC v /\ cf_domain v /\ ~ rational_real v /\ surd_to_cf (Cfg false true) (SInt 32) 20 s = Ok (Some (CF [2] [1; 4] false)).
Proof.
  cbv zeta. pose proof sqrt2_bounds as B. split; [apply normalb_ok; reflexivity|]. split; [apply sval_root2; lia|].
  split; [apply (dom_sqrt2 _ 0 2 1 2); try lia; try reflexivity; rewrite ?plus_IZR, ?mult_IZR; lra|]. split; [apply (conj_sqrt2 0 2 1); lia|]. vm_compute. reflexivity.
Qed.
