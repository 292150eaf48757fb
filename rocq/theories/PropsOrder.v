(** * PropsOrder: comparing coefficients compares numbers (C101). *)

From Coq Require Import ZArith Reals Lia Lra List.
From Coquelicot Require Import Coquelicot.
From Verif Require Import Base Ext ModelSurd ModelBlock ModelCF ModelConv Spec SpecCF SpecOrder SurdDecide NumFacts CFArith ClaimsCF ClaimsOrder.
Import ListNotations.
Open Scope Z_scope.

(** Of two canonical fractions, finite or periodic, the one that comes before the other has the smaller value *)
Theorem C101_order : forall x y, canonical x -> canonical y -> ((cf_val x < cf_val y)%R <-> comes_before x y).
Proof. exact L_C101_order. Qed.
Print Assumptions C101_order.

(** They have the same value exactly if sign and all coefficients are the same *)
Theorem C101_equal : forall x y, canonical x -> canonical y ->
  (cf_val x = cf_val y <-> negative x = negative y /\ forall n, coeff_at x n = coeff_at y n).
Proof. exact L_C101_equal. Qed.
Print Assumptions C101_equal.

(** One place is enough: if the coefficients agree up to it and differ there, the order is known *)
Theorem C101_place : forall x y n a b, canonical x -> canonical y -> negative x = false -> negative y = false ->
  (forall k, (k < n)%nat -> coeff_at x k = coeff_at y k) -> coeff_at x n = Some a -> coeff_at y n = Some b -> a < b ->
  if Nat.even n then (cf_val x < cf_val y)%R else (cf_val y < cf_val x)%R.
Proof. exact L_C101_place. Qed.
Print Assumptions C101_place.

(** Two surds compare as the fractions converted from them *)
Theorem C101_surds : forall g h t u fuel fuel' s r v w x y, fits t 1 = true -> fits u 1 = true -> normal g s -> normal h r -> sval s = RtoC v -> sval r = RtoC w ->
  cf_wide v -> cf_wide w -> surd_to_cf g t fuel s = Ok (Some x) -> surd_to_cf h u fuel' r = Ok (Some y) ->
  ((v < w)%R <-> comes_before x y).
Proof. exact L_C101_surds. Qed.
Print Assumptions C101_surds.

(** Where the difference of two surds can be taken, is_positive of it is the comparison of their coefficients *)
Theorem C101_difference : forall g t t' t'' u fuel fuel' s r d b v w x y, fits t 1 = true -> fits u 1 = true -> normal g s -> normal g r -> sval s = RtoC v -> sval r = RtoC w ->
  cf_wide v -> cf_wide w -> surd_to_cf g t fuel s = Ok (Some x) -> surd_to_cf g u fuel' r = Ok (Some y) ->
  surd_sub g t' s r = Ok d -> surd_is_positive g t'' d = Ok b -> (b = true <-> comes_before y x).
Proof. exact L_C101_difference. Qed.
Print Assumptions C101_difference.

(** 5/2 = [2; 2] < [2; (1, 1, 1, 4)] = sqrt 7 < 8/3 = [2; 1, 2], and -8/3 < -5/2 < 1 *)
Example C101_case : let x := CF [2; 2] [] false in let y := CF [2] [1; 1; 1; 4] false in let z := CF [2; 1; 2] [] false in
  canonical x /\ canonical y /\ canonical z /\ comes_before x y /\ comes_before y z /\ comes_before (CF [2; 1; 2] [] true) (CF [2; 2] [] true) /\ comes_before (CF [2; 2] [] true) (CF [1] [] false).
Proof.
  cbv zeta. split; [split; [cbn; repeat split; try lia; repeat constructor; lia|split; [cbn; intros; discriminate || lia|cbn; intros; discriminate || reflexivity]]|]. split; [split; [cbn; repeat split; try lia; repeat constructor; lia|split; [cbn; intros; discriminate || lia|cbn; intros; discriminate || reflexivity]]|]. split; [split; [cbn; repeat split; try lia; repeat constructor; lia|split; [cbn; intros; discriminate || lia|cbn; intros; discriminate || reflexivity]]|].
  split; [exists 1%nat; split; [intros [|k] Hk; [reflexivity|lia]|cbn; lia]|].
  split; [exists 2%nat; split; [intros [|[|k]] Hk; [reflexivity|reflexivity|lia]|cbn; lia]|].
  split; [exists 1%nat; split; [intros [|k] Hk; [reflexivity|lia]|cbn; lia]|exact I].
Qed.

(** sqrt 8 = 2 sqrt 2 = [2; (1, 4)] and (1 + sqrt 2)/2 = [1; (4, 1)] *)
Example C101_case_surds : let s := Surd (SCo 0 2 1) 2 in let r := Surd (SCo 1 1 2) 2 in let v := ((IZR 0 + IZR 2 * sqrt 2) / IZR 1)%R in let w := ((IZR 1 + IZR 1 * sqrt 2) / IZR 2)%R in
  normal (Cfg false true) s /\ normal (Cfg false true) r /\ sval s = RtoC v /\ sval r = RtoC w /\ cf_wide v /\ cf_wide w /\
  surd_to_cf (Cfg false true) (SInt 32) 20 s = Ok (Some (CF [2] [1; 4] false)) /\ surd_to_cf (Cfg false true) (SInt 32) 20 r = Ok (Some (CF [1] [4; 1] false)) /\
  (let! d := surd_sub (Cfg false true) (SInt 32) s r in surd_is_positive (Cfg false true) (SInt 32) d) = Ok true /\
  comes_before (CF [1] [4; 1] false) (CF [2] [1; 4] false).
Proof.
  cbv zeta. pose proof sqrt2_bounds as B. split; [apply normalb_ok; reflexivity|]. split; [apply normalb_ok; reflexivity|].
  split; [apply sval_root2; lia|]. split; [apply sval_root2; lia|]. split; [apply cf_domain_wide, (dom_sqrt2 _ 0 2 1 2); try lia; try reflexivity; rewrite ?plus_IZR, ?mult_IZR; lra|].
  split; [apply cf_domain_wide, (dom_sqrt2 _ 1 1 2 1); try lia; try reflexivity; rewrite ?plus_IZR, ?mult_IZR; lra|].
  split; [vm_compute; reflexivity|]. split; [vm_compute; reflexivity|]. split; [vm_compute; reflexivity|]. exists 0%nat. split; [lia|cbn; lia].
Qed.
