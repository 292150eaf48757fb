(** * PropsCalc: all real surds and all continued fractions convert into each other, and one can calculate with fractions (C106). *)

From Coq Require Import ZArith Reals Lia Lra List.
From Coquelicot Require Import Coquelicot.
From Verif Require Import Base Ext ModelSurd ModelBlock ModelCF ModelConv Spec SpecCF SpecRebase SpecCompare SpecCalc ClaimsApi ClaimsCalc.
Import ListNotations.
Open Scope Z_scope.

(** Every real surd, rational or not, becomes the canonical continued fraction of the same number *)
Theorem C106_convert : forall g t fuel s x X, fits t 1 = true -> normal g s -> sval s = RtoC x -> convert_all g t fuel s = Ok X ->
  exists z, X = Some z /\ canonical z /\ cf_val z = x.
Proof. exact L_C106_convert. Qed.
Print Assumptions C106_convert.

(** Every continued fraction, finite or periodic, becomes the surd of the same number *)
Theorem C106_return : forall g u x s, fits (sty u) 1 = true -> wfcf x -> held u x -> return_all g u x = Ok s -> normal g s /\ sval s = RtoC (cf_val x).
Proof. exact L_C106_return. Qed.
Print Assumptions C106_return.

(** Over arbitrary precision both ways always work, one after the other in both orders *)
Theorem C106_there_and_back : forall g s x, normal g s -> sval s = RtoC x ->
  exists n0, forall fuel, (n0 <= fuel)%nat -> exists z r, convert_all g BigI fuel s = Ok (Some z) /\ return_all g BigU z = Ok r /\ normal g r /\ sval r = sval s.
Proof. exact L_C106_there_and_back. Qed.
Print Assumptions C106_there_and_back.

Theorem C106_back_and_there : forall g x, canonical x ->
  exists s n0, return_all g BigU x = Ok s /\ forall fuel, (n0 <= fuel)%nat -> exists z, convert_all g BigI fuel s = Ok (Some z) /\ negative z = negative x /\ forall n, coeff_at z n = coeff_at x n.
Proof. exact L_C106_back_and_there. Qed.
Print Assumptions C106_back_and_there.

(** Calculating with continued fractions through surds is exact *)
Theorem C106_calc : forall g u fuel x y X, fits (sty u) 1 = true -> wfcf x -> wfcf y -> held u x -> held u y ->
  (calc g u (add_any g (sty u)) fuel x y = Ok X -> exists z, X = Some z /\ canonical z /\ cf_val z = (cf_val x + cf_val y)%R) /\
  (calc g u (sub_any g (sty u)) fuel x y = Ok X -> exists z, X = Some z /\ canonical z /\ cf_val z = (cf_val x - cf_val y)%R) /\
  (calc g u (mul_any g (sty u)) fuel x y = Ok X -> exists z, X = Some z /\ canonical z /\ cf_val z = (cf_val x * cf_val y)%R) /\
  (calc g u (div_any g (sty u)) fuel x y = Ok X -> cf_val y <> 0%R -> exists z, X = Some z /\ canonical z /\ cf_val z = (cf_val x / cf_val y)%R).
Proof. exact L_C106_calc. Qed.
Print Assumptions C106_calc.

(** and over arbitrary precision possible for any two fractions of one field *)
Theorem C106_calc_returns : forall g x y, wfcf x -> wfcf y -> one_field (cf_val x) (cf_val y) -> exists n0, forall fuel, (n0 <= fuel)%nat ->
  returns (calc g BigU (add_any g BigI) fuel x y) /\ returns (calc g BigU (sub_any g BigI) fuel x y) /\ returns (calc g BigU (mul_any g BigI) fuel x y) /\ (cf_val y <> 0%R -> returns (calc g BigU (div_any g BigI) fuel x y)).
Proof. exact L_C106_calc_returns. Qed.
Print Assumptions C106_calc_returns.

(** Any two fractions can be compared *)
Theorem C106_order : forall g u fuel x y c, fits (sty u) 1 = true -> wfcf x -> wfcf y -> held u x -> held u y -> order_fractions g u fuel x y = Ok c -> is_order c (cf_val x) (cf_val y).
Proof. exact L_C106_order. Qed.
Print Assumptions C106_order.

Theorem C106_order_returns : forall g x y, wfcf x -> wfcf y -> exists n0, forall fuel, (n0 <= fuel)%nat -> returns (order_fractions g BigU fuel x y).
Proof. exact L_C106_order_returns. Qed.
Print Assumptions C106_order_returns.

(** The hypothesis on the width is no restriction over arbitrary precision *)
Theorem C106_held : forall x, wfcf x -> held BigU x.
Proof. exact L_C106_held. Qed.
Print Assumptions C106_held.

Example C106_case : let g := Cfg false true in let u := UInt 64 in let x := CF [1] [2] false in let y := CF [0; 1; 1] [2] false in let w := CF [2] [1; 4] false in let q := CF [3; 7] [] true in
  map (return_all g u) [x; y; w; q] = [Ok (Surd (SCo 0 1 1) 2); Ok (Surd (SCo 2 (-1) 1) 2); Ok (Surd (SCo 0 1 1) 8); Ok (Surd (SCo (-22) 0 7) 0)] /\
  calc g u (add_any g (SInt 64)) 60 x y = Ok (Some (CF [2] [] false)) /\ calc g u (mul_any g (SInt 64)) 60 x y = Ok (Some (CF [0] [1; 4] false)) /\
  calc g u (div_any g (SInt 64)) 60 x x = Ok (Some (CF [1] [] false)) /\ calc g u (add_any g (SInt 64)) 60 x w = Ok (Some (CF [4] [4; 8] false)) /\
  order_fractions g u 50 x y = Ok Gt /\ order_fractions g u 50 q x = Ok Lt /\ order_fractions g u 50 x (CF [1; 2] [2; 2] false) = Ok Eq /\
  cf_sub g u 60 (CF [3] [] false) x = Hang /\ cf_add g u 60 x y = Panic PDebugAssert.
Proof. cbv zeta. repeat split; vm_compute; reflexivity. Qed.

Example C106_case_number : let x := CF [1] [2] false in let y := CF [3; 7] [] true in
  canonical x /\ canonical y /\ one_field (cf_val x) (cf_val y) /\ one_field (cf_val x) (cf_val x) /\ held (UInt 64) x.
Proof.
  cbv zeta. assert (A : canonical (CF [1] [2] false)) by (split; [cbn; repeat split; try lia; repeat constructor; lia|split; cbn; [discriminate|discriminate]]).
  assert (B : canonical (CF [3; 7] [] true)) by (split; [cbn; repeat split; try lia; repeat constructor; lia|split; cbn; [intros _ _; discriminate|discriminate]]).
  split; [auto|]. split; [auto|]. split; [right; left; apply fin_rational; [apply B|reflexivity]|]. split.
  - right. right. exists 0%R, 1%R. split; [exists 0, 1; split; [lia|lra]|]. split; [exists 1, 1; split; [lia|lra]|lra].
  - split; [intros K; discriminate K|intros _; cbn; lia].
Qed.
