(** * PropsRecipe: every irrational real surd can be converted, with a few calls more (C102). *)

From Coq Require Import ZArith Reals Lia Lra List.
From Coquelicot Require Import Coquelicot.
From Verif Require Import Base Ext ModelSurd ModelBlock ModelCF ModelConv Spec SpecCF SpecRecipe SurdDecide CFArith ClaimsCF ClaimsRecipe.
Import ListNotations.
Open Scope Z_scope.

(** Whatever the program returns is the continued fraction of the number, for all irrational real surds and integer types *)
Theorem C102_right : forall g t fuel s x X, fits t 1 = true -> normal g s -> sval s = RtoC x -> ~ rational_real x -> convert_any g t fuel s = Ok X ->
  exists z, X = Some z /\ canonical z /\ ~ finite z /\ cf_val z = x.
Proof. exact L_C102_right. Qed.
Print Assumptions C102_right.

(** Over arbitrary precision it always returns *)
Theorem C102_returns : forall g s x, normal g s -> sval s = RtoC x -> ~ rational_real x ->
  exists n0, forall fuel, (n0 <= fuel)%nat -> exists X, convert_any g BigI fuel s = Ok X.
Proof. exact L_C102_returns. Qed.
Print Assumptions C102_returns.

(** Where the library's own conversion is right, the coefficients are the same *)
Theorem C102_agrees : forall g t u fuel fuel' s x y z, fits t 1 = true -> fits u 1 = true -> normal g s -> sval s = RtoC x -> cf_wide x ->
  surd_to_cf g t fuel s = Ok (Some y) -> convert_any g u fuel' s = Ok (Some z) ->
  negative y = negative z /\ forall n, coeff_at y n = coeff_at z n.
Proof. exact L_C102_agrees. Qed.
Print Assumptions C102_agrees.

(** The loop ends where the conjugate is negative; from there on the library's own conversion is right, over arbitrary precision with an answer *)
Theorem C102_loop : forall g t fuel s x l q, normal g s -> sval s = RtoC x -> ~ rational_real x -> (0 < x)%R -> unroll g t fuel s = Ok (l, q) ->
  exists y, normal g q /\ sval q = RtoC y /\ (0 < y)%R /\ cf_domain y.
Proof. exact L_C102_loop. Qed.
Print Assumptions C102_loop.

(** The surds for which the library's conversion gives the fraction of the conjugate, the wrong sign, and no answer *)
Example C102_case : map (fun s => surd_to_cf (Cfg false true) (SInt 64) 50 s) [Surd (SCo 3 (-1) 2) 2; Surd (SCo (-6) 4 1) 2; Surd (SCo 2 (-1) 1) 2] =
    [Ok (Some (CF [2] [4; 1] false)); Ok (Some (CF [0; 2; 1] [10; 1; 1; 1] false)); Hang] /\
  map (fun s => convert_any (Cfg false true) (SInt 64) 50 s) [Surd (SCo 3 (-1) 2) 2; Surd (SCo (-6) 4 1) 2; Surd (SCo 2 (-1) 1) 2] =
    [Ok (Some (CF [0; 1; 3] [1; 4] false)); Ok (Some (CF [0; 2; 1] [10; 1; 1; 1] true)); Ok (Some (CF [0; 1; 1] [2] false))].
Proof. split; vm_compute; reflexivity. Qed.

Example C102_case_number : let s := Surd (SCo 3 (-1) 2) 2 in let v := ((IZR 3 + IZR (-1) * sqrt 2) / IZR 2)%R in
  normal (Cfg false true) s /\ sval s = RtoC v /\ ~ rational_real v /\ (0 < v)%R /\ ~ cf_wide v.
Proof.
  cbv zeta. pose proof sqrt2_bounds as B. split; [apply normalb_ok; reflexivity|]. split; [apply sval_root2; lia|]. split; [apply irr_sqrt2; lia|]. split; [lra|].
  intros (xc & C & W). apply W. rewrite <- (conjugate_unique _ _ _ (conj_sqrt2 3 (-1) 2 ltac:(lia) ltac:(lia)) C). left. lra.
Qed.
