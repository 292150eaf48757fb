(** * ClaimsGalois: proofs of the property theorems in PropsGalois.v. *)

From Coq Require Import ZArith Znumtheory Reals Lia Lra Bool List Arith.
From Coquelicot Require Import Coquelicot.
From Verif Require Import Base Ext ModelSurd ModelBlock ModelCF ModelConv Spec SpecCF NumFacts Transfer SurdCore RatioFacts SurdArith SurdTotal SurdOrd SurdRound SurdMisc SurdConv SurdSqrt SurdDecide
  CFCore CFSeq CFIter CFBasic CFSurd CFNew CFOfSurd CFRound CFArith CFShort CFBest CFGalois CFPell.
Import ListNotations.
Open Scope Z_scope.

Lemma L_C73_square_root : forall g t fuel s x z, fits t 1 = true -> normal g s -> sval s = RtoC x -> (1 < x)%R -> ~ rational_real x -> rational_real (x * x) ->
  surd_to_cf g t fuel s = Ok (Some z) -> exists a0 l, z = CF [a0] (l ++ [2 * a0]) false /\ List.rev l = l /\ isfloor x a0.
Proof. exact sqrt_shape. Qed.

Lemma L_C73_square_root_returns : forall g s x, normal g s -> sval s = RtoC x -> (1 < x)%R -> ~ rational_real x -> rational_real (x * x) ->
  exists n0, forall fuel, (n0 <= fuel)%nat -> exists z, surd_to_cf g BigI fuel s = Ok (Some z).
Proof. intros g s x N E X1 I Q. exact (surd_to_cf_dom_total g s x N E (sqrt_domain x X1 I Q)). Qed.

Lemma L_C73_palindrome : forall a0 l, wfcf (CF [a0] (l ++ [2 * a0]) false) -> List.rev l = l -> let x := cf_val (CF [a0] (l ++ [2 * a0]) false) in
  (1 < x)%R /\ ~ rational_real x /\ rational_real (x * x).
Proof. exact palindrome_value. Qed.

Lemma L_C73_pure : forall g t fuel s x xc z, fits t 1 = true -> normal g s -> sval s = RtoC x -> conjugate x xc -> (1 < x)%R -> (-1 < xc < 0)%R ->
  surd_to_cf g t fuel s = Ok (Some z) -> exists a0 l, z = CF [a0] (l ++ [a0]) false.
Proof. exact reduced_shape. Qed.

Lemma L_C73_pure_value : forall a0 l, wfcf (CF [a0] (l ++ [a0]) false) ->
  exists xc, conjugate (cf_val (CF [a0] (l ++ [a0]) false)) xc /\ (1 < cf_val (CF [a0] (l ++ [a0]) false))%R /\ (-1 < xc < 0)%R.
Proof. exact pure_reduced. Qed.

Lemma L_C73_reverse : forall g h t u fuel fuel' s r x xc z y, fits t 1 = true -> fits u 1 = true -> normal g s -> normal h r -> sval s = RtoC x -> sval r = RtoC (- / xc) ->
  conjugate x xc -> (1 < x)%R -> (-1 < xc < 0)%R -> surd_to_cf g t fuel s = Ok (Some z) -> surd_to_cf h u fuel' r = Ok (Some y) ->
  exists a0 l b0 l', z = CF [a0] (l ++ [a0]) false /\ y = CF [b0] (l' ++ [b0]) false /\ b0 :: l' = List.rev (a0 :: l).
Proof. exact reduced_reverse. Qed.

Lemma pell_pre g t n s : 0 < n -> from_sqrt_int g t n = Ok (SqOk s) -> normal g s /\ sval s = RtoC (sqrt (IZR n)).
Proof. intros Hn E. apply from_sqrt_int_spec in E. destruct E as [V [N _]]. split; [auto|]. rewrite V. apply csqrt_nonneg. lia. Qed.

Lemma L_C74_solutions : forall g t u fuel n s z x y e, fits u 1 = true -> 0 < n -> ~ square n -> from_sqrt_int g t n = Ok (SqOk s) -> surd_to_cf g u fuel s = Ok (Some z) ->
  0 < x -> 0 < y -> e = 1 \/ e = -1 ->
  let len := length (p_coeffs z) in
  (x * x - n * (y * y) = e <-> exists k, (1 <= k)%nat /\ nth_item (conv_next BigU) (k * len - 1) (cf_convergents z) = Ok (Some (Ratio x y)) /\ e = (-1) ^ Z.of_nat (k * len)).
Proof.
  intros g t u fuel n s z x y e F Hn Hs E H Hx Hy He len. destruct (pell_pre g t n s Hn E) as [N V].
  apply (pell_iff n Hn Hs g u fuel s z F N V H x y e Hx Hy). destruct He as [-> | ->]; reflexivity.
Qed.

Lemma L_C74_smallest : forall g t u fuel n s z, fits u 1 = true -> 0 < n -> ~ square n -> from_sqrt_int g t n = Ok (SqOk s) -> surd_to_cf g u fuel s = Ok (Some z) ->
  let len := length (p_coeffs z) in
  exists x y, nth_item (conv_next BigU) ((if Nat.even len then len else 2 * len) - 1) (cf_convergents z) = Ok (Some (Ratio x y)) /\ 0 < x /\ 0 < y /\
    x * x - n * (y * y) = 1 /\ forall x' y', 0 < x' -> 0 < y' -> x' * x' - n * (y' * y') = 1 -> x <= x' /\ y <= y'.
Proof.
  intros g t u fuel n s z F Hn Hs E H len. destruct (pell_pre g t n s Hn E) as [N V]. exact (pell_least n Hn Hs g u fuel s z F N V H).
Qed.

Lemma L_C74_negative : forall g t u fuel n s z, fits u 1 = true -> 0 < n -> ~ square n -> from_sqrt_int g t n = Ok (SqOk s) -> surd_to_cf g u fuel s = Ok (Some z) ->
  ((exists x y, x * x - n * (y * y) = -1) <-> Nat.odd (length (p_coeffs z)) = true).
Proof.
  intros g t u fuel n s z F Hn Hs E H. destruct (pell_pre g t n s Hn E) as [N V]. exact (pell_negative n Hn Hs g u fuel s z F N V H).
Qed.

Lemma L_C74_returns : forall g n, 0 < n -> ~ square n -> exists s, from_sqrt_int g BigI n = Ok (SqOk s) /\
  exists n0, forall fuel, (n0 <= fuel)%nat -> exists z, surd_to_cf g BigI fuel s = Ok (Some z) /\ forall k, exists r, nth_item (conv_next BigU) k (cf_convergents z) = Ok (Some r).
Proof.
  intros g n Hn Hs. destruct (from_sqrt_int_total g n) as [o E]. destruct o as [s|d k]; [|apply from_sqrt_int_spec in E; lia]. exists s. split; [auto|].
  destruct (pell_pre g BigI n s Hn E) as [N V].
  destruct (surd_to_cf_dom_total g s _ N V (sqrt_domain _ (w_gt1 n Hn Hs) (w_irr n Hn Hs) (w_rat n Hn))) as [n0 T]. exists n0. intros fuel Hf. destruct (T fuel Hf) as [z Ez].
  exists z. split; [auto|]. intros k. eexists. exact (item n Hn Hs g BigI fuel s z eq_refl N V Ez k).
Qed.
