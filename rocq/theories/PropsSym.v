(** * PropsSym: property theorems about exp and the symbolic constants (C45-C48).

    Only statements: every theorem is closed by the lemma of the same name in
    ClaimsSym.v. *)

From Coq Require Import ZArith Reals Lia Lra Bool List Factorial.
From Coquelicot Require Import Coquelicot.
From Verif Require Import Base Ext ModelBlock ModelCF ModelGen ModelSymbols Spec SpecCF SpecGen SpecSym ClaimsGen ClaimsSym.
Import ListNotations.
Open Scope Z_scope.

(** ** C45  exp(x) *)

(** The n-th convergent is the partial sum of the exponential series, in lowest terms, for every type *)
Theorem C45_partial_sum : forall t x n r, nth_item (gconv_next t (exp_next t)) n (gcf_convergents (gcf_exp x)) = Ok (Some r) ->
  lowest r /\ rval r = sum_f_R0 (fun k => IZR x ^ k / INR (fact k))%R n.
Proof. exact L_C45_partial_sum. Qed.
Print Assumptions C45_partial_sum.

(** With arbitrary precision every convergent is produced *)
Theorem C45_returns : forall x n, exists r, nth_item (gconv_next BigI (exp_next BigI)) n (gcf_convergents (gcf_exp x)) = Ok (Some r).
Proof. exact L_C45_returns. Qed.
Print Assumptions C45_returns.

(** The convergents converge to e^x *)
Theorem C45_limit : forall x, exists c, (forall n, exists r, nth_item (gconv_next BigI (exp_next BigI)) n (gcf_convergents (gcf_exp x)) = Ok (Some r) /\ rval r = c n) /\ is_lim_seq c (exp (IZR x)).
Proof. exact L_C45_limit. Qed.
Print Assumptions C45_limit.

(** exp(2), exp(-1), exp(0) *)
Example C45_case :
  map (fun n => nth_item (gconv_next (SInt 64) (exp_next (SInt 64))) n (gcf_convergents (gcf_exp 2))) [0; 1; 2; 3; 4]%nat = [Ok (Some (Ratio 1 1)); Ok (Some (Ratio 3 1)); Ok (Some (Ratio 5 1)); Ok (Some (Ratio 19 3)); Ok (Some (Ratio 7 1))] /\
  map (fun n => nth_item (gconv_next BigI (exp_next BigI)) n (gcf_convergents (gcf_exp (-1)))) [0; 1; 2; 3]%nat = [Ok (Some (Ratio 1 1)); Ok (Some (Ratio 0 1)); Ok (Some (Ratio 1 2)); Ok (Some (Ratio 1 3))] /\
  map (fun n => nth_item (gconv_next BigI (exp_next BigI)) n (gcf_convergents (gcf_exp 0))) [0; 1; 2]%nat = [Ok (Some (Ratio 1 1)); Ok (Some (Ratio 1 1)); Ok (Some (Ratio 1 1))].
Proof. split; [vm_compute; reflexivity|]. split; vm_compute; reflexivity. Qed.

(** ** C46  Pi *)

(** The pairs are (1, 0), (4, 1), (1, 3), (4, 5), (9, 7), ..., for every type *)
Theorem C46_items : forall t n v, nth_item (pi_next t) n pi_gfrac = Ok (Some v) ->
  v = match n with O => (1, 0) | 1%nat => (4, 1) | _ => let m := Z.of_nat n in ((m - 1) ^ 2, 2 * m - 1) end.
Proof. exact L_C46_items. Qed.
Print Assumptions C46_items.

(** With arbitrary precision there are infinitely many, and their value is pi *)
Theorem C46_limit : forall t, t = BigI \/ t = BigU -> exists f, yields (pi_next t) pi_gfrac f /\ gpositive f /\ gconverges f PI.
Proof. exact L_C46_limit. Qed.
Print Assumptions C46_limit.

(** The convergents converge to pi *)
Theorem C46_convergents : exists c, (forall n, exists r, nth_item (gconv_next BigI (pi_next BigI)) n (gcf_convergents pi_gfrac) = Ok (Some r) /\ rval r = c n) /\ is_lim_seq c PI /\
  forall t n r, nth_item (gconv_next t (pi_next t)) n (gcf_convergents pi_gfrac) = Ok (Some r) -> lowest r /\ rval r = c n.
Proof. exact L_C46_convergents. Qed.
Print Assumptions C46_convergents.

(** Pi.gfrac().simplify() yields the coefficients of the simple continued fraction of pi, for every type *)
Theorem C46_simplify : forall t fuel n v, nth_item (simp_next t (pi_next t) fuel) n (gcf_simplify pi_gfrac) = Ok (Some v) -> cf_digit PI n v.
Proof. exact L_C46_simplify. Qed.
Print Assumptions C46_simplify.

(** All of them with arbitrary precision *)
Theorem C46_simplify_returns : forall n, exists fuel v, forall fuel', (fuel <= fuel')%nat -> nth_item (simp_next BigI (pi_next BigI) fuel') n (gcf_simplify pi_gfrac) = Ok (Some v).
Proof. exact L_C46_simplify_returns. Qed.
Print Assumptions C46_simplify_returns.

(** Pi.gfrac().decimals() yields the decimal digits of pi, for every type *)
Theorem C46_decimals : forall t fuel n c, nth_item (dec_next t (pi_next t) fuel) n (gcf_decimals pi_gfrac) = Ok (Some c) ->
  exists m, isfloor (10 ^ n * PI)%R m /\ c = 48 + m mod 10.
Proof. exact L_C46_decimals. Qed.
Print Assumptions C46_decimals.

(** All of them with arbitrary precision *)
Theorem C46_decimals_returns : forall n, exists fuel c, forall fuel', (fuel <= fuel')%nat -> nth_item (dec_next BigI (pi_next BigI) fuel') n (gcf_decimals pi_gfrac) = Ok (Some c).
Proof. exact L_C46_decimals_returns. Qed.
Print Assumptions C46_decimals_returns.

(** 0, 4, 3, 19/6, 160/51; [3; 7, 15, 1, 292]; 3.1415 *)
Example C46_case :
  map (fun n => nth_item (gconv_next (UInt 64) (pi_next (UInt 64))) n (gcf_convergents pi_gfrac)) [0; 1; 2; 3; 4]%nat = [Ok (Some (Ratio 0 1)); Ok (Some (Ratio 4 1)); Ok (Some (Ratio 3 1)); Ok (Some (Ratio 19 6)); Ok (Some (Ratio 160 51))] /\
  map (fun n => nth_item (simp_next (UInt 64) (pi_next (UInt 64)) 40) n (gcf_simplify pi_gfrac)) [0; 1; 2; 3; 4]%nat = [Ok (Some 3); Ok (Some 7); Ok (Some 15); Ok (Some 1); Ok (Some 292)] /\
  map (fun n => nth_item (dec_next BigI (pi_next BigI) 40) n (gcf_decimals pi_gfrac)) [0; 1; 2; 3; 4]%nat = [Ok (Some 51); Ok (Some 49); Ok (Some 52); Ok (Some 49); Ok (Some 53)].
Proof. split; [vm_compute; reflexivity|]. split; vm_compute; reflexivity. Qed.

(** ** C47  E *)

(** 2, then 1, 2(k+1), 1 for k = 0, 1, 2, ..., for every type *)
Theorem C47_items : forall t v,
  (nth_item (e_next t) 0 e_cfrac = Ok (Some v) -> v = 2) /\
  forall k, (nth_item (e_next t) (3 * k + 1) e_cfrac = Ok (Some v) -> v = 1) /\
    (nth_item (e_next t) (3 * k + 2) e_cfrac = Ok (Some v) -> v = 2 * (Z.of_nat k + 1)) /\
    (nth_item (e_next t) (3 * k + 3) e_cfrac = Ok (Some v) -> v = 1).
Proof. exact L_C47_items. Qed.
Print Assumptions C47_items.

(** With arbitrary precision there are infinitely many, and their value is e *)
Theorem C47_limit : forall t, t = BigI \/ t = BigU -> exists f, yields (e_next t) e_cfrac f /\ csigned 1 f /\ cconverges f (exp 1).
Proof. exact L_C47_limit. Qed.
Print Assumptions C47_limit.

(** They are the coefficients of the simple continued fraction of e *)
Theorem C47_digits : forall t n v, nth_item (e_next t) n e_cfrac = Ok (Some v) -> cf_digit (exp 1) n v.
Proof. exact L_C47_digits. Qed.
Print Assumptions C47_digits.

(** E.cfrac().homo(a, b, c, d) is (a e + b) / (c e + d), for every type, if c and d have the same sign *)
Theorem C47_homo : forall t a b c d fuel n v, 0 <= c * d -> c <> 0 \/ d <> 0 ->
  nth_item (homo_next t (e_next t) fuel) n (icf_homo e_cfrac a b c d) = Ok (Some v) -> cf_digit ((IZR a * exp 1 + IZR b) / (IZR c * exp 1 + IZR d)) n v.
Proof. exact L_C47_homo. Qed.
Print Assumptions C47_homo.

(** 2, 1, 2, 1, 1, 4, 1, 1, 6 at 8 bits, and 2 e + 1 = [6; 2, 3, 2, 3] at 64 bits *)
Example C47_case :
  map (fun n => nth_item (e_next (UInt 8)) n e_cfrac) [0; 1; 2; 3; 4; 5; 6; 7; 8]%nat = map (fun v => Ok (Some v)) [2; 1; 2; 1; 1; 4; 1; 1; 6] /\
  map (fun n => nth_item (homo_next (SInt 64) (e_next (SInt 64)) 30) n (icf_homo e_cfrac 2 1 0 1)) [0; 1; 2; 3]%nat = map (fun v => Ok (Some v)) [6; 2; 3; 2].
Proof. split; vm_compute; reflexivity. Qed.

(** ** C48  Gamma *)

(** Euler's constant is the limit of 1 + 1/2 + ... + 1/n - ln n *)
Theorem C48_constant : is_lim_seq (fun n => harm (S n) - ln (INR (S n)))%R euler_gamma.
Proof. exact L_C48_constant. Qed.
Print Assumptions C48_constant.

(** With arbitrary precision there are infinitely many items; nothing is lost by the conversion of rationals to integers:
    the n-th convergent is (sum_k C(n,k)^2 k! (2 H_(n-k) - H_k)) / (sum_k C(n,k)^2 k!) *)
Theorem C48_value : forall t s n r, gamma_gfrac t = Ok s -> nth_item (gconv_next t (gamma_next t)) n (gcf_convergents s) = Ok (Some r) ->
  lowest r /\ rval r = (binom_harm_sum n / binom_sum n)%R.
Proof. exact L_C48_value. Qed.
Print Assumptions C48_value.

Theorem C48_returns : exists s, gamma_gfrac BigI = Ok s /\ forall n, returns (nth_item (gamma_next BigI) n s) /\ exists r, nth_item (gconv_next BigI (gamma_next BigI)) n (gcf_convergents s) = Ok (Some r).
Proof. exact L_C48_returns. Qed.
Print Assumptions C48_returns.

(** The convergents converge to Euler's constant *)
Theorem C48_limit : exists c s, gamma_gfrac BigI = Ok s /\ (forall n, exists r, nth_item (gconv_next BigI (gamma_next BigI)) n (gcf_convergents s) = Ok (Some r) /\ rval r = c n) /\ is_lim_seq c euler_gamma.
Proof. exact L_C48_limit. Qed.
Print Assumptions C48_limit.

(** With an explicit rate: the error is at most 10 / sqrt (n + 1) *)
Theorem C48_rate : forall t s n r, gamma_gfrac t = Ok s -> nth_item (gconv_next t (gamma_next t)) n (gcf_convergents s) = Ok (Some r) ->
  (Rabs (rval r - euler_gamma) <= 10 / sqrt (INR (S n)))%R.
Proof. exact L_C48_rate. Qed.
Print Assumptions C48_rate.

(** The auxiliary integers: after n + 2 items the field qm1 is q_(n+1) = sum_k C(n+1,k)^2 k!, and qm2 is q_n *)
Theorem C48_auxiliary : forall t s n s', gamma_gfrac t = Ok s -> after (gamma_next t) (S (S n)) s s' -> IZR (ga_qm1 s') = binom_sum (S n) /\ IZR (ga_qm2 s') = binom_sum n.
Proof. exact L_C48_auxiliary. Qed.
Print Assumptions C48_auxiliary.

(** (1,0), (1,2), (-1,4), (-5,16), (36,59), (-15740,404) and 0, 1/2, 4/7, 59/102, 725/1254 *)
Example C48_case : exists s, gamma_gfrac (SInt 64) = Ok s /\
  map (fun n => nth_item (gamma_next (SInt 64)) n s) [0; 1; 2; 3; 4; 5]%nat = map (fun v => Ok (Some v)) [(1, 0); (1, 2); (-1, 4); (-5, 16); (36, 59); (-15740, 404)] /\
  map (fun n => nth_item (gconv_next (SInt 64) (gamma_next (SInt 64))) n (gcf_convergents s)) [0; 1; 2; 3; 4]%nat = map (fun v => Ok (Some v)) [Ratio 0 1; Ratio 1 2; Ratio 4 7; Ratio 59 102; Ratio 725 1254].
Proof. eexists. split; [vm_compute; reflexivity|]. split; vm_compute; reflexivity. Qed.
