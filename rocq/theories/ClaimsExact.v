(** * ClaimsExact: proofs of the property theorems in PropsExact.v. *)

From Coq Require Import ZArith Znumtheory Reals Lia Lra Bool List Arith.
From Coquelicot Require Import Coquelicot.
From Verif Require Import Base Ext ModelSurd ModelBlock ModelCF Spec SpecCF SpecLaw NumFacts RatioFacts SurdCore SurdRound SurdMisc SurdConv SurdKinds CFCore CFBasic CFAdd CFSurd CFAddExact ModelInt SpecInt IntRational SurdTrans CFOwned ModelConv ModelGen SpecGen GenSound GenConv GenEnd GenDecEnd GenPairs ClaimsSurd ClaimsCF ClaimsApi.
Import ListNotations.
Open Scope Z_scope.

Lemma L_C18_is_quadint : forall g s, normal g s ->
  (is_quadint s = true <-> exists m n : Z, sval s = (ZtoC m + ZtoC n * csqrt (discr s))%C) /\ is_gaussint s = is_quadint s.
Proof.
  intros g s N. split; [apply (quadint_meaning g); auto|reflexivity].
Qed.

Lemma L_C18_alg_integer : forall g s, normal g s ->
  let a := c0 (coeffs s) in let b := c1 (coeffs s) in let c := c2 (coeffs s) in
  (alg_integer (sval s) <-> (c | 2 * a) /\ (c * c | a * a - b * b * discr s)).
Proof.
  intros g s N. apply (alg_integer_coeffs g). auto.
Qed.

Lemma L_C18_quadint_exact : forall g s, normal g s -> squarefree (discr s) ->
  ((is_quadint s = true <-> alg_integer (sval s)) <->
   ~ (c2 (coeffs s) = 2 /\ c0 (coeffs s) mod 2 = 1 /\ c1 (coeffs s) mod 2 = 1 /\ discr s mod 4 = 1)).
Proof.
  intros g s N Sf. rewrite <- (quadint_rejects g s N Sf). pose proof (quadint_sound g s N) as K. fold (alg_integer (sval s)) in K.
  destruct (is_quadint s); split.
  - intros _ [_ X]. discriminate.
  - intros _. split; auto.
  - intros [_ X] [Y _]. specialize (X Y). discriminate.
  - intros X. split; [discriminate|]. intros Y. destruct X. auto.
Qed.

Lemma L_C18_gauss : forall g s, normal g s ->
  let a := c0 (coeffs s) in let b := c1 (coeffs s) in let c := c2 (coeffs s) in
  (gauss_num (sval s) <-> exists k, discr s = - (k * k) /\ (c | a) /\ (c | b * k)).
Proof.
  intros g s N. apply (gauss_coeffs g). auto.
Qed.

Lemma L_C18_gaussint_exact : forall g s, normal g s ->
  let a := c0 (coeffs s) in let b := c1 (coeffs s) in let c := c2 (coeffs s) in
  ((is_gaussint s = true <-> gauss_num (sval s)) <->
   if c =? 1 then exists k, discr s = - (k * k) else ~ exists k, discr s = - (k * k) /\ (c | a) /\ (c | b * k)).
Proof.
  intros g s N a b c. pose proof (gaussint_accepts g s N) as A. pose proof (gauss_coeffs g s N) as B. fold a b c in B. unfold is_gaussint in *. fold c in A |- *.
  destruct (c =? 1).
  - rewrite <- (A eq_refl). tauto.
  - rewrite <- B. split; [intros [_ X] Y; specialize (X Y); discriminate|]. intros X. split; [discriminate|]. intros Y. contradiction.
Qed.

Lemma L_C51_exact : forall g t l r, normal g l -> normal g r -> surd_eq t l r = Ok true -> (hash_data l = hash_data r <-> discr l = discr r).
Proof.
  intros g t l r Nl Nr H. split; [|intros D; apply (L_C51_hash_partial g t); auto].
  intros E. unfold hash_data, parts in E. injection E. auto.
Qed.

Lemma L_C32_exact : forall g u x n y a0 rest, fits (sty u) 1 = true -> fits (sty u) n = true -> canonical x -> coeffs_fit u x -> a_coeffs x = a0 :: rest ->
  cf_add_int g u x n = Ok y ->
  let a := a0 + sgnb (negative x) * n in let v := (cf_val x + IZR n)%R in
  p_coeffs y = p_coeffs x /\
  (canonical y <-> 0 <= a \/ rest <> [1]) /\
  (cf_val y = v <-> 0 <= a \/ (rest = nil /\ p_coeffs x = nil) \/ (rest <> nil /\ (a <= -2 \/ negative x = true))) /\
  (a = -1 -> rest <> nil -> negative x = false -> cf_val y = (- v)%R) /\
  (a < 0 -> rest = nil -> p_coeffs x <> nil -> cf_val y = (v - 2 * (cf_val x - IZR (sgnb (negative x) * a0)%Z))%R).
Proof.
  exact cf_add_int_exact.
Qed.

Lemma L_C32_sub_exact : forall g u x n y a0 rest, fits (sty u) 1 = true -> canonical x -> coeffs_fit u x -> a_coeffs x = a0 :: rest ->
  cf_sub_int g u x n = Ok y ->
  let a := a0 - sgnb (negative x) * n in
  (canonical y <-> 0 <= a \/ rest <> [1]) /\
  (cf_val y = (cf_val x - IZR n)%R <-> 0 <= a \/ (rest = nil /\ p_coeffs x = nil) \/ (rest <> nil /\ (a <= -2 \/ negative x = true))).
Proof.
  intros g u x n y a0 rest F1 C Fc Ea H a. unfold cf_sub_int in H. unfold negT in H. apply chkop_ok in H. destruct H as [H Fn].
  destruct (cf_add_int_exact g u x (- n) y a0 rest F1 Fn C Fc Ea H) as (_ & K1 & K2 & _).
  replace (a0 + sgnb (negative x) * - n) with a in K1, K2 by (unfold a; ring). rewrite opp_IZR in K2. split; [exact K1|exact K2].
Qed.

Lemma L_C32_returns : forall g x n, canonical x -> returns (cf_add_int g BigU x n) /\ returns (cf_sub_int g BigU x n).
Proof.
  intros g x n C. split; [apply cf_add_int_returns; auto|]. unfold cf_sub_int. cbn [sty negT chk fits bind]. apply cf_add_int_returns. auto.
Qed.

Lemma L_C78_cf_add_exact : forall g u fuel x n y z a0 rest, fits (sty u) 1 = true -> fits (sty u) n = true -> canonical x -> surd_sized u x -> coeffs_fit u x -> a_coeffs x = a0 :: rest ->
  finite x \/ cf_wide (cf_val x + IZR n) -> cf_add_int g u x n = Ok y -> cf_add_ratio g u fuel x (ratio_of n) = Ok z ->
  let a := a0 + sgnb (negative x) * n in
  let right := 0 <= a \/ (rest = nil /\ p_coeffs x = nil) \/ (rest <> nil /\ (a <= -2 \/ negative x = true)) in
  (cf_val y = cf_val z <-> right) /\ (finite x -> (y = z <-> right)).
Proof.
  intros g u fuel x n y z a0 rest F1 Fn C Sz Fc Ea D Hy Hz a right. destruct (ratio_of_spec n) as [Vn Ln].
  destruct (cf_add_int_exact g u x n y a0 rest F1 Fn C Fc Ea Hy) as (Py & Cy & Vy & _). fold a in Cy, Vy. fold right in Vy.
  assert (Z0 : canonical z /\ cf_val z = (cf_val x + rval (ratio_of n))%R) by (apply (L_C33_add_ratio_partial g u fuel x (ratio_of n) z F1 (proj1 C) Sz Ln); [rewrite Vn; exact D|exact Hz]).
  destruct Z0 as [Cz Vz]. rewrite Vn in Vz. split; [rewrite Vz; exact Vy|]. intros Fx.
  assert (Cyy : canonical y).
  { apply Cy. right. intros K. destruct C as (_ & C & _). rewrite Ea, K in C. apply (C Fx); [cbn; lia|reflexivity]. }
  split; [intros ->; apply Vy; exact Vz|]. intros R. apply Vy in R. apply cf_eqb_eq. apply (L_C58_rational y z Cyy Cz); [unfold finite in *; congruence|]. rewrite Vz. exact R.
Qed.

Lemma L_C82_decimals_ends : forall I (inext : I -> res (option (Z * Z) * I)) it l fuel, yields_list inext it l -> (length l < fuel)%nat ->
  (forall n, nth_item (dec_next BigI inext fuel) n (gcf_decimals it) <> Hang) /\
  (List.Forall (fun ab => fst ab <> 0) l -> exists N, nth_item (dec_next BigI inext fuel) N (gcf_decimals it) = Ok None \/
     exists p, nth_item (dec_next BigI inext fuel) N (gcf_decimals it) = Panic p).
Proof.
  intros I inext it l fuel Y L.
  assert (H : forall n, nth_item (dec_next BigI inext fuel) n (gcf_decimals it) <> Hang) by (intros n; apply (dec_answers inext l n it block_identity fuel Y L)).
  split; [exact H|]. intros A. destruct (dec_stops inext l it block_identity Y) as (N & S); [discriminate|exact A|]. exists N. specialize (H N). specialize (S fuel).
  destruct (nth_item (dec_next BigI inext fuel) N (gcf_decimals it)) as [[v|]|p|] eqn:E; [exfalso; exact (S v E)|auto|eauto|congruence].
Qed.

Lemma L_C24_rational_right : forall g t x y, q1 (qcoeffs y) = 0 -> qint_rem g t x y = qint_div g t x y.
Proof.
  intros g t x y. apply rem_rational.
Qed.

Lemma L_C25_rational_exact : forall g t x y q z, wfq g x -> q1 (qcoeffs y) = 0 -> qint_div g t x y = Ok q -> qint_rem g t x y = Ok z ->
  let k := q0 (qcoeffs y) in
  (qval x = (qval q * qval y + qval z)%C <->
    exists m n, q0 (qcoeffs x) = (k + 1) * m /\ q1 (qcoeffs x) = (k + 1) * n /\
      (2 * Z.abs m < k \/ 2 * Z.abs m <= - k) /\ (2 * Z.abs n < k \/ 2 * Z.abs n <= - k)).
Proof.
  intros g t x y q z W Y Hq Hz k. apply (rem_rational_exact g t x y q z W Y Hq Hz).
Qed.

Lemma L_C28_into_coeffs_exact : forall u x p0 p, p_coeffs x = p0 :: p -> coeffs_fit u x ->
  (forall n, nth_item (owned_next u) n (cf_into_coeffs x) = Ok (option_map (Z.mul (sgnb (negative x))) (nth_error (a_coeffs x ++ repeat p0 (S n)) n))) /\
  ((forall n, nth_item (owned_next u) n (cf_into_coeffs x) = Ok (option_map (Z.mul (sgnb (negative x))) (coeff_at x n))) <-> List.Forall (eq p0) p).
Proof.
  exact into_exact.
Qed.

Lemma L_C68_transitive_iff : forall g t x y z b, normal g x -> normal g y -> normal g z -> surd_eq t x y = Ok true -> surd_eq t y z = Ok true -> surd_eq t x z = Ok b ->
  (b = true <-> sval x = sval z \/ discr x <> discr z).
Proof.
  exact eq_trans_iff.
Qed.

Lemma L_C13_to_integer_approx_iff : forall g t s x v, normal g s -> sval s = RtoC x -> surd_to_integer g t s = Ok (Approximated v) -> (IZR (c1 (coeffs s)) * x < 0)%R ->
  (istrunc x v <-> ~ (c2 (coeffs s) | c0 (coeffs s) + Z.sgn (c1 (coeffs s)) * Z.sqrt (c1 (coeffs s) * c1 (coeffs s) * discr s))).
Proof.
  intros g t s x v N V H S. apply surd_to_integer_ok in H; auto. destruct H as (Hi & Ht & _).
  destruct (L_C11_trunc_real_partial g t s x _ N V Ht) as (n & En & B & _ & T).
  rewrite (proj1 (surd_of_int_spec g v)) in En. apply ZtoC_inj in En. subst n. auto.
Qed.

Lemma L_C49_exact : forall n z v w, 1 <= n ->
  (fits (SInt n) z = true -> to_unsigned (SInt n) z = Ok v -> (v = z <-> 0 <= z) /\ (z < 0 -> v = z + 2 ^ n)) /\
  (fits (UInt n) w = true -> (to_signed (UInt n) w = w <-> w < 2 ^ (n - 1)) /\ (2 ^ (n - 1) <= w -> to_signed (UInt n) w = w - 2 ^ n)).
Proof.
  intros n z v w Hn. assert (P : 2 ^ n = 2 * 2 ^ (n - 1)) by (rewrite <- Z.pow_succ_r by lia; f_equal; lia). assert (Q : 0 < 2 ^ (n - 1)) by (apply Z.pow_pos_nonneg; lia). split.
  - unfold fits, to_unsigned. intros F H. inversion H as [E]. clear H. apply andb_prop in F. destruct F as [F1 F2]. apply Z.leb_le in F1. apply Z.ltb_lt in F2.
    destruct (Z.le_gt_cases 0 z) as [Z0|Z0].
    + rewrite Z.mod_small by lia. split; [lia|lia].
    + assert (M : z mod 2 ^ n = z + 2 ^ n) by (symmetry; apply (Z.mod_unique z (2 ^ n) (-1)); [left; lia|ring]). rewrite M. split; [lia|lia].
  - unfold fits, to_signed. intros F. apply andb_prop in F. destruct F as [F1 F2]. apply Z.leb_le in F1. apply Z.ltb_lt in F2. destruct (Z.ltb_spec w (2 ^ (n - 1))); split; lia.
Qed.

Lemma L_C50_exact : forall t I (inext : I -> res (option Z * I)) it f N (r : nat -> ratio), yields inext it f -> cpositive f -> f O <> 0 -> (1 <= N)%nat ->
  (forall n, (n <= N)%nat -> nth_item (gconv_next t (generalize_next inext)) n (gcf_convergents it) = Ok (Some (r n))) ->
  ((forall n, (n <= N)%nat -> rval (r n) = gval (prefix (fun j => (1, f j)) (S n))) <-> forall n, (n <= N)%nat -> f n = 1).
Proof.
  exact generalize_exact.
Qed.
