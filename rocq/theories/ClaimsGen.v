(** * ClaimsGen: proofs of the property theorems about generalized continued fractions (PropsGen.v). *)

From Coq Require Import ZArith Reals Lia Lra Bool List Arith.
From Coquelicot Require Import Coquelicot.
From Verif Require Import Base Ext ModelBlock ModelCF ModelGen Spec SpecCF SpecGen NumFacts RatioFacts CFBasic GenBlock GenSound GenConv GenTail GenLive GenMisc
  GenCont GenBihomo GenStored ClaimsCF.
Import ListNotations.
Open Scope Z_scope.

Definition list_next {A : Type} (l : list A) : res (option A * list A) := match l with nil => Ok (None, nil) | a :: l => Ok (Some a, l) end.

Lemma list_next_yields {A} (l : list A) : yields_list list_next l l.
Proof.
  intros n. induction n as [|n IH] in l |- *; destruct l as [|a l]; intros H; try reflexivity.
  cbn [nth_item list_next bind nth_error]. apply IH. cbn [length] in H. lia.
Qed.

Lemma gconv_returns : forall I (inext : I -> res (option (Z * Z) * I)) it f n,
  (forall j, (j <= n)%nat -> nth_item inext j it = Ok (Some (f j))) -> fst (f O) = 1 -> (forall j, (j <= n)%nat -> gden f j <> 0) ->
  exists r, nth_item (gconv_next BigI inext) n (gcf_convergents it) = Ok (Some r).
Proof.
  intros I inext it f n K F D.
  assert (M : exists B, Z.abs (snd (f O)) <= B /\ 1 <= B /\ forall j, (j < n)%nat -> bounded f j B).
  { clear K D. induction n as [|n (B & B0 & B1 & Bd)].
    - exists (Z.max 1 (Z.abs (snd (f O)))). split; [lia|]. split; [lia|]. intros j Hj. lia.
    - assert (Mo : exists B', bounded f n B').
      { unfold bounded. destruct (gcont f n) as [old cur]. destruct (f (S n)) as [a b].
        exists (Z.abs (b * fst cur) + Z.abs (a * fst old) + Z.abs (b * fst cur + a * fst old) + Z.abs (b * snd cur) + Z.abs (a * snd old) + Z.abs (b * snd cur + a * snd old)).
        intros a' b' E. inversion E; subst a' b'.
        pose proof (Z.abs_nonneg (b * fst cur)). pose proof (Z.abs_nonneg (a * fst old)). pose proof (Z.abs_nonneg (b * fst cur + a * fst old)).
        pose proof (Z.abs_nonneg (b * snd cur)). pose proof (Z.abs_nonneg (a * snd old)). pose proof (Z.abs_nonneg (b * snd cur + a * snd old)).
        repeat split; clear E; lia. }
      destruct Mo as (B' & HB). exists (Z.max B B'). split; [lia|]. split; [lia|].
      assert (Mono : forall j C, bounded f j C -> C <= Z.max B B' -> bounded f j (Z.max B B')).
      { intros j C H HC. unfold bounded in *. destruct (gcont f j) as [old cur]. intros a b E. destruct (H a b E) as (H1 & H2 & H3 & H4 & H5 & H6).
        repeat split; eapply Z.le_trans; eauto. }
      intros j Hj. destruct (Nat.eq_dec j n) as [->|]; [apply (Mono n B'); [auto|lia]|apply (Mono j B); [apply Bd; lia|lia]]. }
  destruct M as (B & B0 & B1 & Bd). apply (gconv_fits BigI B ltac:(intros z _; reflexivity) inext f); auto. intros j Hj. apply K. lia.
Qed.

Lemma gconv_end : forall I (inext : I -> res (option (Z * Z) * I)) it l, yields_list inext it l -> (forall ab, hd_error l = Some ab -> fst ab = 1) ->
  (forall j, (j <= length l)%nat -> gregular (firstn j l)) -> nth_item (gconv_next BigI inext) (length l) (gcf_convergents it) = Ok None.
Proof.
  intros I inext it l Y F G. destruct l as [|ab l].
  - destruct (yields_list_nil _ _ Y) as (s & E). cbn [length]. rewrite nth_item_0. unfold gconv_next, gcf_convergents. rewrite E. reflexivity.
  - set (L := ab :: l) in *. apply (gconv_end_aux inext L 0 (fun j => nth j L (0, 0)) block_identity it Y).
    + intros j x E. cbn [Nat.add]. apply nth_error_nth. exact E.
    + cbn [nth L]. apply F. reflexivity.
    + intros j Hj. cbn [Nat.add] in Hj. replace (prefix (fun j => nth j L (0, 0)) (S j)) with (firstn (S j) L); [apply G; lia|].
      clear - Hj. revert j Hj. generalize L. clear. induction L as [|x l IH]; intros j Hj; [cbn in Hj; lia|]. rewrite prefix_S. cbn [firstn nth]. f_equal.
      destruct j as [|j]; [reflexivity|]. apply IH. cbn [length] in Hj. lia.
    + apply reads_nil.
Qed.

Definition pi_pairs (n : nat) : Z * Z :=
  match n with O => (1, 3) | S m => ((2 * Z.of_nat m + 1) * (2 * Z.of_nat m + 1), 6) end.

Lemma pi_pairs_pos : gpositive pi_pairs.
Proof. split; [reflexivity|]. intros [|n] Hn; [lia|]. cbn [pi_pairs fst snd]. nia. Qed.

Lemma pi_pairs_case : yields (from_fn pi_pairs) O pi_pairs /\ fst (pi_pairs O) = 1 /\ (forall n, gregular (prefix pi_pairs n)) /\ (forall n, gden pi_pairs n <> 0) /\
  nth_item (gconv_next BigI (from_fn pi_pairs)) 2 (gcf_convergents O) = Ok (Some (Ratio 47 15)) /\ gval (prefix pi_pairs 3) = (47 / 15)%R.
Proof.
  assert (G : forall n, gregular (prefix pi_pairs n)) by (intros n; apply latepos_regular; exact (proj2 pi_pairs_pos)).
  split; [apply from_fn_yields|]. split; [reflexivity|]. split; [auto|]. split; [intros n; apply (gval_gcont pi_pairs n eq_refl (G (S n)))|].
  split; [vm_compute; reflexivity|]. cbn. field.
Qed.

Lemma fits_case : roomy (SInt 64) 1000 /\ bounded pi_pairs 0 1000 /\ bounded pi_pairs 1 1000 /\
  yields_list (list_next (A := Z * Z)) [(1, 1); (2, 4); (6, 8)] [(1, 1); (2, 4); (6, 8)] /\ gregular [(1, 1); (2, 4); (6, 8)] /\
  map (fun n => nth_item (gconv_next BigI list_next) n (gcf_convergents [(1, 1); (2, 4); (6, 8)])) [0; 1; 2; 3]%nat =
    [Ok (Some (Ratio 1 1)); Ok (Some (Ratio 3 2)); Ok (Some (Ratio 27 19)); Ok None].
Proof.
  split; [intros z H; unfold fits; cbn [Z.sub Z.pow Z.pow_pos Pos.iter]; change (2 ^ (64 - 1)) with 9223372036854775808; apply andb_true_intro; split; [apply Z.leb_le|apply Z.ltb_lt]; lia|].
  split; [intros a b E; injection E as <- <-; vm_compute; repeat split; discriminate|]. split; [intros a b E; injection E as <- <-; vm_compute; repeat split; discriminate|].
  split; [apply list_next_yields|]. split; [|vm_compute; reflexivity]. cbn. split; [right; lra|]. split; [right; lra|]. split; [left; reflexivity|exact Logic.I].
Qed.

Lemma L_C40_value : forall t I (inext : I -> res (option (Z * Z) * I)) it f n r,
  (forall j, (j <= n)%nat -> nth_item inext j it = Ok (Some (f j))) -> fst (f O) = 1 -> gregular (prefix f (S n)) ->
  nth_item (gconv_next t inext) n (gcf_convergents it) = Ok (Some r) -> lowest r /\ rval r = gval (prefix f (S n)).
Proof. intros t I inext it f n r K F G H. apply (gconv_value t inext it f n r); auto. intros j Hj. apply K. lia. Qed.

Lemma L_C40_recurrences : forall t I (inext : I -> res (option (Z * Z) * I)) it f n r,
  (forall j, (j <= n)%nat -> nth_item inext j it = Ok (Some (f j))) -> fst (f O) = 1 ->
  nth_item (gconv_next t inext) n (gcf_convergents it) = Ok (Some r) -> lowest r /\ gden f n <> 0 /\ rval r = (IZR (gnum f n) / IZR (gden f n))%R.
Proof. intros t I inext it f n r K F H. apply (gconv_quot t inext it f n r); auto. intros j Hj. apply K. lia. Qed.

Lemma L_C40_quotient : forall f n, fst (f O) = 1 -> gregular (prefix f (S n)) -> gden f n <> 0 /\ gval (prefix f (S n)) = (IZR (gnum f n) / IZR (gden f n))%R.
Proof. exact gval_gcont. Qed.

Lemma L_C40_returns : forall I (inext : I -> res (option (Z * Z) * I)) it f n,
  (forall j, (j <= n)%nat -> nth_item inext j it = Ok (Some (f j))) -> fst (f O) = 1 -> (forall j, (j <= n)%nat -> gden f j <> 0) ->
  exists r, nth_item (gconv_next BigI inext) n (gcf_convergents it) = Ok (Some r).
Proof. exact gconv_returns. Qed.

Lemma L_C40_fits : forall t B I (inext : I -> res (option (Z * Z) * I)) it f n, roomy t B ->
  (forall j, (j <= n)%nat -> nth_item inext j it = Ok (Some (f j))) -> fst (f O) = 1 -> Z.abs (snd (f O)) <= B -> 1 <= B ->
  (forall j, (j < n)%nat -> bounded f j B) -> (forall j, (j <= n)%nat -> gden f j <> 0) ->
  exists r, nth_item (gconv_next t inext) n (gcf_convergents it) = Ok (Some r).
Proof. intros t B I inext it f n Rm K F B0 B1 Bd D. apply (gconv_fits t B Rm inext f); auto. intros j Hj. apply K. lia. Qed.

Lemma L_C40_end : forall I (inext : I -> res (option (Z * Z) * I)) it l, yields_list inext it l -> (forall ab, hd_error l = Some ab -> fst ab = 1) ->
  (forall j, (j <= length l)%nat -> gregular (firstn j l)) -> nth_item (gconv_next BigI inext) (length l) (gcf_convergents it) = Ok None.
Proof. exact gconv_end. Qed.

Lemma irr_r2 : irrational (sqrt 2).
Proof.
  intros p q Hq E. apply (irr_sqrt2 0 1 1); try lia. exists p, q. split; [auto|]. rewrite <- E. field.
Qed.

Lemma simplify_case : yields (from_fn (fun n => (1, root2 n))) O (fun n => (1, root2 n)) /\ gpositive (fun n => (1, root2 n)) /\ gconverges (fun n => (1, root2 n)) (sqrt 2) /\ irrational (sqrt 2) /\
  map (fun n => nth_item (simp_next BigI (from_fn (fun n => (1, root2 n))) 9) n (gcf_simplify O)) [0; 1; 2]%nat = [Ok (Some 1); Ok (Some 2); Ok (Some 2)] /\
  map (fun n => nth_item (simp_next BigI (from_fn (fun n => match n with O => (1, 1) | S _ => (4, 2) end)) 20) n (gcf_simplify O)) [0; 1; 2; 3]%nat =
    [Ok (Some 2); Ok (Some 4); Ok (Some 4); Ok (Some 4)] /\
  map (fun n => nth_item (simp_next BigI (from_fn pi_pairs) 2000) n (gcf_simplify O)) [0; 1; 2]%nat = [Ok (Some 3); Ok (Some 7); Ok (Some 15)].
Proof.
  split; [apply from_fn_yields|]. split; [split; [reflexivity|]; intros [|n] Hn; cbn; lia|]. split; [apply root2_conv|]. split; [apply irr_r2|].
  split; [vm_compute; reflexivity|]. split; vm_compute; reflexivity.
Qed.

Lemma L_C41_simplify : forall t I (inext : I -> res (option (Z * Z) * I)) it f x fuel n v, yields inext it f -> gpositive f -> gconverges f x ->
  nth_item (simp_next t inext fuel) n (gcf_simplify it) = Ok (Some v) -> cf_digit x n v.
Proof. intros. eapply simplify_sound; eauto. Qed.

Lemma L_C41_finite : forall t I (inext : I -> res (option (Z * Z) * I)) it l fuel n v, yields_list inext it l -> gpositive_list l ->
  nth_item (simp_next t inext fuel) n (gcf_simplify it) = Ok (Some v) -> cf_digit (gval l) n v.
Proof. intros. eapply simplify_sound_list; eauto. Qed.

Lemma L_C41_returns : forall I (inext : I -> res (option (Z * Z) * I)) it f x n, yields inext it f -> gpositive f -> gconverges f x -> irrational x ->
  exists fuel v, forall fuel', (fuel <= fuel')%nat -> nth_item (simp_next BigI inext fuel') n (gcf_simplify it) = Ok (Some v).
Proof. intros. eapply simplify_live; eauto. Qed.

Lemma L_C41_unique : forall x n v w, cf_digit x n v -> cf_digit x n w -> v = w.
Proof. intros x n v w. apply cf_digit_unique. Qed.

Lemma homo_case : yields (from_fn root2) O root2 /\ csigned 1 root2 /\ cconverges root2 (sqrt 2) /\
  map (fun n => nth_item (homo_next BigI (from_fn root2) 20) n (icf_homo O 2 1 0 3)) [0; 1; 2; 3]%nat = [Ok (Some 1); Ok (Some 3); Ok (Some 1); Ok (Some 1)] /\
  map (fun n => nth_item (homo_next BigI (from_fn root2) 20) n (icf_homo O 0 1 1 1)) [0; 1; 2; 3]%nat = [Ok (Some 0); Ok (Some 2); Ok (Some 2); Ok (Some 2)] /\
  wfcf (CF [1] [2] true) /\ coeffs_fit (UInt 64) (CF [1] [2] true) /\
  nth_item (homo_next (SInt 64) (signed_next (UInt 64)) 20) 0 (icf_homo (cf_coeffs (CF [1] [2] true)) 2 1 0 3) = Ok (Some 0).
Proof.
  split; [apply from_fn_yields|]. split; [apply root2_signed|]. split; [apply root2_conv|].
  split; [vm_compute; reflexivity|]. split; [vm_compute; reflexivity|].
  split; [cbn; split; [lia|]; split; [constructor|constructor; [lia|constructor]]|].
  split; [split; cbn; constructor; try constructor; lia|]. vm_compute; reflexivity.
Qed.

Lemma L_C42_homo_partial : forall t I (inext : I -> res (option Z * I)) it f x e a b c d fuel n v, e = 1 \/ e = -1 ->
  yields inext it f -> csigned e f -> cconverges f x -> 0 <= e * c * d \/ (0 < e * a * b /\ Z.abs c <= Z.abs a /\ Z.abs d <= Z.abs b) -> (IZR c * x + IZR d <> 0)%R ->
  nth_item (homo_next t inext fuel) n (icf_homo it a b c d) = Ok (Some v) -> cf_digit ((IZR a * x + IZR b) / (IZR c * x + IZR d)) n v.
Proof. intros t I inext it f x e a b c d fuel n v He Y A C G D H. eapply (homo_sound_signed t inext e He); eauto. Qed.

Lemma L_C42_affine_partial : forall t I (inext : I -> res (option Z * I)) it f x e a b d fuel n v, e = 1 \/ e = -1 ->
  yields inext it f -> (forall n, (1 <= n)%nat -> 1 <= e * f n) -> cconverges f x -> d <> 0 ->
  nth_item (homo_next t inext fuel) n (icf_homo it a b 0 d) = Ok (Some v) -> cf_digit ((IZR a * x + IZR b) / IZR d) n v.
Proof. intros t I inext it f x e a b d fuel n v He Y A C D H. eapply (homo_sound_affine t inext e He); eauto. Qed.

Lemma L_C42_returns_partial : forall I (inext : I -> res (option Z * I)) it f x e a b c d n, e = 1 \/ e = -1 ->
  yields inext it f -> csigned e f -> cconverges f x -> 0 <= e * c * d \/ (0 < e * a * b /\ Z.abs c <= Z.abs a /\ Z.abs d <= Z.abs b) -> a * d - b * c <> 0 ->
  exists fuel v, forall fuel', (fuel <= fuel')%nat -> nth_item (homo_next BigI inext fuel') n (icf_homo it a b c d) = Ok (Some v).
Proof.
  intros I inext it f x e a b c d n He Y A C G D. apply (homo_live_signed inext e He it f x); auto.
  destruct (signed_converges e f He (proj2 A)) as (y & Cy & Iy). rewrite (cconverges_unique _ _ _ C Cy). auto.
Qed.

Lemma L_C42_affine_returns_partial : forall I (inext : I -> res (option Z * I)) it f x e a b d n, e = 1 \/ e = -1 ->
  yields inext it f -> (forall n, (1 <= n)%nat -> 1 <= e * f n) -> cconverges f x -> a * d <> 0 ->
  exists fuel v, forall fuel', (fuel <= fuel')%nat -> nth_item (homo_next BigI inext fuel') n (icf_homo it a b 0 d) = Ok (Some v).
Proof.
  intros I inext it f x e a b d n He Y A C D. apply (homo_live_affine inext e He it f x); auto.
  destruct (signed_converges e f He A) as (y & Cy & Iy). rewrite (cconverges_unique _ _ _ C Cy). auto.
Qed.

Lemma L_C42_stored_partial : forall t u x a b c d fuel n v, wfcf x -> ~ finite x -> coeffs_fit u x ->
  (let e := sgnb (negative x) in 0 <= e * c * d \/ (0 < e * a * b /\ Z.abs c <= Z.abs a /\ Z.abs d <= Z.abs b)) -> c <> 0 \/ d <> 0 ->
  nth_item (homo_next t (signed_next u) fuel) n (icf_homo (cf_coeffs x) a b c d) = Ok (Some v) -> cf_digit ((IZR a * cf_val x + IZR b) / (IZR c * cf_val x + IZR d)) n v.
Proof.
  intros t u x a b c d fuel n v W F Ft G D H.
  assert (D' : (IZR c * cf_val x + IZR d <> 0)%R).
  { intros K. destruct (Z.eq_dec c 0) as [->|Hc].
    - rewrite Rmult_0_l, Rplus_0_l in K. apply eq_IZR_R0 in K. lia.
    - apply (stored_irrational x W F (- d) c Hc). rewrite opp_IZR. assert (IZR c <> 0%R) by (apply not_0_IZR; auto). field_simplify_eq; auto. lra. }
  apply (homo_sound_signed t (signed_next u) _ (sgnb_cases (negative x)) _ (sseq x) _ _ _ _ _ fuel n v (stored_yields u x Ft F) (stored_signed x W) (stored_converges x W F) G D' H).
Qed.

Lemma L_C42_coefficients : forall e f, e = 1 \/ e = -1 -> csigned e f -> exists x, cconverges f x /\ irrational x /\ forall n, cf_digit x n (f n).
Proof.
  intros e f He A. destruct (signed_converges e f He (proj2 A)) as (x & C & Ix). exists x. split; [auto|]. split; [auto|]. intros n. apply (signed_digit e n He f x A C).
Qed.

Lemma L_C42_refuted : yields (from_fn root2) O root2 /\ csigned 1 root2 /\ cconverges root2 (sqrt 2) /\ (IZR 1 * sqrt 2 + IZR (-2) <> 0)%R /\
  nth_item (homo_next BigI (from_fn root2) 9) 0 (icf_homo O 5 (-11) 1 (-2)) = Ok (Some 5) /\ ~ cf_digit ((IZR 5 * sqrt 2 + IZR (-11)) / (IZR 1 * sqrt 2 + IZR (-2))) 0 5.
Proof.
  pose proof sqrt2_bounds as B. split; [apply from_fn_yields|]. split; [apply root2_signed|]. split; [apply root2_conv|]. split; [lra|].
  split; [vm_compute; reflexivity|]. cbn [cf_digit]. intros [P _].
  assert (V : (6 < (IZR 5 * sqrt 2 + IZR (-11)) / (IZR 1 * sqrt 2 + IZR (-2)))%R); [|specialize (P ltac:(lra)); lra].
  replace ((IZR 5 * sqrt 2 + IZR (-11)) / (IZR 1 * sqrt 2 + IZR (-2)))%R with ((11 - 5 * sqrt 2) / (2 - sqrt 2))%R by (field; lra).
  apply (Rmult_lt_reg_r (2 - sqrt 2)); [lra|]. unfold Rdiv. rewrite Rmult_assoc, Rinv_l; lra.
Qed.

Lemma decimals_all : forall t I (inext : I -> res (option (Z * Z) * I)) it f x fuel n c, yields inext it f -> gpositive f -> gconverges f x -> (0 <= x < 10)%R ->
  nth_item (dec_next t inext fuel) n (gcf_decimals it) = Ok (Some c) -> exists m, isfloor (10 ^ n * x)%R m /\ c = 48 + m mod 10.
Proof. intros. eapply decimals_sound; eauto. Qed.

Lemma decimals_case : yields (from_fn (fun n => (1, root2 n))) O (fun n => (1, root2 n)) /\ gpositive (fun n => (1, root2 n)) /\ gconverges (fun n => (1, root2 n)) (sqrt 2) /\
  irrational (sqrt 2) /\ (0 <= sqrt 2 < 10)%R /\
  map (fun n => nth_item (dec_next (SInt 64) (from_fn (fun n => (1, root2 n))) 9) n (gcf_decimals O)) [0; 1; 2; 3; 4]%nat = [Ok (Some 49); Ok (Some 52); Ok (Some 49); Ok (Some 52); Ok (Some 50)] /\
  map (fun n => nth_item (dec_next BigI (from_fn pi_pairs) 1000) n (gcf_decimals O)) [0; 1; 2; 3]%nat = [Ok (Some 51); Ok (Some 49); Ok (Some 52); Ok (Some 49)] /\
  nth_item (dec_next (SInt 64) (general_next (UInt 64)) 9) 1 (gcf_decimals (cf_generalized (CF [1] [2] false))) = Ok (Some 52).
Proof.
  pose proof sqrt2_bounds. split; [apply from_fn_yields|]. split; [split; [reflexivity|]; intros [|n] Hn; cbn; lia|]. split; [apply root2_conv|]. split; [apply irr_r2|]. split; [lra|].
  split; [vm_compute; reflexivity|]. split; vm_compute; reflexivity.
Qed.

Lemma L_C43_decimals : forall t I (inext : I -> res (option (Z * Z) * I)) it f x fuel n c, yields inext it f -> gpositive f -> gconverges f x -> (0 <= x < 10)%R ->
  nth_item (dec_next t inext fuel) n (gcf_decimals it) = Ok (Some c) -> exists m, isfloor (10 ^ n * x)%R m /\ c = 48 + m mod 10.
Proof. exact decimals_all. Qed.

Lemma L_C43_returns : forall I (inext : I -> res (option (Z * Z) * I)) it f x n, yields inext it f -> gpositive f -> gconverges f x -> irrational x -> (0 <= x < 10)%R ->
  exists fuel c, forall fuel', (fuel <= fuel')%nat -> nth_item (dec_next BigI inext fuel') n (gcf_decimals it) = Ok (Some c).
Proof. intros. eapply decimals_live; eauto. Qed.

Lemma L_C43_stored : forall t u x fuel n c, wfcf x -> ~ finite x -> coeffs_fit u x -> negative x = false -> (cf_val x < 10)%R ->
  nth_item (dec_next t (general_next u) fuel) n (gcf_decimals (cf_generalized x)) = Ok (Some c) -> exists m, isfloor (10 ^ n * cf_val x)%R m /\ c = 48 + m mod 10.
Proof.
  intros t u x fuel n c W F Ft Ng B H. pose proof (stored_signed x W) as Sg. rewrite Ng in Sg. cbn [sgnb] in Sg.
  pose proof (csigned_pos 1 (or_introl eq_refl) _ _ Sg (stored_converges x W F)) as P.
  apply (decimals_all t _ _ _ (fun n => (1, sseq x n)) _ fuel n c (stored_pairs u x Ft F)); auto.
  - split; [reflexivity|]. intros j Hj. cbn [fst snd]. split; [lia|]. pose proof (proj2 Sg j Hj). lia.
  - apply (stored_converges x W F).
  - lra.
Qed.

Lemma bihomo_hang_from fuel : forall A B xi n, 0 < A -> 0 < B ->
  bihomo_next BigI (from_fn root2) (from_fn root2) fuel (DBlock (3 * A) (3 * B) (4 * A) (4 * B) A B (2 * A) (2 * B), xi, n) = Hang.
Proof.
  induction fuel as [|fuel IH]; intros A B xi n HA HB; [reflexivity|]. cbn [bihomo_next]. unfold dblock_reduce_recip, dblock_check_integer.
  cbn [pm11 pm12 pm21 pm22 qm11 qm12 qm21 qm22]. destruct (Z.eqb_spec (2 * B) 0); [lia|]. destruct (Z.eqb_spec A 0); [lia|].
  assert (Q1 : forall z, 0 < z -> div_remT BigI (3 * z) z = Ok (3, 0)).
  { intros z Hz. unfold div_remT, quotT, remT, lift2. destruct (Z.eqb_spec z 0); [lia|]. cbn [bind chk fits]. rewrite Z.quot_mul, Z.rem_mul by lia. reflexivity. }
  assert (Q2 : forall z, 0 < z -> div_remT BigI (4 * z) (2 * z) = Ok (2, 0)).
  { intros z Hz. unfold div_remT, quotT, remT, lift2. destruct (Z.eqb_spec (2 * z) 0); [lia|]. cbn [bind chk fits]. replace (4 * z) with (2 * (2 * z)) by ring. rewrite Z.quot_mul, Z.rem_mul by lia. reflexivity. }
  rewrite !Q1, !Q2 by auto. cbn [bind Z.eqb Pos.eqb andb negb orb from_fn]. set (v := root2 n). assert (Hv : 0 < v) by (unfold v; destruct n; cbn; lia). clearbody v.
  unfold dblock_rmove_down, lift2, mulT, addT, chk. cbn [bind fits pm11 pm12 pm21 pm22 qm11 qm12 qm21 qm22 dblock_update_down]. unfold dblock_update_down. cbn [pm11 pm12 pm21 pm22 qm11 qm12 qm21 qm22].
  rewrite <- (IH (v * A + B) A xi (S n)) by nia. f_equal. f_equal. f_equal. f_equal; ring.
Qed.

Lemma bihomo_hang : forall fuel, nth_item (bihomo_next BigI (from_fn root2) (from_fn root2) fuel) 0 (icf_bihomo O O 3 3 4 4 1 1 2 2) = Hang.
Proof. intros fuel. cbn [nth_item]. pose proof (bihomo_hang_from fuel 1 1 O O ltac:(lia) ltac:(lia)) as H. unfold icf_bihomo. change (3 * 1) with 3 in H. change (4 * 1) with 4 in H. change (2 * 1) with 2 in H. rewrite H. reflexivity. Qed.

Lemma L_C44_bihomo_partial : forall t X Y (xi : X) (ynext : Y -> res (option Z * Y)) it s x y pk a b c d e f g h fuel n v, (0 < x)%R ->
  yields ynext it s -> csigned 1 s -> cconverges s y -> 0 <= e -> 0 <= f -> 0 <= g -> 0 <= h -> (IZR e * (x * y) + IZR f * x + IZR g * y + IZR h <> 0)%R ->
  nth_item (bihomo_next t (fun _ : X => Panic pk) ynext fuel) n (icf_bihomo xi it a b c d e f g h) = Ok (Some v) ->
  cf_digit ((IZR a * (x * y) + IZR b * x + IZR c * y + IZR d) / (IZR e * (x * y) + IZR f * x + IZR g * y + IZR h)) n v.
Proof.
  intros t X Y xi ynext it s x y pk a b c d e f g h fuel n v Hx Ys A C H1 H2 H3 H4 D H.
  eapply (bihomo_nth t ynext pk x Hx); [|exact H]. eapply bihomo_start; eauto. unfold nonneg4. auto.
Qed.

Lemma L_C44_any_x_partial : forall t X Y (xnext : X -> res (option Z * X)) (ynext : Y -> res (option Z * Y)) pk fuel n s v,
  nth_item (bihomo_next t (fun _ : X => Panic pk) ynext fuel) n s = Ok (Some v) -> nth_item (bihomo_next t xnext ynext fuel) n s = Ok (Some v).
Proof. intros t X Y xnext ynext pk fuel n s v H. eapply bihomo_any_nth; eauto. Qed.

Lemma L_C44_sum_refuted : yields (from_fn root2) O root2 /\ csigned 1 root2 /\ cconverges root2 (sqrt 2) /\
  forall fuel, (9 <= fuel)%nat -> nth_item (bihomo_next BigI (from_fn root2) (from_fn root2) fuel) 0 (icf_bihomo O O 0 1 1 0 0 0 0 1) = Panic PDivZero.
Proof.
  split; [apply from_fn_yields|]. split; [apply root2_signed|]. split; [apply root2_conv|]. intros fuel H. replace fuel with (9 + (fuel - 9))%nat by lia.
  generalize (fuel - 9)%nat. intros k. vm_compute. reflexivity.
Qed.

Lemma L_C44_product_refuted : forall fuel, (9 <= fuel)%nat ->
  nth_item (bihomo_next BigI (from_fn root2) (from_fn root2) fuel) 0 (icf_bihomo O O 1 0 0 0 0 0 0 1) = Panic PDivZero.
Proof.
  intros fuel H. replace fuel with (9 + (fuel - 9))%nat by lia. generalize (fuel - 9)%nat. intros k. vm_compute. reflexivity.
Qed.

Lemma L_C44_value_refuted : nth_item (bihomo_next BigI (from_fn root2) (from_fn root2) 60) 0 (icf_bihomo O O 5 4 6 6 1 1 1 1) = Ok (Some 7) /\
  ~ cf_digit ((IZR 5 * (sqrt 2 * sqrt 2) + IZR 4 * sqrt 2 + IZR 6 * sqrt 2 + IZR 6) / (IZR 1 * (sqrt 2 * sqrt 2) + IZR 1 * sqrt 2 + IZR 1 * sqrt 2 + IZR 1)) 0 7.
Proof.
  split; [vm_compute; reflexivity|]. pose proof sqrt2_bounds as B. assert (S2 : (sqrt 2 * sqrt 2 = 2)%R) by (apply sqrt_sqrt; lra). rewrite S2.
  cbn [cf_digit]. intros [P _]. set (y := ((IZR 5 * 2 + IZR 4 * sqrt 2 + IZR 6 * sqrt 2 + IZR 6) / (IZR 1 * 2 + IZR 1 * sqrt 2 + IZR 1 * sqrt 2 + IZR 1))%R) in *.
  assert (V : (y < 6)%R) by (unfold y; apply (Rmult_lt_reg_r (IZR 1 * 2 + IZR 1 * sqrt 2 + IZR 1 * sqrt 2 + IZR 1)); [lra|]; unfold Rdiv; rewrite Rmult_assoc, Rinv_l; lra). assert (V0 : (0 <= y)%R) by (unfold y; apply Rdiv_le_0_compat; lra). specialize (P V0). lra.
Qed.

Lemma L_C44_hang_refuted : forall fuel, nth_item (bihomo_next BigI (from_fn root2) (from_fn root2) fuel) 0 (icf_bihomo O O 3 3 4 4 1 1 2 2) = Hang.
Proof. exact bihomo_hang. Qed.

Lemma L_C50_refuted : yields (from_fn root2) O root2 /\ csigned 1 root2 /\ cconverges root2 (sqrt 2) /\
  nth_item (gconv_next BigI (generalize_next (from_fn root2))) 1 (gcf_convergents O) = Ok (Some (Ratio 3 1)) /\ gval (prefix (fun n => (1, root2 n)) 2) = (3 / 2)%R.
Proof.
  split; [apply from_fn_yields|]. split; [apply root2_signed|]. split; [apply root2_conv|]. split; [vm_compute; reflexivity|]. cbn. field.
Qed.

Lemma L_C50_partial : forall t I (inext : I -> res (option Z * I)) it f n r, yields inext it f -> (forall j, f j = 1) ->
  nth_item (gconv_next t (generalize_next inext)) n (gcf_convergents it) = Ok (Some r) -> lowest r /\ rval r = gval (prefix (fun j => (1, f j)) (S n)).
Proof.
  intros t I inext it f n r Y F H.
  assert (E : forall m, prefix (fun j => (f j, 1)) m = prefix (fun j => (1, f j)) m) by (intros m; unfold prefix; apply map_ext; intros j; rewrite F; reflexivity).
  rewrite <- E. eapply gconv_value; [| | |exact H].
  - intros j Hj. apply (generalize_nth inext j it (f j)). apply Y.
  - cbn [fst]. apply F.
  - apply latepos_regular. intros j Hj. cbn [fst snd]. rewrite F. lia.
Qed.

Lemma L_C50_value : forall t I (inext : I -> res (option Z * I)) it f n r, yields inext it f -> f O <> 0 -> cpositive f ->
  nth_item (gconv_next t (generalize_next inext)) n (gcf_convergents it) = Ok (Some r) -> rval r = (gval (prefix (fun j => (f j, 1%Z)) (S n)) / IZR (f O))%R.
Proof.
  intros t I inext it f n r Y F P H. eapply (gconv_value_any t (generalize_next inext) it (fun j => (f j, 1))); [| | |exact H].
  - intros j Hj. apply (generalize_nth inext j it (f j)). apply Y.
  - exact F.
  - apply latepos_regular. intros j Hj. cbn [fst snd]. specialize (P j Hj). lia.
Qed.
