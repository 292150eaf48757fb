(** * ClaimsRate: proofs of the property theorems in PropsRate.v. *)

From Coq Require Import ZArith Reals Lia Lra Psatz Bool List Arith Factorial.
From Coquelicot Require Import Coquelicot.
From Verif Require Import Base Ext ModelSurd ModelBlock ModelCF ModelGen ModelSymbols Spec SpecCF SpecGen SpecSym NumFacts RatioFacts GenSound GenConv GenTail GenMisc GenCont GenApprox SymE SymPi SymExp SymRate ClaimsCF ClaimsGen ClaimsApi ClaimsSym.
Import ListNotations.
Open Scope Z_scope.

Lemma pos_item t {I} (inext : I -> res (option (Z * Z) * I)) it f n r : (forall j ab, nth_item inext j it = Ok (Some ab) -> ab = f j) -> gpositive f ->
  nth_item (gconv_next t inext) n (gcf_convergents it) = Ok (Some r) -> lowest r /\ rval r = gval (prefix f (S n)).
Proof.
  intros Y P H. destruct (gconv_determined t inext it f n r Y (proj1 P) H) as (L & _ & V). split; [exact L|]. rewrite V. symmetry. apply (gpos_c f P).
Qed.
Lemma yields_det {S A : Type} (next : S -> res (option A * S)) s f : yields next s f -> forall j a, nth_item next j s = Ok (Some a) -> a = f j.
Proof. intros Y j a H. rewrite (Y j) in H. congruence. Qed.

Lemma L_C88_sides : forall t I (inext : I -> res (option (Z * Z) * I)) it f x n r, yields inext it f -> gpositive f -> gconverges f x ->
  nth_item (gconv_next t inext) n (gcf_convergents it) = Ok (Some r) -> if Nat.even n then (rval r < x)%R else (x < rval r)%R.
Proof.
  intros t I inext it f x n r Y P C H. destruct (pos_item t inext it f n r (yields_det _ _ _ Y) P H) as [_ ->]. apply (limit_side f P x n C).
Qed.

Lemma L_C88_next : forall t I (inext : I -> res (option (Z * Z) * I)) it f x n r q, yields inext it f -> gpositive f -> gconverges f x ->
  nth_item (gconv_next t inext) n (gcf_convergents it) = Ok (Some r) -> nth_item (gconv_next t inext) (S n) (gcf_convergents it) = Ok (Some q) ->
  (0 < Rabs (x - rval r) < Rabs (rval q - rval r))%R.
Proof.
  intros t I inext it f x n r q Y P C H K. destruct (pos_item t inext it f n r (yields_det _ _ _ Y) P H) as [_ ->].
  destruct (pos_item t inext it f (S n) q (yields_det _ _ _ Y) P K) as [_ ->]. apply (limit_error f P x n C).
Qed.

Lemma L_C88_closer : forall t I (inext : I -> res (option (Z * Z) * I)) it f x n r q, yields inext it f -> gpositive f -> gconverges f x ->
  nth_item (gconv_next t inext) n (gcf_convergents it) = Ok (Some r) -> nth_item (gconv_next t inext) (S (S n)) (gcf_convergents it) = Ok (Some q) ->
  (Rabs (x - rval q) < Rabs (x - rval r))%R.
Proof.
  intros t I inext it f x n r q Y P C H K. destruct (pos_item t inext it f n r (yields_det _ _ _ Y) P H) as [_ ->].
  destruct (pos_item t inext it f (S (S n)) q (yields_det _ _ _ Y) P K) as [_ ->]. apply (two_steps f P x n C).
Qed.

Lemma L_C88_pi : forall t n r, nth_item (gconv_next t (pi_next t)) (S n) (gcf_convergents pi_gfrac) = Ok (Some r) -> (0 < Rabs (PI - rval r) < (/ 5) ^ n)%R.
Proof.
  intros t n r H. destruct (pos_item t (pi_next t) pi_gfrac pi_items (S n) r (pi_source t) pi_pos H) as [_ ->]. apply pi_error.
Qed.

Lemma L_C88_pi_sides : forall t n r, nth_item (gconv_next t (pi_next t)) n (gcf_convergents pi_gfrac) = Ok (Some r) -> if Nat.even n then (rval r < PI)%R else (PI < rval r)%R.
Proof.
  intros t n r H. destruct (pos_item t (pi_next t) pi_gfrac pi_items n r (pi_source t) pi_pos H) as [_ ->]. apply (limit_side pi_items pi_pos PI n pi_converges).
Qed.

Lemma L_C88_pi_approximated : forall t fuel limit v, 1 <= limit -> gcf_approximated t (pi_next t) fuel pi_gfrac limit = Ok v ->
  exists m r, (v = Exact r \/ v = Approximated r) /\ lowest r /\ denom r <= limit /\ nth_item (gconv_next t (pi_next t)) m (gcf_convergents pi_gfrac) = Ok (Some r) /\
    (0 < Rabs (PI - rval r) < 5 * (/ 5) ^ m)%R /\
    (v = Approximated r -> exists q, nth_item (gconv_next t (pi_next t)) (S m) (gcf_convergents pi_gfrac) = Ok (Some q) /\ limit <= denom q).
Proof.
  intros t fuel limit v L H. destruct (approx_choice _ _ _ _ _ _ H) as (m & r & E & B & D). exists m, r.
  destruct (pos_item t (pi_next t) pi_gfrac pi_items m r (pi_source t) pi_pos E) as [Lr V].
  assert (Dr : denom r <= limit).
  { destruct m as [|m]; [|specialize (B (S m) r ltac:(lia) E); lia].
    destruct Lr as [Lp Lg]. unfold prefix in V. cbn [seq map gval pi_items] in V. unfold rval in V. pose proof (IZR_lt _ _ Lp).
    assert (N0 : IZR (numer r) = 0%R) by (replace (IZR (numer r)) with (IZR (numer r) / IZR (denom r) * IZR (denom r))%R by (field; lra); rewrite V; ring).
    apply eq_IZR in N0. rewrite N0, Z.gcd_0_l in Lg. lia. }
  split; [destruct D as [[D _]|[[D _]|[D _]]]; auto|]. split; [exact Lr|]. split; [exact Dr|]. split; [exact E|]. split.
  - destruct m as [|m].
    + rewrite V. unfold prefix. cbn [seq map gval pi_items pow]. rewrite Rminus_0_r. pose proof PI_4. pose proof PI_RGT_0. rewrite Rabs_right by lra. lra.
    + pose proof (L_C88_pi t m r E). cbn [pow]. lra.
  - intros Ev. destruct D as [[D _]|[(_ & _ & D)|[_ D]]]; [congruence|lia|exact D].
Qed.

Lemma L_C88_exp : forall t x n r, nth_item (gconv_next t (exp_next t)) n (gcf_convergents (gcf_exp x)) = Ok (Some r) ->
  (Rabs (exp (IZR x) - rval r) <= Rabs (IZR x) ^ S n / INR (fact (S n)) * Rmax 1 (exp (IZR x)))%R.
Proof. intros t x n r H. destruct (L_C45_partial_sum t x n r H) as [_ ->]. apply exp_error_bound. Qed.

Lemma taken {I} (inext : I -> res (option Z * I)) it f l : (forall j v, nth_item inext j it = Ok (Some v) -> v = f j) ->
  (forall j, (j < length l)%nat -> nth_item inext j it = Ok (nth_error l j)) -> l = prefix f (length l).
Proof.
  intros Y Hi. apply nth_ext with (d := 0) (d' := 0); [unfold prefix; rewrite map_length, seq_length; reflexivity|]. intros j Hj. specialize (Hi j Hj).
  unfold prefix. rewrite (nth_indep (map f (seq 0 (length l))) 0 (f O)) by (rewrite map_length, seq_length; lia). rewrite map_nth, seq_nth by lia. cbn [Nat.add].
  rewrite (nth_error_nth' l 0 Hj) in Hi. apply (Y j). exact Hi.
Qed.

Lemma L_C88_collect : forall g t I (inext : I -> res (option Z * I)) it f x l z, yields inext it f -> csigned 1 f -> cconverges f x -> l <> nil ->
  (forall j, (j < length l)%nat -> nth_item inext j it = Ok (nth_error l j)) -> fits t 1 = true -> List.Forall (fun v => fits t v = true) l ->
  cf_from_iter g t l = Ok z ->
  canonical z /\ exists r, lowest r /\ rval r = cf_val z /\ (0 < Rabs (x - rval r) < / (IZR (denom r) * IZR (denom r)))%R.
Proof.
  intros g t I inext it f x l z Y P C Nl Hi F1 Fl H. pose proof (taken inext it f l (yields_det _ _ _ Y) Hi) as El.
  destruct (length l) as [|n] eqn:Len; [destruct l; [congruence|discriminate]|]. subst l.
  destruct (L_C59_collect_partial g t _ z F1 Fl (or_introl (simple_plain f P n)) H) as [Ca V].
  split; [exact Ca|]. exists (Ratio (gnum (fun k => (1, f k)) n) (gden (fun k => (1, f k)) n)). split; [apply (simple_lowest f P n)|].
  rewrite V, (simple_val f n). unfold rval. cbn [numer denom]. rewrite (gpos_c _ (simple_pos f P) n). split; [reflexivity|].
  rewrite <- (gpos_c _ (simple_pos f P) n). apply (simple_error f P x n C).
Qed.

Lemma L_C88_collect_returns : forall g f n, csigned 1 f -> returns (cf_from_iter g BigI (prefix f (S n))).
Proof. intros g f n P. unfold cf_from_iter. apply L_C31_returns_partial. apply (simple_plain f P n). Qed.

Lemma L_C88_e : forall g t k l z, length l = (3 * k + 3)%nat -> (forall j, (j < length l)%nat -> nth_item (e_next t) j e_cfrac = Ok (nth_error l j)) ->
  fits t 1 = true -> List.Forall (fun v => fits t v = true) l -> cf_from_iter g t l = Ok z ->
  (0 < Rabs (exp 1 - cf_val z) < / ((2 ^ S k * INR (fact (S k))) * (2 ^ S k * INR (fact (S k)))))%R.
Proof.
  intros g t k l z Hl Hi F1 Fl H.
  pose proof (taken (e_next t) e_cfrac e_coeff l (e_source t) Hi) as El. rewrite Hl in El.
  replace (3 * k + 3)%nat with (S (3 * k + 2)) in El by lia. subst l.
  destruct (L_C59_collect_partial g t _ z F1 Fl (or_introl (simple_plain e_coeff csigned_e _)) H) as [_ V]. rewrite V, simple_val.
  destruct (simple_error e_coeff csigned_e (exp 1) (3 * k + 2) e_converges) as [A B]. split; [exact A|]. apply (Rlt_le_trans _ _ _ B).
  pose proof (e_den_big k) as D. unfold e_pairs in D. assert (D0 : (0 < 2 ^ S k * INR (fact (S k)))%R) by (apply Rmult_lt_0_compat; [apply pow_lt; lra|apply INR_fact_lt_0]).
  apply Rinv_le_contravar; [apply Rmult_lt_0_compat; exact D0|]. apply Rmult_le_compat; lra.
Qed.
