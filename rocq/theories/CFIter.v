(** * CFIter: the iterators of continued fractions follow the coefficient sequence. *)

From Coq Require Import ZArith Znumtheory Reals Lia Lra Bool List Arith.
From Coquelicot Require Import Coquelicot.
From Verif Require Import Base Ext ModelBlock ModelCF Spec SpecCF NumFacts Transfer SurdCore RatioFacts CFCore CFSeq.
Import ListNotations.
Open Scope Z_scope.

(** ** Driving an iterator along a sequence of items *)
Section Drive.
Context {St A : Type} (next : St -> res (option A * St)) (inv : nat -> St -> Prop) (item : nat -> option A) (N : nat -> Prop).
Hypothesis step : forall n s, inv n s -> N n -> exists s', next s = Ok (item n, s') /\ (item n <> None -> inv (S n) s').

Lemma nth_item_ok n k s : inv k s -> (forall j, (j <= k + n)%nat -> N j) ->
  (forall j, (k <= j < k + n)%nat -> item j <> None) -> nth_item next n s = Ok (item (k + n)%nat).
Proof.
  revert k s. induction n as [|n IH]; intros k s I HN HI.
  - cbn [nth_item]. destruct (step k s I) as (s' & E & _); [apply HN; lia|]. rewrite E. cbn [bind]. rewrite Nat.add_0_r.
    destruct (item k); reflexivity.
  - cbn [nth_item]. destruct (step k s I) as (s' & E & K); [apply HN; lia|]. rewrite E. cbn [bind].
    assert (Hk : item k <> None) by (apply HI; lia). specialize (K Hk). destruct (item k) eqn:Ek; [|congruence].
    rewrite (IH (S k) s' K); [f_equal; f_equal; lia| |]; intros j Hj; [apply HN|apply HI]; lia.
Qed.
(** the items stop for good *)
Lemma nth_item_none n k s : inv k s -> (forall j, (j <= k + n)%nat -> N j) ->
  (exists j, (k <= j <= k + n)%nat /\ item j = None) -> nth_item next n s = Ok None.
Proof.
  revert k s. induction n as [|n IH]; intros k s I HN (j & Hj & Ej).
  - assert (j = k) by lia. subst. cbn [nth_item]. destruct (step k s I) as (s' & E & _); [apply HN; lia|]. rewrite E, Ej. reflexivity.
  - cbn [nth_item]. destruct (step k s I) as (s' & E & K); [apply HN; lia|]. rewrite E. cbn [bind].
    destruct (item k) eqn:Ek; [|reflexivity]. apply (IH (S k)); [apply K; discriminate|intros; apply HN; lia|].
    exists j. split; [|auto]. assert (j <> k) by congruence. lia.
Qed.
Lemma last_item_ok n k s fuel acc : inv k s -> (forall j, (j <= k + n)%nat -> N j) ->
  (forall j, (k <= j < k + n)%nat -> item j <> None) -> item (k + n)%nat = None -> (n < fuel)%nat ->
  last_item next fuel acc s = Ok (match n with O => acc | S m => item (k + m)%nat end).
Proof.
  revert k s acc fuel. induction n as [|n IH]; intros k s acc fuel I HN HI E0 Hf; (destruct fuel as [|fuel]; [lia|]); cbn [last_item];
    (destruct (step k s I) as (s' & E & K); [apply HN; lia|]); rewrite E; cbn [bind].
  - rewrite Nat.add_0_r in E0. rewrite E0. reflexivity.
  - assert (Hk : item k <> None) by (apply HI; lia). specialize (K Hk). destruct (item k) eqn:Ek; [|congruence].
    rewrite (IH (S k) s' _ fuel K); try lia.
    + f_equal. destruct n; [rewrite Nat.add_0_r; auto|]. f_equal. lia.
    + intros; apply HN; lia.
    + intros; apply HI; lia.
    + rewrite <- E0. f_equal. lia.
Qed.
Lemma take_ok n k s : inv k s -> (forall j, (j <= k + n)%nat -> N j) ->
  (forall j, (k <= j < k + n)%nat -> item j <> None) ->
  exists l, take next n s = Ok l /\ map Some l = map item (seq k n).
Proof.
  revert k s. induction n as [|n IH]; intros k s I HN HI.
  - exists nil. split; reflexivity.
  - cbn [take]. destruct (step k s I) as (s' & E & K); [apply HN; lia|]. rewrite E. cbn [bind].
    assert (Hk : item k <> None) by (apply HI; lia). specialize (K Hk). destruct (item k) eqn:Ek; [|congruence].
    destruct (IH (S k) s' K) as (l & El & Ml); [intros; apply HN; lia|intros; apply HI; lia|].
    rewrite El. cbn [bind]. exists (a :: l). split; [reflexivity|]. cbn [map seq]. rewrite Ek, Ml. reflexivity.
Qed.
End Drive.

(** ** Coefficients *)
Definition rest_of (s : coeffs_st) : list Z :=
  match a_iter s with Some l => l | None => match p_iter s with Some l => l | None => nil end end.
Definition fut (s : coeffs_st) (k : nat) : option Z := nth_error (rest_of s ++ concat (repeat (p_ref s) (S k))) k.
Definition live (s : coeffs_st) : Prop :=
  match a_iter s, p_iter s with Some _, Some _ => False | None, None => p_ref s = nil | _, _ => True end.

Lemma fut_skip (l p : list Z) (v : Z) k : nth_error ((v :: l) ++ concat (repeat p (S (S k)))) (S k) = nth_error (l ++ concat (repeat p (S k))) k.
Proof. cbn [app nth_error]. symmetry. apply nth_stable; lia. Qed.
Lemma coeffs_next_fut s : live s -> exists s', coeffs_next s = (fut s 0, s') /\ live s' /\ (forall k, fut s' k = fut s (S k)) /\ p_ref s' = p_ref s.
Proof.
  destruct s as [[[|v l]|] p [[|v' l']|]]; unfold live; cbn [a_iter p_ref p_iter]; intros L; try contradiction; unfold coeffs_next; cbn [a_iter p_ref p_iter].
  - destruct p as [|w p]; eexists; (split; [reflexivity|]); (split; [cbn; auto|]); (split; [|reflexivity]); intros k; unfold fut, rest_of; cbn [a_iter p_iter p_ref app].
    + rewrite !concat_repeat_nil. destruct k; reflexivity.
    + reflexivity.
  - eexists; (split; [reflexivity|]); (split; [cbn; auto|]); (split; [|reflexivity]); intros k; unfold fut, rest_of; cbn [a_iter p_iter p_ref].
    symmetry. apply fut_skip.
  - destruct p as [|w p]; eexists; (split; [reflexivity|]); (split; [cbn; auto|]); (split; [|reflexivity]); intros k; unfold fut, rest_of; cbn [a_iter p_iter p_ref app].
    + rewrite !concat_repeat_nil. destruct k; reflexivity.
    + reflexivity.
  - eexists; (split; [reflexivity|]); (split; [cbn; auto|]); (split; [|reflexivity]); intros k; unfold fut, rest_of; cbn [a_iter p_iter p_ref].
    symmetry. apply fut_skip.
  - subst p. eexists; (split; [reflexivity|]); (split; [cbn; auto|]); (split; [|reflexivity]); intros k; unfold fut, rest_of; cbn [a_iter p_iter p_ref app].
    rewrite !concat_repeat_nil. destruct k; reflexivity.
Qed.

(** the state of the coefficient iterator after n items *)
Definition at_coeff (x : cf) (n : nat) (s : coeffs_st) : Prop := live s /\ forall k, fut s k = coeff_at x (n + k).
Lemma at_coeff_start x : at_coeff x 0 (cf_coeffs_unsigned x).
Proof. split; [exact I|]. intros k. reflexivity. Qed.
Lemma at_coeff_next x n s : at_coeff x n s -> exists s', coeffs_next s = (coeff_at x n, s') /\ at_coeff x (S n) s'.
Proof.
  intros [L F]. destruct (coeffs_next_fut s L) as (s' & E & L' & F' & _). exists s'. rewrite E, F, Nat.add_0_r.
  split; [reflexivity|]. split; [auto|]. intros k. rewrite F', F. f_equal. lia.
Qed.

Lemma coeff_at_none_ge x j k : coeff_at x j = None -> (j <= k)%nat -> coeff_at x k = None.
Proof. rewrite !has_none. intros [F L] H. split; [auto|lia]. Qed.
Lemma coeff_at_some_lt x j k v : coeff_at x k = Some v -> (j <= k)%nat -> coeff_at x j <> None.
Proof. intros E H N. pose proof (coeff_at_none_ge x j k N H). congruence. Qed.

Lemma unsigned_nth x n : nth_item coeffs_nextM n (cf_coeffs_unsigned x) = Ok (coeff_at x n).
Proof.
  assert (St : forall k s, at_coeff x k s -> True -> exists s', coeffs_nextM s = Ok (coeff_at x k, s') /\ (coeff_at x k <> None -> at_coeff x (S k) s')).
  { intros k s A _. destruct (at_coeff_next x k s A) as (s' & E & A'). exists s'. unfold coeffs_nextM. rewrite E. auto. }
  destruct (coeff_at x n) eqn:E.
  - rewrite (nth_item_ok coeffs_nextM (at_coeff x) (coeff_at x) (fun _ => True) St n 0 _ (at_coeff_start x)); auto.
    + rewrite <- E. reflexivity.
    + intros j Hj. apply (coeff_at_some_lt x j n z E). lia.
  - apply (nth_item_none coeffs_nextM (at_coeff x) (coeff_at x) (fun _ => True) St n 0 _ (at_coeff_start x)); auto.
    exists n. split; [lia|auto].
Qed.

(** a signed coefficient is stored exactly if it fits the signed type *)
Lemma sfit_signed u neg v : sfit u v -> signed_of u neg v = Ok (sgnb neg * v).
Proof.
  destruct u as [| |b|b]; cbn [sfit]; try tauto; intros H; unfold signed_of, sgnb, to_signed, negT, chk, sty, fits.
  - destruct neg; f_equal; lia.
  - destruct (Z.ltb_spec v (2 ^ (b - 1))); [|lia].
    destruct neg; [|f_equal; lia]. destruct (Z.leb_spec (- 2 ^ (b - 1)) (- v)); [|lia].
    destruct (Z.ltb_spec (- v) (2 ^ (b - 1))); [|lia]. cbn [andb]. f_equal; lia.
Qed.
Lemma sfit_to_signed u v : sfit u v -> to_signed u v = v.
Proof.
  destruct u as [| |b|b]; cbn [sfit]; try tauto; intros H; unfold to_signed. destruct (Z.ltb_spec v (2 ^ (b - 1))); lia.
Qed.
Lemma sfit_fits u v : sfit u v -> fits u v = true.
Proof.
  destruct u as [| |b|b]; cbn [sfit fits]; try tauto; intros H; [lia|].
  apply andb_true_intro; split; [lia|]. apply Z.ltb_lt. eapply Z.lt_le_trans; [apply H|]. apply Z.pow_le_mono_r; lia.
Qed.
Lemma sfit_mono u v w : sfit u v -> 0 <= w <= v -> sfit u w.
Proof. destruct u; cbn [sfit]; try tauto; lia. Qed.
Lemma sfit_sty u v : sfit u v -> fits (sty u) v = true /\ fits (sty u) (- v) = true.
Proof.
  destruct u as [| |b|b]; cbn [sfit sty fits]; try tauto; intros H.
  split; apply andb_true_intro; split; try (apply Z.ltb_lt); try (apply Z.leb_le); lia.
Qed.
Lemma sfit_0 u v : sfit u v -> 0 <= v.
Proof. destruct u; cbn [sfit]; try tauto; lia. Qed.

Definition signed_items (x : cf) (n : nat) : option Z :=
  match coeff_at x n with Some v => Some (sgnb (negative x) * v) | None => None end.
Lemma signed_items_some x n : signed_items x n <> None <-> coeff_at x n <> None.
Proof. unfold signed_items. destruct (coeff_at x n); split; congruence. Qed.

Lemma signed_nth u x n : (forall j v, (j <= n)%nat -> coeff_at x j = Some v -> sfit u v) ->
  nth_item (signed_next u) n (cf_coeffs x) = Ok (signed_items x n).
Proof.
  intros HF. set (Iv := fun k (s : coeffs_st * bool) => at_coeff x k (fst s) /\ snd s = negative x).
  assert (St : forall k s, Iv k s -> (k <= n)%nat -> exists s', signed_next u s = Ok (signed_items x k, s') /\ (signed_items x k <> None -> Iv (S k) s')).
  { intros k [c neg] [A B] Hk. cbn [fst snd] in A, B. subst neg. destruct (at_coeff_next x k c A) as (c' & E & A').
    exists (c', negative x). unfold signed_next, signed_items. rewrite E. destruct (coeff_at x k) eqn:Ec.
    - rewrite sfit_signed by (eapply HF; eauto). split; [reflexivity|]. intros _. split; auto.
    - split; [reflexivity|congruence]. }
  assert (S0 : Iv 0%nat (cf_coeffs x)) by (split; [apply at_coeff_start|reflexivity]).
  destruct (coeff_at x n) eqn:E.
  - rewrite (nth_item_ok (signed_next u) Iv (signed_items x) _ St n 0 _ S0); auto.
    intros j Hj. apply signed_items_some. apply (coeff_at_some_lt x j n z E). lia.
  - rewrite (nth_item_none (signed_next u) Iv (signed_items x) _ St n 0 _ S0); auto.
    + unfold signed_items. rewrite E. reflexivity.
    + exists n. split; [lia|]. unfold signed_items. rewrite E. reflexivity.
Qed.
Definition pair_items (x : cf) (n : nat) : option (Z * Z) :=
  match coeff_at x n with Some v => Some (1, sgnb (negative x) * v) | None => None end.
Lemma pair_items_some x n : pair_items x n <> None <-> coeff_at x n <> None.
Proof. unfold pair_items. destruct (coeff_at x n); split; congruence. Qed.
Lemma general_nth u x n : (forall j v, (j <= n)%nat -> coeff_at x j = Some v -> sfit u v) ->
  nth_item (general_next u) n (cf_generalized x) = Ok (pair_items x n).
Proof.
  intros HF. set (Iv := fun k (s : coeffs_st * bool) => at_coeff x k (fst s) /\ snd s = negative x).
  assert (St : forall k s, Iv k s -> (k <= n)%nat -> exists s', general_next u s = Ok (pair_items x k, s') /\ (pair_items x k <> None -> Iv (S k) s')).
  { intros k [c neg] [A B] Hk. cbn [fst snd] in A, B. subst neg. destruct (at_coeff_next x k c A) as (c' & E & A').
    exists (c', negative x). unfold general_next, pair_items. rewrite E. destruct (coeff_at x k) eqn:Ec.
    - rewrite sfit_signed by (eapply HF; eauto). split; [reflexivity|]. intros _. split; auto.
    - split; [reflexivity|congruence]. }
  assert (S0 : Iv 0%nat (cf_generalized x)) by (split; [apply at_coeff_start|reflexivity]).
  destruct (coeff_at x n) eqn:E.
  - rewrite (nth_item_ok (general_next u) Iv (pair_items x) _ St n 0 _ S0); auto.
    intros j Hj. apply pair_items_some. apply (coeff_at_some_lt x j n z E). lia.
  - rewrite (nth_item_none (general_next u) Iv (pair_items x) _ St n 0 _ S0); auto.
    + unfold pair_items. rewrite E. reflexivity.
    + exists n. split; [lia|]. unfold pair_items. rewrite E. reflexivity.
Qed.

(** ** into_coeffs: right for periods of length at most one *)
Definition at_owned (x : cf) (n : nat) (s : owned_st) : Prop :=
  p_list s = p_coeffs x /\ p_pos s = 0%nat /\ o_neg s = negative x /\
  match o_iter s with
  | Some l => l = skipn n (a_coeffs x) /\ (n <= lena x)%nat
  | None => (lena x <= n)%nat
  end.
Lemma coeff_at_one x n v : p_coeffs x = [v] -> (lena x <= n)%nat -> coeff_at x n = Some v.
Proof.
  intros P L. rewrite coeff_at_p by exact L. rewrite P. set (m := (n - length (a_coeffs x))%nat).
  assert (Hm : (m < S n)%nat) by (unfold m; lia). clearbody m. revert m Hm. generalize (S n). clear.
  intros k. induction k as [|k IH]; intros m H; [lia|]. destruct m; [reflexivity|]. cbn [repeat concat app nth_error]. apply IH. lia.
Qed.
Lemma skipn_nth {A} (l : list A) n : skipn n l = match nth_error l n with Some v => v :: skipn (S n) l | None => nil end.
Proof. revert l. induction n as [|n IH]; intros [|v l]; try reflexivity. cbn [skipn nth_error]. rewrite IH. reflexivity. Qed.
Lemma owned_nth u x n : (length (p_coeffs x) <= 1)%nat -> (forall j v, (j <= n)%nat -> coeff_at x j = Some v -> sfit u v) ->
  nth_item (owned_next u) n (cf_into_coeffs x) = Ok (signed_items x n).
Proof.
  intros HP HF.
  assert (Pe : forall k s, at_owned x k s -> (k <= n)%nat -> o_iter s = None ->
    exists s', owned_periodic u s = Ok (signed_items x k, s') /\ (signed_items x k <> None -> at_owned x (S k) s')).
  { intros k [it p pos neg] (A & B & C & D) Hk O. cbn [p_list p_pos o_neg o_iter] in *. subst. unfold owned_periodic. cbn [p_list p_pos o_neg o_iter].
    destruct (p_coeffs x) as [|v [|w l]] eqn:P; [| |cbn in HP; lia].
    - eexists. unfold signed_items. assert (coeff_at x k = None) as -> by (apply has_none; split; auto). split; [reflexivity|congruence].
    - cbn [nth_error length Nat.leb]. assert (E : coeff_at x k = Some v) by (apply coeff_at_one; auto).
      rewrite sfit_signed by (eapply HF; eauto). cbn [bind]. eexists. unfold signed_items. rewrite E. split; [reflexivity|].
      intros _. repeat split; auto. cbn. lia. }
  assert (St : forall k s, at_owned x k s -> (k <= n)%nat -> exists s', owned_next u s = Ok (signed_items x k, s') /\ (signed_items x k <> None -> at_owned x (S k) s')).
  { intros k [[l|] p pos neg] H Hk.
    - destruct H as (A & B & C & D & Le). cbn [p_list p_pos o_neg o_iter] in *. subst. unfold owned_next. cbn [o_iter p_list p_pos o_neg]. rewrite skipn_nth.
      destruct (nth_error (a_coeffs x) k) as [v|] eqn:E.
      + assert (K : (k < lena x)%nat) by (apply nth_error_Some; congruence).
        rewrite <- coeff_at_a in E by exact K. rewrite sfit_signed by (eapply HF; eauto). cbn [bind]. eexists. unfold signed_items. rewrite E.
        split; [reflexivity|]. intros _. repeat split; cbn; auto.
      + apply nth_error_None in E. apply Pe; [|auto|reflexivity]. repeat split; cbn; auto.
    - unfold owned_next. cbn [o_iter]. apply Pe; auto. }
  assert (S0 : at_owned x 0 (cf_into_coeffs x)) by (repeat split; cbn; lia).
  destruct (coeff_at x n) eqn:E.
  - rewrite (nth_item_ok (owned_next u) (at_owned x) (signed_items x) _ St n 0 _ S0); auto.
    intros j Hj. apply signed_items_some. apply (coeff_at_some_lt x j n z E). lia.
  - rewrite (nth_item_none (owned_next u) (at_owned x) (signed_items x) _ St n 0 _ S0); auto.
    + unfold signed_items. rewrite E. reflexivity.
    + exists n. split; [lia|]. unfold signed_items. rewrite E. reflexivity.
Qed.

(** ** Convergents *)
Lemma ratio_new_lowest t p q : 1 <= q -> Z.gcd p q = 1 -> fits t p = true -> fits t q = true -> fits t 1 = true ->
  ratio_new t p q = Ok (Ratio p q).
Proof.
  intros Hq Hg Fp Fq F1. unfold ratio_new. destruct (Z.eqb_spec q 0); [lia|].
  destruct (Z.eqb_spec p 0) as [->|Hp]. { rewrite Z.gcd_0_l, Z.abs_eq in Hg by lia. subst. reflexivity. }
  destruct (Z.eqb_spec p q) as [->|Hpq]. { rewrite Z.gcd_diag, Z.abs_eq in Hg by lia. subst. reflexivity. }
  unfold gcdT, chk. rewrite Hg, F1. cbn [bind]. unfold lift2, quotT, chk. cbn [bind].
  change (1 =? 0) with false. cbn [bind]. rewrite !Z.quot_1_r, Fp, Fq. cbn [bind]. destruct (Z.ltb_spec q 0); [lia|reflexivity].
Qed.

Definition at_conv (x : cf) (n : nat) (s : conv_st) : Prop :=
  at_coeff x n (cv_coeffs s) /\ cv_neg s = negative x /\
  let '(p, p', q, q') := cpq (cseq x) n in cv_block s = Block p p' q q'.
Definition conv_item (x : cf) (n : nat) : option ratio :=
  match coeff_at x n with
  | Some _ => Some (Ratio (sgnb (negative x) * PP (cseq x) (S n)) (QQ (cseq x) (S n)))
  | None => None
  end.
Definition conv_fit (u : ity) (x : cf) (n : nat) : Prop :=
  coeff_at x n <> None -> sfit u (PP (cseq x) (S n)) /\ sfit u (QQ (cseq x) (S n)).
Lemma at_conv_start x : at_conv x 0 (cf_convergents x).
Proof. split; [apply at_coeff_start|]. split; reflexivity. Qed.
Lemma conv_step u x n s : wfcf x -> at_conv x n s -> conv_fit u x n ->
  exists s', conv_next u s = Ok (conv_item x n, s') /\ (conv_item x n <> None -> at_conv x (S n) s').
Proof.
  intros W (A & B & C) F. pose proof (wfcf_cpos x W) as HC. destruct (at_coeff_next x n _ A) as (c & E & A').
  unfold conv_next. rewrite E. unfold conv_item, conv_fit in *. destruct (coeff_at x n) as [a|] eqn:Ea.
  2:{ eexists. split; [reflexivity|congruence]. }
  destruct (F ltac:(discriminate)) as [Fp Fq]. clear F.
  assert (Ca : a = cseq x n) by (unfold cseq; rewrite Ea; reflexivity).
  pose proof (cpq_S (cseq x) n) as R. pose proof (cpq_SS (cseq x) n) as R2. rewrite R in R2. inversion R2 as [[RP RQ]].
  assert (Pn : 0 <= PP (cseq x) n /\ 0 <= QQ (cseq x) n) by (split; [apply PP_mono; auto|apply QQ_mono; auto]).
  assert (Pn' : 0 <= snd (fst (fst (cpq (cseq x) n))) /\ 0 <= snd (cpq (cseq x) n)).
  { destruct n as [|m]; [cbn; lia|]. rewrite cpq_SS. cbn [fst snd]. split; [apply PP_mono; auto|apply QQ_mono; auto]. }
  assert (Ea0 : 0 <= a) by (rewrite Ca; apply cpos_nonneg; auto).
  destruct (cpq (cseq x) n) as [[[p p'] q] q'] eqn:Q. cbn [fst snd] in *. 
  assert (Ep : PP (cseq x) n = p) by (unfold PP; rewrite Q; reflexivity). assert (Eq : QQ (cseq x) n = q) by (unfold QQ; rewrite Q; reflexivity).
  rewrite Ep, Eq in *. rewrite C. unfold block_checked_rmove, checked_mul, checked_add, checked. cbn [pm1 pm2 qm1 qm2].
  rewrite <- Ca in *.
  assert (fits u (a * p) = true) as -> by (apply sfit_fits; eapply sfit_mono; [exact Fp|]; rewrite <- RP; nia). cbn [obind].
  rewrite RP. rewrite (sfit_fits _ _ Fp). cbn [obind].
  assert (fits u (a * q) = true) as -> by (apply sfit_fits; eapply sfit_mono; [exact Fq|]; rewrite <- RQ; nia). cbn [obind].
  rewrite RQ. rewrite (sfit_fits _ _ Fq). cbn [obind].
  rewrite !sfit_to_signed by auto. pose proof (QQ_mono _ HC n) as (Q1 & _).
  rewrite ratio_new_lowest; auto.
  2: apply PQ_coprime. 2: apply (sfit_sty u _ Fp). 2: apply (sfit_sty u _ Fq).
  2: { apply (sfit_sty u 1). eapply sfit_mono; [exact Fq|]. lia. }
  cbn [bind]. rewrite B.
  assert (K : at_conv x (S n) (ConvSt c (block_update (Block p p' q q') (PP (cseq x) (S n)) (QQ (cseq x) (S n))) (negative x))).
  { split; [exact A'|]. split; [reflexivity|]. rewrite cpq_SS. cbn [cv_block]. rewrite Ep, Eq. reflexivity. }
  destruct (negative x); cbn [sgnb] in *.
  - unfold ratio_neg, negT, chk. cbn [numer denom]. rewrite (proj2 (sfit_sty u _ Fp)). cbn [bind]. eexists. split; [|intros _; exact K].
    replace (- PP (cseq x) (S n)) with (-1 * PP (cseq x) (S n)) by lia. reflexivity.
  - eexists. split; [|intros _; exact K]. rewrite Z.mul_1_l. reflexivity.
Qed.
Lemma conv_item_some x n : conv_item x n <> None <-> coeff_at x n <> None.
Proof. unfold conv_item. destruct (coeff_at x n); split; congruence. Qed.

Lemma conv_nth u x n : wfcf x -> (forall j, (j <= n)%nat -> conv_fit u x j) ->
  nth_item (conv_next u) n (cf_convergents x) = Ok (conv_item x n).
Proof.
  intros W HF. pose proof (fun k s A (H : (k <= n)%nat) => conv_step u x k s W A (HF k H)) as St.
  destruct (coeff_at x n) eqn:E.
  - rewrite (nth_item_ok (conv_next u) (at_conv x) (conv_item x) _ St n 0 _ (at_conv_start x)); auto.
    intros j Hj. apply conv_item_some. apply (coeff_at_some_lt x j n z E). lia.
  - rewrite (nth_item_none (conv_next u) (at_conv x) (conv_item x) _ St n 0 _ (at_conv_start x)); auto.
    + unfold conv_item. rewrite E. reflexivity.
    + exists n. split; [lia|]. unfold conv_item. rewrite E. reflexivity.
Qed.
Lemma big_fit x n : wfcf x -> conv_fit BigU x n.
Proof. intros W _. pose proof (wfcf_cpos x W) as HC. split; cbn [sfit]; [apply PP_mono; auto|apply QQ_mono; auto]. Qed.

(** the item is the convergent *)
Lemma conv_item_convergent x n : wfcf x -> has x n -> exists r, conv_item x n = Some r /\ convergent x n r.
Proof.
  intros W H. pose proof (wfcf_cpos x W) as HC. unfold conv_item. rewrite (has_some x n H). eexists. split; [reflexivity|].
  unfold convergent, lowest, rval. cbn [numer denom]. rewrite first_coeffs_cut by auto. rewrite cut_PQ by auto.
  pose proof (QQ_mono _ HC n) as (Q1 & _). split; [split; [lia|]|].
  - destruct (negative x); cbn [sgnb]; [|rewrite Z.mul_1_l; apply PQ_coprime].
    replace (-1 * PP (cseq x) (S n)) with (- PP (cseq x) (S n)) by ring. rewrite Z.gcd_opp_l. apply PQ_coprime.
  - rewrite mult_IZR. unfold Rdiv. ring.
Qed.
