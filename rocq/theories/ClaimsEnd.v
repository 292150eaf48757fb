(** * ClaimsEnd: proofs of the property theorems in PropsEnd.v. *)

From Coq Require Import ZArith Lia Bool List Arith.
From Verif Require Import Base Ext ModelBlock ModelCF ModelGen Spec SpecGen SpecCF SpecEnd NumFacts CFIter GenBlock GenSound GenConv GenLive GenHomo GenEnd.
Import ListNotations.
Open Scope Z_scope.

Lemma L_C82_homo : forall I (inext : I -> res (option Z * I)) it l a b c d, yields_list inext it l ->
  exists h, (forall fuel, (length l < fuel)%nat -> yields_list (homo_next BigI inext fuel) (icf_homo it a b c d) h) /\
    forall J (jnext : J -> res (option Z * J)) jt fuel n v, begins inext it jnext jt -> (length l < fuel)%nat -> nth_error h n = Some v ->
      nth_item (homo_next BigI jnext fuel) n (icf_homo jt a b c d) = Ok (Some v).
Proof.
  intros I inext it l a b c d Y. destruct (homo_ends inext l it (block_new a b c d) Y) as (h & H). exists h. split; [exact H|]. intros J jnext jt fuel n v B Hf E.
  apply (homo_begins BigI inext jnext fuel (block_new a b c d) it jt B). rewrite <- E. apply (H fuel Hf). apply Nat.lt_le_incl, nth_error_Some. congruence.
Qed.

Lemma L_C82_simplify : forall I (inext : I -> res (option (Z * Z) * I)) it l, yields_list inext it l ->
  exists h, (forall fuel, (length l < fuel)%nat -> yields_list (simp_next BigI inext fuel) (gcf_simplify it) h) /\
    forall J (jnext : J -> res (option (Z * Z) * J)) jt fuel n v, begins inext it jnext jt -> (length l < fuel)%nat -> nth_error h n = Some v ->
      nth_item (simp_next BigI jnext fuel) n (gcf_simplify jt) = Ok (Some v).
Proof.
  intros I inext it l Y. destruct (simp_ends inext l it block_identity Y) as (h & H). exists h. split; [exact H|]. intros J jnext jt fuel n v B Hf E.
  apply (simp_begins BigI inext jnext fuel block_identity it jt B). rewrite <- E. apply (H fuel Hf). apply Nat.lt_le_incl, nth_error_Some. congruence.
Qed.

Lemma L_C82_decimals : forall I (inext : I -> res (option (Z * Z) * I)) it l, yields_list inext it l -> Forall (fun ab => fst ab <> 0) l ->
  exists N, forall fuel v, nth_item (dec_next BigI inext fuel) N (gcf_decimals it) <> Ok (Some v).
Proof. intros I inext it l Y F. apply (dec_stops inext l it block_identity Y); [discriminate|exact F]. Qed.

Lemma L_C82_decimals_endless : let l := [(1, 0); (1, 3); (0, 5)] in
  forall n, nth_item (dec_next BigI list_next 4) n (gcf_decimals l) = Ok (Some (match n with O => 48 | _ => 51 end)).
Proof.
  cbv zeta. set (nx := dec_next BigI list_next 4).
  assert (E1 : nx (gcf_decimals [(1, 0); (1, 3); (0, 5)]) = Ok (Some 48, (Block 10 0 3 1, [(0, 5)]))) by reflexivity.
  assert (E2 : nx (Block 10 0 3 1, [(0, 5)]) = Ok (Some 51, (Block 50 10 15 3, []))) by reflexivity.
  assert (E3 : nx (Block 50 10 15 3, []) = Ok (Some 51, (Block 50 10 15 3, []))) by reflexivity. clearbody nx.
  assert (K : forall n, nth_item nx n (Block 50 10 15 3, []) = Ok (Some 51)).
  { induction n as [|n IH]; [rewrite nth_item_0, E3; reflexivity|]. rewrite (nth_item_S _ n _ _ _ E3). exact IH. }
  intros [|[|n]]; [rewrite nth_item_0, E1; reflexivity|rewrite (nth_item_S _ _ _ _ _ E1), nth_item_0, E2; reflexivity|]. rewrite (nth_item_S _ _ _ _ _ E1), (nth_item_S _ _ _ _ _ E2). apply K.
Qed.

Lemma L_C82_same_beginning : forall I J t,
  (forall (n1 : I -> res (option Z * I)) (n2 : J -> res (option Z * J)) fuel i j a b c d, begins n1 i n2 j ->
     begins (homo_next t n1 fuel) (icf_homo i a b c d) (homo_next t n2 fuel) (icf_homo j a b c d) /\ begins (generalize_next n1) i (generalize_next n2) j) /\
  (forall (n1 : I -> res (option (Z * Z) * I)) (n2 : J -> res (option (Z * Z) * J)) fuel i j, begins n1 i n2 j ->
     begins (simp_next t n1 fuel) (gcf_simplify i) (simp_next t n2 fuel) (gcf_simplify j) /\
     begins (dec_next t n1 fuel) (gcf_decimals i) (dec_next t n2 fuel) (gcf_decimals j) /\
     begins (gconv_next t n1) (gcf_convergents i) (gconv_next t n2) (gcf_convergents j)).
Proof.
  intros I J t. split.
  - intros n1 n2 fuel i j a b c d B. split; [apply homo_begins; exact B|apply generalize_begins; exact B].
  - intros n1 n2 fuel i j B. split; [apply simp_begins; exact B|]. split; [apply dec_begins; exact B|apply gconv_begins; exact B].
Qed.

Lemma L_C82_bihomo : forall X X' Y Y' t (x1 : X -> res (option Z * X)) (x2 : X' -> res (option Z * X')) (y1 : Y -> res (option Z * Y)) (y2 : Y' -> res (option Z * Y')) fuel i i' j j' a b c d e f g h,
  begins x1 i x2 i' -> begins y1 j y2 j' -> begins (bihomo_next t x1 y1 fuel) (icf_bihomo i j a b c d e f g h) (bihomo_next t x2 y2 fuel) (icf_bihomo i' j' a b c d e f g h).
Proof. intros X X' Y Y' t x1 x2 y1 y2 fuel i i' j j' a b c d e f g h H1 H2. apply bihomo_begins; assumption. Qed.

Lemma L_C82_list_begins : forall S S' A (n1 : S -> res (option A * S)) s1 (n2 : S' -> res (option A * S')) s2 l (f : nat -> A),
  yields_list n1 s1 l -> yields n2 s2 f -> (forall n, (n < length l)%nat -> nth_error l n = Some (f n)) -> begins n1 s1 n2 s2.
Proof. exact @list_begins. Qed.

Lemma L_C82_value_refuted :
  yields_list (homo_next BigI list_next 4) (icf_homo [1; 2] 1 0 0 1) [1] /\
  yields_list (simp_next BigI list_next 4) (gcf_simplify [(1, 3); (1, 7); (1, 15)]) [3; 7] /\
  yields_list (dec_next BigI list_next 4) (gcf_decimals [(1, 3); (1, 7); (1, 15)]) [51; 49; 52].
Proof. unfold yields_list; cbn [length]. split; [|split]; intros n Hn; do 4 (destruct n as [|n]; [try reflexivity; lia|]); lia. Qed.

Fixpoint calls {S A : Type} (nx : S -> res (option A * S)) (n : nat) (s : S) : option S :=
  match n with O => Some s | Datatypes.S n => match nx s with Ok (_, s1) => calls nx n s1 | _ => None end end.

Lemma calls_run {S A : Type} (nx : S -> res (option A * S)) n : forall s s', calls nx n s = Some s' -> run nx n s s'.
Proof. induction n as [|n IH]; intros s s' H; cbn [calls run] in *; [congruence|]. destruct (nx s) as [[o s1]| |]; try discriminate. eauto. Qed.

Lemma not_fused {S A : Type} (nx : S -> res (option A * S)) n s :
  (match calls nx n s with Some s1 => match nx s1 with Ok (None, s2) => match nx s2 with Ok (Some _, _) => true | _ => false end | _ => false end | None => false end) = true -> ~ fused nx s.
Proof.
  destruct (calls nx n s) as [s1|] eqn:E; [|discriminate]. destruct (nx s1) as [[[v|] s2]| |] eqn:E1; try discriminate. destruct (nx s2) as [[[v|] s3]| |] eqn:E2; try discriminate. intros _ F.
  pose proof (F n s1 s2 (calls_run _ _ _ _ E) E1 1%nat) as K. cbn [silent] in K. destruct K as (s' & K & _). congruence.
Qed.

Lemma list_fused {A : Type} (l : list A) : fused list_next l.
Proof.
  intros n s1 s2 _ H m. apply (silent_fixed list_next (fun l => l = [])); [intros s ->; exists []; auto|]. destruct s1; [|discriminate]. cbn in H. congruence.
Qed.

Lemma L_C83_coefficients : forall u x, fused coeffs_nextM (cf_coeffs_unsigned x) /\ fused (signed_next u) (cf_coeffs x) /\ fused (general_next u) (cf_generalized x) /\
  fused (owned_next u) (cf_into_coeffs x).
Proof. intros u x. split; [apply coeffs_fused|]. split; [apply signed_fused|]. split; [apply general_fused|apply owned_fused]. Qed.

Lemma L_C83_convergents_partial : forall x, wfcf x -> fused (conv_next BigU) (cf_convergents x).
Proof. exact conv_fused. Qed.

Lemma L_C83_adaptors : forall I t fuel,
  (forall (inext : I -> res (option Z * I)) it a b c d, fused inext it -> fused (homo_next t inext fuel) (icf_homo it a b c d) /\ fused (generalize_next inext) it) /\
  (forall (inext : I -> res (option (Z * Z) * I)) it, fused inext it -> fused (simp_next t inext fuel) (gcf_simplify it)).
Proof. intros I t fuel. split; [intros inext it a b c d F; split; [apply homo_fused; exact F|apply generalize_fused; exact F]|intros inext it F; apply simp_fused; exact F]. Qed.

Lemma L_C83_decimals_partial : forall I (inext : I -> res (option (Z * Z) * I)) it fuel, fused inext it ->
  fused (dec_next BigI inext fuel) (gcf_decimals it) /\ fused (gconv_next BigI inext) (gcf_convergents it).
Proof. intros I inext it fuel F. split; [apply dec_fused; exact F|apply gconv_fused; exact F]. Qed.

Lemma L_C83_overflow_refuted : ~ (forall x, wfcf x -> fused (conv_next (UInt 8)) (cf_convergents x)) /\
  ~ (forall it : list (Z * Z), fused list_next it -> fused (dec_next (SInt 8) list_next 9) (gcf_decimals it)).
Proof.
  split; intros H.
  - assert (W : wfcf (CF [3; 20; 10; 1] [] false)) by (cbn; repeat split; repeat constructor; lia). exact (not_fused (conv_next (UInt 8)) 2%nat (cf_convergents (CF [3; 20; 10; 1] [] false)) eq_refl (H _ W)).
  - exact (not_fused (dec_next (SInt 8) list_next 9) 1%nat (gcf_decimals [(1, 1); (1, 2); (1, 2); (1, 7); (1, 1)]) eq_refl (H _ (list_fused _))).
Qed.

Lemma L_C83_bihomo_refuted : ~ (forall x y a b c d e f g h, fused list_next x -> fused list_next y -> fused (bihomo_next BigI list_next list_next 9) (icf_bihomo x y a b c d e f g h)).
Proof. intros H. exact (not_fused (bihomo_next BigI list_next list_next 9) O (icf_bihomo [1; 1] [2] 6 6 3 6 5 9 5 4) eq_refl (H _ _ 6 6 3 6 5 9 5 4 (list_fused _) (list_fused _))). Qed.
