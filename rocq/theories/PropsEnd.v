(** * PropsEnd: properties C82 and C83.

    Only statements: every theorem is closed by the lemma of the same name in
    ClaimsEnd.v. *)

From Coq Require Import ZArith Lia Bool List Arith.
From Verif Require Import Base Ext ModelBlock ModelCF ModelGen Spec SpecGen SpecCF SpecEnd ClaimsEnd.
Import ListNotations.
Open Scope Z_scope.

(** ** C82  homo(), simplify() and decimals() on fractions that end *)

(** On coefficients that end, homo(a, b, c, d) yields finitely many items and ends. They are the first ones it yields on any
    source that starts with the same coefficients, whether that one ends or not *)
Theorem C82_homo : forall I (inext : I -> res (option Z * I)) it l a b c d, yields_list inext it l ->
  exists h, (forall fuel, (length l < fuel)%nat -> yields_list (homo_next BigI inext fuel) (icf_homo it a b c d) h) /\
    forall J (jnext : J -> res (option Z * J)) jt fuel n v, begins inext it jnext jt -> (length l < fuel)%nat -> nth_error h n = Some v ->
      nth_item (homo_next BigI jnext fuel) n (icf_homo jt a b c d) = Ok (Some v).
Proof. exact L_C82_homo. Qed.
Print Assumptions C82_homo.

(** So does simplify() on a generalized fraction that ends *)
Theorem C82_simplify : forall I (inext : I -> res (option (Z * Z) * I)) it l, yields_list inext it l ->
  exists h, (forall fuel, (length l < fuel)%nat -> yields_list (simp_next BigI inext fuel) (gcf_simplify it) h) /\
    forall J (jnext : J -> res (option (Z * Z) * J)) jt fuel n v, begins inext it jnext jt -> (length l < fuel)%nat -> nth_error h n = Some v ->
      nth_item (simp_next BigI jnext fuel) n (gcf_simplify jt) = Ok (Some v).
Proof. exact L_C82_simplify. Qed.
Print Assumptions C82_simplify.

(** decimals() on a generalized fraction that ends and has no numerator 0 yields finitely many characters *)
Theorem C82_decimals : forall I (inext : I -> res (option (Z * Z) * I)) it l, yields_list inext it l -> Forall (fun ab => fst ab <> 0) l ->
  exists N, forall fuel v, nth_item (dec_next BigI inext fuel) N (gcf_decimals it) <> Ok (Some v).
Proof. exact L_C82_decimals. Qed.
Print Assumptions C82_decimals.

(** A numerator 0 cuts the fraction off; then it need not end: 0 + 1/(3 + 0/5) = 0.333... *)
Theorem C82_decimals_endless : let l := [(1, 0); (1, 3); (0, 5)] in
  forall n, nth_item (dec_next BigI list_next 4) n (gcf_decimals l) = Ok (Some (match n with O => 48 | _ => 51 end)).
Proof. exact L_C82_decimals_endless. Qed.
Print Assumptions C82_decimals_endless.

(** The same at any width and for every adaptor: from a source that starts with the items of another one, each yields what it
    yields from that one as long as items come *)
Theorem C82_same_beginning : forall I J t,
  (forall (n1 : I -> res (option Z * I)) (n2 : J -> res (option Z * J)) fuel i j a b c d, begins n1 i n2 j ->
     begins (homo_next t n1 fuel) (icf_homo i a b c d) (homo_next t n2 fuel) (icf_homo j a b c d) /\ begins (generalize_next n1) i (generalize_next n2) j) /\
  (forall (n1 : I -> res (option (Z * Z) * I)) (n2 : J -> res (option (Z * Z) * J)) fuel i j, begins n1 i n2 j ->
     begins (simp_next t n1 fuel) (gcf_simplify i) (simp_next t n2 fuel) (gcf_simplify j) /\
     begins (dec_next t n1 fuel) (gcf_decimals i) (dec_next t n2 fuel) (gcf_decimals j) /\
     begins (gconv_next t n1) (gcf_convergents i) (gconv_next t n2) (gcf_convergents j)).
Proof. exact L_C82_same_beginning. Qed.
Print Assumptions C82_same_beginning.

(** for bihomo() when both sources do *)
Theorem C82_bihomo : forall X X' Y Y' t (x1 : X -> res (option Z * X)) (x2 : X' -> res (option Z * X')) (y1 : Y -> res (option Z * Y)) (y2 : Y' -> res (option Z * Y')) fuel i i' j j' a b c d e f g h,
  begins x1 i x2 i' -> begins y1 j y2 j' -> begins (bihomo_next t x1 y1 fuel) (icf_bihomo i j a b c d e f g h) (bihomo_next t x2 y2 fuel) (icf_bihomo i' j' a b c d e f g h).
Proof. exact L_C82_bihomo. Qed.
Print Assumptions C82_bihomo.

(** A list starts an endless sequence that has its items first *)
Theorem C82_list_begins : forall S S' A (n1 : S -> res (option A * S)) s1 (n2 : S' -> res (option A * S')) s2 l (f : nat -> A),
  yields_list n1 s1 l -> yields n2 s2 f -> (forall n, (n < length l)%nat -> nth_error l n = Some (f n)) -> begins n1 s1 n2 s2.
Proof. exact L_C82_list_begins. Qed.
Print Assumptions C82_list_begins.

(** The rest of the number is lost: homo(1, 0, 0, 1) of 3/2 = [1, 2] yields 1 only, simplify() of [3, 7, 15] yields 3, 7 and its
    decimals() yield 314 *)
Theorem C82_value_refuted :
  yields_list (homo_next BigI list_next 4) (icf_homo [1; 2] 1 0 0 1) [1] /\
  yields_list (simp_next BigI list_next 4) (gcf_simplify [(1, 3); (1, 7); (1, 15)]) [3; 7] /\
  yields_list (dec_next BigI list_next 4) (gcf_decimals [(1, 3); (1, 7); (1, 15)]) [51; 49; 52].
Proof. exact L_C82_value_refuted. Qed.
Print Assumptions C82_value_refuted.

(** [3, 7, 15] starts pi = [3, 7, 15, 1, 292, ...] *)
Example C82_case : yields_list list_next [(1, 3); (1, 7); (1, 15)] [(1, 3); (1, 7); (1, 15)] /\ Forall (fun ab : Z * Z => fst ab <> 0) [(1, 3); (1, 7); (1, 15)] /\
  begins list_next [(1, 3); (1, 7); (1, 15)] list_next [(1, 3); (1, 7); (1, 15); (1, 1); (1, 292)].
Proof.
  split. { intros n Hn. cbn [length] in Hn. do 4 (destruct n as [|n]; [reflexivity|]). lia. }
  split; [repeat constructor; discriminate|]. intros n v. do 3 (destruct n as [|n]; [exact (fun H => H)|]). destruct n; discriminate.
Qed.

(** ** C83  Iterators stay ended *)

(** The iterators over the coefficients of a continued fraction: after None comes None for ever *)
Theorem C83_coefficients : forall u x, fused coeffs_nextM (cf_coeffs_unsigned x) /\ fused (signed_next u) (cf_coeffs x) /\ fused (general_next u) (cf_generalized x) /\
  fused (owned_next u) (cf_into_coeffs x).
Proof. exact L_C83_coefficients. Qed.
Print Assumptions C83_coefficients.

(** and its convergents over arbitrary precision integers *)
Theorem C83_convergents_partial : forall x, wfcf x -> fused (conv_next BigU) (cf_convergents x).
Proof. exact L_C83_convergents_partial. Qed.
Print Assumptions C83_convergents_partial.

(** If the source stays ended, so do homo(), simplify() and generalize() at any width *)
Theorem C83_adaptors : forall I t fuel,
  (forall (inext : I -> res (option Z * I)) it a b c d, fused inext it -> fused (homo_next t inext fuel) (icf_homo it a b c d) /\ fused (generalize_next inext) it) /\
  (forall (inext : I -> res (option (Z * Z) * I)) it, fused inext it -> fused (simp_next t inext fuel) (gcf_simplify it)).
Proof. exact L_C83_adaptors. Qed.
Print Assumptions C83_adaptors.

(** and decimals() and convergents() over arbitrary precision integers *)
Theorem C83_decimals_partial : forall I (inext : I -> res (option (Z * Z) * I)) it fuel, fused inext it ->
  fused (dec_next BigI inext fuel) (gcf_decimals it) /\ fused (gconv_next BigI inext) (gcf_convergents it).
Proof. exact L_C83_decimals_partial. Qed.
Print Assumptions C83_decimals_partial.

(** At a fixed width an overflow is reported as the end, and what follows is not: the convergents of [3, 20, 10, 1] over u8 are 3,
    61/20, None, 64/21, and the decimals of [1, 2, 2, 7, 1] over i8 are 1, None, 4 *)
Theorem C83_overflow_refuted : ~ (forall x, wfcf x -> fused (conv_next (UInt 8)) (cf_convergents x)) /\
  ~ (forall it : list (Z * Z), fused list_next it -> fused (dec_next (SInt 8) list_next 9) (gcf_decimals it)).
Proof. exact L_C83_overflow_refuted. Qed.
Print Assumptions C83_overflow_refuted.

(** bihomo() ends when one of the sources has, but it may have read from the other one before: on [1, 1] and [2] the answers are
    None, 1, None *)
Theorem C83_bihomo_refuted : ~ (forall x y a b c d e f g h, fused list_next x -> fused list_next y -> fused (bihomo_next BigI list_next list_next 9) (icf_bihomo x y a b c d e f g h)).
Proof. exact L_C83_bihomo_refuted. Qed.
Print Assumptions C83_bihomo_refuted.

(** A list is such a source, and 43/30 = [1, 2, 3, 4] is a fraction with four convergents and then None *)
Example C83_case : fused list_next [1; 2; 3; 4] /\ wfcf (CF [1; 2; 3; 4] [] false) /\
  map (fun n => match calls (conv_next BigU) n (cf_convergents (CF [1; 2; 3; 4] [] false)) with Some s => match conv_next BigU s with Ok (o, _) => Some o | _ => None end | None => None end) [0; 1; 2; 3; 4; 5; 6]%nat =
    [Some (Some (Ratio 1 1)); Some (Some (Ratio 3 2)); Some (Some (Ratio 10 7)); Some (Some (Ratio 43 30)); Some None; Some None; Some None].
Proof. split; [apply list_fused|]. split; [cbn; repeat split; repeat constructor; lia|vm_compute; reflexivity]. Qed.
