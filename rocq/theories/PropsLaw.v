(** * PropsLaw: property theorems C66 to C68.

    Only statements: every theorem is closed by the lemma of the same name in
    ClaimsLaw.v. *)

From Coq Require Import ZArith Reals Lia Lra Bool List.
From Coquelicot Require Import Coquelicot.
From Verif Require Import Base Ext ModelBlock ModelSurd ModelInt ModelCF ModelConv Spec SpecInt SpecCF SpecLaw SurdDecide ClaimsSurd ClaimsCF ClaimsLaw.
Import ListNotations.
Open Scope Z_scope.

(** ** C66  Best approximations *)

(** No fraction with a denominator below that of the next convergent comes closer, in the sense of |q x - p| *)
Theorem C66_convergents : forall x n r s, wfcf x -> nth_item (conv_next BigU) n (cf_convergents x) = Ok (Some r) ->
  nth_item (conv_next BigU) (S n) (cf_convergents x) = Ok (Some s) -> forall p q, 0 < q < denom s ->
  (Rabs (IZR (denom r) * cf_val x - IZR (numer r)) <= Rabs (IZR q * cf_val x - IZR p))%R.
Proof. exact L_C66_convergents. Qed.
Print Assumptions C66_convergents.

(** No fraction with a denominator below the limit is better than the one returned *)
Theorem C66_approximated : forall x limit fuel r, wfcf x -> 1 <= limit -> cf_approximated BigU fuel x limit = Ok (Approximated r) ->
  forall p q, 1 <= q < limit -> (Rabs (IZR (denom r) * cf_val x - IZR (numer r)) <= Rabs (IZR q * cf_val x - IZR p))%R.
Proof. exact L_C66_approximated. Qed.
Print Assumptions C66_approximated.

(** ... so that no fraction with a denominator up to that of the answer is nearer *)
Theorem C66_nearest : forall x limit fuel r, wfcf x -> 2 <= limit -> cf_approximated BigU fuel x limit = Ok (Approximated r) ->
  forall p q, 1 <= q <= denom r -> (Rabs (cf_val x - rval r) <= Rabs (cf_val x - IZR p / IZR q))%R.
Proof. exact L_C66_nearest. Qed.
Print Assumptions C66_nearest.

(** The same for surds, where the conversion is right (C34) *)
Theorem C66_surd : forall g s x limit fuel r, normal g s -> sval s = RtoC x -> cf_wide x -> 1 <= limit ->
  surd_approximated g BigI fuel s limit = Ok (Approximated r) ->
  forall p q, 1 <= q < limit -> (Rabs (IZR (denom r) * x - IZR (numer r)) <= Rabs (IZR q * x - IZR p))%R.
Proof. exact L_C66_surd. Qed.
Print Assumptions C66_surd.

(** Legendre: every fraction that is closer than 1/(2 q^2) is one of the convergents *)
Theorem C66_legendre : forall x r, wfcf x -> lowest r -> (Rabs (cf_val x - rval r) < / (2 * IZR (denom r) * IZR (denom r)))%R ->
  exists n, nth_item (conv_next BigU) n (cf_convergents x) = Ok (Some r).
Proof. exact L_C66_legendre. Qed.
Print Assumptions C66_legendre.

Example C66_case : wfcf (CF [1] [2] false) /\ nth_item (conv_next BigU) 2 (cf_convergents (CF [1] [2] false)) = Ok (Some (Ratio 7 5)) /\
  nth_item (conv_next BigU) 3 (cf_convergents (CF [1] [2] false)) = Ok (Some (Ratio 17 12)) /\ cf_approximated BigU 20 (CF [1] [2] false) 100 = Ok (Approximated (Ratio 99 70)).
Proof. split; [cbn; repeat split; [discriminate|constructor|repeat constructor; discriminate]|]. repeat split; vm_compute; reflexivity. Qed.

(** ** C67  Laws of arithmetic *)

(** Over a squarefree root all operations return, and the results are over the same root (or rational) *)
Theorem C67_closed : forall g r x y, squarefree r -> in_field g r x -> in_field g r y ->
  (exists s, surd_add g BigI x y = Ok s /\ in_field g r s) /\ (exists s, surd_sub g BigI x y = Ok s /\ in_field g r s) /\
  (exists s, surd_mul g BigI x y = Ok s /\ in_field g r s) /\ (exists s, surd_neg BigI x = Ok s /\ in_field g r s) /\
  (exists s, surd_conj BigI x = Ok s /\ in_field g r s) /\
  (sval x <> RtoC 0 -> exists s, surd_recip g BigI x = Ok s /\ in_field g r s) /\
  (sval y <> RtoC 0 -> sval x <> RtoC 0 \/ rational_num (sval y) -> exists s, surd_div g BigI x y = Ok s /\ in_field g r s).
Proof. exact L_C67_closed. Qed.
Print Assumptions C67_closed.

(** Equal numbers over one squarefree root are equal as data *)
Theorem C67_unique : forall g r x y, in_field g r x -> in_field g r y -> sval x = sval y -> x = y.
Proof. exact L_C67_unique. Qed.
Print Assumptions C67_unique.

(** x + y = y + x, (x + y) + z = x + (y + z), x + 0 = x, x + (-x) = 0, x - y = x + (-y), not only as numbers but as data *)
Theorem C67_add_laws : forall g r x y z, squarefree r -> in_field g r x -> in_field g r y -> in_field g r z ->
  (exists s, surd_add g BigI x y = Ok s /\ surd_add g BigI y x = Ok s) /\
  (exists s, (let! u := surd_add g BigI x y in surd_add g BigI u z) = Ok s /\ (let! v := surd_add g BigI y z in surd_add g BigI x v) = Ok s) /\
  surd_add g BigI x (surd_of_int 0) = Ok x /\
  (let! n := surd_neg BigI x in surd_add g BigI x n) = Ok (surd_of_int 0) /\
  (exists s, surd_sub g BigI x y = Ok s /\ (let! n := surd_neg BigI y in surd_add g BigI x n) = Ok s).
Proof. exact L_C67_add_laws. Qed.
Print Assumptions C67_add_laws.

(** The laws of multiplication and division, for real surds (for complex ones the product itself is wrong, C04_refuted) *)
Theorem C67_mul_laws : forall g r x y z, squarefree r -> 0 < r -> in_field g r x -> in_field g r y -> in_field g r z ->
  (exists s, surd_mul g BigI x y = Ok s /\ surd_mul g BigI y x = Ok s) /\
  (exists s, (let! u := surd_mul g BigI x y in surd_mul g BigI u z) = Ok s /\ (let! v := surd_mul g BigI y z in surd_mul g BigI x v) = Ok s) /\
  surd_mul g BigI x (surd_of_int 1) = Ok x /\
  (exists s, (let! v := surd_add g BigI y z in surd_mul g BigI x v) = Ok s /\
             (let! u := surd_mul g BigI x y in let! v := surd_mul g BigI x z in surd_add g BigI u v) = Ok s) /\
  (sval x <> RtoC 0 -> (let! i := surd_recip g BigI x in surd_mul g BigI x i) = Ok (surd_of_int 1)) /\
  (sval y <> RtoC 0 -> sval x <> RtoC 0 \/ rational_num (sval y) ->
     (exists s, surd_div g BigI x y = Ok s /\ (let! i := surd_recip g BigI y in surd_mul g BigI x i) = Ok s) /\
     (let! s := surd_div g BigI x y in surd_mul g BigI s y) = Ok x).
Proof. exact L_C67_mul_laws. Qed.
Print Assumptions C67_mul_laws.

(** Conjugation is compatible with + and * *)
Theorem C67_conj_laws : forall g r x y, squarefree r -> in_field g r x -> in_field g r y ->
  (exists s, (let! u := surd_add g BigI x y in surd_conj BigI u) = Ok s /\
             (let! u := surd_conj BigI x in let! v := surd_conj BigI y in surd_add g BigI u v) = Ok s) /\
  (0 < r -> exists s, (let! u := surd_mul g BigI x y in surd_conj BigI u) = Ok s /\
             (let! u := surd_conj BigI x in let! v := surd_conj BigI y in surd_mul g BigI u v) = Ok s).
Proof. exact L_C67_conj_laws. Qed.
Print Assumptions C67_conj_laws.

(** For arbitrary roots: whenever both sides are computed, == says they agree *)
Theorem C67_eq_add : forall g t x y z xy yx yz a b e, normal g x -> normal g y -> normal g z ->
  surd_add g t x y = Ok xy -> surd_add g t y x = Ok yx -> surd_add g t y z = Ok yz -> surd_add g t xy z = Ok a -> surd_add g t x yz = Ok b ->
  (surd_eq t xy yx = Ok e -> e = true) /\ (surd_eq t a b = Ok e -> e = true).
Proof. exact L_C67_eq_add. Qed.
Print Assumptions C67_eq_add.

Theorem C67_eq_mul : forall g t x y z xy xz yx yz y_z a b c d e, normal g x -> normal g y -> normal g z -> real_surd x -> real_surd y -> real_surd z ->
  surd_mul g t x y = Ok xy -> surd_mul g t y x = Ok yx -> surd_mul g t y z = Ok yz -> surd_mul g t x z = Ok xz -> surd_add g t y z = Ok y_z ->
  surd_mul g t xy z = Ok a -> surd_mul g t x yz = Ok b -> surd_mul g t x y_z = Ok c -> surd_add g t xy xz = Ok d ->
  (surd_eq t xy yx = Ok e -> e = true) /\ (surd_eq t a b = Ok e -> e = true) /\ (surd_eq t c d = Ok e -> e = true).
Proof. exact L_C67_eq_mul. Qed.
Print Assumptions C67_eq_mul.

(** Sums and products of positive surds are positive; exactly one of x > 0, x = 0, x < 0 holds; -x has the other sign *)
Theorem C67_order : forall g t x y s m n p q z, normal g x -> normal g y -> real_surd x -> real_surd y ->
  surd_is_positive g t x = Ok p -> surd_is_negative g t x = Ok q -> surd_is_positive g t y = Ok z ->
  surd_add g t x y = Ok s -> surd_mul g t x y = Ok m -> surd_neg t x = Ok n ->
  (p = true -> z = true -> forall b, surd_is_positive g t s = Ok b \/ surd_is_positive g t m = Ok b -> b = true) /\
  (forall b, surd_is_positive g t n = Ok b -> b = q) /\
  (p = true -> q = false) /\ (p = false -> q = false -> sval x = RtoC 0).
Proof. exact L_C67_order. Qed.
Print Assumptions C67_order.

(** 1 + sqrt 5 over 2, 3 - sqrt 5 and 1/2 *)
Example C67_case : squarefree 5 /\ in_field (Cfg false true) 5 (new_raw 1 1 2 5) /\ in_field (Cfg false true) 5 (new_raw 3 (-1) 1 5) /\ in_field (Cfg false true) 5 (new_raw 1 0 2 0) /\
  (let! u := surd_mul (Cfg false true) BigI (new_raw 1 1 2 5) (new_raw 3 (-1) 1 5) in surd_mul (Cfg false true) BigI u (new_raw 1 0 2 0)) = Ok (new_raw (-1) 1 2 5).
Proof.
  split; [|split; [|split; [|split]]].
  - intros k [j E]. assert (k <= -3 \/ k = -2 \/ k = -1 \/ k = 0 \/ k = 1 \/ k = 2 \/ 3 <= k) as [K|[K|[K|[K|[K|[K|K]]]]]] by lia; subst; try lia; exfalso; assert (9 <= k * k) by nia; assert (j <= 0 \/ 1 <= j) as [J|J] by lia; nia.
  - split; [apply normalb_ok; vm_compute; reflexivity|left; reflexivity].
  - split; [apply normalb_ok; vm_compute; reflexivity|left; reflexivity].
  - split; [apply normalb_ok; vm_compute; reflexivity|right]. exists 1, 2. split; [lia|]. unfold sval, parts. cbn [new_raw coeffs c0 c1 c2 discr]. unfold ZtoC, Cdiv. f_equal. ring.
  - vm_compute. reflexivity.
Qed.

(** ** C68  The contract of Eq *)

Theorem C68_reflexive : forall t x, surd_eq t x x = Ok true.
Proof. exact L_C68_reflexive. Qed.
Print Assumptions C68_reflexive.

Theorem C68_symmetric : forall t x y, surd_eq t x y = surd_eq t y x.
Proof. exact L_C68_symmetric. Qed.
Print Assumptions C68_symmetric.

(** Transitive among surds with one root, or with irrational parts of one sign; missing: different roots and signs (C68_refuted) *)
Theorem C68_transitive_partial : forall g t x y z b, normal g x -> normal g y -> normal g z ->
  surd_eq t x y = Ok true -> surd_eq t y z = Ok true -> surd_eq t x z = Ok b ->
  (discr x = discr y /\ discr y = discr z) \/ (0 < c1 (coeffs x) /\ 0 < c1 (coeffs y) /\ 0 < c1 (coeffs z)) ->
  b = true.
Proof. exact L_C68_transitive_partial. Qed.
Print Assumptions C68_transitive_partial.

(** 2 sqrt 2 == sqrt 8 and sqrt 8 == -2 sqrt 2, but not 2 sqrt 2 == -2 sqrt 2 *)
Theorem C68_refuted : exists x y z, normal (Cfg false true) x /\ normal (Cfg false true) y /\ normal (Cfg false true) z /\
  surd_eq BigI x y = Ok true /\ surd_eq BigI y z = Ok true /\ surd_eq BigI x z = Ok false.
Proof. exact L_C68_refuted. Qed.
Print Assumptions C68_refuted.

Example C68_case : normal (Cfg false true) (new_raw 0 2 1 2) /\ normal (Cfg false true) (new_raw 0 1 1 8) /\ normal (Cfg false true) (new_raw 0 1 2 32) /\
  surd_eq BigI (new_raw 0 2 1 2) (new_raw 0 1 1 8) = Ok true /\ surd_eq BigI (new_raw 0 1 1 8) (new_raw 0 1 2 32) = Ok true.
Proof. split; [apply normalb_ok; vm_compute; reflexivity|]. split; [apply normalb_ok; vm_compute; reflexivity|]. split; [apply normalb_ok; vm_compute; reflexivity|]. split; vm_compute; reflexivity. Qed.

(** The derived == of continued fractions is equality of the data, so it has no such problem *)
Theorem C68_cf : forall x y, cf_eqb x y = true <-> x = y.
Proof. exact L_C68_cf. Qed.
Print Assumptions C68_cf.

(** Quadratic integers: reflexive and symmetric, not transitive either *)
Theorem C68_qint : forall t x y b b', qint_eq t x x = Ok true /\ (qint_eq t x y = Ok b -> qint_eq t y x = Ok b' -> b = b').
Proof. exact L_C68_qint. Qed.
Print Assumptions C68_qint.

(** 3 sqrt 2 == sqrt 18 and sqrt 18 == -3 sqrt 2 *)
Theorem C68_qint_refuted : exists x y z, wfq (Cfg false true) x /\ wfq (Cfg false true) y /\ wfq (Cfg false true) z /\
  qint_eq BigI x y = Ok true /\ qint_eq BigI y z = Ok true /\ qint_eq BigI x z = Ok false.
Proof. exact L_C68_qint_refuted. Qed.
Print Assumptions C68_qint_refuted.
