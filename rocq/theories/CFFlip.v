(** * CFFlip: what every iterator and conversion of a continued fraction does when the number is negated. *)

From Coq Require Import ZArith Znumtheory Reals Lia Lra Bool List Arith.
From Verif Require Import Base Ext ModelInt ModelBlock ModelCF Spec SpecCF Transfer CFArith CFStep.
Import ListNotations.
Open Scope Z_scope.

Definition rflip (r : ratio) : ratio := Ratio (- numer r) (denom r).

(** ** Two iterators in lockstep *)
Section Lock.
Context {S1 S2 A B : Type} (n1 : S1 -> res (option A * S1)) (n2 : S2 -> res (option B * S2)) (f : A -> B) (R : S1 -> S2 -> Prop).
Hypothesis step : forall s s' o o' v v', R s s' -> n1 s = Ok (o, v) -> n2 s' = Ok (o', v') -> o' = option_map f o /\ R v v'.

Lemma lock_nth n : forall s s' o o', R s s' -> nth_item n1 n s = Ok o -> nth_item n2 n s' = Ok o' -> o' = option_map f o.
Proof.
  induction n as [|n IH]; intros s s' o o' Hr H H'; cbn [nth_item] in H, H'.
  - destruct (n1 s) as [[p v]| |] eqn:E; cbn [bind] in H; try discriminate. destruct (n2 s') as [[p' v']| |] eqn:E'; cbn [bind] in H'; try discriminate.
    destruct (step s s' p p' v v' Hr E E') as [-> _]. destruct p; cbn [option_map] in *; inversion H; inversion H'; reflexivity.
  - destruct (n1 s) as [[p v]| |] eqn:E; cbn [bind] in H; try discriminate. destruct (n2 s') as [[p' v']| |] eqn:E'; cbn [bind] in H'; try discriminate.
    destruct (step s s' p p' v v' Hr E E') as [-> Rv]. destruct p; cbn [option_map] in *.
    + apply (IH v v'); auto.
    + inversion H; inversion H'; reflexivity.
Qed.

Lemma lock_last fuel : forall acc s s' o o', R s s' -> last_item n1 fuel acc s = Ok o -> last_item n2 fuel (option_map f acc) s' = Ok o' -> o' = option_map f o.
Proof.
  induction fuel as [|n IH]; intros acc s s' o o' Hr H H'; cbn [last_item] in H, H'; [discriminate|].
  destruct (n1 s) as [[p v]| |] eqn:E; cbn [bind] in H; try discriminate. destruct (n2 s') as [[p' v']| |] eqn:E'; cbn [bind] in H'; try discriminate.
  destruct (step s s' p p' v v' Hr E E') as [-> Rv]. destruct p as [a|]; cbn [option_map] in *.
  - apply (IH (Some a) v v'); auto.
  - inversion H; inversion H'; subst; reflexivity.
Qed.
End Lock.

(** ** One step *)
Lemma negT_val t x y : negT t x = Ok y -> y = - x.
Proof. unfold negT, chk. destruct (fits t (- x)); [|discriminate]. intros H; inversion H; auto. Qed.
Lemma ratio_neg_flip t r r' : ratio_neg t r = Ok r' -> r' = rflip r.
Proof. unfold ratio_neg. destruct (negT t (numer r)) eqn:E; cbn [bind]; [|discriminate|discriminate]. apply negT_val in E. intros H; inversion H. subst. reflexivity. Qed.
Lemma rflip_flip r : rflip (rflip r) = r.
Proof. destruct r as [a b]. unfold rflip; cbn. rewrite Z.opp_involutive. reflexivity. Qed.

Lemma signed_flip u b v w w' : signed_of u b v = Ok w -> signed_of u (negb b) v = Ok w' -> w' = - w.
Proof.
  unfold signed_of. destruct b; cbn [negb]; intros H H'.
  - apply negT_val in H. inversion H'; subst. lia.
  - apply negT_val in H'. inversion H; subst. lia.
Qed.

Definition flipped {A} (s s' : A * bool) : Prop := fst s' = fst s /\ snd s' = negb (snd s).

Lemma signed_step u s s' o o' v v' : flipped s s' -> signed_next u s = Ok (o, v) -> signed_next u s' = Ok (o', v') -> o' = option_map Z.opp o /\ flipped v v'.
Proof.
  destruct s as [c b], s' as [c' b']. intros [E1 E2] H H'. cbn [fst snd] in *. subst. unfold signed_next in *.
  destruct (coeffs_next c) as [[a|] d].
  - destruct (signed_of u b a) eqn:E; cbn [bind] in H; try discriminate. destruct (signed_of u (negb b) a) eqn:E'; cbn [bind] in H'; try discriminate.
    rewrite (signed_flip u b a _ _ E E') in *. inversion H; inversion H'; subst. split; [reflexivity|split; reflexivity].
  - inversion H; inversion H'; subst. split; [reflexivity|split; reflexivity].
Qed.

Definition pflip (p : Z * Z) : Z * Z := (fst p, - snd p).
Lemma general_step u s s' o o' v v' : flipped s s' -> general_next u s = Ok (o, v) -> general_next u s' = Ok (o', v') -> o' = option_map pflip o /\ flipped v v'.
Proof.
  destruct s as [c b], s' as [c' b']. intros [E1 E2] H H'. cbn [fst snd] in *. subst. unfold general_next in *.
  destruct (coeffs_next c) as [[a|] d].
  - destruct (signed_of u b a) eqn:E; cbn [bind] in H; try discriminate. destruct (signed_of u (negb b) a) eqn:E'; cbn [bind] in H'; try discriminate.
    rewrite (signed_flip u b a _ _ E E') in *. inversion H; inversion H'; subst. split; [reflexivity|split; reflexivity].
  - inversion H; inversion H'; subst. split; [reflexivity|split; reflexivity].
Qed.

Definition oflipped (s s' : owned_st) : Prop := o_iter s' = o_iter s /\ p_list s' = p_list s /\ p_pos s' = p_pos s /\ o_neg s' = negb (o_neg s).
Lemma owned_step u s s' o o' v v' : oflipped s s' -> owned_next u s = Ok (o, v) -> owned_next u s' = Ok (o', v') -> o' = option_map Z.opp o /\ oflipped v v'.
Proof.
  destruct s as [it l k b], s' as [it' l' k' b']. intros (E1 & E2 & E3 & E4) H H'. cbn [o_iter p_list p_pos o_neg] in *. subst.
  assert (P : forall i o o' v v', owned_periodic u (OwnedSt i l k b) = Ok (o, v) -> owned_periodic u (OwnedSt i l k (negb b)) = Ok (o', v') -> o' = option_map Z.opp o /\ oflipped v v').
  { clear. intros i o o' v v' H H'. unfold owned_periodic in *. cbn [o_iter p_list p_pos o_neg] in *. destruct l as [|l0 l].
    - inversion H; inversion H'; subst. split; [reflexivity|]. unfold oflipped. cbn. auto.
    - destruct (nth_error (l0 :: l) k) as [a|]; [|discriminate].
      destruct (signed_of u b a) eqn:E; cbn [bind] in H; try discriminate. destruct (signed_of u (negb b) a) eqn:E'; cbn [bind] in H'; try discriminate.
      rewrite (signed_flip u b a _ _ E E') in *. inversion H; inversion H'; subst. split; [reflexivity|]. unfold oflipped; cbn; auto. }
  unfold owned_next in *. cbn [o_iter p_list p_pos o_neg] in *. destruct it as [[|a it]|].
  - apply (P None _ _ _ _ H H').
  - destruct (signed_of u b a) eqn:E; cbn [bind] in H; try discriminate. destruct (signed_of u (negb b) a) eqn:E'; cbn [bind] in H'; try discriminate.
    rewrite (signed_flip u b a _ _ E E') in *. inversion H; inversion H'; subst. split; [reflexivity|]. unfold oflipped; cbn; auto.
  - apply (P None _ _ _ _ H H').
Qed.

Definition cflipped (s s' : conv_st) : Prop := cv_coeffs s' = cv_coeffs s /\ cv_block s' = cv_block s /\ cv_neg s' = negb (cv_neg s).
Lemma conv_flip u s s' o o' v v' : cflipped s s' -> conv_next u s = Ok (o, v) -> conv_next u s' = Ok (o', v') -> o' = option_map rflip o /\ cflipped v v'.
Proof.
  destruct s as [c k b], s' as [c' k' b']. intros (E1 & E2 & E3) H H'. cbn [cv_coeffs cv_block cv_neg] in *. subst. unfold conv_next in *. cbn [cv_coeffs cv_block cv_neg] in *.
  destruct (coeffs_next c) as [[a|] d].
  - destruct (block_checked_rmove u k a) as [[p q]|].
    + destruct (ratio_new (sty u) (to_signed u p) (to_signed u q)) as [r| |]; cbn [bind] in *; try discriminate. destruct b; cbn [negb] in *.
      * destruct (ratio_neg (sty u) r) as [r'| |] eqn:E; cbn [bind] in *; try discriminate. apply ratio_neg_flip in E. subst r'. inversion H; inversion H'; subst. cbn [option_map]. rewrite rflip_flip. split; [reflexivity|]. unfold cflipped; cbn; auto.
      * destruct (ratio_neg (sty u) r) as [r'| |] eqn:E; cbn [bind] in *; try discriminate. apply ratio_neg_flip in E. subst r'. inversion H; inversion H'; subst. cbn [option_map]. split; [reflexivity|]. unfold cflipped; cbn; auto.
    + inversion H; inversion H'; subst. split; [reflexivity|]. unfold cflipped; cbn; auto.
  - inversion H; inversion H'; subst. split; [reflexivity|]. unfold cflipped; cbn; auto.
Qed.

(** ** Whole fractions with the other sign; [cf_neg] leaves zero alone *)
Definition cf_flip (x : cf) : cf := CF (a_coeffs x) (p_coeffs x) (negb (negative x)).

Lemma cf_neg_cases x : cf_neg x = cf_flip x \/ (cf_neg x = x /\ a_coeffs x = [0] /\ p_coeffs x = nil).
Proof.
  unfold cf_neg, cf_is_zero. destruct x as [a p b]. cbn [a_coeffs p_coeffs negative].
  destruct a as [|z [|]]; try (left; reflexivity); try (destruct z; destruct p; try (left; reflexivity); right; auto).
Qed.
Lemma cf_neg_neg x : cf_neg (cf_neg x) = x.
Proof.
  unfold cf_neg at 2. destruct (cf_is_zero x) eqn:E.
  - unfold cf_neg. rewrite E. reflexivity.
  - unfold cf_neg. unfold cf_is_zero in *. cbn [a_coeffs p_coeffs negative]. rewrite E. rewrite negb_involutive. destruct x; reflexivity.
Qed.

(** ** Zero *)
Section Neg.
Context (u : ity) (U : fits u 1 = true).
Lemma to_signed_0 : to_signed u 0 = 0.
Proof.
  unfold to_signed. destruct u; try reflexivity. replace (0 <? 2 ^ (bits - 1)) with true; [reflexivity|]. symmetry. apply Z.ltb_lt. apply Z.pow_pos_nonneg; [lia|].
  unfold fits in U. apply andb_prop in U. destruct U as [_ K]. apply Z.ltb_lt in K. destruct (Z.le_gt_cases 1 bits); [lia|]. exfalso. destruct (Z.eq_dec bits 0) as [->|]; [cbn in K; lia|].
  rewrite Z.pow_neg_r in K; lia.
Qed.
Lemma signed_of_0 b w : signed_of u b 0 = Ok w -> w = 0.
Proof. unfold signed_of. rewrite to_signed_0. destruct b; intros H; [apply negT_val in H|inversion H]; auto. Qed.

Lemma ended_nth {S A} (next : S -> res (option A * S)) n s v : next s = Ok (None, v) -> nth_item next n s = Ok None.
Proof. intros H. destruct n; cbn [nth_item]; rewrite H; reflexivity. Qed.

Lemma zero_signed b n o : nth_item (signed_next u) n (CoeffsSt (Some [0]) nil None, b) = Ok o -> o = option_map Z.opp o.
Proof.
  intros H. destruct n as [|n]; cbn [nth_item] in H; unfold signed_next at 1 in H; cbn [coeffs_next a_iter] in H;
    (destruct (signed_of u b 0) eqn:E; cbn [bind] in H; try discriminate); apply signed_of_0 in E; subst.
  - inversion H. reflexivity.
  - erewrite ended_nth in H; [|reflexivity]. inversion H. reflexivity.
Qed.
Lemma zero_general b n o : nth_item (general_next u) n (CoeffsSt (Some [0]) nil None, b) = Ok o -> o = option_map pflip o.
Proof.
  intros H. destruct n as [|n]; cbn [nth_item] in H; unfold general_next at 1 in H; cbn [coeffs_next a_iter] in H;
    (destruct (signed_of u b 0) eqn:E; cbn [bind] in H; try discriminate); apply signed_of_0 in E; subst.
  - inversion H. reflexivity.
  - erewrite ended_nth in H; [|reflexivity]. inversion H. reflexivity.
Qed.
Lemma zero_owned b n o : nth_item (owned_next u) n (OwnedSt (Some [0]) nil 0 b) = Ok o -> o = option_map Z.opp o.
Proof.
  intros H. destruct n as [|n]; cbn [nth_item] in H; unfold owned_next at 1 in H; cbn [o_iter o_neg p_list p_pos] in H;
    (destruct (signed_of u b 0) eqn:E; cbn [bind] in H; try discriminate); apply signed_of_0 in E; subst.
  - inversion H. reflexivity.
  - erewrite ended_nth in H; [|reflexivity]. inversion H. reflexivity.
Qed.

Lemma rmove_0 p q : block_checked_rmove u block_identity 0 = Some (p, q) -> p = 0.
Proof.
  unfold block_checked_rmove, checked_mul, checked_add, checked, block_identity, obind. cbn [pm1 pm2 qm1 qm2].
  repeat match goal with |- context [if ?c then _ else _] => destruct c end; intros H; inversion H; reflexivity.
Qed.
Lemma zero_conv_step b o v : conv_next u (ConvSt (CoeffsSt (Some [0]) nil None) block_identity b) = Ok (o, v) ->
  o = option_map rflip o /\ exists k, v = ConvSt (CoeffsSt (Some nil) nil None) k b.
Proof.
  intros H. unfold conv_next in H. cbn [cv_coeffs coeffs_next a_iter cv_block cv_neg p_ref p_iter] in H.
  destruct (block_checked_rmove u block_identity 0) as [[p q]|] eqn:E.
  - apply rmove_0 in E. subst p. rewrite to_signed_0 in H. unfold ratio_new in H. destruct (to_signed u q =? 0); [discriminate|]. cbn [Z.eqb bind] in H.
    destruct b.
    + unfold ratio_neg in H. cbn [numer denom] in H. destruct (negT (sty u) 0) eqn:E; cbn [bind] in H; try discriminate. apply negT_val in E. subst.
      inversion H; subst. split; [reflexivity|eexists; reflexivity].
    + inversion H; subst. split; [reflexivity|eexists; reflexivity].
  - inversion H; subst. split; [reflexivity|eexists; reflexivity].
Qed.
Lemma zero_conv b n o : nth_item (conv_next u) n (ConvSt (CoeffsSt (Some [0]) nil None) block_identity b) = Ok o -> o = option_map rflip o.
Proof.
  intros H. destruct n as [|n]; cbn [nth_item] in H;
    (destruct (conv_next u (ConvSt (CoeffsSt (Some [0]) nil None) block_identity b)) as [[o' v]| |] eqn:E; cbn [bind] in H; try discriminate);
    apply zero_conv_step in E; destruct E as (E & k & ->).
  - destruct o' as [r|]; inversion H; subst; [auto|reflexivity].
  - destruct o' as [r|]; [|inversion H; reflexivity]. erewrite ended_nth in H; [|reflexivity]. inversion H. reflexivity.
Qed.

(** ** The iterators of [cf_neg x] *)
Lemma neg_coeffs x n o o' : nth_item (signed_next u) n (cf_coeffs x) = Ok o -> nth_item (signed_next u) n (cf_coeffs (cf_neg x)) = Ok o' -> o' = option_map Z.opp o.
Proof.
  intros H H'. destruct (cf_neg_cases x) as [E|(E & A & P)]; rewrite E in H'.
  - apply (lock_nth _ _ Z.opp flipped (signed_step u) n (cf_coeffs x) (cf_coeffs (cf_flip x))); auto. split; reflexivity.
  - rewrite H in H'. inversion H'; subst o'. unfold cf_coeffs, cf_coeffs_unsigned in H. rewrite A, P in H. apply (zero_signed _ n _ H).
Qed.
Lemma neg_generalized x n o o' : nth_item (general_next u) n (cf_generalized x) = Ok o -> nth_item (general_next u) n (cf_generalized (cf_neg x)) = Ok o' -> o' = option_map pflip o.
Proof.
  intros H H'. destruct (cf_neg_cases x) as [E|(E & A & P)]; rewrite E in H'.
  - apply (lock_nth _ _ pflip flipped (general_step u) n (cf_generalized x) (cf_generalized (cf_flip x))); auto. split; reflexivity.
  - rewrite H in H'. inversion H'; subst o'. unfold cf_generalized, cf_coeffs_unsigned in H. rewrite A, P in H. apply (zero_general _ n _ H).
Qed.
Lemma neg_into_coeffs x n o o' : nth_item (owned_next u) n (cf_into_coeffs x) = Ok o -> nth_item (owned_next u) n (cf_into_coeffs (cf_neg x)) = Ok o' -> o' = option_map Z.opp o.
Proof.
  intros H H'. destruct (cf_neg_cases x) as [E|(E & A & P)]; rewrite E in H'.
  - apply (lock_nth _ _ Z.opp oflipped (owned_step u) n (cf_into_coeffs x) (cf_into_coeffs (cf_flip x))); auto. unfold oflipped; cbn; auto.
  - rewrite H in H'. inversion H'; subst o'. unfold cf_into_coeffs in H. rewrite A, P in H. apply (zero_owned _ n _ H).
Qed.
Lemma neg_convergents x n o o' : nth_item (conv_next u) n (cf_convergents x) = Ok o -> nth_item (conv_next u) n (cf_convergents (cf_neg x)) = Ok o' -> o' = option_map rflip o.
Proof.
  intros H H'. destruct (cf_neg_cases x) as [E|(E & A & P)]; rewrite E in H'.
  - apply (lock_nth _ _ rflip cflipped (conv_flip u) n (cf_convergents x) (cf_convergents (cf_flip x))); auto. unfold cflipped; cbn; auto.
  - rewrite H in H'. inversion H'; subst o'. unfold cf_convergents, cf_coeffs_unsigned in H. rewrite A, P in H. apply (zero_conv _ n _ H).
Qed.
Lemma neg_unsigned x n : nth_item coeffs_nextM n (cf_coeffs_unsigned (cf_neg x)) = nth_item coeffs_nextM n (cf_coeffs_unsigned x).
Proof. destruct (cf_neg_cases x) as [E|(E & _)]; rewrite E; reflexivity. Qed.

(** ** The conversions *)
Definition amap {A B} (f : A -> B) (a : approx A) : approx B := match a with Approximated v => Approximated (f v) | Exact v => Exact (f v) end.

Lemma neg_to_integer x v v' : cf_to_integer u x = Ok v -> cf_to_integer u (cf_neg x) = Ok v' -> v' = amap Z.opp v.
Proof.
  intros H H'. destruct (cf_neg_cases x) as [E|(E & A & P)]; rewrite E in H'.
  - unfold cf_to_integer in *. cbn [cf_flip a_coeffs negative] in H'. change (cf_is_integer (cf_flip x)) with (cf_is_integer x) in H'. destruct (a_coeffs x) as [|a l]; [discriminate|].
    destruct (signed_of u (negative x) a) eqn:F; cbn [bind] in H; try discriminate. destruct (signed_of u (negb (negative x)) a) eqn:F'; cbn [bind] in H'; try discriminate.
    rewrite (signed_flip u _ _ _ _ F F') in *. inversion H; inversion H'; subst. destruct (cf_is_integer x); reflexivity.
  - rewrite H in H'. inversion H'; subst v'. unfold cf_to_integer in H. rewrite A in H. destruct (signed_of u (negative x) 0) eqn:F; cbn [bind] in H; try discriminate.
    apply signed_of_0 in F. subst. inversion H; subst. destruct (cf_is_integer x); reflexivity.
Qed.

Lemma neg_to_rational x v v' : cf_to_rational u x = Ok v -> cf_to_rational u (cf_neg x) = Ok v' -> v' = amap rflip v.
Proof.
  intros H H'. destruct (cf_neg_cases x) as [E|(E & A & P)]; rewrite E in H'.
  - unfold cf_to_rational, cf_last_convergent in *. change (cf_is_rational (cf_flip x)) with (cf_is_rational x) in H'. cbn [cf_flip a_coeffs p_coeffs] in H'. fold (cf_flip x) in H'.
    assert (R : cflipped (cf_convergents x) (cf_convergents (cf_flip x))) by (unfold cflipped; cbn; auto).
    destruct (cf_is_rational x).
    + destruct (last_item (conv_next u) (S (length (a_coeffs x))) None (cf_convergents x)) as [o| |] eqn:F; cbn [bind] in H; try discriminate.
      destruct (last_item (conv_next u) (S (length (a_coeffs x))) None (cf_convergents (cf_flip x))) as [o'| |] eqn:F'; cbn [bind] in H'; try discriminate.
      rewrite (lock_last _ _ rflip cflipped (conv_flip u) _ None _ _ _ _ R F F') in H'. destruct o as [r|]; cbn [unwrap option_map bind] in *; [|discriminate].
      inversion H; inversion H'; reflexivity.
    + destruct (nth_item (conv_next u) (length (a_coeffs x) + length (p_coeffs x)) (cf_convergents x)) as [o| |] eqn:F; cbn [bind] in H; try discriminate.
      destruct (nth_item (conv_next u) (length (a_coeffs x) + length (p_coeffs x)) (cf_convergents (cf_flip x))) as [o'| |] eqn:F'; cbn [bind] in H'; try discriminate.
      rewrite (lock_nth _ _ rflip cflipped (conv_flip u) _ _ _ _ _ R F F') in H'. destruct o as [r|]; cbn [unwrap option_map bind] in *; [|discriminate].
      inversion H; inversion H'; reflexivity.
  - rewrite H in H'. inversion H'; subst v'. unfold cf_to_rational, cf_last_convergent, cf_is_rational in H. rewrite P, A in H. cbn [length Nat.eqb] in H.
    unfold cf_convergents, cf_coeffs_unsigned in H. rewrite A, P in H. cbn [last_item] in H.
    destruct (conv_next u (ConvSt (CoeffsSt (Some [0]) nil None) block_identity (negative x))) as [[o w]| |] eqn:F; cbn [bind] in H; try discriminate.
    apply zero_conv_step in F. destruct F as (F & k & ->). destruct o as [r|]; [|discriminate]. cbn [last_item] in H. unfold conv_next in H. cbn [cv_coeffs coeffs_next a_iter p_ref bind] in H.
    cbn [unwrap bind] in H. inversion H; subst v. cbn [amap]. cbn [option_map] in F. inversion F as [F1]. congruence.
Qed.

Lemma loop_flip fuel limit : forall r s s' v v', cflipped s s' -> approx_loop u fuel limit r s = Ok v -> approx_loop u fuel limit (rflip r) s' = Ok v' -> v' = amap rflip v.
Proof.
  induction fuel as [|fuel IH]; intros r s s' v v' Hr H H'; cbn [approx_loop] in H, H'; [discriminate|].
  destruct (conv_next u s) as [[o w]| |] eqn:E; cbn [bind] in H; try discriminate. destruct (conv_next u s') as [[o' w']| |] eqn:E'; cbn [bind] in H'; try discriminate.
  destruct (conv_flip u s s' o o' w w' Hr E E') as [-> Rw]. destruct o as [q|]; cbn [option_map] in *.
  - change (denom (rflip q)) with (denom q) in H'. destruct (denom q <? limit); [apply (IH q w w'); auto|]. inversion H; inversion H'; reflexivity.
  - inversion H; inversion H'; reflexivity.
Qed.

(** unless the limit is below the denominator of the first convergent *)
Lemma neg_approximated fuel x limit v v' : (forall r, nth_item (conv_next u) 0 (cf_convergents x) = Ok (Some r) -> denom r <= limit) ->
  cf_approximated u fuel x limit = Ok v -> cf_approximated u fuel (cf_neg x) limit = Ok v' -> v' = amap rflip v.
Proof.
  intros L H H'. unfold cf_approximated in H, H'.
  destruct (conv_next u (cf_convergents x)) as [[o w]| |] eqn:E; cbn [bind] in H; try discriminate.
  destruct o as [r|]; cbn [unwrap bind] in H; [|discriminate].
  assert (Lr : denom r <= limit). { apply L. cbn [nth_item]. rewrite E. reflexivity. }
  replace (limit <? denom r) with false in H by (symmetry; apply Z.ltb_ge; auto).
  destruct (cf_neg_cases x) as [F|(F & A & P)]; rewrite F in H'.
  - destruct (conv_next u (cf_convergents (cf_flip x))) as [[o' w']| |] eqn:E'; cbn [bind] in H'; try discriminate.
    assert (R : cflipped (cf_convergents x) (cf_convergents (cf_flip x))) by (unfold cflipped; cbn; auto).
    destruct (conv_flip u _ _ _ _ _ _ R E E') as [-> Rw]. cbn [option_map unwrap bind] in H'. change (denom (rflip r)) with (denom r) in H'.
    replace (limit <? denom r) with false in H' by (symmetry; apply Z.ltb_ge; auto). apply (loop_flip fuel limit r w w'); auto.
  - rewrite E in H'. cbn [bind unwrap] in H'. replace (limit <? denom r) with false in H' by (symmetry; apply Z.ltb_ge; auto). rewrite H in H'. inversion H'; subst v'.
    unfold cf_convergents, cf_coeffs_unsigned in E. rewrite A, P in E. apply zero_conv_step in E. destruct E as (E & k & ->). cbn [option_map] in E. inversion E as [E1].
    destruct fuel; cbn [approx_loop] in H; [discriminate|]. unfold conv_next in H. cbn [cv_coeffs coeffs_next a_iter p_ref bind] in H. inversion H; subst v. cbn [amap]. congruence.
Qed.
End Neg.

(** The first convergent is an integer. *)
Lemma first_denom u x r s : fits u 1 = true -> conv_next u (cf_convergents x) = Ok (Some r, s) -> denom r = 1.
Proof.
  intros U H. unfold conv_next, cf_convergents in H. cbn [cv_coeffs cv_block cv_neg] in H. destruct (coeffs_next (cf_coeffs_unsigned x)) as [[a|] c]; [|discriminate].
  destruct (block_checked_rmove u block_identity a) as [[p q]|] eqn:E; [|discriminate].
  assert (q = 1).
  { revert E. unfold block_checked_rmove, checked_mul, checked_add, checked, block_identity, obind. cbn [pm1 pm2 qm1 qm2]. rewrite Z.mul_0_r.
    repeat match goal with |- context [if ?c then _ else _] => destruct c end; intros E; inversion E; reflexivity. }
  subst q. assert (Q : to_signed u 1 = 1 \/ to_signed u 1 = -1).
  { unfold to_signed. destruct u; auto. destruct (Z.ltb_spec 1 (2 ^ (bits - 1))) as [K|K]; auto. right.
    assert (bits = 1); [|subst; reflexivity]. unfold fits in U. apply andb_prop in U. destruct U as [_ L]. apply Z.ltb_lt in L.
    destruct (Z.le_gt_cases 2 bits) as [M|M]. { exfalso. assert (2 ^ 1 <= 2 ^ (bits - 1)) by (apply Z.pow_le_mono_r; lia). lia. }
    destruct (Z.le_gt_cases bits 0) as [M'|M']; [|lia]. exfalso. destruct (Z.eq_dec bits 0) as [->|]; [cbn in L; lia|]. rewrite Z.pow_neg_r in L; lia. }
  set (n := to_signed u p) in *. set (d := to_signed u 1) in *. clearbody n d.
  assert (Q1 : forall v, ratio_new (sty u) n d = Ok v -> denom v = 1).
  { intros v. unfold ratio_new. destruct (Z.eqb_spec d 0); [discriminate|]. destruct (n =? 0); [intros K; inversion K; reflexivity|]. destruct (n =? d); [intros K; inversion K; reflexivity|].
    assert (G : Z.gcd n d = 1). { destruct Q as [-> | ->]; [apply Z.gcd_1_r|]. change (-1) with (- (1)). rewrite Z.gcd_opp_r. apply Z.gcd_1_r. }
    unfold gcdT. rewrite G. unfold chk. destruct (fits (sty u) 1); cbn [bind]; [|discriminate]. unfold lift2. cbn [bind]. unfold quotT. cbn [Z.eqb]. unfold chk. rewrite !Z.quot_1_r.
    destruct (fits (sty u) n); cbn [bind]; [|discriminate]. destruct (fits (sty u) d); cbn [bind]; [|discriminate].
    destruct Q as [-> | ->]; cbn [Z.ltb Z.compare]; [intros K; inversion K; reflexivity|]. unfold subT, chk.
    destruct (fits (sty u) (0 - n)); cbn [bind]; [|discriminate]. destruct (fits (sty u) (0 - -1)); cbn [bind]; [|discriminate]. intros K; inversion K; reflexivity. }
  destruct (ratio_new (sty u) n d) as [v| |]; cbn [bind] in H; try discriminate. specialize (Q1 v eq_refl).
  destruct (negative x).
  - destruct (ratio_neg (sty u) v) as [w| |] eqn:F; cbn [bind] in H; try discriminate. apply ratio_neg_flip in F. subst w. inversion H; subst. exact Q1.
  - inversion H; subst. exact Q1.
Qed.

(** ** Conjugates of opposite numbers *)
Lemma rr_opp x : rational_real x -> rational_real (- x).
Proof. intros H. replace (- x)%R with (0 - x)%R by ring. apply rr_sub; [apply (rr_Z 0)|auto]. Qed.
Lemma conjugate_opp x xc : conjugate x xc -> conjugate (- x) (- xc).
Proof.
  intros (I & S & P). split; [intros K; apply I; rewrite <- (Ropp_involutive x); apply rr_opp; auto|]. split.
  - replace (- x + - xc)%R with (- (x + xc))%R by ring. apply rr_opp. auto.
  - replace (- x * - xc)%R with (x * xc)%R by ring. auto.
Qed.
Lemma wide_opp x : cf_wide x -> cf_wide (- x).
Proof. intros (xc & C & B). exists (- xc)%R. split; [apply conjugate_opp; auto|]. unfold between0 in *. lra. Qed.
Lemma domain_opp x : cf_domain x -> cf_domain (- x).
Proof.
  intros (xc & C & n & F & P & M). exists (- xc)%R. split; [apply conjugate_opp; auto|]. exists n. rewrite Rabs_Ropp. split; [auto|]. split; intros K.
  - apply M. lra.
  - rewrite Ropp_involutive. apply P. lra.
Qed.

(** ** Conjugating a quadratic integer twice *)
Lemma qconj_conj t x a b : qint_conj t x = Ok a -> qint_conj t a = Ok b -> b = x.
Proof.
  destruct x as [[x0 x1] d]. unfold qint_conj, qco_conj, lift1, lift2. cbn [qcoeffs qdiscr q0 q1 bind]. destruct (d =? 0) eqn:D.
  - cbn [bind]. intros H. inversion H; subst. cbn [qcoeffs qdiscr q0 q1]. rewrite D. cbn [bind]. intros H'. inversion H'. reflexivity.
  - destruct (mod4d2 t d) as [m| |] eqn:M; cbn [bind]; try discriminate. destruct m; cbn [bind]; try discriminate.
    + unfold addT, chk. destruct (fits t (x0 + x1)); cbn [bind]; [|discriminate]. destruct (negT t x1) eqn:E; cbn [bind]; try discriminate. apply negT_val in E. subst.
      intros H. inversion H; subst. cbn [qcoeffs qdiscr q0 q1]. rewrite D, M. cbn [bind]. destruct (fits t (x0 + x1 + - x1)); cbn [bind]; [|discriminate].
      destruct (negT t (- x1)) eqn:E; cbn [bind]; try discriminate. apply negT_val in E. subst. intros H'. inversion H'. f_equal. f_equal; lia.
    + destruct (negT t x1) eqn:E; cbn [bind]; try discriminate. apply negT_val in E. subst. intros H. inversion H; subst. cbn [qcoeffs qdiscr q0 q1]. rewrite D, M. cbn [bind].
      destruct (negT t (- x1)) eqn:E; cbn [bind]; try discriminate. apply negT_val in E. subst. intros H'. inversion H'. f_equal. f_equal; lia.
Qed.
