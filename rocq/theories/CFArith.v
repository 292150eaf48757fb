(** * CFArith: the operators that go through surds. *)

From Coq Require Import ZArith Znumtheory Reals Lia Lra Bool List Arith.
From Coquelicot Require Import Coquelicot.
From Verif Require Import Base Ext ModelSurd ModelBlock ModelCF ModelConv Spec SpecCF NumFacts Transfer SurdCore RatioFacts SurdArith
  SurdTotal SurdOrd SurdRound SurdMisc SurdSqrt CFCore CFSeq CFIter CFBasic CFSurd CFNew CFOfSurd CFWide CFRound.
Import ListNotations.
Open Scope Z_scope.

(** ** Sizes *)
Lemma fin_value_ratio x : wfcf x -> finite x -> exists r, lowest r /\ rval r = cf_val x.
Proof.
  intros W F. destruct (has_last x W F) as [HL _]. destruct (conv_item_convergent x _ W HL) as (r & _ & Cv).
  exists r. split; [apply Cv|]. apply (fin_convergent_val x r); auto.
Qed.
Lemma surd_sized_fit u x : wfcf x -> surd_sized u x -> surd_fit u x.
Proof.
  intros W (Sf & Si). split; [|auto]. intros F. destruct (fin_value_ratio x W F) as (r & L & V).
  apply (fin_conv_fit u x r W F L (eq_sym V)). auto.
Qed.
Lemma surd_sized_big x : wfcf x -> surd_sized BigU x.
Proof. intros W. split; [|apply surd_fit_big; auto]. intros _ r L _. unfold ratio_sfit. cbn [sfit]. unfold lowest in L. lia. Qed.

(** the convergents fit *)
Lemma conv_sized u x j : wfcf x -> (forall r, convergent x j r -> ratio_sfit u r) -> conv_fit u x j.
Proof.
  intros W H Hs. destruct (has_dec x j) as [Hj|Hj]; [|contradiction].
  destruct (conv_item_convergent x j W Hj) as (r & E & Cv). specialize (H r Cv).
  rewrite conv_item_eq in E by auto. inversion E; subst r. unfold ratio_sfit in H. cbn [numer denom] in H.
  pose proof (PP_mono (cseq x) (wfcf_cpos x W) (S j)). replace (Z.abs (sgnb (negative x) * PP (cseq x) (S j))) with (PP (cseq x) (S j)) in H; [auto|].
  unfold sgnb. destruct (negative x); lia.
Qed.

(** ** Rational and irrational *)
Lemma rational_real_C x : rational_real x <-> rational_num (RtoC x).
Proof.
  split; intros (n & d & Hd & E); exists n, d; (split; [auto|]); assert (D : IZR d <> 0%R) by (apply not_0_IZR; auto).
  - rewrite E. unfold ZtoC. rewrite RtoC_div; auto.
  - unfold ZtoC in E. rewrite <- RtoC_div in E by auto. apply RtoC_inj in E. exact E.
Qed.
Lemma rr_sub x y : rational_real x -> rational_real y -> rational_real (x - y).
Proof. rewrite !rational_real_C. intros A B. unfold Rminus. rewrite RtoC_plus, RtoC_opp. apply rational_add; [|apply rational_opp]; auto. Qed.
Lemma rr_div x y : rational_real x -> rational_real y -> y <> 0%R -> rational_real (x / y).
Proof.
  rewrite !rational_real_C. intros A B N. rewrite RtoC_div by auto. unfold Cdiv. apply rational_mul; [auto|apply rational_inv; [|auto]].
  intros E. apply RtoC_inj in E. auto.
Qed.

(** the conjugate is unique *)
Lemma conjugate_unique x y z : conjugate x y -> conjugate x z -> y = z.
Proof.
  intros (I & S1 & P1) (_ & S2 & P2). destruct (Req_dec y z) as [E|E]; [auto|exfalso]. apply I.
  replace x with ((x * y - x * z) / ((x + y) - (x + z)))%R.
  2:{ field. intros H. apply E. lra. }
  apply rr_div; [apply rr_sub; auto|apply rr_sub; auto|]. intros H. apply E. lra.
Qed.
Lemma surd_conjugate g s x : normal g s -> sval s = RtoC x -> ~ rational_real x -> sconj s = RtoC (rconj s) /\ conjugate x (rconj s).
Proof.
  intros N E I. destruct (normal_real g s x N E) as [Hr Ex]. pose proof (normal_okc g s N) as O. split; [apply sconj_rconj; auto|].
  split; [auto|]. destruct s as [[a b c] r]. unfold rconj, rs, rnum, okc in *. cbn [coeffs c0 c1 c2 discr] in *.
  assert (D : IZR c <> 0%R) by (apply not_0_IZR; auto). subst x. split.
  - exists (2 * a), c. split; [auto|]. rewrite mult_IZR. field. auto.
  - exists (a * a - b * b * r), (c * c). split; [nia|]. rewrite minus_IZR, !mult_IZR.
    assert (Q : (sqrt (IZR r) * sqrt (IZR r) = IZR r)%R) by (apply sqrt_sqrt; apply IZR_le; auto).
    set (q := sqrt (IZR r)) in *. rewrite <- Q. field. auto.
Qed.
Lemma surd_domain g s x : normal g s -> sval s = RtoC x -> cf_domain x ->
  exists xc, sconj s = RtoC xc /\ ~ rational_num (sval s) /\ conj_below x xc.
Proof.
  intros N E (xc & C & B). destruct (surd_conjugate g s x N E (proj1 C)) as [Ec C']. rewrite (conjugate_unique _ _ _ C' C) in Ec.
  exists xc. split; [auto|]. split; [|auto]. rewrite E. intros H. apply (proj1 C). apply rational_real_C. auto.
Qed.

Lemma surd_to_cf_dom g t fuel s x z : fits t 1 = true -> normal g s -> sval s = RtoC x -> cf_domain x -> surd_to_cf g t fuel s = Ok (Some z) ->
  canonical z /\ ~ finite z /\ cf_val z = x.
Proof.
  intros F N E D H. destruct (surd_domain g s x N E D) as (xc & Ec & I & B). destruct (surd_to_cf_ok g s x xc N E Ec I B t fuel z F H) as (A & B' & C & _). auto.
Qed.
Lemma surd_to_cf_dom_total g s x : normal g s -> sval s = RtoC x -> cf_domain x ->
  exists fuel0, forall fuel, (fuel0 <= fuel)%nat -> exists z, surd_to_cf g BigI fuel s = Ok (Some z).
Proof. intros N E D. destruct (surd_domain g s x N E D) as (xc & Ec & I & B). exact (surd_to_cf_total g s x xc N E Ec I B). Qed.

(** more generally, when the number is not between 0 and its conjugate *)
Lemma cf_domain_wide x : cf_domain x -> cf_wide x.
Proof.
  intros (xc & C & n & Hn & Hp & Hm). exists xc. split; [auto|]. destruct Hn as [Hn _]. intros [[B1 B2]|[B1 B2]].
  - rewrite Rabs_pos_eq in Hn by lra. specialize (Hp ltac:(lra)). lra.
  - rewrite Rabs_left in Hn by lra. specialize (Hm ltac:(lra)). lra.
Qed.
Lemma surd_conj_value g s x : normal g s -> sval s = RtoC x -> ~ rational_real x -> exists xc, conjugate x xc /\ sconj s = RtoC xc /\ ~ rational_num (sval s).
Proof.
  intros N E I. destruct (surd_conjugate g s x N E I) as [Ec C]. exists (rconj s). split; [auto|]. split; [auto|]. rewrite E. intros H. apply I. apply rational_real_C. auto.
Qed.
Lemma surd_to_cf_wide g t fuel s x z : fits t 1 = true -> normal g s -> sval s = RtoC x -> cf_wide x -> surd_to_cf g t fuel s = Ok (Some z) ->
  canonical z /\ ~ finite z /\ cf_val z = x.
Proof.
  intros F N E (xc & C & B) H. destruct (surd_conj_value g s x N E (proj1 C)) as (xc' & C' & Ec & I). rewrite (conjugate_unique _ _ _ C' C) in Ec.
  destruct (surd_to_cf_char g s x xc N E Ec I t fuel z F H) as (C1 & C2 & _ & _ & V). split; [auto|]. split; [auto|]. apply V; [tauto|].
  intros (B' & _). apply B. right. auto.
Qed.

Lemma back_ok g u fuel s x z : fits (sty u) 1 = true -> normal g s -> sval s = RtoC x -> cf_wide x -> back g u fuel s = Ok z ->
  canonical z /\ cf_val z = x.
Proof.
  intros F N E D H. unfold back in H. destruct (surd_to_cf g (sty u) fuel s) as [[w|]| |] eqn:Ew; try discriminate. cbn [bind unwrap] in H. inversion H; subst w.
  destruct (surd_to_cf_wide g (sty u) fuel s x z F N E D Ew) as (A & _ & B). auto.
Qed.

(** ** Rational operands *)
Lemma rational_cond x : cf_is_rational x = true <-> finite x.
Proof. unfold cf_is_rational, finite. destruct (p_coeffs x); cbn; split; congruence. Qed.
Lemma rational_cond_f x : cf_is_rational x = false <-> ~ finite x.
Proof. rewrite <- rational_cond. destruct (cf_is_rational x); split; congruence. Qed.
Lemma to_rational_ok u x a : wfcf x -> surd_sized u x -> finite x -> cf_to_rational u x = Ok a -> lowest (approx_value a) /\ rval (approx_value a) = cf_val x.
Proof.
  intros W S F H. destruct (cf_to_rational_fin u x W F (proj1 (surd_sized_fit u x W S) F)) as (r & E & L & V). rewrite E in H. inversion H; subst. auto.
Qed.
Lemma ratio_mul_int_ok t x k q : okd x -> ratio_mul_int t x k = Ok q -> rval q = (rval x * IZR k)%R /\ lowest q.
Proof. intros Hx H. apply rle_ratio_mul_int in H. destruct (ratio_mul_int_big x k Hx) as (q' & E & V). rewrite E in H. inversion H; subst. auto. Qed.

Lemma ratio_div_int_big x k : okd x -> k <> 0 ->
  exists q, ratio_div_int BigI x k = Ok q /\ rval q = (rval x / IZR k)%R /\ lowest q.
Proof.
  intros Hx Hk. unfold ratio_div_int. bigi.
  destruct (gcd_cofactor (numer x) k Hk) as (a & d & Ea & Ed & _).
  pose proof (gcd_neq0_r (numer x) k Hk) as Hg.
  do 2 (rewrite quotB by lia; bigi).
  rewrite (quot_exact _ _ a) by lia. rewrite (quot_exact _ _ d) by lia.
  destruct x as [xn xd]; unfold okd, rval in *; cbn [numer denom] in *.
  revert Ea Ed Hg. generalize (Z.gcd xn k) as m. intros m -> -> Hm.
  assert (Hd : d <> 0) by nia. assert (Hxd : xd * d <> 0) by nia.
  destruct (ratio_new_big a (xd * d) Hxd) as (q & Eq & V & L). exists q.
  split; [auto|]. split; [|auto]. change (rval q = (IZR (m * a) / IZR xd / IZR (m * d))%R).
  rewrite V, !mult_IZR. field. repeat split; auto; apply IZR_neq0; lia.
Qed.
Lemma ratio_div_int_nz x k q : okd x -> ratio_div_int BigI x k = Ok q -> k <> 0.
Proof.
  intros Hx H ->. unfold ratio_div_int in H. revert H. bigi. destruct (Z.eq_dec (numer x) 0) as [E|E].
  - rewrite E. cbn [Z.gcd Z.abs]. unfold lift2 at 1, quotT at 1. cbn. discriminate.
  - rewrite Z.gcd_0_r. do 2 (rewrite quotB by lia; bigi). rewrite Z.quot_0_l by lia. rewrite Z.mul_0_r. cbn. discriminate.
Qed.

(** [f] does on ratios, and [h] on surds, the operation [op] with a fixed real right operand *)
Section Op.
Context (g : cfg) (u : ity) (op : R -> R) (F1 : fits (sty u) 1 = true).
Context (x : cf) (W : wfcf x) (Sz : surd_sized u x).

Lemma op_ok (f : ratio -> res ratio) (h : surd -> res surd) fuel z :
  (forall r q, lowest r -> f r = Ok q -> lowest q /\ rval q = op (rval r)) ->
  (forall s s' v, normal g s -> sval s = RtoC v -> h s = Ok s' -> normal g s' /\ sval s' = RtoC (op v)) ->
  finite x \/ cf_wide (op (cf_val x)) ->
  (if cf_is_rational x then
    let! r := cf_to_rational u x in let! r := f (approx_value r) in cf_of_ratio (sty u) r
   else let! s := surd_of_cf g u x in let! s := h s in back g u fuel s) = Ok z ->
  canonical z /\ cf_val z = op (cf_val x).
Proof.
  intros Hf Hh D H. destruct (cf_is_rational x) eqn:R.
  - apply rational_cond in R. destruct (cf_to_rational u x) as [a| |] eqn:Ea; [|discriminate|discriminate]. cbn [bind] in H.
    destruct (to_rational_ok u x a W Sz R Ea) as [L V]. destruct (f (approx_value a)) as [q| |] eqn:Eq; [|discriminate|discriminate]. cbn [bind] in H.
    destruct (Hf _ _ L Eq) as [Lq Vq]. destruct (cf_of_ratio_ok _ _ _ Lq H) as (C & _ & Vz). split; [auto|]. rewrite Vz, Vq, V. auto.
  - apply rational_cond_f in R. destruct D as [D|D]; [contradiction|].
    destruct (surd_of_cf g u x) as [s| |] eqn:Es; [|discriminate|discriminate]. cbn [bind] in H.
    destruct (surd_of_cf_ok g u x s W (surd_sized_fit u x W Sz) Es) as [N V].
    destruct (h s) as [s'| |] eqn:Eh; [|discriminate|discriminate]. cbn [bind] in H. destruct (Hh _ _ _ N V Eh) as [N' V'].
    exact (back_ok g u fuel s' _ z F1 N' V' D H).
Qed.
End Op.

Lemma CtoR_div x y : y <> 0%R -> (RtoC x / RtoC y)%C = RtoC (x / y).
Proof. intros. rewrite RtoC_div; auto. Qed.
Lemma rval_neq0 q : lowest q -> numer q <> 0 -> rval q <> 0%R.
Proof.
  intros [L _] N. unfold rval, Rdiv. apply Rmult_integral_contrapositive_currified; [apply not_0_IZR; auto|].
  apply Rinv_neq_0_compat. apply not_0_IZR. lia.
Qed.

Section Ops.
Context (g : cfg) (u : ity) (F1 : fits (sty u) 1 = true) (x : cf) (W : wfcf x) (Sz : surd_sized u x).

Lemma cf_mul_int_ok fuel k z : finite x \/ cf_wide (cf_val x * IZR k) -> cf_mul_int g u fuel x k = Ok z ->
  canonical z /\ cf_val z = (cf_val x * IZR k)%R.
Proof.
  intros D H. apply (op_ok g u (fun v => v * IZR k)%R F1 x W Sz (fun r => ratio_mul_int (sty u) r k) (fun s => surd_mul_int g (sty u) s k) fuel z); auto.
  - intros r q L E. apply ratio_mul_int_ok in E; [tauto|auto].
  - intros s s' v N V E. apply surd_mul_int_ok in E. destruct E as [V' N']. split; [auto|]. rewrite V', V. unfold ZtoC. rewrite RtoC_mult. reflexivity.
Qed.

Lemma cf_div_int_ok fuel k z : finite x \/ cf_wide (cf_val x / IZR k) -> cf_div_int g u fuel x k = Ok z ->
  k <> 0 /\ canonical z /\ cf_val z = (cf_val x / IZR k)%R.
Proof.
  intros D H.
  assert (K : k <> 0).
  { unfold cf_div_int in H. destruct (cf_is_rational x) eqn:R.
    - apply rational_cond in R. destruct (cf_to_rational u x) as [a| |] eqn:Ea; [|discriminate|discriminate]. cbn [bind] in H.
      destruct (to_rational_ok u x a W Sz R Ea) as [L _]. destruct (ratio_div_int (sty u) (approx_value a) k) as [q| |] eqn:Eq; [|discriminate|discriminate].
      apply rle_ratio_div_int in Eq. apply (ratio_div_int_nz _ _ _ (lowest_okd _ L) Eq).
    - destruct (surd_of_cf g u x) as [s| |] eqn:Es; [|discriminate|discriminate]. cbn [bind] in H.
      destruct (surd_of_cf_ok g u x s W (surd_sized_fit u x W Sz) Es) as [N _].
      destruct (surd_div_int g (sty u) s k) as [s'| |] eqn:Eh; [|discriminate|discriminate]. apply surd_div_int_ok in Eh; [tauto|apply (normal_okc g s N)]. }
  split; [auto|]. assert (Kr : IZR k <> 0%R) by (apply not_0_IZR; auto).
  apply (op_ok g u (fun v => v / IZR k)%R F1 x W Sz (fun r => ratio_div_int (sty u) r k) (fun s => surd_div_int g (sty u) s k) fuel z); auto.
  - intros r q L E. apply rle_ratio_div_int in E. destruct (ratio_div_int_big r k (lowest_okd _ L) K) as (q' & E' & V & Lq). rewrite E' in E. inversion E; subst. auto.
  - intros s s' v N V E. apply surd_div_int_ok in E; [|apply (normal_okc g s N)]. destruct E as (_ & V' & N'). split; [auto|]. rewrite V', V. unfold ZtoC. apply CtoR_div. auto.
Qed.

Section Ratio.
Context (q : ratio) (Lq : lowest q).
Lemma cf_add_ratio_ok fuel z : finite x \/ cf_wide (cf_val x + rval q) -> cf_add_ratio g u fuel x q = Ok z ->
  canonical z /\ cf_val z = (cf_val x + rval q)%R.
Proof.
  intros D H. apply (op_ok g u (fun v => v + rval q)%R F1 x W Sz (fun r => ratio_add (sty u) r q) (fun s => surd_add_ratio g (sty u) s q) fuel z); auto.
  - intros r q' L E. apply ratio_add_ok in E; [tauto|auto|auto].
  - intros s s' v N V E. apply surd_add_ratio_ok in E; [|apply (normal_okc g s N)|auto]. destruct E as [V' N']. split; [auto|]. rewrite V', V. unfold qC. rewrite RtoC_plus. reflexivity.
Qed.
Lemma cf_sub_ratio_ok fuel z : finite x \/ cf_wide (cf_val x - rval q) -> cf_sub_ratio g u fuel x q = Ok z ->
  canonical z /\ cf_val z = (cf_val x - rval q)%R.
Proof.
  intros D H. apply (op_ok g u (fun v => v - rval q)%R F1 x W Sz (fun r => ratio_sub (sty u) r q) (fun s => surd_sub_ratio g (sty u) s q) fuel z); auto.
  - intros r q' L E. apply ratio_sub_ok in E; [tauto|auto|auto].
  - intros s s' v N V E. apply surd_sub_ratio_ok in E; [|apply (normal_okc g s N)|auto]. destruct E as [V' N']. split; [auto|]. rewrite V', V. unfold qC. rewrite RtoC_minus. reflexivity.
Qed.
Lemma cf_mul_ratio_ok fuel z : finite x \/ cf_wide (cf_val x * rval q) -> cf_mul_ratio g u fuel x q = Ok z ->
  canonical z /\ cf_val z = (cf_val x * rval q)%R.
Proof.
  intros D H. apply (op_ok g u (fun v => v * rval q)%R F1 x W Sz (fun r => ratio_mul (sty u) r q) (fun s => surd_mul_ratio g (sty u) s q) fuel z); auto.
  - intros r q' L E. apply ratio_mul_ok in E; [tauto|auto|auto].
  - intros s s' v N V E. apply surd_mul_ratio_ok in E; [|apply (normal_okc g s N)|auto]. destruct E as [V' N']. split; [auto|]. rewrite V', V. unfold qC. rewrite RtoC_mult. reflexivity.
Qed.
Lemma cf_div_ratio_ok fuel z : finite x \/ cf_wide (cf_val x / rval q) -> cf_div_ratio g u fuel x q = Ok z ->
  rval q <> 0%R /\ canonical z /\ cf_val z = (cf_val x / rval q)%R.
Proof.
  intros D H.
  assert (K : numer q <> 0).
  { unfold cf_div_ratio, cf_op_ratio in H. destruct (cf_is_rational x) eqn:R.
    - apply rational_cond in R. destruct (cf_to_rational u x) as [a| |] eqn:Ea; [|discriminate|discriminate]. cbn [bind] in H.
      destruct (to_rational_ok u x a W Sz R Ea) as [L _]. destruct (ratio_div (sty u) (approx_value a) q) as [q'| |] eqn:Eq; [|discriminate|discriminate].
      apply ratio_div_ok in Eq; [tauto|auto|auto].
    - apply rational_cond_f in R. destruct (surd_of_cf g u x) as [s| |] eqn:Es; [|discriminate|discriminate]. cbn [bind] in H.
      destruct (surd_of_cf_ok g u x s W (surd_sized_fit u x W Sz) Es) as [N _].
      destruct (surd_div_ratio g (sty u) s q) as [s'| |] eqn:Eh; [|discriminate|discriminate]. apply surd_div_ratio_ok in Eh; [tauto|apply (normal_okc g s N)|auto]. }
  pose proof (rval_neq0 q Lq K) as Kr. split; [auto|].
  apply (op_ok g u (fun v => v / rval q)%R F1 x W Sz (fun r => ratio_div (sty u) r q) (fun s => surd_div_ratio g (sty u) s q) fuel z); auto.
  - intros r q' L E. apply ratio_div_ok in E; [tauto|auto|auto].
  - intros s s' v N V E. apply surd_div_ratio_ok in E; [|apply (normal_okc g s N)|auto]. destruct E as (_ & V' & N'). split; [auto|]. rewrite V', V. unfold qC. apply CtoR_div. auto.
Qed.
End Ratio.

Section Two.
Context (y : cf) (Wy : wfcf y) (Szy : surd_sized u y).
Lemma two_surds (h : surd -> surd -> res surd) (op : R -> R -> R) fuel z :
  (forall s1 s2 s', normal g s1 -> normal g s2 -> sval s1 = RtoC (cf_val x) -> sval s2 = RtoC (cf_val y) -> h s1 s2 = Ok s' ->
     normal g s' /\ sval s' = RtoC (op (cf_val x) (cf_val y))) ->
  cf_wide (op (cf_val x) (cf_val y)) ->
  (let! s := surd_of_cf g u x in let! r := surd_of_cf g u y in let! s := h s r in back g u fuel s) = Ok z ->
  canonical z /\ cf_val z = op (cf_val x) (cf_val y).
Proof.
  intros Hh D H. destruct (surd_of_cf g u x) as [s1| |] eqn:E1; [|discriminate|discriminate]. cbn [bind] in H.
  destruct (surd_of_cf g u y) as [s2| |] eqn:E2; [|discriminate|discriminate]. cbn [bind] in H.
  destruct (surd_of_cf_ok g u x s1 W (surd_sized_fit u x W Sz) E1) as [N1 V1].
  destruct (surd_of_cf_ok g u y s2 Wy (surd_sized_fit u y Wy Szy) E2) as [N2 V2].
  destruct (h s1 s2) as [s'| |] eqn:Eh; [|discriminate|discriminate]. cbn [bind] in H.
  destruct (Hh _ _ _ N1 N2 V1 V2 Eh) as [N' V']. exact (back_ok g u fuel s' _ z F1 N' V' D H).
Qed.
Lemma cf_add_ok fuel z : (finite x /\ finite y) \/ cf_wide (cf_val x + cf_val y) -> cf_add g u fuel x y = Ok z ->
  canonical z /\ cf_val z = (cf_val x + cf_val y)%R.
Proof.
  intros D H. unfold cf_add, cf_op_cf in H. destruct (cf_is_rational y) eqn:R.
  - apply rational_cond in R. destruct (cf_to_rational u y) as [a| |] eqn:Ea; [|discriminate|discriminate]. cbn [bind] in H.
    destruct (to_rational_ok u y a Wy Szy R Ea) as [L V]. rewrite <- V in D |- *. apply (cf_add_ratio_ok _ L fuel z); [tauto|exact H].
  - apply rational_cond_f in R. destruct D as [[_ D]|D]; [contradiction|].
    apply (two_surds (surd_add g (sty u)) Rplus fuel z); auto. intros s1 s2 s' N1 N2 V1 V2 E.
    apply surd_add_ok in E; [|apply normal_wf; auto|apply normal_wf; auto]. destruct E as [V' N']. split; [auto|]. rewrite V', V1, V2, RtoC_plus. reflexivity.
Qed.
Lemma cf_sub_ok fuel z : (finite x /\ finite y) \/ cf_wide (cf_val x - cf_val y) -> cf_sub g u fuel x y = Ok z ->
  canonical z /\ cf_val z = (cf_val x - cf_val y)%R.
Proof.
  intros D H. unfold cf_sub, cf_op_cf in H. destruct (cf_is_rational y) eqn:R.
  - apply rational_cond in R. destruct (cf_to_rational u y) as [a| |] eqn:Ea; [|discriminate|discriminate]. cbn [bind] in H.
    destruct (to_rational_ok u y a Wy Szy R Ea) as [L V]. rewrite <- V in D |- *. apply (cf_sub_ratio_ok _ L fuel z); [tauto|exact H].
  - apply rational_cond_f in R. destruct D as [[_ D]|D]; [contradiction|].
    apply (two_surds (surd_sub g (sty u)) Rminus fuel z); auto. intros s1 s2 s' N1 N2 V1 V2 E.
    apply surd_sub_ok in E; [|apply normal_wf; auto|apply normal_wf; auto]. destruct E as [V' N']. split; [auto|]. rewrite V', V1, V2, RtoC_minus. reflexivity.
Qed.
Lemma cf_mul_ok fuel z : (finite x /\ finite y) \/ cf_wide (cf_val x * cf_val y) -> cf_mul g u fuel x y = Ok z ->
  canonical z /\ cf_val z = (cf_val x * cf_val y)%R.
Proof.
  intros D H. unfold cf_mul, cf_op_cf in H. destruct (cf_is_rational y) eqn:R.
  - apply rational_cond in R. destruct (cf_to_rational u y) as [a| |] eqn:Ea; [|discriminate|discriminate]. cbn [bind] in H.
    destruct (to_rational_ok u y a Wy Szy R Ea) as [L V]. rewrite <- V in D |- *. apply (cf_mul_ratio_ok _ L fuel z); [tauto|exact H].
  - apply rational_cond_f in R. destruct D as [[_ D]|D]; [contradiction|].
    apply (two_surds (surd_mul g (sty u)) Rmult fuel z); auto. intros s1 s2 s' N1 N2 V1 V2 E.
    apply surd_mul_ok in E; [|apply normal_wf; auto|apply normal_wf; auto]. destruct E as [N' V']. split; [auto|].
    assert (E : sval s' = (sval s1 * sval s2)%C).
    { rewrite V'. destruct (is_rational s1 || is_rational s2) eqn:Er; [reflexivity|]. rewrite (real_not_imag _ _ _ V1 (normal_okc _ _ N1) Er). cbn [sgnC]. ring. }
    rewrite E, V1, V2, RtoC_mult. reflexivity.
Qed.
Lemma cf_div_ok fuel z : (finite x /\ finite y) \/ cf_wide (cf_val x / cf_val y) -> cf_div g u fuel x y = Ok z ->
  cf_val y <> 0%R /\ canonical z /\ cf_val z = (cf_val x / cf_val y)%R.
Proof.
  intros D H. unfold cf_div, cf_op_cf in H. destruct (cf_is_rational y) eqn:R.
  - apply rational_cond in R. destruct (cf_to_rational u y) as [a| |] eqn:Ea; [|discriminate|discriminate]. cbn [bind] in H.
    destruct (to_rational_ok u y a Wy Szy R Ea) as [L V]. rewrite <- V in D |- *. apply (cf_div_ratio_ok _ L fuel z); [tauto|exact H].
  - apply rational_cond_f in R. destruct D as [[_ D]|D]; [contradiction|].
    assert (Y : cf_val y <> 0%R).
    { rewrite (cf_val_inf y R). assert (lim (cseq y) <> IZR 0 / IZR 1)%R by (apply lim_irrational; [apply wfcf_cpos; auto|lia]).
      apply Rmult_integral_contrapositive_currified; [apply not_0_IZR; unfold sgnb; destruct (negative y); lia|]. intros E. apply H0. rewrite E. lra. }
    split; [auto|].
    apply (two_surds (surd_div g (sty u)) Rdiv fuel z); auto. intros s1 s2 s' N1 N2 V1 V2 E.
    apply surd_div_ok in E; [|apply normal_wf; auto|apply normal_wf; auto]. destruct E as (N' & _ & V'). split; [auto|].
    assert (E : sval s' = (sval s1 / sval s2)%C).
    { rewrite V'. destruct (is_rational s1 || is_rational s2) eqn:Er; [reflexivity|]. rewrite (real_not_imag _ _ _ V1 (normal_okc _ _ N1) Er). cbn [sgnC]. ring. }
    rewrite E, V1, V2, CtoR_div; auto.
Qed.
End Two.
End Ops.

(** ** The operators return over arbitrary-precision integers *)
Section Total.
Context (g : cfg) (op : R -> R) (x : cf) (W : wfcf x) (Len : returns (surd_of_cf g BigU x)).

Lemma op_total (f : ratio -> res ratio) (h : surd -> res surd) :
  (forall r, lowest r -> exists q, f r = Ok q /\ lowest q) ->
  (forall s v, normal g s -> sval s = RtoC v -> exists s', h s = Ok s' /\ normal g s' /\ sval s' = RtoC (op v)) ->
  finite x \/ cf_domain (op (cf_val x)) ->
  exists fuel0, forall fuel, (fuel0 <= fuel)%nat -> returns
  (if cf_is_rational x then
    let! r := cf_to_rational BigU x in let! r := f (approx_value r) in cf_of_ratio (sty BigU) r
   else let! s := surd_of_cf g BigU x in let! s := h s in back g BigU fuel s).
Proof.
  intros Hf Hh D. destruct (cf_is_rational x) eqn:R.
  - apply rational_cond in R. exists 0%nat. intros fuel _.
    destruct (cf_to_rational_fin BigU x W R (proj1 (surd_fit_big x W) R)) as (r & E & L & _). rewrite E. cbn [bind approx_value].
    destruct (Hf r L) as (q & Eq & Lq). rewrite Eq. cbn [bind]. apply (cf_of_ratio_total q Lq).
  - apply rational_cond_f in R. destruct D as [D|D]; [contradiction|].
    destruct Len as [s Es]. destruct (surd_of_cf_ok g BigU x s W (surd_fit_big x W) Es) as [N V].
    destruct (Hh s _ N V) as (s' & Eh & N' & V'). destruct (surd_to_cf_dom_total g s' _ N' V' D) as [f0 T]. exists f0. intros fuel Hf'.
    destruct (T fuel Hf') as [z Ez]. rewrite Es. cbn [bind]. rewrite Eh. cbn [bind]. unfold back. change (sty BigU) with BigI. rewrite Ez. eexists. reflexivity.
Qed.
End Total.

Section Totals.
Context (g : cfg) (x : cf) (W : wfcf x) (Len : returns (surd_of_cf g BigU x)).
Lemma cf_mul_int_total k : finite x \/ cf_domain (cf_val x * IZR k) -> exists fuel0, forall fuel, (fuel0 <= fuel)%nat -> returns (cf_mul_int g BigU fuel x k).
Proof.
  intros D. apply (op_total g (fun v => v * IZR k)%R x W Len (fun r => ratio_mul_int BigI r k) (fun s => surd_mul_int g BigI s k)); auto.
  - intros r L. destruct (ratio_mul_int_big r k (lowest_okd _ L)) as (q & E & _ & Lq). eauto.
  - intros s v N V. destruct (surd_mul_int_total g s (normal_wf _ _ N) k) as [s' E]. exists s'. split; [auto|].
    apply surd_mul_int_ok in E. destruct E as [V' N']. split; [auto|]. rewrite V', V. unfold ZtoC. rewrite RtoC_mult. reflexivity.
Qed.
Lemma cf_div_int_total k : k <> 0 -> finite x \/ cf_domain (cf_val x / IZR k) -> exists fuel0, forall fuel, (fuel0 <= fuel)%nat -> returns (cf_div_int g BigU fuel x k).
Proof.
  intros K D. apply (op_total g (fun v => v / IZR k)%R x W Len (fun r => ratio_div_int BigI r k) (fun s => surd_div_int g BigI s k)); auto.
  - intros r L. destruct (ratio_div_int_big r k (lowest_okd _ L) K) as (q & E & _ & Lq). eauto.
  - intros s v N V. destruct (surd_div_int_total g s (normal_wf _ _ N) k K) as [s' E]. exists s'. split; [auto|].
    apply surd_div_int_ok in E; [|apply (normal_okc g s N)]. destruct E as (_ & V' & N'). split; [auto|]. rewrite V', V. unfold ZtoC. apply CtoR_div. apply not_0_IZR; auto.
Qed.
Section R.
Context (q : ratio) (Lq : lowest q).
Lemma cf_add_ratio_total : finite x \/ cf_domain (cf_val x + rval q) -> exists fuel0, forall fuel, (fuel0 <= fuel)%nat -> returns (cf_add_ratio g BigU fuel x q).
Proof.
  intros D. apply (op_total g (fun v => v + rval q)%R x W Len (fun r => ratio_add BigI r q) (fun s => surd_add_ratio g BigI s q)); auto.
  - intros r L. destruct (ratio_add_big r q (lowest_okd _ L) (lowest_okd _ Lq)) as (q' & E & _ & L'). eauto.
  - intros s v N V. destruct (surd_add_ratio_total g s (normal_wf _ _ N) q (lowest_okd _ Lq)) as [s' E]. exists s'. split; [auto|].
    apply surd_add_ratio_ok in E; [|apply (normal_okc g s N)|auto]. destruct E as [V' N']. split; [auto|]. rewrite V', V. unfold qC. rewrite RtoC_plus. reflexivity.
Qed.
Lemma cf_sub_ratio_total : finite x \/ cf_domain (cf_val x - rval q) -> exists fuel0, forall fuel, (fuel0 <= fuel)%nat -> returns (cf_sub_ratio g BigU fuel x q).
Proof.
  intros D. apply (op_total g (fun v => v - rval q)%R x W Len (fun r => ratio_sub BigI r q) (fun s => surd_sub_ratio g BigI s q)); auto.
  - intros r L. destruct (ratio_sub_big r q (lowest_okd _ L) (lowest_okd _ Lq)) as (q' & E & _ & L'). eauto.
  - intros s v N V. destruct (surd_sub_ratio_total g s (normal_wf _ _ N) q (lowest_okd _ Lq)) as [s' E]. exists s'. split; [auto|].
    apply surd_sub_ratio_ok in E; [|apply (normal_okc g s N)|auto]. destruct E as [V' N']. split; [auto|]. rewrite V', V. unfold qC. rewrite RtoC_minus. reflexivity.
Qed.
Lemma cf_mul_ratio_total : finite x \/ cf_domain (cf_val x * rval q) -> exists fuel0, forall fuel, (fuel0 <= fuel)%nat -> returns (cf_mul_ratio g BigU fuel x q).
Proof.
  intros D. apply (op_total g (fun v => v * rval q)%R x W Len (fun r => ratio_mul BigI r q) (fun s => surd_mul_ratio g BigI s q)); auto.
  - intros r L. destruct (ratio_mul_big r q (lowest_okd _ L) (lowest_okd _ Lq)) as (q' & E & _ & L'). eauto.
  - intros s v N V. destruct (surd_mul_ratio_total g s (normal_wf _ _ N) q (lowest_okd _ Lq)) as [s' E]. exists s'. split; [auto|].
    apply surd_mul_ratio_ok in E; [|apply (normal_okc g s N)|auto]. destruct E as [V' N']. split; [auto|]. rewrite V', V. unfold qC. rewrite RtoC_mult. reflexivity.
Qed.
Lemma cf_div_ratio_total : rval q <> 0%R -> finite x \/ cf_domain (cf_val x / rval q) -> exists fuel0, forall fuel, (fuel0 <= fuel)%nat -> returns (cf_div_ratio g BigU fuel x q).
Proof.
  intros K D. assert (K' : numer q <> 0) by (intros E; apply K; unfold rval; rewrite E; unfold Rdiv; ring).
  apply (op_total g (fun v => v / rval q)%R x W Len (fun r => ratio_div BigI r q) (fun s => surd_div_ratio g BigI s q)); auto.
  - intros r L. destruct (ratio_div_big r q (lowest_okd _ L) (lowest_okd _ Lq) K') as (q' & E & _ & L'). eauto.
  - intros s v N V. destruct (surd_div_ratio_total g s (normal_wf _ _ N) q (lowest_okd _ Lq) K') as [s' E]. exists s'. split; [auto|].
    apply surd_div_ratio_ok in E; [|apply (normal_okc g s N)|auto]. destruct E as (_ & V' & N'). split; [auto|]. rewrite V', V. unfold qC. apply CtoR_div; auto.
Qed.
End R.
End Totals.
