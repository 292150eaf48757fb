(** * CFAll: what the operators of continued fractions return, for every result (C33, C36). *)

From Coq Require Import ZArith Znumtheory Reals Lia Lra Bool List Arith.
From Coquelicot Require Import Coquelicot.
From Verif Require Import Base Ext ModelSurd ModelBlock ModelCF ModelConv Spec SpecCF SpecTurn NumFacts Transfer SurdCore RatioFacts SurdArith
  SurdTotal SurdOrd SurdRound SurdMisc SurdSqrt CFCore CFSeq CFIter CFBasic CFSurd CFNew CFOfSurd CFWide CFRound CFArith CFHang GenSound.
Import ListNotations.
Open Scope Z_scope.

(** ** Rational surds are never converted *)
Lemma aper_fuel f1 : forall f2 first d rd p q v, aper_loop BigI f1 first d rd p q = Ok v -> (f1 <= f2)%nat -> aper_loop BigI f2 first d rd p q = Ok v.
Proof.
  induction f1 as [|f1 IH]; intros f2 first d rd p q v H L; [discriminate|]. destruct f2 as [|f2]; [lia|]. cbn [aper_loop] in *.
  destruct (if first then Ok false else is_reduced_pq BigI rd p q) as [stop| |]; [|discriminate|discriminate]. cbn [bind] in *. destruct stop; [exact H|].
  destruct (rho BigI d rd p q) as [[[a p'] q']| |]; [|discriminate|discriminate]. cbn [bind] in *.
  destruct (aper_loop BigI f1 false d rd p' q') as [w| |] eqn:E; [|discriminate|discriminate]. rewrite (IH f2 _ _ _ _ _ _ E) by lia. exact H.
Qed.
Lemma rat_loop_never t fuel h P Q v : h <> 0 -> aper_loop t fuel true 0 0 (h * P * Q) (h * Q * Q) <> Ok v.
Proof.
  intros Hh H. apply rle_aper_loop in H. destruct (rat_loop (Z.abs_nat Q) true h P Q Hh (le_n _)) as (n0 & K).
  pose proof (aper_fuel fuel (fuel + n0) _ _ _ _ _ _ H ltac:(lia)) as E. rewrite K in E by lia. discriminate.
Qed.
Lemma quad_rat_never g t fuel a c neg z : Z.gcd a c = 1 -> 0 < c -> quadsurd_to_contfrac g t fuel a 0 c 0 neg <> Ok z.
Proof.
  intros G Hc H. unfold quadsurd_to_contfrac in H. apply bind_Ok in H. destruct H as (u1 & _ & H). apply bind_Ok in H. destruct H as (u2 & _ & H).
  apply bind_Ok in H. destruct H as (d & Ed & H). assert (d = 0). { assert (R : rle (lift2 (mulT t) (lift2 (mulT t) (Ok 0) (Ok 0)) (Ok 0)) (lift2 (mulT BigI) (lift2 (mulT BigI) (Ok 0) (Ok 0)) (Ok 0))) by mono. apply R in Ed. vm_compute in Ed. congruence. }
  subst d. clear Ed. change (0 <? 0) with false in H. cbn [bind] in H. apply bind_Ok in H. destruct H as (m & Em & H).
  assert (m = Z.rem (0 - a * a) c).
  { assert (R : rle (lift2 (remT t) (lift2 (subT t) (Ok 0) (lift2 (mulT t) (Ok a) (Ok a))) (Ok c)) (lift2 (remT BigI) (lift2 (subT BigI) (Ok 0) (lift2 (mulT BigI) (Ok a) (Ok a))) (Ok c))) by mono.
    apply R in Em. clear -Em Hc. revert Em. bigi. rewrite remB by lia. intros Em. congruence. }
  subst m. clear Em. destruct (Z.eqb_spec (Z.rem (0 - a * a) c) 0) as [R|R]; cbn [negb] in H.
  - cbn [bind] in H. change (sqrtT 0) with (@Ok Z 0) in H. cbn [bind] in H. apply rem_div in R; [|lia]. assert (c = 1).
    { destruct R as [k Hk]. assert (D1 : (c | a * a)) by (exists (- k); lia). assert (D2 : (c | a)) by (apply (Z.gauss _ a); [auto|rewrite Z.gcd_comm; auto]).
      assert (D3 : (c | 1)) by (rewrite <- G; apply Z.gcd_greatest; [auto|apply Z.divide_refl]). apply Z.divide_1_r_nonneg in D3; lia. }
    subst c. apply bind_Ok in H. destruct H as (v & E & _). apply (rat_loop_never t fuel 1 a 1 v); [lia|]. replace (1 * a * 1) with a by ring. exact E.
  - apply bind_Ok in H. destruct H as ([[d' p'] q'] & E & H).
    assert (E' : d' = 0 /\ p' = a * c /\ q' = c * c).
    { apply bind_Ok in E. destruct E as (d1 & E1 & E). apply bind_Ok in E. destruct E as (p1 & E2 & E). apply bind_Ok in E. destruct E as (q1 & E3 & E). inversion E; subst d1 p1 q1.
      assert (R1 : rle (lift2 (mulT t) (lift2 (mulT t) (Ok 0) (Ok c)) (Ok c)) (lift2 (mulT BigI) (lift2 (mulT BigI) (Ok 0) (Ok c)) (Ok c))) by mono. apply R1 in E1.
      assert (R2 : rle (lift2 (mulT t) (Ok a) (Ok c)) (lift2 (mulT BigI) (Ok a) (Ok c))) by mono. apply R2 in E2.
      assert (R3 : rle (lift2 (mulT t) (Ok c) (Ok c)) (lift2 (mulT BigI) (Ok c) (Ok c))) by mono. apply R3 in E3.
      unfold lift2, mulT, chk, fits in E1, E2, E3. cbn [bind] in *. inversion E1; inversion E2; inversion E3. repeat split; ring. }
    destruct E' as (-> & -> & ->). clear E. change (sqrtT 0) with (@Ok Z 0) in H. cbn [bind] in H. apply bind_Ok in H. destruct H as (v & E & _).
    apply (rat_loop_never t fuel 1 a c v); [lia|]. rewrite !Z.mul_1_l. exact E.
Qed.

Lemma surd_rat_never g t fuel s z : normal g s -> c1 (coeffs s) = 0 -> surd_to_cf g t fuel s <> Ok (Some z).
Proof.
  intros N B H. pose proof N as N'. destruct s as [[a b c] r]. unfold normal, parts in N'. cbn [coeffs c0 c1 c2 discr] in *. subst b.
  destruct N' as (Hc & G & [[_ Er]|[K _]] & _); [|contradiction]. subst r. rewrite Z.gcd_0_r in G.
  assert (G1 : Z.gcd a c = 1) by (rewrite Z.gcd_abs_l in G; auto). assert (G2 : Z.gcd (- a) c = 1) by (rewrite Z.gcd_opp_l; auto).
  unfold surd_to_cf in H. cbn [discr] in H. change (0 <? 0) with false in H. cbv iota in H. apply bind_Ok in H. destruct H as (ng & _ & H). destruct ng.
  - apply bind_Ok in H. destruct H as (a' & Ea & H). apply bind_Ok in H. destruct H as (b' & Eb & H). apply bind_Ok in H. destruct H as (x & E & _).
    assert (Ra : rle (lift1 (negT t) (Ok a)) (lift1 (negT BigI) (Ok a))) by mono. apply Ra in Ea. assert (Rb : rle (lift1 (negT t) (Ok 0)) (lift1 (negT BigI) (Ok 0))) by mono. apply Rb in Eb.
    unfold lift1, negT, chk, fits in Ea, Eb. cbn [bind] in Ea, Eb. inversion Ea; subst a'. inversion Eb; subst b'. exact (quad_rat_never g t fuel (- a) c true x G2 Hc E).
  - apply bind_Ok in H. destruct H as (x & E & _). exact (quad_rat_never g t fuel a c false x G1 Hc E).
Qed.
Lemma surd_to_cf_turned g t fuel s x z : fits t 1 = true -> normal g s -> sval s = RtoC x -> surd_to_cf g t fuel s = Ok (Some z) -> canonical z /\ ~ finite z /\ turned x (cf_val z).
Proof.
  intros F N E H. assert (I : ~ rational_real x).
  { intros Q. apply rational_real_C in Q. rewrite <- E in Q. apply (surd_rat_never g t fuel s z N); [|exact H]. apply (normal_is_rational g s N) in Q. unfold is_rational in Q. apply orb_prop in Q. destruct Q as [Q|Q]; apply Z.eqb_eq in Q; [exact Q|]. destruct N as (_ & _ & [[Q' _]|[_ Q']] & _); [exact Q'|]. exfalso. apply Q'. rewrite Q. exists 0. reflexivity. }
  destruct (surd_conj_value g s x N E I) as (xc & C & Ec & I'). destruct (surd_to_cf_char g s x xc N E Ec I' t fuel z F H) as (C1 & C2 & V1 & V2 & V3). split; [auto|]. split; [auto|].
  assert (B : between0 x xc \/ ~ between0 x xc).
  { unfold between0. destruct (Rlt_dec 0 x), (Rlt_dec x xc), (Rlt_dec xc x), (Rlt_dec x 0); tauto. }
  destruct B as [B|B].
  2:{ left. apply V3; [tauto|]. intros (K & _). apply B. right. exact K. }
  destruct (Znumtheory.Zdivide_dec (c2 (coeffs s)) (c0 (coeffs s) * c0 (coeffs s) - c1 (coeffs s) * c1 (coeffs s) * discr s)) as [D|D].
  2:{ right. exists xc. split; [auto|]. split; [auto|]. left. apply V1; auto. }
  assert (SD : sign_dropped s x xc \/ ~ sign_dropped s x xc).
  { unfold sign_dropped. destruct (Rlt_dec xc x), (Rlt_dec x 0), (Z.eq_dec (c0 (coeffs s) + c2 (coeffs s) + Z.sqrt (c1 (coeffs s) * c1 (coeffs s) * discr s)) 0); tauto. }
  destruct SD as [SD|SD]; [|left; apply V3; auto; intros (_ & K); apply K; exact D].
  right. exists xc. split; [auto|]. split; [auto|]. right. split; [destruct SD as ((_ & K) & _); exact K|apply V2; exact SD].
Qed.

(** ** The conversion back *)
Lemma back_all g u fuel s x z : fits (sty u) 1 = true -> normal g s -> sval s = RtoC x -> back g u fuel s = Ok z -> canonical z /\ turned x (cf_val z).
Proof.
  intros F N E H. unfold back in H. destruct (surd_to_cf g (sty u) fuel s) as [[w|]| |] eqn:Ew; try discriminate. cbn [bind unwrap] in H. inversion H; subst w.
  destruct (surd_to_cf_turned g (sty u) fuel s x z F N E Ew) as (A & _ & B). auto.
Qed.

(** [f] does on ratios, and [h] on surds, the operation [op] with a fixed real right operand *)
Section Op.
Context (g : cfg) (u : ity) (op : R -> R) (F1 : fits (sty u) 1 = true).
Context (x : cf) (W : wfcf x) (Sz : surd_sized u x).

Lemma op_all (f : ratio -> res ratio) (h : surd -> res surd) fuel z :
  (forall r q, lowest r -> f r = Ok q -> lowest q /\ rval q = op (rval r)) ->
  (forall s s' v, normal g s -> sval s = RtoC v -> h s = Ok s' -> normal g s' /\ sval s' = RtoC (op v)) ->
    (if cf_is_rational x then
    let! r := cf_to_rational u x in let! r := f (approx_value r) in cf_of_ratio (sty u) r
   else let! s := surd_of_cf g u x in let! s := h s in back g u fuel s) = Ok z ->
  canonical z /\ turned (op (cf_val x)) (cf_val z).
Proof.
  intros Hf Hh H. destruct (cf_is_rational x) eqn:R.
  - apply rational_cond in R. destruct (cf_to_rational u x) as [a| |] eqn:Ea; [|discriminate|discriminate]. cbn [bind] in H.
    destruct (to_rational_ok u x a W Sz R Ea) as [L V]. destruct (f (approx_value a)) as [q| |] eqn:Eq; [|discriminate|discriminate]. cbn [bind] in H.
    destruct (Hf _ _ L Eq) as [Lq Vq]. destruct (cf_of_ratio_ok _ _ _ Lq H) as (C & _ & Vz). split; [auto|]. rewrite Vz, Vq, V. left. reflexivity.
  - apply rational_cond_f in R.
    destruct (surd_of_cf g u x) as [s| |] eqn:Es; [|discriminate|discriminate]. cbn [bind] in H.
    destruct (surd_of_cf_ok g u x s W (surd_sized_fit u x W Sz) Es) as [N V].
    destruct (h s) as [s'| |] eqn:Eh; [|discriminate|discriminate]. cbn [bind] in H. destruct (Hh _ _ _ N V Eh) as [N' V'].
    exact (back_all g u fuel s' _ z F1 N' V' H).
Qed.
End Op.

Section Ops.
Context (g : cfg) (u : ity) (F1 : fits (sty u) 1 = true) (x : cf) (W : wfcf x) (Sz : surd_sized u x).

Lemma cf_mul_int_all fuel k z : cf_mul_int g u fuel x k = Ok z ->
  canonical z /\ turned (cf_val x * IZR k)%R (cf_val z).
Proof.
  intros H. apply (op_all g u (fun v => v * IZR k)%R F1 x W Sz (fun r => ratio_mul_int (sty u) r k) (fun s => surd_mul_int g (sty u) s k) fuel z); auto.
  - intros r q L E. apply ratio_mul_int_ok in E; [tauto|auto].
  - intros s s' v N V E. apply surd_mul_int_ok in E. destruct E as [V' N']. split; [auto|]. rewrite V', V. unfold ZtoC. rewrite RtoC_mult. reflexivity.
Qed.

Lemma cf_div_int_all fuel k z : cf_div_int g u fuel x k = Ok z ->
  k <> 0 /\ canonical z /\ turned (cf_val x / IZR k)%R (cf_val z).
Proof.
  intros H.
  assert (K : k <> 0).
  { unfold cf_div_int in H. destruct (cf_is_rational x) eqn:R.
    - apply rational_cond in R. destruct (cf_to_rational u x) as [a| |] eqn:Ea; [|discriminate|discriminate]. cbn [bind] in H.
      destruct (to_rational_ok u x a W Sz R Ea) as [L _]. destruct (ratio_div_int (sty u) (approx_value a) k) as [q| |] eqn:Eq; [|discriminate|discriminate].
      apply rle_ratio_div_int in Eq. apply (ratio_div_int_nz _ _ _ (lowest_okd _ L) Eq).
    - destruct (surd_of_cf g u x) as [s| |] eqn:Es; [|discriminate|discriminate]. cbn [bind] in H.
      destruct (surd_of_cf_ok g u x s W (surd_sized_fit u x W Sz) Es) as [N _].
      destruct (surd_div_int g (sty u) s k) as [s'| |] eqn:Eh; [|discriminate|discriminate]. apply surd_div_int_ok in Eh; [tauto|apply (normal_okc g s N)]. }
  split; [auto|]. assert (Kr : IZR k <> 0%R) by (apply not_0_IZR; auto).
  apply (op_all g u (fun v => v / IZR k)%R F1 x W Sz (fun r => ratio_div_int (sty u) r k) (fun s => surd_div_int g (sty u) s k) fuel z); auto.
  - intros r q L E. apply rle_ratio_div_int in E. destruct (ratio_div_int_big r k (lowest_okd _ L) K) as (q' & E' & V & Lq). rewrite E' in E. inversion E; subst. auto.
  - intros s s' v N V E. apply surd_div_int_ok in E; [|apply (normal_okc g s N)]. destruct E as (_ & V' & N'). split; [auto|]. rewrite V', V. unfold ZtoC. apply CtoR_div. auto.
Qed.

Section Ratio.
Context (q : ratio) (Lq : lowest q).
Lemma cf_add_ratio_all fuel z : cf_add_ratio g u fuel x q = Ok z ->
  canonical z /\ turned (cf_val x + rval q)%R (cf_val z).
Proof.
  intros H. apply (op_all g u (fun v => v + rval q)%R F1 x W Sz (fun r => ratio_add (sty u) r q) (fun s => surd_add_ratio g (sty u) s q) fuel z); auto.
  - intros r q' L E. apply ratio_add_ok in E; [tauto|auto|auto].
  - intros s s' v N V E. apply surd_add_ratio_ok in E; [|apply (normal_okc g s N)|auto]. destruct E as [V' N']. split; [auto|]. rewrite V', V. unfold qC. rewrite RtoC_plus. reflexivity.
Qed.
Lemma cf_sub_ratio_all fuel z : cf_sub_ratio g u fuel x q = Ok z ->
  canonical z /\ turned (cf_val x - rval q)%R (cf_val z).
Proof.
  intros H. apply (op_all g u (fun v => v - rval q)%R F1 x W Sz (fun r => ratio_sub (sty u) r q) (fun s => surd_sub_ratio g (sty u) s q) fuel z); auto.
  - intros r q' L E. apply ratio_sub_ok in E; [tauto|auto|auto].
  - intros s s' v N V E. apply surd_sub_ratio_ok in E; [|apply (normal_okc g s N)|auto]. destruct E as [V' N']. split; [auto|]. rewrite V', V. unfold qC. rewrite RtoC_minus. reflexivity.
Qed.
Lemma cf_mul_ratio_all fuel z : cf_mul_ratio g u fuel x q = Ok z ->
  canonical z /\ turned (cf_val x * rval q)%R (cf_val z).
Proof.
  intros H. apply (op_all g u (fun v => v * rval q)%R F1 x W Sz (fun r => ratio_mul (sty u) r q) (fun s => surd_mul_ratio g (sty u) s q) fuel z); auto.
  - intros r q' L E. apply ratio_mul_ok in E; [tauto|auto|auto].
  - intros s s' v N V E. apply surd_mul_ratio_ok in E; [|apply (normal_okc g s N)|auto]. destruct E as [V' N']. split; [auto|]. rewrite V', V. unfold qC. rewrite RtoC_mult. reflexivity.
Qed.
Lemma cf_div_ratio_all fuel z : cf_div_ratio g u fuel x q = Ok z ->
  rval q <> 0%R /\ canonical z /\ turned (cf_val x / rval q)%R (cf_val z).
Proof.
  intros H.
  assert (K : numer q <> 0).
  { unfold cf_div_ratio, cf_op_ratio in H. destruct (cf_is_rational x) eqn:R.
    - apply rational_cond in R. destruct (cf_to_rational u x) as [a| |] eqn:Ea; [|discriminate|discriminate]. cbn [bind] in H.
      destruct (to_rational_ok u x a W Sz R Ea) as [L _]. destruct (ratio_div (sty u) (approx_value a) q) as [q'| |] eqn:Eq; [|discriminate|discriminate].
      apply ratio_div_ok in Eq; [tauto|auto|auto].
    - apply rational_cond_f in R. destruct (surd_of_cf g u x) as [s| |] eqn:Es; [|discriminate|discriminate]. cbn [bind] in H.
      destruct (surd_of_cf_ok g u x s W (surd_sized_fit u x W Sz) Es) as [N _].
      destruct (surd_div_ratio g (sty u) s q) as [s'| |] eqn:Eh; [|discriminate|discriminate]. apply surd_div_ratio_ok in Eh; [tauto|apply (normal_okc g s N)|auto]. }
  pose proof (rval_neq0 q Lq K) as Kr. split; [auto|].
  apply (op_all g u (fun v => v / rval q)%R F1 x W Sz (fun r => ratio_div (sty u) r q) (fun s => surd_div_ratio g (sty u) s q) fuel z); auto.
  - intros r q' L E. apply ratio_div_ok in E; [tauto|auto|auto].
  - intros s s' v N V E. apply surd_div_ratio_ok in E; [|apply (normal_okc g s N)|auto]. destruct E as (_ & V' & N'). split; [auto|]. rewrite V', V. unfold qC. apply CtoR_div. auto.
Qed.
End Ratio.

Section Two.
Context (y : cf) (Wy : wfcf y) (Szy : surd_sized u y).
Lemma two_all (h : surd -> surd -> res surd) (op : R -> R -> R) fuel z :
  (forall s1 s2 s', normal g s1 -> normal g s2 -> sval s1 = RtoC (cf_val x) -> sval s2 = RtoC (cf_val y) -> h s1 s2 = Ok s' ->
     normal g s' /\ sval s' = RtoC (op (cf_val x) (cf_val y))) ->
  (let! s := surd_of_cf g u x in let! r := surd_of_cf g u y in let! s := h s r in back g u fuel s) = Ok z ->
  canonical z /\ turned (op (cf_val x) (cf_val y)) (cf_val z).
Proof.
  intros Hh H. destruct (surd_of_cf g u x) as [s1| |] eqn:E1; [|discriminate|discriminate]. cbn [bind] in H.
  destruct (surd_of_cf g u y) as [s2| |] eqn:E2; [|discriminate|discriminate]. cbn [bind] in H.
  destruct (surd_of_cf_ok g u x s1 W (surd_sized_fit u x W Sz) E1) as [N1 V1].
  destruct (surd_of_cf_ok g u y s2 Wy (surd_sized_fit u y Wy Szy) E2) as [N2 V2].
  destruct (h s1 s2) as [s'| |] eqn:Eh; [|discriminate|discriminate]. cbn [bind] in H.
  destruct (Hh _ _ _ N1 N2 V1 V2 Eh) as [N' V']. exact (back_all g u fuel s' _ z F1 N' V' H).
Qed.
Lemma cf_add_all fuel z : cf_add g u fuel x y = Ok z ->
  canonical z /\ turned (cf_val x + cf_val y)%R (cf_val z).
Proof.
  intros H. unfold cf_add, cf_op_cf in H. destruct (cf_is_rational y) eqn:R.
  - apply rational_cond in R. destruct (cf_to_rational u y) as [a| |] eqn:Ea; [|discriminate|discriminate]. cbn [bind] in H.
    destruct (to_rational_ok u y a Wy Szy R Ea) as [L V]. rewrite <- V. apply (cf_add_ratio_all _ L fuel z). exact H.
  - apply rational_cond_f in R.
    apply (two_all (surd_add g (sty u)) Rplus fuel z); auto. intros s1 s2 s' N1 N2 V1 V2 E.
    apply surd_add_ok in E; [|apply normal_wf; auto|apply normal_wf; auto]. destruct E as [V' N']. split; [auto|]. rewrite V', V1, V2, RtoC_plus. reflexivity.
Qed.
Lemma cf_sub_all fuel z : cf_sub g u fuel x y = Ok z ->
  canonical z /\ turned (cf_val x - cf_val y)%R (cf_val z).
Proof.
  intros H. unfold cf_sub, cf_op_cf in H. destruct (cf_is_rational y) eqn:R.
  - apply rational_cond in R. destruct (cf_to_rational u y) as [a| |] eqn:Ea; [|discriminate|discriminate]. cbn [bind] in H.
    destruct (to_rational_ok u y a Wy Szy R Ea) as [L V]. rewrite <- V. apply (cf_sub_ratio_all _ L fuel z). exact H.
  - apply rational_cond_f in R.
    apply (two_all (surd_sub g (sty u)) Rminus fuel z); auto. intros s1 s2 s' N1 N2 V1 V2 E.
    apply surd_sub_ok in E; [|apply normal_wf; auto|apply normal_wf; auto]. destruct E as [V' N']. split; [auto|]. rewrite V', V1, V2, RtoC_minus. reflexivity.
Qed.
Lemma cf_mul_all fuel z : cf_mul g u fuel x y = Ok z ->
  canonical z /\ turned (cf_val x * cf_val y)%R (cf_val z).
Proof.
  intros H. unfold cf_mul, cf_op_cf in H. destruct (cf_is_rational y) eqn:R.
  - apply rational_cond in R. destruct (cf_to_rational u y) as [a| |] eqn:Ea; [|discriminate|discriminate]. cbn [bind] in H.
    destruct (to_rational_ok u y a Wy Szy R Ea) as [L V]. rewrite <- V. apply (cf_mul_ratio_all _ L fuel z). exact H.
  - apply rational_cond_f in R.
    apply (two_all (surd_mul g (sty u)) Rmult fuel z); auto. intros s1 s2 s' N1 N2 V1 V2 E.
    apply surd_mul_ok in E; [|apply normal_wf; auto|apply normal_wf; auto]. destruct E as [N' V']. split; [auto|].
    assert (E : sval s' = (sval s1 * sval s2)%C).
    { rewrite V'. destruct (is_rational s1 || is_rational s2) eqn:Er; [reflexivity|]. rewrite (real_not_imag _ _ _ V1 (normal_okc _ _ N1) Er). cbn [sgnC]. ring. }
    rewrite E, V1, V2, RtoC_mult. reflexivity.
Qed.
Lemma cf_div_all fuel z : cf_div g u fuel x y = Ok z ->
  cf_val y <> 0%R /\ canonical z /\ turned (cf_val x / cf_val y)%R (cf_val z).
Proof.
  intros H. unfold cf_div, cf_op_cf in H. destruct (cf_is_rational y) eqn:R.
  - apply rational_cond in R. destruct (cf_to_rational u y) as [a| |] eqn:Ea; [|discriminate|discriminate]. cbn [bind] in H.
    destruct (to_rational_ok u y a Wy Szy R Ea) as [L V]. rewrite <- V. apply (cf_div_ratio_all _ L fuel z). exact H.
  - apply rational_cond_f in R.
    assert (Y : cf_val y <> 0%R).
    { rewrite (cf_val_inf y R). assert (lim (cseq y) <> IZR 0 / IZR 1)%R by (apply lim_irrational; [apply wfcf_cpos; auto|lia]).
      apply Rmult_integral_contrapositive_currified; [apply not_0_IZR; unfold sgnb; destruct (negative y); lia|]. intros E. apply H0. rewrite E. lra. }
    split; [auto|].
    apply (two_all (surd_div g (sty u)) Rdiv fuel z); auto. intros s1 s2 s' N1 N2 V1 V2 E.
    apply surd_div_ok in E; [|apply normal_wf; auto|apply normal_wf; auto]. destruct E as (N' & _ & V'). split; [auto|].
    assert (E : sval s' = (sval s1 / sval s2)%C).
    { rewrite V'. destruct (is_rational s1 || is_rational s2) eqn:Er; [reflexivity|]. rewrite (real_not_imag _ _ _ V1 (normal_okc _ _ N1) Er). cbn [sgnC]. ring. }
    rewrite E, V1, V2, CtoR_div; auto.
Qed.
End Two.
End Ops.


(** ** How the operators end over arbitrary-precision integers *)
Lemma settles_ext v m m' : (forall fuel, m' fuel = m fuel) -> settles v m -> settles v m'.
Proof.
  intros E [A B]. split.
  - intros I. destruct (A I) as [(n0 & K)|K]; [left; exists n0|right]; intros fuel; rewrite E; auto.
  - intros I. destruct (B I) as (n0 & K). exists n0. intros fuel. rewrite E. auto.
Qed.
Lemma back_settles g s v : normal g s -> sval s = RtoC v -> settles v (fun fuel => back g BigU fuel s).
Proof.
  intros N V. unfold back. change (sty BigU) with BigI. split.
  - intros I. assert (I' : ~ rational_num (sval s)) by (rewrite V; intros Q; apply I; apply rational_real_C; auto).
    destruct (surd_conj_value g s v N V I) as (vc & _ & Vc & _). destruct (surd_to_cf_dichotomy g s v vc N V Vc I') as [(n0 & K)|(_ & K)].
    + left. exists n0. intros fuel Hf. destruct (K fuel Hf) as [z Ez]. rewrite Ez. eexists. reflexivity.
    + right. intros fuel. rewrite K. reflexivity.
  - intros Q. apply rational_real_C in Q. rewrite <- V in Q. apply (normal_is_rational g s N) in Q. unfold is_rational in Q.
    assert (B : c1 (coeffs s) = 0).
    { apply orb_prop in Q. destruct Q as [Q|Q]; apply Z.eqb_eq in Q; [exact Q|]. destruct N as (_ & _ & [[Q' _]|[_ Q']] & _); [exact Q'|]. exfalso. apply Q'. rewrite Q. exists 0. reflexivity. }
    destruct (surd_rat g s N B) as [P1 P2]. destruct (dbg g).
    + exists 0%nat. intros fuel _. left. rewrite P1 by auto. reflexivity.
    + destruct (P2 eq_refl) as [n0 K]. exists n0. intros fuel Hf. right. rewrite K by auto. reflexivity.
Qed.
Section Total.
Context (g : cfg) (op : R -> R) (x : cf) (W : wfcf x) (Len : returns (surd_of_cf g BigU x)).

Lemma op_settles (f : ratio -> res ratio) (h : surd -> res surd) :
  (forall r, lowest r -> exists q, f r = Ok q /\ lowest q) ->
  (forall s v, normal g s -> sval s = RtoC v -> exists s', h s = Ok s' /\ normal g s' /\ sval s' = RtoC (op v)) ->
  ~ finite x -> settles (op (cf_val x)) (fun fuel =>
  (if cf_is_rational x then
    let! r := cf_to_rational BigU x in let! r := f (approx_value r) in cf_of_ratio (sty BigU) r
   else let! s := surd_of_cf g BigU x in let! s := h s in back g BigU fuel s)).
Proof.
  intros Hf Hh D. assert (R : cf_is_rational x = false) by (destruct (cf_is_rational x) eqn:R; auto; apply rational_cond in R; contradiction). rewrite R.
  destruct Len as [s Es]. destruct (surd_of_cf_ok g BigU x s W (surd_fit_big x W) Es) as [N V].
  destruct (Hh s _ N V) as (s' & Eh & N' & V'). apply (settles_ext _ (fun fuel => back g BigU fuel s')); [|apply back_settles; auto].
  intros fuel. rewrite Es. cbn [bind]. rewrite Eh. reflexivity.
Qed.
End Total.

Section Totals.
Context (g : cfg) (x : cf) (W : wfcf x) (Len : returns (surd_of_cf g BigU x)).
Lemma cf_mul_int_settles k : ~ finite x -> settles (cf_val x * IZR k) (fun fuel => (cf_mul_int g BigU fuel x k)).
Proof.
  intros D. apply (op_settles g (fun v => v * IZR k)%R x W Len (fun r => ratio_mul_int BigI r k) (fun s => surd_mul_int g BigI s k)); auto.
  - intros r L. destruct (ratio_mul_int_big r k (lowest_okd _ L)) as (q & E & _ & Lq). eauto.
  - intros s v N V. destruct (surd_mul_int_total g s (normal_wf _ _ N) k) as [s' E]. exists s'. split; [auto|].
    apply surd_mul_int_ok in E. destruct E as [V' N']. split; [auto|]. rewrite V', V. unfold ZtoC. rewrite RtoC_mult. reflexivity.
Qed.
Lemma cf_div_int_settles k : k <> 0 -> ~ finite x -> settles (cf_val x / IZR k) (fun fuel => (cf_div_int g BigU fuel x k)).
Proof.
  intros K D. apply (op_settles g (fun v => v / IZR k)%R x W Len (fun r => ratio_div_int BigI r k) (fun s => surd_div_int g BigI s k)); auto.
  - intros r L. destruct (ratio_div_int_big r k (lowest_okd _ L) K) as (q & E & _ & Lq). eauto.
  - intros s v N V. destruct (surd_div_int_total g s (normal_wf _ _ N) k K) as [s' E]. exists s'. split; [auto|].
    apply surd_div_int_ok in E; [|apply (normal_okc g s N)]. destruct E as (_ & V' & N'). split; [auto|]. rewrite V', V. unfold ZtoC. apply CtoR_div. apply not_0_IZR; auto.
Qed.
Section R.
Context (q : ratio) (Lq : lowest q).
Lemma cf_add_ratio_settles : ~ finite x -> settles (cf_val x + rval q) (fun fuel => (cf_add_ratio g BigU fuel x q)).
Proof.
  intros D. apply (op_settles g (fun v => v + rval q)%R x W Len (fun r => ratio_add BigI r q) (fun s => surd_add_ratio g BigI s q)); auto.
  - intros r L. destruct (ratio_add_big r q (lowest_okd _ L) (lowest_okd _ Lq)) as (q' & E & _ & L'). eauto.
  - intros s v N V. destruct (surd_add_ratio_total g s (normal_wf _ _ N) q (lowest_okd _ Lq)) as [s' E]. exists s'. split; [auto|].
    apply surd_add_ratio_ok in E; [|apply (normal_okc g s N)|auto]. destruct E as [V' N']. split; [auto|]. rewrite V', V. unfold qC. rewrite RtoC_plus. reflexivity.
Qed.
Lemma cf_sub_ratio_settles : ~ finite x -> settles (cf_val x - rval q) (fun fuel => (cf_sub_ratio g BigU fuel x q)).
Proof.
  intros D. apply (op_settles g (fun v => v - rval q)%R x W Len (fun r => ratio_sub BigI r q) (fun s => surd_sub_ratio g BigI s q)); auto.
  - intros r L. destruct (ratio_sub_big r q (lowest_okd _ L) (lowest_okd _ Lq)) as (q' & E & _ & L'). eauto.
  - intros s v N V. destruct (surd_sub_ratio_total g s (normal_wf _ _ N) q (lowest_okd _ Lq)) as [s' E]. exists s'. split; [auto|].
    apply surd_sub_ratio_ok in E; [|apply (normal_okc g s N)|auto]. destruct E as [V' N']. split; [auto|]. rewrite V', V. unfold qC. rewrite RtoC_minus. reflexivity.
Qed.
Lemma cf_mul_ratio_settles : ~ finite x -> settles (cf_val x * rval q) (fun fuel => (cf_mul_ratio g BigU fuel x q)).
Proof.
  intros D. apply (op_settles g (fun v => v * rval q)%R x W Len (fun r => ratio_mul BigI r q) (fun s => surd_mul_ratio g BigI s q)); auto.
  - intros r L. destruct (ratio_mul_big r q (lowest_okd _ L) (lowest_okd _ Lq)) as (q' & E & _ & L'). eauto.
  - intros s v N V. destruct (surd_mul_ratio_total g s (normal_wf _ _ N) q (lowest_okd _ Lq)) as [s' E]. exists s'. split; [auto|].
    apply surd_mul_ratio_ok in E; [|apply (normal_okc g s N)|auto]. destruct E as [V' N']. split; [auto|]. rewrite V', V. unfold qC. rewrite RtoC_mult. reflexivity.
Qed.
Lemma cf_div_ratio_settles : rval q <> 0%R -> ~ finite x -> settles (cf_val x / rval q) (fun fuel => (cf_div_ratio g BigU fuel x q)).
Proof.
  intros K D. assert (K' : numer q <> 0) by (intros E; apply K; unfold rval; rewrite E; unfold Rdiv; ring).
  apply (op_settles g (fun v => v / rval q)%R x W Len (fun r => ratio_div BigI r q) (fun s => surd_div_ratio g BigI s q)); auto.
  - intros r L. destruct (ratio_div_big r q (lowest_okd _ L) (lowest_okd _ Lq) K') as (q' & E & _ & L'). eauto.
  - intros s v N V. destruct (surd_div_ratio_total g s (normal_wf _ _ N) q (lowest_okd _ Lq) K') as [s' E]. exists s'. split; [auto|].
    apply surd_div_ratio_ok in E; [|apply (normal_okc g s N)|auto]. destruct E as (_ & V' & N'). split; [auto|]. rewrite V', V. unfold qC. apply CtoR_div; auto.
Qed.
End R.
End Totals.
