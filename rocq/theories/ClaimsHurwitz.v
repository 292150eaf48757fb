(** * ClaimsHurwitz: proofs of the property theorems in PropsHurwitz.v. *)

From Coq Require Import ZArith Reals Lia Lra Bool List Arith.
From Coquelicot Require Import Coquelicot.
From Verif Require Import Base Ext ModelSurd ModelBlock ModelCF ModelConv Spec SpecCF NumFacts SurdCore SurdDecide CFCore CFSeq CFArith CFStep CFHurwitz.
Import ListNotations.
Open Scope Z_scope.

Lemma L_C100_bounds : forall x n r s, wfcf x -> ~ finite x -> nth_item (conv_next BigU) n (cf_convergents x) = Ok (Some r) ->
  nth_item (conv_next BigU) (S n) (cf_convergents x) = Ok (Some s) ->
  (/ (IZR (denom r) * (IZR (denom r) + IZR (denom s))) < Rabs (cf_val x - rval r) < / (IZR (denom r) * IZR (denom s)))%R /\
  (Rabs (cf_val x - rval r) + Rabs (cf_val x - rval s) = / (IZR (denom r) * IZR (denom s)))%R.
Proof.
  intros x n r s W F Hr Hs. destruct (conv_er x n r W F Hr) as [Dr ->]. destruct (conv_er x (S n) s W F Hs) as [Ds ->]. rewrite Dr, Ds. pose proof (wfcf_cpos x W) as C.
  split; [split; [apply er_lower; auto|apply er_upper; auto]|apply er_sum; auto].
Qed.

Lemma L_C100_coefficient : forall x n r a, wfcf x -> ~ finite x -> nth_item (conv_next BigU) n (cf_convergents x) = Ok (Some r) -> coeff_at x (S n) = Some a ->
  (/ (IZR (a + 2) * (IZR (denom r) * IZR (denom r))) < Rabs (cf_val x - rval r) < / (IZR a * (IZR (denom r) * IZR (denom r))))%R.
Proof.
  intros x n r a W F Hr Ha. destruct (conv_er x n r W F Hr) as [Dr ->]. rewrite Dr, plus_IZR. pose proof (er_coeff _ (wfcf_cpos x W) n) as H. assert (E : cseq x (S n) = a) by (unfold cseq; rewrite Ha; reflexivity). rewrite E in H. exact H.
Qed.

Lemma L_C100_two : forall x n r s, wfcf x -> ~ finite x -> nth_item (conv_next BigU) n (cf_convergents x) = Ok (Some r) ->
  nth_item (conv_next BigU) (S n) (cf_convergents x) = Ok (Some s) ->
  exists u, (u = r \/ u = s) /\ (Rabs (cf_val x - rval u) < / (2 * (IZR (denom u) * IZR (denom u))))%R.
Proof.
  intros x n r s W F Hr Hs. destruct (conv_er x n r W F Hr) as [Dr Er]. destruct (conv_er x (S n) s W F Hs) as [Ds Es].
  destruct (vahlen _ (wfcf_cpos x W) n) as [H|H]; [exists r|exists s]; (split; [auto|]); [rewrite Er, Dr|rewrite Es, Ds]; exact H.
Qed.

Lemma L_C100_three : forall x n r s w, wfcf x -> ~ finite x -> nth_item (conv_next BigU) n (cf_convergents x) = Ok (Some r) ->
  nth_item (conv_next BigU) (S n) (cf_convergents x) = Ok (Some s) -> nth_item (conv_next BigU) (S (S n)) (cf_convergents x) = Ok (Some w) ->
  exists u, (u = r \/ u = s \/ u = w) /\ (Rabs (cf_val x - rval u) < / (sqrt 5 * (IZR (denom u) * IZR (denom u))))%R.
Proof.
  intros x n r s w W F Hr Hs Hw. destruct (conv_er x n r W F Hr) as [Dr Er]. destruct (conv_er x (S n) s W F Hs) as [Ds Es]. destruct (conv_er x (S (S n)) w W F Hw) as [Dw Ew].
  destruct (hurwitz _ n (wfcf_cpos x W)) as [H|[H|H]]; [exists r|exists s|exists w]; (split; [auto|]); [rewrite Er, Dr|rewrite Es, Ds|rewrite Ew, Dw]; exact H.
Qed.

Lemma L_C100_golden : forall c, (sqrt 5 < c)%R -> exists N, forall p q, 0 < q -> N <= q -> (/ (c * (IZR q * IZR q)) < Rabs ((1 + sqrt 5) / 2 - IZR p / IZR q))%R.
Proof. exact golden_far. Qed.

Lemma L_C100_far : forall x A p q, wfcf x -> ~ finite x -> (forall a, In a (tl (a_coeffs x) ++ p_coeffs x) -> a <= A) -> 0 < q ->
  (/ (IZR (A + 2) * (IZR q * IZR q)) < Rabs (cf_val x - IZR p / IZR q))%R.
Proof. intros x A p q W F H Hq. apply far; auto. intros n a Hn E. apply H. eapply coeff_in; eauto. Qed.

Lemma L_C100_surd : forall g t fuel s v x A p q, fits t 1 = true -> normal g s -> sval s = RtoC v -> cf_domain v -> surd_to_cf g t fuel s = Ok (Some x) ->
  (forall a, In a (tl (a_coeffs x) ++ p_coeffs x) -> a <= A) -> 0 < q ->
  (/ (IZR (A + 2) * (IZR q * IZR q)) < Rabs (v - IZR p / IZR q))%R.
Proof.
  intros g t fuel s v x A p q F1 N V D H HA Hq. destruct (surd_to_cf_dom g t fuel s v x F1 N V D H) as ((W & _) & F & <-). apply L_C100_far; auto.
Qed.

Lemma L_C100_any_surd : forall g s v, normal g s -> sval s = RtoC v -> ~ rational_real v ->
  exists A, 0 < A /\ forall p q, 0 < q -> (/ (IZR A * (IZR q * IZR q)) < Rabs (v - IZR p / IZR q))%R.
Proof.
  intros g s v N V I. destruct (surd_conj_value g s v N V I) as (vc & C & _). apply (far_quadratic v vc C). exact (conjugate_irr v vc C).
Qed.
