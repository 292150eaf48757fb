(** * CFLimit: which convergent approximated(limit) picks, and how it depends on the limit (C89). *)

From Coq Require Import ZArith Znumtheory Reals Lia Lra Bool List Arith.
From Coquelicot Require Import Coquelicot.
From Verif Require Import Base Ext ModelSurd ModelBlock ModelCF ModelConv Spec SpecCF NumFacts Transfer SurdCore RatioFacts SurdArith CFCore CFSeq CFIter CFBasic CFBest.
Import ListNotations.
Open Scope Z_scope.

(** Number [m] is picked, because there is no next convergent or its denominator reaches the limit *)
Definition picks (x : cf) (limit : Z) (v : approx ratio) (m : nat) : Prop :=
  has x m /\ (m = O \/ QQ (cseq x) (S m) < limit) /\
  let r := Ratio (sgnb (negative x) * PP (cseq x) (S m)) (QQ (cseq x) (S m)) in
  (v = Exact r /\ coeff_at x (S m) = None) \/ (v = Approximated r /\ has x (S m) /\ limit <= QQ (cseq x) (S (S m))).

Lemma loop_picks x limit : wfcf x -> forall fuel k s last v, at_conv x (S k) s -> has x k -> conv_item x k = Some last ->
  approx_loop BigU fuel limit last s = Ok v -> k = O \/ QQ (cseq x) (S k) < limit -> exists m, picks x limit v m.
Proof.
  intros W. induction fuel as [|fuel IH]; intros k s last v A H L E Hd; [discriminate|].
  cbn [approx_loop] in E. destruct (conv_step BigU x (S k) s W A (big_fit x (S k) W)) as (s' & Es & As). rewrite Es in E. cbn [bind] in E.
  rewrite (conv_item_eq x k H) in L. inversion L; subst last. clear L.
  destruct (conv_item x (S k)) as [w|] eqn:Ew.
  - assert (Hk : has x (S k)) by (destruct (has_dec x (S k)) as [K|K]; [auto|unfold conv_item in Ew; rewrite K in Ew; discriminate]).
    rewrite (conv_item_eq x (S k) Hk) in Ew. inversion Ew; subst w. clear Ew. cbn [denom] in E.
    destruct (Z.ltb_spec (QQ (cseq x) (S (S k))) limit) as [Hlt|Hge].
    + eapply (IH (S k) s' _ v (As ltac:(discriminate)) Hk); eauto. apply conv_item_eq; auto.
    + inversion E; subst v. exists k. split; [auto|]. split; [auto|]. right. auto.
  - inversion E; subst v. exists k. split; [auto|]. split; [auto|]. left. split; [reflexivity|].
    destruct (coeff_at x (S k)) eqn:K; [|auto]. unfold conv_item in Ew; rewrite K in Ew; discriminate.
Qed.

Lemma approx_picks x limit fuel v : wfcf x -> 1 <= limit -> cf_approximated BigU fuel x limit = Ok v -> exists m, picks x limit v m.
Proof.
  intros W Hl E. unfold cf_approximated in E.
  destruct (conv_step BigU x 0 _ W (at_conv_start x) (big_fit x 0 W)) as (s' & Es & As). rewrite Es in E. cbn [bind] in E.
  pose proof (wfcf_has0 x W) as H0. pose proof (conv_item_eq x 0 H0) as E0. rewrite E0 in E, As. cbn [unwrap bind denom] in E. rewrite QQ_1 in E.
  destruct (Z.ltb_spec limit 1); [lia|].
  apply (loop_picks x limit W fuel 0%nat s' _ v (As ltac:(discriminate)) H0 ltac:(rewrite E0, QQ_1; reflexivity) E). auto.
Qed.

Lemma QQ_le x (W : wfcf x) i j : (i <= j)%nat -> QQ (cseq x) i <= QQ (cseq x) j.
Proof. intros H. induction H as [|j H IH]; [lia|]. destruct (QQ_mono _ (wfcf_cpos x W) j) as (_ & M & _). lia. Qed.

(** A larger limit picks the same or a later convergent *)
Lemma picks_later x l1 l2 v1 v2 m1 m2 : wfcf x -> l1 <= l2 -> picks x l1 v1 m1 -> picks x l2 v2 m2 -> (m1 <= m2)%nat.
Proof.
  intros W Hl (A1 & B1 & _) (A2 & B2 & D2). destruct (le_lt_dec m1 m2) as [L|L]; [exact L|exfalso]. destruct B1 as [B1|B1]; [lia|].
  cbv zeta in D2. destruct D2 as [[_ D2]|(_ & _ & D2)].
  - apply has_none in D2. destruct D2 as [F D2]. specialize (A1 F). lia.
  - pose proof (QQ_le x W (S (S m2)) (S m1) ltac:(lia)). lia.
Qed.

Lemma picks_error x limit v m : wfcf x -> picks x limit v m -> has x (S m) \/ rval (approx_value v) = cf_val x.
Proof.
  intros W (A & _ & D). cbv zeta in D. destruct D as [[-> D]|(-> & D & _)]; [right|auto].
  apply has_none in D. destruct D as [F D]. cbn [approx_value].
  destruct (conv_item_convergent x m W A) as (r & Er & Cv). rewrite (conv_item_eq x m A) in Er. inversion Er; subst r.
  apply fin_convergent_val; auto. replace (pred (lena x)) with m; [auto|]. specialize (A F). unfold lena. lia.
Qed.

Lemma picks_value x limit v m : picks x limit v m -> approx_value v = Ratio (sgnb (negative x) * PP (cseq x) (S m)) (QQ (cseq x) (S m)).
Proof. intros (_ & _ & D). cbv zeta in D. destruct D as [[-> _]|[-> _]]; reflexivity. Qed.

(** Later convergents are not farther away *)
Lemma later_closer x l1 l2 v1 v2 m1 m2 : wfcf x -> picks x l1 v1 m1 -> picks x l2 v2 m2 -> (m1 <= m2)%nat ->
  (Rabs (cf_val x - rval (approx_value v2)) <= Rabs (cf_val x - rval (approx_value v1)))%R.
Proof.
  intros W P1 P2 L. rewrite (picks_value _ _ _ _ P1). destruct (picks_error x l2 v2 m2 W P2) as [H| ->].
  2: { rewrite Rminus_eq_0, Rabs_R0. apply Rabs_pos. }
  rewrite (picks_value _ _ _ _ P2). destruct (Nat.eq_dec m1 m2) as [->|N]; [lra|].
  pose proof (wfcf_cpos x W) as HC. destruct (QQ_mono _ HC m1) as (Q1 & _ & _). destruct (QQ_mono _ HC m2) as (Q2 & _ & _).
  pose proof (QQ_le x W (S m1) (S m2) ltac:(lia)) as Q12.
  assert (Q3 : QQ (cseq x) (S m2) < QQ (cseq x) (S (S m2))).
  { rewrite QQ_SS. pose proof (proj2 HC m2) as C1. destruct m2 as [|m2]; [lia|]. destruct (QQ_mono _ HC m2) as (Q4 & _ & _). nia. }
  pose proof (best_seq x m2 (sgnb (negative x) * PP (cseq x) (S m1)) (QQ (cseq x) (S m1)) W H ltac:(lia)) as B.
  unfold rval. cbn [numer denom]. set (X := cf_val x) in *. clearbody X.
  set (p1 := IZR (sgnb (negative x) * PP (cseq x) (S m1))) in *. set (p2 := IZR (sgnb (negative x) * PP (cseq x) (S m2))) in *.
  apply IZR_le in Q1, Q2, Q12. set (q1 := IZR (QQ (cseq x) (S m1))) in *. set (q2 := IZR (QQ (cseq x) (S m2))) in *. clearbody p1 p2 q1 q2.
  replace (q2 * X - p2)%R with (q2 * (X - p2 / q2))%R in B by (field; lra). replace (q1 * X - p1)%R with (q1 * (X - p1 / q1))%R in B by (field; lra).
  rewrite !Rabs_mult, (Rabs_pos_eq q1), (Rabs_pos_eq q2) in B by lra. pose proof (Rabs_pos (X - p2 / q2)) as A2. pose proof (Rabs_pos (X - p1 / q1)) as A1.
  set (a := Rabs (X - p2 / q2)) in *. set (b := Rabs (X - p1 / q1)) in *. clearbody a b. clear - B A1 A2 Q12 Q1 Q2.
  destruct (Rle_dec a b) as [K|K]; [exact K|exfalso]. assert (q1 * b < q1 * a)%R by (apply Rmult_lt_compat_l; lra). assert (q1 * a <= q2 * a)%R by (apply Rmult_le_compat_r; lra). lra.
Qed.

(** The last denominator of a canonical finite fraction with more than one coefficient is larger than 1 *)
Lemma last_den x : canonical x -> finite x -> (1 < lena x)%nat -> 1 < QQ (cseq x) (lena x).
Proof.
  intros (W & C & _) F L. pose proof (wfcf_cpos x W) as HC. destruct (has_last x W F) as [Hh _].
  assert (Lc : cseq x (pred (lena x)) = last (a_coeffs x) 0).
  { unfold cseq. unfold coeff_at. rewrite F. unfold lena in *. clear - L. destruct (exists_last (l := a_coeffs x)) as (l & w & E); [intros K; rewrite K in L; cbn in L; lia|].
    rewrite E, last_last, app_length. cbn [length]. replace (pred (length l + 1)) with (length l) by lia. rewrite <- app_assoc, nth_error_app2 by lia. rewrite Nat.sub_diag. reflexivity. }
  specialize (C F L). rewrite <- Lc in C. destruct (lena x) as [|[|n]]; [lia|lia|]. cbn [pred] in *. rewrite QQ_SS. pose proof (proj2 HC n) as C1. destruct (QQ_mono _ HC n) as (Q1 & _ & Q0). nia.
Qed.
