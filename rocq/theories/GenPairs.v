(** * GenPairs: when the convergents of generalize() are those of the fraction. *)

From Coq Require Import ZArith Reals Lia Lra Bool List Arith.
From Verif Require Import Base Ext ModelBlock ModelGen Spec SpecGen GenBlock GenCont GenTail GenMisc ClaimsGen.
Import ListNotations.
Open Scope Z_scope.

Lemma gcont_swap f m : (forall j, (j <= m)%nat -> f j = 1) -> gcont (fun j => (f j, 1)) m = gcont (fun j => (1, f j)) m.
Proof.
  induction m as [|m IH]; intros F.
  - cbn [gcont fst snd]. rewrite F by lia. reflexivity.
  - cbn [gcont]. rewrite IH by (intros j Hj; apply F; lia). destruct (gcont (fun j => (1, f j)) m) as [old cur]. rewrite F by lia. reflexivity.
Qed.

Lemma gcont_unit f m : let '((o1, o2), (k1, k2)) := gcont (fun j => (1, f j)) m in k1 * o2 - o1 * k2 = 1 \/ k1 * o2 - o1 * k2 = -1.
Proof.
  induction m as [|m IH].
  - cbn [gcont fst snd]. right. ring.
  - cbn [gcont]. destruct (gcont (fun j => (1, f j)) m) as [[o1 o2] [k1 k2]]. cbn [fst snd].
    assert (E : (f (S m) * k1 + 1 * o1) * k2 - k1 * (f (S m) * k2 + 1 * o2) = - (k1 * o2 - o1 * k2)) by ring. rewrite E. lia.
Qed.

(** The next convergents agree only at a coefficient 1 *)
Lemma swap_step f m : cpositive f -> (forall j, (j <= m)%nat -> f j = 1) ->
  gval (prefix (fun j => (f j, 1)) (S (S m))) = gval (prefix (fun j => (1, f j)) (S (S m))) -> f (S m) = 1.
Proof.
  intros P F E.
  assert (GA : gregular (prefix (fun j => (f j, 1)) (S (S m)))) by (apply latepos_regular; intros j Hj; cbn [fst snd]; specialize (P j Hj); lia).
  assert (GB : gregular (prefix (fun j => (1, f j)) (S (S m)))) by (apply latepos_regular; intros j Hj; cbn [fst snd]; specialize (P j Hj); lia).
  destruct (gval_gcont (fun j => (f j, 1)) (S m) (F O ltac:(lia)) GA) as [D1 E1].
  destruct (gval_gcont (fun j => (1, f j)) (S m) eq_refl GB) as [D2 E2].
  rewrite E1, E2 in E. unfold gnum, gden in *. cbn [gcont] in *. rewrite gcont_swap in * by auto.
  pose proof (gcont_unit f m) as U. destruct (gcont (fun j => (1, f j)) m) as [[o1 o2] [k1 k2]]. cbn [fst snd] in *.
  pose proof (P (S m) ltac:(lia)) as Pv. set (v := f (S m)) in *. clearbody v.
  assert (X : (1 * k1 + v * o1) * (v * k2 + 1 * o2) = (v * k1 + 1 * o1) * (1 * k2 + v * o2)).
  { apply eq_IZR. rewrite !mult_IZR. apply (Rmult_eq_reg_r (/ IZR (1 * k2 + v * o2) * / IZR (v * k2 + 1 * o2))%R).
    - transitivity (IZR (1 * k1 + v * o1) / IZR (1 * k2 + v * o2))%R; [field; split; apply not_0_IZR; auto|]. rewrite E. field. split; apply not_0_IZR; auto.
    - apply Rmult_integral_contrapositive_currified; apply Rinv_neq_0_compat; apply not_0_IZR; auto. }
  assert (Y : (1 - v * v) * (k1 * o2 - o1 * k2) = 0) by (ring_simplify; ring_simplify in X; lia).
  apply Z.mul_eq_0 in Y. destruct Y as [Y|Y]; [|lia]. nia.
Qed.

Lemma generalize_exact t I (inext : I -> res (option Z * I)) it f N (r : nat -> ratio) : yields inext it f -> cpositive f -> f O <> 0 -> (1 <= N)%nat ->
  (forall n, (n <= N)%nat -> nth_item (gconv_next t (generalize_next inext)) n (gcf_convergents it) = Ok (Some (r n))) ->
  ((forall n, (n <= N)%nat -> rval (r n) = gval (prefix (fun j => (1, f j)) (S n))) <-> forall n, (n <= N)%nat -> f n = 1).
Proof.
  intros Y P F0 HN H.
  assert (V : forall n, (n <= N)%nat -> rval (r n) = (gval (prefix (fun j => (f j, 1%Z)) (S n)) / IZR (f O))%R) by (intros n Hn; apply (L_C50_value t I inext it f n (r n)); auto).
  split.
  - intros E.
    assert (H0 : f O = 1).
    { assert (A0 : (1 / IZR (f O) = IZR (f O))%R) by (pose proof (E O ltac:(lia)) as E0; rewrite (V O ltac:(lia)) in E0; exact E0).
      assert (S0 : f O * f O = 1). { apply eq_IZR. rewrite mult_IZR. rewrite <- A0 at 1. field. apply not_0_IZR; auto. }
      assert (f O = 1 \/ f O = -1) as [|M] by nia; [auto|]. exfalso.
      assert (A1 : ((1 + IZR (f 1%nat) / 1) / IZR (f O) = IZR (f O) + 1 / IZR (f 1%nat))%R) by (pose proof (E 1%nat ltac:(lia)) as E1; rewrite (V 1%nat ltac:(lia)) in E1; exact E1).
      rewrite M in A1. pose proof (P 1%nat ltac:(lia)) as P1. apply IZR_le in P1.
      assert (B1 : (0 < 1 / IZR (f 1%nat))%R) by (apply Rdiv_lt_0_compat; lra). lra. }
    intros n. induction n as [n IH] using lt_wf_ind. intros Hn. destruct n as [|m]; [auto|].
    apply swap_step; auto; [intros j Hj; apply IH; lia|]. rewrite <- (E (S m) Hn), (V (S m) Hn), H0. field.
  - intros E n Hn. rewrite (V n Hn), (E O ltac:(lia)).
    assert (Q : prefix (fun j => (f j, 1)) (S n) = prefix (fun j => (1, f j)) (S n)).
    { unfold prefix. apply map_ext_in. intros j Hj. apply in_seq in Hj. rewrite (E j) by lia. reflexivity. }
    rewrite Q. field.
Qed.
