(** * ClaimsHang: proofs of the property theorems in PropsHang.v. *)

From Coq Require Import ZArith Znumtheory Reals Lia Lra Bool List Arith.
From Coquelicot Require Import Coquelicot.
From Verif Require Import Base Ext ModelSurd ModelBlock ModelCF ModelConv Spec SpecCF SpecHang NumFacts Transfer SurdCore RatioFacts SurdArith SurdTotal SurdOrd SurdRound SurdMisc SurdConv SurdSqrt SurdDecide
  CFCore CFSeq CFIter CFBasic CFSurd CFNew CFOfSurd CFWide CFHang.
Import ListNotations.
Open Scope Z_scope.

Lemma L_C18 g s : normal g s -> rational_num (sval s) -> c1 (coeffs s) = 0.
Proof. intros N Q. apply (normal_is_rational g s N) in Q. unfold is_rational in Q. apply orb_true_iff in Q. destruct Q as [Q|Q]; apply Z.eqb_eq in Q; [exact Q|].
  unfold normal in N. destruct s as [[a b c] r]. cbn [parts coeffs c0 c1 c2 discr] in *. destruct N as (_ & _ & [[B _]|[_ S]] & _); [exact B|]. exfalso. apply S. exists 0. lia. Qed.

Lemma L_C34_hangs_iff : forall g s x xc w, normal g s -> sval s = RtoC x -> sconj s = RtoC xc -> ~ rational_num (sval s) ->
  loop_number s x xc w -> ((forall fuel, surd_to_cf g BigI fuel s = Hang) <-> trapped s w).
Proof. exact surd_hangs_iff. Qed.

Lemma L_C34_returns_iff : forall g s x xc w, normal g s -> sval s = RtoC x -> sconj s = RtoC xc -> ~ rational_num (sval s) ->
  loop_number s x xc w -> ((exists n0, forall fuel, (n0 <= fuel)%nat -> exists z, surd_to_cf g BigI fuel s = Ok (Some z)) <-> ~ trapped s w).
Proof.
  intros g s x xc w N E Ec I L. pose proof (surd_hangs_iff g s x xc w N E Ec I L) as H. split.
  - intros [n0 R] T. pose proof (proj2 H T) as T'. destruct (R n0 (le_n _)) as [z Z]. rewrite T' in Z. discriminate.
  - intros T. destruct (surd_to_cf_dichotomy g s x xc N E Ec I) as [R|[_ R]]; [exact R|]. exfalso. apply T. apply H. exact R.
Qed.

Lemma L_C34_rational_panics : forall g s, normal g s -> rational_num (sval s) ->
  (dbg g = true -> forall fuel, surd_to_cf g BigI fuel s = Panic PDebugAssert) /\
  (dbg g = false -> exists n0, forall fuel, (n0 <= fuel)%nat -> surd_to_cf g BigI fuel s = Panic PDivZero).
Proof.
  intros g s N Q. apply surd_rat; [exact N|]. apply (L_C18 g s N Q).
Qed.

Lemma L_C34_hang_family : forall g n k fuel, 1 <= n -> n < k -> surd_to_cf g BigI fuel (Surd (SCo k (-1) 1) (n * n + 1)) = Hang.
Proof.
  intros g n k fuel Hn Hk. set (D := n * n + 1). set (s := Surd (SCo k (-1) 1) D).
  assert (Sq : Z.sqrt D = n) by (apply Z.sqrt_unique; unfold D; lia).
  assert (Nsq : ~ square D). { intros [m Hm]. unfold D in Hm. assert (K : Z.abs m * Z.abs m = n * n + 1) by nia. pose proof (Z.abs_nonneg m). set (v := Z.abs m) in *. clearbody v. assert (n < v) by nia. nia. }
  assert (N : normal g s). { unfold normal, parts, s. cbn [coeffs c0 c1 c2 discr]. split; [lia|]. split; [apply Z.gcd_1_r|]. split; [right; split; [lia|auto]|unfold D; nia]. }
  assert (D0 : (0 <= IZR D)%R) by (apply IZR_le; unfold D; nia).
  assert (Sd : (sqrt (IZR D) * sqrt (IZR D) = IZR n * IZR n + 1)%R) by (rewrite sqrt_sqrt by auto; unfold D; rewrite plus_IZR, mult_IZR; reflexivity).
  assert (Sp : (0 <= sqrt (IZR D))%R) by apply sqrt_pos. assert (n1 : (1 <= IZR n)%R) by (apply IZR_le; auto). assert (kn : (IZR n + 1 <= IZR k)%R) by (rewrite <- plus_IZR; apply IZR_le; lia).
  assert (Lt : (sqrt (IZR D) < IZR k)%R) by nra.
  assert (E : sval s = RtoC (IZR k - sqrt (IZR D))). { unfold sval, s. cbn [parts coeffs c0 c1 c2 discr]. rewrite csqrt_nonneg by (unfold D; nia). unfold ZtoC. rewrite <- RtoC_mult, <- RtoC_plus, <- RtoC_div by lra. f_equal. field. }
  assert (Ec : sconj s = RtoC (IZR k + sqrt (IZR D))). { unfold sconj, s. cbn [parts coeffs c0 c1 c2 discr]. rewrite csqrt_nonneg by (unfold D; nia). unfold ZtoC. rewrite <- RtoC_mult, <- RtoC_minus, <- RtoC_div by lra. f_equal. field. }
  assert (I : ~ rational_num (sval s)). { intros Q. apply (L_C18 g s N) in Q. discriminate. }
  assert (Nd : norm_divisible s) by (unfold norm_divisible, s; cbn [coeffs c0 c1 c2 discr]; apply Z.divide_1_l).
  revert fuel. apply (surd_hangs_iff g s _ _ (IZR k - sqrt (IZR D))%R N E Ec I).
  - right. split; [tauto|]. rewrite Rabs_right by lra. reflexivity.
  - exists D, 1, 1, (k - n), nil. split; [left; split; [auto|unfold s; cbn [coeffs c1 discr]; ring]|]. rewrite Sq. split; [lia|]. split; [lia|]. split; [unfold D; lia|].
    split; [apply Z.divide_1_l|]. split; [apply Z.divide_1_l|]. split; [constructor|]. split; [congruence|]. cbn [followed_by]. rewrite minus_IZR.
    assert (K : (IZR n + sqrt (IZR D) <> 0)%R) by lra. apply (Rmult_eq_reg_r (IZR n + sqrt (IZR D))%R); [|auto]. replace ((IZR k - IZR n + / - ((IZR n + sqrt (IZR D)) / 1)) * (IZR n + sqrt (IZR D)))%R with ((IZR k - IZR n) * (IZR n + sqrt (IZR D)) - 1)%R by (field; auto).
    replace ((IZR k - sqrt (IZR D)) * (IZR n + sqrt (IZR D)))%R with (IZR k * IZR n + IZR k * sqrt (IZR D) - IZR n * sqrt (IZR D) - sqrt (IZR D) * sqrt (IZR D))%R by ring. rewrite Sd. ring.
Qed.

Lemma L_C34_hang_above_refuted : let s := Surd (SCo 3 1 7) 2 in exists x xc, normal (Cfg false true) s /\ sval s = RtoC x /\ sconj s = RtoC xc /\
  (0 < xc < x)%R /\ forall fuel, surd_to_cf (Cfg false true) BigI fuel s = Hang.
Proof.
  intros s. exists ((3 + sqrt 2) / 7)%R, ((3 - sqrt 2) / 7)%R.
  assert (N : normal (Cfg false true) s). { unfold normal, parts, s. cbn [coeffs c0 c1 c2 discr]. split; [lia|]. split; [reflexivity|]. split; [right; split; [lia|]|intros; lia]. intros [m Hm]. assert (-2 < m < 2) by nia. assert (m = 0 \/ m = 1 \/ m = -1) as [->|[->| ->]] by lia; lia. }
  assert (E : sval s = RtoC ((3 + sqrt 2) / 7)). { unfold sval, s. cbn [parts coeffs c0 c1 c2 discr]. rewrite csqrt_nonneg by lia. unfold ZtoC. rewrite <- RtoC_mult, <- RtoC_plus, <- RtoC_div by lra. f_equal. field. }
  assert (Ec : sconj s = RtoC ((3 - sqrt 2) / 7)). { unfold sconj, s. cbn [parts coeffs c0 c1 c2 discr]. rewrite csqrt_nonneg by lia. unfold ZtoC. rewrite <- RtoC_mult, <- RtoC_minus, <- RtoC_div by lra. f_equal. field. }
  assert (S2 : (sqrt 2 * sqrt 2 = 2)%R) by (apply sqrt_sqrt; lra). assert (S0 : (0 <= sqrt 2)%R) by apply sqrt_pos. assert (S1 : (1 < sqrt 2 < 2)%R) by (split; nra).
  split; [exact N|]. split; [exact E|]. split; [exact Ec|]. split; [lra|].
  apply (surd_hangs_iff (Cfg false true) s _ _ ((3 + sqrt 2) / 7)%R N E Ec).
  - intros Q. apply (L_C18 (Cfg false true) s N) in Q. discriminate.
  - right. split; [intros [[B|B] _]; lra|]. rewrite Rabs_right by lra. reflexivity.
  - exists 2, 1, 1, 0, [2]. split; [left; split; [exists 1; reflexivity|reflexivity]|]. change (Z.sqrt 2) with 1. split; [lia|]. split; [lia|]. split; [lia|].
    split; [apply Z.divide_1_l|]. split; [apply Z.divide_1_l|]. split; [repeat constructor; lia|]. split; [cbn; lia|]. cbn [followed_by].
    replace (/ - ((1 + sqrt 2) / 1))%R with (1 - sqrt 2)%R. { apply (Rmult_eq_reg_r 7); [|lra]. apply (Rmult_eq_reg_r (3 - sqrt 2)%R); [|lra]. replace ((3 + sqrt 2) / 7 * 7 * (3 - sqrt 2))%R with (9 - sqrt 2 * sqrt 2)%R by field. rewrite S2. replace (2 + (1 - sqrt 2))%R with (3 - sqrt 2)%R by ring. field. lra. }
    apply (Rmult_eq_reg_r (1 + sqrt 2)%R); [|lra]. replace ((1 - sqrt 2) * (1 + sqrt 2))%R with (1 - sqrt 2 * sqrt 2)%R by ring. rewrite S2. field. lra.
Qed.
