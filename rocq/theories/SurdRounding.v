(** * SurdRounding: rounding with floor() alone. *)

From Coq Require Import ZArith Reals Lia Lra Bool List Arith.
From Coquelicot Require Import Coquelicot.
From Verif Require Import Base Ext ModelSurd Spec SpecEqual NumFacts RatioFacts GenSound SurdCore SurdArith SurdTotal ClaimsSurd ClaimsRoute SurdRoots.
Open Scope Z_scope.

Section Rounding.
Context (g : cfg).

Lemma half_val : qC (Ratio 1 2) = RtoC (/ 2).
Proof. unfold qC, rval. cbn [numer denom]. f_equal. lra. Qed.

Lemma ceil_sound t s x v : normal g s -> sval s = RtoC x -> ceil_fixed g t s = Ok v -> normal g v /\ exists n, sval v = ZtoC n /\ (IZR n - 1 < x <= IZR n)%R.
Proof.
  intros N V H. unfold ceil_fixed in H. apply bind_Ok in H. destruct H as (m & Hm & H). apply bind_Ok in H. destruct H as (f & Hf & H).
  apply (neg_normal g) in Hm; [|exact N]. destruct Hm as [Nm Vm]. rewrite V, <- RtoC_opp in Vm. destruct (L_C10_floor g t m _ f Nm Vm Hf) as (n & Vn & F1 & F2). pose proof (floor_normal _ _ _ _ Hf) as Nf.
  apply (neg_normal g) in H; [|exact Nf]. destruct H as [Nv Vv]. split; [auto|]. exists (- n). split; [rewrite Vv, Vn, ZtoC_opp; reflexivity|]. rewrite opp_IZR. lra.
Qed.
Lemma trunc_sound t s x v : normal g s -> sval s = RtoC x -> trunc_fixed g t s = Ok v -> normal g v /\ exists n, sval v = ZtoC n /\ istrunc x n.
Proof.
  intros N V H. unfold trunc_fixed in H. apply bind_Ok in H. destruct H as (b & Hb & H). pose proof (L_C09_is_negative g t s x b N V Hb) as B. destruct b.
  - assert (L : (x < 0)%R) by tauto. destruct (ceil_sound t s x v N V H) as (Nv & n & Vn & Cn). split; [auto|]. exists n. split; [auto|]. unfold istrunc. lra.
  - assert (L : (0 <= x)%R) by (destruct (Rlt_dec x 0) as [K|K]; [apply B in K; discriminate|lra]). split; [exact (floor_normal _ _ _ _ H)|]. destruct (L_C10_floor g t s x v N V H) as (n & Vn & F1 & F2). exists n. split; [auto|].
    split; intros K; [lra|]. assert (x = 0%R) by lra. subst x. assert (n = 0) by (apply Z.le_antisymm; [apply le_IZR; lra|]; apply Z.lt_succ_r, lt_IZR; rewrite succ_IZR; lra). subst n. lra.
Qed.
Lemma fract_sound t s x v : normal g s -> sval s = RtoC x -> fract_fixed g t s = Ok v -> normal g v /\ exists n, istrunc x n /\ sval v = RtoC (x - IZR n).
Proof.
  intros N V H. unfold fract_fixed in H. apply bind_Ok in H. destruct H as (m & Hm & H). destruct (trunc_sound t s x m N V Hm) as (Nm & n & Vn & T). apply surd_sub_ok in H; auto using normal_wf. destruct H as [Vv Nv].
  split; [auto|]. exists n. split; [auto|]. rewrite Vv, V, Vn. unfold ZtoC. rewrite <- RtoC_minus. reflexivity.
Qed.
Lemma round_sound t s x v : normal g s -> sval s = RtoC x -> round_fixed g t s = Ok v -> normal g v /\ exists n, sval v = ZtoC n /\ (IZR n - / 2 <= x < IZR n + / 2)%R.
Proof.
  intros N V H. unfold round_fixed in H. apply bind_Ok in H. destruct H as (h & Hh & H). apply surd_add_ratio_ok in Hh; [|apply (normal_okc g s N)|red; cbn; lia]. destruct Hh as [Vh Nh]. rewrite V, half_val, <- RtoC_plus in Vh.
  split; [exact (floor_normal _ _ _ _ H)|]. destruct (L_C10_floor g t h _ v Nh Vh H) as (n & Vn & F1 & F2). exists n. split; [auto|lra].
Qed.

Lemma ceil_total s x : normal g s -> sval s = RtoC x -> returns (ceil_fixed g BigI s).
Proof.
  intros N V. unfold ceil_fixed. destruct (surd_neg_total s) as [m Hm]. rewrite Hm. cbn [bind]. apply (neg_normal g) in Hm; [|exact N]. destruct Hm as [Nm Vm]. rewrite V, <- RtoC_opp in Vm.
  destruct (L_C10_returns g m _ Nm Vm) as [f Hf]. rewrite Hf. cbn [bind]. apply surd_neg_total.
Qed.
Lemma trunc_total s x : normal g s -> sval s = RtoC x -> returns (trunc_fixed g BigI s).
Proof.
  intros N V. unfold trunc_fixed. destruct (proj2 (L_C09_returns g s x N V)) as [b Hb]. rewrite Hb. cbn [bind]. destruct b; [apply (ceil_total s x N V)|apply (L_C10_returns g s x N V)].
Qed.
Lemma fract_total s x : normal g s -> sval s = RtoC x -> returns (fract_fixed g BigI s).
Proof.
  intros N V. unfold fract_fixed. destruct (trunc_total s x N V) as [m Hm]. rewrite Hm. cbn [bind]. destruct (trunc_sound BigI s x m N V Hm) as (Nm & n & Vn & _).
  apply (L_C06_same_field_partial g s m N Nm). right; left. rewrite Vn. exists n, 1. split; [lia|]. unfold ZtoC. field. intros E; apply (f_equal fst) in E; cbn in E; lra.
Qed.
Lemma round_total s x : normal g s -> sval s = RtoC x -> returns (round_fixed g BigI s).
Proof.
  intros N V. unfold round_fixed. assert (O : okd (Ratio 1 2)) by (red; cbn; lia). destruct (surd_add_ratio_total g s (normal_wf _ _ N) (Ratio 1 2) O) as [h Hh]. rewrite Hh. cbn [bind].
  apply surd_add_ratio_ok in Hh; [|apply (normal_okc g s N)|exact O]. destruct Hh as [Vh Nh]. rewrite V, half_val, <- RtoC_plus in Vh. apply (L_C10_returns g h _ Nh Vh).
Qed.
End Rounding.
