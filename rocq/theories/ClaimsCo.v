(** * ClaimsCo: proofs of the property theorems in PropsCo.v. *)

From Coq Require Import ZArith Reals Lia Lra Psatz Bool List.
From Coquelicot Require Import Coquelicot.
From Verif Require Import Base Ext ModelBlock ModelSurd ModelInt ModelGen Spec SpecInt SpecBlock Transfer NumFacts RatioFacts SurdCore SurdArith SurdRound IntCore IntArith GenBlock GenSound GenBihomo.
Import ListNotations.
Open Scope Z_scope.

Lemma svalE a b c d : sval (Surd (SCo a b c) d) = ((ZtoC a + ZtoC b * csqrt d) / ZtoC c)%C.
Proof. reflexivity. Qed.

Lemma sconjE a b c d : sconj (Surd (SCo a b c) d) = ((ZtoC a - ZtoC b * csqrt d) / ZtoC c)%C.
Proof. reflexivity. Qed.

Ltac okb H := autorewrite with bigi in H; cbn [c0 c1 c2 q0 q1 numer denom] in H; autorewrite with bigi in H; injection H as <-; cbn [c0 c1 c2].

Ltac ztc := repeat match goal with N : ?x <> 0 |- _ => lazymatch goal with M : ZtoC x <> RtoC 0 |- _ => fail | _ => let K := fresh "Nz" in pose proof (ZtoC_neq0 x N) as K end end.

Lemma nmE a b d : (ZtoC (a * a - b * b * d) = (ZtoC a + ZtoC b * csqrt d) * (ZtoC a - ZtoC b * csqrt d))%C.
Proof. pose proof (csqrt_sq d) as Q. autorewrite with ztoc. rewrite <- Q. ring. Qed.

Lemma nm_neq0 x d : c2 x <> 0 -> sval (Surd x d) <> RtoC 0 -> sconj (Surd x d) <> RtoC 0 -> c0 x * c0 x - c1 x * c1 x * d <> 0.
Proof.
  destruct x as [a b c]. cbn [c0 c1 c2]. rewrite svalE, sconjE. intros C U V E. apply ZtoC_neq0 in C.
  assert (Z0 : ZtoC (a * a - b * b * d) = RtoC 0) by (rewrite E; reflexivity). rewrite nmE in Z0.
  set (u := (ZtoC a + ZtoC b * csqrt d)%C) in *. set (v := (ZtoC a - ZtoC b * csqrt d)%C) in *.
  assert (A : u <> RtoC 0) by (intros K; apply U; rewrite K; field; auto).
  assert (B : v <> RtoC 0) by (intros K; apply V; rewrite K; field; auto).
  exact (Cmult_neq_0 u v A B Z0).
Qed.

Lemma sv_conj0 x d : c2 x <> 0 -> ~ square d -> sval (Surd x d) <> RtoC 0 -> sconj (Surd x d) <> RtoC 0.
Proof.
  destruct x as [a b c]. cbn [c2]. rewrite svalE, sconjE. intros C S U V. apply U. pose proof (ZtoC_neq0 c C) as C'.
  assert (K : fval a (- b) c d = fval 0 0 1 d).
  { unfold fval. autorewrite with ztoc. replace (ZtoC a + - ZtoC b * csqrt d)%C with (ZtoC a - ZtoC b * csqrt d)%C by ring. rewrite V. field. intros X. apply RtoC_inj in X. lra. }
  apply fval_cross in K; [|auto|lia|auto]. assert (a = 0 /\ b = 0) as [-> ->] by lia. rewrite ZtoC_0. field. auto.
Qed.

Lemma L_C61_add : forall t x y z d, sco_add t x y = Ok z -> c2 x <> 0 -> c2 y <> 0 ->
  c2 z <> 0 /\ sval (Surd z d) = (sval (Surd x d) + sval (Surd y d))%C.
Proof.
  intros t [a b c] [a' b' c'] z d H X Y. apply rle_sco_add in H. unfold sco_add in H. cbn [c0 c1 c2] in *. ztc.
  destruct (Z.eqb_spec c c') as [<-|N]; okb H; (split; [nia|]); rewrite !svalE; autorewrite with ztoc; field; auto.
Qed.

Lemma L_C61_sub : forall t x y z d, sco_sub t x y = Ok z -> c2 x <> 0 -> c2 y <> 0 ->
  c2 z <> 0 /\ sval (Surd z d) = (sval (Surd x d) - sval (Surd y d))%C.
Proof.
  intros t [a b c] [a' b' c'] z d H X Y. apply rle_sco_sub in H. unfold sco_sub in H. cbn [c0 c1 c2] in *. ztc.
  destruct (Z.eqb_spec c c') as [<-|N]; okb H; (split; [nia|]); rewrite !svalE; autorewrite with ztoc; field; auto.
Qed.

Lemma L_C61_mul : forall t x y z d, sco_mul t x y d = Ok z -> c2 x <> 0 -> c2 y <> 0 ->
  c2 z <> 0 /\ sval (Surd z d) = (sval (Surd x d) * sval (Surd y d))%C.
Proof.
  intros t [a b c] [a' b' c'] z d H X Y. apply rle_sco_mul in H. unfold sco_mul in H. cbn [c0 c1 c2] in *. ztc.
  okb H; (split; [nia|]); rewrite !svalE; autorewrite with ztoc. rewrite <- (csqrt_sq d). field; auto.
Qed.

Lemma L_C61_div : forall t x y z d, sco_div t x y d = Ok z -> c2 x <> 0 -> c2 y <> 0 ->
  sval (Surd y d) <> RtoC 0 -> sconj (Surd y d) <> RtoC 0 ->
  c2 z <> 0 /\ sval (Surd z d) = (sval (Surd x d) / sval (Surd y d))%C.
Proof.
  intros t x y z d H X Y U V. pose proof (nm_neq0 y d Y U V) as N. destruct x as [a b c], y as [a' b' c'].
  apply rle_sco_div in H. unfold sco_div in H. cbn [c0 c1 c2] in *. ztc. rewrite svalE in U. rewrite sconjE in V.
  okb H; (split; [nia|]); rewrite !svalE. rewrite (ZtoC_mul c), nmE. autorewrite with ztoc.
  assert (A : (ZtoC a' + ZtoC b' * csqrt d)%C <> RtoC 0) by (intros K; apply U; rewrite K; field; auto).
  assert (B : (ZtoC a' - ZtoC b' * csqrt d)%C <> RtoC 0) by (intros K; apply V; rewrite K; field; auto).
  rewrite <- (csqrt_sq d). field; auto.
Qed.

Lemma L_C61_div_nonsquare : forall t x y z d, sco_div t x y d = Ok z -> c2 x <> 0 -> c2 y <> 0 -> ~ square d ->
  sval (Surd y d) <> RtoC 0 -> c2 z <> 0 /\ sval (Surd z d) = (sval (Surd x d) / sval (Surd y d))%C.
Proof. intros t x y z d H X Y S U. apply (L_C61_div t); auto. apply sv_conj0; auto. Qed.

Lemma L_C61_div_zero : forall t x y z d, sco_div t x y d = Ok z ->
  (c2 z = 0 <-> c2 x = 0 \/ c0 y * c0 y - c1 y * c1 y * d = 0).
Proof.
  intros t [a b c] [a' b' c'] z d H. apply rle_sco_div in H. unfold sco_div in H. cbn [c0 c1 c2] in *. okb H. apply Z.mul_eq_0.
Qed.

Lemma L_C61_conj : forall t x z d, sco_conj t x = Ok z -> c2 z = c2 x /\ sval (Surd z d) = sconj (Surd x d) /\ sconj (Surd z d) = sval (Surd x d).
Proof.
  intros t [a b c] z d H. apply rle_sco_conj in H. unfold sco_conj in H. cbn [c0 c1 c2] in *. okb H.
  split; [auto|]. rewrite !svalE, !sconjE. autorewrite with ztoc. unfold Cdiv. split; ring.
Qed.

Lemma L_C61_norm : forall t x q d, sco_norm t x d = Ok q ->
  c2 x <> 0 /\ lowest q /\ RtoC (rval q) = (sval (Surd x d) * sconj (Surd x d))%C.
Proof.
  intros t [a b c] q d H. apply rle_sco_norm in H. unfold sco_norm in H. cbn [c0 c1 c2] in *. autorewrite with bigi in H.
  apply ratio_new_ok in H. destruct H as (N & V & L). assert (C : c <> 0) by nia. split; [auto|]. split; [auto|].
  rewrite V, svalE, sconjE. ztc. rewrite RtoC_div by (apply IZR_neq0; nia). change (RtoC (IZR (a * a - b * b * d))) with (ZtoC (a * a - b * b * d)).
  change (RtoC (IZR (c * c))) with (ZtoC (c * c)). rewrite nmE. autorewrite with ztoc. field. auto.
Qed.

Lemma L_C61_ratio : forall t x q z d, c2 x <> 0 -> denom q <> 0 ->
  (sco_add_ratio t x q = Ok z -> c2 z <> 0 /\ sval (Surd z d) = (sval (Surd x d) + RtoC (rval q))%C) /\
  (sco_sub_ratio t x q = Ok z -> c2 z <> 0 /\ sval (Surd z d) = (sval (Surd x d) - RtoC (rval q))%C) /\
  (sco_mul_ratio t x q = Ok z -> c2 z <> 0 /\ sval (Surd z d) = (sval (Surd x d) * RtoC (rval q))%C) /\
  (sco_div_ratio t x q = Ok z -> numer q <> 0 -> c2 z <> 0 /\ sval (Surd z d) = (sval (Surd x d) / RtoC (rval q))%C).
Proof.
  intros t [a b c] [n m] z d X Q. cbn [c2 denom numer] in *. ztc. unfold rval. cbn [numer denom]. rewrite RtoC_div by (apply IZR_neq0; auto).
  change (RtoC (IZR n)) with (ZtoC n). change (RtoC (IZR m)) with (ZtoC m).
  split; [|split; [|split]]; intros H; try intros N; ztc.
  - apply rle_sco_add_ratio in H. unfold sco_add_ratio in H.
    destruct (Z.eqb_spec c m) as [<-|N]; okb H; (split; [nia|]); rewrite !svalE; autorewrite with ztoc; field; auto.
  - apply rle_sco_sub_ratio in H. unfold sco_sub_ratio in H.
    destruct (Z.eqb_spec c m) as [<-|N]; okb H; (split; [nia|]); rewrite !svalE; autorewrite with ztoc; field; auto.
  - apply rle_sco_mul_ratio in H. unfold sco_mul_ratio in H. okb H; (split; [nia|]); rewrite !svalE; autorewrite with ztoc; field; auto.
  - apply rle_sco_div_ratio in H. unfold sco_div_ratio in H. okb H; (split; [nia|]); rewrite !svalE; autorewrite with ztoc; field; auto.
Qed.

Lemma L_C61_int : forall t x k z d, c2 x <> 0 ->
  (sco_add_int t x k = Ok z -> c2 z <> 0 /\ sval (Surd z d) = (sval (Surd x d) + ZtoC k)%C) /\
  (sco_sub_int t x k = Ok z -> c2 z <> 0 /\ sval (Surd z d) = (sval (Surd x d) - ZtoC k)%C) /\
  (sco_mul_int t x k = Ok z -> c2 z <> 0 /\ sval (Surd z d) = (sval (Surd x d) * ZtoC k)%C) /\
  (sco_div_int t x k = Ok z -> k <> 0 -> c2 z <> 0 /\ sval (Surd z d) = (sval (Surd x d) / ZtoC k)%C).
Proof.
  intros t [a b c] k z d X. cbn [c2] in *. ztc.
  split; [|split; [|split]]; intros H; try intros N; ztc.
  - apply rle_sco_add_int in H. unfold sco_add_int in H. okb H; (split; [nia|]); rewrite !svalE; autorewrite with ztoc; field; auto.
  - apply rle_sco_sub_int in H. unfold sco_sub_int in H. okb H; (split; [nia|]); rewrite !svalE; autorewrite with ztoc; field; auto.
  - apply rle_sco_mul_int in H. unfold sco_mul_int in H. okb H; (split; [nia|]); rewrite !svalE; autorewrite with ztoc; field; auto.
  - apply rle_sco_div_int in H. unfold sco_div_int in H. okb H; (split; [nia|]); rewrite !svalE; autorewrite with ztoc; field; auto.
Qed.

Lemma L_C61_returns : forall x y q k d,
  returns (sco_add BigI x y) /\ returns (sco_sub BigI x y) /\ returns (sco_mul BigI x y d) /\ returns (sco_div BigI x y d) /\ returns (sco_conj BigI x) /\
  returns (sco_add_ratio BigI x q) /\ returns (sco_sub_ratio BigI x q) /\ returns (sco_mul_ratio BigI x q) /\ returns (sco_div_ratio BigI x q) /\
  returns (sco_add_int BigI x k) /\ returns (sco_sub_int BigI x k) /\ returns (sco_mul_int BigI x k) /\ returns (sco_div_int BigI x k) /\
  (returns (sco_norm BigI x d) <-> c2 x <> 0).
Proof.
  intros [a b c] [a' b' c'] [n m] k d.
  unfold sco_add, sco_sub, sco_mul, sco_div, sco_conj, sco_add_ratio, sco_sub_ratio, sco_mul_ratio, sco_div_ratio, sco_add_int, sco_sub_int, sco_mul_int, sco_div_int, sco_norm.
  cbn [c0 c1 c2 numer denom]. destruct (c =? c'); destruct (c =? m); bigi; repeat (split; [eexists; reflexivity|]);
  (split; [intros (q & H) E; apply ratio_new_ok in H; destruct H as (N & _); nia|intros N; destruct (ratio_new_big (a * a - b * b * d) (c * c)) as (q & H & _); [nia|eexists; exact H]]).
Qed.

Lemma L_C61_div_square_refuted : exists x y z d, sco_div BigI x y d = Ok z /\ c2 x <> 0 /\ c2 y <> 0 /\ sval (Surd y d) <> RtoC 0 /\ c2 z = 0.
Proof.
  exists (SCo 1 0 1), (SCo 2 1 1), (SCo 2 (-1) 0), 4. split; [reflexivity|]. split; [discriminate|]. split; [discriminate|]. split; [|reflexivity].
  rewrite svalE. assert (E : csqrt 4 = ZtoC 2).
  { rewrite csqrt_nonneg by lia. unfold ZtoC. f_equal. replace (IZR 4) with (2 * 2)%R by lra. apply sqrt_square. lra. }
  rewrite E, <- ZtoC_mul, <- ZtoC_add. change (2 + 1 * 2) with 4. unfold ZtoC. rewrite <- RtoC_div by lra. intros K. apply RtoC_inj in K. lra.
Qed.

Lemma qvalE a b d : qval (QInt (QCo a b) d) = (ZtoC a + ZtoC b * omega d)%C.
Proof. reflexivity. Qed.

Lemma mul_mod t x y d z : qco_mul t x y d = Ok z -> d mod 4 <> 0.
Proof.
  intros H E. apply rle_qco_mul in H. unfold qco_mul in H. rewrite mod4d2B, E in H. discriminate.
Qed.

Lemma div_mod t x y d z : qco_div_rem t x y d = Ok z -> d mod 4 <> 0.
Proof.
  intros H E. apply rle_qco_div_rem in H. unfold qco_div_rem in H. rewrite mod4d2B, E in H. discriminate.
Qed.

Lemma omega_0 : omega 0 = RtoC 0.
Proof. change (omega 0) with (csqrt 0). rewrite csqrt_nonneg by lia. rewrite sqrt_0. reflexivity. Qed.

Lemma omega_conj_0 : omega_conj 0 = RtoC 0.
Proof. rewrite omega_conj_eq, omega_0. change (md1 0) with false. cbv iota. ring. Qed.

Lemma norm_any d a b : d mod 4 <> 0 -> qco_norm BigI (QCo a b) d = Ok (nrm d a b).
Proof.
  intros M. unfold qco_norm, nrm. destruct (Z.eqb_spec d 0) as [->|_]; [destruct M; reflexivity|].
  rewrite mod4d2_good by auto. bigi. cbn [q0 q1]. rewrite fourB. destruct (md1 d); bigi; [|reflexivity].
  rewrite quotB by lia. bigi. reflexivity.
Qed.

Lemma conj_any d a b : d mod 4 <> 0 -> exists x, qco_conj BigI (QCo a b) d = Ok x /\ qval (QInt x d) = qconj (QInt (QCo a b) d) /\
  qconj (QInt x d) = qval (QInt (QCo a b) d).
Proof.
  intros M. unfold qco_conj. destruct (Z.eqb_spec d 0) as [->|_]; [destruct M; reflexivity|].
  rewrite mod4d2_good by auto. bigi. cbn [q0 q1]. unfold qval, qconj. rewrite omega_conj_eq.
  destruct (md1 d) eqn:H; bigi; eexists; (split; [reflexivity|]); cbn [qcoeffs qdiscr q0 q1]; rewrite ?omega_conj_eq, ?H;
    autorewrite with ztoc; split; ring.
Qed.

(* r * (ar + br w) is n times the remainder, whatever the root *)
Lemma rem_formal d a b a' b' u v : let n := nrm d a' b' in let p := cdiv d a b a' b' in
  cmul d a' b' (q0 p - u * n) (q1 p - v * n) = QCo ((a - q0 (cmul d u v a' b')) * n) ((b - q1 (cmul d u v a' b')) * n).
Proof.
  cbv zeta. unfold cmul, cdiv, nrm. destruct (md1 d) eqn:H; cbn [q0 q1]; [|f_equal; ring].
  destruct (md1_quot d H) as (k & E & -> & ->). f_equal; ring.
Qed.

Lemma div_rem_any d a b a' b' : d mod 4 <> 0 -> let n := nrm d a' b' in n <> 0 ->
  let p := cdiv d a b a' b' in let q := QCo (rnd (q0 p) n) (rnd (q1 p) n) in
  qco_div_rem BigI (QCo a b) (QCo a' b') d = Ok (q, QCo (a - q0 (cmul d (q0 q) (q1 q) a' b')) (b - q1 (cmul d (q0 q) (q1 q) a' b'))).
Proof.
  intros M n Hn p q. unfold qco_div_rem. rewrite mod4d2_good by auto. cbn [bind q0 q1]. rewrite fourB.
  assert (Step : (match (if md1 d then M1 else M23) with
      | M1 => let! a0 := lift2 (subT BigI) (lift2 (addT BigI) (lift2 (mulT BigI) (Ok a) (Ok a')) (lift2 (mulT BigI) (Ok a) (Ok b')))
                  (lift2 (mulT BigI) (lift2 (mulT BigI) (Ok b) (Ok b')) (lift2 (quotT BigI) (lift2 (subT BigI) (Ok d) (Ok 1)) (Ok 4))) in
              let! b0 := lift2 (subT BigI) (lift2 (mulT BigI) (Ok b) (Ok a')) (lift2 (mulT BigI) (Ok a) (Ok b')) in Ok (a0, b0)
      | M23 => let! a0 := lift2 (subT BigI) (lift2 (mulT BigI) (Ok a) (Ok a')) (lift2 (mulT BigI) (lift2 (mulT BigI) (Ok b) (Ok b')) (Ok d)) in
              let! b0 := lift2 (subT BigI) (lift2 (mulT BigI) (Ok b) (Ok a')) (lift2 (mulT BigI) (Ok a) (Ok b')) in Ok (a0, b0)
      | M0 => Panic PUnreachable
      end) = Ok (q0 p, q1 p)).
  { unfold p, cdiv. destruct (md1 d); bigi; [|reflexivity]. rewrite quotB by lia. bigi. reflexivity. }
  rewrite Step. cbn [bind]. rewrite norm_any by auto. cbn [bind]. fold n.
  rewrite !div_rem_roundB by exact Hn. cbn [bind]. rewrite qco_mul_good by auto. cbn [bind]. unfold n, p. rewrite rem_formal. fold n p.
  unfold qco_div_int. cbn [q0 q1]. rewrite !div_rem_roundB by exact Hn. cbn [bind]. rewrite !rnd_exact by exact Hn. reflexivity.
Qed.

Lemma L_C62_linear : forall t x y k z d,
  (qco_add t x y = Ok z -> qval (QInt z d) = (qval (QInt x d) + qval (QInt y d))%C) /\
  (qco_sub t x y = Ok z -> qval (QInt z d) = (qval (QInt x d) - qval (QInt y d))%C) /\
  (qco_add_int t x k = Ok z -> qval (QInt z d) = (qval (QInt x d) + ZtoC k)%C) /\
  (qco_sub_int t x k = Ok z -> qval (QInt z d) = (qval (QInt x d) - ZtoC k)%C) /\
  (qco_mul_int t x k = Ok z -> qval (QInt z d) = (qval (QInt x d) * ZtoC k)%C).
Proof.
  intros t [a b] [a' b'] k z d. split; [|split; [|split; [|split]]]; intros H.
  - apply rle_qco_add in H. unfold qco_add in H. okb H. rewrite !qvalE. autorewrite with ztoc. ring.
  - apply rle_qco_sub in H. unfold qco_sub in H. okb H. rewrite !qvalE. autorewrite with ztoc. ring.
  - apply rle_qco_add_int in H. unfold qco_add_int in H. okb H. rewrite !qvalE. autorewrite with ztoc. ring.
  - apply rle_qco_sub_int in H. unfold qco_sub_int in H. okb H. rewrite !qvalE. autorewrite with ztoc. ring.
  - apply rle_qco_mul_int in H. unfold qco_mul_int in H. okb H. rewrite !qvalE. autorewrite with ztoc. ring.
Qed.

Lemma L_C62_mul : forall t x y z d, qco_mul t x y d = Ok z -> qval (QInt z d) = (qval (QInt x d) * qval (QInt y d))%C.
Proof.
  intros t [a b] [a' b'] z d H. pose proof (mul_mod _ _ _ _ _ H) as M. apply rle_qco_mul in H.
  rewrite qco_mul_good in H by auto. injection H as <-. apply cmul_val.
Qed.

Lemma L_C62_conj : forall t x z d, qco_conj t x d = Ok z -> qval (QInt z d) = qconj (QInt x d) /\ qconj (QInt z d) = qval (QInt x d).
Proof.
  intros t [a b] z d H. apply rle_qco_conj in H. destruct (Z.eq_dec d 0) as [->|D].
  - unfold qco_conj in H. cbn in H. injection H as <-. unfold qval, qconj. cbn [qcoeffs qdiscr q0 q1]. rewrite omega_0, omega_conj_0. auto.
  - assert (M : d mod 4 <> 0).
    { intros E. unfold qco_conj in H. destruct (Z.eqb_spec d 0); [contradiction|]. rewrite mod4d2B, E in H. discriminate. }
    destruct (conj_any d a b M) as (x & E & V & W). rewrite E in H. injection H as <-. auto.
Qed.

Lemma L_C62_norm : forall t x n d, qco_norm t x d = Ok n -> ZtoC n = (qval (QInt x d) * qconj (QInt x d))%C.
Proof.
  intros t [a b] n d H. apply rle_qco_norm in H. destruct (Z.eq_dec d 0) as [->|D].
  - unfold qco_norm in H. cbn in H. injection H as <-. unfold qval, qconj. cbn [qcoeffs qdiscr q0 q1]. rewrite omega_0, omega_conj_0. autorewrite with ztoc. ring.
  - assert (M : d mod 4 <> 0).
    { intros E. unfold qco_norm in H. destruct (Z.eqb_spec d 0); [contradiction|]. rewrite mod4d2B, E in H. discriminate. }
    rewrite norm_any in H by auto. injection H as <-. symmetry. apply qval_qconj.
Qed.

Lemma L_C62_div_int : forall t x k z, qco_div_int t x k = Ok z ->
  k <> 0 /\ isround (IZR (q0 x) / IZR k) (q0 z) /\ isround (IZR (q1 x) / IZR k) (q1 z).
Proof.
  intros t [a b] k z H. apply rle_qco_div_int in H. unfold qco_div_int in H. destruct (Z.eq_dec k 0) as [->|K].
  - cbn [q0 q1] in H. unfold div_rem_round in H at 1. autorewrite with bigi in H. change (Z.quot 0 2 * Z.sgn a) with 0 in H. cbn in H. discriminate.
  - cbn [q0 q1] in H. rewrite !div_rem_roundB in H by auto. cbn [bind] in H. injection H as <-. cbn [q0 q1]. split; [auto|]. split; apply rnd_round; auto.
Qed.

Lemma L_C62_rem_int : forall t x k r, qco_rem_int t x k = Ok r ->
  exists z, qco_div_int BigI x k = Ok z /\ q0 x = q0 z * k + q0 r /\ q1 x = q1 z * k + q1 r /\ 2 * Z.abs (q0 r) <= Z.abs k /\ 2 * Z.abs (q1 r) <= Z.abs k.
Proof.
  intros t [a b] k r H. apply rle_qco_rem_int in H. unfold qco_rem_int in H. unfold qco_div_int. cbn [q0 q1] in *. destruct (Z.eq_dec k 0) as [->|K].
  - unfold div_rem_round in H at 1. autorewrite with bigi in H. change (Z.quot 0 2 * Z.sgn a) with 0 in H. cbn in H. discriminate.
  - rewrite !div_rem_roundB in * by auto. cbn [bind] in *. injection H as <-. eexists. split; [reflexivity|]. cbn [q0 q1].
    split; [ring|]. split; [ring|]. split; apply rnd_half; auto.
Qed.

Lemma L_C62_div_rem : forall t x y q r d, qco_div_rem t x y d = Ok (q, r) ->
  (exists n u v : Z, n <> 0 /\ ZtoC n = (qval (QInt y d) * qconj (QInt y d))%C /\
     (qval (QInt x d) / qval (QInt y d))%C = ((ZtoC u + ZtoC v * omega d) / ZtoC n)%C /\
     isround (IZR u / IZR n) (q0 q) /\ isround (IZR v / IZR n) (q1 q)) /\
  qval (QInt r d) = (qval (QInt x d) - qval (QInt q d) * qval (QInt y d))%C.
Proof.
  intros t [a b] [a' b'] q r d H. pose proof (div_mod _ _ _ _ _ H) as M. apply rle_qco_div_rem in H.
  assert (N : nrm d a' b' <> 0).
  { intros E. unfold qco_div_rem in H. rewrite mod4d2_good in H by auto. cbn [bind q0 q1] in H. apply bind_Ok in H. destruct H as ((u, v) & _ & H).
    rewrite norm_any, E in H by auto. cbn [bind] in H. unfold div_rem_round in H at 1. autorewrite with bigi in H. change (Z.quot 0 2 * Z.sgn u) with 0 in H. cbn in H. discriminate. }
  rewrite div_rem_any in H by auto. injection H as <- <-. set (n := nrm d a' b') in *. set (p := cdiv d a b a' b') in *.
  set (q := QCo (rnd (q0 p) n) (rnd (q1 p) n)). split.
  - exists n, (q0 p), (q1 p). split; [auto|]. pose proof (qval_qconj a' b' d) as Q. fold n in Q. split; [auto|].
    pose proof (cdiv_val d a b a' b') as P. fold p in P. pose proof (ZtoC_neq0 n N) as NZ.
    split; [|cbn [q0 q1]; split; apply rnd_round; auto].
    assert (E : qval (QInt p d) = (ZtoC (q0 p) + ZtoC (q1 p) * omega d)%C) by reflexivity. rewrite <- E, P. rewrite <- Q in NZ |- *.
    assert (qval (QInt (QCo a' b') d) <> RtoC 0) by (intros K; apply NZ; rewrite K; ring).
    assert (qconj (QInt (QCo a' b') d) <> RtoC 0) by (intros K; apply NZ; rewrite K; ring). field. auto.
  - pose proof (cmul_val d (rnd (q0 p) n) (rnd (q1 p) n) a' b') as C. unfold q. cbn [q0 q1]. rewrite <- C.
    set (m := cmul d (rnd (q0 p) n) (rnd (q1 p) n) a' b'). clearbody m. destruct m as [m0 m1]. unfold qval. cbn [qcoeffs qdiscr q0 q1]. autorewrite with ztoc. ring.
Qed.

Lemma L_C62_div : forall t x y q d, qco_div t x y d = Ok q -> exists r, qco_div_rem t x y d = Ok (q, r).
Proof.
  intros t x y q d H. unfold qco_div in H. apply bind_Ok in H. destruct H as ((q', r) & E & H). cbn in H. injection H as <-. eauto.
Qed.

Lemma L_C62_returns : forall x y k d, d mod 4 <> 0 ->
  returns (qco_add BigI x y) /\ returns (qco_sub BigI x y) /\ returns (qco_add_int BigI x k) /\ returns (qco_sub_int BigI x k) /\ returns (qco_mul_int BigI x k) /\
  returns (qco_mul BigI x y d) /\ returns (qco_conj BigI x d) /\ returns (qco_norm BigI x d) /\
  (k <> 0 -> returns (qco_div_int BigI x k) /\ returns (qco_rem_int BigI x k)) /\
  ((qval (QInt y d) * qconj (QInt y d))%C <> RtoC 0 -> returns (qco_div BigI x y d) /\ returns (qco_div_rem BigI x y d)).
Proof.
  intros [a b] [a' b'] k d M. unfold qco_add, qco_sub, qco_add_int, qco_sub_int, qco_mul_int, qco_div_int, qco_rem_int. cbn [q0 q1]. bigi.
  repeat (split; [eexists; reflexivity|]). rewrite qco_mul_good, norm_any by auto. destruct (conj_any d a b M) as (x & -> & _).
  repeat (split; [eexists; reflexivity|]). split.
  - intros K. rewrite !div_rem_roundB by auto. split; eexists; reflexivity.
  - rewrite qval_qconj. intros N. assert (nrm d a' b' <> 0) by (intros E; apply N; rewrite E; apply ZtoC_0).
    unfold qco_div. rewrite div_rem_any by auto. split; eexists; reflexivity.
Qed.

Lemma L_C62_mod4 : forall t x y d z w n, d mod 4 = 0 ->
  qco_mul t x y d <> Ok z /\ qco_div t x y d <> Ok z /\ qco_div_rem t x y d <> Ok (z, w) /\ (qco_conj t x d = Ok z -> d = 0) /\ (qco_norm t x d = Ok n -> d = 0).
Proof.
  intros t x y d z w n M. split; [intros H; exact (mul_mod _ _ _ _ _ H M)|].
  split; [intros H; apply L_C62_div in H; destruct H as (r & H); exact (div_mod _ _ _ _ _ H M)|].
  split; [intros H; exact (div_mod _ _ _ _ _ H M)|]. split; intros H.
  - apply rle_qco_conj in H. unfold qco_conj in H. destruct (Z.eqb_spec d 0); [auto|]. rewrite mod4d2B, M in H. discriminate.
  - apply rle_qco_norm in H. unfold qco_norm in H. destruct (Z.eqb_spec d 0); [auto|]. rewrite mod4d2B, M in H. discriminate.
Qed.

Lemma moved_mobius k a b k' x : moved k a b k' -> a <> 0 -> x <> 0%R -> bden k ((IZR b + / x) / IZR a) <> 0%R ->
  bden k' x <> 0%R /\ mobius k' x = mobius k ((IZR b + / x) / IZR a).
Proof.
  intros (g & G & P1 & P2 & Q1 & Q2) A X D. unfold mobius, bden, bnum in *. apply IZR_neq0 in A.
  apply (f_equal IZR) in P1, P2, Q1, Q2. rewrite ?plus_IZR, ?mult_IZR in *. assert (G' : (IZR g <> 0)%R) by (apply IZR_neq0; lia).
  set (gg := IZR g) in *. set (y := ((IZR b + / x) / IZR a)%R) in *. set (a' := IZR a) in *.
  assert (Y : (a' * x * y = IZR b * x + 1)%R) by (unfold y; field; auto).
  assert (N : (gg * (IZR (pm1 k') * x + IZR (pm2 k')) = a' * x * (IZR (pm1 k) * y + IZR (pm2 k)))%R).
  { replace (gg * (IZR (pm1 k') * x + IZR (pm2 k')))%R with (gg * IZR (pm1 k') * x + gg * IZR (pm2 k'))%R by ring. rewrite P1, P2.
    replace (a' * x * (IZR (pm1 k) * y + IZR (pm2 k)))%R with (IZR (pm1 k) * (a' * x * y) + a' * x * IZR (pm2 k))%R by ring. rewrite Y. ring. }
  assert (M : (gg * (IZR (qm1 k') * x + IZR (qm2 k')) = a' * x * (IZR (qm1 k) * y + IZR (qm2 k)))%R).
  { replace (gg * (IZR (qm1 k') * x + IZR (qm2 k')))%R with (gg * IZR (qm1 k') * x + gg * IZR (qm2 k'))%R by ring. rewrite Q1, Q2.
    replace (a' * x * (IZR (qm1 k) * y + IZR (qm2 k)))%R with (IZR (qm1 k) * (a' * x * y) + a' * x * IZR (qm2 k))%R by ring. rewrite Y. ring. }
  assert (Z : (IZR (qm1 k') * x + IZR (qm2 k') <> 0)%R).
  { intros E. rewrite E, Rmult_0_r in M. symmetry in M. apply Rmult_integral in M. destruct M as [M|M]; auto. apply Rmult_integral in M. destruct M; auto. }
  split; [auto|]. set (u := (IZR (pm1 k') * x + IZR (pm2 k'))%R) in *. set (v := (IZR (qm1 k') * x + IZR (qm2 k'))%R) in *.
  set (u' := (IZR (pm1 k) * y + IZR (pm2 k))%R) in *. set (v' := (IZR (qm1 k) * y + IZR (qm2 k))%R) in *. clearbody u v u' v'.
  apply (Rmult_eq_reg_r (gg * v)%R); [|apply Rmult_integral_contrapositive; auto].
  rewrite M at 2. replace (u / v * (gg * v))%R with (gg * u)%R by (field; auto). rewrite N. field. auto.
Qed.

Lemma L_C63_rmove : forall t k a k' x, block_rmove t k a = Ok k' -> x <> 0%R -> bden k (IZR a + / x) <> 0%R ->
  bden k' x <> 0%R /\ mobius k' x = mobius k (IZR a + / x).
Proof.
  intros t k a k' x H X D. apply rmove_inv in H.
  assert (E : ((IZR a + / x) / IZR 1)%R = (IZR a + / x)%R) by (field; auto). rewrite <- E in *. apply moved_mobius; auto. lia.
Qed.

Lemma L_C63_gmove : forall t k a b k' x, block_gmove t k a b = Ok k' -> a <> 0 -> x <> 0%R -> bden k ((IZR b + / x) / IZR a) <> 0%R ->
  bden k' x <> 0%R /\ mobius k' x = mobius k ((IZR b + / x) / IZR a).
Proof. intros t k a b k' x H A X D. apply gmove_inv in H. apply moved_mobius; auto. Qed.

Lemma update_inj k p q p' q' : block_update k p q = block_update k p' q' -> p = p' /\ q = q'.
Proof. intros H. inversion H. auto. Qed.

Lemma L_C63_checked_rmove : forall t k a,
  (forall p q, block_checked_rmove t k a = Some (p, q) <-> block_rmove t k a = Ok (block_update k p q)) /\
  (block_checked_rmove t k a = None <-> block_rmove t k a = Panic POverflow).
Proof.
  intros t k a. unfold block_checked_rmove, block_rmove, checked_mul, checked_add, checked, lift2, addT, mulT, chk. cbn [bind].
  destruct (fits t (a * pm1 k)); cbn [obind bind]; [|split; [intros; split; discriminate|split; reflexivity]].
  destruct (fits t (a * pm1 k + pm2 k)); cbn [obind bind]; [|split; [intros; split; discriminate|split; reflexivity]].
  destruct (fits t (a * qm1 k)); cbn [obind bind]; [|split; [intros; split; discriminate|split; reflexivity]].
  destruct (fits t (a * qm1 k + qm2 k)); cbn [obind bind]; [|split; [intros; split; discriminate|split; reflexivity]].
  split; [|split; discriminate]. intros p q. split; intros H; [injection H as <- <-; reflexivity|].
  injection H as <- <-. reflexivity.
Qed.

Lemma L_C63_checked_gmove : forall t k a b,
  (forall p q k1, block_checked_gmove t k a b = Ok (Some (p, q), k1) -> block_gmove t k a b = Ok (block_update k1 p q)) /\
  (forall k', block_gmove t k a b = Ok k' -> exists p q k1, block_checked_gmove t k a b = Ok (Some (p, q), k1) /\ k' = block_update k1 p q) /\
  (forall k1, block_checked_gmove t k a b = Ok (None, k1) -> k1 = k /\ block_gmove t k a b = Panic POverflow).
Proof.
  intros t k a b. unfold block_checked_gmove, block_gmove, checked_mul, checked_add, checked, lift2, addT, mulT. cbn [bind].
  rewrite (Z.mul_comm (pm1 k) b), (Z.mul_comm (pm2 k) a), (Z.mul_comm (qm1 k) b), (Z.mul_comm (qm2 k) a). unfold chk. cbn [bind].
  destruct (fits t (b * pm1 k)); cbn [obind bind]; [|split; [intros; discriminate|split; intros k1 H; inversion H; auto]].
  destruct (fits t (a * pm2 k)); cbn [obind bind]; [|split; [intros; discriminate|split; intros k1 H; inversion H; auto]].
  destruct (fits t (b * pm1 k + a * pm2 k)); cbn [obind bind]; [|split; [intros; discriminate|split; intros k1 H; inversion H; auto]].
  destruct (fits t (b * qm1 k)); cbn [obind bind]; [|split; [intros; discriminate|split; intros k1 H; inversion H; auto]].
  destruct (fits t (a * qm2 k)); cbn [obind bind]; [|split; [intros; discriminate|split; intros k1 H; inversion H; auto]].
  destruct (fits t (b * qm1 k + a * qm2 k)); cbn [obind bind]; [|split; [intros; discriminate|split; intros k1 H; inversion H; auto]].
  set (p := b * pm1 k + a * pm2 k). set (q := b * qm1 k + a * qm2 k). clearbody p q.
  destruct (gcdT t p q) as [g1| |]; cbn [bind]; [|split; [intros; discriminate|split; intros; discriminate] ..].
  destruct (gcdT t g1 (pm1 k)) as [g2| |]; cbn [bind]; [|split; [intros; discriminate|split; intros; discriminate] ..].
  destruct (gcdT t g2 (qm1 k)) as [g3| |]; cbn [bind]; [|split; [intros; discriminate|split; intros; discriminate] ..].
  destruct (1 <? g3).
  - destruct (quotT t (pm1 k) g3) as [x| |]; cbn [bind]; [|split; [intros; discriminate|split; intros; discriminate] ..].
    destruct (quotT t (qm1 k) g3) as [y| |]; cbn [bind]; [|split; [intros; discriminate|split; intros; discriminate] ..].
    destruct (quotT t p g3) as [p'| |]; cbn [bind]; [|split; [intros; discriminate|split; intros; discriminate] ..].
    destruct (quotT t q g3) as [q'| |]; cbn [bind]; [|split; [intros; discriminate|split; intros; discriminate] ..].
    split; [intros p0 q0 k1 H; injection H as <- <- <-; reflexivity|]. split; [|intros; discriminate].
    intros k' H. injection H as <-. eexists _, _, _. split; reflexivity.
  - split; [intros p0 q0 k1 H; injection H as <- <- <-; reflexivity|]. split; [|intros; discriminate].
    intros k' H. injection H as <-. eexists _, _, _. split; reflexivity.
Qed.

Lemma check_part k i r1 r2 t x : block_check_integer t k = Ok (Some (i, r1, r2)) -> bden k x <> 0%R ->
  mobius k x = (IZR i + mobius (Block r1 r2 (qm1 k) (qm2 k)) x)%R.
Proof.
  intros H D. apply check_integer_inv in H. destruct H as (A & B & I & J & -> & ->).
  pose proof (Z.quot_rem (pm1 k) (qm1 k) A) as P1. rewrite <- I in P1. pose proof (Z.quot_rem (pm2 k) (qm2 k) B) as P2. rewrite <- J in P2.
  unfold mobius, bden, bnum in *. cbn [pm1 pm2 qm1 qm2]. rewrite P1 at 1. rewrite P2 at 1. rewrite !plus_IZR, !mult_IZR. field. auto.
Qed.

Lemma rem_small n d : d <> 0 -> (Rabs (IZR (Z.rem n d)) < Rabs (IZR d))%R.
Proof. intros H. rewrite <- !abs_IZR. apply IZR_lt. apply Z.rem_bound_abs. auto. Qed.

Lemma sign2 c d : 0 < c * d -> 0 < c /\ 0 < d \/ c < 0 /\ d < 0.
Proof. intros H. destruct (Z.lt_trichotomy c 0) as [K|[->|K]]; [right|lia|left]; nia. Qed.

Lemma lin_small a b c d x : (0 <= x)%R -> 0 < c * d -> (Rabs (IZR a) < Rabs (IZR c))%R -> (Rabs (IZR b) < Rabs (IZR d))%R ->
  (Rabs ((IZR a * x + IZR b) / (IZR c * x + IZR d)) < 1)%R.
Proof.
  intros X S A B. assert (P : (0 < Rabs (IZR c * x + IZR d))%R /\ (Rabs (IZR a * x + IZR b) < Rabs (IZR c * x + IZR d))%R).
  { assert (T : (Rabs (IZR a * x + IZR b) <= Rabs (IZR a) * x + Rabs (IZR b))%R).
    { eapply Rle_trans; [apply Rabs_triang|]. rewrite Rabs_mult, (Rabs_pos_eq x) by auto. lra. }
    assert (Q : (Rabs (IZR c * x + IZR d) = Rabs (IZR c) * x + Rabs (IZR d))%R).
    { assert (K : 0 < c /\ 0 < d \/ c < 0 /\ d < 0) by (apply sign2; auto). destruct K as [[K L]|[K L]]; apply IZR_lt in K, L.
      - rewrite (Rabs_pos_eq (IZR c)), (Rabs_pos_eq (IZR d)) by lra. apply Rabs_pos_eq. nra.
      - rewrite (Rabs_left (IZR c)), (Rabs_left (IZR d)) by lra. rewrite Rabs_left by nra. ring. }
    pose proof (Rabs_pos (IZR b)). rewrite Q. pose proof (Rabs_pos (IZR a)).
    pose proof (Rmult_le_pos _ _ (Rabs_pos (IZR c)) X). pose proof (Rmult_le_compat_r x _ _ X (Rlt_le _ _ A)). split; lra. }
  destruct P as [P1 P2]. unfold Rdiv. rewrite Rabs_mult, Rabs_inv. apply (Rmult_lt_reg_r (Rabs (IZR c * x + IZR d))); [auto|].
  rewrite Rmult_assoc, Rinv_l by lra. lra.
Qed.

Lemma L_C63_check_integer : forall t k i r1 r2, block_check_integer t k = Ok (Some (i, r1, r2)) ->
  (forall x, bden k x <> 0%R -> mobius k x = (IZR i + mobius (Block r1 r2 (qm1 k) (qm2 k)) x)%R) /\
  (forall x, (0 <= x)%R -> 0 < qm1 k * qm2 k -> (Rabs (mobius k x - IZR i) < 1)%R).
Proof.
  intros t k i r1 r2 H. split; [intros x D; eapply check_part; eauto|]. intros x X S.
  assert (D : bden k x <> 0%R).
  { unfold bden. assert (K : 0 < qm1 k /\ 0 < qm2 k \/ qm1 k < 0 /\ qm2 k < 0) by (apply sign2; auto). destruct K as [[K L]|[K L]]; apply IZR_lt in K, L; nra. }
  rewrite (check_part _ _ _ _ _ _ H D). apply check_integer_inv in H. destruct H as (A & B & I & J & -> & ->).
  match goal with |- (Rabs ?e < 1)%R => replace e with (mobius (Block (Z.rem (pm1 k) (qm1 k)) (Z.rem (pm2 k) (qm2 k)) (qm1 k) (qm2 k)) x) by ring end.
  unfold mobius, bnum, bden. cbn [pm1 pm2 qm1 qm2]. apply lin_small; auto using rem_small.
Qed.

Lemma L_C63_check_integer_none : forall t k, block_check_integer t k = Ok None ->
  qm1 k = 0 \/ qm2 k = 0 \/ Z.quot (pm1 k) (qm1 k) <> Z.quot (pm2 k) (qm2 k).
Proof.
  intros t k. unfold block_check_integer. destruct (Z.eqb_spec (qm1 k) 0); [auto|]. destruct (Z.eqb_spec (qm2 k) 0); [auto|]. cbn [orb]. intros H.
  apply bind_Ok in H. destruct H as ((i1, s1) & D1 & H). apply bind_Ok in H. destruct H as ((i2, s2) & D2 & H).
  apply div_remT_inv in D1, D2. destruct D1 as (_ & -> & _), D2 as (_ & -> & _).
  destruct (Z.eqb_spec (Z.quot (pm1 k) (qm1 k)) (Z.quot (pm2 k) (qm2 k))); [discriminate|auto].
Qed.

Lemma L_C63_reduce_recip : forall t k i k', block_reduce_recip t k = Ok (Some i, k') ->
  forall x, bden k x <> 0%R -> mobius k x <> IZR i -> bden k' x <> 0%R /\ mobius k x = (IZR i + / mobius k' x)%R.
Proof.
  intros t k i k' H x D N. unfold block_reduce_recip in H. apply bind_Ok in H. destruct H as ([[[j r1] r2]|] & C & H); [|discriminate].
  injection H as -> <-. pose proof (check_part _ _ _ _ _ _ C D) as E. unfold mobius, bnum, bden in *. cbn [pm1 pm2 qm1 qm2] in *.
  rewrite E in *. set (v := (IZR (qm1 k) * x + IZR (qm2 k))%R) in *. set (u := (IZR r1 * x + IZR r2)%R) in *.
  assert (U : u <> 0%R) by (intros K; apply N; rewrite K; field; auto). split; [auto|]. field. auto.
Qed.

Lemma L_C63_reduce_mul : forall t k base i k', block_reduce_mul t k base = Ok (Some i, k') ->
  forall x, bden k x <> 0%R -> bden k' x <> 0%R /\ mobius k' x = (IZR base * (mobius k x - IZR i))%R.
Proof.
  intros t k base i k' H x D. unfold block_reduce_mul in H. apply bind_Ok in H. destruct H as ([[[j r1] r2]|] & C & H); [|discriminate].
  unfold lift2 in H. cbn [bind] in H. apply bind_Ok in H. destruct H as (y1 & Y1 & H). apply bind_Ok in H. destruct H as (y2 & Y2 & H).
  unfold mulT in Y1, Y2. apply chk_eq in Y1, Y2. subst. injection H as -> <-. pose proof (check_part _ _ _ _ _ _ C D) as E. rewrite E.
  unfold mobius, bnum, bden in *. cbn [pm1 pm2 qm1 qm2] in *. split; [auto|]. rewrite !mult_IZR. field. auto.
Qed.

Lemma cross_div (u v u' v' c : R) : c <> 0%R -> v' <> 0%R -> u = (c * u')%R -> v = (c * v')%R -> v <> 0%R /\ (u / v = u' / v')%R.
Proof.
  intros C V -> ->. split; [apply Rmult_integral_contrapositive; auto|]. field. auto.
Qed.

Lemma L_C64_rmove_down : forall t k a k' x y, dblock_rmove_down t k a = Ok k' -> y <> 0%R -> dbden k x (IZR a + / y) <> 0%R ->
  dbden k' x y <> 0%R /\ bimobius k' x y = bimobius k x (IZR a + / y).
Proof.
  intros t k a k' x y H Y D. apply down_inv in H. subst k'. unfold bimobius.
  apply (cross_div _ _ _ _ y); auto; unfold dbnum, dbden; cbn [pm11 pm12 pm21 pm22 qm11 qm12 qm21 qm22]; rewrite !plus_IZR, !mult_IZR; field; auto.
Qed.

Lemma L_C64_rmove_right_partial : forall t k a k' x y, dblock_rmove_right t k a = Ok k' -> x <> 0%R ->
  dbnum k' x y = (x * dbnum k (IZR a + / x) y)%R /\
  (dbden k' x y = x * dbden k (IZR a + / x) y - (IZR (a * qm12 k + qm22 k - qm12 k) * x + IZR (qm12 k - qm22 k)))%R.
Proof.
  intros t k a k' x y H X. unfold dblock_rmove_right in H. peel H. injection H as <-. unfold dbnum, dbden, dblock_update_right.
  cbn [pm11 pm12 pm21 pm22 qm11 qm12 qm21 qm22]. rewrite ?plus_IZR, ?minus_IZR, ?plus_IZR, ?mult_IZR. split; field; auto.
Qed.

Lemma L_C64_rmove_right_refuted : exists k a k' x y, dblock_rmove_right BigI k a = Ok k' /\ (x > 0)%R /\ (y > 0)%R /\
  dbden k (IZR a + / x) y <> 0%R /\ dbden k' x y <> 0%R /\ bimobius k' x y <> bimobius k (IZR a + / x) y.
Proof.
  exists (DBlock 0 1 0 0 0 0 0 1), 2, (DBlock 0 2 0 1 0 0 0 1), 3%R, 1%R. split; [reflexivity|].
  unfold bimobius, dbnum, dbden. cbn [pm11 pm12 pm21 pm22 qm11 qm12 qm21 qm22]. repeat split; try lra.
Qed.

Lemma L_C64_rmove_returns : forall t k a,
  (returns (dblock_rmove_right t k a) <-> forall m n, In (m, n) [(pm11 k, pm21 k); (qm11 k, qm21 k); (pm12 k, pm22 k); (qm12 k, qm22 k)] -> fits t (a * m) = true /\ fits t (a * m + n) = true) /\
  (returns (dblock_rmove_down t k a) <-> forall m n, In (m, n) [(pm11 k, pm12 k); (qm11 k, qm12 k); (pm21 k, pm22 k); (qm21 k, qm22 k)] -> fits t (a * m) = true /\ fits t (a * m + n) = true).
Proof.
  intros t k a. assert (G : forall (B : Type) (l : list (Z * Z)) (m1 n1 m2 n2 m3 n3 m4 n4 : Z) (h : Z -> Z -> Z -> Z -> B), l = [(m1, n1); (m2, n2); (m3, n3); (m4, n4)] ->
    returns (let! p := lift2 (addT t) (lift2 (mulT t) (Ok a) (Ok m1)) (Ok n1) in let! q := lift2 (addT t) (lift2 (mulT t) (Ok a) (Ok m2)) (Ok n2) in
             let! u := lift2 (addT t) (lift2 (mulT t) (Ok a) (Ok m3)) (Ok n3) in let! v := lift2 (addT t) (lift2 (mulT t) (Ok a) (Ok m4)) (Ok n4) in Ok (h p q u v)) <->
    forall m n, In (m, n) l -> fits t (a * m) = true /\ fits t (a * m + n) = true).
  { intros B l m1 n1 m2 n2 m3 n3 m4 n4 h ->. unfold lift2, mulT, addT, chk, returns. cbn [bind In].
    split.
    - intros (v & H).
      destruct (fits t (a * m1)) eqn:A1; cbn [bind] in H; [|discriminate]. destruct (fits t (a * m1 + n1)) eqn:B1; cbn [bind] in H; [|discriminate].
      destruct (fits t (a * m2)) eqn:A2; cbn [bind] in H; [|discriminate]. destruct (fits t (a * m2 + n2)) eqn:B2; cbn [bind] in H; [|discriminate].
      destruct (fits t (a * m3)) eqn:A3; cbn [bind] in H; [|discriminate]. destruct (fits t (a * m3 + n3)) eqn:B3; cbn [bind] in H; [|discriminate].
      destruct (fits t (a * m4)) eqn:A4; cbn [bind] in H; [|discriminate]. destruct (fits t (a * m4 + n4)) eqn:B4; cbn [bind] in H; [|discriminate].
      intros m n [E|[E|[E|[E|[]]]]]; injection E as <- <-; split; assumption.
    - intros H. destruct (H m1 n1 ltac:(auto)) as (-> & E1). cbn [bind]. rewrite E1. cbn [bind]. destruct (H m2 n2 ltac:(auto)) as (-> & E2). cbn [bind]. rewrite E2. cbn [bind].
      destruct (H m3 n3 ltac:(auto)) as (-> & E3). cbn [bind]. rewrite E3. cbn [bind]. destruct (H m4 n4 ltac:(auto)) as (-> & E4). cbn [bind]. rewrite E4. cbn [bind]. eauto. }
  split; apply G; reflexivity.
Qed.

Lemma L_C64_check_integer : forall t k i r11 r12 r21 r22, dblock_check_integer t k = Ok (inl (i, (r11, r12, r21, r22))) ->
  forall x y, dbden k x y <> 0%R ->
  bimobius k x y = (IZR i + bimobius (DBlock r11 r12 r21 r22 (qm11 k) (qm12 k) (qm21 k) (qm22 k)) x y)%R.
Proof.
  intros t k i r11 r12 r21 r22 H x y D. apply check4_inv in H. destruct H as ((N1 & I1 & ->) & (N2 & I2 & ->) & (N3 & I3 & ->) & (N4 & I4 & ->)).
  pose proof (Z.quot_rem (pm11 k) _ N1) as P1. pose proof (Z.quot_rem (pm12 k) _ N2) as P2. pose proof (Z.quot_rem (pm21 k) _ N3) as P3. pose proof (Z.quot_rem (pm22 k) _ N4) as P4.
  rewrite <- I1 in P1. rewrite <- I2 in P2. rewrite <- I3 in P3. rewrite <- I4 in P4.
  unfold bimobius, dbnum, dbden in *. cbn [pm11 pm12 pm21 pm22 qm11 qm12 qm21 qm22].
  rewrite P1 at 1. rewrite P2 at 1. rewrite P3 at 1. rewrite P4 at 1. rewrite !plus_IZR, !mult_IZR. field. auto.
Qed.

Lemma L_C64_reduce_recip : forall t k i k', dblock_reduce_recip t k = Ok (inl i, k') ->
  forall x y, dbden k x y <> 0%R -> bimobius k x y <> IZR i -> dbden k' x y <> 0%R /\ bimobius k x y = (IZR i + / bimobius k' x y)%R.
Proof.
  intros t k i k' H x y D N. unfold dblock_reduce_recip in H. apply bind_Ok in H. destruct H as ([[j [[[r11 r12] r21] r22]]|f] & C & H); [|discriminate].
  injection H as -> <-. pose proof (L_C64_check_integer _ _ _ _ _ _ _ C x y D) as E. unfold bimobius, dbnum, dbden in *. cbn [pm11 pm12 pm21 pm22 qm11 qm12 qm21 qm22] in *.
  rewrite E in *. set (v := (IZR (qm11 k) * (x * y) + IZR (qm12 k) * x + IZR (qm21 k) * y + IZR (qm22 k))%R) in *.
  set (u := (IZR r11 * (x * y) + IZR r12 * x + IZR r21 * y + IZR r22)%R) in *.
  assert (U : u <> 0%R) by (intros K; apply N; rewrite K; field; auto). split; [auto|]. field. auto.
Qed.
