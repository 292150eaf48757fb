(** * SurdTrans: exactly when == of surds fails to be transitive. *)

From Coq Require Import ZArith Znumtheory Reals Lia Lra Bool List.
From Coquelicot Require Import Coquelicot.
From Verif Require Import Base Ext ModelSurd Spec NumFacts Transfer SurdCore SurdRound ClaimsSurd.
Open Scope Z_scope.

(** what == implies, in integers *)
Definition like (l r : surd) : Prop :=
  c0 (coeffs l) * c2 (coeffs r) = c0 (coeffs r) * c2 (coeffs l) /\
  c1 (coeffs l) * c1 (coeffs l) * discr l * (c2 (coeffs r) * c2 (coeffs r)) = c1 (coeffs r) * c1 (coeffs r) * discr r * (c2 (coeffs l) * c2 (coeffs l)).

Lemma eq_like t l r : surd_eq t l r = Ok true -> like l r.
Proof.
  intros H. apply rle_surd_eq in H. unfold surd_eq in H. destruct l as [[la lb lc] ld], r as [[ra rb rc] rd]. unfold like. cbn [coeffs c0 c1 c2 discr] in *.
  destruct (Z.eqb_spec ld rd) as [->|D].
  - unfold sco_eqb in H. cbn [c0 c1 c2] in H. inversion H as [E]. apply andb_prop in E. destruct E as [E E3]. apply andb_prop in E. destruct E as [E1 E2].
    apply Z.eqb_eq in E1, E2, E3. subst. split; ring.
  - destruct ((ld =? 0) || (rd =? 0)); [discriminate|]. unfold lift2, mulT, chk, fits in H. cbn [bind] in H. destruct (Z.eqb_spec (la * rc) (ra * lc)) as [E|E]; cbn [negb] in H; [|discriminate].
    inversion H as [E2]. apply Z.eqb_eq in E2. split; [exact E|lia].
Qed.

Lemma like_trans x y z : c2 (coeffs y) <> 0 -> like x y -> like y z -> like x z.
Proof.
  unfold like. destruct x as [[a b c] d], y as [[a' b' c'] d'], z as [[e f h] k]. cbn [coeffs c0 c1 c2 discr]. intros C [A1 A2] [B1 B2]. split.
  - apply (Z.mul_reg_r _ _ c' C). transitivity (h * (a * c')); [ring|]. rewrite A1. transitivity (c * (a' * h)); [ring|]. rewrite B1. ring.
  - assert (N : c' * c' <> 0) by nia. apply (Z.mul_reg_r _ _ (c' * c') N). transitivity (h * h * (b * b * d * (c' * c'))); [ring|]. rewrite A2. transitivity (c * c * (b' * b' * d' * (h * h))); [ring|].
    rewrite B2. ring.
Qed.

Lemma like_value x z : c2 (coeffs x) <> 0 -> c2 (coeffs z) <> 0 -> like x z -> sval x = sval z \/ sval x = sconj z.
Proof.
  unfold like. destruct x as [[a b c] d], z as [[e f h] k]. cbn [coeffs c0 c1 c2 discr]. intros Cx Cz [A B].
  apply ZtoC_neq0 in Cx, Cz. unfold sval, sconj, parts. cbn [coeffs c0 c1 c2 discr].
  set (u := (ZtoC b * csqrt d * ZtoC h)%C). set (w := (ZtoC f * csqrt k * ZtoC c)%C).
  assert (S : (u * u = w * w)%C).
  { unfold u, w. transitivity (ZtoC b * ZtoC b * (csqrt d * csqrt d) * (ZtoC h * ZtoC h))%C; [ring|]. transitivity (ZtoC f * ZtoC f * (csqrt k * csqrt k) * (ZtoC c * ZtoC c))%C; [|ring].
    rewrite !csqrt_sq, <- !ZtoC_mul. f_equal. exact B. }
  assert (A' : (ZtoC a * ZtoC h = ZtoC e * ZtoC c)%C) by (rewrite <- !ZtoC_mul; f_equal; exact A).
  assert (F : ((u - w) * (u + w) = RtoC 0)%C) by (transitivity (u * u - w * w)%C; [ring|rewrite S; ring]).
  assert (Q : (u - w = RtoC 0)%C \/ (u + w = RtoC 0)%C).
  { destruct (Ceq_dec0 (u - w)%C) as [Z1|Z1]; [auto|]. right. replace (u + w)%C with (((u - w) * (u + w)) / (u - w))%C by (field; exact Z1). rewrite F. unfold Cdiv. ring. }
  assert (M : forall v, (ZtoC a * ZtoC h + u = ZtoC e * ZtoC c + v)%C -> ((ZtoC a + ZtoC b * csqrt d) / ZtoC c)%C = ((ZtoC e * ZtoC c + v) / (ZtoC c * ZtoC h))%C).
  { intros v E. rewrite <- E. unfold u. field. auto. }
  destruct Q as [Q|Q]; [left|right].
  - rewrite (M w); [unfold w; field; auto|]. rewrite A'. f_equal. replace u with (u - w + w)%C by ring. rewrite Q. ring.
  - rewrite (M (- w)%C); [unfold w; field; auto|]. rewrite A'. f_equal. replace u with (u + w - w)%C by ring. rewrite Q. ring.
Qed.

Lemma eq_trans_iff g t x y z b : normal g x -> normal g y -> normal g z -> surd_eq t x y = Ok true -> surd_eq t y z = Ok true -> surd_eq t x z = Ok b ->
  (b = true <-> sval x = sval z \/ discr x <> discr z).
Proof.
  intros Nx Ny Nz H1 H2 H3. pose proof (L_C08_eq_partial g t x z b Nx Nz H3) as K.
  assert (cx : c2 (coeffs x) <> 0) by (destruct x as [[a1 b1 e1] d1]; destruct Nx as (C & _); cbn [coeffs c2] in *; lia). assert (cy : c2 (coeffs y) <> 0) by (destruct y as [[a1 b1 e1] d1]; destruct Ny as (C & _); cbn [coeffs c2] in *; lia).
  assert (cz : c2 (coeffs z) <> 0) by (destruct z as [[a1 b1 e1] d1]; destruct Nz as (C & _); cbn [coeffs c2] in *; lia).
  pose proof (like_value x z cx cz (like_trans x y z cy (eq_like t x y H1) (eq_like t y z H2))) as D. rewrite K. tauto.
Qed.
