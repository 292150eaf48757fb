(** * GenBlock: facts about [Block], the 2x2 matrices behind the iterators of general.rs and infinite.rs. *)

From Coq Require Import ZArith Reals Lia Lra Psatz Bool List.
From Coquelicot Require Import Coquelicot.
From Verif Require Import Base Ext ModelBlock ModelGen Spec SpecGen NumFacts.
Import ListNotations.
Open Scope Z_scope.

(** ** Checked arithmetic is exact if it returns *)
Lemma chk_eq t z v : chk t z = Ok v -> v = z.
Proof. unfold chk. destruct (fits t z); congruence. Qed.

Lemma bind_assoc {A B C} (m : res A) (f : A -> res B) (h : B -> res C) : bind (bind m f) h = bind m (fun x => bind (f x) h).
Proof. destruct m; reflexivity. Qed.

Ltac opn H :=
  repeat match type of H with
  | context [lift2 _ _ _] => unfold lift2 in H
  | context [addT _ _ _] => unfold addT in H
  | context [mulT _ _ _] => unfold mulT in H
  | context [subT _ _ _] => unfold subT in H
  | bind (Ok _) _ = _ => cbn [bind] in H
  end.

Ltac peel H :=
  opn H;
  repeat match type of H with
  | bind (chk ?t ?z) _ = Ok _ =>
    let E := fresh "E" in destruct (chk t z) eqn:E; cbn [bind] in H; [apply chk_eq in E; subst|discriminate H|discriminate H]; opn H
  | bind (bind _ _) _ = Ok _ => rewrite bind_assoc in H; opn H
  end.

Lemma quotT_inv t x y v : quotT t x y = Ok v -> y <> 0 /\ v = Z.quot x y.
Proof. unfold quotT. destruct (y =? 0) eqn:E; [discriminate|]. apply Z.eqb_neq in E. intros H. apply chk_eq in H. auto. Qed.

Lemma remT_inv t x y v : remT t x y = Ok v -> y <> 0 /\ v = Z.rem x y.
Proof.
  unfold remT. destruct (y =? 0) eqn:E; [discriminate|]. apply Z.eqb_neq in E. destruct (chk t (Z.quot x y)); cbn [bind]; try discriminate.
  intros H. inversion H. auto.
Qed.

Lemma div_remT_inv t x y q r : div_remT t x y = Ok (q, r) -> y <> 0 /\ q = Z.quot x y /\ r = Z.rem x y.
Proof.
  unfold div_remT. destruct (quotT t x y) eqn:E; cbn [bind]; try discriminate. destruct (remT t x y) eqn:F; cbn [bind]; try discriminate.
  intros H. inversion H; subst. apply quotT_inv in E. apply remT_inv in F. tauto.
Qed.

Lemma gcdT_inv t x y v : gcdT t x y = Ok v -> v = Z.gcd x y.
Proof. apply chk_eq. Qed.

(** ** One move: the next block times a positive number is the old one times (b 1; a 0) *)
Definition moved (k : block) (a b : Z) (k' : block) : Prop :=
  exists g, 1 <= g /\ g * pm1 k' = pm1 k * b + pm2 k * a /\ g * pm2 k' = pm1 k /\
    g * qm1 k' = qm1 k * b + qm2 k * a /\ g * qm2 k' = qm1 k.

Lemma quot_div x g : 1 <= g -> (g | x) -> g * Z.quot x g = x.
Proof. intros Hg [k ->]. rewrite Z.quot_mul by lia. ring. Qed.

Lemma gcd4_div p q x y : let g := Z.gcd (Z.gcd (Z.gcd p q) x) y in (g | p) /\ (g | q) /\ (g | x) /\ (g | y).
Proof.
  cbv zeta. pose proof (Z.gcd_divide_l (Z.gcd (Z.gcd p q) x) y) as A. pose proof (Z.gcd_divide_r (Z.gcd (Z.gcd p q) x) y) as B.
  pose proof (Z.gcd_divide_l (Z.gcd p q) x) as C. pose proof (Z.gcd_divide_r (Z.gcd p q) x) as D.
  pose proof (Z.gcd_divide_l p q) as E. pose proof (Z.gcd_divide_r p q) as F.
  repeat split; eauto using Z.divide_trans.
Qed.

Lemma gmove_inv t k a b k' : block_gmove t k a b = Ok k' -> moved k a b k'.
Proof.
  unfold block_gmove. intros H. peel H.
  destruct (gcdT t _ _) as [g1| |] eqn:G1; cbn [bind] in H; try discriminate. apply gcdT_inv in G1. subst g1.
  destruct (gcdT t _ (pm1 k)) as [g1| |] eqn:G1; cbn [bind] in H; try discriminate. apply gcdT_inv in G1. subst g1.
  destruct (gcdT t _ (qm1 k)) as [g1| |] eqn:G1; cbn [bind] in H; try discriminate. apply gcdT_inv in G1.
  pose proof (gcd4_div (pm1 k * b + pm2 k * a) (qm1 k * b + qm2 k * a) (pm1 k) (qm1 k)) as D. cbv zeta in D. rewrite <- G1 in D. clear G1.
  destruct D as (D1 & D2 & D3 & D4). unfold moved. destruct (1 <? g1) eqn:L.
  - apply Z.ltb_lt in L.
    destruct (quotT t (pm1 k) g1) as [x| |] eqn:X; cbn [bind] in H; try discriminate. apply quotT_inv in X. destruct X as [_ ->].
    destruct (quotT t (qm1 k) g1) as [x| |] eqn:X; cbn [bind] in H; try discriminate. apply quotT_inv in X. destruct X as [_ ->].
    destruct (quotT t (pm1 k * b + pm2 k * a) g1) as [x| |] eqn:X; cbn [bind] in H; try discriminate. apply quotT_inv in X. destruct X as [_ ->].
    destruct (quotT t (qm1 k * b + qm2 k * a) g1) as [x| |] eqn:X; cbn [bind] in H; try discriminate. apply quotT_inv in X. destruct X as [_ ->].
    inversion H; subst k'. cbn [block_update pm1 pm2 qm1 qm2]. exists g1. rewrite !quot_div by (assumption || lia). repeat split; auto; lia.
  - inversion H; subst k'. cbn [block_update pm1 pm2 qm1 qm2]. exists 1. repeat split; lia.
Qed.

Lemma rmove_inv t k v k' : block_rmove t k v = Ok k' -> moved k 1 v k'.
Proof.
  unfold block_rmove, moved. intros H. peel H. inversion H; subst k'. cbn [block_update pm1 pm2 qm1 qm2]. exists 1. repeat split; lia.
Qed.

Lemma checked_gmove_inv t k a b p q k1 : block_checked_gmove t k a b = Ok (Some (p, q), k1) -> moved k a b (block_update k1 p q).
Proof.
  unfold block_checked_gmove. intros H.
  unfold checked_mul, checked_add, checked in H.
  destruct (fits t (b * pm1 k)); cbn [obind] in H; [|discriminate]. destruct (fits t (a * pm2 k)); cbn [obind] in H; [|discriminate].
  destruct (fits t (b * pm1 k + a * pm2 k)); cbn [obind] in H; [|discriminate]. destruct (fits t (b * qm1 k)); cbn [obind] in H; [|discriminate].
  destruct (fits t (a * qm2 k)); cbn [obind] in H; [|discriminate]. destruct (fits t (b * qm1 k + a * qm2 k)); cbn [obind] in H; [|discriminate].
  destruct (gcdT t _ _) as [g1| |] eqn:G1; cbn [bind] in H; try discriminate. apply gcdT_inv in G1. subst g1.
  destruct (gcdT t _ (pm1 k)) as [g1| |] eqn:G1; cbn [bind] in H; try discriminate. apply gcdT_inv in G1. subst g1.
  destruct (gcdT t _ (qm1 k)) as [g1| |] eqn:G1; cbn [bind] in H; try discriminate. apply gcdT_inv in G1.
  pose proof (gcd4_div (b * pm1 k + a * pm2 k) (b * qm1 k + a * qm2 k) (pm1 k) (qm1 k)) as D. cbv zeta in D. rewrite <- G1 in D. clear G1.
  destruct D as (D1 & D2 & D3 & D4). unfold moved. destruct (1 <? g1) eqn:L; opn H; cbn [bind] in H.
  - apply Z.ltb_lt in L.
    destruct (quotT t (pm1 k) g1) as [x| |] eqn:X; cbn [bind] in H; try discriminate. apply quotT_inv in X. destruct X as [_ ->].
    destruct (quotT t (qm1 k) g1) as [x| |] eqn:X; cbn [bind] in H; try discriminate. apply quotT_inv in X. destruct X as [_ ->].
    destruct (quotT t (b * pm1 k + a * pm2 k) g1) as [x| |] eqn:X; cbn [bind] in H; try discriminate. apply quotT_inv in X. destruct X as [_ ->].
    destruct (quotT t (b * qm1 k + a * qm2 k) g1) as [x| |] eqn:X; cbn [bind] in H; try discriminate. apply quotT_inv in X. destruct X as [_ ->].
    injection H as <- <- <-. cbn [block_update pm1 pm2 qm1 qm2]. exists g1. rewrite !quot_div by (assumption || lia). repeat split; auto; lia.
  - injection H as <- <- <-. cbn [block_update pm1 pm2 qm1 qm2]. exists 1. repeat split; lia.
Qed.

Lemma check_integer_inv t k i r1 r2 : block_check_integer t k = Ok (Some (i, r1, r2)) ->
  qm1 k <> 0 /\ qm2 k <> 0 /\ i = Z.quot (pm1 k) (qm1 k) /\ i = Z.quot (pm2 k) (qm2 k) /\ r1 = Z.rem (pm1 k) (qm1 k) /\ r2 = Z.rem (pm2 k) (qm2 k).
Proof.
  unfold block_check_integer. destruct ((qm1 k =? 0) || (qm2 k =? 0)); [discriminate|].
  destruct (div_remT t (pm1 k) (qm1 k)) as [[i1 x1]| |] eqn:D1; cbn [bind]; try discriminate.
  destruct (div_remT t (pm2 k) (qm2 k)) as [[i2 x2]| |] eqn:D2; cbn [bind]; try discriminate.
  apply div_remT_inv in D1, D2. destruct (i1 =? i2) eqn:E; [|discriminate]. apply Z.eqb_eq in E. intros H. inversion H; subst. intuition congruence.
Qed.
