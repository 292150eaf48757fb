(** * GenDecEnd: every call of decimals() answers on a source that ends. *)

From Coq Require Import ZArith Lia Bool List.
From Verif Require Import Base Ext ModelBlock ModelCF ModelGen Spec SpecGen SpecCF SpecEnd NumFacts CFSeq CFIter GenBlock GenSound GenConv GenLive GenHomo GenEnd.
Import ListNotations.
Open Scope Z_scope.

Lemma check_integer_big k : exists o, block_check_integer BigI k = Ok o.
Proof.
  unfold block_check_integer. destruct (Z.eqb_spec (qm1 k) 0); [eexists; reflexivity|]. destruct (Z.eqb_spec (qm2 k) 0); [eexists; reflexivity|]. cbn [orb].
  unfold div_remT, quotT, remT. rewrite (proj2 (Z.eqb_neq _ _) n), (proj2 (Z.eqb_neq _ _) n0). unfold chk, fits. cbn [bind]. eexists. reflexivity.
Qed.

Lemma dec_answer {I} (inext : I -> res (option (Z * Z) * I)) : forall l it k fuel, yields_list inext it l -> (length l < fuel)%nat ->
  dec_next BigI inext fuel (k, it) <> Hang /\ forall v k' it', dec_next BigI inext fuel (k, it) = Ok (Some v, (k', it')) -> exists l', yields_list inext it' l' /\ (length l' <= length l)%nat.
Proof.
  induction l as [|[a b] l IH]; intros it k fuel Y L; (destruct fuel as [|fuel]; [cbn [length] in L; lia|]); cbn [dec_next]; unfold checked, fits, unwrap; cbn [bind]; unfold block_reduce_mul;
    destruct (check_integer_big k) as ([[[i r1] r2]|] & E); rewrite E; cbn [bind].
  1,3: unfold lift2, mulT, addT, chk, fits; cbn [bind]; destruct ((0 <=? i) && (i <? 2 ^ 8)); cbn [bind]; [|split; [discriminate|intros; discriminate]];
    (match goal with |- context [if ?b then _ else _] => destruct b end); cbn [bind]; (split; [discriminate|intros v k' it' H; inversion H; subst; eauto]).
  - destruct (list_step _ _ _ Y) as (it' & St). rewrite St. cbn [bind]. split; [discriminate|intros; discriminate].
  - destruct (list_step _ _ _ Y) as (it' & St & Y'). rewrite St. cbn [bind]. destruct (checked_gmove_big k a b) as (p & q & k2 & M). rewrite M. cbn [bind].
    destruct (IH it' (block_update k2 p q) fuel Y') as [H1 H2]; [cbn [length] in L; lia|]. split; [exact H1|]. intros v k' it2 H. destruct (H2 v k' it2 H) as (l' & Y2 & L2). exists l'. split; [exact Y2|]. cbn [length]. lia.
Qed.

Lemma dec_answers {I} (inext : I -> res (option (Z * Z) * I)) : forall l n it k fuel, yields_list inext it l -> (length l < fuel)%nat ->
  nth_item (dec_next BigI inext fuel) n (k, it) <> Hang.
Proof.
  intros l n. revert l. induction n as [|n IH]; intros l it k fuel Y L; destruct (dec_answer inext l it k fuel Y L) as [H1 H2]; cbn [nth_item];
    (destruct (dec_next BigI inext fuel (k, it)) as [[[v|] [k' it']]|p|] eqn:E; cbn [bind]; try discriminate; try congruence).
  destruct (H2 v k' it' eq_refl) as (l' & Y' & L'). apply (IH l'); [exact Y'|lia].
Qed.
