(** * CFSign0: the same as CFSign for lists that start with 0. *)

From Coq Require Import ZArith Znumtheory Reals Lia Lra Bool List Arith.
From Coquelicot Require Import Coquelicot.
From Verif Require Import Base Ext ModelBlock ModelCF Spec SpecCF NumFacts Transfer SurdCore RatioFacts SurdArith CFCore CFSeq CFIter CFBasic CFSurd CFNew CFSigned CFAny CFSign.
Import ListNotations.
Open Scope Z_scope.

(** values up to one: the first coefficient is 0 and the second is not *)
Definition low (rev : list Z) : Prop := last rev 0 = 0 /\ (2 <= length rev)%nat /\ rev <> [0; 0].
(** values from one on; [0; 0] stands for 1/0 *)
Definition high (rev : list Z) : Prop := rev = [0; 0] \/ 1 <= last rev 0.

Lemma wfr_removelast l v : wfr (l ++ [v]) -> l <> nil -> wfr l /\ 1 <= last l 0.
Proof.
  induction l as [|a l IH]; intros W N; [congruence|]. destruct l as [|b l].
  - cbn in W. cbn. lia.
  - change ((a :: b :: l) ++ [v]) with (a :: (b :: l) ++ [v]) in W. apply wfr_tail in W; [|discriminate]. destruct W as [H W].
    destruct (IH W ltac:(discriminate)) as [W' L]. split; [apply wfr_cons; auto|]. exact L.
Qed.
Lemma low_le rev : alive rev -> low rev -> num rev <= den rev.
Proof.
  intros [_ G] (L & Len & N). destruct (exists_last (l := rev)) as (l & v & ->); [intros ->; cbn in Len; lia|]. rewrite last_last in L. subst v.
  rewrite app_length in Len. cbn [length] in Len. unfold num, den. rewrite evp_app. cbn [fst snd].
  assert (Al : alive l /\ 1 <= last l 0).
  { destruct l as [|a l]; [cbn in Len; lia|]. change ((a :: l) ++ [0]) with (a :: l ++ [0]) in G. destruct G as [G0 [G|G]]; [destruct l; discriminate|].
    destruct l as [|b l].
    - assert (a <> 0) by (intros ->; apply N; reflexivity). split; [split; [discriminate|split; auto]|cbn; lia].
    - destruct (wfr_removelast (b :: l) 0 G ltac:(discriminate)) as [W' L']. split; [split; [discriminate|split; auto]|exact L']. }
  destruct Al as [Al L1]. pose proof (alive_first l Al L1) as H. unfold num, den in H. lia.
Qed.
Lemma high_ge rev : alive rev -> high rev -> den rev <= num rev.
Proof. intros Al [->|L]; [vm_compute; discriminate|apply alive_first; auto]. Qed.

Section Sign0.
Context (g : cfg) (t : ity).

Definition moves (s : bool) (st : nst) : Prop := exists ng' rev', st = NSt ng' (Some s) rev' /\ (low rev' \/ (high rev' /\ den rev' < num rev') \/ num rev' = 0).

Lemma absorb_low ng s rev a st : wfr rev -> rev <> [0] -> last rev 0 = 0 -> a < 0 -> new_absorb g t ng (Some s) rev a = Ok st -> moves s st.
Proof.
  intros W N0 L Ha H. destruct rev as [|am1 rest]; [contradiction|]. cbn [new_absorb] in H.
  destruct (dassert g (0 <=? am1)); [|discriminate|discriminate]. cbn [bind] in H.
  pose proof (wfr_hd _ _ W) as H0. pose proof (wfr_tail' _ _ W) as Wr.
  destruct rest as [|am2 rest2]; [exfalso; cbn in L; subst; congruence|].
  assert (L2 : last (am2 :: rest2) 0 = 0) by exact L.
  destruct (Z.eqb_spec am1 1) as [->|N1].
  - destruct (lift2 (addT t) _ _) as [y| |] eqn:Ey; [|discriminate|discriminate]. cbn [bind] in H. apply lift_add in Ey.
    destruct (lift2 (subT t) (lift2 _ _ _) _) as [x| |] eqn:E; [|discriminate|discriminate]. cbn [bind] in H. apply lift_sub2 in E. inversion H; subst st.
    exists (negb ng), (x :: y :: rest2). split; [reflexivity|]. destruct rest2 as [|z rest2].
    + right; left. cbn in L2. split; [right; cbn; lia|]. unfold num, den. cbn [evp fst snd]. lia.
    + left. split; [exact L2|]. split; [cbn; lia|discriminate].
  - destruct (Z.eqb_spec am1 0) as [->|Nz].
    + exfalso. apply wfr_tail in W; [|discriminate]. lia.
    + destruct (dassert g (1 <? am1)); [|discriminate|discriminate]. cbn [bind] in H.
      destruct (lift2 (subT t) (Ok am1) _) as [y| |] eqn:Ey; [|discriminate|discriminate]. cbn [bind] in H. apply lift_sub in Ey.
      destruct (lift2 (subT t) (lift2 _ _ _) _) as [x| |] eqn:E; [|discriminate|discriminate]. cbn [bind] in H. apply lift_sub2 in E. inversion H; subst st.
      exists (negb ng), (x :: 1 :: y :: am2 :: rest2). split; [reflexivity|]. left. split; [exact L2|]. split; [cbn; lia|discriminate].
Qed.

Lemma step_low ng s rev a st : alive rev -> num rev <> 0 -> low rev -> new_step g t (NSt ng (Some s) rev) a = Ok st -> moves s st.
Proof.
  intros [Nn G] A (L & Len & N00) H. unfold new_step in H.
  destruct (if ng then lift2 (subT t) (Ok 0) (Ok a) else Ok a) as [a'| |]; [|discriminate|discriminate]. cbn [bind] in H.
  destruct rev as [|l0 rest]; [congruence|]. destruct G as [G0 G]. destruct rest as [|am2 rest2]; [cbn in Len; lia|]. destruct G as [G|G]; [discriminate|].
  assert (L2 : last (am2 :: rest2) 0 = 0) by exact L. pose proof (wfr_hd _ _ G) as Hm.
  assert (R2 : l0 = 0 -> rest2 <> nil) by (intros -> ->; cbn in L2; subst; congruence).
  destruct (Z.eqb_spec a' 0) as [Z0|Nz].
  - destruct (Z.eqb_spec l0 0) as [->|Nl]; inversion H; subst st.
    + specialize (R2 eq_refl). exists ng, (am2 :: rest2). split; [reflexivity|]. left. split; [exact L2|]. split; [destruct rest2; [congruence|cbn; lia]|].
      intros Q. rewrite Q in G. cbn in G. lia.
    + exists ng, (a' :: l0 :: am2 :: rest2). split; [reflexivity|]. left. split; [exact L|]. split; [cbn; lia|discriminate].
  - destruct (Z.ltb_spec a' 0) as [Neg|Pos].
    + destruct (Z.eq_dec l0 0) as [->|Nl].
      * specialize (R2 eq_refl). cbn [new_absorb] in H. destruct (dassert g (0 <=? 0)); [|discriminate|discriminate]. cbn [bind] in H. change (0 =? 1) with false in H. change (0 =? 0) with true in H. cbv iota in H.
        destruct (lift2 (addT t) _ _) as [nt| |] eqn:E; [|discriminate|discriminate]. cbn [bind] in H. apply lift_add in E.
        destruct rest2 as [|z rest2]; [congruence|]. apply wfr_tail in G; [|discriminate]. destruct G as [G1 G].
        destruct (Z.ltb_spec nt 0) as [Hn|Hn].
        -- apply (absorb_low ng s (z :: rest2) nt st G); auto. intros Q. inversion Q; subst z rest2. apply A. apply num_pair.
        -- inversion H; subst st. exists ng, (nt :: z :: rest2). split; [reflexivity|].
           destruct (list_eq_dec Z.eq_dec (nt :: z :: rest2) [0; 0]) as [Q|Q].
           ++ rewrite Q. right; left. split; [left; reflexivity|]. vm_compute. reflexivity.
           ++ left. split; [exact L2|]. split; [cbn; lia|exact Q].
      * apply (absorb_low ng s (l0 :: am2 :: rest2) a' st); auto.
        -- apply wfr_cons; [lia|exact G].
        -- discriminate.
    + destruct (Z.eqb_spec l0 0) as [->|Nl].
      * specialize (R2 eq_refl). destruct (lift2 (addT t) _ _) as [x| |] eqn:E; [|discriminate|discriminate]. cbn [bind] in H. apply lift_add in E. inversion H; subst st.
        exists ng, (x :: rest2). split; [reflexivity|]. left. destruct rest2 as [|z rest2]; [congruence|]. split; [exact L2|]. split; [cbn; lia|]. intros Q. inversion Q. lia.
      * inversion H; subst st. exists ng, (a' :: l0 :: am2 :: rest2). split; [reflexivity|]. left. split; [exact L|]. split; [cbn; lia|discriminate].
Qed.

Lemma step_inf ng s a st : new_step g t (NSt ng (Some s) [0; 0]) a = Ok st -> exists ng' rev', st = NSt ng' (Some s) rev' /\ (1 <= last rev' 0 \/ num rev' = 0).
Proof.
  intros H. unfold new_step in H. destruct (if ng then lift2 (subT t) (Ok 0) (Ok a) else Ok a) as [a'| |]; [|discriminate|discriminate]. cbn [bind] in H.
  destruct (Z.eqb_spec a' 0) as [Z0|Nz].
  - change (0 =? 0) with true in H. cbv iota in H. inversion H; subst st. exists ng, [0]. split; [reflexivity|]. right. reflexivity.
  - destruct (Z.ltb_spec a' 0) as [Neg|Pos].
    + exfalso. cbn [new_absorb] in H. destruct (dassert g (0 <=? 0)); [|discriminate|discriminate]. cbn [bind] in H. change (0 =? 1) with false in H. change (0 =? 0) with true in H. cbv iota in H.
      destruct (lift2 (addT t) _ _) as [nt| |] eqn:E; [|discriminate|discriminate]. cbn [bind] in H. apply lift_add in E. destruct (Z.ltb_spec nt 0); [discriminate|lia].
    + change (0 =? 0) with true in H. cbv iota in H. destruct (lift2 (addT t) _ _) as [x| |] eqn:E; [|discriminate|discriminate]. cbn [bind] in H. apply lift_add in E. inversion H; subst st.
      exists ng, [x]. split; [reflexivity|]. left. cbn. lia.
Qed.

(** ** The whole list *)

Definition above (l : list Z) : Prop := Z.abs (snd (quotient l)) < Z.abs (fst (quotient l)).
Definition fell (l : list Z) : Prop := exists i j, (1 <= i <= j)%nat /\ above (firstn i l) /\ below (firstn j l).
Definition flags0 (s0 : bool) (pr : list Z) (nv : bool) (rev : list Z) : Prop :=
  (nv = s0 /\ low rev /\ forall n, (1 <= n)%nat -> ~ above (firstn n (List.rev pr))) \/
  (nv = s0 /\ high rev /\ (exists n, (1 <= n)%nat /\ above (firstn n (List.rev pr))) /\ ~ fell (List.rev pr)) \/
  (nv = false /\ fell (List.rev pr)) \/ num rev = 0.
Definition inv0 (b s0 : bool) (pr : list Z) (st : nst) : Prop := exists ng nv rev c, st = NSt ng (Some nv) rev /\ alive rev /\ unit c /\
  (forall x y, sgnb b * fst (evp pr (x, y)) = c * sgnb s0 * fst (evp rev (sgnb ng * x, y)) /\ snd (evp pr (x, y)) = c * snd (evp rev (sgnb ng * x, y))) /\
  flags0 s0 pr nv rev.

Lemma firstn_le_snoc (n : nat) (l : list Z) a : (n <= length l)%nat -> firstn n (l ++ [a]) = firstn n l.
Proof. intros H. rewrite firstn_app. replace (n - length l)%nat with 0%nat by lia. cbn. apply app_nil_r. Qed.
Lemma above_snoc l a n : (1 <= n)%nat -> (1 <= length l)%nat -> above (firstn n l) -> exists m, (1 <= m <= length l)%nat /\ above (firstn m (l ++ [a])).
Proof.
  intros Hn Hl A. exists (Nat.min n (length l)). split; [lia|]. rewrite firstn_le_snoc by lia.
  destruct (le_lt_dec n (length l)) as [H|H]; [rewrite Nat.min_l by lia; exact A|]. rewrite Nat.min_r by lia. rewrite firstn_all. rewrite firstn_all2 in A by lia. exact A.
Qed.
Lemma fell_snoc l a : fell l -> (1 <= length l)%nat -> fell (l ++ [a]).
Proof.
  intros (i & j & Hij & A & B) Hl. exists (Nat.min i (length l)), (Nat.min j (length l)). split; [lia|]. rewrite !firstn_le_snoc by lia.
  assert (K : forall k, firstn (Nat.min k (length l)) l = firstn k l).
  { intros k. destruct (le_lt_dec k (length l)) as [H|H]; [rewrite Nat.min_l by lia; reflexivity|]. rewrite Nat.min_r by lia. rewrite firstn_all, firstn_all2 by lia. reflexivity. }
  rewrite !K. auto.
Qed.

Lemma inv0_step b s0 pr st a st' : inv0 b s0 pr st -> pr <> nil -> fst (evp pr (1, 0)) <> 0 -> new_step g t st a = Ok st' -> inv0 b s0 (a :: pr) st'.
Proof.
  intros (ng & nv & rev & c & -> & Al & Uc & V & F) Np P0 H.
  destruct (inv_prefix _ _ _ _ _ _ Al Uc V) as (Ep & _ & _). assert (A0 : num rev <> 0) by lia.
  destruct (step_first g t ng nv rev a st' Al A0 H) as (ng' & nv' & rev' & Est & Al' & (c' & Uc' & V') & O).
  assert (V2 : forall x y, sgnb b * fst (evp (a :: pr) (x, y)) = (c * c') * sgnb s0 * fst (evp rev' (sgnb ng' * x, y)) /\ snd (evp (a :: pr) (x, y)) = (c * c') * snd (evp rev' (sgnb ng' * x, y))).
  { intros x y. cbn [evp fst snd]. destruct (V (a * x + y) x) as [V1 V3]. destruct (V' x y) as [V4 V5]. rewrite V1, V3, V4, V5. split; ring. }
  assert (Ucc : unit (c * c')) by (apply unit_mul; auto).
  exists ng', nv', rev', (c * c'). split; [exact Est|]. split; [auto|]. split; [auto|]. split; [exact V2|].
  destruct (inv_prefix _ _ _ _ _ _ Al' Ucc V2) as (Ep' & Eq' & _).
  assert (Bl : below (List.rev (a :: pr)) <-> num rev' < den rev') by (unfold below; rewrite quotient_evp, Ep', Eq'; reflexivity).
  assert (Ab : above (List.rev (a :: pr)) <-> den rev' < num rev') by (unfold above; rewrite quotient_evp, Ep', Eq'; reflexivity).
  assert (Snoc : List.rev (a :: pr) = List.rev pr ++ [a]) by reflexivity.
  assert (Len : (1 <= length (List.rev pr))%nat) by (rewrite rev_length; destruct pr; [congruence|cbn; lia]).
  unfold flags0. destruct F as [(-> & Lo & B)|[(-> & Hi & (n & Hn & B) & Nf)|[(-> & Fe)|F]]]; [| | |contradiction].
  - destruct (step_low ng s0 rev a st' Al A0 Lo H) as (ng2 & rev2 & E2 & M). rewrite Est in E2. inversion E2; subst ng2 nv' rev2.
    destruct M as [M|[(M & M2)|M]]; [| |auto].
    + left. split; [reflexivity|]. split; [exact M|]. intros n Hn. pose proof (low_le _ Al' M) as Le. rewrite Snoc in *.
      destruct (firstn_snoc n (List.rev pr) a) as [-> | ->]; [apply B; auto|]. intros K. apply Ab in K. lia.
    + right; left. split; [reflexivity|]. split; [exact M|]. split.
      * exists (length (List.rev (a :: pr))). split; [rewrite Snoc, app_length; lia|]. rewrite firstn_all. apply Ab. exact M2.
      * intros (i & j & Hij & A & B2). rewrite Snoc in *. destruct (firstn_snoc i (List.rev pr) a) as [Ei|Ei]; rewrite Ei in A; [apply (B i); [lia|exact A]|].
        assert (Lj : (length (List.rev pr ++ [a]) <= j)%nat).
        { destruct (le_lt_dec (length (List.rev pr ++ [a])) i) as [K|K]; [lia|]. exfalso. apply (f_equal (@length Z)) in Ei. rewrite firstn_length in Ei. lia. }
        rewrite firstn_all2 in B2 by exact Lj. apply Bl in B2. lia.
  - assert (C : (nv' = s0 /\ (high rev' \/ num rev' = 0)) \/ (nv' = false /\ num rev' < den rev')).
    { destruct Hi as [->|L].
      - destruct (step_inf ng s0 a st' H) as (ng2 & rev2 & E2 & M). rewrite Est in E2. inversion E2; subst ng2 nv' rev2. left. split; [reflexivity|]. destruct M as [M|M]; [left; right; exact M|auto].
      - destruct O as [(-> & O)|O]; [|auto]. left. split; [reflexivity|]. destruct (O L); [left; right; auto|auto]. }
    destruct (above_snoc (List.rev pr) a n Hn Len B) as (m & Hm & Am).
    destruct C as [(-> & [C|C])|(-> & C)]; [|auto|].
    + right; left. split; [reflexivity|]. split; [exact C|]. rewrite Snoc in *. split; [exists m; split; [lia|exact Am]|].
      pose proof (high_ge _ Al' C) as Ge. intros (i & j & Hij & A & B2). destruct (firstn_snoc j (List.rev pr) a) as [Ej|Ej]; rewrite Ej in B2; [|apply Bl in B2; lia].
      destruct (firstn_snoc i (List.rev pr) a) as [Ei|Ei]; rewrite Ei in A; [apply Nf; exists i, j; auto|].
      assert (Lj : (length (List.rev pr ++ [a]) <= j)%nat).
      { destruct (le_lt_dec (length (List.rev pr ++ [a])) i) as [K|K]; [lia|]. exfalso. apply (f_equal (@length Z)) in Ei. rewrite firstn_length in Ei. lia. }
      apply (f_equal (@length Z)) in Ej. rewrite firstn_all2 in Ej by exact Lj. rewrite app_length, firstn_length in Ej. cbn [length] in Ej. lia.
    + right; right; left. split; [reflexivity|]. rewrite Snoc in *. exists m, (length (List.rev pr ++ [a])). split; [rewrite app_length; lia|]. split; [exact Am|]. rewrite firstn_all. apply Bl. exact C.
  - right; right; left. split; [destruct O as [(-> & _)|(-> & _)]; reflexivity|]. rewrite Snoc. apply fell_snoc; auto.
Qed.

Lemma inv0_loop b s0 l : forall pr st st', inv0 b s0 pr st -> pr <> nil -> (forall n, (n < length l)%nat -> fst (quotient (List.rev pr ++ firstn n l)) <> 0) -> new_loop g t st l = Ok st' -> inv0 b s0 (List.rev l ++ pr) st'.
Proof.
  induction l as [|a l IH]; intros pr st st' I Np N H; [inversion H; subst; exact I|]. cbn [new_loop] in H.
  destruct (new_step g t st a) as [st1| |] eqn:E; [|discriminate|discriminate]. cbn [bind] in H.
  assert (P0 : fst (evp pr (1, 0)) <> 0) by (rewrite <- quotient_evp; specialize (N 0%nat ltac:(cbn; lia)); cbn [firstn] in N; rewrite app_nil_r in N; exact N).
  pose proof (inv0_step b s0 pr st a st1 I Np P0 E) as I1. specialize (IH (a :: pr) st1 st' I1 ltac:(discriminate)). cbn [List.rev]. rewrite <- app_assoc. cbn [app]. apply IH; [|exact H].
  intros n Hn. specialize (N (Datatypes.S n) ltac:(cbn; lia)). cbn [firstn] in N. cbn [List.rev]. rewrite <- app_assoc. exact N.
Qed.


Lemma inv0_start b a1 st : a1 <> 0 -> new_loop g t (NSt b None nil) [0; a1] = Ok st -> inv0 b (sgnb b * a1 <? 0) [a1; 0] st.
Proof.
  intros N H. cbn [new_loop] in H.
  assert (E0 : forall st1, new_step g t (NSt b None nil) 0 = Ok st1 -> st1 = NSt b None [0]).
  { intros st1 E. unfold new_step in E. destruct (if b then lift2 (subT t) (Ok 0) (Ok 0) else Ok 0) as [a'| |] eqn:Ea; [|discriminate|discriminate]. cbn [bind] in E. apply flip_ok in Ea.
    rewrite Z.mul_0_r in Ea. subst a'. inversion E. reflexivity. }
  destruct (new_step g t (NSt b None nil) 0) as [st1| |] eqn:E; [|discriminate|discriminate]. rewrite (E0 st1 eq_refl) in H. clear E E0 st1. cbn [bind] in H.
  destruct (new_step g t (NSt b None [0]) a1) as [st1| |] eqn:E; [|discriminate|discriminate]. cbn [bind] in H. inversion H; subst st1. clear H. unfold new_step in E.
  destruct (if b then lift2 (subT t) (Ok 0) (Ok a1) else Ok a1) as [a'| |] eqn:Ea; [|discriminate|discriminate]. cbn [bind] in E. apply flip_ok in Ea.
  pose proof (unit_sgnb b) as Ub. rewrite <- Ea. assert (N' : a' <> 0) by (destruct Ub as [U|U]; rewrite U in Ea; lia).
  assert (B : forall n, (1 <= n)%nat -> ~ above (firstn n (List.rev [a1; 0]))).
  { intros n Hn. unfold above. destruct n as [|[|n]]; [lia|cbn; lia|]. cbn [List.rev app firstn]. rewrite firstn_nil. cbn [quotient fst snd]. lia. }
  destruct (Z.eqb_spec a' 0); [contradiction|]. destruct (Z.ltb_spec a' 0) as [L|L].
  - cbn [new_absorb] in E. destruct (dassert g (0 <=? 0)); [|discriminate|discriminate]. cbn [bind] in E. change (0 =? 1) with false in E. change (0 =? 0) with true in E. cbv iota in E.
    destruct (lift2 (subT t) _ _) as [x| |] eqn:Ex; [|discriminate|discriminate]. cbn [bind] in E. apply lift_sub in Ex. inversion E; subst st.
    exists (negb b), true, [x; 0], 1. split; [reflexivity|]. split; [split; [discriminate|split; [lia|right; cbn; lia]]|].
    split; [left; reflexivity|]. split.
    + intros p q. rewrite sgnb_negb. cbn [evp fst snd sgnb]. subst x. subst a'. clear -Ub. destruct Ub as [-> | ->]; split; ring.
    + left. split; [reflexivity|]. split; [split; [reflexivity|split; [cbn; lia|]]; intros Q; inversion Q; lia|exact B].
  - inversion E; subst st.
    exists b, false, [a'; 0], 1. split; [reflexivity|]. split; [split; [discriminate|split; [lia|right; cbn; lia]]|]. split; [left; reflexivity|]. split.
    + intros p q. cbn [evp fst snd sgnb]. subst a'. clear -Ub. destruct Ub as [-> | ->]; split; ring.
    + left. split; [reflexivity|]. split; [split; [reflexivity|split; [cbn; lia|]]; intros Q; inversion Q; lia|exact B].
Qed.

Lemma new_inv0 b a1 l st : a1 <> 0 -> (forall n, (2 <= n <= S (length l))%nat -> fst (quotient (firstn n (0 :: a1 :: l))) <> 0) -> new_loop g t (NSt b None nil) (0 :: a1 :: l) = Ok st ->
  inv0 b (sgnb b * a1 <? 0) (List.rev (0 :: a1 :: l)) st.
Proof.
  intros N0 N H. change (0 :: a1 :: l) with ([0; a1] ++ l) in H. rewrite new_loop_app in H.
  destruct (new_loop g t (NSt b None nil) [0; a1]) as [st1| |] eqn:E; [|discriminate|discriminate]. cbn [bind] in H.
  pose proof (inv0_start b a1 st1 N0 E) as I1. cbn [List.rev]. rewrite <- app_assoc. cbn [app]. apply (inv0_loop b _ l [a1; 0] st1 st I1); [discriminate| |exact H].
  intros n Hn. cbn [List.rev app]. apply (N (Datatypes.S (Datatypes.S n))). lia.
Qed.
End Sign0.

Section Big.
Context (g : cfg).

Lemma loop0_outcome b s0 l : forall pr st, inv0 b s0 pr st -> pr <> nil -> (forall n, (n < length l)%nat -> fst (quotient (List.rev pr ++ firstn n l)) <> 0) ->
  returns (new_loop g BigI st l) \/
  (new_loop g BigI st l = Panic PUnwrap /\ exists n, let x := quotient (List.rev pr ++ firstn n l) in sgnb s0 * (sgnb b * fst x * snd x) < 0).
Proof.
  induction l as [|a l IH]; intros pr st I Np N; [left; eexists; reflexivity|]. cbn [new_loop].
  assert (P0 : fst (evp pr (1, 0)) <> 0) by (rewrite <- quotient_evp; specialize (N 0%nat ltac:(cbn; lia)); cbn [firstn] in N; rewrite app_nil_r in N; exact N).
  pose proof I as (ng & nv & rev & c & Est & Al & Uc & V & F). destruct (inv_prefix _ _ _ _ _ _ Al Uc V) as (Ep & _ & _).
  assert (A0 : num rev <> 0) by lia. rewrite Est. destruct (step_outcome g ng nv rev a Al A0) as [[st1 E]|(E & m & Er & Hm)].
  - rewrite E. cbn [bind]. rewrite <- Est in E. pose proof (inv0_step g BigI b s0 pr st a st1 I Np P0 E) as I1.
    destruct (IH (a :: pr) st1 I1 ltac:(discriminate)) as [R|(R & n & Q)].
    + intros n Hn. specialize (N (Datatypes.S n) ltac:(cbn; lia)). cbn [firstn] in N. cbn [List.rev]. rewrite <- app_assoc. exact N.
    + left. exact R.
    + right. split; [exact R|]. exists (Datatypes.S n). cbn [firstn]. cbn [List.rev] in Q. rewrite <- app_assoc in Q. exact Q.
  - right. rewrite E. split; [reflexivity|]. exists 1%nat. cbn [firstn]. change (List.rev pr ++ [a]) with (List.rev (a :: pr)). rewrite quotient_evp. cbv zeta. cbn [evp fst snd].
    destruct (V (a * 1 + 0) 1) as [V1 V2]. rewrite V1, V2, Er. cbn [evp fst snd].
    replace (m * (0 * (sgnb ng * (a * 1 + 0)) + 1) + sgnb ng * (a * 1 + 0)) with (m + sgnb ng * a) by ring.
    replace (0 * (sgnb ng * (a * 1 + 0)) + 1) with 1 by ring.
    replace (sgnb s0 * (c * sgnb s0 * (m + sgnb ng * a) * (c * 1))) with ((c * c) * (sgnb s0 * sgnb s0) * (m + sgnb ng * a)) by ring.
    rewrite sgnb_sq. replace (c * c) with 1 by (destruct Uc as [-> | ->]; reflexivity). lia.
Qed.

End Big.


(** the prefixes of a list the loop has consumed *)
Lemma new_prefix0 g t b a1 l st n : a1 <> 0 -> (forall n, (2 <= n <= S (length l))%nat -> fst (quotient (firstn n (0 :: a1 :: l))) <> 0) -> new_loop g t (NSt b None nil) (0 :: a1 :: l) = Ok st ->
  0 <= sgnb (sgnb b * a1 <? 0) * (sgnb b * fst (quotient (firstn n (0 :: a1 :: l))) * snd (quotient (firstn n (0 :: a1 :: l)))).
Proof.
  intros N0 N H. destruct n as [|[|n]]; [cbn; lia|cbn; lia|]. cbn [firstn].
  rewrite <- (firstn_skipn n l) in H. change (0 :: a1 :: firstn n l ++ skipn n l) with ((0 :: a1 :: firstn n l) ++ skipn n l) in H. rewrite new_loop_app in H.
  destruct (new_loop g t (NSt b None nil) (0 :: a1 :: firstn n l)) as [st1| |] eqn:E; [|discriminate|discriminate].
  assert (N' : forall m, (2 <= m <= S (length (firstn n l)))%nat -> fst (quotient (firstn m (0 :: a1 :: firstn n l))) <> 0).
  { intros m Hm. pose proof Hm as Hm'. rewrite firstn_length in Hm'. specialize (N m ltac:(lia)). destruct m as [|[|m]]; [lia|lia|]. cbn [firstn] in *. rewrite firstn_firstn. rewrite Nat.min_l by lia. exact N. }
  destruct (new_inv0 g t b a1 (firstn n l) st1 N0 N' E) as (ng & nv & rev & c & _ & Al & Uc & V & _).
  destruct (inv_prefix _ _ _ _ _ _ Al Uc V) as (_ & _ & S3). rewrite <- quotient_evp, rev_involutive in S3. rewrite S3.
  destruct (alive_num _ Al). replace (sgnb (sgnb b * a1 <? 0) * (sgnb (sgnb b * a1 <? 0) * (num rev * den rev))) with ((sgnb (sgnb b * a1 <? 0) * sgnb (sgnb b * a1 <? 0)) * (num rev * den rev)) by ring.
  rewrite sgnb_sq. nia.
Qed.

Lemma new_outcome0 g b a1 l : a1 <> 0 -> (forall n, (2 <= n <= S (length l))%nat -> fst (quotient (firstn n (0 :: a1 :: l))) <> 0) -> snd (quotient (0 :: a1 :: l)) <> 0 ->
  (returns (cf_new g BigI (0 :: a1 :: l) nil b) /\ forall n, 0 <= a1 * (fst (quotient (firstn n (0 :: a1 :: l))) * snd (quotient (firstn n (0 :: a1 :: l))))) \/
  (cf_new g BigI (0 :: a1 :: l) nil b = Panic PUnwrap /\ exists n, a1 * (fst (quotient (firstn n (0 :: a1 :: l))) * snd (quotient (firstn n (0 :: a1 :: l)))) < 0).
Proof.
  intros N0 N Hq. destruct (first_sign b a1 N0) as [Fs Fp].
  assert (E1 : exists st1, new_loop g BigI (NSt b None nil) [0; a1] = Ok st1).
  { assert (S0 : new_step g BigI (NSt b None nil) 0 = Ok (NSt b None [0])) by (unfold new_step; destruct b; reflexivity).
    cbn [new_loop]. rewrite S0. cbn [bind]. unfold new_step. destruct (flip_total b a1) as (a' & -> & _). cbn [bind]. change (0 =? 0) with true. cbv iota.
    destruct (a' =? 0); [eexists; reflexivity|]. destruct (a' <? 0); [|eexists; reflexivity].
    cbn [new_absorb]. rewrite dassert_true by reflexivity. eexists; reflexivity. }
  destruct E1 as [st1 E1]. pose proof (inv0_start g BigI b a1 st1 N0 E1) as I1. set (s0 := sgnb b * a1 <? 0) in *.
  assert (App : new_loop g BigI (NSt b None nil) (0 :: a1 :: l) = new_loop g BigI st1 l) by (change (0 :: a1 :: l) with ([0; a1] ++ l); rewrite new_loop_app, E1; reflexivity).
  destruct (loop0_outcome g b s0 l [a1; 0] st1 I1 ltac:(discriminate)) as [[st R]|(R & n & Q)].
  - intros n Hn. apply (N (Datatypes.S (Datatypes.S n))). lia.
  - left. assert (H : new_loop g BigI (NSt b None nil) (0 :: a1 :: l) = Ok st) by (rewrite App; exact R).
    split; [eapply finish_any; eauto; discriminate|]. intros n. pose proof (new_prefix0 g BigI b a1 l st n N0 N H) as K. fold s0 in K.
    set (P := fst _) in *. set (Q := snd (quotient (firstn n (0 :: a1 :: l)))) in *. clearbody P Q s0. rewrite Fs.
    replace (sgnb b * sgnb s0 * Z.abs a1 * (P * Q)) with (Z.abs a1 * (sgnb s0 * (sgnb b * P * Q))) by ring. nia.
  - right. split; [unfold cf_new; rewrite App, R; reflexivity|]. exists (Datatypes.S (Datatypes.S n)). cbn [firstn]. cbn [List.rev app] in Q.
    cbv zeta in Q. set (P := fst _) in *. set (Q' := snd (quotient (0 :: a1 :: firstn n l))) in *. clearbody P Q' s0. rewrite Fs.
    replace (sgnb b * sgnb s0 * Z.abs a1 * (P * Q')) with (Z.abs a1 * (sgnb s0 * (sgnb b * P * Q'))) by ring. nia.
Qed.

Lemma new_sign0_iff g t b a1 l y : fits t 1 = true -> fitl t (0 :: a1 :: l) -> a1 <> 0 ->
  (forall n, (2 <= n <= S (length l))%nat -> fst (quotient (firstn n (0 :: a1 :: l))) <> 0) -> snd (quotient (0 :: a1 :: l)) <> 0 -> cf_new g t (0 :: a1 :: l) nil b = Ok y ->
  let v := (IZR (sgnb b) * (IZR (fst (quotient (0%Z :: a1 :: l))) / IZR (snd (quotient (0%Z :: a1 :: l)))))%R in
  (cf_val y = v <-> fst (quotient (0 :: a1 :: l)) = 0 \/ 0 < sgnb b * a1 \/ ~ fell (0 :: a1 :: l)) /\ (cf_val y = v \/ cf_val y = (- v)%R).
Proof.
  intros F1 Fa N0 N Hq H v. destruct (cf_new_magnitude g t (0 :: a1 :: l) b y F1 Fa H Hq) as (Cn & Fi & Mg).
  destruct (new_loop_ok g t _ _ _ _ H ltac:(discriminate)) as [st Hst].
  destruct (new_inv0 g t b a1 l st N0 N Hst) as (ng & nv & rev & c & Est & Al & Uc & V & Fl).
  destruct (inv_prefix _ _ _ _ _ _ Al Uc V) as (Ep & Eq & _). rewrite <- quotient_evp, rev_involutive in Ep, Eq.
  pose proof (new_prefix0 g t b a1 l st (Datatypes.S (Datatypes.S (length l))) N0 N Hst) as Sg. rewrite firstn_all2 in Sg by (cbn; lia).
  assert (Ng : negative y = nv \/ a_coeffs y = [0]) by (eapply new_negative; eauto; [discriminate|rewrite Est; reflexivity]).
  pose proof (cf_val_sign y Cn Fi) as Vs. rewrite Mg in Vs. rewrite rev_involutive in Fl || idtac.
  set (P := fst (quotient (0 :: a1 :: l))) in *. set (Q := snd (quotient (0 :: a1 :: l))) in *. set (s0 := sgnb b * a1 <? 0) in *.
  assert (Q0 : IZR Q <> 0%R) by (apply not_0_IZR; auto).
  assert (Vv : v = (IZR (sgnb s0) * Rabs (IZR P / IZR Q))%R).
  { subst v. assert (K : (0 <= IZR (sgnb s0) * (IZR (sgnb b) * (IZR P / IZR Q)))%R).
    { replace (IZR (sgnb s0) * (IZR (sgnb b) * (IZR P / IZR Q)))%R with (IZR (sgnb s0 * (sgnb b * P * Q)) * (/ IZR Q * / IZR Q))%R by (rewrite !mult_IZR; field; auto).
      apply Rmult_le_pos; [apply IZR_le; exact Sg|]. apply Rle_0_sqr. }
    set (w := (IZR P / IZR Q)%R) in *. clearbody w s0. clear -K. destruct b, s0; cbn [sgnb] in *; unfold Rabs; destruct (Rcase_abs w); lra. }
  assert (Pm : (IZR (sgnb (negative y)) = 1 \/ IZR (sgnb (negative y)) = -1)%R) by (destruct (negative y); cbn [sgnb]; auto).
  assert (Ps : (IZR (sgnb s0) = 1 \/ IZR (sgnb s0) = -1)%R) by (destruct s0; cbn [sgnb]; auto).
  split; [|rewrite Vs, Vv; destruct Pm as [-> | ->], Ps as [-> | ->]; [left|right|right|left]; ring].
  destruct (Z.eq_dec P 0) as [P0|P0].
  { split; [auto|]. intros _. rewrite Vs, Vv, P0. replace (IZR 0 / IZR Q)%R with 0%R by (field; auto). rewrite Rabs_R0. ring. }
  assert (Pr : (Rabs (IZR P / IZR Q) <> 0)%R) by (apply Rabs_no_R0; unfold Rdiv; apply Rmult_integral_contrapositive; split; [apply not_0_IZR; auto|apply Rinv_neq_0_compat; auto]).
  assert (Ng' : negative y = nv).
  { destruct Ng as [Ng|Ng]; [auto|]. exfalso. apply Pr. rewrite <- Mg. unfold cf_val. unfold finite in Fi. rewrite Fi, Ng. cbn [cfl]. rewrite Rmult_0_r. apply Rabs_R0. }
  assert (Iff : cf_val y = v <-> nv = s0).
  { rewrite Vs, Vv, Ng'. split; [|intros ->; reflexivity]. intros E. apply Rmult_eq_reg_r in E; [|exact Pr]. apply eq_IZR in E. destruct nv, s0; cbn in E; congruence. }
  assert (Sb : sgnb b * a1 <> 0) by (destruct (sgnb_cases b) as [-> | ->]; lia).
  rewrite Iff. unfold flags0 in Fl. rewrite rev_involutive in Fl. destruct Fl as [(-> & _ & B)|[(-> & _ & _ & B)|[(-> & B)|F]]].
  - split; [|reflexivity]. intros _. right; right. intros (i & j & Hij & A & _). apply (B i); [lia|exact A].
  - split; [|reflexivity]. intros _. right; right. exact B.
  - subst s0. destruct (Z.ltb_spec (sgnb b * a1) 0) as [L|L].
    + split; [discriminate|]. intros [K|[K|K]]; [contradiction|lia|]. exfalso. exact (K B).
    + split; [|reflexivity]. intros _. right; left. lia.
  - exfalso. apply P0. lia.
Qed.
