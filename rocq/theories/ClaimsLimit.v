(** * ClaimsLimit: proofs of the property theorems in PropsLimit.v. *)

From Coq Require Import ZArith Reals Lia Lra Psatz Bool List Arith.
From Coquelicot Require Import Coquelicot.
From Verif Require Import Base Ext ModelSurd ModelBlock ModelCF ModelConv ModelGen ModelSymbols Spec SpecCF SpecGen NumFacts RatioFacts CFCore CFSeq CFIter CFBasic CFBest CFLimit GenSound GenConv GenTail GenMisc GenCont GenApprox SymE SymPi SymRate ClaimsSurd ClaimsCF ClaimsGen ClaimsApi ClaimsSym ClaimsRate.
Import ListNotations.
Open Scope Z_scope.

Lemma L_C89_choice_partial : forall x limit fuel v, wfcf x -> 1 <= limit -> cf_approximated BigU fuel x limit = Ok v ->
  exists m r, nth_item (conv_next BigU) m (cf_convergents x) = Ok (Some r) /\ (m = O \/ denom r < limit) /\
    ((v = Exact r /\ nth_item (conv_next BigU) (S m) (cf_convergents x) = Ok None) \/
     (v = Approximated r /\ exists q, nth_item (conv_next BigU) (S m) (cf_convergents x) = Ok (Some q) /\ limit <= denom q)).
Proof.
  intros x limit fuel v W Hl H. destruct (approx_picks x limit fuel v W Hl H) as (m & A & B & D). exists m. eexists.
  rewrite (conv_nth BigU x m W (fun j _ => big_fit x j W)), (conv_item_eq x m A). split; [reflexivity|]. split; [exact B|].
  rewrite (conv_nth BigU x (S m) W (fun j _ => big_fit x j W)). cbv zeta in D. destruct D as [[-> D]|(-> & D & E)]; [left|right]; (split; [reflexivity|]).
  - unfold conv_item. rewrite D. reflexivity.
  - eexists. rewrite (conv_item_eq x (S m) D). split; [reflexivity|exact E].
Qed.

Lemma L_C89_monotone : forall x l1 l2 f1 f2 v1 v2, wfcf x -> 1 <= l1 <= l2 -> cf_approximated BigU f1 x l1 = Ok v1 -> cf_approximated BigU f2 x l2 = Ok v2 ->
  (Rabs (cf_val x - rval (approx_value v2)) <= Rabs (cf_val x - rval (approx_value v1)))%R /\ denom (approx_value v1) <= denom (approx_value v2) /\
  (forall r, v1 = Exact r -> v2 = Exact r).
Proof.
  intros x l1 l2 f1 f2 v1 v2 W Hl H1 H2. destruct (approx_picks x l1 f1 v1 W ltac:(lia) H1) as (m1 & P1). destruct (approx_picks x l2 f2 v2 W ltac:(lia) H2) as (m2 & P2).
  pose proof (picks_later x l1 l2 v1 v2 m1 m2 W ltac:(lia) P1 P2) as L. split; [apply (later_closer x l1 l2 v1 v2 m1 m2); auto|].
  split; [rewrite (picks_value _ _ _ _ P1), (picks_value _ _ _ _ P2); cbn [denom]; apply QQ_le; auto; lia|].
  intros r ->. destruct P1 as (A1 & _ & D1). cbv zeta in D1. destruct D1 as [[E1 D1]|[E1 _]]; [|discriminate]. pose proof D1 as D1'. apply has_none in D1'. destruct D1' as [F N1].
  destruct P2 as (A2 & _ & D2). specialize (A2 F). assert (m2 = m1) by lia. subst m2. cbv zeta in D2. destruct D2 as [[-> _]|(_ & D2 & _)]; [congruence|]. specialize (D2 F). lia.
Qed.

Lemma L_C89_exact_partial : forall x r limit fuel v, canonical x -> finite x -> lowest r -> rval r = cf_val x -> 1 <= limit -> cf_approximated BigU fuel x limit = Ok v ->
  (v = Exact r <-> denom r < limit \/ denom r = 1).
Proof.
  intros x r limit fuel v Ca F Lr Vr Hl H. pose proof (proj1 Ca) as W. destruct (approx_picks x limit fuel v W Hl H) as (m & P). pose proof P as (A & B & D). cbv zeta in D.
  destruct (has_last x W F) as [Hh _]. destruct (conv_item_convergent x _ W Hh) as (q & Eq & Cq). rewrite (conv_item_eq x _ Hh) in Eq. assert (Eq' : Ratio (sgnb (negative x) * PP (cseq x) (S (pred (lena x)))) (QQ (cseq x) (S (pred (lena x)))) = q) by congruence. clear Eq.
  assert (Qr : q = r) by (apply RatioFacts.lowest_unique; [apply Cq|exact Lr|rewrite Vr; apply fin_convergent_val; auto]). rewrite Qr in Eq'. clear Qr Cq.
  assert (L0 : (1 <= lena x)%nat) by (unfold wfcf in W; unfold lena; destruct (a_coeffs x); [tauto|cbn [length]; lia]).
  replace (S (pred (lena x))) with (lena x) in Eq' by lia. pose proof (f_equal denom Eq') as Ed. cbn [denom] in Ed. split.
  - intros ->. destruct D as [[E1 D]|[D _]]; [|discriminate]. inversion E1 as [E2]. clear E1. cbn [denom]. destruct B as [->|B]; [right; apply QQ_1|left; exact B].
  - intros C. destruct D as [[-> D]|(-> & D & E)].
    + apply has_none in D. destruct D as [_ D]. specialize (A F). assert (E : S m = lena x) by (unfold lena; lia). rewrite E, Eq'. reflexivity.
    + exfalso. specialize (D F). pose proof (QQ_le x W (S (S m)) (lena x) ltac:(unfold lena; lia)). pose proof (last_den x Ca F ltac:(unfold lena; lia)). lia.
Qed.

Lemma L_C89_inclusive_refuted : canonical (CF [3; 7] nil false) /\ cf_val (CF [3; 7] nil false) = (22 / 7)%R /\
  cf_approximated BigU 20 (CF [3; 7] nil false) 7 = Ok (Approximated (Ratio 3 1)) /\
  cf_val (CF [1] [2] false) = sqrt 2 /\ nth_item (conv_next BigU) 5 (cf_convergents (CF [1] [2] false)) = Ok (Some (Ratio 99 70)) /\
  cf_approximated BigU 20 (CF [1] [2] false) 70 = Ok (Approximated (Ratio 41 29)).
Proof.
  split; [|split; [|split; [vm_compute; reflexivity|split; [exact val_r2|split; vm_compute; reflexivity]]]].
  - split; [cbn; split; [lia|split; [repeat constructor; lia|constructor]]|]. split; [intros _ _; cbn; lia|intros K; discriminate].
  - unfold cf_val. cbn [negative p_coeffs a_coeffs sgnb cfl]. field.
Qed.

Lemma L_C89_surd : forall g s x l1 l2 f1 f2 v1 v2, normal g s -> sval s = RtoC x -> cf_wide x -> 1 <= l1 <= l2 ->
  surd_approximated g BigI f1 s l1 = Ok v1 -> surd_approximated g BigI f2 s l2 = Ok v2 ->
  (Rabs (x - rval (approx_value v2)) <= Rabs (x - rval (approx_value v1)))%R /\ denom (approx_value v1) <= denom (approx_value v2).
Proof.
  intros g s x l1 l2 f1 f2 v1 v2 N V D Hl H1 H2. unfold surd_approximated in H1, H2.
  destruct (surd_to_cf g BigI f1 s) as [[z1|]| |] eqn:E1; try discriminate. destruct (surd_to_cf g BigI f2 s) as [[z2|]| |] eqn:E2; try discriminate. cbn [bind unwrap uty] in H1, H2.
  destruct (L_C34_exact_partial g BigI f1 s x z1 eq_refl N V D E1) as ((W1 & _) & F1 & V1).
  destruct (L_C34_exact_partial g BigI f2 s x z2 eq_refl N V D E2) as ((W2 & _) & F2 & V2).
  destruct (proj1 (proj1 (L_C58_periodic z1 z2 W1 W2 F1 F2)) ltac:(congruence)) as [Ng Sq].
  assert (Cs : forall n, cseq z1 n = cseq z2 n) by (intros n; unfold cseq; rewrite Sq; reflexivity).
  assert (Q : forall n, QQ (cseq z1) n = QQ (cseq z2) n /\ PP (cseq z1) n = PP (cseq z2) n).
  { assert (K : forall n, (QQ (cseq z1) n = QQ (cseq z2) n /\ PP (cseq z1) n = PP (cseq z2) n) /\ QQ (cseq z1) (S n) = QQ (cseq z2) (S n) /\ PP (cseq z1) (S n) = PP (cseq z2) (S n)).
    { induction n as [|n [I1 [I2 I3]]]; [rewrite !QQ_0, !QQ_1, !PP_0, !PP_1, Cs; auto|]. split; [auto|]. rewrite !QQ_SS, !PP_SS, Cs, I2, I3. destruct I1 as [-> ->]. auto. }
    intros n. apply (K n). }
  destruct (approx_picks z1 l1 f1 v1 W1 ltac:(lia) H1) as (m1 & P1). destruct (approx_picks z2 l2 f2 v2 W2 ltac:(lia) H2) as (m2 & P2).
  assert (P1' : picks z2 l1 v1 m1).
  { destruct P1 as (A & B & C). unfold picks, has. split; [intros K; contradiction|]. cbv zeta in *. destruct (Q (S m1)) as [<- <-]. destruct (Q (S (S m1))) as [<- _]. rewrite <- Ng, <- Sq.
    split; [exact B|]. destruct C as [C|(C1 & _ & C2)]; [left; exact C|right]. split; [exact C1|]. split; [intros K; contradiction|exact C2]. }
  pose proof (picks_later z2 l1 l2 v1 v2 m1 m2 W2 ltac:(lia) P1' P2) as L. rewrite <- V2. split; [apply (later_closer z2 l1 l2 v1 v2 m1 m2); auto|].
  rewrite (picks_value _ _ _ _ P1'), (picks_value _ _ _ _ P2). cbn [denom]. apply QQ_le; auto. lia.
Qed.

Lemma pi_closer_le m1 m2 : (m1 <= m2)%nat -> (Rabs (PI - gval (prefix pi_items (S m2))) <= Rabs (PI - gval (prefix pi_items (S m1))))%R.
Proof. intros L. induction L as [|m L IH]; [lra|]. pose proof (pi_closer m). lra. Qed.

Lemma L_C89_pi : forall t l1 l2 f1 f2 v1 v2, 1 <= l1 <= l2 -> gcf_approximated t (pi_next t) f1 pi_gfrac l1 = Ok v1 -> gcf_approximated t (pi_next t) f2 pi_gfrac l2 = Ok v2 ->
  (Rabs (PI - rval (approx_value v2)) <= Rabs (PI - rval (approx_value v1)))%R.
Proof.
  intros t l1 l2 f1 f2 v1 v2 Hl H1 H2. destruct (approx_choice _ _ _ _ _ _ H1) as (m1 & r1 & E1 & B1 & D1). destruct (approx_choice _ _ _ _ _ _ H2) as (m2 & r2 & E2 & B2 & D2).
  destruct (pos_item t (pi_next t) pi_gfrac pi_items m1 r1 (pi_source t) pi_pos E1) as [_ R1]. destruct (pos_item t (pi_next t) pi_gfrac pi_items m2 r2 (pi_source t) pi_pos E2) as [_ R2].
  assert (V1 : approx_value v1 = r1) by (destruct D1 as [[-> _]|[[-> _]|[-> _]]]; reflexivity). assert (V2 : approx_value v2 = r2) by (destruct D2 as [[-> _]|[[-> _]|[-> _]]]; reflexivity).
  rewrite V1, V2, R1, R2. apply pi_closer_le. destruct (le_lt_dec m1 m2) as [L|L]; [exact L|exfalso].
  destruct D2 as [[_ D2]|[(_ & -> & D2)|(_ & q & D2 & D3)]].
  - apply (nth_item_none _ _ m1) in D2; [congruence|lia].
  - assert (Z0 : denom r2 = 1).
    { destruct (pos_item t (pi_next t) pi_gfrac pi_items 0 r2 (pi_source t) pi_pos E2) as [[Lp Lg] V]. unfold prefix in V. cbn [seq map gval pi_items] in V. unfold rval in V. pose proof (IZR_lt _ _ Lp).
      assert (N0 : IZR (numer r2) = 0%R) by (replace (IZR (numer r2)) with (IZR (numer r2) / IZR (denom r2) * IZR (denom r2))%R by (field; lra); rewrite V; ring).
      apply eq_IZR in N0. rewrite N0, Z.gcd_0_l in Lg. lia. }
    lia.
  - specialize (B1 (S m2) q ltac:(lia) D2). lia.
Qed.

Lemma L_C89_general_refuted : gpositive_list [(1, 1); (10, 1); (100, 1)] /\ gval [(1, 1); (10, 1); (100, 1)] = (111 / 101)%R /\
  gcf_approximated BigI list_next 10 [(1, 1); (10, 1); (100, 1)] 1 = Ok (Approximated (Ratio 1 1)) /\
  gcf_approximated BigI list_next 10 [(1, 1); (10, 1); (100, 1)] 2 = Ok (Approximated (Ratio 11 1)).
Proof.
  split; [cbn; split; [reflexivity|repeat constructor; discriminate]|]. split; [cbn [gval]; field|]. split; vm_compute; reflexivity.
Qed.

