(** * CFBound: sizes and running times of continued fractions. *)

From Coq Require Import ZArith Znumtheory Reals Lia Lra Bool List Arith.
From Coquelicot Require Import Coquelicot.
From Verif Require Import Base Ext ModelSurd ModelBlock ModelCF ModelConv Spec SpecCF SpecBound NumFacts Transfer SurdCore RatioFacts SurdArith
  SurdTotal SurdOrd SurdRound SurdMisc SurdConv SurdSqrt CFCore CFSeq CFIter CFBasic CFSurd CFNew CFOfSurd CFRound CFArith CFShort CFSigned CFWide.
Import ListNotations.
Open Scope Z_scope.

(** ** Fibonacci numbers *)
Lemma fib_SS n : fib (S (S n)) = fib (S n) + fib n.
Proof. reflexivity. Qed.
Lemma fib_pos n : 0 <= fib n /\ 1 <= fib (S n).
Proof. induction n as [|n [A B]]; [cbn; lia|]. rewrite fib_SS. lia. Qed.
Lemma fib_mono n m : (n <= m)%nat -> fib n <= fib m.
Proof.
  induction 1 as [|m _ IH]; [lia|]. destruct m as [|m]; [cbn in *; lia|]. rewrite fib_SS. pose proof (fib_pos m). lia.
Qed.
(** doubling every two steps *)
Lemma fib_double n : 2 ^ Z.of_nat n <= fib (S (2 * n)).
Proof.
  induction n as [|n IH]; [cbn; lia|]. rewrite Nat2Z.inj_succ, Z.pow_succ_r by lia.
  replace (S (2 * S n)) with (S (S (S (2 * n)))) by lia. rewrite (fib_SS (S (2 * n))), (fib_SS (2 * n)). pose proof (fib_pos (2 * n)). lia.
Qed.

(** ** Denominators of the convergents *)
Lemma QQ_fib f n : cpos f -> fib n <= QQ f n.
Proof.
  intros C. enough (fib n <= QQ f n /\ fib (S n) <= QQ f (S n)) by tauto. induction n as [|n [A B]].
  - rewrite QQ_0, QQ_1. cbn. lia.
  - split; [auto|]. rewrite QQ_SS, fib_SS. pose proof (proj2 C n). pose proof (QQ_mono f C n). nia.
Qed.
Lemma convergent_fib x n r : wfcf x -> has x n -> convergent x n r -> fib (S n) <= denom r.
Proof.
  intros W H C. pose proof (wfcf_cpos x W) as HC. destruct (conv_item_convergent x n W H) as (r' & E & C').
  assert (r = r'). { destruct C as [L V], C' as [L' V']. apply lowest_unique; auto. congruence. }
  subst r'. rewrite (conv_item_eq x n H) in E. inversion E; subst r. cbn [denom]. apply QQ_fib. auto.
Qed.

(** ** Lame: the length of the fraction of a rational number *)
Lemma fin_denom x r : wfcf x -> finite x -> lowest r -> cf_val x = rval r -> denom r = QQ (cseq x) (lena x) /\ (1 <= lena x)%nat.
Proof.
  intros W F L V. assert (La : (1 <= lena x)%nat) by (unfold wfcf in W; unfold lena; destruct (a_coeffs x); [destruct W|cbn; lia]).
  split; [|auto]. destruct (has_last x W F) as [H _]. destruct (conv_item_convergent x _ W H) as (r' & E & C').
  assert (r = r') by (apply lowest_unique; [auto|apply C'|rewrite <- V; symmetry; apply fin_convergent_val; auto]).
  subst r'. rewrite (conv_item_eq x _ H) in E. inversion E; subst r. cbn [denom]. f_equal. lia.
Qed.
Lemma lame x r : canonical x -> finite x -> lowest r -> cf_val x = rval r -> fib (S (length (a_coeffs x))) <= denom r.
Proof.
  intros (W & Lst & _) F L V. destruct (fin_denom x r W F L V) as [-> La]. fold (lena x). pose proof (wfcf_cpos x W) as C.
  destruct (lena x) as [|[|n]] eqn:En; [lia|rewrite QQ_1; cbn; lia|].
  rewrite QQ_SS. assert (A2 : 2 <= cseq x (S n)).
  { assert (1 <= cseq x (S n)) by apply C. assert (cseq x (S n) <> 1); [|lia]. rewrite cseq_a by lia. unfold lena in En.
    specialize (Lst F ltac:(lia)). intros K. apply Lst. destruct (exists_last (l := a_coeffs x) ltac:(destruct (a_coeffs x); discriminate)) as (l & v & El).
    rewrite El in *. rewrite last_last. rewrite app_length in En. cbn [length] in En. rewrite app_nth2 in K by lia. replace (S n - length l)%nat with 0%nat in K by lia. exact K. }
  pose proof (QQ_fib _ n C). pose proof (QQ_fib _ (S n) C). rewrite (fib_SS (S n)), (fib_SS n). pose proof (fib_pos n). nia.
Qed.
Lemma fib_log n d : fib (S n) <= d -> Z.of_nat n <= 2 * Z.log2 d + 1.
Proof.
  intros H. assert (E : (n = 2 * (n / 2) + n mod 2)%nat) by (apply Nat.div_mod; lia). pose proof (Nat.mod_upper_bound n 2 ltac:(lia)).
  pose proof (fib_double (n / 2)) as D. pose proof (fib_mono (S (2 * (n / 2))) (S n) ltac:(lia)) as M.
  assert (K : Z.of_nat (n / 2) <= Z.log2 d). { apply Z.log2_le_pow2; [|lia]. assert (0 < 2 ^ Z.of_nat (n / 2)) by (apply Z.pow_pos_nonneg; lia). lia. }
  lia.
Qed.

(** ** Steps of approximated *)
Lemma approx_loop_steps x limit : wfcf x -> forall fuel k s last, at_conv x (S k) s ->
  limit <= fib (S (fuel + k)) -> (0 < fuel)%nat -> returns (approx_loop BigU fuel limit last s).
Proof.
  intros W. pose proof (wfcf_cpos x W) as HC. induction fuel as [|fuel IH]; intros k s last A Hl Hf; [lia|].
  cbn [approx_loop]. destruct (conv_step BigU x (S k) s W A (big_fit x (S k) W)) as (s' & Es & As). rewrite Es. cbn [bind].
  destruct (conv_item x (S k)) as [w|] eqn:Ew; [|eexists; reflexivity].
  assert (Hk : has x (S k)) by (destruct (has_dec x (S k)) as [K|K]; [auto|unfold conv_item in Ew; rewrite K in Ew; discriminate]).
  rewrite (conv_item_eq x (S k) Hk) in Ew. inversion Ew; subst w. cbn [denom].
  destruct (Z.ltb_spec (QQ (cseq x) (S (S k))) limit); [|eexists; reflexivity].
  destruct fuel as [|fuel].
  - exfalso. pose proof (QQ_fib _ (S (S k)) HC) as Q. change (1 + k)%nat with (S k) in Hl. lia.
  - apply (IH (S k)); [apply As; discriminate| |lia]. replace (S fuel + S k)%nat with (S (S fuel) + k)%nat by lia. exact Hl.
Qed.
Lemma approx_steps x limit fuel : wfcf x -> (1 <= fuel)%nat -> limit <= fib (S fuel) -> returns (cf_approximated BigU fuel x limit).
Proof.
  intros W Hf Hl. unfold cf_approximated.
  destruct (conv_step BigU x 0 _ W (at_conv_start x) (big_fit x 0 W)) as (s' & Es & As). rewrite Es. cbn [bind].
  pose proof (wfcf_has0 x W) as H0. pose proof (conv_item_eq x 0 H0) as E0. rewrite E0 in *. cbn [unwrap bind denom].
  destruct (limit <? _).
  - unfold wfcf in W. destruct (a_coeffs x); [tauto|]. eexists; reflexivity.
  - apply (approx_loop_steps x limit W _ 0%nat); [apply As; discriminate|rewrite Nat.add_0_r; auto|lia].
Qed.
Lemma fib_limit limit fuel : 2 * Z.log2_up limit + 1 <= Z.of_nat fuel -> (1 <= fuel)%nat /\ limit <= fib (S fuel).
Proof.
  intros H. pose proof (Z.log2_up_nonneg limit) as N. split; [lia|].
  pose proof (fib_double (Z.to_nat (Z.log2_up limit))) as D. rewrite Z2Nat.id in D by auto.
  pose proof (fib_mono (S (2 * Z.to_nat (Z.log2_up limit))) (S fuel) ltac:(lia)) as M.
  destruct (Z.le_gt_cases limit 1) as [L|L]; [|pose proof (Z.log2_up_spec limit L); lia].
  pose proof (fib_pos fuel). lia.
Qed.

(** ** The period of a surd *)
Section Rho.
Context (d rd : Z) (Hd0 : rd * rd < d) (Hd1 : d < (rd + 1) * (rd + 1)) (Hr0 : 0 <= rd).
Definition rowR (p : nat) : list (Z * Z) := map (fun i => (Z.of_nat p, rd - Z.of_nat p + Z.of_nat i)) (seq 1 (2 * p)).
Definition tallR : list (Z * Z) := flat_map rowR (seq 1 (Z.to_nat rd)).
Lemma inR_tall x : inR d rd x -> In x tallR.
Proof.
  intros R. destruct x as [p q]. pose proof (stR_bounds d rd _ _ R) as [Hp Hq]. destruct R as (((Hq' & _) & Hp' & Hqp) & Hr). cbn [fst snd] in *.
  apply in_flat_map. exists (Z.to_nat p). split; [apply in_seq; lia|]. apply in_map_iff. exists (Z.to_nat (q - (rd - p))). split; [f_equal; lia|]. apply in_seq. lia.
Qed.
Lemma flat_len (n : nat) : length (flat_map rowR (seq 1 n)) = (n * (n + 1))%nat.
Proof.
  induction n as [|n IH]; [reflexivity|]. rewrite seq_S, flat_map_app, app_length, IH. cbn [flat_map]. rewrite app_nil_r. unfold rowR. rewrite map_length, seq_length. lia.
Qed.
Lemma tallR_length : length tallR = Z.to_nat (rd * (rd + 1)).
Proof. unfold tallR. rewrite flat_len. nia. Qed.
Lemma tcycle x : inR d rd x -> exists k, (1 <= k <= Z.to_nat (rd * (rd + 1)))%nat /\ iter d rd k x = x.
Proof.
  intros R. destruct (bounded_dec (fun k => iter d rd k x = x) (fun k => pair_dec (iter d rd k x) x) (Z.to_nat (rd * (rd + 1)))) as [Y|N]; [auto|exfalso].
  assert (ND : NoDup (map (fun i => iter d rd i x) (seq 0 (S (length tallR))))).
  { apply NoDup_map_seq. intros i j Hij E. replace j with (i + (j - i))%nat in E by lia. apply (iter_back d rd Hd0 Hd1 Hr0) in E; [|auto].
    rewrite tallR_length in Hij. apply (N (j - i)%nat); [lia|auto]. }
  apply (NoDup_incl_length (l' := tallR)) in ND.
  - rewrite map_length, seq_length in ND. lia.
  - intros y Hy. apply in_map_iff in Hy. destruct Hy as (i & <- & _). apply inR_tall. apply iter_R; auto.
Qed.
Lemma per_bound fuel x l : inR d rd x -> per_loop BigI fuel d rd (fst x) (snd x) (fst x) (snd x) = Ok l -> (length l <= Z.to_nat (rd * (rd + 1)))%nat.
Proof.
  intros R H. destruct (tcycle x R) as (k & Hk & E). pose proof (per_min d rd Hd0 Hd1 Hr0 fuel x x l R H k ltac:(lia) E). lia.
Qed.
Lemma per_steps fuel x : inR d rd x -> (Z.to_nat (rd * (rd + 1)) <= fuel)%nat -> returns (per_loop BigI fuel d rd (fst x) (snd x) (fst x) (snd x)).
Proof.
  intros R Hf. destruct (tcycle x R) as (k & Hk & E). destruct k as [|k]; [lia|]. apply (per_total_aux d rd Hd0 Hd1 Hr0 k fuel x x R E). lia.
Qed.
(** no coefficient of the period exceeds 2 rd *)
Lemma per_coeffs fuel : forall ip iq p q l, stR d rd p q -> per_loop BigI fuel d rd ip iq p q = Ok l -> List.Forall (fun v => v <= 2 * rd) l.
Proof.
  induction fuel as [|fuel IH]; intros ip iq p q l R H; [discriminate|]. cbn [per_loop] in H.
  destruct (stB_next d rd p q (proj1 R)) as [N _]. destruct (rho_big d rd Hd0 Hd1 Hr0 p q (proj1 (proj1 R)) N) as (a & p' & q' & E & Ea & _).
  destruct (stB_step d rd Hd0 Hd1 Hr0 p q (proj1 R)) as (a1 & p1 & q1 & E1 & _ & R' & _). rewrite E in E1. inversion E1; subst a1 p1 q1. clear E1.
  assert (Ha : a <= 2 * rd).
  { destruct (stR_bounds d rd _ _ R) as [Hp Hq]. subst a. apply Z.div_le_upper_bound; nia. }
  rewrite E in H. cbn [bind] in H. destruct ((p' =? ip) && (q' =? iq)).
  - inversion H; subst. repeat constructor; auto.
  - destruct (per_loop BigI fuel d rd ip iq p' q') as [l'| |] eqn:E2; [|discriminate|discriminate]. cbn [bind] in H. inversion H; subst. constructor; [auto|eapply IH; eauto].
Qed.
End Rho.

(** the size of the state *)
Lemma qs_size a b c r d p q : 0 < c -> 0 <= r -> qs_state a b c r d p q -> Z.sqrt d <= Z.sqrt (b * b * (c * c) * r).
Proof.
  intros Hc Hr St. apply Z.sqrt_le_mono. assert (0 <= r * b * b) by (rewrite <- Z.mul_assoc; apply Z.mul_nonneg_nonneg; [auto|apply Z.square_nonneg]).
  destruct St as [(_ & -> & _)|(_ & -> & _)]; [|nia]. assert (1 <= c * c) by nia. nia.
Qed.
Lemma bound_mono m n : 0 <= m <= n -> (Z.to_nat (m * (m + 1)) <= Z.to_nat (n * (n + 1)))%nat.
Proof. intros H. apply Z2Nat.inj_le; nia. Qed.

Lemma quadsurd_bound g a b c r n t fuel neg z : 0 < b -> 0 < c -> 0 <= r -> ~ square r -> let y := ((IZR a + IZR b * sqrt (IZR r)) / IZR c)%R in
  isfloor y n -> ((IZR a - IZR b * sqrt (IZR r)) / IZR c < IZR n)%R -> (0 <= y)%R -> fits t 1 = true -> quadsurd_to_contfrac g t fuel a b c r neg = Ok z ->
  let rd := Z.sqrt (b * b * (c * c) * r) in
  (length (p_coeffs z) <= Z.to_nat (rd * (rd + 1)))%nat /\ List.Forall (fun v => v <= 2 * rd) (p_coeffs z).
Proof.
  intros Hb Hc Hr Hs y Hn Hj Hy F1 H rd.
  destruct (qs_peel g t fuel a b c r neg z Hb Hc H) as (d & p & q & al & pe & qe & pl & St & E1 & E2 & E3).
  destruct (qs_core a b c r Hb Hc Hr Hs n Hn Hj d p q St) as (l & pe' & qe' & Ea & Fl & Ln & R & V & B0 & B1 & B2).
  pose proof (aper_fit _ _ _ _ _ _ _ _ _ _ E1) as Ga. pose proof (per_fit _ _ _ _ _ _ _ _ _ E2) as Gp.
  apply rle_aper_loop in E1. apply (aper_more_n BigI 3) in E1. rewrite Ea in E1 by lia. inversion E1; subst al pe' qe'. clear E1.
  apply rle_per_loop in E2. destruct (per_ok d _ B0 B1 B2 _ _ _ _ _ _ R E2) as (N & Fp & _).
  pose proof (floor_nonneg a b c r n Hn Hy) as N0. pose proof (cf_new_pos g t n l pl neg z N0 Fl Fp N Ga Gp E3) as Ez.
  pose proof (qs_size a b c r d p q Hc Hr St) as Sz. fold rd in Sz.
  rewrite Ez. cbn [p_coeffs]. split.
  - eapply Nat.le_trans; [apply (per_bound d _ B0 B1 B2 fuel (pe, qe) pl R E2)|]. apply bound_mono. lia.
  - eapply Forall_impl; [|apply (per_coeffs d _ B0 B1 B2 fuel pe qe pe qe pl R E2)]. cbv beta. intros; lia.
Qed.
Lemma quadsurd_steps g a b c r n neg fuel : 0 < b -> 0 < c -> 0 <= r -> ~ square r -> let y := ((IZR a + IZR b * sqrt (IZR r)) / IZR c)%R in
  isfloor y n -> ((IZR a - IZR b * sqrt (IZR r)) / IZR c < IZR n)%R -> (0 <= y)%R ->
  let rd := Z.sqrt (b * b * (c * c) * r) in
  (3 + Z.to_nat (rd * (rd + 1)) <= fuel)%nat -> returns (quadsurd_to_contfrac g BigI fuel a b c r neg).
Proof.
  intros Hb Hc Hr Hs y Hn Hj Hy rd0 Hf.
  pose (d := if Z.rem (r * b * b - a * a) c =? 0 then r * b * b else r * b * b * c * c).
  pose (p := if Z.rem (r * b * b - a * a) c =? 0 then a else a * c).
  pose (q := if Z.rem (r * b * b - a * a) c =? 0 then c else c * c).
  assert (St : qs_state a b c r d p q).
  { unfold d, p, q. destruct (Z.eqb_spec (Z.rem (r * b * b - a * a) c) 0) as [E|E].
    - left. split; [apply rem_div; auto|auto].
    - right. split; [rewrite <- rem_div by auto; auto|auto]. }
  destruct (qs_core a b c r Hb Hc Hr Hs n Hn Hj d p q St) as (l & pe & qe & Ea & Fl & Ln & R & V & B0 & B1 & B2).
  pose proof (qs_size a b c r d p q Hc Hr St) as Sz. fold rd0 in Sz. pose proof (bound_mono _ _ (conj B2 Sz)) as Bm.
  assert (Hd : 0 <= d) by nia.
  destruct (per_steps d _ B0 B1 B2 fuel (pe, qe) R ltac:(lia)) as [pl Ep]. cbn [fst snd] in Ep.
  destruct (per_ok d _ B0 B1 B2 _ _ _ _ _ _ R Ep) as (N & Fp & _).
  unfold quadsurd_to_contfrac. unfold dassert at 1. destruct (Z.eqb_spec c 0); [lia|]. destruct (Z.ltb_spec r 0); [lia|]. cbn [negb andb].
  rewrite andb_false_r. cbn [bind].
  assert (Hdbg : (if dbg g then let! s := sqrtT r in let! ss := lift2 (mulT BigI) (Ok s) (Ok s) in dassert g (negb (ss =? r)) else Ok tt) = Ok tt).
  { destruct (dbg g) eqn:G; [|reflexivity]. rewrite sqrtB by auto. bigi. unfold dassert. rewrite G.
    destruct (Z.eqb_spec (Z.sqrt r * Z.sqrt r) r) as [E|E]; [|reflexivity]. exfalso. apply Hs. apply sqrt_square_iff; auto. }
  rewrite Hdbg. cbn [bind]. bigi. destruct (Z.ltb_spec b 0); [lia|]. cbn [bind]. bigi.
  rewrite remB by lia. cbn [bind].
  assert (Es : (if negb (Z.rem (r * b * b - a * a) c =? 0)
     then let! d := lift2 (mulT BigI) (lift2 (mulT BigI) (Ok (r * b * b)) (Ok c)) (Ok c) in
          let! p := lift2 (mulT BigI) (Ok a) (Ok c) in let! q := lift2 (mulT BigI) (Ok c) (Ok c) in Ok (d, p, q)
     else Ok (r * b * b, a, c)) = Ok (d, p, q)).
  { unfold d, p, q. destruct (Z.rem (r * b * b - a * a) c =? 0); reflexivity. }
  bigi. autorewrite with bigi in Es. rewrite Es. cbn [bind].
  rewrite sqrtB by auto. cbn [bind]. rewrite Ea by lia. cbn [bind]. rewrite Ep. cbn [bind].
  apply cf_new_total. apply (qs_plain a b c r n Hn Hy); auto.
Qed.

Lemma root_size_opp a b c r : root_size (Surd (SCo a b c) r) = Z.sqrt (- b * - b * (c * c) * r) /\ root_size (Surd (SCo a b c) r) = Z.sqrt (b * b * (c * c) * r).
Proof. unfold root_size. cbn [coeffs c1 c2 discr]. split; [f_equal; ring|reflexivity]. Qed.

Lemma surd_to_cf_bound g t fuel s x z : fits t 1 = true -> normal g s -> sval s = RtoC x -> cf_domain x -> surd_to_cf g t fuel s = Ok (Some z) ->
  (length (a_coeffs z) <= 2)%nat /\ (length (p_coeffs z) <= period_bound s)%nat /\ List.Forall (fun v => v <= 2 * root_size s) (p_coeffs z).
Proof.
  intros F1 N E D H. destruct (surd_domain g s x N E D) as (xc & Ec & I & Sp). destruct (normal_real g s x N E) as [Hr Ex].
  split; [apply (surd_to_cf_ok g s x xc N E Ec I Sp t fuel z F1 H)|]. unfold period_bound.
  destruct (public_pre g s x xc N E Ec I Sp) as (a & b & c & r & n & Es & Hc & Hr' & Hsq & Ex' & Hn & X0 & Pp & Pm).
  unfold surd_to_cf in H. destruct (Z.ltb_spec (discr s) 0); [lia|].
  destruct (surd_is_negative g t s) as [ng| |] eqn:En; [|discriminate|discriminate]. cbn [bind] in H.
  apply (surd_is_negative_ok g t s ng N Hr) in En. rewrite <- Ex in En. destruct (root_size_opp a b c r) as [R1 R2]. rewrite Es in H |- *. destruct ng.
  - assert (Xn : (x < 0)%R) by (apply En; auto). destruct (Pm Xn) as (Hb & Hcj & Ey).
    unfold lift1 in H. cbn [bind] in H. unfold negT in H. apply chkop_ok in H. destruct H as [H _]. apply chkop_ok in H. destruct H as [H _].
    destruct (quadsurd_to_contfrac g t fuel (- a) (- b) c r true) as [z'| |] eqn:Eq; [|discriminate|discriminate]. inversion H; subst z'.
    rewrite Rabs_left, Ey in Hn by lra. rewrite R1.
    apply (quadsurd_bound g (- a) (- b) c r n t fuel true z Hb Hc Hr' Hsq Hn Hcj ltac:(rewrite <- Ey; lra) F1 Eq).
  - assert (Xn : (0 < x)%R). { destruct (Rtotal_order x 0) as [T|[T|T]]; [exfalso|congruence|auto]. apply En in T. discriminate. }
    destruct (Pp Xn) as (Hb & Hcj).
    destruct (quadsurd_to_contfrac g t fuel a b c r false) as [z'| |] eqn:Eq; [|discriminate|discriminate]. inversion H; subst z'.
    rewrite Rabs_pos_eq, Ex' in Hn by lra. rewrite R2.
    apply (quadsurd_bound g a b c r n t fuel false z Hb Hc Hr' Hsq Hn Hcj ltac:(rewrite <- Ex'; lra) F1 Eq).
Qed.
Lemma surd_to_cf_steps g s x fuel : normal g s -> sval s = RtoC x -> cf_domain x -> (3 + period_bound s <= fuel)%nat -> exists z, surd_to_cf g BigI fuel s = Ok (Some z).
Proof.
  intros N E D Hf. destruct (surd_domain g s x N E D) as (xc & Ec & I & Sp). destruct (normal_real g s x N E) as [Hr Ex].
  destruct (public_pre g s x xc N E Ec I Sp) as (a & b & c & r & n & Es & Hc & Hr' & Hsq & Ex' & Hn & X0 & Pp & Pm).
  unfold period_bound in Hf. destruct (root_size_opp a b c r) as [R1 R2]. rewrite Es in Hf.
  destruct (surd_is_negative_big g s N Hr) as (ng & En & Ib). rewrite <- Ex in Ib. destruct ng.
  - assert (Xn : (x < 0)%R) by (apply Ib; auto). destruct (Pm Xn) as (Hb & Hcj & Ey). rewrite Rabs_left, Ey in Hn by lra. rewrite R1 in Hf.
    destruct (quadsurd_steps g (- a) (- b) c r n true fuel Hb Hc Hr' Hsq Hn Hcj ltac:(rewrite <- Ey; lra) Hf) as [z Ez].
    exists z. unfold surd_to_cf. destruct (Z.ltb_spec (discr s) 0); [lia|]. rewrite En. cbn [bind]. rewrite Es. bigi. rewrite Ez. reflexivity.
  - assert (Xn : (0 < x)%R). { destruct (Rtotal_order x 0) as [T|[T|T]]; [exfalso|congruence|auto]. apply Ib in T. discriminate. }
    destruct (Pp Xn) as (Hb & Hcj). rewrite Rabs_pos_eq, Ex' in Hn by lra. rewrite R2 in Hf.
    destruct (quadsurd_steps g a b c r n false fuel Hb Hc Hr' Hsq Hn Hcj ltac:(rewrite <- Ex'; lra) Hf) as [z Ez].
    exists z. unfold surd_to_cf. destruct (Z.ltb_spec (discr s) 0); [lia|]. rewrite En. cbn [bind]. rewrite Es. bigi. rewrite Ez. reflexivity.
Qed.
Lemma surd_approx_steps g s x limit fuel : normal g s -> sval s = RtoC x -> cf_domain x -> (3 + period_bound s <= fuel)%nat -> limit <= fib (S fuel) ->
  returns (surd_approximated g BigI fuel s limit).
Proof.
  intros N E D Hf Hl. destruct (surd_to_cf_steps g s x fuel N E D Hf) as [z Ez]. unfold surd_approximated. rewrite Ez. cbn [bind unwrap uty].
  destruct (surd_to_cf_dom g BigI fuel s x z eq_refl N E D Ez) as ((W & _) & _). apply approx_steps; [auto|lia|auto].
Qed.

(** ** The golden ratio is the slowest *)
Definition golden : cf := CF [1] [1] false.
Lemma golden_wf : wfcf golden.
Proof. cbn. repeat split; repeat constructor; lia. Qed.
Lemma golden_inf : ~ finite golden.
Proof. discriminate. Qed.
Lemma golden_coeff n : cseq golden n = 1.
Proof.
  destruct n as [|n]; [reflexivity|]. unfold cseq. rewrite (coeff_at_one golden (S n) 1); [reflexivity|reflexivity|cbn; lia].
Qed.
Lemma golden_QQ n : QQ (cseq golden) n = fib n.
Proof.
  enough (QQ (cseq golden) n = fib n /\ QQ (cseq golden) (S n) = fib (S n)) by tauto. induction n as [|n [A B]]; [rewrite QQ_0, QQ_1; split; reflexivity|].
  split; [auto|]. rewrite QQ_SS, fib_SS, golden_coeff, A, B. ring.
Qed.
Lemma golden_loop limit : forall fuel k s last, at_conv golden (S k) s -> fib (S (fuel + k)) < limit -> approx_loop BigU fuel limit last s = Hang.
Proof.
  induction fuel as [|fuel IH]; intros k s last A Hl; [reflexivity|]. cbn [approx_loop].
  destruct (conv_step BigU golden (S k) s golden_wf A (big_fit golden (S k) golden_wf)) as (s' & Es & As). rewrite Es. cbn [bind].
  rewrite (conv_item_eq golden (S k) (inf_has _ _ golden_inf)) in *. cbn [denom]. rewrite golden_QQ.
  assert (M : fib (S (S k)) <= fib (S (S fuel + k))) by (apply fib_mono; lia). destruct (Z.ltb_spec (fib (S (S k))) limit); [|lia].
  apply (IH (S k)); [apply As; discriminate|]. replace (fuel + S k)%nat with (S fuel + k)%nat by lia. exact Hl.
Qed.
Lemma golden_slow limit fuel : fib (S fuel) < limit -> cf_approximated BigU fuel golden limit = Hang.
Proof.
  intros Hl. unfold cf_approximated.
  destruct (conv_step BigU golden 0 _ golden_wf (at_conv_start golden) (big_fit golden 0 golden_wf)) as (s' & Es & As). rewrite Es. cbn [bind].
  rewrite (conv_item_eq golden 0 (inf_has _ _ golden_inf)) in *. cbn [unwrap bind denom]. rewrite QQ_1. pose proof (fib_pos fuel).
  destruct (Z.ltb_spec limit 1); [lia|]. apply (golden_loop limit fuel 0%nat); [apply As; discriminate|rewrite Nat.add_0_r; auto].
Qed.

(** ** reduced *)
Lemma surd_reduced_steps g s fuel : normal g s -> ~ rational_num (sval s) -> Z.log2 (Z.abs (discr s)) < Z.of_nat fuel -> returns (surd_reduced BigI fuel s).
Proof.
  intros N I Hf. pose proof (normal_okc _ _ N) as O.
  assert (D : discr s <> 0) by (intros X; apply I; apply (normal_is_rational g s N); apply (normal_discr0 g s N); auto).
  destruct s as [[a b c] r]. unfold surd_reduced. cbn [discr] in *.
  destruct (reduce_root_primes_total fuel SMALL_PRIMES b r small_primes_ge2 D Hf) as (b' & r' & E).
  rewrite E. bigi. unfold okc in O. cbn [coeffs c2] in O. destruct (surd_reduce_spec a b' c r' O) as (s'' & E' & _). exists s''. exact E'.
Qed.

(** ** The period, for every irrational surd *)
Lemma dst_size b a c r : 0 < c -> 0 <= r -> Z.sqrt (dst a b c r) <= Z.sqrt (b * b * (c * c) * r).
Proof.
  intros Hc Hr. apply Z.sqrt_le_mono. assert (0 <= r * b * b) by (rewrite <- Z.mul_assoc; apply Z.mul_nonneg_nonneg; [auto|apply Z.square_nonneg]).
  unfold dst. assert (1 <= c * c) by nia. destruct (_ =? 0); nia.
Qed.
Lemma quad_period g a b c r t fuel neg z : b <> 0 -> 0 < c -> 0 <= r -> ~ square r -> (0 < (IZR a + IZR b * sqrt (IZR r)) / IZR c)%R ->
  fits t 1 = true -> quadsurd_to_contfrac g t fuel a b c r neg = Ok z ->
  let rd := Z.sqrt (b * b * (c * c) * r) in
  (length (p_coeffs z) <= Z.to_nat (rd * (rd + 1)))%nat /\ List.Forall (fun v => v <= 2 * rd) (p_coeffs z).
Proof.
  intros Hb Hc Hr Hs Hy F1 H rd. destruct (quad_peel g a b c r Hc t fuel neg z H) as (al & pe & qe & pl & E1 & E2 & E3).
  destruct (dst_bounds a b c r Hb Hc Hr Hs) as (B0 & B1 & B2).
  pose proof (aper_fit _ _ _ _ _ _ _ _ _ _ E1) as Ga. pose proof (per_fit _ _ _ _ _ _ _ _ _ E2) as Gp.
  apply rle_aper_loop in E1. apply rle_per_loop in E2.
  destruct (quad_run a b c r Hb Hc Hr Hs Hy) as [[_ S]|(l & pe' & qe' & ([f0 En] & R & V) & T & D)]; [rewrite S in E1; discriminate|].
  apply (aper_more_n BigI f0) in E1. rewrite En in E1 by lia. inversion E1; subst al pe' qe'. clear E1.
  destruct (per_ok _ _ B0 B1 B2 _ _ _ _ _ _ R E2) as (N & Fp & W).
  pose proof (X_gt1 _ _ B0 B1 B2 _ _ (proj1 R)) as X1.
  apply tailv_root in W; [|auto|auto|apply Rinv_0_lt_compat; lra].
  assert (W' : X (dst a b c r) pe qe = lim (pseq pl)) by (rewrite <- (Rinv_inv (X _ pe qe)), W, Rinv_inv; reflexivity).
  destruct (new_top g t neg l pl z F1 Ga Gp T N Fp ltac:(rewrite <- W'; auto) E3) as (_ & P & _). rewrite P.
  pose proof (dst_size b a c r Hc Hr) as Sz. fold rd in Sz. split.
  - eapply Nat.le_trans; [apply (per_bound _ _ B0 B1 B2 fuel (pe, qe) pl R E2)|]. apply bound_mono. lia.
  - eapply Forall_impl; [|apply (per_coeffs _ _ B0 B1 B2 fuel pe qe pe qe pl R E2)]. cbv beta. intros; lia.
Qed.
Lemma surd_to_cf_period g t fuel s x z : fits t 1 = true -> normal g s -> sval s = RtoC x -> ~ rational_num (sval s) -> surd_to_cf g t fuel s = Ok (Some z) ->
  (length (p_coeffs z) <= period_bound s)%nat /\ List.Forall (fun v => v <= 2 * root_size s) (p_coeffs z).
Proof.
  intros F1 N E I H. destruct (normal_real g s x N E) as [Hr Ex].
  destruct (wide_pre g s x (rconj s) N E (sconj_rconj s (normal_okc g s N) Hr) I) as (a & b & c & r & Es & Hb & Hc & Hr' & Hsq & Ex' & _ & X0 & _).
  unfold period_bound. destruct (root_size_opp a b c r) as [R1 R2].
  unfold surd_to_cf in H. destruct (Z.ltb_spec (discr s) 0); [lia|].
  destruct (surd_is_negative g t s) as [ng| |] eqn:En; [|discriminate|discriminate]. cbn [bind] in H.
  apply (surd_is_negative_ok g t s ng N Hr) in En. rewrite <- Ex in En. rewrite Es in H |- *. destruct ng.
  - assert (Xn : (x < 0)%R) by (apply En; auto).
    unfold lift1 in H. cbn [bind] in H. unfold negT in H. apply chkop_ok in H. destruct H as [H _]. apply chkop_ok in H. destruct H as [H _].
    destruct (quadsurd_to_contfrac g t fuel (- a) (- b) c r true) as [z'| |] eqn:Eq; [|discriminate|discriminate]. inversion H; subst z'. rewrite R1.
    apply (quad_period g (- a) (- b) c r t fuel true z ltac:(lia) Hc Hr' Hsq); auto.
    replace ((IZR (- a) + IZR (- b) * sqrt (IZR r)) / IZR c)%R with (- x)%R; [lra|]. rewrite Ex', !opp_IZR. field. apply not_0_IZR. lia.
  - assert (Xn : (0 < x)%R). { destruct (Rtotal_order x 0) as [T|[T|T]]; [exfalso|congruence|auto]. apply En in T. discriminate. }
    destruct (quadsurd_to_contfrac g t fuel a b c r false) as [z'| |] eqn:Eq; [|discriminate|discriminate]. inversion H; subst z'. rewrite R2.
    apply (quad_period g a b c r t fuel false z Hb Hc Hr' Hsq); auto. rewrite <- Ex'. auto.
Qed.
