(** * CFShort: the continued fraction of a surd is its shortest representation (C58). *)

From Coq Require Import ZArith Znumtheory Reals Lia Lra Bool List Arith.
From Coquelicot Require Import Coquelicot.
From Verif Require Import Base Ext ModelSurd ModelBlock ModelCF ModelConv Spec SpecCF NumFacts Transfer SurdCore RatioFacts SurdArith
  SurdTotal SurdOrd SurdRound SurdMisc SurdSqrt CFCore CFSeq CFIter CFBasic CFSurd CFNew CFOfSurd CFRound CFArith.
Import ListNotations.
Open Scope Z_scope.

(** ** The states are determined by their values *)
Section Rho.
Context (d rd : Z) (Hd0 : rd * rd < d) (Hd1 : d < (rd + 1) * (rd + 1)) (Hr0 : 0 <= rd).
Notation St := (iter d rd).

Lemma d_nonsquare : ~ square d.
Proof. intros [k Hk]. assert (Z.abs k * Z.abs k = k * k) by nia. assert (rd < Z.abs k) by nia. assert (Z.abs k < rd + 1) by nia. lia. Qed.

Lemma X_inj p q p' q' : 0 < q -> 0 < q' -> X d p q = X d p' q' -> p = p' /\ q = q'.
Proof.
  intros Hq Hq' E. unfold X in E. set (s := sqrt (IZR d)) in *. assert (S2 : (s * s = IZR d)%R) by (apply sqrt_IZR_sq; nia).
  pose proof (IZR_lt _ _ Hq). pose proof (IZR_lt _ _ Hq').
  assert (K : (s * (IZR q' - IZR q) = IZR p' * IZR q - IZR p * IZR q')%R).
  { apply (Rmult_eq_compat_r (IZR q * IZR q')) in E. replace ((IZR p + s) / IZR q * (IZR q * IZR q'))%R with ((IZR p + s) * IZR q')%R in E by (field; lra).
    replace ((IZR p' + s) / IZR q' * (IZR q * IZR q'))%R with ((IZR p' + s) * IZR q)%R in E by (field; lra). lra. }
  assert (Eq : q = q').
  { destruct (Z.eq_dec q q') as [|Ne]; [auto|]. exfalso. apply d_nonsquare. apply (square_quotient (p' * q - p * q') (q' - q) d); [lia|].
    apply eq_IZR. rewrite !mult_IZR, !minus_IZR, !mult_IZR, <- K, <- S2. ring. }
  split; [|auto]. subst q'. apply eq_IZR. apply (Rmult_eq_reg_r (IZR q)); [|lra]. lra.
Qed.

Definition inB (s : Z * Z) := stB d rd (fst s) (snd s).

Lemma nxt_BR x : inB x -> inR d rd (nxt d rd x).
Proof.
  intros B. unfold nxt. destruct (stB_step d rd Hd0 Hd1 Hr0 _ _ B) as (a & p' & q' & E & _ & R' & _). rewrite E. exact R'.
Qed.
Lemma iter_BR n x : inB x -> inR d rd (St (S n) x).
Proof. intros B. cbn [iter]. rewrite <- (iter_comm d rd). apply (iter_R d rd Hd0 Hd1 Hr0). apply nxt_BR. auto. Qed.
Lemma iter_B n x : inB x -> inB (St n x).
Proof. intros B. destruct n as [|n]; [auto|]. apply (iter_BR n x B). Qed.

Lemma nxt_X x : inB x -> exists a, X d (fst x) (snd x) = (IZR a + / X d (fst (nxt d rd x)) (snd (nxt d rd x)))%R /\ (1 < X d (fst (nxt d rd x)) (snd (nxt d rd x)))%R.
Proof.
  intros B. unfold nxt. destruct (stB_step d rd Hd0 Hd1 Hr0 _ _ B) as (a & p' & q' & E & _ & R' & V & _). rewrite E. cbn [fst snd]. exists a. split; [auto|].
  apply (X_gt1 d rd Hd0 Hd1 Hr0). apply R'.
Qed.

Fixpoint shiftn (n : nat) (f : nat -> Z) : nat -> Z := match n with O => f | S n => shift (shiftn n f) end.
Lemma shiftn_at n f k : shiftn n f k = f (n + k)%nat.
Proof. revert k. induction n as [|n IH]; intros k; [reflexivity|]. cbn [shiftn]. unfold shift. rewrite IH. f_equal. lia. Qed.
Lemma shiftn_pos n f : cpos f -> cpos (shiftn n f).
Proof. intros C. induction n as [|n IH]; [auto|]. apply cpos_shift. auto. Qed.

Lemma floor_step f (a : Z) X : cpos f -> lim f = (IZR a + / X)%R -> (1 < X)%R -> lim (shift f) = X.
Proof.
  intros C E H. pose proof (lim_gt1_shift f C) as H1. rewrite (lim_step f C) in E.
  assert (I1 : (0 < / lim (shift f) < 1)%R) by (split; [apply Rinv_0_lt_compat; lra|rewrite <- Rinv_1; apply Rinv_lt_contravar; lra]).
  assert (I2 : (0 < / X < 1)%R) by (split; [apply Rinv_0_lt_compat; lra|rewrite <- Rinv_1; apply Rinv_lt_contravar; lra]).
  assert (Ea : f 0%nat = a) by (assert (f 0%nat < a + 1) by (apply lt_IZR; rewrite plus_IZR; lra); assert (a < f 0%nat + 1) by (apply lt_IZR; rewrite plus_IZR; lra); lia).
  rewrite Ea in E. assert (E' : (/ lim (shift f) = / X)%R) by lra. rewrite <- (Rinv_inv (lim (shift f))), E'. apply Rinv_inv.
Qed.

Lemma tails f x n : cpos f -> inB x -> lim f = X d (fst x) (snd x) -> lim (shiftn n f) = X d (fst (St n x)) (snd (St n x)).
Proof.
  intros C B E. induction n as [|n IH]; [auto|]. cbn [shiftn iter]. destruct (nxt_X (St n x) (iter_B n x B)) as (a & V & H).
  apply (floor_step _ a); [apply shiftn_pos; auto|rewrite IH; exact V|exact H].
Qed.

(** ** The period found is the first return *)
Lemma per_min fuel : forall x i l, inR d rd x -> per_loop BigI fuel d rd (fst i) (snd i) (fst x) (snd x) = Ok l ->
  forall j, (1 <= j)%nat -> St j x = i -> (length l <= j)%nat.
Proof.
  induction fuel as [|fuel IH]; intros x i l R H j Hj E; [discriminate|]. cbn [per_loop] in H.
  destruct (stB_step d rd Hd0 Hd1 Hr0 _ _ (proj1 R)) as (a & p' & q' & Er & _ & R' & _).
  assert (En : nxt d rd x = (p', q')) by (unfold nxt; rewrite Er; reflexivity). rewrite Er in H. cbn [bind] in H.
  destruct ((p' =? fst i) && (q' =? snd i)) eqn:B; [inversion H; cbn [length]; lia|].
  destruct (per_loop BigI fuel d rd (fst i) (snd i) p' q') as [l'| |] eqn:E1; [|discriminate|discriminate]. cbn [bind] in H. inversion H; subst l. cbn [length].
  destruct j as [|j]; [lia|]. cbn [iter] in E. rewrite <- (iter_comm d rd), En in E. destruct j as [|j].
  - cbn [iter] in E. subst i. cbn [fst snd] in B. rewrite !Z.eqb_refl in B. discriminate.
  - specialize (IH (p', q') i l' R' E1 (S j) ltac:(lia) E). lia.
Qed.

(** ** The aperiodic part *)
Lemma aper_state fuel p q : (3 <= fuel)%nat -> stA d p q -> next_pos rd p q ->
  exists a0 l x pe qe, aper_loop BigI fuel true d rd p q = Ok (a0 :: l, pe, qe) /\ inB x /\ X d p q = (IZR a0 + / X d (fst x) (snd x))%R /\
    (pe, qe) = St (length l) x /\ (length l <= 1)%nat /\ (length l = 1%nat -> ~ inR d rd x) /\ inR d rd (pe, qe).
Proof.
  intros Hf A N. destruct fuel as [|[|[|fuel]]]; try lia.
  destruct (rho_big d rd Hd0 Hd1 Hr0 p q A N) as (a0 & p1 & q1 & E0 & Ea & _ & _ & B1 & _ & V0).
  cbn [aper_loop]. cbn [bind]. rewrite E0. cbn [bind]. rewrite (is_reduced_R d rd _ _ B1). cbn [bind].
  destruct (Z.ltb_spec rd (p1 + q1)) as [Hr|Hr].
  - exists a0, nil, (p1, q1), p1, q1. cbn [bind fst snd length iter]. repeat split; auto; try apply B1; cbn; try lia.
  - destruct (stB_step d rd Hd0 Hd1 Hr0 p1 q1 B1) as (a1 & p2 & q2 & E1 & Ha1 & R2 & V1 & _). rewrite E1. cbn [bind].
    pose proof R2 as [B2 Hr2]. rewrite (is_reduced_R d rd _ _ B2). cbn [bind]. destruct (Z.ltb_spec rd (p2 + q2)); [|lia]. cbn [bind].
    exists a0, [a1], (p1, q1), p2, q2. split; [reflexivity|]. split; [exact B1|]. split; [exact V0|]. split.
    + cbn [length iter]. unfold nxt. cbn [fst snd]. rewrite E1. reflexivity.
    + split; [cbn; lia|]. split; [|exact R2]. intros _ [_ K]. cbn [fst snd] in K. lia.
Qed.

(** ** Any other eventually periodic expansion is at least as long *)
Lemma shortest f x e l fuel pe qe : cpos f -> inB x -> lim (shift f) = X d (fst x) (snd x) -> (pe, qe) = St e x -> (e <= 1)%nat -> (e = 1%nat -> ~ inR d rd x) ->
  inR d rd (pe, qe) -> per_loop BigI fuel d rd pe qe pe qe = Ok l ->
  forall m k, (1 <= k)%nat -> (forall i, f (S m + (k + i))%nat = f (S m + i)%nat) -> (e <= m)%nat /\ (length l <= k)%nat.
Proof.
  intros C B E Ep He Hn R Hl m k Hk Per.
  assert (T : St m x = St (m + k) x).
  { pose proof (tails _ x m (cpos_shift f C) B E) as T1. pose proof (tails _ x (m + k) (cpos_shift f C) B E) as T2.
    assert (Eq : lim (shiftn m (shift f)) = lim (shiftn (m + k) (shift f))).
    { apply lim_ext. intros n. rewrite !shiftn_at. unfold shift. symmetry. replace (S (m + k + n)) with (S m + (k + n))%nat by lia. rewrite Per. f_equal. }
    rewrite T1, T2 in Eq. destruct (X_inj _ _ _ _ (proj1 (proj1 (iter_B m x B))) (proj1 (proj1 (iter_B (m + k) x B))) Eq) as [E1 E2].
    destruct (St m x), (St (m + k) x). cbn [fst snd] in *. congruence. }
  assert (Em : (e <= m)%nat).
  { destruct m as [|m]; [|lia]. destruct e as [|e]; [lia|]. exfalso. apply Hn; [lia|]. cbn [iter Nat.add] in T. rewrite T. destruct k as [|k]; [lia|]. apply iter_BR. auto. }
  split; [auto|]. apply (per_min fuel (pe, qe) (pe, qe) l R Hl k Hk). rewrite Ep. symmetry.
  assert (Add : forall a b y, St (a + b) y = St a (St b y)) by (intros a b y; induction a as [|a IHa]; [reflexivity|]; cbn [Nat.add iter]; rewrite IHa; reflexivity).
  apply (iter_back d rd Hd0 Hd1 Hr0 (m - e)); [rewrite <- Ep; exact R|]. rewrite <- !Add. replace (m - e + e)%nat with m by lia. replace (m - e + k + e)%nat with (m + k)%nat by lia. exact T.
Qed.
End Rho.

(** ** Surds *)
Lemma quadsurd_short g a b c r n t fuel neg z : 0 < b -> 0 < c -> 0 <= r -> ~ square r -> let y := ((IZR a + IZR b * sqrt (IZR r)) / IZR c)%R in
  isfloor y n -> ((IZR a - IZR b * sqrt (IZR r)) / IZR c < IZR n)%R -> (0 <= y)%R -> fits t 1 = true -> quadsurd_to_contfrac g t fuel a b c r neg = Ok z ->
  forall m k, (1 <= k)%nat -> (forall i, cseq z (S m + (k + i)) = cseq z (S m + i)) -> (length (a_coeffs z) <= S m)%nat /\ (length (p_coeffs z) <= k)%nat.
Proof.
  intros Hb Hc Hr Hs y Hn Hj Hy F1 H m k Hk Per.
  destruct (quadsurd_ok g a b c r Hb Hc Hr Hs n Hn Hj Hy t fuel neg z F1 H) as ((W & _) & Fz & Vz & _).
  destruct (qs_peel g t fuel a b c r neg z Hb Hc H) as (d & p & q & al & pe & qe & pl & St & E1 & E2 & E3).
  destruct (qs_core a b c r Hb Hc Hr Hs n Hn Hj d p q St) as (l & pe' & qe' & Ea & Fl & Ln & R & V & B0 & B1 & B2).
  pose proof (aper_fit _ _ _ _ _ _ _ _ _ _ E1) as Ga. pose proof (per_fit _ _ _ _ _ _ _ _ _ E2) as Gp.
  apply rle_aper_loop in E1. apply (aper_more_n BigI 3) in E1. rewrite Ea in E1 by lia. inversion E1; subst al pe' qe'. clear E1.
  apply rle_per_loop in E2. destruct (per_ok d _ B0 B1 B2 _ _ _ _ _ _ R E2) as (N & Fp & _).
  pose proof (floor_nonneg a b c r n Hn Hy) as N0. pose proof (cf_new_pos g t n l pl neg z N0 Fl Fp N Ga Gp E3) as Ez.
  pose proof (qs_A a b c r Hc d p q St) as A. destruct (qs_next a b c r Hb Hc Hr Hs n Hn Hj d p q St) as [Np _].
  destruct (aper_state d _ B0 B1 B2 3 p q ltac:(lia) A Np) as (a0 & l' & x & pe' & qe' & E4 & Bx & Vx & Es & Le & Ne & Re).
  rewrite (Ea 3%nat ltac:(lia)) in E4. inversion E4; subst a0 l' pe' qe'. clear E4.
  rewrite (qs_X a b c r Hb Hc Hr d p q St) in Vx.
  rewrite (cf_val_inf z Fz) in Vz. assert (Nz : negative z = neg) by (rewrite Ez; reflexivity). rewrite Nz in Vz.
  assert (L : lim (cseq z) = y) by (apply (Rmult_eq_reg_l (IZR (sgnb neg))); [exact Vz|destruct neg; cbn; lra]).
  pose proof (wfcf_cpos z W) as Cz. pose proof (X_gt1 d _ B0 B1 B2 _ _ Bx) as X1.
  pose proof (floor_step (cseq z) n _ Cz ltac:(rewrite L; exact Vx) X1) as Ls.
  destruct (shortest d _ B0 B1 B2 (cseq z) x (length l) pl fuel pe qe Cz Bx Ls Es Le Ne Re E2 m k Hk Per) as [K1 K2].
  rewrite Ez. cbn [a_coeffs p_coeffs length]. split; [lia|exact K2].
Qed.

Lemma val_same x y : wfcf x -> wfcf y -> ~ finite x -> ~ finite y -> cf_val x = cf_val y -> negative x = negative y /\ forall n, cseq x n = cseq y n.
Proof.
  intros Wx Wy Fx Fy V. rewrite (cf_val_inf x Fx), (cf_val_inf y Fy) in V. pose proof (wfcf_cpos x Wx) as Cx. pose proof (wfcf_cpos y Wy) as Cy.
  assert (Pos : forall f, cpos f -> (0 < lim f)%R).
  { intros f Cf. rewrite lim_step by auto. pose proof (lim_gt1_shift _ Cf). assert (0 < / lim (shift f))%R by (apply Rinv_0_lt_compat; lra).
    pose proof (proj1 Cf) as C0. apply IZR_le in C0. lra. }
  pose proof (Pos _ Cx). pose proof (Pos _ Cy).
  assert (K : negative x = negative y /\ lim (cseq x) = lim (cseq y)) by (unfold sgnb in V; destruct (negative x), (negative y); split; auto; lra).
  split; [tauto|]. intros n. apply (lim_inj n); tauto.
Qed.

Lemma surd_to_cf_short g t fuel s x z : fits t 1 = true -> normal g s -> sval s = RtoC x -> cf_domain x -> surd_to_cf g t fuel s = Ok (Some z) ->
  forall y, wfcf y -> ~ finite y -> cf_val y = x -> (length (a_coeffs z) <= length (a_coeffs y))%nat /\ (length (p_coeffs z) <= length (p_coeffs y))%nat.
Proof.
  intros F1 N E D H y Wy Fy Vy. destruct (surd_to_cf_dom g t fuel s x z F1 N E D H) as ((Wz & _) & Fz & Vz).
  destruct (val_same z y Wz Wy Fz Fy ltac:(congruence)) as [_ Sq].
  assert (La : (1 <= lena y)%nat) by (unfold wfcf in Wy; unfold lena; destruct (a_coeffs y); [destruct Wy|cbn; lia]).
  assert (Lp : (1 <= length (p_coeffs y))%nat) by (unfold finite in Fy; destruct (p_coeffs y); [congruence|cbn; lia]).
  assert (Per : forall i, cseq z (S (lena y - 1) + (length (p_coeffs y) + i)) = cseq z (S (lena y - 1) + i)).
  { intros i. rewrite !Sq. replace (S (lena y - 1)) with (lena y) by lia. apply cseq_periodic. exact Fy. }
  replace (length (a_coeffs y)) with (S (lena y - 1)) by (unfold lena in *; lia).
  destruct (surd_domain g s x N E D) as (xc & Ec & I & Sp). destruct (normal_real g s x N E) as [Hr Ex].
  destruct (public_pre g s x xc N E Ec I Sp) as (a & b & c & r & n & Es & Hc & Hr' & Hsq & Ex' & Hn & X0 & Pp & Pm).
  unfold surd_to_cf in H. destruct (Z.ltb_spec (discr s) 0); [lia|].
  destruct (surd_is_negative g t s) as [ng| |] eqn:En; [|discriminate|discriminate]. cbn [bind] in H.
  apply (surd_is_negative_ok g t s ng N Hr) in En. rewrite <- Ex in En. rewrite Es in H. destruct ng.
  - assert (Xn : (x < 0)%R) by (apply En; auto). destruct (Pm Xn) as (Hb & Hcj & Ey).
    unfold lift1 in H. cbn [bind] in H. unfold negT in H. apply chkop_ok in H. destruct H as [H _]. apply chkop_ok in H. destruct H as [H _].
    destruct (quadsurd_to_contfrac g t fuel (- a) (- b) c r true) as [z'| |] eqn:Eq; [|discriminate|discriminate]. inversion H; subst z'.
    rewrite Rabs_left, Ey in Hn by lra.
    apply (quadsurd_short g (- a) (- b) c r n t fuel true z Hb Hc Hr' Hsq Hn Hcj ltac:(rewrite <- Ey; lra) F1 Eq _ _ Lp Per).
  - assert (Xn : (0 < x)%R). { destruct (Rtotal_order x 0) as [T|[T|T]]; [exfalso|congruence|auto]. apply En in T. discriminate. }
    destruct (Pp Xn) as (Hb & Hcj).
    destruct (quadsurd_to_contfrac g t fuel a b c r false) as [z'| |] eqn:Eq; [|discriminate|discriminate]. inversion H; subst z'.
    rewrite Rabs_pos_eq, Ex' in Hn by lra.
    apply (quadsurd_short g a b c r n t fuel false z Hb Hc Hr' Hsq Hn Hcj ltac:(rewrite <- Ex'; lra) F1 Eq _ _ Lp Per).
Qed.

Lemma pseq_nth l k : (k < length l)%nat -> pseq l k = nth k l 1.
Proof. intros H. unfold pseq. cbn [repeat concat]. rewrite app_nth1 by auto. reflexivity. Qed.

Lemma same_lengths x y : wfcf x -> wfcf y -> ~ finite x -> ~ finite y -> cf_val x = cf_val y -> length (a_coeffs x) = length (a_coeffs y) ->
  length (p_coeffs x) = length (p_coeffs y) -> x = y.
Proof.
  intros Wx Wy Fx Fy V La Lp. destruct (val_same x y Wx Wy Fx Fy V) as [Ng Sq].
  assert (A : a_coeffs x = a_coeffs y).
  { apply (nth_ext _ _ 1 1 La). intros n Hn. rewrite <- (cseq_a x n), <- (cseq_a y n) by (unfold lena; lia). apply Sq. }
  assert (P : p_coeffs x = p_coeffs y).
  { apply (nth_ext _ _ 1 1 Lp). intros n Hn. rewrite <- (pseq_nth _ n), <- (pseq_nth (p_coeffs y) n) by lia.
    rewrite <- (cseq_p x n Fx), <- (cseq_p y n Fy). unfold lena. rewrite La. apply Sq. }
  destruct x, y. cbn in *. congruence.
Qed.
