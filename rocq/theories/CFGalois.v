(** * CFGalois: reversing the expansion of a surd; palindromes and purely periodic fractions (C73). *)

From Coq Require Import ZArith Znumtheory Reals Lia Lra Bool List Arith Wf_nat.
From Coquelicot Require Import Coquelicot.
From Verif Require Import Base Ext ModelSurd ModelBlock ModelCF ModelConv Spec SpecCF NumFacts Transfer SurdCore RatioFacts SurdArith
  SurdTotal SurdOrd SurdRound SurdMisc SurdSqrt CFCore CFSeq CFIter CFBasic CFSurd CFNew CFOfSurd CFRound CFArith CFShort.
Import ListNotations.
Open Scope Z_scope.

Section Rho.
Context (d rd : Z) (Hd0 : rd * rd < d) (Hd1 : d < (rd + 1) * (rd + 1)) (Hr0 : 0 <= rd).
Notation St := (iter d rd).
Notation N := (nxt d rd).
Notation B := (inB d rd).
Notation R := (inR d rd).
Notation XX x := (X d (fst x) (snd x)).

Definition coef (x : Z * Z) : Z := (rd + fst x) / snd x.
Definition flip (x : Z * Z) : Z * Z := (fst x, (d - fst x * fst x) / snd x).

Lemma nxt_spec x : B x -> fst (N x) = coef x * snd x - fst x /\ snd x * snd (N x) = d - fst (N x) * fst (N x) /\ R (N x) /\
  XX x = (IZR (coef x) + / XX (N x))%R /\ 1 <= coef x /\ 0 < snd x.
Proof.
  intros Bx. destruct (stB_next d rd _ _ Bx) as [Np A1]. destruct (rho_big d rd Hd0 Hd1 Hr0 _ _ (proj1 Bx) Np) as (a & p' & q' & E & Ea & Ep & Eq & _ & _ & V).
  pose proof (nxt_BR d rd Hd0 Hd1 Hr0 x Bx) as Rn. unfold nxt in *. rewrite E in *. cbn [fst snd] in *. subst a. unfold coef.
  split; [exact Ep|]. split; [exact Eq|]. split; [exact Rn|]. split; [exact V|]. split; [exact A1|]. apply Bx.
Qed.

Lemma coef_bounds x : R x -> coef x * snd x <= rd + fst x < coef x * snd x + snd x.
Proof. intros Rx. assert (0 < snd x) by apply Rx. unfold coef. pose proof (Z.mul_div_le (rd + fst x) (snd x)). pose proof (Z.mul_succ_div_gt (rd + fst x) (snd x)). lia. Qed.

Lemma flip_snd x : R x -> snd x * snd (flip x) = d - fst x * fst x.
Proof. intros (((Hq & [k Hk]) & _) & _). unfold flip. cbn [snd]. rewrite Hk, Z.div_mul by lia. lia. Qed.

Lemma flip_R x : R x -> R (flip x).
Proof.
  intros Rx. pose proof (flip_snd x Rx) as E. destruct Rx as (((Hq & _) & Hp & Hqp) & Hr). unfold inR. change (fst (flip x)) with (fst x).
  set (q' := snd (flip x)) in *. clearbody q'. set (p := fst x) in *. set (q := snd x) in *. clearbody p q.
  assert (0 < q') by nia. assert (q' <= rd + p) by nia. assert (rd < p + q') by nia.
  split; [split; [split; [auto|exists q; lia]|split; [auto|lia]]|auto].
Qed.

Lemma flip_nxt x : R x -> N (flip (N x)) = flip x /\ coef (flip (N x)) = coef x.
Proof.
  intros Rx. destruct (nxt_spec x (proj1 Rx)) as (E1 & E2 & Rn & _ & _ & Hq). pose proof (flip_snd _ Rn) as F.
  assert (Q : snd (flip (N x)) = snd x).
  { assert (0 < snd (N x)) by apply Rn. rewrite <- E2 in F. nia. }
  pose proof (flip_R _ Rn) as Rf. pose proof (coef_bounds _ Rx) as Cx. pose proof (coef_bounds _ Rf) as Cf. rewrite Q in Cf. change (fst (flip (N x))) with (fst (N x)) in Cf.
  assert (C : coef (flip (N x)) = coef x).
  { destruct Rx as ((_ & Hp & Hqp) & Hr). nia. }
  split; [|exact C]. destruct (nxt_spec _ (proj1 Rf)) as (G1 & G2 & _). rewrite C, Q in G1. rewrite Q in G2. change (fst (flip (N x))) with (fst (N x)) in G1.
  assert (G3 : fst (N (flip (N x))) = fst x) by lia. rewrite G3 in G2. destruct (N (flip (N x))) as [u v]. cbn [fst snd] in *. subst u. unfold flip. f_equal;
  [exact G3|]. rewrite <- G2, (Z.mul_comm (snd x) v), Z.div_mul by lia. reflexivity.
Qed.

Lemma iter_add a b y : St (a + b) y = St a (St b y).
Proof. induction a as [|a IHa]; [reflexivity|]. cbn [Nat.add iter]. rewrite IHa. reflexivity. Qed.

(** a list read backwards *)
Lemma flip_iter x L j : R x -> St L x = x -> (j <= L)%nat -> flip (St j x) = St (L - j) (flip x).
Proof.
  intros Rx E. revert j.
  assert (K : forall i, (i <= L)%nat -> St i (flip x) = flip (St (L - i) x)).
  { induction i as [|i IH]; intros Hi; [rewrite Nat.sub_0_r, E; reflexivity|]. cbn [iter]. rewrite IH by lia. replace (L - i)%nat with (S (L - S i)) by lia. cbn [iter].
    apply flip_nxt. apply iter_R; auto. }
  intros j Hj. rewrite K by lia. f_equal. f_equal. lia.
Qed.
Lemma coef_flip x L i : R x -> St L x = x -> (i < L)%nat -> coef (St i (flip x)) = coef (St (L - 1 - i) x).
Proof.
  intros Rx E Hi. replace i with (L - (L - i))%nat at 1 by lia. rewrite <- (flip_iter x L (L - i) Rx E) by lia.
  replace (L - i)%nat with (S (L - 1 - i)) by lia. cbn [iter]. apply flip_nxt. apply iter_R; auto.
Qed.

(** ** Reading off the coefficients *)
Lemma coef_floor f x : cpos f -> B x -> lim f = XX x -> f 0%nat = coef x.
Proof.
  intros C Bx E. destruct (nxt_spec x Bx) as (_ & _ & Rn & V & _). pose proof (X_gt1 d rd Hd0 Hd1 Hr0 _ _ (proj1 Rn)) as H1.
  apply (isfloor_unique (lim f)); [apply lim_floor; auto|]. rewrite E, V.
  assert (I2 : (0 < / XX (N x) < 1)%R) by (split; [apply Rinv_0_lt_compat; lra|rewrite <- Rinv_1; apply Rinv_lt_contravar; lra]). unfold isfloor. lra.
Qed.
Lemma coefs f x n : cpos f -> B x -> lim f = XX x -> f n = coef (St n x).
Proof.
  intros C Bx E. pose proof (tails d rd Hd0 Hd1 Hr0 f x n C Bx E) as T. rewrite <- (coef_floor _ _ (shiftn_pos n f C) (iter_B d rd Hd0 Hd1 Hr0 n x Bx) T).
  rewrite shiftn_at. f_equal. lia.
Qed.

(** a sequence that is periodic after its first item is the sequence of the fraction with that period *)
Lemma cseq_of f k : (1 <= k)%nat -> (forall i, f (S (k + i))%nat = f (S i)) -> forall n, cseq (CF [f 0%nat] (map f (seq 1 k)) false) n = f n.
Proof.
  intros Hk P. set (y := CF [f 0%nat] (map f (seq 1 k)) false). assert (Ly : length (p_coeffs y) = k) by (cbn; rewrite map_length, seq_length; auto).
  assert (Fy : ~ finite y) by (unfold finite; intros K; apply (f_equal (@length Z)) in K; rewrite Ly in K; cbn in K; lia).
  intros n. destruct n as [|n]; [reflexivity|]. change (S n) with (lena y + n)%nat. rewrite cseq_p by auto. change (f (lena y + n)%nat) with (f (S n)).
  induction n as [n IH] using lt_wf_ind. destruct (Nat.lt_ge_cases n k) as [Hn|Hn].
  - rewrite CFShort.pseq_nth by (rewrite Ly; auto). cbn [p_coeffs y]. rewrite (nth_indep _ 1 (f 0%nat)) by (rewrite map_length, seq_length; auto).
    rewrite map_nth, seq_nth by auto. reflexivity.
  - replace n with (length (p_coeffs y) + (n - k))%nat at 1 by lia. rewrite pseq_period by (intros K; apply Fy; exact K).
    rewrite (IH (n - k)%nat) by lia. rewrite <- P. f_equal. lia.
Qed.
End Rho.

(** ** From a surd to its state *)
Lemma state_of g s x xc : normal g s -> sval s = RtoC x -> conjugate x xc -> (xc < x)%R -> exists d rd p q,
  rd * rd < d /\ d < (rd + 1) * (rd + 1) /\ 0 <= rd /\ 0 < q /\ (q | d - p * p) /\ x = X d p q /\ xc = ((IZR p - sqrt (IZR d)) / IZR q)%R.
Proof.
  intros N E C Hx. destruct (surd_conjugate g s x N E (proj1 C)) as [_ C']. pose proof (conjugate_unique _ _ _ C' C) as Ec. clear C'.
  destruct (normal_real g s x N E) as [Hr Ex]. assert (I : ~ rational_num (sval s)) by (rewrite E; intros H; apply (proj1 C); apply rational_real_C; auto).
  destruct (sval_irr g s x N E I) as [Hb Hsq].
  destruct s as [[a b c] r]. unfold normal, parts in N. unfold rs, rnum, rconj in *. cbn [coeffs c0 c1 c2 discr] in *. destruct N as (Hc & _).
  assert (Cp : (0 < IZR c)%R) by (apply IZR_lt; auto). assert (R0 : r <> 0) by (intros ->; apply Hsq; exists 0; lia).
  assert (Sq : (0 < sqrt (IZR r))%R) by (apply sqrt_lt_R0; apply IZR_lt; lia).
  assert (Bp : 0 < b).
  { apply lt_IZR. apply (Rmult_lt_reg_r (sqrt (IZR r))); [auto|]. rewrite Rmult_0_l. assert (0 < (x - xc) * IZR c)%R by (apply Rmult_lt_0_compat; lra).
    assert ((x - xc) * IZR c = 2 * (IZR b * sqrt (IZR r)))%R by (rewrite Ex, <- Ec; field; lra). lra. }
  set (D := b * b * r * (c * c)). assert (DS : sqrt (IZR D) = (IZR b * sqrt (IZR r) * IZR c)%R).
  { unfold D. replace (b * b * r * (c * c)) with ((b * c) * (b * c) * r) by ring. rewrite mult_IZR, sqrt_mult by (apply IZR_le; nia). rewrite sqrt_IZR_square by nia. rewrite mult_IZR. ring. }
  assert (Dn : ~ square D).
  { intros [k Hk]. apply Hsq. apply (square_quotient k (b * c) r); [nia|]. unfold D in Hk. lia. }
  exists D, (Z.sqrt D), (a * c), (c * c). assert (D0 : 0 <= D) by (unfold D; nia). pose proof (Z.sqrt_spec D D0) as [S1 S2]. pose proof (Z.sqrt_nonneg D).
  split. { destruct (Z.eq_dec (Z.sqrt D * Z.sqrt D) D) as [K|K]; [exfalso; apply Dn; exists (Z.sqrt D); lia|lia]. }
  split; [lia|]. split; [auto|]. split; [nia|]. split. { exists (b * b * r - a * a). unfold D. ring. }
  split.
  - rewrite Ex. unfold X. rewrite DS, !mult_IZR. field. lra.
  - rewrite <- Ec, DS, !mult_IZR. field. lra.
Qed.

(** ** Fractions of surds with the first coefficient outside the period *)
Section Short.
Context (g : cfg) (t : ity) (fuel : nat) (s : surd) (x : R) (z : cf) (F1 : fits t 1 = true) (Ns : normal g s) (Es : sval s = RtoC x) (D : cf_domain x) (X1 : (1 < x)%R)
  (H : surd_to_cf g t fuel s = Ok (Some z)).
Context (d rd p q : Z) (Hd0 : rd * rd < d) (Hd1 : d < (rd + 1) * (rd + 1)) (Hr0 : 0 <= rd) (Ex : x = X d p q) (Bx : inB d rd (p, q)).
Notation St := (iter d rd).
Let L := length (p_coeffs z).

Lemma z_facts : wfcf z /\ ~ finite z /\ negative z = false /\ cpos (cseq z) /\ lim (cseq z) = x.
Proof.
  destruct (surd_to_cf_dom g t fuel s x z F1 Ns Es D H) as ((W & _) & Fz & Vz). pose proof (wfcf_cpos z W) as C. rewrite (cf_val_inf z Fz) in Vz.
  assert (P : (0 < lim (cseq z))%R).
  { rewrite lim_step by auto. pose proof (lim_gt1_shift _ C). assert (0 < / lim (shift (cseq z)))%R by (apply Rinv_0_lt_compat; lra).
    pose proof (proj1 C) as C0. apply IZR_le in C0. lra. }
  assert (Ng : negative z = false) by (unfold sgnb in Vz; destruct (negative z); [lra|auto]). rewrite Ng in Vz. cbn [sgnb] in Vz. rewrite Rmult_1_l in Vz. auto.
Qed.
Lemma z_coef n : cseq z n = coef rd (St n (p, q)).
Proof. destruct z_facts as (_ & _ & _ & C & V). apply (coefs d rd Hd0 Hd1 Hr0); auto. rewrite V. exact Ex. Qed.
Lemma z_L : (1 <= L)%nat.
Proof. destruct z_facts as (_ & Fz & _). unfold L, finite in *. destruct (p_coeffs z); [congruence|cbn; lia]. Qed.

(** any return time gives another fraction *)
Lemma z_return k : (1 <= k)%nat -> St (S k) (p, q) = St 1 (p, q) -> (lena z <= 1)%nat /\ (L <= k)%nat.
Proof.
  intros Hk E. destruct z_facts as (W & Fz & Ng & C & V). set (f := cseq z) in *.
  assert (P : forall i, f (S (k + i))%nat = f (S i)).
  { intros i. unfold f. rewrite !z_coef. replace (S (k + i)) with (i + S k)%nat by lia. replace (S i) with (i + 1)%nat by lia. rewrite !iter_add, E. reflexivity. }
  pose proof (cseq_of f k Hk P) as Sq. set (y := CF [f 0%nat] (map f (seq 1 k)) false) in *.
  assert (Wy : wfcf y).
  { unfold wfcf, y. cbn [a_coeffs p_coeffs]. split; [apply C|]. split; [constructor|]. apply Forall_forall. intros v Hv. apply in_map_iff in Hv.
    destruct Hv as (i & <- & Hi). apply in_seq in Hi. destruct i as [|i]; [lia|]. apply C. }
  assert (Ly : length (p_coeffs y) = k) by (cbn; rewrite map_length, seq_length; auto).
  assert (Fy : ~ finite y) by (unfold finite; intros K; apply (f_equal (@length Z)) in K; rewrite Ly in K; cbn in K; lia).
  assert (Vy : cf_val y = x) by (rewrite (cf_val_inf y Fy), (lim_ext _ f Sq), V; cbn [negative y sgnb]; ring).
  destruct (surd_to_cf_short g t fuel s x z F1 Ns Es D H y Wy Fy Vy) as [K1 K2]. rewrite Ly in K2. split; [exact K1|exact K2].
Qed.
Lemma z_lena : lena z = 1%nat.
Proof.
  pose proof (iter_BR d rd Hd0 Hd1 Hr0 0 _ Bx) as R1. destruct (cycle d rd Hd0 Hd1 Hr0 _ R1) as (k & Hk & E).
  destruct (z_return k) as [K _]; [lia|rewrite <- E; rewrite <- iter_add; f_equal; lia|].
  destruct z_facts as (W & _). unfold wfcf in W. unfold lena in *. destruct (a_coeffs z) as [|u l]; [destruct W|]. cbn [length] in *. lia.
Qed.
Lemma z_back : St (S L) (p, q) = St 1 (p, q).
Proof.
  destruct z_facts as (W & Fz & Ng & C & V). pose proof (tails d rd Hd0 Hd1 Hr0 _ _ 1 C Bx ltac:(rewrite V; exact Ex)) as T1.
  pose proof (tails d rd Hd0 Hd1 Hr0 _ _ (S L) C Bx ltac:(rewrite V; exact Ex)) as T2.
  assert (E : lim (CFShort.shiftn 1 (cseq z)) = lim (CFShort.shiftn (S L) (cseq z))).
  { apply lim_ext. intros n. rewrite !CFShort.shiftn_at. pose proof (cseq_periodic z n Fz) as P. rewrite z_lena in P. symmetry. exact P. }
  rewrite T1, T2 in E.
  destruct (X_inj d rd Hd0 Hd1 Hr0 _ _ _ _ (proj1 (proj1 (iter_B d rd Hd0 Hd1 Hr0 1 _ Bx))) (proj1 (proj1 (iter_B d rd Hd0 Hd1 Hr0 (S L) _ Bx))) E) as [E1 E2].
  destruct (St 1 (p, q)), (St (S L) (p, q)). cbn [fst snd] in *. congruence.
Qed.
Lemma z_shape : z = CF [coef rd (p, q)] (map (fun i => coef rd (St (S i) (p, q))) (seq 0 L)) false.
Proof.
  destruct z_facts as (W & Fz & Ng & C & V). pose proof z_lena as La.
  assert (A : a_coeffs z = [coef rd (p, q)]).
  { apply (nth_ext _ _ 1 1); [exact La|]. intros n Hn. unfold lena in La. rewrite <- (cseq_a z n) by exact Hn. assert (n = 0)%nat as -> by lia. rewrite z_coef. reflexivity. }
  assert (P : p_coeffs z = map (fun i => coef rd (St (S i) (p, q))) (seq 0 L)).
  { apply (nth_ext _ _ 1 1); [rewrite map_length, seq_length; reflexivity|]. intros n Hn. rewrite <- (CFShort.pseq_nth _ n) by exact Hn.
    rewrite <- (cseq_p z n Fz), La, z_coef. rewrite (nth_indep _ 1 (coef rd (St (S 0) (p, q)))) by (rewrite map_length, seq_length; exact Hn).
    rewrite (map_nth (fun i => coef rd (St (S i) (p, q)))), seq_nth by exact Hn. reflexivity. }
  destruct z as [za zp zn]. cbn [a_coeffs p_coeffs negative] in *. congruence.
Qed.
End Short.

(** ** Square roots *)
Lemma floor_exists x : exists n, isfloor x n.
Proof. exists (up x - 1). destruct (archimed x). unfold isfloor. rewrite minus_IZR. lra. Qed.
Lemma sqrt_domain x : (1 < x)%R -> ~ rational_real x -> rational_real (x * x) -> cf_domain x.
Proof.
  intros X1 I (n & m & Hm & E). exists (- x)%R. split; [split; [auto|split]|].
  - exists 0, 1. split; [lia|]. field.
  - exists (- n), m. split; [auto|]. rewrite opp_IZR. replace (x * - x)%R with (- (x * x))%R by ring. rewrite E. field. apply not_0_IZR. auto.
  - destruct (floor_exists x) as [k Hk]. exists k. rewrite Rabs_pos_eq by lra. split; [exact Hk|]. split; intros; [|lra].
    destruct Hk as [K1 K2]. assert (0 < k) by (apply lt_IZR; lra). apply (IZR_lt 0) in H0. lra.
Qed.
Lemma sqrt_state x : (1 < x)%R -> ~ rational_real x -> rational_real (x * x) -> exists d rd m, rd * rd < d /\ d < (rd + 1) * (rd + 1) /\ 0 <= rd /\ 0 < m /\ m <= rd /\
  (m | d) /\ x = X d 0 m.
Proof.
  intros X1 I (n & m & Hm & E).
  assert (P : exists n m, 0 < m /\ (x * x = IZR n / IZR m)%R).
  { destruct (Z.lt_trichotomy m 0) as [K|[K|K]]; [|congruence|exists n, m; auto]. exists (- n), (- m). split; [lia|]. rewrite E, !opp_IZR. field. apply not_0_IZR. auto. }
  clear n m Hm E. destruct P as (n & m & Hm & E). assert (Mp : (0 < IZR m)%R) by (apply IZR_lt; auto).
  assert (En : (x * x * IZR m = IZR n)%R) by (rewrite E; field; lra).
  assert (Hn : m < n) by (apply lt_IZR; rewrite <- En; assert (1 < x * x)%R by (clear - X1; nra); clear - Mp H; nra).
  assert (Sd : (sqrt (IZR (n * m)) = x * IZR m)%R).
  { rewrite mult_IZR, <- En. replace (x * x * IZR m * IZR m)%R with ((x * IZR m) * (x * IZR m))%R by ring. apply sqrt_square. apply Rmult_le_pos; lra. }
  assert (Sq : ~ square (n * m)).
  { intros [k Hk]. apply I. exists (Z.abs k), m. split; [lia|]. apply (Rmult_eq_reg_r (IZR m)); [|lra]. rewrite <- Sd. replace (IZR (Z.abs k) / IZR m * IZR m)%R with (IZR (Z.abs k)) by (field; lra).
    rewrite Hk. replace (k * k) with (Z.abs k * Z.abs k) by nia. rewrite sqrt_IZR_square by lia. reflexivity. }
  assert (D0 : 0 <= n * m) by nia. pose proof (Z.sqrt_spec _ D0) as [S1 S2]. pose proof (Z.sqrt_nonneg (n * m)) as S3.
  exists (n * m), (Z.sqrt (n * m)), m. split. { destruct (Z.eq_dec (Z.sqrt (n * m) * Z.sqrt (n * m)) (n * m)) as [K|K]; [exfalso; apply Sq; exists (Z.sqrt (n * m)); lia|lia]. }
  split; [lia|]. split; [auto|]. split; [auto|]. split; [|split; [exists n; ring|]].
  - assert (m < Z.succ (Z.sqrt (n * m))) by nia. lia.
  - unfold X. rewrite Sd. field. lra.
Qed.

Section Root.
Context (d rd m : Z) (Hd0 : rd * rd < d) (Hd1 : d < (rd + 1) * (rd + 1)) (Hr0 : 0 <= rd) (Hm : 0 < m) (Hmr : m <= rd) (Hmd : (m | d)).
Notation St := (iter d rd).
Let a0 := coef rd (0, m).
Lemma root_B : inB d rd (0, m).
Proof. unfold inB, stB, stA. cbn [fst snd]. split; [split; [auto|rewrite Z.sub_0_r; auto]|lia]. Qed.
(** the state before the period starts again *)
Lemma root_y : inR d rd (a0 * m, m) /\ nxt d rd (a0 * m, m) = nxt d rd (0, m) /\ coef rd (a0 * m, m) = 2 * a0 /\ flip d (nxt d rd (0, m)) = (a0 * m, m) /\ 1 <= a0.
Proof.
  destruct (nxt_spec d rd Hd0 Hd1 Hr0 _ root_B) as (E1 & E2 & Rn & _ & A1 & _). fold a0 in E1, A1. cbn [fst snd] in *. rewrite Z.sub_0_r in E1.
  assert (C : a0 * m <= rd < a0 * m + m).
  { unfold a0, coef. cbn [fst snd]. rewrite Z.add_0_r. pose proof (Z.mul_div_le rd m Hm). pose proof (Z.mul_succ_div_gt rd m Hm). lia. }
  rewrite E1 in E2. destruct (nxt d rd (0, m)) as [p1 q1] eqn:En. cbn [fst snd] in *. subst p1.
  assert (Ry : inR d rd (a0 * m, m)).
  { unfold inR, stR, stB, stA. cbn [fst snd]. split; [split; [split; [auto|exists q1; lia]|split; [lia|nia]]|lia]. }
  assert (Cy : coef rd (a0 * m, m) = 2 * a0).
  { unfold coef. cbn [fst snd]. symmetry. apply (Z.div_unique _ _ _ (rd - a0 * m)); lia. }
  split; [auto|]. split; [|split; [auto|split; [|auto]]].
  - destruct (nxt_spec d rd Hd0 Hd1 Hr0 _ (proj1 Ry)) as (G1 & G2 & _). rewrite Cy in G1. cbn [fst snd] in *. destruct (nxt d rd (a0 * m, m)) as [u v]. cbn [fst snd] in *.
    assert (Eu : u = a0 * m) by lia. rewrite Eu in *. f_equal. rewrite <- E2 in G2. clear - G2 Hm. nia.
  - unfold flip. cbn [fst snd]. rewrite <- E2. f_equal. apply Z.div_mul. destruct Rn as (((? & _) & _) & _). cbn [fst snd] in *. lia.
Qed.
Lemma root_return L : (1 <= L)%nat -> St (S L) (0, m) = St 1 (0, m) <-> St L (0, m) = (a0 * m, m).
Proof.
  intros HL. destruct root_y as (Ry & Ny & _). split; intros E.
  - destruct L as [|L]; [lia|]. apply (nxt_inj d rd Hd0 Hd1 Hr0); [apply (iter_BR d rd Hd0 Hd1 Hr0); apply root_B|auto|]. rewrite Ny. exact E.
  - cbn [iter]. rewrite E. exact Ny.
Qed.
Lemma root_palindrome L i : (1 <= L)%nat -> St (S L) (0, m) = St 1 (0, m) -> (S i < L)%nat -> coef rd (St (S i) (0, m)) = coef rd (St (L - 1 - i) (0, m)).
Proof.
  intros HL E Hi. destruct root_y as (Ry & Ny & _ & Fl & _). set (x1 := St 1 (0, m)) in *. assert (R1 : inR d rd x1) by (apply (iter_BR d rd Hd0 Hd1 Hr0 0); apply root_B).
  assert (E1 : St L x1 = x1) by (unfold x1 at 1; rewrite <- iter_add; replace (L + 1)%nat with (S L) by lia; exact E).
  assert (F1 : flip d x1 = St (L - 1) x1).
  { change x1 with (nxt d rd (0, m)) at 1. rewrite Fl. unfold x1. rewrite <- iter_add. replace (L - 1 + 1)%nat with L by lia. symmetry. apply root_return; auto. }
  replace (S i) with (i + 1)%nat by lia. rewrite iter_add. fold x1.
  (* St i x1 = St (i+1) (St (L-1) x1) *)
  assert (E2 : St i x1 = St (S i) (flip d x1)).
  { rewrite F1, <- iter_add. replace (S i + (L - 1))%nat with (i + L)%nat by lia. rewrite iter_add, E1. reflexivity. }
  rewrite E2, (coef_flip d rd Hd0 Hd1 Hr0 x1 L (S i) R1 E1 Hi). unfold x1. rewrite <- iter_add. f_equal. f_equal. lia.
Qed.
End Root.

Lemma sqrt_shape g t fuel s x z : fits t 1 = true -> normal g s -> sval s = RtoC x -> (1 < x)%R -> ~ rational_real x -> rational_real (x * x) ->
  surd_to_cf g t fuel s = Ok (Some z) -> exists a0 l, z = CF [a0] (l ++ [2 * a0]) false /\ List.rev l = l /\ isfloor x a0.
Proof.
  intros F1 N E X1 I Q H. pose proof (sqrt_domain x X1 I Q) as D. destruct (sqrt_state x X1 I Q) as (d & rd & m & B0 & B1 & B2 & Hm & Hmr & Hmd & Ex).
  pose proof (root_B d rd m B2 Hm Hmr Hmd) as Bx. destruct (root_y d rd m B0 B1 B2 Hm Hmr Hmd) as (Ry & Ny & Cy & Fl & A1).
  pose proof (z_shape g t fuel s x z F1 N E D X1 H d rd 0 m B0 B1 B2 Ex Bx) as Sh. pose proof (z_L g t fuel s x z F1 N E D X1 H) as HL.
  pose proof (z_back g t fuel s x z F1 N E D X1 H d rd 0 m B0 B1 B2 Ex Bx) as Bk. set (L := length (p_coeffs z)) in *.
  set (h := fun i => coef rd (iter d rd (S i) (0, m))) in *. exists (coef rd (0, m)), (map h (seq 0 (L - 1))). split; [|split].
  - rewrite Sh. f_equal. replace L with ((L - 1) + 1)%nat at 1 by lia. rewrite seq_app, map_app. cbn [Nat.add seq map]. f_equal. f_equal. unfold h.
    replace (S (L - 1)) with L by lia. apply (root_return d rd m B0 B1 B2 Hm Hmr Hmd L HL) in Bk. rewrite Bk. exact Cy.
  - apply (nth_ext _ _ 1 1); [apply rev_length|]. rewrite rev_length, map_length, seq_length. intros i Hi.
    rewrite rev_nth by (rewrite map_length, seq_length; auto). rewrite map_length, seq_length.
    assert (G : forall j, (j < L - 1)%nat -> nth j (map h (seq 0 (L - 1))) 1 = h j).
    { intros j Hj. rewrite (nth_indep _ 1 (h 0%nat)) by (rewrite map_length, seq_length; auto). rewrite map_nth, seq_nth by auto. reflexivity. }
    rewrite !G by lia. unfold h. rewrite (root_palindrome d rd m B0 B1 B2 Hm Hmr Hmd L i HL Bk) by lia. f_equal. f_equal. lia.
  - destruct (z_facts g t fuel s x z F1 N E D X1 H) as (_ & _ & _ & C & V). pose proof (z_coef g t fuel s x z F1 N E D X1 H d rd 0 m B0 B1 B2 Ex Bx 0%nat) as Z0. cbn [iter] in Z0.
    rewrite <- Z0, <- V. apply lim_floor. auto.
Qed.

(** ** Purely periodic fractions *)
Lemma reduced_domain x xc : conjugate x xc -> (1 < x)%R -> (-1 < xc < 0)%R -> cf_domain x.
Proof.
  intros C X1 Xc. exists xc. split; [auto|]. destruct (floor_exists x) as [k Hk]. exists k. rewrite Rabs_pos_eq by lra. split; [exact Hk|]. split; intros; [|lra].
  destruct Hk as [K1 K2]. assert (0 < k) by (apply lt_IZR; lra). apply (IZR_lt 0) in H0. lra.
Qed.
Lemma reduced_state g s x xc : normal g s -> sval s = RtoC x -> conjugate x xc -> (1 < x)%R -> (-1 < xc < 0)%R -> exists d rd p q,
  rd * rd < d /\ d < (rd + 1) * (rd + 1) /\ 0 <= rd /\ x = X d p q /\ xc = ((IZR p - sqrt (IZR d)) / IZR q)%R /\ inR d rd (p, q).
Proof.
  intros N E C X1 Xc. destruct (state_of g s x xc N E C ltac:(lra)) as (d & rd & p & q & B0 & B1 & B2 & Hq & Dv & Ex & Ec).
  exists d, rd, p, q. split; [auto|]. split; [auto|]. split; [auto|]. split; [auto|]. split; [auto|].
  pose proof (s_lo d rd B0 B1 B2) as Sl. pose proof (s_hi d rd B0 B1 B2) as Sh. assert (Qp : (0 < IZR q)%R) by (apply IZR_lt; auto). set (w := sqrt (IZR d)) in *.
  assert (Ex' : (x * IZR q = IZR p + w)%R) by (rewrite Ex; unfold X; fold w; field; lra).
  assert (Ec' : (xc * IZR q = IZR p - w)%R) by (rewrite Ec; field; lra).
  assert (H1 : (IZR p < w)%R) by (assert (xc * IZR q < 0)%R by nra; lra).
  assert (H2 : (w < IZR p + IZR q)%R) by (assert (- IZR q < xc * IZR q)%R by nra; lra).
  assert (H3 : (IZR q - IZR p < w)%R) by (assert (IZR q < x * IZR q)%R by nra; lra).
  unfold inR, stR, stB, stA. cbn [fst snd]. split; [split; [split; auto|split]|].
  - assert (p < rd + 1) by (apply lt_IZR; rewrite plus_IZR; lra). lia.
  - assert (q - p < rd + 1) by (apply lt_IZR; rewrite plus_IZR, minus_IZR; lra). lia.
  - apply lt_IZR. rewrite plus_IZR. lra.
Qed.

(** the whole period, starting with the first coefficient *)
Lemma reduced_coefs g t fuel s x z d rd p q : fits t 1 = true -> normal g s -> sval s = RtoC x -> cf_domain x -> (1 < x)%R -> surd_to_cf g t fuel s = Ok (Some z) ->
  rd * rd < d -> d < (rd + 1) * (rd + 1) -> 0 <= rd -> x = X d p q -> inR d rd (p, q) ->
  let L := length (p_coeffs z) in (1 <= L)%nat /\ iter d rd L (p, q) = (p, q) /\ z = CF [coef rd (p, q)] (map (fun i => coef rd (iter d rd (S i) (p, q))) (seq 0 (L - 1)) ++ [coef rd (p, q)]) false /\
  (forall k, (1 <= k)%nat -> iter d rd k (p, q) = (p, q) -> (L <= k)%nat).
Proof.
  intros F1 N E D X1 H B0 B1 B2 Ex Rx L. pose proof (proj1 Rx) as Bx.
  pose proof (z_shape g t fuel s x z F1 N E D X1 H d rd p q B0 B1 B2 Ex Bx) as Sh. pose proof (z_L g t fuel s x z F1 N E D X1 H) as HL.
  pose proof (z_back g t fuel s x z F1 N E D X1 H d rd p q B0 B1 B2 Ex Bx) as Bk. fold L in Sh, HL, Bk. cbn [iter] in Bk.
  apply (nxt_inj d rd B0 B1 B2) in Bk; [|apply (iter_R d rd B0 B1 B2); auto|auto]. split; [auto|]. split; [auto|]. split.
  - rewrite Sh. f_equal. replace L with ((L - 1) + 1)%nat at 1 by lia. rewrite seq_app, map_app. cbn [Nat.add seq map]. f_equal. f_equal. replace (S (L - 1)) with L by lia. rewrite Bk. reflexivity.
  - intros k Hk K. apply (z_return g t fuel s x z F1 N E D X1 H d rd p q B0 B1 B2 Ex Bx k Hk). cbn [iter]. rewrite K. reflexivity.
Qed.

Lemma reduced_shape g t fuel s x xc z : fits t 1 = true -> normal g s -> sval s = RtoC x -> conjugate x xc -> (1 < x)%R -> (-1 < xc < 0)%R ->
  surd_to_cf g t fuel s = Ok (Some z) -> exists a0 l, z = CF [a0] (l ++ [a0]) false.
Proof.
  intros F1 N E C X1 Xc H. destruct (reduced_state g s x xc N E C X1 Xc) as (d & rd & p & q & B0 & B1 & B2 & Ex & _ & Rx).
  destruct (reduced_coefs g t fuel s x z d rd p q F1 N E (reduced_domain x xc C X1 Xc) X1 H B0 B1 B2 Ex Rx) as (_ & _ & Sh & _). eexists. eexists. exact Sh.
Qed.

(** reading the period backwards gives -1 / conjugate *)
Lemma reduced_reverse g h t u fuel fuel' s r x xc z y : fits t 1 = true -> fits u 1 = true -> normal g s -> normal h r -> sval s = RtoC x -> sval r = RtoC (- / xc) ->
  conjugate x xc -> (1 < x)%R -> (-1 < xc < 0)%R -> surd_to_cf g t fuel s = Ok (Some z) -> surd_to_cf h u fuel' r = Ok (Some y) ->
  exists a0 l b0 l', z = CF [a0] (l ++ [a0]) false /\ y = CF [b0] (l' ++ [b0]) false /\ b0 :: l' = List.rev (a0 :: l).
Proof.
  intros F1 F1' N N' E E' C X1 Xc H H'. destruct (reduced_state g s x xc N E C X1 Xc) as (d & rd & p & q & B0 & B1 & B2 & Ex & Ec & Rx).
  destruct (reduced_coefs g t fuel s x z d rd p q F1 N E (reduced_domain x xc C X1 Xc) X1 H B0 B1 B2 Ex Rx) as (HL & Bk & Sh & Mn).
  pose proof (flip_R d rd B0 B1 (p, q) Rx) as Rf. pose proof (flip_snd d rd (p, q) Rx) as Fs. set (q' := snd (flip d (p, q))) in *. assert (Ef : flip d (p, q) = (p, q')) by reflexivity.
  rewrite Ef in Rf. cbn [fst snd] in Fs. assert (Hq : 0 < q) by apply Rx. assert (Hq' : 0 < q') by apply Rf. clearbody q'.
  pose proof (s_lo d rd B0 B1 B2) as Sl. pose proof (s_sq d rd B0 B1) as S2. set (w := sqrt (IZR d)) in *.
  assert (Hp : (IZR p < w)%R) by (eapply Rle_lt_trans; [apply IZR_le; apply Rx|exact Sl]).
  assert (Qp : (0 < IZR q)%R) by (apply IZR_lt; auto). assert (Qp' : (0 < IZR q')%R) by (apply IZR_lt; auto).
  assert (Ey : (- / xc)%R = X d p q').
  { assert (Q : (IZR q * IZR q' = (w - IZR p) * (w + IZR p))%R) by (rewrite <- mult_IZR, Fs, minus_IZR, mult_IZR, <- S2; ring).
    rewrite Ec. unfold X. fold w. rewrite Rinv_div. apply (Rmult_eq_reg_r ((w - IZR p) * IZR q')); [|apply Rmult_integral_contrapositive_currified; lra].
    replace (- (IZR q / (IZR p - w)) * ((w - IZR p) * IZR q'))%R with (IZR q * IZR q')%R by (field; lra).
    replace ((IZR p + w) / IZR q' * ((w - IZR p) * IZR q'))%R with ((w - IZR p) * (w + IZR p))%R by (field; lra). exact Q. }
  assert (Y1 : (1 < - / xc)%R). { rewrite Ey. apply (X_gt1 d rd B0 B1 B2). apply (proj1 Rf). }
  assert (Ix : ~ rational_real xc).
  { intros K. apply (proj1 C). destruct K as (n & m & Hm & K). destruct (proj1 (proj2 C)) as (n' & m' & Hm' & K'). exists (n' * m - n * m'), (m' * m). split; [nia|].
    replace x with (x + xc - xc)%R by ring. rewrite K', K, minus_IZR, !mult_IZR. field. split; apply not_0_IZR; auto. }
  assert (Cy : conjugate (- / xc) (- / x)).
  { split; [|split].
    - intros (n & m & Hm & K). apply Ix. assert (n <> 0) by (intros ->; rewrite K in Y1; unfold Rdiv in Y1; rewrite Rmult_0_l in Y1; lra). exists (- m), n. split; [auto|].
      apply (not_0_IZR m) in Hm. apply not_0_IZR in H0. rewrite opp_IZR. replace xc with (- / (- / xc))%R by (field; lra). rewrite K. field. auto.
    - destruct C as (_ & (n & m & Hm & K) & (n' & m' & Hm' & K')). assert (Pn : (x * xc <> 0)%R) by (apply Rmult_integral_contrapositive_currified; lra).
      assert (n' <> 0) by (intros ->; apply Pn; rewrite K'; unfold Rdiv; ring). exists (- (n * m')), (m * n'). split; [nia|].
      replace (- / xc + - / x)%R with (- ((x + xc) / (x * xc)))%R by (field; lra). rewrite K, K', opp_IZR, !mult_IZR. apply not_0_IZR in Hm, Hm', H0. field. auto.
    - destruct C as (_ & _ & (n' & m' & Hm' & K')). assert (Pn : (x * xc <> 0)%R) by (apply Rmult_integral_contrapositive_currified; lra).
      assert (n' <> 0) by (intros ->; apply Pn; rewrite K'; unfold Rdiv; ring). exists m', n'. split; [auto|].
      replace (- / xc * - / x)%R with (/ (x * xc))%R by (field; lra). rewrite K'. apply not_0_IZR in Hm', H0. field. auto. }
  assert (Yc : (-1 < - / x < 0)%R).
  { assert (0 < / x < 1)%R by (split; [apply Rinv_0_lt_compat; lra|rewrite <- Rinv_1; apply Rinv_lt_contravar; lra]). lra. }
  destruct (reduced_coefs h u fuel' r _ y d rd p q' F1' N' E' (reduced_domain _ _ Cy Y1 Yc) Y1 H' B0 B1 B2 Ey Rf) as (HL' & Bk' & Sh' & Mn').
  set (L := length (p_coeffs z)) in *. set (L' := length (p_coeffs y)) in *.
  assert (K1 : iter d rd L (p, q') = (p, q')).
  { pose proof (flip_iter d rd B0 B1 B2 (p, q) L 0 Rx Bk ltac:(lia)) as K. rewrite Nat.sub_0_r in K. cbn [iter] in K. rewrite Ef in K. auto. }
  assert (Ef' : flip d (p, q') = (p, q)) by (unfold flip; cbn [fst snd]; rewrite <- Fs; rewrite Z.div_mul by lia; reflexivity).
  assert (K2 : iter d rd L' (p, q) = (p, q)).
  { pose proof (flip_iter d rd B0 B1 B2 (p, q') L' 0 Rf Bk' ltac:(lia)) as K. rewrite Nat.sub_0_r in K. cbn [iter] in K. rewrite Ef' in K. auto. }
  assert (EL : L' = L) by (specialize (Mn L' HL' K2); specialize (Mn' L HL K1); lia). rewrite EL in Sh'.
  eexists. eexists. eexists. eexists. split; [exact Sh|]. split; [exact Sh'|].
  assert (G1 : forall x, coef rd x :: map (fun i => coef rd (iter d rd (S i) x)) (seq 0 (L - 1)) = map (fun i => coef rd (iter d rd i x)) (seq 0 L)).
  { intros v. replace L with (S (L - 1)) at 2 by lia. cbn [seq map iter]. f_equal. rewrite <- seq_shift, map_map. reflexivity. }
  rewrite !G1. apply (nth_ext _ _ 1 1); [rewrite rev_length, !map_length; reflexivity|]. rewrite map_length, seq_length. intros i Hi.
  rewrite rev_nth by (rewrite map_length, seq_length; auto). rewrite map_length, seq_length.
  assert (G : forall v j, (j < L)%nat -> nth j (map (fun i => coef rd (iter d rd i v)) (seq 0 L)) 1 = coef rd (iter d rd j v)).
  { intros v j Hj. rewrite (nth_indep _ 1 (coef rd (iter d rd 0 v))) by (rewrite map_length, seq_length; auto). rewrite (map_nth (fun i => coef rd (iter d rd i v))), seq_nth by auto. reflexivity. }
  rewrite !G by lia. rewrite <- Ef, (coef_flip d rd B0 B1 B2 (p, q) L i Rx Bk Hi). f_equal. f_equal. lia.
Qed.

(** ** Conversely: the values of purely periodic and of palindromic fractions *)
Lemma cpq_left f n : cpq f (S n) = let '(p, p', q, q') := cpq (shift f) n in (f 0%nat * p + q, f 0%nat * p' + q', p, p').
Proof.
  induction n as [|n IH]; [cbn [cpq]; repeat match goal with |- (_, _) = (_, _) => apply f_equal2 end; ring|].
  change (cpq f (S (S n))) with (let '(p, p', q, q') := cpq f (S n) in (f (S n) * p + p', p, f (S n) * q + q', q)). rewrite IH.
  change (cpq (shift f) (S n)) with (let '(p, p', q, q') := cpq (shift f) n in (shift f n * p + p', p, shift f n * q + q', q)).
  destruct (cpq (shift f) n) as [[[p p'] q] q']. unfold shift. repeat match goal with |- (_, _) = (_, _) => apply f_equal2 end; ring.
Qed.
Lemma cpq_rev n : forall f h, (forall i, (i < n)%nat -> h i = f (n - 1 - i)%nat) -> cpq h n = let '(p, p', q, q') := cpq f n in (p, q, p', q').
Proof.
  induction n as [|n IH]; intros f h E; [reflexivity|]. rewrite (cpq_left f n).
  change (cpq h (S n)) with (let '(p, p', q, q') := cpq h n in (h n * p + p', p, h n * q + q', q)). rewrite (IH (shift f) h).
  - rewrite (E n) by lia. replace (S n - 1 - n)%nat with 0%nat by lia. destruct (cpq (shift f) n) as [[[p p'] q] q']. reflexivity.
  - intros i Hi. rewrite E by lia. unfold shift. f_equal. lia.
Qed.

(** a sequence with period n+1 *)
Lemma periodic_quadratic f n : cpos f -> 1 <= f 0%nat -> (forall i, f (S n + i)%nat = f i) -> exists xc, conjugate (lim f) xc /\ (1 < lim f)%R /\ (-1 < xc < 0)%R /\
  (IZR (QQ f (S n)) * (lim f + xc) = IZR (PP f (S n)) - IZR (QQ f n))%R.
Proof.
  intros C F0 P. set (x := lim f). assert (X1 : (1 < x)%R).
  { unfold x. rewrite lim_step by auto. pose proof (lim_gt1_shift f C). assert (0 < / lim (shift f))%R by (apply Rinv_0_lt_compat; lra). apply IZR_le in F0. lra. }
  assert (Ev : x = ev f (S n) x).
  { unfold x at 1. rewrite (lim_ev f (S n) C). f_equal. apply lim_ext. intros i. rewrite CFCore.shiftn_at. apply P. }
  pose proof (ev_cpq f C (S n) x) as E. rewrite cpq_SS in E. destruct E as [D E]; [lra|]. rewrite <- Ev in E.
  pose proof (QQ_mono _ C n) as (Q1 & Q2 & Q3).
  assert (P1 : forall k, 1 <= PP f k).
  { intros k. induction k as [k IH] using lt_wf_ind. destruct k as [|[|k]]; [rewrite PP_0; lia|rewrite PP_1; lia|]. rewrite PP_SS. pose proof (proj2 C k).
    pose proof (IH k ltac:(lia)). pose proof (IH (S k) ltac:(lia)). nia. }
  assert (T : 1 <= QQ f (S n) + PP f (S n) - QQ f n - PP f n).
  { destruct n as [|n]; [rewrite QQ_1, PP_1, QQ_0, PP_0; lia|]. rewrite (PP_SS f n). pose proof (proj2 C n). pose proof (P1 n). pose proof (P1 (S n)). nia. }
  pose proof (P1 n) as P1n. clear P1. set (p := PP f (S n)) in *. set (p' := PP f n) in *. set (q := QQ f (S n)) in *. set (q' := QQ f n) in *.
  assert (I : ~ rational_real x).
  { intros (a & b & Hb & K). exact (lim_irrational f a b C Hb K). }
  clearbody x p p' q q'. clear Ev P C. assert (Qp : (1 <= IZR q)%R) by (apply IZR_le; auto). assert (Pp : (1 <= IZR p')%R) by (apply IZR_le; auto).
  assert (Quad : (IZR q * x * x = (IZR p - IZR q') * x + IZR p')%R).
  { assert (x * (IZR q * x + IZR q') = IZR p * x + IZR p')%R by (rewrite E at 1; field; lra). lra. }
  exists (- (IZR p' / (IZR q * x)))%R. assert (QX : (0 < IZR q * x)%R) by (apply Rmult_lt_0_compat; lra).
  assert (Sm : (IZR q * (x + - (IZR p' / (IZR q * x))) = IZR p - IZR q')%R).
  { apply (Rmult_eq_reg_r x); [|lra]. replace (IZR q * (x + - (IZR p' / (IZR q * x))) * x)%R with (IZR q * x * x - IZR p')%R by (field; lra). lra. }
  set (xc := (- (IZR p' / (IZR q * x)))%R) in *. assert (Pr : (x * xc = - IZR p' / IZR q)%R) by (unfold xc; field; lra).
  assert (Xn : (xc < 0)%R). { unfold xc. assert (0 < IZR p' / (IZR q * x))%R by (apply Rdiv_lt_0_compat; lra). lra. }
  clearbody xc. split; [split; [auto|split]|].
  - exists (p - q'), q. split; [lia|]. rewrite minus_IZR, <- Sm. field. lra.
  - exists (- p'), q. split; [lia|]. rewrite opp_IZR, Pr. reflexivity.
  - split; [auto|]. split; [|auto]. split; [|auto].
    assert (Tr : (1 <= IZR q + IZR p - IZR q' - IZR p')%R) by (rewrite <- plus_IZR, <- !minus_IZR; apply IZR_le; lia).
    assert (Pq : (IZR q * (x * xc) = - IZR p')%R) by (rewrite Pr; field; lra).
    assert (K : (0 < IZR q * ((1 + x) * (1 + xc)))%R) by (replace (IZR q * ((1 + x) * (1 + xc)))%R with (IZR q + IZR q * (x + xc) + IZR q * (x * xc))%R by ring; lra).
    destruct (Rlt_le_dec (-1) xc) as [G|G]; [auto|]. exfalso. assert ((1 + x) * (1 + xc) <= 0)%R by nra. nra.
Qed.


(** [a0; (l, a0)] read from the start has the period a0, l *)
Lemma cseq_pure a0 l : forall i, cseq (CF [a0] (l ++ [a0]) false) i = pseq (a0 :: l) i.
Proof.
  set (y := CF [a0] (l ++ [a0]) false). assert (Fy : ~ finite y) by (unfold finite, y; cbn; destruct l; discriminate).
  assert (Ly : length (p_coeffs y) = S (length l)) by (cbn; rewrite app_length; cbn; lia).
  assert (H : forall i, (i < S (length l))%nat -> cseq y (S i) = pseq (a0 :: l) (S i)).
  { intros i Hi. change (S i) with (lena y + i)%nat at 1. rewrite cseq_p by auto. rewrite CFShort.pseq_nth by (rewrite Ly; auto). cbn [p_coeffs y].
    destruct (Nat.eq_dec i (length l)) as [->|Ne].
    - rewrite app_nth2 by lia. rewrite Nat.sub_diag. cbn [nth]. transitivity (pseq (a0 :: l) 0); [reflexivity|]. rewrite <- (pseq_period (a0 :: l) 0) by discriminate. f_equal. cbn. lia.
    - rewrite app_nth1 by lia. rewrite CFShort.pseq_nth by (cbn; lia). reflexivity. }
  intros i. induction i as [i IH] using lt_wf_ind. destruct i as [|i]; [reflexivity|]. destruct (Nat.lt_ge_cases i (S (length l))) as [Hi|Hi]; [apply H; auto|].
  pose proof (cseq_periodic y (i - S (length l)) Fy) as P. rewrite Ly in P. change (lena y) with 1%nat in P. cbn [Nat.add] in P.
  replace (S (S (length l + (i - S (length l))))) with (S i) in P by lia. rewrite P, IH by lia.
  rewrite <- (pseq_period (a0 :: l) (S (i - S (length l)))) by discriminate. f_equal. cbn. lia.
Qed.

Lemma pure_value a0 l : wfcf (CF [a0] (l ++ [a0]) false) -> let f := pseq (a0 :: l) in cpos f /\ 1 <= f 0%nat /\ (forall i, f (S (length l) + i)%nat = f i) /\
  cf_val (CF [a0] (l ++ [a0]) false) = lim f.
Proof.
  intros W f. pose proof (wfcf_cpos _ W) as C. destruct W as (_ & _ & Fp). cbn [p_coeffs] in Fp. apply Forall_app in Fp. destruct Fp as [_ Fa]. inversion Fa; subst.
  assert (Fy : ~ finite (CF [a0] (l ++ [a0]) false)) by (unfold finite; cbn; destruct l; discriminate).
  split; [|split; [|split]].
  - destruct C as [C0 C1]. split; [rewrite <- (cseq_pure a0 l); exact C0|]. intros n. unfold f. rewrite <- (cseq_pure a0 l). apply C1.
  - exact H1.
  - intros i. apply (pseq_period (a0 :: l) i). discriminate.
  - rewrite (cf_val_inf _ Fy). cbn [negative sgnb]. rewrite Rmult_1_l. apply lim_ext. apply cseq_pure.
Qed.

Lemma pure_reduced a0 l : wfcf (CF [a0] (l ++ [a0]) false) -> exists xc, conjugate (cf_val (CF [a0] (l ++ [a0]) false)) xc /\ (1 < cf_val (CF [a0] (l ++ [a0]) false))%R /\ (-1 < xc < 0)%R.
Proof.
  intros W. destruct (pure_value a0 l W) as (C & F0 & P & V). rewrite V. destruct (periodic_quadratic _ (length l) C F0 P) as (xc & H1 & H2 & H3 & _). exists xc. auto.
Qed.

Lemma palindrome_value a0 l : wfcf (CF [a0] (l ++ [2 * a0]) false) -> List.rev l = l -> let x := cf_val (CF [a0] (l ++ [2 * a0]) false) in
  (1 < x)%R /\ ~ rational_real x /\ rational_real (x * x).
Proof.
  intros W Rv x. pose proof (wfcf_cpos _ W) as Cy. assert (Fy : ~ finite (CF [a0] (l ++ [2 * a0]) false)) by (unfold finite; cbn; destruct l; discriminate).
  assert (A0 : 1 <= a0). { destruct W as (_ & _ & Fp). cbn [p_coeffs] in Fp. apply Forall_app in Fp. destruct Fp as [_ Fa]. apply Forall_inv in Fa. cbv beta in Fa. lia. }
  assert (W' : wfcf (CF [2 * a0] (l ++ [2 * a0]) false)). { destruct W as (_ & W1 & W2). cbn [a_coeffs p_coeffs] in *. split; [lia|]. split; auto. }
  destruct (pure_value (2 * a0) l W') as (C & F0 & P & V). set (f := pseq (2 * a0 :: l)) in *. destruct (periodic_quadratic f (length l) C F0 P) as (wc & H1 & H2 & H3 & H4).
  assert (Ex : x = (lim f - IZR a0)%R).
  { unfold x. rewrite (cf_val_inf _ Fy). cbn [negative sgnb]. rewrite Rmult_1_l. rewrite (lim_step _ Cy), (lim_step f C).
    rewrite (lim_ext (shift (cseq (CF [a0] (l ++ [2 * a0]) false))) (shift f)).
    - change (cseq (CF [a0] (l ++ [2 * a0]) false) 0) with a0. change (f 0%nat) with (2 * a0). rewrite mult_IZR. ring.
    - intros k. unfold shift. unfold f. rewrite <- (cseq_pure (2 * a0) l). reflexivity. }
  (* P = 2 a0 Q + Q' *)
  assert (K : PP f (S (length l)) = 2 * a0 * QQ f (S (length l)) + QQ f (length l)).
  { assert (Sh : forall i, (i < length l)%nat -> shift f i = nth i l 1).
    { intros i Hi. unfold shift, f. rewrite CFShort.pseq_nth by (cbn; lia). reflexivity. }
    assert (S1 : forall i, (i < length l)%nat -> shift f i = shift f (length l - 1 - i)%nat).
    { intros i Hi. rewrite !Sh by lia. rewrite <- Rv at 1. rewrite rev_nth by auto. f_equal. lia. }
    pose proof (cpq_rev (length l) (shift f) (shift f) S1) as Tr. pose proof (cpq_left f (length l)) as Lf. rewrite cpq_SS in Lf. change (f 0%nat) with (2 * a0) in Lf.
    destruct (cpq (shift f) (length l)) as [[[u u'] v] v']. assert (Uv : u' = v) by congruence. injection Lf as L1 _ L3 L4. rewrite L1, L3, L4, Uv. reflexivity. }
  pose proof (QQ_mono _ C (length l)) as (Q1 & _). apply (IZR_le 1) in Q1.
  assert (Sm : (lim f + wc = 2 * IZR a0)%R).
  { apply (Rmult_eq_reg_l (IZR (QQ f (S (length l))))); [|lra]. rewrite H4, K, plus_IZR, !mult_IZR. ring. }
  assert (Ix : ~ rational_real x).
  { intros (n & m & Hm & Kx). apply (proj1 H1). exists (n + a0 * m), m. split; [auto|]. apply not_0_IZR in Hm. rewrite plus_IZR, mult_IZR. replace (lim f) with (x + IZR a0)%R by lra. rewrite Kx. field. auto. }
  split; [|split; [auto|]].
  - apply (IZR_le 1) in A0. lra.
  - destruct (proj2 (proj2 H1)) as (n & m & Hm & Kx). exists (a0 * a0 * m - n), m. split; [auto|]. apply not_0_IZR in Hm. rewrite minus_IZR, !mult_IZR.
    replace (x * x)%R with (IZR a0 * IZR a0 - lim f * wc)%R by (rewrite Ex; replace wc with (2 * IZR a0 - lim f)%R by lra; ring). rewrite Kx. field. auto.
Qed.
