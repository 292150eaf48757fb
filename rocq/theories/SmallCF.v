(** * SmallCF: surds with small components are converted to continued fractions without overflow. *)

From Coq Require Import ZArith Znumtheory Reals Lia Lra Bool List Arith.
From Coquelicot Require Import Coquelicot.
From Verif Require Import Base Ext ModelSurd ModelBlock ModelCF ModelConv Spec SpecCF SpecBound SpecSmall NumFacts Transfer SurdCore RatioFacts SurdArith
  SurdTotal SurdOrd SurdRound SurdMisc SurdSqrt SurdConv CFCore CFSeq CFIter CFBasic CFSurd CFNew CFOfSurd CFRound CFArith CFBound GenWidth SmallFit SmallOps.
Import ListNotations.
Open Scope Z_scope.

Lemma addR t M x y : room t M -> Z.abs (x + y) <= M -> addT t x y = Ok (x + y).
Proof. intros R H. unfold addT. rewrite (chk_room t M _ R H). reflexivity. Qed.
Lemma subR t M x y : room t M -> Z.abs (x - y) <= M -> subT t x y = Ok (x - y).
Proof. intros R H. unfold subT. rewrite (chk_room t M _ R H). reflexivity. Qed.
Lemma mulR t M x y : room t M -> Z.abs (x * y) <= M -> mulT t x y = Ok (x * y).
Proof. intros R H. unfold mulT. rewrite (chk_room t M _ R H). reflexivity. Qed.
Lemma negR t M x : room t M -> Z.abs x <= M -> negT t x = Ok (- x).
Proof. intros R H. unfold negT. rewrite (chk_room t M _ R); [reflexivity|lia]. Qed.

(** ** One step of the loops *)
Section Rho.
Context (t : ity) (M d rd : Z) (R : room t M) (Hd0 : rd * rd < d) (Hd1 : d < (rd + 1) * (rd + 1)) (Hr0 : 0 <= rd) (HM : d <= M) (HM4 : 16 <= M).
Lemma rd4 : 4 * rd <= M.
Proof. destruct (Z.le_gt_cases rd 4); nia. Qed.
Lemma rho_small p q : stA d p q -> next_pos rd p q -> Z.abs p + rd + q <= M -> rho t d rd p q = rho BigI d rd p q.
Proof.
  intros A N B. destruct (rho_big d rd Hd0 Hd1 Hr0 p q A N) as (a & p' & q' & E & Ea & Ep & Eq & SB & Hp & _). rewrite E.
  destruct A as [Hq _]. destruct SB as ((Hq' & _) & Hp' & Hqp).
  assert (A1 : a * q <= rd + p) by (pose proof (Z.mul_div_le (rd + p) q Hq); rewrite Ea; lia).
  assert (A2 : rd + p < a * q + q) by (pose proof (Z.mul_succ_div_gt (rd + p) q Hq); rewrite Ea; lia).
  assert (Pm : - rd <= p') by (unfold next_pos in N; rewrite <- Ea in N; lia).
  assert (PP : p' * p' <= rd * rd) by nia. assert (P0 : 0 <= p' * p') by nia.
  assert (Qq : q' <= d) by nia. assert (Aa : Z.abs a <= Z.abs (rd + p)).
  { rewrite Ea. clear - Hq. pose proof (Z.mul_div_le (rd + p) q Hq). pose proof (Z.mul_succ_div_gt (rd + p) q Hq). destruct (Z.le_gt_cases 0 (rd + p)).
    - assert (0 <= (rd + p) / q) by (apply Z.div_pos; lia). nia.
    - assert ((rd + p) / q < 0) by (apply Z.div_lt_upper_bound; lia). nia. }
  unfold rho. cbn [lift2 bind]. rewrite (addR t M) by (auto; lia). cbn [lift2 bind]. unfold div_floorT. destruct (Z.eqb_spec q 0); [lia|].
  rewrite <- Ea. rewrite (chk_room t M a R) by lia. unfold chk at 1; cbn [fits lift2 bind]. rewrite (mulR t M) by (auto; lia). cbn [lift2 bind]. rewrite (subR t M) by (auto; lia). cbn [lift2 bind].
  rewrite <- Ep. rewrite (mulR t M) by (auto; lia). cbn [lift2 bind]. rewrite (subR t M) by (auto; lia). cbn [lift2 bind]. unfold quotT. destruct (Z.eqb_spec q 0); [lia|].
  rewrite <- Eq. replace (Z.quot (q * q') q) with q' by (rewrite Z.mul_comm; rewrite Z.quot_mul; lia). rewrite (chk_room t M q' R) by lia. reflexivity.
Qed.
Lemma rho_smallB p q : stB d rd p q -> rho t d rd p q = rho BigI d rd p q.
Proof.
  intros B. destruct (stB_next d rd p q B) as [N _]. destruct B as (A & Hp & Hqp). apply rho_small; auto. pose proof rd4. destruct A as [Hq _]. lia.
Qed.
Lemma reduced_small p q : stB d rd p q -> is_reduced_pq t rd p q = is_reduced_pq BigI rd p q.
Proof.
  intros B. rewrite (is_reduced_R d rd p q B). destruct B as ((Hq & _) & Hp & Hqp). pose proof rd4. unfold is_reduced_pq. destruct (Z.leb_spec p rd); [|lia].
  cbn [lift2 bind]. rewrite (addR t M) by (auto; lia). cbn [lift2 bind]. destruct (rd <? p + q); [|reflexivity]. rewrite (subR t M) by (auto; lia). cbn [lift2 bind].
  destruct (Z.leb_spec (q - p) rd); [reflexivity|lia].
Qed.
Lemma aper_smallB fuel : forall p q, stB d rd p q -> aper_loop t fuel false d rd p q = aper_loop BigI fuel false d rd p q.
Proof.
  induction fuel as [|fuel IH]; intros p q B; [reflexivity|]. cbn [aper_loop]. rewrite (reduced_small p q B), (rho_smallB p q B).
  destruct (stB_step d rd Hd0 Hd1 Hr0 p q B) as (a & p' & q' & E & _ & R' & _). rewrite E. cbn [lift2 bind]. rewrite (IH p' q' (proj1 R')). reflexivity.
Qed.
Lemma aper_small fuel p q : stA d p q -> next_pos rd p q -> Z.abs p + rd + q <= M -> aper_loop t fuel true d rd p q = aper_loop BigI fuel true d rd p q.
Proof.
  intros A N B. destruct fuel as [|fuel]; [reflexivity|]. cbn [aper_loop bind]. rewrite (rho_small p q A N B).
  destruct (rho_big d rd Hd0 Hd1 Hr0 p q A N) as (a & p' & q' & E & _ & _ & _ & SB & _). rewrite E. cbn [lift2 bind]. rewrite (aper_smallB fuel p' q' SB). reflexivity.
Qed.
Lemma per_small fuel : forall ip iq p q, stR d rd p q -> per_loop t fuel d rd ip iq p q = per_loop BigI fuel d rd ip iq p q.
Proof.
  induction fuel as [|fuel IH]; intros ip iq p q S; [reflexivity|]. cbn [per_loop]. rewrite (rho_smallB p q (proj1 S)).
  destruct (stB_step d rd Hd0 Hd1 Hr0 p q (proj1 S)) as (a & p' & q' & E & _ & R' & _). rewrite E. cbn [lift2 bind]. rewrite (IH ip iq p' q' R'). reflexivity.
Qed.
End Rho.

(** ** The coefficients are passed on unchanged *)
Section New.
Context (g : cfg) (t : ity) (M : Z) (R : room t M) (M0 : 0 <= M).
Lemma new_loop_small n l b : 0 <= n <= M -> List.Forall (fun v => 1 <= v <= M) l ->
  new_loop g t (NSt b None nil) (n :: l) = new_loop g BigI (NSt b None nil) (n :: l).
Proof.
  intros Hn F. assert (F1 : List.Forall (fun v => 1 <= v) l) by (revert F; apply Forall_impl; intros; lia). cbn [new_loop].
  assert (S1 : forall t', room t' M -> new_step g t' (NSt b None nil) n = Ok (if n =? 0 then NSt b None [0] else NSt false (Some b) [n])).
  { intros t' R'. unfold new_step. destruct b.
    - cbn [lift2 bind]. rewrite (subR t' M) by (auto; lia). cbn [lift2 bind]. destruct (Z.eqb_spec n 0) as [->|Nn]; [reflexivity|]. destruct (Z.ltb_spec (0 - n) 0); [|lia].
      rewrite (subR t' M) by (auto; lia). cbn [bind negb]. replace (0 - (0 - n)) with n by ring. reflexivity.
    - cbn [lift2 bind]. destruct (Z.ltb_spec n 0); [lia|]. destruct (Z.eqb_spec n 0) as [->|Nn]; reflexivity. }
  rewrite (S1 t R), (S1 BigI) by (intros z _; reflexivity). cbn [lift2 bind]. destruct (Z.eqb_spec n 0) as [->|Nn].
  - destruct l as [|a1 l]; [reflexivity|]. inversion F as [|? ? H1 H2]; subst. inversion F1 as [|? ? G1 G2]; subst. cbn [new_loop].
    assert (S2 : forall t', room t' M -> new_step g t' (NSt b None [0]) a1 = Ok (NSt false (Some b) [a1; 0])).
    { intros t' R'. unfold new_step. destruct b.
      - cbn [lift2 bind]. rewrite (subR t' M) by (auto; lia). cbn [lift2 bind]. destruct (Z.eqb_spec (0 - a1) 0); [lia|]. destruct (Z.ltb_spec (0 - a1) 0); [|lia]. cbn [new_absorb].
        unfold dassert. change (0 <=? 0) with true. rewrite andb_false_r. cbn [bind Z.eqb lift2]. rewrite (subR t' M) by (auto; lia). cbn [bind negb].
        replace (0 - (0 - a1)) with a1 by ring. reflexivity.
      - cbn [lift2 bind]. destruct (Z.eqb_spec a1 0); [lia|]. destruct (Z.ltb_spec a1 0); [lia|]. reflexivity. }
    rewrite (S2 t R), (S2 BigI) by (intros z _; reflexivity). cbn [lift2 bind]. rewrite !push_all by auto. reflexivity.
  - rewrite !push_all by (auto; lia). reflexivity.
Qed.
Lemma new_loop_rev n l b st : 0 <= n -> List.Forall (fun v => 1 <= v) l -> new_loop g BigI (NSt b None nil) (n :: l) = Ok st -> s_rev st = List.rev (n :: l).
Proof.
  intros Hn F E. cbn [new_loop] in E. destruct (Z.eq_dec n 0) as [->|Nn].
  - assert (S1 : new_step g BigI (NSt b None nil) 0 = Ok (NSt b None [0])) by (destruct b; reflexivity). rewrite S1 in E. cbn [bind] in E.
    destruct l as [|a1 l]; [inversion E; reflexivity|]. inversion F as [|? ? G1 G2]; subst. cbn [new_loop] in E.
    assert (S2 : new_step g BigI (NSt b None [0]) a1 = Ok (NSt false (Some b) [a1; 0])).
    { unfold new_step. destruct b; cbn [lift2 bind subT chk fits].
      - destruct (Z.eqb_spec (0 - a1) 0); [lia|]. destruct (Z.ltb_spec (0 - a1) 0); [|lia]. cbn [new_absorb]. unfold dassert. change (0 <=? 0) with true. rewrite andb_false_r.
        cbn [bind Z.eqb lift2 subT chk fits negb]. replace (0 - (0 - a1)) with a1 by ring. reflexivity.
      - destruct (Z.eqb_spec a1 0); [lia|]. destruct (Z.ltb_spec a1 0); [lia|]. reflexivity. }
    rewrite S2 in E. cbn [bind] in E. rewrite push_all in E by auto. inversion E. cbn [s_rev List.rev]. rewrite <- !app_assoc. reflexivity.
  - assert (S1 : new_step g BigI (NSt b None nil) n = Ok (NSt false (Some b) [n])).
    { unfold new_step. destruct b; cbn [lift2 bind subT chk fits].
      - destruct (Z.ltb_spec (0 - n) 0); [|lia]. cbn [bind negb]. replace (0 - (0 - n)) with n by ring. reflexivity.
      - destruct (Z.ltb_spec n 0); [lia|]. destruct (Z.eqb_spec n 0); [lia|]. reflexivity. }
    rewrite S1 in E. cbn [bind] in E. rewrite push_all in E by (auto; lia). inversion E. reflexivity.
Qed.
End New.
Lemma unsigned_small k l M : M < 2 ^ (k - 1) -> List.Forall (fun v => 0 <= v <= M) l -> mapM (to_unsigned (SInt k)) l = Ok l.
Proof.
  intros H F. induction F as [|v l Hv F IH]; [reflexivity|]. cbn [mapM]. unfold to_unsigned at 1. cbn [lift2 bind].
  destruct (Z.le_gt_cases k 0) as [N|P]; [rewrite Z.pow_neg_r in H by lia; lia|].
  rewrite Z.mod_small; [rewrite IH; reflexivity|]. split; [lia|]. replace (2 ^ k) with (2 * 2 ^ (k - 1)); [lia|]. rewrite <- Z.pow_succ_r by lia. f_equal. lia.
Qed.
Lemma cf_new_small g k M n l p b : M < 2 ^ (k - 1) -> 0 <= n <= M -> List.Forall (fun v => 1 <= v <= M) l -> p <> nil -> List.Forall (fun v => 1 <= v <= M) p ->
  cf_new g (SInt k) (n :: l) p b = cf_new g BigI (n :: l) p b.
Proof.
  intros H Hn F Np Fp. assert (M0 : 0 <= M) by lia. pose proof (room_sint k M H) as R.
  assert (F1 : List.Forall (fun v => 1 <= v) l) by (revert F; apply Forall_impl; intros; lia).
  unfold cf_new. rewrite (new_loop_small g (SInt k) M R n l b Hn F).
  destruct (new_loop g BigI (NSt b None nil) (n :: l)) as [st| |] eqn:E; [|reflexivity|reflexivity]. cbn [lift2 bind].
  rewrite (new_loop_rev g n l b st ltac:(lia) F1 E). destruct p as [|p0 p]; [congruence|]. cbn [new_finish bind].
  assert (U : List.Forall (fun v => 0 <= v <= M) (n :: l)) by (constructor; [auto|]; revert F; apply Forall_impl; intros; lia).
  assert (Up : List.Forall (fun v => 0 <= v <= M) (p0 :: p)) by (revert Fp; apply Forall_impl; intros; lia).
  destruct (List.rev (n :: l)) as [|v r] eqn:Er; [apply (f_equal (@length Z)) in Er; rewrite rev_length in Er; discriminate|].
  cbn [lift2 bind]. rewrite <- Er, rev_involutive. rewrite (unsigned_small k _ M H U), (unsigned_small k _ M H Up).
  rewrite !mapM_total; [reflexivity| |]; [revert Up|revert U]; apply Forall_impl; intros; lia.
Qed.

(** ** The conversion *)
Section Conv.
Context (g : cfg) (k K : Z) (HK : 4 <= K) (H : K ^ 5 < 2 ^ (k - 1)).
Let M := K ^ 5.
Let t := SInt k.
Let R : room t M := room_sint k M H.
Lemma K5 : M = K * K * K * K * K.
Proof. unfold M. ring. Qed.
Lemma Mbig : 16 * (K * K * K) <= M.
Proof. rewrite K5. assert (16 <= K * K) by nia. assert (0 <= K * K * K) by nia. nia. Qed.

Lemma aper_le d p q rd fuel l pe qe : rd * rd < d -> d < (rd + 1) * (rd + 1) -> 0 <= rd -> 4 * rd <= M -> stA d p q -> next_pos rd p q -> Z.abs p + rd + q <= M ->
  aper_loop BigI fuel true d rd p q = Ok (l, pe, qe) -> List.Forall (fun v => v <= M) l.
Proof.
  intros D0 D1 D2 D4 A N B E. assert (AB : forall fuel p q l pe qe, stB d rd p q -> aper_loop BigI fuel false d rd p q = Ok (l, pe, qe) -> List.Forall (fun v => v <= M) l).
  { clear fuel p q l pe qe A N B E. induction fuel as [|fuel IH]; intros p q l pe qe B E; [discriminate|]. cbn [aper_loop] in E. rewrite (is_reduced_R d rd p q B) in E. cbn [bind] in E.
    destruct (rd <? p + q); [inversion E; constructor|].
    destruct (stB_step d rd D0 D1 D2 p q B) as (a & p' & q' & Er & Ha & R' & _ & Eq & Ep). rewrite Er in E. cbn [bind] in E.
    destruct (aper_loop BigI fuel false d rd p' q') as [[[l' pe'] qe']| |] eqn:El; [|discriminate|discriminate]. cbn [bind] in E. inversion E; subst.
    constructor; [|eapply IH; [exact (proj1 R')|exact El]]. destruct B as ((Hq & _) & Hp & Hqp). destruct R' as ((_ & Hp' & _) & _).
    assert (a * q <= 2 * rd) by lia. nia. }
  destruct fuel as [|fuel]; [discriminate|]. cbn [aper_loop bind] in E.
  destruct (rho_big d rd D0 D1 D2 p q A N) as (a & p' & q' & Er & Ea & Ep & _ & SB & Hp & _). rewrite Er in E. cbn [bind] in E.
  destruct (aper_loop BigI fuel false d rd p' q') as [[[l' pe'] qe']| |] eqn:El; [|discriminate|discriminate]. cbn [bind] in E. inversion E; subst l pe' qe'.
  constructor; [|eapply AB; eauto]. destruct A as [Hq _]. assert (a * q <= rd + p) by lia. nia.
Qed.

Lemma quad_small a b c r n neg fuel : Z.abs a <= K -> 0 < b <= K -> 0 < c <= K -> 0 <= r <= K -> ~ square r -> let y := ((IZR a + IZR b * sqrt (IZR r)) / IZR c)%R in
  isfloor y n -> ((IZR a - IZR b * sqrt (IZR r)) / IZR c < IZR n)%R -> (0 <= y)%R ->
  quadsurd_to_contfrac g t fuel a b c r neg = quadsurd_to_contfrac g BigI fuel a b c r neg.
Proof.
  intros Ha Hb Hc Hr Hs y Hn Hj Hy. pose proof K5 as E5. pose proof Mbig as MB.
  assert (K2 : 0 <= K * K) by nia. assert (K3 : K * K * K >= 16 * K) by nia.
  assert (B2 : b * b <= K * K) by nia. assert (C2 : c * c <= K * K) by nia. assert (A2 : a * a <= K * K) by nia.
  assert (RB : r * b <= K * K) by nia. assert (RBB : r * b * b <= K * K * K) by (assert (0 <= r * b) by nia; nia).
  assert (RBB0 : 0 <= r * b * b) by (assert (0 <= r * b) by nia; nia).
  assert (RC : r * b * b * c <= K * K * K * K) by (clear - RBB RBB0 Hc HK; nia).
  assert (RC0 : 0 <= r * b * b * c) by nia.
  assert (RCC : r * b * b * c * c <= M) by (rewrite E5; clear - RC RC0 Hc HK; nia).
  assert (AA0 : 0 <= a * a) by nia. assert (AC : Z.abs (a * c) <= K * K) by (apply abs_mul; lia).
  assert (K23 : K * K <= K * K * K) by nia. assert (K34 : K * K * K * K <= M) by (rewrite E5; nia).
  unfold quadsurd_to_contfrac. destruct (dassert g (negb (c =? 0) && negb (r <? 0))) as [[]| |]; [|reflexivity|reflexivity]. cbn [bind].
  assert (Hdbg : forall t', room t' M -> (if dbg g then let! s := sqrtT r in let! ss := lift2 (mulT t') (Ok s) (Ok s) in dassert g (negb (ss =? r)) else Ok tt) = Ok tt).
  { intros t' R'. destruct (dbg g) eqn:G; [|reflexivity]. rewrite sqrtB by lia. cbn [lift2 bind]. destruct (Z.sqrt_spec r ltac:(lia)) as [S1 _]. pose proof (Z.sqrt_nonneg r).
    rewrite (mulR t' M) by (auto; nia). cbn [lift2 bind]. unfold dassert. rewrite G.
    destruct (Z.eqb_spec (Z.sqrt r * Z.sqrt r) r) as [E|E]; [|reflexivity]. exfalso. apply Hs. apply sqrt_square_iff; [lia|auto]. }
  rewrite (Hdbg t R), (Hdbg BigI) by (intros z _; reflexivity). cbn [lift2 bind]. cbn [lift2 bind].
  rewrite !(mulR t M r b) by (auto; lia). cbn [lift2 bind]. rewrite !(mulR t M) by (auto; lia). cbn [bind mulT chk fits].
  destruct (Z.ltb_spec b 0); [lia|]. cbn [bind lift2]. rewrite (mulR t M a a) by (auto; lia). cbn [bind mulT chk fits].
  rewrite (subR t M (r * b * b)) by (auto; lia). cbn [bind subT chk fits]. unfold remT. cbn [lift2 bind]. destruct (Z.eqb_spec c 0); [lia|].
  big. rewrite (chk_room t M) by (auto; apply abs_quot; lia). big. cbn [bind].
  set (m := Z.rem (r * b * b - a * a) c) in *.
  assert (Es : forall t', room t' M -> (if negb (m =? 0) then let! d := lift2 (mulT t') (mulT t' (r * b * b) c) (Ok c) in let! p := mulT t' a c in let! q := mulT t' c c in Ok (d, p, q)
     else Ok (r * b * b, a, c)) = Ok (if negb (m =? 0) then (r * b * b * c * c, a * c, c * c) else (r * b * b, a, c))).
  { intros t' R'. destruct (negb (m =? 0)); [|reflexivity]. rewrite (mulR t' M (r * b * b)) by (auto; lia). cbn [lift2 bind]. rewrite (mulR t' M (r * b * b * c)) by (auto; lia). cbn [bind].
    rewrite (mulR t' M a) by (auto; lia). cbn [bind]. rewrite (mulR t' M c) by (auto; lia). reflexivity. }
  rewrite (Es t R). clear Es.
  assert (Fin : forall d p q, qs_state a b c r d p q -> 0 <= d <= M -> Z.abs p <= K * K -> q <= K * K ->
    (let! rd := sqrtT d in let! (al, p, q) := aper_loop t fuel true d rd p q in let! pl := per_loop t fuel d rd p q p q in cf_new g t al pl neg) =
    (let! rd := sqrtT d in let! (al, p, q) := aper_loop BigI fuel true d rd p q in let! pl := per_loop BigI fuel d rd p q p q in cf_new g BigI al pl neg)).
  { intros d p q St Hd Hp Hq. rewrite sqrtB by lia. cbn [bind].
    destruct (qs_bounds a b c r ltac:(lia) ltac:(lia) ltac:(lia) Hs d p q St) as (B0 & B1 & B2').
    pose proof (qs_A a b c r ltac:(lia) d p q St) as A. destruct (qs_next a b c r ltac:(lia) ltac:(lia) ltac:(lia) Hs n Hn Hj d p q St) as [N _].
    assert (M16 : 16 <= M) by lia. pose proof (rd4 M d (Z.sqrt d) B0 B2' ltac:(lia) M16) as R4.
    assert (PM : Z.abs p + Z.sqrt d + q <= M) by lia.
    rewrite (aper_small t M d (Z.sqrt d) R B0 B1 B2' ltac:(lia) M16 fuel p q A N PM).
    destruct (aper_loop BigI fuel true d (Z.sqrt d) p q) as [[[al pe] qe]| |] eqn:Ea; [|reflexivity|reflexivity]. cbn [bind].
    pose proof (aper_le d p q (Z.sqrt d) fuel al pe qe B0 B1 B2' R4 A N PM Ea) as Fm.
    destruct (qs_core a b c r ltac:(lia) ltac:(lia) ltac:(lia) Hs n Hn Hj d p q St) as (l & pe' & qe' & Ea' & Fl & Ln & RR & _).
    apply (aper_more_n BigI 3) in Ea. rewrite Ea' in Ea by lia. inversion Ea; subst al pe' qe'. clear Ea.
    rewrite (per_small t M d (Z.sqrt d) R B0 B1 B2' ltac:(lia) M16 fuel pe qe pe qe RR).
    destruct (per_loop BigI fuel d (Z.sqrt d) pe qe pe qe) as [pl| |] eqn:Ep; [|reflexivity|reflexivity]. cbn [bind].
    destruct (per_ok d _ B0 B1 B2' _ _ _ _ _ _ RR Ep) as (Np & Fp & _). pose proof (per_coeffs d _ B0 B1 B2' fuel pe qe pe qe pl RR Ep) as Fp2.
    pose proof (floor_nonneg a b c r n Hn Hy) as N0. pose proof (Forall_inv Fm) as Fm0. pose proof (Forall_inv_tail Fm) as Fm1. cbv beta in Fm0.
    apply (cf_new_small g k M); [exact H|lia| |auto|]; apply Forall_forall; intros v Iv.
    - rewrite Forall_forall in Fl, Fm1. specialize (Fl v Iv). specialize (Fm1 v Iv). cbv beta in Fm1. lia.
    - rewrite Forall_forall in Fp, Fp2. specialize (Fp v Iv). specialize (Fp2 v Iv). cbv beta in Fp2. lia. }
  destruct (Z.eqb_spec m 0) as [E|E]; cbn [negb bind].
  - apply Fin; [left; split; [apply rem_div; [lia|exact E]|auto]|lia|nia|nia].
  - apply Fin; [right; split; [rewrite <- rem_div by lia; exact E|auto]|lia|lia|lia].
Qed.

Lemma to_cf_small s x fuel : normal g s -> small K s -> sval s = RtoC x -> cf_domain x -> surd_to_cf g t fuel s = surd_to_cf g BigI fuel s.
Proof.
  intros N Sm E D. destruct (surd_domain g s x N E D) as (xc & Ec & I & Sp). destruct (normal_real g s x N E) as [Hr Ex].
  destruct (public_pre g s x xc N E Ec I Sp) as (a & b & c & r & n & Es & Hc & Hr' & Hsq & Ex' & Hn & X0 & Pp & Pm).
  pose proof Mbig as MB. assert (KM : K <= M) by nia.
  assert (R3 : room t (K ^ 3)) by (apply (room_le t M); [exact R|]; replace (K ^ 3) with (K * K * K) by ring; nia).
  unfold surd_to_cf. destruct (discr s <? 0); [reflexivity|]. rewrite (negative_fit g t K HK s R3 Sm).
  destruct (surd_is_negative_big g s N Hr) as (ng & En & Ib). rewrite <- Ex in Ib. rewrite En. cbn [bind]. subst s.
  unfold small in Sm. cbn [coeffs c0 c1 c2 discr] in *. destruct Sm as (S0 & S1 & S2 & S3). destruct ng.
  - assert (Xn : (x < 0)%R) by (apply Ib; auto). destruct (Pm Xn) as (Hb & Hcj & Ey). rewrite Rabs_left, Ey in Hn by lra.
    cbn [lift1 bind]. rewrite (negR t M a), (negR t M b) by (auto; try exact R; lia). cbn [bind negT chk fits lift1].
    rewrite (quad_small (- a) (- b) c r n true fuel); auto; try lia. rewrite <- Ey. lra.
  - assert (Xn : (0 < x)%R). { destruct (Rtotal_order x 0) as [T|[T|T]]; [exfalso|congruence|auto]. apply Ib in T. discriminate. }
    destruct (Pp Xn) as (Hb & Hcj). rewrite Rabs_pos_eq, Ex' in Hn by lra.
    rewrite (quad_small a b c r n false fuel); auto; try lia. rewrite <- Ex'. lra.
Qed.
End Conv.

(** ** Every coefficient after the first is at most 2 root_size *)
Lemma aper_tail d p q rd fuel a0 l pe qe : rd * rd < d -> d < (rd + 1) * (rd + 1) -> 0 <= rd -> stA d p q -> next_pos rd p q ->
  aper_loop BigI fuel true d rd p q = Ok (a0 :: l, pe, qe) -> List.Forall (fun v => v <= 2 * rd) l.
Proof.
  intros D0 D1 D2 A N E. assert (AB : forall fuel p q l pe qe, stB d rd p q -> aper_loop BigI fuel false d rd p q = Ok (l, pe, qe) -> List.Forall (fun v => v <= 2 * rd) l).
  { clear fuel p q l pe qe A N E. induction fuel as [|fuel IH]; intros p q l pe qe B E; [discriminate|]. cbn [aper_loop] in E. rewrite (is_reduced_R d rd p q B) in E. cbn [bind] in E.
    destruct (rd <? p + q); [inversion E; constructor|].
    destruct (stB_step d rd D0 D1 D2 p q B) as (a & p' & q' & Er & Ha & R' & _ & Eq & Ep). rewrite Er in E. cbn [bind] in E.
    destruct (aper_loop BigI fuel false d rd p' q') as [[[l' pe'] qe']| |] eqn:El; [|discriminate|discriminate]. cbn [bind] in E. inversion E; subst.
    constructor; [|eapply IH; [exact (proj1 R')|exact El]]. destruct B as ((Hq & _) & Hp & Hqp). destruct R' as ((_ & Hp' & _) & _).
    assert (a * q <= 2 * rd) by lia. nia. }
  destruct fuel as [|fuel]; [discriminate|]. cbn [aper_loop bind] in E.
  destruct (rho_big d rd D0 D1 D2 p q A N) as (a & p' & q' & Er & Ea & Ep & _ & SB & Hp & _). rewrite Er in E. cbn [bind] in E.
  destruct (aper_loop BigI fuel false d rd p' q') as [[[l' pe'] qe']| |] eqn:El; [|discriminate|discriminate]. cbn [bind] in E. inversion E; subst.
  eapply AB; eauto.
Qed.
Lemma quad_coeffs g a b c r n fuel neg z : 0 < b -> 0 < c -> 0 <= r -> ~ square r -> let y := ((IZR a + IZR b * sqrt (IZR r)) / IZR c)%R in
  isfloor y n -> ((IZR a - IZR b * sqrt (IZR r)) / IZR c < IZR n)%R -> (0 <= y)%R -> quadsurd_to_contfrac g BigI fuel a b c r neg = Ok z ->
  let rd := Z.sqrt (b * b * (c * c) * r) in
  exists l pl, z = CF (n :: l) pl neg /\ 0 <= n /\ List.Forall (fun v => 1 <= v <= 2 * rd) l /\ pl <> nil /\ List.Forall (fun v => 1 <= v <= 2 * rd) pl.
Proof.
  intros Hb Hc Hr Hs y Hn Hj Hy H rd.
  destruct (qs_peel g BigI fuel a b c r neg z Hb Hc H) as (d & p & q & al & pe & qe & pl & St & E1 & E2 & E3).
  destruct (qs_core a b c r Hb Hc Hr Hs n Hn Hj d p q St) as (l & pe' & qe' & Ea & Fl & Ln & R & V & B0 & B1 & B2).
  pose proof (qs_A a b c r Hc d p q St) as A. destruct (qs_next a b c r Hb Hc Hr Hs n Hn Hj d p q St) as [N _].
  pose proof (aper_more_n BigI 3 _ _ _ _ _ _ _ E1) as E1'. rewrite Ea in E1' by lia. inversion E1'; subst al pe' qe'. clear E1'.
  pose proof (aper_tail d p q _ fuel n l pe qe B0 B1 B2 A N E1) as Ft.
  destruct (per_ok d _ B0 B1 B2 _ _ _ _ _ _ R E2) as (Np & Fp & _). pose proof (per_coeffs d _ B0 B1 B2 fuel pe qe pe qe pl R E2) as Fp2.
  pose proof (floor_nonneg a b c r n Hn Hy) as N0. pose proof (cf_new_pos g BigI n l pl neg z N0 Fl Fp Np (fitl_big _) (fitl_big _) E3) as Ez.
  pose proof (qs_size a b c r d p q Hc Hr St) as Sz. fold rd in Sz. exists l, pl. split; [exact Ez|]. split; [auto|].
  split; [|split; [auto|]]; apply Forall_forall; intros v Iv.
  - rewrite Forall_forall in Fl, Ft. specialize (Fl v Iv). specialize (Ft v Iv). cbv beta in Ft. lia.
  - rewrite Forall_forall in Fp, Fp2. specialize (Fp v Iv). specialize (Fp2 v Iv). cbv beta in Fp2. lia.
Qed.
Lemma to_cf_coeffs g fuel s x z : normal g s -> sval s = RtoC x -> cf_domain x -> surd_to_cf g BigI fuel s = Ok (Some z) ->
  exists n l pl ng, z = CF (n :: l) pl ng /\ isfloor (Rabs x) n /\ 0 <= n /\ List.Forall (fun v => 1 <= v <= 2 * root_size s) l /\ pl <> nil /\
    List.Forall (fun v => 1 <= v <= 2 * root_size s) pl.
Proof.
  intros N E D H. destruct (surd_domain g s x N E D) as (xc & Ec & I & Sp). destruct (normal_real g s x N E) as [Hr Ex].
  destruct (public_pre g s x xc N E Ec I Sp) as (a & b & c & r & n & Es & Hc & Hr' & Hsq & Ex' & Hn & X0 & Pp & Pm).
  unfold surd_to_cf in H. destruct (Z.ltb_spec (discr s) 0); [lia|].
  destruct (surd_is_negative_big g s N Hr) as (ng & En & Ib). rewrite <- Ex in Ib. rewrite En in H. cbn [bind] in H.
  destruct (root_size_opp a b c r) as [R1 R2]. rewrite Es in H |- *. pose proof Hn as Hn0. destruct ng.
  - assert (Xn : (x < 0)%R) by (apply Ib; auto). destruct (Pm Xn) as (Hb & Hcj & Ey). rewrite Rabs_left, Ey in Hn by lra.
    cbn [lift1 negT chk fits bind] in H.
    destruct (quadsurd_to_contfrac g BigI fuel (- a) (- b) c r true) as [z'| |] eqn:Eq; [|discriminate|discriminate]. inversion H; subst z'.
    destruct (quad_coeffs g (- a) (- b) c r n fuel true z Hb Hc Hr' Hsq Hn Hcj ltac:(rewrite <- Ey; lra) Eq) as (l & pl & Ez & N0 & Fl & Np & Fp).
    rewrite <- R1 in Fl, Fp. exists n, l, pl, true. auto 10.
  - assert (Xn : (0 < x)%R). { destruct (Rtotal_order x 0) as [T|[T|T]]; [exfalso|congruence|auto]. apply Ib in T. discriminate. }
    destruct (Pp Xn) as (Hb & Hcj). rewrite Rabs_pos_eq, Ex' in Hn by lra.
    cbn [lift1 negT chk fits bind] in H.
    destruct (quadsurd_to_contfrac g BigI fuel a b c r false) as [z'| |] eqn:Eq; [|discriminate|discriminate]. inversion H; subst z'.
    destruct (quad_coeffs g a b c r n fuel false z Hb Hc Hr' Hsq Hn Hcj ltac:(rewrite <- Ex'; lra) Eq) as (l & pl & Ez & N0 & Fl & Np & Fp).
    rewrite <- R2 in Fl, Fp. exists n, l, pl, false. auto 10.
Qed.

(** ** Convergents *)
Lemma PQ_bound f B n : cpos f -> (forall i, f (S i) <= B) -> (1 <= n)%nat -> PP f n <= (f 0%nat + 1) * QQ f n.
Proof.
  intros C HB Hn. destruct n as [|n]; [lia|]. enough (PP f (S n) <= (f 0%nat + 1) * QQ f (S n) /\ PP f (S (S n)) <= (f 0%nat + 1) * QQ f (S (S n))) by tauto.
  clear Hn. pose proof (proj1 C) as C0. induction n as [|n [A1 A2]].
  - rewrite PP_SS, QQ_SS, PP_1, QQ_1, PP_0, QQ_0. pose proof (proj2 C 0%nat). split; nia.
  - split; [auto|]. rewrite (PP_SS f (S n)), (QQ_SS f (S n)). pose proof (proj2 C (S n)). nia.
Qed.
Lemma first_reach f limit : cpos f -> 1 <= limit -> exists n, (1 <= n)%nat /\ limit <= QQ f (S n) /\ QQ f n <= limit.
Proof.
  intros C Hl. assert (K : forall m, (exists n, (1 <= n)%nat /\ limit <= QQ f (S n) /\ QQ f n <= limit) \/ QQ f (S m) < limit \/ m = 0%nat).
  { induction m as [|m IH]; [auto|]. destruct IH as [Y|IH]; [auto|]. destruct (Z.lt_ge_cases (QQ f (S (S m))) limit) as [|G]; [auto|]. left. exists (S m).
    split; [lia|]. split; [auto|]. destruct IH as [L| ->]; [lia|]. rewrite QQ_1. lia. }
  destruct (K (S (Z.to_nat limit))) as [Y|[Y|Y]]; [auto| |discriminate]. pose proof (QQ_linear f C (S (Z.to_nat limit))). lia.
Qed.
Lemma pseq_in l k : l <> nil -> In (pseq l k) l.
Proof.
  intros N. unfold pseq. assert (L : (0 < length l)%nat) by (destruct l; [congruence|cbn; lia]).
  assert (I : In (nth k (concat (repeat l (S k))) 1) (concat (repeat l (S k)))) by (apply nth_In; rewrite concat_repeat_len; nia).
  apply in_concat in I. destruct I as (l' & I1 & I2). apply repeat_spec in I1. subst l'. auto.
Qed.
Lemma cseq_tail n l pl ng B : pl <> nil -> List.Forall (fun v => 1 <= v <= B) l -> List.Forall (fun v => 1 <= v <= B) pl -> forall i, cseq (CF (n :: l) pl ng) (S i) <= B.
Proof.
  intros Np Fl Fp i. set (x := CF (n :: l) pl ng). destruct (Nat.lt_ge_cases (S i) (lena x)) as [L|G].
  - rewrite cseq_a by auto. cbn [x a_coeffs nth]. unfold lena, x in L. cbn [a_coeffs length] in L. rewrite Forall_forall in Fl. apply Fl. apply nth_In. lia.
  - replace (S i) with (lena x + (S i - lena x))%nat by lia. rewrite cseq_p by exact Np. rewrite Forall_forall in Fp. apply Fp. apply pseq_in. exact Np.
Qed.

(** ** Approximations *)
Lemma root_size_small K s : 4 <= K -> small K s -> 0 <= discr s -> 2 * root_size s <= K ^ 3.
Proof.
  intros HK (_ & S1 & S2 & S3) D. unfold root_size. set (b := c1 (coeffs s)) in *. set (c := c2 (coeffs s)) in *. set (r := discr s) in *.
  assert (b * b <= K * K) by nia. assert (c * c <= K * K) by nia. assert (0 <= b * b) by nia. assert (0 <= c * c) by nia.
  assert (X : b * b * (c * c) * r <= K * K * (K * K) * K). { apply Z.mul_le_mono_nonneg; [nia| |lia|lia]. apply Z.mul_le_mono_nonneg; lia. }
  pose proof (Z.sqrt_spec (b * b * (c * c) * r) ltac:(nia)) as [Y _]. pose proof (Z.sqrt_nonneg (b * b * (c * c) * r)) as Y0. set (w := Z.sqrt _) in *.
  clearbody w. clear - HK X Y Y0. replace (K ^ 3) with (K * K * K) by ring.
  destruct (Z.le_gt_cases (2 * w) (K * K * K)) as [|G]; [auto|exfalso]. assert (K * K * K * (K * K * K) < 2 * w * (2 * w)) by nia.
  assert (4 * (K * K * (K * K) * K) <= K * K * K * (K * K * K)). { replace (K * K * K * (K * K * K)) with (K * (K * K * (K * K) * K)) by ring. nia. } lia.
Qed.
Lemma floor_small g K s x n : 4 <= K -> normal g s -> small K s -> sval s = RtoC x -> isfloor (Rabs x) n -> 2 * n <= 2 * K + K * K.
Proof.
  intros HK N (S0 & S1 & S2 & S3) E Hn. destruct (normal_real g s x N E) as [Hr Ex].
  assert (Hc : 1 <= c2 (coeffs s)). { destruct N as (N1 & _). lia. }
  destruct Hn as [Hn _]. set (a := c0 (coeffs s)) in *. set (b := c1 (coeffs s)) in *. set (c := c2 (coeffs s)) in *. set (r := discr s) in *.
  apply le_IZR. rewrite plus_IZR, !mult_IZR.
  assert (Rk : (4 <= IZR K)%R) by (apply IZR_le; auto).
  assert (Q : (0 <= sqrt (IZR r) <= IZR K / 2)%R).
  { split; [apply sqrt_pos|]. rewrite <- (sqrt_Rsqr (IZR K / 2)) by lra. apply sqrt_le_1_alt. unfold Rsqr. assert (IZR r <= IZR K)%R by (apply IZR_le; lia). nra. }
  assert (A : (Rabs (IZR a) <= IZR K)%R) by (rewrite <- abs_IZR; apply IZR_le; auto).
  assert (B : (Rabs (IZR b) <= IZR K)%R) by (rewrite <- abs_IZR; apply IZR_le; auto).
  assert (T : (Rabs (IZR a + IZR b * sqrt (IZR r)) <= IZR K + IZR K * (IZR K / 2))%R).
  { eapply Rle_trans; [apply Rabs_triang|]. apply Rplus_le_compat; [auto|]. rewrite Rabs_mult, (Rabs_pos_eq (sqrt _)) by apply Q.
    apply Rmult_le_compat; [apply Rabs_pos|apply Q|auto|apply Q]. }
  assert (X : (Rabs x <= Rabs (IZR a + IZR b * sqrt (IZR r)))%R).
  { replace x with ((IZR a + IZR b * sqrt (IZR r)) / IZR c)%R by (symmetry; exact Ex). unfold Rdiv. rewrite Rabs_mult. assert (1 <= IZR c)%R by (apply IZR_le; lia). rewrite (Rabs_pos_eq (/ _)) by (left; apply Rinv_0_lt_compat; lra).
    rewrite <- (Rmult_1_r (Rabs (IZR a + _))) at 2. apply Rmult_le_compat_l; [apply Rabs_pos|]. rewrite <- Rinv_1. apply Rinv_le_contravar; lra. }
  lra.
Qed.
Lemma approx_small g k K limit fuel s x : 4 <= K -> 1 <= limit -> K ^ 5 * limit < 2 ^ (k - 1) -> normal g s -> small K s -> sval s = RtoC x -> cf_domain x ->
  surd_approximated g (SInt k) fuel s limit = surd_approximated g BigI fuel s limit.
Proof.
  intros HK Hl HM N S E D. assert (H5 : K ^ 5 < 2 ^ (k - 1)). { assert (0 < K ^ 5) by (apply Z.pow_pos_nonneg; lia). nia. }
  unfold surd_approximated. rewrite (to_cf_small g k K HK H5 s x fuel N S E D). destruct (surd_to_cf g BigI fuel s) as [[z|]| |] eqn:Ez; try reflexivity. cbn [bind unwrap].
  destruct (to_cf_coeffs g fuel s x z N E D Ez) as (n & l & pl & ng & Es & Hn & N0 & Fl & Np & Fp).
  pose proof (normal_real g s x N E) as [Hr _].
  pose proof (root_size_small K s HK S Hr) as Bs. pose proof (floor_small g K s x n HK N S E Hn) as Bn.
  assert (Inf : ~ finite z) by (unfold finite; rewrite Es; exact Np).
  destruct (surd_domain g s x N E D) as (xc & Ec & I & Sp). assert (W : wfcf z) by (apply (surd_to_cf_ok g s x xc N E Ec I Sp BigI fuel z eq_refl Ez)).
  pose proof (wfcf_cpos z W) as HC. assert (Z0 : cseq z 0 = n) by (rewrite Es; reflexivity).
  assert (Zt : forall i, cseq z (Datatypes.S i) <= 2 * root_size s) by (rewrite Es; apply cseq_tail; auto).
  destruct (first_reach (cseq z) limit HC Hl) as (m & Hm & Lm & Lm').
  assert (Bd : forall j, (j <= m)%nat -> QQ (cseq z) (Datatypes.S j) <= (2 * root_size s + 1) * limit).
  { intros j Hj. pose proof (QQ_le (cseq z) (Datatypes.S j) (Datatypes.S m) HC ltac:(lia)) as Q1. destruct m as [|m]; [lia|]. rewrite (QQ_SS (cseq z) m) in Q1.
    pose proof (QQ_mono (cseq z) HC m) as (Q2 & Q3 & Q4). pose proof (Zt m). pose proof (proj2 HC m). nia. }
  assert (KK : (n + 1) * (2 * root_size s + 1) <= K ^ 5).
  { assert (2 * (n + 1) <= 2 * K + K * K + 2) by lia. assert (0 <= root_size s) by apply Z.sqrt_nonneg.
    assert (2 * (n + 1) * (2 * root_size s + 1) <= (2 * K + K * K + 2) * (K ^ 3 + 1)) by (apply Z.mul_le_mono_nonneg; lia).
    assert ((2 * K + K * K + 2) * (K ^ 3 + 1) <= 2 * K ^ 5).
    { replace (2 * K ^ 5) with (2 * (K * K) * (K * K * K)) by ring. replace (K ^ 3) with (K * K * K) by ring. assert (16 <= K * K) by nia. assert (64 <= K * K * K) by nia. nia. }
    lia. }
  assert (Fit : forall j r, (j <= m)%nat -> convergent z j r -> ratio_sfit (UInt k) r).
  { intros j r Hj C. pose proof (inf_has z j Inf) as Hh. destruct (conv_item_convergent z j W Hh) as (r' & Er & C').
    assert (r = r') by (destruct C as [L V], C' as [L' V']; apply RatioFacts.lowest_unique; auto; congruence). subst r'.
    rewrite (conv_item_eq z j Hh) in Er. inversion Er; subst r. unfold ratio_sfit. cbn [numer denom sfit].
    pose proof (Bd j Hj). pose proof (QQ_mono (cseq z) HC j) as (Q1 & _). pose proof (PQ_bound (cseq z) (2 * root_size s) (Datatypes.S j) HC Zt ltac:(lia)) as P1. rewrite Z0 in P1.
    pose proof (PP_mono (cseq z) HC (Datatypes.S j)) as P0.
    assert (Q9 : (n + 1) * QQ (cseq z) (Datatypes.S j) <= K ^ 5 * limit). { apply Z.le_trans with ((n + 1) * ((2 * root_size s + 1) * limit)); [nia|]. nia. }
    assert (Ab : Z.abs (sgnb (negative z) * PP (cseq z) (Datatypes.S j)) = PP (cseq z) (Datatypes.S j)) by (destruct (negative z); cbn [sgnb]; lia).
    rewrite Ab. split; [lia|]. nia. }
  apply (cf_approx_fit (UInt k) z limit m fuel W Hm Fit).
  intros r C. pose proof (inf_has z m Inf) as Hh. destruct (conv_item_convergent z m W Hh) as (r' & Er & C').
  assert (r = r') by (destruct C as [L V], C' as [L' V']; apply RatioFacts.lowest_unique; auto; congruence). subst r'.
  rewrite (conv_item_eq z m Hh) in Er. inversion Er; subst r. cbn [denom]. exact Lm.
Qed.
