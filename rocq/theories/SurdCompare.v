(** * SurdCompare: comparing two real surds with floor() and recip(). *)

From Coq Require Import ZArith Reals Lia Lra Bool List Arith.
From Coquelicot Require Import Coquelicot.
From Verif Require Import Base Ext ModelSurd Spec SpecCF SpecCompare NumFacts SurdCore SurdArith SurdMisc SurdTotal SurdRoots SurdOrd SurdRound CFStep CFArith GenSound ClaimsSurd.
From Verif Require Import CFCore CFSerret CFRecipe.
Import ListNotations.
Open Scope Z_scope.

Definition whole (x : R) : Prop := x = IZR (fl x).
Lemma whole_dec x : {whole x} + {~ whole x}.
Proof. apply Req_EM_T. Qed.
Lemma gs_big x : ~ whole x -> (1 < gs x)%R.
Proof. intros I. pose proof (fl_ok x) as F. unfold isfloor, whole in *. unfold gs. rewrite <- Rinv_1. apply Rinv_lt_contravar; lra. Qed.
Lemma gs_eq x : (x = IZR (fl x) + / gs x)%R.
Proof. unfold gs. rewrite Rinv_inv. ring. Qed.

(** the comparison is decided after at most [k] steps *)
Fixpoint apart (k : nat) (x y : R) : Prop :=
  fl x <> fl y \/ whole x \/ whole y \/ match k with O => False | S k => apart k (gs y) (gs x) end.

Lemma apart_all m : forall x y, (1 <= 2 ^ m * Rabs (x - y))%R -> exists k, apart k x y.
Proof.
  induction m as [|m IH]; intros x y A.
  - exists 0%nat. left. intros E. pose proof (fl_ok x) as Fx. pose proof (fl_ok y) as Fy. unfold isfloor in *. rewrite E in Fx. cbn in A. rewrite Rmult_1_l in A. unfold Rabs in A. destruct (Rcase_abs (x - y)); lra.
  - destruct (Z.eq_dec (fl x) (fl y)) as [E0|E0]; [|exists 0%nat; left; auto]. destruct (whole_dec x) as [Wx|Wx]; [exists 0%nat; cbn; auto|]. destruct (whole_dec y) as [Wy|Wy]; [exists 0%nat; cbn; auto|].
    destruct (Z.eq_dec (fl (gs y)) (fl (gs x))) as [E1|E1]; [|exists 1%nat; cbn [apart]; auto]. destruct (whole_dec (gs x)) as [Wx1|Wx1]; [exists 1%nat; cbn [apart]; auto 8|]. destruct (whole_dec (gs y)) as [Wy1|Wy1]; [exists 1%nat; cbn [apart]; auto 8|].
    destruct (IH (gs (gs x)) (gs (gs y))) as [k Hk]; [|exists (S (S k)); cbn [apart]; auto 10].
    pose proof (gs_big x Wx) as X1. pose proof (gs_big y Wy) as Y1. pose proof (gs_big _ Wx1) as X2. pose proof (gs_big _ Wy1) as Y2.
    pose proof (gs_eq x) as Ex. pose proof (gs_eq y) as Ey. pose proof (gs_eq (gs x)) as Ex1. pose proof (gs_eq (gs y)) as Ey1. rewrite <- E0 in Ey. rewrite E1 in Ey1.
    pose proof (fl_ge1 _ X1) as N1. apply IZR_le in N1. set (n0 := IZR (fl x)) in *. set (n1 := IZR (fl (gs x))) in *. set (x1 := gs x) in *. set (x2 := gs x1) in *. set (y1 := gs y) in *. set (y2 := gs y1) in *.
    clearbody n0 n1 x2 y2. clearbody x1 y1.
    assert (D1 : (x - y = (y1 - x1) / (x1 * y1))%R) by (rewrite Ex, Ey; field; lra).
    assert (D2 : (y1 - x1 = (x2 - y2) / (x2 * y2))%R) by (rewrite Ex1 at 1; rewrite Ey1 at 1; field; lra).
    assert (Fx : (x1 * x2 = n1 * x2 + 1)%R) by (rewrite Ex1 at 1; field; lra). assert (Fy : (y1 * y2 = n1 * y2 + 1)%R) by (rewrite Ey1 at 1; field; lra).
    assert (D : (x2 - y2 = (x - y) * (x1 * x2) * (y1 * y2))%R) by (rewrite D1, D2; field; lra).
    assert (Bx : (2 <= x1 * x2)%R) by (rewrite Fx; nra). assert (By : (1 <= y1 * y2)%R) by (rewrite Fy; nra).
    rewrite D, (Rabs_mult _ (y1 * y2)), (Rabs_mult _ (x1 * x2)), (Rabs_pos_eq (x1 * x2)), (Rabs_pos_eq (y1 * y2)) by lra. cbn [pow] in A. pose proof (Rabs_pos (x - y)) as Pa.
    assert (Pm : (0 < 2 ^ m)%R) by (apply pow_lt; lra). set (a := Rabs (x - y)) in *. set (w := (2 ^ m)%R) in *. set (u := (x1 * x2)%R) in *. set (v := (y1 * y2)%R) in *.
    clearbody a w u v. clear - A Pa Pm Bx By. assert (0 <= w * a)%R by (apply Rmult_le_pos; lra). assert (2 <= u * v)%R by nra.
    replace (w * (a * u * v))%R with (w * a * (u * v))%R by ring. nra.
Qed.
Lemma apart_ex x y : x <> y -> exists k, apart k x y.
Proof.
  intros N. assert (Pa : (0 < Rabs (x - y))%R) by (apply Rabs_pos_lt; lra). set (a := Rabs (x - y)) in *.
  destruct (Pow_x_infinity 2) with (b := (/ a)%R) as [m Hm]; [rewrite Rabs_pos_eq; lra|]. specialize (Hm m (Nat.le_refl _)). rewrite Rabs_pos_eq in Hm by (apply pow_le; lra).
  apply (apart_all m x y). fold a. apply Rge_le in Hm. apply (Rmult_le_compat_r a) in Hm; [|lra]. rewrite Rinv_l in Hm by lra. lra.
Qed.
Lemma apart_rational d : forall n, 0 < d -> exists k, apart k (IZR n / IZR d) (IZR n / IZR d).
Proof.
  intros n Hd. revert n. revert Hd. assert (H : 0 <= d \/ d < 0) by lia. destruct H as [H|H]; [|intros; lia].
  refine (Z_lt_induction (fun d => 0 < d -> forall n, exists k, apart k (IZR n / IZR d) (IZR n / IZR d)) _ d H).
  clear. intros d IH Hd n. assert (Pd : (0 < IZR d)%R) by (apply IZR_lt; auto).
  pose proof (Z.div_mod n d ltac:(lia)) as E. pose proof (Z.mod_pos_bound n d Hd) as B. set (q := n / d) in *. set (r := n mod d) in *. clearbody q r.
  assert (En : (IZR n / IZR d = IZR q + IZR r / IZR d)%R) by (rewrite E, plus_IZR, mult_IZR; field; lra).
  assert (Fl : fl (IZR n / IZR d) = q).
  { apply fl_is. unfold isfloor. rewrite En. destruct B as [B1 B2]. apply IZR_le in B1. apply IZR_lt in B2. assert (0 <= IZR r / IZR d)%R by (apply Rmult_le_pos; [lra|left; apply Rinv_0_lt_compat; lra]).
    assert (IZR r / IZR d < 1)%R by (apply (Rmult_lt_reg_r (IZR d)); [lra|]; unfold Rdiv; rewrite Rmult_assoc, Rinv_l by lra; lra). lra. }
  destruct (Z.eq_dec r 0) as [R0|R0].
  - exists 0%nat. right. left. unfold whole. rewrite Fl, En, R0. field. lra.
  - destruct (IH r ltac:(lia) ltac:(lia) d) as [k Hk]. exists (S k). cbn [apart]. right. right. right. unfold gs. rewrite Fl, En.
    assert (Rn : IZR r <> 0%R) by (apply not_0_IZR; auto). replace (/ (IZR q + IZR r / IZR d - IZR q))%R with (IZR d / IZR r)%R by (field; lra). exact Hk.
Qed.

(** ** soundness *)
Lemma part g t s x v d : normal g s -> sval s = RtoC x -> surd_floor g t s = Ok v -> surd_sub g t s v = Ok d ->
  v = surd_of_int (fl x) /\ normal g d /\ sval d = RtoC (x - IZR (fl x)) /\ (surd_is_zero d = true <-> whole x).
Proof.
  intros N V Hv Hd. destruct (floor_is g t s x v N V Hv) as (n & -> & F). pose proof (isfloor_unique x n (fl x) F (fl_ok x)) as ->. destruct (surd_of_int_spec g (fl x)) as [Vn Nn].
  apply surd_sub_ok in Hd; auto using normal_wf. destruct Hd as [Vd Nd]. assert (E : sval d = RtoC (x - IZR (fl x))) by (rewrite Vd, V, Vn; unfold ZtoC; rewrite <- RtoC_minus; reflexivity).
  split; [auto|]. split; [auto|]. split; [auto|]. rewrite (proj1 (L_C18_is_zero_one g d Nd)), E. unfold whole. split; [intros K; apply RtoC_inj in K; lra|intros K; f_equal; lra].
Qed.
Lemma flipped g t d x q : normal g d -> sval d = RtoC (x - IZR (fl x)) -> surd_recip g t d = Ok q -> normal g q /\ sval q = RtoC (gs x).
Proof.
  intros N V H. apply surd_recip_ok in H; [|apply (normal_okc g); auto]. destruct H as (D0 & Vq & Nq). split; [auto|]. rewrite Vq, V. unfold gs. rewrite RtoC_inv; [reflexivity|].
  intros E. apply D0. rewrite V, E. reflexivity.
Qed.
Lemma fl_le x : (IZR (fl x) <= x < IZR (fl x) + 1)%R.
Proof. exact (fl_ok x). Qed.

Lemma compare_sound g t fuel : forall s r x y c, normal g s -> normal g r -> sval s = RtoC x -> sval r = RtoC y -> compare_surds g t fuel s r = Ok c -> is_order c x y.
Proof.
  induction fuel as [|fuel IH]; intros s r x y c Ns Nr Vs Vr H; [discriminate|]. cbn [compare_surds] in H.
  apply bind_Ok in H. destruct H as (v & Hv & H). apply bind_Ok in H. destruct H as (w & Hw & H). apply bind_Ok in H. destruct H as (n & Hn & H). apply bind_Ok in H. destruct H as (m & Hm & H).
  destruct (floor_is g t s x v Ns Vs Hv) as (n' & -> & Fx). pose proof (isfloor_unique x n' (fl x) Fx (fl_ok x)) as ->. destruct (floor_is g t r y w Nr Vr Hw) as (m' & -> & Fy). pose proof (isfloor_unique y m' (fl y) Fy (fl_ok y)) as ->.
  destruct (surd_of_int_spec g (fl x)) as [V1 N1]. destruct (surd_of_int_spec g (fl y)) as [V2 N2].
  rewrite (L_C13_to_integer_complete g t _ _ N1 V1) in Hn. rewrite (L_C13_to_integer_complete g t _ _ N2 V2) in Hm. inversion Hn; subst n. inversion Hm; subst m. cbn [approx_value] in H.
  pose proof (fl_le x) as Lx. pose proof (fl_le y) as Ly. destruct (Z.compare_spec (fl x) (fl y)) as [E|E|E].
  - apply bind_Ok in H. destruct H as (d & Hd & H). apply bind_Ok in H. destruct H as (e & He & H).
    destruct (part g t s x _ d Ns Vs Hv Hd) as (_ & Nd & Vd & Zd). destruct (part g t r y _ e Nr Vr Hw He) as (_ & Ne & Ve & Ze). unfold whole in *.
    destruct (surd_is_zero d) eqn:Z1, (surd_is_zero e) eqn:Z2.
    + inversion H; subst c. cbn. rewrite (proj1 Zd eq_refl), (proj1 Ze eq_refl), E. reflexivity.
    + inversion H; subst c. cbn. assert (y <> IZR (fl y)) by (intros K; apply Ze in K; discriminate). pose proof (proj1 Zd eq_refl). rewrite E in *. lra.
    + inversion H; subst c. cbn. assert (x <> IZR (fl x)) by (intros K; apply Zd in K; discriminate). pose proof (proj1 Ze eq_refl). rewrite E in *. lra.
    + apply bind_Ok in H. destruct H as (d' & Hd' & H). apply bind_Ok in H. destruct H as (e' & He' & H).
      destruct (flipped g t d x d' Nd Vd Hd') as [Nd' Vd']. destruct (flipped g t e y e' Ne Ve He') as [Ne' Ve'].
      assert (Wx : ~ whole x) by (intros K; apply Zd in K; discriminate). assert (Wy : ~ whole y) by (intros K; apply Ze in K; discriminate).
      specialize (IH e' d' (gs y) (gs x) c Ne' Nd' Ve' Vd' H). pose proof (gs_big x Wx) as X1. pose proof (gs_big y Wy) as Y1. pose proof (gs_eq x) as Ex. pose proof (gs_eq y) as Ey. rewrite E in Ex.
      assert (Inv : forall a b, (1 < a)%R -> (a < b)%R -> (/ b < / a)%R) by (intros a b Pa Lab; apply Rinv_lt_contravar; [apply Rmult_lt_0_compat; lra|lra]).
      destruct c; cbn [is_order] in *.
      * rewrite IH in Ey. congruence.
      * pose proof (Inv _ _ Y1 IH). lra.
      * pose proof (Inv _ _ X1 IH). lra.
  - inversion H; subst c. cbn. assert (L : fl x + 1 <= fl y) by lia. apply IZR_le in L. rewrite plus_IZR in L. lra.
  - inversion H; subst c. cbn. assert (L : fl y + 1 <= fl x) by lia. apply IZR_le in L. rewrite plus_IZR in L. lra.
Qed.

(** ** over arbitrary precision *)
Lemma part_total g s x : normal g s -> sval s = RtoC x ->
  surd_floor g BigI s = Ok (surd_of_int (fl x)) /\ surd_to_integer g BigI (surd_of_int (fl x)) = Ok (Exact (fl x)) /\
  exists d, surd_sub g BigI s (surd_of_int (fl x)) = Ok d /\ surd_is_zero d = (if whole_dec x then true else false) /\
    (~ whole x -> exists q, surd_recip g BigI d = Ok q /\ normal g q /\ sval q = RtoC (gs x)).
Proof.
  intros N V. destruct (L_C10_returns g s x N V) as [v Hv]. destruct (floor_is g BigI s x v N V Hv) as (n & -> & F). pose proof (isfloor_unique x n (fl x) F (fl_ok x)) as ->. destruct (surd_of_int_spec g (fl x)) as [Vn Nn].
  split; [auto|]. split; [apply (L_C13_to_integer_complete g BigI _ _ Nn Vn)|].
  destruct (L_C06_same_field_partial g s (surd_of_int (fl x)) N Nn) as (_ & [d Hd] & _ & _); [right; left; rewrite Vn; apply Z_rational|]. exists d. split; [auto|].
  destruct (part g BigI s x _ d N V Hv Hd) as (_ & Nd & Vd & Zd). split; [destruct (whole_dec x) as [W|W]; [apply Zd; auto|destruct (surd_is_zero d); [exfalso; tauto|reflexivity]]|].
  intros W. assert (D0 : sval d <> RtoC 0) by (rewrite Vd; intros E; apply RtoC_inj in E; apply W; unfold whole; lra).
  destruct (proj2 (proj2 (L_C07_returns g d Nd)) D0) as [q Hq]. exists q. split; [auto|]. apply (flipped g BigI d x q Nd Vd Hq).
Qed.
Lemma compare_step g fuel s r x y : normal g s -> normal g r -> sval s = RtoC x -> sval r = RtoC y ->
  (fl x <> fl y \/ whole x \/ whole y -> returns (compare_surds g BigI (S fuel) s r)) /\
  (fl x = fl y -> ~ whole x -> ~ whole y -> exists s' r', compare_surds g BigI (S fuel) s r = compare_surds g BigI fuel r' s' /\ normal g s' /\ normal g r' /\ sval s' = RtoC (gs x) /\ sval r' = RtoC (gs y)).
Proof.
  intros Ns Nr Vs Vr. destruct (part_total g s x Ns Vs) as (Fs & Is & d & Hd & Zd & Rd). destruct (part_total g r y Nr Vr) as (Fr & Ir & e & He & Ze & Re).
  cbn [compare_surds]. rewrite Fs, Fr. cbn [bind]. rewrite Is, Ir. cbn [bind approx_value]. split.
  - intros K. destruct (Z.compare_spec (fl x) (fl y)) as [E|E|E]; [|eexists; reflexivity|eexists; reflexivity]. rewrite Hd, He. cbn [bind]. rewrite Zd, Ze.
    destruct (whole_dec x), (whole_dec y); try (eexists; reflexivity). exfalso. tauto.
  - intros E Wx Wy. rewrite E, Z.compare_refl. destruct (Rd Wx) as (s' & Hs & Ns' & Vs'). destruct (Re Wy) as (r' & Hr & Nr' & Vr'). exists s', r'. split; [|auto].
    rewrite E in Hd. rewrite Hd, He. cbn [bind]. rewrite Zd, Ze. destruct (whole_dec x); [contradiction|]. destruct (whole_dec y); [contradiction|]. rewrite Hs. cbn [bind]. rewrite Hr. reflexivity.
Qed.
Lemma compare_total g k : forall s r x y, normal g s -> normal g r -> sval s = RtoC x -> sval r = RtoC y -> apart k x y -> forall fuel, (k < fuel)%nat -> returns (compare_surds g BigI fuel s r).
Proof.
  induction k as [|k IH]; intros s r x y Ns Nr Vs Vr A [|fuel] Hf; try lia; destruct (compare_step g fuel s r x y Ns Nr Vs Vr) as [S1 S2]; cbn [apart] in A.
  - apply S1. tauto.
  - destruct (Z.eq_dec (fl x) (fl y)) as [E|E]; [|apply S1; auto]. destruct (whole_dec x) as [Wx|Wx]; [apply S1; auto|]. destruct (whole_dec y) as [Wy|Wy]; [apply S1; auto|].
    destruct (S2 E Wx Wy) as (s' & r' & -> & Ns' & Nr' & Vs' & Vr'). apply (IH r' s' (gs y) (gs x)); auto; [tauto|lia].
Qed.
Lemma compare_hang g fuel : forall s r x, normal g s -> normal g r -> sval s = RtoC x -> sval r = RtoC x -> ~ rational_real x -> compare_surds g BigI fuel s r = Hang.
Proof.
  induction fuel as [|fuel IH]; intros s r x Ns Nr Vs Vr I; [reflexivity|]. destruct (compare_step g fuel s r x x Ns Nr Vs Vr) as [_ S2].
  assert (W : ~ whole x) by (intros K; apply I; rewrite K; apply rr_Z). destruct (S2 eq_refl W W) as (s' & r' & -> & Ns' & Nr' & Vs' & Vr').
  apply (IH r' s' (gs x)); auto. intros K. apply I. rewrite (gs_eq x). apply rr_add; [apply rr_Z|]. destruct K as (n & d & D & E). assert (G : gs x <> 0%R) by (pose proof (gs_big x W); lra).
  assert (Nn : n <> 0) by (intros ->; apply G; rewrite E; unfold Rdiv; ring). exists d, n. split; [auto|]. rewrite E. field. split; apply not_0_IZR; auto.
Qed.

(** ** with == first *)
Lemma partner g s x : normal g s -> sval s = RtoC x -> exists xc, sconj s = RtoC xc /\ ((rational_real x /\ xc = x) \/ conjugate x xc).
Proof.
  intros N V. destruct (is_rational s) eqn:Q.
  - pose proof (proj1 (normal_is_rational g s N) Q) as QR. exists x. split; [|left; split; [apply rational_real_C; rewrite <- V; auto|auto]].
    rewrite <- V. unfold is_rational in Q. destruct s as [[a b c] r]. unfold normal in N. cbn in *. assert (B : b = 0 \/ r = 0) by lia. destruct N as (_ & _ & N & _).
    assert (B0 : b = 0) by (destruct N as [[B0 _]|[_ B1]]; [auto|destruct B as [B|B]; [auto|exfalso; apply B1; exists 0; lia]]). subst b. unfold sconj, sval. cbn. f_equal. unfold ZtoC. ring.
  - assert (I : ~ rational_real x) by (intros K; apply rational_real_C in K; rewrite <- V in K; apply (normal_is_rational g s N) in K; congruence).
    destruct (surd_conj_value g s x N V I) as (xc & C & E & _). eauto.
Qed.
Lemma leans_sound g t s x xc b : normal g s -> sval s = RtoC x -> sconj s = RtoC xc -> leans g t s = Ok b -> (b = true <-> (x < xc)%R).
Proof.
  intros N V Vc H. unfold leans in H. apply bind_Ok in H. destruct H as (c & Hc & H). apply bind_Ok in H. destruct H as (d & Hd & H).
  apply surd_conj_ok in Hc. destruct Hc as [Ec Pc]. pose proof (normal_conj g s c N Pc) as Nc. apply surd_sub_ok in Hd; auto using normal_wf. destruct Hd as [Ed Nd].
  rewrite V, Ec, Vc, <- RtoC_minus in Ed. rewrite (L_C09_is_negative g t d _ b Nd Ed H). split; intros K; lra.
Qed.
Lemma leans_total g s x : normal g s -> sval s = RtoC x -> returns (leans g BigI s).
Proof.
  intros N V. destruct (partner g s x N V) as (xc & Vc & _). unfold leans. destruct (surd_conj_total s) as [c Hc]. rewrite Hc. cbn [bind].
  apply surd_conj_ok in Hc. destruct Hc as [Ec Pc]. pose proof (normal_conj g s c N Pc) as Nc.
  assert (D : discr s = 1 * 1 * discr c). { assert (D : discr c = discr s) by (destruct c as [[a b e] q]; cbn in Pc; inversion Pc; reflexivity). lia. }
  destruct (L_C06_same_field_partial g s c N Nc) as (_ & [d Hd] & _); [right; right; exists 1; split; [lia|left; exact D]|].
  rewrite Hd. cbn [bind]. apply surd_sub_ok in Hd; auto using normal_wf. destruct Hd as [Ed Nd]. rewrite V, Ec, Vc, <- RtoC_minus in Ed.
  apply (L_C09_returns g d _ Nd Ed).
Qed.
Lemma conj_swap x xc : conjugate x xc -> conjugate xc x.
Proof. intros C. pose proof (conjugate_irr x xc C) as I. destruct C as (_ & A & B). split; [auto|]. rewrite Rplus_comm, Rmult_comm. auto. Qed.
Lemma conj_self x : ~ conjugate x x.
Proof. intros (I & (n & d & D & E) & _). apply I. exists n, (2 * d). split; [lia|]. rewrite mult_IZR. assert (IZR d <> 0%R) by (apply not_0_IZR; auto). replace x with ((x + x) / 2)%R by field. rewrite E. field. auto. Qed.

Lemma order_sound g t fuel s r x y c : normal g s -> normal g r -> sval s = RtoC x -> sval r = RtoC y -> order_surds g t fuel s r = Ok c -> is_order c x y.
Proof.
  intros Ns Nr Vs Vr H. unfold order_surds in H. apply bind_Ok in H. destruct H as (q & Hq & H). destruct q; [|apply (compare_sound g t fuel s r x y c Ns Nr Vs Vr H)].
  apply bind_Ok in H. destruct H as (i & Hi & H). apply bind_Ok in H. destruct H as (j & Hj & H). destruct (Bool.eqb i j) eqn:B; [|apply (compare_sound g t fuel s r x y c Ns Nr Vs Vr H)].
  inversion H; subst c. cbn. apply eqb_prop in B. subst j.
  destruct (proj1 (L_C08_eq_partial g t s r true Ns Nr Hq) eq_refl) as [E|[_ E]]; [rewrite Vs, Vr in E; apply RtoC_inj in E; auto|].
  destruct (partner g s x Ns Vs) as (xc & Vc & Px). destruct (partner g r y Nr Vr) as (yc & Wc & Py). rewrite Vs, Wc in E. apply RtoC_inj in E. subst yc.
  destruct Py as [[_ Py]|Py]; [auto|]. destruct Px as [[Qx _]|Px]; [exfalso; apply (conjugate_irr y x Py); auto|].
  pose proof (conjugate_unique _ _ _ (conj_swap _ _ Py) Px) as <-.
  pose proof (leans_sound g t s x y i Ns Vs Vc Hi) as L1. pose proof (leans_sound g t r y x i Nr Vr Wc Hj) as L2.
  destruct (Rtotal_order x y) as [K|[K|K]]; [|auto|].
  - pose proof (proj1 L2 (proj2 L1 K)). lra.
  - pose proof (proj1 L1 (proj2 L2 K)). lra.
Qed.
Lemma order_total g s r x y : normal g s -> normal g r -> sval s = RtoC x -> sval r = RtoC y -> exists n0, forall fuel, (n0 <= fuel)%nat -> returns (order_surds g BigI fuel s r).
Proof.
  intros Ns Nr Vs Vr. destruct (L_C08_eq_returns s r) as [q Hq]. destruct (leans_total g s x Ns Vs) as [i Hi]. destruct (leans_total g r y Nr Vr) as [j Hj]. unfold order_surds.
  destruct (Req_EM_T x y) as [E|E].
  - exists 0%nat. intros fuel _. rewrite Hq. cbn [bind]. assert (q = true) as -> by (apply (L_C08_eq_partial g BigI s r q Ns Nr Hq); left; congruence).
    rewrite Hi. cbn [bind]. rewrite Hj. cbn [bind]. subst y.
    destruct (partner g s x Ns Vs) as (xc & Vc & Px). destruct (partner g r x Nr Vr) as (yc & Wc & Py).
    assert (xc = yc). { destruct Px as [[Q1 ->]|Px], Py as [[Q2 ->]|Py]; auto; [destruct Py; contradiction|destruct Px; contradiction|apply (conjugate_unique _ _ _ Px Py)]. }
    subst yc. pose proof (leans_sound g BigI s x xc i Ns Vs Vc Hi) as L1. pose proof (leans_sound g BigI r x xc j Nr Vr Wc Hj) as L2.
    assert (i = j) as -> by (destruct i, j; auto; [symmetry; apply L2; apply L1; auto|apply L1; apply L2; auto]). rewrite eqb_reflx. eexists. reflexivity.
  - destruct (apart_ex x y E) as [k A]. exists (S k). intros fuel Hf. pose proof (compare_total g k s r x y Ns Nr Vs Vr A fuel Hf) as T.
    rewrite Hq. cbn [bind]. destruct q; [|auto]. rewrite Hi. cbn [bind]. rewrite Hj. cbn [bind]. destruct (Bool.eqb i j); [eexists; reflexivity|auto].
Qed.
Lemma compare_rational g s x : normal g s -> sval s = RtoC x -> rational_real x -> forall r, normal g r -> sval r = RtoC x -> exists n0, forall fuel, (n0 <= fuel)%nat -> returns (compare_surds g BigI fuel s r).
Proof.
  intros Ns Vs (n & d & D & E) r Nr Vr. assert (A : exists k, apart k x x).
  { destruct (Z_lt_le_dec 0 d) as [P|P]; [rewrite E; apply apart_rational; auto|]. replace x with (IZR (- n) / IZR (- d))%R; [apply apart_rational; lia|]. rewrite E, !opp_IZR. field. apply not_0_IZR; auto. }
  destruct A as [k A]. exists (S k). intros fuel Hf. apply (compare_total g k s r x x Ns Nr Vs Vr A fuel Hf).
Qed.
