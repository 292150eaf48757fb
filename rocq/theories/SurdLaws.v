(** * SurdLaws: the surds over a squarefree root form a field, result for result. *)

From Coq Require Import ZArith Znumtheory Reals Lia Lra Bool.
From Coquelicot Require Import Coquelicot.
From Verif Require Import Base Ext ModelSurd Spec SpecLaw Transfer NumFacts SurdCore RatioFacts SurdArith SurdOrd SurdRound SurdTotal SurdMisc.
Open Scope Z_scope.

(** the root of a result: none, or a square factor was taken out of the old one *)
Definition fr (r : Z) (s : surd) : Prop := discr s = 0 \/ exists k, 0 < k /\ r = k * k * discr s.

Lemma reduced_fr r s : reduced_from r s -> fr r s.
Proof. unfold reduced_from, parts. intros (_ & _ & [[_ H]|(_ & _ & H)]); [left|right]; auto. Qed.
Lemma from_coeffs_fr g t co r s : surd_from_coeffs g t co r = Ok s -> fr r s.
Proof. intros H. apply surd_from_coeffs_ok in H. apply reduced_fr. tauto. Qed.
Lemma new_fr g t a b c r s : surd_new g t a b c r = Ok s -> fr r s.
Proof. intros H. apply surd_new_ok in H. apply reduced_fr. tauto. Qed.
Lemma fr_trans r r' s : r = 0 \/ (exists k, 0 < k /\ r' = k * k * r) -> fr r s -> fr r' s.
Proof.
  intros [-> |(k & Hk & ->)] [H|(j & Hj & E)]; try (left; exact H).
  - left. nia.
  - right. exists (k * j). split; [nia|]. rewrite E. ring.
Qed.
Lemma fr_square r s g : normal g s -> fr (r * r) s -> discr s = 0.
Proof.
  intros N [H|(k & Hk & E)]; [auto|]. destruct (Z.eq_dec (discr s) 0) as [|Z]; [auto|]. exfalso.
  unfold normal, parts in N. destruct N as (_ & _ & [[_ ?]|[_ Ns]] & _); [tauto|]. apply Ns. apply (square_quotient r k); [lia|]. lia.
Qed.

Lemma add_ratio_fr g t s q s' : surd_add_ratio g t s q = Ok s' -> fr (discr s) s'.
Proof. unfold surd_add_ratio. destruct (sco_add_ratio t (coeffs s) q); try discriminate. apply from_coeffs_fr. Qed.
Lemma sub_ratio_fr g t s q s' : surd_sub_ratio g t s q = Ok s' -> fr (discr s) s'.
Proof. unfold surd_sub_ratio. destruct (sco_sub_ratio t (coeffs s) q); try discriminate. apply from_coeffs_fr. Qed.
Lemma mul_ratio_fr g t s q s' : surd_mul_ratio g t s q = Ok s' -> fr (discr s) s'.
Proof. unfold surd_mul_ratio. destruct (sco_mul_ratio t (coeffs s) q); try discriminate. apply from_coeffs_fr. Qed.
Lemma div_ratio_fr g t s q s' : surd_div_ratio g t s q = Ok s' -> fr (discr s) s'.
Proof. unfold surd_div_ratio. destruct (sco_div_ratio t (coeffs s) q); try discriminate. apply from_coeffs_fr. Qed.
Lemma recip_fr g s s' : surd_recip g BigI s = Ok s' -> fr (discr s) s'.
Proof.
  unfold surd_recip. destruct s as [[a b c] r]. intros H. autorewrite with bigi in H. cbn [discr]. eapply new_fr; eauto.
Qed.
Lemma neg_fr s s' r : surd_neg BigI s = Ok s' -> fr r s -> fr r s'.
Proof. intros H. apply surd_neg_ok in H. destruct H as [_ H]. unfold parts in H. inversion H as [[A B C D]]. unfold fr. rewrite D. auto. Qed.

(** operands over the root r or rational *)
Definition over (r : Z) (s : surd) : Prop := discr s = 0 \/ discr s = r.
Lemma over_step r s s' : over r s -> fr (discr s) s' -> fr r s'.
Proof. intros [H|H] F; [left; rewrite H in F; destruct F as [?|(k & ? & ?)]; nia|rewrite H in F; auto]. Qed.
Lemma irr_over r s : over r s -> is_rational s = false -> discr s = r.
Proof. intros [H|H] I; [|auto]. apply is_rational_false in I. tauto. Qed.

Section Op.
Context (g : cfg) (r : Z) (x y s : surd) (Nx : normal g x) (Ny : normal g y) (Ox : over r x) (Oy : over r y).

Lemma bin_op_over x1 y1 : is_rational x = false -> is_rational y = false -> reduce_bin_op_unwrap g BigI x y = Ok (x1, y1) -> exists k, 0 < k /\ r = k * k * discr x1.
Proof.
  intros Ix Iy E. apply bin_op_unwrap_ok in E; auto using normal_wf. destruct E as (_ & _ & _ & _ & _ & K & _).
  rewrite (irr_over r x Ox Ix) in K. auto.
Qed.

Lemma add_fr : surd_add g BigI x y = Ok s -> fr r s.
Proof.
  unfold surd_add. intros H. destruct (is_rational y) eqn:Iy.
  { stepH H. apply add_ratio_fr in H. apply (over_step r x); auto. }
  destruct (is_rational x) eqn:Ix.
  { stepH H. apply add_ratio_fr in H. apply (over_step r y); auto. }
  stepH H. destruct a as [x1 y1]. apply bin_op_over in E; auto.
  destruct (sco_add BigI (coeffs x1) (coeffs y1)); try discriminate. cbn [bind] in H. apply from_coeffs_fr in H. eapply fr_trans; eauto.
Qed.
Lemma sub_fr : surd_sub g BigI x y = Ok s -> fr r s.
Proof.
  unfold surd_sub. intros H. destruct (is_rational y) eqn:Iy.
  { stepH H. apply sub_ratio_fr in H. apply (over_step r x); auto. }
  destruct (is_rational x) eqn:Ix.
  { stepH H. stepH H. apply sub_ratio_fr in E0. eapply neg_fr; eauto. apply (over_step r y); auto. }
  stepH H. destruct a as [x1 y1]. apply bin_op_over in E; auto.
  destruct (sco_sub BigI (coeffs x1) (coeffs y1)); try discriminate. cbn [bind] in H. apply from_coeffs_fr in H. eapply fr_trans; eauto.
Qed.
Lemma mul_fr : surd_mul g BigI x y = Ok s -> fr r s.
Proof.
  intros H0. pose proof H0 as H. unfold surd_mul in H. destruct (is_rational y) eqn:Iy.
  { stepH H. apply mul_ratio_fr in H. apply (over_step r x); auto. }
  destruct (is_rational x) eqn:Ix.
  { stepH H. apply mul_ratio_fr in H. apply (over_step r y); auto. }
  destruct (is_pure x && is_pure y).
  { left. apply (fr_square 1 s g); [apply surd_mul_ok in H0; auto using normal_wf; tauto|].
    rewrite (irr_over r x Ox Ix), (irr_over r y Oy Iy) in H. autorewrite with bigi in H.
    assert (R : r <> 0) by (apply is_rational_false in Ix; rewrite (irr_over r x Ox) in Ix; [tauto|apply orb_false_iff; split; apply Z.eqb_neq; tauto]).
    rewrite Z.gcd_diag in H. rewrite quotB in H by lia. autorewrite with bigi in H.
    apply new_fr in H. replace (Z.quot r (Z.abs r) * Z.quot r (Z.abs r)) with (1 * 1) in H; [auto|].
    destruct (Z.abs_spec r) as [[_ ->]|[_ ->]]; [rewrite Z.quot_same by auto; reflexivity|rewrite Z.quot_opp_r, Z.quot_same by auto; reflexivity]. }
  stepH H. destruct a as [x1 y1]. apply bin_op_over in E; auto.
  destruct (sco_mul BigI (coeffs x1) (coeffs y1) (discr x1)); try discriminate. cbn [bind] in H. apply from_coeffs_fr in H. eapply fr_trans; eauto.
Qed.
Lemma div_fr : surd_div g BigI x y = Ok s -> fr r s.
Proof.
  intros H0. pose proof H0 as H. unfold surd_div in H. destruct (is_rational y) eqn:Iy.
  { stepH H. apply div_ratio_fr in H. apply (over_step r x); auto. }
  destruct (is_rational x) eqn:Ix.
  { stepH H. stepH H. apply div_ratio_fr in E0. apply recip_fr in H. pose proof (over_step r y _ Oy E0) as F.
    destruct F as [F|(k & Hk & F)]; [left; rewrite F in H; destruct H as [?|(j & ? & ?)]; nia|]. eapply fr_trans; [right|exact H]. eauto. }
  destruct (is_pure x && is_pure y).
  { left. apply (fr_square 1 s g); [apply surd_div_ok in H0; auto using normal_wf; tauto|].
    rewrite (irr_over r x Ox Ix), (irr_over r y Oy Iy) in H. autorewrite with bigi in H.
    assert (R : r <> 0) by (apply is_rational_false in Ix; rewrite (irr_over r x Ox) in Ix; [tauto|apply orb_false_iff; split; apply Z.eqb_neq; tauto]).
    rewrite Z.gcd_diag in H. rewrite quotB in H by lia. autorewrite with bigi in H.
    apply new_fr in H. replace (Z.quot r (Z.abs r) * Z.quot r (Z.abs r)) with (1 * 1) in H; [auto|].
    destruct (Z.abs_spec r) as [[_ ->]|[_ ->]]; [rewrite Z.quot_same by auto; reflexivity|rewrite Z.quot_opp_r, Z.quot_same by auto; reflexivity]. }
  stepH H. destruct a as [x1 y1]. apply bin_op_over in E; auto.
  destruct (sco_div BigI (coeffs x1) (coeffs y1) (discr x1)); try discriminate. cbn [bind] in H. apply from_coeffs_fr in H. eapply fr_trans; eauto.
Qed.
End Op.

(** ** The field *)
Lemma sqf_fr r s : squarefree r -> fr r s -> over r s.
Proof.
  intros Q [H|(k & Hk & E)]; [left; auto|]. right. destruct (Q k); [exists (discr s); lia| |lia]. subst k. lia.
Qed.
Lemma in_field_over g r s : in_field g r s <-> normal g s /\ over r s.
Proof.
  split; intros [N H]; (split; [auto|]).
  - destruct H as [H|H]; [right; auto|left]. apply (normal_is_rational g s N) in H.
    unfold normal, parts in N. destruct N as (_ & _ & [[_ ?]|[Hb Ns]] & _); [auto|]. unfold is_rational in H. apply orb_prop in H. rewrite !Z.eqb_eq in H. tauto.
  - destruct H as [H|H]; [right|left; auto]. apply (normal_is_rational g s N). unfold is_rational. rewrite H. apply orb_true_r.
Qed.
Lemma over_compatible r x y : over r x -> over r y -> compatible x y.
Proof.
  unfold compatible, is_rational. intros [-> |Hx] [Hy|Hy]; rewrite ?orb_true_r; auto; [rewrite Hy, orb_true_r; auto|].
  right. right. exists 1. split; [lia|]. left. rewrite Hx, Hy. lia.
Qed.

Section Field.
Context (g : cfg) (r : Z) (Q : squarefree r).
Notation fld := (in_field g r).

Lemma f_normal x : fld x -> normal g x. Proof. intros H; apply H. Qed.
Lemma f_over x : fld x -> over r x. Proof. intros H. apply in_field_over in H. tauto. Qed.
Hint Resolve f_normal f_over normal_wf over_compatible : core.

Lemma f_unique x y : fld x -> fld y -> sval x = sval y -> x = y.
Proof.
  intros Fx Fy E. apply (normal_unique g); auto. destruct Fx as [Nx Hx], Fy as [Ny Hy].
  pose proof (proj1 (in_field_over g r x) (conj Nx Hx)) as [_ Ox]. pose proof (proj1 (in_field_over g r y) (conj Ny Hy)) as [_ Oy].
  assert (I : is_rational x = is_rational y).
  { destruct (is_rational x) eqn:Ix, (is_rational y) eqn:Iy; auto.
    - apply (normal_is_rational g x Nx) in Ix. rewrite E in Ix. apply (normal_is_rational g y Ny) in Ix. congruence.
    - apply (normal_is_rational g y Ny) in Iy. rewrite <- E in Iy. apply (normal_is_rational g x Nx) in Iy. congruence. }
  destruct (is_rational x) eqn:Ix.
  - assert (Z : forall s, normal g s -> is_rational s = true -> discr s = 0).
    { intros s (_ & _ & [[_ ?]|[Hb Ns]] & _) Is; [auto|]. unfold is_rational in Is. apply orb_prop in Is. rewrite !Z.eqb_eq in Is. tauto. }
    rewrite (Z x), (Z y); auto.
  - rewrite (irr_over r x), (irr_over r y); auto.
Qed.

Lemma f_add x y : fld x -> fld y -> exists s, surd_add g BigI x y = Ok s /\ fld s /\ sval s = (sval x + sval y)%C.
Proof.
  intros Fx Fy. destruct (surd_add_total g x y) as [s E]; eauto. exists s. split; [auto|].
  pose proof (add_fr g r x y s (f_normal x Fx) (f_normal y Fy) (f_over x Fx) (f_over y Fy) E) as F. apply surd_add_ok in E; auto. destruct E as [V N].
  split; [|auto]. apply in_field_over. split; [auto|]. apply sqf_fr; auto.
Qed.
Lemma f_sub x y : fld x -> fld y -> exists s, surd_sub g BigI x y = Ok s /\ fld s /\ sval s = (sval x - sval y)%C.
Proof.
  intros Fx Fy. destruct (surd_sub_total g x y) as [s E]; eauto. exists s. split; [auto|].
  pose proof (sub_fr g r x y s (f_normal x Fx) (f_normal y Fy) (f_over x Fx) (f_over y Fy) E) as F. apply surd_sub_ok in E; auto. destruct E as [V N].
  split; [|auto]. apply in_field_over. split; [auto|]. apply sqf_fr; auto.
Qed.
Lemma f_not_imag x y : 0 < r -> fld x -> fld y -> both_imag x y = false.
Proof. intros R Fx _. unfold both_imag. destruct (f_over x Fx) as [-> | ->]; destruct (Z.ltb_spec r 0); try lia; rewrite ?andb_false_r, ?andb_false_l; cbn; auto using andb_false_r; destruct (is_pure x && is_pure y); reflexivity. Qed.
Lemma f_mul x y : fld x -> fld y -> exists s, surd_mul g BigI x y = Ok s /\ fld s /\ (0 < r -> sval s = (sval x * sval y)%C).
Proof.
  intros Fx Fy. destruct (surd_mul_total g x y) as [s E]; eauto. exists s. split; [auto|].
  pose proof (mul_fr g r x y s (f_normal x Fx) (f_normal y Fy) (f_over x Fx) (f_over y Fy) E) as F. apply surd_mul_ok in E; auto. destruct E as [N V].
  split; [apply in_field_over; split; [auto|]; apply sqf_fr; auto|]. intros R. rewrite V. destruct (_ || _); [auto|]. rewrite f_not_imag by auto. unfold sgnC. ring.
Qed.
Lemma f_div x y : fld x -> fld y -> sval y <> RtoC 0 -> sval x <> RtoC 0 \/ rational_num (sval y) ->
  exists s, surd_div g BigI x y = Ok s /\ fld s /\ (0 < r -> sval s = (sval x / sval y)%C).
Proof.
  intros Fx Fy Hy Hx. destruct (surd_div_total g x y) as [s E]; eauto; [destruct Hx as [Hx|Hx]; [auto|right; apply (normal_is_rational g); auto]|]. exists s. split; [auto|].
  pose proof (div_fr g r x y s (f_normal x Fx) (f_normal y Fy) (f_over x Fx) (f_over y Fy) E) as F. apply surd_div_ok in E; auto. destruct E as (N & _ & V).
  split; [apply in_field_over; split; [auto|]; apply sqf_fr; auto|]. intros R. rewrite V. destruct (_ || _); [auto|]. rewrite f_not_imag by auto. unfold sgnC. ring.
Qed.
Lemma f_recip x : fld x -> sval x <> RtoC 0 -> exists s, surd_recip g BigI x = Ok s /\ fld s /\ sval s = (/ sval x)%C.
Proof.
  intros Fx Hx. destruct (surd_recip_total g x) as [s E]; [auto|apply (normal_norm_neq0 g); auto|].
  exists s. split; [auto|]. pose proof (recip_fr g x s E) as F. apply surd_recip_ok in E; [|eapply normal_okc; eauto]. destruct E as (_ & V & N).
  split; [|auto]. apply in_field_over. split; [auto|]. apply sqf_fr; auto. apply (over_step r x); auto.
Qed.
Lemma f_neg x : fld x -> exists s, surd_neg BigI x = Ok s /\ fld s /\ sval s = (- sval x)%C.
Proof.
  intros Fx. destruct (surd_neg_total x) as [s E]. exists s. split; [auto|]. apply surd_neg_ok in E. destruct E as [V P]. split; [|auto].
  apply in_field_over. split; [eapply normal_neg; eauto|]. unfold parts in P. inversion P as [[A B C D]]. unfold over. rewrite D. apply f_over; auto.
Qed.
Lemma f_conj x : fld x -> exists s, surd_conj BigI x = Ok s /\ fld s /\ sval s = sconj x.
Proof.
  intros Fx. destruct (surd_conj_total x) as [s E]. exists s. split; [auto|]. apply surd_conj_ok in E. destruct E as [V P]. split; [|auto].
  apply in_field_over. split; [eapply normal_conj; eauto|]. unfold parts in P. inversion P as [[A B C D]]. unfold over. rewrite D. apply f_over; auto.
Qed.
Lemma f_int n : fld (surd_of_int n).
Proof. apply in_field_over. split; [apply surd_of_int_spec|left; reflexivity]. Qed.
End Field.

(** ** The laws *)
Ltac run g r Q :=
  repeat match goal with
  | Fx : in_field g r ?x, Fy : in_field g r ?y |- context [surd_add g BigI ?x ?y] =>
      let s := fresh "s" in let E := fresh "E" in let F := fresh "F" in let V := fresh "V" in destruct (f_add g r Q x y Fx Fy) as (s & E & F & V); rewrite ?E; cbn [bind]
  | Fx : in_field g r ?x, Fy : in_field g r ?y |- context [surd_sub g BigI ?x ?y] =>
      let s := fresh "s" in let E := fresh "E" in let F := fresh "F" in let V := fresh "V" in destruct (f_sub g r Q x y Fx Fy) as (s & E & F & V); rewrite ?E; cbn [bind]
  | Fx : in_field g r ?x, Fy : in_field g r ?y, R : 0 < r |- context [surd_mul g BigI ?x ?y] =>
      let s := fresh "s" in let E := fresh "E" in let F := fresh "F" in let V := fresh "V" in destruct (f_mul g r Q x y Fx Fy) as (s & E & F & V); specialize (V R); rewrite ?E; cbn [bind]
  | Fx : in_field g r ?x, Hx : sval ?x <> RtoC 0 |- context [surd_recip g BigI ?x] =>
      let s := fresh "s" in let E := fresh "E" in let F := fresh "F" in let V := fresh "V" in destruct (f_recip g r Q x Fx Hx) as (s & E & F & V); rewrite ?E; cbn [bind]
  | Fx : in_field g r ?x |- context [surd_neg BigI ?x] =>
      let s := fresh "s" in let E := fresh "E" in let F := fresh "F" in let V := fresh "V" in destruct (f_neg g r x Fx) as (s & E & F & V); rewrite ?E; cbn [bind]
  | Fx : in_field g r ?x |- context [surd_conj BigI ?x] =>
      let s := fresh "s" in let E := fresh "E" in let F := fresh "F" in let V := fresh "V" in destruct (f_conj g r x Fx) as (s & E & F & V); rewrite ?E; cbn [bind]
  end.
Ltac same g r := eexists; split; [reflexivity|]; f_equal; apply (f_unique g r); auto using f_int.

Lemma int_val n : sval (surd_of_int n) = ZtoC n.
Proof. apply (surd_of_int_spec (Cfg true true)). Qed.

(** coordinates over the root *)
Lemma f_coord g r x : in_field g r x -> exists a b c, c <> 0 /\ sval x = fval a b c r /\ sconj x = fval a (- b) c r.
Proof.
  intros F. pose proof (f_over g r x F) as O. pose proof (normal_okc g x (f_normal g r x F)) as C. unfold okc in C.
  destruct x as [[a b c] d]. cbn [coeffs c0 c1 c2 discr] in *. unfold over in O. cbn [discr] in O.
  assert (Ec : sconj (Surd (SCo a b c) d) = fval a (- b) c d) by (unfold sconj, parts, fval; cbn [coeffs c0 c1 c2 discr]; rewrite ZtoC_opp; cfield).
  rewrite Ec, sval_fval. cbn [coeffs c0 c1 c2 discr]. destruct O as [-> | ->]; [|exists a, b, c; auto].
  exists a, 0, c. split; [auto|]. assert (Z0 : csqrt 0 = RtoC 0) by (unfold csqrt; cbn [Z.ltb Z.compare]; rewrite sqrt_0; reflexivity). unfold fval. rewrite Z0, !ZtoC_opp, ZtoC_0. split; cfield.
Qed.
Lemma f_conj_of g r s a b c : in_field g r s -> c <> 0 -> ~ square r -> sval s = fval a b c r -> sconj s = fval a (- b) c r.
Proof.
  intros F C N V. destruct (f_coord g r s F) as (a' & b' & c' & C' & V' & ->). rewrite V' in V. apply fval_cross in V; auto. destruct V as [A B].
  unfold fval. rewrite !ZtoC_opp. apply (f_equal ZtoC) in A, B. rewrite !ZtoC_mul in A, B.
  apply (Cdiv_cross _ (ZtoC c') _ (ZtoC c)); auto.
  transitivity (ZtoC a' * ZtoC c - ZtoC b' * ZtoC c * csqrt r)%C; [ring|]. rewrite A, B. ring.
Qed.
Lemma f_square_rational g r s : in_field g r s -> square r -> sconj s = sval s.
Proof.
  intros F Sq. pose proof (f_normal g r s F) as N. pose proof (f_over g r s F) as O. destruct s as [[a b c] d]. unfold normal, parts, over in *. cbn [coeffs c0 c1 c2 discr] in *.
  assert (b = 0) as -> by (destruct N as (_ & _ & [[? _]|[_ Ns]] & _); [auto|]; exfalso; apply Ns; destruct O as [-> | ->]; [exists 0; reflexivity|auto]).
  unfold sval, sconj, parts. cbn [coeffs c0 c1 c2 discr]. rewrite ZtoC_0. unfold Cdiv, Cminus. f_equal. ring.
Qed.
Lemma f_conj_add g r x y s : in_field g r x -> in_field g r y -> in_field g r s -> sval s = (sval x + sval y)%C -> sconj s = (sconj x + sconj y)%C.
Proof.
  intros Fx Fy Fs V. destruct (square_mod_dec r) as [Sq|Sq].
  - rewrite !(f_square_rational g r) by auto. auto.
  - destruct (f_coord g r x Fx) as (a & b & c & C & Vx & ->). destruct (f_coord g r y Fy) as (a' & b' & c' & C' & Vy & ->).
    rewrite (f_conj_of g r s (a * c' + a' * c) (b * c' + b' * c) (c * c')); auto; [|nia|].
    + unfold fval. rewrite !ZtoC_opp, !ZtoC_add, !ZtoC_mul. cfield.
    + rewrite V, Vx, Vy. unfold fval. rewrite !ZtoC_add, !ZtoC_mul. cfield.
Qed.
Lemma f_conj_mul g r x y s : in_field g r x -> in_field g r y -> in_field g r s -> sval s = (sval x * sval y)%C -> sconj s = (sconj x * sconj y)%C.
Proof.
  intros Fx Fy Fs V. destruct (square_mod_dec r) as [Sq|Sq].
  - rewrite !(f_square_rational g r) by auto. auto.
  - destruct (f_coord g r x Fx) as (a & b & c & C & Vx & ->). destruct (f_coord g r y Fy) as (a' & b' & c' & C' & Vy & ->).
    rewrite (f_conj_of g r s (a * a' + b * b' * r) (a * b' + a' * b) (c * c')); auto; [|nia|].
    + unfold fval. rewrite !ZtoC_opp, !ZtoC_add, !ZtoC_mul. rewrite <- (csqrt_sq r). cfield.
    + rewrite V, Vx, Vy. unfold fval. rewrite !ZtoC_add, !ZtoC_mul. rewrite <- (csqrt_sq r). cfield.
Qed.

(** ** Conjugates and == *)
Lemma sval_conj_rational s : is_rational s = true -> okc s -> sconj s = sval s.
Proof.
  intros I O. rewrite sval_parts, sconj_parts by auto. unfold is_rational in I. apply orb_prop in I. rewrite !Z.eqb_eq in I.
  assert (Z : ipart s = RtoC 0); [|rewrite Z; ring]. unfold ipart. destruct I as [-> | ->]; [rewrite ZtoC_0; unfold okc in O; cfield|].
  assert (Z0 : csqrt 0 = RtoC 0) by (unfold csqrt; cbn [Z.ltb Z.compare]; rewrite sqrt_0; reflexivity). rewrite Z0. unfold okc in O. cfield.
Qed.
Lemma conj_parts_eq g l r : normal g l -> normal g r -> is_rational l = false -> is_rational r = false -> sval l = sconj r ->
  rpart l = rpart r /\ ipart l = (- ipart r)%C.
Proof.
  intros Nl Nr Il Ir E. destruct (surd_conj_total r) as [r' E']. apply surd_conj_ok in E'. destruct E' as [V P].
  pose proof (normal_conj g r r' Nr P) as N'. unfold parts in P. inversion P as [[P0 P1 P2 P3]].
  assert (I' : is_rational r' = false).
  { unfold is_rational in *. rewrite P1, P3. apply orb_false_iff in Ir. rewrite !Z.eqb_neq in Ir. apply orb_false_iff. rewrite !Z.eqb_neq. split; [lia|tauto]. }
  destruct (parts_eq g l r' Nl N' Il I') as [A B]; [congruence|]. unfold rpart, ipart in A, B |- *. rewrite P0, P2 in A. rewrite P1, P2, P3, ZtoC_opp in B. split; [auto|].
  rewrite B. pose proof (normal_okc g r Nr) as O. unfold okc in O. cfield.
Qed.
Lemma conj_swap g l r : normal g l -> normal g r -> sval l = sconj r -> sconj l = sval r.
Proof.
  intros Nl Nr E. pose proof (normal_okc g l Nl) as Ol. pose proof (normal_okc g r Nr) as Or.
  assert (RR : rational_num (sconj r) -> is_rational r = true).
  { intros K. apply (normal_is_rational g r Nr). rewrite sconj_parts in K by auto. rewrite sval_parts by auto.
    destruct (is_rational r) eqn:Ir; [apply (normal_is_rational g r Nr) in Ir; rewrite sval_parts in Ir by auto; auto|]. exfalso.
    apply (ipart_irr g r Nr Ir). replace (ipart r) with (rpart r + - (rpart r - ipart r))%C by ring.
    apply rational_add; [apply rpart_rational; auto|apply rational_opp; auto]. }
  destruct (is_rational r) eqn:Ir.
  - rewrite sval_conj_rational in E by auto. assert (is_rational l = true).
    { apply (normal_is_rational g l Nl). rewrite E. apply (normal_is_rational g r Nr). auto. }
    rewrite sval_conj_rational by auto. auto.
  - destruct (is_rational l) eqn:Il.
    + exfalso. apply (normal_is_rational g l Nl) in Il. rewrite E in Il. apply RR in Il. discriminate.
    + destruct (conj_parts_eq g l r Nl Nr Il Ir E) as [A B]. rewrite sconj_parts, sval_parts, A, B by auto. ring.
Qed.
Lemma conj_sign g l r : normal g l -> normal g r -> sval l = sconj r -> 0 < c1 (coeffs l) -> 0 < c1 (coeffs r) -> False.
Proof.
  intros Nl Nr E Bl Br.
  assert (I : forall s, normal g s -> 0 < c1 (coeffs s) -> is_rational s = false /\ discr s <> 0 /\ 0 < c2 (coeffs s)).
  { intros s (C & _ & [[? _]|[_ Ns]] & _) B; [lia|]. assert (discr s <> 0) by (intros Z; apply Ns; exists 0; auto). split; [|auto].
    unfold is_rational. apply orb_false_iff. rewrite !Z.eqb_neq. split; [lia|auto]. }
  destruct (I l Nl Bl) as (Il & Dl & Cl), (I r Nr Br) as (Ir & Dr & Cr).
  destruct (conj_parts_eq g l r Nl Nr Il Ir E) as [_ B].
  assert (K : forall s, discr s <> 0 -> 0 < c1 (coeffs s) -> 0 < c2 (coeffs s) -> exists u, (0 < u)%R /\ (ipart s = (u, 0%R) \/ ipart s = (0%R, u))).
  { intros s D B1 C1. exists (IZR (c1 (coeffs s)) * sqrt (IZR (Z.abs (discr s))) / IZR (c2 (coeffs s)))%R.
    assert (0 < sqrt (IZR (Z.abs (discr s))))%R by (apply sqrt_lt_R0, IZR_lt; lia). apply IZR_lt in B1, C1.
    split; [apply Rdiv_lt_0_compat; [apply Rmult_lt_0_compat; lra|lra]|].
    unfold ipart, csqrt, ZtoC, RtoC, Cdiv, Cmult, Cinv. cbn [fst snd]. destruct (Z.ltb_spec (discr s) 0).
    - right. rewrite Z.abs_neq by lia. cbn [fst snd]. apply injective_projections; cbn [fst snd]; rewrite ?opp_IZR; field; lra.
    - left. rewrite Z.abs_eq by lia. cbn [fst snd]. apply injective_projections; cbn [fst snd]; field; lra. }
  destruct (K l Dl Bl Cl) as (u & Hu & [U|U]), (K r Dr Br Cr) as (v & Hv & [V|V]); rewrite U, V in B; unfold Copp in B; cbn [fst snd] in B; inversion B; lra.
Qed.
Lemma real_val x : real_surd x -> exists u, sval x = RtoC u.
Proof.
  unfold real_surd. intros R. unfold sval, parts. destruct x as [[a b c] d]. cbn [coeffs c0 c1 c2 discr] in *. unfold csqrt, ZtoC.
  destruct (Z.ltb_spec d 0); [lia|]. destruct (Z.eq_dec c 0) as [-> |C].
  - exists 0%R. unfold Cdiv, Cinv, Cmult, Cplus, RtoC. cbn [fst snd]. apply injective_projections; cbn [fst snd]; unfold Rdiv; ring_simplify; rewrite ?Rmult_0_l; ring_simplify; auto; unfold Rdiv; ring.
  - exists ((IZR a + IZR b * sqrt (IZR d)) / IZR c)%R. rewrite RtoC_div, RtoC_plus, RtoC_mult; [reflexivity|]. apply not_0_IZR; auto.
Qed.
