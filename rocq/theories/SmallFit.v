(** * SmallFit: operands that are small compared with the integer type give
    the same outcome as arbitrary-precision integers. *)

From Coq Require Import ZArith Znumtheory Lia Bool List.
From Verif Require Import Base Ext ModelSurd Spec.
Import ListNotations.
Open Scope Z_scope.

(** All integers up to M in absolute value fit *)
Definition room (t : ity) (M : Z) : Prop := forall z, Z.abs z <= M -> fits t z = true.

Lemma room_sint n M : M < 2 ^ (n - 1) -> room (SInt n) M.
Proof.
  intros H z Hz. unfold fits. apply andb_true_intro. split; [apply Z.leb_le|apply Z.ltb_lt]; lia.
Qed.

Lemma room_le t M N : room t M -> N <= M -> room t N.
Proof. intros H L z Hz. apply H. lia. Qed.

Lemma chk_room t M z : room t M -> Z.abs z <= M -> chk t z = chk BigI z.
Proof. intros H Hz. unfold chk. rewrite (H z Hz). reflexivity. Qed.

(** ** Bounds *)

Lemma abs_mul x y X Y : Z.abs x <= X -> Z.abs y <= Y -> Z.abs (x * y) <= X * Y.
Proof. intros. rewrite Z.abs_mul. apply Z.mul_le_mono_nonneg; lia. Qed.
Lemma abs_add x y X Y : Z.abs x <= X -> Z.abs y <= Y -> Z.abs (x + y) <= X + Y.
Proof. lia. Qed.
Lemma abs_sub x y X Y : Z.abs x <= X -> Z.abs y <= Y -> Z.abs (x - y) <= X + Y.
Proof. lia. Qed.
Lemma abs_opp x X : Z.abs x <= X -> Z.abs (- x) <= X.
Proof. lia. Qed.
Lemma abs_quot x y X : Z.abs x <= X -> Z.abs (Z.quot x y) <= X.
Proof.
  intros H. destruct (Z.eq_dec y 0) as [->|N]; [rewrite Z.quot_0_r_ext by reflexivity; lia|].
  rewrite <- Z.quot_abs by auto. assert (0 < Z.abs y) by lia.
  pose proof (Z.quot_le_upper_bound (Z.abs x) (Z.abs y) (Z.abs x) ltac:(lia)).
  assert (0 <= Z.abs x ÷ Z.abs y) by (apply Z.quot_pos; lia). assert (Z.abs x <= Z.abs y * Z.abs x) by nia. lia.
Qed.
Lemma abs_gcd_l x y X : x <> 0 -> Z.abs x <= X -> Z.abs (Z.gcd x y) <= X.
Proof.
  intros N H. pose proof (Z.gcd_nonneg x y). rewrite Z.abs_eq by auto. transitivity (Z.abs x); [|auto].
  apply Z.divide_pos_le; [lia|]. apply Z.divide_abs_r, Z.gcd_divide_l.
Qed.
Lemma abs_gcd_r x y Y : y <> 0 -> Z.abs y <= Y -> Z.abs (Z.gcd x y) <= Y.
Proof. intros N H. rewrite Z.gcd_comm. apply abs_gcd_l; auto. Qed.
Lemma abs_gcd x y X Y : Z.abs x <= X -> Z.abs y <= Y -> Z.abs (Z.gcd x y) <= Z.max X Y.
Proof.
  intros Hx Hy. destruct (Z.eq_dec x 0) as [->|N]; [change (Z.gcd 0 y) with (Z.abs y); lia|].
  pose proof (abs_gcd_l x y X N Hx). lia.
Qed.
Lemma abs_sqrt x X : 0 <= x -> x <= X -> Z.abs (Z.sqrt x) <= Z.sqrt X.
Proof. intros. rewrite Z.abs_eq by apply Z.sqrt_nonneg. apply Z.sqrt_le_mono; auto. Qed.

Lemma sqrt_sq x : 0 <= x -> Z.sqrt x * Z.sqrt x <= x.
Proof. intros. apply Z.sqrt_spec. auto. Qed.
Lemma sqrt_le x : 0 <= x -> Z.sqrt x <= x.
Proof. intros. pose proof (Z.sqrt_nonneg x). pose proof (sqrt_sq x H). nia. Qed.

(** ** Replaying a computation at t next to the one over BigI *)

Ltac ops := cbv beta delta [addT subT mulT negT absT quotT gcdT lift1 lift2]; cbn [bind].
Ltac big := repeat match goal with |- context[chk BigI ?z] => change (chk BigI z) with (@Ok Z z) end.
Ltac fit1 R tac := match goal with |- context[chk ?t ?z] => is_var t; rewrite (chk_room t _ z R) by tac; big; ops end.
Ltac bigs := ops; repeat (progress big; ops).
Ltac same_if := match goal with
  | |- ?x = ?x => reflexivity
  | |- context[if ?b then _ else _] => destruct b eqn:?
  end.

Section Reduce.
Context (t : ity) (M : Z) (R : room t M).

Lemma reduce_square_fit a b r A B D : Z.abs a <= A -> Z.abs b <= B -> Z.abs r <= D -> D <= M -> A + B * Z.sqrt D <= M ->
  reduce_square t a b r = reduce_square BigI a b r.
Proof.
  intros Ha Hb Hr HD HM. unfold reduce_square, sqrtT. ops. fit1 R ltac:(lia).
  destruct (Z.abs r <? 0) eqn:E0; [lia|]. ops. pose proof (sqrt_sq (Z.abs r) ltac:(lia)). pose proof (Z.sqrt_nonneg (Z.abs r)).
  pose proof (Z.sqrt_le_mono _ _ Hr).
  fit1 R ltac:(rewrite Z.abs_eq by nia; lia).
  destruct (_ =? r) eqn:E; [|reflexivity]. destruct (r <? 0) eqn:E1; [nia|]. ops.
  assert (Z.abs (b * Z.sqrt (Z.abs r)) <= B * Z.sqrt D) by (apply abs_mul; lia).
  fit1 R ltac:(lia). fit1 R ltac:(lia). reflexivity.
Qed.

Lemma reduce_square_bound a b r a' b' r' : reduce_square BigI a b r = Ok (a', b', r') -> 
  (a' = a /\ b' = b /\ r' = r) \/ (0 <= r /\ r = Z.sqrt r * Z.sqrt r /\ a' = a + b * Z.sqrt r /\ b' = 0 /\ r' = 0).
Proof.
  unfold reduce_square, sqrtT. ops. big. ops. destruct (Z.abs r <? 0) eqn:E0; [discriminate|]. ops. big. ops.
  destruct (_ =? r) eqn:E; [|intros H; inversion H; auto]. apply Z.eqb_eq in E. pose proof (Z.sqrt_nonneg (Z.abs r)).
  destruct (r <? 0) eqn:E1; [nia|]. ops. big. ops. apply Z.ltb_ge in E1. rewrite (Z.abs_eq r) in * by auto. intros K. inversion K. right. auto.
Qed.

Lemma reduce_common_fit a b c r N : Z.abs a <= N -> Z.abs b <= N -> Z.abs c <= N -> Z.abs r <= N -> N <= M ->
  b <> 0 /\ r <> 0 -> Z.gcd a c * Z.gcd a c <= M -> reduce_common t a b c r = reduce_common BigI a b c r.
Proof.
  intros Ha Hb Hc Hr HN [Nb Nr] HG. unfold reduce_common. rewrite (proj2 (Z.eqb_neq b 0) Nb), (proj2 (Z.eqb_neq r 0) Nr). cbn [orb].
  pose proof (Z.gcd_nonneg a c) as G0. set (G := Z.gcd a c) in *.
  assert (GN : Z.abs G <= N) by (unfold G; pose proof (abs_gcd a c N N Ha Hc); lia).
  unfold sqrtT. ops. fold G. clearbody G. fit1 R ltac:(lia). fit1 R ltac:(nia).
  assert (Z.abs (Z.gcd (G * G) r) <= N) by (apply abs_gcd_r; auto).
  fit1 R ltac:(lia). pose proof (Z.gcd_nonneg (G * G) r). set (H2 := Z.gcd (G * G) r) in *.
  destruct (H2 <? 0) eqn:E0; [lia|]. ops. pose proof (sqrt_sq H2 ltac:(lia)). pose proof (Z.sqrt_nonneg H2). set (W := Z.sqrt H2) in *. clearbody H2 W.
  fit1 R ltac:(nia). destruct (W * W =? H2); ops.
  - destruct (H2 =? 0); [reflexivity|]. fit1 R ltac:(pose proof (abs_quot r H2 N Hr); lia). destruct (W =? 0); [reflexivity|].
    pose proof (abs_quot a W N Ha). pose proof (abs_quot c W N Hc). pose proof (abs_quot G W N GN).
    fit1 R ltac:(lia). fit1 R ltac:(lia). fit1 R ltac:(lia).
    assert (Z.abs (Z.gcd (G ÷ W) b) <= N) by (apply abs_gcd_r; auto). fit1 R ltac:(lia). set (G2 := Z.gcd _ _) in *. clearbody G2.
    destruct (G2 =? 0); [reflexivity|]. fit1 R ltac:(pose proof (abs_quot (a ÷ W) G2 N ltac:(auto)); lia). 
    fit1 R ltac:(pose proof (abs_quot b G2 N ltac:(auto)); lia). fit1 R ltac:(pose proof (abs_quot (c ÷ W) G2 N ltac:(auto)); lia). reflexivity.
  - assert (Z.abs (Z.gcd G b) <= N) by (apply abs_gcd_r; auto). fit1 R ltac:(lia). set (G2 := Z.gcd _ _) in *. clearbody G2.
    destruct (G2 =? 0); [reflexivity|]. fit1 R ltac:(pose proof (abs_quot a G2 N ltac:(auto)); lia). 
    fit1 R ltac:(pose proof (abs_quot b G2 N ltac:(auto)); lia). fit1 R ltac:(pose proof (abs_quot c G2 N ltac:(auto)); lia). reflexivity.
Qed.

Lemma reduce_common_fit0 a b c r N : Z.abs a <= N -> Z.abs c <= N -> N <= M -> b = 0 \/ r = 0 ->
  reduce_common t a b c r = reduce_common BigI a b c r.
Proof.
  intros Ha Hc HN H. unfold reduce_common.
  assert (E : (b =? 0) || (r =? 0) = true) by (apply orb_true_intro; destruct H; [left|right]; lia). rewrite E.
  pose proof (abs_gcd a c N N Ha Hc). set (G := Z.gcd a c) in *. ops. fold G. clearbody G. fit1 R ltac:(lia). destruct (G =? 0); [reflexivity|].
  fit1 R ltac:(pose proof (abs_quot a G N ltac:(auto)); lia). fit1 R ltac:(pose proof (abs_quot c G N ltac:(auto)); lia). reflexivity.
Qed.

(** What reduce_common returns is not larger *)
Lemma reduce_common_bound a b c r a' b' c' r' : reduce_common BigI a b c r = Ok (a', b', c', r') ->
  Z.abs a' <= Z.abs a /\ Z.abs b' <= Z.abs b /\ Z.abs c' <= Z.abs c /\ Z.abs r' <= Z.abs r.
Proof.
  unfold reduce_common, sqrtT. destruct (_ || _); bigs.
  - destruct (_ =? 0); [discriminate|]. bigs. intros H. inversion H; subst.
    pose proof (abs_quot a (Z.gcd a c) _ (Z.le_refl _)). pose proof (abs_quot c (Z.gcd a c) _ (Z.le_refl _)). lia.
  - destruct (_ <? 0); [discriminate|]. bigs. set (H2 := Z.gcd _ r). set (W := Z.sqrt H2). set (G := Z.gcd a c). clearbody W H2 G.
    destruct (W * W =? H2); bigs.
    + destruct (H2 =? 0); [discriminate|]. bigs. destruct (W =? 0); [discriminate|]. bigs. set (G2 := Z.gcd _ b). clearbody G2. destruct (G2 =? 0); [discriminate|].
      bigs. intros H. inversion H; subst.
      pose proof (abs_quot a W _ (Z.le_refl _)) as P1. pose proof (abs_quot c W _ (Z.le_refl _)) as P2. pose proof (abs_quot r H2 _ (Z.le_refl _)) as P3.
      pose proof (abs_quot _ G2 _ P1). pose proof (abs_quot _ G2 _ P2). pose proof (abs_quot b G2 _ (Z.le_refl _)). lia.
    + set (G2 := Z.gcd _ b). clearbody G2. destruct (G2 =? 0); [discriminate|]. bigs. intros H. inversion H; subst.
      pose proof (abs_quot a G2 _ (Z.le_refl _)). pose proof (abs_quot b G2 _ (Z.le_refl _)). pose proof (abs_quot c G2 _ (Z.le_refl _)). lia.
Qed.

Lemma reduce_sign_fit a b c r : Z.abs a <= M -> Z.abs b <= M -> Z.abs c <= M -> reduce_sign t a b c r = reduce_sign BigI a b c r.
Proof. intros. unfold reduce_sign. destruct (c <? 0); [|reflexivity]. ops. fit1 R ltac:(lia). fit1 R ltac:(lia). fit1 R ltac:(lia). reflexivity. Qed.

Lemma reduce_fit a b c r A B C D : Z.abs a <= A -> Z.abs b <= B -> Z.abs c <= C -> Z.abs r <= D ->
  B <= M -> C <= M -> D <= M -> A + B * Z.sqrt D <= M -> (c <> 0 -> Z.gcd a c * Z.gcd a c <= M) ->
  surd_reduce t (new_raw a b c r) = surd_reduce BigI (new_raw a b c r).
Proof.
  intros Ha Hb Hc Hr HB HC HD HM HG. unfold surd_reduce, new_raw. destruct (c =? 0) eqn:Ec; [reflexivity|]. apply Z.eqb_neq in Ec. specialize (HG Ec).
  rewrite (reduce_square_fit a b r A B D) by auto.
  assert (S0 : 0 <= B * Z.sqrt D) by (pose proof (Z.sqrt_nonneg D); nia).
  destruct (reduce_square BigI a b r) as [[[a' b'] r']| |] eqn:E; [|reflexivity|reflexivity]. cbn [bind].
  assert (K : reduce_common t a' b' c r' = reduce_common BigI a' b' c r' /\ Z.abs a' <= M /\ Z.abs b' <= M).
  { apply reduce_square_bound in E. destruct E as [(-> & -> & ->)|(R0 & R1 & -> & -> & ->)].
    - split; [|lia]. destruct (Z.eq_dec b 0) as [->|Nb]; [apply (reduce_common_fit0 a 0 c r M); lia|].
      destruct (Z.eq_dec r 0) as [->|Nr]; [apply (reduce_common_fit0 a b c 0 M); lia|]. apply (reduce_common_fit a b c r M); auto; lia.
    - assert (Z.abs (b * Z.sqrt r) <= B * Z.sqrt D) by (apply abs_mul; [auto|]; apply abs_sqrt; lia).
      split; [|lia]. apply (reduce_common_fit0 _ 0 c 0 M); lia. }
  destruct K as (-> & Ka & Kb). destruct (reduce_common BigI a' b' c r') as [[[[a2 b2] c2'] r2]| |] eqn:F; [|reflexivity|reflexivity]. cbn [bind].
  apply reduce_common_bound in F. apply reduce_sign_fit; lia.
Qed.

(** ... and neither is what reduce returns, up to a folded root *)
Lemma reduce_bound a b c r s : surd_reduce BigI (new_raw a b c r) = Ok s -> ~ square r \/ b = 0 ->
  Z.abs (c0 (coeffs s)) <= Z.abs a /\ Z.abs (c1 (coeffs s)) <= Z.abs b /\ Z.abs (c2 (coeffs s)) <= Z.abs c /\ Z.abs (discr s) <= Z.abs r.
Proof.
  unfold surd_reduce, new_raw. destruct (c =? 0); [discriminate|]. destruct (reduce_square BigI a b r) as [[[a' b'] r']| |] eqn:E; [|discriminate|discriminate]. cbn [bind].
  destruct (reduce_common BigI a' b' c r') as [[[[a2 b2] c2'] r2]| |] eqn:F; [|discriminate|discriminate]. cbn [bind]. intros H Q.
  apply reduce_square_bound in E. apply reduce_common_bound in F. unfold reduce_sign in H.
  assert (K : Z.abs (c0 (coeffs s)) = Z.abs a2 /\ Z.abs (c1 (coeffs s)) = Z.abs b2 /\ Z.abs (c2 (coeffs s)) = Z.abs c2' /\ Z.abs (discr s) = Z.abs r2).
  { destruct (c2' <? 0); revert H; bigs; intros H; inversion H; subst; cbn [new_raw coeffs discr c0 c1 c2]; lia. }
  destruct E as [(-> & -> & ->)|(R0 & R1 & -> & -> & ->)]; [lia|].
  destruct Q as [Q| ->]; [exfalso; apply Q; exists (Z.sqrt r); auto|]. lia.
Qed.
End Reduce.
