(** * IntArith: arithmetic of quadratic integers. *)

From Coq Require Import ZArith Znumtheory Reals Lia Lra Bool List.
From Coquelicot Require Import Coquelicot.
From Verif Require Import Base Ext ModelSurd ModelInt Spec SpecInt Transfer NumFacts SurdCore RatioFacts SurdArith SurdTotal SurdOrd SurdRound IntCore.
Open Scope Z_scope.

(** ** Constructors *)
Lemma qint_from_coeffs_big g a b d : qint_from_coeffs g BigI (QCo a b) d =
  if negb (cplx g) && (d <? 0) then Panic PNegRoot
  else if d mod 4 =? 0 then Panic PMod4
  else if Z.sqrt (Z.abs d) * Z.sqrt (Z.abs d) =? d then Ok (QInt (QCo (a + b * Z.sqrt (Z.abs d)) 0) 0)
  else if b =? 0 then Ok (QInt (QCo a 0) 0) else Ok (QInt (QCo a b) d).
Proof.
  unfold qint_from_coeffs. destruct (negb (cplx g) && (d <? 0)); [reflexivity|].
  rewrite fourB, remB by lia. bigi. rewrite rem4_0. destruct (Z.eqb_spec (d mod 4) 0) as [M|M]; [reflexivity|].
  rewrite sqrtB by lia. bigi. set (r := Z.sqrt (Z.abs d)).
  destruct (Z.eqb_spec (r * r) d) as [E|E].
  - destruct (Z.ltb_spec d 0); [nia|]. bigi. reflexivity.
  - bigi. destruct (Z.eqb_spec b 0) as [B|B]; [reflexivity|].
    destruct (Z.eqb_spec d 0) as [D|D]; [subst d; exfalso; apply M; reflexivity|]. reflexivity.
Qed.
Lemma sqrt_abs_square d : (Z.sqrt (Z.abs d) * Z.sqrt (Z.abs d) =? d) = true <-> square d.
Proof.
  rewrite Z.eqb_eq. split.
  - intros E. exists (Z.sqrt (Z.abs d)). auto.
  - intros S. assert (0 <= d) by (destruct S as [k ->]; nia). rewrite Z.abs_eq by auto. apply sqrt_square_iff; auto.
Qed.

Lemma from_coeffs_good g a b d : good_root g d -> qint_from_coeffs g BigI (QCo a b) d =
  if b =? 0 then Ok (QInt (QCo a 0) 0) else Ok (QInt (QCo a b) d).
Proof.
  intros (S & M & P). rewrite qint_from_coeffs_big.
  assert (negb (cplx g) && (d <? 0) = false) as ->.
  { destruct (cplx g); [reflexivity|]. specialize (P eq_refl). cbn. apply Z.ltb_ge. auto. }
  apply Z.eqb_neq in M. rewrite M.
  destruct (Z.sqrt (Z.abs d) * Z.sqrt (Z.abs d) =? d) eqn:E; [apply sqrt_abs_square in E; contradiction|]. reflexivity.
Qed.
Lemma from_coeffs_good_ok g a b d x : good_root g d -> qint_from_coeffs g BigI (QCo a b) d = Ok x ->
  qval x = qval (QInt (QCo a b) d) /\ qconj x = qconj (QInt (QCo a b) d) /\ wfq g x /\ q0 (qcoeffs x) = a /\ q1 (qcoeffs x) = b /\
    (b <> 0 -> qdiscr x = d).
Proof.
  intros G H. rewrite from_coeffs_good in H by auto. destruct (Z.eqb_spec b 0) as [B|B]; inversion H; subst.
  - rewrite !qval_int, !qconj_int. repeat split; auto; [left; auto|contradiction].
  - repeat split; auto. right. auto.
Qed.
Lemma from_coeffs_good_total g a b d : good_root g d -> exists x, qint_from_coeffs g BigI (QCo a b) d = Ok x.
Proof. intros G. rewrite from_coeffs_good by auto. destruct (b =? 0); eauto. Qed.

(** from_coeffs in general: what it stands for, also when the root is a perfect square *)
Lemma from_coeffs_ok g t a b d x : qint_from_coeffs g t (QCo a b) d = Ok x ->
  d mod 4 <> 0 /\ (cplx g = false -> 0 <= d) /\ wfq g x /\
  (~ square d -> qval x = (ZtoC a + ZtoC b * omega d)%C) /\
  (square d -> qval x = (ZtoC a + ZtoC b * csqrt d)%C).
Proof.
  intros H. apply rle_qint_from_coeffs in H. rewrite qint_from_coeffs_big in H.
  destruct (negb (cplx g) && (d <? 0)) eqn:P; [discriminate|].
  destruct (Z.eqb_spec (d mod 4) 0) as [M|M]; [discriminate|].
  assert (Hp : cplx g = false -> 0 <= d).
  { intros C. rewrite C in P. cbn in P. apply Z.ltb_ge in P. auto. }
  destruct (Z.sqrt (Z.abs d) * Z.sqrt (Z.abs d) =? d) eqn:E.
  - pose proof E as Sq. apply sqrt_abs_square in Sq. inversion H; subst. rewrite qval_int.
    split; [auto|]. split; [auto|]. split; [left; auto|]. split; [tauto|]. intros _.
    apply Z.eqb_eq in E. rewrite <- E at 2. rewrite csqrt_square by apply Z.sqrt_nonneg. autorewrite with ztoc. reflexivity.
  - assert (S : ~ square d) by (rewrite <- sqrt_abs_square; rewrite E; discriminate).
    split; [auto|]. split; [auto|].
    destruct (Z.eqb_spec b 0) as [B|B]; inversion H; subst.
    + rewrite qval_int. split; [left; auto|]. split; [|tauto]. intros _. rewrite ZtoC_0. ring.
    + split; [right; split; auto|]. split; [reflexivity|tauto].
Qed.

(** ** The loop removing factors 4 *)
Lemma remove4_big fuel : forall b r, 0 < r -> Z.log2 r < Z.of_nat fuel ->
  exists k, 0 < k /\ exists r', r = k * k * r' /\ r' mod 4 <> 0 /\ remove4 BigI fuel b r = Ok (b * k, r').
Proof.
  induction fuel as [|fuel IH]; intros b r Hr Hf.
  - pose proof (Z.log2_nonneg r). lia.
  - cbn [remove4]. rewrite fourB, remB by lia. bigi. rewrite rem4_0.
    destruct (Z.eqb_spec (r mod 4) 0) as [M|M].
    + pose proof (Z.div_mod r 4 ltac:(lia)) as D. rewrite M, Z.add_0_r in D.
      rewrite quotB by lia. bigi. rewrite (quot_exact 4 r (r / 4)) by lia. set (r1 := r / 4) in *. clearbody r1.
      destruct (IH (b + b) r1) as (k & Hk & r' & E & M' & Q); [lia| |].
      * replace r with (2 * (2 * r1)) in Hf by lia. rewrite Z.log2_double, Z.log2_double in Hf by lia. lia.
      * exists (2 * k). split; [lia|]. exists r'. split; [rewrite D, E; ring|]. split; [auto|].
        rewrite Q. f_equal. f_equal. ring.
    + exists 1. split; [lia|]. exists r. split; [ring|]. split; [auto|]. rewrite Z.mul_1_r. reflexivity.
Qed.
Lemma log2_fuel r : Z.log2 r < Z.of_nat (S (Z.to_nat (Z.log2 r))).
Proof. pose proof (Z.log2_nonneg r). lia. Qed.

Lemma square_k k r : 0 < k -> (square (k * k * r) <-> square r).
Proof. intros H. split; [apply square_div; lia|apply square_mul]. Qed.

(** new: the value, and when it panics *)
Lemma qint_new_big g a b r :
  (0 < r /\ exists k r', 0 < k /\ r = k * k * r' /\ 0 < r' /\ r' mod 4 <> 0 /\
     qint_new g BigI a b r =
       if r' mod 4 =? 1 then qint_from_coeffs g BigI (QCo (a - b * k) (b * k + b * k)) r'
       else qint_from_coeffs g BigI (QCo a (b * k)) r') \/
  (r <= 0 /\ qint_new g BigI a b r =
     if r mod 4 =? 0 then Panic PUnreachable
     else if r mod 4 =? 1 then qint_from_coeffs g BigI (QCo (a - b) (b + b)) r
     else qint_from_coeffs g BigI (QCo a b) r).
Proof.
  unfold qint_new. destruct (Z.ltb_spec 0 r) as [R|R].
  - left. split; [auto|].
    destruct (remove4_big _ b r R (log2_fuel r)) as (k & Hk & r' & E & M & Q). exists k, r'.
    split; [auto|]. split; [auto|]. split; [nia|]. split; [auto|]. rewrite Q. bigi. rewrite mod4d2B. bigi.
    apply Z.eqb_neq in M. rewrite M. destruct (r' mod 4 =? 1); bigi; reflexivity.
  - right. split; [auto|]. bigi. rewrite mod4d2B. bigi.
    destruct (r mod 4 =? 0); [reflexivity|]. destruct (r mod 4 =? 1); bigi; reflexivity.
Qed.

Lemma new_value1 a b k d : 0 <= k -> d mod 4 = 1 ->
  (ZtoC (a - b * k) + ZtoC (b * k + b * k) * omega d)%C = (ZtoC a + ZtoC b * csqrt (k * k * d))%C.
Proof.
  intros K M. rewrite csqrt_scale by auto. rewrite (csqrt_omega1 d) by (apply Z.eqb_eq; auto).
  autorewrite with ztoc. ring.
Qed.
Lemma new_value0 a b k d : 0 <= k -> d mod 4 <> 1 ->
  (ZtoC a + ZtoC (b * k) * omega d)%C = (ZtoC a + ZtoC b * csqrt (k * k * d))%C.
Proof.
  intros K M. rewrite csqrt_scale by auto. destruct (omega_md0 d) as [-> _]; [apply Z.eqb_neq; auto|].
  autorewrite with ztoc. ring.
Qed.

Lemma qint_new_ok g t a b r x : qint_new g t a b r = Ok x ->
  wfq g x /\ (~ square r -> qval x = (ZtoC a + ZtoC b * csqrt r)%C).
Proof.
  intros H. apply rle_qint_new in H.
  destruct (qint_new_big g a b r) as [(R & k & r' & Hk & E & R' & M & Q)|(R & Q)]; rewrite Q in H.
  - destruct (Z.eqb_spec (r' mod 4) 1) as [M1|M1]; apply from_coeffs_ok in H; destruct H as (_ & _ & W & V & _);
      (split; [auto|]); intros S; rewrite V by (rewrite E, square_k in S; auto); rewrite E.
    + apply new_value1; lia.
    + apply new_value0; lia.
  - destruct (Z.eqb_spec (r mod 4) 0) as [M|M]; [discriminate|].
    destruct (Z.eqb_spec (r mod 4) 1) as [M1|M1]; apply from_coeffs_ok in H; destruct H as (_ & _ & W & V & _);
      (split; [auto|]); intros S; rewrite V by auto.
    + pose proof (new_value1 a b 1 r) as N. rewrite !Z.mul_1_r, !Z.mul_1_l in N. apply N; lia.
    + pose proof (new_value0 a b 1 r) as N. rewrite !Z.mul_1_r, !Z.mul_1_l in N. apply N; lia.
Qed.

(** ** Coefficients over one good root *)
Section Root.
Variable d : Z.
Hypothesis (S : ~ square d) (M : d mod 4 <> 0).
Local Notation qv x := (qval (QInt x d)).

Lemma d_neq0 : d <> 0.
Proof. intros ->. apply M. reflexivity. Qed.
Lemma mod4d2_good : mod4d2 BigI d = Ok (if md1 d then M1 else M23).
Proof. rewrite mod4d2B. apply Z.eqb_neq in M. rewrite M. reflexivity. Qed.

Lemma qco_norm_good a b : qco_norm BigI (QCo a b) d = Ok (nrm d a b).
Proof.
  unfold qco_norm, nrm. destruct (Z.eqb_spec d 0) as [D|_]; [destruct (d_neq0 D)|].
  rewrite mod4d2_good. bigi. cbn [q0 q1]. rewrite fourB. destruct (md1 d); bigi; [|reflexivity].
  rewrite quotB by lia. bigi. reflexivity.
Qed.
Definition cmul (a b a' b' : Z) : qco :=
  if md1 d then QCo (a * a' + b * b' * Z.quot (d - 1) 4) (a * b' + b * (a' + b'))
  else QCo (a * a' + b * b' * d) (a * b' + b * a').
Lemma qco_mul_good a b a' b' : qco_mul BigI (QCo a b) (QCo a' b') d = Ok (cmul a b a' b').
Proof.
  unfold qco_mul, cmul. rewrite mod4d2_good. bigi. cbn [q0 q1]. rewrite fourB. destruct (md1 d); bigi; [|reflexivity].
  rewrite quotB by lia. bigi. reflexivity.
Qed.
Lemma cmul_val a b a' b' : qv (cmul a b a' b') = (qv (QCo a b) * qv (QCo a' b'))%C.
Proof.
  unfold qval, cmul. cbn [qcoeffs qdiscr q0 q1]. destruct (md1 d) eqn:H; cbn [q0 q1].
  - destruct (md1_quot d H) as (k & E & -> & _). pose proof (omega_sq1 d k H E) as Q. autorewrite with ztoc.
    set (w := omega d) in *. clearbody w.
    replace ((ZtoC a + ZtoC b * w) * (ZtoC a' + ZtoC b' * w))%C
      with (ZtoC a * ZtoC a' + (ZtoC a * ZtoC b' + ZtoC b * ZtoC a') * w + ZtoC b * ZtoC b' * (w * w))%C by ring.
    rewrite Q. ring.
  - pose proof (omega_sq0 d H) as Q. autorewrite with ztoc. rewrite <- Q. ring.
Qed.
Lemma nrm_mul a b a' b' : nrm d (q0 (cmul a b a' b')) (q1 (cmul a b a' b')) = nrm d a b * nrm d a' b'.
Proof.
  unfold nrm, cmul. destruct (md1 d) eqn:H; cbn [q0 q1]; [|ring].
  destruct (md1_quot d H) as (k & E & -> & ->). ring.
Qed.
Lemma qco_conj_good a b : exists x, qco_conj BigI (QCo a b) d = Ok x /\ qval (QInt x d) = qconj (QInt (QCo a b) d) /\
  qconj (QInt x d) = qval (QInt (QCo a b) d).
Proof.
  unfold qco_conj. destruct (Z.eqb_spec d 0) as [D|_]; [destruct (d_neq0 D)|].
  rewrite mod4d2_good. bigi. cbn [q0 q1]. unfold qval, qconj. rewrite omega_conj_eq.
  destruct (md1 d) eqn:H; bigi; eexists; (split; [reflexivity|]); cbn [qcoeffs qdiscr q0 q1]; rewrite ?omega_conj_eq, ?H;
    autorewrite with ztoc; split; ring.
Qed.

(** Division with remainder *)
Definition cdiv (a b a' b' : Z) : qco :=  (* coordinates of x * conj y *)
  if md1 d then QCo (a * a' + a * b' - b * b' * Z.quot (d - 1) 4) (b * a' - a * b')
  else QCo (a * a' - b * b' * d) (b * a' - a * b').
Lemma cdiv_val a b a' b' : qv (cdiv a b a' b') = (qv (QCo a b) * qconj (QInt (QCo a' b') d))%C.
Proof.
  unfold qval, qconj, cdiv. cbn [qcoeffs qdiscr q0 q1]. rewrite omega_conj_eq. destruct (md1 d) eqn:H; cbn [q0 q1].
  - destruct (md1_quot d H) as (k & E & -> & _). pose proof (omega_sq1 d k H E) as Q. autorewrite with ztoc.
    set (w := omega d) in *. clearbody w.
    replace ((ZtoC a + ZtoC b * w) * (ZtoC a' + ZtoC b' * (RtoC 1 - w)))%C
      with (ZtoC a * ZtoC a' + ZtoC a * ZtoC b' + (ZtoC b * ZtoC a' - ZtoC a * ZtoC b' + ZtoC b * ZtoC b') * w
            - ZtoC b * ZtoC b' * (w * w))%C by ring.
    rewrite Q. ring.
  - pose proof (omega_sq0 d H) as Q. autorewrite with ztoc. rewrite <- Q. ring.
Qed.

Lemma cmul_inj a b a' b' p : ~ (a = 0 /\ b = 0) -> cmul a b a' b' = cmul a b (q0 p) (q1 p) -> p = QCo a' b'.
Proof.
  intros NZ H. assert (V : qv (cmul a b a' b') = qv (cmul a b (q0 p) (q1 p))) by (rewrite H; reflexivity).
  rewrite !cmul_val in V.
  assert (N : qv (QCo a b) <> RtoC 0).
  { intros X. apply NZ. rewrite <- ZtoC_0, <- (qval_int 0 d) in X. apply qval_inj in X; auto. }
  assert (E : qv (QCo a' b') = qv (QCo (q0 p) (q1 p))).
  { replace (qv (QCo a' b')) with (/ qv (QCo a b) * (qv (QCo a b) * qv (QCo a' b')))%C by (field; auto).
    rewrite V. field; auto. }
  apply qval_inj in E; auto. destruct p as [p0 p1]. cbn in *. destruct E; subst; auto.
Qed.

Lemma qco_div_rem_good a b a' b' : ~ (a' = 0 /\ b' = 0) ->
  let n := nrm d a' b' in
  let p := cdiv a b a' b' in
  let q := QCo (rnd (q0 p) n) (rnd (q1 p) n) in
  n <> 0 /\ exists r, qco_div_rem BigI (QCo a b) (QCo a' b') d = Ok (q, r) /\
    qv r = (qv (QCo a b) - qv q * qv (QCo a' b'))%C /\
    nrm d (q0 r) (q1 r) * n = nrm d (q0 p - rnd (q0 p) n * n) (q1 p - rnd (q1 p) n * n).
Proof.
  intros NZ n p q.
  assert (Hn : n <> 0) by (intros X; apply NZ; apply (nrm_0 d); auto).
  split; [auto|].
  set (ar := q0 p - rnd (q0 p) n * n). set (br := q1 p - rnd (q1 p) n * n).
  pose (e := cmul a' b' ar br).
  (* the product r * (ar + br w) is n times the remainder *)
  pose (rr := QCo (a - q0 (cmul (q0 q) (q1 q) a' b')) (b - q1 (cmul (q0 q) (q1 q) a' b'))).
  assert (Vrr : qv rr = (qv (QCo a b) - qv q * qv (QCo a' b'))%C).
  { pose proof (cmul_val (q0 q) (q1 q) a' b') as C. change (QCo (q0 q) (q1 q)) with q in C. rewrite <- C.
    unfold qval, rr. cbn [qcoeffs qdiscr q0 q1]. autorewrite with ztoc. ring. }
  pose proof (qval_qconj a' b' d) as NV. fold n in NV.
  assert (Vp : qv (QCo ar br) = (qv p - ZtoC n * qv q)%C).
  { unfold qval, ar, br, q. cbn [qcoeffs qdiscr q0 q1]. autorewrite with ztoc. ring. }
  assert (Vpp : qv p = (qv (QCo a b) * qconj (QInt (QCo a' b') d))%C) by apply cdiv_val.
  assert (Ve : qv e = (ZtoC n * qv rr)%C).
  { unfold e. rewrite cmul_val, Vp, Vpp, Vrr, <- NV. ring. }
  assert (Ee : e = QCo (q0 rr * n) (q1 rr * n)).
  { assert (X : qv (QCo (q0 e) (q1 e)) = qv (QCo (q0 rr * n) (q1 rr * n))).
    { replace (QCo (q0 e) (q1 e)) with e by (destruct e; reflexivity). rewrite Ve.
      unfold qval. cbn [qcoeffs qdiscr q0 q1]. autorewrite with ztoc. ring. }
    apply qval_inj in X; auto. destruct X as [X Y]. destruct e as [e0 e1]. cbn [q0 q1] in *. congruence. }
  exists rr. split; [|split; [auto|]].
  - unfold qco_div_rem. rewrite mod4d2_good. cbn [bind q0 q1]. rewrite fourB.
    assert (Step : (match (if md1 d then M1 else M23) with
      | M1 => let! a0 := lift2 (subT BigI) (lift2 (addT BigI) (lift2 (mulT BigI) (Ok a) (Ok a')) (lift2 (mulT BigI) (Ok a) (Ok b')))
                  (lift2 (mulT BigI) (lift2 (mulT BigI) (Ok b) (Ok b')) (lift2 (quotT BigI) (lift2 (subT BigI) (Ok d) (Ok 1)) (Ok 4))) in
              let! b0 := lift2 (subT BigI) (lift2 (mulT BigI) (Ok b) (Ok a')) (lift2 (mulT BigI) (Ok a) (Ok b')) in Ok (a0, b0)
      | M23 => let! a0 := lift2 (subT BigI) (lift2 (mulT BigI) (Ok a) (Ok a')) (lift2 (mulT BigI) (lift2 (mulT BigI) (Ok b) (Ok b')) (Ok d)) in
              let! b0 := lift2 (subT BigI) (lift2 (mulT BigI) (Ok b) (Ok a')) (lift2 (mulT BigI) (Ok a) (Ok b')) in Ok (a0, b0)
      | M0 => Panic PUnreachable
      end) = Ok (q0 p, q1 p)).
    { unfold p, cdiv. destruct (md1 d); bigi; [|reflexivity]. rewrite quotB by lia. bigi. reflexivity. }
    rewrite Step. cbn [bind]. rewrite qco_norm_good. cbn [bind]. fold n.
    rewrite !div_rem_roundB by auto. cbn [bind]. fold ar br. rewrite qco_mul_good. cbn [bind]. fold e. rewrite Ee.
    unfold qco_div_int. cbn [q0 q1]. rewrite !div_rem_roundB by auto. cbn [bind]. rewrite !rnd_exact by auto. reflexivity.
  - pose proof (nrm_mul a' b' ar br) as NM. fold e n in NM. rewrite Ee in NM. cbn [q0 q1] in NM. fold ar br.
    assert (Q : nrm d (q0 rr * n) (q1 rr * n) = nrm d (q0 rr) (q1 rr) * n * n).
    { unfold nrm. destruct (md1 d); ring. }
    rewrite Q in NM. apply (Z.mul_reg_l _ _ n); auto. lia.
Qed.
End Root.
