(** * ClaimsSign: proofs of the property theorems in PropsSign.v. *)

From Coq Require Import ZArith Reals Lia Lra Bool List Arith.
From Coquelicot Require Import Coquelicot.
From Verif Require Import Base Ext ModelBlock ModelCF Spec SpecCF NumFacts CFNew CFSigned CFAny CFSign CFSign0 CFPeriod.
Import ListNotations.
Open Scope Z_scope.

Lemma L_C31_prefix_sign : forall g t a0 l b y, fits t 1 = true -> List.Forall (fun v => fits t v = true) (a0 :: l) -> a0 <> 0 ->
  (forall n, (n <= length l)%nat -> fst (quotient (firstn n (a0 :: l))) <> 0) -> snd (quotient (a0 :: l)) <> 0 ->
  cf_new g t (a0 :: l) nil b = Ok y ->
  let v := (IZR (sgnb b) * (IZR (fst (quotient (a0 :: l))) / IZR (snd (quotient (a0 :: l)))))%R in
  canonical y /\ finite y /\ (cf_val y = v \/ cf_val y = (- v)%R) /\
  (cf_val y = v <-> v = 0%R \/ 0 < sgnb b * a0 \/ forall n, Z.abs (snd (quotient (firstn n (a0 :: l)))) <= Z.abs (fst (quotient (firstn n (a0 :: l))))).
Proof.
  intros g t a0 l b y F1 Fa N0 N Hq H v. destruct (cf_new_magnitude g t (a0 :: l) b y F1 Fa H Hq) as (Cn & Fi & _).
  destruct (new_sign_iff g t b a0 l y F1 Fa N0 N Hq H) as [I D]. fold v in I, D. split; [auto|]. split; [auto|]. split; [auto|]. rewrite I.
  assert (Q : IZR (snd (quotient (a0 :: l))) <> 0%R) by (apply not_0_IZR; auto).
  assert (Z0 : fst (quotient (a0 :: l)) = 0 <-> v = 0%R).
  { unfold v. split; [intros ->; field; auto|]. intros E. apply Rmult_integral in E. destruct E as [E|E]; [exfalso; destruct b; cbn [sgnb] in E; lra|].
    unfold Rdiv in E. apply Rmult_integral in E. destruct E as [E|E]; [apply eq_IZR; exact E|]. exfalso. revert E. apply Rinv_neq_0_compat. auto. }
  rewrite Z0. unfold below. split; (intros [A|[A|A]]; [left; auto|right; left; auto|right; right; intros n; specialize (A n); lia]).
Qed.

Lemma L_C31_prefix_returns : forall g a0 l b, a0 <> 0 ->
  (forall n, (n <= length l)%nat -> fst (quotient (firstn n (a0 :: l))) <> 0) -> snd (quotient (a0 :: l)) <> 0 ->
  (returns (cf_new g BigI (a0 :: l) nil b) <->
   forall n, 0 <= a0 * (fst (quotient (firstn n (a0 :: l))) * snd (quotient (firstn n (a0 :: l))))).
Proof.
  intros g a0 l b N0 N Hq. destruct (new_outcome g b a0 l N0 N Hq) as [[R A]|(R & n & A)]; [split; auto|].
  split; [intros [y Y]; rewrite R in Y; discriminate|]. intros K. specialize (K n). lia.
Qed.

Lemma L_C31_prefix_panics : forall g a0 l b n, a0 <> 0 ->
  (forall n, (n <= length l)%nat -> fst (quotient (firstn n (a0 :: l))) <> 0) -> snd (quotient (a0 :: l)) <> 0 ->
  a0 * (fst (quotient (firstn n (a0 :: l))) * snd (quotient (firstn n (a0 :: l)))) < 0 -> cf_new g BigI (a0 :: l) nil b = Panic PUnwrap.
Proof.
  intros g a0 l b n N0 N Hq K. destruct (new_outcome g b a0 l N0 N Hq) as [[_ A]|(R & _)]; [specialize (A n); lia|exact R].
Qed.

Lemma L_C31_zero_sign : forall g t a1 l b y, fits t 1 = true -> List.Forall (fun v => fits t v = true) (0 :: a1 :: l) -> a1 <> 0 ->
  (forall n, (2 <= n <= S (length l))%nat -> fst (quotient (firstn n (0 :: a1 :: l))) <> 0) -> snd (quotient (0 :: a1 :: l)) <> 0 ->
  cf_new g t (0 :: a1 :: l) nil b = Ok y ->
  let v := (IZR (sgnb b) * (IZR (fst (quotient (0%Z :: a1 :: l))) / IZR (snd (quotient (0%Z :: a1 :: l)))))%R in
  canonical y /\ finite y /\ (cf_val y = v \/ cf_val y = (- v)%R) /\
  (cf_val y = v <-> v = 0%R \/ 0 < sgnb b * a1 \/ forall i j, (1 <= i <= j)%nat ->
    Z.abs (snd (quotient (firstn i (0 :: a1 :: l)))) < Z.abs (fst (quotient (firstn i (0 :: a1 :: l)))) ->
    Z.abs (snd (quotient (firstn j (0 :: a1 :: l)))) <= Z.abs (fst (quotient (firstn j (0 :: a1 :: l))))).
Proof.
  intros g t a1 l b y F1 Fa N0 N Hq H v. destruct (cf_new_magnitude g t (0 :: a1 :: l) b y F1 Fa H Hq) as (Cn & Fi & _).
  destruct (new_sign0_iff g t b a1 l y F1 Fa N0 N Hq H) as [I D]. fold v in I, D. split; [auto|]. split; [auto|]. split; [auto|]. rewrite I.
  assert (Q : IZR (snd (quotient (0%Z :: a1 :: l))) <> 0%R) by (apply not_0_IZR; auto).
  assert (Z0 : fst (quotient (0 :: a1 :: l)) = 0 <-> v = 0%R).
  { unfold v. split; [intros ->; field; auto|]. intros E. apply Rmult_integral in E. destruct E as [E|E]; [exfalso; destruct b; cbn [sgnb] in E; lra|].
    unfold Rdiv in E. apply Rmult_integral in E. destruct E as [E|E]; [apply eq_IZR; exact E|]. exfalso. revert E. apply Rinv_neq_0_compat. auto. }
  rewrite Z0. unfold fell, above, below. split; (intros [A|[A|A]]; [left; auto|right; left; auto|right; right]).
  - intros i j Hij A1. destruct (Z_le_gt_dec (Z.abs (snd (quotient (firstn j (0 :: a1 :: l))))) (Z.abs (fst (quotient (firstn j (0 :: a1 :: l)))))) as [K|K]; [exact K|].
    exfalso. apply A. exists i, j. split; [exact Hij|]. split; [exact A1|lia].
  - intros (i & j & Hij & A1 & A2). specialize (A i j Hij A1). lia.
Qed.

Lemma L_C31_zero_returns : forall g a1 l b, a1 <> 0 ->
  (forall n, (2 <= n <= S (length l))%nat -> fst (quotient (firstn n (0 :: a1 :: l))) <> 0) -> snd (quotient (0 :: a1 :: l)) <> 0 ->
  (returns (cf_new g BigI (0 :: a1 :: l) nil b) <->
   forall n, 0 <= a1 * (fst (quotient (firstn n (0 :: a1 :: l))) * snd (quotient (firstn n (0 :: a1 :: l))))).
Proof.
  intros g a1 l b N0 N Hq. destruct (new_outcome0 g b a1 l N0 N Hq) as [[R A]|(R & n & A)]; [split; auto|].
  split; [intros [y Y]; rewrite R in Y; discriminate|]. intros K. specialize (K n). lia.
Qed.

Lemma L_C31_zero_panics : forall g a1 l b n, a1 <> 0 ->
  (forall n, (2 <= n <= S (length l))%nat -> fst (quotient (firstn n (0 :: a1 :: l))) <> 0) -> snd (quotient (0 :: a1 :: l)) <> 0 ->
  a1 * (fst (quotient (firstn n (0 :: a1 :: l))) * snd (quotient (firstn n (0 :: a1 :: l)))) < 0 -> cf_new g BigI (0 :: a1 :: l) nil b = Panic PUnwrap.
Proof.
  intros g a1 l b n N0 N Hq K. destruct (new_outcome0 g b a1 l N0 N Hq) as [[_ A]|(R & _)]; [specialize (A n); lia|exact R].
Qed.

Lemma L_C31_zero_zero : forall g t l p b, fits t 0 = true -> l <> nil -> cf_new g t (0 :: 0 :: l) p b = cf_new g t l p b.
Proof.
  intros g t l p b F0 Nl. destruct l as [|a l]; [congruence|]. unfold cf_new.
  assert (S : new_loop g t (NSt b None nil) (0 :: 0 :: a :: l) = new_loop g t (NSt b None nil) (a :: l)).
  { cbn [new_loop]. assert (E : lift2 (subT t) (Ok 0) (Ok 0) = Ok 0) by (cbn [lift2 bind]; unfold subT, chk; change (0 - 0) with 0; rewrite F0; reflexivity).
    unfold new_step at 1. destruct b; [rewrite E|]; cbn [bind]; unfold new_step at 1; [rewrite E|]; reflexivity. }
  rewrite S. reflexivity.
Qed.

Lemma L_C31_period_exact : forall g t a0 l p b y, fits t 1 = true -> List.Forall (fun v => fits t v = true) ((a0 :: l) ++ p) -> a0 <> 0 ->
  (forall n, fst (quotient (firstn n (a0 :: l))) <> 0) -> p <> nil -> List.Forall (fun v => 1 <= v) p -> cf_new g t (a0 :: l) p b = Ok y ->
  let P := fst (quotient (a0 :: l)) in let Q := snd (quotient (a0 :: l)) in
  let P' := fst (quotient (removelast (a0 :: l))) in let Q' := snd (quotient (removelast (a0 :: l))) in
  p_coeffs y = p /\ (canonical y <-> Z.abs P' + Z.abs Q' < Z.abs P + Z.abs Q) /\
  (Rabs (cf_val y) = Rabs (cf_val (CF (a0 :: l) p b)) <-> 0 < P * P' + Q * Q') /\
  (cf_val y = cf_val (CF (a0 :: l) p b) <-> 0 < P * P' + Q * Q' /\
    (0 < sgnb b * a0 \/ forall n, Z.abs (snd (quotient (firstn n (a0 :: l)))) <= Z.abs (fst (quotient (firstn n (a0 :: l)))))).
Proof.
  intros g t a0 l p b y F1 F N0 N Np Pp H P Q P' Q'. apply Forall_app in F. destruct F as [Fa Fp].
  destruct (new_period_iff g t b a0 l p y F1 Fa Fp N0 N Np Pp H) as (R1 & R2 & R3 & R4). fold P Q P' Q' in R2, R3, R4.
  split; [exact R1|]. split; [exact R2|]. split; [exact R3|]. rewrite R4. unfold below.
  split; (intros [A [B|B]]; [auto|split; [exact A|right; intros n; specialize (B n); lia]]).
Qed.

Lemma L_C31_period_returns : forall g a0 l p b, a0 <> 0 ->
  (forall n, (n <= length l)%nat -> fst (quotient (firstn n (a0 :: l))) <> 0) -> p <> nil -> List.Forall (fun v => 1 <= v) p ->
  (returns (cf_new g BigI (a0 :: l) p b) <->
   forall n, 0 <= a0 * (fst (quotient (firstn n (a0 :: l))) * snd (quotient (firstn n (a0 :: l))))).
Proof.
  intros g a0 l p b N0 N Np Pp. destruct (new_period_outcome g b a0 l p N0 N Np Pp) as [[R A]|(R & n & A)]; [split; auto|].
  split; [intros [y Y]; rewrite R in Y; discriminate|]. intros K. specialize (K n). lia.
Qed.

Lemma L_C31_period_panics : forall g a0 l p b n, a0 <> 0 ->
  (forall n, (n <= length l)%nat -> fst (quotient (firstn n (a0 :: l))) <> 0) -> p <> nil -> List.Forall (fun v => 1 <= v) p ->
  a0 * (fst (quotient (firstn n (a0 :: l))) * snd (quotient (firstn n (a0 :: l)))) < 0 -> cf_new g BigI (a0 :: l) p b = Panic PUnwrap.
Proof.
  intros g a0 l p b n N0 N Np Pp K. destruct (new_period_outcome g b a0 l p N0 N Np Pp) as [[_ A]|(R & _)]; [specialize (A n); lia|exact R].
Qed.

Lemma L_C31_zero_period_exact : forall g t a1 l p b y, fits t 1 = true -> List.Forall (fun v => fits t v = true) ((0 :: a1 :: l) ++ p) -> a1 <> 0 ->
  (forall n, (2 <= n)%nat -> fst (quotient (firstn n (0 :: a1 :: l))) <> 0) -> p <> nil -> List.Forall (fun v => 1 <= v) p ->
  cf_new g t (0 :: a1 :: l) p b = Ok y ->
  let P := fst (quotient (0 :: a1 :: l)) in let Q := snd (quotient (0 :: a1 :: l)) in
  let P' := fst (quotient (removelast (0 :: a1 :: l))) in let Q' := snd (quotient (removelast (0 :: a1 :: l))) in
  p_coeffs y = p /\ (canonical y <-> Z.abs P' + Z.abs Q' < Z.abs P + Z.abs Q) /\
  (Rabs (cf_val y) = Rabs (cf_val (CF (0 :: a1 :: l) p b)) <-> 0 < P * P' + Q * Q') /\
  (cf_val y = cf_val (CF (0 :: a1 :: l) p b) <-> 0 < P * P' + Q * Q' /\ (0 < sgnb b * a1 \/ forall i j, (1 <= i <= j)%nat ->
    Z.abs (snd (quotient (firstn i (0 :: a1 :: l)))) < Z.abs (fst (quotient (firstn i (0 :: a1 :: l)))) ->
    Z.abs (snd (quotient (firstn j (0 :: a1 :: l)))) <= Z.abs (fst (quotient (firstn j (0 :: a1 :: l)))))).
Proof.
  intros g t a1 l p b y F1 F N0 N Np Pp H P Q P' Q'. apply Forall_app in F. destruct F as [Fa Fp].
  destruct (new_period0_iff g t b a1 l p y F1 Fa Fp N0 N Np Pp H) as (R1 & R2 & R3 & R4). fold P Q P' Q' in R2, R3, R4.
  split; [exact R1|]. split; [exact R2|]. split; [exact R3|]. rewrite R4. unfold fell, above, below.
  split; (intros [A [B|B]]; [auto|split; [exact A|right]]).
  - intros i j Hij A1. destruct (Z_le_gt_dec (Z.abs (snd (quotient (firstn j (0 :: a1 :: l))))) (Z.abs (fst (quotient (firstn j (0 :: a1 :: l)))))) as [K|K]; [exact K|].
    exfalso. apply B. exists i, j. split; [exact Hij|]. split; [exact A1|lia].
  - intros (i & j & Hij & A1 & A2). specialize (B i j Hij A1). lia.
Qed.

Lemma L_C31_zero_period_returns : forall g a1 l p b, a1 <> 0 ->
  (forall n, (2 <= n <= S (length l))%nat -> fst (quotient (firstn n (0 :: a1 :: l))) <> 0) -> p <> nil -> List.Forall (fun v => 1 <= v) p ->
  (returns (cf_new g BigI (0 :: a1 :: l) p b) <->
   forall n, 0 <= a1 * (fst (quotient (firstn n (0 :: a1 :: l))) * snd (quotient (firstn n (0 :: a1 :: l))))).
Proof.
  intros g a1 l p b N0 N Np Pp. destruct (new_period0_outcome g b a1 l p N0 N Np Pp) as [[R A]|(R & n & A)]; [split; auto|].
  split; [intros [y Y]; rewrite R in Y; discriminate|]. intros K. specialize (K n). lia.
Qed.

Lemma L_C31_zero_period_panics : forall g a1 l p b n, a1 <> 0 ->
  (forall n, (2 <= n <= S (length l))%nat -> fst (quotient (firstn n (0 :: a1 :: l))) <> 0) -> p <> nil -> List.Forall (fun v => 1 <= v) p ->
  a1 * (fst (quotient (firstn n (0 :: a1 :: l))) * snd (quotient (firstn n (0 :: a1 :: l)))) < 0 -> cf_new g BigI (0 :: a1 :: l) p b = Panic PUnwrap.
Proof.
  intros g a1 l p b n N0 N Np Pp K. destruct (new_period0_outcome g b a1 l p N0 N Np Pp) as [[_ A]|(R & _)]; [specialize (A n); lia|exact R].
Qed.
