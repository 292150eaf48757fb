(** * PropsSign: property C31, lists of coefficients of any sign.

    Only statements: every theorem is closed by the lemma of the same name in
    ClaimsSign.v. *)

From Coq Require Import ZArith Reals Lia Lra Bool List Arith.
From Coquelicot Require Import Coquelicot.
From Verif Require Import Base Ext ModelBlock ModelCF Spec SpecCF ClaimsSign.
Import ListNotations.
Open Scope Z_scope.

(** ** C31  ContinuedFraction::new on any finite list no beginning of which is zero *)

(** A list of coefficients of any sign and size with first coefficient a0, no proper beginning of which has the value 0 (beginnings without a
    value are allowed). The result is canonical, and right except that the sign is lost exactly if the number starts negative and some
    beginning of the list lies strictly between -1 and 1 *)
Theorem C31_prefix_sign : forall g t a0 l b y, fits t 1 = true -> List.Forall (fun v => fits t v = true) (a0 :: l) -> a0 <> 0 ->
  (forall n, (n <= length l)%nat -> fst (quotient (firstn n (a0 :: l))) <> 0) -> snd (quotient (a0 :: l)) <> 0 ->
  cf_new g t (a0 :: l) nil b = Ok y ->
  let v := (IZR (sgnb b) * (IZR (fst (quotient (a0 :: l))) / IZR (snd (quotient (a0 :: l)))))%R in
  canonical y /\ finite y /\ (cf_val y = v \/ cf_val y = (- v)%R) /\
  (cf_val y = v <-> v = 0%R \/ 0 < sgnb b * a0 \/ forall n, Z.abs (snd (quotient (firstn n (a0 :: l)))) <= Z.abs (fst (quotient (firstn n (a0 :: l))))).
Proof. exact L_C31_prefix_sign. Qed.
Print Assumptions C31_prefix_sign.

(** Over arbitrary precision such a call returns exactly if no beginning of the list has the opposite sign of the first coefficient *)
Theorem C31_prefix_returns : forall g a0 l b, a0 <> 0 ->
  (forall n, (n <= length l)%nat -> fst (quotient (firstn n (a0 :: l))) <> 0) -> snd (quotient (a0 :: l)) <> 0 ->
  (returns (cf_new g BigI (a0 :: l) nil b) <->
   forall n, 0 <= a0 * (fst (quotient (firstn n (a0 :: l))) * snd (quotient (firstn n (a0 :: l))))).
Proof. exact L_C31_prefix_returns. Qed.
Print Assumptions C31_prefix_returns.

(** and otherwise panics *)
Theorem C31_prefix_panics : forall g a0 l b n, a0 <> 0 ->
  (forall n, (n <= length l)%nat -> fst (quotient (firstn n (a0 :: l))) <> 0) -> snd (quotient (a0 :: l)) <> 0 ->
  a0 * (fst (quotient (firstn n (a0 :: l))) * snd (quotient (firstn n (a0 :: l)))) < 0 -> cf_new g BigI (a0 :: l) nil b = Panic PUnwrap.
Proof. exact L_C31_prefix_panics. Qed.
Print Assumptions C31_prefix_panics.

(** -3 + 1/(1 + 1/(2 + 1/(-1 + 1/4))) = -13/5 comes out right, -2 + 1/(1 - 1/3) = -1/2 comes out as 1/2, and 3 + 1/(1 + 1/(-1 + 1/5)) = -1 panics *)
Example C31_prefix_case :
  map (fun n => quotient (firstn n [-3; 1; 2; -1; 4])) [1; 2; 3; 4; 5]%nat = [(-3, 1); (-2, 1); (-7, 3); (5, -2); (13, -5)] /\
  cf_new (Cfg false true) (SInt 32) [-3; 1; 2; -1; 4] nil false = Ok (CF [2; 1; 1; 2] nil true) /\
  map (fun n => quotient (firstn n [-2; 1; -3])) [1; 2; 3]%nat = [(-2, 1); (-1, 1); (1, -2)] /\
  cf_new (Cfg false true) (SInt 32) [-2; 1; -3] nil false = Ok (CF [0; 2] nil false) /\
  map (fun n => quotient (firstn n [3; 1; -1; 5])) [1; 2; 3; 4]%nat = [(3, 1); (4, 1); (-1, 0); (-1, 1)] /\
  cf_new (Cfg false true) BigI [3; 1; -1; 5] nil false = Panic PUnwrap.
Proof. repeat split. Qed.

(** The same for lists that start with 0 and then a coefficient a1 that is not 0. The sign is lost exactly if the number starts negative and, of two
    beginnings of the list, the shorter one has no value or one above 1 in magnitude, and the longer one lies strictly between -1 and 1 *)
Theorem C31_zero_sign : forall g t a1 l b y, fits t 1 = true -> List.Forall (fun v => fits t v = true) (0 :: a1 :: l) -> a1 <> 0 ->
  (forall n, (2 <= n <= S (length l))%nat -> fst (quotient (firstn n (0 :: a1 :: l))) <> 0) -> snd (quotient (0 :: a1 :: l)) <> 0 ->
  cf_new g t (0 :: a1 :: l) nil b = Ok y ->
  let v := (IZR (sgnb b) * (IZR (fst (quotient (0%Z :: a1 :: l))) / IZR (snd (quotient (0%Z :: a1 :: l)))))%R in
  canonical y /\ finite y /\ (cf_val y = v \/ cf_val y = (- v)%R) /\
  (cf_val y = v <-> v = 0%R \/ 0 < sgnb b * a1 \/ forall i j, (1 <= i <= j)%nat ->
    Z.abs (snd (quotient (firstn i (0 :: a1 :: l)))) < Z.abs (fst (quotient (firstn i (0 :: a1 :: l)))) ->
    Z.abs (snd (quotient (firstn j (0 :: a1 :: l)))) <= Z.abs (fst (quotient (firstn j (0 :: a1 :: l))))).
Proof. exact L_C31_zero_sign. Qed.
Print Assumptions C31_zero_sign.

(** Over arbitrary precision such a call returns exactly if no beginning of the list has the opposite sign of a1, and otherwise panics *)
Theorem C31_zero_returns : forall g a1 l b, a1 <> 0 ->
  (forall n, (2 <= n <= S (length l))%nat -> fst (quotient (firstn n (0 :: a1 :: l))) <> 0) -> snd (quotient (0 :: a1 :: l)) <> 0 ->
  (returns (cf_new g BigI (0 :: a1 :: l) nil b) <->
   forall n, 0 <= a1 * (fst (quotient (firstn n (0 :: a1 :: l))) * snd (quotient (firstn n (0 :: a1 :: l))))).
Proof. exact L_C31_zero_returns. Qed.
Print Assumptions C31_zero_returns.

Theorem C31_zero_panics : forall g a1 l b n, a1 <> 0 ->
  (forall n, (2 <= n <= S (length l))%nat -> fst (quotient (firstn n (0 :: a1 :: l))) <> 0) -> snd (quotient (0 :: a1 :: l)) <> 0 ->
  a1 * (fst (quotient (firstn n (0 :: a1 :: l))) * snd (quotient (firstn n (0 :: a1 :: l)))) < 0 -> cf_new g BigI (0 :: a1 :: l) nil b = Panic PUnwrap.
Proof. exact L_C31_zero_panics. Qed.
Print Assumptions C31_zero_panics.

(** Two zeros in front change nothing, with and without a period *)
Theorem C31_zero_zero : forall g t l p b, fits t 0 = true -> l <> nil -> cf_new g t (0 :: 0 :: l) p b = cf_new g t l p b.
Proof. exact L_C31_zero_zero. Qed.
Print Assumptions C31_zero_zero.

(** 0 + 1/(-2 + 1/3) = -3/5 comes out right, 0 + 1/(-1 + 1/(2 + 1/(-1 + 1/(1 + 1/3)))) = -2/3 comes out as 2/3: its beginnings pass through -2.
    0 + 1/(1 + 1/(-1 + 1/2)) = -1, which begins with 1, panics *)
Example C31_zero_case :
  map (fun n => quotient (firstn n [0; -2; 3])) [1; 2; 3]%nat = [(0, 1); (1, -2); (3, -5)] /\
  cf_new (Cfg false true) (SInt 32) [0; -2; 3] nil false = Ok (CF [0; 1; 1; 2] nil true) /\
  map (fun n => quotient (firstn n [0; -1; 2; -1; 1; 3])) [1; 2; 3; 4; 5; 6]%nat = [(0, 1); (1, -1); (2, -1); (-1, 0); (1, -1); (2, -3)] /\
  cf_new (Cfg false true) (SInt 32) [0; -1; 2; -1; 1; 3] nil false = Ok (CF [0; 1; 2] nil false) /\
  map (fun n => quotient (firstn n [0; 1; -1; 2])) [1; 2; 3; 4]%nat = [(0, 1); (1, 1); (-1, 0); (-1, 1)] /\
  cf_new (Cfg false true) BigI [0; 1; -1; 2] nil false = Panic PUnwrap.
Proof. repeat split. Qed.

(** ** C31  Coefficients of any sign before a period *)

(** A list with first coefficient a0 <> 0 no beginning of which has the value 0, then a period of positive coefficients. Write P/Q for the
    value of the list and P'/Q' for that of the list without its last coefficient. The period is kept, the aperiodic part has no zero in it
    (the result is canonical) exactly if |P'| + |Q'| < |P| + |Q|, the magnitude is right exactly if P * P' + Q * Q' > 0, and the value is right
    exactly if moreover the number starts positive or no beginning lies strictly between -1 and 1 *)
Theorem C31_period_exact : forall g t a0 l p b y, fits t 1 = true -> List.Forall (fun v => fits t v = true) ((a0 :: l) ++ p) -> a0 <> 0 ->
  (forall n, fst (quotient (firstn n (a0 :: l))) <> 0) -> p <> nil -> List.Forall (fun v => 1 <= v) p -> cf_new g t (a0 :: l) p b = Ok y ->
  let P := fst (quotient (a0 :: l)) in let Q := snd (quotient (a0 :: l)) in
  let P' := fst (quotient (removelast (a0 :: l))) in let Q' := snd (quotient (removelast (a0 :: l))) in
  p_coeffs y = p /\ (canonical y <-> Z.abs P' + Z.abs Q' < Z.abs P + Z.abs Q) /\
  (Rabs (cf_val y) = Rabs (cf_val (CF (a0 :: l) p b)) <-> 0 < P * P' + Q * Q') /\
  (cf_val y = cf_val (CF (a0 :: l) p b) <-> 0 < P * P' + Q * Q' /\
    (0 < sgnb b * a0 \/ forall n, Z.abs (snd (quotient (firstn n (a0 :: l)))) <= Z.abs (fst (quotient (firstn n (a0 :: l)))))).
Proof. exact L_C31_period_exact. Qed.
Print Assumptions C31_period_exact.

(** Over arbitrary precision such a call returns exactly if no beginning of the list has the opposite sign of the first coefficient, and
    otherwise panics *)
Theorem C31_period_returns : forall g a0 l p b, a0 <> 0 ->
  (forall n, (n <= length l)%nat -> fst (quotient (firstn n (a0 :: l))) <> 0) -> p <> nil -> List.Forall (fun v => 1 <= v) p ->
  (returns (cf_new g BigI (a0 :: l) p b) <->
   forall n, 0 <= a0 * (fst (quotient (firstn n (a0 :: l))) * snd (quotient (firstn n (a0 :: l))))).
Proof. exact L_C31_period_returns. Qed.
Print Assumptions C31_period_returns.

Theorem C31_period_panics : forall g a0 l p b n, a0 <> 0 ->
  (forall n, (n <= length l)%nat -> fst (quotient (firstn n (a0 :: l))) <> 0) -> p <> nil -> List.Forall (fun v => 1 <= v) p ->
  a0 * (fst (quotient (firstn n (a0 :: l))) * snd (quotient (firstn n (a0 :: l)))) < 0 -> cf_new g BigI (a0 :: l) p b = Panic PUnwrap.
Proof. exact L_C31_period_panics. Qed.
Print Assumptions C31_period_panics.

(** The same for lists that start with 0 and then a coefficient a1 <> 0 *)
Theorem C31_zero_period_exact : forall g t a1 l p b y, fits t 1 = true -> List.Forall (fun v => fits t v = true) ((0 :: a1 :: l) ++ p) -> a1 <> 0 ->
  (forall n, (2 <= n)%nat -> fst (quotient (firstn n (0 :: a1 :: l))) <> 0) -> p <> nil -> List.Forall (fun v => 1 <= v) p ->
  cf_new g t (0 :: a1 :: l) p b = Ok y ->
  let P := fst (quotient (0 :: a1 :: l)) in let Q := snd (quotient (0 :: a1 :: l)) in
  let P' := fst (quotient (removelast (0 :: a1 :: l))) in let Q' := snd (quotient (removelast (0 :: a1 :: l))) in
  p_coeffs y = p /\ (canonical y <-> Z.abs P' + Z.abs Q' < Z.abs P + Z.abs Q) /\
  (Rabs (cf_val y) = Rabs (cf_val (CF (0 :: a1 :: l) p b)) <-> 0 < P * P' + Q * Q') /\
  (cf_val y = cf_val (CF (0 :: a1 :: l) p b) <-> 0 < P * P' + Q * Q' /\ (0 < sgnb b * a1 \/ forall i j, (1 <= i <= j)%nat ->
    Z.abs (snd (quotient (firstn i (0 :: a1 :: l)))) < Z.abs (fst (quotient (firstn i (0 :: a1 :: l)))) ->
    Z.abs (snd (quotient (firstn j (0 :: a1 :: l)))) <= Z.abs (fst (quotient (firstn j (0 :: a1 :: l)))))).
Proof. exact L_C31_zero_period_exact. Qed.
Print Assumptions C31_zero_period_exact.

Theorem C31_zero_period_returns : forall g a1 l p b, a1 <> 0 ->
  (forall n, (2 <= n <= S (length l))%nat -> fst (quotient (firstn n (0 :: a1 :: l))) <> 0) -> p <> nil -> List.Forall (fun v => 1 <= v) p ->
  (returns (cf_new g BigI (0 :: a1 :: l) p b) <->
   forall n, 0 <= a1 * (fst (quotient (firstn n (0 :: a1 :: l))) * snd (quotient (firstn n (0 :: a1 :: l))))).
Proof. exact L_C31_zero_period_returns. Qed.
Print Assumptions C31_zero_period_returns.

Theorem C31_zero_period_panics : forall g a1 l p b n, a1 <> 0 ->
  (forall n, (2 <= n <= S (length l))%nat -> fst (quotient (firstn n (0 :: a1 :: l))) <> 0) -> p <> nil -> List.Forall (fun v => 1 <= v) p ->
  a1 * (fst (quotient (firstn n (0 :: a1 :: l))) * snd (quotient (firstn n (0 :: a1 :: l)))) < 0 -> cf_new g BigI (0 :: a1 :: l) p b = Panic PUnwrap.
Proof. exact L_C31_zero_period_panics. Qed.
Print Assumptions C31_zero_period_panics.

(** With the period 1, 2, 1, 2, ... : [3; 1, -3, 2] (P * P' + Q * Q' = 126 + 6) comes out right, [5; -2] (-45 - 2) does not, [3; 1, -2, 1] (5 + 0) has the
    right value but a zero before the period, [-2; 1, -3] (-1 - 2) is wrong in magnitude, [0; -2, 3] (3 + 10) is right, [0; -2] (0 - 2) is wrong, and [3; 1, -1, 5] panics *)
Example C31_period_case :
  map (fun n => quotient (firstn n [3; 1; -3; 2])) [1; 2; 3; 4]%nat = [(3, 1); (4, 1); (-9, -2); (-14, -3)] /\
  cf_new (Cfg false true) (SInt 32) [3; 1; -3; 2] [1; 2] false = Ok (CF [4; 1; 1; 1] [1; 2] false) /\
  map (fun n => quotient (firstn n [5; -2])) [1; 2]%nat = [(5, 1); (-9, -2)] /\
  cf_new (Cfg false true) (SInt 32) [5; -2] [1; 2] false = Ok (CF [4; 1; 1] [1; 2] false) /\
  map (fun n => quotient (firstn n [3; 1; -2; 1])) [1; 2; 3; 4]%nat = [(3, 1); (4, 1); (-5, -1); (-1, 0)] /\
  cf_new (Cfg false true) (SInt 32) [3; 1; -2; 1] [1; 2] false = Ok (CF [5; 0] [1; 2] false) /\
  map (fun n => quotient (firstn n [-2; 1; -3])) [1; 2; 3]%nat = [(-2, 1); (-1, 1); (1, -2)] /\
  cf_new (Cfg false true) (SInt 32) [-2; 1; -3] [1; 2] false = Ok (CF [0; 1; 1] [1; 2] false) /\
  map (fun n => quotient (firstn n [0; -2; 3])) [1; 2; 3]%nat = [(0, 1); (1, -2); (3, -5)] /\
  cf_new (Cfg false true) (SInt 32) [0; -2; 3] [1; 2] false = Ok (CF [0; 1; 1; 2] [1; 2] true) /\
  cf_new (Cfg false true) (SInt 32) [0; -2] [1; 2] false = Ok (CF [0; 2] [1; 2] true) /\
  cf_new (Cfg false true) BigI [3; 1; -1; 5] [1; 2] false = Panic PUnwrap.
Proof. repeat split. Qed.
