(** * PropsCo: property theorems C61 and following.

    Only statements: every theorem is closed by the lemma of the same name in
    ClaimsCo.v. *)

From Coq Require Import ZArith Reals Lia Lra Bool List.
From Coquelicot Require Import Coquelicot.
From Verif Require Import Base Ext ModelBlock ModelSurd ModelInt Spec SpecInt SpecCF SpecBlock ClaimsCo.
Import ListNotations.
Open Scope Z_scope.

(** ** C61  Arithmetic on coefficient triples (QuadraticSurdCoeffs) *)

(** Sum and difference of triples over the same root *)
Theorem C61_add : forall t x y z d, sco_add t x y = Ok z -> c2 x <> 0 -> c2 y <> 0 ->
  c2 z <> 0 /\ sval (Surd z d) = (sval (Surd x d) + sval (Surd y d))%C.
Proof. exact L_C61_add. Qed.
Print Assumptions C61_add.

Theorem C61_sub : forall t x y z d, sco_sub t x y = Ok z -> c2 x <> 0 -> c2 y <> 0 ->
  c2 z <> 0 /\ sval (Surd z d) = (sval (Surd x d) - sval (Surd y d))%C.
Proof. exact L_C61_sub. Qed.
Print Assumptions C61_sub.

(** Product: any root, square or not *)
Theorem C61_mul : forall t x y z d, sco_mul t x y d = Ok z -> c2 x <> 0 -> c2 y <> 0 ->
  c2 z <> 0 /\ sval (Surd z d) = (sval (Surd x d) * sval (Surd y d))%C.
Proof. exact L_C61_mul. Qed.
Print Assumptions C61_mul.

(** Quotient: over any root, if neither the divisor nor its conjugate is 0 *)
Theorem C61_div : forall t x y z d, sco_div t x y d = Ok z -> c2 x <> 0 -> c2 y <> 0 ->
  sval (Surd y d) <> RtoC 0 -> sconj (Surd y d) <> RtoC 0 ->
  c2 z <> 0 /\ sval (Surd z d) = (sval (Surd x d) / sval (Surd y d))%C.
Proof. exact L_C61_div. Qed.
Print Assumptions C61_div.

(** Over a root that is not a square a nonzero divisor is enough *)
Theorem C61_div_nonsquare : forall t x y z d, sco_div t x y d = Ok z -> c2 x <> 0 -> c2 y <> 0 -> ~ square d ->
  sval (Surd y d) <> RtoC 0 -> c2 z <> 0 /\ sval (Surd z d) = (sval (Surd x d) / sval (Surd y d))%C.
Proof. exact L_C61_div_nonsquare. Qed.
Print Assumptions C61_div_nonsquare.

(** Dividing by zero does not panic: it returns a triple with denominator 0 *)
Theorem C61_div_zero : forall t x y z d, sco_div t x y d = Ok z ->
  (c2 z = 0 <-> c2 x = 0 \/ c0 y * c0 y - c1 y * c1 y * d = 0).
Proof. exact L_C61_div_zero. Qed.
Print Assumptions C61_div_zero.

(** Conjugate and norm *)
Theorem C61_conj : forall t x z d, sco_conj t x = Ok z -> c2 z = c2 x /\ sval (Surd z d) = sconj (Surd x d) /\ sconj (Surd z d) = sval (Surd x d).
Proof. exact L_C61_conj. Qed.
Print Assumptions C61_conj.

Theorem C61_norm : forall t x q d, sco_norm t x d = Ok q ->
  c2 x <> 0 /\ lowest q /\ RtoC (rval q) = (sval (Surd x d) * sconj (Surd x d))%C.
Proof. exact L_C61_norm. Qed.
Print Assumptions C61_norm.

(** A rational number on the right *)
Theorem C61_ratio : forall t x q z d, c2 x <> 0 -> denom q <> 0 ->
  (sco_add_ratio t x q = Ok z -> c2 z <> 0 /\ sval (Surd z d) = (sval (Surd x d) + RtoC (rval q))%C) /\
  (sco_sub_ratio t x q = Ok z -> c2 z <> 0 /\ sval (Surd z d) = (sval (Surd x d) - RtoC (rval q))%C) /\
  (sco_mul_ratio t x q = Ok z -> c2 z <> 0 /\ sval (Surd z d) = (sval (Surd x d) * RtoC (rval q))%C) /\
  (sco_div_ratio t x q = Ok z -> numer q <> 0 -> c2 z <> 0 /\ sval (Surd z d) = (sval (Surd x d) / RtoC (rval q))%C).
Proof. exact L_C61_ratio. Qed.
Print Assumptions C61_ratio.

(** An integer on the right *)
Theorem C61_int : forall t x k z d, c2 x <> 0 ->
  (sco_add_int t x k = Ok z -> c2 z <> 0 /\ sval (Surd z d) = (sval (Surd x d) + ZtoC k)%C) /\
  (sco_sub_int t x k = Ok z -> c2 z <> 0 /\ sval (Surd z d) = (sval (Surd x d) - ZtoC k)%C) /\
  (sco_mul_int t x k = Ok z -> c2 z <> 0 /\ sval (Surd z d) = (sval (Surd x d) * ZtoC k)%C) /\
  (sco_div_int t x k = Ok z -> k <> 0 -> c2 z <> 0 /\ sval (Surd z d) = (sval (Surd x d) / ZtoC k)%C).
Proof. exact L_C61_int. Qed.
Print Assumptions C61_int.

(** Over BigInt all of them return; norm exactly if the denominator is not 0 *)
Theorem C61_returns : forall x y q k d,
  returns (sco_add BigI x y) /\ returns (sco_sub BigI x y) /\ returns (sco_mul BigI x y d) /\ returns (sco_div BigI x y d) /\ returns (sco_conj BigI x) /\
  returns (sco_add_ratio BigI x q) /\ returns (sco_sub_ratio BigI x q) /\ returns (sco_mul_ratio BigI x q) /\ returns (sco_div_ratio BigI x q) /\
  returns (sco_add_int BigI x k) /\ returns (sco_sub_int BigI x k) /\ returns (sco_mul_int BigI x k) /\ returns (sco_div_int BigI x k) /\
  (returns (sco_norm BigI x d) <-> c2 x <> 0).
Proof. exact L_C61_returns. Qed.
Print Assumptions C61_returns.

(** Over a perfect square the hypothesis on the conjugate is needed: (2 + √4)/1 is 4, its conjugate is 0, and 1 / 4 comes out with denominator 0 *)
Theorem C61_div_square_refuted : exists x y z d, sco_div BigI x y d = Ok z /\ c2 x <> 0 /\ c2 y <> 0 /\ sval (Surd y d) <> RtoC 0 /\ c2 z = 0.
Proof. exact L_C61_div_square_refuted. Qed.
Print Assumptions C61_div_square_refuted.

(** (1 + √5)/2 squared is itself plus one; 1/3 + √2/3 times its conjugate *)
Example C61_case : sco_mul BigI (SCo 1 1 2) (SCo 1 1 2) 5 = Ok (SCo 6 2 4) /\ sco_add_int BigI (SCo 1 1 2) 1 = Ok (SCo 3 1 2) /\
  sco_norm BigI (SCo 1 1 3) 2 = Ok (Ratio (-1) 9) /\ sco_div BigI (SCo 1 0 1) (SCo 1 1 2) 5 = Ok (SCo 2 (-2) (-4)).
Proof. repeat split. Qed.

(** ** C62  Arithmetic on coefficient pairs (QuadraticIntCoeffs) *)

(** Sums, differences and integer multiples, over any root *)
Theorem C62_linear : forall t x y k z d,
  (qco_add t x y = Ok z -> qval (QInt z d) = (qval (QInt x d) + qval (QInt y d))%C) /\
  (qco_sub t x y = Ok z -> qval (QInt z d) = (qval (QInt x d) - qval (QInt y d))%C) /\
  (qco_add_int t x k = Ok z -> qval (QInt z d) = (qval (QInt x d) + ZtoC k)%C) /\
  (qco_sub_int t x k = Ok z -> qval (QInt z d) = (qval (QInt x d) - ZtoC k)%C) /\
  (qco_mul_int t x k = Ok z -> qval (QInt z d) = (qval (QInt x d) * ZtoC k)%C).
Proof. exact L_C62_linear. Qed.
Print Assumptions C62_linear.

(** Product: any root not divisible by 4, square or not *)
Theorem C62_mul : forall t x y z d, qco_mul t x y d = Ok z -> qval (QInt z d) = (qval (QInt x d) * qval (QInt y d))%C.
Proof. exact L_C62_mul. Qed.
Print Assumptions C62_mul.

(** Conjugate and norm, also over the root 0 *)
Theorem C62_conj : forall t x z d, qco_conj t x d = Ok z -> qval (QInt z d) = qconj (QInt x d) /\ qconj (QInt z d) = qval (QInt x d).
Proof. exact L_C62_conj. Qed.
Print Assumptions C62_conj.

Theorem C62_norm : forall t x n d, qco_norm t x d = Ok n -> ZtoC n = (qval (QInt x d) * qconj (QInt x d))%C.
Proof. exact L_C62_norm. Qed.
Print Assumptions C62_norm.

(** Division by an integer rounds both coefficients to the nearest integer; the remainder is what is left *)
Theorem C62_div_int : forall t x k z, qco_div_int t x k = Ok z ->
  k <> 0 /\ isround (IZR (q0 x) / IZR k) (q0 z) /\ isround (IZR (q1 x) / IZR k) (q1 z).
Proof. exact L_C62_div_int. Qed.
Print Assumptions C62_div_int.

Theorem C62_rem_int : forall t x k r, qco_rem_int t x k = Ok r ->
  exists z, qco_div_int BigI x k = Ok z /\ q0 x = q0 z * k + q0 r /\ q1 x = q1 z * k + q1 r /\ 2 * Z.abs (q0 r) <= Z.abs k /\ 2 * Z.abs (q1 r) <= Z.abs k.
Proof. exact L_C62_rem_int. Qed.
Print Assumptions C62_rem_int.

(** Division with remainder: over any root the quotient is the exact one with both coordinates rounded to the nearest integer,
    and remainder = dividend - quotient * divisor *)
Theorem C62_div_rem : forall t x y q r d, qco_div_rem t x y d = Ok (q, r) ->
  (exists n u v : Z, n <> 0 /\ ZtoC n = (qval (QInt y d) * qconj (QInt y d))%C /\
     (qval (QInt x d) / qval (QInt y d))%C = ((ZtoC u + ZtoC v * omega d) / ZtoC n)%C /\
     isround (IZR u / IZR n) (q0 q) /\ isround (IZR v / IZR n) (q1 q)) /\
  qval (QInt r d) = (qval (QInt x d) - qval (QInt q d) * qval (QInt y d))%C.
Proof. exact L_C62_div_rem. Qed.
Print Assumptions C62_div_rem.

Theorem C62_div : forall t x y q d, qco_div t x y d = Ok q -> exists r, qco_div_rem t x y d = Ok (q, r).
Proof. exact L_C62_div. Qed.
Print Assumptions C62_div.

(** Over BigInt: everything returns for roots not divisible by 4, division exactly if the norm of the divisor is not 0 *)
Theorem C62_returns : forall x y k d, d mod 4 <> 0 ->
  returns (qco_add BigI x y) /\ returns (qco_sub BigI x y) /\ returns (qco_add_int BigI x k) /\ returns (qco_sub_int BigI x k) /\ returns (qco_mul_int BigI x k) /\
  returns (qco_mul BigI x y d) /\ returns (qco_conj BigI x d) /\ returns (qco_norm BigI x d) /\
  (k <> 0 -> returns (qco_div_int BigI x k) /\ returns (qco_rem_int BigI x k)) /\
  ((qval (QInt y d) * qconj (QInt y d))%C <> RtoC 0 -> returns (qco_div BigI x y d) /\ returns (qco_div_rem BigI x y d)).
Proof. exact L_C62_returns. Qed.
Print Assumptions C62_returns.

(** Roots divisible by 4 are rejected by a panic, at every integer type; conj and norm accept 0 *)
Theorem C62_mod4 : forall t x y d z w n, d mod 4 = 0 ->
  qco_mul t x y d <> Ok z /\ qco_div t x y d <> Ok z /\ qco_div_rem t x y d <> Ok (z, w) /\ (qco_conj t x d = Ok z -> d = 0) /\ (qco_norm t x d = Ok n -> d = 0).
Proof. exact L_C62_mod4. Qed.
Print Assumptions C62_mod4.

(** Z[(1+√5)/2]: w * w = 1 + w, norm of w is -1; in Z[√2], (5 + 3√2) / (1 + √2) = 1 + 2√2; ties go away from 0 *)
Example C62_case : qco_mul BigI (QCo 0 1) (QCo 0 1) 5 = Ok (QCo 1 1) /\ qco_norm BigI (QCo 0 1) 5 = Ok (-1) /\
  qco_div_rem BigI (QCo 5 3) (QCo 1 1) 2 = Ok (QCo 1 2, QCo 0 0) /\ qco_div_rem BigI (QCo 7 2) (QCo 3 (-1)) (-5) = Ok (QCo 1 1, QCo (-1) 0) /\
  qco_div_int BigI (QCo 5 (-5)) 2 = Ok (QCo 3 (-3)) /\ qco_mul BigI (QCo 1 1) (QCo 1 1) 8 = Panic PUnreachable.
Proof. repeat split. Qed.

(** ** C63  Blocks: the maps behind the iterators *)

(** Reading a coefficient: rmove(a) substitutes a + 1/x for x, gmove(a, b) substitutes (b + 1/x)/a *)
Theorem C63_rmove : forall t k a k' x, block_rmove t k a = Ok k' -> x <> 0%R -> bden k (IZR a + / x) <> 0%R ->
  bden k' x <> 0%R /\ mobius k' x = mobius k (IZR a + / x).
Proof. exact L_C63_rmove. Qed.
Print Assumptions C63_rmove.

Theorem C63_gmove : forall t k a b k' x, block_gmove t k a b = Ok k' -> a <> 0 -> x <> 0%R -> bden k ((IZR b + / x) / IZR a) <> 0%R ->
  bden k' x <> 0%R /\ mobius k' x = mobius k ((IZR b + / x) / IZR a).
Proof. exact L_C63_gmove. Qed.
Print Assumptions C63_gmove.

(** The checked moves: what the plain ones compute, and None instead of an overflow *)
Theorem C63_checked_rmove : forall t k a,
  (forall p q, block_checked_rmove t k a = Some (p, q) <-> block_rmove t k a = Ok (block_update k p q)) /\
  (block_checked_rmove t k a = None <-> block_rmove t k a = Panic POverflow).
Proof. exact L_C63_checked_rmove. Qed.
Print Assumptions C63_checked_rmove.

Theorem C63_checked_gmove : forall t k a b,
  (forall p q k1, block_checked_gmove t k a b = Ok (Some (p, q), k1) -> block_gmove t k a b = Ok (block_update k1 p q)) /\
  (forall k', block_gmove t k a b = Ok k' -> exists p q k1, block_checked_gmove t k a b = Ok (Some (p, q), k1) /\ k' = block_update k1 p q) /\
  (forall k1, block_checked_gmove t k a b = Ok (None, k1) -> k1 = k /\ block_gmove t k a b = Panic POverflow).
Proof. exact L_C63_checked_gmove. Qed.
Print Assumptions C63_checked_gmove.

(** A common integer part i of the two columns: the map is i plus the map of the remainders, and wherever x >= 0 meets denominators of one
    sign the distance to i is below 1 *)
Theorem C63_check_integer : forall t k i r1 r2, block_check_integer t k = Ok (Some (i, r1, r2)) ->
  (forall x, bden k x <> 0%R -> mobius k x = (IZR i + mobius (Block r1 r2 (qm1 k) (qm2 k)) x)%R) /\
  (forall x, (0 <= x)%R -> 0 < qm1 k * qm2 k -> (Rabs (mobius k x - IZR i) < 1)%R).
Proof. exact L_C63_check_integer. Qed.
Print Assumptions C63_check_integer.

(** ... and there is none exactly if a denominator is 0 or the truncated quotients differ *)
Theorem C63_check_integer_none : forall t k, block_check_integer t k = Ok None ->
  qm1 k = 0 \/ qm2 k = 0 \/ Z.quot (pm1 k) (qm1 k) <> Z.quot (pm2 k) (qm2 k).
Proof. exact L_C63_check_integer_none. Qed.
Print Assumptions C63_check_integer_none.

(** reduce_recip(): x |-> i + 1 / new map; reduce_mul(base): new map = base times the fraction *)
Theorem C63_reduce_recip : forall t k i k', block_reduce_recip t k = Ok (Some i, k') ->
  forall x, bden k x <> 0%R -> mobius k x <> IZR i -> bden k' x <> 0%R /\ mobius k x = (IZR i + / mobius k' x)%R.
Proof. exact L_C63_reduce_recip. Qed.
Print Assumptions C63_reduce_recip.

Theorem C63_reduce_mul : forall t k base i k', block_reduce_mul t k base = Ok (Some i, k') ->
  forall x, bden k x <> 0%R -> bden k' x <> 0%R /\ mobius k' x = (IZR base * (mobius k x - IZR i))%R.
Proof. exact L_C63_reduce_mul. Qed.
Print Assumptions C63_reduce_mul.

(** 649/200 = [3; 4, 12, 4] is read back from its coefficients; the last digit pair of 22/7 in base 10 *)
Example C63_case : (let! k := block_rmove BigI block_identity 3 in let! k := block_rmove BigI k 4 in let! k := block_rmove BigI k 12 in block_rmove BigI k 4)
    = Ok (Block 649 159 200 49) /\
  block_check_integer BigI (Block 649 159 200 49) = Ok (Some (3, 49, 12)) /\ block_reduce_recip BigI (Block 649 159 200 49) = Ok (Some 3, Block 200 49 49 12) /\
  block_reduce_mul BigI (Block 22 22 7 7) 10 = Ok (Some 3, Block 10 10 7 7) /\
  block_gmove BigI (Block 2 1 2 1) 4 6 = Ok (Block 8 1 8 1) /\ block_checked_rmove (SInt 8) (Block 127 1 1 0) 1 = None.
Proof. repeat split. Qed.

(** ** C64  Dual blocks: the maps behind bihomo() *)

(** Reading a coefficient of y *)
Theorem C64_rmove_down : forall t k a k' x y, dblock_rmove_down t k a = Ok k' -> y <> 0%R -> dbden k x (IZR a + / y) <> 0%R ->
  dbden k' x y <> 0%R /\ bimobius k' x y = bimobius k x (IZR a + / y).
Proof. exact L_C64_rmove_down. Qed.
Print Assumptions C64_rmove_down.

(** Reading a coefficient of x is wrong: update_right drops the second denominator.  The three other rows are right *)
Theorem C64_rmove_right_partial : forall t k a k' x y, dblock_rmove_right t k a = Ok k' -> x <> 0%R ->
  dbnum k' x y = (x * dbnum k (IZR a + / x) y)%R /\
  (dbden k' x y = x * dbden k (IZR a + / x) y - (IZR (a * qm12 k + qm22 k - qm12 k) * x + IZR (qm12 k - qm22 k)))%R.
Proof. exact L_C64_rmove_right_partial. Qed.
Print Assumptions C64_rmove_right_partial.

(** x/1 with x = 2 + 1/3 read right: the map should be 7/3, the block says 7 *)
Theorem C64_rmove_right_refuted : exists k a k' x y, dblock_rmove_right BigI k a = Ok k' /\ (x > 0)%R /\ (y > 0)%R /\
  dbden k (IZR a + / x) y <> 0%R /\ dbden k' x y <> 0%R /\ bimobius k' x y <> bimobius k (IZR a + / x) y.
Proof. exact L_C64_rmove_right_refuted. Qed.
Print Assumptions C64_rmove_right_refuted.

(** At any width both ways of reading a coefficient succeed exactly when the eight products and sums fit; the denominator that
    update_right drops counts too *)
Theorem C64_rmove_returns : forall t k a,
  (returns (dblock_rmove_right t k a) <-> forall m n, In (m, n) [(pm11 k, pm21 k); (qm11 k, qm21 k); (pm12 k, pm22 k); (qm12 k, qm22 k)] -> fits t (a * m) = true /\ fits t (a * m + n) = true) /\
  (returns (dblock_rmove_down t k a) <-> forall m n, In (m, n) [(pm11 k, pm12 k); (qm11 k, qm12 k); (pm21 k, pm22 k); (qm21 k, qm22 k)] -> fits t (a * m) = true /\ fits t (a * m + n) = true).
Proof. exact L_C64_rmove_returns. Qed.
Print Assumptions C64_rmove_returns.

(** A common integer part of the four columns *)
Theorem C64_check_integer : forall t k i r11 r12 r21 r22, dblock_check_integer t k = Ok (inl (i, (r11, r12, r21, r22))) ->
  forall x y, dbden k x y <> 0%R ->
  bimobius k x y = (IZR i + bimobius (DBlock r11 r12 r21 r22 (qm11 k) (qm12 k) (qm21 k) (qm22 k)) x y)%R.
Proof. exact L_C64_check_integer. Qed.
Print Assumptions C64_check_integer.

Theorem C64_reduce_recip : forall t k i k', dblock_reduce_recip t k = Ok (inl i, k') ->
  forall x y, dbden k x y <> 0%R -> bimobius k x y <> IZR i -> dbden k' x y <> 0%R /\ bimobius k x y = (IZR i + / bimobius k' x y)%R.
Proof. exact L_C64_reduce_recip. Qed.
Print Assumptions C64_reduce_recip.

(** (2xy + 3x + 3y + 4)/(xy + x + y + 1) with y = 1 + 1/z, and one digit of it *)
Example C64_case : dblock_rmove_down BigI (DBlock 2 3 3 4 1 1 1 1) 1 = Ok (DBlock 5 2 7 3 2 1 2 1) /\
  dblock_reduce_recip BigI (DBlock 5 2 7 3 2 1 3 1) = Ok (inr (true, true), DBlock 5 2 7 3 2 1 3 1) /\
  dblock_reduce_recip BigI (DBlock 5 5 7 7 2 2 3 3) = Ok (inl 2, DBlock 2 2 3 3 1 1 1 1).
Proof. repeat split. Qed.
