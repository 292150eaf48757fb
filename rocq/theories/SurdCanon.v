(** * SurdCanon: reduced() is a canonical form for surds with a small root. *)

From Coq Require Import ZArith Znumtheory Reals Lia Lra Bool List.
From Coquelicot Require Import Coquelicot.
From Verif Require Import Base Ext ModelSurd Spec SpecLaw Transfer NumFacts SurdCore RatioFacts SurdArith SurdOrd SurdRound SurdTotal SurdMisc SurdConv SurdLaws ClaimsSurd ClaimsLaw.
Import ListNotations.
Open Scope Z_scope.

Lemma sqf_eq r r' m n : m <> 0 -> n <> 0 -> squarefree r -> squarefree r' -> m * m * r = n * n * r' -> r = r'.
Proof.
  intros Hm Hn Q Q' E. set (g := Z.gcd m n). assert (Hg : 0 < g). { assert (0 <= g) by apply Z.gcd_nonneg. assert (g <> 0) by (intros K; apply Z.gcd_eq_0_l in K; contradiction). lia. }
  destruct (Z.gcd_divide_l m n) as [m' Em]. destruct (Z.gcd_divide_r m n) as [n' En]. fold g in Em, En.
  assert (G1 : Z.gcd m' n' = 1). { apply (Z.mul_reg_r _ _ g); [lia|]. rewrite <- Z.gcd_mul_mono_r_nonneg by lia. rewrite <- Em, <- En. fold g. lia. }
  assert (E' : m' * m' * r = n' * n' * r'). { apply (Z.mul_reg_r _ _ (g * g)); [nia|]. rewrite Em, En in E. nia. }
  assert (G2 : Z.gcd (n' * n') (m' * m') = 1). { rewrite Z.gcd_comm. apply Zgcd_1_rel_prime. apply Zgcd_1_rel_prime in G1. apply rel_prime_mult; apply rel_prime_sym; apply rel_prime_mult; apply rel_prime_sym; auto. }
  assert (D1 : (n' * n' | r)) by (apply (Z.gauss _ (m' * m')); [exists r'; lia|auto]).
  assert (D2 : (m' * m' | r')) by (apply (Z.gauss _ (n' * n')); [exists r; lia|rewrite Z.gcd_comm; auto]).
  apply Q in D1. apply Q' in D2. destruct D1 as [->| ->], D2 as [->| ->]; lia.
Qed.

Opaque SMALL_PRIMES reduce_root_primes.
Lemma reduced_root g t fuel s s' : normal g s -> surd_reduced t fuel s = Ok s' -> fr (discr s) s'.
Proof.
  intros N H. pose proof (normal_okc _ _ N) as O. destruct s as [[a b c] r]. unfold surd_reduced in H.
  pose proof small_primes_pos as HP. revert H HP. generalize SMALL_PRIMES. intros ps H HP.
  stepH H. destruct a0 as [b1 r1]. apply reduce_root_primes_ok in E; [|apply HP]. destruct E as ((k & K1 & K2 & K3) & _).
  apply rle_surd_reduce in H. unfold okc in O. cbn [coeffs c2] in O. destruct (surd_reduce_spec a b1 c r1 O) as (s'' & E & V & R).
  unfold new_raw in H. unfold new_raw in E. rewrite H in E. inversion E; subst s''. clear E. cbn [discr].
  apply reduced_fr in R. apply (fr_trans r1); [right; exists k; auto|auto].
Qed.

Lemma square_free_small r : r <> 0 -> Z.abs r < 257 * 257 -> (forall p, prime p -> p < 256 -> p * p <= Z.abs r -> ~ (p * p | r)) -> squarefree r.
Proof.
  intros Hr Hb H k Hk. destruct (Z.eq_dec k 0) as [->|K0]; [destruct Hk as [j Hj]; lia|].
  assert (A : Z.abs k = 1); [|lia]. apply no_prime_1; [lia|]. intros p Hp Dp. pose proof (prime_ge_2 p Hp) as P2.
  assert (D : (p * p | r)).
  { apply (proj1 (Z.divide_abs_r _ _)) in Dp. destruct Dp as [j Hj]. destruct Hk as [i Hi]. exists (i * j * j). rewrite Hi, Hj. ring. }
  assert (L : p * p <= Z.abs r). { apply Z.divide_pos_le; [lia|]. apply Z.divide_abs_r. auto. }
  assert (p <> 256). { intros ->. assert (Dv : (2 | 256)) by (exists 128; reflexivity). apply (prime_divisors 256 Hp) in Dv. lia. }
  apply (H p Hp); [nia|auto|auto].
Qed.

Lemma reduced_squarefree g t fuel s s' : normal g s -> ~ rational_num (sval s) -> Z.abs (discr s) < 257 * 257 -> fits t (Z.abs (discr s)) = true ->
  surd_reduced t fuel s = Ok s' -> squarefree (discr s') /\ discr s' <> 0 /\ normal g s' /\ sval s' = sval s.
Proof.
  intros N I B F H. pose proof (reduced_root g t fuel s s' N H) as R. destruct (surd_reduced_ok g t fuel s s' N H) as (N' & V & S).
  assert (D0 : discr s' <> 0). { intros Z0. apply I. rewrite <- V. apply (normal_is_rational g s' N'). unfold is_rational. rewrite Z0. apply orb_true_r. }
  assert (L : Z.abs (discr s') <= Z.abs (discr s)). { destruct R as [?|(k & Hk & E)]; [contradiction|]. rewrite E, Z.abs_mul. assert (1 <= Z.abs (k * k)) by nia. nia. }
  split; [|auto]. apply square_free_small; [auto|lia|]. intros p Hp Lt Le D. apply D0. apply (S p (small_primes_all p Hp Lt)); [|auto].
  pose proof (prime_ge_2 p Hp). clear - F Le L H0. unfold fits in *. destruct t; [reflexivity|apply Z.leb_le; nia| |].
  - apply andb_true_iff in F. apply andb_true_iff. rewrite !Z.leb_le in *. rewrite ?Z.ltb_lt in *. split; [lia|lia].
  - apply andb_true_iff in F. apply andb_true_iff. rewrite !Z.leb_le in *. rewrite ?Z.ltb_lt in *. split; [lia|lia].
Qed.

Lemma normal_b g s : normal g s -> discr s <> 0 -> c1 (coeffs s) <> 0 /\ c2 (coeffs s) <> 0.
Proof. destruct s as [[a b c] r]. unfold normal, parts. cbn [coeffs c0 c1 c2 discr]. intros (Hc & _ & [[_ ?]|[Hb _]] & _) D; [contradiction|lia]. Qed.
Lemma sqf_root_unique g x y : normal g x -> normal g y -> discr x <> 0 -> discr y <> 0 -> squarefree (discr x) -> squarefree (discr y) ->
  (sval x = sval y \/ sval x = sconj y) -> discr x = discr y.
Proof.
  intros Nx Ny Dx Dy Qx Qy E. destruct (Z.eq_dec (discr x) (discr y)) as [|Ne]; [auto|exfalso; apply Ne].
  destruct (surd_eq_big x y) as [b Eb]. pose proof (L_C08_eq_partial g BigI x y b Nx Ny Eb) as K. assert (b = true) by (apply K; tauto). subst b. clear K.
  destruct (normal_b g x Nx Dx) as [Bx Cx]. destruct (normal_b g y Ny Dy) as [By Cy].
  unfold surd_eq in Eb. destruct (Z.eqb_spec (discr x) (discr y)); [contradiction|]. destruct (Z.eqb_spec (discr x) 0); [contradiction|]. destruct (Z.eqb_spec (discr y) 0); [contradiction|]. cbn [orb] in Eb.
  destruct (coeffs x) as [a b c], (coeffs y) as [a' b' c']. cbn [c1 c2] in *. autorewrite with bigi in Eb. destruct (negb (a * c' =? a' * c)); [discriminate|].
  injection Eb as Eb. apply Z.eqb_eq in Eb. apply (sqf_eq _ _ (b * c') (b' * c)); auto; [apply Z.neq_mul_0; auto|apply Z.neq_mul_0; auto|]. nia.
Qed.

(** ** two numbers *)
Section Two.
Context (g : cfg) (t t' : ity) (f f' : nat) (x y x' y' : surd).
Context (Nx : normal g x) (Ny : normal g y) (Ix : ~ rational_num (sval x)) (Iy : ~ rational_num (sval y)).
Context (Bx : Z.abs (discr x) < 257 * 257) (By : Z.abs (discr y) < 257 * 257) (Fx : fits t (Z.abs (discr x)) = true) (Fy : fits t' (Z.abs (discr y)) = true).
Context (Ex : surd_reduced t f x = Ok x') (Ey : surd_reduced t' f' y = Ok y').

Lemma two : squarefree (discr x') /\ discr x' <> 0 /\ normal g x' /\ sval x' = sval x /\ squarefree (discr y') /\ discr y' <> 0 /\ normal g y' /\ sval y' = sval y.
Proof.
  destruct (reduced_squarefree g t f x x' Nx Ix Bx Fx Ex) as (A1 & A2 & A3 & A4). destruct (reduced_squarefree g t' f' y y' Ny Iy By Fy Ey) as (B1 & B2 & B3 & B4). tauto.
Qed.
Lemma canon : x' = y' <-> sval x = sval y.
Proof.
  destruct two as (A1 & A2 & A3 & A4 & B1 & B2 & B3 & B4). split; [intros E; rewrite <- A4, <- B4, E; reflexivity|].
  intros E. assert (D : discr x' = discr y') by (apply (sqf_root_unique g); auto; left; congruence).
  apply (L_C67_unique g (discr x')); [split; [auto|left; auto]|split; [auto|left; auto]|congruence].
Qed.
Lemma canon_eq u b : surd_eq u x' y' = Ok b -> (b = true <-> sval x = sval y).
Proof.
  intros E. destruct two as (A1 & A2 & A3 & A4 & B1 & B2 & B3 & B4). rewrite <- A4, <- B4. apply (L_C08_eq_same_root g u x' y' b A3 B3 E).
  destruct (Z.eq_dec (discr x') (discr y')) as [|D]; [auto|right]. intros K. apply D. apply (sqf_root_unique g); auto.
Qed.
Lemma canon_field : same_field x y -> discr x' = discr y'.
Proof.
  destruct two as (A1 & A2 & A3 & A4 & B1 & B2 & B3 & B4). intros [?|[?|(m & n & Hm & Hn & E)]]; [contradiction|contradiction|].
  destruct (reduced_root g t f x x' Nx Ex) as [?|(k & Hk & K)]; [contradiction|]. destruct (reduced_root g t' f' y y' Ny Ey) as [?|(j & Hj & J)]; [contradiction|].
  apply (sqf_eq _ _ (m * k) (n * j)); auto; [apply Z.neq_mul_0; lia|apply Z.neq_mul_0; lia|]. rewrite K, J in E. nia.
Qed.
Lemma canon_ops : same_field x y ->
  returns (surd_add g BigI x' y') /\ returns (surd_sub g BigI x' y') /\ returns (surd_mul g BigI x' y') /\ returns (surd_div g BigI x' y').
Proof.
  intros SF. destruct two as (A1 & A2 & A3 & A4 & B1 & B2 & B3 & B4). pose proof (canon_field SF) as D.
  assert (Z0 : forall s, ~ rational_num (sval s) -> sval s <> RtoC 0). { intros s I E. apply I. exists 0, 1. split; [lia|]. rewrite E. unfold ZtoC. rewrite <- RtoC_div by lra. f_equal. field. }
  destruct (L_C67_closed g (discr x') x' y' A1) as ((s1 & S1 & _) & (s2 & S2 & _) & (s3 & S3 & _) & _ & _ & _ & Dv); [split; [auto|left; auto]|split; [auto|left; auto]|].
  destruct Dv as (s4 & S4 & _); [rewrite B4; auto|left; rewrite A4; auto|]. unfold returns. split; [eauto|]. split; [eauto|]. split; eauto.
Qed.
End Two.
