(** * FmtFacts: printed surds and continued fractions can be read back (C39).
    [decode] is only a device of the proof. *)

From Coq Require Import ZArith Lia Bool List String Ascii DecimalString DecimalZ DecimalFacts.
From Verif Require Import Base ModelSurd ModelCF ModelFmt Spec.
Import ListNotations.
Open Scope string_scope.
Open Scope Z_scope.

Lemma app_empty s : s ++ "" = s.
Proof. induction s as [|c s IH]; [reflexivity|]. cbn. rewrite IH. reflexivity. Qed.

Lemma app_assoc3 (a b c : string) : (a ++ b) ++ c = a ++ b ++ c.
Proof. induction a as [|x a IH]; [reflexivity|]. cbn. rewrite IH. reflexivity. Qed.

(** ** Reading a number *)
Definition isdig (c : ascii) : bool := let n := N_of_ascii c in ((48 <=? n) && (n <=? 57))%N.

Fixpoint spand (s : string) : string * string :=
  match s with
  | EmptyString => ("", "")
  | String c s' => if isdig c then let (a, b) := spand s' in (String c a, b) else ("", s)
  end.

Definition nodig (s : string) : Prop := match s with EmptyString => True | String c _ => isdig c = false end.

Fixpoint alld (s : string) : bool := match s with EmptyString => true | String c s => isdig c && alld s end.

Lemma spand_app s1 s2 : alld s1 = true -> nodig s2 -> spand (s1 ++ s2) = (s1, s2).
Proof.
  intros A N. induction s1 as [|c s1 IH].
  - cbn [append]. destruct s2 as [|c s2]; [reflexivity|]. cbn [spand]. cbn [nodig] in N. rewrite N. reflexivity.
  - cbn [append alld] in *. apply andb_prop in A. destruct A as [A1 A2]. cbn [spand]. rewrite A1, (IH A2). reflexivity.
Qed.

Lemma alld_uint d : alld (NilEmpty.string_of_uint d) = true.
Proof. induction d; cbn [NilEmpty.string_of_uint alld]; try rewrite IHd; reflexivity. Qed.

Lemma alld_uint0 d : alld (NilZero.string_of_uint d) = true.
Proof. destruct d; try apply alld_uint. reflexivity. Qed.

Definition minus : ascii := "-"%char.

(** a number and the rest of the text *)
Definition pnum (s : string) : option (Z * string) :=
  let '(pre, rest) :=
    match s with
    | String c s' => if Ascii.eqb c minus then let (a, b) := spand s' in (String c a, b) else spand s
    | EmptyString => spand s
    end in
  match NilZero.int_of_string pre with Some i => Some (Z.of_int i, rest) | None => None end.

Lemma show_back z : NilZero.int_of_string (show z) = Some (Z.to_int z).
Proof.
  unfold show. apply NilZero.isi.
  - intros E. pose proof (f_equal Z.of_int E) as K. rewrite DecimalZ.of_to in K. cbn in K. subst z. discriminate E.
  - intros E. pose proof (f_equal Z.of_int E) as K. rewrite DecimalZ.of_to in K. cbn in K. subst z. discriminate E.
Qed.

Lemma pnum_show z s : nodig s -> pnum (show z ++ s) = Some (z, s).
Proof.
  intros N. unfold pnum.
  assert (E : (match show z ++ s with
    | String c s' => if Ascii.eqb c minus then let (a, b) := spand s' in (String c a, b) else spand (show z ++ s)
    | EmptyString => spand (show z ++ s) end) = (show z, s)).
  { unfold show. destruct (Z.to_int z) as [d|d]; cbn [NilZero.string_of_int].
    - pose proof (alld_uint0 d) as A. rewrite (spand_app _ s A N). destruct (NilZero.string_of_uint d) as [|c r] eqn:Eq.
      + cbn [append]. exfalso. destruct d; discriminate.
      + cbn [append]. destruct (Ascii.eqb c minus) eqn:Ec; [|reflexivity]. apply Ascii.eqb_eq in Ec. subst c. cbn [alld] in A. discriminate.
    - cbn [append]. change (Ascii.eqb "-" minus) with true. cbv iota. rewrite (spand_app _ s (alld_uint0 d) N). reflexivity. }
  rewrite E, show_back, DecimalZ.of_to. reflexivity.
Qed.

Lemma pnum_show0 z : pnum (show z) = Some (z, "").
Proof. rewrite <- (app_empty (show z)). apply pnum_show. exact I. Qed.

Lemma show_app_inj z z' s s' : nodig s -> nodig s' -> show z ++ s = show z' ++ s' -> z = z' /\ s = s'.
Proof. intros N N' E. pose proof (pnum_show z s N) as P. rewrite E, (pnum_show z' s' N') in P. inversion P. auto. Qed.

Lemma show_head z : exists c r, show z = String c r /\ (isdig c = true \/ c = minus).
Proof.
  unfold show. destruct (Z.to_int z) as [d|d]; cbn [NilZero.string_of_int].
  - pose proof (alld_uint0 d) as A. destruct (NilZero.string_of_uint d) as [|c r] eqn:Eq.
    + exfalso. destruct d; discriminate.
    + exists c, r. split; [reflexivity|]. left. cbn [alld] in A. apply andb_prop in A. tauto.
  - eexists _, _. split; [reflexivity|]. right. reflexivity.
Qed.

Lemma show_neq z (c : ascii) s r : isdig c = false -> c <> minus -> show z ++ s <> String c r.
Proof.
  intros D M E. destruct (show_head z) as (x & y & H & K). rewrite H in E. cbn [append] in E. inversion E; subst. destruct K; congruence.
Qed.

Lemma nodig_neg z s : (z <? 0)%Z = true -> nodig (show z ++ s).
Proof. destruct z; try discriminate. reflexivity. Qed.

(** ** Reading a surd *)
Definition skip (c : ascii) (s : string) : string := match s with String x r => if Ascii.eqb x c then r else s | EmptyString => s end.

(** the root: the sign "√" with a number and possibly an "i", or a lone "i" *)
Definition root (s : string) : option (Z * string) :=
  match s with
  | String "226" (String "136" (String "154" r)) =>
    match pnum r with
    | Some (d, String "i" r') => Some (- d, r')
    | Some (d, r') => Some (d, r')
    | None => None
    end
  | String "i" r => Some (-1, r)
  | _ => None
  end.

Definition term (s : string) : option (Z * Z * string) :=
  match pnum s with
  | Some (n, r) => match root r with Some (d, r') => Some (n, d, r') | None => None end
  | None =>
    match s with
    | String "-" r => match root r with Some (d, r') => Some (-1, d, r') | None => None end
    | _ => match root s with Some (d, r') => Some (1, d, r') | None => None end
    end
  end.

Definition body (s : string) : option (Z * Z * Z * string) :=
  match term s with
  | Some (b, d, r) => Some (0, b, d, r)
  | None =>
    match pnum s with
    | Some (a, r) =>
      match term (skip "+" r) with Some (b, d, r') => Some (a, b, d, r') | None => Some (a, 0, 0, r) end
    | None => None
    end
  end.

Definition decode (s : string) : option surd :=
  match body (skip "(" s) with
  | Some (a, b, d, r) =>
    match skip ")" r with
    | EmptyString => Some (Surd (SCo a b 1) d)
    | String "/" r' => match pnum r' with Some (c, _) => Some (Surd (SCo a b c) d) | None => None end
    | _ => None
    end
  | None => None
  end.

Lemma skip_show c z s : isdig c = false -> c <> minus -> skip c (show z ++ s) = show z ++ s.
Proof.
  intros D M. destruct (show_head z) as (x & y & H & K). rewrite H. cbn [append skip]. destruct (Ascii.eqb x c) eqn:E; [|reflexivity].
  apply Ascii.eqb_eq in E. subst. destruct K; congruence.
Qed.

Lemma root_show z s : root (show z ++ s) = None.
Proof.
  destruct (show_head z) as (x & y & H & K). rewrite H. cbn [append]. destruct x as [[] [] [] [] [] [] [] []]; try reflexivity; destruct K; discriminate.
Qed.

Lemma skip_show0 c z : isdig c = false -> c <> minus -> skip c (show z) = show z.
Proof. intros D M. rewrite <- (app_empty (show z)). apply skip_show; auto. Qed.

Lemma pnum_root r : pnum (String "226" (String "136" (String "154" r))) = None. Proof. reflexivity. Qed.
Lemma pnum_mroot r : pnum (String "-" (String "226" (String "136" (String "154" r)))) = None. Proof. reflexivity. Qed.
Lemma pnum_i r : pnum (String "i" r) = None. Proof. reflexivity. Qed.
Lemma pnum_mi r : pnum (String "-" (String "i" r)) = None. Proof. reflexivity. Qed.
Lemma pnum_slash r : pnum (String "/" r) = None. Proof. reflexivity. Qed.
Lemma pnum_paren r : pnum (String ")" r) = None. Proof. reflexivity. Qed.
Lemma pnum_empty : pnum "" = None. Proof. reflexivity. Qed.

Opaque show pnum.

Ltac rd :=
  repeat first
    [ progress cbn [append skip Ascii.eqb Bool.eqb andb]
    | rewrite pnum_show by (reflexivity || exact I || (apply nodig_neg; assumption))
    | rewrite root_show | rewrite pnum_show0 | rewrite pnum_root | rewrite pnum_mroot | rewrite pnum_i | rewrite pnum_mi
    | rewrite pnum_slash | rewrite pnum_paren | rewrite pnum_empty
    | rewrite skip_show by (reflexivity || discriminate)
    | rewrite skip_show0 by (reflexivity || discriminate)
    | progress unfold decode | progress unfold body | progress unfold term | progress unfold root ].

Ltac eqs := repeat match goal with
  | H : (_ =? _)%Z = true |- _ => apply Z.eqb_eq in H
  | H : (_ =? _)%Z = false |- _ => apply Z.eqb_neq in H end.

Lemma plain_back a b c d : 0 < c -> Z.gcd (Z.gcd a b) c = 1 -> (b = 0 /\ d = 0) \/ b <> 0 ->
  decode (fmt_plain a b c d) = Some (Surd (SCo a b c) d).
Proof.
  intros Hc G Hb. unfold fmt_plain.
  destruct (a =? 0)%Z eqn:Ea, (b =? 0)%Z eqn:Eb; eqs; subst.
  - assert (c = 1) by (cbn in G; lia). destruct Hb as [[_ ->]|Hb]; [|congruence]. subst. reflexivity.
  - clear G Hb. destruct (b =? 1)%Z eqn:B1, (b =? -1)%Z eqn:B2, (c =? 1)%Z eqn:C1; eqs; subst; rd; try reflexivity.
  - destruct Hb as [[_ ->]|Hb]; [|congruence]. clear G. destruct (c =? 1)%Z eqn:C1; eqs; subst; rd; try reflexivity.
  - clear G Hb. destruct (b =? 1)%Z eqn:B1, (b =? -1)%Z eqn:B2, (c =? 1)%Z eqn:C1; eqs; subst; try (destruct (b <? 0)%Z eqn:Neg); rd; try reflexivity.
Qed.

Lemma complex_back a b c r : 0 < c -> Z.gcd (Z.gcd a b) c = 1 -> b <> 0 ->
  decode (fmt_complex a b c r) = Some (Surd (SCo a b c) (- r)).
Proof.
  intros Hc G Hb. unfold fmt_complex. destruct (b =? 0)%Z eqn:Eb; eqs; [congruence|]. clear G Hb Hc.
  destruct (a =? 0)%Z eqn:Ea, (r =? 1)%Z eqn:R1; eqs; subst;
    destruct (b =? 1)%Z eqn:B1, (b =? -1)%Z eqn:B2, (c =? 1)%Z eqn:C1; eqs; subst; try (destruct (b <? 0)%Z eqn:Neg); rd; try reflexivity.
Qed.

Lemma surd_fmt_back g t alt s str : normal g s -> surd_fmt t alt s = Ok str -> decode str = Some s.
Proof.
  destruct s as [[a b c] d]. unfold normal, parts. cbn [coeffs c0 c1 c2 discr]. intros (Hc & G & Hb & _). unfold surd_fmt.
  destruct (alt && (d <? 0)) eqn:E.
  - apply andb_prop in E. destruct E as [_ E]. apply Z.ltb_lt in E. unfold negT, chk. destruct (fits t (- d)); [|discriminate]. cbn [bind].
    intros H. inversion H. rewrite complex_back; [|auto|auto|lia]. do 2 f_equal. lia.
  - intros H. inversion H. apply plain_back; auto. tauto.
Qed.

(** ** Continued fractions *)
Definition closing (s : string) : Prop := match s with String "]" _ => True | String ")" _ => True | String "," (String " " (String "(" _)) => True | _ => False end.

Lemma closing_nodig s : closing s -> nodig s.
Proof. destruct s as [|c s]; [contradiction|]. cbn. destruct c as [[] [] [] [] [] [] [] []]; try contradiction; reflexivity. Qed.

Lemma rest_nodig l s : closing s -> nodig (fmt_rest l ++ s).
Proof. intros C. destruct l as [|v l]; [apply closing_nodig; auto|reflexivity]. Qed.

Lemma rest_inj l : forall l' s s', closing s -> closing s' -> fmt_rest l ++ s = fmt_rest l' ++ s' -> l = l' /\ s = s'.
Proof.
  induction l as [|v l IH]; intros [|v' l'] s s' C C' E; cbn [fmt_rest append] in E.
  - auto.
  - exfalso. subst s. cbn [closing] in C. rewrite !app_assoc3 in C. destruct (show_head v') as (c & r & H & K). rewrite H in C. cbn in C.
    destruct c as [[] [] [] [] [] [] [] []]; try contradiction. destruct K; discriminate.
  - exfalso. subst s'. cbn [closing] in C'. rewrite !app_assoc3 in C'. destruct (show_head v) as (c & r & H & K). rewrite H in C'. cbn in C'.
    destruct c as [[] [] [] [] [] [] [] []]; try contradiction. destruct K; discriminate.
  - injection E as E. rewrite !app_assoc3 in E. apply show_app_inj in E; [|apply rest_nodig; auto|apply rest_nodig; auto].
    destruct E as [-> E]. destruct (IH _ _ _ C C' E) as [-> ->]. auto.
Qed.

(** the part after the first coefficient *)
Definition tail_str (rest ps : list Z) : string :=
  match rest, ps with
  | nil, nil => "]"
  | nil, p0 :: ps => "; (" ++ show p0 ++ fmt_rest ps ++ ")]"
  | a1 :: rest, nil => "; " ++ show a1 ++ fmt_rest rest ++ "]"
  | a1 :: rest, p0 :: ps => "; " ++ show a1 ++ fmt_rest rest ++ ", (" ++ show p0 ++ fmt_rest ps ++ ")]"
  end.

Lemma cf_fmt_eq a0 rest ps s : cf_fmt (CF (a0 :: rest) ps s) = Ok ((if s then "-" else "") ++ "[" ++ show a0 ++ tail_str rest ps).
Proof. unfold cf_fmt. cbn [a_coeffs p_coeffs negative]. destruct rest, ps; reflexivity. Qed.

Lemma paren_inj p ps p' ps' : show p ++ fmt_rest ps ++ ")]" = show p' ++ fmt_rest ps' ++ ")]" -> p :: ps = p' :: ps'.
Proof.
  intros E. apply show_app_inj in E; [|apply rest_nodig; exact I|apply rest_nodig; exact I]. destruct E as [-> E].
  apply rest_inj in E; [|exact I|exact I]. destruct E as [-> _]. reflexivity.
Qed.

Lemma tail_inj r p r' p' : tail_str r p = tail_str r' p' -> r = r' /\ p = p'.
Proof.
  destruct r as [|a1 r], p as [|p0 p], r' as [|b1 r'], p' as [|q0 p']; cbn [tail_str append]; intros E; try discriminate E; auto.
  - injection E as E. split; [auto|]. apply paren_inj. auto.
  - injection E as E. exfalso. symmetry in E. revert E. apply show_neq; [reflexivity|discriminate].
  - injection E as E. exfalso. symmetry in E. revert E. apply show_neq; [reflexivity|discriminate].
  - injection E as E. exfalso. revert E. apply show_neq; [reflexivity|discriminate].
  - injection E as E. apply show_app_inj in E; [|apply rest_nodig; exact I|apply rest_nodig; exact I]. destruct E as [-> E].
    apply rest_inj in E; [|exact I|exact I]. destruct E as [-> _]. auto.
  - injection E as E. apply show_app_inj in E; [|apply rest_nodig; exact I|apply rest_nodig; exact I]. destruct E as [-> E].
    apply rest_inj in E; [|exact I|exact I]. destruct E as [_ E]. discriminate.
  - injection E as E. exfalso. revert E. apply show_neq; [reflexivity|discriminate].
  - injection E as E. apply show_app_inj in E; [|apply rest_nodig; exact I|apply rest_nodig; exact I]. destruct E as [-> E].
    apply rest_inj in E; [|exact I|exact I]. destruct E as [_ E]. discriminate.
  - injection E as E. apply show_app_inj in E; [|apply rest_nodig; exact I|apply rest_nodig; exact I]. destruct E as [-> E].
    apply rest_inj in E; [|exact I|exact I]. destruct E as [-> E]. injection E as E. split; [auto|]. apply paren_inj. auto.
Qed.

Lemma cf_fmt_inj x y str : cf_fmt x = Ok str -> cf_fmt y = Ok str -> x = y.
Proof.
  destruct x as [[|a0 a] p s]; [discriminate|]. destruct y as [[|b0 b] q s']; [discriminate|]. rewrite !cf_fmt_eq. intros E E'.
  rewrite <- E' in E. injection E as E.
  assert (K : s = s' /\ show a0 ++ tail_str a p = show b0 ++ tail_str b q).
  { destruct s, s'; cbn [append] in E; try discriminate; injection E as E; auto. }
  destruct K as [-> K]. apply show_app_inj in K.
  - destruct K as [-> K]. apply tail_inj in K. destruct K as [-> ->]. reflexivity.
  - destruct a, p; reflexivity.
  - destruct b, q; reflexivity.
Qed.
