(** * FmtText: printed texts denote the number (C65). *)

From Coq Require Import ZArith Lia Reals Lra Bool List String Ascii DecimalString DecimalZ DecimalFacts DecimalPos.
From Coquelicot Require Import Coquelicot.
From Verif Require Import Base ModelSurd ModelCF ModelFmt Spec SpecText FmtFacts.
Import ListNotations.
Open Scope string_scope.
Open Scope Z_scope.

Definition shown (z : Z) : list token := if (z <? 0)%Z then [TChar "-"; TNum (- z)] else [TNum z].

Lemma lex_stop n s : nodig s -> lex (Some n) s = TNum n :: lex None s.
Proof.
  destruct s as [|c s]; [reflexivity|]. intros N. cbn [lex].
  assert (D : digit c = None).
  { unfold digit. unfold nodig, isdig in N. destruct (N_of_ascii c) as [|p]; [reflexivity|]. cbn [Z.of_N].
    destruct (48 <=? Z.pos p) eqn:A; [|reflexivity]. destruct (Z.pos p <=? 57) eqn:B; [|reflexivity]. exfalso.
    apply Z.leb_le in A, B. assert ((48 <=? N.pos p)%N = true) by (apply N.leb_le; lia). assert ((N.pos p <=? 57)%N = true) by (apply N.leb_le; lia).
    rewrite H, H0 in N. discriminate. }
  rewrite D. reflexivity.
Qed.
Lemma lex_acc d : forall p s, lex (Some (Z.pos p)) (NilEmpty.string_of_uint d ++ s) = lex (Some (Z.pos (Pos.of_uint_acc d p))) s.
Proof.
  induction d; intros p s; [reflexivity|..]; cbn [NilEmpty.string_of_uint append lex digit N_of_ascii];
  (match goal with |- context[digit ?c] => let v := eval vm_compute in (digit c) in change (digit c) with v end); cbn iota;
  match goal with |- lex (Some ?z) _ = _ => idtac end;
  (match goal with |- lex (Some ?z) _ = lex (Some (Z.pos (Pos.of_uint_acc ?d' p))) _ => idtac end); cbn [Pos.of_uint_acc]; rewrite <- IHd; f_equal; f_equal; lia.
Qed.
Lemma lex_zero d : forall s, lex (Some 0) (NilEmpty.string_of_uint d ++ s) = lex (Some (Z.of_N (Pos.of_uint d))) s.
Proof.
  induction d; intros s; [reflexivity|exact (IHd s)|..]; cbn [NilEmpty.string_of_uint append lex];
  (match goal with |- context[digit ?c] => let v := eval vm_compute in (digit c) in change (digit c) with v end); cbn iota; cbn [Pos.of_uint Z.of_N]; apply lex_acc.
Qed.
Lemma lex_none d s : d <> Decimal.Nil -> lex None (NilEmpty.string_of_uint d ++ s) = lex (Some 0) (NilEmpty.string_of_uint d ++ s).
Proof.
  intros N. destruct d; [congruence|..]; cbn [NilEmpty.string_of_uint append lex]; reflexivity.
Qed.
Lemma lex_pos p s : nodig s -> lex None (show (Z.pos p) ++ s) = TNum (Z.pos p) :: lex None s.
Proof.
  intros N. unfold show. cbn [Z.to_int]. assert (E : NilZero.string_of_int (Decimal.Pos (Pos.to_uint p)) = NilEmpty.string_of_uint (Pos.to_uint p)).
  { unfold NilZero.string_of_int, NilZero.string_of_uint. pose proof (DecimalPos.Unsigned.to_uint_nonnil p). destruct (Pos.to_uint p); [congruence|reflexivity..]. }
  rewrite E, lex_none by apply DecimalPos.Unsigned.to_uint_nonnil. rewrite lex_zero, DecimalPos.Unsigned.of_to. cbn [Z.of_N]. apply lex_stop. auto.
Qed.
Lemma show_neg p : show (Z.neg p) = String "-" (show (Z.pos p)).
Proof.
  unfold show. cbn [Z.to_int]. unfold NilZero.string_of_int, NilZero.string_of_uint. pose proof (DecimalPos.Unsigned.to_uint_nonnil p). destruct (Pos.to_uint p); [congruence|reflexivity..].
Qed.
Lemma lex_show z s : nodig s -> lex None (show z ++ s) = (shown z ++ lex None s)%list.
Proof.
  intros N. destruct z as [|p|p].
  - change (lex (Some 0) s = TNum 0 :: lex None s). apply lex_stop. auto.
  - rewrite lex_pos by auto. reflexivity.
  - rewrite show_neg. change (TChar "-" :: lex None (show (Z.pos p) ++ s) = ([TChar "-"; TNum (Z.pos p)] ++ lex None s)%list). rewrite lex_pos by auto. reflexivity.
Qed.
Lemma lex_show0 z : lex None (show z) = shown z.
Proof. rewrite <- (app_empty (show z)), lex_show by exact I. apply List.app_nil_r. Qed.
Lemma lex_root s : lex None (String "226" (String "136" (String "154" s))) = TRoot :: lex None s.
Proof. reflexivity. Qed.
Lemma shown_neg z : (z < 0) -> shown z = [TChar "-"; TNum (- z)].
Proof. intros H. unfold shown. destruct (Z.ltb_spec z 0); [reflexivity|lia]. Qed.
Lemma shown_pos z : (0 <= z) -> shown z = [TNum z].
Proof. intros H. unfold shown. destruct (Z.ltb_spec z 0); [lia|reflexivity]. Qed.

Lemma csqrt_opp r : 0 < r -> csqrt (- r) = (csqrt r * Ci)%C.
Proof.
  intros H. unfold csqrt. destruct (Z.ltb_spec (- r) 0); [|lia]. destruct (Z.ltb_spec r 0); [lia|]. rewrite Z.opp_involutive.
  unfold Cmult, Ci, RtoC. cbn [fst snd]. apply injective_projections; cbn [fst snd]; ring.
Qed.
Lemma csqrt_1 : csqrt 1 = RtoC 1. Proof. unfold csqrt. cbn. rewrite sqrt_1. reflexivity. Qed.
Lemma ZtoC_opp z : ZtoC (- z) = (- ZtoC z)%C.
Proof. unfold ZtoC. rewrite opp_IZR, RtoC_opp. reflexivity. Qed.
Lemma ZtoC_nz z : z <> 0 -> ZtoC z <> RtoC 0.
Proof. intros H E. apply H. apply eq_IZR. apply (f_equal fst) in E. exact E. Qed.
Lemma ZtoC_0 : ZtoC 0 = RtoC 0. Proof. reflexivity. Qed.
Lemma ZtoC_1 : ZtoC 1 = RtoC 1. Proof. reflexivity. Qed.
Lemma ZtoC_m1 : ZtoC (-1) = (- RtoC 1)%C. Proof. apply (ZtoC_opp 1). Qed.

Ltac lx := repeat first
  [ rewrite lex_show by (reflexivity || exact I || (apply nodig_neg; assumption)) | rewrite lex_show0 | rewrite lex_root
  | match goal with |- context[lex None (String ?c ?s)] => change (lex None (String c s)) with (TChar c :: lex None s) end
  | progress change (lex None "") with (@nil token)
  | progress cbn [String.append] ].
Ltac sgn z := destruct (Z.lt_ge_cases z 0); [rewrite (shown_neg z) by assumption|rewrite (shown_pos z) by assumption].
Ltac ev := cbn [app eval]; unfold addterm, factor; cbn [app eval]; cbv beta iota zeta; rewrite ?Z.opp_involutive, ?ZtoC_opp, ?ZtoC_0, ?ZtoC_1, ?ZtoC_m1.

Lemma plain_reads a b c d : 0 < c -> reads (fmt_plain a b c d) = Some ((ZtoC a + ZtoC b * csqrt d) / ZtoC c)%C.
Proof.
  intros Hc. assert (Nc : ZtoC c <> RtoC 0) by (apply ZtoC_nz; lia). unfold reads, fmt_plain.
  destruct (a =? 0)%Z eqn:Ea, (b =? 0)%Z eqn:Eb; eqs; subst.
  - change (Some (ZtoC 0) = Some ((ZtoC 0 + ZtoC 0 * csqrt d) / ZtoC c)%C). rewrite ZtoC_0. f_equal. field. auto.
  - destruct (b =? 1)%Z eqn:B1, (b =? -1)%Z eqn:B2, (c =? 1)%Z eqn:C1; eqs; subst; lx; try (sgn b); try sgn d; try (rewrite (shown_pos c) by lia); ev. all: try solve [f_equal; field; auto].
  - destruct (c =? 1)%Z eqn:C1; eqs; subst; lx; sgn a; try (rewrite (shown_pos c) by lia); ev; f_equal; field; auto.
  - destruct (b =? 1)%Z eqn:B1, (b =? -1)%Z eqn:B2, (c =? 1)%Z eqn:C1; eqs; subst; try (destruct (b <? 0)%Z eqn:Neg); lx; sgn a; try sgn b; try (exfalso; apply Z.ltb_lt in Neg; lia); try (exfalso; apply Z.ltb_ge in Neg; lia); sgn d; try (rewrite (shown_pos c) by lia); ev; f_equal; field; auto.
Qed.

Lemma complex_reads a b c r : 0 < c -> 0 < r -> reads (fmt_complex a b c r) = Some ((ZtoC a + ZtoC b * csqrt (- r)) / ZtoC c)%C.
Proof.
  intros Hc Hr. assert (Nc : ZtoC c <> RtoC 0) by (apply ZtoC_nz; lia). rewrite csqrt_opp by auto. unfold reads, fmt_complex.
  destruct (a =? 0)%Z eqn:Ea, (b =? 0)%Z eqn:Eb; eqs; subst.
  - change (Some (ZtoC 0) = Some ((ZtoC 0 + ZtoC 0 * (csqrt r * Ci)) / ZtoC c)%C). rewrite ZtoC_0. f_equal. field. auto.
  - destruct (b =? 1)%Z eqn:B1, (b =? -1)%Z eqn:B2, (c =? 1)%Z eqn:C1, (r =? 1)%Z eqn:R1; eqs; subst; lx; try (sgn b); try (rewrite (shown_pos r) by lia); try (rewrite (shown_pos c) by lia); ev; rewrite ?csqrt_1; f_equal; field; auto.
  - destruct (c =? 1)%Z eqn:C1; eqs; subst; lx; sgn a; try (rewrite (shown_pos c) by lia); ev; f_equal; field; auto.
  - destruct (b =? 1)%Z eqn:B1, (b =? -1)%Z eqn:B2, (c =? 1)%Z eqn:C1, (r =? 1)%Z eqn:R1; eqs; subst; try (destruct (b <? 0)%Z eqn:Neg); lx; sgn a; try sgn b;
      try (exfalso; apply Z.ltb_lt in Neg; lia); try (exfalso; apply Z.ltb_ge in Neg; lia); try (rewrite (shown_pos r) by lia); try (rewrite (shown_pos c) by lia); ev; rewrite ?csqrt_1; f_equal; field; auto.
Qed.

Lemma surd_fmt_reads t alt s text : 0 < c2 (coeffs s) -> surd_fmt t alt s = Ok text -> reads text = Some (sval s).
Proof.
  destruct s as [[a b c] d]. cbn [coeffs c2]. intros Hc. unfold surd_fmt, sval, parts. cbn [coeffs c0 c1 c2 discr].
  destruct (alt && (d <? 0)) eqn:E.
  - apply andb_prop in E. destruct E as [_ E]. apply Z.ltb_lt in E. unfold negT, chk. destruct (fits t (- d)); [|discriminate]. cbn [bind].
    intros H. inversion H. rewrite complex_reads; [|auto|lia]. rewrite Z.opp_involutive. reflexivity.
  - intros H. inversion H. apply plain_reads; auto.
Qed.

(** ** Continued fractions *)
Lemma lex_char (c : ascii) s : digit c = None -> c <> "226"%char -> lex None (String c s) = TChar c :: lex None s.
Proof.
  intros D N. cbn [lex]. rewrite D. cbn [flush]. destruct c as [b0 b1 b2 b3 b4 b5 b6 b7]. destruct b0, b1, b2, b3, b4, b5, b6, b7; try reflexivity. exfalso. apply N. reflexivity.
Qed.
Definition sep (l : list Z) : list token := flat_map (fun v => [TChar ","; TChar " "; TNum v]) l.
Lemma lex_rest l s : List.Forall (fun v => 0 <= v) l -> closing s -> lex None (fmt_rest l ++ s) = (sep l ++ lex None s)%list.
Proof.
  intros F C. induction l as [|v l IH]; [reflexivity|]. inversion F as [|? ? Hv Fl]; subst. specialize (IH Fl). cbn [fmt_rest].
  rewrite !app_assoc3. cbn [String.append].
  change (lex None (String "," (String " " (show v ++ fmt_rest l ++ s)))) with (TChar "," :: TChar " " :: lex None (show v ++ fmt_rest l ++ s)).
  rewrite lex_show by (apply rest_nodig; auto). rewrite shown_pos by auto. rewrite IH. reflexivity.
Qed.
Lemma period_sep p : forall v, period (TNum v :: sep p ++ [TChar ")"; TChar "]"])%list = Some (v :: p).
Proof.
  induction p as [|w p IH]; intros v; [reflexivity|]. change (sep (w :: p)) with (TChar "," :: TChar " " :: TNum w :: sep p). cbn [app].
  cbn [period]. specialize (IH w). cbn [period] in IH. rewrite IH. reflexivity.
Qed.
Lemma items_fin l : forall v, items (TNum v :: sep l ++ [TChar "]"])%list = Some (v :: l, nil).
Proof.
  induction l as [|w l IH]; intros v; [reflexivity|]. change (sep (w :: l)) with (TChar "," :: TChar " " :: TNum w :: sep l). cbn [app].
  cbn [items]. specialize (IH w). cbn [items] in IH. rewrite IH. reflexivity.
Qed.
Lemma items_per l p0 p : forall v, items (TNum v :: sep l ++ TChar "," :: TChar " " :: TChar "(" :: TNum p0 :: sep p ++ [TChar ")"; TChar "]"])%list = Some (v :: l, p0 :: p).
Proof.
  induction l as [|w l IH]; intros v.
  - change (sep nil) with (@nil token). cbn [app items]. rewrite period_sep. reflexivity.
  - change (sep (w :: l)) with (TChar "," :: TChar " " :: TNum w :: sep l). cbn [app]. cbn [items]. specialize (IH w). cbn [items] in IH. rewrite IH. reflexivity.
Qed.
Lemma reads_sign (s : bool) l : reads_cf ((if s then "-" else "") ++ String "[" l) = reads_tokens s (TChar "[" :: lex None l).
Proof. destruct s; reflexivity. Qed.
Lemma cf_fmt_reads x text : List.Forall (fun v => 0 <= v) (a_coeffs x ++ p_coeffs x) -> cf_fmt x = Ok text -> reads_cf text = Some x.
Proof.
  destruct x as [a p s]. cbn [a_coeffs p_coeffs]. destruct a as [|a0 rest]; [discriminate|]. intros F. apply List.Forall_app in F. destruct F as [Fa Fp].
  inversion Fa as [|? ? H0 Fr]; subst. rewrite cf_fmt_eq. intros H. inversion H; subst text. cbn [String.append]. rewrite reads_sign. clear H Fa.
  unfold tail_str. destruct rest as [|a1 rest].
  - destruct p as [|p0 p].
    + rewrite lex_show by reflexivity. rewrite shown_pos by auto. reflexivity.
    + inversion Fp as [|? ? Hp Fp']; subst. rewrite lex_show by reflexivity. rewrite shown_pos by auto. cbn [String.append]. rewrite lex_char by (reflexivity || discriminate). rewrite lex_char by (reflexivity || discriminate).
      rewrite lex_char by (reflexivity || discriminate). rewrite lex_show by (apply rest_nodig; exact I). rewrite shown_pos by auto. rewrite lex_rest by (auto || exact I). cbn [app reads_tokens].
      change (lex None ")]") with [TChar ")"; TChar "]"]. cbn [items]. rewrite period_sep. reflexivity.
  - inversion Fr as [|? ? H1 Fr']; subst. destruct p as [|p0 p].
    + rewrite lex_show by reflexivity. rewrite shown_pos by auto. cbn [String.append]. rewrite lex_char by (reflexivity || discriminate). rewrite lex_char by (reflexivity || discriminate).
      rewrite lex_show by (apply rest_nodig; exact I). rewrite shown_pos by auto. rewrite lex_rest by (auto || exact I). cbn [app reads_tokens].
      change (lex None "]") with [TChar "]"]. rewrite items_fin. reflexivity.
    + inversion Fp as [|? ? Hp Fp']; subst. rewrite lex_show by reflexivity. rewrite shown_pos by auto. cbn [String.append]. rewrite lex_char by (reflexivity || discriminate). rewrite lex_char by (reflexivity || discriminate).
      rewrite lex_show by (apply rest_nodig; exact I). rewrite shown_pos by auto. rewrite lex_rest by (auto || exact I). cbn [String.append]. rewrite lex_char by (reflexivity || discriminate). rewrite lex_char by (reflexivity || discriminate).
      rewrite lex_char by (reflexivity || discriminate). rewrite lex_show by (apply rest_nodig; exact I). rewrite shown_pos by auto. rewrite lex_rest by (auto || exact I). cbn [app reads_tokens].
      change (lex None ")]") with [TChar ")"; TChar "]"]. rewrite items_per. reflexivity.
Qed.
