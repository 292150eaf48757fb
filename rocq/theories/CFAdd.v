(** * CFAdd: adding an integer to a continued fraction. *)

From Coq Require Import ZArith Znumtheory Reals Lia Lra Bool List Arith.
From Coquelicot Require Import Coquelicot.
From Verif Require Import Base Ext ModelSurd ModelBlock ModelCF Spec SpecCF NumFacts Transfer SurdCore RatioFacts SurdArith
  CFCore CFSeq CFIter CFBasic CFSurd CFNew.
Import ListNotations.
Open Scope Z_scope.

Lemma cf_val_shift a0 k rest p neg : List.Forall (fun v => 1 <= v) rest -> List.Forall (fun v => 1 <= v) p ->
  cf_val (CF (a0 + k :: rest) p neg) = (cf_val (CF (a0 :: rest) p neg) + IZR (sgnb neg) * IZR k)%R.
Proof.
  intros Fr Fp. destruct p as [|p0 p].
  - unfold cf_val. cbn [a_coeffs p_coeffs negative]. destruct rest as [|v rest]; [cbn [cfl]; rewrite plus_IZR; ring|].
    rewrite !(cfl_cons _ (v :: rest)) by discriminate. rewrite plus_IZR. ring.
  - assert (P : List.Forall (fun v => 0 <= v) rest) by (revert Fr; apply Forall_impl; intros; lia).
    destruct (inf_val_evr (a0 + k :: rest) (p0 :: p) neg ltac:(discriminate) P Fp) as [E1 _].
    destruct (inf_val_evr (a0 :: rest) (p0 :: p) neg ltac:(discriminate) P Fp) as [E2 _].
    rewrite E1, E2. cbn [List.rev]. rewrite !evr_app. cbn [evr]. rewrite plus_IZR. ring.
Qed.

Lemma canonical_head i i' rest p neg : canonical (CF (i :: rest) p neg) -> 0 <= i' ->
  canonical (if cf_is_zero (CF (i' :: rest) p neg) then CF (i' :: rest) p false else CF (i' :: rest) p neg).
Proof.
  intros ((_ & Fr & Fp) & L & _) Hi. cbn [a_coeffs p_coeffs negative] in *.
  assert (K : forall b, (cf_is_zero (CF (i' :: rest) p neg) = true -> b = false) -> canonical (CF (i' :: rest) p b)).
  { intros b Hb. split; [|split]; unfold wfcf; cbn [a_coeffs p_coeffs negative].
    - auto.
    - intros Ep Len. destruct rest as [|v rest]; [cbn in Len; lia|]. specialize (L Ep ltac:(cbn; lia)). exact L.
    - intros Ez Ep. apply Hb. unfold cf_is_zero. cbn [a_coeffs p_coeffs]. inversion Ez; subst. reflexivity. }
  destruct (cf_is_zero (CF (i' :: rest) p neg)) eqn:Z; apply K; auto. congruence.
Qed.
Lemma cf_val_zero_sign x : cf_is_zero x = true -> cf_val (CF (a_coeffs x) (p_coeffs x) false) = cf_val x.
Proof.
  destruct x as [a p neg]. unfold cf_is_zero. cbn [a_coeffs p_coeffs]. destruct a as [|[| |] [|]]; try discriminate. destruct p; [|discriminate]. intros _.
  unfold cf_val. cbn [a_coeffs p_coeffs negative cfl]. ring.
Qed.

Lemma map_signed u l : List.Forall (sfit u) l -> map (to_signed u) l = l.
Proof. induction 1; [reflexivity|]. cbn [map]. rewrite sfit_to_signed, IHForall by auto. reflexivity. Qed.
Lemma sfit_fitl u l : List.Forall (sfit u) l -> fitl (sty u) l.
Proof. apply Forall_impl. intros v H. destruct u as [| |b|b]; cbn in *; try contradiction; [reflexivity|].
  apply andb_true_intro. split; [apply Z.leb_le|apply Z.ltb_lt]; [|lia]. assert (0 <= 2 ^ (b - 1)) by (apply Z.pow_nonneg; lia). lia.
Qed.

Section Add.
Context (g : cfg) (u : ity).
Let t := sty u.

(** the new first coefficient *)
Lemma add_head neg i rhs ni fl : 0 <= i -> fits t rhs = true -> sfit u i ->
  match neg, rhs <? 0 with
  | true, true => let! m := negT t rhs in let! r := to_unsigned t m in let! n := addT u r i in Ok (n, false)
  | true, false => let! r := to_unsigned t rhs in
      if i <? r then let! n := subT u r i in Ok (n, true) else let! n := subT u i r in Ok (n, false)
  | false, true => let! m := negT t rhs in let! r := to_unsigned t m in
      if i <? r then let! n := subT u r i in Ok (n, true) else let! n := subT u i r in Ok (n, false)
  | false, false => let! r := to_unsigned t rhs in let! n := addT u i r in Ok (n, false)
  end = Ok (ni, fl) ->
  0 <= ni /\ (if fl : bool then ni = - (i + sgnb neg * rhs) /\ 0 < ni /\ sfit u ni else ni = i + sgnb neg * rhs).
Proof.
  intros Hi Fr Si. unfold sgnb.
  assert (Sf : forall v, fits t v = true -> 0 <= v -> sfit u v).
  { intros v F H. unfold t in F. destruct u as [| |b|b]; cbn in Si, F |- *; try contradiction; [auto|].
    apply andb_prop in F. destruct F as [_ F]. apply Z.ltb_lt in F. lia. }
  destruct neg; destruct (Z.ltb_spec rhs 0) as [Hr|Hr]; intros H.
  - unfold negT in H. apply chkop_ok in H. destruct H as [H Fm]. destruct (to_unsigned t (- rhs)) as [r| |] eqn:Er; [|discriminate|discriminate].
    apply to_unsigned_ok in Er; [|auto|lia]. subst r. cbn [bind] in H. unfold addT in H. apply chkop_ok in H. destruct H as [H _]. inversion H; subst. lia.
  - destruct (to_unsigned t rhs) as [r| |] eqn:Er; [|discriminate|discriminate]. apply to_unsigned_ok in Er; [|auto|lia]. subst r. cbn [bind] in H.
    destruct (Z.ltb_spec i rhs); unfold subT in H; apply chkop_ok in H; destruct H as [H _]; inversion H; subst; [|lia].
    split; [lia|]. split; [lia|]. split; [lia|]. apply (sfit_mono u rhs); [auto|lia].
  - unfold negT in H. apply chkop_ok in H. destruct H as [H Fm]. destruct (to_unsigned t (- rhs)) as [r| |] eqn:Er; [|discriminate|discriminate].
    apply to_unsigned_ok in Er; [|auto|lia]. subst r. cbn [bind] in H.
    destruct (Z.ltb_spec i (- rhs)); unfold subT in H; apply chkop_ok in H; destruct H as [H _]; inversion H; subst; [|lia].
    split; [lia|]. split; [lia|]. split; [lia|]. apply (sfit_mono u (- rhs)); [apply Sf; [auto|lia]|lia].
  - destruct (to_unsigned t rhs) as [r| |] eqn:Er; [|discriminate|discriminate]. apply to_unsigned_ok in Er; [|auto|lia]. subst r. cbn [bind] in H.
    unfold addT in H. apply chkop_ok in H. destruct H as [H _]. inversion H; subst. lia.
Qed.

Lemma cf_add_int_ok x n y : fits t 1 = true -> canonical x -> coeffs_fit u x -> fits t n = true -> add_int_domain x n ->
  cf_add_int g u x n = Ok y -> canonical y /\ p_coeffs y = p_coeffs x /\ cf_val y = (cf_val x + IZR n)%R.
Proof.
  intros F1 C (Fa & Fp) Fn D H. destruct x as [a p neg]. unfold cf_add_int in H. unfold add_int_domain in D. cbn [a_coeffs p_coeffs negative] in *.
  destruct a as [|i rest]; [discriminate|]. pose proof C as ((Hi & Pr & Pp) & L & _). cbn [a_coeffs p_coeffs negative] in *. inversion Fa as [|? ? Fi Fr]; subst.
  match type of H with bind ?m _ = _ => destruct m as [[ni fl]| |] eqn:Eh; [|discriminate|discriminate] end. cbn [bind] in H.
  apply (add_head neg i n ni fl Hi Fn Fi) in Eh. destruct Eh as [Hni Eh]. 
  assert (Sq : (IZR (sgnb neg) * IZR (sgnb neg) = 1)%R) by (destruct neg; cbn [sgnb]; ring).
  assert (V : forall k, k = sgnb neg * n -> cf_val (CF (i + k :: rest) p neg) = (cf_val (CF (i :: rest) p neg) + IZR n)%R).
  { intros k ->. rewrite cf_val_shift by auto. rewrite mult_IZR, <- Rmult_assoc, Sq. ring. }
  destruct fl.
  - destruct Eh as (En & Hp & Sn). rewrite !map_signed in H by auto. rewrite (sfit_to_signed u ni Sn) in H. unfold negT in H. apply chkop_ok in H. destruct H as [H Fm].
    assert (Pl : plain_coeffs (- ni :: rest) p).
    { split; [auto|]. destruct rest as [|a1 rest].
      - right. destruct D as [D|[[_ D]|(_ & D & _)]]; [lia|auto|congruence].
      - inversion Pr; subst. split; [lia|]. split; [match goal with Hr : List.Forall _ rest |- _ => revert Hr end; apply Forall_impl; intros; lia|].
        split.
        + rewrite Forall_forall in Pr. apply Pr. destruct (exists_last (l := a1 :: rest) ltac:(discriminate)) as (l' & z & El). rewrite El, last_last. apply in_or_app. right. left. auto.
        + right. destruct D as [D|[[D _]|(D & _ & N1)]]; [lia|discriminate|]. split; [lia|]. split; [auto|]. intros ->.
          destruct (Z.eq_dec a1 1); [subst; congruence|lia]. }
    assert (Fl : fitl t (- ni :: rest)) by (constructor; [auto|apply sfit_fitl; auto]).
    destruct (cf_new_ok g t (- ni :: rest) p neg y F1 Fl (sfit_fitl u p Fp) Pl H) as (Cy & Py & Vy).
    split; [auto|]. split; [auto|]. rewrite Vy. replace (- ni) with (i + sgnb neg * n) by lia. apply V. reflexivity.
  - inversion H; subst y. clear H. split; [apply (canonical_head i); auto|]. split; [destruct (cf_is_zero _); reflexivity|].
    assert (E : cf_val (if cf_is_zero (CF (ni :: rest) p neg) then CF (ni :: rest) p false else CF (ni :: rest) p neg) = cf_val (CF (ni :: rest) p neg)).
    { destruct (cf_is_zero (CF (ni :: rest) p neg)) eqn:Z; [|reflexivity]. apply (cf_val_zero_sign _ Z). }
    rewrite E, Eh. apply V. reflexivity.
Qed.

Lemma cf_sub_int_ok x n y : fits t 1 = true -> canonical x -> coeffs_fit u x -> add_int_domain x (- n) ->
  cf_sub_int g u x n = Ok y -> canonical y /\ p_coeffs y = p_coeffs x /\ cf_val y = (cf_val x - IZR n)%R.
Proof.
  intros F1 C Fc D H. unfold cf_sub_int in H. fold t in H. unfold negT in H. apply chkop_ok in H. destruct H as [H Fn].
  destruct (cf_add_int_ok x (- n) y F1 C Fc Fn D H) as (Cy & Py & V). split; [auto|]. split; [auto|]. rewrite V, opp_IZR. ring.
Qed.
End Add.

Lemma add_domain_plain i ni rest p : canonical (CF (i :: rest) p false) -> 0 < ni -> 
  (rest = nil /\ p = nil) \/ (- ni <= -2 /\ rest <> nil /\ rest <> [1]) -> plain_coeffs (- ni :: rest) p.
Proof.
  intros ((Hi & Pr & Pp) & L & _) Hp D. cbn [a_coeffs p_coeffs negative] in *. split; [auto|]. destruct rest as [|a1 rest].
  - right. destruct D as [[_ D]|(_ & D & _)]; [auto|congruence].
  - inversion Pr; subst. split; [lia|]. split; [match goal with Hr : List.Forall _ rest |- _ => revert Hr end; apply Forall_impl; intros; lia|].
    split.
    + rewrite Forall_forall in Pr. apply Pr. destruct (exists_last (l := a1 :: rest) ltac:(discriminate)) as (l' & z & El). rewrite El, last_last. apply in_or_app. right. left. auto.
    + right. destruct D as [[D _]|(D & _ & N1)]; [discriminate|]. split; [lia|]. split; [auto|]. intros ->.
      destruct (Z.eq_dec a1 1); [subst; congruence|lia].
Qed.
Lemma coeffs_fit_big x : wfcf x -> coeffs_fit BigU x.
Proof.
  unfold wfcf, coeffs_fit. destruct (a_coeffs x) as [|a0 rest]; [contradiction|]. intros (H & F & P).
  split; [constructor; [exact H|]; revert F|revert P]; apply Forall_impl; cbn; intros; lia.
Qed.
Lemma cf_add_int_total g x n : canonical x -> add_int_domain x n -> returns (cf_add_int g BigU x n).
Proof.
  intros C D. destruct (coeffs_fit_big x (proj1 C)) as [Fa Fp]. destruct x as [a p neg]. unfold cf_add_int, add_int_domain in *. cbn [a_coeffs p_coeffs negative] in *.
  destruct a as [|i rest]; [contradiction|]. pose proof C as ((Hi & Pr & Pp) & L & _). cbn [a_coeffs p_coeffs negative] in *.
  change (sty BigU) with BigI. inversion Fa as [|? ? Fi Fr]; subst.
  match goal with |- returns (bind ?m _) => assert (R : exists ni fl, m = Ok (ni, fl)) end.
  { cbn [negT chk fits bind to_unsigned].
    destruct neg; destruct (Z.ltb_spec n 0) as [Hr|Hr]; unfold to_unsigned, addT, subT, chk, fits.
    - destruct (Z.ltb_spec (- n) 0); [lia|]. cbn [bind]. destruct (Z.leb_spec 0 (- n + i)); [|lia]. cbn [bind]. eauto.
    - destruct (Z.ltb_spec n 0); [lia|]. cbn [bind]. destruct (Z.ltb_spec i n).
      + destruct (Z.leb_spec 0 (n - i)); [|lia]. cbn [bind]. eauto.
      + destruct (Z.leb_spec 0 (i - n)); [|lia]. cbn [bind]. eauto.
    - destruct (Z.ltb_spec (- n) 0); [lia|]. cbn [bind]. destruct (Z.ltb_spec i (- n)).
      + destruct (Z.leb_spec 0 (- n - i)); [|lia]. cbn [bind]. eauto.
      + destruct (Z.leb_spec 0 (i - - n)); [|lia]. cbn [bind]. eauto.
    - destruct (Z.ltb_spec n 0); [lia|]. cbn [bind]. destruct (Z.leb_spec 0 (i + n)); [|lia]. cbn [bind]. eauto. }
  destruct R as (ni & fl & Eh). rewrite Eh. cbn [bind].
  apply (add_head BigU neg i n ni fl Hi eq_refl Fi) in Eh. destruct Eh as [Hni Eh].
  destruct fl; [|eexists; reflexivity]. destruct Eh as (En & Hp & Sn). cbn [negT chk fits bind]. rewrite !map_signed by auto. rewrite (sfit_to_signed BigU ni Sn).
  apply cf_new_total. apply (add_domain_plain i); [|auto|].
  - split; [|split]; unfold wfcf; cbn [a_coeffs p_coeffs negative]; auto.
  - destruct D as [D|[D|(D & N1)]]; [lia|auto|]. right. split; [lia|auto].
Qed.
