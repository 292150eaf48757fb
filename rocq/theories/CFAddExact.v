(** * CFAddExact: adding an integer to a continued fraction, when the sign changes. *)

From Coq Require Import ZArith Reals Lia Lra Bool List Arith.
From Coquelicot Require Import Coquelicot.
From Verif Require Import Base Ext ModelBlock ModelCF Spec SpecCF NumFacts Transfer SurdCore RatioFacts SurdArith CFCore CFSeq CFIter CFBasic CFSurd CFNew CFAdd.
Import ListNotations.
Open Scope Z_scope.

(** the sign that [new] gives to a list that starts with [-k], [k] positive, and goes on positive *)
Definition nsign (k : Z) (b : bool) : bool := if k =? 1 then false else negb b.

Section Neg.
Context (g : cfg) (t : ity).

Lemma neg_first b k st : 1 <= k -> new_step g t (NSt b None nil) (- k) = Ok st -> st = NSt true (Some (negb b)) [k].
Proof.
  intros Hk E. unfold new_step in E. destruct b.
  - destruct (lift2 (subT t) (Ok 0) (Ok (- k))) as [m| |] eqn:Em; [|discriminate|discriminate]. cbn [bind] in E. apply lift_sub in Em.
    destruct (Z.ltb_spec m 0); [lia|]. destruct (Z.eqb_spec m 0); [lia|]. assert (Mk : m = k) by lia. rewrite Mk in E. inversion E. reflexivity.
  - cbn [bind] in E. destruct (Z.ltb_spec (- k) 0); [|lia].
    destruct (lift2 (subT t) (Ok 0) (Ok (- k))) as [m| |] eqn:Em; [|discriminate|discriminate]. cbn [bind] in E. apply lift_sub in Em.
    assert (Mk : m = k) by lia. rewrite Mk in E. inversion E. reflexivity.
Qed.

Lemma neg_start b k a1 st : 1 <= k -> 1 <= a1 -> new_loop g t (NSt b None nil) [- k; a1] = Ok st ->
  st = NSt false (Some (nsign k b)) [a1 - 1; 1; k - 1].
Proof.
  intros Hk H1 H. cbn [new_loop] in H. destruct (new_step g t (NSt b None nil) (- k)) as [st1| |] eqn:E; [|discriminate|discriminate]. cbn [bind] in H.
  apply neg_first in E; [|auto]. subst st1. destruct (new_step g t (NSt true (Some (negb b)) [k]) a1) as [st1| |] eqn:E; [|discriminate|discriminate].
  cbn [bind] in H. assert (Es : st1 = st) by congruence. subst st1. clear H. unfold new_step in E.
  destruct (lift2 (subT t) (Ok 0) (Ok a1)) as [m| |] eqn:Em; [|discriminate|discriminate]. cbn [bind] in E. apply lift_sub in Em.
  destruct (Z.eqb_spec m 0); [lia|]. destruct (Z.ltb_spec m 0); [|lia]. cbn [new_absorb] in E.
  destruct (dassert g (0 <=? k)); [|discriminate|discriminate]. cbn [bind] in E. unfold nsign.
  destruct (Z.eqb_spec k 1) as [K1|K1].
  - destruct (lift2 (subT t) (lift2 (subT t) (Ok 0) (Ok m)) (Ok 1)) as [x| |] eqn:Ex; [|discriminate|discriminate]. cbn [bind] in E. apply lift_sub2 in Ex.
    assert (Ex' : x = a1 - 1) by lia. rewrite Ex' in E. subst k. inversion E. reflexivity.
  - destruct (Z.eqb_spec k 0); [lia|]. destruct (dassert g (1 <? k)); [|discriminate|discriminate]. cbn [bind] in E.
    destruct (lift2 (subT t) (Ok k) (Ok 1)) as [y| |] eqn:Ey; [|discriminate|discriminate]. cbn [bind] in E. apply lift_sub in Ey.
    destruct (lift2 (subT t) (lift2 (subT t) (Ok 0) (Ok m)) (Ok 1)) as [x| |] eqn:Ex; [|discriminate|discriminate]. cbn [bind] in E. apply lift_sub2 in Ex.
    assert (Ex' : x = a1 - 1) by lia. rewrite Ex', Ey in E. inversion E. reflexivity.
Qed.

Lemma mirror k a1 w : 1 <= a1 -> (0 < w)%R -> evr [a1 - 1; 1; k - 1] w = (- evr [a1; (- k)%Z] w)%R.
Proof.
  intros H1 W. cbn [evr]. rewrite !minus_IZR, opp_IZR. assert (Hi : (0 < / w)%R) by (apply Rinv_0_lt_compat; auto). apply IZR_le in H1.
  set (iw := (/ w)%R) in *. clearbody iw. field. split; lra.
Qed.

Lemma decided_start s k a1 : 1 <= k -> 1 <= a1 -> decided s (NSt false (Some s) [a1 - 1; 1; k - 1]) [a1 - 1; 1; k - 1].
Proof.
  intros Hk H1. exists [a1 - 1; 1; k - 1]. split; [auto|]. split.
  - cbn. split; [lia|]. right. split; [lia|]. intros _. lia.
  - split; [intros v Ev; discriminate|]. split; [intros w W; reflexivity|]. intros Hx. exists (a1 - 1), [1; k - 1]. auto.
Qed.

(** Everything but the list [-k; 1] before a period *)
Lemma cf_new_neg b k a1 l p y : fits t 1 = true -> fitl t (- k :: a1 :: l) -> fitl t p -> 1 <= k -> 1 <= a1 -> List.Forall (fun v => 1 <= v) l ->
  List.Forall (fun v => 1 <= v) p -> (l = nil -> 2 <= a1) -> cf_new g t (- k :: a1 :: l) p b = Ok y ->
  canonical y /\ p_coeffs y = p /\ cf_val y = (IZR (sgnb (nsign k b)) * - (IZR (sgnb b) * cf_val (CF (- k :: a1 :: l)%Z p b)))%R.
Proof.
  intros F1 Fa Fp Hk H1 Pl Pp N1 H. set (s := nsign k b).
  destruct (new_loop_ok _ _ _ _ _ _ H ltac:(discriminate)) as [st Hst].
  pose proof (loop_fit g t _ _ _ Hst F1 Fa ltac:(constructor)) as Fst.
  assert (Pl0 : List.Forall (fun v => 0 <= v) l) by (revert Pl; apply Forall_impl; intros; lia).
  assert (D : decided s st (List.rev l ++ [a1 - 1; 1; k - 1])).
  { pose proof Hst as Hs. change (- k :: a1 :: l) with ([- k; a1] ++ l) in Hs. rewrite new_loop_app in Hs.
    destruct (new_loop g t (NSt b None nil) [- k; a1]) as [st1| |] eqn:E1; [|discriminate|discriminate]. cbn [bind] in Hs.
    apply neg_start in E1; [|auto|auto]. subst st1. fold s in Hs. apply (loop_decided g t l s _ _ st (decided_start s k a1 Hk H1) Pl0 Hs). }
  assert (Sq : (IZR (sgnb b) * IZR (sgnb b) = 1)%R) by (destruct b; cbn [sgnb]; ring).
  (* the last coefficient *)
  assert (M : exists z M' l' z0, List.rev l ++ [a1 - 1; 1; k - 1] = z :: M' /\ 1 <= z /\ - k :: a1 :: l = l' ++ [z0] /\ evr M' (IZR z) = (- evr (List.rev l') (IZR z0))%R).
  { destruct l as [|l0 l].
    - exists (a1 - 1), [1; k - 1], [- k], a1. specialize (N1 eq_refl). split; [reflexivity|]. split; [lia|]. split; [reflexivity|].
      cbn [List.rev app evr]. rewrite !minus_IZR, opp_IZR. apply IZR_le in N1. field. split; lra.
    - destruct (exists_last (l := l0 :: l) ltac:(discriminate)) as (l2 & z & El). rewrite El in *. apply Forall_app in Pl. destruct Pl as [Pl2 Pz]. assert (Hz : 1 <= z) by (inversion Pz; auto).
      exists z, (List.rev l2 ++ [a1 - 1; 1; k - 1]), (- k :: a1 :: l2), z. split; [rewrite rev_app_distr; reflexivity|]. split; [auto|]. split; [reflexivity|].
      assert (Pz' : (0 < IZR z)%R) by (apply IZR_lt; lia). cbn [List.rev]. rewrite <- app_assoc. cbn [app]. rewrite !evr_app. apply mirror; [auto|]. apply evr_pos; [|auto].
      apply Forall_rev. revert Pl2. apply Forall_impl. intros; lia. }
  destruct M as (z & M' & l' & z0 & EM & Hz & El' & Ve). rewrite EM in D. destruct (decided_end _ _ _ _ D Hz) as (v & r & -> & W & V & E1 & E2).
  cbn [s_rev] in Fst.
  destruct (finish_ok g t (- k :: a1 :: l) p b _ v r s y ltac:(discriminate) Hst eq_refl (or_introl eq_refl) W (fun _ => V) Pp Fst Fp H) as (C & P & Vy).
  split; [auto|]. split; [auto|]. rewrite Vy. f_equal. destruct p as [|p0 p].
  - rewrite E1, Ve. unfold cf_val. cbn [a_coeffs p_coeffs negative]. rewrite El', cfl_evr, <- Rmult_assoc, Sq. ring.
  - destruct (inf_val_evr (- k :: a1 :: l) (p0 :: p) b ltac:(discriminate)) as [Ei L]; [constructor; [lia|auto]|auto|].
    rewrite Ei, <- Rmult_assoc, Sq, Rmult_1_l. rewrite E2 by lra. rewrite <- EM. cbn [List.rev]. rewrite <- app_assoc. cbn [app]. rewrite !evr_app.
    apply mirror; [auto|]. apply evr_pos; [apply Forall_rev; auto|lra].
Qed.

(** [-k; 1] before a period: a zero is left before the period *)
Lemma cf_new_neg1 b k p y : fits t 1 = true -> fitl t [- k; 1] -> fitl t p -> 1 <= k -> List.Forall (fun v => 1 <= v) p -> p <> nil -> cf_new g t [- k; 1] p b = Ok y ->
  y = CF [k - 1; 1; 0] p (nsign k b).
Proof.
  intros F1 Fa Fp Hk Pp Np H. destruct (new_loop_ok _ _ _ _ _ _ H ltac:(discriminate)) as [st Hst].
  pose proof (loop_fit g t _ _ _ Hst F1 Fa ltac:(constructor)) as Fst. unfold cf_new in H. rewrite Hst in H. destruct p as [|p0 p]; [congruence|].
  apply neg_start in Hst; [|auto|lia]. subst st. cbn [bind s_rev s_negative new_finish List.rev app] in H. cbn [s_rev] in Fst. change (1 - 1) with 0 in *.
  destruct (mapM (to_unsigned t) [k - 1; 1; 0]) as [ws| |] eqn:Em; [|discriminate|discriminate].
  apply mapM_unsigned in Em; [|apply Forall_rev in Fst; exact Fst|repeat constructor; lia]. subst ws. cbn [bind] in H.
  destruct (mapM (to_unsigned t) (p0 :: p)) as [ws| |] eqn:Em; [|discriminate|discriminate].
  apply mapM_unsigned in Em; [|auto|revert Pp; apply Forall_impl; intros; lia]. subst ws. cbn [bind] in H. congruence.
Qed.

(** [-k] alone before a period *)
Lemma cf_new_neg0 b k p y : fits t 1 = true -> fitl t [- k] -> fitl t p -> 1 <= k -> List.Forall (fun v => 1 <= v) p -> p <> nil -> cf_new g t [- k] p b = Ok y ->
  y = CF [k] p (negb b).
Proof.
  intros F1 Fa Fp Hk Pp Np H. destruct (new_loop_ok _ _ _ _ _ _ H ltac:(discriminate)) as [st Hst].
  pose proof (loop_fit g t _ _ _ Hst F1 Fa ltac:(constructor)) as Fst. unfold cf_new in H. rewrite Hst in H. destruct p as [|p0 p]; [congruence|].
  cbn [new_loop] in Hst. destruct (new_step g t (NSt b None nil) (- k)) as [st1| |] eqn:E; [|discriminate|discriminate]. cbn [bind] in Hst.
  apply neg_first in E; [|auto]. assert (Es : st = st1) by congruence. subst st st1. cbn [bind s_rev s_negative new_finish List.rev app] in H. cbn [s_rev] in Fst.
  destruct (mapM (to_unsigned t) [k]) as [ws| |] eqn:Em; [|discriminate|discriminate].
  apply mapM_unsigned in Em; [|exact Fst|repeat constructor; lia]. subst ws. cbn [bind] in H.
  destruct (mapM (to_unsigned t) (p0 :: p)) as [ws| |] eqn:Em; [|discriminate|discriminate].
  apply mapM_unsigned in Em; [|auto|revert Pp; apply Forall_impl; intros; lia]. subst ws. cbn [bind] in H. congruence.
Qed.
End Neg.

(** ** It always returns over arbitrary precision *)
Lemma neg_first_total g b k : 1 <= k -> exists st, new_step g BigI (NSt b None nil) (- k) = Ok st.
Proof.
  intros Hk. unfold new_step. destruct b; cbn [lift2 subT chk fits bind].
  - destruct (Z.ltb_spec (0 - - k) 0); [lia|]. eexists; reflexivity.
  - destruct (Z.ltb_spec (- k) 0); [|lia]. cbn [lift2 subT chk fits bind]. eexists; reflexivity.
Qed.
Lemma neg_start_total g b k a1 : 1 <= k -> 1 <= a1 -> exists st, new_loop g BigI (NSt b None nil) [- k; a1] = Ok st.
Proof.
  intros Hk H1. cbn [new_loop]. destruct (neg_first_total g b k Hk) as [st E]. rewrite E. cbn [bind]. apply neg_first in E; [|auto]. subst st.
  unfold new_step. cbn [lift2 subT chk fits bind]. destruct (Z.eqb_spec (0 - a1) 0); [lia|]. destruct (Z.ltb_spec (0 - a1) 0); [|lia].
  cbn [new_absorb]. unfold dassert. destruct (Z.leb_spec 0 k); [|lia]. destruct (Z.ltb_spec 1 k), (Z.eqb_spec k 1), (Z.eqb_spec k 0); try lia;
  destruct (dbg g); eexists; reflexivity.
Qed.

Lemma cf_new_neg_total g b k rest p : 1 <= k -> List.Forall (fun v => 1 <= v) rest -> List.Forall (fun v => 1 <= v) p ->
  (p = nil -> rest <> [1]) -> returns (cf_new g BigI (- k :: rest) p b).
Proof.
  intros Hk Pr Pp N. destruct rest as [|a1 l].
  - destruct (neg_first_total g b k Hk) as [st E]. pose proof (neg_first _ _ _ _ _ Hk E) as Es. subst st.
    eapply finish_total; [discriminate|cbn [new_loop]; rewrite E; reflexivity|reflexivity|cbn; lia|congruence|auto].
  - inversion Pr as [|? ? H1 Pl]; subst. destruct (neg_start_total g b k a1 Hk H1) as [st1 E1]. pose proof (neg_start _ _ _ _ _ _ Hk H1 E1) as Es. subst st1.
    assert (Pl0 : List.Forall (fun v => 0 <= v) l) by (revert Pl; apply Forall_impl; intros; lia).
    set (s := nsign k b) in *. pose proof (decided_start s k a1 Hk H1) as D0. destruct (loop_decided_total g l s _ _ D0 Pl0) as [st Est].
    assert (Ea : new_loop g BigI (NSt b None nil) (- k :: a1 :: l) = Ok st).
    { change (- k :: a1 :: l) with ([- k; a1] ++ l). rewrite new_loop_app, E1. exact Est. }
    pose proof (loop_decided g BigI l s _ _ st D0 Pl0 Est) as D. destruct l as [|l0 l].
    + cbn in Est. assert (Es : st = NSt false (Some s) [a1 - 1; 1; k - 1]) by congruence. clear Est. subst st. destruct (Z.eq_dec a1 1) as [->|Na].
      * destruct p as [|p0 p]; [destruct (N eq_refl); reflexivity|]. unfold cf_new. rewrite Ea. cbn [bind s_rev s_negative new_finish List.rev app]. rewrite !mapM_total.
        -- eexists; reflexivity.
        -- revert Pp; apply Forall_impl; intros; lia.
        -- repeat constructor; lia.
      * eapply (finish_total g [- k; a1] p b _ (a1 - 1) [1; k - 1]); [discriminate|exact Ea|reflexivity|cbn; lia|intros; lia|auto].
    + destruct (exists_last (l := l0 :: l) ltac:(discriminate)) as (l2 & z & El). rewrite El in *. apply Forall_app in Pl. destruct Pl as [_ Pz]. assert (Hz : 1 <= z) by (inversion Pz; auto).
      rewrite rev_app_distr in D. cbn [List.rev app] in D. destruct (decided_end _ _ _ _ D Hz) as (v & r & -> & W & V & _).
      eapply finish_total; [discriminate|exact Ea|reflexivity|auto|auto|auto].
Qed.

Lemma cf_add_int_returns g x n : canonical x -> returns (cf_add_int g BigU x n).
Proof.
  intros C. destruct (coeffs_fit_big x (proj1 C)) as [Fa Fp]. destruct x as [a p neg]. unfold cf_add_int. cbn [a_coeffs p_coeffs negative] in *.
  pose proof C as (W0 & L & _). unfold wfcf in W0. cbn [a_coeffs p_coeffs negative] in *. destruct a as [|i rest]; [contradiction|]. destruct W0 as (Hi & Pr & Pp).
  change (sty BigU) with BigI. inversion Fa as [|? ? Fi Fr]; subst.
  match goal with |- returns (bind ?m _) => assert (R : exists ni fl, m = Ok (ni, fl)) end.
  { cbn [negT chk fits bind to_unsigned].
    destruct neg; destruct (Z.ltb_spec n 0) as [Hr|Hr]; unfold to_unsigned, addT, subT, chk, fits.
    - destruct (Z.ltb_spec (- n) 0); [lia|]. cbn [bind]. destruct (Z.leb_spec 0 (- n + i)); [|lia]. cbn [bind]. eauto.
    - destruct (Z.ltb_spec n 0); [lia|]. cbn [bind]. destruct (Z.ltb_spec i n).
      + destruct (Z.leb_spec 0 (n - i)); [|lia]. cbn [bind]. eauto.
      + destruct (Z.leb_spec 0 (i - n)); [|lia]. cbn [bind]. eauto.
    - destruct (Z.ltb_spec (- n) 0); [lia|]. cbn [bind]. destruct (Z.ltb_spec i (- n)).
      + destruct (Z.leb_spec 0 (- n - i)); [|lia]. cbn [bind]. eauto.
      + destruct (Z.leb_spec 0 (i - - n)); [|lia]. cbn [bind]. eauto.
    - destruct (Z.ltb_spec n 0); [lia|]. cbn [bind]. destruct (Z.leb_spec 0 (i + n)); [|lia]. cbn [bind]. eauto. }
  destruct R as (ni & fl & Eh). rewrite Eh. cbn [bind].
  apply (add_head BigU neg i n ni fl Hi eq_refl Fi) in Eh. destruct Eh as [Hni Eh].
  destruct fl; [|eexists; reflexivity]. destruct Eh as (En & Hp & Sn). cbn [negT chk fits bind]. rewrite !map_signed by auto. rewrite (sfit_to_signed BigU ni Sn).
  apply cf_new_neg_total; [lia|auto|auto|]. intros Ep Er. apply L; auto; rewrite Er; cbn; auto.
Qed.

(** ** Exactly when the sum is right *)
Lemma cf_add_int_exact g u x n y a0 rest : fits (sty u) 1 = true -> fits (sty u) n = true -> canonical x -> coeffs_fit u x -> a_coeffs x = a0 :: rest ->
  cf_add_int g u x n = Ok y ->
  let a := a0 + sgnb (negative x) * n in let v := (cf_val x + IZR n)%R in
  p_coeffs y = p_coeffs x /\
  (canonical y <-> 0 <= a \/ rest <> [1]) /\
  (cf_val y = v <-> 0 <= a \/ (rest = nil /\ p_coeffs x = nil) \/ (rest <> nil /\ (a <= -2 \/ negative x = true))) /\
  (a = -1 -> rest <> nil -> negative x = false -> cf_val y = (- v)%R) /\
  (a < 0 -> rest = nil -> p_coeffs x <> nil -> cf_val y = (v - 2 * (cf_val x - IZR (sgnb (negative x) * a0)%Z))%R).
Proof.
  intros F1 Fn C (Fa & Fp) Ea H a v.
  assert (Dom : add_int_domain x n -> canonical y /\ p_coeffs y = p_coeffs x /\ cf_val y = v) by (intros D; apply (cf_add_int_ok g u x n y F1 C (conj Fa Fp) Fn D H)).
  unfold add_int_domain in Dom. rewrite Ea in Dom. fold a in Dom.
  destruct (Z.lt_ge_cases a 0) as [Ha|Ha].
  2: { destruct (Dom (or_introl Ha)) as (Cy & Py & Vy). split; [auto|]. split; [split; auto; left; lia|]. split; [split; auto; left; lia|]. split; intros; exfalso; lia. }
  destruct x as [l p neg]. cbn [a_coeffs p_coeffs negative] in *. subst l. pose proof C as ((Hi & Pr & Pp) & L & _). cbn [a_coeffs p_coeffs negative] in *. inversion Fa as [|? ? Fi Fr]; subst.
  unfold cf_add_int in H. cbn [a_coeffs p_coeffs negative] in H.
  match type of H with bind ?m _ = _ => destruct m as [[ni fl]| |] eqn:Eh; [|discriminate|discriminate] end. cbn [bind] in H.
  apply (add_head u neg a0 n ni fl Hi Fn Fi) in Eh. destruct Eh as [Hni Eh].
  destruct fl; [|exfalso; fold a in Eh; lia]. destruct Eh as (En & Hp & Sn). fold a in En.
  rewrite !map_signed in H by auto. rewrite (sfit_to_signed u ni Sn) in H. unfold negT in H. apply chkop_ok in H. destruct H as [H Fm].
  assert (Fl : fitl (sty u) (- ni :: rest)) by (constructor; [auto|apply sfit_fitl; auto]).
  assert (Fp' : fitl (sty u) p) by (apply sfit_fitl; auto).
  assert (Sq : (IZR (sgnb neg) * IZR (sgnb neg) = 1)%R) by (destruct neg; cbn [sgnb]; ring).
  assert (V : cf_val (CF (- ni :: rest) p neg) = v).
  { replace (- ni) with (a0 + sgnb neg * n) by (fold a; lia). rewrite cf_val_shift by auto. rewrite mult_IZR, <- Rmult_assoc, Sq. unfold v. ring. }
  assert (Sg : forall w, (IZR (sgnb (nsign ni neg)) * - (IZR (sgnb neg) * w) = if (ni =? 1) && negb neg then - w else w)%R).
  { intros w. unfold nsign. destruct (Z.eqb_spec ni 1), neg; cbn [sgnb negb andb]; ring. }
  destruct rest as [|a1 rest].
  - destruct p as [|p0 p].
    + destruct (Dom (or_intror (or_introl (conj eq_refl eq_refl)))) as (Cy & Py & Vy). split; [auto|]. split; [split; auto; right; discriminate|]. split; [split; auto|]. split; congruence.
    + pose proof (cf_new_neg0 g (sty u) neg ni (p0 :: p) y F1 Fl Fp' ltac:(lia) Pp ltac:(discriminate) H) as Ey. subst y. cbn [a_coeffs p_coeffs negative].
      destruct (inf_val_evr [ni] (p0 :: p) (negb neg) ltac:(discriminate) ltac:(constructor) Pp) as [E1 L1].
      destruct (inf_val_evr [- ni] (p0 :: p) neg ltac:(discriminate) ltac:(constructor) Pp) as [E2 _].
      destruct (inf_val_evr [a0] (p0 :: p) neg ltac:(discriminate) ltac:(constructor) Pp) as [E3 _].
      assert (Hi' : (0 < / lim (pseq (p0 :: p)))%R) by (apply Rinv_0_lt_compat; lra).
      cbn [List.rev app evr] in E1, E2, E3. set (iw := (/ lim (pseq (p0 :: p)))%R) in *. clearbody iw.
      assert (W : cf_val (CF [ni] (p0 :: p) (negb neg)) = (v - 2 * (cf_val (CF [a0] (p0 :: p) neg) - IZR (sgnb neg * a0)%Z))%R).
      { rewrite E1, <- V, E2, E3, opp_IZR, mult_IZR. destruct neg; cbn [sgnb negb]; ring. }
      split; [auto|]. split; [|split; [|split; [congruence|intros; exact W]]].
      * split; [intros _; right; discriminate|]. intros _. split; [|split; discriminate]. cbn. split; [lia|]. split; [constructor|auto].
      * split; [|intros [K|[[_ K]|[K _]]]; [lia|congruence|congruence]]. intros K. exfalso. rewrite K in W. rewrite E3, mult_IZR in W. destruct neg; cbn [sgnb] in W; lra.
  - assert (H1 : 1 <= a1) by (inversion Pr; auto). assert (Pl : List.Forall (fun v => 1 <= v) rest) by (inversion Pr; auto). destruct (list_eq_dec Z.eq_dec (a1 :: rest) [1]) as [E1|N1].
    + assert (a1 = 1 /\ rest = nil) as [-> ->] by (inversion E1; auto). destruct p as [|p0 p]; [exfalso; apply L; cbn; auto|].
      pose proof (cf_new_neg1 g (sty u) neg ni (p0 :: p) y F1 Fl Fp' ltac:(lia) Pp ltac:(discriminate) H) as Ey. subst y. cbn [a_coeffs p_coeffs negative].
      assert (W : cf_val (CF [ni - 1; 1; 0] (p0 :: p) (nsign ni neg)) = (if ((ni =? 1) && negb neg)%bool then - v else v)%R).
      { rewrite <- Sg. destruct (inf_val_evr [ni - 1; 1; 0] (p0 :: p) (nsign ni neg) ltac:(discriminate) ltac:(repeat constructor; lia) Pp) as [E2 L2].
        destruct (inf_val_evr [- ni; 1] (p0 :: p) neg ltac:(discriminate) ltac:(repeat constructor; lia) Pp) as [E3 _].
        rewrite E2, <- V, E3. f_equal. rewrite <- Rmult_assoc, Sq, Rmult_1_l. cbn [List.rev app]. apply (mirror ni 1); [lia|lra]. }
      assert (Nv : v <> 0%R).
      { rewrite <- V. destruct (inf_val_evr [- ni; 1] (p0 :: p) neg ltac:(discriminate) ltac:(repeat constructor; lia) Pp) as [E3 L3]. rewrite E3. cbn [List.rev app evr].
        assert (Hi' : (0 < / lim (pseq (p0 :: p)))%R) by (apply Rinv_0_lt_compat; lra). set (iw := (/ lim (pseq (p0 :: p)))%R) in *. clearbody iw.
        assert (K : (/ (1 + iw) < 1)%R) by (rewrite <- Rinv_1; apply Rinv_lt_contravar; lra). apply IZR_le in Hni. assert (K2 : (1 <= IZR ni)%R) by (apply IZR_le; lia). rewrite opp_IZR.
        destruct neg; cbn [sgnb]; lra. }
      split; [auto|]. split; [|split; [|split]].
      * split; [|intros [K|K]; [lia|congruence]]. intros ((_ & K & _) & _). cbn in K. inversion K as [|? ? _ K']. inversion K'. lia.
      * rewrite W. destruct (Z.eqb_spec ni 1) as [K1|K1], neg; cbn [andb negb]; split; intros K; auto.
        -- right. right. split; [discriminate|auto].
        -- exfalso. apply Nv. lra.
        -- exfalso. destruct K as [K|[[K _]|[_ [K|K]]]]; [lia|discriminate|lia|discriminate].
        -- right. right. split; [discriminate|]. left. lia.
        -- right. right. split; [discriminate|]. left. lia.
      * intros Em _ En'. rewrite W. rewrite En'. replace ni with 1 by lia. reflexivity.
      * intros _ K. discriminate.
    + assert (N2 : rest = nil -> 2 <= a1) by (intros ->; destruct (Z.eq_dec a1 1); [subst; congruence|lia]).
      destruct (cf_new_neg g (sty u) neg ni a1 rest p y F1 Fl Fp' ltac:(lia) H1 Pl Pp N2 H) as (Cy & Py & Vy). rewrite V, Sg in Vy.
      assert (Nv : v <> 0%R).
      { rewrite <- V. intros K. assert (Cn : canonical (CF (a0 :: a1 :: rest) p neg)) by exact C.
        destruct (cf_head (CF (a0 :: a1 :: rest) p neg) a0 (a1 :: rest) (proj1 C) eq_refl) as (f & Vf & [F0 F1'] & Fc & _). specialize (Fc C). cbn [negative] in Vf.
        assert (V2 : v = (IZR (sgnb neg) * (IZR a + f))%R). { unfold v. rewrite Vf. unfold a. rewrite plus_IZR, mult_IZR, !Rmult_plus_distr_l, <- Rmult_assoc, Sq. ring. }
        rewrite V, V2 in K. assert (Ka : (IZR a <= -1)%R) by (apply IZR_le; lia). destruct neg; cbn [sgnb] in K; lra. }
      split; [auto|]. split; [|split; [|split]].
      * split; auto.
      * rewrite Vy. destruct (Z.eqb_spec ni 1) as [K1|K1], neg; cbn [andb negb]; split; intros K; auto.
        -- right. right. split; [discriminate|auto].
        -- exfalso. apply Nv. lra.
        -- exfalso. destruct K as [K|[[K _]|[_ [K|K]]]]; [lia|discriminate|lia|discriminate].
        -- right. right. split; [discriminate|]. left. lia.
        -- right. right. split; [discriminate|]. left. lia.
      * intros Em _ En'. rewrite Vy. rewrite En'. replace ni with 1 by lia. reflexivity.
      * intros _ K. discriminate.
Qed.
