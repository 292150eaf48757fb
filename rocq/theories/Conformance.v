(** * Conformance: the unit tests of /repo, replayed on the model.

    These are tests of the model, not proofs of any property: they check that
    the transcription gives the answers the repository's own tests expect. *)

From Coq Require Import ZArith Bool List String.
From Verif Require Import Base Ext ModelSurd ModelInt ModelBlock ModelCF ModelConv ModelGen
  ModelSymbols ModelFmt.
Import ListNotations.
Open Scope Z_scope.

(** Default features, dev profile; and with the feature "complex" *)
Definition dev := Cfg false true.
Definition devc := Cfg true true.
Definition i8 := SInt 8. Definition i32 := SInt 32. Definition i64 := SInt 64.
Definition u32 := UInt 32. Definition u64 := UInt 64.

Definition PHI := new_raw 1 1 2 5.
Definition PHI_R := new_raw (-1) 1 2 5.
Definition N_PHI := new_raw (-1) (-1) 2 5.
Definition N_PHI_R := new_raw 1 (-1) 2 5.
Definition PHI_SQ := new_raw 3 1 2 5.
Definition PHI45 := new_raw 3 1 6 45.
Definition PHI45_R := new_raw (-3) 1 6 45.
Definition SQ5 := new_raw 0 1 1 5.
Definition N_SQ5 := new_raw 0 (-1) 1 5.

(** assert_eq! between surds goes through PartialEq *)
Definition seq_ (x y : res surd) : bool :=
  match (let! a := x in let! b := y in surd_eq i32 a b) with Ok b => b | _ => false end.
Definition qeq_ (x y : res qint) : bool :=
  match (let! a := x in let! b := y in qint_eq i32 a b) with Ok b => b | _ => false end.
Definition all (l : list bool) : bool := forallb id l.
Definition isz (x : res surd) : bool := match x with Ok s => surd_is_zero s | _ => false end.
Definition iso (x : res surd) : bool := match x with Ok s => surd_is_one s | _ => false end.
Notation "# x" := (Ok x) (at level 5).

(** surd.rs:1547-1561 creation_test *)
Example creation_test :
  map (fun x => match x with Ok s => Some (parts s) | _ => None end)
    [surd_new dev i32 2 6 2 5; surd_new dev i32 2 1 2 18; surd_new dev i32 3 1 3 18;
     surd_new dev i32 3 1 3 9]
  = [Some (1, 3, 1, 5); Some (2, 1, 2, 18); Some (1, 1, 1, 2); Some (2, 0, 1, 0)].
Proof. vm_compute. reflexivity. Qed.

(** surd.rs:1563-1578 conversion_test (without to_f64) *)
Example conversion_test :
  map (fun s => let! f := surd_floor dev i32 s in surd_to_prim dev i32 (SInt 32) f)
    [PHI; PHI_R; N_PHI; N_PHI_R]
  = [Ok (Some 1); Ok (Some 0); Ok (Some (-2)); Ok (Some (-1))] /\
  map (surd_to_integer dev i32) [PHI; PHI_R; N_PHI; N_PHI_R]
  = [Ok (Approximated 1); Ok (Approximated 0); Ok (Approximated (-1)); Ok (Approximated 0)].
Proof. vm_compute. split; reflexivity. Qed.

(** surd.rs:1580-1606 from_xxx_test *)
Example from_xxx_test :
  all [seq_ (surd_from_rationals dev i32 (Ratio 1 2) (Ratio 1 2) (ratio_of 5)) (Ok PHI);
       seq_ (surd_from_rationals dev i32 (Ratio (-1) 2) (Ratio 1 2) (ratio_of 5)) (Ok PHI_R)] = true /\
  from_sqrt_int dev i32 5 = Ok (SqOk (new_raw 0 1 1 5)) /\
  from_sqrt_surd dev i32 PHI = Ok (SqErr PHI EUnrepresentable) /\
  (let! x := surd_mul dev i32 PHI PHI in from_sqrt_surd dev i32 x) = Ok (SqOk PHI) /\
  surd_from_equation dev i32 (ratio_of 1) (ratio_of (-1)) (ratio_of (-1)) = Ok (Some PHI).
Proof. vm_compute. repeat split; reflexivity. Qed.

(** surd.rs:1608-1621 property_test *)
Example property_test :
  all [seq_ (surd_recip dev i32 PHI) #PHI_R; seq_ (surd_recip dev i32 N_PHI) #N_PHI_R;
       seq_ (surd_conj i32 PHI) #N_PHI_R; seq_ (surd_conj i32 PHI_R) #N_PHI;
       negb (is_pure PHI); is_pure SQ5] = true.
Proof. vm_compute. reflexivity. Qed.

(** surd.rs:1623-1687 arithmic_test *)
Definition add := surd_add dev i32. Definition sub := surd_sub dev i32.
Definition mul := surd_mul dev i32. Definition div := surd_div dev i32.
Definition addi := surd_add_int dev i32. Definition subi := surd_sub_int dev i32.
Definition muli := surd_mul_int dev i32. Definition divi := surd_div_int dev i32.
Definition addr := surd_add_ratio dev i32. Definition subr := surd_sub_ratio dev i32.
Definition mulr := surd_mul_ratio dev i32. Definition divr := surd_div_ratio dev i32.
Definition one_r := Ratio 1 1. Definition mone_r := Ratio (-1) 1.
Definition th := Ratio 3 2.
Notation "x '>>=' f" := (bind x f) (at level 45, left associativity).

Example arithmic_test :
  all [seq_ (addi PHI_R 1) #PHI; seq_ (addi PHI45_R 1) #PHI45; seq_ (addi N_PHI 1) #N_PHI_R;
    seq_ (addr PHI_R one_r) #PHI; seq_ (addr PHI45_R one_r) #PHI45; seq_ (addr N_PHI one_r) #N_PHI_R;
    seq_ (add PHI PHI_R) #SQ5; seq_ (add N_PHI N_PHI_R) #N_SQ5;
    isz (add PHI N_PHI); iso (add PHI N_PHI_R);
    seq_ (subi PHI 1) #PHI_R; seq_ (subi PHI45 1) #PHI45_R; seq_ (subi N_PHI_R 1) #N_PHI;
    seq_ (subr PHI one_r) #PHI_R; seq_ (subr PHI45 one_r) #PHI45_R; seq_ (subr N_PHI_R one_r) #N_PHI;
    isz (sub PHI PHI); iso (sub PHI PHI_R); iso (sub N_PHI_R N_PHI);
    seq_ (sub PHI N_PHI_R) #SQ5; seq_ (sub N_PHI PHI_R) (surd_neg i32 SQ5);
    seq_ (muli PHI 1) #PHI; seq_ (muli PHI (-1)) #N_PHI; seq_ (mulr PHI one_r) #PHI;
    seq_ (mulr PHI mone_r) #N_PHI; iso (mul PHI PHI_R); iso (mul N_PHI N_PHI_R);
    seq_ (mul PHI PHI) #PHI_SQ; seq_ (mul N_PHI N_PHI) #PHI_SQ;
    seq_ (divi PHI 1) #PHI; seq_ (divi PHI (-1)) #N_PHI; seq_ (divr PHI one_r) #PHI;
    seq_ (divr PHI mone_r) #N_PHI; iso (div PHI PHI); iso (div N_PHI N_PHI);
    seq_ (div PHI PHI_R) #PHI_SQ; seq_ (div N_PHI N_PHI_R) #PHI_SQ;
    seq_ (addi PHI 5 >>= fun x => sub x PHI) #(surd_of_int 5);
    seq_ (addr PHI th >>= fun x => sub x PHI) #(surd_of_ratio th);
    seq_ (add PHI SQ5 >>= fun x => sub x PHI) #SQ5;
    seq_ (addi PHI 5 >>= fun x => sub x PHI45) #(surd_of_int 5);
    seq_ (addr PHI th >>= fun x => sub x PHI45) #(surd_of_ratio th);
    seq_ (muli PHI 5 >>= fun x => div x PHI45) #(surd_of_int 5);
    seq_ (mulr PHI th >>= fun x => div x PHI45) #(surd_of_ratio th);
    seq_ (muli PHI 2 >>= fun x => subi x 1) #SQ5;
    seq_ (muli PHI_R 2 >>= fun x => addi x 1) #SQ5;
    seq_ (divr PHI (Ratio 1 2) >>= fun x => subi x 1) #SQ5;
    seq_ (subr PHI (Ratio 1 2) >>= fun x => muli x 2) #SQ5] = true.
Proof. vm_compute. reflexivity. Qed.

(** surd.rs:1689-1709 arithmic_test_diff_base *)
Definition ta := surd_new dev i32 0 2 3 2.
Definition tb := surd_new dev i32 0 3 4 3.
Definition tc := surd_new dev i32 0 1 2 6.
Example arithmic_test_diff_base :
  all [seq_ (add PHI45 PHI_R) #SQ5; seq_ (add PHI PHI45_R) #SQ5; isz (sub PHI PHI45);
    iso (sub PHI PHI45_R); iso (mul PHI45 PHI_R); iso (mul PHI PHI45_R); iso (div PHI45 PHI);
    iso (div PHI PHI45);
    seq_ (add PHI SQ5 >>= fun x => sub x PHI45) #SQ5;
    seq_ (mul PHI SQ5 >>= fun x => div x PHI45) #SQ5;
    seq_ (ta >>= fun a => tb >>= fun b => mul a b) tc;
    seq_ (ta >>= fun a => tc >>= fun c => div c a) tb;
    seq_ (tb >>= fun b => tc >>= fun c => div c b) ta] = true.
Proof. vm_compute. reflexivity. Qed.

(** surd.rs:1711-1742 conversion_between_contfrac *)
Definition cf_phi := cf_new dev i32 [1] [1] false.
Definition cf_sq2 := cf_new dev i32 [1] [2] false.
Definition cf_n_sq2 := cf_new dev i32 [1] [2] true.
Definition cf_sq2_7 := cf_new dev i32 [0; 4] [1; 18; 1; 8] false.
Definition cf_10_sq2_7 := cf_new dev i32 [1; 4] [2] false.
Definition to_s (x : res cf) := x >>= surd_of_cf dev u32.
Definition to_c (x : res surd) := x >>= (fun s => surd_to_cf dev i32 50 s >>= unwrap).
Example conversion_between_contfrac :
  (all [seq_ (to_s cf_phi) #PHI;
     seq_ (to_s cf_sq2) (surd_new dev i32 0 1 1 2);
     seq_ (to_s cf_n_sq2) (surd_new dev i32 0 (-1) 1 2);
     seq_ (to_s cf_sq2_7) (surd_new dev i32 0 1 7 2);
     seq_ (to_s cf_10_sq2_7) (surd_new dev i32 10 (-1) 7 2)] = true) /\
  to_c #PHI = cf_phi /\
  to_c (surd_new dev i32 0 1 1 2) = cf_sq2 /\
  to_c (surd_new dev i32 0 (-1) 1 2) = cf_n_sq2 /\
  to_c (surd_new dev i32 0 1 7 2) = cf_sq2_7 /\
  to_c (surd_new dev i32 10 (-1) 7 2) = cf_10_sq2_7.
Proof. vm_compute. repeat split; reflexivity. Qed.

(** surd.rs:1744-1775 formatting_test *)
Definition fm (a b c r : Z) := surd_new dev i32 a b c r >>= surd_fmt i32 false.
Open Scope string_scope.
Example formatting_test :
  (surd_fmt i8 false surd_zero = Ok "0") /\ (surd_fmt i8 false surd_one = Ok "1") /\
  (fm 0 1 1 5 = Ok "√5") /\
  (fm 1 1 1 5 = Ok "1+√5") /\ (fm 1 (-1) 1 5 = Ok "1-√5") /\
  (fm (-1) 1 1 5 = Ok "-1+√5") /\ (fm (-1) (-1) 1 5 = Ok "-1-√5") /\
  (fm 1 2 1 5 = Ok "1+2√5") /\ (fm 1 (-2) 1 5 = Ok "1-2√5") /\
  (fm (-1) 2 1 5 = Ok "-1+2√5") /\ (fm (-1) (-2) 1 5 = Ok "-1-2√5") /\
  (fm 1 0 2 5 = Ok "1/2") /\ (fm (-1) 0 2 5 = Ok "-1/2") /\
  (fm 1 1 2 5 = Ok "(1+√5)/2") /\ (fm 1 (-1) 2 5 = Ok "(1-√5)/2") /\
  (fm (-1) 1 2 5 = Ok "(-1+√5)/2") /\ (fm (-1) (-1) 2 5 = Ok "(-1-√5)/2") /\
  (fm 1 2 2 5 = Ok "(1+2√5)/2") /\ (fm 1 (-2) 2 5 = Ok "(1-2√5)/2") /\
  (fm (-1) 2 2 5 = Ok "(-1+2√5)/2") /\ (fm (-1) (-2) 2 5 = Ok "(-1-2√5)/2").
Proof. vm_compute. repeat split; reflexivity. Qed.
Close Scope string_scope.

(** surd.rs:1777-1797 trunc_frac_test *)
Definition tr := surd_trunc dev i32. Definition fr := surd_fract dev i32.
Example trunc_frac_test :
  all [seq_ (tr PHI) #(surd_of_int 1); seq_ (fr PHI) #PHI_R; seq_ (tr PHI_R) #surd_zero;
    seq_ (fr PHI_R) #PHI_R; seq_ (tr N_PHI) #(surd_of_int (-1)); seq_ (fr N_PHI) #N_PHI_R;
    seq_ (tr N_PHI_R) #(surd_of_int 0); seq_ (fr N_PHI_R) #N_PHI_R;
    seq_ (tr PHI_SQ) #(surd_of_int 2); seq_ (fr PHI_SQ) #PHI_R;
    seq_ (tr PHI45) #(surd_of_int 1); seq_ (fr PHI45) #PHI_R;
    seq_ (tr PHI45_R) #(surd_of_int 0); seq_ (fr PHI45_R) #PHI_R;
    seq_ (tr SQ5) #(surd_of_int 2); seq_ (fr SQ5) (surd_new dev i32 (-2) 1 1 5);
    seq_ (tr N_SQ5) #(surd_of_int (-2)); seq_ (fr N_SQ5) (surd_new dev i32 2 (-1) 1 5)] = true.
Proof. vm_compute. reflexivity. Qed.

(** surd.rs:1799-1834 from_sqrt_test *)
Example from_sqrt_test :
  from_sqrt_int dev i32 5 = Ok (SqOk (new_raw 0 1 1 5)) /\
  (surd_new dev i32 3 2 1 2 >>= from_sqrt_surd dev i32) = Ok (SqOk (new_raw 1 1 1 2)) /\
  from_sqrt_int dev i32 (-2) = Ok (SqErr (-2) EComplex) /\
  from_sqrt_ratio dev i32 (Ratio (-1) 2) = Ok (SqErr (Ratio (-1) 2) EComplex) /\
  (surd_new dev i32 (-2) 1 1 2 >>= from_sqrt_surd dev i32)
    = (surd_new dev i32 (-2) 1 1 2 >>= fun s => Ok (SqErr s EComplex)).
Proof. vm_compute. repeat split; reflexivity. Qed.

(** surd.rs:1837-1871 complex_tests *)
Definition OMEGA := new_raw (-1) 1 2 (-3).
Definition OMEGA3 := new_raw (-3) 3 2 (-3).
Definition uns {D} (x : res (sqrt_result D)) : res surd :=
  x >>= fun r => match r with SqOk s => Ok s | SqErr _ _ => Panic PUnwrap end.
Definition sq2i := uns (from_sqrt_int devc i32 (-2)).
Definition sqhalfi := uns (from_sqrt_ratio devc i32 (Ratio (-1) 2)).
Definition ii := uns (from_sqrt_surd devc i32 (surd_of_int (-1))).
Example complex_trunc_sqrt :
  all [seq_ (surd_trunc devc i32 OMEGA) #surd_zero;
    seq_ (surd_trunc devc i32 OMEGA3) (surd_new devc i32 (-1) 2 1 (-1));
    seq_ (sqhalfi >>= fun s => surd_mul_int devc i32 s 2) sq2i;
    seq_ (sq2i >>= fun s => ii >>= fun i => surd_mul devc i32 s i) (uns (from_sqrt_int devc i32 2));
    seq_ (surd_new devc i32 (-3) 4 1 (-1) >>= fun s => uns (from_sqrt_surd devc i32 s))
         #(new_raw 1 2 1 (-1))] = true.
Proof. vm_compute. reflexivity. Qed.

(** surd.rs:1873-1920 complex formatting_test *)
Definition fc (a b c r : Z) := surd_new devc i32 a b c r >>= surd_fmt i32 true.
Open Scope string_scope.
Example complex_formatting_test :
  (fc 0 1 1 (-1) = Ok "i") /\ (fc 1 1 1 (-1) = Ok "1+i") /\ (fc 1 (-1) 1 (-1) = Ok "1-i") /\
  (fc (-1) 1 1 (-1) = Ok "-1+i") /\ (fc (-1) (-1) 1 (-1) = Ok "-1-i") /\
  (fc 1 2 1 (-1) = Ok "1+2i") /\ (fc 1 (-2) 1 (-1) = Ok "1-2i") /\
  (fc (-1) 2 1 (-1) = Ok "-1+2i") /\ (fc (-1) (-2) 1 (-1) = Ok "-1-2i") /\
  (fc 1 0 2 (-1) = Ok "1/2") /\ (fc (-1) 0 2 (-1) = Ok "-1/2") /\
  (fc 1 1 2 (-1) = Ok "(1+i)/2") /\ (fc 1 (-1) 2 (-1) = Ok "(1-i)/2") /\
  (fc (-1) 1 2 (-1) = Ok "(-1+i)/2") /\ (fc (-1) (-1) 2 (-1) = Ok "(-1-i)/2") /\
  (fc 1 2 2 (-1) = Ok "(1+2i)/2") /\ (fc 1 (-2) 2 (-1) = Ok "(1-2i)/2") /\
  (fc (-1) 2 2 (-1) = Ok "(-1+2i)/2") /\
  (fc 0 1 1 (-3) = Ok "√3i") /\ (fc 1 1 1 (-3) = Ok "1+√3i") /\ (fc 1 (-1) 1 (-3) = Ok "1-√3i") /\
  (fc (-1) 1 1 (-3) = Ok "-1+√3i") /\ (fc (-1) (-1) 1 (-3) = Ok "-1-√3i") /\
  (fc 1 2 1 (-3) = Ok "1+2√3i") /\ (fc 1 (-2) 1 (-3) = Ok "1-2√3i") /\
  (fc (-1) 2 1 (-3) = Ok "-1+2√3i") /\ (fc (-1) (-2) 1 (-3) = Ok "-1-2√3i") /\
  (fc 1 0 2 (-3) = Ok "1/2") /\ (fc (-1) 0 2 (-3) = Ok "-1/2") /\
  (fc 1 1 2 (-3) = Ok "(1+√3i)/2") /\ (fc 1 (-1) 2 (-3) = Ok "(1-√3i)/2") /\
  (fc (-1) 1 2 (-3) = Ok "(-1+√3i)/2") /\ (fc (-1) (-1) 2 (-3) = Ok "(-1-√3i)/2") /\
  (fc 1 2 2 (-3) = Ok "(1+2√3i)/2") /\ (fc 1 (-2) 2 (-3) = Ok "(1-2√3i)/2") /\
  (fc (-1) 2 2 (-3) = Ok "(-1+2√3i)/2").
Proof. vm_compute. repeat split; reflexivity. Qed.
Close Scope string_scope.

(** integer.rs:787-819 div_rem_round_test *)
Example div_rem_round_test :
  forallb (fun '(x, y, q, r) =>
    match div_rem_round i8 x y with Ok (q', r') => (q =? q') && (r =? r') | _ => false end)
  [(-4, 4, -1, 0); (-3, 4, -1, 1); (-2, 4, -1, 2); (-1, 4, 0, -1); (0, 4, 0, 0); (1, 4, 0, 1);
   (2, 4, 1, -2); (3, 4, 1, -1); (4, 4, 1, 0); (-4, -4, 1, 0); (-3, -4, 1, 1); (-2, -4, 1, 2);
   (-1, -4, 0, -1); (0, -4, 0, 0); (1, -4, 0, 1); (2, -4, -1, -2); (3, -4, -1, -1); (4, -4, -1, 0)]
  = true.
Proof. vm_compute. reflexivity. Qed.

(** integer.rs:821-883 test_ops_unit, for the roots 2 and -1 *)
Definition units (g : cfg) (r : Z) : bool :=
  let q a b := qint_new g i32 a b r in
  let op f x y := let! x := x in let! y := y in f g i32 x y in
  let zero := q 0 0 in let e1 := q 1 0 in let e2 := q 0 1 in
  let e3 := q (-1) 0 in let e4 := q 0 (-1) in let m12 := q 1 1 in let m34 := q (-1) (-1) in
  let add := op qint_add in let sub := op qint_sub in
  let mul := op qint_mul in let div := op qint_div in
  all [qeq_ (add e1 zero) e1; qeq_ (sub e1 zero) e1; qeq_ (mul e1 zero) zero;
    qeq_ (div zero e1) zero; qeq_ (add e1 e2) m12; qeq_ (add e3 e4) m34; qeq_ (sub m12 e1) e2;
    qeq_ (sub m34 e3) e4; qeq_ (mul e1 e2) e2; qeq_ (div e2 e1) e2; qeq_ (mul e2 e3) e4;
    qeq_ (div e4 e2) e3; qeq_ (mul e3 e4) e2; qeq_ (div e2 e3) e4; qeq_ (mul e4 e1) e4;
    qeq_ (div e4 e1) e4].
Example test_ops_unit :
  units dev 2 = true /\ units devc (-1) = true /\
  map (fun '(a, b) => qint_new devc i32 a b (-1) >>= qint_norm i32)
    [(1, 0); (0, 1); (-1, 0); (0, -1)] = [Ok 1; Ok 1; Ok 1; Ok 1] /\
  all [qeq_ (qint_new devc i32 1 0 (-1) >>= qint_conj i32) (qint_new devc i32 1 0 (-1));
       qeq_ (qint_new devc i32 0 1 (-1) >>= qint_conj i32) (qint_new devc i32 0 (-1) (-1));
       qeq_ (qint_new devc i32 (-1) 0 (-1) >>= qint_conj i32) (qint_new devc i32 (-1) 0 (-1));
       qeq_ (qint_new devc i32 0 (-1) (-1) >>= qint_conj i32) (qint_new devc i32 0 1 (-1))] = true.
Proof. vm_compute. repeat split; reflexivity. Qed.

(** integer.rs:885-903 test_ops *)
Definition q2 (a b : Z) := qint_new dev i32 a b 2.
Definition qop f (x y : res qint) : res qint := let! x := x in let! y := y in f dev i32 x y.
Example test_ops :
  let a := q2 1 3 in let b := q2 (-2) (-1) in let c := q2 (-1) 2 in
  all [qeq_ (qop qint_add a b) (q2 (-1) 2); qeq_ (qop qint_sub a b) (q2 3 4);
    qeq_ (qop qint_mul a b) (q2 (-8) (-7)); qeq_ (qop qint_div a b) (q2 2 (-3));
    qeq_ (qop qint_rem a b) (q2 (-1) (-1));
    qeq_ (qop qint_add b c) (q2 (-3) 1); qeq_ (qop qint_sub b c) (q2 (-1) (-3));
    qeq_ (qop qint_mul b c) (q2 (-2) (-3)); qeq_ (qop qint_div b c) (q2 (-1) (-1));
    qeq_ (qop qint_rem b c) (q2 1 0)] = true.
Proof. vm_compute. reflexivity. Qed.

(** integer.rs:905-924 test_different_bases *)
Example test_different_bases :
  let a := qint_new dev i32 1 6 5 in let b := qint_new dev i32 1 3 20 in
  let c := qint_new dev i32 1 2 45 in
  let z := Ok qint_zero in let o := Ok qint_one in
  all [qeq_ a b; qeq_ a c; qeq_ (qop qint_add a b) (qop qint_add a a);
    qeq_ (qop qint_add a c) (qop qint_add a a); qeq_ (qop qint_sub a b) z;
    qeq_ (qop qint_sub a c) z; qeq_ (qop qint_mul a b) (qop qint_mul a a);
    qeq_ (qop qint_mul a c) (qop qint_mul a a); qeq_ (qop qint_div a b) o;
    qeq_ (qop qint_div a c) o; qeq_ (qop qint_rem a b) z; qeq_ (qop qint_rem a c) z] = true.
Proof. vm_compute. reflexivity. Qed.

(** integer.rs:926-949 test_gaussian *)
Definition gs := [QCo 1 2; QCo (-1) 2; QCo 1 (-2); QCo 2 3; QCo (-2) 3; QCo 2 (-3)].
Definition geq (x : res qco) (y : qco) := match x with Ok z => qco_eqb z y | _ => false end.
Example test_gaussian :
  all [geq (gauss_conj i32 (QCo 1 2)) (QCo 1 (-2)); geq (gauss_conj i32 (QCo 2 3)) (QCo 2 (-3))] = true /\
  gauss_norm i32 (QCo 1 2) = Ok 5 /\ gauss_norm i32 (QCo 2 3) = Ok 13 /\
  forallb (fun v1 => forallb (fun v2 =>
    geq (gauss_add i32 v1 v2 >>= fun s => gauss_sub i32 s v1) v2 &&
    geq (gauss_mul i32 v1 v2 >>= fun s => gauss_div i32 s v1) v2) gs) gs = true.
Proof. vm_compute. repeat split; reflexivity. Qed.

(** integer.rs:951-977 test_eisenstein *)
Definition eis (a b : Z) := qint_from_coeffs devc i32 (QCo a b) (-3).
Definition eop f (x y : res qint) : res qint := let! x := x in let! y := y in f devc i32 x y.
Definition es := [eis 1 2; eis (-1) 2; eis 3 (-2); eis 2 3; eis (-2) 3; eis 5 (-3)].
Example test_eisenstein :
  all [qeq_ (eis 1 2 >>= qint_conj i32) (eis 3 (-2)); qeq_ (eis 2 3 >>= qint_conj i32) (eis 5 (-3));
       qeq_ (eop qint_mul (eis 1 2) (eis 1 2)) (eis (-3) 8)] = true /\
  (eis 1 2 >>= qint_norm i32) = Ok 7 /\ (eis 2 3 >>= qint_norm i32) = Ok 19 /\
  forallb (fun v1 => forallb (fun v2 =>
    qeq_ (eop qint_sub (eop qint_add v1 v2) v1) v2 &&
    qeq_ (eop qint_div (eop qint_mul v1 v2) v1) v2) es) es = true.
Proof. vm_compute. repeat split; reflexivity. Qed.

(** simple.rs:888-913 creation_test *)
Example cf_creation_test :
  let n a p s := cf_new dev i32 a p s in
  n [0; 1; 2] [3; 4] false = n [0; 1; 0; 0; 2] [3; 4] false /\
  n [0; 1; 2] [3; 4] false = n [0; 1; 1; 0; 1] [3; 4] false /\
  n [2; 3; 4] [] true = n [2; 1; 0; 2; 4] [] true /\
  n [2; 3; 4] [] true = n [3; -1; -2; -4] [] true /\
  n [2; 3; 4] [] true = n [-3; 1; 2; 4] [] false.
Proof. vm_compute. repeat split; reflexivity. Qed.

(** simple.rs:915-968 iter_test *)
Definition coeffs5 (x : res cf) := x >>= fun x => take (signed_next u32) 5 (cf_coeffs x).
Definition into5 (x : res cf) := x >>= fun x => take (owned_next u32) 5 (cf_into_coeffs x).
Definition conv5 (x : res cf) := x >>= fun x => take (conv_next u32) 5 (cf_convergents x).
Example iter_test :
  let one := cf_new dev i32 [1] [] false in let n_one := cf_new dev i32 [1] [] true in
  coeffs5 one = Ok [1] /\ into5 one = Ok [1] /\ conv5 one = Ok [Ratio 1 1] /\
  coeffs5 n_one = Ok [-1] /\ into5 n_one = Ok [-1] /\ conv5 n_one = Ok [Ratio (-1) 1] /\
  coeffs5 cf_sq2 = Ok [1; 2; 2; 2; 2] /\ into5 cf_sq2 = Ok [1; 2; 2; 2; 2] /\
  conv5 cf_sq2 = Ok [Ratio 1 1; Ratio 3 2; Ratio 7 5; Ratio 17 12; Ratio 41 29] /\
  coeffs5 cf_n_sq2 = Ok [-1; -2; -2; -2; -2] /\ into5 cf_n_sq2 = Ok [-1; -2; -2; -2; -2] /\
  conv5 cf_n_sq2 = Ok [Ratio (-1) 1; Ratio (-3) 2; Ratio (-7) 5; Ratio (-17) 12; Ratio (-41) 29].
Proof. vm_compute. repeat split; reflexivity. Qed.

(** simple.rs:970-999 conversion_test *)
Example cf_conversion_test :
  let n a s := cf_new dev i32 a [] s in
  cf_of_ratio i32 (Ratio 3 1) = n [3] false /\
  cf_of_ratio i32 (Ratio 22 7) = n [3; 7] false /\
  cf_of_ratio i32 (Ratio (-22) 7) = n [3; 7] true /\
  cf_of_ratio i32 (Ratio 7 22) = n [0; 3; 7] false /\
  cf_of_ratio i32 (Ratio (-7) 22) = n [0; 3; 7] true /\
  cf_of_ratio i32 (Ratio 355 113) = n [3; 7; 16] false.
Proof. vm_compute. repeat split; reflexivity. Qed.

(** simple.rs:1001-1024 fmt_test *)
Open Scope string_scope.
Example cf_fmt_test :
  (cf_new dev i32 [1] [] false >>= cf_fmt) = Ok "[1]" /\
  (cf_new dev i32 [1; 2; 3] [] false >>= cf_fmt) = Ok "[1; 2, 3]" /\
  (cf_new dev i32 [1] [2] false >>= cf_fmt) = Ok "[1; (2)]" /\
  (cf_new dev i32 [1; 2; 3] [3; 2] false >>= cf_fmt) = Ok "[1; 2, 3, (3, 2)]".
Proof. vm_compute. repeat split; reflexivity. Qed.
Close Scope string_scope.

(** simple.rs:1026-1069 arithmetic_test *)
Example cf_arithmetic_test :
  let n a p s := cf_new dev i32 a p s in
  let one := Ok cf_one in let n_one := n [1] [] true in
  let addi x k := x >>= fun x => cf_add_int dev u32 x k in
  let muli x k := x >>= fun x => cf_mul_int dev u32 50 x k in
  let of k := cf_of_int i32 k in
  addi one 1 = of 2 /\ addi one (-1) = Ok cf_zero /\ addi n_one 1 = Ok cf_zero /\
  addi n_one (-1) = of (-2) /\
  addi cf_sq2 1 = n [2] [2] false /\ addi cf_sq2 (-1) = n [0] [2] false /\
  addi cf_n_sq2 1 = n [0] [2] true /\ addi cf_n_sq2 (-1) = n [2] [2] true /\
  muli one 2 = of 2 /\ muli one (-2) = of (-2) /\ muli n_one 2 = of (-2) /\ muli n_one (-2) = of 2 /\
  muli cf_sq2 2 = n [2] [1; 4] false /\ muli cf_sq2 (-2) = n [2] [1; 4] true /\
  muli cf_n_sq2 2 = n [2] [1; 4] true /\ muli cf_n_sq2 (-2) = n [2] [1; 4] false.
Proof. vm_compute. repeat split; reflexivity. Qed.

(** infinite.rs:131-157 arithmetic_test *)
Definition e_homo (a b c d : Z) := take (homo_next i32 (e_next i32) 100) 5 (icf_homo e_cfrac a b c d).
Example homo_test :
  (e_homo 1 (-2) 0 1 >>= cf_from_iter dev i32) = cf_new dev i32 [0; 1; 2; 2] [] false /\
  (e_homo 1 (-3) 0 1 >>= cf_from_iter dev i32) = cf_new dev i32 [0; 3; 1; 1; 4] [] true /\
  e_homo 1 1 0 1 = Ok [3; 1; 2; 1; 1] /\
  (cf_sq2 >>= fun x => take (homo_next i32 (signed_next u32) 100) 5 (icf_homo (cf_coeffs x) 1 1 0 1))
  = (cf_sq2 >>= fun x => cf_add_int dev u32 x 1 >>= fun y => take (signed_next u32) 5 (cf_coeffs y)).
Proof. vm_compute. repeat split; reflexivity. Qed.

(** general.rs:204-243 and symbols.rs:224-251 *)
Example general_conf_frac_test :
  take (e_next i32) 10 e_cfrac
    = take (simp_next i32 (exp_next i32) 100) 10 (gcf_simplify (gcf_exp 1)) /\
  (take (gconv_next i32 (pi_next i32)) 6 (gcf_convergents pi_gfrac)
    >>= fun l => Ok (tl l)) = Ok [Ratio 4 1; Ratio 3 1; Ratio 19 6; Ratio 160 51; Ratio 1744 555] /\
  take (simp_next u64 (pi_next u64) 100) 6 (gcf_simplify pi_gfrac) = Ok [3; 7; 15; 1; 292; 1] /\
  take (dec_next u32 (pi_next u32) 100) 20 (gcf_decimals pi_gfrac)
    = Ok [51; 49; 52; 49; 53; 57; 50; 54] /\
  take (exp_next i32) 5 (gcf_exp 1) = Ok [(1, 1); (1, 1); (-1, 3); (-2, 4); (-3, 5)].
Proof. vm_compute. repeat split; reflexivity. Qed.

Example cfrac_test :
  take (e_next u32) 10 e_cfrac = Ok [2; 1; 2; 1; 1; 4; 1; 1; 6; 1] /\
  take (pi_next u32) 5 pi_gfrac = Ok [(1, 0); (4, 1); (1, 3); (4, 5); (9, 7)] /\
  take (simp_next u64 (pi_next u64) 100) 10 (gcf_simplify pi_gfrac)
    = Ok [3; 7; 15; 1; 292; 1; 1; 1; 2; 1] /\
  (gamma_gfrac i32 >>= take (gamma_next i32) 6)
    = Ok [(1, 0); (1, 2); (-1, 4); (-5, 16); (36, 59); (-15740, 404)] /\
  (gamma_gfrac i64 >>= fun s => take (simp_next i64 (gamma_next i64) 100) 8 (gcf_simplify s))
    = Ok [0; 1; 1; 2; 1; 2; 1; 3].
Proof. vm_compute. repeat split; reflexivity. Qed.
