# Formal model of num-irrational: design

Subject: the Rust crate `cmpute/num-irrational` (source in `/repo`, read as text).
Tool: Coq/Rocq 8.16.1, standard library, Coquelicot (real and complex analysis) and Flocq
(IEEE 754 arithmetic). Neither library adds axioms of its own.

## 1. How the code is modelled

The model is executable Gallina, one definition per Rust function, each with a
comment citing file and lines. Files in `rocq/theories`:

| file | models |
|---|---|
| `Base.v` | outcomes (`Ok`/`Panic`/`Hang`), integer types, primitive operations, `traits.rs` casts |
| `Ext.v` | the part of `num-rational` the crate calls (external, transcribed from its published source) |
| `ModelSurd.v` | `quadratic/surd.rs` except continued-fraction conversion, `Display`, floating point |
| `ModelInt.v` | `quadratic/integer.rs` |
| `ModelBlock.v` | `cont_frac/block.rs`, iterator drivers (`take`, `nth`, `last`) |
| `ModelCF.v` | `cont_frac/simple.rs` |
| `ModelConv.v` | surd <-> continued fraction conversion, operators of `simple.rs` that use it |
| `ModelGen.v` | `cont_frac/general.rs`, `cont_frac/infinite.rs` |
| `ModelSymbols.v` | `symbols.rs` |
| `ModelFmt.v` | `Display` of surds and continued fractions |
| `ModelFloat.v` | `to_f64`, `to_complex64`, `to_complex32`, `from_f64`, `E::value`, `Pi::value` on Flocq's binary64/binary32 |
| `Wrap*.v` (`WrapBase`, `WrapExt`, `WrapSurd`, `WrapInt`, `WrapBlock`, `WrapCF`, `WrapConv`, `WrapGen`, `WrapSymbols`, `WrapFmt`) | the same functions in the release profile: a copy of the files above in which integer arithmetic wraps around (`f_w` is `f` with every arithmetic function renamed) |
| `Conformance.v` | the repository's own unit tests replayed on the model (tests, not proofs) |

Conventions.

* **Outcome.** A function that can panic returns `res A`: `Ok a`, `Panic kind`, or
  `Hang` (the loop needs more than the supplied fuel). `&mut` functions return the new state.
* **Integer type.** The generic `T` is a value `t : ity` = `BigI | BigU | SInt n | UInt n`.
  Every primitive operation checks that the result fits `t` and is `Panic POverflow`
  otherwise. This is the behaviour with overflow checks (dev/test profile); all theorems but
  C71 and C72 are about it. The release profile is the copy `Wrap*.v`; C71 relates the two.
  `as` casts wrap, as in Rust.
* **Configuration.** `g : cfg` carries the cargo feature `complex` and whether
  `debug_assert!` is compiled in.
* **Loops** become structural recursion over the data or recursion on fuel.
* **Ownership** variants (`floor`/`floor_ref`, `&x + &y` forwards) compute the same thing
  and are modelled once.

* **Floating point.** `f64` is Flocq's `binary_float 53 1024` with one NaN; `+ * / sqrt` and
  integer conversions round to nearest, ties to even. `Ratio::<i64>::from_f64` is external:
  its answer is an argument of `surd_from_f64`.

Not modelled: `Ratio::from_f64` itself, the parser stub (`ParseContinuedFraction` has no
body), functions whose body is `unimplemented!()`, `Hash`
beyond the data fed to the hasher, performance and memory, `usize`
overflow after 2^64 iterator steps, laziness of `collect` (an iterator is collected, then
processed).

## 2. What the properties are stated against

`Spec.v` holds the specification, independent of the model's helper functions: it only uses
the data fields (`parts` of a surd, coefficients of a continued fraction).

* Surd `(a,b,c,r)` denotes the complex number `(a + b*csqrt r)/c` (Coquelicot's `C`), where
  `csqrt r` is the principal root.
* Normal form: `c > 0`, `gcd(a,b,c)=1`, `b=r=0` or (`b<>0` and `r` not a perfect square),
  `r >= 0` without `complex`.
* Quadratic integer `(a,b)` over `D` denotes `a + b*w_D`.
* A finite continued fraction denotes a real computed by recursion, an infinite one is the
  limit of its convergents (`is_lim_seq`).
* Generalized continued fractions: textbook nested fraction.

Statements about a function `f` at type `t` read "if `f t x = Ok v` then (spec of v)", for
all `t`; statements "always returns" are for `BigI`.

## 3. Plan per property

The identifiers are those of `properties.jsonl`.

| id | model | proof |
|---|---|---|
| C01 | all surd-producing functions; inductive predicate `reachable` over API calls | reduce() establishes normal form; induction over `reachable` |
| C02 | `surd_new`, `surd_from_coeffs`, `surd_from_rationals` | algebra in `C` on the reduction steps; panic conditions by case analysis over `BigI` |
| C03 | `surd_add`, `surd_sub` (+ int, ratio) | value lemmas for each path, `field` in `C` |
| C04, C05 | `surd_mul`, `surd_div`, `surd_recip` | exact except two pure imaginary operands: `_refuted` witness (i*i, i/i, 0/sqrt 2) and `_partial` theorem on the rest |
| C06 | `reduce_bin_op` | `_refuted` (sqrt 8 + sqrt 18); `_partial`: totality when one root divides the other by a square |
| C07 | `surd_neg`, `surd_conj`, `sco_norm` | algebra |
| C08 | `surd_eq` | `_refuted` (sqrt 8 == -2 sqrt 2); `_partial`: completeness, and soundness for equal roots or equal signs |
| C09 | `surd_is_positive/negative` | real arithmetic, squares |
| C10 | `surd_floor` | integer square root bounds |
| C11 | `surd_trunc` | `_refuted` (2 - sqrt 2); `_partial` on the exact domain where it is right |
| C12 | `surd_fract` | from C03 |
| C13 | `surd_to_integer`, `surd_to_rational`, `surd_to_prim` | mixed; to_rational `_refuted` for negative b |
| C14 | `surd_from_equation` | algebra, discriminant |
| C15, C16 | `from_sqrt_*` | algebra; completeness of `from_sqrt_surd` by number theory on squares of rationals; principal root `_refuted` (3 - 2 sqrt 2) |
| C17 | `surd_reduced` | loop invariant; termination measure; `_refuted` for rational surds (hang) |
| C18 | predicates | irrationality of roots of non-squares; `_refuted` for is_gaussint, is_quadint |
| C19 | all | monotonicity lemma `rle (f t x) (f BigI x)` per function |
| C20-C27 | `ModelInt.v` | ring identities in `C`; rounding by `nia`/`lia`; Euclidean bounds |
| C28 | coefficient iterators | induction on n |
| C29 | `conv_next` | matrix recurrence, determinant, Cauchy |
| C30 | `cf_of_ratio` | Euclid, induction |
| C31 | `cf_new` | `_partial` for non-negative coefficients (and negative head) and for steep ones of any sign (with a period: iff the last aperiodic one is positive); right up to sign for every finite list; exactly when it returns and the sign is right if no beginning is zero, also before a period; `_refuted` for [-1;3] |
| C32 | `cf_add_int` | exactly when the value is right, by cases on the first coefficient of the sum; `_refuted` for 1/3 - 1 |
| C33 | operators | from C30, C34, C35 |
| C34 | `quadsurd_to_contfrac` | reduced-surd theory: after reduction, finite state, purely periodic (injectivity of the step); `_refuted` for (3-sqrt 2)/2, hang for 2 - sqrt 2 |
| C35 | `surd_of_cf` | Moebius fixed point |
| C36 | composition | C34 + C35 |
| C37 | `cf_approximated` | convergent error bound; documented bound `_refuted` (sqrt 2, limit 169) |
| C38 | `cf_to_integer`, `cf_to_rational` | C29 |
| C39 | `surd_fmt`, `cf_fmt` | injectivity of decimal printing and unique parsing |
| C40 | `gconv_next` | projective invariant of the block |
| C41-C43 | `simp_next`, `homo_next`, `dec_next` | interval invariant of the block |
| C44 | `bihomo_next` | `_refuted` (the block update drops a term) |
| C45 | `exp_next` | closed form of the numerators; `exp` power series |
| C46 | `pi_next` | integral recurrence |
| C47 | `e_next` | Cohn's integrals |
| C48 | `gamma_next` | the sums of Pilehrood and Pilehrood, their recurrences, limit of the quotients by `ln`/harmonic bounds |
| C49 | casts | modular arithmetic |
| C50 | `generalize_next` | `_refuted` (the pair is swapped) |
| C51 | hashed data | `_refuted` |
| C52 | totality over `BigI` | case analysis |
| C53, C54 | `surd_to_f64`, `surd_to_complex64` | relative error of each rounding (no overflow or underflow below 2^500), accumulated |
| C55 | `e_value`, `pi_value` | rational bounds for e and pi from C46/C47's remainders, grid of doubles in [2,4) |
| C56 | `surd_from_f64` | lowest terms are kept by `Ratio::new` |
| C57 | `gcf_approximated` | loop invariant; a limit lies strictly between neighbouring convergents |
| C58 | `cf_eqb` | uniqueness of infinite expansions; the state of the conversion is determined by the tail's value, so preperiod and period are minimal |
| C59 | `cf_is_zero`, `cf_is_one`, `cf_is_rational`, `cf_is_integer`, `cf_from_iter` | uniqueness of canonical forms, irrationality of infinite fractions |
| C60 | `surd_to_quadint`, `surd_to_gaussint` | from C11, C20; uniqueness of coordinates over a non-square root |
| C61 | `sco_*` | algebra over `csqrt r`, for every root |
| C62 | `qco_*`, `mod4d2`, `div_rem_round` | algebra over `omega r`; the remainder identity is formal in the coordinates, so that square roots are included |
| C63, C64 | `block_*`, `dblock_*` | maps of reals (`SpecBlock.v`) |
| C65 | `surd_fmt`, `cf_fmt` | an evaluator of printed arithmetic (`SpecText.v`) |
| C66 | `cf_convergents`, `cf_approximated` | Lagrange's coordinates of (p, q) in the basis of two neighbouring convergents, alternating signs |
| C67 | surd operators | values (C03-C07) + uniqueness of the normal form over a squarefree root |
| C68 | `surd_eq`, `qint_eq`, `cf_eqb` | from C08; `_refuted` (2 sqrt 2, sqrt 8, -2 sqrt 2) |
| C69 | all arithmetic at `SInt n` against `BigI` | bound every intermediate value by a power of K (`room`, `chk_room`); `_sharp` example |
| C70 | `exp_next` under `simp_next`, `dec_next` | invariant: block columns are a fixed linear map of consecutive convergents (`rep`); x < 0: partial sums alternate around e^x; x = 1: a wrong item would need a huge coefficient of e too early; `_refuted` witnesses for x = 2, 3 |
| C71 | every arithmetic function against its wrapping copy | `agree` is preserved by `bind`, holds for the primitive operations; one lemma `w_f` per function |
| C72 | surd, quadratic integer and Gaussian operators in the release profile | C69 + C71 + nothing overflows over `BigI` (`clean`) |
| C73, C74 | `surd_to_cf`, `cf_convergents` | purely periodic expansions and conjugates (Galois); norms of convergents, every small solution is a convergent (Pell, Legendre) |
| C75 | `cf_of_ratio`, `cf_approximated`, `surd_to_cf`, `surd_reduced` | Fibonacci bounds for denominators; counting the reduced states of a discriminant |
| C76 | `qint_div`, `qint_rem`, Gaussian integers | C24 and C25; norms as measure; `_refuted` for `%` by a rational operand |
| C77 | `surd_reduced`, `surd_eq`, `hash_data` | a root below 257^2 is squarefree after `reduced`, so C67's uniqueness applies |
| C78 | operators with mixed operands | both code paths compute the same terms; `_refuted` for `cf + integer` |
| C79, C80 | `homo_next`, `simp_next` | the items and the block together always denote the same number; the columns of the items' matrix converge |
| C81 | `dec_next` | the same with base 10 |
| C82, C83, C84 | all iterators | simulation: a source that ends against any continuation; one step after the end; fixed width against `BigI` |
| C85 | `surd_to_cf`, `surd_approximated` at `SInt n` | bounds on reduced states, then as for C69 |
| C86 | `simp_next`, `homo_next` on half-regular fractions | invariant of the block under terms of absolute value at least 2 |
| C87 | two routes to the same digits | both are the coefficients of the same number (C29, C34, C42) |
| C88 | convergents of `Pi`, `exp`, sources | remainders of C45-C47 and alternating signs |
| C89 | `cf_approximated`, `gcf_approximated` in the limit | the loop takes the last convergent with a denominator below the limit |
| C90 | `from_sqrt` of ratios with `*`, `/`, `+` | values by C04, C05 and C15; the sum by the stored roots |
| C91 | `floor`, `trunc`, `fract` with `-` and integers | uniqueness of the rounded number; `trunc` by its formula |
| C92 | `convergents` then `From<Ratio>` | uniqueness of the canonical form (C30) |
| C93 | `From<Ratio>` with arithmetic | uniqueness of the stored form of a rational (C01, C30) |
| C94 | `floor`, `recip` and the conversion to a continued fraction | uniqueness of infinite expansions (C58) |
| C95 | `from_equation`, `conj`, `+`, `*` | independence of 1 and sqrt r over the rationals; the principal root scales |
| C96 | `Neg` on all number types, every iterator and conversion of continued fractions | the two iterators run in lockstep and differ in one sign |
| C97 | `to_quadint`, `to_gaussint` against the arithmetic of all three number types | denominator 1 is kept by every operation; conjugates are determined by trace and norm |
| C98 | convergents of `omega` against `norm`, `*`, `conj` of `QuadraticInt` | norms of convergents are the denominators of the complete quotients; Legendre; descent to the smallest unit |
| C99 | `p_coeffs` of converted surds and `homo` against the relation `y = (a x + b)/(c x + d)`, determinant 1 or -1 | complete quotients of reals; negation, reciprocal and `+ 1` keep a common tail; descent on `c`; shortest periods for rotations |
| C100 | errors of `convergents` items, distance of all fractions from converted surds | the errors of two neighbours add up to `1/(q q')`; Vahlen, Hurwitz; Legendre's criterion for all other fractions; Liouville |
| C101 | order of canonical fractions, `TryFrom<QuadraticSurd>`, `Sub`, `is_positive` | digits of a real number by floor and reciprocal; induction on the first difference, each step turning the order round |
| C102 | a caller's program of `conj`, `is_negative`, `floor`, `-`, `recip`, `TryFrom<QuadraticSurd>`, `ContinuedFraction::new` | each two steps with positive conjugate double the distance to the conjugate, which stays below 1; coefficients put in front |
| C103 | a caller's program of `ContinuedFraction::new`, `From<ContinuedFraction>`, `recip`, `+`; together with the program of C102 | one coefficient before the period never panics; each further one is a reciprocal and a sum |
| C104 | a caller's program of `==`, `conj`, `-`, `is_negative`, `floor`, `to_integer`, `is_zero`, `recip` | after two steps the distance of the numbers at least doubles; equal numbers are found by `==` and the sign of `s - s.conj()` |
| C105 | a caller's program of `conj`, `-`, `/`, `*`, `+`, `is_rational` | `(r - r.conj()) / (l - l.conj())` is a quotient of pure roots, which never panics; it is rational inside one field |
| C106 | the programs of C102 to C105 put together with `to_rational`, `From<Ratio>` for both types | every case of the direct conversions that hangs or panics has another way |
| C107 | a caller's program of `is_pure`, `is_complex`, `is_zero`, `neg` around `*` and `/`, and the rewriting of C105 | the wrong sign of the library is exactly that of two imaginary operands |
| C108 | a caller's program of `==`, `is_rational`, `conj`, `-`, the division of C107 and `is_one` | the library's wrong answers are exactly the conjugates of equal numbers with another root (C08) |
| C109 | a caller's programs of `floor`, `neg`, `is_negative`, `-` and `+ Ratio` | `floor` is always right for real surds (C10), `trunc` is not (C11) |
| C110 | a caller's program of `from_sqrt`, `is_complex`, `is_negative` and `neg` | roots that are not principal are real (C16) |
| C111 | a caller's loop of `floor`, `to_integer`, `- T` and `* T` | each step is exact (C03, C04, C10, C13) |

Statuses: a property that is false of the code keeps its statement in `properties.jsonl`;
the development proves `..._refuted` (a concrete counterexample in the model, traced to the
source in the note) and the strongest true part as `..._partial`, and its status is `partial`.

## 4. Trusted base

* Coq 8.16.1's kernel (and `vm_compute`).
* The faithfulness of the transcription (Section 1), including `Ext.v` for `num-rational`
  and the primitive operations in `Base.v` for `num-integer`/`num-traits`/`num-bigint`.
* Axioms: only those of the standard library's classical real numbers, as printed by
  `Print Assumptions` under every theorem (see Section 5).

## 5. Assumptions printed by Coq

`Print Assumptions` stands under every property theorem (the `Props*.v` files). It prints
one of four lists, all from the standard library:

| list | theorems |
|---|---|
| closed under the global context | statements without real numbers: all of C19, C28, C39, C49, `C56_total`, `C57_choice`, the `returns` and several `refuted` theorems |
| `ClassicalDedekindReals.sig_forall_dec`, `FunctionalExtensionality.functional_extensionality_dep` | statements over `R` (continued fractions) |
| these and `ClassicalDedekindReals.sig_not_dec` | statements over `C`, or using `Rlt`-decisions (most of C01-C37) |
| these and `Classical_Prop.classic` | C46, C47, C48 (integrals, limits) and C53-C55 (Flocq) |

`ASSUMPTIONS.md` names the theorems in each row.

No axiom is declared in this development and no other library contributes one.

## 6. Layout of the proofs

Statements: `Props*.v` (nothing but theorems closed by `exact`, examples and
`Print Assumptions`). Vocabulary of the statements: `Spec*.v`. The lemma behind theorem
`Cnn_x` is `L_Cnn_x` in the `Claims*.v` file of the same suffix.

| property | statements | main proof files |
|---|---|---|
| C01-C18, C51, C52 | `PropsSurd.v` | `SurdCore SurdArith SurdOrd SurdRound SurdConv SurdMisc SurdSqrt SurdTotal`, `NumFacts RatioFacts` |
| C19 | `PropsFit.v` | `Transfer TransferFit` |
| C20-C27 | `PropsInt.v` | `IntCore IntArith IntOps IntDiv IntMore` |
| C28-C38 | `PropsCF.v` | `CFCore CFSeq CFIter CFBasic CFNew CFSigned CFSignedP CFAny CFAdd CFSurd CFOfSurd CFWide CFRound CFArith` |
| C39, C49, C65 | `PropsMisc.v` | `FmtFacts FmtText` |
| C40-C44, C50 | `PropsGen.v` | `GenBlock GenSound GenConv GenCont GenTail GenLive GenMisc GenStored GenBihomo` |
| C45-C48 | `PropsSym.v` | `SymExp SymE SymPi PiIrrational SymGamma SymGammaItems` |
| C53-C56 | `PropsFloat.v` | `FloatFacts FloatConst FloatMore` |
| C57-C60 | `PropsApi.v` | `GenApprox CFShort` |
| C61-C64 | `PropsCo.v` | in `ClaimsCo.v` |
| C66-C68 | `PropsLaw.v` | `CFBest SurdLaws` |
| C69 | `PropsSmall.v` | `SmallFit SmallOps SmallInt` |
| C70, C41 (`_never_stops`) | `PropsExp.v` | `GenRep ExpNeg ExpIrr ExpNegLive ExpZero ExpOne` |
| C71, C72 | `PropsWrap.v` (vocabulary `SpecWrap.v`) | `WrapRef WrapBig` |
| C16, C31, C33, C52 (exact conditions) | `PropsSharp.v` | `SurdDecide`, rest in `ClaimsSharp.v` |
| C73, C74 | `PropsGalois.v` | `CFGalois CFPell` |
| C75 | `PropsBound.v` | `CFBound`, statement helpers in `SpecBound` |
| C76 | `PropsEuclid.v` | `IntEuclid`; `SpecEuclid` holds the client programs |
| C34 (exactly when it returns) | `PropsHang.v` | `CFHang`, statement helpers in `SpecHang` |
| C77, C78 | `PropsCanon.v` | `SurdCanon`, rest in `ClaimsCanon.v` |
| C79 | `PropsHomo.v` | `GenHomo` |
| C80 | `PropsSpell.v` | `SpecSpell`, `GenSpell` |
| C81 | `PropsDigits.v` | `SpecDigits`, `GenDigits` |
| C82, C83 | `PropsEnd.v` | `SpecEnd`, `GenEnd` |
| C33, C36 (for all results) | `PropsTurn.v` | `SpecTurn`, `CFAll` |
| C84 | `PropsWidth.v` | `SpecWidth`, `GenWidth` |
| C35 (when it returns) | `PropsBack.v` | `SpecBack`, `CFBack` |
| C02, C31, C37, C63 (further points) | `PropsTight.v` | `ClaimsTight.v` |
| C85 | `PropsConv.v` | `SmallCF`, `ClaimsConv` |
| C86 | `PropsSteep.v` | `GenSteep`, `ClaimsSteep` |
| C31 (sign and return by beginnings) | `PropsSign.v` | `CFSign`, `CFSign0`, `CFPeriod`, `ClaimsSign` |
| C87 | `PropsRoute.v` | `SpecRoute`, `ClaimsRoute` |
| C88 | `PropsRate.v` | `SymRate`, `ClaimsRate` |
| C89 | `PropsLimit.v` | `CFLimit`, `SymRate`, `ClaimsLimit` |
| C90, C91, C92, C93, C94 | `PropsRule.v` | `SurdRoots`, `CFPrefix`, `CFStep`, `ClaimsRule` |
| C95, C96 | `PropsFlip.v` | `SurdVieta`, `CFFlip`, `ClaimsFlip` |
| C97, C25 (integers over another root), C24 (no other root is Euclidean) | `PropsTypes.v` | `SurdClosed`, `ClaimsTypes` |
| C98 | `PropsUnit.v` | `SpecUnit`, `CFUnits`, `ClaimsUnit` |
| C99 | `PropsSerret.v` | `SpecSerret`, `CFSerret`, `GenSerret`, `ClaimsSerret` |
| C100 | `PropsHurwitz.v` | `CFHurwitz`, `ClaimsHurwitz` |
| C101 | `PropsOrder.v` | `SpecOrder`, `CFOrder`, `ClaimsOrder` |
| C102 | `PropsRecipe.v` | `SpecRecipe` (the program), `CFRecipe`, `ClaimsRecipe` |
| C103 | `PropsReturn.v` | `SpecReturn` (the program), `CFReturn`, `ClaimsReturn` |
| C104 | `PropsCompare.v` | `SpecCompare` (the programs), `SurdCompare`, `ClaimsCompare` |
| C105 | `PropsRebase.v` | `SpecRebase` (the programs), `SurdRebase`, `ClaimsRebase` |
| C106 | `PropsCalc.v` | `SpecCalc` (the programs), `CFCalc`, `ClaimsCalc` |
| C107 | `PropsFixed.v` | `SpecFixed` (the programs), `SurdFixed`, `ClaimsFixed` |
| C108 | `PropsEqual.v` | `SpecEqual` (the program), `SurdEqual`, `ClaimsEqual` |
| C109 | `PropsRounding.v` | `SpecEqual` (the programs), `SurdRounding`, `ClaimsRounding` |
| C110 | `PropsPrincipal.v` | `SpecPlaces` (the program), `SurdPlaces`, `ClaimsPrincipal` |
| C111 | `PropsPlaces.v` | `SpecPlaces` (the program), `SurdPlaces`, `ClaimsPlaces` |
| C13, C18, C24, C25, C28, C32, C49, C50, C51, C68, C78, C82 (exact domains) | `PropsExact.v` | `SurdKinds`, `SurdTrans`, `CFAddExact`, `CFOwned`, `GenDecEnd`, `GenPairs`, `IntRational`, `ClaimsExact` |

`Conformance.v` replays the repository's unit tests on the model. `seeded/LOG.jsonl` records
wrong variants of the model and which theorems stop compiling.
