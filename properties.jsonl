{"id": "C01", "title": "Every surd a program can build is in normal form", "statement": "Whatever sequence of public constructors, operators, rounding functions, conversions and square roots a program runs, each QuadraticSurd (a + b*sqrt r)/c it ends up holding has c > 0, gcd(a,b,c) = 1, and is either rational with b = r = 0, or has b <> 0 and an r that is not a perfect square; without the `complex` feature r is never negative.", "quantifier": "for every integer type, every feature setting, every finite sequence of API calls on every argument (Ratio arguments being in lowest terms)", "why_tests_cant": "The set of call sequences is infinite; tests look at a handful of end results and normal form has to survive every path through reduce().", "anchors": [{"file": "src/quadratic/surd.rs", "symbols": ["QuadraticSurd", "QuadraticSurd::reduce", "QuadraticSurd::new", "QuadraticSurd::from_coeffs", "QuadraticSurd::from_rationals"]}]}
{"id": "C02", "title": "Constructors denote exactly the number asked for", "statement": "QuadraticSurd::new(a,b,c,r), from_coeffs((a,b,c),r) and from_rationals(a,b,r) return a surd whose value is exactly (a+b*sqrt r)/c, respectively a+b*sqrt r; they panic exactly when the denominator is zero or the root is negative without `complex` (and, for a fixed-width type, on overflow).", "quantifier": "for all arguments of every integer type", "why_tests_cant": "Normalisation divides by several gcds and square roots; only a proof covers every divisor pattern of a, b, c and r.", "anchors": [{"file": "src/quadratic/surd.rs", "symbols": ["QuadraticSurd::new", "QuadraticSurd::from_coeffs", "QuadraticSurd::from_rationals", "QuadraticSurd::reduce"]}]}
{"id": "C03", "title": "Addition and subtraction are exact", "statement": "Whenever x + y or x - y returns (y a surd, a rational or an integer, possibly with a different root that is commensurable), the value of the result is exactly the sum or difference of the values.", "quantifier": "for all pairs of normal-form surds and all rationals and integers, every integer type and feature setting", "why_tests_cant": "Infinitely many operand pairs, with separate code paths for equal roots, commensurable roots, rational operands on either side.", "anchors": [{"file": "src/quadratic/surd.rs", "symbols": ["Add for QuadraticSurd", "Sub for QuadraticSurd", "QuadraticSurd::reduce_root_hinted", "reduce_bin_op"]}]}
{"id": "C04", "title": "Multiplication is exact", "statement": "Whenever x * y returns, the value of the result is exactly the product of the values of x and y.", "quantifier": "for all pairs of normal-form surds (real or complex) and all rationals and integers", "why_tests_cant": "The shortcut for two pure roots combines the roots under one radical; that is an identity on some sign patterns only, which sampled tests do not separate.", "anchors": [{"file": "src/quadratic/surd.rs", "symbols": ["Mul for QuadraticSurd"]}]}
{"id": "C05", "title": "Division and reciprocal are exact", "statement": "Whenever x / y or x.recip() returns, the value of the result is exactly the quotient of the values; dividing zero by a non-zero surd gives zero.", "quantifier": "for all pairs of normal-form surds (real or complex) and all rationals and integers", "why_tests_cant": "Same as multiplication, plus the zero numerators that take a different path.", "anchors": [{"file": "src/quadratic/surd.rs", "symbols": ["Div for QuadraticSurd", "QuadraticSurd::recip", "QuadraticSurd::recip_ref"]}]}
{"id": "C06", "title": "Arithmetic inside one quadratic field never panics", "statement": "With arbitrary-precision integers, adding, subtracting or multiplying two surds that lie in the same quadratic field (or where one of them is rational) always returns a value, and dividing does so too when the divisor is not zero.", "quantifier": "for all pairs of normal-form surds over BigInt lying in a common quadratic field", "why_tests_cant": "A panic needs a particular relation between the two roots; tests only use roots that differ by a square factor.", "anchors": [{"file": "src/quadratic/surd.rs", "symbols": ["reduce_bin_op", "reduce_bin_op_unwrap", "Add for QuadraticSurd", "Mul for QuadraticSurd", "Div for QuadraticSurd"]}]}
{"id": "C07", "title": "Negation, conjugation, numerator and denominator", "statement": "-x has the opposite value; conj(x) is the algebraic conjugate (sqrt r replaced by -sqrt r), conj(conj(x)) is x, x*conj(x) and x+conj(x) are rational; numer(x)/denom(x) has the value of x.", "quantifier": "for all normal-form surds", "why_tests_cant": "Algebraic identities over an infinite domain.", "anchors": [{"file": "src/quadratic/surd.rs", "symbols": ["Neg for QuadraticSurd", "QuadraticSurd::conj", "QuadraticSurd::numer", "QuadraticSurd::denom", "QuadraticSurdCoeffs::norm"]}]}
{"id": "C08", "title": "== decides equality of values", "statement": "x == y returns true exactly when x and y denote the same number, even when they carry different roots.", "quantifier": "for all pairs of normal-form surds", "why_tests_cant": "Equality compares squares when the roots differ; sign errors show only on particular pairs.", "anchors": [{"file": "src/quadratic/surd.rs", "symbols": ["PartialEq for QuadraticSurd"]}]}
{"id": "C09", "title": "Sign tests are right", "statement": "is_positive() (is_negative()) returns true exactly when the real value is > 0 (< 0).", "quantifier": "for all normal-form real surds", "why_tests_cant": "The decision compares squares by sign case; boundary cases are arbitrarily close to zero.", "anchors": [{"file": "src/quadratic/surd.rs", "symbols": ["QuadraticSurd::is_positive", "QuadraticSurd::is_negative"]}]}
{"id": "C10", "title": "floor() is the floor", "statement": "floor() returns the greatest integer not above the value.", "quantifier": "for all normal-form real surds", "why_tests_cant": "Surds come arbitrarily close to integers from both sides; a test cannot rule out an off-by-one on some of them.", "anchors": [{"file": "src/quadratic/surd.rs", "symbols": ["QuadraticSurd::floor", "QuadraticSurd::floor_ref"]}]}
{"id": "C11", "title": "trunc() rounds toward zero", "statement": "trunc() of a real surd returns the value rounded toward zero to an integer; of a complex surd, the Gaussian integer with both parts rounded toward zero.", "quantifier": "for all normal-form surds", "why_tests_cant": "The integer square root is taken before the division, so the error depends on signs and divisibility.", "anchors": [{"file": "src/quadratic/surd.rs", "symbols": ["QuadraticSurd::trunc", "QuadraticSurd::trunc_ref"]}]}
{"id": "C12", "title": "trunc() + fract() = x", "statement": "trunc(x) + fract(x) has exactly the value of x, and fract(x) is the exact difference.", "quantifier": "for all normal-form surds for which fract returns", "why_tests_cant": "Identity over an infinite domain.", "anchors": [{"file": "src/quadratic/surd.rs", "symbols": ["QuadraticSurd::fract", "QuadraticSurd::fract_ref", "QuadraticSurd::trunc"]}]}
{"id": "C13", "title": "Conversions to integers and rationals say whether they are exact", "statement": "to_integer() and to_rational() return Exact(v) only when the number is exactly v, and Exact whenever the number is an integer (a rational); an Approximated integer is the number rounded toward zero, an Approximated rational n/c is within 1/c of the number; to_i64()/to_u64() return Some(n) exactly when the number is the integer n and n fits.", "quantifier": "for all normal-form real surds", "why_tests_cant": "Exactness claims quantify over all numbers; the approximation error depends on sign patterns.", "anchors": [{"file": "src/quadratic/surd.rs", "symbols": ["QuadraticSurd::to_integer", "QuadraticSurd::to_rational", "ToPrimitive for QuadraticSurd"]}]}
{"id": "C14", "title": "from_equation solves the equation", "statement": "from_equation(a,b,c) returns Some(x) with a*x^2+b*x+c = 0 (for a > 0 the larger of the two real roots) whenever the equation has a real root (any root, with `complex`), and None otherwise.", "quantifier": "for all rational coefficients with a and b not both zero", "why_tests_cant": "Correctness is an algebraic identity and completeness quantifies over all equations.", "anchors": [{"file": "src/quadratic/surd.rs", "symbols": ["QuadraticSurd::from_equation"]}]}
{"id": "C15", "title": "from_sqrt of an integer or rational is the principal square root", "statement": "from_sqrt(t) returns Ok(x) with x^2 = t and x the principal root, or Err carrying t itself; Err(Complex) happens exactly for negative t without `complex`, Err(Overflow) only for fixed-width types.", "quantifier": "for all integers and all rationals in lowest terms", "why_tests_cant": "Quantifies over all inputs including unsquarefree and perfect-square numerators.", "anchors": [{"file": "src/quadratic/surd.rs", "symbols": ["FromSqrt<T> for QuadraticSurd", "FromSqrt<Ratio<T>> for QuadraticSurd"]}, {"file": "src/traits.rs", "symbols": ["FromSqrt", "FromSqrtError"]}]}
{"id": "C16", "title": "from_sqrt of a surd is its square root", "statement": "from_sqrt(x) returns Ok(y) with y^2 = x and y the principal (non-negative) root whenever some surd over the same root squares to x; otherwise it returns Err carrying a surd equal to x, with kind Complex exactly when x is negative and `complex` is off.", "quantifier": "for all normal-form surds", "why_tests_cant": "Existence of a root inside the field is a number-theoretic condition; tests try three inputs.", "anchors": [{"file": "src/quadratic/surd.rs", "symbols": ["FromSqrt<QuadraticSurd<T>> for QuadraticSurd"]}]}
{"id": "C17", "title": "reduced() keeps the value and removes small square factors", "statement": "reduced() returns a surd with the same value whose root is not divisible by the square of any prime below 256, and it always returns.", "quantifier": "for all normal-form surds", "why_tests_cant": "Termination and absence of square factors are claims about every root.", "anchors": [{"file": "src/quadratic/surd.rs", "symbols": ["QuadraticSurd::reduced", "QuadraticSurd::reduce_root"]}]}
{"id": "C18", "title": "Classification predicates are right", "statement": "is_rational() <-> the value is rational; is_integer() <-> the value is an integer; is_complex() <-> the value is not real; is_pure() <-> the value is non-zero, irrational and its square is rational; is_gaussint() <-> the value is a Gaussian integer; is_quadint() <-> the value is an algebraic integer.", "quantifier": "for all normal-form surds", "why_tests_cant": "Each is an equivalence between a field test and a statement about the value, for infinitely many values.", "anchors": [{"file": "src/quadratic/surd.rs", "symbols": ["QuadraticSurd::is_rational", "QuadraticSurd::is_integer", "QuadraticSurd::is_gaussint", "QuadraticSurd::is_quadint", "QuadraticSurd::is_complex", "QuadraticSurd::is_pure"]}]}
{"id": "C19", "title": "Fixed-width arithmetic never returns a wrong number", "statement": "If an operation on surds or quadratic integers over a machine integer type returns, it returns what the same call returns over BigInt, and every component fits the type; the only other outcomes are an overflow panic, from_sqrt reporting Err(Overflow), or the panic BigInt would raise too (and reduced() may panic when the type cannot hold its prime table).", "quantifier": "for every machine integer width and all operands", "why_tests_cant": "The number of operand combinations at each width is astronomically large.", "anchors": [{"file": "src/quadratic/surd.rs", "symbols": ["QuadraticSurd"]}, {"file": "src/quadratic/integer.rs", "symbols": ["QuadraticInt"]}]}
{"id": "C20", "title": "Quadratic integer constructors denote the number asked for", "statement": "QuadraticInt::new(a,b,r) has the value a+b*sqrt r; from_coeffs((a,b),r) has the value a+b*w with w = sqrt r for r = 2,3 mod 4 and w = (1+sqrt r)/2 for r = 1 mod 4; the result's root is never 0 mod 4 except for rational results.", "quantifier": "for all integers a, b, r (r > 0 without `complex`; r not 0 mod 4 for from_coeffs)", "why_tests_cant": "The construction rescales by powers of four and by perfect squares; cases are infinite.", "anchors": [{"file": "src/quadratic/integer.rs", "symbols": ["QuadraticInt::new", "QuadraticInt::from_coeffs"]}]}
{"id": "C21", "title": "Quadratic integers form a ring under + - * and negation", "statement": "Sum, difference, product and negation of quadratic integers have exactly the sum, difference, product, negation as value, including operands with commensurable different roots and plain integers on the right.", "quantifier": "for all well-formed quadratic integers of every integer type, whenever the operation returns", "why_tests_cant": "Algebraic identities with two bases (sqrt D and (1+sqrt D)/2) over infinite domains.", "anchors": [{"file": "src/quadratic/integer.rs", "symbols": ["Add for QuadraticInt", "Sub for QuadraticInt", "Mul for QuadraticInt", "Neg for QuadraticInt", "QuadraticIntCoeffs"]}]}
{"id": "C22", "title": "Norm and conjugate of quadratic integers", "statement": "conj(x) is the algebraic conjugate, norm(x) = x*conj(x) as a number, norm is multiplicative, norm(x) = 0 only for x = 0.", "quantifier": "for all well-formed quadratic integers", "why_tests_cant": "Identities over an infinite domain.", "anchors": [{"file": "src/quadratic/integer.rs", "symbols": ["QuadraticInt::conj", "QuadraticInt::norm", "QuadraticIntCoeffs::norm_ref"]}]}
{"id": "C23", "title": "Division of quadratic integers rounds to the nearest lattice point", "statement": "x / y returns the element q whose coordinates are the coordinates of the exact quotient rounded to the nearest integer (ties away from zero).", "quantifier": "for all well-formed quadratic integers x, y with y not zero", "why_tests_cant": "Rounding with ties and signs in two coordinates; infinitely many operands.", "anchors": [{"file": "src/quadratic/integer.rs", "symbols": ["Div for QuadraticInt", "QuadraticIntCoeffs::div", "div_rem_round"]}]}
{"id": "C24", "title": "Division with remainder is Euclidean for the small norm-Euclidean rings", "statement": "For D in {-3,-2,-1,2,3,5,13} (roots whose lattice rounding is Euclidean) the remainder satisfies |norm(x % y)| < |norm(y)|, so Euclid's algorithm terminates.", "quantifier": "for all x and all non-zero y over each of these roots", "why_tests_cant": "A bound on a remainder for all operands is not testable by sampling.", "anchors": [{"file": "src/quadratic/integer.rs", "symbols": ["Rem for QuadraticInt", "QuadraticIntCoeffs::div_rem", "GaussianInt"]}]}
{"id": "C25", "title": "x = (x / y) * y + (x % y)", "statement": "Whenever both x / y and x % y return, (x / y) * y + (x % y) has the value of x.", "quantifier": "for all well-formed quadratic integers x, y with y non-zero, and for plain integers y", "why_tests_cant": "An identity that must hold on every path (rational divisor, rational dividend, different roots).", "anchors": [{"file": "src/quadratic/integer.rs", "symbols": ["Rem for QuadraticInt", "Div for QuadraticInt", "Rem<T> for QuadraticInt"]}]}
{"id": "C26", "title": "Equality and predicates of quadratic integers", "statement": "x == y exactly when the values are equal; is_rational() exactly when the value is rational; is_pure() exactly when the rational part is zero.", "quantifier": "for all well-formed quadratic integers", "why_tests_cant": "Equivalences over infinite domains; sign errors only show for conjugate pairs with different roots.", "anchors": [{"file": "src/quadratic/integer.rs", "symbols": ["PartialEq for QuadraticInt", "QuadraticInt::is_rational", "QuadraticInt::is_pure"]}]}
{"id": "C27", "title": "Gaussian integers are a Euclidean ring", "statement": "GaussianInt + - * conj norm agree with complex numbers; x = (x/y)*y + x%y with norm(x%y) <= norm(y)/2, for y non-zero.", "quantifier": "for all Gaussian integers over every signed integer type, whenever the operation returns; over BigInt it always returns", "why_tests_cant": "Infinite domain; the bound is tight.", "anchors": [{"file": "src/quadratic/integer.rs", "symbols": ["GaussianInt"]}]}
{"id": "C28", "title": "Coefficient iterators enumerate the continued fraction", "statement": "coeffs(), coeffs_unsigned(), generalized() and into_coeffs() yield the aperiodic coefficients once and then the periodic coefficients forever in order (or stop when there are none), with the sign applied.", "quantifier": "for all continued fractions with a non-empty aperiodic part and for every position n", "why_tests_cant": "The statement is about the n-th item for every n.", "anchors": [{"file": "src/cont_frac/simple.rs", "symbols": ["Coefficients", "SignedCoefficients", "GeneralCoefficients", "OwnedCoefficients"]}]}
{"id": "C29", "title": "convergents() are the convergents and converge", "statement": "The n-th item of convergents() is, in lowest terms, the value of the continued fraction cut after n+1 coefficients; consecutive convergents satisfy p_n q_{n-1} - p_{n-1} q_n = +-1; for an infinite fraction they converge to its value, alternating around it.", "quantifier": "for all continued fractions with positive coefficients after the first, for every n, with arbitrary-precision integers", "why_tests_cant": "Quantifies over every position and every coefficient sequence; convergence is a limit statement.", "anchors": [{"file": "src/cont_frac/simple.rs", "symbols": ["Convergents", "ContinuedFraction::convergents"]}, {"file": "src/cont_frac/block.rs", "symbols": ["Block::checked_rmove"]}]}
{"id": "C30", "title": "From<Ratio> gives the canonical finite continued fraction", "statement": "ContinuedFraction::from(r) has exactly the value r, its coefficients after the first are positive, the last is > 1 when there is more than one, and to_rational() gives back Exact(r).", "quantifier": "for all rationals in lowest terms", "why_tests_cant": "Euclid's algorithm on unbounded inputs.", "anchors": [{"file": "src/cont_frac/simple.rs", "symbols": ["From<Ratio<T>>", "ContinuedFraction::to_rational"]}]}
{"id": "C31", "title": "ContinuedFraction::new accepts any integer coefficients and keeps the value", "statement": "new(a,p,negative) returns a continued fraction with non-negative stored coefficients, positive after the first, whose value is that of the (possibly zero or negative) coefficients given.", "quantifier": "for all coefficient lists for which the fraction has a value", "why_tests_cant": "The normalisation rewrites zeros and negative coefficients with a stack; there are infinitely many sign patterns.", "anchors": [{"file": "src/cont_frac/simple.rs", "symbols": ["ContinuedFraction::new", "FromIterator<T> for ContinuedFraction<U>", "from_iter"]}]}
{"id": "C32", "title": "Adding an integer to a continued fraction", "statement": "cf + n and cf - n have exactly the value of cf plus or minus n.", "quantifier": "for all continued fractions and all integers", "why_tests_cant": "The sign-change path rewrites the coefficients; tests only use sqrt 2 and 1.", "anchors": [{"file": "src/cont_frac/simple.rs", "symbols": ["Add<T> for ContinuedFraction", "Sub<T> for ContinuedFraction"]}]}
{"id": "C33", "title": "Arithmetic on continued fractions is exact", "statement": "cf * n, cf / n, cf op ratio and cf op cf return a continued fraction with exactly the value of the operation.", "quantifier": "for all continued fractions and operands for which the operation returns", "why_tests_cant": "Goes through conversions in both directions; infinite domain.", "anchors": [{"file": "src/cont_frac/simple.rs", "symbols": ["Mul<T> for ContinuedFraction", "Div<T> for ContinuedFraction", "impl_binop_for_ratio_surd", "Add<T> for ContinuedFraction<U>"]}]}
{"id": "C34", "title": "Converting a surd to a continued fraction is exact", "statement": "ContinuedFraction::try_from(x) returns, for every real surd, an eventually periodic (or finite) continued fraction with exactly the value of x, and Err exactly for complex surds.", "quantifier": "for all normal-form surds", "why_tests_cant": "Termination needs Lagrange's theorem; exactness is a limit statement about the periodic tail.", "anchors": [{"file": "src/quadratic/surd.rs", "symbols": ["quadsurd_to_contfrac", "TryFrom<QuadraticSurd<T>>"]}]}
{"id": "C35", "title": "Converting a continued fraction to a surd is exact", "statement": "QuadraticSurd::from(cf) has exactly the value of cf.", "quantifier": "for all finite and eventually periodic continued fractions with positive coefficients after the first, over arbitrary-precision integers", "why_tests_cant": "The value of a periodic continued fraction is a limit.", "anchors": [{"file": "src/quadratic/surd.rs", "symbols": ["From<ContinuedFraction<T>> for QuadraticSurd"]}]}
{"id": "C36", "title": "Surd -> continued fraction -> surd is the identity", "statement": "Converting a real surd to a continued fraction and back gives a surd of the same value.", "quantifier": "for all normal-form real surds on which the first conversion is defined", "why_tests_cant": "Composition of two algorithms over an infinite domain.", "anchors": [{"file": "src/quadratic/surd.rs", "symbols": ["TryFrom<QuadraticSurd<T>>", "From<ContinuedFraction<T>> for QuadraticSurd"]}]}
{"id": "C37", "title": "approximated(limit) is the promised rational approximation", "statement": "approximated(limit) returns Exact(v) only if the number is exactly v; otherwise it returns Approximated(p/q) with q <= limit and, as documented, an error below 1/limit^2.", "quantifier": "for all continued fractions, all surds on which conversion is defined, and all limits >= 1", "why_tests_cant": "An error bound for every limit and every number.", "anchors": [{"file": "src/cont_frac/simple.rs", "symbols": ["Computable<U> for ContinuedFraction<T>", "approximated"]}, {"file": "src/quadratic/surd.rs", "symbols": ["Computable<T> for QuadraticSurd<T>", "approximated"]}, {"file": "src/traits.rs", "symbols": ["Computable", "Approximation"]}]}
{"id": "C38", "title": "to_integer and to_rational of continued fractions", "statement": "ContinuedFraction::to_integer() is the value rounded toward zero and is Exact exactly for integers; to_rational() is Exact with the value for finite fractions, and for infinite ones a convergent.", "quantifier": "for all continued fractions in normal form over arbitrary-precision integers", "why_tests_cant": "Infinite domain.", "anchors": [{"file": "src/cont_frac/simple.rs", "symbols": ["ContinuedFraction::to_integer", "ContinuedFraction::to_rational"]}]}
{"id": "C39", "title": "Printing is unambiguous", "statement": "The text printed for a surd (with or without `{:#}`) or a continued fraction determines it: two different normal-form surds, or two different continued fractions, never print the same text.", "quantifier": "for all pairs of normal-form surds and of continued fractions", "why_tests_cant": "Injectivity quantifies over pairs.", "anchors": [{"file": "src/quadratic/surd.rs", "symbols": ["Display for QuadraticSurd"]}, {"file": "src/cont_frac/simple.rs", "symbols": ["Display for ContinuedFraction"]}]}
{"id": "C40", "title": "Convergents of generalized continued fractions", "statement": "The n-th item of convergents() of any iterator of pairs (a_k,b_k) is the value b_1 + a_2/(b_2 + ... a_n/b_n), even though common factors are divided out along the way; it ends early only if the type overflows.", "quantifier": "for all sequences of pairs with no vanishing denominators and for every n", "why_tests_cant": "Quantifies over all sequences; cancellation must preserve a projective invariant.", "anchors": [{"file": "src/cont_frac/general.rs", "symbols": ["Convergents", "GeneralContinuedFraction::convergents"]}, {"file": "src/cont_frac/block.rs", "symbols": ["Block::checked_gmove"]}]}
{"id": "C41", "title": "simplify() preserves the number", "statement": "The coefficients produced by simplify() are the simple continued fraction coefficients of the number the generalized fraction converges to.", "quantifier": "for all convergent generalized continued fractions with positive terms, for every prefix of the output", "why_tests_cant": "Statement about every prefix of an infinite output for every input sequence.", "anchors": [{"file": "src/cont_frac/general.rs", "symbols": ["Simplified", "GeneralContinuedFraction::simplify"]}, {"file": "src/cont_frac/block.rs", "symbols": ["Block::gmove", "Block::reduce_recip"]}]}
{"id": "C42", "title": "homo() computes (ax+b)/(cx+d)", "statement": "The coefficients produced by homo(a,b,c,d) on the coefficients of x are the continued fraction coefficients of (ax+b)/(cx+d).", "quantifier": "for all coefficient sequences, all a,b,c,d, every prefix of the output", "why_tests_cant": "Statement about every prefix of an infinite output for every input sequence.", "anchors": [{"file": "src/cont_frac/infinite.rs", "symbols": ["HomographicResult", "InfiniteContinuedFraction::homo"]}, {"file": "src/cont_frac/block.rs", "symbols": ["Block::rmove", "Block::reduce_recip"]}]}
{"id": "C43", "title": "decimals() are the decimal digits", "statement": "decimals() yields the decimal digits of the number: the first n+1 items are the digits of floor(10^n * x).", "quantifier": "for all convergent generalized continued fractions with positive terms and value in [0,10), for every n", "why_tests_cant": "Statement about every digit; a digit is only known when the two bounds agree.", "anchors": [{"file": "src/cont_frac/general.rs", "symbols": ["DecimalDigits", "GeneralContinuedFraction::decimals"]}, {"file": "src/cont_frac/block.rs", "symbols": ["Block::reduce_mul"]}]}
{"id": "C44", "title": "bihomo() computes (axy+bx+cy+d)/(exy+fx+gy+h)", "statement": "The coefficients produced by bihomo are the continued fraction coefficients of (axy+bx+cy+d)/(exy+fx+gy+h).", "quantifier": "for all pairs of coefficient sequences and all eight coefficients, every prefix of the output", "why_tests_cant": "There is no test of bihomo at all; correctness is about all prefixes.", "anchors": [{"file": "src/cont_frac/infinite.rs", "symbols": ["BihomographicResult", "InfiniteContinuedFraction::bihomo"]}, {"file": "src/cont_frac/block.rs", "symbols": ["DualBlock"]}]}
{"id": "C45", "title": "exp(x) is e^x", "statement": "The convergents of exp(x) converge to e^x; the n-th is the partial sum of the exponential series.", "quantifier": "for all integers x and every n (arbitrary precision)", "why_tests_cant": "A limit statement.", "anchors": [{"file": "src/cont_frac/general.rs", "symbols": ["exp", "ExpCoefficients"]}]}
{"id": "C46", "title": "Pi's generalized continued fraction converges to pi", "statement": "The convergents of Pi.gfrac() converge to pi.", "quantifier": "for every n (limit), arbitrary precision", "why_tests_cant": "A limit statement; a test sees six coefficients.", "anchors": [{"file": "src/symbols.rs", "symbols": ["Pi::gfrac", "PiCoefficients"]}]}
{"id": "C47", "title": "E's continued fraction converges to e", "statement": "The coefficients of E.cfrac() are 2,1,2k,1,1,2(k+1),1,... and the convergents converge to e.", "quantifier": "for every n, arbitrary precision", "why_tests_cant": "A limit statement; a test sees ten coefficients.", "anchors": [{"file": "src/symbols.rs", "symbols": ["E::cfrac", "ECoefficients"]}]}
{"id": "C48", "title": "Gamma's generalized continued fraction converges to the Euler-Mascheroni constant", "statement": "The convergents of Gamma.gfrac() converge to Euler's constant gamma; the auxiliary integers satisfy q_n = sum_k binom(n,k)^2 k!.", "quantifier": "for every n, arbitrary precision", "why_tests_cant": "A limit statement; a test sees six coefficients, and the code truncates rationals to integers on the way.", "anchors": [{"file": "src/symbols.rs", "symbols": ["Gamma::gfrac", "GammaCoefficients"]}]}
{"id": "C49", "title": "Signed/unsigned conversions round-trip", "statement": "to_signed and to_unsigned are inverse to each other on values representable in both types, and conversion of any value that is not representable does not silently produce a different number.", "quantifier": "for every width and every value", "why_tests_cant": "All 2^n values for every width n.", "anchors": [{"file": "src/traits.rs", "symbols": ["WithSigned", "WithUnsigned"]}]}
{"id": "C50", "title": "generalize() keeps the value", "statement": "x.generalize() is a generalized continued fraction with the same convergents as x.", "quantifier": "for all coefficient sequences", "why_tests_cant": "There is no test of generalize; equality of all convergents.", "anchors": [{"file": "src/cont_frac/infinite.rs", "symbols": ["InfiniteContinuedFraction::generalize"]}, {"file": "src/cont_frac/general.rs", "symbols": ["GeneralContinuedFraction"]}]}
{"id": "C51", "title": "Equal surds hash equally", "statement": "If x == y then x and y feed the same data to a hasher (Rust's Hash/Eq contract).", "quantifier": "for all pairs of normal-form surds", "why_tests_cant": "A contract about all pairs.", "anchors": [{"file": "src/quadratic/surd.rs", "symbols": ["derive(Hash", "QuadraticSurd", "PartialEq for QuadraticSurd"]}]}
{"id": "C52", "title": "Operations over BigInt never panic on valid input", "statement": "With arbitrary-precision integers: new, from_coeffs, from_rationals with non-zero denominator and allowed root, floor, trunc, fract, sign tests, ==, neg, conj, recip of non-zero surds, from_sqrt, from_equation, and + - * / with integers and rationals (non-zero divisor) always return.", "quantifier": "for all normal-form surds (real ones for the order-dependent functions)", "why_tests_cant": "Absence of panics on an infinite domain.", "anchors": [{"file": "src/quadratic/surd.rs", "symbols": ["QuadraticSurd"]}]}
{"id": "C53", "title": "to_f64 is None for complex numbers and otherwise accurate", "statement": "to_f64 answers None exactly for the surds that are not real. For integers up to 2^500 (all primitive types) the answer is finite and off by at most 2^-50 (|a| + |b| sqrt r) / c, hence by 2^-50 relatively when a and b do not have opposite signs. Rationals with parts up to 2^53 and square roots of integers up to 2^53 become the nearest f64.", "quantifier": "for all normal-form surds within the bounds", "why_tests_cant": "The tests compare four numbers to 1e-10; the bound is over all inputs and includes every rounding.", "anchors": [{"file": "src/quadratic/surd.rs", "symbols": ["ToPrimitive for QuadraticSurd<T>", "to_f64"]}]}
{"id": "C54", "title": "to_complex64 and to_complex32 are accurate in both parts", "statement": "A real surd gets its to_f64 and imaginary part 0. For other surds with integers up to 2^500 both parts have a relative error of at most 2^-50. to_complex32 rounds both parts of to_complex64 to the nearest f32.", "quantifier": "for all normal-form surds within the bounds", "why_tests_cant": "No test covers them; the bound is over all inputs.", "anchors": [{"file": "src/quadratic/surd.rs", "symbols": ["QuadraticSurd::to_complex64", "QuadraticSurd::to_complex32"]}]}
{"id": "C55", "title": "E::value and Pi::value are the nearest doubles", "statement": "No f64 is closer to e than E.value(), and no f64 is closer to pi than Pi::value().", "quantifier": "for all f64 numbers", "why_tests_cant": "e and pi are not representable; needs a bound on real numbers.", "anchors": [{"file": "src/symbols.rs", "symbols": ["E::value", "Pi::value"]}]}
{"id": "C56", "title": "from_f64 keeps the rational approximation", "statement": "from_f64 denotes exactly the rational number found by Ratio::<i64>::from_f64, in normal form; it answers None exactly when there is none or its parts do not fit the integer type, and never panics.", "quantifier": "for all answers of Ratio::from_f64 and all integer types", "why_tests_cant": "No test of from_f64; about all rationals and all types.", "anchors": [{"file": "src/quadratic/surd.rs", "symbols": ["FromPrimitive for QuadraticSurd<T>", "from_f64"]}]}
{"id": "C57", "title": "approximated() of a generalized continued fraction", "statement": "approximated(limit) answers a convergent whose denominator is at most the limit, Exact only for the last one, and its error is within 1/limit^2 as documented (the next convergent's denominator exceeds the limit).", "quantifier": "for all coefficient sources with positive terms, all limits, all integer types", "why_tests_cant": "Infinite sources and an error bound over real numbers.", "anchors": [{"file": "src/cont_frac/general.rs", "symbols": ["GeneralContinuedFraction::approximated", "Approximation"]}]}
{"id": "C58", "title": "== of continued fractions is equality of numbers", "statement": "x == y exactly if x and y are the same number: the internal representation of equal numbers is the same, as the documentation of new() promises; the continued fraction of a surd is the shortest one with its value.", "quantifier": "for all stored continued fractions; for all surds, at all integer types", "why_tests_cant": "Compares all pairs, including periodic fractions and surds over different roots.", "anchors": [{"file": "src/cont_frac/simple.rs", "symbols": ["ContinuedFraction", "PartialEq", "ContinuedFraction::new"]}, {"file": "src/quadratic/surd.rs", "symbols": ["TryFrom<QuadraticSurd<T>>"]}]}
{"id": "C59", "title": "zero, one and the predicates of continued fractions", "statement": "zero() and one() are 0 and 1; is_zero, is_one, is_rational and is_integer are true exactly for the numbers they name; collect() denotes the number with the collected coefficients.", "quantifier": "for all stored continued fractions", "why_tests_cant": "is_rational and is_integer are about all real values, including limits.", "anchors": [{"file": "src/cont_frac/simple.rs", "symbols": ["Zero for ContinuedFraction", "One for ContinuedFraction", "ContinuedFraction::is_rational", "ContinuedFraction::is_integer", "FromIterator<T> for ContinuedFraction<U>", "from_iter"]}]}
{"id": "C60", "title": "to_quadint and to_gaussint", "statement": "Exact answers denote the surd; Approximated answers have both coordinates rounded toward zero; Exact is answered for every quadratic (Gaussian) integer; the calls always return.", "quantifier": "for all normal-form surds, all integer types", "why_tests_cant": "No test of either function; about all coefficients and roots.", "anchors": [{"file": "src/quadratic/surd.rs", "symbols": ["QuadraticSurd::to_quadint", "QuadraticSurd::to_gaussint"]}]}
{"id": "C61", "title": "Arithmetic on coefficient triples", "statement": "The operators of QuadraticSurdCoeffs (+, -, * and / by a triple, a ratio or an integer, mul, div, conj, norm) compute the number they name: the value (a + b sqrt r)/c of the result is the sum, difference, product, quotient, conjugate or norm of the values; denominators stay nonzero. Division asks that neither the divisor nor its conjugate is 0 (one of them is enough if r is not a square). Division by zero never panics: it leaves denominator 0.", "quantifier": "for all triples with nonzero denominators, all roots (negative and square ones too), all integer types; over BigInt the operators always return", "why_tests_cant": "Identities between complex numbers for all coefficients and roots.", "anchors": [{"file": "src/quadratic/surd.rs", "symbols": ["QuadraticSurdCoeffs", "Add for QuadraticSurdCoeffs<T>", "Sub for QuadraticSurdCoeffs<T>", "Mul<T> for QuadraticSurdCoeffs<T>", "Div<T> for QuadraticSurdCoeffs<T>", "QuadraticOps<Self, &T, Self> for QuadraticSurdCoeffs<T>"]}]}
{"id": "C62", "title": "Arithmetic on quadratic-integer coefficient pairs", "statement": "The operators of QuadraticIntCoeffs compute the number they name over Z[omega]: sum, difference, product, conjugate, norm; division by an integer rounds both coordinates to the nearest integer (ties away from zero); div_rem gives the exact quotient with both coordinates rounded, and remainder = dividend - quotient * divisor. Roots divisible by 4 are rejected (conj and norm accept 0).", "quantifier": "for all pairs, all roots not divisible by 4 (square and negative ones too), all integer types; over BigInt the operators return unless the divisor has norm 0", "why_tests_cant": "Identities between complex numbers for all coefficients and roots.", "anchors": [{"file": "src/quadratic/integer.rs", "symbols": ["QuadraticIntCoeffs", "QuadraticOps<Self, &T, Self> for QuadraticIntCoeffs<T>", "div_rem", "norm_ref", "mod4d2", "div_rem_round"]}]}
{"id": "C63", "title": "Blocks of the continued fraction iterators", "statement": "A Block stands for x -> (pm1 x + pm2)/(qm1 x + qm2). rmove(a) substitutes a + 1/x, gmove(a, b) substitutes (b + 1/x)/a; checked_rmove and checked_gmove compute the same and answer None exactly where the plain ones overflow in products and sums; check_integer splits off a common integer part i, with the value within 1 of i for x >= 0; reduce_recip and reduce_mul continue with 1/(value - i) and base * (value - i).", "quantifier": "for all blocks, coefficients, real x, all integer types", "why_tests_cant": "Identities of real functions for all blocks; overflow behaviour of every integer width.", "anchors": [{"file": "src/cont_frac/block.rs", "symbols": ["Block::rmove", "Block::gmove", "Block::checked_rmove", "Block::checked_gmove", "Block::check_integer", "Block::reduce_recip", "Block::reduce_mul"]}]}
{"id": "C64", "title": "Dual blocks of bihomo()", "statement": "A DualBlock stands for (x, y) -> (pm11 xy + pm12 x + pm21 y + pm22)/(qm11 xy + qm12 x + qm21 y + qm22). rmove_right(a) substitutes a + 1/x for x, rmove_down(a) substitutes a + 1/y for y; check_integer splits off a common integer part i, reduce_recip continues with 1/(value - i).", "quantifier": "for all dual blocks, coefficients, real x and y, all integer types", "why_tests_cant": "Identities of real functions of two variables for all blocks.", "anchors": [{"file": "src/cont_frac/block.rs", "symbols": ["DualBlock::rmove_right", "DualBlock::rmove_down", "DualBlock::update_right", "DualBlock::check_integer", "DualBlock::reduce_recip"]}]}
{"id": "C65", "title": "The printed text means the number", "statement": "The text printed for a surd, in both formats, read with the usual conventions of arithmetic (juxtaposition multiplies, quotients bind tighter than sums, i is the imaginary unit), denotes exactly the surd's value; the bracket notation printed for a continued fraction reads back as the same continued fraction.", "quantifier": "for all surds with a positive denominator (normal or not), both formats, all integer types; all continued fractions with non-negative coefficients", "why_tests_cant": "Some 45 format branches over all coefficients; the tests compare a dozen literals.", "anchors": [{"file": "src/quadratic/surd.rs", "symbols": ["Display for QuadraticSurd"]}, {"file": "src/cont_frac/simple.rs", "symbols": ["Display for ContinuedFraction"]}]}
{"id": "C66", "title": "Convergents are best approximations", "statement": "For a continued fraction x with convergent r = p/q followed by one with denominator s, no fraction u/v with 0 < v < s has |v x - u| < |q x - p|. approximated(limit), when it answers Approximated(r), gives the best such fraction among all with denominators below limit; no fraction with a denominator up to that of r is nearer to x. Every fraction within 1/(2 q^2) of x is among the convergents. The same for approximated() on surds.", "quantifier": "for all regular continued fractions (finite or periodic, any sign), all limits, all fractions", "why_tests_cant": "Compares the answer with infinitely many competing fractions for every x and limit.", "anchors": [{"file": "src/cont_frac/simple.rs", "symbols": ["ContinuedFraction::convergents", "Computable<U> for ContinuedFraction<T>", "approximated"]}, {"file": "src/quadratic/surd.rs", "symbols": ["Computable<T> for QuadraticSurd<T>", "approximated"]}]}
{"id": "C67", "title": "Laws of arithmetic on surds", "statement": "Over one squarefree root the real surds (with the rationals) form a field under the operators: +, -, *, neg, conj, recip return (division excepted where it panics, C06), stay over that root, and commutativity, associativity, distributivity, neutral and inverse elements, x - y = x + (-y), x / y = x * (1/y), (x / y) * y = x hold as equality of the stored data; conj is compatible with + and *; equal numbers are equal data. For arbitrary roots both sides compare equal under == whenever both are computed. Sums and products of positive surds are positive and the sign predicates are exclusive.", "quantifier": "for all squarefree roots and all surds over them (arbitrary precision); the laws under == and the order laws for all normal surds and all integer types", "why_tests_cant": "Algebraic laws over unboundedly many triples; equality of data after independent reductions.", "anchors": [{"file": "src/quadratic/surd.rs", "symbols": ["Add for QuadraticSurd", "Sub for QuadraticSurd", "Mul for QuadraticSurd", "Div for QuadraticSurd", "Neg for QuadraticSurd", "QuadraticSurd::conj", "QuadraticSurd::recip", "QuadraticSurd::is_positive", "QuadraticSurd::is_negative"]}]}
{"id": "C68", "title": "== is an equivalence relation", "statement": "The implementations of PartialEq marked Eq are reflexive, symmetric and transitive, for surds, quadratic integers and continued fractions.", "quantifier": "for all values and all integer types", "why_tests_cant": "Eq's contract quantifies over all triples; HashMap and sort depend on it.", "anchors": [{"file": "src/quadratic/surd.rs", "symbols": ["PartialEq for QuadraticSurd", "Eq for QuadraticSurd"]}, {"file": "src/quadratic/integer.rs", "symbols": ["PartialEq for QuadraticInt", "Eq for QuadraticInt"]}, {"file": "src/cont_frac/simple.rs", "symbols": ["ContinuedFraction"]}]}
{"id": "C69", "title": "Small operands never overflow", "statement": "If all components of the operands are at most K in absolute value and a fixed power of K fits the integer type, an operation gives the very same outcome as over unbounded integers: K^2 for the constructor, K^3 for sign, rounding and conversion, K^4 for + - *, K^5 for ==, K^6 for recip, K^10 for / of surds; K^2 for + -, K^4 for * and norm, K^6 for / and % of quadratic integers over one root; K^3 and K^5 for Gaussian integers.", "quantifier": "for all bit widths n and all K with K^e < 2^(n-1), and all operands within K", "why_tests_cant": "A safe operand range covers about 2^128 pairs for i64 alone; users pick the width from it.", "anchors": [{"file": "src/quadratic/surd.rs", "symbols": ["QuadraticSurd::new", "Add for QuadraticSurd", "Sub for QuadraticSurd", "Mul for QuadraticSurd", "Div for QuadraticSurd", "reduce", "reduce_root_hinted", "floor", "trunc", "fract", "recip"]}, {"file": "src/quadratic/integer.rs", "symbols": ["Add for QuadraticInt", "Sub for QuadraticInt", "Mul for QuadraticInt", "Div for QuadraticInt", "Rem for QuadraticInt", "QuadraticIntCoeffs"]}]}
{"id": "C70", "title": "Coefficients and decimals of exp(x)", "statement": "For every integer x, exp(x).simplify() yields the coefficients of the simple continued fraction of e^x and exp(x).decimals() yields the decimal digits of e^x.", "quantifier": "for every integer x, every position in the stream and every number of steps", "why_tests_cant": "Infinite streams for infinitely many x; a test looks at a handful of items of one x, and the convergents lie on one side of the limit so that early items say nothing about later ones.", "anchors": [{"file": "src/cont_frac/general.rs", "symbols": ["exp", "ExpCoefficients", "simplify", "decimals"]}, {"file": "src/cont_frac/block.rs", "symbols": ["Block::reduce_recip", "Block::reduce_mul", "Block::check_integer"]}]}
{"id": "C71", "title": "Release builds agree with debug builds", "statement": "Every call has the same outcome (value, panic or endless loop) in a release build, where integer arithmetic wraps around and debug_assert! is not compiled in, as in a debug build, unless the debug build panics because of an overflow or a failed debug_assert!. Over BigInt the arithmetic of the two profiles is the same.", "quantifier": "for all operands of all modelled functions, for every integer type and width, for streams: any number of items", "why_tests_cant": "Two builds would have to be compared on every input of every width; a wrapped intermediate result looks like any other number.", "anchors": [{"file": "src/quadratic/surd.rs", "symbols": ["QuadraticSurd"]}, {"file": "src/quadratic/integer.rs", "symbols": ["QuadraticInt", "GaussianInt"]}, {"file": "src/cont_frac/simple.rs", "symbols": ["ContinuedFraction"]}, {"file": "src/cont_frac/block.rs", "symbols": ["Block", "DualBlock"]}, {"file": "src/cont_frac/general.rs", "symbols": ["GeneralContinuedFraction", "exp"]}, {"file": "src/symbols.rs", "symbols": ["E", "Pi", "Gamma"]}]}
{"id": "C72", "title": "Release builds are exact on small operands", "statement": "In a release build over an n-bit type, operators on operands whose components are at most K in absolute value return exactly what they return over BigInt, provided a fixed power of K fits the type (K^4 < 2^(n-1) for sums, differences and products of surds).", "quantifier": "for all widths n, all K and all operands within the bound", "why_tests_cant": "No panic marks an overflow in a release build, so a test can only notice it by recomputing the result exactly, for each operand.", "anchors": [{"file": "src/quadratic/surd.rs", "symbols": ["Add", "Sub", "Mul", "Div", "recip", "floor", "trunc", "fract", "is_positive", "PartialEq"]}, {"file": "src/quadratic/integer.rs", "symbols": ["QuadraticInt", "GaussianInt"]}]}
{"id": "C73", "title": "Shape of the continued fractions of square roots and reduced surds", "statement": "The continued fraction of the square root of a rational number above 1 is [a0; (l, 2 a0)] with a palindrome l, and every fraction of this shape is such a root. The fraction of a surd is purely periodic, [a0; (l, a0)], exactly when the surd is above 1 and its conjugate between -1 and 0; the period of -1/conjugate is the period read backwards.", "quantifier": "for all surds over any integer type and width, all roots and all periods", "why_tests_cant": "The length of the period varies without pattern with the root; one test checks one root.", "anchors": [{"file": "src/quadratic/surd.rs", "symbols": ["quadsurd_to_contfrac", "TryFrom<QuadraticSurd<T>>"]}, {"file": "src/cont_frac/simple.rs", "symbols": ["ContinuedFraction::new"]}]}
{"id": "C74", "title": "Convergents of square roots solve Pell's equation", "statement": "For a positive non-square n, the convergents x/y of from_sqrt(n) at the ends of the periods, and no other positive integers, satisfy x^2 - n y^2 = 1 or -1, the sign being that of the number of coefficients used; the first of them with sign + is the smallest solution, and -1 is reached exactly when the period is odd.", "quantifier": "for all positive non-square n, all positive x and y, all numbers of periods", "why_tests_cant": "The smallest solution can be astronomically large compared with n (n = 61 already gives ten digits), and that there is no further solution cannot be observed.", "anchors": [{"file": "src/quadratic/surd.rs", "symbols": ["from_sqrt", "quadsurd_to_contfrac"]}, {"file": "src/cont_frac/simple.rs", "symbols": ["convergents", "Convergents"]}]}
{"id": "C75", "title": "Conversions and approximations take few steps", "statement": "The fraction of p/q has at most 2 log2 q + 1 coefficients, in fact F(length+1) <= q for the Fibonacci numbers F; approximated(limit) looks at no more than n convergents when limit <= F(n+1), and the golden ratio needs that many; the fraction of (a + b sqrt r)/c has a period of at most k(k+1) coefficients, none above 2k, k the integer part of |bc| sqrt r, and is found after at most 3 + k(k+1) rounds with at most two coefficients before the period; reduced() divides by each prime at most 1 + log2 |r| times.", "quantifier": "for all fractions, rational numbers and limits; for all irrational surds (period and coefficients), and all whose conjugate is below their integer part (rounds and length of the start)", "why_tests_cant": "A bound on the number of rounds of a loop over all inputs is not observable by running some of them; periods of neighbouring roots have unrelated lengths.", "anchors": [{"file": "src/cont_frac/simple.rs", "symbols": ["From<Ratio<T>>", "Convergents", "Computable<U> for ContinuedFraction<T>", "approximated"]}, {"file": "src/quadratic/surd.rs", "symbols": ["quadsurd_to_contfrac", "reduced", "Computable<T> for QuadraticSurd<T>", "approximated"]}]}
{"id": "C76", "title": "Exact division and Euclid's algorithm", "statement": "(z * y) / y is z and (z * y) % y is 0; for Gaussian integers x % y is 0 exactly when y divides x, norm() is 1 exactly for the units, and Euclid's algorithm written with % returns a greatest common divisor after at most 2 + log2 norm(y) rounds; likewise for quadratic integers over the roots -3, -2, -1, 2, 3, 5, 13, where |norm| = 1 exactly for the units.", "quantifier": "for all Gaussian integers and all quadratic integers, over any integer type and width", "why_tests_cant": "Termination of a client's loop and being a greatest common divisor speak about all executions and all other divisors; exact quotients are a vanishing part of random inputs.", "anchors": [{"file": "src/quadratic/integer.rs", "symbols": ["GaussianInt", "QuadraticInt", "QuadraticIntCoeffs::div_rem", "Rem for QuadraticInt", "norm"]}]}
{"id": "C77", "title": "reduced() is a canonical form for small roots", "statement": "For irrational surds whose root is below 257^2 = 66049 in absolute value, reduced() leaves a squarefree root; two such surds are the same number exactly when their reduced() have the same four parts, so that == decides equality and equal numbers hash equally after reduced(); + - * / between the reduced() of two surds of one quadratic field do not panic; and a second reduced() changes nothing. The bound cannot be raised: sqrt(2*257^2) and 257 sqrt 2 are left as they are.", "quantifier": "for all irrational surds with |root| < 257^2, over any integer types the roots fit in", "why_tests_cant": "A canonical form is a statement about all pairs of surds and all representations of one number.", "anchors": [{"file": "src/quadratic/surd.rs", "symbols": ["reduced", "PartialEq for QuadraticSurd", "derive(Hash", "QuadraticSurd", "reduce_bin_op"]}]}
{"id": "C78", "title": "Operators with mixed operands agree with converting first", "statement": "For the operators + - * /, a Ratio or integer operand gives the same result, returned value or panic, as converting it first with from: for surds (Ratio and integer), for quadratic integers (integer), and for continued fractions (Ratio and integer).", "quantifier": "for all surds, quadratic integers, continued fractions, Ratio operands in lowest terms and integers, over BigInt", "why_tests_cant": "Equality of two code paths for all operands, including which of them panic.", "anchors": [{"file": "src/quadratic/surd.rs", "symbols": ["Add<Ratio<T>> for QuadraticSurd", "Add<T> for QuadraticSurd", "Add for QuadraticSurd"]}, {"file": "src/quadratic/integer.rs", "symbols": ["Add<T> for QuadraticInt", "Rem<T> for QuadraticInt", "Rem for QuadraticInt"]}, {"file": "src/cont_frac/simple.rs", "symbols": ["Add<T> for ContinuedFraction", "impl_binop_for_ratio_surd"]}]}
{"id": "C79", "title": "What homo() and simplify() spell converges to the number", "statement": "The items of homo(a,b,c,d) on the coefficients of x, read as a continued fraction (zero and negative items included), converge to (ax+b)/(cx+d), and those of simplify() to the number of the generalized fraction; the items that come at a fixed width are the same. The usual coefficients of an irrational number converge to it and determine it.", "quantifier": "for all endless coefficient sequences that are of one sign after the first, all a,b,c,d with ad <> bc, all widths; for simplify() all endless fractions with positive terms and an irrational limit", "why_tests_cant": "A statement about the limit of an infinite output for every input sequence and all coefficients, including those for which single items look wrong.", "anchors": [{"file": "src/cont_frac/infinite.rs", "symbols": ["HomographicResult", "InfiniteContinuedFraction::homo"]}, {"file": "src/cont_frac/general.rs", "symbols": ["Simplified", "GeneralContinuedFraction::simplify"]}, {"file": "src/cont_frac/block.rs", "symbols": ["Block::rmove", "Block::reduce_recip", "Block::check_integer"]}]}
{"id": "C80", "title": "simplify() and homo() keep the number whatever the signs, and can be chained", "statement": "On an endless generalized fraction with terms of any sign whose convergents tend to an irrational number, simplify() delivers endlessly many items, and read as a regular continued fraction they spell the same number; homo(a,b,c,d) with ad <> bc does the same for (ax+b)/(cx+d). The output satisfies what is required of the input, so the calls can be chained. In particular exp(x).simplify() spells e^x for every integer x <> 0, and exp(x).simplify().homo(a,b,c,d) spells (a e^x + b)/(c e^x + d).", "quantifier": "for all endless sources whose convergents (by the fundamental recurrences) tend to an irrational number, all a,b,c,d with ad <> bc, all n, all x <> 0; what comes at a fixed width is the same", "why_tests_cant": "The items themselves may be unusual (zero, negative, not the integer part), so only a statement about the limit of the infinite output for all inputs says that they are right.", "anchors": [{"file": "src/cont_frac/general.rs", "symbols": ["Simplified", "GeneralContinuedFraction::simplify", "exp"]}, {"file": "src/cont_frac/infinite.rs", "symbols": ["HomographicResult", "InfiniteContinuedFraction::homo"]}, {"file": "src/cont_frac/block.rs", "symbols": ["Block::gmove", "Block::rmove", "Block::reduce_recip", "Block::check_integer"]}]}
{"id": "C81", "title": "The characters of decimals() add up to the number whatever the signs", "statement": "On an endless generalized fraction with terms of any sign whose convergents tend to an irrational number x, decimals() never hangs and never ends: each next character comes, or the call panics, and it panics only when the digit on which two neighbouring convergents agree is below 0 or above 207. If all characters come, the sums of (code - code of '0')/10^n tend to x, even where a code is not that of a digit; if all characters after the first are '0' to '9', they are the decimal digits of x. For x < 0 or x > 230 some call panics. In particular for exp(k), k <> 0, where from k = 6 on some call panics.", "quantifier": "for all endless sources whose convergents (by the fundamental recurrences) tend to an irrational number, all n, all k <> 0; what comes at a fixed width is the same", "why_tests_cant": "For sources such as exp(2) single characters are not digits, so comparing them with the expected digits says nothing; that the whole endless output still denotes the number is a statement about its limit.", "anchors": [{"file": "src/cont_frac/general.rs", "symbols": ["DecimalDigits", "GeneralContinuedFraction::decimals", "exp"]}, {"file": "src/cont_frac/block.rs", "symbols": ["Block::checked_gmove", "Block::reduce_mul", "Block::check_integer"]}]}
{"id": "C82", "title": "homo(), simplify() and decimals() on fractions that end", "statement": "On a source that ends, homo(a,b,c,d) and simplify() yield finitely many items and end, and so does decimals() unless a numerator is 0 (it ends with None, or with a panic at an integer part outside 0..207, never with an endless search); the items are the first ones they yield on any other source that starts with the same terms, whether that one ends or not. The same holds for convergents(), generalize() and bihomo(). (What comes is only what all continuations have in common: homo(1,0,0,1) of 3/2 = [1,2] yields 1.)", "quantifier": "for all sources that end, all continuations of them, all a,b,c,d, all widths for the common beginning, arbitrary precision for the ending", "why_tests_cant": "Quantifies over all ways in which a finite beginning can be continued, including endless ones.", "anchors": [{"file": "src/cont_frac/infinite.rs", "symbols": ["HomographicResult", "BihomographicResult"]}, {"file": "src/cont_frac/general.rs", "symbols": ["Simplified", "DecimalDigits", "Convergents"]}]}
{"id": "C83", "title": "Iterators stay ended", "statement": "Once next() has answered None it answers None for ever: for the iterators over the coefficients of a ContinuedFraction and its convergents(), and, if the source stays ended, for homo(), bihomo(), simplify(), generalize(), decimals() and convergents() on it.", "quantifier": "for all continued fractions, all sources that stay ended, all numbers of calls before and after the first None, all widths", "why_tests_cant": "A statement about every later call in every state that calls can reach; tests stop at the first None.", "anchors": [{"file": "src/cont_frac/simple.rs", "symbols": ["Coefficients::next", "GeneralCoefficients::next", "SignedCoefficients::next", "Convergents::next", "OwnedCoefficients::next"]}, {"file": "src/cont_frac/general.rs", "symbols": ["Simplified", "DecimalDigits", "Convergents"]}, {"file": "src/cont_frac/infinite.rs", "symbols": ["HomographicResult", "BihomographicResult", "InfiniteContinuedFraction::generalize"]}]}
{"id": "C84", "title": "Fixed-width iterators agree with arbitrary precision until they stop", "statement": "Whatever item the iterators homo(), simplify(), generalize(), bihomo(), convergents() and decimals() return over a fixed-width integer type, they return the same item at the same place over arbitrary-precision integers, given coefficient sources that agree in the same way. homo(), simplify() and generalize() over sources that agree on their ends too also end only where arbitrary precision ends; convergents() and decimals() may end early. approximated(limit) answering Approximated answers the same. The built-in sources of exp, e, pi and gamma agree in this sense, and so do the coefficient iterators of a stored fraction whose coefficients fit the signed type; its approximated(limit) is the arbitrary-precision answer if its convergents fit up to one whose denominator reaches the limit.", "quantifier": "for all integer types, all coefficient sources (finite or not) and all coefficients, positions and fuel bounds", "why_tests_cant": "Intermediate products overflow at positions that depend on the coefficients; a test compares a few prefixes, the claim is about every prefix of every source at every width.", "anchors": [{"file": "src/cont_frac/general.rs", "symbols": ["Convergents", "Simplified", "DecimalDigits", "GeneralContinuedFraction::approximated", "ExpCoefficients"]}, {"file": "src/cont_frac/infinite.rs", "symbols": ["HomographicResult", "BihomographicResult", "InfiniteContinuedFraction::generalize"]}, {"file": "src/cont_frac/simple.rs", "symbols": ["coeffs", "generalized", "approximated"]}, {"file": "src/symbols.rs", "symbols": ["E", "Pi", "Gamma"]}]}
{"id": "C85", "title": "Fixed-width surds with small components are converted and approximated without overflow", "statement": "If the components of an irrational real QuadraticSurd over a signed n-bit type are at most K (at least 4) in absolute value and K^5 < 2^(n-1), and the conjugate is below the integer part (the numbers the conversion is right for), then the conversion to a ContinuedFraction does not overflow: it returns what it returns over arbitrary precision, the exact continued fraction. If K^5 * limit < 2^(n-1), approximated(limit) with limit >= 1 does not overflow either and answers as over arbitrary precision. The first coefficient is the integer part of |x|; all others lie between 1 and 2 |b c| sqrt(r).", "quantifier": "for all signed widths n, all K >= 4, all surds with components bounded by K in the domain of the conversion, all limits", "why_tests_cant": "The intermediate values grow along expansions of length up to K^5; a test shows that some surds do not overflow, not that none below the bound does.", "anchors": [{"file": "src/quadratic/surd.rs", "symbols": ["QuadraticSurd::approximated", "quadsurd_to_contfrac"]}, {"file": "src/cont_frac/simple.rs", "symbols": ["ContinuedFraction::approximated", "ContinuedFraction::new"]}]}
{"id": "C86", "title": "simplify() turns a half-regular or nearest-integer fraction into the usual coefficients", "statement": "If the numerators of an endless generalized fraction after the first pair are 1 or -1 and the denominators are at least 2 in absolute value, the fraction converges, all items of simplify() have one sign, only the first can be 0, and if the number is irrational they are its usual coefficients and all of them come; if it is positive they are positive. homo(a,b,0,d) with a, d in {1,-1} does the same for coefficients of any sign that are at least 2 in absolute value, giving the coefficients of (ax+b)/d. As the documentation says, simplifying once more ensures positive coefficients for every fraction (refuted).", "quantifier": "for all endless fractions with numerators of absolute value 1 and denominators of absolute value at least 2 after the first pair, all numbers of items; all widths for what comes", "why_tests_cant": "Quantifies over all sign patterns of endless fractions; that no item 0 or of the wrong sign ever comes is an invariant of the 2x2 block over all reads and emissions.", "anchors": [{"file": "src/cont_frac/general.rs", "symbols": ["GeneralContinuedFraction::simplify", "Simplified"]}, {"file": "src/cont_frac/infinite.rs", "symbols": ["InfiniteContinuedFraction::homo", "InfiniteContinuedFraction::generalize", "HomographicResult"]}, {"file": "src/cont_frac/block.rs", "symbols": ["Block::check_integer", "Block::reduce_recip", "Block::gmove", "Block::rmove"]}]}
{"id": "C87", "title": "Different ways to the same digits agree", "statement": "What the library computes in one way it also computes in any other way it offers. The coefficients of the continued fraction a positive QuadraticSurd is converted to are those found by hand with floor(), - and recip(); by hand they come out for every positive real surd, also for those the conversion gets wrong. homo(a,b,c,d) yields the coefficients of every stored fraction with the value (ax+b)/(cx+d); in particular x + q and x * q give the coefficients of homo(q.denom, q.numer, 0, q.denom) and homo(q.numer, 0, 0, q.denom). generalized().simplify() of a positive fraction yields its coeffs(). decimals() of the converted surd yields the last digits of floor() of the surd times 10^n. approximated() of the surd is one of the convergents() of the converted surd.", "quantifier": "for all irrational real surds (those the conversion is right for, where it is involved), all infinite continued fractions, all positions n, all limits, all ratios; all widths for what comes", "why_tests_cant": "Relates pairs of independent algorithms at every position of an infinite sequence and for every surd; tests compare prefixes for a few numbers.", "anchors": [{"file": "src/quadratic/surd.rs", "symbols": ["QuadraticSurd::floor", "QuadraticSurd::recip", "quadsurd_to_contfrac", "QuadraticSurd::approximated"]}, {"file": "src/cont_frac/simple.rs", "symbols": ["ContinuedFraction::coeffs", "ContinuedFraction::convergents", "ContinuedFraction::generalized"]}, {"file": "src/cont_frac/infinite.rs", "symbols": ["InfiniteContinuedFraction::homo"]}, {"file": "src/cont_frac/general.rs", "symbols": ["GeneralContinuedFraction::simplify", "GeneralContinuedFraction::decimals"]}]}
{"id": "C88", "title": "Convergents come with an error bound", "statement": "For a generalized continued fraction with positive terms the convergents() with even number lie below its value and those with odd number above, each is off by less than its distance to the next one, and the one after the next is closer. Convergent number n+1 of Pi::gfrac() is within 5^-n of pi, so approximated() on it gives a fraction within the limit that is as close as its number says; convergent number n of exp(x) is within |x|^(n+1)/(n+1)! * max(1, e^x) of e^x. Collecting the first coefficients of an endless positive source into a ContinuedFraction gives a fraction p/q closer than 1/q^2 to the value of the source; for the first 3k+3 items of E::cfrac() the error is below 1/(2^(k+1) (k+1)!)^2.", "quantifier": "for all positive convergent sources, all positions n, all exponents x, all k and all integer types, whenever the item is returned", "why_tests_cant": "A bound for every position of infinite sequences, against real numbers that no test can represent; tests compare a few convergents with literals.", "anchors": [{"file": "src/cont_frac/general.rs", "symbols": ["GeneralContinuedFraction", "convergents", "approximated", "exp"]}, {"file": "src/symbols.rs", "symbols": ["Pi", "E", "cfrac", "gfrac"]}, {"file": "src/cont_frac/simple.rs", "symbols": ["FromIterator<T> for ContinuedFraction<U>", "from_iter"]}]}
{"id": "C89", "title": "How approximated() depends on its limit", "statement": "approximated(limit) on a ContinuedFraction returns the last convergent whose denominator is at most the limit, so the number itself is returned, as Exact, if and only if its denominator is at most the limit. A larger limit never gives a larger error nor a smaller denominator, and a result that is Exact stays so. The same holds for a real QuadraticSurd and for Pi::gfrac().", "quantifier": "for all well-formed continued fractions, all real surds, all pairs of limits of at least 1, and for pi all integer types", "why_tests_cant": "Compares the results for every pair of limits on every fraction; tests try a single limit on a few constants and never a limit equal to a denominator.", "anchors": [{"file": "src/traits.rs", "symbols": ["Computable", "approximated"]}, {"file": "src/cont_frac/simple.rs", "symbols": ["Computable<U> for ContinuedFraction<T>", "approximated"]}, {"file": "src/quadratic/surd.rs", "symbols": ["Computable<T> for QuadraticSurd<T>", "approximated"]}, {"file": "src/cont_frac/general.rs", "symbols": ["Computable<T> for I", "approximated"]}, {"file": "src/symbols.rs", "symbols": ["Pi", "gfrac"]}]}
{"id": "C90", "title": "Square roots multiply and divide", "statement": "For ratios p and q that are not negative, from_sqrt(p) * from_sqrt(q) has the value of from_sqrt(p * q) and from_sqrt(p) / from_sqrt(q) that of from_sqrt(p / q), and == finds them equal although they may be stored over different roots. Over unbounded integers the product always comes out, and the quotient if and only if q is not 0 and either p is not 0 or the root of q is rational. from_sqrt(p) * from_sqrt(p) is p itself and from_sqrt(q * q) is the absolute value of q. The sum of the roots of two natural numbers comes out if and only if one of them is a square or a square times the other.", "quantifier": "for all integer types, all pairs of non-negative ratios in lowest terms, and for the sum all pairs of natural numbers", "why_tests_cant": "Relates three calls of from_sqrt for every pair of ratios; which root the factors, the product and the expected result are stored over varies with the common factors, and tests try a few pairs of small integers.", "anchors": [{"file": "src/quadratic/surd.rs", "symbols": ["FromSqrt<T> for QuadraticSurd<T>", "FromSqrt<Ratio<T>> for QuadraticSurd<T>", "from_sqrt", "reduce", "reduce_bin_op", "Mul", "Div", "Add", "eq"]}]}
{"id": "C91", "title": "Rounding laws", "statement": "For a real surd floor(x + k) is floor(x) + k for every integer k, a rounded number is an integer and rounds to itself, floor(-x) is -floor(x) for an integer and -floor(x) - 1 otherwise, and floor() preserves order. For every surd, complex ones included, trunc(-x) is -trunc(x) and fract(-x) is -fract(x), truncating twice is truncating once, and the fractional part of a truncated number is 0.", "quantifier": "for all integer types and all normal surds; floor for those with a real value", "why_tests_cant": "The code rounds numerator and root separately with different corrections for each sign; that the results of different calls fit together for every value cannot be enumerated.", "anchors": [{"file": "src/quadratic/surd.rs", "symbols": ["floor", "trunc", "fract", "Neg", "Add"]}]}
{"id": "C92", "title": "The continued fraction of a convergent is a beginning of the fraction", "statement": "Turned back into a ContinuedFraction, the convergent number n of a continued fraction has its first n + 1 coefficients and its sign, where a final 1 is merged into the coefficient before it and zero has no sign. For a number that is not negative, new() on these coefficients gives the same fraction. The last convergent of a finite fraction in canonical form gives the fraction itself.", "quantifier": "for all well-formed continued fractions, finite or periodic, all n, and all integer types of the result", "why_tests_cant": "Relates convergents() to From<Ratio> for every coefficient of every fraction, also infinite ones; tests compare a few convergents of a few fractions.", "anchors": [{"file": "src/cont_frac/simple.rs", "symbols": ["convergents", "From<Ratio<T>>", "ContinuedFraction", "new"]}, {"file": "src/cont_frac/block.rs", "symbols": ["Block"]}]}
{"id": "C93", "title": "Converting from Ratio commutes with arithmetic", "statement": "QuadraticSurd::from(p) op QuadraticSurd::from(q) is QuadraticSurd::from(p op q), and ContinuedFraction::from(p) op ContinuedFraction::from(q) is ContinuedFraction::from(p op q), as stored data, for op one of + - * /; over unbounded integers everything returns, except that dividing by 0 panics. Converting a Ratio to a ContinuedFraction and this to a QuadraticSurd is the same as converting it directly.", "quantifier": "for all Ratios in lowest terms that fit the type, over all integer types", "why_tests_cant": "Equates the stored data of two ways of computing for all pairs of rationals; the continued fractions go through surds and back, so a wrong sign or an uncancelled factor shows up only for some pairs.", "anchors": [{"file": "src/quadratic/surd.rs", "symbols": ["From<Ratio<T>> for QuadraticSurd<T>", "Add", "Sub", "Mul", "Div"]}, {"file": "src/cont_frac/simple.rs", "symbols": ["From<Ratio<T>>", "Add", "Sub", "Mul", "Div"]}, {"file": "src/quadratic/surd.rs", "symbols": ["From<ContinuedFraction<T>> for QuadraticSurd"]}]}
{"id": "C94", "title": "One step of the expansion with floor() and recip()", "statement": "For a positive irrational surd s the first coefficient of its continued fraction is floor(s) and the remaining ones are the coefficients of the continued fraction of (s - floor(s)).recip(), wherever both conversions are right (C34). If the conjugate of s is below floor(s), the calls all return over unbounded integers and the new surd is again such a one, greater than 1.", "quantifier": "for all positive irrational normal surds, over all integer types, all coefficients", "why_tests_cant": "Relates all infinitely many coefficients of two fractions obtained by different algorithms for every surd; tests compare a few periods.", "anchors": [{"file": "src/quadratic/surd.rs", "symbols": ["floor", "recip", "Sub"]}, {"file": "src/quadratic/surd.rs", "symbols": ["quadsurd_to_contfrac", "TryFrom<QuadraticSurd<T>>"]}]}
{"id": "C95", "title": "from_equation: the quadratic formula, both roots, and the way back", "statement": "from_equation(a, b, c) with a != 0 is (-b + sqrt(b^2 - 4ac)) / 2a with the principal square root. The conjugate of an irrational solution is the other solution: it solves the equation too, the sum of the two is -b/a and their product is c/a. from_equation(1, -(s + s.conj()), s * s.conj()) gives s back if the coefficient of its root is not negative, and its conjugate otherwise.", "quantifier": "for all rational a, b, c and all normal surds, over all integer types, with and without complex numbers", "why_tests_cant": "An identity between constructor, conjugate, sum and product over an infinite set of equations, including which of the two roots comes out; the existing tests look at a handful of equations.", "anchors": [{"file": "src/quadratic/surd.rs", "symbols": ["from_equation", "from_rationals", "conj", "Add", "Mul"]}]}
{"id": "C96", "title": "Negating a number negates what is computed from it", "statement": "-(-x) is x as stored data for surds, quadratic integers and continued fractions, and so is conjugating twice; recip(recip(x)) is x and recip(-x) is -recip(x). The coefficients, generalized coefficients and convergents of -x are those of x negated, item by item, and so are to_integer, to_rational and approximated(limit), with the same Exact or Approximated. Converting a Ratio or a QuadraticSurd to a continued fraction and negating can be exchanged.", "quantifier": "for all continued fractions (any coefficients), all surds and quadratic integers, all limits, over all integer types", "why_tests_cant": "A symmetry of every iterator at every position; tests mostly use positive numbers, and the two places where the symmetry fails need a limit below 1 or a surd between 0 and its conjugate.", "anchors": [{"file": "src/cont_frac/simple.rs", "symbols": ["Neg", "coeffs", "into_coeffs", "generalize", "convergents", "to_integer", "to_rational", "approximated", "From<Ratio<T>>"]}, {"file": "src/quadratic/surd.rs", "symbols": ["Neg", "recip", "TryFrom<QuadraticSurd<T>>"]}, {"file": "src/quadratic/integer.rs", "symbols": ["Neg", "conj"]}]}
{"id": "C97", "title": "Surds, quadratic integers and Gaussian integers agree with each other", "statement": "Surds with is_quadint() are closed under + - * negation and conj. If l.to_quadint() and r.to_quadint() are exact and l op r converts at all, it converts exactly, to the number (l.to_quadint() op r.to_quadint()) computed on QuadraticInt, and == confirms it. For surds over the roots 0 and -1 the same holds for to_gaussint() and GaussianInt, coordinate by coordinate. QuadraticInt over the root -1 and GaussianInt have the same + - * / % conj and norm.", "quantifier": "for all normal surds and all quadratic and Gaussian integers, over all integer types, with and without complex numbers", "why_tests_cant": "Relates three implementations of the same arithmetic on all pairs of numbers and roots; the tests check each type on a few values and never compare them.", "anchors": [{"file": "src/quadratic/surd.rs", "symbols": ["QuadraticSurd::to_quadint", "QuadraticSurd::to_gaussint", "QuadraticSurd::is_quadint", "Add for QuadraticSurd", "Mul for QuadraticSurd"]}, {"file": "src/quadratic/integer.rs", "symbols": ["QuadraticInt", "GaussianInt", "Add for QuadraticInt", "Mul for QuadraticInt"]}]}
{"id": "C98", "title": "The units of quadratic integers are the powers of one convergent", "statement": "Let n be a positive non-square root and omega the generator of its ring of quadratic integers (sqrt n, or (1 + sqrt n)/2 for n = 1 mod 4). Read as p - q * conj(omega), the convergents p/q of the continued fraction of omega at the ends of the periods are exactly the quadratic integers above 1 of norm 1 or -1; the norm is 1 if the number of coefficients used is even and -1 if it is odd. Multiplying the unit of the first period by itself with * gives the units of the later periods in order, and every quadratic integer of norm 1 or -1 is, up to the sign, 1, such a power or the conjugate of one. There is a unit of norm -1 exactly if the period is odd.", "quantifier": "for all positive non-square n not divisible by 4, all integer types of the conversion, all quadratic integers over n and all exponents", "why_tests_cant": "Speaks of all units of a ring and of all powers; the smallest unit can be huge for small n, and that none lies in between cannot be observed.", "anchors": [{"file": "src/quadratic/integer.rs", "symbols": ["QuadraticInt", "norm", "Mul for QuadraticInt", "conj"]}, {"file": "src/quadratic/surd.rs", "symbols": ["quadsurd_to_contfrac", "TryFrom<QuadraticSurd<T>>"]}, {"file": "src/cont_frac/simple.rs", "symbols": ["convergents", "Convergents"]}]}
{"id": "C99", "title": "Equivalent numbers have the same coefficients from some point on", "statement": "Two periodic continued fractions have the same coefficients from some place on exactly if their values x and y are related by y = (a x + b)/(c x + d) with integers of determinant a d - b c = 1 or -1. For the fractions made from two quadratic surds this means that the periods are rotations of one another; in particular -s, 1/s, s + k and s - k have the period of s up to its starting place. The items of homo(a, b, c, d) with such integers are, from some item on and up to one common sign, the coefficients that the source yields.", "quantifier": "for all infinite periodic fractions, all real quadratic surds in the domain where the conversion is right (C34), all integer types, all a, b, c, d with determinant 1 or -1, all sources whose coefficients after the first have one sign", "why_tests_cant": "An equivalence between a relation with unboundedly many integer witnesses and the equality of endless sequences; that two numbers are not equivalent cannot be seen on any finite part.", "anchors": [{"file": "src/cont_frac/simple.rs", "symbols": ["ContinuedFraction", "coeffs", "periodic_coeffs"]}, {"file": "src/quadratic/surd.rs", "symbols": ["quadsurd_to_contfrac", "TryFrom<QuadraticSurd<T>>", "recip", "Neg", "Add<T>", "Sub<T>"]}, {"file": "src/cont_frac/infinite.rs", "symbols": ["homo", "HomographicResult"]}]}
{"id": "C100", "title": "How close fractions come to a periodic number", "statement": "The error of a convergent r with denominator q of an infinite continued fraction, the next one having denominator q', lies strictly between 1/(q (q + q')) and 1/(q q'), and between 1/((a + 2) q^2) and 1/(a q^2) for the next coefficient a. Of two consecutive items of convergents() one is closer than 1/(2 q^2), of three consecutive ones one is closer than 1/(sqrt 5 q^2), and for the golden ratio no larger constant than sqrt 5 works. No fraction p/q at all is as close as 1/((A + 2) q^2) if A bounds the coefficients after the first, in particular for a surd and the fraction converted from it; every real irrational surd keeps a distance of this kind from all fractions.", "quantifier": "for all infinite well-formed continued fractions, all positions, all fractions p/q, all real irrational surds", "why_tests_cant": "Strict bounds on real errors for every position of infinite sequences, and a bound over all fractions; the optimality of sqrt 5 is a statement about infinitely many denominators.", "anchors": [{"file": "src/cont_frac/simple.rs", "symbols": ["convergents", "Convergents", "ContinuedFraction"]}, {"file": "src/quadratic/surd.rs", "symbols": ["quadsurd_to_contfrac", "TryFrom<QuadraticSurd<T>>"]}]}
{"id": "C101", "title": "Comparing coefficients compares numbers", "statement": "For two continued fractions in canonical form, finite or periodic: with both non-negative, x < y exactly if, at the first place where their coefficients differ, the coefficient of x is smaller (place of even number, counted from 0) or larger (odd number), a missing coefficient counting as infinitely large; with both negative it is the other way round; a negative one is below a non-negative one. They are equal exactly if the sign and all coefficients are. Two surds compare as the fractions converted from them, and is_positive of their difference gives the same answer.", "quantifier": "for all canonical continued fractions, all pairs of irrational real surds not lying between 0 and their conjugate, all integer types", "why_tests_cant": "The first place of difference can be arbitrarily late, and the direction 'smaller value implies smaller coefficients' speaks of all pairs of real numbers.", "anchors": [{"file": "src/cont_frac/simple.rs", "symbols": ["ContinuedFraction", "aperiodic_coeffs", "periodic_coeffs", "is_negative"]}, {"file": "src/quadratic/surd.rs", "symbols": ["quadsurd_to_contfrac", "TryFrom<QuadraticSurd<T>>", "is_positive", "Sub"]}]}
{"id": "C102", "title": "Every irrational real surd can be converted with floor(), recip() and conj()", "statement": "The conversion of a surd to a continued fraction fails for numbers between 0 and their conjugate (C34). The loop `while !s.conj().is_negative() { n = s.floor(); out.push(n); s = (s - n).recip(); }` followed by the conversion of s and ContinuedFraction::new on out and the coefficients of s, with a negation before and after for negative numbers, gives the continued fraction of every irrational real surd: the result is canonical, periodic and has the value of the surd; over arbitrary precision the program always ends, and where the direct conversion is right the coefficients are the same.", "quantifier": "for all irrational real surds in normal form, all integer types (soundness), arbitrary precision (termination)", "why_tests_cant": "The number of steps until the conjugate is negative has no bound over all surds; that it always happens is a theorem about the distance to the conjugate.", "anchors": [{"file": "src/quadratic/surd.rs", "symbols": ["conj", "is_negative", "floor", "recip", "to_integer", "quadsurd_to_contfrac", "TryFrom<QuadraticSurd<T>>"]}, {"file": "src/cont_frac/simple.rs", "symbols": ["ContinuedFraction", "new", "aperiodic_coeffs", "periodic_coeffs"]}]}
{"id": "C103", "title": "Every periodic continued fraction can be converted to a surd with recip() and +, and back", "statement": "The conversion of a continued fraction to a surd can panic if there are more than two coefficients before the period (C35). Converting only ContinuedFraction::new([last], period) and then doing `s = s.recip() + a` for the earlier coefficients a from right to left, with a negation at the end for negative fractions, gives the surd of every periodic continued fraction: the result is in normal form and has the value of the fraction; over arbitrary precision it always returns. Together with the loop of C102, surds and periodic fractions convert into each other in both directions without exception: the value comes back, and so do the sign and all coefficients.", "quantifier": "for all periodic well-formed continued fractions and all irrational real surds; all integer types that hold the continuant of the period (soundness), arbitrary precision (termination)", "why_tests_cant": "The panic of the direct conversion needs discriminants divisible by two coprime squares; that the other way never panics and is exact is a statement about all lists of coefficients.", "anchors": [{"file": "src/quadratic/surd.rs", "symbols": ["From<ContinuedFraction<T>>", "recip", "Add", "Neg", "conj", "floor"]}, {"file": "src/cont_frac/simple.rs", "symbols": ["ContinuedFraction", "new", "aperiodic_coeffs", "periodic_coeffs", "is_negative"]}]}
{"id": "C104", "title": "Any two real surds can be compared with floor(), recip() and ==", "statement": "The library has no order on surds, and subtracting surds with unlike roots panics. Still, a loop of floor(), to_integer(), subtraction of the floor, is_zero() and recip() on both surds, exchanging them after each step, compares any two real surds: an answer Less, Equal or Greater is the order of the two numbers at every integer width. Over arbitrary precision the loop ends exactly if the numbers differ or are rational; with a test `s == r` and the signs of s - s.conj() and r - r.conj() first, it always ends with the right answer, for all pairs of real surds whatever their roots.", "quantifier": "for all pairs of normal-form real surds; all integer types (soundness), arbitrary precision (termination and non-termination)", "why_tests_cant": "The number of rounds grows with the closeness of the two numbers without bound, and the answer concerns all pairs of numbers from all real quadratic fields.", "anchors": [{"file": "src/quadratic/surd.rs", "symbols": ["floor", "to_integer", "recip", "conj", "is_negative", "PartialEq", "Sub", "is_zero"]}]}
{"id": "C105", "title": "Any two surds of one real field can be added, multiplied and divided with a few calls more", "statement": "The operators panic on two surds of one field such as sqrt 8 and sqrt 18, of which neither root is a square times the other (C06). Replacing the second surd r by ((r + r.conj()) + (r - r.conj()) / (l - l.conj()) * (l - l.conj())) / 2 keeps its value and never panics over arbitrary precision; after it +, - and * of any two surds of one real quadratic field return, as does / by anything but zero (with zero itself returned for a zero dividend), and every result is in normal form and exact at every width. For surds of different fields the sum and the difference still panic.", "quantifier": "for all pairs of normal-form real surds; all integer types (exactness), arbitrary precision (no panic, and the panic for different fields)", "why_tests_cant": "The panic depends on square factors of both roots without bound; that the other way never panics and is exact concerns all pairs of numbers of all real quadratic fields.", "anchors": [{"file": "src/quadratic/surd.rs", "symbols": ["Add", "Sub", "Mul", "Div", "conj", "is_rational", "is_zero"]}]}
{"id": "C106", "title": "All real surds and continued fractions convert into each other, and fractions of one field can be combined and compared", "statement": "With rational numbers taken through Ratio and irrational ones through the loops of C102 and C103, every real surd converts to the canonical continued fraction of the same number and every continued fraction to the surd of the same number; over arbitrary precision both always succeed, the value comes back, and so do the sign and the coefficients. Going through surds with the operations of C105, the sum, difference, product and quotient (by anything but zero) of any two continued fractions of one field are exact and over arbitrary precision always exist, also where the library's operators hang (3 - sqrt 2) or panic (sqrt 2 + (2 - sqrt 2)). Any two continued fractions, of whatever fields, can be compared with the program of C104.", "quantifier": "for all normal-form real surds and all well-formed continued fractions; all integer types that hold the numbers (exactness), arbitrary precision (always returns)", "why_tests_cant": "The direct conversions fail on infinite families only (small conjugates, long beginnings, rational results); that the combination has no such family is a statement about all numbers.", "anchors": [{"file": "src/quadratic/surd.rs", "symbols": ["to_rational", "is_rational", "From<Ratio<T>>", "From<ContinuedFraction<T>>"]}, {"file": "src/cont_frac/simple.rs", "symbols": ["ContinuedFraction", "to_rational", "From<Ratio<T>>", "Add", "Sub", "Mul", "Div"]}]}
{"id": "C107", "title": "Exact arithmetic in all quadratic fields, real or complex, with a few calls more", "statement": "The product and the quotient of two imaginary surds have the wrong sign (C04, C05), and 0 / x panics for irrational x. Negating the result if both operands satisfy is_pure() && is_complex(), and returning a zero dividend, makes * and / exact for all surds. With them the rewriting of C105 works in all quadratic fields: the second surd is written with the root of the first without changing its value, never panics over arbitrary precision, and afterwards +, -, * and / (by anything but zero) of any two surds of one field return exact results in normal form. For surds of different fields the sum and the difference panic.", "quantifier": "for all pairs of normal-form surds, real or complex; all integer types (exactness), arbitrary precision (no panic, and the panic for different fields)", "why_tests_cant": "Signs and panics depend on the shape of both operands and on square factors of both roots; the statement concerns all pairs of numbers of all quadratic fields.", "anchors": [{"file": "src/quadratic/surd.rs", "symbols": ["Mul", "Div", "Add", "Sub", "Neg", "conj", "is_pure", "is_complex", "is_rational", "is_zero"]}]}
{"id": "C108", "title": "Equality of any two surds with a few calls more", "statement": "== takes an irrational surd for equal to the conjugate of an equal one written with another root (C08). If == says true for two irrational surds l and r, then (r - r.conj()) / (l - l.conj()) (with the division of C107) is 1 or -1, and is_one() of it says whether they are really equal. The test made in this way answers true exactly for surds of equal value, real or complex, is reflexive, symmetric and transitive, and over arbitrary precision never panics.", "quantifier": "for all pairs of normal-form surds, real or complex; all integer types (right answer), arbitrary precision (no panic)", "why_tests_cant": "The wrong answers of == appear only for pairs with different roots and opposite signs; the statement concerns all pairs of numbers.", "anchors": [{"file": "src/quadratic/surd.rs", "symbols": ["PartialEq", "conj", "Sub", "Div", "is_rational", "is_one"]}]}
{"id": "C109", "title": "All roundings from floor()", "statement": "trunc() is wrong for some real surds (C11), floor() never (C10). With floor() alone a caller gets all roundings right: -(-s).floor() is the least integer not below s, this or s.floor() by the sign of s is s rounded toward zero, s minus it is the exact part left over, and (s + 1/2).floor() is the nearest integer (halves up). Results are in normal form, and over arbitrary precision there is no panic.", "quantifier": "for all real normal-form surds; all integer types (right result), arbitrary precision (no panic)", "why_tests_cant": "The errors of trunc() depend on signs and divisibility; the statement concerns all real quadratic numbers at all widths.", "anchors": [{"file": "src/quadratic/surd.rs", "symbols": ["QuadraticSurd::floor", "QuadraticSurd::trunc", "QuadraticSurd::fract", "Neg", "is_negative", "Add", "Sub"]}]}
{"id": "C110", "title": "The principal square root with a call more", "statement": "from_sqrt(x) returns some y with y * y = x, but not always the principal root (C16). If the caller negates y when it is real and negative, the result is the principal square root of x in normal form, for real and complex x; there is only one such number. If the principal root can be written with the root of x, it is found. Errors are passed on unchanged, and over arbitrary precision there is no panic.", "quantifier": "for all normal-form surds, real or complex; all integer types (right result), arbitrary precision (completeness, no panic)", "why_tests_cant": "Which root comes out depends on signs and sizes of all parts; the statement concerns all quadratic numbers.", "anchors": [{"file": "src/quadratic/surd.rs", "symbols": ["FromSqrt", "from_sqrt", "is_complex", "is_negative", "Neg"]}]}
{"id": "C111", "title": "The digits of any real surd to any base", "statement": "A loop of d = s.floor().to_integer().value(); s = (s - d) * base gives the floor of the number and then its digits to any base from 2 on: each later d lies between 0 and base - 1, and after n digits the number spelled is not above s and less than base^-n below it. The digits are exact however many are asked for, and over arbitrary precision there is no panic.", "quantifier": "for all real normal-form surds, all bases from 2 on, all numbers of digits; all integer types (right digits), arbitrary precision (no panic)", "why_tests_cant": "Digits of irrational numbers follow no pattern; a test compares finitely many digits of finitely many numbers.", "anchors": [{"file": "src/quadratic/surd.rs", "symbols": ["QuadraticSurd::floor", "QuadraticSurd::to_integer", "Sub", "Mul"]}]}
