{"id": "C01", "title": "partition_loop splits a loop exactly", "statement": "For a loop of `steps` iterations and `threads` threads, the half-open ranges returned by partition_loop for thread = 0..threads-1 are consecutive, start at 0, end at steps, never overlap, and differ in length by at most one; a call with threads <= 0, thread outside [0,threads) or steps < 0 throws instead of returning a range.", "quantifier": "for every steps >= 0, every threads >= 1 and every thread index", "why_tests_cant": "A test can only try finitely many (steps, threads) pairs; an off-by-one in the remainder handling shows only for particular residues.", "anchors": ["loops.cc: partition_loop", "loops.h: map_reduce"]}
{"id": "C02", "title": "map_reduce is schedule independent", "statement": "map_reduce(y, reduce, map, n) leaves in y exactly what the serial loop `for i<n: reduce(y, map(i))` would, whatever the number of threads and however the threads interleave, provided reduce is associative in the sense stated in the header; it terminates with every partial result folded in, in index order.", "quantifier": "for every n, every thread count, every interleaving of thread steps, every associative (not necessarily commutative) reduction", "why_tests_cant": "OpenMP schedules are chosen at run time; tests observe only the interleavings that happen on one machine.", "anchors": ["loops.h: map_reduce", "loops.cc: partition_loop"]}
{"id": "C03", "title": "Element loops visit each index exactly once", "statement": "A loop defined with the loop macros runs its body exactly once for each index 0..n-1: in order on the host, and exactly once over all blocks and threads of the device grid for every grid shape, as long as n (plus one grid stride, on the device) fits in 32 bits; for n >= 2^31 the host loop silently runs the wrong number of iterations.", "quantifier": "for every n, every grid and block dimension", "why_tests_cant": "Tests use one grid shape and tiny n; the wrap-around at 2^31 elements cannot be reached in a unit test.", "anchors": ["loops.h: DEF_LOOP, GRID_STRIDE_LOOP, INVOKE_GRID_STRIDE_LOOP"]}
{"id": "C04", "title": "Bit reversal is the bit-reversal permutation", "statement": "In-place bit reversal of an array whose length is a power of two >= 2 moves the element at index i to the index whose binary digits are those of i reversed, loses nothing, and is its own inverse; for length 1 the shift amount equals the word size, which C++ leaves undefined.", "quantifier": "for every power-of-two length and every array content", "why_tests_cant": "Tests enumerate a few small sizes; correctness at 2^20 and above follows only from an argument for all sizes.", "anchors": ["fft.cc: bitrev", "bit.h: bitreverse"]}
{"id": "C05", "title": "The shifted permutation is undone by its inverse and orders the shifted transform", "statement": "Applying the shifted permutation and then the shifted un-permutation (or the reverse) restores every array, and the shifted permutation moves the scrambled output of the shifted real FFT into natural frequency order.", "quantifier": "for every power-of-two length and every array content", "why_tests_cant": "The code itself says the author does not understand why this is the right permutation; tests check small sizes only.", "anchors": ["fft.cc: shifted_permute, shifted_unpermute, reverses, unreverses"]}
{"id": "C06", "title": "Twiddle lookup by symmetry equals the root of unity", "statement": "Looking up twiddle j in the slice for 2m points returns exp(2 pi i j / 2m) for every integer j (any sign, any size), although only the first m/4+1 roots are stored, and never reads outside the stored table; the two-level lookup used for large transforms returns the same value.", "quantifier": "for every power of two m and every j", "why_tests_cant": "Three nested symmetry flips with boundary comparisons; boundary values of j differ for each m.", "anchors": ["fft.cc: TwiddleSlice::operator(), BigTwiddleSlice::operator(), twiddle_slice"]}
{"id": "C07", "title": "fft computes the discrete Fourier transform", "statement": "fft(y, x) sets y[k] to sum_j x_j exp(-2 pi i jk/n), where x is read as n complex numbers, zero-extended; sizes that are not powers of two, or inputs longer than 2n reals, throw.", "quantifier": "for every power-of-two n, every input length up to 2n and every input value (exact arithmetic)", "why_tests_cant": "Numerical tests check random inputs at a handful of sizes with a tolerance.", "anchors": ["fft.cc: fft, fft_bitrev, fft_butterfly_s"]}
{"id": "C08", "title": "ifft inverts fft up to the factor n", "statement": "Running fft and then ifft on its output multiplies the input by n = y.size() exactly (exact arithmetic), for all positions of x that are asked for.", "quantifier": "for every power-of-two n, every input", "why_tests_cant": "A sign or index error can cancel on symmetric test inputs; only the general identity rules it out.", "anchors": ["fft.cc: ifft, ifft_bitrev, ifft_butterfly_s"]}
{"id": "C09", "title": "rfft computes half of the real DFT", "statement": "rfft(y, x) stores the DFT of the n = 2*y.size() real inputs (zero padded): y[k] is coefficient k for 0<k<n/2, and y[0] packs coefficients 0 and n/2 as real and imaginary part.", "quantifier": "for every power-of-two n >= 2 and every input", "why_tests_cant": "Post-processing pairs each index with its bit-reversed negation; mistakes show only at some sizes.", "anchors": ["fft.cc: rfft, rfft_bitrev, rfft_post, rfft_post_n2, bitrev_neg"]}
{"id": "C10", "title": "irfft inverts rfft up to the factor n", "statement": "rfft followed by irfft multiplies the input by n = 2*y.size().", "quantifier": "for every power-of-two n >= 2 and every input", "why_tests_cant": "Same as C09; the in-place pairwise update must also be independent of loop order.", "anchors": ["fft.cc: irfft, irfft_bitrev, irfft_pre"]}
{"id": "C11", "title": "srfft computes the shifted real DFT", "statement": "srfft(y, x) sets y[k] = sum_j x_j exp(-2 pi i j (k + 1/2)/n) for k < n/2, n = 2*y.size(), x zero padded; mixed radix-2/4/8 passes give the same result as plain radix 2.", "quantifier": "for every power-of-two n >= 2 and every input of length at most n", "why_tests_cant": "Radix selection depends on n mod 3 powers; each size exercises a different combination of generated butterflies.", "anchors": ["fft.cc: srfft, srfft_scramble", "codelets.cc: butterfly_0, butterfly_1, butterfly_s1, butterfly_s2, butterfly_s3, butterflies"]}
{"id": "C12", "title": "isrfft inverts srfft up to the factor n/2", "statement": "{ srfft(y, x); isrfft(x, y); } multiplies x by n/2 = y.size(), as documented, for every number of outputs requested up to n; the accumulate variant adds the same values instead of storing them. isrfft accepts up to 2n outputs but writes only the first n.", "quantifier": "for every power-of-two n >= 2, every input, every output length", "why_tests_cant": "The inverse butterflies are generated by symbolic transposition; tests only sample sizes and tolerances.", "anchors": ["fft.cc: isrfft, isrfft_scramble", "codelets.cc: way, gradient"]}
{"id": "C13", "title": "fft_mul is polynomial multiplication truncated to the output size", "statement": "fft_mul(z, x, y) sets z[i] = sum_{j<=i} x[j] y[i-j] for every i < z.size() whenever neither input is longer than the output (as the series code guarantees); it throws when z is longer than the full product; for longer inputs the cyclic wrap-around makes low coefficients wrong without any error.", "quantifier": "for all lengths of x, y, z and all coefficient values (exact arithmetic)", "why_tests_cant": "The switch between the base codelet and FFT sizes, and truncated products, give unboundedly many size combinations.", "anchors": ["fft.cc: fft_mul", "codelets.cc: mul_bases"]}
{"id": "C14", "title": "fft_addmul adds the product after the middle callback", "statement": "fft_addmul(z, x, y, middle) first reads x and y, then runs middle, then adds the truncated product of the original x and y to whatever z then holds.", "quantifier": "for all lengths within the documented bound, all values, all effects of middle on z, including x or y overlapping z", "why_tests_cant": "The ordering matters only when buffers alias; tests exercise one aliasing pattern.", "anchors": ["fft.cc: fft_addmul", "series.h: mul1p"]}
{"id": "C15", "title": "fft_sqr is polynomial squaring", "statement": "fft_sqr(y, x) sets y[i] = sum_{j<=i} x[j] x[i-j] for every i < y.size() when x is no longer than y; it throws if y is longer than the full square.", "quantifier": "for all lengths and values", "why_tests_cant": "As C13.", "anchors": ["fft.cc: fft_sqr", "codelets.cc: mul_bases"]}
{"id": "C16", "title": "FFT table accesses stay in bounds", "statement": "Every twiddle table access made by the shifted real FFT at size n = 2^p is inside the allocated tables for p <= 29; at p = 30 the cached 'few' table is read past its end.", "quantifier": "for every p and every loop index", "why_tests_cant": "2^30-point transforms cannot be run in a unit test, and an out-of-bounds read may go unnoticed.", "anchors": ["fft.cc: FullTwiddle::big_slice, few, s_limit"]}
{"id": "C17", "title": "Series counts invariant", "statement": "After any sequence of public series operations that do not throw, every series satisfies 0 <= nonzero <= min(limit, known); without raw set_counts calls every coefficient below nonzero has also been written; and an operation changes no series except its destinations. (set_counts with a negative known, or a shifted add with a negative shift, violates it: the unsigned comparison accepts negative counts.)", "quantifier": "for every sequence of operations, of any length, on any number of series", "why_tests_cant": "Tests run fixed short sequences; the invariant is a statement about all histories.", "anchors": ["series.h: Series, set_counts, set_known, reduce_known, set_scalar, operator=", "series.cc: high_addsub_ldexp"]}
{"id": "C18", "title": "low and high views select the right coefficients", "statement": "x.low(n) denotes the first n coefficients with known reduced accordingly and x.high(n) denotes x divided by z^n; both clamp negative n to 0 and n beyond the end to an empty series, and low(n) followed by high(n) together determine x.", "quantifier": "for every valid series and every integer n", "why_tests_cant": "Clamping at four boundaries (0, nonzero, known, beyond) for two interacting counts.", "anchors": ["series.h: low, high, low_span, high_span, view"]}
{"id": "C19", "title": "In-place count changes preserve the denoted series", "statement": "set_known(k) keeps all coefficients below min(k, known) and declares the new ones zero, reduce_known(k) truncates, set_scalar gives the constant series, assignment and copy duplicate the series without changing the source; each throws exactly when the target is too small or the count is negative.", "quantifier": "for every valid series, buffer size and integer argument", "why_tests_cant": "Stale buffer contents beyond nonzero must never become visible; tests start from fresh buffers.", "anchors": ["series.h: set_known, reduce_known, set_scalar, operator=, copy, swap"]}
{"id": "C20", "title": "Shifted add and subtract are exact and truncate correctly", "statement": "y.high_add_ldexp(s,b,x) (and high_sub, +=, -=) replaces y by y +- 2^b z^s x, known to min(y.known, x.known+s) terms; it throws when the result does not fit or y aliases x, and never touches cells past the new nonzero count.", "quantifier": "for every pair of valid series, every shift s >= 0, every exponent b, every buffer size", "why_tests_cant": "Combines four counts, a shift and an unsigned range trick in the loop body.", "anchors": ["series.cc: high_addsub_ldexp, high_addsub_loop, high_addsub_ldexp_loop"]}
{"id": "C21", "title": "Series multiplication and squaring", "statement": "z = mul(x,y) denotes the product of x and y known to min(x.known,y.known) terms, and sqr the square, when both operands have at least one possibly-nonzero term; if exactly one operand is a known zero (nonzero = 0 < known) and the other has two or more terms, mul throws although the product is simply zero.", "quantifier": "for every pair of valid series and every large enough output buffer", "why_tests_cant": "The zero-operand case is an interaction of two count computations in different files and is not in the tests.", "anchors": ["series.h: mul, sqr", "fft.cc: fft_mul"]}
{"id": "C22", "title": "Shifted multiplication mul1p", "statement": "z = mul1p(x,y,s) denotes x(1 + z^s y) known to min(x.known, y.known+s) terms for s > 0 and operands with a possibly-nonzero term; s <= 0 throws; a known-zero y with a multi-term x also throws although the answer is x.", "quantifier": "for every pair of valid series and every s", "why_tests_cant": "Same as C21, plus the overlapping write of x into z between FFT phases.", "anchors": ["series.h: mul1p", "series.cc: mul1p_middle", "fft.cc: fft_addmul"]}
{"id": "C23", "title": "Elementwise series operations", "statement": "neg, ldexp, derivative_shift and integral_shift compute -x, 2^k x, z^(1-s)(z^s x)' and its inverse coefficient by coefficient; integral_shift undoes derivative_shift except for a coefficient with s+i = 0, which it sets to 0.", "quantifier": "for every valid series, shift and exponent", "why_tests_cant": "Involves every coefficient index and shift.", "anchors": ["series.h: neg, ldexp, derivative_shift, integral_shift"]}
{"id": "C24", "title": "Documented aliasing is safe and undocumented aliasing is rejected", "statement": "Operations documented as allowing aliasing (mul, mul1p, sqr, neg, derivative_shift, integral_shift, ldexp) give the same coefficients when the output buffer is also an input as when it is separate; high_add/high_sub, inv, div, log, exp and their shifted forms throw when the output aliases an input (inv, log, exp, inv1p, log1p and log1p_exp of an argument with no known terms return before the check), and otherwise change no buffer but the output.", "quantifier": "for every buffer layout in which the output buffer coincides with one or both inputs, every content, and every order of the loop iterations", "why_tests_cant": "In-place hazards depend on the order of reads and writes inside kernels and FFT phases.", "anchors": ["series.h: alias, mul, mul1p, sqr, neg, derivative_shift, integral_shift, ldexp", "fft.cc: fft_mul, fft_addmul, fft_sqr"]}
{"id": "C25", "title": "Newton schedule reaches the target and at most doubles", "statement": "newton_iterate(n0,n,step) calls step in pairs (extend, refine) on sizes m with m0 < m <= 2 m0, ends with m = n exactly, and uses the least possible number of size increases; nothing is called when n <= n0.", "quantifier": "for every 0 < n0 and every n", "why_tests_cant": "The sizes come from bit tricks on (n+n0-1)/n0; wrong rounding shows up only for some ratios.", "anchors": ["series.h: newton_steps, newton_iterate"]}
{"id": "C26", "title": "inv is the reciprocal series", "statement": "y = inv(x) satisfies x*y = 1 modulo z^n, n = x.known, whenever x's constant term is invertible; y is known to exactly n terms and nothing else changes.", "quantifier": "for every n, every valid x over any field of characteristic 0 with x_0 != 0", "why_tests_cant": "Tests compare a few sizes with a tolerance; the Newton schedule and base codelet interact differently for each n.", "anchors": ["series.h: inv", "codelets.cc: series_bases"]}
{"id": "C27", "title": "inv1p is the shifted reciprocal", "statement": "y = inv1p(x,s) satisfies (1 + z^s x)(1 + z^s y) = 1 modulo z^(n+s) for s > 0 and x with a possibly-nonzero term; for a known-zero x with s >= 3 and n > s it throws although the answer is 0.", "quantifier": "for every n, s and valid x", "why_tests_cant": "As C26.", "anchors": ["series.h: inv1p"]}
{"id": "C28", "title": "div is exact series division", "statement": "y = div(a,b) satisfies b*y = a modulo z^n, n = min(a.known,b.known), when b_0 != 0 and a has a possibly-nonzero term; a known-zero numerator with n >= 2 throws although the quotient is 0.", "quantifier": "for every n and valid a, b", "why_tests_cant": "As C26.", "anchors": ["series.h: div"]}
{"id": "C29", "title": "div1p is shifted division", "statement": "y = div1p(a,b,s) satisfies (1 + z^s b) y = a modulo z^n, n = min(a.known, b.known+s), including n <= s.", "quantifier": "for every n, s > 0 and valid a, b with possibly-nonzero terms", "why_tests_cant": "As C26.", "anchors": ["series.h: div1p"]}
{"id": "C30", "title": "log is the series logarithm", "statement": "y = log(x) denotes log x = sum (-1)^(k+1) (x-1)^k / k modulo z^n for x_0 = 1; x_0 != 1 throws.", "quantifier": "for every n and valid x", "why_tests_cant": "As C26; agreement with the textbook power series is an infinite family of identities.", "anchors": ["series.h: log"]}
{"id": "C31", "title": "log1p is the shifted logarithm", "statement": "y = log1p(x,s) satisfies z^s y = log(1 + z^s x) modulo z^(n+s) for s > 0.", "quantifier": "for every n, s and valid x with a possibly-nonzero term", "why_tests_cant": "As C30.", "anchors": ["series.h: log1p"]}
{"id": "C32", "title": "exp is the series exponential", "statement": "y = exp(x) denotes exp x = sum x^k / k! modulo z^n for x_0 = 0; x_0 != 0 throws.", "quantifier": "for every n and valid x", "why_tests_cant": "As C30.", "anchors": ["series.h: exp", "codelets.cc: series_bases"]}
{"id": "C33", "title": "expm1 is the shifted exponential", "statement": "y = expm1(x,a,s) satisfies z^s y = exp(a z^s x) - 1 modulo z^(n+s) for a = +-1, s > 0.", "quantifier": "for every n, s and valid x with a possibly-nonzero term", "why_tests_cant": "As C30.", "anchors": ["series.h: expm1"]}
{"id": "C34", "title": "log1p_exp is the shifted softplus", "statement": "y = log1p_exp(x,s) satisfies z^s y = log(1 + z^s exp x) modulo z^(n+s) for x_0 = 0, s > 0.", "quantifier": "for every n, s and valid x", "why_tests_cant": "As C30; nests exp, expm1, log1p and Newton.", "anchors": ["series.h: log1p_exp"]}
{"id": "C35", "title": "escape and implicit compute the residual and its derivative", "statement": "implicit(F,dF,k,g,1,n,dn) gives F = g + log(escape_k)^(2^-k) and dF its derivative with respect to g: replacing g by g + d with d = O(z^m) changes F by dF*d up to O(z^(2m)).", "quantifier": "for every k, n, dn and every g with g_0 = 0", "why_tests_cant": "A derivative identity for all perturbations cannot be enumerated.", "anchors": ["area.cc: escape, implicit, sub_si_2exp"]}
{"id": "C36", "title": "bottcher_step doubles the number of correct terms", "statement": "If f = exp(g) satisfies the k0-fold Mandelbrot iteration equation R_k0(f) = 1 modulo z^(2^k0), where R_0 = f and R_(i+1) = R_i^2 + z^(2^(i+1)-1) f, then after bottcher_step g has 2^(k0+1) known terms, its old terms are unchanged, and the returned f = exp(g) satisfies R_(k0+1)(f) = 1 modulo z^(2^(k0+1)).", "quantifier": "for every k0 and every correct g (exact arithmetic)", "why_tests_cant": "Tests compare areas with a table for small k; the claim is that every coefficient of every doubling is right.", "anchors": ["area.cc: bottcher_step, escape, implicit"]}
{"id": "C37", "title": "Iterating from the base case yields the unique Bottcher coefficients", "statement": "Starting from g = 0 and calling bottcher_step k times yields the unique f modulo z^(2^k) with f_0 = 1 and R_k(f) = 1; coefficients already computed never change in later steps.", "quantifier": "for every k", "why_tests_cant": "As C36, plus uniqueness.", "anchors": ["area.cc: bottcher_base, bottcher_step, areas"]}
{"id": "C38", "title": "area is the truncated area formula", "statement": "area(f) is the correctly rounded value of pi * sum_i (1-i) f_i^2 independently of the number of threads, and adding further terms never increases the exact sum.", "quantifier": "for every series f, every thread count", "why_tests_cant": "Depends on rounding enclosures and schedules.", "anchors": ["area.cc: area", "nearest.h: nearest", "loops.h: map_reduce"]}
{"id": "C39", "title": "known_to_k recovers k exactly for powers of two", "statement": "known_to_k(2^k) = k for 0 <= k <= 62 and every other positive count throws; for count 0 it shifts by 64, which is undefined.", "quantifier": "for every 64-bit count", "why_tests_cant": "2^63 inputs.", "anchors": ["area.cc: known_to_k"]}
{"id": "C40", "title": "Resuming from a saved file continues the same computation", "statement": "Writing g with write_bottcher after step k and restarting with that file as input produces, for all later steps, the same files as an uninterrupted run (apart from the time comment).", "quantifier": "for every interruption step k0 <= K and every deterministic step function", "why_tests_cant": "Crash and restart points are unbounded histories.", "anchors": ["mandelbrot.cc: areas", "area.cc: write_bottcher, read_bottcher"]}
{"id": "C41", "title": "Series text files round-trip", "statement": "read_series(write_series(x, comments)) returns the same known and nonzero counts, bit-identical coefficients and the same comments followed by the three generated ones, for every batch size and thread count, provided the comments are single-line, do not start with whitespace and do not start with one of the reserved keys.", "quantifier": "for every valid series, every admissible comment list, every batch size >= 1", "why_tests_cant": "All strings and sizes; parsing is sensitive to comment content.", "anchors": ["series.cc: write_series, read_series"]}
{"id": "C42", "title": "A truncated series file is rejected once its header is complete", "statement": "If a file written by write_series is cut at any line boundary after the header, read_series throws unless all coefficients are present. Cutting inside the last number, or before the header is complete, is NOT detected: the reader returns a wrong coefficient or an empty series without any error.", "quantifier": "for every series and every cut position", "why_tests_cant": "Every byte position of every file is a crash point.", "anchors": ["series.cc: read_series, write_series"]}
{"id": "C43", "title": "read_series only returns fully initialised series", "statement": "Whenever read_series returns, the number of coefficient lines read since the header equals nonzero, known >= nonzero, and every coefficient below nonzero came from a line of the file; duplicate or negative counts and surplus numbers throw. A missing or empty file is returned as an empty series. A comment after the header restarts the numbers, so numbers before it are dropped without error.", "quantifier": "for every file content", "why_tests_cant": "All byte strings.", "anchors": ["series.cc: read_series"]}
{"id": "C44", "title": "npy header is well formed", "statement": "numpy_header(shape) has the magic string and version, total length a multiple of 16, a length field equal to the remaining header size, ends with a newline, and its dictionary contains exactly the given shape.", "quantifier": "for every shape whose header fits in 65535 bytes", "why_tests_cant": "Padding depends on the decimal length of every dimension.", "anchors": ["numpy.cc: numpy_header", "series.cc: write_series_npy"]}
{"id": "C45", "title": "two_sum and two_prod are error free", "statement": "two_sum(a,b) returns x = RN(a+b) and y with x + y = a + b exactly; two_prod(a,b) with fma returns x = RN(ab) and y with x + y = ab exactly (barring underflow/overflow).", "quantifier": "for all finite doubles", "why_tests_cant": "2^128 input pairs, rounding ties.", "anchors": ["codelets.cc: two_sum, two_prod"]}
{"id": "C46", "title": "Expansion addition loses only the discarded tail", "statement": "The generated addition for expansions of any length n computes 2n components whose exact sum equals the exact sum of the inputs and returns the first n; the discarded part is bounded relative to the inputs (17 * 2^-106 for n = 2), x + 0 has exactly the value of x (its components may be renormalised, so operator== may say otherwise) and every component of x - x is zero.", "quantifier": "for all expansions of finite doubles without overflow", "why_tests_cant": "Rounding behaviour on all double inputs.", "anchors": ["codelets.cc: collange_add, collange_sub, expansion_arithmetic"]}
{"id": "C47", "title": "Expansion multiplication error", "statement": "The generated multiplication for expansions of any length n returns n components whose exact sum differs from the exact product by the explicitly discarded terms, which are bounded by a constant times 2^(-53n) times the product of the weighted magnitudes; for nonoverlapping operands with n = 2 the bound is 17 * 2^-106 times the product of the leading components.", "quantifier": "for all expansions of finite doubles without underflow or overflow", "why_tests_cant": "As C46.", "anchors": ["codelets.cc: collange_mul"]}
{"id": "C48", "title": "Sign, negation and scaling of expansions are exact", "statement": "For ulp-nonoverlapping expansions sign(x) is the sign of the exact value, -x, abs(x), half, twice and ldexp denote the exact negation, absolute value and scaling (barring underflow/overflow), and bool(x) is false exactly for value 0.", "quantifier": "for all valid expansions", "why_tests_cant": "All doubles.", "anchors": ["expansion.h: Expansion, half, twice, ldexp, operator bool", "expansion.cc: sign, abs"]}
{"id": "C49", "title": "int64 to expansion conversion is exact", "statement": "Expansion(int64 a) represents a exactly for every a whose nearest double is below 2^63; for the top 512 values the conversion back to int64 overflows, which is undefined.", "quantifier": "for every 64-bit integer", "why_tests_cant": "2^64 values; the failing ones are the last 512.", "anchors": ["expansion.h: Expansion(int64_t)"]}
{"id": "C50", "title": "safe() printing round-trips", "statement": "For every expansion without NaN, parsing the string printed by safe() gives back an expansion equal component by component. The bracketed form is read only when it consists of exactly n numbers separated by single commas, the closing bracket and nothing after it; anything else is reported.", "quantifier": "for every finite expansion", "why_tests_cant": "2^128 values.", "anchors": ["expansion.cc: safe, maybe_nice_safe, Expansion(const string&)"]}
{"id": "C51", "title": "nearest returns the correctly rounded value", "statement": "If f(prec) always encloses a real c, then whenever nearest<S>(f) returns, the result is c rounded to nearest (for double) or the greedy expansion of c whose leading component is c rounded to nearest and each later component the rounded remainder (for Expansion<n>); the precision tried is always one of 200,400,...,3200 and the program stops with an error otherwise.", "quantifier": "for every real c and every enclosing oracle f", "why_tests_cant": "Quantifies over all enclosures.", "anchors": ["nearest.h: nearest", "nearest.cc: round_nearest, RoundNear<Expansion<n>>::round"]}
{"id": "C52", "title": "nearest_twiddles fills every entry with the right root", "statement": "For every table size n >= 1 the factored computation covers each index j < n exactly once as j = j0*n1 + j1 with in-range factors, so each entry is exp(2 pi i j/b) correctly rounded, whether or not the fallback is used.", "quantifier": "for every n, b and every precision-failure pattern", "why_tests_cant": "sqrt/ceil rounding and all n.", "anchors": ["nearest.cc: nearest_twiddles"]}
{"id": "C53", "title": "Modular arithmetic is exact", "statement": "Fp add, sub, neg, mul, pow return the residue of the exact integer result for all operands below p, for every modulus 0 < p < 2^64 (pow: p > 1), with no intermediate overflow. Sig operations do so in every component, Sig(int) gives the residues of the integer, and unsmall recognises exactly the signatures of -32..32.", "quantifier": "for every p and all residues", "why_tests_cant": "2^128 operand pairs.", "anchors": ["sig.h: Fp", "sig.cc: pow"]}
{"id": "C54", "title": "Modular inverse", "statement": "Fp::inv(x) returns the inverse of x modulo p for every prime p < 2^64 and 0 < x < p, never failing its internal assertions and never overflowing 128-bit integers; if x and p share a factor it throws.", "quantifier": "for every p and x", "why_tests_cant": "As C53; Euclid's intermediate bounds need an invariant.", "anchors": ["sig.cc: Fp::inv"]}
{"id": "C55", "title": "Modular square root and quadratic residue test", "statement": "For an odd prime p, has_sqrt(a) decides whether a is a square modulo p, and sqrt(n) returns the smaller square root r <= p/2 of any square n whatever random choices are drawn; it throws for non-squares.", "quantifier": "for every odd prime p < 2^64, every residue, every random sequence", "why_tests_cant": "Randomised algorithm over 2^64 residues.", "anchors": ["sig.cc: Fp::has_sqrt, Fp::sqrt, Fp2"]}
{"id": "C56", "title": "The primality filter accepts the primes it is used on", "statement": "is_prime(n) returns true for every prime n < 2^64 that is at most 7 or divides none of the seven bases (so for every prime above 1795265022), false for every other prime and for every number divisible by 2, 3, 5 or 7 other than those primes; everything it accepts above 7 passes the Fermat test for each base.", "quantifier": "for every 64-bit n > 1", "why_tests_cant": "2^64 values.", "anchors": ["sig.cc: is_prime, is_sprp"]}
{"id": "C57", "title": "Simplifying expression constructors preserve meaning", "statement": "Building -e, x+y, x-y, x*y, x/a, sum(xs) with the symbolic operators yields an expression with the same value as the mathematical operation in every field of characteristic 0 (and the signature equal to the signature of that value), for all operand expressions and environments.", "quantifier": "for all expressions, all variable assignments", "why_tests_cant": "Infinitely many expressions; several special cases interact.", "anchors": ["exp.cc: operator-, operator+, operator*, operator/, sum"]}
{"id": "C58", "title": "Common subexpression elimination is sound", "statement": "As long as no two expressions with different values have the same signature, replacing an expression by the cached one with the same signature (or by a small integer) never changes its value, for any sequence of constructions.", "quantifier": "for every history of constructed expressions", "why_tests_cant": "History dependent table.", "anchors": ["exp.cc: CSE::cse", "sig.cc: unsmall"]}
{"id": "C59", "title": "Generated straight-line code computes the expressions", "statement": "The list of const declarations and result expressions produced by a Block for any use/compute sequence evaluates to the values of the requested expressions; declared names are distinct and each is declared before it is used.", "quantifier": "for all expression DAGs and all use/compute sequences", "why_tests_cant": "All DAGs.", "anchors": ["codelets.cc: Block::use, Block::compute, Block::now, Block::fresh"]}
{"id": "C60", "title": "Printed expressions parse back to the same tree meaning", "statement": "The C++ text printed for an expression, read with C++ precedence and associativity, denotes the same arithmetic expression: parentheses are inserted whenever they are needed.", "quantifier": "for all expressions built by the smart constructors", "why_tests_cant": "All trees.", "anchors": ["exp.cc: show, parens_if"]}
{"id": "C61", "title": "gradient is the transpose of a linear circuit", "statement": "For a circuit whose outputs are linear in its inputs and in which no output is a subexpression of another output, gradient(xs, ys, dys) returns expressions whose values are sum_i dys_i * (d ys_i/d xs_j); the derivative is that of analysis, so for any polynomial circuit the same holds. When an output is repeated or used inside another it double counts, and an input that no output depends on is refused.", "quantifier": "for all such circuits", "why_tests_cant": "All DAG shapes.", "anchors": ["codelets.cc: gradient", "exp.cc: Exp::grad"]}
{"id": "C62", "title": "Base-case codelets are exact", "statement": "The generated base cases compute the leading coefficients of x*y, x^2, 1/x and exp(x) exactly as the general definitions do, for every number of requested outputs and every input length, with inputs zero-extended. This holds for the algorithms as the generator runs them, where the naive product overwrites an operand it is still reading; it rests on the base cases being short (five terms).", "quantifier": "for all input lengths and values", "why_tests_cant": "All values and all early-exit positions.", "anchors": ["codelets.cc: mul_bases, series_bases"]}
{"id": "C63", "title": "Interval refinement keeps the true value", "statement": "If every coefficient of the true series lies in the ball polynomial C and in A - B, then after poly_intersect_sub(C, A, B, n) the coefficients below n still contain the true ones; poly_inv_refine and poly_div_refine return balls containing the exact reciprocal and quotient for every choice of exact inputs inside the input balls.", "quantifier": "for all ball polynomials and all members", "why_tests_cant": "Uncountably many members.", "anchors": ["poly.cc: poly_intersect_sub, poly_inv_refine, poly_div_refine"]}
{"id": "C64", "title": "Interval log and exp refinement", "statement": "poly_log_refine encloses log of every member. poly_exp_refine's mean-value step is not a valid enclosure in general: with a valid starting enclosure it can exclude the true exponential.", "quantifier": "for all ball polynomials and all members", "why_tests_cant": "As C63.", "anchors": ["poly.cc: poly_log_refine, poly_exp_refine"]}
{"id": "C65", "title": "Shifted polynomial add/sub with aliasing", "statement": "poly_add_shift_series and poly_sub_shift_series set h = f +- z^s g modulo z^n also when h is the same object as f or g.", "quantifier": "for all lengths, s >= 0, n and all three aliasing patterns", "why_tests_cant": "Order of in-place updates.", "anchors": ["poly.cc: poly_add_shift_series, poly_sub_shift_series"]}
{"id": "C66", "title": "Arb Newton schedule", "statement": "The Arb newton_iterate visits sizes m0 < m <= 2*m0, starting from n0 and ending exactly at n, with the minimal number of steps.", "quantifier": "for every n0 >= 1 and n", "why_tests_cant": "All sizes.", "anchors": ["poly.cc: newton_iterate"]}
{"id": "C67", "title": "Alpha compositing", "statement": "over(a,b) keeps alpha in [0,1] and colours within the range of the inputs' colours, clear is neutral on both sides (up to colour of a fully transparent result), an opaque a hides b; average of colours stays in range.", "quantifier": "for all colours with components in [0,1] (exact arithmetic)", "why_tests_cant": "Continuum of inputs.", "anchors": ["logo.cc: over, average"]}
{"id": "C68", "title": "Canvas indexing is a bijection and rendering stays in bounds", "statement": "index(i,j,s) is a bijection from width x height x samples onto [0, width*height*samples), and render only touches cells of the canvas for every box, including boxes partly or wholly outside.", "quantifier": "for all dimensions and boxes", "why_tests_cant": "All boxes.", "anchors": ["logo.cc: Canvas::index, Canvas::render"]}
{"id": "C69", "title": "series-to-npy never overwrites and converts faithfully", "statement": "If the conversion succeeds then the output did not exist before and ends in .npy, no other file changes, and the new file is an npy array of shape (nonzero, 2) with the bytes of all coefficients in order; an existing output file is always refused.", "quantifier": "for all file systems, paths and file contents", "why_tests_cant": "All file contents and prior states of the file system.", "anchors": ["series-to-npy.cc: convert"]}
{"id": "C70", "title": "The expressions generated for a Fourier butterfly are the butterfly and its transpose", "statement": "The real expressions that the code generator builds for the radix 2, 4 and 8 butterflies (first levels on reals and later levels on complex numbers) have the value of the butterfly at every value of their inputs, and the expressions it derives for the inverse direction by symbolic differentiation have the value of the transposed butterfly. This uses only that distinct expressions offered to the common-subexpression table do not collide. The compile-time twiddle constants are right only for exponent 0: for other exponents signature and text denote different roots of unity.", "quantifier": "for all signatures obeying the ring laws, all input expressions, all values of inputs and twiddle factors, both orders of evaluation, all prior table contents", "why_tests_cant": "Tests run one generated file at a few sizes; a wrong simplification only shows up for the inputs that exercise it, and all real inputs matter.", "anchors": ["codelets.cc: butterfly_0, butterfly_1, butterfly_s1, butterfly_s2, butterfly_s3, butterflies, constant_twiddle, base_twiddle, gradient", "complex.h: operators, diag"]}
{"id": "C71", "title": "The statements generated for the Fourier codelets, run as programs, compute the transforms", "statement": "Executing the statements that the generator writes for a butterfly body (integer definitions, loads from y and guarded loads from x, named subexpressions, stores, additions and subtractions into x) changes exactly the array elements that one iteration of the butterfly changes, to the right values. The drivers srfft_scramble and isrfft_scramble calling these twelve bodies for every index, in any order within a loop, compute the shifted Fourier sum and its inverse (set or added), for every power of two from 4 to 2^29 and all array contents; elements of x beyond its length are neither read nor written.", "quantifier": "for all signatures obeying the ring laws that do not collide, both orders of evaluation, all loop orders, all sizes 2^p with 2 <= p <= 29, all real array contents, all lengths of x", "why_tests_cant": "A test runs one generated file on sample arrays; this is about every text the generator can write, every size and every content.", "anchors": ["codelets.cc: Block, Loc, locs, forward, way, loop, butterflies", "fft.cc: srfft_scramble, isrfft_scramble"]}
{"id": "C72", "title": "The generated expansion operators compute the expansion algorithms on all doubles", "statement": "The declarations that the generator writes for the addition, subtraction and multiplication of expansions, executed in order on doubles, return exactly the components that the algorithms (two_sum, two_prod and the sweeps, with every rounding) give, including for infinities and NaNs, except that the sign of a zero may differ: sharing of common subexpressions, the rewriting of signs and the inlining of single uses change nothing. Every name is declared once, before its use. So the results obey the error bounds of C46 and C47.", "quantifier": "for all numbers of components, both orders in which the generator may evaluate arguments, all signatures that do not collide, all doubles", "why_tests_cant": "A test runs three generated operators (n = 2, 3, 4) on sample values; signatures are random, and whether a rewriting is exact shows only on special values.", "anchors": ["codelets.cc: two_sum, two_prod, collange_add, collange_sub, collange_mul, expansion_arithmetic, Block", "exp.cc: operator-, operator+, operator*, CSE::cse"]}
{"id": "C73", "title": "The generated multiplication base cases multiply in place, whatever the arrays share", "statement": "The statements that the generator writes for mul_base and sqr_base (guarded loads, early returns, named subexpressions, stores), run on a memory in which x, y and z may overlap in any way, replace the first n elements of z that exist by the coefficients of the product (square) of the series as they were before the call, taking missing coefficients as zero. No other cell changes, no cell outside the given lengths is read or written, and nothing is read when z is empty.", "quantifier": "for all numbers of terms, both orders of argument evaluation, all signatures obeying the ring laws that do not collide, every field, all lengths, all pointers and all memory contents", "why_tests_cant": "A test runs one generated body (8 terms) on sample arrays without overlap; in-place use and every combination of lengths and exits matter.", "anchors": ["codelets.cc: mul_bases, Block", "exp.cc: operator*, operator+, sum, CSE::cse"]}
{"id": "C74", "title": "series-exp writes the exponential of a series file and nothing else", "statement": "For an input file whose n coefficients are all stored and whose first is zero, the program creates the output npy file with the first n coefficients of the exponential, as an array of shape (m, 2) with m <= n and zeros beyond m, and changes no other file. An existing output file, an output name without the suffix .npy and a nonzero constant term are refused. A file that stores fewer terms than it knows is refused although its exponential exists.", "quantifier": "for all file systems, paths, series of up to 2^28 terms and scalar fields (exact arithmetic)", "why_tests_cant": "All file contents and sizes; the failing case needs a file with nonzero < known, which no test writes.", "anchors": ["series-exp.cc: exp", "series.cc: read_series, write_series_npy", "series.h: exp"]}
{"id": "C75", "title": "The generated series base cases are programs for the reciprocal and the exponential", "statement": "The statements written at build time for inv_base and exp_base, run on any memory, replace the first min(5, ny) elements of y by the coefficients of 1/x (x[0] nonzero) or of exp(x) (x[0] taken as zero and not needed) for x as it was before, zero beyond its end, and change nothing else, even if the arrays overlap. With their wrapper they are valid base cases, so series reciprocals and exponentials of any size computed from them are right.", "quantifier": "for all memories, lengths, pointers, field elements and signature schemes under which equal signatures mean equal values, for all inputs and both orders of evaluation", "why_tests_cant": "The text is generated by running Newton iterations on symbolic expressions with simplification and sharing by random signatures; tests see one build and a few inputs.", "anchors": ["codelets.cc: series_bases", "codelets.cc: Block::compute", "codelets.cc: fft_mul, high_addsub_ldexp, add_scalar", "series.h: inv, exp, log, div", "exp.cc: CSE::cse, sum, inv"]}
{"id": "C76", "title": "Products, squares and the area iteration are right with all generated programs linked in", "statement": "fft_mul, fft_addmul and fft_sqr, calling the transform codelets and base cases that the generator wrote, return exactly the coefficients of the product asked for (fft_addmul: added to what the middle step left), whatever the buffers held, in any loop order; they throw when asked for more terms than the product has. So every series function built on them and on the generated series base cases is right, and the iteration of area.cc returns, when its checks accept, the 2^k coefficients determined by the Mandelbrot iteration.", "quantifier": "for all arrays with at most 2^28 outputs, all buffer contents, all loop orders, all k <= 28, all checks, and all signature schemes under which equal signatures mean equal values", "why_tests_cant": "Each generated piece is tested on its own for a few sizes; that the pieces fit together for every size, including which codelet is called with which arguments and buffer, is a statement about all sizes.", "anchors": ["fft.cc: fft_mul", "fft.cc: fft_addmul", "fft.cc: fft_sqr", "fft.cc: srfft_scramble", "fft.cc: isrfft_scramble", "codelets.cc: mul_bases", "codelets.cc: butterflies", "codelets.cc: series_bases", "area.cc: bottcher_step"]}
{"id": "C77", "title": "Reciprocals and quotients of two-term expansions are accurate to about 98 bits", "statement": "inv(x) * x differs from 1 by at most 211 * 2^-106 and its second component is at most 2^-48 of the first; a / b differs from the exact quotient by at most 262 * 2^-106 of it, also for an int64 divisor; zero divided by b is zero; all results are finite. For any number of components inv and / return and throw nothing. Outside the range the reciprocal can be NaN.", "quantifier": "for all normalised finite two-term expansions with leading component between 2^-300 and 2^300 in magnitude (dividends down to 2^-574, smaller ones with an absolute bound), all int64 divisors below the top 512; totality for all lengths", "why_tests_cant": "Tests compare random quotients with Arb; no finite set of pairs of 106-bit numbers shows the bound for all, nor that no intermediate underflow or cancellation spoils it.", "anchors": ["expansion.h:62", "expansion.h:139-171"]}
{"id": "C78", "title": "The search for the signature moduli always finds the same four primes", "statement": "Whatever its random generator draws, the search of sig.cc for its four moduli never throws, never has undefined behaviour and never yields anything but 2^64-257, 2^64-353, 2^64-2289 and 2^64-3113. These are primes, exactly the largest 64-bit primes that are 7 modulo 8 and in which 2 has four successive least square roots; -1 has no root modulo them, so complex numbers over them have inverses; signatures without zero components have inverses; and integers less than 2^255 apart with the same signature are equal. The search ends on every stream of draws that keeps offering good values.", "quantifier": "all streams of random values, all numbers of steps; all candidates of the searched range; all integers a, b", "why_tests_cant": "The primality filter is probabilistic and the square roots consume random draws, so a test sees one stream; that the moduli are prime, and that no others were skipped, is not observable from signatures.", "anchors": ["sig.cc:141-159", "sig.cc:84-89", "sig.cc:120-139", "sig.cc:52-60", "sig.h:18-47"]}
{"id": "C79", "title": "The double-precision Fourier transforms are accurate to a few bits per doubling", "statement": "fft on doubles, with its twiddle tables correctly rounded, returns finite numbers that differ from the exact Fourier sums of the input by at most 7 p 2^-53 times the sum of the input magnitudes, for 2^p points; so by at most 11 p 2^p 2^-53 M if no input exceeds M. The same holds for ifft, and ifft after fft returns 2^p times the input up to 28 p 2^p 2^-53 times the sum of the magnitudes. This does not depend on the order in which the loops run nor on what the buffers held. Finite inputs near the overflow threshold can give infinities, so the bound on the inputs is needed.", "quantifier": "all 2^p points with 1 <= p <= 29, all finite inputs whose magnitudes sum to at most 2^990 (2^960 for the round trip), subnormal numbers included, all loop orders, all interval arithmetics obeying Arb's enclosure contract", "why_tests_cant": "The tests compare random transforms of a few sizes with a loose tolerance; that no input and no size up to 2^29 loses more bits is a statement about all inputs, and rounding errors are worst on inputs that random tests do not hit.", "anchors": ["fft.cc:36-41", "fft.cc:52-66", "fft.cc:174-248"]}
{"id": "C80", "title": "Every area that arb_area prints encloses the area of its order", "statement": "For each k up to max_k and for both the Newton pass and the refining pass, the ball that arb_areas prints holds pi times the sum of (1 - i) f_i^2 over i < 2^k, where f is the one series with f(0) = 1 and R_k(f) = 1 modulo z^(2^k). This follows from Arb's enclosure contract when skip_refine is true; when it is false, as in poly.cc, it also needs that the two refined exponential functions enclose, which C64 shows not to follow from the contract. The run never meets undefined behaviour; if it ends normally it has printed the two areas of each k in order; and with skip_refine true, tests for zero and overlap that never miss, and known balls that hold the areas, it does end normally.", "quantifier": "all max_k, all ball arithmetics over the reals that meet the enclosure contract and whose balls are intervals, hence all precisions, all tables of known areas", "why_tests_cant": "The program compares its areas with known ones for k up to 16 at one precision; that an interval holds an irrational number is never tested, and the refining pass rests on a mean value argument for series with interval coefficients that no number of runs can settle.", "anchors": ["arb_area.cc:16-140", "poly.cc:41-51", "poly.cc:72-91", "poly.cc:128-204", "poly.cc:252-457"]}
{"id": "C81", "title": "The distance used by the tests measures what it is taken to measure", "statement": "error(x, y) of two series of finite doubles with the same known() is the largest |x_i - y_i| (divided by max(1, |y_i|) if relative) up to a relative rounding error of 3/2^53, is +0 exactly if all coefficients are equal, however many are stored, and is infinite if known() differs; the absolute one is symmetric bit by bit. Hence a passed ASSERT_TOL2 shows every coefficient within the tolerance and a passed ASSERT_EXACT2 shows equality. A series of NaNs, however, is at distance zero from every series of its length.", "quantifier": "all lengths, all numbers of stored and known coefficients, all finite doubles (symmetry and the NaN statement: all doubles), all tolerances", "why_tests_cant": "The function is the oracle of the tests: no test built on it can reveal that it reports too small a distance, and the rounding and the cancellation in it concern all pairs of doubles.", "anchors": ["series.cc:18-57", "series.h:648-658", "tests.h:58"]}
{"id": "C82", "title": "The log of a run is what was shown, and a run touches nothing else", "statement": "With -o, the program creates the directory and a log in it, and at exit the log holds exactly the lines shown on the two streams, in order, starting with the arguments and including the final error message; no other path changes except those the computation writes. If --prec is misused or the directory exists or cannot be created, one line goes to the error stream, nothing changes on disk, and the status is 1. The status is 0 exactly if nothing was refused, the mode exists and its computation returned, else 1. -k is truncated towards zero and capped at 1000 (also for infinity and NaN), and undefined below the range of int. A run that fails for an unknown mode leaves its directory behind, so that the corrected command is refused.", "quantifier": "all arguments, all tables of modes, all computations as sequences of prints and file writes with any ending, all file systems, all doubles for -k", "why_tests_cant": "No test runs the program. The claims are about every sequence of messages and every way to end, and the conversion is undefined for some doubles.", "anchors": ["mandelbrot.cc:39-100", "print.cc:13-51", "debug.cc:23-29"]}
{"id": "C83", "title": "The exit status of a test program tells whether every selected test passed", "statement": "run_tests runs every registered test whose name was given (all if none was given) exactly once, in order of registration, each in the state the one before left and whether or not earlier ones failed; the status is 0 exactly if all of them returned, else 1, and the summary counts and names exactly the failed ones. ASSERT_THROW goes on exactly if a std::exception was thrown whose type name contains the given text. A failed assertion ends its test. However, names that no test has are ignored: status 0 with nothing run, and the line 'N tests ran' counts all registered tests; a test that calls exit decides the status alone.", "quantifier": "all lists of tests as functions on an arbitrary process state, all arguments, all ways for a test to end", "why_tests_cant": "The runner is what reports the tests: no test in it can show that a failure is reported, nor that the remaining tests are still run.", "anchors": ["tests.cc:17-38", "tests.cc:62-130", "tests.h:28-62"]}
{"id": "C84", "title": "Short products of doubles are accurate to four roundings", "statement": "In double precision, mul_base and sqr_base (the code that fft_mul and fft_sqr run for results of at most 8 coefficients) leave in each coefficient a finite number within 4.1 u S + 2^-1071 of the exact coefficient of the product of the inputs as they were before the call, where u = 2^-53 and S is the sum of the absolute values of the terms of that coefficient; if all inputs are integers and S <= 2^53 the coefficient is exact. Arrays may overlap; exactly the first min(8, length) elements of the output change. It is not claimed, and false, that squaring x gives the same bits as multiplying x by x.", "quantifier": "all finite inputs with S <= 2^990 for the coefficients asked for, all lengths, all pointers with any overlap, all signature draws that write the collision-free text", "why_tests_cant": "A unit test compares a few products with a tolerance; the bound holds for every pair of inputs, including cancelling sums, subnormal products and overlapping arrays.", "anchors": ["codelets.cc:308-369", "exp.cc:207-212", "fft.cc:436-442", "fft.cc:479-485"]}
{"id": "C85", "title": "Cached twiddle slices: always the right roots, each table computed once, all freed at shutdown", "statement": "For every sequence of requests for twiddle slices and big slices (for the CPU or the GPU), reads through slices obtained earlier, and shutdowns: a slice of level s (0 <= s <= 29) reads at every index j, negative ones included, the j-th of the 2*2^s roots, and a big slice of level s (2 <= s <= 29) the product of root j >> 2 of level s-2 and root j mod 4 of level s, however many other slices were requested in between, as long as no shutdown came in between. A big slice of level below 2 is refused. Each level is computed exactly once, lowest first, for both memories together, and again only after a shutdown. Shutdown frees every table; at most the two small tables of first roots stay allocated; a second shutdown changes nothing. It is not claimed, and false, that a slice can be read after a shutdown, or that the big slice of level 30 that is handed out can be read.", "quantifier": "all sequences of operations of any length, all levels and indices, all tables with the symmetries of the roots of unity", "why_tests_cant": "A unit test checks values of a few slices in one order of requests; that pointers handed out stay valid while the vector of tables grows, and that nothing leaks, is a claim about all orders of requests.", "anchors": ["fft.cc:36-124", "singleton.h:11-33", "shutdown.cc:9-21"]}
{"id": "C86", "title": "The classes around FLINT's structs behave as values and own their memory", "statement": "For every sequence of constructions, copies, moves, assignments, reads, printing and destructions of objects of the classes Arb, Acb, Arf, Fmpq, Mag and Poly: each read gives the value that plain values would give (after a move the source is zero, other objects keep their values), nothing is freed twice or read after it was freed, no two objects ever share memory, and when all objects are destroyed no memory stays allocated except one text buffer for each text printed through operator<< or Arf::safe. It is not claimed, and false, that printing leaves nothing behind, or that moving an object to itself keeps its value.", "quantifier": "all sequences of operations of any length on any number of objects, all values, any rule for which values need memory, and either policy for memory no longer needed", "why_tests_cant": "Double frees and leaks show up, if at all, only for the orders of operations and the sizes of numbers a test happens to use; the claim is about all of them.", "anchors": ["arb_cc.h:10-34", "arb_cc.cc:11-28", "acb_cc.h:10-31", "arf_cc.h:10-29", "arf_cc.cc:8-27", "fmpq_cc.h:10-30", "mag_cc.h:7-22", "poly.h:12-45", "poly.cc:61-70"]}
{"id": "C87", "title": "Series own their terms, and a view follows its terms", "statement": "For every sequence of constructions, moves, swaps, assignments, clears, changes of counts, reads and writes through views, and destructions of series: each outcome is that of plain families of terms, where a view made of a series reads and writes the terms that series had, also after they were moved or swapped to another series, until they are cleared or destroyed; an assignment copies the terms the view has at that time; a list or a view that does not fit is refused and leaves nothing allocated or changed. No two series ever share memory, nothing is freed twice, and when all are destroyed nothing is allocated. If set_counts is never called with a negative number of known terms, the number of terms of a series never exceeds its memory. It is not claimed, and false, that a view can be read as long as its series exists, that the number of terms never exceeds the memory, or that a series may be assigned to itself (std::copy onto its own source is undefined).", "quantifier": "all sequences of operations of any length on any number of series and views, all lengths, counts and indices, all values", "why_tests_cant": "Which views stay valid after which moves, and that every block is freed once, concerns all orders of operations; a test reading freed memory usually still sees the old terms.", "anchors": ["array.h:20-57", "series.h:59-128", "series.h:134-141", "series.h:166-177", "cutil.h:92-99"]}
