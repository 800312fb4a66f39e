# Formal model of girving/mandelbrot: design

Source under study: `/repo` (C++/CUDA), read as text. The model is Rocq (Coq 8.16),
in `rocq/theories`, logical name `Verif`. Nothing from `/repo` is compiled or run.

## 1. Trusted base

* Coq's kernel (checked by `coqc`; `coqchk` at the end).
* The axioms listed by `Print Assumptions` under every theorem (each
  `Properties_*.v` file prints them). Theorems about the abstract-field series code
  and the integer code are expected to be closed under the global context. Theorems
  about real numbers (FFT over R, Flocq floats, area, nearest) use the
  standard library's real-number axioms (`ClassicalDedekindReals.sig_forall_dec`,
  `ClassicalDedekindReals.sig_not_dec`, `FunctionalExtensionality.functional_extensionality_dep`)
  and, via Flocq/`Rtrigo`, `Classical_Prop.classic`. No axiom is declared here.
* The reading of the C++ into Gallina. Each definition cites file and lines.

### What is modelled
Host code paths: `loops`, `fft` (exact arithmetic over R), the butterflies and base
codelets produced by `codelets`, `series.h`/`series.cc`, `area.cc`, `mandelbrot.cc`
(driver loop, main, log), text and npy I/O, `Expansion` arithmetic over Flocq's binary64 format,
`nearest`, `sig`, `exp`, the test runner, the `Block`/`gradient` part of `codelets.cc`, the ball-polynomial
code of `poly.cc` and `arb_area.cc` over an interface for Arb's balls, `logo.cc` arithmetic.

### What is not modelled
* CUDA memory transfer, streams, device allocation; device kernels are modelled only
  through the grid-stride index pattern.
* Floating-point rounding inside series algorithms. The series algorithms are
  proved over an arbitrary field of characteristic 0 ("exact arithmetic"). Rounding is
  treated separately for the scalar primitives (C45-C52, C77) and for the double-precision
  transforms (C79). Contraction of `a*b+c` to fused operations, which compilers may do, is not covered.
* `mallocs`, exceptions' messages, timing output, `tfm`/printf formatting apart from
  integers.
* int64 overflow of size arithmetic; theorems carry `known <= 2^28` or a similar bound where
  a 32-bit truncation or a table size matters, and otherwise use unbounded Z.
* Third-party code: Arb/FLINT, MPFR, libc `strtod`/`%.17g`, OpenMP runtime. These appear as
  Section variables with stated contracts, never as axioms.

## 2. Conventions
* Throwing (`slow_assert`, `THROW`) and undefined behaviour are distinct outcomes
  (`Ok`/`Throw`/`UB`).
* Uninitialised cells are `None`; reading one is `UB`.
* Model files hold definitions only. Property theorems live in `Properties_*.v`, closed by
  one lemma from a proof file, followed by a concrete instance and `Print Assumptions`.
* A statement that is false of the faithful model is recorded as `*_refuted`.

## 3. Properties: what is modelled, how it is proved

| id | model | proof idea |
|----|-------|-----------|
| C01 | `partition_loop` on Z | arithmetic (quotient/remainder) |
| C02 | threads as programs (private fold, critical resize, slot store), interleaving relation, then serial fold | invariant over all interleavings; associativity |
| C03 | host `for` over int32; device grid-stride index sets | permutation proof; refutation for n = 2^31 |
| C04 | 64-bit reversal and right shift on N; swap loop on lists | involution + bit lemmas |
| C05 | block reversal loops | explicit index map; involution by induction |
| C06 | stored quarter table, three flips | trig identities over R |
| C07 | DIF passes on lists of complex pairs over R | loop invariant by level |
| C08 | inverse passes | inverse pass o forward pass = 2 id |
| C09, C10 | post/pre-processing over bit-reversed pairs | even/odd split identity |
| C11, C12 | radix-2 reference passes, radix-4/8 codelets as compositions | loop invariant with angles; inverse passes |
| C13-C15 | `fft_mul/addmul/sqr` incl. base codelet | evaluation at shifted roots, negacyclic reduction |
| C16 | table sizes and accessed indices | arithmetic; refutation at p = 30 |
| C17-C20, C23 | `Series` record {cells, known, nonzero}, all primitives in the result monad | invariant over op lists; functional specs |
| C21, C22 | as above with multiplication kernel contract | convolution lemmas; refutation for known-zero operand |
| C24 | AliasModel.v: every Series operation over a heap of buffers; objects own a buffer, views point into one; loops run one index at a time in any order; temporaries are allocated and never reused | AliasProofs.v: each heap operation simulates the value operation of SeriesModel.v and changes no other buffer; the `alias` check is exact; shifted views on a device and self assignment refuted (findings 25, 26) |
| C25 | `newton_iterate` trace | arithmetic on shifts |
| C26-C34 | algorithms run in the result monad over any field of char 0 | power-series theory (truncated equality), Newton step lemmas |
| C35-C37 | `escape`, `implicit`, `bottcher_step` | induction on k; derivative lemma; uniqueness by coefficients |
| C38 | area at each precision through map_reduce with balls, any threads and schedule per precision | the run over balls and the run over exact reals go in step, then C02 and C51; terms after the first are not positive |
| C39 | countl_zero arithmetic on Z | arithmetic |
| C40 | driver as a state machine over a file system map; batch size, threads, schedule and clock differ per run; the step is any function of the content of g, and the Bottcher step is shown to be one | correspondence of two runs by induction, frame conditions on files |
| C41-C43 | files as character lists, getline, trim, stol and the reader's loop variables; batches run under any schedule | loop invariant relating the state to the kinds of lines read; every proper prefix ends inside a line |
| C44, C69 | header as string; a separate npy reader; convert over a file system map | the reader inverts the writer |
| C45-C49 | every double operation is Flocq's correctly rounded binary64 operation, with overflow, underflow and signed zeros; expansions are lists of any length; the "any nonzero" loop of collange_mul has fuel and a ghost list of what is dropped | Flocq's TwoSum and product-error theorems; telescoping error bound along the insertion chain; potential function sum of abs(x_j)/u^j for the product |
| C50 | printing/parsing oracle with round-trip contract | case analysis of `safe` |
| C51, C52 | NearestModel.v: round_nearest, RoundNear, the precision loop, constants and the factored table; Arb is the record `arb` with the contract `encloses` (NearestProofs.v), met by the interval arithmetic of NearestInst.v | rounding is monotone, greedy expansions of both ends agree, so does everything between; bounds on the floating point square root |
| C53-C56 | Fp on Z; random draws are an arbitrary list | Euclid invariant with Bezout bounds; Euler criterion and Cipolla via mathcomp's 'F_p and 2x2 matrices; strong-pseudoprime argument from Fermat |
| C57, C58 | Exp tree over an abstract signature algebra (instantiated with sig.cc in ExpSig.v), signature-keyed CSE table with a ghost log of what was offered | one specification per constructor, threaded through any history |
| C59 | Block as a state machine (names, counts, lets, declarations) | scoping and value invariants over any command list |
| C60 | text as a list of lexemes; C++ reading as a separate recursive-descent parser | structural induction over expressions, one lemma per precedence level |
| C61 | both worklist loops of `gradient` (ExpModel.v), with a bound on the number of pops that the theorem discharges | need counts = numbers of uses of unprocessed parents; sum of contribution * derivative over unprocessed nodes is constant; the derivative rules are a separate spec (GradSpec.v), shown to be the derivative of analysis over the reals; inputs may be variables or the fields of complex variables (`split`), as the Fourier codelets use them; transpose follows by uniqueness of limits |
| C62 | straight-line codelets; the series algorithms as the generator runs them, with the product that writes over the operand it reads (codelets.cc:394-404) | symbolic evaluation over any field; Newton invariants with the condition under which the in-place product is the product |
| C63, C64 | PolyModel.v: poly_intersect_sub, inv/div/log/log1p/exp/log1p_shift refinements over the record `arb_poly`; what is assumed of Arb is `poly_ok` (PolySpec.v), met by the rational balls of PolyInst.v | members of the balls are carried through each step as exact power series; the exponential is sound only under a mean-value condition (C64_exp_mean), and an explicit valid enclosure breaks it (C64_exp_refuted) |
| C65 | polynomial objects with names, arrays longer than the length, in-place loops | loop invariant: coefficients above i are new, those below are old |
| C66 | the list of sizes and the calls of step | doubling bound gives minimality |
| C67, C68 | LogoModel.v: over, average, the constructor, index, render, circle, border and the bytes of write; doubles are exact rationals, int arithmetic and conversions may be undefined, unset cells are None, the random numbers are any stream in [0,1) | rational arithmetic; each loop visits each cell once, so the array after it is described cell by cell |
| C70 | GenModel.v: complex arithmetic on symbolic expressions, the five butterflies, constants and twiddle lookups, `forward`, `way` and the statements of a loop body | the specifications of C57 composed along each butterfly; backward from C61_transpose with linearity of the butterflies; decision procedures for the circuit conditions (GenCheck.v), run on the radix 2 and first radix 4 codelets in Properties_Gen.v |
| C71 | GenRun.v: a machine for the written statements (declarations, loads, stores, `+=`, `-=`, guards on xn); GenDriver.v: the drivers of fft.cc:346-406 calling those programs | each load, declaration and store follows the symbolic value (GenProg.v); scopes show the text uses only declared names (GenScope.v); GenExec.v gives one iteration of every body; GenWhole.v composes loops and passes, and C11/C12 give the Fourier sums. GenFast.v decides the conditions; Properties_Prog.v runs it on all twelve codelets |
| C72 | ExpnGenModel.v: two_sum, two_prod, collange_add/sub/mul and `binary` of codelets.cc:191-306 in the generator's monad (CSE with assume_exact off, inlining of single uses by Block::compute) | each generator step is followed by the step on doubles (ExpnGenProofs.v, `tri`), with rewriting of signs exact up to the sign of zero; the CSE table only returns equal expressions because no two logged nodes share a signature; the error bounds of C46 and C47 are transported to the written program. Not modelled: the printed text of an expression (its parse is trusted), negation and the `Expansion<n>` wrapping |
| C73 | BaseGenModel.v: extend, the exits, the terms and the stores of codelets.cc:308-369 in the generator's monad; BaseGenRun.v: the machine the statements run on (one memory, pointers into it, access outside it undefined) | all loads precede all stores, names are declared once, each stored expression has the value of the coefficient (BaseGenProofs.v `body_ok`); the square uses the symmetry of the sum. Not modelled: the printed text (C60 for expressions), rounding |
| C74 | SeriesExpModel.v: series-exp.cc:9-32, composed of read_series, set_exp and write_series_npy | composition of the theorems on reading (C43), exp (C32) and npy (C44) |
| C75 | SerGenModel.v: the series algorithms run on symbolic expressions (codelets.cc:371-457 with series.h), the loads, the exits, every result computed twice, the stores, and the wrapper with the counts; run on the machine of BaseGenRun.v | backward simulation (SerGenSim.v): a symbolic run that ends follows the scalar run of C62 step by step as long as no signatures collided; then scoping and values as in C73. The condition on signatures is for inputs with x[0] nonzero and a true reciprocal; SerGenCheck.v decides it with normal forms p / (d x0^k) and is proved sound. C75_series puts the programs into the series functions of C26 and C32. Not modelled: the printed text, rounding |
| C76 | MulProgModel.v: fft_mul, fft_addmul and fft_sqr (fft.cc:436-499) calling the drivers of C71 and the base cases of C73 with the statements the generator wrote, over the reals, arrays of a call separate | whatever the multiplications of FFTModel.v return these return (MulProgProofs.v), so they are kernels and, with C75, base cases for every series theorem (MulProgKernel.v); C76_bottcher is the iteration of area.cc with all generated programs in place. C76_linked: one set of programs meets all hypotheses at once |
| C77 | ExpansionDivModel.v: inv, operator/ and division by an int64 (expansion.h:62, 139-171) on the operators of ExpansionModel.v | each rounding is bounded by u times the exact value plus half the smallest double, so nothing is assumed about underflow inside (ExpansionDiv.v: mul2_gen, add2_gen); one Newton step squares the residual and adds a bounded amount (newton2), the quotient combines the residuals. Totality is for every length; the error bounds are for two components, operands between 2^-300 and 2^300 (dividends from 2^-574, or with an absolute bound). C77_range_refuted: the reciprocal of 2^-1074 is not a number. Accuracy for three or more components is not proved |
| C78 | SigFieldsModel.v: the search loop of sig.cc:141-159 with sqrt and random reading a list of generator values and returning what is left | Pocklington.v: trial division and Pocklington's criterion for certificate lists (certificates from an untrusted script); SigFields.v: all 390 candidates of the range are certified prime or refuted by a divisor with 2^(p-1) <> 1, so the filter is decided without running it; least roots are unique, so the outcome does not depend on the draws; the rest by induction on the search. SigFieldsEnd.v: each loop ends on fair streams. |
| C79 | FFTRoundModel.v: the operations of fft.cc on IEEE doubles (Flocq) with the tables of fft.cc:36-66 rounded by nearest_twiddles; the transforms are those of FFTModel.v | FFTRound.v: each number carries its exact value and a bound; the weight of element j in a partial sum of stage s stays within the sum of the input magnitudes of its residue class, each of the p passes adds at most K = (1+u)((1+tau)(1+3u)+u) relative error; FFTRoundD.v: 2^-1000 per input absorbs all underflow, K^p is bounded for p <= 29; no overflow follows from the bound on the magnitudes. FFTRoundInst.v: a ball arithmetic with half-angle formulas meets the contract and yields real tables |
| C80 | ArbAreaModel.v: arb_area.cc whole, and expm1_shift and log1p_exp_shift of poly.cc with their Newton iterations and last steps, over the records `arb_poly` and `arb_more`; the contract of the latter is `more_ok` (ArbAreaSpec.v); the balls of ArbAreaInst.v meet it | ArbExpProofs.v: the Newton iterations keep a member that agrees with the truth to the order reached, using the formal Newton lemmas of the series code; ArbAreaProofs.v: `escape` encloses h_k and its derivative for every member; the refining pass is an interval Newton step, justified coefficient by coefficient by a mean value theorem for series over R (ArbMean.v, by Coquelicot); the equation has one solution (BottcherMath.v) |
| C81 | SeriesErrModel.v: `approx`, the three `error` functions of series.cc and the assertion of ASSERT_TOL2, on the doubles of ExpansionModel.v; a Poly enters by the doubles that arf_get_d returns for its midpoints | SeriesErrProofs.v: the three loops are one running maximum (`loops_maxl`); the subtraction never underflows, and neither does the relative quotient, since two different doubles of which one is at least 1 are apart by 2^-54 of it (`gap_rel`); NaNs never enter the maximum (`error_nan`) |
| C82 | DriverModel.v: main of mandelbrot.cc after argument parsing, print.cc, `die`, with a file system of path names and computations as lists of actions; `k_of` on doubles | DriverProofs.v: the invariant `logged` (the file of tee_fd holds all lines shown) is kept by every print and by every write to another path; cases on what refuses a run; Flocq's Btrunc for -k |
| C83 | TestRunModel.v: `run_tests`, main and `test_throw` of tests.cc, the assertion macros; a test is a function on an arbitrary state with printed lines and an ending | Properties_TestRun.v: the loop against a relation that runs the selected tests one after another (`loop_spec`), then the readings of the printed lines |
| C84 | BaseRoundModel.v: the statements written by the generator of C73 as text, and a machine on doubles that rounds each operation | BaseRound.v: error of a tree of sums of products by induction on the tree (depth at most 4, at most 8 products; doubling is exact), integers exact below 2^53; the text is computed from the generator and shown to be eight such trees. Assumed: the text is the collision-free one (true of the example draws, in both orders of evaluation). Squaring and multiplying x by x differ in the last bit: C84_same_refuted |
| C85 | CacheModel.v: both singletons FullTwiddle (CPU and GPU) over a heap of blocks, slices as raw pointers, on_shutdown and shutdown; the values of the tables are a parameter | CacheSpec.v: levels, epochs and roots only; CacheProofs.v: invariant of the heap (tables and few apart, every live block owned), kept by allocation and by clear; refinement by induction over the operations |
| C86 | WrapModel.v: constructors, assignments, destructor and printing of Arb, Acb, Arf, Fmpq, Mag and Poly over structs with at most one block of malloc; FLINT's init, clear, set, swap and zero are part of the model (trusted) | WrapSpec.v: a store of plain values; WrapProofs.v: every live block has one owner or is a printed text, kept by each operation; simulation by induction over the operations |
| C87 | LifeModel.v: Array and the constructors, move, swap, clear, set_scalar, assignment and counts of Series over a heap of blocks with unset cells; views are a pointer and a length | LifeSpec.v: families of terms, a view names the object that has its terms; LifeProofs.v: simulation relation (one owner per block, every block owned, views of freed terms point at freed blocks), kept by each operation |

## 4. Findings in the source (details beside the theorems)
1. `mul`, `mul1p` (hence `div`, `inv1p`, `log1p`, `expm1`, `div1p`) throw on a known-zero
   operand (`nonzero == 0 < known`) combined with a multi-term one.
2. `set_counts` accepts a negative `known`.
3. `known_to_k(0)` shifts by 64 (UB).
4. `read_series` accepts missing, empty and some truncated files.
5. `fft_mul` gives wrong low coefficients if an input is much longer than the output.
6. `isrfft` accepts `xn` up to `2n` but fills only `n` entries.
7. `bitrev` shifts by 64 for length 1 (UB).
8. `big_slice(30)` reads past the `few` table.
9. `Expansion(int64_t)` is undefined for the largest 512 values.
10. `gradient` double counts if one output is a subexpression of another.
11. Host loops and npy shapes truncate 64-bit sizes to `int`.
12. `poly_exp_refine`/`poly_log1p_exp_shift_refine`: the coefficientwise mean-value step is not an enclosure in general
    (C64_exp_refuted: a valid start for exp(z/2) is refined to exclude its cubic coefficient).
13. `Canvas` reads uninitialised colours.
14. `is_prime` rejects the primes above 7 that divide one of its bases (13, 19, 73, 193, ...); it is only used near 2^64.
15. `pow` modulo 1 returns 1 for exponent 0.
16. `DivExp` on an integer literal prints an integer division: `Exp(1) / 3` prints `1 / 3`, which is 0 in C++.
17. With `CSE(false)` the signature of `x + y`, `x - y` and `x * y` is the same hash of the two
    operands (the operator is not hashed), so the three are conflated. The one generator
    in inexact mode (expansion_arithmetic) must not build two of them on the same operands.
18. `Block::compute` throws "No count" when two structurally different used expressions share a
    signature and the first is a negation (negations are not entered in the CSE table).
19. Signatures from `arbitrary` are raw SHA-256 words, not reduced modulo the fields; the model takes
    them reduced.
20. `two_prod` loses the error term when the product underflows (C45_underflow_refuted).
21. `x + 0 == x` is false for some valid expansions: addition renormalises and `operator==`
    compares components (C46_add_zero_eq_refuted). `sign` is the sign of the first nonzero component,
    which is wrong for overlapping expansions (C48_sign_invalid_refuted).
22. `read_series`: once both counts are known every later comment line allocates a new series and
    restarts the numbers, so a comment in the middle of a file silently drops the numbers before it
    (C43_restart_refuted). A comment starting with a reserved key makes a written file unreadable
    (C41_reserved_refuted).
23. `round_nearest` accepts the rounded lower end as soon as it is not finite, so an enclosure
    without a finite lower end makes `nearest` return minus infinity at the first precision
    (C51_unbounded_refuted). `nearest_twiddles` on an empty span divides by zero
    (C52_empty_refuted).
24. The constructor of `Canvas` leaves `colors` as malloc returned it, and `render` and `write` read
    it: drawing on a fresh canvas reads indeterminate values (C68_uninit_refuted). A box farther away
    than 2^31 pixels is undefined instead of skipped (C68_far_refuted).
25. The elementwise operations and `mul1p` have no alias check. With x a view of the destination that
    does not start at its beginning (`y = neg(y.high(1))`), the host loop is right but a device grid may
    overwrite cells before they are read (C24_shifted_view_refuted). Only y = x is documented.
26. `y = y.low(n)` is accepted, and calls `std::copy` with its destination inside the source range,
    which the standard leaves undefined (C24_self_assignment_refuted). It works in practice, and the
    repository does not do it.
27. `gradient` counts twice when an output is repeated or occurs below another output, and fails an
    assertion when two expressions share a signature, which the operators can produce: `-(a-b)` is
    not entered in the table, so it can coexist with `b-a` (C61, three `_refuted` theorems). An
    input that no output depends on is refused rather than given derivative zero.
28. `constant_twiddle(j, s)` prints a root of unity of order 2^(s+1) but computes its signature from
    one of order 2^s. For j = 1, s = 2 the table would replace (1+i)/sqrt 2 by the literals 0 and 1
    (C70_constant_twiddle_refuted). The only exponent used is 0, where both are 1.
29. The simplification of `-x - y` to `-(x + y)` (exp.cc:172) can change the sign of a zero
    (C72_neg_sub_refuted), also in inexact mode where the generator promises not to assume exact
    arithmetic. Error terms of the written subtraction can be -0 where the algorithm has +0. The
    value is the same.
30. `Expansion(const string&)` ignores the return value of `arb_set_str` (expansion.cc:92-95), so
    whether a malformed decimal such as "12x" is rejected depends on what Arb leaves in the ball.
    The bracketed form is checked completely (C50_list_form).
31. series-exp.cc:26 allocates `y` with `x.nonzero()` terms although exp produces `x.known()` terms.
    A file with nonzero < known, which write_series writes and series-to-npy accepts, makes it throw
    (C74_short_refuted). It also computes the whole exponential before it checks the suffix of the
    output name.
32. The generator's `fft_mul` (codelets.cc:394-404) stores z[i] before it forms z[i+1], while series.h:271-272
    allows z to be an operand and `inv`, `div` and `exp` use that (`dy = mul(dy, y)`). Its result is then not the
    product (C62_aliasing_refuted). The five-term base cases are right nevertheless, because at each Newton
    step dy vanishes below m0, the other factor starts with 1 and at most two terms are new
    (C62_product_in_place, C62_inv_base, C62_exp_base). Asked for twelve terms the same generator prints a wrong
    reciprocal, and for ten terms a wrong exponential (C62_longer_refuted).
33. Finite inputs to `fft` can give infinities (C79_overflow_refuted): two elements of 2^1023 overflow in the
    first butterfly, and nothing reports it. The accuracy bound needs inputs whose magnitudes sum to at most 2^990.
34. The refining pass of `arb_areas` (arb_area.cc:101-106) is sound: coefficient by coefficient, the value of the
    equation at the midpoint differs from 0 by a derivative taken somewhere in the enclosure times the distance,
    because the derivative of the equation in the direction of g is multiplication by a series (C80_areas). The same
    cannot be said of the last steps of the exponential functions (C64_exp_refuted), on which the program's
    setting skip_refine = false relies; C80_areas therefore has their soundness as a hypothesis.
35. `error` (series.cc:27-47) ignores NaN coefficients, since std::max(e, d) keeps e when d is a NaN: a series of NaNs
    passes every ASSERT_CLOSE and ASSERT_EXACT (`C81_nan_refuted`). The relative distance of 0 to an infinite coefficient
    is 1 when the 0 is not stored and 0 when it is (`C81_infinite_refuted`). Tests that use it cannot notice a NaN.
36. mandelbrot.cc checks the name of the mode only after it has created the output directory and the log (lines 75-94):
    a misspelt mode fails and the corrected command with the same -o is refused (`C82_retry_refuted`). `-k` below
    -2147483648 is undefined behaviour, and `-k nan` means 1000 (`C82_k`).
37. The test runner does not notice names that no test has: with a misspelt name it runs nothing, prints that all registered
    tests ran, and exits with 0 (`C83_unknown_refuted`; tests.cc:70-74, 111). A test that calls exit(0) makes the
    program succeed whatever the other tests do (`C83_leaves`).
38. Slices are raw pointers: one kept across shutdown() dangles (`C85_dangling_refuted`). shutdown() does not free the table
    `few` of either memory (fft.cc:80 clears only `twiddles`; `C85_shutdown` allows exactly these). big_slice(30) returns
    a slice whose every read is out of bounds, as `few` has 30 levels (`C85_big30_refuted`; fft.cc:44, 71, 89).
39. Each use of operator<< on Arb, Acb, Arf, Fmpq and Poly, and of Arf::safe, leaks its text: fclose of a stream made by
    open_memstream leaves the buffer to the caller, who does not free it (`C86_print_refuted`, `C86_leaks`;
    arb_cc.cc:11-20, acb_cc.cc:13-17, arf_cc.cc:8-28, fmpq_cc.cc:8-17, poly.cc:64-68). Moving an object to itself sets it
    to zero (`C86_self_move_refuted`; arb_cc.h:22 and its likes).
40. The number of terms of a series can exceed its memory: set_counts(-1, 5) passes on a series with room for 3, as both sides
    are compared as uint64_t, and views made then reach beyond the block (`C87_overrun_refuted`, `C87_in_room`;
    series.h:169). clear leaves existing views dangling (`C87_dangling_refuted`; series.h:96).
    Assigning a series to itself is formally undefined, as std::copy must not copy onto its own source
    (`C87_self_assign_refuted`; series.h:111-122, cutil.h:92-99).
