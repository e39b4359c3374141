# A Rocq model of malg

`malg` is a header-only C++ linear algebra library (`/repo/include/malg`).
This directory holds a model of it in Rocq (Coq 8.16.1), and theorems about
that model. `properties.jsonl` lists the claims, `MANIFEST.json` maps each claim
to theorem names, `seeded/LOG.jsonl` records the mutation experiments.

## How the code is modelled

* **Outcomes.** Every operation returns `Res A := Ok a | Throw | UB` (`Base.v`).
  `Throw` is a C++ exception, `UB` is any undefined behaviour: access outside
  the storage, null dereference, an allocation that cannot succeed, a failed
  `assert`. `exit(1)` in `acker` is the separate outcome `Exit`.
* **size_t.** Indices are `nat`; every product, sum or difference of sizes
  that the code computes on user-supplied values goes through `mul64`, `add64`,
  `sub64`, which wrap modulo 2^64. Requests for 2^59 or more elements
  (`alloc_max`) are `UB`: `sizeof(T)*size` wraps or `realloc` returns null,
  which the code does not check. Smaller requests are assumed to succeed,
  except in `VecOOM.v` (C120, C131) and `MatOOM.v` (C130), where the allocator may refuse
  any request and byte counts are taken modulo 2^64 (`realloc` of 0 bytes frees, as
  in glibc).
* **Vector.** Two levels. `VecHeap.v` models the pointer/size pair, `realloc` and
  `free` on a heap of blocks (memory safety, value semantics). Everything else
  uses the value level, where a Vector is a `list T`; `VecHeap.v` proves that the
  heap level refines the value level.
* **Matrix.** A record `rows, cols, data`, with out-of-range access `UB`.
* **MatrixBase references.** A `const MatrixBase<T>&` argument is a record of the
  virtual functions (`MB`: rows, cols, size, empty, element access, linear
  access). It is built from a matrix and a *path* of views, `View` and
  `CofactorView` in any nesting. Mutable references are paths into a root
  matrix, so aliasing between operands is expressible.
* **Loops.** A C++ loop is `for_range lo hi body state` in the `Res` monad;
  while-loops use fuel with an explicit out-of-fuel outcome excluded in the
  theorem statement, or proved impossible.
* **Element types.** A record `Ops T` has the operations the code uses
  (`0 1 + - * / == < abs ...`). Structural theorems hold for *every* `Ops T`,
  floating point included. Algebraic theorems instantiate `Ops` with any
  mathcomp `comRingType` / `fieldType` / `numFieldType`: they are statements
  about exact arithmetic (and about unsigned wrap-around arithmetic, a
  commutative ring). `PropRound.v` adds theorems about rounded arithmetic: every
  operation is right up to a relative error (the standard model of floating-point
  error analysis).
* **Streams.** A stream is the list of its characters plus the flags that the
  printers change; reading follows the `operator>>` rules for integers (`IO.v`).
* **Complex numbers.** `Complex.v` models the `std::complex` formulas over any
  `Ops T`; the theorems compare them with mathcomp's `R[i]`.

## Agreement with the repository's tests

`TestSuite.v` and `TestExpm.v` write the programs of `/repo/tests` in terms of the model, with the same inputs
and expected values, and evaluate them: test_math (double, complex; int without the last check), test_control
(c2d, acker, polyreduce, poly), test_find, test_view, test_utility and test_linalg (two of five matrices) all
return 0. Doubles are computed bit by bit. The last check of the int test divides 5 x 5 matrices of int: in the
model it is undefined, because the determinant overflows, and with wrapping arithmetic the model gives the
values that the test expects, which are wrong (`C104_test_refuted`). test_read_write_file uses random data.
test_complex and test_memory check nothing.

## Trusted base

* Coq's kernel (and `vm_compute` where an `Example` uses it).
* `Assumptions.v` issues `Print Assumptions` on a tuple of all the theorems in
  `MANIFEST.json`; the answer is "Closed under the global context". The same
  command on each theorem separately gave the same answer. No axiom is used,
  neither of the standard library nor of any other library.
* `coqchk` lists names such as `mathcomp.ssreflect.bigop.BigOp.bigop` or
  `Coq.ssr.ssrunder.Under_rel.Over_rel`. These are fields of sealed modules
  (`Module M : SIG`) in mathcomp and ssreflect; each has a definition or a proof in the
  module, which the kernel checked. They are not axioms.
* The reading of the C++ code: each definition cites the lines it models and
  lists its simplifications.

## Not modelled

* Overflow of integers in element arithmetic is covered by C86 (signed) and C87
  (unsigned) only; elsewhere elements are mathematical numbers or ring elements. In C86 a
  value that depends on an overflow is `None`; an overflow whose result is thrown away
  is not seen. Only the element-wise `abs` (C41) throws its results away. Floating point: rounding is covered by C79 and C80 in the
  standard model and by C89 to C94, C99, C101, C102, C113 and C114 for doubles, overflow, underflow, infinities and NaN by C84 and C85 with IEEE doubles
  (`Float.v`: Coq's `SpecFloat`, binary64, round to nearest even, std::sqrt correctly rounded, one NaN, no fused or
  extended operations); the other algebraic theorems are about exact arithmetic.
* Operands of different element types are modelled in `Mixed.v` (C81) only; elsewhere both
  operands have the type `T`.
* `eigen.hpp` as written, other than `wilkinson_shift`: `hessenberg`,
  `qr_factorise_givens`, `QRHessenberg` and `eigenvectorUpper` do not compile. `Eigen.v`
  models them with three repairs: `identity<std::complex<T>>(N)` is given the value 1,
  `vector_length(H, k, k + 1)` is given the end row `H.rows()`, and the norms of
  `math.hpp` use `if constexpr`. C97 and C98 are about exact complex arithmetic; the
  shifted iteration does not always converge (C108, C110). That it does is proved for
  triangular matrices and for two rows (C110) only; C98 says what holds if it warns or not.
* Output to `std::cerr`, stream flags other than the defaults and `showpos`.
* `tolerance()` and `decimals()` are `static inline`: each translation unit
  has its own copy. The model is one translation unit.
* The quality of random numbers.
* Threads: C129 and C131 interleave whole Vector (C129: and Matrix) statements; objects of one thread may
  not be used by another, and shared ones are only read. Interleaving inside a statement and
  the globals behind `tolerance()` and `decimals()` are not modelled.
* Templates that no instantiation compiles have no behaviour. `Repaired.v` models these
  with the least repair that makes each compile, stated at its definition (C100):
  `linalg::hermitian_transpose`, `is_zero`, `is_constant`, `is_identity`,
  `is_orthogonal`, `is_invertible`, `is_linearly_dependent`, `is_linearly_independent`,
  `to_cpp`, `sign`, `Vector op= scalar`, `scalar * Vector`, `Matrix += scalar`,
  `Matrix -= scalar`. The norms of complex arguments are modelled as if `if` were `if constexpr` (C40, C119). Not modelled: moves between different element types, assignment of
  a `Matrix` of another element type (`matrix.hpp`:330-349 compares pointers to unrelated
  types). `vstack`/`hstack` with a Vector and `obsv` fail only because an
  `explicit` constructor is used with `=`; these are modelled as if the
  constructor were not explicit. `qr_decomposition` and `solve` do not compile either;
  `QR.v` models them with two repairs: `2. / (u * u)` is read as `2. / dot(u, u)`, and
  `View(X, ...)` as `View(&X, ...)`.
* Text formats of floating-point numbers other than `double` in the default notation
  (no `std::fixed`, `std::scientific`, `hex`). For `double`, `FloatIO.v` models `%g` and
  `strtod` as correctly rounded conversions, which is what glibc does.
* Of the programs in `/repo/examples` (C112): the integrators of numint, the plots, the stop watch, the
  printed digits of the lines and `std::sin`, for which any function of the time stands.

## Plan per property

See the table; "S" = structural theorem for every `Ops T`, "A" = algebraic theorem
over mathcomp rings/fields, "H" = induction over histories.

| Claim | Modelled | Proof |
|---|---|---|
| C01, C02 | heap of blocks, Vector objects, all operations | H: invariant (ownership partition), refinement to a map from names to lists |
| C03 | `allocate`/`resize` | S, list reasoning |
| C04 | `Matrix` operations as a step function | H: invariant over op lists |
| C05, C06, C07, C09, C10 | `Matrix` | S: loop invariants against `is_mat` |
| C08, C11, C14, C16 | the same functions | S and witnesses (`_refuted`) |
| C12, C13, C15, C17, C18, C19 | `View`, `CofactorView`, paths | S: induction on paths; copy loop invariant with aliasing |
| C20-C31 | `utility.hpp`, `transpose` | S: loop invariants |
| C32-C39, C41, C42, C75 | `math.hpp` | S: loop invariants; A for ring laws |
| C40, C43, C65, C66 | norms, feq over the reals | A over `R` / real fields |
| C44-C54 | `linalg.hpp` | A: mathcomp `\det`, `\adj`, block/elimination invariants |
| C55, C56 | `exp`, `expm` | S/A: loop invariants with fuel |
| C57-C64 | `control.hpp` | A: loop invariants; Faddeev-LeVerrier, Ackermann via Cayley-Hamilton |
| C67-C71, C77, C78 | `io.hpp` over character lists | S: parser/printer round trip |
| C72, C73 | `eigen.hpp` (`wilkinson_shift`), `complex_math.hpp` | A |
| C74, C76 | `logspace`, `rand_*` with an abstract generator stream | S/A |
| C79, C80 | the functions of C33, C35, C39, C54 over rounded arithmetic | A: error induction over the loops |
| C81 | `Mixed.v`: the operators with two element types and conversions | S: reduction to the one-type theorems, loop invariants |
| C82 | `Iter.v`: iterators, `data()`, `A(Range,Range)` | S |
| C84, C85 | `feq.hpp` and the functions of C31, C38, C29, C48-C54 over IEEE doubles (`Float.v`) | S, plus rounding lemmas on `SpecFloat` proved in `FloatFacts.v`, `FloatValid.v` |
| C86, C87 | `Ints.v`: w-bit signed (undefined outside the range) and unsigned (modulo 2^w) elements in the functions of C32, C33, C35, C39, C45, C46, C48 | S: induction over the sums |
| C88 | `FloatIO.v`: `%g` output and `strtod` input of doubles, `io.hpp` with an element reader as parameter | rounding of rationals (`FloatRound.v`), decimal digits (`FloatIOFacts*.v`), generic files (`FileFacts.v`) |
| C89 | the functions of C32, C33, C35, C39 over IEEE doubles (`Float.v`) | correct rounding of `SpecFloat`'s operations over the rationals (`FloatArith.v`), then induction over the sums (`FloatSum.v`) |
| C90 | `lu_decomposition` over IEEE doubles (`Float.v`) | entry equations of the factors (`LUPlain.v`), then error induction over the rationals (`FloatLU.v`) |
| C91 | `Basis.v`: `basis<T>()` over any binary format of `SpecFloat` and over integers of any width | the loops reach 2^prec exactly, then correct rounding (`FloatArith.v`) and comparison by value (`FloatCmp.v`) |
| C92 | the comparisons, `min`, `max`, `all_close` and `feq.hpp` over finite IEEE doubles (`Float.v`) | comparison by value (`FloatCmp.v`), rounding is monotone (`FloatMono.v`), then C31, C36, C38, C85 |
| C93 | `infinity_norm`, `log2_ceil` and `expm` over IEEE doubles (`Float.v`), NaN and infinities included | halving is exact down to 2^-1074, then gives 0; the factor 1/k! at least halves from k = 2 and is 0 after k = 1076 (`FloatLoop.v`); totality of every step of the loop |
| C94 | `linspace` over IEEE doubles | the rounded step, product and sum are each within one rounding error of the exact value; monotonicity of correct rounding; exact when everything fits in 53 bits |
| C95 | `simulate_step`, `simulate`, `acker`, `c2d`, `expm`, `swap_rows`, `swap_cols` on arguments of any shape | case analysis on the shapes; the first failing access decides |
| C96 | `qr_decomposition` and `solve` with two repairs that make them compile | A: Householder reflections; loop invariant Q R = A with Q orthogonal; normal equations for `solve` |
| C97 | `hessenberg` and `qr_factorise_givens` with three repairs that make them compile | A: complex reflections and rotations; loop invariants H = P* A P and Q R = A |
| C98 | `QRHessenberg` and `eigenvectorUpper` with the same repairs | A: every pass is a unitary similarity; back substitution invariant for each column |
| C99 | `simulate` over IEEE doubles, with the conversion of a double to `size_t` (`to_size` in `PropFloatSim.v`) | correct rounding of the quotient against the neighbouring integers; the bounds of C89 for each product; Bernoulli's inequality for the clock |
| C100 | `Repaired.v`: the small templates that do not compile, each with its repair | S; the determinant tests over a field from C48-C50; the text of `to_cpp` is split at commas and braces |
| C101 | determinant, adjoint and inverse of doubles, `fops` | `FloatDet.v`: each formula related to the exact value and the permanent by a relation with degree and number of terms; rounding facts of `FloatArith.v` |
| C102 | the norms of doubles with `SFsqrt` as std::sqrt | `FloatSqrt.v`: all numbers in the half unit of the root round to the result; then the sum bounds of C89 |
| C103 | the result of `expm` of C56 against the exponential series | `ExpBound.v`: coefficients of the power of the cut series lie between 0 and those of the series and agree up to K; row sums are submultiplicative; tail of the series by a geometric bound |
| C104 | `inverse` and `div` of integer matrices | they are modelled with the determinant and adjoint in the integer type (undefined when out of range) and the conversion to double made explicit. The formulas for orders 1 to 4 are related to the rational determinant with a count of terms that bounds every intermediate value. Refutations: a 5 x 5 matrix with determinant 1 and computed determinant 2; the 5 x 5 test of `tests/test_math.cpp`, which is undefined, and reproduces the recorded values with wrapping arithmetic. |
| C105 | The reader of C88 returns the double nearest to a text within half a unit of the last digit, hence within one unit of the number written; C92 then makes the comparison true in double arithmetic. Refutation: 1.2345649 with six digits. |
| C106 | A logical relation on outcomes, buffers, matrices and the MatrixBase interface (`Rel`), one lemma per function; loops by induction on their length. Instances: integers modulo 2^w, checked integers, doubles holding whole numbers, ring and ordered-field homomorphisms. |
| C107 | The arithmetic of pairs (value, bound) is related to doubles by 'within the bound' and to exact rationals by 'is the value'; both relations are preserved by +, -, *, / (correct rounding, C89), so C106 applies to each function. Examples compute the bounds for an LU decomposition, a square and a determinant. |
| C108 | If T - mu I is unitary, R is unitary and upper triangular, hence diagonal, so a pass conjugates T by a diagonal matrix; induction over the passes of C98. For doubles, the three states of the iteration are computed and the loop is an induction over the passes. |
| C109 | The functions are executed symbolically for any `Ops T` with loop invariants that give each element as an expression in the type's own operations; for doubles, C93 supplies the end of expm, and the correctly rounded results of x*1, x*0 and x+0 the last part. |
| C110 | If no rotation is made, Q = I. If the shift is an eigenvalue, R is singular and only its last diagonal element can be zero. With C72 and C98, two passes suffice for two rows. A - I is unitary for the Hermitian matrices with eigenvalues 0 and 2, so C108's argument applies with the replaced shift. For doubles, the two states are computed. |
| C111 | The computed exponential is a polynomial in A (C56), so it commutes with A and has its eigenvectors. The scaled eigenvalues are at most 1 in size because the row-sum norm is. The alternating sum of decreasing terms lies in [0, 1); Bernoulli's inequality bounds the growing ones. With C61 and C63 this gives the runs. |
| C112 | `Examples.v` models the programs up to what they take from other libraries. Induction on the passes for the loop; the error bound of C99 for the number of passes; the distance of neighbouring doubles for the loop that never ends. The models are read off the constructors; a quadratic with positive coefficients has its roots on the left; the energy balances are ring identities. |
| C113 | The bound of one rounded step (C99) makes the box and the error bound invariants; induction on the steps. |
| C114 | Elements of the eliminated matrix as sums in order (`DetPlain.v`), then the error induction of C90 (`FloatBigDet.v`); determinants of products and of exchanged rows over Q by way of mathcomp (`QDet.v`). |
| C115 | From the closed forms of C39, C48, C49, C53, C57, C59, C60 and C61 by matrix algebra (`PropCoord.v`); renumbering by following the loops of expm, whose norms do not change (`PropCoord2.v`). |
| C116 | `StateObj.v`: member by member copies and moves; S and H: induction over histories of assignments. |
| C117 | From C61 and C64: Cayley-Hamilton gives a vanishing product of (M - p) factors; induction over the poles with a damped recursion bounds the powers of M. |
| C118 | The held-input solution is a recursion around the equilibria of the inputs; those are fixed points of the discretised step too (C111), so the error obeys a linear recursion driven by the error of expm (C103). Over the rationals exp(A ts) does not exist, so the theorem takes any matrix that is the exponential up to a distance dl; the case dl = 0 is the exponential. |
| C119 | A: C40 gives the sums; Cauchy-Schwarz and Minkowski over any finite index set, for any absolute value on the elements; instances for real and complex elements. |
| C120 | S: the pointer-level model of Vector with a refusing `realloc` and byte counts modulo 2^64; weak ownership is kept by every legal statement, and an unowned block by every statement at all. |
| C121 | S: the states of a run from rest are sums of A^k B u; by Cayley-Hamilton they lie in the span of the columns of `ctrb`; dually for `obsv` (`horner_mx`, `char_poly`, `mxrank`). Continuation by `C61_simulate` for any element type. |
| C122 | H: the heap model of C01 with each element write going through the element type's own `operator=` (`VecElem.v`); equal to C01's model for plain elements; otherwise an invariant over the program: the heap is empty and all Vectors are null. Not modelled: elements' destructors, which Vector never calls. |
| C123 | H: induction over the loop of `simulate`, for any shapes: equal (with all failures) to a recursive specification over the list of inputs (`follow`); causality, beginnings, continuation and the place of failure are then facts about lists. |
| C124 | S: the relational lemmas of C106 for the functions of `QR.v` and `Eigen.v` (`RelQR.v`); conjugation, realness and embeddings are instances of the relation. |
| C125 | S: the running error bounds of C107 with a square root and a copysign (`RunQR.v`), related by C124 both to doubles and to a real closed field; the factors by C96. |
| C126 | S: relations between statements, environments and observations (`RelProg.v`), by induction over the program of C83 with the relations of C106; instances low bits, checked signed integers, running error bounds. |
| C127 | S: inverse and solve are related (as in C106, C124) whenever the first arithmetic is sure that the determinant is not zero (`RelSure.v`); the bounds of C125 on one side, doubles and a real closed field on the other; the exact answers by C52 and C96. |
| C128 | S: every Matrix statement of `MatHist.v` written again as Vector statements on the heap of `VecHeap.v` (temporaries included); a step-by-step simulation, exact in both directions, against the model on lists, using C01's simulation for each Vector statement. Not modelled here: an allocator that refuses a request of a possible size (C120 does this for Vectors). |
| C129 | S: interleaving semantics over the heap of `VecHeap.v`, threads as trees of statements (`Threads.v`); an invariant that pairs the memory with sequences (C01) and says that what is left of each thread, run alone, still gives its result; for matrices, statements with different owners commute, then C128. Steps are Vector statements and element accesses (for matrices whole statements), not single machine instructions; the allocator is taken to be safe for threads; the tolerance of feq.hpp, the one global variable, is not used by these statements. |
| C130 | S: the functions of `MatHeap.v` over the Vector statements of `VecOOM.v` (`MatOOM.v`); one simulation, instantiated with the weak invariant of C120 (any answers) and with that of C01 (no refusal); a lost block stays lost. |
| C131 | S: the threads of `Threads.v` over the statements of `VecOOM.v` (`ThreadsOOM.v`); the invariant of C129 with the weak relation of C120 (any answers) and with that of C01 (no refusal). A statement leaves the blocks of Vectors it does not write to alone, so Vectors of threads that are served stay in order. |
| C83 | `MatProg.v`: statements over named matrices with nested expressions, views, moves, exceptions and output | S: refinement of the table semantics in `ProgSpec.v`, induction on the program |

## Files

| File | Contents |
|---|---|
| `Base`, `BaseFacts` | outcomes, 64-bit sizes, loops |
| `Mat`, `MatFacts`, `ViewFacts`, `ViewFacts2`, `PropMatrix` | Vector values, Matrix, views |
| `Spec` | the vocabulary of the statements: `is_mat`, `is_vec`, `reads`, view shapes |
| `Scalar`, `RatOps` | integers, naturals, booleans, rationals as element types |
| `Util`, `UtilFacts*`, `PropUtil*` | `utility.hpp` |
| `MathM`, `MathFacts`, `PropMath` | `math.hpp` |
| `RingM`, `PropRing`, `PropField`, `PropFieldEx`, `PropReal` | the bridge to mathcomp matrices; algebraic theorems |
| `Linalg`, `LinalgFacts*`, `DetFacts`, `LUFacts`, `PropLinalg` | `linalg.hpp` |
| `VecHeap`, `PropHeap` | Vector on a heap; C01, C02 |
| `MatHist`, `PropHist` | histories of Matrix statements; C04 |
| `Control*`, `CharPoly`, `PropControl*`, `PropExpm*` | `control.hpp`, `expm` |
| `Feq`, `PropFeq` | `feq.hpp` |
| `IO*`, `PropIO*` | `io.hpp` (`IOControl`: output of state-space models) |
| `Float`, `FloatFacts`, `FloatValid`, `PropFloat`, `PropFloat2` | IEEE doubles as an element type, C84, C85 |
| `FloatRound`, `FloatIO*`, `FileFacts`, `PropFloatIO`, `PropFloatRead` | decimal text of doubles and files of them, C88 |
| `FloatArith`, `FloatSum`, `PropFloatSum` | rounding errors of the operations of doubles, sums and products, C89 |
| `LUPlain`, `FloatLU`, `PropFloatLU` | rounding errors of the LU decomposition of doubles, C90 |
| `FloatCmp` | comparisons of IEEE numbers are those of their values |
| `FloatMono`, `PropFloatCmp` | rounding is monotone, C92 |
| `FloatLoop`, `PropFloatExpm` | powers of two and reciprocals as doubles, C93 |
| `PropFloatLin` | C94 |
| `PropDims`, `PropDims2`, `PropDimsEx` | C95 |
| `QR`, `QRMath`, `PropQR`, `PropQR2`, `PropQREx`, `PropQRFloat` | C96 |
| `Eigen`, `EigenMath`, `PropHess`, `PropHess2`, `PropHess3`, `PropGivens` | C97 |
| `PropSchur`, `PropSchurRun`, `PropTriEig`, `PropEigenEx` | C98 (and the cases of C97) |
| `PropStall`, `PropStallFloat` | matrices for which QRHessenberg never converges, exact and in doubles, C108 |
| `PropConverge`, `PropConvergeEx`, `PropOnesFloat` | matrices for which QRHessenberg converges, and singular ones of two rows for which it does not, C110 |
| `PropSteady`, `PropSteadyEx` | equilibria and real modes of discretised systems, C111 |
| `StateObj`, `PropStateObj` | objects of StateSpace and DiscreteStateSpace, C116 |
| `PropPoles`, `PropPolesEx` | runs of the closed loop with the gain of acker, C117 |
| `PropExact`, `PropExactEx` | runs of a discretised system against the exact solution, C118 |
| `PropNorms`, `PropNorms2`, `PropNormsEx` | laws of the norms, C119 |
| `VecOOM`, `PropOOM` | Vectors when memory runs out, C120 |
| `PropReach`, `PropReachEx` | reachability, observability and continuation of runs, C121 |
| `VecElem`, `PropVecElem` | Vectors of class-type elements, C122 |
| `PropCausal` | Runs of simulate for any shapes, C123 |
| `RelQR`, `PropRelQR` | QR, solve and eigen.hpp across number systems, C124 |
| `RunQR`, `PropRunQR` | running error bounds for QR of doubles, C125 |
| `PropText` | white space, digits and decimal numerals in terms of characters only, C69 and C71 |
| `PropConst` | the tolerance, line breaks and padding, C67 and C84 |
| `RelProg`, `PropRelProg` | whole programs across number systems, C126 |
| `RelSure`, `PropRunSolve` | running error bounds for inverse and solve of doubles, C127 |
| `MatHeap`, `PropMatHeap` | matrices as pointers to blocks, C128 |
| `Threads`, `PropThreads` | threads that share memory, C129 |
| `MatOOM`, `PropMatOOM` | matrices when memory runs out, C130 |
| `ThreadsOOM`, `PropThreadsOOM`, `PropThreadsOOM2` | threads when memory runs out, C131 |
| `Cases` | concrete cases (`case_<theorem>`) of the theorems that hold for any element type: each applies the theorem to small integer matrices and proves all its hypotheses for them |
| `CasesIO`, `CasesMixed`, `CasesFloat` | the same for reading and writing, Vector programs and refused allocations; for operands of different types; for doubles |
| `PropCoord`, `PropCoord2`, `PropCoordEx` | change of state coordinates, renumbering of states, C115 |
| `Examples`, `PropExamples`, `PropExamplesFloat`, `PropCircuit` | the example programs: model, loop, loop on doubles, circuit and pendulum, C112 |
| `PropFloatRun` | runs of any length on doubles: invariant boxes and bounded errors, C113 |
| `DetPlain`, `FloatBigDet`, `QDet`, `PropFloatBigDet` | rounding errors of determinants of order 5 and above, C114 |
| `PropTotal`, `PropTotalFloat`, `PropIdent` | powm, ctrb, obsv, poly, acker, expm, c2d for elements of any value; products with the identity, C109 |
| `PropFloatSim` | C99 |
| `Repaired`, `PropRepaired`, `PropRepaired2`, `PropToCpp` | the small templates that do not compile, with repairs, C100 |
| `FloatDet`, `PropFloatDet` | determinant, adjoint and inverse of doubles, C101 |
| `FloatSqrt`, `PropFloatNorm` | square roots and norms of doubles, C102 |
| `ExpBound`, `PropExpmBound`, `PropExpmBoundEx` | distance of expm from the exponential, C103 |
| `IntInv`, `PropIntInv`, `PropIntInvEx` | linalg.hpp:231-257, 377-381 for integer element types, C104 |
| `PropFileCmp` | what was read from a file compares equal to what was written, C105 |
| `Rel`, `PropRel`, `PropRelInt`, `PropRelFloat`, `PropRelReal` | the functions preserve relations between element types; unsigned, signed, whole-number double, rational and real instances, C106 |
| `PropRunErr` | running error analysis of every division-free or dividing function on doubles, C107 |
| `TestSuite`, `TestExpm` | the repository's tests, run in the model (examples) |
| `PropColumns` | column-wise `min` and `max`, for C38 and C85 |
| `Basis`, `PropBasis` | `basis<T>()`, C91 |
| `Ints`, `PropInt*` | fixed-width integers as element types, C86, C87 |
| `PropMisc` | further theorems and cases for C02, C75 |
| `Complex`, `PropEigen` | `complex_math.hpp`, `wilkinson_shift` |
| `LURound`, `PropRound`, `PropRoundEx` | rounding errors |
| `Mixed`, `PropMixed` | operands of different element types |
| `MatProg`, `ProgSpec`, `PropProg` | programs over matrices and their mathematical meaning |
| `Iter`, `PropIter`, `PropMatrix2`, `PropMatrix3` | iteration, `data()`, moves and empty objects |
| `Assumptions` | `Print Assumptions` for every property theorem |
