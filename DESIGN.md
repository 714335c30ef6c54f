# Formal model of leakec/tfc

## Approach

The code in /repo is read as text and transcribed, function by function, into small total Gallina
functions (`Model*.v`). Specifications that do not use the model's helpers are in `Spec*.v`, proofs
in `Proof*.v`, and the property theorems alone (closed by `exact`, each followed by
`Print Assumptions` and a concrete `Example`) in `Prop*.v`.

Conventions

* Floating-point numbers are modelled by exact numbers: a record of field operations over a carrier,
  used at the reals for the proofs and at the rationals for computed examples. Rounding is not modelled.
* An exception, `sys.exit`, an out-of-bounds access or a read of an uninitialised cell is a value
  (`None`, or an error constructor), never a default number.
* C++ buffers are partial maps with a length; `new double[n]` yields a buffer of uninitialised cells.
* A NumPy expression that treats every row alike is modelled on one row and mapped over the points.
* External numerics (pinv, lstsq, qr, eigvals, sympy inverse, jax jvp) are described by their
  defining mathematical property, as hypotheses of the theorem (never axioms), and listed below.
* If the property is false of the faithful model, the false instance is proved as `..._refuted`, and
  what is true is proved as `..._partial`.

## Plan per property

| id | modelled | how proved |
|----|----------|------------|
| C01-C05 | `CP/LeP/LaP/HoPpro/HoPphy._Hint`, `BasisFunc.H`, Python rows as checked buffers | loop invariant to a recurrence table, then induction on the degree against trigonometric / ODE / closed form / Rodrigues specification over R |
| C06, C09 | `FS._Hint`, `FS::Hint` | arithmetic on the column index, `is_derive_n` by induction on d |
| C07 | the `Recurse` loops of the five families | the table of order d+1 is the derivative of the table of order d (three-term recurrence lemma shared by the families), Coquelicot `is_derive_n` |
| C08 | `*::Hint`, `*::RecurseDeriv`, `BasisFunc::H` on flat buffers | loop invariants on `m*j+k` cells; equality with the Python rows |
| C10-C12 | `ELM*::Hint`, `ELMReLU._Hint` | derivative of the closed forms order by order; missing switch default and transposed shape as refutations |
| C13-C15 | `np.delete` and the C++ compaction loop, `xla`, abstract evaluation | list lemmas; refutations for repeated / out-of-range entries |
| C16 | registry as state machine over constructor histories | induction over histories |
| C17-C19 | domain map, point construction in `utfc`/`mtfc` | real arithmetic, `cos` monotonicity; index arithmetic with div/mod |
| C20-C23 | `_NumBasisFunc`, `RecurseBasis`, `nHint`, `nBasisFunc.H` | enumeration = filtered list of multi-indices; counting; product rule on independent variables |
| C24 | `nELM*::nElmHint`, Python `nELMReLU._nHint` | chain rule per variable |
| C25 | derivative-order tuples built by `mtfc.Hx...` | case analysis; refutation in low dimension |
| C26 | nC parsing in `utfc.__init__` / `mtfc.__init__` | list lemmas; refutation for one-element lists |
| C27, C28 | `H_jvp` of both classes | by definition of directional derivative; refutation for zero tangent |
| C29 | `HybridUtfc` | list lemmas |
| C30-C35 | `TFCDict`, `TFCDictRobust` with a small heap for mutable numpy arrays, cached keys and slices | list induction, state invariants; refutations (stale cache, aliasing, ignored operand) |
| C36, C37 | `pe` permutation logic and solver argument handling | permutation lemma for ascending lists; refutation for descending ones |
| C38, C39, C51 | `LS`, `ScaledQrLs` over matrices of a real field (mathcomp) | Moore-Penrose / normal equations |
| C40-C43 | `NLLS`/`NllsClass` loop, `LsClass.run` | loop on explicit fuel `maxIter`; refutations |
| C44-C48 | `CeSolver` data flow and stale flags | linear algebra over a field; refinement to a cache-free specification; refutation for the phi setter |
| C49, C50 | `ComponentConstraintGraph` | nilpotency = acyclicity = characteristic polynomial X^n (mathcomp); layout arithmetic |
| C52, C53 | `step`, `egrad` | derivatives over R |
| C54, C55 | `TfcPrinter` string building | string computations; refutations |
| C56 | `Latex.table` string building | list lemmas |
| C57 | ELM setters/getters as state machine | induction over histories |
| C58 | polynomial families | exact degree of each column (mathcomp polynomials or root counting) |
| C59 | `jax.vmap` of a scalar `utfc`/`mtfc` basis call | rows of the matrix of the stacked points |
| C60 | `utfc.dH`, `d2H`, `d4H`, `d8H` | the same `is_derive_n` statement as C07-C11, order by order |
| C61 | the `io_callback` lines of `NLLS`, `NllsClass` | induction on the loop; refutation for the timer's warm-up run |
| C62 | `egrad`, `egradRobust` argument positions | case analysis on the position |
| C63 | `TfcPrinter.__init__`, the class-level `known_functions` | invariant over a history of constructions |
| C64 | matplotlib `MakePlot.__init__`: label arrays, subplot and title loops | loop invariant: the k-th subplot is the k-th labelled cell; titles counted separately (refutation) |
| C65, C66 | `save`, `saveAll`, `animate` of the three classes; `pathlib` suffix | string lemmas; padded decimal numerals are injective and ordered up to six digits |
| C67, C68 | Plotly `MakePlot.__init__`, `view`; `make_subplots` numbers subplots in row-major order | arithmetic: `row+col+1` is the number only for one row or one column; sin/cos identities |
| C69 | the cropping code of Plotly `save` on an array of bytes | bounding box of the differing entries; the channel axis is cropped too (refutation) |
| C70 | `NormalizeColorScale` over a list of traces | loop invariant for the running extrema; unbound variable and unused limits (refutations) |
| C71 | `ColormapGradient` | floor of a linear function over R |
| C72 | `HTML.WriteFile` on a small file system | case analysis; refutation for names without a directory |
| C73 | `utfc_H` at the object's own points | a polynomial of degree < n with n roots is zero, derivatives of kept functions have distinct degrees; Fourier: trigonometric polynomial as an algebraic one, aliasing for the converse |
| C74 | `LS`/`NLLS` of ModelAffine on the matrix of ModelUtfc over the reals | C38/C42 give a zero residual because q is representable; C73 makes the coefficients unique |
| C75 | pybind11 `array_t` arguments as strided views on a heap; `data()` reads consecutive cells | element-wise description of the views; C++ `H` overflows its output unless the removed functions are distinct and in range (pigeonhole) |
| C76 | allocations, releases and uses of every constructor, destructor and method as commands on a list of blocks; Python variables as owners | separation-logic triples for the commands; invariant: the blocks are exactly those owned by held objects, leftovers of destroyed ones and array variables |
| C77 | the generic models of both backends over Flocq's binary64 | a proof of agreement that uses no law of arithmetic, only two facts about small integers, which are exact in binary64 |
| C78 | the same | monotonicity of rounding; Sterbenz-type exactness near the ends; a computed exception |
| C79 | utfc's constructor over Flocq's binary64; the cosine is any function with error at most 3/4 ulp | error analysis of the five operations; floats near 1 form a grid, so cos 0 and cos of the rounded pi are exactly 1 and -1 |
| C80 | the dictionary model plus the computation that made each value | case analysis; a counterexample with two computations |
| C81 | calls, waits and clock readings as commands; compilation and the device as nondeterministic events | inversion of traces command by command; induction over the runs of an object |
| C82 | the methods transcribed again over an object whose integer fields may disagree with its arrays; search loop with checked reads | reduction to the unmodified methods with the leading parts of the arrays; loop invariants for the cells written otherwise |
| C83 | an n-dimensional object whose sizes may disagree with its arrays, viewed by the methods of ModelND.v with any number of output columns | the recursion as a fold over all vectors, also when a step fails; objects that agree on the cells read give equal results; surplus columns keep their initial ones, missing columns overflow in the last row |
| C84 | the generic n-dimensional models of both backends over Flocq's binary64 | the proofs of C20-C23 repeated without any law of arithmetic: the same mapped points, the same tables of one-dimensional columns (C77), the same left-to-right products; at the corner all factors are the integers 1 and -1 |
| C85 | the same models over binary64 and over the reals | a quadratic form (energy) that neither recurrence increases on [-1, 1], so that errors add up at most linearly in its norm and quadratically in the value; one step and the map of the points by Flocq's error lemmas; induction keeps the computed values below 4/3 |
| C86 | printing as the bytes written, exits as endings of statements | a terminal that interprets the escape sequences, run on the bytes by induction over the message |
| C87 | one printer for the process and one attribute per object | induction over the sequence of assignments |
| C88 | the path as parts, the command as text, the calls as events | a shell that splits text into commands and words, run on the text by induction over the path |
| C89 | `mtfc_H` at the object's own grid | induction on the number of variables: products of functions independent on every axis are independent on the product grid (C73 per axis, C19 for the grid); converse through the functions of one variable |
| C90 | `LS` of ModelAffine on the matrix of ModelMtfc over the reals | C89 makes the coefficients unique; a product of powers is a combination of the products of lower total degree; partial derivatives of combinations variable by variable |
| C91 | the ELM model on the binary64 carrier, elementary functions arbitrary with stated ranges | cells over any carrier as in C77, then powers of two bounding every intermediate result; quotients by a denominator that is infinite or at least 1; the Python tangent evaluated on infinity |
| C92 | the usage script of tests/test_ODE.py for linear equations: free part, switching functions, egrad of the expression, residual at tfc.x (ModelOde.v), on top of the utfc, egrad, LS and NLLS models | the polynomials of degree below the number of conditions are fixed by the conditions (dual bases), so expression = all polynomials meeting them; LS minimises the residual (C38, C42); a polynomial residual with too many zeros vanishes; uniqueness for initial values by the lowest coefficient |
| C93 | entries of dictionary sums by broadcasting (ModelDict.v), failures included | spec of broadcasting by index maps (SpecDictB.v), independent of the model's shape arithmetic; induction over the entries up to the first that fails |
| C94 | `update`, construction and `getSlices` with the state left when `getSlices` raises (ModelDictUp.v) | key order and last value by induction over the new items; the slices written before the failing entry |
| C95 | the usage script of tests/test_PDE.py for linear equations in any number of variables: one stage per variable, residual at tfc.x (ModelPde.v), on top of the mtfc, egrad, LS and NLLS models | on a sum of products each stage changes one factor (dual bases as in C92); consistent data make the later stages keep the earlier conditions; LS minimises the residual (C38, C42); a polynomial in several variables that vanishes on a large enough grid vanishes |
| C96 | as C95 | the stages kill every product with a low factor and keep the degree of the others; products of functions of increasing degree are independent on a grid; the count by a list of the vectors of bounded sum, made by Pascal's rule |
| C97 | the generic LS and NLLS of ModelSolve.v instantiated with complex vectors, the Hermitian Moore-Penrose inverse and jax's checks of dtypes; ScaledQrLs with unconjugated transposes (ModelCplx.v) | the real proofs with the conjugate transpose in place of the transpose; for QR the normal equations reduce to q^T = q^*; a two by one counterexample |
| C98 | egrad and egradRobust on arrays of complex numbers with dtypes; jvp's dtype check (ModelEgradDt.v) | induction over the arguments for the check; a complex derivative is the derivative along the real line through the point |
| C99 | NLLS of ModelSolve.v with the Moore-Penrose inverse of ModelPinv.v (exact arithmetic, nothing new) | max-norm bounds: the pseudoinverse stays bounded near the zero because the kernel is constant (A = B + small, and on a right angle to the kernel the inverse of B contracts the difference), so the next error is at most c times the square of the last; induction over the iterations; C14's stopping rule; for the refutation the orbit 0, 1, 0, ... and the intermediate value theorem for the zero |
| C100 | the usage script of tests/test_ODE.py with the product term (ModelOdeNl.v), on top of the models of C92 and C99; the solution is assumed to be a polynomial in the span, so the script's f2 is any function with the right values at the points | the residual is a sum of an affine function and a product of two (C99_products); its Jacobian at the solution has independent columns because a kernel vector gives a zero of the linearised equation; the linearised initial value problem is a linear equation with polynomial coefficients, to which C92's uniqueness applies |
| C101 | the usage script of tests/test_PDE.py with the product term (ModelPdeNl.v), on top of the models of C95 and C99 | the residual is affine plus a product of two affine functions of the coefficients; a kernel vector of the Jacobian at the solution gives a zero of the linearised equation, so the function does not change along it, hence neither do the residual and the Jacobian (C99_idle, which splits the start's error into a part in the kernel and one at a right angle to it); separable functions and their derivatives are bounded on boxes, which carries the error of the coefficients over to the functions |
| C102 | the usage script of tests/test_ODE.py with function-valued coefficients and switching functions (ModelOdeAny.v), on top of the models of utfc and of the solvers; orders of derivatives up to the ones the backend supports | rows of the basis matrix are derivatives of each other for every smooth basis; the switching terms correct the conditions, and a combination that meets the conditions determines its switching coefficients; the residual is affine in xi, so C38/C42 give the minimiser |
| C103 | the loop of NLLS with binary64 maximum, comparison and subtraction (ModelSolve64.v); residual, Jacobian and solution of the step are arbitrary functions | the maximum of the absolute values is NaN exactly if an entry is and is above tol exactly if all are numbers and one is above; then C40's characterisation of when the loop stops |
| C104 | LS and NLLS of ModelSolve.v with the cutoffs of `pinv` and `lstsq` (ModelCut.v); the decomposition is any function giving orthonormal factors and descending values for the Jacobian at hand | the cut inverse is the Moore-Penrose inverse of the truncated matrix; the residual of the answer is a projection of the residual of any unknowns plus the ignored part, which is at most the cutoff times their size; a diagonal matrix with an entry below the cutoff refutes |
| C105 | `H` of both implementations with an integer as the order and a bound on nested calls (ModelOrder.v), steps and tables of order 0 from the other basis models | the recursion counts up from 0, so it reaches exactly the orders from 0 to the bound; the other classes branch by comparisons, switches or remainders (`%` is floored in Python and truncated in C++), which are evaluated for negative orders |
| C106 | every size and index expression of BF.cc with checked 32-bit arithmetic and blocks that are their sizes (ModelInt.v) | every index is a row times a width plus a column, so all of them are below the size of the largest block; the number of products by induction on the dimension and Pascal's rule; the largest allocation fails exactly beyond the bound |
| C107 | the object of ModelNAttrs.v with the written part of nC and the arrays of weights and biases, which keep their size; the methods of ModelNELM.v on it | a run depends on the leading cells of the arrays only; whatever the size of the result, the columns of the object are written and nothing else, so any other size fails; a read at the first missing cell fails in the first row |
| C108 | the pattern of the cited example script with linear equations: every function has its own utfc object, key, conditions and switching functions; values in conditions are numbers or entries of the dictionary (ModelOdeSys.v), on top of the expressions of ModelOdeAny.v and the dictionary solvers of ModelSolveDict.v | every residual is an affine function of the entries of the dictionary, so C39 applies; the function under each key is the expression of C102 with the entries for values; a family that is allowed gives, key by key, the entries that reach it |
| C109 | the loop of ModelSolve.v with the Jacobian, packing and `-=` of the dictionary classes (ModelNllsDict.v); the packed side is ModelAffine.v | a simulation: two runs of the loop on related unknowns end in related ways (ProofSolveSim.v); a dictionary and a column are related if the dictionary has the form of the start and packs to the column, which one step keeps by C31 and the assembled Jacobian of C37-C39 |
| C110 | ModelOdeSysNl.v: the script of C108 with a product of two linear expressions in each equation | the residual is affine plus products of affine functions of the packed entries (C108's lemmas); C109_newton, the dictionary form of C99, applies: directions in which the derivative vanishes change no function by isolation, so they are idle; the functions are affine in the entries with smooth, hence bounded, coefficients |
| C111 | the same models over binary64 and over the reals | the recurrence for order d is that of order 0 plus a forcing by the column of order d-1: the energy of C85 bounds what one error becomes, induction over d bounds the columns by k^(2d) and the errors by (18+4d) k^(2d+2); powers of the slope by relative errors; in n dimensions the relative errors of the factors add up |
| C112 | ModelOdeSysG.v: the script over the model of NLLS on dictionaries | an expression in the functions and numbers is a tree over affine functions of the dictionary; its gradient by induction, a Taylor bound by induction from local bounds; directions of dictionaries that change nothing are idle, so C109 applies |
| C113 | ModelPlotlyCol.v: the loops over layout axes and scenes that set colours | the loop over scenes is computed for all sizes: it colours numbers 0 to r+c-2; flat axes are all coloured by for_each |
| C114 | ModelNOrder.v: `H` of the n-dimensional classes over the univariate tables of ModelOrder.v | which orders one dimension answers is decidable, with a closed form of its table; the product of tables as for C20-C22; one failing table fails the loop over the dimensions |
| C115 | ModelScreen.v: FullScreen and PartScreen over a record of the screen | field arithmetic; `int` cuts off, so the number of pixels is the floor |
| C116 | the script of C101 with any expression tree as residual (ModelPdeG.v), on the models of C95 and C99 | every linear differential expression at a point is affine in the coefficients, so the residual is a tree of affine functions, products and applied functions; a second-order Taylor bound for trees by induction (mean value theorem at applied functions); directions that leave the function unchanged leave every affine part unchanged, hence C99_idle |
| C117 | the script of the Navier-Stokes example with any functions, conditions and equations (ModelPdeSys.v), on the models of C95 and C109 | every linear differential expression at a point is affine in the dictionary, so each residual is a tree of affine functions, products and applied functions; the tree bounds of C112 with C109's Newton theorem give convergence of the coefficients up to directions that change no function, bounds of C101 turn it into closeness of the functions |
| C118 | the model of C117, for equations whose left-hand sides are linear expressions (SpecPdeLin.v) | every left-hand side at a point is affine in the dictionary, so C39 gives the least residual among dictionaries of the form; C117's existence part turns every family of functions the expressions can give into such a dictionary |
| C119 | the CeSolver of C44-C48, several of them in a row (SpecCeN.v) | an operator of one set passes through the switching functions of another, so each step keeps the conditions of the earlier ones; for two sets the expression is symmetric in them, and every permutation is a product of exchanges of neighbours |
| C120 | the script of C95 with its variables in any order (SpecPdeOrder.v) | the correction of one variable is affine, its derivatives pass through the switching polynomials of another; the product of two corrections is symmetric by the fit of the data; induction on the permutation |

## Trusted base

* Coq 8.16.1's kernel (the whole development is also accepted by `coqchk`).
* The axioms listed per theorem below, all from Coq's standard library. The development adds none of
  its own: no `Axiom`, `Parameter`, section-less `Variable`/`Hypothesis`, no `Admitted`, no switched-off check.
* That the definitions in `Model*.v` say what the cited lines of /repo say. Nothing was run or extracted.
* That external libraries behave as described under "External code" below. These descriptions are
  model definitions or hypotheses of the theorems.

### What is modelled

| source | lines | model file |
|--------|-------|-----------|
| utils/BF_Py.py | 8-590: `BasisFunc`, `CP`, `LeP`, `LaP`, `HoPpro`, `HoPphy`, `FS` | ModelBFPy.v |
| utils/BF_Py.py | 592-868: `ELM` and the five activations | ModelELM.v, setters in ModelWeights.v |
| utils/BF_Py.py | 869-1211: `nBasisFunc`, `nCP`, `nLeP`, `nFS` | ModelND.v; ModelNOrder.v for orders that are any integers |
| utils/BF_Py.py | 1214-1627: `nELM` and the five activations | ModelNELM.v |
| utils/BF.cc | 1-44: registry and constructors | ModelRegistry.v, ModelBFCpp.v |
| utils/BF.cc | 45-591: one-dimensional families, `xla`, `H`, `Hint`, `RecurseDeriv` | ModelBFCpp.v |
| utils/BF.cc | 592-1009: one-dimensional ELM | ModelELM.v, setters in ModelWeights.v |
| tests/test_ODE.py | 26-52: the pattern of the script, for linear equations with polynomial coefficients (ModelOde.v), with any coefficients on any basis (ModelOdeAny.v) and with a product term (ModelOdeNl.v) | ModelOde.v, ModelOdeAny.v, ModelOdeNl.v |
| examples/Hunter_Johnston_Dissertation/Chapter_4/Example_4_5/tfc_linearNonlinear.py | 51-127: the pattern of the script, for linear equations; with products of two derivatives | ModelOdeSys.v, ModelOdeSysNl.v |
| examples/Hunter_Johnston_Dissertation/Chapter_4/Example_4_7/UnknownTime.py | 40-79: the pattern of the script, with unknown numbers and any expressions in the functions, for the derivative matrices instead of `egrad` | ModelOdeSysG.v |
| tests/test_PDE.py | 14-51: the pattern of the script, for linear equations in any number of variables (the script's own equation is not linear) | ModelPde.v |
| tests/test_PDE.py | 14-51: the same for nonlinear equations: a product of two linear expressions, and any differentiable function of linear expressions | ModelPdeNl.v, ModelPdeG.v |
| examples/Carl_Leake_Dissertation/Chapter_3/Navier_Stokes_TFC_and_XTFC.py | 29-76: the pattern of the script, for systems with any number of unknown functions and equations (not its loop over time steps, not its ELM option) | ModelPdeSys.v |
| utils/TFCUtils.py | 743-886, 1051-1285 with complex unknowns and the flag holomorphic; 1687-1711 for complex matrices; 75-200 with dtypes | ModelCplx.v, ModelEgradDt.v |
| utils/BF.cc | 1012-1263: n-dimensional families | ModelND.v; ModelNOrder.v for orders that are any integers |
| utils/BF.cc | 1266-1950: n-dimensional ELM | ModelNELM.v |
| utils/BF_Py.cc | the argument conversions and properties used by the above | in the files above; strided arrays in ModelLayout.v, ModelWeights.v |
| utils/BF_Py.cc, BF.cc | assignment of the attributes of one-dimensional objects, and the methods of objects so changed | ModelAttrs.v |
| utils/BF_Py.cc, BF.cc, BF.h | assignment of the attributes of n-dimensional objects, the array c, calls on objects so changed | ModelNAttrs.v |
| utils/BF_Py.cc, BF.cc, BF_Py.py | assignment of the attributes and weights of n-dimensional ELM objects, calls on objects so changed | ModelNEAttrs.v |
| utils/BF.cc, BF.h, BF_Py.cc | allocation and release of memory, ownership of returned arrays | ModelMemory.v |
| utfc.py | `utfc`: `__init__`, `H`, `dH`, `d2H`, `d4H`, `d8H`, `_SetupJax` (impl, abstract evaluation, batching, jvp); `HybridUtfc` | ModelUtfc.v |
| mtfc.py | `mtfc`: `__init__` (with the collocation grid), `H`, `Hx`, `Hx2`, `Hy`, `Hy2`, `Hxy`, `Hx2y`, `Hz`, `SetupJAX` (impl, abstract evaluation, batching, jvp) | ModelMtfc.v |
| utils/TFCUtils.py | 75-200, 1731-1746: `egrad`, `egradRobust`, `step` | ModelEgrad.v |
| utils/TFCUtils.py | 206-323: `pe`, `pejit` | ModelPe.v |
| utils/TFCUtils.py | 326-762: `TFCDict`, `TFCDictRobust` | ModelDict.v |
| utils/TFCUtils.py | 353-389: `getSlices` and `update` when they raise | ModelDictUp.v |
| utils/TFCUtils.py | 766-1041, 1086-1523: `LS`, `LsClass`, `NLLS`, `NllsClass` | ModelSolve.v, ModelSolveDict.v, ModelNllsDict.v, ModelAffine.v |
| utils/TFCUtils.py | the `timer` option of the solvers; `block_until_ready` | ModelTiming.v |
| utils/TFCUtils.py | 1525-1684: `ComponentConstraintGraph` | ModelGraph.v |
| utils/TFCUtils.py | 1687-1716: `ScaledQrLs`, `_MatPinv` | ModelQr.v |
| utils/CeSolver.py | 14-370: `CeSolver` without matrix-valued operators | ModelCe.v, `print_type` in ModelConsole.v |
| utils/TFCUtils.py | 35-71: `TFCPrint`; 1749-1788: `criuCheckpoint` | ModelConsole.v |
| utils/CeSolver.py | 372-498: `TfcPrinter` | ModelPrinter.v |
| utils/Latex.py | `table.SimpleTable` and helpers | ModelLatex.v |
| utils/MakePlot.py | 20-187: `MakePlot.__init__`; 189-218: `FullScreen`, `PartScreen`; 232-271: `save`; 303-348: `animate` | ModelMplot.v, ModelScreen.v, ModelSave.v |
| utils/PlotlyMakePlot.py | 81-292: `__init__` without the template; 481-542: `save`; 565-617: `view`; 619-662: `FullScreen`, `PartScreen`; 664-717: `NormalizeColorScale` | ModelPlotly.v, ModelPlotlyCol.v, ModelScreen.v, ModelSave.v, ModelCrop.v, ModelColor.v |
| utils/MayaviMakePlot.py | 73-100: `ColormapGradient`; 157-268: `animate`, `save` | ModelGradient.v, ModelSave.v |
| utils/Html.py | 45-71: `HTML.WriteFile`, `HTML.ReadFile` | ModelHtml.v |

The first comment of every model file lists its simplifications; every definition cites its lines.

### What is not modelled

* Floating point: rounding, overflow, NaN, except for the loop of NLLS (C103), the one-dimensional families (C77, C78), the n-dimensional ones (C84), both with error bounds for the Chebyshev and Legendre functions (C85) and their derivatives (C111), and utfc's collocation points (C79), whose
  models are also run over Flocq's binary64 (Numbers64.v: round to nearest even, one NaN, no fused
  multiply-add); dtypes, except in ModelCplx.v, ModelEgradDt.v and where a model says so. Integers do not overflow, except where a model says so; ModelInt.v (C106) says for which sizes the C++ integers do not.
* The parts of the plotting classes that only pass their arguments on (traces, `show`,
  `draw`, pickling, uploading); tfc_types.py, CMakeLists.txt, packaging.
* colorama's conversion of escape sequences on Windows; quoting and expansions of the shell (C88).
* The C++ memory manager beyond which blocks are allocated, CUDA code, XLA's compiler, threads.
* Values measured by the clock (only what happens between its readings). The files SaveGraphs writes are modelled by their content.

### External code

* NumPy/jax.numpy array operations: by their values (`delete`, `prod`, `linspace`, `pinv`, slices).
  `numpy.array2string` of one row follows NumPy's own source, with arbitrary print options.
* `numpy.linalg.pinv`/`jnp.linalg.pinv`: the exact Moore-Penrose inverse, with no cutoff; in C104 with the cutoffs of `jnp.linalg.pinv` and `jnp.linalg.lstsq` for any singular value decomposition.
  `lstsq`: a least-squares solution. `qr`: any reduced factorisation. `eigvals`: exact roots of the
  characteristic polynomial over an algebraically closed field.
* Asynchronous dispatch: a call compiles for a new signature, starts one computation and returns; waiting
  for one result waits for the whole computation.
* `jax.jit`, `vmap`: do not change values. `jax.jvp`, `jacfwd`: the derivative; `custom_jvp`: the given rule.
* `trace_to_jaxpr_nounits`/`eval_jaxpr`: partial evaluation that keeps values.
* sympy: expressions are elements of a commutative ring; `simplify(a) == simplify(b)` is equality in it.
* graphviz and yattag: the sequence of things they are told to draw or write.
* matplotlib, Plotly, Mayavi: what they are told, and where. `make_subplots` numbers subplots row by row.
* PIL: `fromarray(.., "RGBA")` needs four bytes per pixel. The file system: a map from paths to files
  and directories, without links and permissions.
* Random initial ELM weights: arbitrary numbers.

### Print Assumptions, per theorem

Every `Prop*.v` file prints them during the build; this is what they say.

Closed under the global context (no axiom):

* `C16_constructions_succeed`, `C16_identifier_is_forever`, `C16_identifier_reaches_object`
* `C29_different_point_counts_rejected`, `C29_equal_point_counts_accepted`
* `C30_accepts`, `C30_construct`, `C30_empty_raises`, `C30_holds`, `C30_pack`, `C30_pack_scalars`, `C30_pack_unpack`, `C30_unpack_pack`
* `C31_array_operand_partial`, `C31_dict_operand_partial`, `C31_numpy_operand_refuted`, `C31_robust_array_operand_partial`, `C31_robust_dict_operand_partial`
* `C32_no_mutation_partial`, `C32_numpy_refuted`
* `C33_arithmetic_partial`, `C33_harmless_partial`, `C33_new_key_refuted`, `C33_resized_refuted`, `C33_robust_update_partial`, `C33_update_partial`
* `C34_numpy_refuted`, `C34_pack`, `C34_pack_unpack_partial`, `C34_unpack_pack_partial`
* `C35_map_partial`, `C35_robust_map`, `C35_robust_roundtrip`, `C35_roundtrip`, `C35_scalar_leaves_refuted`
* `C36_any_order_refuted`, `C36_pe_ascending_partial`
* `C37_list_changed_refuted`, `C37_reuse_refuted`, `C37_wiring_partial`
* `C38_least_squares`, `C38_pinv_is_moore_penrose`
* `C39_columns`, `C39_ls_partial`, `C39_nlls_step_partial`, `C39_robust_ls_partial`, `C39_robust_ls_refuted`, `C39_scalar_entry_refuted`
* `C40_large_tolerance_refuted`, `C40_stops_partial`
* `C41_cond_ignored_refuted`
* `C42_affine_one_step`, `C42_options_irrelevant`
* `C43_body_used`, `C43_ls_start_changed_refuted`, `C43_ls_start_matters_refuted`, `C43_ls_timed_partial`, `C43_ls_without_timer_refuted`, `C43_methods`, `C43_nlls_run`, `C43_user_body`
* `C44_satisfies`, `C44_shapes`, `C44_singular`
* `C45_every_solution`, `C45_twice`
* `C46_phi_after_ce_refuted`, `C46_reads_partial`, `C46_without_phi_partial`
* `C47_recursive`
* `C48_decides`, `C48_true`
* `C49_acyclic_partial`, `C49_self_loop_refuted`, `C49_unknown_node`, `C49_with_self_loops`
* `C50_drawings`, `C50_files_first`, `C50_layout`, `C50_pages`
* `C51_condition`, `C51_minimises`, `C51_one_rhs`, `C51_returns`, `C51_several_partial`, `C51_several_refuted`, `C51_several_shape_refuted`
* `C54_exactly_partial`, `C54_first_order_partial`, `C54_higher_order_refuted`, `C54_total_partial`
* `C55_derivative_partial`, `C55_one_partial`, `C55_refuted`, `C55_several_partial`, `C55_word_by_word_partial`
* `C56_cells_partial`, `C56_errors_partial`, `C56_no_columns_refuted`, `C56_reads_partial`, `C56_wide_refuted`
* `C57_cpp_exit_refuted`, `C57_cpp_stride_refuted`, `C57_cpp_weights_partial`, `C57_py_alias_refuted`, `C57_py_current`, `C57_py_weights_partial`
* `C61_one_line_per_iteration_partial`, `C61_timed_refuted`
* `C63_entries`, `C63_no_math`, `C63_once`
* `C64_own_labels_partial`, `C64_title_refuted`, `C64_titles_in_turn_partial`
* `C65_matplotlib_partial`, `C65_matplotlib_refuted`, `C65_plotly_mayavi_partial`, `C65_saveAll`
* `C66_absolute_refuted`, `C66_frames_partial`, `C66_minus_one_refuted`, `C66_order_refuted`
* `C69_crops_partial`, `C69_opaque_refuted`, `C69_refuted`, `C69_rgb_refuted`
* `C72_blocked_partial`, `C72_missing_partial`, `C72_plain_name_refuted`, `C72_read_partial`, `C72_sound_partial`, `C72_written_partial`
* `C76_arrays`, `C76_dangling_refuted`, `C76_leak_refuted`, `C76_objects`, `C76_released_partial`, `C76_safe_partial`, `C76_temporaries`, `C76_xla_iff`
* `C77_any_arithmetic`
* `C80_ready_partial`, `C80_returns`, `C80_several_refuted`
* `C81_classes_partial`, `C81_covers`, `C81_functions`, `C81_new_shape_refuted`
* `C82_identifier_refuted`
* `C84_any_arithmetic`
* `C86_ends`, `C86_escape_refuted`, `C86_shown`, `C86_status_refuted`, `C86_style_restored_refuted`
* `C87_accepted`, `C87_message`, `C87_own_printer_refuted`, `C87_printer`, `C87_read`, `C87_rejected_kept_refuted`
* `C88_blank_refuted`, `C88_call`, `C88_directory`, `C88_injection_refuted`, `C88_user_mode_refuted`
* `C93_atomic_refuted`, `C93_in_place`, `C93_robust_in_place`, `C93_stretched_refuted`, `C93_sum`, `C93_unique`
* `C94_construct`, `C94_raising_update_refuted`, `C94_ready_numpy_refuted`, `C94_ready_partial`, `C94_robust_update`, `C94_update`
* `C97_ls`, `C97_nlls`, `C97_nlls_real_start_refuted`, `C97_pinv`, `C97_scaled_qr`, `C97_scaled_qr_refuted`
* `C99_converges`, `C99_far_start_refuted`, `C99_full_rank`, `C99_idle`, `C99_products`, `C99_stationary`
* `C104_ls_partial`, `C104_nlls_partial`, `C104_refuted`
* `C106_elm_H_partial`, `C106_elm_partial`, `C106_nd_partial`, `C106_products_partial`, `C106_products_refuted`, `C106_size_partial`, `C106_size_refuted`, `C106_xla_partial`
* `C107_size_refuted`
* `C109_affine`, `C109_class`, `C109_newton`, `C109_nlls`, `C109_raises`
* `C119_any_order`, `C119_every_solution`, `C119_satisfies`

Depend on `ClassicalDedekindReals.sig_forall_dec`:

* `C82_weights`

Depend on `ClassicalDedekindReals.sig_forall_dec`, `FunctionalExtensionality.functional_extensionality_dep`:

* `C52_derivative`, `C52_jvp`, `C52_no_derivative_at_0`, `C52_values`
* `C53_raises`, `C53_robust`, `C53_robust_dict`, `C53_robust_raises`
* `C62_no_such_argument`, `C62_robust_no_such_argument`
* `C67_empty_partial`, `C67_kind_partial`, `C67_missing_partial`, `C67_own_labels_partial`, `C67_refuted`, `C67_shown_partial`
* `C70_data_partial`, `C70_first_refuted`, `C70_limits_partial`, `C70_limits_refuted`, `C70_no_data_refuted`
* `C71_ends`, `C71_gradient`, `C71_monotone`, `C71_shapes`
* `C75_ctor_nelm_partial`
* `C107_m_refuted`, `C107_new`, `C107_weights`
* `C113_flat_partial`, `C113_line_partial`, `C113_refuted`, `C113_scene_partial`
* `C115_full`, `C115_part`, `C115_raises`, `C115_units`

Depend on `ClassicalDedekindReals.sig_forall_dec`, `ClassicalDedekindReals.sig_not_dec`, `FunctionalExtensionality.functional_extensionality_dep`:

* `C01_chebyshev_columns`
* `C03_laguerre_columns`
* `C06_fourier_columns`, `C06_fourier_periodic`
* `C08_backends_agree`
* `C11_order_nine_is_not_a_derivative`, `C11_swish_refuted`
* `C12_shape_refuted`
* `C13_columns_removed`, `C13_cpp_defined_iff`, `C13_python_any_list`, `C13_repeated_entries_refuted`
* `C14_mtfc_cpp_shape`, `C14_mtfc_python_refuted`, `C14_utfc_python_refuted`, `C14_utfc_shape_partial`
* `C15_compiled_equals_eager`, `C15_elm_compiled_equals_eager`, `C15_nd_xla_matches_H`, `C15_nelm_compiled_equals_eager`
* `C17_domain_map`, `C17_evaluated_at_image`
* `C18_collocation_points`
* `C19_grid_every_combination_once`, `C19_grid_points`
* `C20_multi_indices`
* `C21_number_of_functions`
* `C23_backends_agree`, `C23_cpp_missing_orders`, `C23_py_missing_orders`, `C23_too_few_rows_refuted`
* `C24_order_nine_is_not_a_derivative`, `C24_swish_refuted`, `C24_tuple_refuted`
* `C25_low_dimension_refuted`, `C25_mixed_need_two_dimensions`
* `C26_mtfc_elm_rejected`, `C26_mtfc_rejected`, `C26_mtfc_singleton_is_a_count`, `C26_utfc_numpy_refuted`, `C26_utfc_range_refuted`, `C26_utfc_rejected`
* `C27_zero_tangent_refuted`
* `C58_remaining_independent`
* `C59_zero_tangent_refuted`
* `C68_flat_partial`, `C68_history_partial`, `C68_one_call_partial`, `C68_row_refuted`, `C68_zero_refuted`
* `C75_columns_refuted`, `C75_ctor_nd_partial`, `C75_ctor_partial`, `C75_fortran_refuted`, `C75_points`, `C75_points_nd`, `C75_strided_refuted`
* `C82_as_new`, `C82_compiled`, `C82_elm_as_new`, `C82_elm_range_refuted`, `C82_python_refuted`, `C82_range_refuted`, `C82_read_back`, `C82_stale_refuted`
* `C83_as_new`, `C83_c_refuted`, `C83_compiled`, `C83_m_refuted`, `C83_overflow_refuted`, `C83_padding_refuted`, `C83_python_refuted`, `C83_range_refuted`, `C83_x0_refuted`
* `C98_complex_derivative`, `C98_egrad_complex_refuted`, `C98_egrad_dtypes`, `C98_robust_dtypes`
* `C105_elm_refuted`, `C105_few_refuted`, `C105_rejected_partial`
* `C107_count_refuted`, `C107_range_refuted`
* `C114_few_refuted`, `C114_fourier_refuted`, `C114_products`, `C114_rejected_partial`

Depend on `ClassicalDedekindReals.sig_forall_dec`, `ClassicalDedekindReals.sig_not_dec`, `Classical_Prop.classic`, `FunctionalExtensionality.functional_extensionality_dep`:

* `C02_legendre_columns`
* `C04_hermite_pro_columns`
* `C05_hermite_phy_columns`
* `C07_polynomial_derivatives`
* `C08_elm_backends_agree_partial`
* `C09_fourier_derivatives`
* `C10_sine_derivatives`
* `C11_activation_derivatives_partial`, `C11_refuted`
* `C12_relu_partial`
* `C13_elm_columns_removed`, `C13_elm_cpp_defined_iff`, `C13_elm_python_any_list`, `C13_nelm_columns_removed`
* `C14_mtfc_shape_partial`
* `C15_mtfc_compiled_equals_eager`
* `C22_mixed_partials`
* `C24_backends_agree`, `C24_nelm_partials_partial`, `C24_refuted`
* `C25_named_partials_partial`
* `C26_mtfc_elm_removed`, `C26_mtfc_named_functions`, `C26_mtfc_range_refuted`, `C26_mtfc_singleton_refuted`, `C26_utfc_removed`
* `C27_utfc_jvp_partial`
* `C28_jvp_is_directional_derivative`, `C28_jvp_sum_of_partials`
* `C29_hybrid_concatenates`
* `C53_dict_sums`, `C53_higher`, `C53_higher_exists`, `C53_partial_derivatives`
* `C54_value_partial`
* `C59_mtfc_vmap_rows`, `C59_vmap_derivative`, `C59_vmap_rows`
* `C60_named_derivatives`
* `C73_fourier`, `C73_fourier_iff`, `C73_polynomial`, `C73_polynomial_iff`
* `C77_removed_bits`, `C77_same_bits`
* `C78_in_range`, `C78_left_end_exact`, `C78_order_kept`, `C78_right_end`, `C78_right_end_exact_refuted`
* `C79_inside_refuted`, `C79_points`
* `C84_columns`, `C84_corner_exact`, `C84_pointwise`, `C84_same_bits`
* `C85_bounded`, `C85_chebyshev_cos`, `C85_forward_error`, `C85_n_forward_error`, `C85_quadratic_growth_reached`
* `C89_grid_rank`, `C89_grid_rank_iff`
* `C91_compiled_finite`, `C91_left_end_refuted`, `C91_order0_same`, `C91_python_nan_refuted`
* `C103_early_partial`, `C103_nan_residual_refuted`, `C103_nan_step_refuted`
* `C105_elm_orders_partial`, `C105_fourier_refuted`, `C105_orders_partial`
* `C107_as_new`, `C107_compiled`
* `C108_conditions`
* `C110_reached`
* `C111_derivative`, `C111_forward_error`, `C111_growth_reached`, `C111_n_forward_error`
* `C112_reached`
* `C114_partials_partial`
* `C120_again`, `C120_any_order`

Depend on `ClassicalDedekindReals.sig_forall_dec`, `ClassicalDedekindReals.sig_not_dec`, `ClassicalEpsilon.constructive_indefinite_description`, `Classical_Prop.classic`, `FunctionalExtensionality.functional_extensionality_dep`:

* `C74_initial_value`, `C74_ls_exact`, `C74_nlls_exact`
* `C90_ls_exact`, `C90_polynomial`
* `C92_conditions`, `C92_initial_value`, `C92_ls`, `C92_nlls`
* `C95_conditions`, `C95_ls`, `C95_nlls`
* `C96_count`, `C96_none_matters`, `C96_one_variable`, `C96_redundant_refuted`, `C96_which_matter`
* `C100_converges`, `C100_initial_value`
* `C101_converges`, `C101_polynomial`
* `C102_conditions`, `C102_ls`, `C102_nlls`
* `C104_script_partial`
* `C108_ls`, `C108_nlls`, `C108_nlls_step`
* `C110_converges`
* `C112_converges`
* `C116_converges`, `C116_polynomial`
* `C117_converges`, `C117_reached`
* `C118_ls`, `C118_nlls`, `C118_nlls_step`
* `C120_clash_refuted`
