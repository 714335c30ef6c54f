{"id": "C01", "title": "Chebyshev columns are the Chebyshev polynomials", "statement": "With basis CP, column k of the undifferentiated full basis matrix, evaluated at a point whose mapped coordinate is cos(theta), equals cos(k*theta); this holds for both backends and for every number of basis functions including one and two.", "quantifier": "all numbers of basis functions m >= 1, all columns k < m, all angles theta, all domains x0 <> xf, both backends", "why_tests_cant": "tests compare the two backends with each other on one grid with m = 5 and m = 10; they share the recurrence, so a common error is invisible, and no finite grid settles all degrees", "anchors": ["src/tfc/utils/BF_Py.py:CP._Hint", "src/tfc/utils/BF_Py.py:BasisFunc.H", "src/tfc/utils/BF.cc:CP::Hint"]}
{"id": "C02", "title": "Legendre columns are the Legendre polynomials", "statement": "With basis LeP, column k of the full basis matrix satisfies Legendre's differential equation in the mapped coordinate z, ((1-z^2)y')' + k(k+1)y = 0, with value 1 at z = 1 and parity (-1)^k.", "quantifier": "all m >= 1, all columns k < m, all real points, all domains", "why_tests_cant": "the existing tests only compare the C++ and Python transcriptions of the same recurrence for two values of m", "anchors": ["src/tfc/utils/BF_Py.py:LeP._Hint", "src/tfc/utils/BF.cc:LeP::Hint"]}
{"id": "C03", "title": "Laguerre columns are the Laguerre polynomials", "statement": "With basis LaP, column k of the full basis matrix is sum_{i<=k} binomial(k,i) (-1)^i z^i / i! in the mapped coordinate z.", "quantifier": "all m >= 1, all columns, all real points", "why_tests_cant": "a closed form for every degree cannot be sampled; tests compare two copies of the recurrence", "anchors": ["src/tfc/utils/BF_Py.py:LaP._Hint", "src/tfc/utils/BF.cc:LaP::Hint"]}
{"id": "C04", "title": "Probabilists' Hermite columns follow Rodrigues' formula", "statement": "With basis HoPpro, column k equals (-1)^k exp(z^2/2) d^k/dz^k exp(-z^2/2).", "quantifier": "all m >= 1, all columns, all real points", "why_tests_cant": "an analytic identity over all degrees and all reals; tests only compare backends", "anchors": ["src/tfc/utils/BF_Py.py:HoPpro._Hint", "src/tfc/utils/BF.cc:HoPpro::Hint"]}
{"id": "C05", "title": "Physicists' Hermite columns follow Rodrigues' formula", "statement": "With basis HoPphy, column k equals (-1)^k exp(z^2) d^k/dz^k exp(-z^2).", "quantifier": "all m >= 1, all columns, all real points", "why_tests_cant": "an analytic identity over all degrees and all reals; tests only compare backends", "anchors": ["src/tfc/utils/BF_Py.py:HoPphy._Hint", "src/tfc/utils/BF.cc:HoPphy::Hint"]}
{"id": "C06", "title": "Fourier columns are the real Fourier basis", "statement": "With basis FS, column 0 is 1, column 2g-1 is sin(g z) and column 2g is cos(g z) in the mapped coordinate, and the columns are 2*pi periodic in it.", "quantifier": "all m >= 1, all columns, all real points, both backends", "why_tests_cant": "frequencies and points are unbounded; tests compare backends on one grid", "anchors": ["src/tfc/utils/BF_Py.py:FS._Hint", "src/tfc/utils/BF.cc:FS::Hint"]}
{"id": "C07", "title": "Polynomial derivative matrices are true derivatives (Python backend)", "statement": "For each of CP, LeP, LaP, HoPpro and HoPphy the matrix returned for derivative order d is, entry by entry, the d-th derivative with respect to the physical variable x of the matrix returned for order 0, including the chain-rule factor of the domain map.", "quantifier": "all five families, all m >= 1, all orders d >= 0, all points x, all domains x0 <> xf (all real domain maps)", "why_tests_cant": "tests use d = 0 and d = 3 and compare the two backends, which share the same recurrence for derivatives; the order is unbounded", "anchors": ["src/tfc/utils/BF_Py.py:BasisFunc.H", "src/tfc/utils/BF_Py.py:CP._Hint", "src/tfc/utils/BF_Py.py:LeP._Hint", "src/tfc/utils/BF_Py.py:LaP._Hint", "src/tfc/utils/BF_Py.py:HoPpro._Hint", "src/tfc/utils/BF_Py.py:HoPphy._Hint"]}
{"id": "C08", "title": "The C++ polynomial backend agrees with the Python backend and stays in bounds", "statement": "For each polynomial family and for FS, the C++ basis matrix has the same shape and the same entries as the Python one in exact arithmetic, and computing it never reads or writes outside its buffers nor returns an uninitialised cell, provided the constraint columns are distinct and in range.", "quantifier": "all m >= 1, all orders d, all lists of points, all distinct in-range constraint lists, full or not", "why_tests_cant": "memory safety and equality for all sizes; tests try two sizes with no constraint columns at all", "anchors": ["src/tfc/utils/BF.cc:BasisFunc::H", "src/tfc/utils/BF.cc:CP::Hint", "src/tfc/utils/BF.cc:CP::RecurseDeriv", "src/tfc/utils/BF.cc:LeP::RecurseDeriv", "src/tfc/utils/BF.cc:LaP::RecurseDeriv", "src/tfc/utils/BF.cc:HoPpro::RecurseDeriv", "src/tfc/utils/BF.cc:HoPphy::RecurseDeriv"]}
{"id": "C09", "title": "Fourier derivative matrices are true derivatives", "statement": "With basis FS the matrix for derivative order d is the d-th derivative in x of the matrix for order 0, on both backends.", "quantifier": "all m >= 1, all orders d, all points, all domains", "why_tests_cant": "the order enters modulo 4; tests stop at 4 and compare the two copies of the same table", "anchors": ["src/tfc/utils/BF_Py.py:FS._Hint", "src/tfc/utils/BF.cc:FS::Hint"]}
{"id": "C10", "title": "ELM sine derivative matrices are true derivatives", "statement": "With basis ELMSin the C++ matrix for derivative order d is the d-th derivative in x of sin(w z + b), for every weight and bias.", "quantifier": "all m, all weights and biases, all orders d, all points", "why_tests_cant": "weights are random and orders unbounded; moreover the shipped test compares the C++ object with itself", "anchors": ["src/tfc/utils/BF.cc:ELMSin::Hint"]}
{"id": "C11", "title": "ELM sigmoid, tanh and swish derivative matrices are true derivatives", "statement": "With basis ELMSigmoid, ELMTanh or ELMSwish the C++ matrix for derivative order d is the d-th derivative in x of the activation applied to w z + b.", "quantifier": "all weights and biases, all points, all orders d >= 0", "why_tests_cant": "the closed forms are hand-expanded polynomials; tests compare only up to order 3 or 4 with automatic differentiation on one grid", "anchors": ["src/tfc/utils/BF.cc:ELMSigmoid::Hint", "src/tfc/utils/BF.cc:ELMTanh::Hint", "src/tfc/utils/BF.cc:ELMSwish::Hint"]}
{"id": "C12", "title": "ELM ReLU matrices: values, derivatives and shape", "statement": "With basis ELMReLU the matrix has one row per point and one column per basis function for every derivative order, and away from the kink it is the d-th derivative of max(0, w z + b), on both backends.", "quantifier": "all m, all numbers of points, all weights and biases, all orders d, all points off the kink", "why_tests_cant": "the shipped test uses ten points and ten functions, a square case in which a transposed matrix has the right shape", "anchors": ["src/tfc/utils/BF_Py.py:ELMReLU._Hint", "src/tfc/utils/BF.cc:ELMReLU::Hint"]}
{"id": "C13", "title": "Constraint columns are removed, and only those", "statement": "Asking for the constrained (not full) matrix returns exactly the full matrix with the columns listed in nC deleted and the others in their original order; it therefore has m - len(nC) columns.", "quantifier": "all m, all lists nC, all points, both backends", "why_tests_cant": "the space of subsets of columns is exponential, and repeated or out-of-range entries are accepted by the constructors; tests never pass a constraint list in one dimension", "anchors": ["src/tfc/utils/BF_Py.py:BasisFunc.H", "src/tfc/utils/BF.cc:BasisFunc::H", "src/tfc/utfc.py:utfc.__init__"]}
{"id": "C14", "title": "The advertised output shape is the computed output shape", "statement": "The shape utfc and mtfc advertise to the tracer for a basis-matrix call equals the shape of the matrix that call computes.", "quantifier": "all m, all nC, full or not, all point counts, univariate and multivariate", "why_tests_cant": "the advertised and computed shapes come from different code; a mismatch appears only for unusual nC", "anchors": ["src/tfc/utfc.py:utfc._SetupJax", "src/tfc/mtfc.py:mtfc.SetupJAX", "src/tfc/utils/BF_Py.py:nBasisFunc.H"]}
{"id": "C15", "title": "Compiled and eager basis evaluation agree", "statement": "The compiled (XLA) entry point of the C++ backend fills its output with exactly the matrix the eager entry point returns.", "quantifier": "all families, all m, all d, all points, all distinct in-range nC, full or not, one- and multi-dimensional", "why_tests_cant": "the two entry points duplicate code; tests call the eager one only", "anchors": ["src/tfc/utils/BF.cc:BasisFunc::xla", "src/tfc/utils/BF.cc:BasisFunc::H", "src/tfc/utils/BF.cc:nBasisFunc::xla", "src/tfc/utils/BF.cc:nBasisFunc::H"]}
{"id": "C16", "title": "Compiled calls reach the object they were built from", "statement": "After any history of constructing basis objects, a compiled call carrying the identifier of an object is served by that object.", "quantifier": "all finite sequences of constructions of any basis classes", "why_tests_cant": "global mutable registry; depends on the whole construction history", "anchors": ["src/tfc/utils/BF.cc:xlaWrapper", "src/tfc/utils/BF.cc:BasisFunc::BasisFunc", "src/tfc/utils/BF.cc:nBasisFunc::nBasisFunc", "src/tfc/utils/BF.cc:nELM::nELM"]}
{"id": "C17", "title": "The domain map sends the physical domain onto the basis domain", "statement": "Basis functions are evaluated at the affine image of x that sends x0 to z0 and xf to zf; points between x0 and xf land between z0 and zf, in the same order when x0 < xf.", "quantifier": "all x0 <> xf, all basis domains, all x", "why_tests_cant": "a statement about all real domains", "anchors": ["src/tfc/utils/BF_Py.py:BasisFunc.__init__", "src/tfc/utils/BF_Py.py:BasisFunc.H", "src/tfc/utils/BF.cc:BasisFunc::BasisFunc"]}
{"id": "C18", "title": "Univariate collocation points", "statement": "utfc's N collocation points start at x0, end at xf, are strictly increasing when x0 < xf, all lie in the domain, and are the Chebyshev-Gauss-Lobatto points for CP and LeP and equally spaced otherwise.", "quantifier": "all N >= 2, all x0 < xf, all bases", "why_tests_cant": "no test inspects the points; the statement is for all N", "anchors": ["src/tfc/utfc.py:utfc.__init__"]}
{"id": "C19", "title": "Multivariate collocation grid is the full tensor grid", "statement": "mtfc's collocation points are the cartesian product of the per-dimension points: point i has in dimension k the point with index (i / prod(n[k+1:])) mod n[k], every combination occurs exactly once, and there are prod(n) points.", "quantifier": "all dimensions, all point counts per dimension", "why_tests_cant": "index arithmetic for all dimensions; tests use equal counts in two dimensions only", "anchors": ["src/tfc/mtfc.py:mtfc.__init__"]}
{"id": "C20", "title": "Multivariate basis enumerates each admissible multi-index exactly once", "statement": "The columns of an n-dimensional basis matrix correspond one to one to the multi-indices of total degree at most deg that are not constrained in every dimension; the full matrix uses all multi-indices of total degree at most deg; the advertised number of basis functions is the number of columns.", "quantifier": "all dimensions >= 1, all degrees, all constraint tables", "why_tests_cant": "combinatorial enumeration by nested recursion; tests compare the two transcriptions for dimension two", "anchors": ["src/tfc/utils/BF_Py.py:nBasisFunc._NumBasisFunc", "src/tfc/utils/BF_Py.py:nBasisFunc.H", "src/tfc/utils/BF.cc:nBasisFunc::NumBasisFunc", "src/tfc/utils/BF.cc:nBasisFunc::RecurseBasis"]}
{"id": "C21", "title": "Number of full multivariate basis functions", "statement": "The full n-dimensional basis of degree deg has binomial(deg + dim, dim) functions.", "quantifier": "all dimensions and degrees", "why_tests_cant": "closed form for all dimensions and degrees", "anchors": ["src/tfc/utils/BF_Py.py:nBasisFunc._NumBasisFunc", "src/tfc/utils/BF.cc:nBasisFunc::NumBasisFunc"]}
{"id": "C22", "title": "Multivariate columns are products of univariate functions and derivatives are mixed partials", "statement": "Each column of an n-dimensional basis matrix is the product over the dimensions of one univariate basis function in that dimension's mapped coordinate, and the matrix for derivative orders d is the mixed partial derivative of those orders, with respect to the physical variables, of the matrix for order zero.", "quantifier": "all dimensions, degrees, derivative orders, constraint tables, points and families CP, LeP, FS", "why_tests_cant": "tests compare backends for two dimensions and one order pair", "anchors": ["src/tfc/utils/BF_Py.py:nBasisFunc.H", "src/tfc/utils/BF.cc:nBasisFunc::nHint", "src/tfc/utils/BF.cc:nBasisFunc::RecurseBasis"]}
{"id": "C23", "title": "Multivariate C++ and Python backends agree and stay in bounds", "statement": "The C++ n-dimensional basis matrix equals the Python one in exact arithmetic, is fully initialised, and no buffer access is out of bounds.", "quantifier": "all dimensions, degrees, orders, points, constraint tables", "why_tests_cant": "memory safety for all sizes; tests fix two dimensions", "anchors": ["src/tfc/utils/BF.cc:nBasisFunc::H", "src/tfc/utils/BF.cc:nBasisFunc::nHint", "src/tfc/utils/BF.cc:nBasisFunc::RecurseBasis", "src/tfc/utils/BF_Py.py:nBasisFunc.H"]}
{"id": "C24", "title": "Multivariate ELM derivatives obey the chain rule", "statement": "For n-dimensional ELM bases the matrix for orders d is the mixed partial derivative of the activation applied to the affine form, on both backends and through mtfc.", "quantifier": "all dimensions, weights, biases, orders, points", "why_tests_cant": "weights and orders unbounded; tests use one order pair in two dimensions and numpy orders, whereas mtfc passes a tuple", "anchors": ["src/tfc/utils/BF.cc:nELMSin::nElmHint", "src/tfc/utils/BF.cc:nELMSigmoid::nElmHint", "src/tfc/utils/BF.cc:nELMTanh::nElmHint", "src/tfc/utils/BF.cc:nELMReLU::nElmHint", "src/tfc/utils/BF_Py.py:nELMReLU._nHint"]}
{"id": "C25", "title": "Named multivariate derivatives differentiate the named variables", "statement": "mtfc.H, Hx, Hx2, Hy, Hy2, Hxy, Hx2y and Hz return the basis matrix differentiated the stated number of times in the stated variables, for every number of dimensions, or fail.", "quantifier": "all dimensions, all eight methods", "why_tests_cant": "tests only call Hy in two dimensions and do not check it; low dimensions are accepted silently", "anchors": ["src/tfc/mtfc.py:mtfc.Hx", "src/tfc/mtfc.py:mtfc.Hy", "src/tfc/mtfc.py:mtfc.Hz", "src/tfc/mtfc.py:mtfc.Hxy", "src/tfc/mtfc.py:mtfc.Hx2y"]}
{"id": "C26", "title": "Constraint specification means what the documentation says", "statement": "An integer nC removes the first nC basis functions; a list removes the listed basis functions; in several dimensions this holds for each dimension's entry; invalid specifications are rejected.", "quantifier": "all degrees, all integer and list specifications, all dimensions", "why_tests_cant": "the specification language has many shapes, and tests only use integer entries equal to 2", "anchors": ["src/tfc/utfc.py:utfc.__init__", "src/tfc/mtfc.py:mtfc.__init__"]}
{"id": "C27", "title": "Univariate automatic differentiation rule", "statement": "Differentiating a univariate basis-matrix call forward gives the next derivative matrix scaled row by row by the tangent, for every tangent, including the zero tangent.", "quantifier": "all orders, points and tangents (scalar and vector)", "why_tests_cant": "tests reach the rule only with the all-ones tangent produced by egrad", "anchors": ["src/tfc/utfc.py:utfc._SetupJax"]}
{"id": "C28", "title": "Multivariate automatic differentiation rule", "statement": "Differentiating a multivariate basis-matrix call forward gives the sum over the dimensions of the partial derivative matrix times that dimension's tangent, for every combination of tangents.", "quantifier": "all dimensions, orders, points, tangents", "why_tests_cant": "tests use one all-ones tangent at a time", "anchors": ["src/tfc/mtfc.py:mtfc.SetupJAX"]}
{"id": "C29", "title": "Hybrid bases concatenate their members", "statement": "A HybridUtfc matrix is the concatenation, in order, of its members' matrices, so its column count is the sum of theirs; members with different point counts are rejected.", "quantifier": "all finite collections of members, all orders provided", "why_tests_cant": "no test constructs a hybrid basis", "anchors": ["src/tfc/utfc.py:HybridUtfc"]}
{"id": "C30", "title": "TFCDict packs and unpacks without loss", "statement": "Packing a dictionary into one array and unpacking it gives back the same keys in the same order with the same arrays, and unpacking then packing an array of the right length gives back the array.", "quantifier": "all non-empty ordered collections of distinct keys and one-dimensional arrays, empty arrays included, held as jax or NumPy arrays", "why_tests_cant": "round-trip law over all dictionaries; no test covers TFCDict", "anchors": ["src/tfc/utils/TFCUtils.py:TFCDict.getSlices", "src/tfc/utils/TFCUtils.py:TFCDict.toArray", "src/tfc/utils/TFCUtils.py:TFCDict.toDict"]}
{"id": "C31", "title": "TFCDict arithmetic is array arithmetic", "statement": "Adding or subtracting a dictionary or a packed array, in place or not, acts as the same operation on the packed arrays.", "quantifier": "all dictionaries, operands given as dictionaries, jax arrays or numpy arrays", "why_tests_cant": "type dispatch over the operand; no test covers it", "anchors": ["src/tfc/utils/TFCUtils.py:TFCDict.__iadd__", "src/tfc/utils/TFCUtils.py:TFCDict.__isub__", "src/tfc/utils/TFCUtils.py:TFCDict.__add__", "src/tfc/utils/TFCUtils.py:TFCDict.__sub__"]}
{"id": "C32", "title": "Out-of-place TFCDict arithmetic leaves its operands unchanged", "statement": "Evaluating a + b or a - b does not change the contents of a or b.", "quantifier": "all dictionaries, values held as jax arrays or numpy arrays", "why_tests_cant": "aliasing between the result and the operand shows only for mutable values", "anchors": ["src/tfc/utils/TFCUtils.py:TFCDict.__add__", "src/tfc/utils/TFCUtils.py:TFCDict.__sub__"]}
{"id": "C33", "title": "TFCDict bookkeeping follows every mutation", "statement": "After any sequence of dictionary operations, unpacking and arithmetic use the keys and sizes the dictionary currently has.", "quantifier": "all sequences of construction, update, item assignment and deletion", "why_tests_cant": "history-dependent; cached slices become stale only after particular mutations", "anchors": ["src/tfc/utils/TFCUtils.py:TFCDict.update", "src/tfc/utils/TFCUtils.py:TFCDict.getSlices"]}
{"id": "C34", "title": "TFCDictRobust packs and unpacks arrays of any shape", "statement": "Packing a TFCDictRobust and unpacking it restores every array with its shape, for jax-valued and numpy-valued dictionaries.", "quantifier": "all ordered collections of keys and arrays of arbitrary shape", "why_tests_cant": "all shapes; no test covers it", "anchors": ["src/tfc/utils/TFCUtils.py:TFCDictRobust.getSlices", "src/tfc/utils/TFCUtils.py:TFCDictRobust.toArray", "src/tfc/utils/TFCUtils.py:TFCDictRobust.toDict"]}
{"id": "C35", "title": "TFCDicts survive pytree flattening", "statement": "Flattening a TFCDict as a pytree and unflattening it gives a dictionary with the same keys, order and values, and mapping a function over the leaves changes only the values.", "quantifier": "all dictionaries, all leaf functions", "why_tests_cant": "round trip over all dictionaries", "anchors": ["src/tfc/utils/TFCUtils.py:register_pytree_node"]}
{"id": "C36", "title": "Partial evaluation fixes exactly the named arguments", "statement": "pe (and pejit) return a function of the non-constant arguments, in their original order, that equals the original function with the constant arguments fixed at the values given.", "quantifier": "all argument counts, all lists of constant positions, all functions", "why_tests_cant": "argument permutation over all lists, in any order; tests use [1] and [1,2]", "anchors": ["src/tfc/utils/TFCUtils.py:pe", "src/tfc/utils/TFCUtils.py:pejit"]}
{"id": "C37", "title": "Solvers wire constant arguments correctly and leave the caller's list alone", "statement": "LS, NLLS and their class versions evaluate the residual with every argument in the caller's position whatever constant_arg_nums says, and do not modify the caller's constant_arg_nums list, so it can be reused.", "quantifier": "all argument lists, all constant position lists, repeated calls", "why_tests_cant": "the effect needs two calls sharing one list", "anchors": ["src/tfc/utils/TFCUtils.py:LS", "src/tfc/utils/TFCUtils.py:NLLS", "src/tfc/utils/TFCUtils.py:LsClass", "src/tfc/utils/TFCUtils.py:NllsClass"]}
{"id": "C38", "title": "LS returns the least-squares solution of an affine residual", "statement": "For a residual affine in the unknowns, LS returns a vector minimising the Euclidean norm of the residual, and the one of least norm; in particular it solves the system when a solution exists.", "quantifier": "all affine residuals over a real field, any numbers of equations and unknowns, any rank", "why_tests_cant": "an optimality statement over all competitors", "anchors": ["src/tfc/utils/TFCUtils.py:LS"]}
{"id": "C39", "title": "Jacobian columns follow the packing order of dictionary unknowns", "statement": "When the unknowns are a TFCDict or TFCDictRobust, column i of the Jacobian LS and NLLS use is the derivative with respect to entry i of the packed unknowns, so the update computed in packed form is added to the right entries.", "quantifier": "all dictionaries of unknowns, all shapes for the robust variant, all linear residuals", "why_tests_cant": "index bookkeeping over all block structures", "anchors": ["src/tfc/utils/TFCUtils.py:LS", "src/tfc/utils/TFCUtils.py:NLLS"]}
{"id": "C40", "title": "NLLS stops, and for a documented reason", "statement": "NLLS performs at most maxIter iterations and when it returns either the residual is within tol, or the last step is within tol, or maxIter iterations were done; the iteration count returned is the number of steps taken.", "quantifier": "all residuals, start points, tolerances and iteration limits", "why_tests_cant": "termination and exit reasons for all residual functions", "anchors": ["src/tfc/utils/TFCUtils.py:NLLS", "src/tfc/utils/TFCUtils.py:NllsClass"]}
{"id": "C41", "title": "NLLS honours a user-supplied stopping condition", "statement": "When the caller passes cond, iteration continues exactly while cond holds.", "quantifier": "all condition functions, all residuals", "why_tests_cant": "no test passes cond", "anchors": ["src/tfc/utils/TFCUtils.py:NLLS", "src/tfc/utils/TFCUtils.py:NllsClass"]}
{"id": "C42", "title": "NLLS result does not depend on timing or printing and solves affine problems in one step", "statement": "The result of NLLS is the same with timer or printOut on or off, and for an affine full-rank residual the first step already gives the least-squares solution.", "quantifier": "all residuals, all option settings", "why_tests_cant": "equality of executions for all residuals", "anchors": ["src/tfc/utils/TFCUtils.py:NLLS"]}
{"id": "C43", "title": "Class solvers agree with function solvers", "statement": "LsClass.run and NllsClass.run return what LS and NLLS return for the same residual and start, on every call, with and without timing, and do not modify the start value passed in.", "quantifier": "all residuals, all sequences of run calls", "why_tests_cant": "call-history dependent; no test uses the class versions", "anchors": ["src/tfc/utils/TFCUtils.py:LsClass.run", "src/tfc/utils/TFCUtils.py:NllsClass.run"]}
{"id": "C44", "title": "Constrained expressions satisfy their constraints for every free function", "statement": "If the constraint operators are linear and the support matrix is invertible, the constrained expression satisfies every constraint whatever free function is used; if the support matrix is singular an error is raised.", "quantifier": "all numbers of constraints, all linear operators, all free functions, all kappa", "why_tests_cant": "universally quantified over free functions; tests check four hand-written cases", "anchors": ["src/tfc/utils/CeSolver.py:CeSolver.ce", "src/tfc/utils/CeSolver.py:CeSolver._solveCe", "src/tfc/utils/CeSolver.py:CeSolver.phi", "src/tfc/utils/CeSolver.py:CeSolver.rho", "src/tfc/utils/CeSolver.py:CeSolver.S"]}
{"id": "C45", "title": "Constrained expressions reach every function that satisfies the constraints", "statement": "Using any function that already satisfies the constraints as the free function returns that function; hence applying the construction twice changes nothing.", "quantifier": "all functions satisfying the constraints", "why_tests_cant": "quantifies over a function space", "anchors": ["src/tfc/utils/CeSolver.py:CeSolver._solveCe"]}
{"id": "C46", "title": "CeSolver always answers from its current inputs", "statement": "After any sequence of reads and assignments of C, kappa, s, g, phi and ce, reading ce, phi, alpha, S or rho gives the value determined by the current inputs and the latest overriding assignment.", "quantifier": "all finite sequences of property reads and writes", "why_tests_cant": "cache staleness depends on the history; tests read once after each write", "anchors": ["src/tfc/utils/CeSolver.py:CeSolver.ce", "src/tfc/utils/CeSolver.py:CeSolver.phi", "src/tfc/utils/CeSolver.py:CeSolver.s", "src/tfc/utils/CeSolver.py:CeSolver.kappa", "src/tfc/utils/CeSolver.py:CeSolver.C", "src/tfc/utils/CeSolver.py:CeSolver.g"]}
{"id": "C47", "title": "Recursive multivariate constrained expressions keep both sets of constraints", "statement": "Using one constrained expression as the free function of another, for operators acting on different variables with consistent data, satisfies the constraints of both.", "quantifier": "all commuting linear operators, consistent data, free functions", "why_tests_cant": "quantifies over function spaces and operators; one test case exists", "anchors": ["src/tfc/utils/CeSolver.py:CeSolver._solveCe", "tests/test_ce_solver.py"]}
{"id": "C48", "title": "checkCe decides whether the stored expression meets the constraints", "statement": "checkCe returns True exactly when every constraint operator applied to the stored expression equals its kappa, and warns once for each constraint that fails.", "quantifier": "all constraint lists and stored expressions", "why_tests_cant": "for all lists", "anchors": ["src/tfc/utils/CeSolver.py:CeSolver.checkCe"]}
{"id": "C49", "title": "Component-constraint graphs: exactly the acyclic orientations are kept", "statement": "The orientations a ComponentConstraintGraph keeps are exactly those of the 2^E orientations of its edges whose directed graph has no cycle.", "quantifier": "all node lists and edge lists", "why_tests_cant": "uses eigenvalues as a cycle test; must hold for all graphs", "anchors": ["src/tfc/utils/TFCUtils.py:ComponentConstraintGraph.__init__"]}
{"id": "C50", "title": "Every kept tree is drawn once", "statement": "SaveGraphs creates one page for each kept orientation (or for each of all orientations when asked), numbers them consecutively, lays them out five to a row, and draws each edge in the direction of the orientation.", "quantifier": "all numbers of trees, all graphs", "why_tests_cant": "layout arithmetic for all counts", "anchors": ["src/tfc/utils/TFCUtils.py:ComponentConstraintGraph.SaveGraphs"]}
{"id": "C51", "title": "Scaled QR least squares solves the unscaled problem", "statement": "ScaledQrLs returns the least-squares solution of A x = B for every A with independent columns, for one or several right-hand sides.", "quantifier": "all matrices with independent columns, all right-hand sides", "why_tests_cant": "optimality over all competitors; no test covers it", "anchors": ["src/tfc/utils/TFCUtils.py:ScaledQrLs"]}
{"id": "C52", "title": "step is the Heaviside step with zero derivative", "statement": "step(x) is 1 for x > 0 and 0 for x <= 0, and its derivative away from 0 is 0.", "quantifier": "all reals", "why_tests_cant": "for all reals", "anchors": ["src/tfc/utils/TFCUtils.py:step"]}
{"id": "C53", "title": "egrad gives elementwise partial derivatives", "statement": "egrad(f, j) applied to arrays gives, for f acting elementwise in its j-th argument, the array of partial derivatives in that argument; repeated egrad gives higher and mixed derivatives.", "quantifier": "all elementwise differentiable functions, argument positions, orders", "why_tests_cant": "for all functions", "anchors": ["src/tfc/utils/TFCUtils.py:egrad", "src/tfc/utils/TFCUtils.py:egradRobust"]}
{"id": "C54", "title": "The TFC printer emits code for the derivative it is given", "statement": "Printing a derivative with the tfc printer yields the source text egrad(...egrad(f,i)...,j)(all arguments) that computes it.", "quantifier": "all functions, all argument lists, all derivative variables and orders", "why_tests_cant": "unbounded nesting; tests print first-order one-variable cases only", "anchors": ["src/tfc/utils/CeSolver.py:TfcPrinter._print_Derivative"]}
{"id": "C55", "title": "The TFC printer substitutes values for variables only", "statement": "Printing a substitution replaces the variable's occurrences by the value and nothing else in the expression text.", "quantifier": "all expressions, variables and values", "why_tests_cant": "textual substitution over all names", "anchors": ["src/tfc/utils/CeSolver.py:TfcPrinter._print_Subs"]}
{"id": "C56", "title": "LaTeX tables have the right number of rows and cells", "statement": "SimpleTable emits a tabular with one alignment letter per column, and every emitted row has as many cells as the header.", "quantifier": "all array shapes, with or without row and column headers", "why_tests_cant": "for all shapes", "anchors": ["src/tfc/utils/Latex.py:table"]}
{"id": "C57", "title": "ELM weights and biases are what was last assigned", "statement": "Reading w or b of an ELM basis returns the last accepted assignment, assignments of the wrong size are rejected without changing the object, and the basis matrix uses the current values.", "quantifier": "all sequences of reads and assignments, all sizes", "why_tests_cant": "history property over all sizes", "anchors": ["src/tfc/utils/BF_Py.py:ELM.w", "src/tfc/utils/BF_Py.py:ELM.b", "src/tfc/utils/BF.cc:ELM::setW", "src/tfc/utils/BF.cc:ELM::setB", "src/tfc/utils/BF.cc:nELM::setW"]}
{"id": "C58", "title": "Removing the first nC polynomials leaves functions independent of the monomials used as support", "statement": "After removing the first nC columns of a polynomial basis, no non-trivial combination of the remaining columns equals a polynomial of degree below nC on any set of more than deg distinct points.", "quantifier": "all polynomial families, all m, all nC <= deg, all coefficient vectors", "why_tests_cant": "linear independence over all coefficient vectors", "anchors": ["src/tfc/utils/BF_Py.py:BasisFunc.H", "src/tfc/utfc.py:utfc.__init__"]}
{"id": "C59", "title": "Mapping a scalar basis call over points gives the rows of the basis matrix", "statement": "Vectorising (vmap) a univariate basis call over an array of points returns, for each point, the single row that the call on that point alone computes, of the length advertised for a scalar call.", "quantifier": "all bases, orders, points, constraint lists, full or not", "why_tests_cant": "tests map over one array for one basis", "anchors": ["src/tfc/utfc.py:H_batch", "src/tfc/utfc.py:H_abstract_eval"]}
{"id": "C60", "title": "Named univariate derivatives have the named order", "statement": "utfc.H, dH, d2H, d4H and d8H return the matrix of the 0th, 1st, 2nd, 4th and 8th derivatives, in the physical variable, of the functions in the columns of H.", "quantifier": "all smooth bases, both backends, all points, constraint lists, full or not", "why_tests_cant": "tests compare a few orders at fixed points within a tolerance", "anchors": ["src/tfc/utfc.py:utfc.H", "src/tfc/utfc.py:utfc.dH", "src/tfc/utfc.py:utfc.d2H", "src/tfc/utfc.py:utfc.d4H", "src/tfc/utfc.py:utfc.d8H"]}
{"id": "C61", "title": "NLLS prints one line per iteration", "statement": "With printOut on, NLLS and NllsClass.run print exactly one line for each iteration done, in order, showing the iteration number and the residual at that iterate; the solve itself is unaffected.", "quantifier": "all residuals, starts, tolerances, iteration limits and option settings", "why_tests_cant": "counts effects over executions of any length; no test looks at printed output", "anchors": ["src/tfc/utils/TFCUtils.py:NLLS", "src/tfc/utils/TFCUtils.py:NllsClass.run", "src/tfc/utils/TFCUtils.py:nlls_id_print"]}
{"id": "C62", "title": "egrad does not report an argument position that does not exist", "statement": "egrad(g, j) called on array arguments when j is not the position of an argument returns an array of zeros of the shape of g's value instead of raising.", "quantifier": "all functions, arguments and positions", "why_tests_cant": "silent wrong answer for a mistyped position; must hold for all functions", "anchors": ["src/tfc/utils/TFCUtils.py:egrad"]}
{"id": "C63", "title": "Creating a TFC printer switches math names to numpy names once and for all printers", "statement": "After the first TfcPrinter is created no entry of the printer's function and constant tables mentions math, entries that did not mention it are unchanged, math.f has become np.f, and creating further printers changes nothing.", "quantifier": "all contents of the tables, any number of printers", "why_tests_cant": "tests look at a few functions; textual replacement must not create new occurrences for any table", "anchors": ["src/tfc/utils/CeSolver.py:TfcPrinter.__init__"]}
{"id": "C64", "title": "Every matplotlib subplot carries its own labels and title", "statement": "MakePlot(xlabs, ylabs, titles, twinYlabs, zlabs) from tfc.utils creates one subplot for every cell of the label grid whose x label is not None, at that cell's place in the grid, in row-major order, and each subplot shows exactly the x, y and z label, the twin y label and the title given for its own cell.", "quantifier": "for all label grids (string, list or nested list arguments) of every size, with None anywhere", "why_tests_cant": "Tests would fix a few grids; which cells are None can be chosen in exponentially many ways, and the fault appears only for particular patterns.", "anchors": ["src/tfc/utils/MakePlot.py:MakePlot.__init__"]}
{"id": "C65", "title": "A saved figure's file name tells its file type", "statement": "save(fileName, fileType) of the three MakePlot classes writes exactly one file. With a fileType the file is fileName plus a dot plus that type, and the content has that type. Without one, a supported suffix of fileName is used and the name is kept; any other name gets the default type, and the file written carries the default type's suffix.", "quantifier": "for all file names and file types", "why_tests_cant": "The set of file names is infinite, and names with several dots, slashes or leading dots behave differently.", "anchors": ["src/tfc/utils/MakePlot.py:MakePlot.save", "src/tfc/utils/PlotlyMakePlot.py:MakePlot.save", "src/tfc/utils/MayaviMakePlot.py:MakePlot.save"]}
{"id": "C66", "title": "An animation saves every frame once, in order", "statement": "animate(save=True) writes one image per value the generator yields, in order, under the names the printed ffmpeg command reads; no two frames share a name, and sorting the names alphabetically gives the frames in order.", "quantifier": "for all generators of any length and all file names", "why_tests_cant": "Long animations are not run in tests; name clashes and ordering depend on the number of frames.", "anchors": ["src/tfc/utils/MakePlot.py:MakePlot.animate", "src/tfc/utils/MayaviMakePlot.py:MakePlot.animate"]}
{"id": "C67", "title": "Every Plotly subplot carries its own axis labels", "statement": "The Plotly MakePlot(xlabs, ylabs, titles, zlabs) gives the subplot in each row and column of the label grid the x, y (and z) labels of that cell.", "quantifier": "for all grid sizes and labels, 2-D and 3-D", "why_tests_cant": "The numbering of subplots agrees with the code on one-row and one-column grids, so a test on such a grid passes.", "anchors": ["src/tfc/utils/PlotlyMakePlot.py:MakePlot.__init__"]}
{"id": "C68", "title": "Plotly view puts the camera where it was asked to, on the subplot it was asked to", "statement": "view(azimuth, elevation, row, col, viewDistance) places the eye of the subplot in that row and column at the given distance from the centre (the last given distance, or 2.5), at the given elevation above the horizontal plane and in the horizontal direction given by the azimuth, and moves no other camera.", "quantifier": "for all angles, distances, grid sizes and subplots, and all histories of calls", "why_tests_cant": "Real-valued angles and all grid sizes cannot be enumerated.", "anchors": ["src/tfc/utils/PlotlyMakePlot.py:MakePlot.view"]}
{"id": "C69", "title": "Tight PNG saving crops exactly the blank border", "statement": "save(..., fileType='png', tight=True) of the Plotly MakePlot writes the smallest rectangle of the rendered image that contains every pixel different from the corner pixel, with the pixels unchanged.", "quantifier": "for all images of every size", "why_tests_cant": "Images are unbounded; whether the code works depends on which colour channels differ somewhere in the image.", "anchors": ["src/tfc/utils/PlotlyMakePlot.py:MakePlot.save"]}
{"id": "C70", "title": "NormalizeColorScale gives all listed plots one colour scale covering their data", "statement": "NormalizeColorScale(types, data) sets cmax and cmin of every plot of a listed type to the largest and smallest value of the named data over all of those plots, and leaves other plots alone; with cmax and/or cmin given, those are assigned to all plots of a listed type whatever data is.", "quantifier": "for all lists of traces and data", "why_tests_cant": "The result depends on the order of traces and on which traces have the data; the combinations are unbounded.", "anchors": ["src/tfc/utils/PlotlyMakePlot.py:MakePlot.NormalizeColorScale"]}
{"id": "C71", "title": "ColormapGradient is a 256-step linear gradient", "statement": "ColormapGradient(c1, c2) returns 256 RGBA rows of bytes; the first is c1 and the last is c2 scaled to 0..255, every entry is the linear interpolation rounded down, and each channel moves monotonically from its value in c1 to its value in c2.", "quantifier": "for all pairs of colours with channels between 0 and 1", "why_tests_cant": "Colours are real vectors.", "anchors": ["src/tfc/utils/MayaviMakePlot.py:MakePlot.ColormapGradient"]}
{"id": "C72", "title": "HTML.WriteFile leaves the page in the named file", "statement": "After HTML(outFile).WriteFile(), outFile contains the generated page, missing directories have been created, and every other file is as before.", "quantifier": "for all file names and file-system states", "why_tests_cant": "File names and directory states are unbounded.", "anchors": ["src/tfc/utils/Html.py:HTML.WriteFile"]}
{"id": "C73", "title": "Enough collocation points make the basis matrix full rank", "statement": "At the collocation points x of a utfc object the columns of H(x) and of its derivatives are linearly independent. For CP and LeP the matrix of d-th derivatives, with the functions of degree below d removed, has independent columns whenever there are at least as many points as remaining functions; for all functions (full=True) and values this is also necessary. For Fourier bases values need 2*ceil(deg/2)+2 points: the end points are the same angle, so as many points as functions never suffice.", "quantifier": "for all numbers of points, degrees, domains, removed functions and both implementations", "why_tests_cant": "Linear independence for every degree and every number of points is a statement about infinitely many matrices of real numbers.", "anchors": ["src/tfc/utfc.py:utfc.__init__", "src/tfc/utfc.py:utfc.H", "src/tfc/utils/BF_Py.py:BasisFunc.H"]}
{"id": "C74", "title": "Least squares on the basis recovers polynomial solutions exactly", "statement": "With nC = d and at least deg+1-d collocation points, LS applied to the residual (d-th derivative of H(x) xi) - q(x), for q a polynomial of degree at most deg-d, returns coefficients whose function has d-th derivative q everywhere, so that with the correction of the initial values it solves y^(d)=q, y^(k)(x0)=v_k exactly. NLLS started above its tolerance gives the same function after one or two iterations.", "quantifier": "for all degrees, domains, polynomials q, initial values, CP and LeP in both implementations, and all solution methods", "why_tests_cant": "The equality holds at every real point and for every polynomial, not only at sampled points.", "anchors": ["src/tfc/utils/TFCUtils.py:LS", "src/tfc/utils/TFCUtils.py:NLLS", "src/tfc/utfc.py:utfc.H"]}
{"id": "C75", "title": "The memory layout of array arguments does not matter", "statement": "The C++ basis classes depend only on the values of the arrays they are given: constructors called with nC, x0, xf and H called with x and d give the same result for every array with those elements, whatever its element type, strides and order in memory.", "quantifier": "for all memories, offsets, strides (also negative), shapes and element types", "why_tests_cant": "There are infinitely many layouts of the same values.", "anchors": ["src/tfc/utils/BF_Py.cc:8-83", "src/tfc/utils/BF_Py.cc:104-131", "src/tfc/utils/BF_Py.cc:218-248"]}
{"id": "C76", "title": "The compiled classes use and release memory correctly", "statement": "In every sequence of constructing basis objects, calling H, reading w, b, c and the capsule, running compiled calls and dropping references, no memory is used after its release, released twice or released by the wrong function; results stay valid after the object is gone, calls leave nothing behind, and when every reference has been dropped no memory is left.", "quantifier": "for all sequences of operations on any number of objects of the nineteen classes", "why_tests_cant": "Histories are unbounded and the faults are silent when they happen.", "anchors": ["src/tfc/utils/BF.cc:25-166", "src/tfc/utils/BF.cc:594-644", "src/tfc/utils/BF.cc:1013-1146", "src/tfc/utils/BF.cc:1266-1408", "src/tfc/utils/BF_Py.cc:88-330", "src/tfc/utils/BF.h"]}
{"id": "C77", "title": "Both backends return the same double-precision bits", "statement": "For the same constructor arguments and points, H of the Python and of the compiled one-dimensional basis (CP, LeP, LaP, HoPpro, HoPphy, FS) return bit-for-bit identical double-precision matrices, also where entries overflow or are NaN, and removing columns does not change the bits of the remaining ones.", "quantifier": "for all families, double-precision domains and points (including infinities and NaN), valid nC, basis sizes, derivative orders below 2^51, and any implementation of sin and cos shared by both", "why_tests_cant": "Agreement of bits must hold at every double and every order; tests compare with a tolerance at a few points.", "anchors": ["src/tfc/utils/BF_Py.py:8-590", "src/tfc/utils/BF.cc:25-591", "setup.py:29"]}
{"id": "C78", "title": "Rounding keeps mapped points in range and in order", "statement": "In double precision, CP and LeP at x0 are exactly 1 and -1 alternating; the mapped coordinate of every point of [x0, xf] lies in [-1, 1]; points keep their order; and xf is mapped to 1 or to 1 - 2^-52 (the latter does occur, so xf is not always mapped to 1).", "quantifier": "for all double-precision domains whose width is between 2^-1021 and 2^1022, and all points in them", "why_tests_cant": "There are 2^64 doubles per argument; the exceptional domains are rare.", "anchors": ["src/tfc/utils/BF_Py.py:8-216", "src/tfc/utils/BF.cc:45-130"]}
{"id": "C79", "title": "Collocation points in double precision", "statement": "In double precision, a utfc object with basis CP or LeP has N finite collocation points, the first exactly x0, all between x0 and the last, and the last within 2^-51 (xf - x0) + 2^-53 |xf| of xf; all points lie in [x0, xf].", "quantifier": "for all double-precision domains away from overflow and underflow, all N from 2 to 2^51, both backends, and any cosine accurate to 3/4 of a unit in the last place", "why_tests_cant": "The exceptional domains ([0, 49] is one) are found by no test that uses other numbers, and the bound must hold for all of them.", "anchors": ["src/tfc/utfc.py:142-187", "src/tfc/utils/BF_Py.py:8-60"]}
{"id": "C80", "title": "block_until_ready waits for the dictionary's values", "statement": "block_until_ready of a TFCDict or TFCDictRobust returns the dictionary itself; when it returns all values of the dictionary are ready; it raises only for an empty dictionary and when the first value is not a jax array.", "quantifier": "for all dictionaries, all assignments of their values to asynchronous computations and all orders in which these end", "why_tests_cant": "Whether a computation is still running when the call returns depends on timing.", "anchors": ["src/tfc/utils/TFCUtils.py:419-430", "src/tfc/utils/TFCUtils.py:626-637"]}
{"id": "C81", "title": "The reported time is that of one complete solve", "statement": "With timer=True, LS, LsClass.run, NLLS and NllsClass.run read the clock twice; between the readings lies the whole of the computation whose result is returned, no part of the warm-up run, and no compilation.", "quantifier": "for all histories of runs of an object, all orders in which asynchronous computations end, and all argument shapes", "why_tests_cant": "The order of asynchronous events cannot be forced in a test; a wrong interval only changes a number that varies anyway.", "anchors": ["src/tfc/utils/TFCUtils.py:869-885", "src/tfc/utils/TFCUtils.py:1022-1041", "src/tfc/utils/TFCUtils.py:1267-1287", "src/tfc/utils/TFCUtils.py:1485-1517"]}
{"id": "C82", "title": "Assigned attributes of a basis object take effect consistently", "statement": "After assigning m, numC, x0, c and z0 of a compiled one-dimensional basis object, H, the weights and earlier compiled calls behave as those of an object newly made with these values; an assignment that does not describe memory the object has is refused; identifier assignments do not redirect calls; the Python classes react the same way.", "quantifier": "for all families, all sequences of assignments, all points, orders and both values of full, and all column counts recorded by earlier compilations", "why_tests_cant": "The space of assignment sequences is unbounded, and a read outside an array usually returns some number instead of failing.", "anchors": ["src/tfc/utils/BF_Py.cc:89-130", "src/tfc/utils/BF_Py.cc:154-186", "src/tfc/utils/BF.cc:25-144", "src/tfc/utils/BF.cc:592-645", "src/tfc/utils/BF_Py.py:46-118", "src/tfc/utfc.py:285-347"]}
{"id": "C83", "title": "Assigned attributes of an n-dimensional basis object take effect consistently", "statement": "After assigning m, numC, dim, z0, zf, x0, c, numBasisFunc or numBasisFuncFull of a compiled n-dimensional object, or writing into its array c, the matrix and earlier compiled calls are those of an object newly made with these values; assignments that do not fit the object are refused; what was assigned is read back; the Python classes react the same way.", "quantifier": "for all families nCP, nLeP, nFS, all dimensions, all attribute values, tables, points, derivative orders, both values of full, and all column counts recorded by earlier compilations", "why_tests_cant": "Wrong sizes write or read next to the allocated arrays, which a test usually survives, and surplus columns contain plausible numbers.", "anchors": ["src/tfc/utils/BF_Py.cc:89-96", "src/tfc/utils/BF_Py.cc:210-262", "src/tfc/utils/BF.h:413-470", "src/tfc/utils/BF.cc:1012-1263", "src/tfc/utils/BF_Py.py:902-1003", "src/tfc/mtfc.py:550-605"]}
{"id": "C84", "title": "Both backends return the same double-precision bits in several dimensions", "statement": "For the same constructor arguments and points, H of the Python and of the compiled n-dimensional bases (nCP, nLeP, nFS) return bit-for-bit identical double-precision matrices with the advertised number of columns; every entry is the left-to-right rounded product of entries of the one-dimensional matrices, a point gives the same bits alone and in an array, and at the corner x0 all products of Chebyshev or Legendre functions are exactly 1 or -1.", "quantifier": "for all dimensions, double-precision domains and points (including infinities and NaN), tables nC, basis sizes, derivative orders below 2^51, both values of full, and any implementation of sin and cos shared by both", "why_tests_cant": "Agreement of bits, including signs of zeros, must hold at every double, order and dimension; tests compare with a tolerance at a few points.", "anchors": ["src/tfc/utils/BF_Py.py:902-1260", "src/tfc/utils/BF.cc:1012-1263", "setup.py:29"]}
{"id": "C85", "title": "Rounding errors of the Chebyshev and Legendre matrices grow at most quadratically with the degree", "statement": "For points of the domain, every entry of the order-0 Chebyshev and Legendre matrices computed in double precision is finite, differs from the exact value of the function at the exact point by at most 18 k^2 2^-53 (k the degree; in several dimensions by at most 2 (dim + 18 s^2) 2^-53, s the total degree), hence stays below 1 + 18 k^2 2^-53; a domain and point exist where the error is 2 k^2 2^-53.", "quantifier": "for all double-precision domains whose width and its inverse neither overflow nor underflow, all points inside, all degrees below 2^22, all dimensions up to 2^50, tables nC, both backends", "why_tests_cant": "Rounding errors depend on every bit of the inputs; a test sees a few points and chooses its tolerance by trial.", "anchors": ["src/tfc/utils/BF_Py.py:12-330", "src/tfc/utils/BF_Py.py:902-1150", "src/tfc/utils/BF.cc:12-260", "src/tfc/utils/BF.cc:1012-1263"]}
{"id": "C86", "title": "Console messages are shown in their colour, and an error ends the program", "statement": "A warning (error) without escape characters is shown entirely in bright yellow (red), on a terminal in any style, and leaves the terminal in its default style; a warning returns, an error raises an exit that a handler of Exception does not stop and no later statement runs. Not so: the process does not report failure after an error (status 0), the caller's own style is not restored, and a message containing a reset sequence loses its colour.", "quantifier": "for all messages, all terminal styles, all continuations and handlers", "why_tests_cant": "Tests see a captured string, not what a terminal makes of it, and exercise few messages and no prior style.", "anchors": ["src/tfc/utils/TFCUtils.py:35-71"]}
{"id": "C87", "title": "The print type set last is the one in use, and reading the attribute gives the last text assigned", "statement": "After any sequence of assignments to any objects: the printer in use belongs to the last accepted assignment to any object, reading the attribute of an object gives the text last assigned to it and is an error before that, and exactly the four documented texts are accepted. Not so: a rejected text is kept as the attribute's value, and an object's expressions are not printed in that object's own type once another object was assigned one.", "quantifier": "for all sequences of assignments, accepted or not, to any number of objects", "why_tests_cant": "Interference between objects needs several objects and an order of assignments; tests use one.", "anchors": ["src/tfc/utils/CeSolver.py:76-99"]}
{"id": "C88", "title": "A checkpoint call runs one dump of this process into the named directory", "statement": "If neither the name nor the working directory contains a character special to the shell, a call makes the directory if missing, runs exactly the dump of this process into its absolute path, and prints a command that restores from the same path; if the parent is missing it raises before running anything. Not so in general: a blank in the name splits it into two arguments, a semicolon starts a second command named by the user's text, and user mode passes a misspelled option instead of --unprivileged.", "quantifier": "for all names, working directories, process numbers, file systems and both modes", "why_tests_cant": "The call needs criu, root rights and a file system; the set of names is infinite and the failing ones are unusual.", "anchors": ["src/tfc/utils/TFCUtils.py:1749-1788"]}
{"id": "C89", "title": "Enough points on every axis make the multivariate matrix full rank", "statement": "At the collocation points of an mtfc object with a CP, LeP or FS basis the columns of H are linearly independent, whatever constraints removed columns, when every axis has enough points for its own functions: deg+1 for CP and LeP, 2*ceil(deg/2)+2 for FS. For the full matrix this is also necessary: more points on other axes do not help.", "quantifier": "for all dimensions, numbers of points per axis, degrees, domains, constraints and both implementations", "why_tests_cant": "Linear independence of products of functions for every degree and dimension is a statement about infinitely many matrices of real numbers.", "anchors": ["src/tfc/mtfc.py:mtfc.__init__", "src/tfc/mtfc.py:mtfc.H", "src/tfc/utils/BF_Py.py:nBasisFunc.H"]}
{"id": "C90", "title": "Least squares on the grid recovers functions of several variables exactly", "statement": "With enough points on every axis, LS applied to the residual H(x) xi - g(x) of an mtfc object returns exactly the coefficients of g whenever the kept functions represent g, so H times the result gives g and all its partial derivatives at every point of space. With full=True and a CP or LeP basis this covers every polynomial of total degree at most deg.", "quantifier": "for all dimensions, degrees, domains, represented functions, polynomials, both implementations and all solution methods", "why_tests_cant": "The equality holds at every real point and for every polynomial, not only at sampled points.", "anchors": ["src/tfc/utils/TFCUtils.py:LS", "src/tfc/mtfc.py:mtfc.H", "src/tfc/mtfc.py:mtfc.__init__"]}
{"id": "C91", "title": "Saturated neurons in double precision", "statement": "In binary64 arithmetic the compiled H of every ELM basis contains only finite numbers, for each derivative order up to 8, when weights and biases are at most 2^40, the domain is neither tiny nor huge and the points lie in it, also where the exponential inside the sigmoid overflows. At order 0 the Python implementation returns the same bits if it calls the same elementary functions. Its first derivative of the sigmoid, obtained by forward differentiation, is NaN for every neuron whose exponential overflows; at the left end of the domain this is every bias of -710 or less.", "quantifier": "for all activations, weights, biases, domains, points, removed columns and derivative orders in the stated ranges, and for all elementary functions with the stated ranges", "why_tests_cant": "Overflow occurs only for unusual weights, and the set of doubles in the stated ranges is far too large to enumerate.", "anchors": ["src/tfc/utils/BF.cc:ELMSigmoid::Hint", "src/tfc/utils/BF.cc:ELMTanh::Hint", "src/tfc/utils/BF.cc:ELMSwish::Hint", "src/tfc/utils/BF_Py.py:ELMSigmoid._Hint"]}
{"id": "C92", "title": "Scripts built on a constrained expression solve linear differential equations exactly", "statement": "Build y(t) = H(t) xi + sum_k phi_k(t) (value_k - (its k-th condition applied to H) xi) from the basis of a utfc object with as many removed functions as there are conditions, switching functions phi_k of lower degree, and derivatives taken with egrad. Then y meets every condition (any mix of values and derivatives at any points) for every coefficient vector, and every polynomial of the basis' degree that meets them is such a y. LS on the residual of a linear differential equation with polynomial coefficients returns the y with the smallest sum of squared residuals at tfc.x among all polynomials of that degree that meet the conditions; NLLS returns such a y after one or two iterations. If the equation has a polynomial solution of that degree, y satisfies the equation at every t, not only at tfc.x, when there are enough points; for an initial value problem whose leading coefficient does not vanish at the initial point, y is that solution.", "quantifier": "for the polynomial bases CP and LeP, and all backends, numbers of points, degrees, domains, condition lists with switching functions, coefficient and right-hand-side polynomials, solver methods, Jacobians supplied or derived, and starting vectors", "why_tests_cant": "The tests solve one fixed equation with one degree and compare numbers at the collocation points; no finite set of equations shows the behaviour between the points or for every mix of conditions.", "anchors": ["tests/test_ODE.py:26-52", "src/tfc/utfc.py:H", "src/tfc/utils/TFCUtils.py:egrad", "src/tfc/utils/TFCUtils.py:LS", "src/tfc/utils/TFCUtils.py:NLLS"]}
{"id": "C93", "title": "Dictionary arithmetic with broadcasting and with operands that do not fit", "statement": "d += o for dictionaries combines the entries in the order of d, each being the NumPy broadcast of the two arrays, up to the first key that o lacks or whose shapes do not fit; there it raises and the entries before it stay changed, so a failing in-place sum is not undone. d + o either returns all the broadcast results or raises, and changes neither operand. The broadcast result is unique. When broadcasting stretches an entry, the slices keep the old lengths, and packing the sum and unpacking it again loses entries.", "quantifier": "for all dictionaries, keys, array shapes, values, and entrywise operations", "why_tests_cant": "The tests add dictionaries of equally shaped vectors only; which entries a failing sum has changed depends on the position of the bad entry.", "anchors": ["src/tfc/utils/TFCUtils.py:TFCDict.__iadd__", "src/tfc/utils/TFCUtils.py:TFCDict.__add__", "src/tfc/utils/TFCUtils.py:TFCDictRobust.__iadd__"]}
{"id": "C94", "title": "What update and construction leave in a dictionary, and when they raise", "statement": "After update every key has the value given last for it, or else the one it had; old keys come first in their old order, then the new ones in order of first appearance; construction is the same from nothing. On a TFCDict the call raises exactly when all values are arrays and one of them has no dimension; the new items are then kept all the same, and the slices of that key and all later ones are empty, so unpacking gives them empty arrays. TFCDictRobust never raises here. block_until_ready returns the dictionary exactly if its first entry is a jax array, and raises on an empty dictionary or when the first entry is a NumPy array.", "quantifier": "for all dictionaries, lists of new items (with repeated keys), and values", "why_tests_cant": "The order of keys and the state left by a raising call depend on the whole history of updates; the tests update once with two keys.", "anchors": ["src/tfc/utils/TFCUtils.py:TFCDict.update", "src/tfc/utils/TFCUtils.py:TFCDict.getSlices", "src/tfc/utils/TFCUtils.py:TFCDict.__init__", "src/tfc/utils/TFCUtils.py:TFCDict.block_until_ready"]}
{"id": "C95", "title": "Scripts for linear partial differential equations meet their conditions and fit the equation best", "statement": "Build z from the basis of an mtfc object by handling one variable after the other: to the previous expression add, for each condition in that variable, its switching polynomial times (the wanted value minus the condition applied to the previous expression). If nC counts the conditions in each variable and conditions in different variables agree where they meet, then z meets every condition (values and derivatives on whole hyperplanes) at every point and for every coefficient vector, and every polynomial of total degree deg that meets them is such a z. LS on the residual of a linear partial differential equation at tfc.x returns the z with the smallest sum of squared residuals among all coefficient vectors and among all those polynomials; NLLS does so within two iterations. If some such polynomial satisfies the equation at tfc.x, then z does, and with polynomial data and enough points per axis z satisfies it at every point of space.", "quantifier": "for all numbers of variables, degrees, domains, condition lists with switching polynomials, separable boundary values, coefficients, right-hand sides, solver methods, backends and start vectors", "why_tests_cant": "The test solves one equation in two variables with one grid; no finite set of equations covers all mixed conditions or the points off the grid.", "anchors": ["tests/test_PDE.py:14-51", "src/tfc/mtfc.py:mtfc.H", "src/tfc/mtfc.py:mtfc.__init__", "src/tfc/utils/TFCUtils.py:egrad", "src/tfc/utils/TFCUtils.py:LS", "src/tfc/utils/TFCUtils.py:NLLS"]}
{"id": "C96", "title": "Which coefficients of a constrained expression in several variables matter", "statement": "For the polynomial bases, two coefficient vectors give the same constrained expression (as in C95) exactly if they agree at the products of univariate functions whose index is, in every variable, at least the number of conditions in that variable. In one variable these are all the coefficients of H; nC removes exactly the redundant functions. With two or more variables mtfc keeps every product that is beyond the conditions in at least one variable, so as soon as there is a condition some coefficient has no influence and the least-squares matrix is rank deficient; with more conditions than the degree no coefficient has any influence. With n conditions in all the number of coefficients that matter is the number of products of total degree at most deg - n, the binomial coefficient of deg - n + dim over dim, and 0 if n exceeds deg.", "quantifier": "for all numbers of variables, degrees, domains, condition lists, switching polynomials, boundary values, backends and coefficient vectors", "why_tests_cant": "Whether a coefficient has influence is a statement about all points of space; a test that looks at the residual at the grid cannot tell redundancy from bad conditioning.", "anchors": ["src/tfc/mtfc.py:mtfc.__init__", "src/tfc/mtfc.py:mtfc.H", "src/tfc/utils/BF_Py.py:nCP", "src/tfc/utils/BF.h:nCP", "tests/test_PDE.py:24-38"]}
{"id": "C97", "title": "Least squares with complex unknowns", "statement": "LS on a residual that is affine in complex unknowns returns the vector with the smallest sum of squared moduli of the residual, the shortest one if there are several, and an exact solution if there is one; this holds with a Jacobian of the caller's, from real unknowns with holomorphic=False (then the unknowns become complex if the residual is), and from complex unknowns with holomorphic=True and a complex residual; every other combination raises. NLLS finds the solution nearest to the start within two iterations, but only when the unknowns already have the dtype of the step; from real zeros with a complex residual, which LS solves, NLLS raises. ScaledQrLs, which neither conjugates q nor takes moduli for the scales, is right for all right-hand sides of a complex system with independent columns exactly if q is real; it fails even on consistent systems.", "quantifier": "for all complex matrices, right-hand sides, starts, numbers of equations and unknowns, methods, dtypes and settings of the flag", "why_tests_cant": "The one complex test runs one random system through LS; whether a transpose should have been a conjugate transpose only shows on particular matrices.", "anchors": ["src/tfc/utils/TFCUtils.py:LS", "src/tfc/utils/TFCUtils.py:NLLS", "src/tfc/utils/TFCUtils.py:ScaledQrLs", "tests/test_complex_ODE.py:45-50"]}
{"id": "C98", "title": "Differentiating functions of arrays of any dtype", "statement": "egrad returns only if every argument, not just the one differentiated, is an array of float64; with a complex, single-precision, half-precision or integer array among them it raises. egradRobust returns exactly if the arguments are arrays or dictionaries of arrays of floating or complex dtype. For a function that acts entry by entry on the differentiated argument, through functions with complex derivatives, egradRobust returns those derivatives. So the complex differential equation of the test suite, which uses egrad, cannot be differentiated.", "quantifier": "for all functions, argument lists, positions, shapes, entries and dtypes", "why_tests_cant": "Tests call egrad with float64 arrays; the error depends on the dtype of arguments that are not differentiated.", "anchors": ["src/tfc/utils/TFCUtils.py:egrad", "src/tfc/utils/TFCUtils.py:egradRobust", "src/tfc/utils/TFCUtils.py:onesRobust", "src/tfc/utils/TFCUtils.py:zerosRobust", "tests/test_complex_ODE.py:41-43"]}
{"id": "C99", "title": "NLLS on residuals that are not affine", "statement": "If the residual has a zero, is differentiable near it with a quadratic remainder, and the Jacobian there has independent columns (or a kernel that does not depend on the point, and the start is at a right angle to it; or a kernel of directions along which neither the residual nor the Jacobian changes, and then the zero is the one that differs from the given one by such a direction), then there is a radius such that NLLS started within it converges quadratically: after k iterations an error d has become (c d)^(2^k)/c, it stops after about log2 log2 (1/tol) iterations unless maxIter comes first, and its answer is within a multiple of tol of the zero. Sums of affine functions and products of two, such as the residual of the nonlinear equation of the test suite, satisfy the differentiability hypothesis everywhere. Started where the gradient of the sum of squares vanishes, NLLS returns its start after at most one iteration, however large the residual; from any other point the first iteration moves it. From far away it need not converge: on x^3 - 2x + 2 from 0 it alternates between 0 and 1 until maxIter, for every maxIter.", "quantifier": "for all residuals, Jacobians (given or automatic), numbers of equations and unknowns, starts, tolerances, iteration limits, methods and constant arguments, in exact arithmetic", "why_tests_cant": "Tests run NLLS from zero on two equations and look at the final residual; the rate, the radius and what happens outside it are not observable from finitely many runs.", "anchors": ["src/tfc/utils/TFCUtils.py:NLLS", "src/tfc/utils/TFCUtils.py:NllsClass", "tests/test_ODE.py:50-53", "tests/test_PDE.py:42-45"]}
{"id": "C100", "title": "Scripts that solve nonlinear differential equations", "statement": "Take a script that solves a linear differential expression plus g(t) y^(a) y^(b) = q(t) with conditions on y, as the test suite does for y'' + f y y' = f2: a constrained expression, the residual at tfc.x, NLLS. If a polynomial of the basis' degree meets the conditions, satisfies the equation at the points and the equation linearised at it has only the zero solution there, then NLLS started near the coefficients of that polynomial returns, after k iterations, a curve that meets the conditions exactly and is within K/2^(2^k) of the polynomial on the whole interval; if maxIter allows, it stops by itself within a multiple of tol. For initial value problems in which the highest derivative appears linearly, with a coefficient not zero at the initial point, the hypothesis on the linearised equation holds whenever there are enough points.", "quantifier": "for all polynomial families, degrees, numbers of points, intervals, conditions, coefficients, factors, right-hand sides, starts, tolerances, iteration limits and methods, in exact arithmetic", "why_tests_cant": "The test runs one equation from zero and compares with its solution to a tolerance; that the iteration converges to the right solution for a whole class of equations, and how fast, is not observable from a run.", "anchors": ["tests/test_ODE.py:28-100", "src/tfc/utfc.py:utfc.H", "src/tfc/utils/TFCUtils.py:NLLS", "src/tfc/utils/TFCUtils.py:egrad"]}
{"id": "C101", "title": "Scripts that solve nonlinear partial differential equations", "statement": "Take a script that solves a linear partial differential expression plus a product of two such expressions = q with conditions in each variable, as the test suite does for z_xx + z_yy + z z_y = f: a constrained expression in several variables, the residual at the points of tfc.x, NLLS. If the expression for some coefficients satisfies the equation at the points and no other function that the expression can give differs from it by a solution of the equation linearised there, then NLLS started near those coefficients returns, after k iterations, a function that meets all conditions at all points and is within K/2^(2^k) of the solution on the whole box, and so are its partial derivatives of any orders; if maxIter allows, it stops by itself within a multiple of tol. This holds although the Jacobian has dependent columns, since many coefficients do not matter. Polynomials of the basis' degree that meet the conditions are such solutions for all polynomial families.", "quantifier": "for all families, degrees, numbers of variables and points, boxes, consistent conditions, coefficient functions, right-hand sides, starts, tolerances, iteration limits and methods, in exact arithmetic", "why_tests_cant": "The test runs one equation from zero and compares at the collocation points only; convergence for a class of equations in spite of a singular Jacobian, and closeness between the points, cannot be observed from runs.", "anchors": ["tests/test_PDE.py:14-51", "src/tfc/mtfc.py:mtfc.H", "src/tfc/utils/TFCUtils.py:NLLS", "src/tfc/utils/TFCUtils.py:egrad"]}
{"id": "C102", "title": "Scripts for linear differential equations on any basis", "statement": "Take a script that solves a linear differential equation with any coefficient functions and right-hand side on any one-dimensional basis but ReLU (polynomial, Fourier, ELM) and any smooth switching functions: the expression np.dot(H(t),xi) plus switching terms, the residual at tfc.x, LS or NLLS. Whatever xi, the expression is a smooth function that meets all conditions and its derivatives are those the script computes; every combination of the kept basis functions and the switching functions that meets the conditions is the expression for some xi; LS, and NLLS in at most two iterations, give the one with the smallest sum of squared residuals at the points, and if one solves the equation at the points so does the answer.", "quantifier": "for all bases, weights, lists of removed functions, degrees, numbers of points, domains, conditions of any order the backend supports, coefficient functions, right-hand sides, options and methods, in exact arithmetic", "why_tests_cant": "The tests solve two equations with Legendre polynomials and compare at the points; no test solves an equation with an ELM or a Fourier basis, and optimality among all functions cannot be observed from runs.", "anchors": ["tests/test_ODE.py:26-52", "src/tfc/utfc.py:utfc.H", "src/tfc/utils/BF_Py.py", "src/tfc/utils/TFCUtils.py:LS", "src/tfc/utils/TFCUtils.py:NLLS"]}
{"id": "C103", "title": "NLLS does not report results that are not numbers as converged", "statement": "When NLLS returns a count below maxIter, the residual or the last step is made of numbers within tol; a residual or a step with an entry that is not a number is not taken for convergence.", "quantifier": "for all residuals, Jacobians, starts, tolerances, iteration limits and options, in double precision", "why_tests_cant": "The tests only run residuals that stay finite; what happens for a residual or a step that is not a number depends on how comparisons treat NaN.", "anchors": ["src/tfc/utils/TFCUtils.py:NLLS", "src/tfc/utils/TFCUtils.py:NllsClass"]}
{"id": "C104", "title": "LS and NLLS find a least-squares solution whatever the singular values of the Jacobian", "statement": "For a residual affine in the unknowns, LS returns unknowns whose residual norm is least, and NLLS started where the residual is above the tolerance reaches such unknowns, for either method and whatever the Jacobian, including badly scaled ones; a problem that has an exact solution is solved exactly up to rounding.", "quantifier": "every affine residual, every Jacobian and singular value decomposition of it, every cutoff factor of the two methods, every start, constant arguments, method, timer, own or automatic Jacobian", "why_tests_cant": "Whether small singular values matter depends on the scaling of the problem; a few test problems have none between zero and the cutoff", "anchors": ["src/tfc/utils/TFCUtils.py:766-886", "src/tfc/utils/TFCUtils.py:1093-1330"]}
{"id": "C105", "title": "H answers a derivative order exactly if it is one", "statement": "For every basis class, H(x, d) returns the derivatives of order d of the basis functions if d is a natural number, however large, and raises an error, without returning a matrix, if d is negative; the compiled and the Python classes agree on which.", "quantifier": "every basis class of both implementations, every integer d, every depth of nested calls the interpreter or the stack has room for, every number of functions, domain, list of points and of removed columns", "why_tests_cant": "The tests use the orders 0 to 4 or so; a negative order, and one beyond the recursion limit, is never tried, and how each class reacts depends on whether it recurses, switches or takes remainders.", "anchors": ["src/tfc/utils/BF_Py.py:60-868", "src/tfc/utils/BF.cc:57-1009"]}
{"id": "C106", "title": "The compiled basis classes compute sizes and indexes within the machine's integers", "statement": "For every compiled basis class and every number of points, functions, dimensions and removed columns that is an int, making the object and calling H (directly or through XLA) computes only ints in range, allocates no block of negative size and accesses no cell outside a block, and the result has the announced shape.", "quantifier": "every compiled class, every number of points and of basis functions, every dimension, list of removed columns, derivative orders, both values of full", "why_tests_cant": "An overflow needs matrices with more than two thousand million entries, or counts of products that large, which no test can afford; which sizes are safe depends on every index expression of every loop.", "anchors": ["src/tfc/utils/BF.cc:25-591", "src/tfc/utils/BF.cc:644-1010", "src/tfc/utils/BF.cc:1013-1408", "src/tfc/utils/BF.cc:1411-1948"]}
{"id": "C107", "title": "After any assignments an n-dimensional ELM object is the one its attributes describe", "statement": "After any sequence of assignments to the attributes of a compiled n-dimensional ELM object (m, numC, dim, z0, numBasisFunc, numBasisFuncFull, the entries of c, and the arrays w and b), H, whether called directly or from a call compiled earlier, returns the matrix of a new object made with the values the attributes now show; reading w and b returns the values last assigned; the Python class behaves the same.", "quantifier": "every activation function, dimension, number of neurons, domain, removed columns, weights and biases, every object and sequence of assignments, every supported derivative order, points and both values of full", "why_tests_cant": "The tests build an object, assign weights of the right shape once and call H; the arrays keep the layout of the constructor while the sizes are separate attributes, so whether two assignments agree depends on all of them.", "anchors": ["src/tfc/utils/BF.cc:1074-1104", "src/tfc/utils/BF.cc:1266-1408", "src/tfc/utils/BF_Py.cc:210-316", "src/tfc/utils/BF_Py.py:1219-1334"]}
{"id": "C108", "title": "Systems of linear differential equations, and equations in pieces that share unknown values, are solved as well as the bases allow", "statement": "A script gives every unknown function its own utfc object, its own coefficients in a TFCDict and a constrained expression whose conditions have given values or values that are further unknowns of the dictionary, shared between functions; the residuals of the linear equations, each at its own points, are put one after the other. Whatever the unknowns, every function meets its given conditions exactly and functions that share an unknown agree exactly there. LS, and NLLS after one or two iterations from any start whose residual is not within tol, return a dictionary with the same keys and shapes whose functions fit the equations best among all combinations of the kept basis functions and the switching functions that meet the conditions; if such a family solves the equations at the points, the returned one does. LS leaves its argument alone.", "quantifier": "all numbers of functions and equations, orders of derivatives, coefficients, right-hand sides, conditions and ways to share them, bases, backends, points and start dictionaries", "why_tests_cant": "The tests solve one equation for one function with an array of unknowns; systems and pieces appear only in example scripts that are not run by the tests.", "anchors": ["src/tfc/utils/TFCUtils.py:326-560", "src/tfc/utils/TFCUtils.py:827-886", "src/tfc/utils/TFCUtils.py:1195-1255", "src/tfc/utfc.py:60-330", "examples/Hunter_Johnston_Dissertation/Chapter_4/Example_4_5/tfc_linearNonlinear.py:51-127"]}
{"id": "C109", "title": "NLLS on a dictionary of unknowns does what NLLS does on the array of all its entries", "statement": "Take a TFCDict of one-dimensional arrays, or a TFCDictRobust of arrays of any shapes but (), a residual of it, and the residual that is the same function of the array of all entries. NLLS started from the dictionary and NLLS started from the array end in the same way: both return after the same number of iterations, having printed the same lines, and the returned dictionary has the keys and shapes of the start and the entries of the returned array; or both raise; or both go on. constant_arg_nums is changed in the same way. The same holds for runs of NllsClass objects made without constant arguments. So for a residual that is affine in the entries NLLS returns, after at most two iterations, a dictionary with the least residual of all with these keys and shapes; and near a dictionary at which the residual is zero NLLS converges quadratically, if the derivative has a second-order bound and is zero only in directions that change nothing. An empty dictionary raises, and so does a TFCDictRobust with an entry of shape () once an iteration with the default Jacobian is made.", "quantifier": "all keys, shapes and entries, residuals and their derivatives, Jacobians of the caller's, arguments, ascending constant positions, tolerances, iteration limits, methods, timer and printing", "why_tests_cant": "The tests run NLLS on a dictionary for single examples; that the loop carries packing, key order and Jacobian columns through any number of iterations is a statement about all residuals.", "anchors": ["src/tfc/utils/TFCUtils.py:1086-1285", "src/tfc/utils/TFCUtils.py:1288-1523", "src/tfc/utils/TFCUtils.py:386-531", "src/tfc/utils/TFCUtils.py:590-738"]}
{"id": "C110", "title": "Scripts for systems of differential equations with products converge quadratically near an isolated solution", "statement": "A script for several unknown functions as in C108, each with its own utfc object, coefficients and constrained expression, possibly sharing unknown values, whose equations consist of a linear part plus a product of two linear expressions in the functions and their derivatives. Suppose that functions the script can represent solve the equations at their points and that the equations linearised at them have no other solution there among the functions the script can represent. Then there is a radius such that NLLS, started from any TFCDict whose entries are within that radius of those of the solution, returns after k iterations a dictionary with the same keys and shapes whose functions meet all given conditions exactly, agree exactly where they share an unknown, and whose derivatives of any order are within B / 2^(2^k) of those of the solution on any interval. If enough iterations are allowed it stops by itself, after a number that grows like the double logarithm of 1/tol, within a multiple of tol of the solution. The residual is zero exactly where the functions solve the equations.", "quantifier": "all numbers of functions and equations, orders, coefficients, conditions and ways to share them, bases including ELM bases with dependent functions, backends, points, starts within the radius, tolerances, methods", "why_tests_cant": "The nonlinear example scripts solve one equation from one start; convergence from all starts near any isolated solution is a statement about infinitely many runs.", "anchors": ["src/tfc/utils/TFCUtils.py:326-560", "src/tfc/utils/TFCUtils.py:1086-1285", "src/tfc/utfc.py:60-330", "examples/Hunter_Johnston_Dissertation/Chapter_4/Example_4_5/tfc_linearNonlinear.py:51-140"]}
{"id": "C111", "title": "Rounding errors of the derivatives of Chebyshev and Legendre functions grow at most like the square of the degree over their size", "statement": "H of the Chebyshev and Legendre classes, Python or compiled, for derivatives of order d >= 1 in binary64 at points inside the domain, with sizes that keep the intermediate values far from overflow and underflow, returns finite entries. The entry of the function of degree k differs from the exact one, which is at most k^(2d) * slope^d in size where slope = 2/(xf-x0), by at most (21 + 9d) * k^(2d+2) * slope^d * 2^-53. So it differs by no more from the derivative of order d of the function in that column. The power is reached: the first derivative of the Chebyshev function of degree 300 on [0, 49] is off by more than half of 300^4 * slope * 2^-53. In n dimensions, for any orders in the single variables, the entries of the product functions differ from the exact ones by at most 2 * (22 n + 9 |d|) * max(1, |v|)^2 * 2^-53 times the product of the sizes of the factors.", "quantifier": "all numbers of functions, degrees, orders of differentiation, domains and points in binary64 within stated size limits, dimensions, excluded functions, both backends", "why_tests_cant": "The unit tests compare a few derivatives of low degree at a hundred points with a tolerance; the growth of the error over all degrees, orders and points is not visible there.", "anchors": ["src/tfc/utils/BF_Py.py:59-302", "src/tfc/utils/BF_Py.py:1006-1182", "src/tfc/utils/BF.cc:12-260", "src/tfc/utils/BF.cc:1012-1263"]}
{"id": "C112", "title": "Scripts for systems of nonlinear differential equations with unknown numbers converge quadratically near an isolated solution", "statement": "A script for several unknown functions and unknown numbers kept in one TFCDict, as in C108, whose equations are any expressions in the functions, their derivatives and the numbers: linear expressions, given functions of the points, sums, products, and functions such as sin, exp or powers applied to every element. Suppose that functions and numbers the script can represent solve the equations at their points, that the applied functions are differentiable with a bounded second derivative near the values they are applied to there, and that the equations linearised at the solution have no other solution among the functions and numbers the script can represent. Then there is a radius such that NLLS, started from any TFCDict whose entries are within that radius of those of the solution, returns after k iterations a dictionary with the same keys and shapes whose functions meet all conditions exactly, and whose derivatives of any order on any interval, and whose numbers, are within B / 2^(2^k) of those of the solution. If enough iterations are allowed it stops by itself, after a number that grows like the double logarithm of 1/tol, within a multiple of tol of the solution. The residual is zero exactly where the functions and numbers solve the equations.", "quantifier": "all numbers of functions, numbers and equations, expressions, orders, coefficients, conditions and ways to share them, bases including ELM bases with dependent functions, backends, points, starts within the radius, tolerances, methods", "why_tests_cant": "The nonlinear example scripts solve one equation from one start; convergence from all starts near any isolated solution of any such system is a statement about infinitely many programs and runs.", "anchors": ["src/tfc/utils/TFCUtils.py:326-560", "src/tfc/utils/TFCUtils.py:1086-1285", "src/tfc/utfc.py:60-330", "examples/Hunter_Johnston_Dissertation/Chapter_4/Example_4_7/UnknownTime.py:40-79"]}
{"id": "C113", "title": "Every subplot of a Plotly figure has the class's grid and background colours", "statement": "MakePlot of the Plotly backend gives both axes of every 2-D subplot, and all three axes of every 3-D scene, the grid colour of the class for the grid, and the plot area or the planes of the scene the background colour of the class.", "quantifier": "all numbers of rows and columns, labels, titles, colours", "why_tests_cant": "The tests make one figure of one size per kind; which scenes of a figure get colours depends on the number of rows and of columns.", "anchors": ["src/tfc/utils/PlotlyMakePlot.py:81-292"]}
{"id": "C114", "title": "H of the n-dimensional bases answers orders exactly if they are natural numbers", "statement": "For every n-dimensional basis class, H(x, d) returns the mixed partial derivatives of the basis functions if every entry of d is a natural number, however large, and raises an error, without returning a matrix, if some entry is negative; the compiled and the Python classes agree on which. Whatever the orders, the columns are products of what the one-dimensional class answers for the interval, the coordinate and the order of each dimension, and there is a matrix exactly if it answers in every dimension.", "quantifier": "nCP, nLeP and nFS of both implementations, every list of integers d, every depth of nested calls the interpreter or the stack has room for, every number of dimensions and functions, domain, array of points and table of removed functions", "why_tests_cant": "The tests use orders 0 to 4 or so; a negative order in one of the dimensions, and one beyond the recursion limit, is never tried.", "anchors": ["src/tfc/utils/BF_Py.py:1006-1121", "src/tfc/utils/BF.cc:1064-1146"]}
{"id": "C115", "title": "FullScreen and PartScreen give figures the size asked for", "statement": "FullScreen gives a figure as many pixels as the screen has, with matplotlib at every resolution of the figure. PartScreen of the Plotly class gives it the whole number of pixels that fit into the given width and height on the screen, in inches or millimetres, the same for the same length in both units; pixels, and the inches of matplotlib, are taken as they are. A figure of resolution 0 makes FullScreen raise, and a screen that reports no size makes PartScreen raise for every unit but pixels.", "quantifier": "all screens, figures, widths and heights; the unit", "why_tests_cant": "The tests run on one screen or none and only call the methods.", "anchors": ["src/tfc/utils/MakePlot.py:189-218", "src/tfc/utils/PlotlyMakePlot.py:619-662"]}
{"id": "C116", "title": "Scripts that solve nonlinear partial differential equations of any form", "statement": "Take a script like the test suite's for z_xx + z_yy + z z_y = f, with any residual built from the unknown function, its partial derivatives and given functions of the points by sums, products and functions applied element by element (exp z, z_x^2, ...). If the constrained expression for some coefficients satisfies the equation at the points of tfc.x, the functions applied are differentiable and have bounded second derivatives near the values they take there, and no other function that the expression can give differs from it by a solution of the equation linearised there, then NLLS started near those coefficients returns, after k iterations, a function that meets all conditions at all points and is within K/2^(2^k) of the solution on the whole box, and so are its partial derivatives of any orders; if maxIter allows, it stops by itself within a multiple of tol. Polynomials of the basis' degree that meet the conditions are such solutions for all polynomial families.", "quantifier": "for all families, degrees, numbers of variables and points, boxes, consistent conditions, residual expressions, starts, tolerances, iteration limits and methods, in exact arithmetic", "why_tests_cant": "The test runs one equation from zero and compares at the collocation points only; convergence for all equations of a kind and closeness between the points cannot be observed from runs.", "anchors": ["tests/test_PDE.py:14-51", "examples/Extra_Examples/PDE/Burgers1D.py", "src/tfc/mtfc.py:mtfc.H", "src/tfc/utils/TFCUtils.py:NLLS", "src/tfc/utils/TFCUtils.py:egrad"]}
{"id": "C117", "title": "Scripts that solve systems of nonlinear partial differential equations with a TFCDict", "statement": "Take a script like the Navier-Stokes example: several unknown functions, each with a constrained expression in several variables and an array of coefficients of its own in a TFCDict, and residuals of several equations, any expressions in the functions, their partial derivatives and given functions of the points, put one after the other. If the functions of some dictionary satisfy the equations at their points, functions applied element by element are differentiable and have bounded second derivatives near the values they take there, and no other functions that the expressions can give differ from them by a solution of the equations linearised there, then NLLS started from any dictionary close to that one returns, after k iterations, a dictionary of the same form whose functions meet all conditions at all points and are within B/2^(2^k) of the solution on the whole box, with partial derivatives of any orders; if maxIter allows, it stops by itself within a multiple of tol. Such dictionaries exist for all functions the expressions can give, among them polynomials of the bases' degrees that meet the conditions, and the residual of a dictionary is zero exactly when its functions satisfy the equations at the points.", "quantifier": "for all numbers of functions, equations, variables and points, families, degrees, boxes, consistent conditions, expressions, starts, tolerances, iteration limits and methods, in exact arithmetic", "why_tests_cant": "No test solves a system of partial differential equations; the example compares one run with a known profile at the outlet. Convergence for all systems of a kind and closeness between the points cannot be observed from runs.", "anchors": ["examples/Carl_Leake_Dissertation/Chapter_3/Navier_Stokes_TFC_and_XTFC.py:25-76", "src/tfc/mtfc.py:mtfc.H", "src/tfc/utils/TFCUtils.py:NLLS", "src/tfc/utils/TFCUtils.py:TFCDict", "src/tfc/utils/TFCUtils.py:egrad"]}
{"id": "C118", "title": "Scripts that solve systems of linear partial differential equations with a TFCDict", "statement": "Take a script with several unknown functions, each with a constrained expression in several variables and an array of coefficients of its own in a TFCDict, and residuals of several equations that are linear in the functions and their partial derivatives, with given functions of the points as coefficients and right-hand sides, put one after the other. LS on the dictionary, one iteration of NLLS from any dictionary of the form, and NLLS as a whole (which stops after at most two iterations) from any such dictionary whose residual exceeds a tolerance below one, also on a TFCDictRobust, return a dictionary of the same form whose functions meet all conditions at all points and, of all functions the expressions can give, have the least sum of squared residuals at the points; if any functions the expressions can give solve the equations at the points, the returned ones do. LS leaves the dictionary it was given unchanged.", "quantifier": "for all numbers of functions, equations, variables and points, families, degrees, boxes, consistent conditions, linear equations and dictionaries, in exact arithmetic", "why_tests_cant": "The tests solve one linear partial differential equation for one function. Optimality among all functions the expressions can give, for all systems, cannot be observed from runs.", "anchors": ["examples/Carl_Leake_Dissertation/Chapter_3/Navier_Stokes_TFC_and_XTFC.py:25-76", "src/tfc/mtfc.py:mtfc.H", "src/tfc/utils/TFCUtils.py:LS", "src/tfc/utils/TFCUtils.py:NLLS", "src/tfc/utils/TFCUtils.py:TFCDict", "src/tfc/utils/TFCUtils.py:egrad"]}
{"id": "C119", "title": "Constrained expressions in any number of variables, in any order", "statement": "Make a CeSolver for each of several sets of conditions, any number of them, and use the ce of each as the free function g of the next. If the sets act on different variables (operators are linear, their values and the kappas are constant for them; operators of different sets commute; support functions of one are constants for the others) and their data agree where they meet, then the last ce exists for every free function and satisfies all conditions of all sets; the order of the sets makes no difference to it; and the functions obtained in this way are exactly those that satisfy all conditions.", "quantifier": "for all numbers of sets and conditions, all linear operators, support functions with invertible support matrices, consistent kappas, free functions and orders of the sets", "why_tests_cant": "Tests can nest two or three solvers with particular conditions; that every order gives the same expression for every free function is a statement about all of them.", "anchors": ["src/tfc/utils/CeSolver.py:CeSolver.ce", "src/tfc/utils/CeSolver.py:CeSolver.phi", "src/tfc/utils/CeSolver.py:CeSolver.rho", "src/tfc/utils/CeSolver.py:CeSolver.g"]}
{"id": "C120", "title": "The order in which a script treats the variables", "statement": "A script like tests/test_PDE.py makes its constrained expression one variable after the other from H of an mtfc object and switching polynomials. If the values of the conditions fit together where conditions in different variables meet, then the variables can be treated in any order: for all coefficients the expression is the same function, and treating a variable once more does not change it. If they do not fit together this is false: the order decides which of two contradicting conditions holds.", "quantifier": "for all numbers of variables, degrees, domains, backends, polynomial and Fourier bases, consistent separable conditions, switching polynomials, coefficients and orders of the variables", "why_tests_cant": "A test can compare two orders at some points for some coefficients; that the expressions are the same function for every order and every number of variables is out of its reach.", "anchors": ["tests/test_PDE.py", "src/tfc/mtfc.py:mtfc.H"]}
