{
 "claims": [
  {
   "property": "C01",
   "status": "proved",
   "theorems": [
    "C01_chebyshev_columns"
   ],
   "note": "Both backends, every m, every domain."
  },
  {
   "property": "C02",
   "status": "proved",
   "theorems": [
    "C02_legendre_columns"
   ],
   "note": "Both backends."
  },
  {
   "property": "C03",
   "status": "proved",
   "theorems": [
    "C03_laguerre_columns"
   ],
   "note": "Both backends."
  },
  {
   "property": "C04",
   "status": "proved",
   "theorems": [
    "C04_hermite_pro_columns"
   ],
   "note": "Both backends."
  },
  {
   "property": "C05",
   "status": "proved",
   "theorems": [
    "C05_hermite_phy_columns"
   ],
   "note": "Both backends."
  },
  {
   "property": "C06",
   "status": "proved",
   "theorems": [
    "C06_fourier_columns",
    "C06_fourier_periodic"
   ],
   "note": "Both backends."
  },
  {
   "property": "C07",
   "status": "proved",
   "theorems": [
    "C07_polynomial_derivatives"
   ],
   "note": "Proved for the Python backend and also for the C++ one."
  },
  {
   "property": "C08",
   "status": "proved",
   "theorems": [
    "C08_backends_agree",
    "C08_elm_backends_agree_partial"
   ],
   "note": "Exact arithmetic; Some on the C++ side means no out-of-bounds access and no uninitialised read."
  },
  {
   "property": "C09",
   "status": "proved",
   "theorems": [
    "C09_fourier_derivatives"
   ],
   "note": "Both backends."
  },
  {
   "property": "C10",
   "status": "proved",
   "theorems": [
    "C10_sine_derivatives"
   ],
   "note": "Both backends, every order."
  },
  {
   "property": "C100",
   "status": "proved",
   "theorems": [
    "C100_converges",
    "C100_initial_value"
   ],
   "note": "exact arithmetic and exact derivatives; convergence is local; solutions in the span of the basis; the functions of the free expression are those of CP, LeP, HoPpro, HoPphy and LaP"
  },
  {
   "property": "C101",
   "status": "proved",
   "theorems": [
    "C101_converges",
    "C101_polynomial"
   ],
   "note": "exact arithmetic and exact derivatives; convergence is local; the solution is one the expression can give; ELM bases not covered"
  },
  {
   "property": "C102",
   "status": "proved",
   "theorems": [
    "C102_conditions",
    "C102_ls",
    "C102_nlls"
   ],
   "note": "exact arithmetic and exact derivatives; linear equations; ReLU excluded because it is not smooth"
  },
  {
   "property": "C103",
   "status": "partial",
   "theorems": [
    "C103_early_partial",
    "C103_nan_residual_refuted",
    "C103_nan_step_refuted"
   ],
   "note": "false of the code: NaN > tol is false, so a residual that is not a number ends the loop as converged, and so does a step, whose unknowns are returned; what an early return does mean is proved"
  },
  {
   "property": "C104",
   "status": "partial",
   "theorems": [
    "C104_ls_partial",
    "C104_nlls_partial",
    "C104_script_partial",
    "C104_refuted"
   ],
   "note": "false of the code: singular values small against the largest are ignored, so an invertible problem with an exact solution can be left with a residual that is not zero; what is returned solves the problem without those singular values, and its residual exceeds that of any unknowns by at most the factor times the largest singular value times their size; exact arithmetic otherwise"
  },
  {
   "property": "C105",
   "status": "partial",
   "theorems": [
    "C105_orders_partial",
    "C105_elm_orders_partial",
    "C105_rejected_partial",
    "C105_few_refuted",
    "C105_fourier_refuted",
    "C105_elm_refuted"
   ],
   "note": "false of the code: only the recursions of three or more polynomials and of the differentiated Python networks refuse a negative order, by running out of room (and so they refuse large orders too); one or two polynomials, Fourier series and the other random bases answer it, the two implementations differently"
  },
  {
   "property": "C106",
   "status": "partial",
   "theorems": [
    "C106_size_partial",
    "C106_xla_partial",
    "C106_products_partial",
    "C106_nd_partial",
    "C106_elm_partial",
    "C106_elm_H_partial",
    "C106_size_refuted",
    "C106_products_refuted"
   ],
   "note": "false of the code for large sizes, although each size fits; the theorems say exactly for which: one dimension, points times functions must fit in an int; products, the binomial coefficient counting them (at most 65535 functions per dimension in two dimensions), points times functions times dimensions, and the entries of the result; ELM, points times functions and points times dimensions. Assumes different removable columns, and sums of orders that fit"
  },
  {
   "property": "C107",
   "status": "partial",
   "theorems": [
    "C107_as_new",
    "C107_new",
    "C107_compiled",
    "C107_weights",
    "C107_count_refuted",
    "C107_m_refuted",
    "C107_size_refuted",
    "C107_range_refuted"
   ],
   "note": "proved: an object whose attributes and arrays describe a new object, number of functions included, answers as that object, directly and from compiled calls, and w and b return what was assigned; refuted: the number of functions is not updated with m, m re-cuts the array of weights into other rows, sizes beyond the arrays read and write outside them, arrays of the wrong size end the process instead of raising, and the Python class accepts other shapes. Derivative orders beyond the table (C27) and values of b that are not contiguous (C75) are not covered here"
  },
  {
   "property": "C108",
   "status": "proved",
   "theorems": [
    "C108_conditions",
    "C108_ls",
    "C108_nlls_step",
    "C108_nlls"
   ],
   "note": "real arithmetic; the residual is that of the script pattern, jacfwd finds the coefficients of affine residuals; every function has its own key, dictionaries are TFCDicts of one-dimensional arrays"
  },
  {
   "property": "C109",
   "status": "proved",
   "theorems": [
    "C109_nlls",
    "C109_class",
    "C109_affine",
    "C109_newton",
    "C109_raises"
   ],
   "note": "exact arithmetic over a real field, Moore-Penrose inverse for pinv and lstsq; no body of the caller's; between iterations of the compiled loop the dictionary is its keys and jax arrays; automatic differentiation of the two residuals is assumed to find the same derivatives"
  },
  {
   "property": "C11",
   "status": "partial",
   "theorems": [
    "C11_activation_derivatives_partial",
    "C11_order_nine_is_not_a_derivative",
    "C11_refuted",
    "C11_swish_refuted"
   ],
   "note": "Python backend for every order and C++ up to order 8; from order 9 on the C++ result is refuted (no switch default)."
  },
  {
   "property": "C110",
   "status": "proved",
   "theorems": [
    "C110_converges",
    "C110_reached"
   ],
   "note": "real arithmetic; the residual is that of the script pattern with one product of two linear expressions per equation; jacfwd finds partial derivatives in the entries where they exist; dictionaries are TFCDicts of one-dimensional arrays, the default Jacobian is used"
  },
  {
   "property": "C111",
   "status": "proved",
   "theorems": [
    "C111_forward_error",
    "C111_derivative",
    "C111_growth_reached",
    "C111_n_forward_error"
   ],
   "note": "IEEE binary64, round to nearest, no fused operations; the power c^d of dMult is a repeated product; points inside the domain and x0 < xf"
  },
  {
   "property": "C112",
   "status": "proved",
   "theorems": [
    "C112_converges",
    "C112_reached"
   ],
   "note": "exact arithmetic; the jacobian handed to NLLS consists of the derivatives of the residual; derivatives in the constrained expressions are taken with the derivative matrices"
  },
  {
   "property": "C113",
   "status": "partial",
   "theorems": [
    "C113_flat_partial",
    "C113_scene_partial",
    "C113_line_partial",
    "C113_refuted"
   ],
   "note": "true of 2-D figures and of 3-D figures with one row or one column; refuted for every 3-D figure with at least two rows and two columns: the loop over the scenes stops after r+c-2 of them, so that later ones keep Plotly's colours; the zero lines of the first scene are never coloured"
  },
  {
   "property": "C114",
   "status": "partial",
   "theorems": [
    "C114_products",
    "C114_partials_partial",
    "C114_rejected_partial",
    "C114_few_refuted",
    "C114_fourier_refuted"
   ],
   "note": "derivatives are proved up to the room for nested calls, the products for all orders, the rejection for three or more polynomials per dimension; refuted: with one or two polynomials per dimension and for Fourier series negative orders return a matrix, and the two implementations of Fourier series then differ if minus the order is 2 or 3 modulo 4"
  },
  {
   "property": "C115",
   "status": "proved",
   "theorems": [
    "C115_full",
    "C115_part",
    "C115_units",
    "C115_raises"
   ],
   "note": "exact arithmetic; tkinter is modelled by the numbers it reports; every text other than in and px is read as millimetres, as C115_units says"
  },
  {
   "property": "C116",
   "status": "proved",
   "theorems": [
    "C116_converges",
    "C116_polynomial"
   ],
   "note": "exact arithmetic; automatic differentiation is any function that gives the partial derivatives where there are any; one unknown function; the linearised equation is assumed to have no other solution among the expressions, and Newton's method is local, so the start must be near"
  },
  {
   "property": "C117",
   "status": "proved",
   "theorems": [
    "C117_converges",
    "C117_reached"
   ],
   "note": "exact arithmetic; the polynomial and Fourier bases (not the example's ELM option); automatic differentiation is any function that gives the partial derivatives where there are any; the linearised equations are assumed to have no other solution among the expressions, and Newton's method is local, so the start must be near"
  },
  {
   "property": "C118",
   "status": "proved",
   "theorems": [
    "C118_ls",
    "C118_nlls_step",
    "C118_nlls"
   ],
   "note": "exact arithmetic; the polynomial and Fourier bases; one-dimensional arrays of coefficients and a key of its own for every function; automatic differentiation is any function that finds the coefficients of affine residuals"
  },
  {
   "property": "C119",
   "status": "proved",
   "theorems": [
    "C119_satisfies",
    "C119_any_order",
    "C119_every_solution"
   ],
   "note": "expressions are elements of a commutative ring, as in C44 to C48"
  },
  {
   "property": "C12",
   "status": "partial",
   "theorems": [
    "C12_relu_partial",
    "C12_shape_refuted"
   ],
   "note": "C++ for every order, Python for orders 0 and 1; for orders >= 2 the Python matrix has the transposed shape (refuted)."
  },
  {
   "property": "C120",
   "status": "partial",
   "theorems": [
    "C120_any_order",
    "C120_again",
    "C120_clash_refuted"
   ],
   "note": "exact arithmetic; as in C95, derivatives are those of the functions and values are separable; proved for conditions that fit together; refuted for conditions that do not, which the code does not check"
  },
  {
   "property": "C13",
   "status": "proved",
   "theorems": [
    "C13_columns_removed",
    "C13_repeated_entries_refuted",
    "C13_elm_columns_removed",
    "C13_nelm_columns_removed",
    "C13_cpp_defined_iff",
    "C13_elm_cpp_defined_iff",
    "C13_python_any_list",
    "C13_elm_python_any_list"
   ],
   "note": "For distinct in-range nC; for any list in Python (negative entries count from the end, others raise); with repeated entries the claim is refuted, and the C++ classes write out of bounds for exactly the other lists."
  },
  {
   "property": "C14",
   "status": "partial",
   "theorems": [
    "C14_utfc_shape_partial",
    "C14_utfc_python_refuted",
    "C14_mtfc_shape_partial",
    "C14_mtfc_cpp_shape",
    "C14_mtfc_python_refuted"
   ],
   "note": "Holds for every C++ call; for Python the univariate class advertises nothing and the multivariate ELM classes advertise a wrong width when nC repeats an entry (both refuted)."
  },
  {
   "property": "C15",
   "status": "proved",
   "theorems": [
    "C15_compiled_equals_eager",
    "C15_elm_compiled_equals_eager",
    "C15_nd_xla_matches_H",
    "C15_nelm_compiled_equals_eager",
    "C15_mtfc_compiled_equals_eager"
   ],
   "note": "One- and n-dimensional families, and the multivariate class."
  },
  {
   "property": "C16",
   "status": "proved",
   "theorems": [
    "C16_identifier_reaches_object",
    "C16_identifier_is_forever",
    "C16_constructions_succeed"
   ],
   "note": "State machine over constructions and destructions, adversarial allocator."
  },
  {
   "property": "C17",
   "status": "proved",
   "theorems": [
    "C17_domain_map",
    "C17_evaluated_at_image"
   ],
   "note": "Bounded families; LaP and Hermite families use x itself."
  },
  {
   "property": "C18",
   "status": "proved",
   "theorems": [
    "C18_collocation_points"
   ],
   "note": "All bases, both backends."
  },
  {
   "property": "C19",
   "status": "proved",
   "theorems": [
    "C19_grid_points",
    "C19_grid_every_combination_once"
   ],
   "note": ""
  },
  {
   "property": "C20",
   "status": "proved",
   "theorems": [
    "C20_multi_indices"
   ],
   "note": "Both backends; families CP, LeP, FS (the only n-dimensional ones)."
  },
  {
   "property": "C21",
   "status": "proved",
   "theorems": [
    "C21_number_of_functions"
   ],
   "note": ""
  },
  {
   "property": "C22",
   "status": "proved",
   "theorems": [
    "C20_multi_indices",
    "C22_mixed_partials"
   ],
   "note": "Product form in C20_multi_indices (column_indices); mixed partials for every order of differentiation."
  },
  {
   "property": "C23",
   "status": "proved",
   "theorems": [
    "C23_backends_agree",
    "C23_cpp_missing_orders",
    "C23_py_missing_orders",
    "C23_too_few_rows_refuted"
   ],
   "note": "For point arrays with one row per dimension; with fewer rows the C++ code reads out of bounds (refuted)."
  },
  {
   "property": "C24",
   "status": "partial",
   "theorems": [
    "C24_nelm_partials_partial",
    "C24_backends_agree",
    "C24_order_nine_is_not_a_derivative",
    "C24_refuted",
    "C24_swish_refuted",
    "C24_tuple_refuted"
   ],
   "note": "All orders on the Python backend (ReLU with tuple orders of total 1 refuted, which is how mtfc calls it); C++ sine and ReLU for all orders, sigmoid/tanh/swish up to total order 8 (refuted from 9 on)."
  },
  {
   "property": "C25",
   "status": "partial",
   "theorems": [
    "C25_named_partials_partial",
    "C25_mixed_need_two_dimensions",
    "C25_low_dimension_refuted"
   ],
   "note": "Proved whenever the object has the variables the method names; with fewer dimensions Hy, Hy2 and Hz silently return H (refuted). Smooth bases (everything but ReLU, whose partial derivatives are in C24)."
  },
  {
   "property": "C26",
   "status": "partial",
   "theorems": [
    "C26_utfc_removed",
    "C26_utfc_rejected",
    "C26_utfc_range_refuted",
    "C26_utfc_numpy_refuted",
    "C26_mtfc_named_functions",
    "C26_mtfc_elm_removed",
    "C26_mtfc_rejected",
    "C26_mtfc_elm_rejected",
    "C26_mtfc_singleton_is_a_count",
    "C26_mtfc_singleton_refuted",
    "C26_mtfc_range_refuted"
   ],
   "note": "Proved for documented specifications; false for one-entry lists (multivariate), out-of-range entries (accepted) and NumPy lists (univariate)."
  },
  {
   "property": "C27",
   "status": "partial",
   "theorems": [
    "C27_utfc_jvp_partial",
    "C27_zero_tangent_refuted"
   ],
   "note": "Proved, including the directional derivative, for every tangent with a non-zero entry; the rule fails for the zero tangent (refuted)."
  },
  {
   "property": "C28",
   "status": "proved",
   "theorems": [
    "C28_jvp_sum_of_partials",
    "C28_jvp_is_directional_derivative"
   ],
   "note": "One-dimensional point arrays."
  },
  {
   "property": "C29",
   "status": "proved",
   "theorems": [
    "C29_hybrid_concatenates",
    "C29_different_point_counts_rejected",
    "C29_equal_point_counts_accepted"
   ],
   "note": ""
  },
  {
   "property": "C30",
   "status": "proved",
   "theorems": [
    "C30_construct",
    "C30_accepts",
    "C30_holds",
    "C30_pack",
    "C30_pack_scalars",
    "C30_pack_unpack",
    "C30_unpack_pack",
    "C30_empty_raises"
   ],
   "note": "TFCDict of one-dimensional arrays, values jax or NumPy, argument jax or NumPy of any shape; the empty dictionary raises"
  },
  {
   "property": "C31",
   "status": "partial",
   "theorems": [
    "C31_dict_operand_partial",
    "C31_robust_dict_operand_partial",
    "C31_array_operand_partial",
    "C31_robust_array_operand_partial",
    "C31_numpy_operand_refuted"
   ],
   "note": "proved for dictionary operands (any mix of jax and NumPy values without sharing across keys) and packed jax arrays, both classes; false for packed NumPy arrays, which are silently ignored"
  },
  {
   "property": "C32",
   "status": "partial",
   "theorems": [
    "C32_no_mutation_partial",
    "C32_numpy_refuted"
   ],
   "note": "no write to memory unless a NumPy value meets a NumPy value; in that case the left operand becomes the sum"
  },
  {
   "property": "C33",
   "status": "partial",
   "theorems": [
    "C33_update_partial",
    "C33_robust_update_partial",
    "C33_harmless_partial",
    "C33_arithmetic_partial",
    "C33_new_key_refuted",
    "C33_resized_refuted"
   ],
   "note": "bookkeeping is current after construction, update, same-length assignment and arithmetic on equal layouts; false after assignment of a new key or another length"
  },
  {
   "property": "C34",
   "status": "partial",
   "theorems": [
    "C34_pack",
    "C34_pack_unpack_partial",
    "C34_unpack_pack_partial",
    "C34_numpy_refuted"
   ],
   "note": "round trip proved for jax values of any shapes; with a NumPy value unpacking raises whenever two entries are non-empty"
  },
  {
   "property": "C35",
   "status": "partial",
   "theorems": [
    "C35_roundtrip",
    "C35_robust_roundtrip",
    "C35_map_partial",
    "C35_robust_map",
    "C35_scalar_leaves_refuted"
   ],
   "note": "round trip proved for both classes; mapping proved except that TFCDict raises when a leaf becomes zero-dimensional"
  },
  {
   "property": "C36",
   "status": "partial",
   "theorems": [
    "C36_pe_ascending_partial",
    "C36_any_order_refuted"
   ],
   "note": "proved for positions listed in increasing order; with two positions given larger first the wrong argument is fixed"
  },
  {
   "property": "C37",
   "status": "partial",
   "theorems": [
    "C37_wiring_partial",
    "C37_list_changed_refuted",
    "C37_reuse_refuted"
   ],
   "note": "wiring proved for increasing lists; the caller's list is reversed in place and a second call with it misplaces arguments"
  },
  {
   "property": "C38",
   "status": "proved",
   "theorems": [
    "C38_pinv_is_moore_penrose",
    "C38_least_squares"
   ],
   "note": "over any real field, any rank; the automatic Jacobian is a parameter required to differentiate affine residuals"
  },
  {
   "property": "C39",
   "status": "partial",
   "theorems": [
    "C39_columns",
    "C39_ls_partial",
    "C39_robust_ls_partial",
    "C39_nlls_step_partial",
    "C39_scalar_entry_refuted",
    "C39_robust_ls_refuted"
   ],
   "note": "column order proved for both classes; LS and one NLLS step reach the best dictionary; LS on a TFCDictRobust with two non-empty entries raises, and a zero-dimensional entry raises"
  },
  {
   "property": "C40",
   "status": "partial",
   "theorems": [
    "C40_stops_partial",
    "C40_large_tolerance_refuted"
   ],
   "note": "stopping and exit reasons proved; the initial step counts as 1, so a tolerance of at least 1 stops before the first iteration"
  },
  {
   "property": "C41",
   "status": "partial",
   "theorems": [
    "C41_cond_ignored_refuted"
   ],
   "note": "false of the code: the caller's cond is overwritten, the result is the same for every cond"
  },
  {
   "property": "C42",
   "status": "proved",
   "theorems": [
    "C42_options_irrelevant",
    "C42_affine_one_step"
   ],
   "note": "independence of timer and printOut, and the affine case"
  },
  {
   "property": "C43",
   "status": "partial",
   "theorems": [
    "C43_nlls_run",
    "C43_methods",
    "C43_ls_timed_partial",
    "C43_ls_without_timer_refuted",
    "C43_ls_start_changed_refuted",
    "C43_ls_start_matters_refuted",
    "C43_user_body",
    "C43_body_used"
   ],
   "note": "NllsClass agrees with NLLS on every call; LsClass.run raises without the timer, changes its argument and starts from it"
  },
  {
   "property": "C44",
   "status": "proved",
   "theorems": [
    "C44_satisfies",
    "C44_singular",
    "C44_shapes"
   ],
   "note": "expressions form any commutative ring with units; sympy's simplification is equality in it"
  },
  {
   "property": "C45",
   "status": "proved",
   "theorems": [
    "C45_every_solution",
    "C45_twice"
   ],
   "note": "same setting as C44"
  },
  {
   "property": "C46",
   "status": "partial",
   "theorems": [
    "C46_reads_partial",
    "C46_without_phi_partial",
    "C46_phi_after_ce_refuted"
   ],
   "note": "proved for every history in which phi is not assigned after ce has been used; refuted otherwise: assigning phi leaves a stale ce"
  },
  {
   "property": "C47",
   "status": "proved",
   "theorems": [
    "C47_recursive"
   ],
   "note": "with a worked instance over polynomials in two variables (C47_ex)"
  },
  {
   "property": "C48",
   "status": "proved",
   "theorems": [
    "C48_decides",
    "C48_true"
   ],
   "note": "simplify(a) == simplify(b) is modelled by equality of the expressions"
  },
  {
   "property": "C49",
   "status": "partial",
   "theorems": [
    "C49_acyclic_partial",
    "C49_with_self_loops",
    "C49_unknown_node",
    "C49_self_loop_refuted"
   ],
   "note": "proved for all graphs without edges from a node to itself, with exact eigenvalues over any algebraically closed field; for self-loops the exact behaviour is proved and the claim is refuted (one orientation of a self-loop is kept)"
  },
  {
   "property": "C50",
   "status": "proved",
   "theorems": [
    "C50_layout",
    "C50_files_first",
    "C50_drawings",
    "C50_pages"
   ],
   "note": "graphviz and yattag are modelled by what they are asked to draw and write"
  },
  {
   "property": "C51",
   "status": "partial",
   "theorems": [
    "C51_minimises",
    "C51_one_rhs",
    "C51_returns",
    "C51_condition",
    "C51_several_partial",
    "C51_several_shape_refuted",
    "C51_several_refuted"
   ],
   "note": "one right-hand side: proved for all matrices without a zero column, whatever QR factorisation the library picks, and existence of one is proved; several right-hand sides: correct for a single unknown, otherwise refuted (wrong shape, an exception, or wrong rows scaled)"
  },
  {
   "property": "C52",
   "status": "proved",
   "theorems": [
    "C52_values",
    "C52_derivative",
    "C52_jvp",
    "C52_no_derivative_at_0"
   ],
   "note": "also: what JAX returns at 0, where there is no derivative"
  },
  {
   "property": "C53",
   "status": "proved",
   "theorems": [
    "C53_partial_derivatives",
    "C53_higher",
    "C53_higher_exists",
    "C53_robust",
    "C53_raises",
    "C53_robust_raises",
    "C53_robust_dict",
    "C53_dict_sums"
   ],
   "note": "arrays of equal shape mixed with zero-dimensional ones, and for egradRobust dictionaries of arrays; jax.jvp is modelled as the directional derivative"
  },
  {
   "property": "C54",
   "status": "partial",
   "theorems": [
    "C54_total_partial",
    "C54_first_order_partial",
    "C54_higher_order_refuted",
    "C54_exactly_partial",
    "C54_value_partial"
   ],
   "note": "holds exactly for first derivatives of functions of one variable; every derivative of total order two or more prints text that is not code, and a function of several arguments loses the other ones"
  },
  {
   "property": "C55",
   "status": "partial",
   "theorems": [
    "C55_one_partial",
    "C55_several_partial",
    "C55_word_by_word_partial",
    "C55_derivative_partial",
    "C55_refuted"
   ],
   "note": "holds exactly when no longer word of the text contains the symbol's name; refuted otherwise and for symbols replaced in turn"
  },
  {
   "property": "C56",
   "status": "partial",
   "theorems": [
    "C56_reads_partial",
    "C56_cells_partial",
    "C56_wide_refuted",
    "C56_no_columns_refuted",
    "C56_errors_partial"
   ],
   "note": "proved for arrays with at least one column that numpy prints in full; refuted for wider ones (numpy abbreviates the row) and for arrays without columns"
  },
  {
   "property": "C57",
   "status": "partial",
   "theorems": [
    "C57_cpp_weights_partial",
    "C57_py_weights_partial",
    "C57_py_current",
    "C57_py_alias_refuted",
    "C57_cpp_stride_refuted",
    "C57_cpp_exit_refuted"
   ],
   "note": "Refinement of a value-semantics specification over all histories; for the Python classes also what is observed after any history, writes of the caller included; refuted for arrays the caller later writes to (Python), non-contiguous arrays and wrong sizes (C++ exits)."
  },
  {
   "property": "C58",
   "status": "proved",
   "theorems": [
    "C58_remaining_independent"
   ],
   "note": "All five polynomial families, both backends."
  },
  {
   "property": "C59",
   "status": "partial",
   "theorems": [
    "C59_vmap_rows",
    "C59_mtfc_vmap_rows",
    "C59_vmap_derivative",
    "C59_zero_tangent_refuted"
   ],
   "note": "values in full; derivatives of mapped calls for non-zero tangents only: the rule fails for the zero tangent (refuted), as in C27"
  },
  {
   "property": "C60",
   "status": "proved",
   "theorems": [
    "C60_named_derivatives"
   ],
   "note": "ReLU, which is not differentiable everywhere, is covered by C12."
  },
  {
   "property": "C61",
   "status": "partial",
   "theorems": [
    "C61_one_line_per_iteration_partial",
    "C61_timed_refuted"
   ],
   "note": "one line per iteration without the timer; with it the warm-up run prints an extra line"
  },
  {
   "property": "C62",
   "status": "proved",
   "theorems": [
    "C62_no_such_argument",
    "C62_robust_no_such_argument"
   ],
   "note": ""
  },
  {
   "property": "C63",
   "status": "proved",
   "theorems": [
    "C63_no_math",
    "C63_entries",
    "C63_once"
   ],
   "note": ""
  },
  {
   "property": "C64",
   "status": "partial",
   "theorems": [
    "C64_titles_in_turn_partial",
    "C64_own_labels_partial",
    "C64_title_refuted"
   ],
   "note": "labels proved for all grids; titles are dealt out to the subplots in turn, so a None title shifts the later ones (refuted)"
  },
  {
   "property": "C65",
   "status": "partial",
   "theorems": [
    "C65_plotly_mayavi_partial",
    "C65_matplotlib_partial",
    "C65_saveAll",
    "C65_matplotlib_refuted"
   ],
   "note": "Plotly and Mayavi proved; matplotlib's default name carries no suffix (refuted)"
  },
  {
   "property": "C66",
   "status": "partial",
   "theorems": [
    "C66_frames_partial",
    "C66_minus_one_refuted",
    "C66_order_refuted",
    "C66_absolute_refuted"
   ],
   "note": "proved for generators that do not yield -1 and relative directories; alphabetical order holds up to a million frames; refuted otherwise"
  },
  {
   "property": "C67",
   "status": "partial",
   "theorems": [
    "C67_own_labels_partial",
    "C67_shown_partial",
    "C67_kind_partial",
    "C67_missing_partial",
    "C67_refuted",
    "C67_empty_partial"
   ],
   "note": "holds for grids with one row or one column; refuted for every grid with two or more of both"
  },
  {
   "property": "C68",
   "status": "partial",
   "theorems": [
    "C68_history_partial",
    "C68_one_call_partial",
    "C68_flat_partial",
    "C68_row_refuted",
    "C68_zero_refuted"
   ],
   "note": "holds for subplots in the first row or in figures with one column; refuted for the others and for distance 0"
  },
  {
   "property": "C69",
   "status": "partial",
   "theorems": [
    "C69_crops_partial",
    "C69_refuted",
    "C69_opaque_refuted",
    "C69_rgb_refuted"
   ],
   "note": "holds exactly for RGBA images whose red and alpha channels both vary; every other image raises"
  },
  {
   "property": "C70",
   "status": "partial",
   "theorems": [
    "C70_data_partial",
    "C70_limits_partial",
    "C70_first_refuted",
    "C70_limits_refuted",
    "C70_no_data_refuted"
   ],
   "note": "holds when every listed plot has the named data; refuted when the first listed plot has not, and for limits with unrelated data"
  },
  {
   "property": "C71",
   "status": "proved",
   "theorems": [
    "C71_gradient",
    "C71_ends",
    "C71_monotone",
    "C71_shapes"
   ],
   "note": "real arithmetic"
  },
  {
   "property": "C72",
   "status": "partial",
   "theorems": [
    "C72_written_partial",
    "C72_sound_partial",
    "C72_plain_name_refuted",
    "C72_blocked_partial",
    "C72_read_partial",
    "C72_missing_partial"
   ],
   "note": "proved for names with a directory part; names without a slash raise (refuted)"
  },
  {
   "property": "C73",
   "status": "proved",
   "theorems": [
    "C73_polynomial",
    "C73_polynomial_iff",
    "C73_fourier",
    "C73_fourier_iff"
   ],
   "note": "real arithmetic; jvp_ok says that the jax transform computes derivatives, as in C18"
  },
  {
   "property": "C74",
   "status": "proved",
   "theorems": [
    "C74_ls_exact",
    "C74_initial_value",
    "C74_nlls_exact"
   ],
   "note": "real arithmetic, exact pseudo-inverse; the correction polynomial is written out by the user as in the examples of the package"
  },
  {
   "property": "C75",
   "status": "partial",
   "theorems": [
    "C75_points",
    "C75_points_nd",
    "C75_ctor_partial",
    "C75_ctor_nd_partial",
    "C75_ctor_nelm_partial",
    "C75_strided_refuted",
    "C75_columns_refuted",
    "C75_fortran_refuted"
   ],
   "note": "points and orders: proved for every layout; constructor arguments: proved for contiguous or converted arrays, refuted for strided arrays of the exact element type and for Fortran-ordered matrices"
  },
  {
   "property": "C76",
   "status": "partial",
   "theorems": [
    "C76_safe_partial",
    "C76_xla_iff",
    "C76_dangling_refuted",
    "C76_arrays",
    "C76_objects",
    "C76_temporaries",
    "C76_released_partial",
    "C76_leak_refuted"
   ],
   "note": "safety for all histories; a compiled call on a destroyed object is undefined (refuted for those), and objects leave their capsule and, in the n-dimensional classes, x0 behind (refuted)"
  },
  {
   "property": "C77",
   "status": "proved",
   "theorems": [
    "C77_same_bits",
    "C77_any_arithmetic",
    "C77_removed_bits"
   ],
   "note": "binary64, round to nearest even; NaN payloads are identified; integer powers by repeated multiplication and sin, cos, pi are the same functions on both sides; no fused multiply-add (the build flags of setup.py do not enable it)"
  },
  {
   "property": "C78",
   "status": "proved",
   "theorems": [
    "C78_left_end_exact",
    "C78_in_range",
    "C78_order_kept",
    "C78_right_end",
    "C78_right_end_exact_refuted"
   ],
   "note": "C78_right_end_exact_refuted shows that 1 - 2^-52 does occur at the right end"
  },
  {
   "property": "C79",
   "status": "partial",
   "theorems": [
    "C79_points",
    "C79_inside_refuted"
   ],
   "note": "everything but the last clause is proved; the last point can lie outside the domain, as on [0, 49] (refuted)"
  },
  {
   "property": "C80",
   "status": "partial",
   "theorems": [
    "C80_returns",
    "C80_ready_partial",
    "C80_several_refuted"
   ],
   "note": "readiness: proved when one computation made all values, as in every use by the solvers; refuted for values of several computations, since only the first value is waited for"
  },
  {
   "property": "C81",
   "status": "partial",
   "theorems": [
    "C81_covers",
    "C81_functions",
    "C81_classes_partial",
    "C81_new_shape_refuted"
   ],
   "note": "the functions: proved; the classes: proved when all runs of an object have arguments of the same signature, refuted otherwise (the warm-up is done only once per object)"
  },
  {
   "property": "C82",
   "status": "partial",
   "theorems": [
    "C82_as_new",
    "C82_read_back",
    "C82_elm_as_new",
    "C82_weights",
    "C82_compiled",
    "C82_stale_refuted",
    "C82_range_refuted",
    "C82_elm_range_refuted",
    "C82_identifier_refuted",
    "C82_python_refuted"
   ],
   "note": "in range: proved equal to a newly made object for every call; refuted: out-of-range numC or m reads or leaves memory undefined, calls compiled before the column count changed, identifier redirects compiled calls, the Python classes ignore or refuse the assignments"
  },
  {
   "property": "C83",
   "status": "partial",
   "theorems": [
    "C83_as_new",
    "C83_padding_refuted",
    "C83_overflow_refuted",
    "C83_m_refuted",
    "C83_compiled",
    "C83_range_refuted",
    "C83_c_refuted",
    "C83_x0_refuted",
    "C83_python_refuted"
   ],
   "note": "proved: an object whose attributes describe a new object, number of functions included, answers as that object; refuted: the number of functions is not updated with m (columns of ones, or writes outside the result), dim and numC beyond the arrays, c stores nothing, x0 and zf have no effect, the Python classes react differently; the ELM classes are the subject of C107"
  },
  {
   "property": "C84",
   "status": "proved",
   "theorems": [
    "C84_same_bits",
    "C84_any_arithmetic",
    "C84_columns",
    "C84_pointwise",
    "C84_corner_exact"
   ],
   "note": "binary64 as in C77: NaN payloads identified, integer powers by repeated multiplication, shared sin, cos and pi, no fused multiply-add; the n-dimensional ELM classes are not covered"
  },
  {
   "property": "C85",
   "status": "proved",
   "theorems": [
    "C85_forward_error",
    "C85_chebyshev_cos",
    "C85_bounded",
    "C85_n_forward_error",
    "C85_quadratic_growth_reached"
   ],
   "note": "order 0 only; binary64 as in C77 (no fused multiply-add); domains with x0 < xf; points outside the domain are not covered"
  },
  {
   "property": "C86",
   "status": "partial",
   "theorems": [
    "C86_shown",
    "C86_ends",
    "C86_status_refuted",
    "C86_style_restored_refuted",
    "C86_escape_refuted"
   ],
   "note": "colours and control flow proved; refuted: exit status 0 after an error, the caller's style is not restored, messages with a reset sequence"
  },
  {
   "property": "C87",
   "status": "partial",
   "theorems": [
    "C87_accepted",
    "C87_message",
    "C87_read",
    "C87_printer",
    "C87_rejected_kept_refuted",
    "C87_own_printer_refuted"
   ],
   "note": "refuted: a rejected text is kept, and the printer is shared by all objects; sympy outside IPython"
  },
  {
   "property": "C88",
   "status": "partial",
   "theorems": [
    "C88_call",
    "C88_directory",
    "C88_blank_refuted",
    "C88_injection_refuted",
    "C88_user_mode_refuted"
   ],
   "note": "proved for names without characters special to the shell; refuted for blanks and semicolons, and for the option of user mode; quoting and expansions of the shell are not modelled"
  },
  {
   "property": "C89",
   "status": "proved",
   "theorems": [
    "C89_grid_rank",
    "C89_grid_rank_iff"
   ],
   "note": "real arithmetic; x0 < xf and at least two points on every axis; necessity for full=True; values only, no derivatives"
  },
  {
   "property": "C90",
   "status": "proved",
   "theorems": [
    "C90_ls_exact",
    "C90_polynomial"
   ],
   "note": "real arithmetic; polynomials need full=True (no column removed); NLLS is not covered; LS as in C38"
  },
  {
   "property": "C91",
   "status": "partial",
   "theorems": [
    "C91_compiled_finite",
    "C91_order0_same",
    "C91_python_nan_refuted",
    "C91_left_end_refuted"
   ],
   "note": "binary64 as in C77; the elementary functions are arbitrary with the ranges of libm_ok; the compiled part and order 0 are proved; refuted for the first derivative of the sigmoid in Python, where the rules of jax for exp, + and / are a hypothesis (sigmoid_tangent) at the neuron in question"
  },
  {
   "property": "C92",
   "status": "proved",
   "theorems": [
    "C92_conditions",
    "C92_ls",
    "C92_nlls",
    "C92_initial_value"
   ],
   "note": "real arithmetic; linear equations with polynomial coefficients; the usage script is modelled, the derivative order of each term being the number of egrad applications; NLLS for a start above the tolerance; Fourier and neural bases are excluded"
  },
  {
   "property": "C93",
   "status": "partial",
   "theorems": [
    "C93_in_place",
    "C93_robust_in_place",
    "C93_sum",
    "C93_unique",
    "C93_atomic_refuted",
    "C93_stretched_refuted"
   ],
   "note": "the in-place operations are characterised for dictionaries in which no NumPy array meets a NumPy array (NumPy adds in place, see C13); that a failing sum leaves the dictionary alone, and that a stretched sum unpacks again, are refuted"
  },
  {
   "property": "C94",
   "status": "partial",
   "theorems": [
    "C94_update",
    "C94_construct",
    "C94_robust_update",
    "C94_raising_update_refuted",
    "C94_ready_partial",
    "C94_ready_numpy_refuted"
   ],
   "note": "a raising update is not undone (refuted); block_until_ready raises when the first entry is a NumPy array (refuted)"
  },
  {
   "property": "C95",
   "status": "proved",
   "theorems": [
    "C95_conditions",
    "C95_ls",
    "C95_nlls"
   ],
   "note": "real arithmetic; linear equations; the usage script is modelled, each term's derivative being the number of egrad applications in each variable; boundary values are finite sums of products of smooth functions; completeness and exactness for the polynomial bases; NLLS for a start above the tolerance; neural bases are excluded"
  },
  {
   "property": "C96",
   "status": "partial",
   "theorems": [
    "C96_which_matter",
    "C96_count",
    "C96_one_variable",
    "C96_none_matters",
    "C96_redundant_refuted"
   ],
   "note": "polynomial bases, real arithmetic; the characterisation is complete; that every coefficient of H matters is proved in one variable and refuted in two or more"
  },
  {
   "property": "C97",
   "status": "partial",
   "theorems": [
    "C97_pinv",
    "C97_ls",
    "C97_nlls",
    "C97_nlls_real_start_refuted",
    "C97_scaled_qr",
    "C97_scaled_qr_refuted"
   ],
   "note": "exact arithmetic over any algebraically closed field with conjugation; jax's rules on dtypes are assumed (ModelCplx.v); that NLLS solves what LS solves, and that ScaledQrLs handles complex matrices, is refuted; NLLS for residuals affine in the unknowns"
  },
  {
   "property": "C98",
   "status": "partial",
   "theorems": [
    "C98_egrad_dtypes",
    "C98_robust_dtypes",
    "C98_complex_derivative",
    "C98_egrad_complex_refuted"
   ],
   "note": "jax.jvp's rule that a tangent must have the tangent dtype of its argument is assumed; that egrad works on complex arrays is refuted"
  },
  {
   "property": "C99",
   "status": "partial",
   "theorems": [
    "C99_converges",
    "C99_full_rank",
    "C99_idle",
    "C99_products",
    "C99_stationary",
    "C99_far_start_refuted"
   ],
   "note": "exact arithmetic; convergence is local and to a zero of the residual, not to other minimisers of the sum of squares; that NLLS converges from every start is refuted"
  }
 ]
}