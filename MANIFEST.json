{
 "claims": [
  {
   "property": "C01",
   "status": "proved",
   "theorems": [
    "C01_formula",
    "C01_base"
   ],
   "note": "All formulas over any honest operators. Base operators supplied with only one of matvec_transp/matvec_adj and complex dtype are covered by C03_inferred instead (their T.T or H.H is None, so nested T/H formulas raise)."
  },
  {
   "property": "C02",
   "status": "proved",
   "theorems": [
    "C02_transpose",
    "C01_base"
   ],
   "note": ""
  },
  {
   "property": "C03",
   "status": "proved",
   "theorems": [
    "C03_adjoint",
    "C03_inferred"
   ],
   "note": ""
  },
  {
   "property": "C04",
   "status": "proved",
   "theorems": [
    "C04_TT",
    "C04_documented_refuted"
   ],
   "note": "The documented identity is refuted for complex operators given only matvec_adj."
  },
  {
   "property": "C05",
   "status": "proved",
   "theorems": [
    "C05_HH",
    "C05_documented_refuted"
   ],
   "note": "The documented identity is refuted for complex operators given only matvec_transp."
  },
  {
   "property": "C06",
   "status": "proved",
   "theorems": [
    "C06_flags"
   ],
   "note": ""
  },
  {
   "property": "C07",
   "status": "proved",
   "theorems": [
    "C07_add_sub",
    "C07_mul",
    "C07_vector",
    "C07_pow",
    "C07_expressions"
   ],
   "note": ""
  },
  {
   "property": "C08",
   "status": "proved",
   "theorems": [
    "C08_shapes",
    "C01_formula"
   ],
   "note": ""
  },
  {
   "property": "C09",
   "status": "proved",
   "theorems": [
    "C09_own_counter",
    "C09_only_counters",
    "C09_transpose",
    "C09_hermitian_transpose",
    "C09_reset",
    "C09_product"
   ],
   "note": "The transpose claim fails for complex operators flagged hermitian only (C09_hermitian_transpose)."
  },
  {
   "property": "C10",
   "status": "proved",
   "theorems": [
    "C10_dtype",
    "C10_algebra"
   ],
   "note": ""
  },
  {
   "property": "C11",
   "status": "proved",
   "theorems": [
    "C11_flags_sound",
    "C11_product_unflagged"
   ],
   "note": ""
  },
  {
   "property": "C12",
   "status": "proved",
   "theorems": [
    "C12_zero",
    "C12_division",
    "C12_classic_int",
    "C12_classic_int_refuted"
   ],
   "note": ""
  },
  {
   "property": "C13",
   "status": "proved",
   "theorems": [
    "C13_power"
   ],
   "note": ""
  },
  {
   "property": "C14",
   "status": "proved",
   "theorems": [
    "C14_to_array"
   ],
   "note": ""
  },
  {
   "property": "C15",
   "status": "proved",
   "theorems": [
    "C15_diagonal",
    "C15_abs",
    "C15_sqrt",
    "C15_abs_other",
    "C15_zero_identity"
   ],
   "note": "abs, sqrt and the sign test are parameters with laws; gives the complex numbers as an instance."
  },
  {
   "property": "C16",
   "status": "proved",
   "theorems": [
    "C16_alias",
    "C16_list_insulated"
   ],
   "note": ""
  },
  {
   "property": "C17",
   "status": "proved",
   "theorems": [
    "C17_reduced",
    "C17_submatrix",
    "C17_symmetric",
    "C17_duplicates_refuted"
   ],
   "note": ""
  },
  {
   "property": "C18",
   "status": "proved",
   "theorems": [
    "C18_coord",
    "C18_coord_sym",
    "C18_inferred_size",
    "C18_empty"
   ],
   "note": ""
  },
  {
   "property": "C19",
   "status": "proved",
   "theorems": [
    "C19_ndarray",
    "C19_xor"
   ],
   "note": ""
  },
  {
   "property": "C35",
   "status": "proved",
   "theorems": [
    "C35_terminates",
    "C35_counts",
    "C35_counts_check"
   ],
   "note": ""
  },
  {
   "property": "C36",
   "status": "proved",
   "theorems": [
    "C36_residual",
    "C36_history"
   ],
   "note": ""
  },
  {
   "property": "C37",
   "status": "proved",
   "theorems": [
    "C37_converges",
    "C37_Rn_default",
    "C37_orthogonality"
   ],
   "note": "With check_symmetric=False; exact arithmetic over the reals."
  },
  {
   "property": "C38",
   "status": "proved",
   "theorems": [
    "C38_sound",
    "C38_direction",
    "C38_definite",
    "C38_check_off",
    "C38_preconditioned_refuted"
   ],
   "note": "With a preconditioner the reported direction need not have nonpositive curvature: refuted."
  },
  {
   "property": "C39",
   "status": "proved",
   "theorems": [
    "C39_residual",
    "C39_exact_inverse_refuted"
   ],
   "note": ""
  },
  {
   "property": "C40",
   "status": "proved",
   "theorems": [
    "C40_histories",
    "C40_accumulate",
    "C40_failed_check"
   ],
   "note": ""
  },
  {
   "property": "C58",
   "status": "proved",
   "theorems": [
    "C58_symOrtho"
   ],
   "note": ""
  },
  {
   "property": "C59",
   "status": "proved",
   "theorems": [
    "C59_roots"
   ],
   "note": ""
  },
  {
   "property": "C60",
   "status": "proved",
   "theorems": [
    "C60_accepts",
    "C60_rejects",
    "C60_nonsquare",
    "C60_count",
    "C60_converse"
   ],
   "note": ""
  },
  {
   "property": "C61",
   "status": "proved",
   "theorems": [
    "C61_check",
    "C61_accepts",
    "C61_nonsquare",
    "C61_count"
   ],
   "note": ""
  },
  {
   "property": "C62",
   "status": "proved",
   "theorems": [
    "C62_entries",
    "C62_exact",
    "C62_linear",
    "C62_symmetric",
    "C62_positive"
   ],
   "note": "That the argument is not modified is part of C64."
  },
  {
   "property": "C63",
   "status": "proved",
   "theorems": [
    "C63_exact",
    "C63_linear",
    "C63_symmetric",
    "C63_positive",
    "C63_lengths",
    "C63_entries",
    "C63_nonsquare",
    "C63_symmetric_iff"
   ],
   "note": ""
  },
  {
   "property": "C41",
   "status": "proved",
   "theorems": [
    "C41_counts"
   ],
   "note": ""
  },
  {
   "property": "C42",
   "status": "proved",
   "theorems": [
    "C42_residual"
   ],
   "note": ""
  },
  {
   "property": "C43",
   "status": "proved",
   "theorems": [
    "C43_counts"
   ],
   "note": ""
  },
  {
   "property": "C44",
   "status": "proved",
   "theorems": [
    "C44_converged",
    "C44_residNorm_refuted"
   ],
   "note": ""
  },
  {
   "property": "C45",
   "status": "proved",
   "theorems": [
    "C45_counts",
    "C45_zero_budget"
   ],
   "note": ""
  },
  {
   "property": "C46",
   "status": "proved",
   "theorems": [
    "C46_bound"
   ],
   "note": "Hypothesis: the step length alpha is nonzero in every iteration executed (no breakdown)."
  },
  {
   "property": "C47",
   "status": "proved",
   "theorems": [
    "C47_stopping",
    "C47_early",
    "C47_precon_ignored",
    "C47_window0"
   ],
   "note": ""
  },
  {
   "property": "C48",
   "status": "proved",
   "theorems": [
    "C48_residual",
    "C48_monotone",
    "C48_singular_refuted"
   ],
   "note": "No breakdown is expressed by: the shifted operator does not shrink vectors of the Krylov space by more than machine epsilon. Without it both claims fail (refuted on a singular system)."
  },
  {
   "property": "C66",
   "status": "proved",
   "theorems": [
    "C66_eigenvector",
    "C66_one_by_one"
   ],
   "note": "Exact real arithmetic extended with IEEE infinities and NaN; the sign of zero is not modelled."
  },
  {
   "property": "C49",
   "status": "proved",
   "theorems": [
    "C49_never_returns",
    "C49_check",
    "C49_passes"
   ],
   "note": "The statements after the failing attribute look-up are unreachable and represented by an arbitrary continuation; they are modelled, for an object that does have the attribute, in C79-C81."
  },
  {
   "property": "C50",
   "status": "proved",
   "theorems": [
    "C50_terminates",
    "C50_stopping",
    "C50_zero",
    "C50_conlim",
    "C50_wantvar"
   ],
   "note": "The last clause (2*itn+1 products without breakdown) is in C67_krylov; in any arithmetic the count lies between itn and 2*itn+1."
  },
  {
   "property": "C51",
   "status": "proved",
   "theorems": [
    "C51_residual",
    "C51_history",
    "C51_stop_meaning",
    "C51_r1norm_refuted"
   ],
   "note": "With nonzero damp r1norm lies between ||b-Ax|| and r2norm, and need not equal ||b-Ax||: refuted."
  },
  {
   "property": "C52",
   "status": "proved",
   "theorems": [
    "C52_optimality",
    "C52_zero"
   ],
   "note": ""
  },
  {
   "property": "C67",
   "status": "proved",
   "theorems": [
    "C67_krylov",
    "C67_minimum_norm",
    "C67_default_limit"
   ],
   "note": ""
  },
  {
   "property": "C53",
   "status": "proved",
   "theorems": [
    "C53_terminates",
    "C53_stopping",
    "C53_zero",
    "C53_zero_exact",
    "C53_zero_residual",
    "C53_damped",
    "C53_consistent",
    "C53_identity_raises"
   ],
   "note": ""
  },
  {
   "property": "C54",
   "status": "proved",
   "theorems": [
    "C54_normar"
   ],
   "note": "Proved for any damp (with the normal equations of the damped problem)."
  },
  {
   "property": "C68",
   "status": "proved",
   "theorems": [
    "C68_normr",
    "C68_krylov",
    "C68_stop_meaning",
    "C68_consistent_raises"
   ],
   "note": ""
  },
  {
   "property": "C55",
   "status": "proved",
   "theorems": [
    "C55_terminates",
    "C55_stopping",
    "C55_ignored",
    "C55_wantvar",
    "C55_zero",
    "C55_no_iteration",
    "C55_returns"
   ],
   "note": "rhs = 0 and the absence of iterations raise UnboundLocalError: proved in exact arithmetic without preconditioners."
  },
  {
   "property": "C56",
   "status": "proved",
   "theorems": [
    "C56_breakdown",
    "C56_every_iteration_refuted"
   ],
   "note": "A x + r = b does not hold at every iteration (refuted on diag(1,2,3)); what holds at every iteration is x = A'r. On breakdown both hold."
  },
  {
   "property": "C57",
   "status": "proved",
   "theorems": [
    "C57_terminates",
    "C57_stopping",
    "C57_ignored"
   ],
   "note": ""
  },
  {
   "property": "C69",
   "status": "proved",
   "theorems": [
    "C69_galerkin",
    "C69_norms",
    "C69_stopping"
   ],
   "note": ""
  },
  {
   "property": "C70",
   "status": "proved",
   "theorems": [
    "C70_minres",
    "C70_termination",
    "C70_default_limit",
    "C70_default_limit_refuted"
   ],
   "note": ""
  },
  {
   "property": "C20",
   "status": "proved",
   "theorems": [
    "C20_product"
   ],
   "note": "Blocks in a consistent grid, in any heap; sizes may be 0."
  },
  {
   "property": "C21",
   "status": "proved",
   "theorems": [
    "C21_duals",
    "C21_blocks"
   ],
   "note": ""
  },
  {
   "property": "C22",
   "status": "proved",
   "theorems": [
    "C22_shape_error",
    "C22_success",
    "C22_ragged",
    "C22_empty",
    "C22_unchecked"
   ],
   "note": ""
  },
  {
   "property": "C23",
   "status": "proved",
   "theorems": [
    "C23_symmetric",
    "C23_diagonal",
    "C23_not_square",
    "C23_second",
    "C23_second_one_row"
   ],
   "note": "Both for symmetric=True and for hermitian=True (one of the two)."
  },
  {
   "property": "C24",
   "status": "proved",
   "theorems": [
    "C24_assign",
    "C24_symmetric",
    "C24_pyindex"
   ],
   "note": "Integer indices. The assigned block must not depend on K itself."
  },
  {
   "property": "C25",
   "status": "proved",
   "theorems": [
    "C25_product",
    "C25_empty"
   ],
   "note": ""
  },
  {
   "property": "C26",
   "status": "proved",
   "theorems": [
    "C26_square",
    "C26_rectangular"
   ],
   "note": ""
  },
  {
   "property": "C27",
   "status": "proved",
   "theorems": [
    "C27_assign",
    "C27_symmetric"
   ],
   "note": "Integer indices. The assigned block must depend neither on D nor on the assigned list."
  },
  {
   "property": "C71",
   "status": "proved",
   "theorems": [
    "C71_stop",
    "C71_continue"
   ],
   "note": ""
  },
  {
   "property": "C72",
   "status": "proved",
   "theorems": [
    "C72_cgs_residual",
    "C72_cgs",
    "C72_spd",
    "C72_spd_no_breakdown",
    "C72_polynomials"
   ],
   "note": ""
  },
  {
   "property": "C73",
   "status": "proved",
   "theorems": [
    "C73_bicgstab",
    "C73_omega"
   ],
   "note": ""
  },
  {
   "property": "C74",
   "status": "proved",
   "theorems": [
    "C74_tfqmr"
   ],
   "note": ""
  },
  {
   "property": "C28",
   "status": "proved",
   "theorems": [
    "C28_memory",
    "C28_store",
    "C28_restart",
    "C28_slots",
    "C28_no_room",
    "C28_total"
   ],
   "note": "Memory, stores and restarts: any scalars, including floating point. C28_total: exact arithmetic."
  },
  {
   "property": "C29",
   "status": "proved",
   "theorems": [
    "C29_two_loop",
    "C29_forward"
   ],
   "note": "Exact real arithmetic, any inner product space; the history may contain products."
  },
  {
   "property": "C30",
   "status": "proved",
   "theorems": [
    "C30_symmetric",
    "C30_positive"
   ],
   "note": "Exact real arithmetic. Compact operator: for any small solver that solves nonsingular systems (one is exhibited in Gauss.v)."
  },
  {
   "property": "C31",
   "status": "proved",
   "theorems": [
    "C31_secant_inverse",
    "C31_secant_forward"
   ],
   "note": ""
  },
  {
   "property": "C32",
   "status": "proved",
   "theorems": [
    "C32_inverse_pair",
    "C32_scaling_refuted"
   ],
   "note": "The case scaling=True is refuted by a concrete history."
  },
  {
   "property": "C33",
   "status": "proved",
   "theorems": [
    "C33_compact_inverse",
    "C33_compact_forward"
   ],
   "note": "The small system is proved nonsingular, so any correct solver returns its solution."
  },
  {
   "property": "C34",
   "status": "proved",
   "theorems": [
    "C34_structured",
    "C34_others"
   ],
   "note": "For any positional and keyword arguments."
  },
  {
   "property": "C65",
   "status": "proved",
   "theorems": [
    "C65_tolerances",
    "C65_ignored",
    "C65_atol_rtol",
    "C65_reserved",
    "C65_documentation_refuted"
   ],
   "note": ""
  },
  {
   "property": "C64",
   "status": "proved",
   "theorems": [
    "C64_caller_arrays",
    "C64_stored_arrays",
    "C64_results"
   ],
   "note": "All branch choices, any number of iterations, any exception point; operators may own arrays, write to them and return them or their argument. SYMMLQ included."
  },
  {
   "property": "C75",
   "status": "proved",
   "theorems": [
    "C75_minres",
    "C75_minres_stops"
   ],
   "note": ""
  },
  {
   "property": "C76",
   "status": "proved",
   "theorems": [
    "C76_lsqr",
    "C76_lsqr_optimal",
    "C76_lsqr_stop"
   ],
   "note": ""
  },
  {
   "property": "C77",
   "status": "proved",
   "theorems": [
    "C77_lsmr",
    "C77_lsmr_zero",
    "C77_lsmr_error"
   ],
   "note": ""
  },
  {
   "property": "C78",
   "status": "proved",
   "theorems": [
    "C78_craig",
    "C78_craig_zero",
    "C78_craig_returns",
    "C78_craigmr"
   ],
   "note": ""
  },
  {
   "property": "C79",
   "status": "proved",
   "theorems": [
    "C79_missing",
    "C79_present",
    "C79_outcome",
    "C79_unbound",
    "C79_counters"
   ],
   "note": "The attribute matvec that the released class lacks (C49) is a parameter of the model."
  },
  {
   "property": "C80",
   "status": "proved",
   "theorems": [
    "C80_symmlq",
    "C80_finite",
    "C80_iterates",
    "C80_lq_closest"
   ],
   "note": ""
  },
  {
   "property": "C81",
   "status": "proved",
   "theorems": [
    "C81_limit_refuted",
    "C81_iterates_refuted"
   ],
   "note": ""
  },
  {
   "property": "C82",
   "status": "proved",
   "theorems": [
    "C82_symmlq",
    "C82_finite",
    "C82_iterates"
   ],
   "note": ""
  },
  {
   "property": "C83",
   "status": "proved",
   "theorems": [
    "C83_slice_indices",
    "C83_slice_plain",
    "C83_slice_all",
    "C83_set_int",
    "C83_index",
    "C83_slice",
    "C83_slice_errors",
    "C83_symmetric"
   ],
   "note": ""
  },
  {
   "property": "C84",
   "status": "proved",
   "theorems": [
    "C84_setslice_plain",
    "C84_index",
    "C84_slice",
    "C84_any_flags",
    "C84_sizes_unchecked"
   ],
   "note": "A complex block in a real operator is excluded by hypothesis."
  },
  {
   "property": "C85",
   "status": "proved",
   "theorems": [
    "C85_store_fails",
    "C85_store",
    "C85_store_no_room",
    "C85_product_quiet",
    "C85_product",
    "C85_symmetric",
    "C85_one",
    "C85_defect",
    "C85_secant_refuted"
   ],
   "note": "No such object can be built with the released constructor (C34); the methods are modelled on objects with the attributes it was meant to set."
  },
  {
   "property": "C86",
   "status": "proved",
   "theorems": [
    "C86_client",
    "C86_cg",
    "C86_cgs",
    "C86_bicgstab",
    "C86_tfqmr",
    "C86_minres",
    "C86_lsqr",
    "C86_lsmr",
    "C86_craig",
    "C86_craigmr"
   ],
   "note": "SYMMLQ, whose solve never returns (C49), is left out. Counters of A and A.T are those reported unless a preconditioner, or one of the two, is built from the other."
  },
  {
   "property": "C87",
   "status": "proved",
   "theorems": [
    "C87_cg",
    "C87_family",
    "C87_normal_equations",
    "C87_least_squares",
    "C87_lsqr"
   ],
   "note": ""
  },
  {
   "property": "C88",
   "status": "proved",
   "theorems": [
    "C88_isotropic_cg",
    "C88_isotropic_family",
    "C88_reported_cg",
    "C88_reported_cgs",
    "C88_reported_bicgstab",
    "C88_scaled_family",
    "C88_scaled_cg",
    "C88_phase",
    "C88_hermitian_refuted"
   ],
   "note": "All arrays have complex dtype; the runs with z b assume that real and complex division agree also for a zero divisor."
  },
  {
   "property": "C89",
   "status": "proved",
   "theorems": [
    "C89_optimal",
    "C89_eigenvalues",
    "C89_rate",
    "C89_Rn"
   ],
   "note": ""
  },
  {
   "property": "C90",
   "status": "proved",
   "theorems": [
    "C90_minres",
    "C90_minres_indefinite",
    "C90_minres_eigenvalues",
    "C90_lsqr",
    "C90_lsqr_eigenvalues",
    "C90_lsqr_stops",
    "C90_lsmr",
    "C90_lsmr_eigenvalues",
    "C90_lsmr_stops_atol",
    "C90_lsmr_stops_btol",
    "C90_craig",
    "C90_craig_eigenvalues",
    "C90_craigmr",
    "C90_craigmr_eigenvalues",
    "C90_minres_stops",
    "C90_minres_stops_indefinite",
    "C90_minres_stops_eigenvalues"
   ],
   "note": ""
  },
  {
   "property": "C91",
   "status": "proved",
   "theorems": [
    "C91_inverse",
    "C91_lsqr",
    "C91_lsmr",
    "C91_craig",
    "C91_craigmr",
    "C91_minres",
    "C91_formulas"
   ],
   "note": ""
  },
  {
   "property": "C92",
   "status": "proved",
   "theorems": [
    "C92_in_range",
    "C92_last_wins",
    "C92_repeated_columns",
    "C92_out_of_range",
    "C92_sym_out_of_range",
    "C92_coord",
    "C92_coord_sym",
    "C92_coord_out_of_range",
    "C92_coord_nonnegative",
    "C92_coord_sym_refuted"
   ],
   "note": ""
  },
  {
   "property": "C93",
   "status": "proved",
   "theorems": [
    "C93_rank",
    "C93_cg",
    "C93_cgs",
    "C93_bicgstab",
    "C93_tfqmr",
    "C93_minres",
    "C93_lsqr",
    "C93_lsmr",
    "C93_craig",
    "C93_craigmr",
    "C93_lbfgs_rank",
    "C93_lbfgs_cg",
    "C93_lbfgs_others",
    "C93_minres_stops"
   ],
   "note": ""
  },
  {
   "property": "C94",
   "status": "proved",
   "theorems": [
    "C94_expression",
    "C94_program",
    "C94_dispatch",
    "C94_rmul",
    "C94_rmatvec",
    "C94_laws",
    "C94_dtype_setter",
    "C94_dtype_narrow_refuted"
   ],
   "note": "An array as the left operand of an operator is decided by numpy and outside the model."
  },
  {
   "property": "C95",
   "status": "proved",
   "theorems": [
    "C95_pysparse_products",
    "C95_pysparse_flag",
    "C95_pysparse",
    "C95_cholesky_errors",
    "C95_cholesky",
    "C95_cholesky_complex",
    "C95_cholesky_hermitian_refuted",
    "C95_cgs",
    "C95_bicgstab",
    "C95_tfqmr",
    "C95_minres",
    "C95_lsqr",
    "C95_lsmr",
    "C95_craig",
    "C95_craigmr"
   ],
   "note": "External matrices and factorizations are records of functions. C95_minres is about exact arithmetic where 1/0 times 0 is 0; with NaN the second iteration spoils the result (C66)."
  },
  {
   "property": "C96",
   "status": "proved",
   "theorems": [
    "C96_symmetric",
    "C96_symmetric_operator",
    "C96_definite",
    "C96_definite_hermitian",
    "C96_symmetric_refuted",
    "C96_definite_refuted",
    "C96_hermitian_refuted"
   ],
   "note": "Exact complex arithmetic with the lexicographic order numpy uses on complex numbers; draws are an arbitrary list."
  },
  {
   "property": "C97",
   "status": "proved",
   "theorems": [
    "C97_cg",
    "C97_cgs",
    "C97_bicgstab",
    "C97_rounded_cg",
    "C97_rounded_cgs",
    "C97_rounded_bicgstab",
    "C97_rounding"
   ],
   "note": "The dense theorems are without underflow. TFQMR, which tests a bound instead of a residual norm, is not covered. CG with check_symmetric is covered when the check passes."
  },
  {
   "property": "C98",
   "status": "proved",
   "theorems": [
    "C98_three",
    "C98_build",
    "C98_minres"
   ],
   "note": "Real dtypes, exact real arithmetic. The blocks of the preconditioner are the exact inverses. The list of the preconditioner blocks must not be a row of the block operator, which the constructor extends in place."
  },
  {
   "property": "C99",
   "status": "proved",
   "theorems": [
    "C99_cg",
    "C99_cgs",
    "C99_bicgstab",
    "C99_tfqmr",
    "C99_minres",
    "C99_lsqr",
    "C99_lsmr",
    "C99_craig",
    "C99_craigmr",
    "C99_where_cg",
    "C99_where_cgs",
    "C99_where_bicgstab",
    "C99_where_tfqmr",
    "C99_where_minres",
    "C99_where_ls",
    "C99_integer",
    "C99_floor_cg",
    "C99_floor_cgs"
   ],
   "note": "Values are forgotten: a test on data may go either way, so the model has more executions than the code; the statements about all executions carry over, the existence of a TypeError only says that the loop body is not empty of executions. Assumes the casting rule same_kind of numpy 1.10 and later, and that a product has the join of the dtypes of operator and vector. Widths within a kind, entries assigned by index, and overflow are not modelled. The least-squares solvers are modelled for a right-hand side with positive first beta (LSQR, LSMR: and alpha)."
  },
  {
   "property": "C100",
   "status": "proved",
   "theorems": [
    "C100_cg",
    "C100_cgs",
    "C100_bicgstab",
    "C100_tfqmr",
    "C100_lsqr",
    "C100_lsmr",
    "C100_craig",
    "C100_craigmr",
    "C100_minres",
    "C100_real_cg",
    "C100_real_krylov",
    "C100_real_lsqr",
    "C100_real_lsmr",
    "C100_real_craig",
    "C100_real_craigmr",
    "C100_minres_early",
    "C100_minres_scale",
    "C100_minres_refuted",
    "C100_rounded_cg",
    "C100_rounded_krylov",
    "C100_rounded_lsqr"
   ],
   "note": "The first nine theorems are about any arithmetic with a scaling (a record of laws); real and rounded arithmetic are shown to be instances. Rounded arithmetic has unbounded exponents. The norm of the window of error terms is assumed homogeneous. The early stop of MINRES is exact arithmetic, without preconditioner."
  },
  {
   "property": "C101",
   "status": "proved",
   "theorems": [
    "C101_splitting",
    "C101_arnorm",
    "C101_arnorm_zero",
    "C101_documented_refuted"
   ],
   "note": "Exact arithmetic, no preconditioners, right-hand side not zero. The documented meaning of r1norm, Arnorm and xnorm is refuted by a 2x2 system after one iteration."
  },
  {
   "property": "C102",
   "status": "proved",
   "theorems": [
    "C102_frobenius",
    "C102_lsqr",
    "C102_lsqr_bound",
    "C102_lsqr_backward1",
    "C102_lsqr_backward2",
    "C102_lsmr",
    "C102_lsmr_bound",
    "C102_lsmr_backward1",
    "C102_lsmr_backward2",
    "C102_lsqr_overestimate_refuted"
   ],
   "note": "Exact arithmetic, no preconditioners. The Frobenius norm enters as any bound of the sums of squares over orthonormal lists; C102_frobenius gives it for matrices. LSMR theorems are for a right-hand side with nonzero transposed product, and numpy.linalg.norm exact on the solution vector."
  },
  {
   "property": "C103",
   "status": "proved",
   "theorems": [
    "C103_lsqr_lower",
    "C103_lsqr_upper",
    "C103_lsqr_condition_refuted",
    "C103_lsmr_conlim",
    "C103_lsmr_condition_refuted"
   ],
   "note": "Exact arithmetic, no preconditioners. The smallest singular value enters as any s with s^2 |z|^2 <= |A z|^2 + damp^2 |z|^2. The value of condA beyond the first iteration of LSMR is not bounded."
  },
  {
   "property": "C104",
   "status": "proved",
   "theorems": [
    "C104_ynorm",
    "C104_ynorm_gap",
    "C104_anorm",
    "C104_anorm_bound",
    "C104_codes",
    "C104_acond",
    "C104_definite",
    "C104_orthogonal",
    "C104_code4_refuted"
   ],
   "note": "Exact arithmetic, no preconditioner. The lower bound eps of the operator on the Krylov space is the one of C48 (without it gamma is replaced by eps). The orthogonal case is in exact arithmetic extended with the IEEE special values (1/0 = inf). Nothing is said about Acond when the code is -1 or 10."
  },
  {
   "property": "C105",
   "status": "proved",
   "theorems": [
    "C105_anorm",
    "C105_anorm_bound",
    "C105_acond_low",
    "C105_definite",
    "C105_backward",
    "C105_gives_up",
    "C105_orthogonal",
    "C105_code4_refuted"
   ],
   "note": "Exact arithmetic, no preconditioner, the object supplying matvec (see C79). For an indefinite operator no upper bound of acond is stated."
  },
  {
   "property": "C106",
   "status": "proved",
   "theorems": [
    "C106_secant",
    "C106_count",
    "C106_rank",
    "C106_inverse",
    "C106_minres",
    "C106_krylov",
    "C106_cg",
    "C106_not_conjugate_refuted"
   ],
   "note": "Exact arithmetic; the product of the operator object enters the solvers as the function that its matvec computes. That preconditioned CG does not profit is C39."
  },
  {
   "property": "C107",
   "status": "proved",
   "theorems": [
    "C107_minres_ynorm",
    "C107_minres_anorm",
    "C107_minres_factor",
    "C107_minres_scaled",
    "C107_minres_codes",
    "C107_minres_definite",
    "C107_minres_acond",
    "C107_symmlq_anorm",
    "C107_symmlq_factor",
    "C107_symmlq_scaled",
    "C107_symmlq_acond_low",
    "C107_symmlq_definite",
    "C107_symmlq_code1",
    "C107_symmlq_gives_up"
   ],
   "note": "Exact arithmetic. Any factorisation of the preconditioner will do in the factor theorems; its existence is assumed. Nothing is said about Acond of MINRES when the code is -1 or 10."
  },
  {
   "property": "C108",
   "status": "proved",
   "theorems": [
    "C108_lsqr_anorm",
    "C108_lsqr_factor",
    "C108_lsqr_acond",
    "C108_lsqr_scaled",
    "C108_lsmr_anorm",
    "C108_lsmr_factor",
    "C108_lsmr_conlim"
   ],
   "note": "Exact arithmetic over any pair of inner product spaces; the models of C50 and C53 with their preconditioner branches."
  },
  {
   "property": "C109",
   "status": "proved",
   "theorems": [
    "C109_splitting",
    "C109_arnorm",
    "C109_arnorm_zero"
   ],
   "note": "Exact arithmetic, right-hand side not zero; the model of C55 with its preconditioner branches."
  },
  {
   "property": "C110",
   "status": "proved",
   "theorems": [
    "C110_operator",
    "C110_bounds1",
    "C110_bounds2",
    "C110_cg1",
    "C110_cg2",
    "C110_minres1",
    "C110_minres2",
    "C110_eigen1",
    "C110_eigen2",
    "C110_sharp1",
    "C110_sharp2",
    "C110_cg_sine",
    "C110_rounded1",
    "C110_rounded2",
    "C110_rounded_operator",
    "C110_rounded_cg1",
    "C110_rounded_cg2"
   ],
   "note": "Exact arithmetic, and for the rounded theorems the rounded arithmetic of C97 (overflow, no underflow). An operator enters CG as a function on R^n whose results, as lists, are those of the gallery model; C110_operator says that there is one for each n."
  }
 ]
}