C('C01', 'proved', 'C01_formula C01_base',
  'All formulas over any honest operators. Base operators supplied with only one of matvec_transp/matvec_adj and complex dtype are covered by C03_inferred instead (their T.T or H.H is None, so nested T/H formulas raise).')
C('C02', 'proved', 'C02_transpose C01_base')
C('C03', 'proved', 'C03_adjoint C03_inferred')
C('C04', 'proved', 'C04_TT C04_documented_refuted', 'The documented identity is refuted for complex operators given only matvec_adj.')
C('C05', 'proved', 'C05_HH C05_documented_refuted', 'The documented identity is refuted for complex operators given only matvec_transp.')
C('C06', 'proved', 'C06_flags')
C('C07', 'proved', 'C07_add_sub C07_mul C07_vector C07_pow C07_expressions')
C('C08', 'proved', 'C08_shapes C01_formula')
C('C09', 'proved', 'C09_own_counter C09_only_counters C09_transpose C09_hermitian_transpose C09_reset C09_product',
  'The transpose claim fails for complex operators flagged hermitian only (C09_hermitian_transpose).')
C('C10', 'proved', 'C10_dtype C10_algebra')
C('C11', 'proved', 'C11_flags_sound C11_product_unflagged')
C('C12', 'proved', 'C12_zero C12_division C12_classic_int C12_classic_int_refuted')
C('C13', 'proved', 'C13_power')
C('C14', 'proved', 'C14_to_array')
C('C15', 'proved', 'C15_diagonal C15_abs C15_sqrt C15_abs_other C15_zero_identity',
  'abs, sqrt and the sign test are parameters with laws; gives the complex numbers as an instance.')
C('C16', 'proved', 'C16_alias C16_list_insulated')
C('C17', 'proved', 'C17_reduced C17_submatrix C17_symmetric C17_duplicates_refuted')
C('C18', 'proved', 'C18_coord C18_coord_sym C18_inferred_size C18_empty')
C('C19', 'proved', 'C19_ndarray C19_xor')
C('C35', 'proved', 'C35_terminates C35_counts C35_counts_check')
C('C36', 'proved', 'C36_residual C36_history')
C('C37', 'proved', 'C37_converges C37_Rn_default C37_orthogonality',
  'With check_symmetric=False; exact arithmetic over the reals.')
C('C38', 'proved', 'C38_sound C38_direction C38_definite C38_check_off C38_preconditioned_refuted',
  'With a preconditioner the reported direction need not have nonpositive curvature: refuted.')
C('C39', 'proved', 'C39_residual C39_exact_inverse_refuted')
C('C40', 'proved', 'C40_histories C40_accumulate C40_failed_check')
C('C58', 'proved', 'C58_symOrtho')
C('C59', 'proved', 'C59_roots')
C('C60', 'proved', 'C60_accepts C60_rejects C60_nonsquare C60_count C60_converse')
C('C61', 'proved', 'C61_check C61_accepts C61_nonsquare C61_count')
C('C62', 'proved', 'C62_entries C62_exact C62_linear C62_symmetric C62_positive',
  'That the argument is not modified is part of C64.')
C('C63', 'proved', 'C63_exact C63_linear C63_symmetric C63_positive C63_lengths C63_entries C63_nonsquare C63_symmetric_iff')
C('C41', 'proved', 'C41_counts')
C('C42', 'proved', 'C42_residual')
C('C43', 'proved', 'C43_counts')
C('C44', 'proved', 'C44_converged C44_residNorm_refuted')
C('C45', 'proved', 'C45_counts C45_zero_budget')
C('C46', 'proved', 'C46_bound', 'Hypothesis: the step length alpha is nonzero in every iteration executed (no breakdown).')
C('C47', 'proved', 'C47_stopping C47_early C47_precon_ignored C47_window0')
C('C48', 'proved', 'C48_residual C48_monotone C48_singular_refuted', 'No breakdown is expressed by: the shifted operator does not shrink vectors of the Krylov space by more than machine epsilon. Without it both claims fail (refuted on a singular system).')
C('C66', 'proved', 'C66_eigenvector C66_one_by_one', 'Exact real arithmetic extended with IEEE infinities and NaN; the sign of zero is not modelled.')
C('C49', 'proved', 'C49_never_returns C49_check C49_passes', 'The statements after the failing attribute look-up are unreachable and represented by an arbitrary continuation; they are modelled, for an object that does have the attribute, in C79-C81.')
C('C50', 'proved', 'C50_terminates C50_stopping C50_zero C50_conlim C50_wantvar', 'The last clause (2*itn+1 products without breakdown) is in C67_krylov; in any arithmetic the count lies between itn and 2*itn+1.')
C('C51', 'proved', 'C51_residual C51_history C51_stop_meaning C51_r1norm_refuted', 'With nonzero damp r1norm lies between ||b-Ax|| and r2norm, and need not equal ||b-Ax||: refuted.')
C('C52', 'proved', 'C52_optimality C52_zero')
C('C67', 'proved', 'C67_krylov C67_minimum_norm C67_default_limit')
C('C53', 'proved', 'C53_terminates C53_stopping C53_zero C53_zero_exact C53_zero_residual C53_damped C53_consistent C53_identity_raises')
C('C54', 'proved', 'C54_normar', 'Proved for any damp (with the normal equations of the damped problem).')
C('C68', 'proved', 'C68_normr C68_krylov C68_stop_meaning C68_consistent_raises')
C('C55', 'proved', 'C55_terminates C55_stopping C55_ignored C55_wantvar C55_zero C55_no_iteration C55_returns', 'rhs = 0 and the absence of iterations raise UnboundLocalError: proved in exact arithmetic without preconditioners.')
C('C56', 'proved', 'C56_breakdown C56_every_iteration_refuted', 'A x + r = b does not hold at every iteration (refuted on diag(1,2,3)); what holds at every iteration is x = A\'r. On breakdown both hold.')
C('C57', 'proved', 'C57_terminates C57_stopping C57_ignored')
C('C69', 'proved', 'C69_galerkin C69_norms C69_stopping')
C('C70', 'proved', 'C70_minres C70_termination C70_default_limit C70_default_limit_refuted')
C('C20', 'proved', 'C20_product', 'Blocks in a consistent grid, in any heap; sizes may be 0.')
C('C21', 'proved', 'C21_duals C21_blocks')
C('C22', 'proved', 'C22_shape_error C22_success C22_ragged C22_empty C22_unchecked')
C('C23', 'proved', 'C23_symmetric C23_diagonal C23_not_square C23_second C23_second_one_row', 'Both for symmetric=True and for hermitian=True (one of the two).')
C('C24', 'proved', 'C24_assign C24_symmetric C24_pyindex', 'Integer indices. The assigned block must not depend on K itself.')
C('C25', 'proved', 'C25_product C25_empty')
C('C26', 'proved', 'C26_square C26_rectangular')
C('C27', 'proved', 'C27_assign C27_symmetric', 'Integer indices. The assigned block must depend neither on D nor on the assigned list.')
C('C71', 'proved', 'C71_stop C71_continue')
C('C72', 'proved', 'C72_cgs_residual C72_cgs C72_spd C72_spd_no_breakdown C72_polynomials')
C('C73', 'proved', 'C73_bicgstab C73_omega')
C('C74', 'proved', 'C74_tfqmr')
C('C28', 'proved', 'C28_memory C28_store C28_restart C28_slots C28_no_room C28_total', 'Memory, stores and restarts: any scalars, including floating point. C28_total: exact arithmetic.')
C('C29', 'proved', 'C29_two_loop C29_forward', 'Exact real arithmetic, any inner product space; the history may contain products.')
C('C30', 'proved', 'C30_symmetric C30_positive', 'Exact real arithmetic. Compact operator: for any small solver that solves nonsingular systems (one is exhibited in Gauss.v).')
C('C31', 'proved', 'C31_secant_inverse C31_secant_forward')
C('C32', 'proved', 'C32_inverse_pair C32_scaling_refuted', 'The case scaling=True is refuted by a concrete history.')
C('C33', 'proved', 'C33_compact_inverse C33_compact_forward', 'The small system is proved nonsingular, so any correct solver returns its solution.')
C('C34', 'proved', 'C34_structured C34_others', 'For any positional and keyword arguments.')
C('C65', 'proved', 'C65_tolerances C65_ignored C65_atol_rtol C65_reserved C65_documentation_refuted')
C('C64', 'proved', 'C64_caller_arrays C64_stored_arrays C64_results', 'All branch choices, any number of iterations, any exception point; operators may own arrays, write to them and return them or their argument. SYMMLQ included.')
C('C75', 'proved', 'C75_minres C75_minres_stops')
C('C76', 'proved', 'C76_lsqr C76_lsqr_optimal C76_lsqr_stop')
C('C77', 'proved', 'C77_lsmr C77_lsmr_zero C77_lsmr_error')
C('C78', 'proved', 'C78_craig C78_craig_zero C78_craig_returns C78_craigmr')
C('C79', 'proved', 'C79_missing C79_present C79_outcome C79_unbound C79_counters', 'The attribute matvec that the released class lacks (C49) is a parameter of the model.')
C('C80', 'proved', 'C80_symmlq C80_finite C80_iterates C80_lq_closest')
C('C81', 'proved', 'C81_limit_refuted C81_iterates_refuted')
C('C82', 'proved', 'C82_symmlq C82_finite C82_iterates')
C('C83', 'proved', 'C83_slice_indices C83_slice_plain C83_slice_all C83_set_int C83_index C83_slice C83_slice_errors C83_symmetric')
C('C84', 'proved', 'C84_setslice_plain C84_index C84_slice C84_any_flags C84_sizes_unchecked', 'A complex block in a real operator is excluded by hypothesis.')
C('C85', 'proved', 'C85_store_fails C85_store C85_store_no_room C85_product_quiet C85_product C85_symmetric C85_one C85_defect C85_secant_refuted', 'No such object can be built with the released constructor (C34); the methods are modelled on objects with the attributes it was meant to set.')
C('C86', 'proved', 'C86_client C86_cg C86_cgs C86_bicgstab C86_tfqmr C86_minres C86_lsqr C86_lsmr C86_craig C86_craigmr', 'SYMMLQ, whose solve never returns (C49), is left out. Counters of A and A.T are those reported unless a preconditioner, or one of the two, is built from the other.')
C('C87', 'proved', 'C87_cg C87_family C87_normal_equations C87_least_squares C87_lsqr')
C('C88', 'proved', 'C88_isotropic_cg C88_isotropic_family C88_reported_cg C88_reported_cgs C88_reported_bicgstab C88_scaled_family C88_scaled_cg C88_phase C88_hermitian_refuted', 'All arrays have complex dtype; the runs with z b assume that real and complex division agree also for a zero divisor.')
C('C89', 'proved', 'C89_optimal C89_eigenvalues C89_rate C89_Rn')
C('C90', 'proved', 'C90_minres C90_minres_indefinite C90_minres_eigenvalues C90_lsqr C90_lsqr_eigenvalues C90_lsqr_stops C90_lsmr C90_lsmr_eigenvalues C90_lsmr_stops_atol C90_lsmr_stops_btol C90_craig C90_craig_eigenvalues C90_craigmr C90_craigmr_eigenvalues C90_minres_stops C90_minres_stops_indefinite C90_minres_stops_eigenvalues')
C('C91', 'proved', 'C91_inverse C91_lsqr C91_lsmr C91_craig C91_craigmr C91_minres C91_formulas')
C('C92', 'proved', 'C92_in_range C92_last_wins C92_repeated_columns C92_out_of_range C92_sym_out_of_range C92_coord C92_coord_sym C92_coord_out_of_range C92_coord_nonnegative C92_coord_sym_refuted')
C('C93', 'proved', 'C93_rank C93_cg C93_cgs C93_bicgstab C93_tfqmr C93_minres C93_lsqr C93_lsmr C93_craig C93_craigmr C93_lbfgs_rank C93_lbfgs_cg C93_lbfgs_others C93_minres_stops')
C('C94', 'proved', 'C94_expression C94_program C94_dispatch C94_rmul C94_rmatvec C94_laws C94_dtype_setter C94_dtype_narrow_refuted', 'An array as the left operand of an operator is decided by numpy and outside the model.')
C('C95', 'proved', 'C95_pysparse_products C95_pysparse_flag C95_pysparse C95_cholesky_errors C95_cholesky C95_cholesky_complex C95_cholesky_hermitian_refuted C95_cgs C95_bicgstab C95_tfqmr C95_minres C95_lsqr C95_lsmr C95_craig C95_craigmr', 'External matrices and factorizations are records of functions. C95_minres is about exact arithmetic where 1/0 times 0 is 0; with NaN the second iteration spoils the result (C66).')
C('C96', 'proved', 'C96_symmetric C96_symmetric_operator C96_definite C96_definite_hermitian C96_symmetric_refuted C96_definite_refuted C96_hermitian_refuted', 'Exact complex arithmetic with the lexicographic order numpy uses on complex numbers; draws are an arbitrary list.')
C('C97', 'proved', 'C97_cg C97_cgs C97_bicgstab C97_rounded_cg C97_rounded_cgs C97_rounded_bicgstab C97_rounding', 'The dense theorems are without underflow. TFQMR, which tests a bound instead of a residual norm, is not covered. CG with check_symmetric is covered when the check passes.')
C('C98', 'proved', 'C98_three C98_build C98_minres', 'Real dtypes, exact real arithmetic. The blocks of the preconditioner are the exact inverses. The list of the preconditioner blocks must not be a row of the block operator, which the constructor extends in place.')
C('C99', 'proved', 'C99_cg C99_cgs C99_bicgstab C99_tfqmr C99_minres C99_lsqr C99_lsmr C99_craig C99_craigmr C99_where_cg C99_where_cgs C99_where_bicgstab C99_where_tfqmr C99_where_minres C99_where_ls C99_integer C99_floor_cg C99_floor_cgs', 'Values are forgotten: a test on data may go either way, so the model has more executions than the code; the statements about all executions carry over, the existence of a TypeError only says that the loop body is not empty of executions. Assumes the casting rule same_kind of numpy 1.10 and later, and that a product has the join of the dtypes of operator and vector. Widths within a kind, entries assigned by index, and overflow are not modelled. The least-squares solvers are modelled for a right-hand side with positive first beta (LSQR, LSMR: and alpha).')
C('C100', 'proved', 'C100_cg C100_cgs C100_bicgstab C100_tfqmr C100_lsqr C100_lsmr C100_craig C100_craigmr C100_minres C100_real_cg C100_real_krylov C100_real_lsqr C100_real_lsmr C100_real_craig C100_real_craigmr C100_minres_early C100_minres_scale C100_minres_refuted C100_rounded_cg C100_rounded_krylov C100_rounded_lsqr', 'The first nine theorems are about any arithmetic with a scaling (a record of laws); real and rounded arithmetic are shown to be instances. Rounded arithmetic has unbounded exponents. The norm of the window of error terms is assumed homogeneous. The early stop of MINRES is exact arithmetic, without preconditioner.')
C('C101', 'proved', 'C101_splitting C101_arnorm C101_arnorm_zero C101_documented_refuted', 'Exact arithmetic, no preconditioners, right-hand side not zero. The documented meaning of r1norm, Arnorm and xnorm is refuted by a 2x2 system after one iteration.')
C('C102', 'proved', 'C102_frobenius C102_lsqr C102_lsqr_bound C102_lsqr_backward1 C102_lsqr_backward2 C102_lsmr C102_lsmr_bound C102_lsmr_backward1 C102_lsmr_backward2 C102_lsqr_overestimate_refuted', 'Exact arithmetic, no preconditioners. The Frobenius norm enters as any bound of the sums of squares over orthonormal lists; C102_frobenius gives it for matrices. LSMR theorems are for a right-hand side with nonzero transposed product, and numpy.linalg.norm exact on the solution vector.')
C('C103', 'proved', 'C103_lsqr_lower C103_lsqr_upper C103_lsqr_condition_refuted C103_lsmr_conlim C103_lsmr_condition_refuted', 'Exact arithmetic, no preconditioners. The smallest singular value enters as any s with s^2 |z|^2 <= |A z|^2 + damp^2 |z|^2. The value of condA beyond the first iteration of LSMR is not bounded.')
C('C104', 'proved', 'C104_ynorm C104_ynorm_gap C104_anorm C104_anorm_bound C104_codes C104_acond C104_definite C104_orthogonal C104_code4_refuted', 'Exact arithmetic, no preconditioner. The lower bound eps of the operator on the Krylov space is the one of C48 (without it gamma is replaced by eps). The orthogonal case is in exact arithmetic extended with the IEEE special values (1/0 = inf). Nothing is said about Acond when the code is -1 or 10.')
C('C105', 'proved', 'C105_anorm C105_anorm_bound C105_acond_low C105_definite C105_backward C105_gives_up C105_orthogonal C105_code4_refuted', 'Exact arithmetic, no preconditioner, the object supplying matvec (see C79). For an indefinite operator no upper bound of acond is stated.')
C('C106', 'proved', 'C106_secant C106_count C106_rank C106_inverse C106_minres C106_krylov C106_cg C106_not_conjugate_refuted', 'Exact arithmetic; the product of the operator object enters the solvers as the function that its matvec computes. That preconditioned CG does not profit is C39.')
C('C107', 'proved', 'C107_minres_ynorm C107_minres_anorm C107_minres_factor C107_minres_scaled C107_minres_codes C107_minres_definite C107_minres_acond C107_symmlq_anorm C107_symmlq_factor C107_symmlq_scaled C107_symmlq_acond_low C107_symmlq_definite C107_symmlq_code1 C107_symmlq_gives_up', 'Exact arithmetic. Any factorisation of the preconditioner will do in the factor theorems; its existence is assumed. Nothing is said about Acond of MINRES when the code is -1 or 10.')
C('C108', 'proved', 'C108_lsqr_anorm C108_lsqr_factor C108_lsqr_acond C108_lsqr_scaled C108_lsmr_anorm C108_lsmr_factor C108_lsmr_conlim', 'Exact arithmetic over any pair of inner product spaces; the models of C50 and C53 with their preconditioner branches.')
C('C109', 'proved', 'C109_splitting C109_arnorm C109_arnorm_zero', 'Exact arithmetic, right-hand side not zero; the model of C55 with its preconditioner branches.')
C('C110', 'proved', 'C110_operator C110_bounds1 C110_bounds2 C110_cg1 C110_cg2 C110_minres1 C110_minres2 C110_eigen1 C110_eigen2 C110_sharp1 C110_sharp2 C110_cg_sine C110_rounded1 C110_rounded2 C110_rounded_operator C110_rounded_cg1 C110_rounded_cg2', 'Exact arithmetic, and for the rounded theorems the rounded arithmetic of C97 (overflow, no underflow). An operator enters CG as a function on R^n whose results, as lists, are those of the gallery model; C110_operator says that there is one for each n.')
