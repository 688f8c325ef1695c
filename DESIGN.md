# Formal model of pykrylov — design

Prover: Coq 8.16.1, standard library only (Reals, Lra, Lia, List, QArith, ...).
Sources: `/verif/rocq/theories`.  Code under study: `/repo/pykrylov` (Python 2), read as text, never run.

## 1. Trusted base

* the Coq kernel;
* for each theorem, what `Print Assumptions` reports, listed theorem by theorem in section 6.  More
  than half are "Closed under the global context"; the theorems about exact real arithmetic use the
  standard-library axioms behind `Reals` (`ClassicalDedekindReals.sig_forall_dec`, `sig_not_dec`,
  `FunctionalExtensionality.functional_extensionality_dep`) and nothing else;
* the transcription of Python into Gallina; each definition cites file and lines of `/repo`.

No axioms, functors, module types or admitted goals are introduced, no kernel check is switched off.
Section variables and hypotheses are generalised when their section is closed and so appear as
premises of the exported theorems.

## 2. General modelling decisions

* Exceptions are values (`res A := Ok a | Err exn`, Base.v).  Loops run on fuel and return the explicit
  error `EFuel` when it is used up; the theorems show how much fuel is never used up.
* **Operator objects** (linop.py, blkop.py): a heap of records {nargin, nargout, symmetric, hermitian,
  dtype, nMatvec, matvec closure, T, H, payload}, plus heaps of arrays and of Python lists.  Closures
  are first-order data (`clo`, interpreted by `call`), so that "the same object", "None" and "counter
  incremented" are expressible.  Scalars: any field with an involution (`Fld`, laws `FldOK`); the
  complex numbers are an instance (Cplx.v).  Arrays are flattened, with a dtype kind
  (int/float/complex).  `astype` to a real dtype takes the real part (as numpy does, with a warning);
  integer truncation and float widths are not modelled.
* **Solvers**: each `solve` is one function over two records of operations without laws, `Scal` (what
  numpy scalars can do) and `Vs` (what numpy vectors can do), file Num.v.  Statements about budgets,
  counters, flags and exceptions are proved for all `Scal` and `Vs` and so hold for IEEE floating
  point with NaN and infinities.  Statements about numerical values are proved for the reals
  (`exactK dv sq`, where `dv` is any division that is right for nonzero divisors and `sq` any square
  root that is right for nonnegative arguments: what x/0 and sqrt(-1) give is a parameter) and an
  arbitrary real inner product space (`IPS`, `exactV`; `Rn n` is an instance).  C66 uses the reals
  extended with infinities and NaN (Ieee.v; the sign of zero is not represented).
* The products of a solver with an operator go through `opmul`, which counts them; C09 is the
  statement that the counter of a LinearOperator object behaves this way.
* numpy divisions never raise; divisions of Python floats by zero raise `ZeroDivisionError` and
  `math.sqrt` of a negative number raises `ValueError` (`pydiv`, `pysqrt`, in the lls modules).
* Arrays are values in the solver models: `x += y` is rebinding.  Sharing of arrays is the subject of a
  separate model (Alias.v, AliasProgs.v: every array statement of every `solve`; tests and scalars are
  forgotten, so that all paths are covered), used for C64.
* Random vectors (check functions, `np.random`) are universally quantified inputs.
* The exact-arithmetic theorems about preconditioners are obtained by showing that a preconditioned run
  is an unpreconditioned run in the space with inner product `<P u, v>` (Precon.v, `pspace`).

## 3. Property by property

| id | what is modelled | how proved |
|----|------------------|------------|
| C01-C03 | heap model of LinearOperator, all algebra methods (LinopModel, LinopExtra) | semantic invariant `Good` (an address denotes a linear map and T/H lead to addresses denoting its transpose/adjoint), preserved by every API call; induction on expression trees |
| C04-C06 | `__init__`, `__set_transpose`, `__set_adjoint`, `conjugate` | symbolic execution from an arbitrary heap, all flag combinations; refutations by witness |
| C07, C08, C10, C12 | the algebra methods | direct proofs over arbitrary heaps |
| C09 | counters in the heap | frame lemma by induction on call depth (LinopFrame, LinopDep) |
| C11 | flags | from `Good` |
| C13, C14 | `__pow__`, `to_array` | induction on k / on columns |
| C15, C16 | DiagonalOperator with an array heap | direct; aliasing via the array heap |
| C17-C19 | Reduced, Coord, ndarray constructors | list lemmas + `Good` |
| C20-C27 | blkop.py with Python lists in the heap (BlkModel) | induction on block rows/columns; refutations by witness |
| C28-C33 | lbfgs.py ring buffer and products, any inner product space (LbfgsModel) | refinement ring buffer -> list of pairs; slot of each pair and position of the next (C28_slots); the three products equal the textbook BFGS formulae |
| C34, C65 | argument passing (PyCall), the generic and structured constructors | direct |
| C35-C40 | cg.py (CgModel) | loop invariants; orthogonality + dimension bound for C37 |
| C41-C46 | cgs.py, bicgstab.py, tfqmr.py (KrylovModel) | loop invariants |
| C47-C48, C66 | minres.py (MinresModel) | loop invariants (Lanczos + QR); C66 by computation with NaN |
| C49 | symmlq.py up to the attribute look-up that always fails (Symmlq) | direct; the check of the preconditioner before it (C49_check, C49_passes) |
| C50-C52, C67 | lsqr.py (LsqrModel) | Golub-Kahan invariants (GkProof, LsqrMath) |
| C53-C54, C68 | lsmr.py (LsmrModel) | same bidiagonalisation, LSQR iterate as ghost state (LsmrMath) |
| C55-C57, C69, C70 | craig.py, craigmr.py (CraigModel) | same (CraigMath) |
| C58-C61 | symOrtho, tools/utils.py (ToolsModel) | real algebra |
| C62-C63 | gallery.py (Gallery) | list induction; PropGalleryLen.v has Poisson2dMatvec for every length, with the index of the last statement that is right only for squares |
| C64 | array statements of each solve | ownership discipline, checked program by program, sound by induction on executions |
| C71 | cgs, bicgstab, tfqmr: when they stop | loop rule `rounds` (KrylovStop) |
| C72-C74 | cgs, bicgstab, tfqmr in exact arithmetic | BiCG polynomials (KrylovPoly), finite termination (KrylovTerm) |
| C75-C78 | minres, lsqr, lsmr, craig, craigmr with preconditioners | reduction to the space with inner product <P u, v> (Precon, MinresPrecon, LsqrPrecon, LsmrPrecon, CraigPrecon) |
| C79-C81 | the whole of symmlq.py with `matvec` supplied (SymmlqModel) | control-flow invariant; LQ invariant (SymmlqProof); counterexample by computation |
| C82 | the same with a preconditioner (PropSymmlqPre) | change of inner product (Precon), reduction to C80 |
| C85 | StructuredLBFGSOperator.lbfgs_matvec and store (StructModel) on objects with the attributes the constructor was meant to set | refinement to factors of the Dennis-Gay-Welsch update; exact formula for the secant defect, counterexample |
| C83, C84 | indexing, slicing and slice assignment of block operators (BlkIndexModel) | invariant over histories of assignments; separation of the heap for slices |
| C86 | the solvers again, as programs that multiply with operators in the heap (Client, CgClient, MrClient, LsClient) | run on functions = the models of C35-C57; run on the heap = run on functions, by induction on the program with the frame lemmas of C09 |
| C87 | operator formulas and the solvers together, real dtype (ClientReal) | C01/C02 + C86 + C37, C52, C67, C72 |
| C88 | cg, cgs, bicgstab, tfqmr in exact complex arithmetic with bilinear `np.dot` (CplxSolve) | loop invariants; simulation of the complex run by the real run (CplxScale); counterexample by computation |
| C89 | cg.py (CgModel) | span and conjugacy invariants of the CG sequence; Krylov spaces contain an explicit Chebyshev polynomial in A (Cheb: two coupled recurrences, a Pell identity bounds them, no spectral theorem) |
| C90 | minres.py, lsqr.py, lsmr.py, craig.py, craigmr.py (MinresModel, LsqrModel, LsmrModel, CraigModel) | minimality over Krylov spaces (C48, C75-C78) + the polynomial of Cheb in the inner product of the preconditioner (RateMath); RateStop: a zero stop code means the first tests failed on a quantity proved equal to the objective |
| C91 | lsqr.py, lsmr.py, craig.py, craigmr.py, minres.py run on heap objects (LsClient, MrClient, LinopModel) | C86 turns a run on objects into a run of the exact model; pre_obj/acts read the preconditioner objects as SPD maps, which have inverses in R^n (C91_inverse), so C48 and C75-C78 apply (PropEnd2) |
| C92 | linop.py:560-685 (LinopModel red_matvec, PropIndex zcoord_*) | entry j of z[idx] = x is read off the last position of j in idx (lastpos), so the scatter is linear and real without distinctness; the transposed identity fails exactly at the overwritten positions (PropIndex) |
| C93 | cg.py, cgs.py, bicgstab.py, tfqmr.py, minres.py, lsqr.py, lsmr.py, craig.py, craigmr.py, lbfgs.py in exact arithmetic | Steinitz exchange and Gram-Schmidt without choice (SpanMath); a shifted rank-r operator has Krylov spaces of dimension at most r+1 and its solution lies in them (RankMath); rank of A equals rank of its adjoint; L-BFGS matrices as multiples of the identity plus rank 2m (PropRank); MinresStop: Anorm*ynorm never falls below the norm of b, so test 1 sees any small residual (PropMinresStop) |
| C94 | linop.py:70-89, 196-209, 300-305, 362-452 (PyModel: values, dispatch, programs) | psem gives every expression a value or exception; induction over expressions carries 'nothing changes but counters' and 'enough recursion depth' (PyProof); what Python and numpy do without operators is a parameter with an instance np |
| C95 | linop.py:688-720, cholesky.py:15-43 (WrapModel), cgs, bicgstab, tfqmr, minres, lsqr, lsmr, craig, craigmr | external matrices and factorizations as records of functions; a right inverse of a symmetric matrix is linear, symmetric and a left inverse (PropWrap); the identity is a shifted rank-0 operator, so C93 and RankMath apply (PropExactPre) |
| C96 | tools/utils.py:63-112 (ToolsModel), over the complex scalars `cL` of PropCheckC | exact complex arithmetic; comparisons of complex numbers are lexicographic as in numpy; the random draws are an arbitrary list, real where the statement says so |
| C97 | cg.py:46-165, cgs.py:40-123, bicgstab.py:43-151 over any scalars and vectors (FlArith: assumptions on vector operations; FlRound: an instance with rounding and overflow) | the gap between the updated and the true residual grows by at most one drift per update; scalars may be arbitrary since both updates use the same factor; `None` stands for inf and NaN in the instance; no underflow there; the order of summation of dot products is fixed |
| C98 | blkop.py:8-152, blkop.py:154-257, blkop.py:259-276 (`solve` is `__call__`, i.e. `apply`), minres.py:57-410, via C23/C26/C91 | `lsplit` identifies R^(n+m) with pairs; K P satisfies (T-1)(T^2-T-1) = 0, so the theorem on annihilating polynomials of C90 applies; exact reals |
| C99 | cg.py:75-165, cgs.py:53-123, bicgstab.py:56-151, tfqmr.py:52-159, minres.py:115-410, lsqr.py:180-442, lsmr.py:210-492, craig.py:205-507, craigmr.py:75-238 as programs over dtypes (DtModel); cg.py:46-165 (CgModel) and cgs.py:40-123 (KrylovModel) with floor division | values forgotten, branches on data arbitrary; numpy's rule same_kind for in-place statements; `coll` (DtReach) computes all outcomes and is proved exact, so each theorem is decided by evaluation for the finitely many dtypes; `dErr[i] = phi` of MINRES and the scalars of the least-squares rotations (all from math.sqrt) are not followed; SYMMLQ never runs and is left out |
| C100 | cg.py:46-165, cgs.py:40-123, bicgstab.py:43-151, tfqmr.py:39-159, lsqr.py:86-454, lsmr.py:64-492, craig.py:104-520, craigmr.py:51-250, minres.py:115-410 (the models of C35-C57, unchanged) | `grade` (Grade): maps `gm k` on the scalars with the laws of multiplication by c^k that the operations respect; each loop body is shown to commute with scaling every variable by its degree; instances: real arithmetic and rounding to p+1 bits with c = 2^e (GradeInst, exponents unbounded, a non-finite value is `None`, comparisons with it are false); MinresEarly computes what the stopping tests see in the first iteration |
| C101 | craig.py:104-520, documentation 144-153 (the model of C55, C69, unchanged) | CraigNorms carries a second invariant along CraigProof's: `rho`, `theta`, the updates of `xnorm`, `r1norm`, `Arnorm` (craig.py:391-392, 438-440) against the inner products of the iterates; 'reported' means the values of the attributes on return (craig.py:513-518) |
| C102 | lsqr.py:86-454, documentation 122-132; lsmr.py:64-492 (the models of C50-C54, unchanged) | AnormLs and AnormLm carry the list of right Golub-Kahan vectors and the value of `Anorm` (lsqr.py:262) and `normA2` (lsmr.py:403-405) along the invariants of LsqrProof and LsmrProof, including the iterations LSQR makes after beta = 0; Backward constructs the perturbed problems from the residual inequalities of C51 and C68 |
| C103 | lsqr.py:86-454 (`ddnorm` and `Acond`: 303, 338), documentation 130; lsmr.py:64-492 (`condA`: 241, 264-268, 407-411; tests 424, 446), documentation 138 (the models of C50-C54, unchanged) | AcondLs carries `ddnorm` along the invariant of LsqrProof: a Cauchy-Schwarz step gives the lower bound, the residuals of the search directions the upper one. AcondLm computes the first iteration of LSMR from the values set before the loop. PropAcond states the bounds, and refutes the documented meanings of `Acond` and of code 3; the latter for every scaling of one operator below a threshold, with the default parameters. |
| C104 | minres.py:115-410 (`tnorm2` 256, `gmax`/`gmin` 263-264, 314-315, `rhs1`/`rhs2`/`ynorm2` 316-319, tests 349-361) (the model of C47, unchanged) | MinresEst carries the sum of squares, the two right-hand sides of the `ynorm` recurrence, the extreme `gamma` and the meaning of `istop` along the invariant of MinresProof (Lanczos vectors, rotations), with a separate case after the system is solved while `istop` is -1. MinresOrth computes the first iteration in the arithmetic of Ieee when b is orthogonal to (A - shift I) b. PropMinresEst states what `ynorm`, `Anorm`, `Acond` and the codes 1-4 mean, and refutes the meaning of code 4 on a permutation matrix. The code 4 is printed as "x has converged to an eigenvector" (minres.py:87-98); the messages are not modelled. |
| C105 | symmlq.py:65-400 (`tnorm` 213, 318; `gmax`/`gmin` 215-216, 345-346; `acond` 256-260; tests 271-276) (the model of C79, unchanged) | SymEst carries the list of Lanczos vectors, `tnorm`, `anorm`, the extreme `gamma` and `acond` along the invariant of SymmlqProof; `gamma` is the distance of the image of the last Lanczos vector to the image of the previous Krylov space. PropSymEst states the bounds, the backward error behind code 1, and that the loop ends within two iterations if b is orthogonal to its image; it computes the run on a tridiagonal matrix of order 4. |
| C106 | lbfgs.py:70-254 with cg.py:46-165, minres.py:115-410, cgs.py:40-123, bicgstab.py:43-151, tfqmr.py:39-159 (the models of C28-C33, C35-C48, unchanged) | LbfgsConj: hereditary secant equations and the rank of H A - I for conjugate steps. PropLbfgsConj carries this to operator objects after any calls and to solvers that use them as preconditioner, and shows that the steps of CG are such steps. The solver receives the function that the product of the object computes; that products leave the stored pairs alone is C28. |
| C107 | minres.py:115-410 with `precon` (162-166, 249); symmlq.py:65-400 with `precon` (130-134, 188, 309, 370-371) (the models of C47 and C79, unchanged) | The theorems of C104 and C105 in the space with inner product `<P u, v>` (Precon, MinresPrecon, PropSymmlqPre), restated in the original one. EstPre: lists orthonormal for `P = C C'`. |
| C108 | lsqr.py:86-454 with `M`, `N` (`Anorm` 262, `ddnorm` 303, `Acond` 338); lsmr.py:64-492 with `M`, `N` (`normA` 404, `condA` 411) (the models of C50 and C53, unchanged) | The invariants of AnormLs, AnormLm, AcondLs and AcondLm in the spaces with inner products `<N u, v>` and `<M u, v>` (Precon, LsqrPrecon, LsmrPrecon). In LSQR `norm(dk)` stays the Euclidean norm of the image under N, so AcondLs allows a norm function that is only equivalent to that of the space. |
| C109 | craig.py:104-520 with `M`, `N` (the model of C55, C69, unchanged) | The theorems of C101 in the spaces with inner products `<N u, v>` and `<M u, v>` (Precon, CraigPrecon), restated in the original ones. |
| C110 | gallery.py:3-29 (Gallery) with cg.py:46-165 (CgModel) and minres.py:115-410 (MinresModel) | A discrete Poincare inequality bounds the quadratic forms of C62-C63 (PropPoisson.v); the Chebyshev bounds of C89 and C90 and the logarithm give the number of products (PropPoissonMr.v for MINRES); the sines are the eigenvectors (PropPoissonEig.v); rounded products, and rounded CG by C97 (PropPoissonFl.v). |

Names: theorem `Cnn_*` belongs to property Cnn; `_refuted` theorems show that an expected or documented
guarantee fails for the model of the code.  Examples next to the theorems show that their hypotheses
can be met.

## 4. Simplifications and what is not modelled

* Everywhere: logging, printing (`show`), timing, pickling, plotting; integer overflow; floating-point
  rounding (covered by the theorems that assume no laws and, for the residuals of CG, CGS and BiCGSTAB, by C97); `OverflowError` of float `**`; the
  truncating division `1/conlim` for an integer `conlim`; in-place updates of integer arrays (dtypes only: C99).
* Operators: functions supplied by the user never touch the operators' counters or flags (`user` closures
  are functions on arrays); two-dimensional arguments only as flattened.
* Block operators: `K[ri,ci] = val` only for an operator `val` (stored at every selected place), `D[i] = val`
  only for an operator and `D[a:b:c] = vals` only for a list of operators; index arrays; `K[i,j]` on
  ragged lists via `np.matrix`; the `_blocks` attributes that the constructor adds to the plain operators
  `K.T`, `K.H`.
* L-BFGS: vectors of the right length with float entries; `np.dot(np.outer(a,a),v)` is `(a.v) a`;
  `np.linalg.solve` is an oracle that solves nonsingular systems (Gauss.v: one exists);
  the methods of `StructuredLBFGSOperator`, whose constructor always raises (C34), are modelled on objects
  with the attributes it was meant to set (C85); one-element arrays (`aTs[l]`) are scalars.
* lls: preconditioners return fresh arrays.  SYMMLQ: `matvec` is one counted product with `op`.
* C64: operators and preconditioners never write to their argument and never return an array of the
  caller; they may return their own arrays or their argument.
* C86, C87: vectors are passed to operators as one-dimensional arrays by a fixed encoding (C87: float64 arrays);
  vector arithmetic of the solvers does not go through the heap.
* C88: every array has complex dtype (a real right-hand side with a complex operator, where numpy refuses the
  in-place update `r += alpha * Ap`, is the TypeError of C99_cg); complex numbers are only compared when they are real.
* Attributes of solver objects after an exception.
* PyModel: scalars are Python int, float, complex; strings, longs and numpy scalars are left out; array op operator is
  decided by numpy and outside the model (EFuel).
* WrapModel: the external Pysparse matrix and the external Cholesky factorization are records of functions that
  may fail or return anything; only their wrappers are modelled.  Which exception the bare `except:` clauses catch
  does not matter.  C95_minres: exact arithmetic, where the division by the zero `beta` of iteration 2 multiplies
  a zero vector; with IEEE NaN see C66.
* Not modelled at all: `benchmark`, `examples`, `tests`.

## 5. Mutation testing

`seeded/mutants.json` lists wrong programs: one replacement each in a definition of the model.
`tools/mutate.py` applies each to a scratch copy outside `/verif`, rebuilds, admits (in the scratch copy)
every lemma whose proof fails, and finally asks `Print Assumptions` which claimed theorems rest on such
a lemma.  `seeded/LOG.jsonl` records the outcome of each (`tools/gen_log.py`); `seeded/tightened.json`
records what was added for mutants that survived at first.  `seeded/sweep.jsonl`
(ids W1-, W2-, also in the log) holds two sweeps of single-token edits chosen by a script, one build each; only the
first failure was recorded.  The second sweep was stopped before its end.  Survivors were re-run later as far as time
allowed; the notes say which edits are equivalent and why, and which were not re-run or not analysed.

## 6. `Print Assumptions`, theorem by theorem

(Generated by `tools/gen_assumptions.py`.)

* **Closed under the global context** (208 theorems): C01_formula, C01_base, C02_transpose, C03_adjoint, C03_inferred, C04_TT, C04_documented_refuted, C05_HH, C05_documented_refuted, C06_flags, C07_add_sub, C07_mul, C07_vector, C07_pow, C07_expressions, C08_shapes, C09_own_counter, C09_only_counters, C09_transpose, C09_hermitian_transpose, C09_reset, C09_product, C10_dtype, C10_algebra, C11_flags_sound, C11_product_unflagged, C12_zero, C12_division, C12_classic_int, C12_classic_int_refuted, C13_power, C14_to_array, C15_diagonal, C15_abs, C15_sqrt, C15_abs_other, C15_zero_identity, C16_alias, C16_list_insulated, C17_reduced, C17_submatrix, C17_symmetric, C17_duplicates_refuted, C18_coord, C18_coord_sym, C18_inferred_size, C18_empty, C19_ndarray, C19_xor, C35_terminates, C35_counts, C35_counts_check, C38_sound, C38_check_off, C40_histories, C40_accumulate, C40_failed_check, C60_nonsquare, C60_count, C61_nonsquare, C61_count, C62_entries, C63_lengths, C41_counts, C43_counts, C45_counts, C45_zero_budget, C47_stopping, C47_early, C47_precon_ignored, C47_window0, C49_never_returns, C50_terminates, C50_stopping, C50_zero, C50_conlim, C50_wantvar, C53_terminates, C53_stopping, C53_zero, C55_terminates, C55_stopping, C55_ignored, C55_wantvar, C57_terminates, C57_stopping, C57_ignored, C20_product, C21_duals, C21_blocks, C22_shape_error, C22_success, C22_ragged, C22_empty, C22_unchecked, C23_symmetric, C23_diagonal, C23_not_square, C23_second, C23_second_one_row, C24_assign, C24_symmetric, C24_pyindex, C25_product, C25_empty, C26_square, C26_rectangular, C27_assign, C27_symmetric, C71_stop, C71_continue, C28_memory, C28_store, C28_restart, C28_slots, C28_no_room, C34_structured, C34_others, C65_tolerances, C65_ignored, C65_atol_rtol, C65_reserved, C65_documentation_refuted, C64_caller_arrays, C64_stored_arrays, C64_results, C79_missing, C79_present, C79_outcome, C79_unbound, C79_counters, C83_slice_indices, C83_slice_plain, C83_slice_all, C83_set_int, C83_index, C83_slice, C83_slice_errors, C83_symmetric, C84_setslice_plain, C84_index, C84_slice, C84_any_flags, C84_sizes_unchecked, C85_store_fails, C85_store, C85_store_no_room, C85_product_quiet, C86_client, C86_cg, C86_cgs, C86_bicgstab, C86_tfqmr, C86_minres, C86_lsqr, C86_lsmr, C86_craig, C86_craigmr, C92_in_range, C92_last_wins, C92_repeated_columns, C92_out_of_range, C92_sym_out_of_range, C92_coord, C92_coord_sym, C92_coord_out_of_range, C92_coord_nonnegative, C92_coord_sym_refuted, C94_expression, C94_program, C94_dispatch, C94_rmul, C94_rmatvec, C94_laws, C94_dtype_setter, C94_dtype_narrow_refuted, C95_pysparse_products, C95_pysparse_flag, C95_pysparse, C95_cholesky_errors, C95_cholesky, C95_cholesky_complex, C95_cholesky_hermitian_refuted, C99_cg, C99_cgs, C99_bicgstab, C99_tfqmr, C99_minres, C99_lsqr, C99_lsmr, C99_craig, C99_craigmr, C99_where_cg, C99_where_cgs, C99_where_bicgstab, C99_where_tfqmr, C99_where_minres, C99_where_ls, C99_integer, C100_cg, C100_cgs, C100_bicgstab, C100_tfqmr, C100_lsqr, C100_lsmr, C100_craig, C100_craigmr, C100_minres.

* `ClassicalDedekindReals.sig_forall_dec`, `FunctionalExtensionality.functional_extensionality_dep` (20 theorems): C60_converse, C62_exact, C62_linear, C62_symmetric, C62_positive, C63_exact, C63_linear, C63_symmetric, C63_positive, C63_entries, C63_nonsquare, C63_symmetric_iff, C72_spd_no_breakdown, C72_polynomials, C91_formulas, C93_rank, C98_build, C110_operator, C110_bounds1, C110_bounds2.

* `ClassicalDedekindReals.sig_forall_dec`, `ClassicalDedekindReals.sig_not_dec`, `FunctionalExtensionality.functional_extensionality_dep` (265 theorems): C49_check, C49_passes, C36_residual, C36_history, C37_converges, C37_Rn_default, C37_orthogonality, C38_direction, C38_definite, C38_preconditioned_refuted, C39_residual, C39_exact_inverse_refuted, C58_symOrtho, C59_roots, C60_accepts, C60_rejects, C61_check, C61_accepts, C42_residual, C44_converged, C44_residNorm_refuted, C46_bound, C48_residual, C48_monotone, C48_singular_refuted, C66_eigenvector, C66_one_by_one, C51_residual, C51_history, C51_stop_meaning, C51_r1norm_refuted, C52_optimality, C52_zero, C67_krylov, C67_minimum_norm, C67_default_limit, C53_zero_exact, C53_zero_residual, C53_damped, C53_consistent, C53_identity_raises, C54_normar, C68_normr, C68_krylov, C68_stop_meaning, C68_consistent_raises, C55_zero, C55_no_iteration, C55_returns, C56_breakdown, C56_every_iteration_refuted, C69_galerkin, C69_norms, C69_stopping, C70_minres, C70_termination, C70_default_limit, C70_default_limit_refuted, C72_cgs_residual, C72_cgs, C72_spd, C73_bicgstab, C73_omega, C74_tfqmr, C28_total, C29_two_loop, C29_forward, C30_symmetric, C30_positive, C31_secant_inverse, C31_secant_forward, C32_inverse_pair, C32_scaling_refuted, C33_compact_inverse, C33_compact_forward, C75_minres, C75_minres_stops, C76_lsqr, C76_lsqr_optimal, C76_lsqr_stop, C77_lsmr, C77_lsmr_zero, C77_lsmr_error, C78_craig, C78_craig_zero, C78_craig_returns, C78_craigmr, C80_symmlq, C80_finite, C80_iterates, C80_lq_closest, C81_limit_refuted, C81_iterates_refuted, C82_symmlq, C82_finite, C82_iterates, C85_product, C85_symmetric, C85_one, C85_defect, C85_secant_refuted, C87_cg, C87_family, C87_normal_equations, C87_least_squares, C87_lsqr, C88_isotropic_cg, C88_isotropic_family, C88_reported_cg, C88_reported_cgs, C88_reported_bicgstab, C88_scaled_family, C88_scaled_cg, C88_phase, C88_hermitian_refuted, C89_optimal, C89_eigenvalues, C89_rate, C89_Rn, C90_minres, C90_minres_indefinite, C90_minres_eigenvalues, C90_lsqr, C90_lsqr_eigenvalues, C90_lsqr_stops, C90_lsmr, C90_lsmr_eigenvalues, C90_lsmr_stops_atol, C90_lsmr_stops_btol, C90_craig, C90_craig_eigenvalues, C90_craigmr, C90_craigmr_eigenvalues, C90_minres_stops, C90_minres_stops_indefinite, C90_minres_stops_eigenvalues, C91_inverse, C91_lsqr, C91_lsmr, C91_craig, C91_craigmr, C91_minres, C93_cg, C93_cgs, C93_bicgstab, C93_tfqmr, C93_minres, C93_lsqr, C93_lsmr, C93_craig, C93_craigmr, C93_lbfgs_rank, C93_lbfgs_cg, C93_lbfgs_others, C93_minres_stops, C95_cgs, C95_bicgstab, C95_tfqmr, C95_minres, C95_lsqr, C95_lsmr, C95_craig, C95_craigmr, C96_symmetric, C96_symmetric_operator, C96_definite, C96_definite_hermitian, C96_symmetric_refuted, C96_definite_refuted, C96_hermitian_refuted, C97_cg, C97_cgs, C97_bicgstab, C97_rounded_cg, C97_rounded_cgs, C97_rounded_bicgstab, C98_three, C98_minres, C99_floor_cg, C99_floor_cgs, C100_real_cg, C100_real_krylov, C100_real_lsqr, C100_real_lsmr, C100_real_craig, C100_real_craigmr, C100_minres_early, C100_minres_scale, C100_minres_refuted, C101_splitting, C101_arnorm, C101_arnorm_zero, C101_documented_refuted, C102_frobenius, C102_lsqr, C102_lsqr_bound, C102_lsqr_backward1, C102_lsqr_backward2, C102_lsmr, C102_lsmr_bound, C102_lsmr_backward1, C102_lsmr_backward2, C102_lsqr_overestimate_refuted, C103_lsqr_lower, C103_lsqr_upper, C103_lsqr_condition_refuted, C103_lsmr_conlim, C103_lsmr_condition_refuted, C104_ynorm, C104_ynorm_gap, C104_anorm, C104_anorm_bound, C104_codes, C104_acond, C104_definite, C104_orthogonal, C104_code4_refuted, C105_anorm, C105_anorm_bound, C105_acond_low, C105_definite, C105_backward, C105_gives_up, C105_orthogonal, C105_code4_refuted, C106_secant, C106_count, C106_rank, C106_inverse, C106_minres, C106_krylov, C106_cg, C106_not_conjugate_refuted, C107_minres_ynorm, C107_minres_anorm, C107_minres_factor, C107_minres_scaled, C107_minres_codes, C107_minres_definite, C107_minres_acond, C107_symmlq_anorm, C107_symmlq_factor, C107_symmlq_scaled, C107_symmlq_acond_low, C107_symmlq_definite, C107_symmlq_code1, C107_symmlq_gives_up, C108_lsqr_anorm, C108_lsqr_factor, C108_lsqr_acond, C108_lsqr_scaled, C108_lsmr_anorm, C108_lsmr_factor, C108_lsmr_conlim, C109_splitting, C109_arnorm, C109_arnorm_zero, C110_eigen1, C110_eigen2, C110_cg_sine, C110_rounded1, C110_rounded2, C110_rounded_operator, C110_rounded_cg1, C110_rounded_cg2.

* `ClassicalDedekindReals.sig_forall_dec`, `ClassicalDedekindReals.sig_not_dec`, `Classical_Prop.classic`, `FunctionalExtensionality.functional_extensionality_dep` (10 theorems): C97_rounding, C100_rounded_cg, C100_rounded_krylov, C100_rounded_lsqr, C110_cg1, C110_cg2, C110_minres1, C110_minres2, C110_sharp1, C110_sharp2.
