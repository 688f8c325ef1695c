{"id": "C01", "title": "Operator algebra computes what the formula says", "statement": "If an operator is built from base operators by any nesting of scalar multiple, negation, product, sum, difference, power, transpose, adjoint, conjugate, then op*x equals the value of the same formula applied to the base linear maps, for every vector x of size nargin, and no exception is raised.", "quantifier": "every expression tree, every base operator (real or complex) with honest matvec/matvec_transp/matvec_adj, every vector", "why_tests_cant": "the set of expression trees and vectors is infinite; tests check a handful of 2x3 integer matrices", "anchors": ["pykrylov/linop/linop.py:LinearOperator.__mul__", "pykrylov/linop/linop.py:__mul_scalar", "pykrylov/linop/linop.py:__mul_linop", "pykrylov/linop/linop.py:__add__", "pykrylov/linop/linop.py:__sub__", "pykrylov/linop/linop.py:__neg__", "pykrylov/linop/linop.py:__pow__", "pykrylov/linop/linop.py:conjugate"]}
{"id": "C02", "title": "A.T is the transpose", "statement": "For every operator built by the operator algebra from honest base operators, A.T exists and <y, A*x> = <A.T*y, x> (unconjugated) for all x, y of matching size.", "quantifier": "every expression tree, all vectors x, y, real and complex dtype, every combination of symmetric/hermitian flags", "why_tests_cant": "adjointness is a statement about all pairs of vectors and all trees", "anchors": ["pykrylov/linop/linop.py:LinearOperator.T", "pykrylov/linop/linop.py:__set_transpose"]}
{"id": "C03", "title": "A.H is the conjugate transpose", "statement": "For every operator built by the operator algebra from honest base operators, A.H exists and <conj y, A*x> = <conj(A.H*y), x> for all x, y; for a complex operator given only matvec_transp or only matvec_adj, the missing A.H / A.T that the constructor infers is the correct one.", "quantifier": "every expression tree, all vectors, every subset of {matvec_transp, matvec_adj} supplied", "why_tests_cant": "adjointness is a statement about all pairs of vectors; the inference logic has many flag combinations", "anchors": ["pykrylov/linop/linop.py:LinearOperator.H", "pykrylov/linop/linop.py:__set_adjoint", "pykrylov/linop/linop.py:conjugate", "pykrylov/linop/linop.py:LinearOperator.__init__"]}
{"id": "C04", "title": "A.T.T is A (object identity)", "statement": "After any successful LinearOperator construction where A.T is not None, A.T.T is the very same object as A, except exactly when dtype is complex, neither symmetric nor hermitian is set and only matvec_adj was supplied: then A.T.T is None (the documentation claims A.T.T is A always).", "quantifier": "every construction: dtype kind x symmetric x hermitian x which of matvec_transp/matvec_adj are given, starting from any heap", "why_tests_cant": "tests check a few constructions; the claim is about all of them and any pre-existing object graph", "anchors": ["pykrylov/linop/linop.py:LinearOperator.__init__", "doc/source/linop.rst"]}
{"id": "C05", "title": "A.H.H is A (object identity)", "statement": "After any successful LinearOperator construction where A.H is not None, A.H.H is A, except exactly when dtype is complex, neither symmetric nor hermitian is set and only matvec_transp was supplied: then A.H.H is None.", "quantifier": "every construction, starting from any heap", "why_tests_cant": "as C04", "anchors": ["pykrylov/linop/linop.py:LinearOperator.__init__"]}
{"id": "C06", "title": "symmetric/hermitian flags make T/H the operator itself", "statement": "symmetric=True implies A.T is A. hermitian=True implies A.H is A unless dtype is complex and symmetric=True as well, in which case A.H is a different object (documentation claims A.H is A whenever A.hermitian).", "quantifier": "every construction, starting from any heap", "why_tests_cant": "exhaustive over flag combinations and heaps", "anchors": ["pykrylov/linop/linop.py:LinearOperator.__init__", "doc/source/linop.rst"]}
{"id": "C07", "title": "Wrong shapes are rejected, right shapes are not", "statement": "A+B and A-B raise ShapeError exactly when the shapes differ; A*B raises ShapeError exactly when A.nargin != B.nargout; A*x raises ValueError when x does not have nargin entries and also when the user matvec returns a vector that does not have nargout entries; A**k raises ShapeError for a non-square A with k>=0 and ValueError for k<0. Nothing is constructed when an exception is raised.", "quantifier": "all operators, all shapes, all vectors, all exponents", "why_tests_cant": "all shapes", "anchors": ["pykrylov/linop/linop.py:__add__", "pykrylov/linop/linop.py:__sub__", "pykrylov/linop/linop.py:__mul_linop", "pykrylov/linop/linop.py:_matvec", "pykrylov/linop/linop.py:__pow__"]}
{"id": "C08", "title": "Shape algebra", "statement": "shape(A*B) = (A.nargout, B.nargin), shape(A+B) = shape(A-B) = shape(c*A) = shape(-A) = shape(A), shape(A.T) = shape(A.H) = reversed shape, for every operator produced by the API.", "quantifier": "all operators, all shapes", "why_tests_cant": "all shapes", "anchors": ["pykrylov/linop/linop.py:BaseLinearOperator.shape", "pykrylov/linop/linop.py:LinearOperator"]}
{"id": "C09", "title": "Product counters", "statement": "A*x adds exactly 1 to A.nMatvec whether or not it raises; A*x never decreases any counter and leaves the operator graph otherwise unchanged; applying A.T (A not symmetric, honest) leaves A.nMatvec unchanged; reset_counters sets it to 0 and touches nothing else; in a product A*B every application adds exactly 1 to each of A*B, A, B (distinct base operators).", "quantifier": "every heap, every operator, every vector, every history of products", "why_tests_cant": "arbitrary histories", "anchors": ["pykrylov/linop/linop.py:__mul_vector", "pykrylov/linop/linop.py:reset_counters", "pykrylov/linop/linop.py:nMatvec"]}
{"id": "C10", "title": "Result dtype of a product", "statement": "Whenever A*x succeeds its dtype is result_type(A.dtype, x.dtype); the dtype of c*A, A*B, A+B, A-B is result_type of the operands; real operator times real vector never yields a complex array.", "quantifier": "all operators, all vectors, all dtype kinds", "why_tests_cant": "tests enumerate dtypes for one matrix only", "anchors": ["pykrylov/linop/linop.py:__mul_vector", "pykrylov/linop/linop.py:__mul_scalar", "pykrylov/linop/linop.py:__mul_linop"]}
{"id": "C11", "title": "Symmetry flags are sound under the algebra", "statement": "If the operands flagged symmetric (hermitian) really are, then every result of c*A, A+B, A-B, -A flagged symmetric (hermitian) really is symmetric (hermitian); products are never flagged.", "quantifier": "all operands, all scalars (real and complex)", "why_tests_cant": "all vectors x,y", "anchors": ["pykrylov/linop/linop.py:__mul_scalar", "pykrylov/linop/linop.py:__add__", "pykrylov/linop/linop.py:__sub__", "pykrylov/linop/linop.py:__mul_linop"]}
{"id": "C12", "title": "Scalar multiples, zero and division", "statement": "A*0 is a ZeroOperator whose product is the zero vector of size nargout; (A/c)*x = (1/c)(A*x) for float or complex c != 0 and for true division; division by 0 raises ZeroDivisionError. With classic (Python 2) division by an integer k the factor is floor(1/k): A/k is the zero operator for every integer k >= 2 and -A for every k <= -1 (so the expected (A/k)*x = (A*x)/k fails).", "quantifier": "all operators, scalars, vectors", "why_tests_cant": "all scalars", "anchors": ["pykrylov/linop/linop.py:__div__", "pykrylov/linop/linop.py:__truediv__", "pykrylov/linop/linop.py:__mul_scalar"]}
{"id": "C13", "title": "Powers", "statement": "For square A and every k >= 0, (A**k)*x equals A applied k times to x; A**1 is A itself; A**0 acts as the identity.", "quantifier": "all k (no bound), all square operators, all x", "why_tests_cant": "unbounded k", "anchors": ["pykrylov/linop/linop.py:__pow__", "pykrylov/linop/linop.py:IdentityOperator"]}
{"id": "C14", "title": "to_array / full give the matrix of the operator", "statement": "For every linear operator, to_array() has shape (nargout, nargin), multiplying it with x gives A*x for every x, it costs exactly nargin products, and A.T.to_array() is the transpose of A.to_array().", "quantifier": "all operators, all sizes, all x", "why_tests_cant": "all sizes", "anchors": ["pykrylov/linop/linop.py:to_array", "pykrylov/linop/linop.py:full"]}
{"id": "C15", "title": "Diagonal operators, abs and sqrt", "statement": "DiagonalOperator(d)*x = d*x entrywise, it is symmetric and its H multiplies by conj(d); abs(D) has diagonal |d|; sqrt(D) raises ValueError iff D is real with a negative entry and otherwise sqrt(D)*(sqrt(D)*x) = D*x; ZeroOperator maps everything to 0 in both directions; IdentityOperator returns x.", "quantifier": "all diagonals, sizes, vectors", "why_tests_cant": "all diagonals", "anchors": ["pykrylov/linop/linop.py:DiagonalOperator", "pykrylov/linop/linop.py:ZeroOperator", "pykrylov/linop/linop.py:IdentityOperator", "pykrylov/linop/linop.py:sqrt"]}
{"id": "C16", "title": "DiagonalOperator and later changes to the caller's array", "statement": "When built from an ndarray, the product uses the caller's array, not the private copy: after the caller changes an entry, D*x changes accordingly while D.diag, abs(D) and sqrt(D) still use the old diagonal. When built from a list it is insulated.", "quantifier": "all diagonals, all in-place changes, all x", "why_tests_cant": "requires reasoning about aliasing for every history", "anchors": ["pykrylov/linop/linop.py:DiagonalOperator.__init__"]}
{"id": "C17", "title": "Reduced operators select rows and columns", "statement": "ReducedLinearOperator(op, rows, cols)*x = (op * z)[rows] with z zero except z[cols]=x; with duplicate-free in-range indices this is the submatrix and its T/H are the transpose/adjoint; SymmetricallyReducedLinearOperator keeps symmetry. With a repeated column index the matvec and matvec_transp are no longer transposes of each other.", "quantifier": "all operators, index lists, vectors", "why_tests_cant": "all index lists", "anchors": ["pykrylov/linop/linop.py:ReducedLinearOperator", "pykrylov/linop/linop.py:SymmetricallyReducedLinearOperator"]}
{"id": "C18", "title": "Coordinate-format operators", "statement": "With explicit nargin/nargout, CoordLinearOperator(vals,rows,cols)*x is the product with the matrix obtained by summing all triples (duplicates added), and with symmetric=True by also adding the mirrored off-diagonal triples; T is its transpose. When nargin (nargout) is omitted the inferred size is the maximal index itself, so with 0-based indices every product of right-sized vectors raises IndexError. Without any triples an omitted size raises ValueError, and with both sizes given the operator is zero.", "quantifier": "all triple lists, sizes, vectors", "why_tests_cant": "all triple lists", "anchors": ["pykrylov/linop/linop.py:CoordLinearOperator"]}
{"id": "C19", "title": "Operators from arrays", "statement": "linop_from_ndarray(A)*x = A.x, .T and .H multiply by A^T and conj(A)^T; real arrays with symmetric xor hermitian raise ValueError.", "quantifier": "all arrays, sizes, dtype kinds, flags", "why_tests_cant": "all arrays", "anchors": ["pykrylov/linop/linop.py:linop_from_ndarray"]}
{"id": "C20", "title": "Block operator product", "statement": "For a block operator whose blocks have consistent shapes, K*x is the concatenation over block rows of the sum over block columns of B_ij * x_j, for any number of block rows/columns and any block sizes (including 0).", "quantifier": "all block layouts, sizes and vectors", "why_tests_cant": "all layouts", "anchors": ["pykrylov/linop/blkop.py:BlockLinearOperator.__init__", "pykrylov/linop/blkop.py:blk_matvec"]}
{"id": "C21", "title": "Block operator transpose and adjoint", "statement": "For every consistent block layout with adjoint-correct blocks, K.T and K.H satisfy the (conjugate) transpose identity for all vectors.", "quantifier": "all block layouts and vectors", "why_tests_cant": "all layouts", "anchors": ["pykrylov/linop/blkop.py:BlockLinearOperator.__init__"]}
{"id": "C22", "title": "What block construction validates", "statement": "Construction raises ShapeError iff the first-column widths differ between block rows or the heights within a block row differ; ragged rows raise AttributeError. It does not check the widths of the later columns: there is a layout that is accepted, reports a shape, and whose product raises ValueError for every vector of that shape.", "quantifier": "all layouts", "why_tests_cant": "all layouts", "anchors": ["pykrylov/linop/blkop.py:BlockLinearOperator.__init__"]}
{"id": "C23", "title": "Symmetric block layouts", "statement": "With symmetric=True and upper-triangular rows, block (i,j) for i>j is block (j,i).T and the diagonal blocks are required to be flagged symmetric (ValueError otherwise). The construction modifies the caller's row lists in place, and passing the same list to a second construction raises (unless there is one block row).", "quantifier": "all numbers of block rows, all blocks", "why_tests_cant": "unbounded size and histories", "anchors": ["pykrylov/linop/blkop.py:BlockLinearOperator.__init__"]}
{"id": "C24", "title": "Assigning a block", "statement": "K[i,j]=B on a non-symmetric block operator: later products with K, K.T and K.H all use B. On a symmetric one, K.T stays K and tracks every assignment on or above the diagonal, an assignment below the diagonal is silently undone, and for real dtype the products with K.H keep using the old blocks for ever (for complex dtype K.H is the conjugate of K and tracks).", "quantifier": "all layouts, positions, histories of assignments", "why_tests_cant": "histories", "anchors": ["pykrylov/linop/blkop.py:BlockLinearOperator.__setitem__"]}
{"id": "C25", "title": "Block diagonal product", "statement": "BlockDiagonalLinearOperator(blocks)*x is the concatenation of B_i * x_i for any blocks (rectangular allowed) and it is flagged symmetric/hermitian iff all blocks are.", "quantifier": "all block lists and vectors", "why_tests_cant": "all sizes", "anchors": ["pykrylov/linop/blkop.py:BlockDiagonalLinearOperator.__init__"]}
{"id": "C26", "title": "Block diagonal transpose", "statement": "If all blocks are square, the transpose/adjoint products are the concatenation of the block transposes/adjoints. If some block is rectangular, the transpose product raises for every vector of the right size.", "quantifier": "all block lists and vectors", "why_tests_cant": "all sizes", "anchors": ["pykrylov/linop/blkop.py:BlockDiagonalLinearOperator.__init__"]}
{"id": "C27", "title": "Assigning a diagonal block", "statement": "For a block diagonal operator that is neither symmetric nor hermitian, D[k]=B (same shape) makes D, D.T, D.H use B, and the caller's list is modified as well. For a symmetric one D.T stays D, so a non-symmetric B makes D.T wrong.", "quantifier": "all block lists, positions, histories", "why_tests_cant": "histories", "anchors": ["pykrylov/linop/blkop.py:BlockDiagonalLinearOperator.__setitem__"]}
{"id": "C28", "title": "L-BFGS memory is the last npairs accepted pairs", "statement": "After any history of store and restart calls, the pairs used by products are exactly the most recent min(npairs, #accepted since last restart) pairs with s'y > threshold, in order of acceptance; rejected pairs leave the operator unchanged; restart empties it. The attribute insert is the number of pairs accepted since the last restart modulo npairs, and the i-th of them is in slot i mod npairs until overwritten; slots not reached are empty.", "quantifier": "every npairs >= 1, every history of store/restart", "why_tests_cant": "unbounded histories and wrap-around", "anchors": ["pykrylov/linop/lbfgs.py:InverseLBFGSOperator.store", "pykrylov/linop/lbfgs.py:restart"]}
{"id": "C29", "title": "Two-loop recursion equals the BFGS inverse update", "statement": "InverseLBFGSOperator*v equals the product with the matrix defined recursively by the BFGS inverse update over the stored pairs starting from I (or gamma*I with scaling, gamma = s'y/y'y of the newest pair).", "quantifier": "every history, every v, every dimension", "why_tests_cant": "all histories and vectors", "anchors": ["pykrylov/linop/lbfgs.py:InverseLBFGSOperator.lbfgs_matvec"]}
{"id": "C30", "title": "L-BFGS operators are symmetric positive definite", "statement": "After any history of store/restart, <u,Hv> = <Hu,v> and <v,Hv> > 0 for v != 0 (inverse, forward and compact operators).", "quantifier": "every history, all vectors", "why_tests_cant": "all histories and vectors", "anchors": ["pykrylov/linop/lbfgs.py:InverseLBFGSOperator", "pykrylov/linop/lbfgs.py:LBFGSOperator"]}
{"id": "C31", "title": "Secant equation", "statement": "After any history ending with an accepted pair (s,y): H*y = s for the inverse operator and B*s = y for the forward and the compact operators.", "quantifier": "every history", "why_tests_cant": "all histories", "anchors": ["pykrylov/linop/lbfgs.py:lbfgs_matvec"]}
{"id": "C32", "title": "Forward operator is the inverse of the inverse operator", "statement": "With scaling off, for the same history LBFGSOperator*(InverseLBFGSOperator*v) = v and conversely. With scaling=True the forward operator ignores the scaling and this fails.", "quantifier": "every history, every v", "why_tests_cant": "all histories", "anchors": ["pykrylov/linop/lbfgs.py:LBFGSOperator.lbfgs_matvec"]}
{"id": "C33", "title": "Compact representation", "statement": "CompactLBFGSOperator*v equals the inverse of InverseLBFGSOperator (same scaling setting, on or off) applied to v, provided the small linear solve returns a solution; without scaling it equals LBFGSOperator*v.", "quantifier": "every history, every v, every npairs", "why_tests_cant": "all histories", "anchors": ["pykrylov/linop/lbfgs.py:CompactLBFGSOperator.lbfgs_matvec"]}
{"id": "C34", "title": "StructuredLBFGSOperator can be built", "statement": "Calling StructuredLBFGSOperator(n, npairs) always raises TypeError (it passes self twice).", "quantifier": "all n, npairs, kwargs", "why_tests_cant": "needs all argument combinations", "anchors": ["pykrylov/linop/lbfgs.py:StructuredLBFGSOperator.__init__"]}
{"id": "C35", "title": "CG terminates within its product budget and counts truthfully", "statement": "CG.solve always terminates; the reported nMatvec equals the increase of op.nMatvec caused by the solve (apart from the optional symmetry check); nMatvec <= matvec_max, or 1 when a guess is supplied and matvec_max = 0. Holds for any arithmetic, including NaN and infinities.", "quantifier": "every operator, right-hand side, guess, tolerance, arithmetic", "why_tests_cant": "all inputs incl. NaN", "anchors": ["pykrylov/cg/cg.py:CG.solve"]}
{"id": "C36", "title": "CG reports the true residual and converged means converged", "statement": "In exact arithmetic without preconditioner the reported residNorm is ||b - A x|| for the returned x, every entry of the residual history is the residual norm of the corresponding iterate, and converged is True iff ||b - A x|| <= max(abstol, reltol*||b - A x0||).", "quantifier": "every linear operator (symmetric or not), rhs, guess, tolerances, budget", "why_tests_cant": "all systems", "anchors": ["pykrylov/cg/cg.py:CG.solve"]}
{"id": "C37", "title": "CG solves every SPD system of size n within n iterations", "statement": "In exact arithmetic, for a symmetric positive definite operator on R^n without preconditioner, any budget of at least n iterations (the default 2n in particular) and any tolerances >= 0: solve returns converged=True and definite=True after at most n iterations; residuals are mutually orthogonal and directions A-conjugate; the A-norm of the error decreases at every iteration.", "quantifier": "every n, every SPD operator, every rhs and guess", "why_tests_cant": "all systems and sizes", "anchors": ["pykrylov/cg/cg.py:CG.solve"]}
{"id": "C38", "title": "CG detects negative curvature soundly", "statement": "If definite is False after solve then infiniteDescent is a direction p with <p, A p> <= 0 (and definite stays True for a positive definite operator); with check_curvature off definite is always True.", "quantifier": "every operator, rhs, guess", "why_tests_cant": "all systems", "anchors": ["pykrylov/cg/cg.py:CG.solve"]}
{"id": "C39", "title": "CG with a preconditioner", "statement": "With a preconditioner the recurrence keeps r = A x - b and residNorm is sqrt(r'Pr), but the search direction uses r, not the preconditioned residual: even for a 1x1 system with the exact inverse as preconditioner one iteration does not solve the system.", "quantifier": "all systems and preconditioners", "why_tests_cant": "all systems", "anchors": ["pykrylov/cg/cg.py:CG.solve"]}
{"id": "C40", "title": "CG histories and repeated solves", "statement": "Each solve appends exactly (iterations+1) residual norms; resids/iterates histories have iterations+1 entries when requested; histories accumulate over repeated solves instead of being reset; a failed symmetry check leaves all results of the previous solve in place.", "quantifier": "all sequences of solve calls", "why_tests_cant": "histories", "anchors": ["pykrylov/cg/cg.py:CG.solve", "pykrylov/generic/generic.py"]}
{"id": "C41", "title": "CGS budget and counting", "statement": "CGS.solve terminates; nMatvec <= matvec_max + 1; op.nMatvec increases by nMatvec, plus one extra uncounted product when a guess is supplied. Any arithmetic.", "quantifier": "every operator, rhs, guess, tolerance, arithmetic", "why_tests_cant": "all inputs", "anchors": ["pykrylov/cgs/cgs.py:CGS.solve"]}
{"id": "C42", "title": "CGS converged means converged", "statement": "In exact arithmetic (any treatment of division by zero), with or without preconditioner, residNorm = ||b - A x|| for the returned x and converged iff that is <= max(abstol, reltol*||r0||).", "quantifier": "every linear operator, preconditioner, rhs, guess", "why_tests_cant": "all systems", "anchors": ["pykrylov/cgs/cgs.py:CGS.solve"]}
{"id": "C43", "title": "BiCGSTAB budget and counting", "statement": "BiCGSTAB.solve terminates; nMatvec <= matvec_max unless the initial guess product alone exceeds it; op.nMatvec increases by exactly nMatvec. Any arithmetic.", "quantifier": "every operator, rhs, guess, tolerance, arithmetic", "why_tests_cant": "all inputs", "anchors": ["pykrylov/bicgstab/bicgstab.py:BiCGSTAB.solve"]}
{"id": "C44", "title": "BiCGSTAB converged means converged", "statement": "In exact arithmetic, converged implies ||b - A x|| = residNorm <= threshold, with or without preconditioner. When the budget runs out after the first half step, residNorm is the norm of a vector that is not the residual of the returned x.", "quantifier": "every linear operator, preconditioner, rhs, guess", "why_tests_cant": "all systems", "anchors": ["pykrylov/bicgstab/bicgstab.py:BiCGSTAB.solve"]}
{"id": "C45", "title": "TFQMR budget, counting and the already-converged case", "statement": "TFQMR.solve terminates; nMatvec <= matvec_max; op.nMatvec increases by nMatvec plus one uncounted product when a guess is supplied. If the initial residual already meets the threshold (e.g. rhs = 0) or matvec_max = 0, solve raises UnboundLocalError instead of returning. Any arithmetic.", "quantifier": "every operator, rhs, guess, tolerance, arithmetic", "why_tests_cant": "all inputs", "anchors": ["pykrylov/tfqmr/tfqmr.py:TFQMR.solve"]}
{"id": "C46", "title": "TFQMR convergence test bounds the true residual", "statement": "In exact arithmetic, as long as no division by zero occurs, ||b - A x|| <= sqrt(m+1) * residNorm after m half-steps, hence converged implies ||b - A x|| < threshold; with or without preconditioner.", "quantifier": "every linear operator, preconditioner, rhs, guess, number of steps", "why_tests_cant": "all systems", "anchors": ["pykrylov/tfqmr/tfqmr.py:TFQMR.solve"]}
{"id": "C47", "title": "MINRES stopping logic", "statement": "solve performs at most itnlim iterations and nMatvec = itn; istop is one of -1,0,1,2,3,4,6,7,8,9,10 and 5 is never returned; converged iff istop in {1,2,3,4,10}; a preconditioner passed to the constructor is ignored; istop = -1 never stops the loop.", "quantifier": "every operator, rhs, tolerances, arithmetic", "why_tests_cant": "all inputs", "anchors": ["pykrylov/minres/minres.py:Minres.solve"]}
{"id": "C48", "title": "MINRES residual norm estimate is exact and monotone", "statement": "In exact arithmetic for a symmetric operator without preconditioner, as long as no breakdown occurs, the reported rnorm equals ||b - (A - shift I) x|| at every iteration and it never increases.", "quantifier": "every symmetric operator, rhs, shift, iteration", "why_tests_cant": "all systems", "anchors": ["pykrylov/minres/minres.py:Minres.solve"]}
{"id": "C49", "title": "SYMMLQ.solve returns", "statement": "Symmlq.solve never returns normally: it raises for every operator, preconditioner and right-hand side (AttributeError for <b, P b> > 0, IndexError for an empty right-hand side, otherwise UnboundLocalError). In a subclass that has the missing attribute, and in exact arithmetic with <b, P b> > 0, the statements before it end the run exactly when the check is requested and <y, y> and <b, P y> differ by more than the tolerance of the code; so never for a self-adjoint P or without one.", "quantifier": "all inputs", "why_tests_cant": "all inputs", "anchors": ["pykrylov/symmlq/symmlq.py:Symmlq.solve"]}
{"id": "C50", "title": "LSQR stopping logic and counters", "statement": "LSQR performs at most itnlim iterations (3n when itnlim=0); istop/status/optimal are consistent; zero A'b gives x = 0, istop = 0; the conlim argument has no effect; wantvar=True always raises; the reported nMatvec is 2*itn while 2*itn+1 products are performed when nothing breaks down.", "quantifier": "all inputs, any arithmetic", "why_tests_cant": "all inputs", "anchors": ["pykrylov/lls/lsqr.py:LSQRFramework.solve"]}
{"id": "C51", "title": "LSQR residual norms are exact", "statement": "In exact arithmetic (M = N = None) after every iteration r2norm = sqrt(||b - A x||^2 + damp^2 ||x||^2), it never increases, and with damp = 0 r1norm = ||b - A x||.", "quantifier": "every linear operator with correct transpose, rhs, damp, iteration", "why_tests_cant": "all systems", "anchors": ["pykrylov/lls/lsqr.py:LSQRFramework.solve"]}
{"id": "C52", "title": "LSQR optimality residual is exact", "statement": "In exact arithmetic (M = N = None) after every iteration Arnorm = ||A'(b - A x) - damp^2 x||; in particular if alpha or beta vanishes x solves the (damped) least-squares problem.", "quantifier": "every linear operator with correct transpose, rhs, damp, iteration", "why_tests_cant": "all systems", "anchors": ["pykrylov/lls/lsqr.py:LSQRFramework.solve"]}
{"id": "C53", "title": "LSMR control flow", "statement": "LSMR performs at most itnlim iterations; when A'b = 0 it returns x = 0 but leaves self.x unset; none of istop, itn, nMatvec, optimal, ... is ever updated on the solver object; when the residual estimate becomes exactly 0 (e.g. identity operator) it raises ZeroDivisionError.", "quantifier": "all inputs", "why_tests_cant": "all inputs", "anchors": ["pykrylov/lls/lsmr.py:LSMRFramework.solve"]}
{"id": "C54", "title": "LSMR normal-equation residual is exact and monotone", "statement": "In exact arithmetic (M = N = None, damp = 0), after every iteration normar = ||A'(b - A x)||, and it never increases.", "quantifier": "every linear operator with correct transpose, rhs, iteration", "why_tests_cant": "all systems", "anchors": ["pykrylov/lls/lsmr.py:LSMRFramework.solve"]}
{"id": "C55", "title": "CRAIG control flow", "statement": "CRAIG ignores damp, atol and conlim entirely; rhs = 0 raises UnboundLocalError; at most itnlim iterations are made.", "quantifier": "all inputs", "why_tests_cant": "all inputs", "anchors": ["pykrylov/lls/craig.py:CRAIGFramework.solve"]}
{"id": "C56", "title": "CRAIG solves the regularized problem", "statement": "In exact arithmetic (M = N = None) the iterates satisfy A x + r = b at every iteration, the solution reached on breakdown satisfies A'r = x, i.e. (A'A + I) x = A'b, even though damp defaults to 0.", "quantifier": "every linear operator with correct transpose, rhs, iteration", "why_tests_cant": "all systems", "anchors": ["pykrylov/lls/craig.py:CRAIGFramework.solve"]}
{"id": "C57", "title": "CRAIG-MR control flow", "statement": "CRAIG-MR performs at most itnlim iterations and ends with istop 7 or 8 (or 0 when itnlim = 0); damp, atol, btol, conlim have no effect.", "quantifier": "all inputs", "why_tests_cant": "all inputs", "anchors": ["pykrylov/lls/craigmr.py:CRAIGMRFramework.solve"]}
{"id": "C58", "title": "Givens rotation helper", "statement": "symOrtho(a,b) returns (c,s,r) with c^2+s^2=1, c*a+s*b=r, c*b-s*a=0, r = sqrt(a^2+b^2) >= 0 for all reals, and never divides by zero.", "quantifier": "all real a, b", "why_tests_cant": "all reals", "anchors": ["pykrylov/lls/lsmr.py:symOrtho"]}
{"id": "C59", "title": "roots_quadratic returns the real roots", "statement": "In exact arithmetic with 0 <= tol < 1/4: it returns [] iff the polynomial has no real root; in the well-conditioned case it returns exactly the real roots; in every case each returned value v satisfies |q(v)| <= tol*|q0| (nitref = 1) and no division by zero occurs.", "quantifier": "all real coefficients, tolerances and refinement counts", "why_tests_cant": "all reals", "anchors": ["pykrylov/tools/utils.py:roots_quadratic"]}
{"id": "C60", "title": "check_symmetric never rejects a symmetric operator", "statement": "In exact arithmetic a symmetric operator always passes, whatever the random vectors; a non-square operator is always rejected; if the test quantity vanishes for every vector then the operator is symmetric; it performs at most 2*repeats products.", "quantifier": "all operators, all random vectors", "why_tests_cant": "all random draws", "anchors": ["pykrylov/tools/utils.py:check_symmetric"]}
{"id": "C61", "title": "check_positive_definite never rejects a positive definite operator", "statement": "In exact arithmetic a positive (semi-)definite operator passes for all random draws of nonzero vectors, and a rejection exhibits a vector of nonpositive (negative) curvature.", "quantifier": "all operators, all random vectors", "why_tests_cant": "all random draws", "anchors": ["pykrylov/tools/utils.py:check_positive_definite"]}
{"id": "C62", "title": "Poisson1dMatvec is the 1D Laplacian", "statement": "For every length n >= 1, entry i is 2x_i - x_{i-1} - x_{i+1} (terms outside dropped); the map is linear, symmetric and positive definite; the argument is not modified.", "quantifier": "every n, every x", "why_tests_cant": "every size", "anchors": ["pykrylov/gallery/gallery.py:Poisson1dMatvec"]}
{"id": "C63", "title": "Poisson2dMatvec is the 2D five-point Laplacian on vectors of square length", "statement": "For every n >= 1 and x of length n*n, entry (i,j) is 4x_{ij} minus its grid neighbours; the map is linear and symmetric positive definite. Of the other lengths, 2 and 3 raise ValueError and every longer one is accepted: with n the integer part of the root of the length N, the entries k from (n-1)n to n*n-2 subtract x[k+1+N-n*n] in place of the right neighbour x[k+1], so the result is the product with a matrix that is not symmetric, for every length above 3 that is not a square.", "quantifier": "every length, every x", "why_tests_cant": "every size", "anchors": ["pykrylov/gallery/gallery.py:Poisson2dMatvec"]}
{"id": "C64", "title": "Solvers do not modify the caller's arrays", "statement": "solve of CG, CGS, BiCGSTAB, TFQMR, MINRES, LSQR, LSMR, CRAIG, CRAIG-MR never writes to the rhs or guess arrays, whatever branches are taken and however many iterations are made (operator products return fresh arrays).", "quantifier": "all executions (all branch choices, any number of iterations)", "why_tests_cant": "all executions", "anchors": ["pykrylov/*/*.py:solve"]}
{"id": "C65", "title": "Constructor keywords for tolerances", "statement": "KrylovMethod reads abstol/reltol (defaults 1e-8, 1e-6); the documented keywords atol and rtol are accepted and have no effect.", "quantifier": "all keyword dictionaries", "why_tests_cant": "all dictionaries", "anchors": ["pykrylov/generic/generic.py:KrylovMethod.__init__"]}
{"id": "C66", "title": "MINRES on an eigenvector returns NaN", "statement": "When b is an eigenvector of A (no preconditioner) the second Lanczos coefficient is zero, istop is set to -1 which does not stop the loop, and every component of the returned x is NaN with converged = False, although the first iterate was exact; in particular no 1x1 system with nonzero right-hand side can be solved.", "quantifier": "every operator, eigenvector right-hand side, shift, tolerance, iteration limit of at least 2", "why_tests_cant": "all systems", "anchors": ["pykrylov/minres/minres.py:Minres.solve"]}
{"id": "C67", "title": "LSQR minimises over Krylov spaces and terminates", "statement": "In exact arithmetic (M = N = None) the i-th LSQR iterate minimises ||b - A x||^2 + damp^2 ||x||^2 over the Krylov space of A'A and A'b of dimension i; if domain or range has dimension n, at most n+1 iterations are made and after n of them x solves the problem; without damping the solution found has the smallest norm of all; the default limit 3n is never the reason for stopping; 2*itn+1 products are made while the problem is unsolved.", "quantifier": "every linear operator with correct transpose, rhs, damp, tolerances", "why_tests_cant": "all operators and dimensions", "anchors": ["pykrylov/lls/lsqr.py:LSQRFramework.solve"]}
{"id": "C68", "title": "LSMR minimises the normal residual over Krylov spaces; never completes a consistent system", "statement": "In exact arithmetic (M = N = None, window >= 1) every LSMR iterate minimises ||A'(b-Ax) - damp^2 x|| over the Krylov space of A'A and A'b; normr and normx are exact; at most n iterations are made in dimension n; stop codes 1 and 2 state true inequalities; with zero tolerances and an iteration limit of at least n, every consistent undamped system with nonzero A'b makes the solver raise ZeroDivisionError instead of returning the solution.", "quantifier": "every linear operator with correct transpose, rhs, damp, tolerances", "why_tests_cant": "all operators and dimensions", "anchors": ["pykrylov/lls/lsmr.py:LSMRFramework.solve"]}
{"id": "C69", "title": "CRAIG computes Galerkin iterates", "statement": "In exact arithmetic (M = N = None, window >= 1, rhs nonzero) the dual vector r of iteration i is the Galerkin (conjugate gradient) iterate of (AA' + I) y = b in the Krylov space of AA' and b of dimension i+1; r2norm^2 and the residual history equal ||x||^2 + ||r||^2, which never decreases; istop is 1, 7 or 8, and 1 only after the first iteration; stopping at the default limit 3n means A x + r = b holds.", "quantifier": "every linear operator with correct transpose, rhs, tolerances, limit", "why_tests_cant": "all operators and dimensions", "anchors": ["pykrylov/lls/craig.py:CRAIGFramework.solve"]}
{"id": "C70", "title": "CRAIG-MR minimises the residual of (AA'+I)x = b", "statement": "In exact arithmetic (M = N = None, window >= 1) the i-th CRAIG-MR iterate is a vector of the range space that minimises ||b - (AA' + I) x|| over the Krylov space of AA' and b of dimension i; the problem is solved after m iterations (m the dimension of the range) or n+1 iterations (n that of the domain), so the default limit min(m,n) can be one iteration short when n < m; the norms history is ||(AA'+I)x||^2 and the 'normal residual' history is the norm of the change of the residual.", "quantifier": "every linear operator with correct transpose, rhs, limit", "why_tests_cant": "all operators and dimensions", "anchors": ["pykrylov/lls/craigmr.py:CRAIGMRFramework.solve"]}
{"id": "C71", "title": "CGS, BiCGSTAB and TFQMR stop exactly when converged or out of budget", "statement": "In any arithmetic, a run that returns has converged = True or has used at least matvec_max products (as counted by nMatvec); and another iteration is started only when the convergence test (with the true threshold max(abstol, reltol*residNorm0), and for TFQMR residNorm*sqrt(m+1) strictly below it) failed and the budget is not used up.", "quantifier": "every operator, rhs, guess, tolerance, budget and arithmetic", "why_tests_cant": "all runs of three loops", "anchors": ["pykrylov/cgs/cgs.py:CGS.solve", "pykrylov/bicgstab/bicgstab.py:BiCGSTAB.solve", "pykrylov/tfqmr/tfqmr.py:TFQMR.solve"]}
{"id": "C72", "title": "CGS computes the squared BiCG residual and terminates", "statement": "In exact arithmetic with a linear operator A and linear preconditioner M, after 2k products the residual of the vector returned by CGS is P_k(B)^2 r0, with B = AM and P_k the residual polynomial of the bi-conjugate gradient method with shadow vector r0; in dimension n CGS converges after at most 2n products (the default budget) unless BiCG breaks down; symmetric positive definite operators never break down, so on R^n all three solvers converge for them with the default budget.", "quantifier": "every inner product space, linear operator, preconditioner, guess, tolerance >= 0", "why_tests_cant": "all operators and dimensions", "anchors": ["pykrylov/cgs/cgs.py:CGS.solve"]}
{"id": "C73", "title": "BiCGSTAB terminates", "statement": "In exact arithmetic with linear A and M, in dimension n BiCGSTAB converges after at most 2n products with ||b-Ax|| below the threshold, unless the bi-conjugate gradient process with shadow vector r0 breaks down or omega becomes zero; omega cannot become zero when <Bv,v> vanishes only for v = 0.", "quantifier": "every inner product space, linear operator, preconditioner, guess, tolerance >= 0", "why_tests_cant": "all operators and dimensions", "anchors": ["pykrylov/bicgstab/bicgstab.py:BiCGSTAB.solve"]}
{"id": "C74", "title": "TFQMR terminates", "statement": "In exact arithmetic with linear A and M and a positive threshold, in dimension n TFQMR (when it starts iterating) converges after at most 2n-1 products with ||b-Ax|| below the threshold, unless the bi-conjugate gradient process with shadow vector r0 breaks down.", "quantifier": "every inner product space, linear operator, preconditioner, guess, positive threshold", "why_tests_cant": "all operators and dimensions", "anchors": ["pykrylov/tfqmr/tfqmr.py:TFQMR.solve"]}
{"id": "C75", "title": "Preconditioned MINRES minimises in the preconditioner norm", "statement": "In exact arithmetic with a symmetric operator A and a symmetric positive definite preconditioner P, and (A - shift)P shrinking no vector of the Krylov space of (A - shift)P and b by more than the machine epsilon in the P-norm, if solve returns, the i-th MINRES iterate minimises <r, P r>^(1/2), r = b - (A - shift) x, over the Krylov space of P(A - shift) and P b of dimension i; rnorm and the residual history are exactly these norms, Arnorm is the P-norm of (A - shift)P r of the previous iterate, and after n iterations in dimension n the system is solved unless the exit code is 7 or 8. If rtol >= 0 and b is not nearly an eigenvector (the second Lanczos coefficient exceeds 10 eps times the P-norm of b), solve makes at most n iterations.", "quantifier": "every symmetric operator, SPD preconditioner, rhs, shift, tolerances, limit", "why_tests_cant": "all operators, preconditioners and dimensions", "anchors": ["pykrylov/minres/minres.py:Minres.solve"]}
{"id": "C76", "title": "Preconditioned LSQR solves the weighted least-squares problem", "statement": "In exact arithmetic with symmetric positive definite invertible M and N (None is the identity), wantvar False and a positive window, LSQR returns and its i-th iterate minimises <M r, r> + damp^2 <x, inv(N) x>, r = b - A x, over the Krylov space of N A'M A and N A'M b of dimension i; r2norm is the root of the objective, xnorm the inv(N)-norm of x and Arnorm the N-norm of A'M r - damp^2 inv(N) x; a zero Arnorm means x is a minimiser (of smallest inv(N)-norm without damping); at most n+1 iterations if the domain or the range has dimension n; stop code 1, and stop code 2 unless atol is such that the comparison with an infinite test2 succeeds, imply the corresponding inequality between r2norm or Arnorm and the tolerances.", "quantifier": "every linear operator with correct transpose, SPD M and N, rhs, damp, tolerances", "why_tests_cant": "all operators, preconditioners and dimensions", "anchors": ["pykrylov/lls/lsqr.py:LSQRFramework.solve"]}
{"id": "C77", "title": "Preconditioned LSMR minimises the weighted normal residual", "statement": "In exact arithmetic with symmetric positive definite invertible M and N and a positive window, when LSMR returns and A'M b is not 0, every LSMR iterate minimises the N-norm of A'M(b - A x) - damp^2 inv(N) x over the Krylov space of N A'M A and N A'M b; normar is that norm, normr the root of <M r, r> + damp^2 <x, inv(N) x>, normx the Euclidean norm of x; at most n iterations if the domain or the range has dimension n; the only exception is ZeroDivisionError, raised only if damp is 0 and a vector of a Krylov space of dimension at most the limit solves A x = b; A'M b = 0 returns x = 0.", "quantifier": "every linear operator with correct transpose, SPD M and N, rhs, damp, tolerances", "why_tests_cant": "all operators, preconditioners and dimensions", "anchors": ["pykrylov/lls/lsmr.py:LSMRFramework.solve"]}
{"id": "C78", "title": "Preconditioned CRAIG and CRAIG-MR solve (A N A' + inv(M)) y = b", "statement": "In exact arithmetic with symmetric positive definite invertible M and N, wantvar False and a positive window, CRAIG raises UnboundLocalError for b = 0 and returns otherwise if the limit is positive; then the dual iterates y of CRAIG are the Galerkin iterates of (A N A' + inv(M)) y = b in the Krylov spaces of M A N A' and M b, and x = N A'y; at breakdown, and at the end of a run of at least as many iterations as the dimension of domain or range, A x + inv(M) y = b; r2norm^2 and the residual history are <x, inv(N) x> + <y, inv(M) y>, which never decreases. CRAIG-MR minimises the M-norm of the residual of the same system over the same spaces.", "quantifier": "every linear operator with correct transpose, SPD M and N, rhs, limit", "why_tests_cant": "all operators, preconditioners and dimensions", "anchors": ["pykrylov/lls/craig.py:CRAIGFramework.solve", "pykrylov/lls/craigmr.py:CRAIGMRFramework.solve"]}
{"id": "C79", "title": "SYMMLQ with matvec supplied: outcomes and counters", "statement": "In any arithmetic, when the missing matvec attribute is supplied (one counted product with op), SYMMLQ returns, or raises IndexError (empty right-hand side) or UnboundLocalError; UnboundLocalError is certain when fewer than two products are allowed or <b, Pb> is not positive (in particular for b = 0). When it returns, itn >= 1, nMatvec <= matvec_max + 1 and every product is counted except the one of the symmetry check; nMatvec is itn + 2 for istop 0 and 6 and itn + 1 otherwise; istop is one of -1, 0, 1, 2, 3, 4, 6 (never 5, 7, 8) and 0 exactly means the product limit; the number of stored iterates is itn (itn + 1 at the limit); rnorm and xnorm are the computed norms of b - (A - shift) x and x.", "quantifier": "every operator, preconditioner, rhs, shift, keyword values and arithmetic", "why_tests_cant": "all runs", "anchors": ["pykrylov/symmlq/symmlq.py:Symmlq.solve"]}
{"id": "C80", "title": "SYMMLQ computes LQ and Lanczos-CG points", "statement": "In exact arithmetic (symmetric A, no preconditioner, b nonzero, matvec supplied, at least two products allowed) SYMMLQ returns. If a test ends the loop in iteration k, there is a point xl of (A-shift) K_(k-1) with residual orthogonal to K_(k-1) (the point of that space closest to the solution), and whenever the Galerkin point xc of K_k exists the result is the better of the two; istop 1, 2 and 3 imply the corresponding inequalities; if K_k is invariant under A - shift and it is injective there, the result is exact. In dimension n, with more than n products allowed and a nonsingular A - shift, a test ends the loop in iteration k <= n and the result is exact if k = n. Stored iterates are LQ points up to a multiple of b.", "quantifier": "every inner product space, symmetric operator, rhs, shift, rtol, limit", "why_tests_cant": "all operators and dimensions", "anchors": ["pykrylov/symmlq/symmlq.py:Symmlq.solve"]}
{"id": "C81", "title": "SYMMLQ at the product limit and its stored iterates", "statement": "When the product limit ends the loop, the vector returned by SYMMLQ is built from coefficients of two different iterations: it need be neither the LQ nor the Galerkin point and can have a residual larger than that of x = 0 although one more product gives the exact solution. The vectors kept by store_iterates need not be solution estimates: the last one can differ from both the returned solution and the LQ point.", "quantifier": "exists a symmetric positive definite system", "why_tests_cant": "a counterexample to an expected guarantee", "anchors": ["pykrylov/symmlq/symmlq.py:Symmlq.solve"]}
{"id": "C82", "title": "Preconditioned SYMMLQ works in the preconditioner norm", "statement": "In exact arithmetic with symmetric A, symmetric positive definite preconditioner P, b nonzero, matvec supplied and at least two products allowed, SYMMLQ returns. If a test ends the loop in iteration k, there is z in K_(k-1), the Krylov space of P(A - shift) and P b, such that the residual of xl = P(A - shift) z is orthogonal to K_(k-1); whenever the Galerkin point xc of K_k exists, the result is the one of xl and xc whose residual r has the smaller <r, P r>; istop 1, 2 and 3 imply inequalities between the P-norms of residual, b and (A - shift) z; the reported residNorm is the Euclidean norm of the residual. If K_k is invariant and A - shift injective there, the result is exact. In dimension n, with more than n products allowed and A - shift injective, a test fires by iteration n, and after n iterations the result is exact. The stored iterates are the LQ points up to a multiple of P b. The two symmetry checks pass.", "quantifier": "every inner product space, symmetric operator, SPD preconditioner, rhs, shift, rtol, limit", "why_tests_cant": "all operators, preconditioners and dimensions", "anchors": ["pykrylov/symmlq/symmlq.py:Symmlq.solve"]}
{"id": "C83", "title": "Block operators: indexing, slicing, slice assignment", "statement": "For a block operator K and any history of assignments K[ri,ci] = B with integers or slices (start, stop, step, possibly negative), K*x and the products with K.T and K.H use exactly the blocks last assigned. K[i,j] is the very object stored or an IndexError; 'in' and iteration agree with it. K[ri,ci] with at least one slice is the block operator of the selected rows and columns in the order of the slice, with its transpose and adjoint; later assignments to K do not change it, nor do assignments to it change K. A zero step and an empty selection raise. For symmetric and hermitian K, assignments below the diagonal have no effect, the mirrored block is the transpose (adjoint) of the one assigned, and slices are plain block operators.", "quantifier": "every block layout, every operator, every index expression, every history of assignments", "why_tests_cant": "infinitely many layouts, slices and histories", "anchors": ["pykrylov/linop/blkop.py:BlockLinearOperator.__getitem__", "pykrylov/linop/blkop.py:BlockLinearOperator.__setitem__", "pykrylov/linop/blkop.py:BlockLinearOperator.__contains__", "pykrylov/linop/blkop.py:BlockLinearOperator.__iter__"]}
{"id": "C84", "title": "Block diagonal operators: indexing, slicing, slice assignment", "statement": "For a block diagonal operator D that is neither symmetric nor hermitian, after any history of D[i] = B and D[a:b:c] = [B1,...,Bk] that keeps the total sizes (the number of blocks may change), D*x applies block i to piece i, D.T and D.H are its transpose and adjoint if the blocks are square, D[i] is the object stored, the caller's list holds the same blocks, and D[a:b:c] is the block diagonal operator of the selected blocks, independent of later assignments to D and vice versa. With any flags, D[i] and D[a:b:c] after assignments D[i] = B compute the current blocks. An empty slice is a TypeError. D[a:b:c] = [...] is accepted when it changes the total sizes, and every later product with D then raises ShapeError (width) or ValueError (height).", "quantifier": "every list of blocks, every slice, every history of assignments", "why_tests_cant": "infinitely many lists, slices and histories", "anchors": ["pykrylov/linop/blkop.py:BlockDiagonalLinearOperator.__getitem__", "pykrylov/linop/blkop.py:BlockDiagonalLinearOperator.__setitem__"]}
{"id": "C85", "title": "Structured L-BFGS: store always fails, secant equation holds for one pair only", "statement": "On an object carrying the attributes the constructor of StructuredLBFGSOperator was meant to set: store raises AttributeError because the package never sets matvec. With matvec supplied, store makes the triple (s, y, yd) the newest of the last npairs, exactly when y's + (y's s'Bs)^(1/2) >= 1e-8. In exact arithmetic the product is symmetric as long as no quotient is singular; with one triple in memory it is the structured BFGS matrix, B s = yd, and the BFGS matrix if yd = y; in general B s - yd for the newest triple is the sum over the older factors (s_l, a, ad) of (a's / a's_l)(1 - 1/a's_l) ad, and there is a memory of two triples for which B s differs from yd.", "quantifier": "every memory contents, inner product space, scaling flag", "why_tests_cant": "infinitely many memories and vectors", "anchors": ["pykrylov/linop/lbfgs.py:StructuredLBFGSOperator.lbfgs_matvec", "pykrylov/linop/lbfgs.py:StructuredLBFGSOperator.store"]}
{"id": "C86", "title": "Solvers running on operator objects", "statement": "Let a program use operators only through products, and let every operator object it uses act on encoded vectors as some function, whatever the arithmetic of the program. Then running the program on the objects, every product being a call of the operator's __mul__ that updates counters along the operator's parts, returns what the program computes with the functions; no object, list or array is changed except for counters, which only grow; and the counter of an object that is not a proper part of another one used grows by the number of products the program makes with it. CG, CGS, BiCGSTAB, TFQMR, MINRES, LSQR, LSMR, CRAIG and CRAIG-MR (with or without preconditioners, any keywords) are such programs: run on objects they return what their models return or raise the same exception, and the counters of A (and A.T) grow by exactly the products that the models count.", "quantifier": "every heap of operators (any formula), solver, keyword values, right-hand side and arithmetic", "why_tests_cant": "all operators and runs", "anchors": ["pykrylov/cg/cg.py:CG.solve", "pykrylov/cgs/cgs.py:CGS.solve", "pykrylov/bicgstab/bicgstab.py:BiCGSTAB.solve", "pykrylov/tfqmr/tfqmr.py:TFQMR.solve", "pykrylov/minres/minres.py:Minres.solve", "pykrylov/lls/lsqr.py:LSQRFramework.solve", "pykrylov/lls/lsmr.py:LSMRFramework.solve", "pykrylov/lls/craig.py:CRAIGFramework.solve", "pykrylov/lls/craigmr.py:CRAIGMRFramework.solve", "pykrylov/linop/linop.py:LinearOperator.__mul__"]}
{"id": "C87", "title": "From operator formulas to solutions", "statement": "In exact arithmetic: CG run on any operator object of real dtype that is flagged symmetric and is positive definite returns a vector whose residual meets the stopping test after at most n products (n+1 with a starting point), the object's counter grows by exactly nMatvec, and nothing but counters changes; CGS, BiCGSTAB and TFQMR do so with at most 2n (2n-1) products. For any real formula e of full column rank over any operators, CG on e.T*e needs no flag, and with zero tolerances and right-hand side A'c it returns the unique least-squares solution of A x = c. LSQR run on any real formula uses an A.T that is the adjoint, makes at most min(m,n)+1 iterations, reports the exact normal residual, and solves the damped problem if it makes min(m,n) iterations or reports a zero normal residual.", "quantifier": "every formula over every environment of operators, every right-hand side, dimension and tolerance", "why_tests_cant": "all formulas and dimensions", "anchors": ["pykrylov/cg/cg.py:CG.solve", "pykrylov/lls/lsqr.py:LSQRFramework.solve", "pykrylov/linop/linop.py:LinearOperator.__mul__"]}
{"id": "C88", "title": "Krylov solvers on complex data", "statement": "In exact complex arithmetic with np.dot bilinear: if the initial residual r satisfies r.r = 0 (for example r = (1, i)), CG, CGS and BiCGSTAB return the starting point at once as converged with residual norm 0, and TFQMR raises UnboundLocalError, whatever the operator. The norm CG reports for a complex linear operator is |r.r|^(1/2) for the true residual r of the result, never more than the norm of r; CGS after at least one iteration, and BiCGSTAB when it converges after iterating, report the true residual norm. For a real operator (and real preconditioner) and right-hand side z b with b real, CGS, BiCGSTAB and TFQMR return z times the real result with the same flags and counts. For real symmetric positive definite A, CG solves A x = z b if check_curvature is off or z^2 has positive real part and relative imaginary part at most 1e-8, and otherwise stops after one product with definite = False and x = 0. There is a Hermitian positive definite system with real right-hand side that CG declares indefinite.", "quantifier": "every operator, right-hand side, phase, tolerance, dimension, branch of the square root", "why_tests_cant": "all complex systems", "anchors": ["pykrylov/cg/cg.py:CG.solve", "pykrylov/cgs/cgs.py:CGS.solve", "pykrylov/bicgstab/bicgstab.py:BiCGSTAB.solve", "pykrylov/tfqmr/tfqmr.py:TFQMR.solve"]}
{"id": "C89", "title": "CG: optimality, clustering and convergence rate", "statement": "In exact arithmetic with symmetric positive definite A and no preconditioner, the vector CG returns after k iterations, and every stored iterate i, differs from the starting point by a vector of the Krylov space of A and the initial residual of dimension k (i), and among all such vectors is closest to the solution in the energy norm. If a product of s factors A - l with nonzero l annihilates the initial residual (A has s distinct eigenvalues, say), CG makes at most s iterations and converges if the limit allows them, whatever the dimension. If m <= A <= M with 0 < m < M and rho = (sqrt M - sqrt m)/(sqrt M + sqrt m), the energy norm of the error after k iterations is at most 2 rho^k times the initial one, the residual at most 2 sqrt(M/m) rho^k times the initial one, and CG stops as converged within K iterations if 2 sqrt(M/m) rho^K <= reltol and the limit allows them; in R^n this needs no assumption that a solution exists.", "quantifier": "every inner product space (every R^n), operator, right-hand side, starting point, bounds, tolerance", "why_tests_cant": "all operators, spectra and dimensions", "anchors": ["pykrylov/cg/cg.py:CG.solve"]}
{"id": "C90", "title": "MINRES, LSQR, LSMR, CRAIG, CRAIG-MR: convergence rates", "statement": "In exact arithmetic, with or without preconditioners and damping, let rho = (sqrt L - sqrt m)/(sqrt L + sqrt m) where 0 < m < L bound the operator of the method in the norm of the preconditioner. MINRES: the residual norm after i iterations is at most 2 rho^i times that of b (A - shift definite), or 2 ((L-m)/(L+m))^(i/2) times (indefinite, m <= |A - shift| <= L). LSQR: the distance of the damped least-squares objective from its optimal value shrinks by (2 rho^i)^2, the bounds being needed only on the range of N A'. LSMR: the normal residual shrinks by 2 rho^i. CRAIG and CRAIG-MR (m = 1, L = 1 + bound of A N A'): the energy norm of the dual error, respectively the residual of (A N A' + inv(M)) y = b, shrinks at that rate. Each method is exact after s iterations if a product of s factors annihilates the right-hand side, whatever the dimension. On a consistent undamped system LSQR stops within K iterations if 2 rho^K <= btol and a returning LSMR if 2 sqrt(L/m) rho^K <= btol; on an inconsistent or damped one a returning LSMR stops within K iterations if 2 rho^K |b| <= atol sqrt(obj*), obj* the optimal objective. Unless b is nearly an eigenvector, MINRES stops within K iterations if the factor 2 rho^K, respectively 2 ((L-m)/(L+m))^(K/2), is at most rtol, and within s iterations if s factors annihilate b.", "quantifier": "every pair of inner product spaces, operator with correct transpose, SPD M and N, damping, shift, bounds and tolerances", "why_tests_cant": "all operators, spectra, preconditioners and dimensions", "anchors": ["pykrylov/minres/minres.py:Minres.solve", "pykrylov/lls/lsqr.py:LSQRFramework.solve", "pykrylov/lls/lsmr.py:LSMRFramework.solve", "pykrylov/lls/craig.py:CRAIGFramework.solve", "pykrylov/lls/craigmr.py:CRAIGMRFramework.solve"]}
{"id": "C91", "title": "Preconditioned solvers on operator objects", "statement": "In exact arithmetic, let the operator and the optional preconditioners be operator objects of real dtype (formulas, say), the preconditioners symmetric positive definite. LSQR, LSMR, CRAIG and CRAIG-MR use A.T, which is the adjoint; they return (LSMR may instead raise ZeroDivisionError, only for a consistent undamped system), nothing but counters changes, and the products made with A and A.T are the reported ones. LSQR and LSMR report the N-norm of the gradient of the weighted, damped least-squares objective at the result, make at most min(m,n)+1 (min(m,n)) iterations, and minimise the objective after min(m,n) iterations or if the reported norm is 0. CRAIG returns x = N A'y and after min(m,n) iterations the pair minimises the weighted norm of (u, v) under A u + v = b; CRAIG-MR solves (A N A' + inv M) y = b after m or n+1 iterations, and its residual is never larger than that of y = 0. MINRES with a shift and with or without its symmetry checks returns with a code other than 5, 7, 8, 9, reports the P-norm of the residual, which is never larger than that of b, and solves the system after n iterations, provided A - shift shrinks no vector by more than the machine epsilon. A symmetric positive definite map of R^n has an inverse.", "quantifier": "every operator object and formula, preconditioner objects, right-hand side, damping, shift, limits, dimensions", "why_tests_cant": "all operators, preconditioners and dimensions", "anchors": ["pykrylov/lls/lsqr.py:LSQRFramework.solve", "pykrylov/lls/lsmr.py:LSMRFramework.solve", "pykrylov/lls/craig.py:CRAIGFramework.solve", "pykrylov/lls/craigmr.py:CRAIGMRFramework.solve", "pykrylov/minres/minres.py:Minres.solve", "pykrylov/linop/linop.py:LinearOperator.__mul__"]}
{"id": "C92", "title": "Negative, repeated and out-of-range indices", "statement": "A reduced operator of any operator A (real or complex, any formula) with row and column indices in [-m,m) and [-n,n), repetitions allowed, computes (A z)[rows] with z = 0 except z[cols] = x, where negative indices count from the end and the last of repeated columns wins; its .T and .H compute the same with A.T, A.H and the roles of rows and columns exchanged. With distinct rows, .T is the transpose exactly when every column selected again later vanishes on the selected rows. If any index is out of range the construction succeeds and every product with the operator, its .T or its .H raises IndexError, changing nothing but counters and counting the product. A coordinate operator with given sizes and indices in these ranges is the matrix obtained by adding the values up at the wrapped positions, with its transpose and adjoint; out-of-range indices make every product an IndexError. With symmetric=True the matrix is symmetric, but a triple whose row and column are different numbers for the same position (-1 and n-1) is counted twice.", "quantifier": "every operator, every pair of integer index lists, every list of triples, every heap", "why_tests_cant": "infinitely many operators and index lists", "anchors": ["pykrylov/linop/linop.py:ReducedLinearOperator", "pykrylov/linop/linop.py:SymmetricallyReducedLinearOperator", "pykrylov/linop/linop.py:CoordLinearOperator"]}
{"id": "C93", "title": "Iterations bounded by the rank, whatever the dimension", "statement": "In exact arithmetic, an operator has rank at most r if its values are combinations of r fixed vectors. If the operator of the method (A for CG, A times the preconditioner for CGS, BiCGSTAB, TFQMR and for A - shift in MINRES) is a multiple of the identity plus an operator of rank r, then CG makes at most r+1 iterations and converges if the limit allows them, CGS, BiCGSTAB and TFQMR (no breakdown) converge within 2(r+1) products, and the iterates of MINRES are exact from number r+1 on; unless b is nearly an eigenvector MINRES makes at most r+1 iterations. If A has rank r, LSQR makes at most r+1 iterations and LSMR at most r, whatever the damping and preconditioners, and iterates from number r on are optimal; CRAIG iterates from number r on, and CRAIG-MR iterates from number r+1 on, solve their system. An L-BFGS operator (inverse, direct or compact, after any history) holding m pairs is a multiple of the identity plus an operator of rank 2m, so CG solves a system with it in at most 2m+1 iterations and CGS, BiCGSTAB, TFQMR in at most 2(2m+1) products, whatever the dimension.", "quantifier": "every operator, rank, right-hand side, preconditioners, damping, shift, tolerances, memory history", "why_tests_cant": "all operators, ranks and dimensions", "anchors": ["pykrylov/cg/cg.py:CG.solve", "pykrylov/cgs/cgs.py:CGS.solve", "pykrylov/bicgstab/bicgstab.py:BiCGSTAB.solve", "pykrylov/tfqmr/tfqmr.py:TFQMR.solve", "pykrylov/minres/minres.py:Minres.solve", "pykrylov/lls/lsqr.py:LSQRFramework.solve", "pykrylov/lls/lsmr.py:LSMRFramework.solve", "pykrylov/lls/craig.py:CRAIGFramework.solve", "pykrylov/lls/craigmr.py:CRAIGMRFramework.solve", "pykrylov/linop/lbfgs.py:InverseLBFGSOperator", "pykrylov/linop/lbfgs.py:LBFGSOperator", "pykrylov/linop/lbfgs.py:CompactLBFGSOperator"]}
{"id": "C94", "title": "Python programs mixing numbers, arrays, operators and other values", "statement": "Take any program of assignments, each evaluating an expression built from ints, floats, complex numbers, arrays, other values (None, lists), operators, identity and zero operators, the binary operators *, +, -, /, true division and **, unary minus, .T, .H, .bar, calls A(x), A.rmatvec(x) and reset_counters, exceptions being caught per assignment. Every expression has the value its meaning prescribes (for an operator: shape, dtype and linear map), or raises the exception prescribed, and nothing that existed before changes except counters; the only expressions without meaning have an array as left operand of an operator. An operator times something that is neither number, array nor operator raises ValueError on either side, + and - with a non-operator on the right raise ValueError and on the left TypeError, division by a non-number and powers other than ints raise ValueError, A(x) is A*x and A.rmatvec(x) is A.H*x. Products associate, (c A) x = c (A x), (A c) x = A (c x), (A +- B) x = A x +- B x and A (x + y) = A x + A y, with equal dtypes. Setting the dtype to an allowed type changes no other object, and every later product of an operator of a user function is cast to result_type(dtype, x.dtype); a type that is not allowed raises TypeError. Narrowing the dtype of a complex operator drops imaginary parts of its products.", "quantifier": "every program, environment, heap and field", "why_tests_cant": "infinitely many programs, values and operators", "anchors": ["pykrylov/linop/linop.py:LinearOperator.__mul__", "pykrylov/linop/linop.py:LinearOperator.__rmul__", "pykrylov/linop/linop.py:LinearOperator.__add__", "pykrylov/linop/linop.py:LinearOperator.__sub__", "pykrylov/linop/linop.py:LinearOperator.__div__", "pykrylov/linop/linop.py:LinearOperator.__truediv__", "pykrylov/linop/linop.py:LinearOperator.__pow__", "pykrylov/linop/linop.py:LinearOperator.rmatvec", "pykrylov/linop/linop.py:BaseLinearOperator.__call__", "pykrylov/linop/linop.py:BaseLinearOperator.dtype", "pykrylov/linop/linop.py:BaseLinearOperator.reset_counters"]}
{"id": "C95", "title": "Wrapped external matrices and exact preconditioners", "statement": "A Pysparse operator of any external matrix multiplies with the matrix's own product (A*x, or A.matvec if the matrix has no __mul__), is symmetric exactly if the matrix says so, else its .T and .H multiply with y*A (or A.matvec_transp if it has no __rmul__); wrong sizes raise ValueError (the check of every operator comes before the ShapeError of the wrapper). If the external products compute with a real matrix, the operator, its .T and its .H have the meanings the algebra of operators needs. CholeskyOperator raises ValueError for a matrix that is not square, passes errors of the factorization on, and otherwise, if the external solver solves systems with a real symmetric matrix A, is the inverse of A, symmetric, its own transpose and adjoint; for a complex Hermitian A its .T (the operator itself) is the transpose only if A is symmetric. In exact arithmetic with a preconditioner that is the inverse of the operator, CGS and BiCGSTAB converge within two products and TFQMR within one, and all MINRES iterates are the solution; if N A'M A, respectively M A N A', is a multiple of the identity up to rank r, LSQR and LSMR iterates are optimal from number r+1 on, CRAIG and CRAIG-MR iterates solve their system from number r and r+1 on.", "quantifier": "every external matrix, factorization, operator, preconditioner, right-hand side, heap", "why_tests_cant": "infinitely many matrices and preconditioners", "anchors": ["pykrylov/linop/linop.py:PysparseLinearOperator", "pykrylov/linop/cholesky.py:CholeskyOperator", "pykrylov/cgs/cgs.py:CGS.solve", "pykrylov/bicgstab/bicgstab.py:BiCGSTAB.solve", "pykrylov/tfqmr/tfqmr.py:TFQMR.solve", "pykrylov/minres/minres.py:Minres.solve", "pykrylov/lls/lsqr.py:LSQRFramework.solve", "pykrylov/lls/lsmr.py:LSMRFramework.solve", "pykrylov/lls/craig.py:CRAIGFramework.solve", "pykrylov/lls/craigmr.py:CRAIGMRFramework.solve"]}
{"id": "C96", "title": "Symmetry and definiteness checks on complex operators", "statement": "On a complex operator, check_symmetric returns False exactly if some drawn x has, with s = y*y, t = x*A(y), y = A(x) (products without conjugation) and c the cube root of the machine epsilon, |s - t| larger than (s + eps)*c in numpy's lexicographic order of complex numbers; so a complex symmetric operator is accepted if the real part of every s exceeds -eps and rejected if one is below -eps. check_positive_definite returns False exactly if some drawn v has Im(v*A(v)) > sqrt(eps)*|v*A(v)| or a real part that is not positive (negative if semi); on a Hermitian operator with real draws this is exactly a nonpositive (negative) value of the Hermitian form at a drawn vector. Documented purposes that fail: multiplication by i is symmetric but rejected for every nonzero draw; multiplication by 1-5i is accepted as positive definite although its form is nowhere real, while its adjoint is rejected; the Hermitian positive definite [2 -i; i 2] is rejected by check_symmetric.", "quantifier": "every complex operator, dimension, list of draws, division and square root", "why_tests_cant": "the accepted operators form an infinite set and the comparison of complex numbers is an unusual order", "anchors": ["pykrylov/tools/utils.py:check_symmetric", "pykrylov/tools/utils.py:check_positive_definite"]}
{"id": "C97", "title": "Convergence in floating point", "statement": "With rounding errors CG, CGS and BiCGSTAB test a recursively updated residual that is not the residual of the iterate they return. Let every vector operation have relative error u <= 1/8 plus underflow h, let a finite result come from finite operands, let the computed products A x err by at most c |x| for linear A with |A x| <= a |x|, let X bound the finite iterates of the run (for BiCGSTAB also the half-step points), and let G bound every vector whose computed norm meets the threshold. If the solver declares convergence and returns a finite x, the true residual |b - A x| is at most G + k (1+2u)^k ((8 u a + 3 c)(X + h) + 2 u |b| + 3 h (1 + a)), where k is nMatvec for CG, nMatvec+1 for CGS and 2 nMatvec+1 for BiCGSTAB. Nothing is assumed of scalar arithmetic, the preconditioner, or symmetry of A. For dense n by n matrices multiplied by rounded dot products without underflow, c is ((1+u)^(n+1) - 1) times the Frobenius norm a, and G is t/(1-u)^(n+2) for the computed threshold t, in CG without preconditioner and in CGS and BiCGSTAB with any. Rounding to 53 significant bits has relative error 2^-53.", "quantifier": "every arithmetic with rounding and overflow, operator, right-hand side, starting point, keyword values, preconditioner", "why_tests_cant": "the errors depend on all data of a run of any length", "anchors": ["pykrylov/cg/cg.py:CG.solve", "pykrylov/cgs/cgs.py:CGS.solve", "pykrylov/bicgstab/bicgstab.py:BiCGSTAB.solve"]}
{"id": "C98", "title": "Saddle-point systems built from blocks", "statement": "Let BlockLinearOperator([[A, B'], [0]], symmetric=True) be built from operators of real dtype whose diagonal blocks are flagged symmetric, and BlockDiagonalPreconditioner from operators that act as the inverse of A and of the Schur complement B inv(A) B', both symmetric positive definite. Both constructors succeed, the first object acts as K (x, y) = (A x + B' y, B x) where B is the transpose of the given block, and the second as P (x, y) = (inv(A) x, inv(S) y). Minres run on the two objects with shift 0 returns, changes nothing in the heap but the counters, and does not report failure. If it makes three iterations or more, the solution it returns satisfies A x + B' y = b1 and B x = b2 exactly. It makes at most three unless rtol < 0 or b is numerically an eigenvector of K P.", "quantifier": "every heap, sizes, blocks, right-hand side and keyword values of the kind stated", "why_tests_cant": "three iterations suffice for every size and every entry of the blocks", "anchors": ["pykrylov/linop/blkop.py:BlockLinearOperator", "pykrylov/linop/blkop.py:BlockDiagonalPreconditioner.solve", "pykrylov/minres/minres.py:Minres.solve"]}
{"id": "C99", "title": "Dtypes accepted by the solvers, and CG on integers", "statement": "Order the dtypes integer < float < complex and let an in-place statement raise TypeError when its result cannot be cast to the dtype of its target by numpy's rule same_kind. For each of CG, CGS, BiCGSTAB, TFQMR, MINRES, LSQR, LSMR, CRAIG and CRAIG-MR there is an explicit condition on the dtypes of operator, preconditioners, shift and right-hand side. If it holds, every execution reaches the end and the dtype of x is the stated one. If it fails, no execution gets through two passes of the loop and some raise TypeError. The attribute x is never assigned by a solve that raises, and the statement that raises is narrowed down: CGS at the update of x exactly when the preconditioner exceeds the join of operator and right-hand side; TFQMR in the first three updates; MINRES at the shift exactly when its dtype exceeds all others; BiCGSTAB before the first product exactly on integer data; the least-squares solvers before the first product exactly when the right-hand side is integer. For CG the condition is: operator and preconditioner are at most the dtype of the right-hand side. On integer data CG and CGS compute integer steps, i.e. floors of quotients. CG with floors, no guess and no preconditioner, and <b, A b> > <b, b> > 0, uses its whole budget of products, returns x = 0 and reports not converged, for every homogeneous A and every size. So does CGS, with the budget rounded up to an even number.", "quantifier": "every combination of dtypes, every execution of the loops; every space, operator, right-hand side and keyword values for the last part", "why_tests_cant": "the branches taken and the number of iterations are arbitrary; a failure may need a second iteration; the last part holds for every size and budget", "anchors": ["pykrylov/cg/cg.py:CG.solve", "pykrylov/cgs/cgs.py:CGS.solve", "pykrylov/bicgstab/bicgstab.py:BiCGSTAB.solve", "pykrylov/tfqmr/tfqmr.py:TFQMR.solve", "pykrylov/minres/minres.py:Minres.solve", "pykrylov/lls/lsqr.py:LSQRFramework.solve", "pykrylov/lls/lsmr.py:LSMRFramework.solve", "pykrylov/lls/craig.py:CRAIGFramework.solve", "pykrylov/lls/craigmr.py:CRAIGMRFramework.solve"]}
{"id": "C100", "title": "Scaling the right-hand side", "statement": "Multiply the right-hand side by a positive number. If the absolute tolerance and the guess are scaled too, CG, CGS, BiCGSTAB and TFQMR with a linear operator and preconditioner return the scaled x, residual norms and histories with the same flags, counts and errors. LSQR, LSMR, CRAIG and CRAIG-MR do so for a right-hand side of positive norm, whatever the operator, with unchanged tolerances. This holds in exact arithmetic for every factor, and in arithmetic rounded to any number of binary digits without over- and underflow for every power of two, i.e. only exponents change. Two runs of MINRES with the same number of iterations give scaled results. Their numbers of iterations differ, however: the estimate of the norm of the operator in MINRES contains the norm of b. With b not an eigenvector there is always an interval of factors for which MINRES stops after one iteration and reports convergence, with the relative residual of the first iterate. With default arguments, diag(1,2) and b = (3,4) it solves the system, and for 10^12 b it reports convergence with a relative residual above 1/4.", "quantifier": "every right-hand side, factor, operator, preconditioner, keyword values, arithmetic with a scaling", "why_tests_cant": "the statements relate two runs of any length on infinitely many inputs", "anchors": ["pykrylov/cg/cg.py:CG.solve", "pykrylov/cgs/cgs.py:CGS.solve", "pykrylov/bicgstab/bicgstab.py:BiCGSTAB.solve", "pykrylov/tfqmr/tfqmr.py:TFQMR.solve", "pykrylov/minres/minres.py:Minres.solve", "pykrylov/lls/lsqr.py:LSQRFramework.solve", "pykrylov/lls/lsmr.py:LSMRFramework.solve", "pykrylov/lls/craig.py:CRAIGFramework.solve", "pykrylov/lls/craigmr.py:CRAIGMRFramework.solve"]}
{"id": "C101", "title": "Norms reported by CRAIG", "statement": "In exact arithmetic without preconditioners, for the returned x and r: r1norm^2 + xnorm = |x|^2 + |r|^2 = r2norm^2, so xnorm is a squared quantity. Arnorm and the entries of normal_eqns_resids belong to the iterate before: each lies between the norm of its residual b - A x - r and sqrt(1+s^2) times that, for every bound s of A, and equals it for the first iterate; Arnorm = 0 means the previous iterate is the solution. The documented meanings r1norm = |b - Ax|, xnorm = |x|, Arnorm = |A'(b - Ax) - x| fail on a 2x2 system.", "quantifier": "every pair of inner product spaces, operator with correct transpose, nonzero right-hand side, keyword values", "why_tests_cant": "all operators, right-hand sides and numbers of iterations", "anchors": ["pykrylov/lls/craig.py:CRAIGFramework.solve"]}
{"id": "C102", "title": "Norm estimates and backward errors of LSQR and LSMR", "statement": "In exact arithmetic without preconditioners, Anorm^2 on return from LSQR is the sum of |A w|^2 + damp^2 over orthonormal vectors w of the Krylov space, one per iteration; only if the normal equations hold for the returned x may the last iteration count nothing or, with damping, count one |A w|^2 twice. For LSMR normA^2 is the sum of |A w|^2 over exactly one orthonormal vector per iteration, and |A'b|/|b| without iterations. So normA, and Anorm without damping, never exceed the Frobenius norm F of A. Consequently code 1 means that x solves exactly a system (A + D) x = b + f with |D| <= atol F and |f| <= btol |b| (LSQR: without damping), and code 2 that x exactly minimises a damped least-squares problem whose stacked operator (A; damp I) is perturbed by at most atol F (LSQR: atol sqrt(F^2 + itn damp^2)). The documented meaning of Anorm as an estimate of the Frobenius norm of the regularized operator is no lower bound: for A = [3], damp = 4 LSQR returns sqrt(34), the norm is 5.", "quantifier": "every pair of inner product spaces, operator with correct transpose, right-hand side, damping, tolerances, limit", "why_tests_cant": "all operators and numbers of iterations; the perturbed problem has to be constructed", "anchors": ["pykrylov/lls/lsqr.py:LSQRFramework.solve", "pykrylov/lls/lsmr.py:LSMRFramework.solve"]}
{"id": "C103", "title": "Condition estimates of LSQR and LSMR", "statement": "In exact arithmetic without preconditioners, Acond on return from LSQR is at least the number of iterations (less one if the normal equations hold for the returned x), and at most sqrt(itn) Anorm / s for every lower bound s of the singular values of the stacked operator (A; damp I); without damping at most sqrt(itn) F / s, F the Frobenius norm. It is no estimate from below: for A = [3], b = 1 LSQR returns Acond = 0. In LSMR the initial value 1 of rhobar enters the maximum of the condition estimate: if conlim times |(A; damp I) v| is at most 1, v = A'b/|A'b|, LSMR makes one iteration whatever A is, and then either returns a multiple of A'b with code 1, 2 or 3, or divides by zero because that iterate solves an undamped consistent system. So code 3 does not mean that the condition number exceeds conlim: with the default parameters, for every e <= 5e-9 the operator e diag(1, 2) of condition number 2 with b = (1, 1) gives code 3 after one iteration, with relative residual above 1/2.", "quantifier": "every pair of inner product spaces, operator with correct transpose, right-hand side, damping, tolerances, limit", "why_tests_cant": "all operators and numbers of iterations; the bounds relate a value accumulated in the loop to singular values; the failure is a whole range of scalings", "anchors": ["pykrylov/lls/lsqr.py:LSQRFramework.solve", "pykrylov/lls/lsmr.py:LSMRFramework.solve"]}
{"id": "C104", "title": "Norm and condition estimates of MINRES", "statement": "In exact arithmetic without preconditioner, B = A - shift I symmetric with |B z| >= eps |z| on the Krylov space, b nonzero, after at least one iteration: ynorm, documented as the norm of x, equals <b,b>/|B b| whatever the number of iterations, and for every solution x of B x = b, |x|^2 exceeds ynorm^2 by exactly the squared distance of x from the multiple <b,b>/<Bb,Bb> of B b. Anorm^2 is |b|^2 plus the sum of |B v|^2 over an orthonormal list in the Krylov space with one vector per iteration while the system is not solved, so at most |b|^2 + F^2, F the Frobenius norm. Code 1 means |b - B x| <= rtol Anorm <b,b>/|B b|; code 2 means |B r| <= rtol Anorm |r| for the residual r of the previous iterate; code 3 means |B b| <= eps Anorm |b|; no code other than -1, 0, 1, 2, 3, 4, 6, 10 is returned. If <b,Bb> is not 0 and the code is not -1 or 10, Acond is at least |b||Bb|/|<b,Bb>| and at most l / min(|<b,Bb>|/<b,b>, s) where s and l bound the singular values of B on the Krylov space, so on a definite operator Acond is a lower bound of the condition number and code 4 is justified. If <b,Bb> = 0 the first condition estimate is a division by zero: in arithmetic with infinities MINRES stops after one iteration with x = 0, code 4 and converged = True, for example on the permutation matrix of order 2 with b = (1, 0), whose condition number is 1.", "quantifier": "Every inner product space, symmetric operator, shift, right-hand side, tolerances, iteration limit, window, accumulated history and counter; for the orthogonal case every dimension, operator and b with <b,Bb> = 0 for which the other tests do not apply at the first iteration.", "why_tests_cant": "A test can compare ynorm with the norm of x on a few runs; it cannot show that the recurrence for ynorm never moves again for any operator, nor that the condition estimate is a lower bound for all definite operators.", "anchors": ["pykrylov/minres/minres.py:202-208", "pykrylov/minres/minres.py:256-264", "pykrylov/minres/minres.py:284-285", "pykrylov/minres/minres.py:314-344", "pykrylov/minres/minres.py:349-361", "pykrylov/minres/minres.py:395"]}
{"id": "C105", "title": "Norm and condition estimates of SYMMLQ", "statement": "In exact arithmetic without preconditioner, B = A - shift I symmetric, b and B b nonzero: anorm^2 on return is the sum of |B v|^2 over an orthonormal list in the Krylov space with exactly one vector per iteration, so anorm never exceeds the Frobenius norm F of B. If the Lanczos-CG point exists, in particular if B is definite on the Krylov space, code 1 means |b - B x| <= rtol anorm |x|, and x solves exactly a system (B + D) x = b with |D| <= rtol F. From the second iteration on acond is at least |B b||b| / (|<b,Bb>| + eps <b,b>), whatever B is. If s and l bound |<z,Bz>|/<z,z> from below and |Bz|/|z| from above on the Krylov space, 1 <= acond <= (l + eps)/s, and code 4 is justified. Otherwise it is not: if |<b,Bb>|/<b,b> + eps <= 10 eps |Bb|/|b|, in particular if b is orthogonal to B b and |b| <= 10 |B b|, the loop ends in the first or second iteration. With the tridiagonal matrix of order 4 with zero diagonal and unit off-diagonals (condition number at most 2 sqrt 3) and b = e1, SYMMLQ with default parameters stops in iteration 2 with code 4, acond = 1/eps and a residual as large as b.", "quantifier": "Every inner product space, symmetric operator, shift, right-hand side, tolerances, limit of at least two (three) products, list of stored iterates and counter, for an object that supplies matvec.", "why_tests_cant": "The bounds hold for all operators and numbers of iterations and relate accumulated values to singular values; that every right-hand side orthogonal to its image stops the loop in two iterations is a statement about all operators.", "anchors": ["pykrylov/symmlq/symmlq.py:213-216", "pykrylov/symmlq/symmlq.py:236-276", "pykrylov/symmlq/symmlq.py:317-349", "pykrylov/symmlq/symmlq.py:361-400"]}
{"id": "C106", "title": "L-BFGS operators filled with conjugate steps", "statement": "In exact arithmetic, for a symmetric A and pairs (s, A s) with mutually conjugate s handed to store in any order of calls, products and restarts included: every pair that the operator retains satisfies its secant equation (inverse class: H y = s; forward and compact class: B s = y), not only the newest one. In n variables at most n pairs are retained; with m of them H A - I and A H - I have rank at most n - m, and with n of them the inverse operator is the inverse of A and the other two are A. As a preconditioner for A - shift I, MINRES makes at most n - m + 1 iterations unless b is an eigenvector as far as the code can tell; CGS, BiCGSTAB and TFQMR converge within n - m + 1 iterations (two products each) if they do not break down, and with n pairs they always converge in one. The differences of consecutive iterates stored by CG on a symmetric positive definite A, with their images, are such pairs, and if all are accepted and fit, there is one for each iteration. Without conjugacy the equation can fail for an older pair: with A = diag(1,2), s1 = (1,0) and s2 = (1,1) the product with A s1 is not s1.", "quantifier": "Every dimension, symmetric operator, number of pairs, scaling option, sequence of stores, products and restarts, and every run of the solvers; the three operator classes.", "why_tests_cant": "The rank of a product of operators and the number of iterations for all right-hand sides are not observable on samples; conjugacy is destroyed by rounding in a test.", "anchors": ["pykrylov/linop/lbfgs.py:70-127", "pykrylov/linop/lbfgs.py:140-254", "pykrylov/cg/cg.py:46-165", "pykrylov/minres/minres.py:115-410", "pykrylov/cgs/cgs.py:40-123", "pykrylov/bicgstab/bicgstab.py:43-151", "pykrylov/tfqmr/tfqmr.py:39-159"]}
{"id": "C107", "title": "Norm and condition estimates of preconditioned MINRES and SYMMLQ", "statement": "In exact arithmetic with a symmetric positive definite preconditioner P, B = A - shift I symmetric and |z|_P = sqrt <z,Pz>: all the estimates describe B P in the inner product <u,Pv>, not B. MINRES returns Anorm with Anorm^2 = <b,Pb> + sum |B P v|_P^2 over a list orthonormal in <u,Pv>, one vector per iteration while the system is unsolved; SYMMLQ the same without <b,Pb>. When P = C C' this is |C'b|^2 plus the sum of |C'BC w|^2 over an orthonormal list, at most |C'b|^2 + F^2 for the Frobenius norm F of C'BC; when P = c^2 I the sum is c^4 times that of B, so the reported norm of the matrix depends on the scale of the preconditioner. ynorm of MINRES is <b,Pb>/|BPb|_P at every iteration, at most the P-norm of the y with B P y = b. Codes 1, 2 and 3 of MINRES compare P-norms. If s <z,Pz> <= <Pz,BPz> and |BPz|_P <= l |z|_P on the Krylov space, Acond <= l/s, for SYMMLQ 1 <= acond <= (l+eps)/s, and code 4 is justified; code 1 of SYMMLQ then means |b - B x|_P <= rtol anorm |y|_P where x = P y. If P makes b nearly orthogonal to B P b in that inner product, SYMMLQ ends in its second iteration at the latest.", "quantifier": "Every inner product space, symmetric operator, symmetric positive definite preconditioner and factorisation of it, shift, right-hand side, tolerances, limits and initial logs.", "why_tests_cant": "The bounds hold for all operators, preconditioners and numbers of iterations and relate accumulated values to singular values of an operator that the program never forms.", "anchors": ["pykrylov/minres/minres.py:162-166", "pykrylov/minres/minres.py:228-372", "pykrylov/symmlq/symmlq.py:130-134", "pykrylov/symmlq/symmlq.py:182-349"]}
{"id": "C108", "title": "Norm and condition estimates of preconditioned LSQR and LSMR", "statement": "In exact arithmetic with symmetric positive definite preconditioners M and N (identity if absent), N invertible for LSQR: Anorm^2 of LSQR is the sum of |A N w|_M^2 + damp^2 over a list of vectors of the Krylov space of A'MAN and A'Mb orthonormal in <u,Nv>, one per iteration; only if the weighted normal equations are solved may the last iteration add nothing or, with damping, one |A N w|_M^2 count twice. normA of LSMR is the root of the sum of |A N w|_M^2 over such a list, without exceptions, and |A'Mb|_N/|b|_M if no iteration was made. With N = Cn Cn' and M = Cm Cm' these are sums of |B w|^2 over orthonormal lists for B = Cm' A Cn, and at most the Frobenius norm of B (LSQR: without damping; in general Anorm^2 <= 2F^2 + itn damp^2, and <= F^2 + itn damp^2 unless solved). Acond of LSQR mixes norms: if mu^2 <z,Nz> <= |Nz|^2 <= nu^2 <z,Nz> then Acond >= mu (itn - 1), >= mu itn while unsolved, and s Acond <= nu sqrt(itn) Anorm for every lower bound s of the stacked preconditioned operator; so with N = c^2 I and no damping, where the preconditioned operator is c A, both bounds are proportional to c. LSMR ends after one iteration, with code 1, 2 or 3 and a multiple of N A'Mb, or with ZeroDivisionError if such a multiple solves the undamped system, whenever conlim^2 (|A N g|_M^2 + damp^2 <g,Ng>) <= <g,Ng> for g = A'Mb, whatever the tolerances.", "quantifier": "Every pair of inner product spaces, operator with its adjoint, preconditioners and factorisations of them, damping, right-hand side, tolerances, limits, window and earlier state of the LSMR object.", "why_tests_cant": "The bounds hold for all operators, preconditioners and numbers of iterations; that the condition estimate scales with the preconditioner cannot be told from runs with one preconditioner.", "anchors": ["pykrylov/lls/lsqr.py:240-303", "pykrylov/lls/lsqr.py:338-371", "pykrylov/lls/lsmr.py:264-278", "pykrylov/lls/lsmr.py:403-446"]}
{"id": "C109", "title": "Norms reported by preconditioned CRAIG", "statement": "In exact arithmetic with symmetric positive definite invertible preconditioners M and N and b <> 0, for the returned x and y: r1norm^2 + xnorm = <x, inv(N) x> + <y, inv(M) y> = r2norm^2, both terms nonnegative, so none of the three involves the Euclidean norm of x or of b - A x. Arnorm and the entries of normal_eqns_resids belong to the iterate before: each lies between the M-norm of its residual b - A x - inv(M) y and sqrt(1+s^2) times that, for every s with |A N z|_M <= s |z|_N for all z, and equals it for the first iterate; Arnorm = 0 means that the previous iterate solves A x + inv(M) y = b, x = N A'y.", "quantifier": "Every pair of inner product spaces, operator with its adjoint, preconditioners, right-hand side, tolerances, limits and window.", "why_tests_cant": "The identities hold for all operators, preconditioners and numbers of iterations.", "anchors": ["pykrylov/lls/craig.py:144-153", "pykrylov/lls/craig.py:391-440", "pykrylov/lls/craig.py:513-518"]}
{"id": "C110", "title": "CG and MINRES on the Poisson systems of the gallery", "statement": "In exact arithmetic the products Poisson1dMatvec on n points and Poisson2dMatvec on an n by n grid are products with self-adjoint operators whose quadratic forms lie between 2/(n(n+1)) |z|^2 and 4 |z|^2, and between 4/(n(n+1)) |z|^2 and 8 |z|^2. CG without preconditioner or symmetry check, with the default budget, abstol >= 0 and reltol > 0, solves every such system from every guess: it stops converged with definiteness True, the true residual of the returned solution is at most max(abstol, reltol |initial residual|), the number of products is at most the number of unknowns and at most every K >= (s+1)/2 ln(2 s/reltol) with s = 3/2 (n+1), plus one for a guess; so on the n by n grid it is of order n log(n/reltol), not n^2. The vectors sin(k(i+1)pi/(n+1)) are eigenvectors of the 1D product for 2 - 2cos(k pi/(n+1)), and their products those of the 2D product for the sums, so no lower bound above pi^2/(n+1)^2 (2D: twice that) and no upper bound below 2 (2D: 4) is possible; CG from zero with such a right-hand side in 1D makes at most one product. MINRES without preconditioner and with a shift <= 0, when n(n+1) times the machine epsilon is at most 2 (1D) or 4 (2D), brings the residual under tol |b| in every iteration K >= (s+1)/2 ln(2/tol), and if it has not taken b for an eigenvector it makes at most max(K,1) iterations for every K >= (s+1)/2 ln(2/rtol). If every operation rounds with relative error at most u and nothing underflows, each finite entry of the 1D (2D) product errs by at most (1+u)^4 - 1 ((1+u)^6 - 1) times the sum of the absolute values of its terms; when CG in such arithmetic with u <= 1/8 reports convergence with finite results and iterates bounded by X, the true residual is at most t/(1-u)^(N+2), t the threshold and N the number of unknowns, plus the drift of C97 for operator norm 4 (8) and product error 4((1+u)^4-1) (8((1+u)^6-1)), constants that do not depend on the grid.", "quantifier": "Every n >= 1, right-hand side, initial guess, tolerances, logging options, shift <= 0 and earlier state of the solver object.", "why_tests_cant": "The bound relates the number of iterations to the grid size for all sizes and right-hand sides.", "anchors": ["pykrylov/gallery/gallery.py:3-29", "pykrylov/cg/cg.py:46-165", "pykrylov/minres/minres.py:162-372"]}
