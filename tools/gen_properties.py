#!/usr/bin/env python3
"""Writes /verif/properties.jsonl.  One P(...) call per property."""
import json, os
OUT = os.path.join(os.path.dirname(__file__), '..', 'properties.jsonl')
rows = []
def P(id, title, statement, quantifier, why, anchors):
    rows.append(dict(id=id, title=title, statement=statement, quantifier=quantifier,
                     why_tests_cant=why, anchors=anchors))

LO='pykrylov/linop/linop.py'; BO='pykrylov/linop/blkop.py'; LB='pykrylov/linop/lbfgs.py'

# ---------------------------------------------------------------- operators
P('C01','Operator algebra computes what the formula says',
  'If an operator is built from base operators by any nesting of scalar multiple, negation, product, sum, difference, power, transpose, adjoint, conjugate, then op*x equals the value of the same formula applied to the base linear maps, for every vector x of size nargin, and no exception is raised.',
  'every expression tree, every base operator (real or complex) with honest matvec/matvec_transp/matvec_adj, every vector',
  'the set of expression trees and vectors is infinite; tests check a handful of 2x3 integer matrices',
  [LO+':LinearOperator.__mul__',LO+':__mul_scalar',LO+':__mul_linop',LO+':__add__',LO+':__sub__',LO+':__neg__',LO+':__pow__',LO+':conjugate'])
P('C02','A.T is the transpose',
  'For every operator built by the operator algebra from honest base operators, A.T exists and <y, A*x> = <A.T*y, x> (unconjugated) for all x, y of matching size.',
  'every expression tree, all vectors x, y, real and complex dtype, every combination of symmetric/hermitian flags',
  'adjointness is a statement about all pairs of vectors and all trees',
  [LO+':LinearOperator.T',LO+':__set_transpose'])
P('C03','A.H is the conjugate transpose',
  'For every operator built by the operator algebra from honest base operators, A.H exists and <conj y, A*x> = <conj(A.H*y), x> for all x, y; for a complex operator given only matvec_transp or only matvec_adj, the missing A.H / A.T that the constructor infers is the correct one.',
  'every expression tree, all vectors, every subset of {matvec_transp, matvec_adj} supplied',
  'adjointness is a statement about all pairs of vectors; the inference logic has many flag combinations',
  [LO+':LinearOperator.H',LO+':__set_adjoint',LO+':conjugate',LO+':LinearOperator.__init__'])
P('C04','A.T.T is A (object identity)',
  'After any successful LinearOperator construction where A.T is not None, A.T.T is the very same object as A, except exactly when dtype is complex, neither symmetric nor hermitian is set and only matvec_adj was supplied: then A.T.T is None (the documentation claims A.T.T is A always).',
  'every construction: dtype kind x symmetric x hermitian x which of matvec_transp/matvec_adj are given, starting from any heap',
  'tests check a few constructions; the claim is about all of them and any pre-existing object graph',
  [LO+':LinearOperator.__init__','doc/source/linop.rst'])
P('C05','A.H.H is A (object identity)',
  'After any successful LinearOperator construction where A.H is not None, A.H.H is A, except exactly when dtype is complex, neither symmetric nor hermitian is set and only matvec_transp was supplied: then A.H.H is None.',
  'every construction, starting from any heap',
  'as C04', [LO+':LinearOperator.__init__'])
P('C06','symmetric/hermitian flags make T/H the operator itself',
  'symmetric=True implies A.T is A. hermitian=True implies A.H is A unless dtype is complex and symmetric=True as well, in which case A.H is a different object (documentation claims A.H is A whenever A.hermitian).',
  'every construction, starting from any heap',
  'exhaustive over flag combinations and heaps', [LO+':LinearOperator.__init__','doc/source/linop.rst'])
P('C07','Wrong shapes are rejected, right shapes are not',
  'A+B and A-B raise ShapeError exactly when the shapes differ; A*B raises ShapeError exactly when A.nargin != B.nargout; A*x raises ValueError when x does not have nargin entries and also when the user matvec returns a vector that does not have nargout entries; A**k raises ShapeError for a non-square A with k>=0 and ValueError for k<0. Nothing is constructed when an exception is raised.',
  'all operators, all shapes, all vectors, all exponents',
  'all shapes', [LO+':__add__',LO+':__sub__',LO+':__mul_linop',LO+':_matvec',LO+':__pow__'])
P('C08','Shape algebra',
  'shape(A*B) = (A.nargout, B.nargin), shape(A+B) = shape(A-B) = shape(c*A) = shape(-A) = shape(A), shape(A.T) = shape(A.H) = reversed shape, for every operator produced by the API.',
  'all operators, all shapes', 'all shapes', [LO+':BaseLinearOperator.shape',LO+':LinearOperator'])
P('C09','Product counters',
  'A*x adds exactly 1 to A.nMatvec whether or not it raises; A*x never decreases any counter and leaves the operator graph otherwise unchanged; applying A.T (A not symmetric, honest) leaves A.nMatvec unchanged; reset_counters sets it to 0 and touches nothing else; in a product A*B every application adds exactly 1 to each of A*B, A, B (distinct base operators).',
  'every heap, every operator, every vector, every history of products',
  'arbitrary histories', [LO+':__mul_vector',LO+':reset_counters',LO+':nMatvec'])
P('C10','Result dtype of a product',
  'Whenever A*x succeeds its dtype is result_type(A.dtype, x.dtype); the dtype of c*A, A*B, A+B, A-B is result_type of the operands; real operator times real vector never yields a complex array.',
  'all operators, all vectors, all dtype kinds', 'tests enumerate dtypes for one matrix only',
  [LO+':__mul_vector',LO+':__mul_scalar',LO+':__mul_linop'])
P('C11','Symmetry flags are sound under the algebra',
  'If the operands flagged symmetric (hermitian) really are, then every result of c*A, A+B, A-B, -A flagged symmetric (hermitian) really is symmetric (hermitian); products are never flagged.',
  'all operands, all scalars (real and complex)', 'all vectors x,y', [LO+':__mul_scalar',LO+':__add__',LO+':__sub__',LO+':__mul_linop'])
P('C12','Scalar multiples, zero and division',
  'A*0 is a ZeroOperator whose product is the zero vector of size nargout; (A/c)*x = (1/c)(A*x) for float or complex c != 0 and for true division; division by 0 raises ZeroDivisionError. With classic (Python 2) division by an integer k the factor is floor(1/k): A/k is the zero operator for every integer k >= 2 and -A for every k <= -1 (so the expected (A/k)*x = (A*x)/k fails).',
  'all operators, scalars, vectors', 'all scalars', [LO+':__div__',LO+':__truediv__',LO+':__mul_scalar'])
P('C13','Powers',
  'For square A and every k >= 0, (A**k)*x equals A applied k times to x; A**1 is A itself; A**0 acts as the identity.',
  'all k (no bound), all square operators, all x', 'unbounded k', [LO+':__pow__',LO+':IdentityOperator'])
P('C14','to_array / full give the matrix of the operator',
  'For every linear operator, to_array() has shape (nargout, nargin), multiplying it with x gives A*x for every x, it costs exactly nargin products, and A.T.to_array() is the transpose of A.to_array().',
  'all operators, all sizes, all x', 'all sizes', [LO+':to_array',LO+':full'])
P('C15','Diagonal operators, abs and sqrt',
  'DiagonalOperator(d)*x = d*x entrywise, it is symmetric and its H multiplies by conj(d); abs(D) has diagonal |d|; sqrt(D) raises ValueError iff D is real with a negative entry and otherwise sqrt(D)*(sqrt(D)*x) = D*x; ZeroOperator maps everything to 0 in both directions; IdentityOperator returns x.',
  'all diagonals, sizes, vectors', 'all diagonals', [LO+':DiagonalOperator',LO+':ZeroOperator',LO+':IdentityOperator',LO+':sqrt'])
P('C16','DiagonalOperator and later changes to the caller\'s array',
  'When built from an ndarray, the product uses the caller\'s array, not the private copy: after the caller changes an entry, D*x changes accordingly while D.diag, abs(D) and sqrt(D) still use the old diagonal. When built from a list it is insulated.',
  'all diagonals, all in-place changes, all x', 'requires reasoning about aliasing for every history',
  [LO+':DiagonalOperator.__init__'])
P('C17','Reduced operators select rows and columns',
  'ReducedLinearOperator(op, rows, cols)*x = (op * z)[rows] with z zero except z[cols]=x; with duplicate-free in-range indices this is the submatrix and its T/H are the transpose/adjoint; SymmetricallyReducedLinearOperator keeps symmetry. With a repeated column index the matvec and matvec_transp are no longer transposes of each other.',
  'all operators, index lists, vectors', 'all index lists', [LO+':ReducedLinearOperator',LO+':SymmetricallyReducedLinearOperator'])
P('C18','Coordinate-format operators',
  'With explicit nargin/nargout, CoordLinearOperator(vals,rows,cols)*x is the product with the matrix obtained by summing all triples (duplicates added), and with symmetric=True by also adding the mirrored off-diagonal triples; T is its transpose. When nargin (nargout) is omitted the inferred size is the maximal index itself, so with 0-based indices every product of right-sized vectors raises IndexError. Without any triples an omitted size raises ValueError, and with both sizes given the operator is zero.',
  'all triple lists, sizes, vectors', 'all triple lists', [LO+':CoordLinearOperator'])
P('C19','Operators from arrays',
  'linop_from_ndarray(A)*x = A.x, .T and .H multiply by A^T and conj(A)^T; real arrays with symmetric xor hermitian raise ValueError.',
  'all arrays, sizes, dtype kinds, flags', 'all arrays', [LO+':linop_from_ndarray'])
# ---------------------------------------------------------------- blocks
P('C20','Block operator product',
  'For a block operator whose blocks have consistent shapes, K*x is the concatenation over block rows of the sum over block columns of B_ij * x_j, for any number of block rows/columns and any block sizes (including 0).',
  'all block layouts, sizes and vectors', 'all layouts', [BO+':BlockLinearOperator.__init__',BO+':blk_matvec'])
P('C21','Block operator transpose and adjoint',
  'For every consistent block layout with adjoint-correct blocks, K.T and K.H satisfy the (conjugate) transpose identity for all vectors.',
  'all block layouts and vectors', 'all layouts', [BO+':BlockLinearOperator.__init__'])
P('C22','What block construction validates',
  'Construction raises ShapeError iff the first-column widths differ between block rows or the heights within a block row differ; ragged rows raise AttributeError. It does not check the widths of the later columns: there is a layout that is accepted, reports a shape, and whose product raises ValueError for every vector of that shape.',
  'all layouts', 'all layouts', [BO+':BlockLinearOperator.__init__'])
P('C23','Symmetric block layouts',
  'With symmetric=True and upper-triangular rows, block (i,j) for i>j is block (j,i).T and the diagonal blocks are required to be flagged symmetric (ValueError otherwise). The construction modifies the caller\'s row lists in place, and passing the same list to a second construction raises (unless there is one block row).',
  'all numbers of block rows, all blocks', 'unbounded size and histories', [BO+':BlockLinearOperator.__init__'])
P('C24','Assigning a block',
  'K[i,j]=B on a non-symmetric block operator: later products with K, K.T and K.H all use B. On a symmetric one, K.T stays K and tracks every assignment on or above the diagonal, an assignment below the diagonal is silently undone, and for real dtype the products with K.H keep using the old blocks for ever (for complex dtype K.H is the conjugate of K and tracks).',
  'all layouts, positions, histories of assignments', 'histories', [BO+':BlockLinearOperator.__setitem__'])
P('C25','Block diagonal product',
  'BlockDiagonalLinearOperator(blocks)*x is the concatenation of B_i * x_i for any blocks (rectangular allowed) and it is flagged symmetric/hermitian iff all blocks are.',
  'all block lists and vectors', 'all sizes', [BO+':BlockDiagonalLinearOperator.__init__'])
P('C26','Block diagonal transpose',
  'If all blocks are square, the transpose/adjoint products are the concatenation of the block transposes/adjoints. If some block is rectangular, the transpose product raises for every vector of the right size.',
  'all block lists and vectors', 'all sizes', [BO+':BlockDiagonalLinearOperator.__init__'])
P('C27','Assigning a diagonal block',
  'For a block diagonal operator that is neither symmetric nor hermitian, D[k]=B (same shape) makes D, D.T, D.H use B, and the caller\'s list is modified as well. For a symmetric one D.T stays D, so a non-symmetric B makes D.T wrong.',
  'all block lists, positions, histories', 'histories', [BO+':BlockDiagonalLinearOperator.__setitem__'])
# ---------------------------------------------------------------- L-BFGS
P('C28','L-BFGS memory is the last npairs accepted pairs',
  'After any history of store and restart calls, the pairs used by products are exactly the most recent min(npairs, #accepted since last restart) pairs with s\'y > threshold, in order of acceptance; rejected pairs leave the operator unchanged; restart empties it. The attribute insert is the number of pairs accepted since the last restart modulo npairs, and the i-th of them is in slot i mod npairs until overwritten; slots not reached are empty.',
  'every npairs >= 1, every history of store/restart', 'unbounded histories and wrap-around', [LB+':InverseLBFGSOperator.store',LB+':restart'])
P('C29','Two-loop recursion equals the BFGS inverse update',
  'InverseLBFGSOperator*v equals the product with the matrix defined recursively by the BFGS inverse update over the stored pairs starting from I (or gamma*I with scaling, gamma = s\'y/y\'y of the newest pair).',
  'every history, every v, every dimension', 'all histories and vectors', [LB+':InverseLBFGSOperator.lbfgs_matvec'])
P('C30','L-BFGS operators are symmetric positive definite',
  'After any history of store/restart, <u,Hv> = <Hu,v> and <v,Hv> > 0 for v != 0 (inverse, forward and compact operators).',
  'every history, all vectors', 'all histories and vectors', [LB+':InverseLBFGSOperator',LB+':LBFGSOperator'])
P('C31','Secant equation',
  'After any history ending with an accepted pair (s,y): H*y = s for the inverse operator and B*s = y for the forward and the compact operators.',
  'every history', 'all histories', [LB+':lbfgs_matvec'])
P('C32','Forward operator is the inverse of the inverse operator',
  'With scaling off, for the same history LBFGSOperator*(InverseLBFGSOperator*v) = v and conversely. With scaling=True the forward operator ignores the scaling and this fails.',
  'every history, every v', 'all histories', [LB+':LBFGSOperator.lbfgs_matvec'])
P('C33','Compact representation',
  'CompactLBFGSOperator*v equals the inverse of InverseLBFGSOperator (same scaling setting, on or off) applied to v, provided the small linear solve returns a solution; without scaling it equals LBFGSOperator*v.',
  'every history, every v, every npairs', 'all histories', [LB+':CompactLBFGSOperator.lbfgs_matvec'])
P('C34','StructuredLBFGSOperator can be built',
  'Calling StructuredLBFGSOperator(n, npairs) always raises TypeError (it passes self twice).',
  'all n, npairs, kwargs', 'needs all argument combinations', [LB+':StructuredLBFGSOperator.__init__'])
# ---------------------------------------------------------------- CG
P('C35','CG terminates within its product budget and counts truthfully',
  'CG.solve always terminates; the reported nMatvec equals the increase of op.nMatvec caused by the solve (apart from the optional symmetry check); nMatvec <= matvec_max, or 1 when a guess is supplied and matvec_max = 0. Holds for any arithmetic, including NaN and infinities.',
  'every operator, right-hand side, guess, tolerance, arithmetic', 'all inputs incl. NaN', ['pykrylov/cg/cg.py:CG.solve'])
P('C36','CG reports the true residual and converged means converged',
  'In exact arithmetic without preconditioner the reported residNorm is ||b - A x|| for the returned x, every entry of the residual history is the residual norm of the corresponding iterate, and converged is True iff ||b - A x|| <= max(abstol, reltol*||b - A x0||).',
  'every linear operator (symmetric or not), rhs, guess, tolerances, budget', 'all systems', ['pykrylov/cg/cg.py:CG.solve'])
P('C37','CG solves every SPD system of size n within n iterations',
  'In exact arithmetic, for a symmetric positive definite operator on R^n without preconditioner, any budget of at least n iterations (the default 2n in particular) and any tolerances >= 0: solve returns converged=True and definite=True after at most n iterations; residuals are mutually orthogonal and directions A-conjugate; the A-norm of the error decreases at every iteration.',
  'every n, every SPD operator, every rhs and guess', 'all systems and sizes', ['pykrylov/cg/cg.py:CG.solve'])
P('C38','CG detects negative curvature soundly',
  'If definite is False after solve then infiniteDescent is a direction p with <p, A p> <= 0 (and definite stays True for a positive definite operator); with check_curvature off definite is always True.',
  'every operator, rhs, guess', 'all systems', ['pykrylov/cg/cg.py:CG.solve'])
P('C39','CG with a preconditioner',
  'With a preconditioner the recurrence keeps r = A x - b and residNorm is sqrt(r\'Pr), but the search direction uses r, not the preconditioned residual: even for a 1x1 system with the exact inverse as preconditioner one iteration does not solve the system.',
  'all systems and preconditioners', 'all systems', ['pykrylov/cg/cg.py:CG.solve'])
P('C40','CG histories and repeated solves',
  'Each solve appends exactly (iterations+1) residual norms; resids/iterates histories have iterations+1 entries when requested; histories accumulate over repeated solves instead of being reset; a failed symmetry check leaves all results of the previous solve in place.',
  'all sequences of solve calls', 'histories', ['pykrylov/cg/cg.py:CG.solve','pykrylov/generic/generic.py'])
# ---------------------------------------------------------------- CGS, BiCGSTAB, TFQMR
P('C41','CGS budget and counting',
  'CGS.solve terminates; nMatvec <= matvec_max + 1; op.nMatvec increases by nMatvec, plus one extra uncounted product when a guess is supplied. Any arithmetic.',
  'every operator, rhs, guess, tolerance, arithmetic', 'all inputs', ['pykrylov/cgs/cgs.py:CGS.solve'])
P('C42','CGS converged means converged',
  'In exact arithmetic (any treatment of division by zero), with or without preconditioner, residNorm = ||b - A x|| for the returned x and converged iff that is <= max(abstol, reltol*||r0||).',
  'every linear operator, preconditioner, rhs, guess', 'all systems', ['pykrylov/cgs/cgs.py:CGS.solve'])
P('C43','BiCGSTAB budget and counting',
  'BiCGSTAB.solve terminates; nMatvec <= matvec_max unless the initial guess product alone exceeds it; op.nMatvec increases by exactly nMatvec. Any arithmetic.',
  'every operator, rhs, guess, tolerance, arithmetic', 'all inputs', ['pykrylov/bicgstab/bicgstab.py:BiCGSTAB.solve'])
P('C44','BiCGSTAB converged means converged',
  'In exact arithmetic, converged implies ||b - A x|| = residNorm <= threshold, with or without preconditioner. When the budget runs out after the first half step, residNorm is the norm of a vector that is not the residual of the returned x.',
  'every linear operator, preconditioner, rhs, guess', 'all systems', ['pykrylov/bicgstab/bicgstab.py:BiCGSTAB.solve'])
P('C45','TFQMR budget, counting and the already-converged case',
  'TFQMR.solve terminates; nMatvec <= matvec_max; op.nMatvec increases by nMatvec plus one uncounted product when a guess is supplied. If the initial residual already meets the threshold (e.g. rhs = 0) or matvec_max = 0, solve raises UnboundLocalError instead of returning. Any arithmetic.',
  'every operator, rhs, guess, tolerance, arithmetic', 'all inputs', ['pykrylov/tfqmr/tfqmr.py:TFQMR.solve'])
P('C46','TFQMR convergence test bounds the true residual',
  'In exact arithmetic, as long as no division by zero occurs, ||b - A x|| <= sqrt(m+1) * residNorm after m half-steps, hence converged implies ||b - A x|| < threshold; with or without preconditioner.',
  'every linear operator, preconditioner, rhs, guess, number of steps', 'all systems', ['pykrylov/tfqmr/tfqmr.py:TFQMR.solve'])
# ---------------------------------------------------------------- MINRES / SYMMLQ
P('C47','MINRES stopping logic',
  'solve performs at most itnlim iterations and nMatvec = itn; istop is one of -1,0,1,2,3,4,6,7,8,9,10 and 5 is never returned; converged iff istop in {1,2,3,4,10}; a preconditioner passed to the constructor is ignored; istop = -1 never stops the loop.',
  'every operator, rhs, tolerances, arithmetic', 'all inputs', ['pykrylov/minres/minres.py:Minres.solve'])
P('C48','MINRES residual norm estimate is exact and monotone',
  'In exact arithmetic for a symmetric operator without preconditioner, as long as no breakdown occurs, the reported rnorm equals ||b - (A - shift I) x|| at every iteration and it never increases.',
  'every symmetric operator, rhs, shift, iteration', 'all systems', ['pykrylov/minres/minres.py:Minres.solve'])
P('C49','SYMMLQ.solve returns',
  'Symmlq.solve never returns normally: it raises for every operator, preconditioner and right-hand side (AttributeError for <b, P b> > 0, IndexError for an empty right-hand side, otherwise UnboundLocalError). In a subclass that has the missing attribute, and in exact arithmetic with <b, P b> > 0, the statements before it end the run exactly when the check is requested and <y, y> and <b, P y> differ by more than the tolerance of the code; so never for a self-adjoint P or without one.',
  'all inputs', 'all inputs', ['pykrylov/symmlq/symmlq.py:Symmlq.solve'])
# ---------------------------------------------------------------- least squares
P('C50','LSQR stopping logic and counters',
  'LSQR performs at most itnlim iterations (3n when itnlim=0); istop/status/optimal are consistent; zero A\'b gives x = 0, istop = 0; the conlim argument has no effect; wantvar=True always raises; the reported nMatvec is 2*itn while 2*itn+1 products are performed when nothing breaks down.',
  'all inputs, any arithmetic', 'all inputs', ['pykrylov/lls/lsqr.py:LSQRFramework.solve'])
P('C51','LSQR residual norms are exact',
  'In exact arithmetic (M = N = None) after every iteration r2norm = sqrt(||b - A x||^2 + damp^2 ||x||^2), it never increases, and with damp = 0 r1norm = ||b - A x||.',
  'every linear operator with correct transpose, rhs, damp, iteration', 'all systems', ['pykrylov/lls/lsqr.py:LSQRFramework.solve'])
P('C52','LSQR optimality residual is exact',
  'In exact arithmetic (M = N = None) after every iteration Arnorm = ||A\'(b - A x) - damp^2 x||; in particular if alpha or beta vanishes x solves the (damped) least-squares problem.',
  'every linear operator with correct transpose, rhs, damp, iteration', 'all systems', ['pykrylov/lls/lsqr.py:LSQRFramework.solve'])
P('C53','LSMR control flow',
  'LSMR performs at most itnlim iterations; when A\'b = 0 it returns x = 0 but leaves self.x unset; none of istop, itn, nMatvec, optimal, ... is ever updated on the solver object; when the residual estimate becomes exactly 0 (e.g. identity operator) it raises ZeroDivisionError.',
  'all inputs', 'all inputs', ['pykrylov/lls/lsmr.py:LSMRFramework.solve'])
P('C54','LSMR normal-equation residual is exact and monotone',
  'In exact arithmetic (M = N = None, damp = 0), after every iteration normar = ||A\'(b - A x)||, and it never increases.',
  'every linear operator with correct transpose, rhs, iteration', 'all systems', ['pykrylov/lls/lsmr.py:LSMRFramework.solve'])
P('C55','CRAIG control flow',
  'CRAIG ignores damp, atol and conlim entirely; rhs = 0 raises UnboundLocalError; at most itnlim iterations are made.',
  'all inputs', 'all inputs', ['pykrylov/lls/craig.py:CRAIGFramework.solve'])
P('C56','CRAIG solves the regularized problem',
  'In exact arithmetic (M = N = None) the iterates satisfy A x + r = b at every iteration, the solution reached on breakdown satisfies A\'r = x, i.e. (A\'A + I) x = A\'b, even though damp defaults to 0.',
  'every linear operator with correct transpose, rhs, iteration', 'all systems', ['pykrylov/lls/craig.py:CRAIGFramework.solve'])
P('C57','CRAIG-MR control flow',
  'CRAIG-MR performs at most itnlim iterations and ends with istop 7 or 8 (or 0 when itnlim = 0); damp, atol, btol, conlim have no effect.',
  'all inputs', 'all inputs', ['pykrylov/lls/craigmr.py:CRAIGMRFramework.solve'])
P('C58','Givens rotation helper',
  'symOrtho(a,b) returns (c,s,r) with c^2+s^2=1, c*a+s*b=r, c*b-s*a=0, r = sqrt(a^2+b^2) >= 0 for all reals, and never divides by zero.',
  'all real a, b', 'all reals', ['pykrylov/lls/lsmr.py:symOrtho'])
# ---------------------------------------------------------------- tools
P('C59','roots_quadratic returns the real roots',
  'In exact arithmetic with 0 <= tol < 1/4: it returns [] iff the polynomial has no real root; in the well-conditioned case it returns exactly the real roots; in every case each returned value v satisfies |q(v)| <= tol*|q0| (nitref = 1) and no division by zero occurs.',
  'all real coefficients, tolerances and refinement counts', 'all reals', ['pykrylov/tools/utils.py:roots_quadratic'])
P('C60','check_symmetric never rejects a symmetric operator',
  'In exact arithmetic a symmetric operator always passes, whatever the random vectors; a non-square operator is always rejected; if the test quantity vanishes for every vector then the operator is symmetric; it performs at most 2*repeats products.',
  'all operators, all random vectors', 'all random draws', ['pykrylov/tools/utils.py:check_symmetric'])
P('C61','check_positive_definite never rejects a positive definite operator',
  'In exact arithmetic a positive (semi-)definite operator passes for all random draws of nonzero vectors, and a rejection exhibits a vector of nonpositive (negative) curvature.',
  'all operators, all random vectors', 'all random draws', ['pykrylov/tools/utils.py:check_positive_definite'])
P('C62','Poisson1dMatvec is the 1D Laplacian',
  'For every length n >= 1, entry i is 2x_i - x_{i-1} - x_{i+1} (terms outside dropped); the map is linear, symmetric and positive definite; the argument is not modified.',
  'every n, every x', 'every size', ['pykrylov/gallery/gallery.py:Poisson1dMatvec'])
P('C63','Poisson2dMatvec is the 2D five-point Laplacian on vectors of square length',
  'For every n >= 1 and x of length n*n, entry (i,j) is 4x_{ij} minus its grid neighbours; the map is linear and symmetric positive definite. Of the other lengths, 2 and 3 raise ValueError and every longer one is accepted: with n the integer part of the root of the length N, the entries k from (n-1)n to n*n-2 subtract x[k+1+N-n*n] in place of the right neighbour x[k+1], so the result is the product with a matrix that is not symmetric, for every length above 3 that is not a square.',
  'every length, every x', 'every size', ['pykrylov/gallery/gallery.py:Poisson2dMatvec'])
P('C64','Solvers do not modify the caller\'s arrays',
  'solve of CG, CGS, BiCGSTAB, TFQMR, MINRES, LSQR, LSMR, CRAIG, CRAIG-MR never writes to the rhs or guess arrays, whatever branches are taken and however many iterations are made (operator products return fresh arrays).',
  'all executions (all branch choices, any number of iterations)', 'all executions', ['pykrylov/*/*.py:solve'])
P('C65','Constructor keywords for tolerances',
  'KrylovMethod reads abstol/reltol (defaults 1e-8, 1e-6); the documented keywords atol and rtol are accepted and have no effect.',
  'all keyword dictionaries', 'all dictionaries', ['pykrylov/generic/generic.py:KrylovMethod.__init__'])

exec(open(os.path.join(os.path.dirname(__file__), 'more_properties.py')).read()) if os.path.exists(os.path.join(os.path.dirname(__file__), 'more_properties.py')) else None
with open(OUT,'w') as f:
    for r in rows: f.write(json.dumps(r)+'\n')
print(len(rows),'properties')
