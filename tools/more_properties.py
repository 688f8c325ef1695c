P("C66","MINRES on an eigenvector returns NaN","When b is an eigenvector of A (no preconditioner) the second Lanczos coefficient is zero, istop is set to -1 which does not stop the loop, and every component of the returned x is NaN with converged = False, although the first iterate was exact; in particular no 1x1 system with nonzero right-hand side can be solved.",
  "every operator, eigenvector right-hand side, shift, tolerance, iteration limit of at least 2","all systems",["pykrylov/minres/minres.py:Minres.solve"])
P("C67","LSQR minimises over Krylov spaces and terminates","In exact arithmetic (M = N = None) the i-th LSQR iterate minimises ||b - A x||^2 + damp^2 ||x||^2 over the Krylov space of A'A and A'b of dimension i; if domain or range has dimension n, at most n+1 iterations are made and after n of them x solves the problem; without damping the solution found has the smallest norm of all; the default limit 3n is never the reason for stopping; 2*itn+1 products are made while the problem is unsolved.",
  "every linear operator with correct transpose, rhs, damp, tolerances","all operators and dimensions",["pykrylov/lls/lsqr.py:LSQRFramework.solve"])
P("C68","LSMR minimises the normal residual over Krylov spaces; never completes a consistent system","In exact arithmetic (M = N = None, window >= 1) every LSMR iterate minimises ||A'(b-Ax) - damp^2 x|| over the Krylov space of A'A and A'b; normr and normx are exact; at most n iterations are made in dimension n; stop codes 1 and 2 state true inequalities; with zero tolerances and an iteration limit of at least n, every consistent undamped system with nonzero A'b makes the solver raise ZeroDivisionError instead of returning the solution.",
  "every linear operator with correct transpose, rhs, damp, tolerances","all operators and dimensions",["pykrylov/lls/lsmr.py:LSMRFramework.solve"])
P("C69","CRAIG computes Galerkin iterates","In exact arithmetic (M = N = None, window >= 1, rhs nonzero) the dual vector r of iteration i is the Galerkin (conjugate gradient) iterate of (AA' + I) y = b in the Krylov space of AA' and b of dimension i+1; r2norm^2 and the residual history equal ||x||^2 + ||r||^2, which never decreases; istop is 1, 7 or 8, and 1 only after the first iteration; stopping at the default limit 3n means A x + r = b holds.",
  "every linear operator with correct transpose, rhs, tolerances, limit","all operators and dimensions",["pykrylov/lls/craig.py:CRAIGFramework.solve"])
P("C70","CRAIG-MR minimises the residual of (AA'+I)x = b","In exact arithmetic (M = N = None, window >= 1) the i-th CRAIG-MR iterate is a vector of the range space that minimises ||b - (AA' + I) x|| over the Krylov space of AA' and b of dimension i; the problem is solved after m iterations (m the dimension of the range) or n+1 iterations (n that of the domain), so the default limit min(m,n) can be one iteration short when n < m; the norms history is ||(AA'+I)x||^2 and the 'normal residual' history is the norm of the change of the residual.",
  "every linear operator with correct transpose, rhs, limit","all operators and dimensions",["pykrylov/lls/craigmr.py:CRAIGMRFramework.solve"])
P("C71","CGS, BiCGSTAB and TFQMR stop exactly when converged or out of budget","In any arithmetic, a run that returns has converged = True or has used at least matvec_max products (as counted by nMatvec); and another iteration is started only when the convergence test (with the true threshold max(abstol, reltol*residNorm0), and for TFQMR residNorm*sqrt(m+1) strictly below it) failed and the budget is not used up.",
  "every operator, rhs, guess, tolerance, budget and arithmetic","all runs of three loops",["pykrylov/cgs/cgs.py:CGS.solve","pykrylov/bicgstab/bicgstab.py:BiCGSTAB.solve","pykrylov/tfqmr/tfqmr.py:TFQMR.solve"])
P("C72","CGS computes the squared BiCG residual and terminates","In exact arithmetic with a linear operator A and linear preconditioner M, after 2k products the residual of the vector returned by CGS is P_k(B)^2 r0, with B = AM and P_k the residual polynomial of the bi-conjugate gradient method with shadow vector r0; in dimension n CGS converges after at most 2n products (the default budget) unless BiCG breaks down; symmetric positive definite operators never break down, so on R^n all three solvers converge for them with the default budget.",
  "every inner product space, linear operator, preconditioner, guess, tolerance >= 0","all operators and dimensions",["pykrylov/cgs/cgs.py:CGS.solve"])
P("C73","BiCGSTAB terminates","In exact arithmetic with linear A and M, in dimension n BiCGSTAB converges after at most 2n products with ||b-Ax|| below the threshold, unless the bi-conjugate gradient process with shadow vector r0 breaks down or omega becomes zero; omega cannot become zero when <Bv,v> vanishes only for v = 0.",
  "every inner product space, linear operator, preconditioner, guess, tolerance >= 0","all operators and dimensions",["pykrylov/bicgstab/bicgstab.py:BiCGSTAB.solve"])
P("C74","TFQMR terminates","In exact arithmetic with linear A and M and a positive threshold, in dimension n TFQMR (when it starts iterating) converges after at most 2n-1 products with ||b-Ax|| below the threshold, unless the bi-conjugate gradient process with shadow vector r0 breaks down.",
  "every inner product space, linear operator, preconditioner, guess, positive threshold","all operators and dimensions",["pykrylov/tfqmr/tfqmr.py:TFQMR.solve"])
P("C75","Preconditioned MINRES minimises in the preconditioner norm","In exact arithmetic with a symmetric operator A and a symmetric positive definite preconditioner P, and (A - shift)P shrinking no vector of the Krylov space of (A - shift)P and b by more than the machine epsilon in the P-norm, if solve returns, the i-th MINRES iterate minimises <r, P r>^(1/2), r = b - (A - shift) x, over the Krylov space of P(A - shift) and P b of dimension i; rnorm and the residual history are exactly these norms, Arnorm is the P-norm of (A - shift)P r of the previous iterate, and after n iterations in dimension n the system is solved unless the exit code is 7 or 8. If rtol >= 0 and b is not nearly an eigenvector (the second Lanczos coefficient exceeds 10 eps times the P-norm of b), solve makes at most n iterations.",
  "every symmetric operator, SPD preconditioner, rhs, shift, tolerances, limit","all operators, preconditioners and dimensions",["pykrylov/minres/minres.py:Minres.solve"])
P("C76","Preconditioned LSQR solves the weighted least-squares problem","In exact arithmetic with symmetric positive definite invertible M and N (None is the identity), wantvar False and a positive window, LSQR returns and its i-th iterate minimises <M r, r> + damp^2 <x, inv(N) x>, r = b - A x, over the Krylov space of N A'M A and N A'M b of dimension i; r2norm is the root of the objective, xnorm the inv(N)-norm of x and Arnorm the N-norm of A'M r - damp^2 inv(N) x; a zero Arnorm means x is a minimiser (of smallest inv(N)-norm without damping); at most n+1 iterations if the domain or the range has dimension n; stop code 1, and stop code 2 unless atol is such that the comparison with an infinite test2 succeeds, imply the corresponding inequality between r2norm or Arnorm and the tolerances.",
  "every linear operator with correct transpose, SPD M and N, rhs, damp, tolerances","all operators, preconditioners and dimensions",["pykrylov/lls/lsqr.py:LSQRFramework.solve"])
P("C77","Preconditioned LSMR minimises the weighted normal residual","In exact arithmetic with symmetric positive definite invertible M and N and a positive window, when LSMR returns and A'M b is not 0, every LSMR iterate minimises the N-norm of A'M(b - A x) - damp^2 inv(N) x over the Krylov space of N A'M A and N A'M b; normar is that norm, normr the root of <M r, r> + damp^2 <x, inv(N) x>, normx the Euclidean norm of x; at most n iterations if the domain or the range has dimension n; the only exception is ZeroDivisionError, raised only if damp is 0 and a vector of a Krylov space of dimension at most the limit solves A x = b; A'M b = 0 returns x = 0.",
  "every linear operator with correct transpose, SPD M and N, rhs, damp, tolerances","all operators, preconditioners and dimensions",["pykrylov/lls/lsmr.py:LSMRFramework.solve"])
P("C78","Preconditioned CRAIG and CRAIG-MR solve (A N A' + inv(M)) y = b","In exact arithmetic with symmetric positive definite invertible M and N, wantvar False and a positive window, CRAIG raises UnboundLocalError for b = 0 and returns otherwise if the limit is positive; then the dual iterates y of CRAIG are the Galerkin iterates of (A N A' + inv(M)) y = b in the Krylov spaces of M A N A' and M b, and x = N A'y; at breakdown, and at the end of a run of at least as many iterations as the dimension of domain or range, A x + inv(M) y = b; r2norm^2 and the residual history are <x, inv(N) x> + <y, inv(M) y>, which never decreases. CRAIG-MR minimises the M-norm of the residual of the same system over the same spaces.",
  "every linear operator with correct transpose, SPD M and N, rhs, limit","all operators, preconditioners and dimensions",["pykrylov/lls/craig.py:CRAIGFramework.solve","pykrylov/lls/craigmr.py:CRAIGMRFramework.solve"])
P("C79","SYMMLQ with matvec supplied: outcomes and counters","In any arithmetic, when the missing matvec attribute is supplied (one counted product with op), SYMMLQ returns, or raises IndexError (empty right-hand side) or UnboundLocalError; UnboundLocalError is certain when fewer than two products are allowed or <b, Pb> is not positive (in particular for b = 0). When it returns, itn >= 1, nMatvec <= matvec_max + 1 and every product is counted except the one of the symmetry check; nMatvec is itn + 2 for istop 0 and 6 and itn + 1 otherwise; istop is one of -1, 0, 1, 2, 3, 4, 6 (never 5, 7, 8) and 0 exactly means the product limit; the number of stored iterates is itn (itn + 1 at the limit); rnorm and xnorm are the computed norms of b - (A - shift) x and x.",
  "every operator, preconditioner, rhs, shift, keyword values and arithmetic","all runs",["pykrylov/symmlq/symmlq.py:Symmlq.solve"])
P("C80","SYMMLQ computes LQ and Lanczos-CG points","In exact arithmetic (symmetric A, no preconditioner, b nonzero, matvec supplied, at least two products allowed) SYMMLQ returns. If a test ends the loop in iteration k, there is a point xl of (A-shift) K_(k-1) with residual orthogonal to K_(k-1) (the point of that space closest to the solution), and whenever the Galerkin point xc of K_k exists the result is the better of the two; istop 1, 2 and 3 imply the corresponding inequalities; if K_k is invariant under A - shift and it is injective there, the result is exact. In dimension n, with more than n products allowed and a nonsingular A - shift, a test ends the loop in iteration k <= n and the result is exact if k = n. Stored iterates are LQ points up to a multiple of b.",
  "every inner product space, symmetric operator, rhs, shift, rtol, limit","all operators and dimensions",["pykrylov/symmlq/symmlq.py:Symmlq.solve"])
P("C81","SYMMLQ at the product limit and its stored iterates","When the product limit ends the loop, the vector returned by SYMMLQ is built from coefficients of two different iterations: it need be neither the LQ nor the Galerkin point and can have a residual larger than that of x = 0 although one more product gives the exact solution. The vectors kept by store_iterates need not be solution estimates: the last one can differ from both the returned solution and the LQ point.",
  "exists a symmetric positive definite system","a counterexample to an expected guarantee",["pykrylov/symmlq/symmlq.py:Symmlq.solve"])
P("C82","Preconditioned SYMMLQ works in the preconditioner norm","In exact arithmetic with symmetric A, symmetric positive definite preconditioner P, b nonzero, matvec supplied and at least two products allowed, SYMMLQ returns. If a test ends the loop in iteration k, there is z in K_(k-1), the Krylov space of P(A - shift) and P b, such that the residual of xl = P(A - shift) z is orthogonal to K_(k-1); whenever the Galerkin point xc of K_k exists, the result is the one of xl and xc whose residual r has the smaller <r, P r>; istop 1, 2 and 3 imply inequalities between the P-norms of residual, b and (A - shift) z; the reported residNorm is the Euclidean norm of the residual. If K_k is invariant and A - shift injective there, the result is exact. In dimension n, with more than n products allowed and A - shift injective, a test fires by iteration n, and after n iterations the result is exact. The stored iterates are the LQ points up to a multiple of P b. The two symmetry checks pass.",
  "every inner product space, symmetric operator, SPD preconditioner, rhs, shift, rtol, limit","all operators, preconditioners and dimensions",["pykrylov/symmlq/symmlq.py:Symmlq.solve"])
P("C83","Block operators: indexing, slicing, slice assignment","For a block operator K and any history of assignments K[ri,ci] = B with integers or slices (start, stop, step, possibly negative), K*x and the products with K.T and K.H use exactly the blocks last assigned. K[i,j] is the very object stored or an IndexError; 'in' and iteration agree with it. K[ri,ci] with at least one slice is the block operator of the selected rows and columns in the order of the slice, with its transpose and adjoint; later assignments to K do not change it, nor do assignments to it change K. A zero step and an empty selection raise. For symmetric and hermitian K, assignments below the diagonal have no effect, the mirrored block is the transpose (adjoint) of the one assigned, and slices are plain block operators.",
  "every block layout, every operator, every index expression, every history of assignments","infinitely many layouts, slices and histories",["pykrylov/linop/blkop.py:BlockLinearOperator.__getitem__","pykrylov/linop/blkop.py:BlockLinearOperator.__setitem__","pykrylov/linop/blkop.py:BlockLinearOperator.__contains__","pykrylov/linop/blkop.py:BlockLinearOperator.__iter__"])
P("C84","Block diagonal operators: indexing, slicing, slice assignment","For a block diagonal operator D that is neither symmetric nor hermitian, after any history of D[i] = B and D[a:b:c] = [B1,...,Bk] that keeps the total sizes (the number of blocks may change), D*x applies block i to piece i, D.T and D.H are its transpose and adjoint if the blocks are square, D[i] is the object stored, the caller's list holds the same blocks, and D[a:b:c] is the block diagonal operator of the selected blocks, independent of later assignments to D and vice versa. With any flags, D[i] and D[a:b:c] after assignments D[i] = B compute the current blocks. An empty slice is a TypeError. D[a:b:c] = [...] is accepted when it changes the total sizes, and every later product with D then raises ShapeError (width) or ValueError (height).",
  "every list of blocks, every slice, every history of assignments","infinitely many lists, slices and histories",["pykrylov/linop/blkop.py:BlockDiagonalLinearOperator.__getitem__","pykrylov/linop/blkop.py:BlockDiagonalLinearOperator.__setitem__"])
P("C85","Structured L-BFGS: store always fails, secant equation holds for one pair only","On an object carrying the attributes the constructor of StructuredLBFGSOperator was meant to set: store raises AttributeError because the package never sets matvec. With matvec supplied, store makes the triple (s, y, yd) the newest of the last npairs, exactly when y's + (y's s'Bs)^(1/2) >= 1e-8. In exact arithmetic the product is symmetric as long as no quotient is singular; with one triple in memory it is the structured BFGS matrix, B s = yd, and the BFGS matrix if yd = y; in general B s - yd for the newest triple is the sum over the older factors (s_l, a, ad) of (a's / a's_l)(1 - 1/a's_l) ad, and there is a memory of two triples for which B s differs from yd.",
  "every memory contents, inner product space, scaling flag","infinitely many memories and vectors",["pykrylov/linop/lbfgs.py:StructuredLBFGSOperator.lbfgs_matvec","pykrylov/linop/lbfgs.py:StructuredLBFGSOperator.store"])
P("C86","Solvers running on operator objects","Let a program use operators only through products, and let every operator object it uses act on encoded vectors as some function, whatever the arithmetic of the program. Then running the program on the objects, every product being a call of the operator's __mul__ that updates counters along the operator's parts, returns what the program computes with the functions; no object, list or array is changed except for counters, which only grow; and the counter of an object that is not a proper part of another one used grows by the number of products the program makes with it. CG, CGS, BiCGSTAB, TFQMR, MINRES, LSQR, LSMR, CRAIG and CRAIG-MR (with or without preconditioners, any keywords) are such programs: run on objects they return what their models return or raise the same exception, and the counters of A (and A.T) grow by exactly the products that the models count.",
  "every heap of operators (any formula), solver, keyword values, right-hand side and arithmetic","all operators and runs",["pykrylov/cg/cg.py:CG.solve","pykrylov/cgs/cgs.py:CGS.solve","pykrylov/bicgstab/bicgstab.py:BiCGSTAB.solve","pykrylov/tfqmr/tfqmr.py:TFQMR.solve","pykrylov/minres/minres.py:Minres.solve","pykrylov/lls/lsqr.py:LSQRFramework.solve","pykrylov/lls/lsmr.py:LSMRFramework.solve","pykrylov/lls/craig.py:CRAIGFramework.solve","pykrylov/lls/craigmr.py:CRAIGMRFramework.solve","pykrylov/linop/linop.py:LinearOperator.__mul__"])
P("C87","From operator formulas to solutions","In exact arithmetic: CG run on any operator object of real dtype that is flagged symmetric and is positive definite returns a vector whose residual meets the stopping test after at most n products (n+1 with a starting point), the object's counter grows by exactly nMatvec, and nothing but counters changes; CGS, BiCGSTAB and TFQMR do so with at most 2n (2n-1) products. For any real formula e of full column rank over any operators, CG on e.T*e needs no flag, and with zero tolerances and right-hand side A'c it returns the unique least-squares solution of A x = c. LSQR run on any real formula uses an A.T that is the adjoint, makes at most min(m,n)+1 iterations, reports the exact normal residual, and solves the damped problem if it makes min(m,n) iterations or reports a zero normal residual.",
  "every formula over every environment of operators, every right-hand side, dimension and tolerance","all formulas and dimensions",["pykrylov/cg/cg.py:CG.solve","pykrylov/lls/lsqr.py:LSQRFramework.solve","pykrylov/linop/linop.py:LinearOperator.__mul__"])
P("C88","Krylov solvers on complex data","In exact complex arithmetic with np.dot bilinear: if the initial residual r satisfies r.r = 0 (for example r = (1, i)), CG, CGS and BiCGSTAB return the starting point at once as converged with residual norm 0, and TFQMR raises UnboundLocalError, whatever the operator. The norm CG reports for a complex linear operator is |r.r|^(1/2) for the true residual r of the result, never more than the norm of r; CGS after at least one iteration, and BiCGSTAB when it converges after iterating, report the true residual norm. For a real operator (and real preconditioner) and right-hand side z b with b real, CGS, BiCGSTAB and TFQMR return z times the real result with the same flags and counts. For real symmetric positive definite A, CG solves A x = z b if check_curvature is off or z^2 has positive real part and relative imaginary part at most 1e-8, and otherwise stops after one product with definite = False and x = 0. There is a Hermitian positive definite system with real right-hand side that CG declares indefinite.",
  "every operator, right-hand side, phase, tolerance, dimension, branch of the square root","all complex systems",["pykrylov/cg/cg.py:CG.solve","pykrylov/cgs/cgs.py:CGS.solve","pykrylov/bicgstab/bicgstab.py:BiCGSTAB.solve","pykrylov/tfqmr/tfqmr.py:TFQMR.solve"])
P("C89","CG: optimality, clustering and convergence rate","In exact arithmetic with symmetric positive definite A and no preconditioner, the vector CG returns after k iterations, and every stored iterate i, differs from the starting point by a vector of the Krylov space of A and the initial residual of dimension k (i), and among all such vectors is closest to the solution in the energy norm. If a product of s factors A - l with nonzero l annihilates the initial residual (A has s distinct eigenvalues, say), CG makes at most s iterations and converges if the limit allows them, whatever the dimension. If m <= A <= M with 0 < m < M and rho = (sqrt M - sqrt m)/(sqrt M + sqrt m), the energy norm of the error after k iterations is at most 2 rho^k times the initial one, the residual at most 2 sqrt(M/m) rho^k times the initial one, and CG stops as converged within K iterations if 2 sqrt(M/m) rho^K <= reltol and the limit allows them; in R^n this needs no assumption that a solution exists.",
  "every inner product space (every R^n), operator, right-hand side, starting point, bounds, tolerance","all operators, spectra and dimensions",["pykrylov/cg/cg.py:CG.solve"])
P("C90","MINRES, LSQR, LSMR, CRAIG, CRAIG-MR: convergence rates","In exact arithmetic, with or without preconditioners and damping, let rho = (sqrt L - sqrt m)/(sqrt L + sqrt m) where 0 < m < L bound the operator of the method in the norm of the preconditioner. MINRES: the residual norm after i iterations is at most 2 rho^i times that of b (A - shift definite), or 2 ((L-m)/(L+m))^(i/2) times (indefinite, m <= |A - shift| <= L). LSQR: the distance of the damped least-squares objective from its optimal value shrinks by (2 rho^i)^2, the bounds being needed only on the range of N A'. LSMR: the normal residual shrinks by 2 rho^i. CRAIG and CRAIG-MR (m = 1, L = 1 + bound of A N A'): the energy norm of the dual error, respectively the residual of (A N A' + inv(M)) y = b, shrinks at that rate. Each method is exact after s iterations if a product of s factors annihilates the right-hand side, whatever the dimension. On a consistent undamped system LSQR stops within K iterations if 2 rho^K <= btol and a returning LSMR if 2 sqrt(L/m) rho^K <= btol; on an inconsistent or damped one a returning LSMR stops within K iterations if 2 rho^K |b| <= atol sqrt(obj*), obj* the optimal objective. Unless b is nearly an eigenvector, MINRES stops within K iterations if the factor 2 rho^K, respectively 2 ((L-m)/(L+m))^(K/2), is at most rtol, and within s iterations if s factors annihilate b.",
  "every pair of inner product spaces, operator with correct transpose, SPD M and N, damping, shift, bounds and tolerances","all operators, spectra, preconditioners and dimensions",["pykrylov/minres/minres.py:Minres.solve","pykrylov/lls/lsqr.py:LSQRFramework.solve","pykrylov/lls/lsmr.py:LSMRFramework.solve","pykrylov/lls/craig.py:CRAIGFramework.solve","pykrylov/lls/craigmr.py:CRAIGMRFramework.solve"])
P("C91","Preconditioned solvers on operator objects","In exact arithmetic, let the operator and the optional preconditioners be operator objects of real dtype (formulas, say), the preconditioners symmetric positive definite. LSQR, LSMR, CRAIG and CRAIG-MR use A.T, which is the adjoint; they return (LSMR may instead raise ZeroDivisionError, only for a consistent undamped system), nothing but counters changes, and the products made with A and A.T are the reported ones. LSQR and LSMR report the N-norm of the gradient of the weighted, damped least-squares objective at the result, make at most min(m,n)+1 (min(m,n)) iterations, and minimise the objective after min(m,n) iterations or if the reported norm is 0. CRAIG returns x = N A'y and after min(m,n) iterations the pair minimises the weighted norm of (u, v) under A u + v = b; CRAIG-MR solves (A N A' + inv M) y = b after m or n+1 iterations, and its residual is never larger than that of y = 0. MINRES with a shift and with or without its symmetry checks returns with a code other than 5, 7, 8, 9, reports the P-norm of the residual, which is never larger than that of b, and solves the system after n iterations, provided A - shift shrinks no vector by more than the machine epsilon. A symmetric positive definite map of R^n has an inverse.",
  "every operator object and formula, preconditioner objects, right-hand side, damping, shift, limits, dimensions","all operators, preconditioners and dimensions",["pykrylov/lls/lsqr.py:LSQRFramework.solve","pykrylov/lls/lsmr.py:LSMRFramework.solve","pykrylov/lls/craig.py:CRAIGFramework.solve","pykrylov/lls/craigmr.py:CRAIGMRFramework.solve","pykrylov/minres/minres.py:Minres.solve","pykrylov/linop/linop.py:LinearOperator.__mul__"])
P("C92","Negative, repeated and out-of-range indices","A reduced operator of any operator A (real or complex, any formula) with row and column indices in [-m,m) and [-n,n), repetitions allowed, computes (A z)[rows] with z = 0 except z[cols] = x, where negative indices count from the end and the last of repeated columns wins; its .T and .H compute the same with A.T, A.H and the roles of rows and columns exchanged. With distinct rows, .T is the transpose exactly when every column selected again later vanishes on the selected rows. If any index is out of range the construction succeeds and every product with the operator, its .T or its .H raises IndexError, changing nothing but counters and counting the product. A coordinate operator with given sizes and indices in these ranges is the matrix obtained by adding the values up at the wrapped positions, with its transpose and adjoint; out-of-range indices make every product an IndexError. With symmetric=True the matrix is symmetric, but a triple whose row and column are different numbers for the same position (-1 and n-1) is counted twice.",
  "every operator, every pair of integer index lists, every list of triples, every heap","infinitely many operators and index lists",["pykrylov/linop/linop.py:ReducedLinearOperator","pykrylov/linop/linop.py:SymmetricallyReducedLinearOperator","pykrylov/linop/linop.py:CoordLinearOperator"])
P("C93","Iterations bounded by the rank, whatever the dimension","In exact arithmetic, an operator has rank at most r if its values are combinations of r fixed vectors. If the operator of the method (A for CG, A times the preconditioner for CGS, BiCGSTAB, TFQMR and for A - shift in MINRES) is a multiple of the identity plus an operator of rank r, then CG makes at most r+1 iterations and converges if the limit allows them, CGS, BiCGSTAB and TFQMR (no breakdown) converge within 2(r+1) products, and the iterates of MINRES are exact from number r+1 on; unless b is nearly an eigenvector MINRES makes at most r+1 iterations. If A has rank r, LSQR makes at most r+1 iterations and LSMR at most r, whatever the damping and preconditioners, and iterates from number r on are optimal; CRAIG iterates from number r on, and CRAIG-MR iterates from number r+1 on, solve their system. An L-BFGS operator (inverse, direct or compact, after any history) holding m pairs is a multiple of the identity plus an operator of rank 2m, so CG solves a system with it in at most 2m+1 iterations and CGS, BiCGSTAB, TFQMR in at most 2(2m+1) products, whatever the dimension.",
  "every operator, rank, right-hand side, preconditioners, damping, shift, tolerances, memory history","all operators, ranks and dimensions",["pykrylov/cg/cg.py:CG.solve","pykrylov/cgs/cgs.py:CGS.solve","pykrylov/bicgstab/bicgstab.py:BiCGSTAB.solve","pykrylov/tfqmr/tfqmr.py:TFQMR.solve","pykrylov/minres/minres.py:Minres.solve","pykrylov/lls/lsqr.py:LSQRFramework.solve","pykrylov/lls/lsmr.py:LSMRFramework.solve","pykrylov/lls/craig.py:CRAIGFramework.solve","pykrylov/lls/craigmr.py:CRAIGMRFramework.solve","pykrylov/linop/lbfgs.py:InverseLBFGSOperator","pykrylov/linop/lbfgs.py:LBFGSOperator","pykrylov/linop/lbfgs.py:CompactLBFGSOperator"])
P("C94","Python programs mixing numbers, arrays, operators and other values","Take any program of assignments, each evaluating an expression built from ints, floats, complex numbers, arrays, other values (None, lists), operators, identity and zero operators, the binary operators *, +, -, /, true division and **, unary minus, .T, .H, .bar, calls A(x), A.rmatvec(x) and reset_counters, exceptions being caught per assignment. Every expression has the value its meaning prescribes (for an operator: shape, dtype and linear map), or raises the exception prescribed, and nothing that existed before changes except counters; the only expressions without meaning have an array as left operand of an operator. An operator times something that is neither number, array nor operator raises ValueError on either side, + and - with a non-operator on the right raise ValueError and on the left TypeError, division by a non-number and powers other than ints raise ValueError, A(x) is A*x and A.rmatvec(x) is A.H*x. Products associate, (c A) x = c (A x), (A c) x = A (c x), (A +- B) x = A x +- B x and A (x + y) = A x + A y, with equal dtypes. Setting the dtype to an allowed type changes no other object, and every later product of an operator of a user function is cast to result_type(dtype, x.dtype); a type that is not allowed raises TypeError. Narrowing the dtype of a complex operator drops imaginary parts of its products.",
  "every program, environment, heap and field","infinitely many programs, values and operators",["pykrylov/linop/linop.py:LinearOperator.__mul__","pykrylov/linop/linop.py:LinearOperator.__rmul__","pykrylov/linop/linop.py:LinearOperator.__add__","pykrylov/linop/linop.py:LinearOperator.__sub__","pykrylov/linop/linop.py:LinearOperator.__div__","pykrylov/linop/linop.py:LinearOperator.__truediv__","pykrylov/linop/linop.py:LinearOperator.__pow__","pykrylov/linop/linop.py:LinearOperator.rmatvec","pykrylov/linop/linop.py:BaseLinearOperator.__call__","pykrylov/linop/linop.py:BaseLinearOperator.dtype","pykrylov/linop/linop.py:BaseLinearOperator.reset_counters"])
P("C95","Wrapped external matrices and exact preconditioners","A Pysparse operator of any external matrix multiplies with the matrix's own product (A*x, or A.matvec if the matrix has no __mul__), is symmetric exactly if the matrix says so, else its .T and .H multiply with y*A (or A.matvec_transp if it has no __rmul__); wrong sizes raise ValueError (the check of every operator comes before the ShapeError of the wrapper). If the external products compute with a real matrix, the operator, its .T and its .H have the meanings the algebra of operators needs. CholeskyOperator raises ValueError for a matrix that is not square, passes errors of the factorization on, and otherwise, if the external solver solves systems with a real symmetric matrix A, is the inverse of A, symmetric, its own transpose and adjoint; for a complex Hermitian A its .T (the operator itself) is the transpose only if A is symmetric. In exact arithmetic with a preconditioner that is the inverse of the operator, CGS and BiCGSTAB converge within two products and TFQMR within one, and all MINRES iterates are the solution; if N A'M A, respectively M A N A', is a multiple of the identity up to rank r, LSQR and LSMR iterates are optimal from number r+1 on, CRAIG and CRAIG-MR iterates solve their system from number r and r+1 on.",
  "every external matrix, factorization, operator, preconditioner, right-hand side, heap","infinitely many matrices and preconditioners",["pykrylov/linop/linop.py:PysparseLinearOperator","pykrylov/linop/cholesky.py:CholeskyOperator","pykrylov/cgs/cgs.py:CGS.solve","pykrylov/bicgstab/bicgstab.py:BiCGSTAB.solve","pykrylov/tfqmr/tfqmr.py:TFQMR.solve","pykrylov/minres/minres.py:Minres.solve","pykrylov/lls/lsqr.py:LSQRFramework.solve","pykrylov/lls/lsmr.py:LSMRFramework.solve","pykrylov/lls/craig.py:CRAIGFramework.solve","pykrylov/lls/craigmr.py:CRAIGMRFramework.solve"])
P("C96","Symmetry and definiteness checks on complex operators","On a complex operator, check_symmetric returns False exactly if some drawn x has, with s = y*y, t = x*A(y), y = A(x) (products without conjugation) and c the cube root of the machine epsilon, |s - t| larger than (s + eps)*c in numpy's lexicographic order of complex numbers; so a complex symmetric operator is accepted if the real part of every s exceeds -eps and rejected if one is below -eps. check_positive_definite returns False exactly if some drawn v has Im(v*A(v)) > sqrt(eps)*|v*A(v)| or a real part that is not positive (negative if semi); on a Hermitian operator with real draws this is exactly a nonpositive (negative) value of the Hermitian form at a drawn vector. Documented purposes that fail: multiplication by i is symmetric but rejected for every nonzero draw; multiplication by 1-5i is accepted as positive definite although its form is nowhere real, while its adjoint is rejected; the Hermitian positive definite [2 -i; i 2] is rejected by check_symmetric.",
  "every complex operator, dimension, list of draws, division and square root","the accepted operators form an infinite set and the comparison of complex numbers is an unusual order",["pykrylov/tools/utils.py:check_symmetric","pykrylov/tools/utils.py:check_positive_definite"])
P("C97","Convergence in floating point","With rounding errors CG, CGS and BiCGSTAB test a recursively updated residual that is not the residual of the iterate they return. Let every vector operation have relative error u <= 1/8 plus underflow h, let a finite result come from finite operands, let the computed products A x err by at most c |x| for linear A with |A x| <= a |x|, let X bound the finite iterates of the run (for BiCGSTAB also the half-step points), and let G bound every vector whose computed norm meets the threshold. If the solver declares convergence and returns a finite x, the true residual |b - A x| is at most G + k (1+2u)^k ((8 u a + 3 c)(X + h) + 2 u |b| + 3 h (1 + a)), where k is nMatvec for CG, nMatvec+1 for CGS and 2 nMatvec+1 for BiCGSTAB. Nothing is assumed of scalar arithmetic, the preconditioner, or symmetry of A. For dense n by n matrices multiplied by rounded dot products without underflow, c is ((1+u)^(n+1) - 1) times the Frobenius norm a, and G is t/(1-u)^(n+2) for the computed threshold t, in CG without preconditioner and in CGS and BiCGSTAB with any. Rounding to 53 significant bits has relative error 2^-53.",
  "every arithmetic with rounding and overflow, operator, right-hand side, starting point, keyword values, preconditioner","the errors depend on all data of a run of any length",["pykrylov/cg/cg.py:CG.solve","pykrylov/cgs/cgs.py:CGS.solve","pykrylov/bicgstab/bicgstab.py:BiCGSTAB.solve"])
P("C98","Saddle-point systems built from blocks","Let BlockLinearOperator([[A, B'], [0]], symmetric=True) be built from operators of real dtype whose diagonal blocks are flagged symmetric, and BlockDiagonalPreconditioner from operators that act as the inverse of A and of the Schur complement B inv(A) B', both symmetric positive definite. Both constructors succeed, the first object acts as K (x, y) = (A x + B' y, B x) where B is the transpose of the given block, and the second as P (x, y) = (inv(A) x, inv(S) y). Minres run on the two objects with shift 0 returns, changes nothing in the heap but the counters, and does not report failure. If it makes three iterations or more, the solution it returns satisfies A x + B' y = b1 and B x = b2 exactly. It makes at most three unless rtol < 0 or b is numerically an eigenvector of K P.",
  "every heap, sizes, blocks, right-hand side and keyword values of the kind stated","three iterations suffice for every size and every entry of the blocks",["pykrylov/linop/blkop.py:BlockLinearOperator","pykrylov/linop/blkop.py:BlockDiagonalPreconditioner.solve","pykrylov/minres/minres.py:Minres.solve"])
P("C99","Dtypes accepted by the solvers, and CG on integers","Order the dtypes integer < float < complex and let an in-place statement raise TypeError when its result cannot be cast to the dtype of its target by numpy's rule same_kind. For each of CG, CGS, BiCGSTAB, TFQMR, MINRES, LSQR, LSMR, CRAIG and CRAIG-MR there is an explicit condition on the dtypes of operator, preconditioners, shift and right-hand side. If it holds, every execution reaches the end and the dtype of x is the stated one. If it fails, no execution gets through two passes of the loop and some raise TypeError. The attribute x is never assigned by a solve that raises, and the statement that raises is narrowed down: CGS at the update of x exactly when the preconditioner exceeds the join of operator and right-hand side; TFQMR in the first three updates; MINRES at the shift exactly when its dtype exceeds all others; BiCGSTAB before the first product exactly on integer data; the least-squares solvers before the first product exactly when the right-hand side is integer. For CG the condition is: operator and preconditioner are at most the dtype of the right-hand side. On integer data CG and CGS compute integer steps, i.e. floors of quotients. CG with floors, no guess and no preconditioner, and <b, A b> > <b, b> > 0, uses its whole budget of products, returns x = 0 and reports not converged, for every homogeneous A and every size. So does CGS, with the budget rounded up to an even number.",
  "every combination of dtypes, every execution of the loops; every space, operator, right-hand side and keyword values for the last part","the branches taken and the number of iterations are arbitrary; a failure may need a second iteration; the last part holds for every size and budget",["pykrylov/cg/cg.py:CG.solve","pykrylov/cgs/cgs.py:CGS.solve","pykrylov/bicgstab/bicgstab.py:BiCGSTAB.solve","pykrylov/tfqmr/tfqmr.py:TFQMR.solve","pykrylov/minres/minres.py:Minres.solve","pykrylov/lls/lsqr.py:LSQRFramework.solve","pykrylov/lls/lsmr.py:LSMRFramework.solve","pykrylov/lls/craig.py:CRAIGFramework.solve","pykrylov/lls/craigmr.py:CRAIGMRFramework.solve"])
P("C100","Scaling the right-hand side","Multiply the right-hand side by a positive number. If the absolute tolerance and the guess are scaled too, CG, CGS, BiCGSTAB and TFQMR with a linear operator and preconditioner return the scaled x, residual norms and histories with the same flags, counts and errors. LSQR, LSMR, CRAIG and CRAIG-MR do so for a right-hand side of positive norm, whatever the operator, with unchanged tolerances. This holds in exact arithmetic for every factor, and in arithmetic rounded to any number of binary digits without over- and underflow for every power of two, i.e. only exponents change. Two runs of MINRES with the same number of iterations give scaled results. Their numbers of iterations differ, however: the estimate of the norm of the operator in MINRES contains the norm of b. With b not an eigenvector there is always an interval of factors for which MINRES stops after one iteration and reports convergence, with the relative residual of the first iterate. With default arguments, diag(1,2) and b = (3,4) it solves the system, and for 10^12 b it reports convergence with a relative residual above 1/4.",
  "every right-hand side, factor, operator, preconditioner, keyword values, arithmetic with a scaling","the statements relate two runs of any length on infinitely many inputs",["pykrylov/cg/cg.py:CG.solve","pykrylov/cgs/cgs.py:CGS.solve","pykrylov/bicgstab/bicgstab.py:BiCGSTAB.solve","pykrylov/tfqmr/tfqmr.py:TFQMR.solve","pykrylov/minres/minres.py:Minres.solve","pykrylov/lls/lsqr.py:LSQRFramework.solve","pykrylov/lls/lsmr.py:LSMRFramework.solve","pykrylov/lls/craig.py:CRAIGFramework.solve","pykrylov/lls/craigmr.py:CRAIGMRFramework.solve"])
P("C101","Norms reported by CRAIG","In exact arithmetic without preconditioners, for the returned x and r: r1norm^2 + xnorm = |x|^2 + |r|^2 = r2norm^2, so xnorm is a squared quantity. Arnorm and the entries of normal_eqns_resids belong to the iterate before: each lies between the norm of its residual b - A x - r and sqrt(1+s^2) times that, for every bound s of A, and equals it for the first iterate; Arnorm = 0 means the previous iterate is the solution. The documented meanings r1norm = |b - Ax|, xnorm = |x|, Arnorm = |A'(b - Ax) - x| fail on a 2x2 system.",
  "every pair of inner product spaces, operator with correct transpose, nonzero right-hand side, keyword values","all operators, right-hand sides and numbers of iterations",["pykrylov/lls/craig.py:CRAIGFramework.solve"])
P("C102","Norm estimates and backward errors of LSQR and LSMR","In exact arithmetic without preconditioners, Anorm^2 on return from LSQR is the sum of |A w|^2 + damp^2 over orthonormal vectors w of the Krylov space, one per iteration; only if the normal equations hold for the returned x may the last iteration count nothing or, with damping, count one |A w|^2 twice. For LSMR normA^2 is the sum of |A w|^2 over exactly one orthonormal vector per iteration, and |A'b|/|b| without iterations. So normA, and Anorm without damping, never exceed the Frobenius norm F of A. Consequently code 1 means that x solves exactly a system (A + D) x = b + f with |D| <= atol F and |f| <= btol |b| (LSQR: without damping), and code 2 that x exactly minimises a damped least-squares problem whose stacked operator (A; damp I) is perturbed by at most atol F (LSQR: atol sqrt(F^2 + itn damp^2)). The documented meaning of Anorm as an estimate of the Frobenius norm of the regularized operator is no lower bound: for A = [3], damp = 4 LSQR returns sqrt(34), the norm is 5.",
  "every pair of inner product spaces, operator with correct transpose, right-hand side, damping, tolerances, limit","all operators and numbers of iterations; the perturbed problem has to be constructed",["pykrylov/lls/lsqr.py:LSQRFramework.solve","pykrylov/lls/lsmr.py:LSMRFramework.solve"])
P("C103","Condition estimates of LSQR and LSMR","In exact arithmetic without preconditioners, Acond on return from LSQR is at least the number of iterations (less one if the normal equations hold for the returned x), and at most sqrt(itn) Anorm / s for every lower bound s of the singular values of the stacked operator (A; damp I); without damping at most sqrt(itn) F / s, F the Frobenius norm. It is no estimate from below: for A = [3], b = 1 LSQR returns Acond = 0. In LSMR the initial value 1 of rhobar enters the maximum of the condition estimate: if conlim times |(A; damp I) v| is at most 1, v = A'b/|A'b|, LSMR makes one iteration whatever A is, and then either returns a multiple of A'b with code 1, 2 or 3, or divides by zero because that iterate solves an undamped consistent system. So code 3 does not mean that the condition number exceeds conlim: with the default parameters, for every e <= 5e-9 the operator e diag(1, 2) of condition number 2 with b = (1, 1) gives code 3 after one iteration, with relative residual above 1/2.",
  "every pair of inner product spaces, operator with correct transpose, right-hand side, damping, tolerances, limit","all operators and numbers of iterations; the bounds relate a value accumulated in the loop to singular values; the failure is a whole range of scalings",["pykrylov/lls/lsqr.py:LSQRFramework.solve","pykrylov/lls/lsmr.py:LSMRFramework.solve"])
P("C104","Norm and condition estimates of MINRES","In exact arithmetic without preconditioner, B = A - shift I symmetric with |B z| >= eps |z| on the Krylov space, b nonzero, after at least one iteration: ynorm, documented as the norm of x, equals <b,b>/|B b| whatever the number of iterations, and for every solution x of B x = b, |x|^2 exceeds ynorm^2 by exactly the squared distance of x from the multiple <b,b>/<Bb,Bb> of B b. Anorm^2 is |b|^2 plus the sum of |B v|^2 over an orthonormal list in the Krylov space with one vector per iteration while the system is not solved, so at most |b|^2 + F^2, F the Frobenius norm. Code 1 means |b - B x| <= rtol Anorm <b,b>/|B b|; code 2 means |B r| <= rtol Anorm |r| for the residual r of the previous iterate; code 3 means |B b| <= eps Anorm |b|; no code other than -1, 0, 1, 2, 3, 4, 6, 10 is returned. If <b,Bb> is not 0 and the code is not -1 or 10, Acond is at least |b||Bb|/|<b,Bb>| and at most l / min(|<b,Bb>|/<b,b>, s) where s and l bound the singular values of B on the Krylov space, so on a definite operator Acond is a lower bound of the condition number and code 4 is justified. If <b,Bb> = 0 the first condition estimate is a division by zero: in arithmetic with infinities MINRES stops after one iteration with x = 0, code 4 and converged = True, for example on the permutation matrix of order 2 with b = (1, 0), whose condition number is 1.",
"Every inner product space, symmetric operator, shift, right-hand side, tolerances, iteration limit, window, accumulated history and counter; for the orthogonal case every dimension, operator and b with <b,Bb> = 0 for which the other tests do not apply at the first iteration.",
"A test can compare ynorm with the norm of x on a few runs; it cannot show that the recurrence for ynorm never moves again for any operator, nor that the condition estimate is a lower bound for all definite operators.",
["pykrylov/minres/minres.py:202-208","pykrylov/minres/minres.py:256-264","pykrylov/minres/minres.py:284-285","pykrylov/minres/minres.py:314-344","pykrylov/minres/minres.py:349-361","pykrylov/minres/minres.py:395"])
P("C105","Norm and condition estimates of SYMMLQ","In exact arithmetic without preconditioner, B = A - shift I symmetric, b and B b nonzero: anorm^2 on return is the sum of |B v|^2 over an orthonormal list in the Krylov space with exactly one vector per iteration, so anorm never exceeds the Frobenius norm F of B. If the Lanczos-CG point exists, in particular if B is definite on the Krylov space, code 1 means |b - B x| <= rtol anorm |x|, and x solves exactly a system (B + D) x = b with |D| <= rtol F. From the second iteration on acond is at least |B b||b| / (|<b,Bb>| + eps <b,b>), whatever B is. If s and l bound |<z,Bz>|/<z,z> from below and |Bz|/|z| from above on the Krylov space, 1 <= acond <= (l + eps)/s, and code 4 is justified. Otherwise it is not: if |<b,Bb>|/<b,b> + eps <= 10 eps |Bb|/|b|, in particular if b is orthogonal to B b and |b| <= 10 |B b|, the loop ends in the first or second iteration. With the tridiagonal matrix of order 4 with zero diagonal and unit off-diagonals (condition number at most 2 sqrt 3) and b = e1, SYMMLQ with default parameters stops in iteration 2 with code 4, acond = 1/eps and a residual as large as b.",
"Every inner product space, symmetric operator, shift, right-hand side, tolerances, limit of at least two (three) products, list of stored iterates and counter, for an object that supplies matvec.",
"The bounds hold for all operators and numbers of iterations and relate accumulated values to singular values; that every right-hand side orthogonal to its image stops the loop in two iterations is a statement about all operators.",
["pykrylov/symmlq/symmlq.py:213-216","pykrylov/symmlq/symmlq.py:236-276","pykrylov/symmlq/symmlq.py:317-349","pykrylov/symmlq/symmlq.py:361-400"])
P("C106","L-BFGS operators filled with conjugate steps","In exact arithmetic, for a symmetric A and pairs (s, A s) with mutually conjugate s handed to store in any order of calls, products and restarts included: every pair that the operator retains satisfies its secant equation (inverse class: H y = s; forward and compact class: B s = y), not only the newest one. In n variables at most n pairs are retained; with m of them H A - I and A H - I have rank at most n - m, and with n of them the inverse operator is the inverse of A and the other two are A. As a preconditioner for A - shift I, MINRES makes at most n - m + 1 iterations unless b is an eigenvector as far as the code can tell; CGS, BiCGSTAB and TFQMR converge within n - m + 1 iterations (two products each) if they do not break down, and with n pairs they always converge in one. The differences of consecutive iterates stored by CG on a symmetric positive definite A, with their images, are such pairs, and if all are accepted and fit, there is one for each iteration. Without conjugacy the equation can fail for an older pair: with A = diag(1,2), s1 = (1,0) and s2 = (1,1) the product with A s1 is not s1.",
"Every dimension, symmetric operator, number of pairs, scaling option, sequence of stores, products and restarts, and every run of the solvers; the three operator classes.",
"The rank of a product of operators and the number of iterations for all right-hand sides are not observable on samples; conjugacy is destroyed by rounding in a test.",
["pykrylov/linop/lbfgs.py:70-127","pykrylov/linop/lbfgs.py:140-254","pykrylov/cg/cg.py:46-165","pykrylov/minres/minres.py:115-410","pykrylov/cgs/cgs.py:40-123","pykrylov/bicgstab/bicgstab.py:43-151","pykrylov/tfqmr/tfqmr.py:39-159"])
P("C107","Norm and condition estimates of preconditioned MINRES and SYMMLQ","In exact arithmetic with a symmetric positive definite preconditioner P, B = A - shift I symmetric and |z|_P = sqrt <z,Pz>: all the estimates describe B P in the inner product <u,Pv>, not B. MINRES returns Anorm with Anorm^2 = <b,Pb> + sum |B P v|_P^2 over a list orthonormal in <u,Pv>, one vector per iteration while the system is unsolved; SYMMLQ the same without <b,Pb>. When P = C C' this is |C'b|^2 plus the sum of |C'BC w|^2 over an orthonormal list, at most |C'b|^2 + F^2 for the Frobenius norm F of C'BC; when P = c^2 I the sum is c^4 times that of B, so the reported norm of the matrix depends on the scale of the preconditioner. ynorm of MINRES is <b,Pb>/|BPb|_P at every iteration, at most the P-norm of the y with B P y = b. Codes 1, 2 and 3 of MINRES compare P-norms. If s <z,Pz> <= <Pz,BPz> and |BPz|_P <= l |z|_P on the Krylov space, Acond <= l/s, for SYMMLQ 1 <= acond <= (l+eps)/s, and code 4 is justified; code 1 of SYMMLQ then means |b - B x|_P <= rtol anorm |y|_P where x = P y. If P makes b nearly orthogonal to B P b in that inner product, SYMMLQ ends in its second iteration at the latest.",
"Every inner product space, symmetric operator, symmetric positive definite preconditioner and factorisation of it, shift, right-hand side, tolerances, limits and initial logs.",
"The bounds hold for all operators, preconditioners and numbers of iterations and relate accumulated values to singular values of an operator that the program never forms.",
["pykrylov/minres/minres.py:162-166","pykrylov/minres/minres.py:228-372","pykrylov/symmlq/symmlq.py:130-134","pykrylov/symmlq/symmlq.py:182-349"])
P("C108","Norm and condition estimates of preconditioned LSQR and LSMR","In exact arithmetic with symmetric positive definite preconditioners M and N (identity if absent), N invertible for LSQR: Anorm^2 of LSQR is the sum of |A N w|_M^2 + damp^2 over a list of vectors of the Krylov space of A'MAN and A'Mb orthonormal in <u,Nv>, one per iteration; only if the weighted normal equations are solved may the last iteration add nothing or, with damping, one |A N w|_M^2 count twice. normA of LSMR is the root of the sum of |A N w|_M^2 over such a list, without exceptions, and |A'Mb|_N/|b|_M if no iteration was made. With N = Cn Cn' and M = Cm Cm' these are sums of |B w|^2 over orthonormal lists for B = Cm' A Cn, and at most the Frobenius norm of B (LSQR: without damping; in general Anorm^2 <= 2F^2 + itn damp^2, and <= F^2 + itn damp^2 unless solved). Acond of LSQR mixes norms: if mu^2 <z,Nz> <= |Nz|^2 <= nu^2 <z,Nz> then Acond >= mu (itn - 1), >= mu itn while unsolved, and s Acond <= nu sqrt(itn) Anorm for every lower bound s of the stacked preconditioned operator; so with N = c^2 I and no damping, where the preconditioned operator is c A, both bounds are proportional to c. LSMR ends after one iteration, with code 1, 2 or 3 and a multiple of N A'Mb, or with ZeroDivisionError if such a multiple solves the undamped system, whenever conlim^2 (|A N g|_M^2 + damp^2 <g,Ng>) <= <g,Ng> for g = A'Mb, whatever the tolerances.",
"Every pair of inner product spaces, operator with its adjoint, preconditioners and factorisations of them, damping, right-hand side, tolerances, limits, window and earlier state of the LSMR object.",
"The bounds hold for all operators, preconditioners and numbers of iterations; that the condition estimate scales with the preconditioner cannot be told from runs with one preconditioner.",
["pykrylov/lls/lsqr.py:240-303","pykrylov/lls/lsqr.py:338-371","pykrylov/lls/lsmr.py:264-278","pykrylov/lls/lsmr.py:403-446"])
P("C109","Norms reported by preconditioned CRAIG","In exact arithmetic with symmetric positive definite invertible preconditioners M and N and b <> 0, for the returned x and y: r1norm^2 + xnorm = <x, inv(N) x> + <y, inv(M) y> = r2norm^2, both terms nonnegative, so none of the three involves the Euclidean norm of x or of b - A x. Arnorm and the entries of normal_eqns_resids belong to the iterate before: each lies between the M-norm of its residual b - A x - inv(M) y and sqrt(1+s^2) times that, for every s with |A N z|_M <= s |z|_N for all z, and equals it for the first iterate; Arnorm = 0 means that the previous iterate solves A x + inv(M) y = b, x = N A'y.",
"Every pair of inner product spaces, operator with its adjoint, preconditioners, right-hand side, tolerances, limits and window.",
"The identities hold for all operators, preconditioners and numbers of iterations.",
["pykrylov/lls/craig.py:144-153","pykrylov/lls/craig.py:391-440","pykrylov/lls/craig.py:513-518"])
P("C110","CG and MINRES on the Poisson systems of the gallery","In exact arithmetic the products Poisson1dMatvec on n points and Poisson2dMatvec on an n by n grid are products with self-adjoint operators whose quadratic forms lie between 2/(n(n+1)) |z|^2 and 4 |z|^2, and between 4/(n(n+1)) |z|^2 and 8 |z|^2. CG without preconditioner or symmetry check, with the default budget, abstol >= 0 and reltol > 0, solves every such system from every guess: it stops converged with definiteness True, the true residual of the returned solution is at most max(abstol, reltol |initial residual|), the number of products is at most the number of unknowns and at most every K >= (s+1)/2 ln(2 s/reltol) with s = 3/2 (n+1), plus one for a guess; so on the n by n grid it is of order n log(n/reltol), not n^2. The vectors sin(k(i+1)pi/(n+1)) are eigenvectors of the 1D product for 2 - 2cos(k pi/(n+1)), and their products those of the 2D product for the sums, so no lower bound above pi^2/(n+1)^2 (2D: twice that) and no upper bound below 2 (2D: 4) is possible; CG from zero with such a right-hand side in 1D makes at most one product. MINRES without preconditioner and with a shift <= 0, when n(n+1) times the machine epsilon is at most 2 (1D) or 4 (2D), brings the residual under tol |b| in every iteration K >= (s+1)/2 ln(2/tol), and if it has not taken b for an eigenvector it makes at most max(K,1) iterations for every K >= (s+1)/2 ln(2/rtol). If every operation rounds with relative error at most u and nothing underflows, each finite entry of the 1D (2D) product errs by at most (1+u)^4 - 1 ((1+u)^6 - 1) times the sum of the absolute values of its terms; when CG in such arithmetic with u <= 1/8 reports convergence with finite results and iterates bounded by X, the true residual is at most t/(1-u)^(N+2), t the threshold and N the number of unknowns, plus the drift of C97 for operator norm 4 (8) and product error 4((1+u)^4-1) (8((1+u)^6-1)), constants that do not depend on the grid.",
"Every n >= 1, right-hand side, initial guess, tolerances, logging options, shift <= 0 and earlier state of the solver object.",
"The bound relates the number of iterations to the grid size for all sizes and right-hand sides.",
["pykrylov/gallery/gallery.py:3-29","pykrylov/cg/cg.py:46-165","pykrylov/minres/minres.py:162-372"])
