# Formal model of active_subspaces in Rocq/Coq 8.16.1

Source: `/repo` (paulcon/active_subspaces, Python 2).  The code is read as text;
it is never run.  Everything below is a theorem about the model in
`rocq/theories`, for all inputs.

## Trusted base

* Coq's kernel (and `coqchk`, run by the gate).
* The axioms printed by `Print Assumptions` in the `Properties_*.v` files.  Only
  standard-library axioms are used: those of `Coq.Reals`
  (`ClassicalDedekindReals.sig_forall_dec`, `ClassicalDedekindReals.sig_not_dec`),
  `functional_extensionality_dep`, and (where a non-decidable case split is
  used) `Classical_Prop.classic`.  No other library's axioms, none of our own.
* The correspondence between the model definitions and the Python source.  Each
  model definition carries a comment with file and line numbers.
* The specifications given to the external solvers (below); they appear as
  explicit hypotheses in the theorems that use them, never as axioms.

## What is modelled, and how

* **Numbers.** Floats are exact reals (`R`); rounding is modelled only in `M_Float.v` (C100), `M_FloatGrad.v` (C111 to C113), `M_FloatInt.v` (C115), `M_FloatPoly.v` (C116), `M_FloatRbf.v` and `M_FloatRbfGrad.v` (C117).  Where a
  Python float may become inf/NaN and the property speaks about it (division by
  zero in normalizers, mean of an empty group, 0/0 in Li's metric) the type
  `xr` (finite / +inf / -inf / NaN) is used.
* **Arrays.** `nd A` = shape (list of sizes) + entry function.  NumPy operations
  (broadcasting, dot, reshape in row-major order, transpose, kron, tile, stack,
  slicing, masking) are functions with shape checks that raise.  Two arrays are
  equal when shapes and in-range entries agree.
* **Exceptions** are values (`res A`).  **Effects** (global NumPy random state,
  state of user callables, log of calls, written files) are threaded by a state
  monad, so that call order, crash points and leftover state are observable.
* **Random numbers**: an arbitrary generator record (state type, seeding,
  draws); theorems hold for every generator.
* **Python dynamic typing**: arguments whose type the code checks are modelled
  with a sum type, so that TypeError branches exist.
* **External solvers** (LAPACK eigh/eig/solve/lstsq/cholesky, argsort, scipy
  linprog/minimize/fminbound, ConvexHull, Delaunay, Gurobi) are function
  parameters.  Theorems either hold for every behaviour of them or assume the
  documented contract for the arguments actually passed.

### Which code is modelled

| file | model | left out or simplified |
|------|-------|------------------------|
| `utils/misc.py` | `M_Misc.v` | conditional_expectations: indices are naturals |
| `utils/simrunners.py` | `M_SimRunners.v` | logging, timing |
| `utils/quadrature.py` | `M_Quadrature.v` | orders are ints, a list of ints or something else |
| `utils/designs.py` | `M_Designs.v` | SLSQP is a parameter (`sp_minimize`), a pure function of the problem |
| `utils/qp_solver.py` | `M_QP.v` | linprog, minimize and Gurobi are a record of functions; the text of the dump file |
| `utils/response_surfaces.py` | `M_RespSurf.v` | fminbound is a parameter |
| `gradients.py` | `M_Gradients.v` | |
| `subspaces.py` | `M_Subspaces.v` | progress prints |
| `domains.py` | `M_Domains.v` | ConvexHull is a parameter (points -> facet equations); signs are `neg/zero/pos` with -0.0 distinct from 0.0 as bytes |
| `response_surfaces.py` | `M_ASRS.v` | roots floor(N^(1/n)) are exact |
| `integrals.py` | `M_Integrals.v` | Delaunay is a parameter (points -> simplices, find_simplex); np.histogram counts; NX = 0 (0/0 weights) and empty groups (NaN) are not reached |
| `optimizers.py` | `M_Optimizers.v` | fminbound is a parameter; checks for None in `train` are done first; messages abbreviated |
| `tutorials/wing_functions.py`, `tutorials/test_functions/*/*_functions.py` | `M_Tutorials.v` | one row at a time (all operations are elementwise) |
| `utils/plotters.py` | `M_Plotters.v` | pyplot is a machine of open figures, shown figures and files; fonts, colours and the order of style calls are dropped; `show` closes the figures (window back end); responses of a shape other than M-by-1 and the `IOError` text |
| `tutorials/test_functions/*/*_example.ipynb` | `M_Notebooks.v` | the numbers of samples and of replicates are parameters; text cells and printed output |
| `tutorials/basic.ipynb` | `M_Basic.v` | the numbers of samples, replicates, bins and Monte Carlo points are parameters; text cells, printed output, timing, and the comparison with `scipy.optimize.minimize` that ends cell 21 |

Not modelled: `docs/`, `setup.py`, and nothing of `tests/` beyond the thirteen files of C101, C103, C104, C106 to C109 and C114 (`test_misc.py`, `test_gradients.py`, `test_simrunners.py`, `test_designs.py`, `test_quadrature.py`, `test_qp_solver.py`, `test_subspaces.py`, `test_domains.py`, `test_response_surfaces.py`, `test_plotters.py`, `test_as_response_surfaces.py`, `test_as_integrals.py`, `test_as_optimizers.py`).  Also not modelled: floating-point rounding (except in `M_Float.v`, `M_FloatGrad.v`, `M_FloatInt.v`, `M_FloatPoly.v`, `M_FloatRbf.v` and `M_FloatRbfGrad.v`), memory layout/aliasing other than what is
stated, performance, text of most error messages, warnings.

## Reference solvers

Contracts of external solvers are shown to be satisfiable: `lstsq_ref` (Lsq.v),
`argsort_ref` (Sorting.v), the kernel solver (SolveRef.v), `cholesky_ref` (Cholesky.v), and `eigh_ref`,
`norm2_ref`, `det_ref` (EighRef.v).  The last three rest on a proof of the
spectral theorem for real symmetric matrices (SpectralThm.v: induction on the
size, the secular equation and the intermediate value theorem) and on a
Laplace-expansion determinant with |det| <= 1 for contractions (Det.v).  They
are used by the non-vacuity examples and by the refutation witnesses.

LPRef.v is a Fourier-Motzkin linear program solver with soundness and
completeness proofs; it meets the contract assumed of `linprog`.  Back ends of
`QPSolver` are a record of functions (`backend`, M_QP.v); the meaning of the
problems handed to them (`lp_feas`, `mp_feas`, `gm_feas` ...) is in P_QP.v.

Gaussian quadrature (Tridiag.v, Integral.v, GaussRules.v) is self-contained: the
orthonormal polynomials of a zero-diagonal Jacobi matrix, its simple spectrum,
the Gaussian mean as a limit of ratios of Riemann integrals, Legendre roots in
(-1,1) and lower bounds on non-zero roots.

## Files

`Prelude.v` sums/argmin; `Py.v` exceptions, dynamic values, effects; `NumArr.v`
arrays; `LinAlg.v` linear algebra facts; `M_*.v` model files (one per Python
module); `S_*.v` specifications written without model helpers; `P_*.v` proofs;
`Properties_*.v` final statements, non-vacuity examples, `Print Assumptions`.

## Plan per property

Model = Python function(s) in the anchors of `properties.jsonl`.

| id | plan |
|----|------|
| C01 | field arithmetic entrywise; `xr` division for the degenerate column |
| C02 | `solve` contract L x = b; matrix algebra with finite sums for moments |
| C03 | case analysis on rank/shape |
| C04 | sums over masks; permutation invariance by sum re-indexing; total variance and rejected inputs in Properties_TotalVariance.v |
| C05, C06 | induction over rows in the effect monad, call log in the world |
| C07 | kron/slicing index algebra; affine/quadratic by algebra; limit by `derivable_pt_lim` |
| C08 | lstsq contract (normal equations) + full rank => unique minimiser |
| C09 | believed false (mask applied in sorted order; p = M raises): refute + show what holds |
| C10-C13 | spectral identities by finite sums; Ky Fan by doubly substochastic weights |
| C14 | lstsq contract + rank-one eigenproblem |
| C15 | formula; gamma branch believed wrong (`np.amin` compared unapplied): refute + what holds |
| C16, C17 | first argmax/argmin lemma |
| C18 | state machine over compute/partition histories; believed false after failing compute: refute + hold on success |
| C19, C20 | min/mean/max over replicates; norm of W1^T W2 block of orthogonal matrices <= 1; index algebra |
| C21 | reshape/tile/transpose index algebra + orthogonality |
| C22 | rejection: direct; hit-and-run: line-search interval invariant; small-slack constraints ignored: refute + conditional |
| C23 | intermediate value by scaling |
| C24 | loop invariant over random draws |
| C25 | Sauer-Shelah shattering bound + linear dependence of n+1 vectors in R^n |
| C26 | sign analysis: constraint describes the reflected hull; equal iff centrally symmetric; refute for asymmetric vertex sets |
| C27 | believed false (reshape instead of transpose): refute + multiset of entries |
| C28 | LP contract with explicit feasible point |
| C29, C30 | moment functional via Jacobi matrix powers; orthogonality from tridiagonal simple spectrum |
| C31 | induction over dimensions on kron products |
| C32 | index computation; n = 1 raises (believed false for n = 1): refute + hold for n <> 1 |
| C33 | linspace algebra |
| C34 | derivative of squared distances, unique argmin stays argmin nearby |
| C35 | effect monad; success proved, failure path believed false: refute |
| C36 | induction on the recursive construction, counting by Pascal |
| C37, C39, C41 | `derivable_pt_lim` rules |
| C38, C40 | lstsq / solve contracts |
| C42-C46 | index algebra + C04/C21/C31 |
| C47, C48 | fold over runs; C21 |
| C49, C50 | stationarity algebra; believed false (sign, factor 1/2): refute + what holds |
| C53-C55 | state monad; criteria of C16/C17; C08 + rank-one eigenproblem for OPG |
| C57-C62 | differentiation rules (`Deriv.v`), `field`; C62 believed false for the angle in degrees: refute + what holds |
| C63-C66 | run the plotting machine on symbolic inputs; C65 believed false for one-sided clouds, C66 for the saved file: refute + what holds |
| C67, C68 | compose C13, C53, C38 (a polynomial of degree N with N+1 roots is zero) and C13, C46 |
| C69 | evaluate each entry point up to its checks |
| C70 | unnormalize the scaled points, then algebra on each formula |
| C71 | Q V is a sorted eigenbasis of the transformed matrix; uniqueness of sorted eigenvalues and of the leading projector |
| C72 | bilinear bound on the matrix error; Weyl by a dimension count (lin_dep); Davis-Kahan with the attained spectral norm |
| C73 | mean value theorem for the forward difference, then C72 |
| C74 | C is linear in the weights; eigenvalues by Weyl's inequality, projector by uniqueness (P_Stability); replicate by C12's run lemma |
| C75 | each random point lies in one bin or simplex, so the rule is a mean over the points with each moved to the middle of its cell; then C43-C45 |
| C76 | Cholesky whitening: generalised least squares makes the quadratic form minimal over the polynomials; linearity by nonsingularity of the saddle system |
| C77 | ln y <= y - 1 maximises the likelihood over the variance; two points with two scales as witness |
| C78 | the squared-exponential matrix of distinct points is positive definite (GaussSPD.v: a zero form kills every monomial); repeated points as witness |
| C79 | every problem in the multistart runs is well posed (objective, jac, constraints, start), by the surfaces' true gradients; runs agree for optimisers agreeing on these |
| C80 | PolySub.v: polynomials are closed under linear substitution, monomials are independent; gradients orthogonal to the trailing eigenvectors put the b's in span W1; unisolvence carries over to X W1, then C38 and C41 |
| C81 | whenever av_design returns; the integer root of N from Rpower; tensor rule of C31; N = 3, n = 2 as witness |
| C82 | JacobiPoly.v: the structure relation (1-x^2) p' = ... by induction; every product p_i p_j w is the derivative of (1-x^2) w q for an explicit q; no contract is used. weighted_integral = antiderivative with limits at the ends, unique |
| C83 | NumPy's rule stated on right-aligned dimensions, any rank; one-column arrays as witnesses of the refutation; Properties_ShapesSurf.v: trained surfaces, C83_degree0_refuted for a radial basis of degree 0 |
| C84 | means over R^m as iterated one-dimensional means (Riemann integrals); polynomials as sums of terms; quadrature rule and `ss_compute` composed |
| C85 | GaussPoincare.v (integration by parts on polynomials), GaussRotate.v (rotation invariance; Poincare inequality in one variable through Hermite expansions), GaussCond.v (conditional means as iterated means; the inequality in several variables by induction on the averaged coordinates) |
| C86 | Properties_Stein.v: normal equations of the two fits, exactness of the rule, and integration by parts under the Gaussian (from GaussPoincare.v) |
| C87 | Properties_PolyInvariance.v: the trained surface is characterised as the best fit in the space of polynomials (orthogonality of residuals); every invariance follows from it |
| C88 | Properties_ActiveDim.v: a zero eigenvalue makes a directional derivative vanish at points that determine it; conversely n + 1 eigenvectors contain a direction n forms do not see. Gauss-Hermite points: the Gaussian mean of a squared polynomial is 0 only for 0, by Stein's identity and induction on the degree |
| C89 | Properties_Certificate.v: C88 makes f a function of the active variables; then C46 and the rotation invariance of the Gaussian mean, and C80 with the chain rule |
| C90 | Properties_RbfInvariance.v, Properties_RbfMoved.v (gradients: the derivative of the surface is unique, so it follows from the values) (with P_RbfInvariance.v): kernel matrices are conjugate by a permutation; the determinant of a Cholesky factor, generalised least squares and the saddle-point system carry over |
| C91 | Properties_Resampling.v (with P_Resampling.v): first and second moments over all index lists by induction on M, Hoffman-Wielandt by Abel summation and Ky Fan, a Frobenius-norm subspace bound by completing a square |
| C92 | Properties_DimensionRules.v: replicates drawn from rank-n gradients span the same n dimensions, so distances and log-determinant terms vanish at n; the ladle rule is refuted with a concrete run |
| C93 | Properties_Kriging.v: the difference of two costs is a sum of squares plus the form of a positive semidefinite kernel on the union of the centres; duality of the saddle-point system for the prediction weights |
| C94 | Properties_Nested.v: a polynomial of the small model is one of the large model with the same residuals; two-sided comparison and uniqueness for equal spans |
| C95 | Properties_PlotErrors.v: runs of the plotting machine that raise; the state left behind; C95_own_figure_refuted by two calls in a row |
| C96 | Properties_Notebooks.v: the notebooks evaluated cell by cell; inputs as terms of numpy's stream; C53, C19, C57-C61, C63-C65, C70 put together; C96_robot_files_refuted by the file name both pictures share |
| C97 | Properties_ComputeLive.v: every step of compute and of a replicate returns on data of the given size; C97_ols_keeps_one from C14; C97_opg_bootstrap_starves for every generator, C97_opg_bootstrap_refuted by a generator that always draws the first row |
| C98 | Properties_Basic.v (with P_Basic.v): the tutorial evaluated cell by cell; C14, C15, C19, C38, C46, C47, C53, C62, C65, C97 and the local models of C08, C09 put together; the two ways of stopping early are part of the statement |
| C99 | Properties_Samplers.v: each sampler evaluated as a function of the stream of random numbers; specifications hr_path, chord_step and rw_path speak of the polytope only; liveness of rejection from C51; the zero-row theorem asks both faces of that input to be seen, because zeros are unsigned in the model |
| C100 | Properties_Float.v over M_Float.v: the lines of the normalizers, of interval_endpoints, forward and conditional_expectations with a rounding after every operation; P_Float.v builds the rounding function from the reals and proves it nearest and monotone; the order of additions is a tree, so every BLAS order is covered; overflow is modelled for the normalizers only, signed zeros nowhere |
| C101 | Properties_Tests.v, Properties_TestsMore.v, Properties_TestsDesign.v, Properties_TestsQP.v over M_Tests.v: the bodies of the tests as programs that return tt or raise AssertionError; numpy's assertion helpers with their tolerances; the set-up and the runner of unittest are not modelled |
| C102 | Properties_NoPoints.v over M_Quadrature.v, M_Integrals.v, M_ASRS.v, M_Designs.v, M_Domains.v, M_Plotters.v, M_RespSurf.v |
| C103 | Properties_TestsSpace.v over M_TestsSpace.v: the bodies of the tests of tests/test_subspaces.py, in the style of C101 |
| C104 | Properties_TestsDomain.v over M_TestsSpace.v: the bodies of the tests of tests/test_domains.py (tests with equal bodies are modelled once); scipy's ConvexHull is a parameter without contract |
| C105 | Properties_HitRun.v over hit_and_run_z of M_Domains.v: the inductive `hr_raise` describes, without the model's helpers, the walks that end in an exception; proved equivalent to the run ending so |
| C106 | Properties_TestsSurf.v over M_TestsSurf.v: the bodies of the tests of tests/test_response_surfaces.py; the tests of the two classes with equal text are modelled once, over the class's train and predict; what they print is left out |
| C107 | Properties_TestsPlot.v over M_TestsAS.v: the bodies of the tests of tests/test_plotters.py (those outside the string literal) over the pyplot state of M_Plotters.v; the drawn points are arbitrary arrays of the right shape |
| C108 | Properties_TestsAS.v over M_TestsAS.v: the bodies of the tests of tests/test_as_response_surfaces.py and tests/test_as_integrals.py; tests with equal text up to arguments are instances of one definition. Nothing is proved about the tests that sample a function over the bounded domain, nor about test_rs_bnd_2d_int |
| C109 | Properties_TestsOpt.v over M_TestsOpt.v: the bodies of the four tests of tests/test_as_optimizers.py. `unanswered B n method`: scipy.optimize.minimize, for some problem whose callbacks all return and give the true gradient, raises, reports no success, gives a point of another shape or a value of 1e100 or more |
| C110 | Properties_LocalLinear.v: from C72 and the least-squares contract; the constants r and s are stated for all samples at once, not per sample |
| C111 | Properties_FloatGrad.v over M_FloatGrad.v (the lines of finite_difference_gradients with a rounding after every operation) and P_FloatGrad.v; overflow is left out; the simulation's own rounding is the parameter E |
| C112 | Properties_FloatSub.v over M_FloatGrad.v (lines 182-205 of subspaces.py with rounded products and sums, the order of additions a tree per entry) and P_FloatSub.v (Weyl and Davis-Kahan for a matrix that is not positive semidefinite); overflow and the rounding inside eigh are left out |
| C113 | Properties_FloatChain.v: C111 and C112 put together; overflow and the rounding inside eigh are left out |
| C114 | Properties_TestsBnd.v: the bounded tests of M_TestsAS.v that C108 does not cover; what maximin_design, SLSQP and Delaunay do for two variables once the hull is there is left open |
| C115 | Properties_FloatInt.v over M_FloatInt.v (integrate, quadrature_rule, av_integrate of a callable and conditional_expectations with a rounding after every operation) and P_FloatInt.v; the nodes and weights of av_quadrature_rule and the points of inverse are those of the real model; overflow is left out |
| C116 | Properties_FloatPoly.v over M_FloatPoly.v (predict, polynomial_bases and grad_polynomial_bases with a rounding after every operation; np.power is a parameter with the contract `pow_close`, which the nearest floats meet with d = u) and P_FloatPoly.v; relative errors and underflow are carried together through a product (`near_to`), so that both bounds are products; the degrees are exact and overflow is left out |
| C117 | Properties_FloatRbf.v over M_FloatRbf.v (exponential_squared and the values of predict with a rounding after every operation), Properties_FloatRbfFar.v (far from all centres, and the matrix of train) and Properties_FloatRbfGrad.v over M_FloatRbfGrad.v (grad_exponential_squared and the gradient of predict; np.exp is a parameter with the contract `exp_close`, asked only at floats <= 0, which the nearest floats meet with d = u); t exp(-t) <= exp(-1) keeps the error of the kernel bounded; train in floating point and overflow are left out |
| C51, C52 | encodings; gradient correct iff Q symmetric: refute + conditional |
