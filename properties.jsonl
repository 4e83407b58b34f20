{"id": "C01", "title": "Bounded normalizer is an affine bijection of the box", "statement": "For a BoundedNormalizer(lb, ub) with lb_j <> ub_j in every column, unnormalize(normalize(X)) and normalize(unnormalize(X)) return X entry by entry; when lb_j < ub_j, normalize maps [lb_j, ub_j] exactly onto [-1, 1] in column j (lb to -1, ub to +1) and unnormalize maps [-1, 1] exactly onto [lb_j, ub_j]; both keep the shape of X and reject non-2-d input with ValueError.  A column with lb_j = ub_j never yields a finite normalized value.", "quantifier": "every M, m, every bound vector and every M-by-m matrix X", "why_tests_cant": "the identity must hold for every real entry and every size; a test only samples a few boxes", "anchors": ["active_subspaces/utils/misc.py:BoundedNormalizer"]}
{"id": "C02", "title": "Unbounded normalizer inverts itself and carries mean and covariance", "statement": "For UnboundedNormalizer(mu, C) whose Cholesky factor L satisfies L L^T = C with L invertible, normalize and unnormalize are mutually inverse on every M-by-m matrix, and unnormalize sends any weighted sample with mean 0 and second-moment matrix I to a sample with mean mu and covariance exactly C (normalize sends it back).", "quantifier": "every m, mu, C with a Cholesky factor, every finite weighted sample", "why_tests_cant": "statement about every sample and every covariance, not one draw", "anchors": ["active_subspaces/utils/misc.py:UnboundedNormalizer"]}
{"id": "C03", "title": "Input checking accepts exactly the documented shapes", "statement": "process_inputs(X) succeeds iff X is two-dimensional and then returns X unchanged with its two dimensions; process_inputs_outputs(X, f) succeeds iff X is M-by-m and f is M-by-1 and otherwise raises before returning anything.", "quantifier": "every rank and shape of X and f", "why_tests_cant": "infinite family of shapes, including rank 0, 1, 3 and mismatched sizes", "anchors": ["active_subspaces/utils/misc.py:process_inputs", "active_subspaces/utils/misc.py:process_inputs_outputs"]}
{"id": "C04", "title": "Conditional expectations are the group means and variances", "statement": "conditional_expectations(f, ind) returns for every index i in 0..max(ind) the arithmetic mean and the population variance of exactly the entries of f whose index is i (NaN iff the group is empty), independent of the order in which the (f, ind) pairs are listed; group variances are >= 0 and are 0 iff the group is constant; the group means weighted by group size add up to the total of f, and the variance of f is the size-weighted conditional variance plus the variance of the conditional means. Without indices it raises ValueError, with an index array of another length IndexError.", "quantifier": "every length, every f and every index vector", "why_tests_cant": "all groupings, orders and empty groups", "anchors": ["active_subspaces/utils/misc.py:conditional_expectations"]}
{"id": "C05", "title": "SimulationRunner.run evaluates each row once, in order, and stops at the first failure", "statement": "run(X) calls the user's function on row 0, 1, ..., M-1 of X, in that order, exactly once each, as 1-by-m arrays; entry i of the M-by-1 result is the value returned for row i; if the call for row k raises, exactly rows 0..k were evaluated and the exception propagates.  A non-callable is rejected with TypeError at construction and a non-2-d X with ValueError before any call.", "quantifier": "every user function (stateful, raising), every M, m and every crash point k", "why_tests_cant": "quantifies over every crash point and every stateful function", "anchors": ["active_subspaces/utils/simrunners.py:SimulationRunner"]}
{"id": "C06", "title": "SimulationGradientRunner.run stacks the gradients row by row", "statement": "run(X) calls dfun on the rows of X in order, exactly once each; row i of the M-by-m result is the (flattened) gradient returned for row i; it raises if a returned array does not have m entries, after exactly the calls up to and including that row.", "quantifier": "every gradient function, M, m and crash point", "why_tests_cant": "quantifies over every crash point and every stateful function", "anchors": ["active_subspaces/utils/simrunners.py:SimulationGradientRunner"]}
{"id": "C07", "title": "Finite differences are the forward difference quotients", "statement": "finite_difference_gradients(X, fun, h) returns exactly (fun(x_i + h e_k) - fun(x_i)) / h in entry (i, k) and evaluates fun exactly at the M points x_i and the M*m points x_i + h e_k, block by block; it is exact for affine functions, off by exactly h*H_kk/2 for quadratics, and converges to the gradient as h -> 0 wherever fun is differentiable.", "quantifier": "every M, m, X, h <> 0 and every simulation function", "why_tests_cant": "must hold for every function, dimension and step size", "anchors": ["active_subspaces/gradients.py:finite_difference_gradients"]}
{"id": "C08", "title": "Local linear models recover the gradient of linear data", "statement": "If f_i = a + b.x_i for every sample and each local neighbourhood matrix has full column rank and positive weight, local_linear_gradients returns b in every row, whatever neighbours and centres the random draws select; too few samples or p outside [m+1, M] raise.", "quantifier": "every data set, every random stream, every p, every weights vector", "why_tests_cant": "must hold for every stream of random centres", "anchors": ["active_subspaces/gradients.py:local_linear_gradients"]}
{"id": "C09", "title": "Local linear models use the p nearest other points", "statement": "Each row of local_linear_gradients is fitted on the p samples nearest to the chosen centre, excluding the centre itself, and every p with m+1 <= p <= M is usable.", "quantifier": "every data set, every random stream, every admissible p", "why_tests_cant": "depends on the positions of ties and of the centre for every data set", "anchors": ["active_subspaces/gradients.py:local_linear_gradients"]}
{"id": "C10", "title": "sorted_eigh returns a sorted, sign-normalised orthogonal eigenbasis", "statement": "For every symmetric C, sorted_eigh returns e >= 0 in non-increasing order and an orthogonal W whose first row is >= 0, with C w_j = (+/- e_j) w_j for every column, and = e_j w_j when C is positive semidefinite; for every such C the columns reassemble C = sum_j lambda_j w_j w_j^T.", "quantifier": "every m and every symmetric matrix, every valid eigensolver and sorting output (ties included)", "why_tests_cant": "all matrices, all tie orders and all sign choices of LAPACK", "anchors": ["active_subspaces/subspaces.py:sorted_eigh"]}
{"id": "C11", "title": "Eigenvalues are mean squared directional derivatives", "statement": "For non-negative weights, active_subspace(df, w) returns e_j = sum_i w_i (df_i . W_j)^2 for its own eigenvector W_j; so e_j >= 0, the e_j add up to sum_i w_i |df_i|^2, and e_j = 0 iff every gradient sample with positive weight is orthogonal to W_j.", "quantifier": "every M, m, gradient matrix and non-negative weight vector", "why_tests_cant": "identity over all samples", "anchors": ["active_subspaces/subspaces.py:active_subspace"]}
{"id": "C12", "title": "The active subspace captures the most variation (Ky Fan)", "statement": "For every k, the first k eigenvectors returned by active_subspace capture at least as much weighted squared gradient as any other k orthonormal directions; the shortfall of the best k-dimensional subspace is the sum of the remaining eigenvalues.", "quantifier": "every k <= m, every orthonormal k-frame, every gradient sample", "why_tests_cant": "optimality over a continuum of frames", "anchors": ["active_subspaces/subspaces.py:active_subspace", "active_subspaces/subspaces.py:sorted_eigh"]}
{"id": "C13", "title": "Ridge functions are recovered", "statement": "If all gradients lie in the span of k directions, at most k eigenvalues are nonzero and every eigenvector with nonzero eigenvalue lies in that span; conversely inactive eigenvectors with zero eigenvalue are orthogonal to every positively weighted gradient.", "quantifier": "every k, every family of k directions, every sample", "why_tests_cant": "all dimensions", "anchors": ["active_subspaces/subspaces.py:active_subspace"]}
{"id": "C14", "title": "OLS subspace is the regression direction", "statement": "ols_subspace minimises the weighted squared residual sum_i w_i (f_i - a - b.x_i)^2; its C is b b^T, so the first eigenvalue is |b|^2, all others are 0 and, if b <> 0, the first eigenvector is b/|b| up to sign; for data f = a + b.x with a full-rank positively weighted design, b is recovered exactly.", "quantifier": "every data set with non-negative weights", "why_tests_cant": "all data sets", "anchors": ["active_subspaces/subspaces.py:ols_subspace"]}
{"id": "C15", "title": "QPHD subspace is the average outer product of the quadratic model's gradient", "statement": "qphd_subspace builds C = b b^T + gamma H H^T from the fitted quadratic c + b.x + x^T H x/2, which equals the average of grad grad^T over any weighted sample with mean 0 and second moment gamma I; gamma is 1/3 when all inputs lie in [-1,1] and 1 when some input lies outside.", "quantifier": "every data set", "why_tests_cant": "the branch must be right for every placement of the out-of-range entry", "anchors": ["active_subspaces/subspaces.py:qphd_subspace"]}
{"id": "C16", "title": "eig_partition picks the first largest eigenvalue gap", "statement": "For m >= 2, eig_partition returns n with 1 <= n <= m-1 such that |e_n - e_{n+1}| (1-based) is maximal and no smaller n attains it; for m = 1 it raises.", "quantifier": "every eigenvalue vector", "why_tests_cant": "all ties and lengths", "anchors": ["active_subspaces/subspaces.py:eig_partition"]}
{"id": "C17", "title": "errbnd_partition and ladle_partition return the first minimiser of their criterion", "statement": "errbnd_partition returns 1 <= n <= m-1 minimising sqrt(e_1+..+e_n)*err_n + sqrt(e_{n+1}+..+e_m), ladle_partition returns 1 <= n <= m minimising F_n + e_n/sum(e); the smallest such n in case of ties.", "quantifier": "every eigenvalue vector and error vector", "why_tests_cant": "all ties and lengths", "anchors": ["active_subspaces/subspaces.py:errbnd_partition", "active_subspaces/subspaces.py:ladle_partition"]}
{"id": "C18", "title": "W1 and W2 always are the leading and trailing columns of eigenvecs", "statement": "After any history of compute and partition calls on a Subspaces object, whether they succeed or raise, either no subspace has been computed or W1, W2 are the first n and remaining m-n columns of the current eigenvecs for some 1 <= n <= m.", "quantifier": "every history of calls, including failing ones", "why_tests_cant": "depends on the crash point inside compute and on call histories", "anchors": ["active_subspaces/subspaces.py:Subspaces"]}
{"id": "C19", "title": "Bootstrap ranges are attained bounds, subspace errors lie in [0,1]", "statement": "With nboot > 0, every row of e_br is (min, max) over the bootstrap replicates of that eigenvalue, sub_br is (min, mean, max) of the subspace distances with 0 <= min <= mean <= max <= 1, and Li's metric is non-negative and sums to 1 whenever it is finite.", "quantifier": "every data set, every nboot >= 1, every random stream", "why_tests_cant": "all random streams", "anchors": ["active_subspaces/subspaces.py:_bootstrap_ranges"]}
{"id": "C20", "title": "Bootstrap replicates keep samples together", "statement": "A bootstrap replicate has as many rows as there are weights and each of its rows takes input, output, gradient and weight from one and the same original sample; absent data stay absent.", "quantifier": "every data set and every random stream", "why_tests_cant": "all random streams", "anchors": ["active_subspaces/subspaces.py:_bootstrap_replicate"]}
{"id": "C21", "title": "forward and inverse are consistent coordinate changes", "statement": "For an orthogonal eigenvector matrix, forward(X) = (X W1, X W2) satisfies Y W1^T + Z W2^T = X and |Y|^2 + |Z|^2 = |X|^2 row by row; inverse(Y, N) returns N points per row of Y, forward of every returned point gives back the row of Y named by ind, and ind lists 0,...,0,1,...,1,... with N copies each.", "quantifier": "every m, n, M, N, every Y and every choice of inactive variables", "why_tests_cant": "row/column bookkeeping must be right for all sizes", "anchors": ["active_subspaces/domains.py:ActiveVariableMap", "active_subspaces/domains.py:_rotate_x"]}
{"id": "C22", "title": "Bounded inverse stays in the hypercube", "statement": "Every point returned by BoundedActiveVariableMap.inverse lies in [-1,1]^m and maps to the requested active variable, for every y with a non-empty preimage, every N and every random stream, whichever sampler (rejection or hit-and-run) produced it.", "quantifier": "every subspace, y, N and random stream", "why_tests_cant": "all random streams; rare near-active constraints", "anchors": ["active_subspaces/domains.py:sample_z", "active_subspaces/domains.py:rejection_sampling_z", "active_subspaces/domains.py:hit_and_run_z"]}
{"id": "C23", "title": "interval_endpoints is the exact range of the active variable", "statement": "interval_endpoints(W1) returns yl <= yu with yu = -yl = sum_i |w_i|, points X with X W1 = Y and entries in {-1,0,1} (corners when no w_i is 0); y lies in [yl, yu] iff some x in [-1,1]^m has w.x = y.", "quantifier": "every m and every vector W1", "why_tests_cant": "continuum of x", "anchors": ["active_subspaces/domains.py:interval_endpoints"]}
{"id": "C24", "title": "zonotope_vertices returns genuine, symmetric vertices", "statement": "Every row returned by zonotope_vertices is W1^T x for a sign vector x in the same row of X, and maximises some linear functional over the image of the cube, being the only such image point when no sign is 0; the set is closed under negation, contains no duplicates, and the search stops after at most maxcount+1 extra rounds.", "quantifier": "every W1, random stream, Nsamples and maxcount", "why_tests_cant": "all random streams", "anchors": ["active_subspaces/domains.py:zonotope_vertices"]}
{"id": "C25", "title": "nzv bounds the number of zonotope vertices", "statement": "For every m-by-n matrix (n >= 1), the number of distinct nowhere-zero sign vectors sign(W1 z) is at most nzv(m,n) = 2*sum_{i<n} C(m-1,i); so the search loop never stops before the count it is looking for is the maximum possible.", "quantifier": "every m, n and matrix, every set of directions z", "why_tests_cant": "a counting theorem over all arrangements", "anchors": ["active_subspaces/domains.py:nzv", "active_subspaces/domains.py:zonotope_vertices"]}
{"id": "C26", "title": "The stored inequality constraints describe the domain", "statement": "The scipy-style constraint (fun(x) >= 0) built from the convex hull of the vertices is satisfied exactly by the points of the convex hull.", "quantifier": "every vertex set and every point", "why_tests_cant": "continuum of points", "anchors": ["active_subspaces/domains.py:BoundedActiveVariableDomain.compute_boundary", "active_subspaces/utils/designs.py:maximin_design"]}
{"id": "C27", "title": "random_walk_z returns points of the polytope", "statement": "Every row returned by random_walk_z satisfies -1 <= W1 y + W2 z <= 1.", "quantifier": "every W1, W2, y in the range, N and random stream", "why_tests_cant": "all random streams and sizes", "anchors": ["active_subspaces/domains.py:random_walk_z"]}
{"id": "C28", "title": "The hit-and-run start is feasible whenever any point is", "statement": "If the polytope of inactive variables is non-empty, the Chebyshev centre used to start hit_and_run_z satisfies every constraint, with slack at least r times the row norm where r is the largest inscribed radius.", "quantifier": "every polytope, every optimal LP answer", "why_tests_cant": "all polytopes", "anchors": ["active_subspaces/domains.py:hit_and_run_z"]}
{"id": "C29", "title": "Gauss-Hermite rules are exact to degree 2N-1", "statement": "For every N >= 1 the rule gh1d(N) has N nodes in non-decreasing order, non-negative weights adding to 1, and integrates every polynomial of degree <= 2N-1 exactly against the standard Gaussian (when no nonzero node is smaller than 1e-12).", "quantifier": "every N and every polynomial of degree at most 2N-1", "why_tests_cant": "infinitely many polynomials and N", "anchors": ["active_subspaces/utils/quadrature.py:gh1d", "active_subspaces/utils/quadrature.py:g1d", "active_subspaces/utils/quadrature.py:jacobi_matrix", "active_subspaces/utils/quadrature.py:r_hermite"]}
{"id": "C30", "title": "Gauss-Legendre rules are exact to degree 2N-1", "statement": "For every N >= 1 the rule gl1d(N) integrates every polynomial of degree <= 2N-1 exactly against the uniform density on [-1,1] (when no nonzero node is smaller than 1e-12), with N sorted nodes and non-negative weights adding to 1.", "quantifier": "every N and every polynomial of degree at most 2N-1", "why_tests_cant": "infinitely many polynomials and N", "anchors": ["active_subspaces/utils/quadrature.py:gl1d", "active_subspaces/utils/quadrature.py:r_jacobi"]}
{"id": "C31", "title": "Tensor rules are products of one-dimensional rules", "statement": "gauss_hermite([N1..Nd]) and gauss_legendre([N1..Nd]) return all N1*...*Nd combinations of one-dimensional nodes, each once, first dimension slowest, each with the product of its one-dimensional weights; weights add to 1 and every product polynomial of degrees <= 2N_i-1 is integrated exactly.", "quantifier": "every list of sizes", "why_tests_cant": "all dimensions and sizes", "anchors": ["active_subspaces/utils/quadrature.py:gauss_hermite", "active_subspaces/utils/quadrature.py:gauss_legendre"]}
{"id": "C32", "title": "jacobi_matrix is the symmetric tridiagonal matrix of the recurrence", "statement": "For an (n+1)-by-2 array of recurrence coefficients, jacobi_matrix returns the n-by-n symmetric tridiagonal matrix with diagonal a_i and off-diagonal sqrt(b_{i+1}), for every n >= 1; other ranks or column counts raise ValueError.", "quantifier": "every n and coefficient array", "why_tests_cant": "all sizes, including the smallest", "anchors": ["active_subspaces/utils/quadrature.py:jacobi_matrix"]}
{"id": "C33", "title": "interval_design is an equispaced interior design", "statement": "For a < b and N >= 0, interval_design(a, b, N) returns N points in increasing order, strictly inside (a, b), with point i equal to a + (i+1)(b-a)/(N+1), so consecutive gaps (endpoints included) are all equal.", "quantifier": "every interval and N", "why_tests_cant": "all sizes", "anchors": ["active_subspaces/utils/designs.py:interval_design"]}
{"id": "C34", "title": "The maximin gradient is the gradient of the maximin objective", "statement": "The maximin objective is minus the smallest squared distance among distinct design points and between design points and vertices, and wherever the closest pair is unique the supplied gradient is its derivative in every coordinate.", "quantifier": "every design, vertex set and dimension", "why_tests_cant": "continuum of designs", "anchors": ["active_subspaces/utils/designs.py:_maximin_design_obj", "active_subspaces/utils/designs.py:_maximin_design_grad"]}
{"id": "C35", "title": "Design and optimisation routines do not disturb the user's random stream", "statement": "Calls of maximin_design, zonotope_minimize and unbounded_minimize leave the global numpy random state exactly as it was before the call, whether they return or raise, and their result does not depend on that state.", "quantifier": "every prior random state, every solver behaviour, every crash point", "why_tests_cant": "histories and crash points", "anchors": ["active_subspaces/utils/designs.py:maximin_design", "active_subspaces/optimizers.py:zonotope_minimize", "active_subspaces/optimizers.py:unbounded_minimize"]}
{"id": "C36", "title": "index_set enumerates all multi-indices of bounded degree exactly once", "statement": "For every n >= 0 and d >= 1, index_set(n, d) lists every d-tuple of naturals with sum <= n exactly once, in order of non-decreasing total degree, so it has C(n+d, d) rows; row 0 is the zero index and rows 1..d are the unit indices in coordinate order.", "quantifier": "every n and d", "why_tests_cant": "all degrees and dimensions", "anchors": ["active_subspaces/utils/response_surfaces.py:index_set", "active_subspaces/utils/response_surfaces.py:_full_index_set"]}
{"id": "C37", "title": "Polynomial gradients are derivatives", "statement": "grad_polynomial_bases is entry by entry the partial derivative of polynomial_bases, and PolynomialApproximation.predict(X, compgrad=True) returns the exact gradient of the value it returns.", "quantifier": "every degree, dimension, point and coefficient vector", "why_tests_cant": "continuum of points", "anchors": ["active_subspaces/utils/response_surfaces.py:grad_polynomial_bases", "active_subspaces/utils/response_surfaces.py:polynomial_bases", "active_subspaces/utils/response_surfaces.py:PolynomialApproximation"]}
{"id": "C38", "title": "Polynomial training reproduces polynomials and exposes gradient and Hessian", "statement": "Trained on data of a polynomial of degree <= N whose basis matrix has full column rank, PolynomialApproximation predicts that polynomial at every point; after any training g and H are the gradient and the symmetric Hessian at the origin of the fitted polynomial, for N = 2 predict(x) = c + g.x + x^T H x / 2; without weights and for non-constant data R^2 lies in [0,1] and is 1 iff the fit interpolates (for constant data it is 0/0, NaN); too few points raise, and degree 0 always raises.", "quantifier": "every data set, degree and dimension", "why_tests_cant": "all polynomials", "anchors": ["active_subspaces/utils/response_surfaces.py:PolynomialApproximation"]}
{"id": "C39", "title": "Radial basis gradients are derivatives", "statement": "exponential_squared is symmetric in its points and equals sigma on the diagonal; grad_exponential_squared is its partial derivative with respect to the second argument, and RadialBasisApproximation.predict(X, compgrad=True) returns the exact gradient of its value.", "quantifier": "every point, centre, length scale and coefficient vector", "why_tests_cant": "continuum of points", "anchors": ["active_subspaces/utils/response_surfaces.py:exponential_squared", "active_subspaces/utils/response_surfaces.py:grad_exponential_squared", "active_subspaces/utils/response_surfaces.py:RadialBasisApproximation.predict"]}
{"id": "C40", "title": "Radial basis training solves the regularised interpolation problem", "statement": "After RadialBasisApproximation.train the prediction at training point i is f_i - v_i*r_i where r are the radial weights, v_i >= 1e-6 is the regularisation actually used, and r is orthogonal to every polynomial of degree <= N on the training points; the training system is non-singular for positive length scales and a full-rank polynomial basis, and then data from such a polynomial are reproduced everywhere; R^2 lies in [0,1] for non-zero data and is 1 iff the fit interpolates.", "quantifier": "every data set, regularisation and length scale", "why_tests_cant": "all data", "anchors": ["active_subspaces/utils/response_surfaces.py:RadialBasisApproximation.train"]}
{"id": "C41", "title": "Active-subspace response surfaces depend only on active variables, with chain-rule gradients", "statement": "ActiveSubspaceResponseSurface.predict(X) equals predict_av(X W1), is unchanged by moving X along inactive directions, and its gradient is the true gradient in x whenever the underlying surface's gradient is the true gradient in y; the gradient has no component along W2.", "quantifier": "every response surface, subspace and point", "why_tests_cant": "continuum of points", "anchors": ["active_subspaces/response_surfaces.py:ActiveSubspaceResponseSurface"]}
{"id": "C42", "title": "Interface training pairs each design point with its own samples", "statement": "train_with_interface trains on (Y_i, mean of fun over the X rows mapped to Y_i, their variance) for every design point i, and for bounded domains additionally on every vertex of the domain with its own single evaluation and variance 0; the simulation runs once on each row.", "quantifier": "every design, N, NMC and function", "why_tests_cant": "index bookkeeping for every size", "anchors": ["active_subspaces/response_surfaces.py:ActiveSubspaceResponseSurface.train_with_interface", "active_subspaces/response_surfaces.py:av_design"]}
{"id": "C43", "title": "integrate is the weighted sum over the quadrature nodes, inside its confidence bounds", "statement": "integrate returns mu = sum_k Xw_k fun(Xp_k) with Xw = Yw_i/NMC on the NMC points of node i; lb <= mu <= ub, symmetric about mu, equal iff the Monte Carlo variance is 0; mu is linear and monotone in fun, and constants c integrate to c times the total active weight.", "quantifier": "every rule, function and NMC >= 1", "why_tests_cant": "all functions", "anchors": ["active_subspaces/integrals.py:integrate", "active_subspaces/integrals.py:quadrature_rule"]}
{"id": "C44", "title": "Interval quadrature weights form a probability vector", "statement": "On a one-dimensional bounded domain the N nodes are the midpoints of N equal bins of [yl, yu], the weights are non-negative multiples of 1/NX and add up to exactly 1 for every random stream.", "quantifier": "every subspace, N >= 1, NX >= 1 and random stream", "why_tests_cant": "every random stream; mass lost outside the bins would be silent", "anchors": ["active_subspaces/integrals.py:interval_quadrature_rule"]}
{"id": "C45", "title": "Zonotope quadrature weights count samples per simplex", "statement": "The zonotope rule has one node per Delaunay simplex, its centroid; weights are non-negative, each the fraction of samples located in that simplex; they add up to the fraction of samples located in any simplex, so to 1 iff no sample falls outside the triangulation.", "quantifier": "every triangulation and random stream", "why_tests_cant": "every random stream", "anchors": ["active_subspaces/integrals.py:zonotope_quadrature_rule"]}
{"id": "C46", "title": "Unbounded integration is exact for active polynomials", "statement": "On an unbounded domain, integrate of a function of the active variables that is a product polynomial of degree <= 2*floor(N^(1/n))-1 in each active variable returns its Gaussian expectation exactly, with a zero-width confidence interval, for every NMC and random stream.", "quantifier": "every subspace, N, NMC, polynomial and random stream", "why_tests_cant": "all polynomials and streams", "anchors": ["active_subspaces/integrals.py:integrate", "active_subspaces/integrals.py:av_quadrature_rule"]}
{"id": "C47", "title": "Multistart minimisation returns the best of its runs", "statement": "zonotope_minimize and unbounded_minimize return the minimiser and value of the first run with the smallest reported value among the ten; any failed run raises; interval_minimize raises iff the solver reports exhaustion.", "quantifier": "every solver behaviour", "why_tests_cant": "all solver outcomes", "anchors": ["active_subspaces/optimizers.py:zonotope_minimize", "active_subspaces/optimizers.py:unbounded_minimize", "active_subspaces/optimizers.py:interval_minimize"]}
{"id": "C48", "title": "minimize returns a full-space point whose prediction is the reported minimum", "statement": "minimize(asrs, X, f) returns (xstar, fstar) with W1^T xstar the active minimiser found and asrs.predict(xstar) = fstar; for bounded domains xstar lies in [-1,1]^m.", "quantifier": "every surface, data set and solver answer meeting its contract", "why_tests_cant": "all surfaces", "anchors": ["active_subspaces/optimizers.py:minimize", "active_subspaces/optimizers.py:av_minimize"]}
{"id": "C49", "title": "UnboundedMinVariableMap chooses the minimising inactive variables", "statement": "The z chosen by UnboundedMinVariableMap.regularize_z is the stationary point over z of its own trained regularised quadratic model at the given y.", "quantifier": "every trained model and y", "why_tests_cant": "all models", "anchors": ["active_subspaces/optimizers.py:UnboundedMinVariableMap.regularize_z", "active_subspaces/optimizers.py:MinVariableMap.train"]}
{"id": "C50", "title": "BoundedMinVariableMap minimises its quadratic model over the box", "statement": "The z chosen by BoundedMinVariableMap.regularize_z keeps W1 y + W2 z in [-1,1]^m and minimises the trained regularised quadratic model over all such z.", "quantifier": "every trained model and y", "why_tests_cant": "all models", "anchors": ["active_subspaces/optimizers.py:BoundedMinVariableMap.regularize_z", "active_subspaces/optimizers.py:MinVariableMap.train"]}
{"id": "C51", "title": "QPSolver poses the documented programs, identically for both back ends", "statement": "Each QPSolver method hands its back end a problem whose feasible set and objective are exactly the documented ones (A x = b, lb <= x <= ub; A x >= b; c^T x + x^T Q x), so the SciPy and Gurobi answers solve the same problem; a back-end failure raises after writing one dump file; unknown solver names fall back to SciPy.", "quantifier": "every problem, back end and solver outcome", "why_tests_cant": "sign and bound conventions for every problem", "anchors": ["active_subspaces/utils/qp_solver.py:QPSolver"]}
{"id": "C52", "title": "QP gradients are correct", "statement": "The gradient handed to SciPy for c^T x + x^T Q x is its true gradient at every x.", "quantifier": "every c, Q and x", "why_tests_cant": "continuum of points", "anchors": ["active_subspaces/utils/qp_solver.py:_scipy_quadratic_program_bnd", "active_subspaces/utils/qp_solver.py:_scipy_quadratic_program_ineq"]}
{"id": "C53", "title": "compute stores the method's eigenpairs and the dimension its rule selects", "statement": "After a successful compute, eigenvals and eigenvecs are what the chosen method returns with the given weights (1/M each by default), and W1 has n columns where n is the first optimiser of the criterion of the partition type: eigenvalue gap (EVG), error bound with the mean bootstrap errors (RS), ladle criterion (LI; 1 when it is undefined). Gradient-based computation in two or more variables always returns.", "quantifier": "every data set, method, partition rule, number of replicates and random stream", "why_tests_cant": "all combinations of options and data", "anchors": ["active_subspaces/subspaces.py:Subspaces.compute"]}
{"id": "C54", "title": "OPG works only with at least two variables and more than floor(1.7 m) samples", "statement": "opg_subspace returns only if m >= 2, M > m and M > floor(1.7 m); compute with sstype OPG always raises for one input variable and leaves the object unchanged.", "quantifier": "every data set", "why_tests_cant": "an impossibility over all inputs", "anchors": ["active_subspaces/subspaces.py:opg_subspace"]}
{"id": "C55", "title": "OPG recovers the direction of affine data", "statement": "On outputs a + b.x at distinct samples in general position with positive weights, opg_subspace returns first eigenvalue |b|^2, all others 0, and first eigenvector +-b/|b|, whatever centres are drawn.", "quantifier": "every affine function, data set and random stream", "why_tests_cant": "all random streams", "anchors": ["active_subspaces/subspaces.py:opg_subspace", "active_subspaces/gradients.py:local_linear_gradients"]}
{"id": "C56", "title": "av_integrate is the weighted sum over the active-variable nodes", "statement": "av_integrate returns sum_i Yw_i g_i over the nodes of av_quadrature_rule, g_i being the response surface's prediction at node i, or the value of the function, called exactly once per node in order; non-maps and non-integers raise TypeError before any effect.", "quantifier": "every rule, surface, (stateful) function and random stream", "why_tests_cant": "order and number of calls for stateful functions", "anchors": ["active_subspaces/integrals.py:av_integrate"]}
{"id": "C57", "title": "circuit_grad is the gradient of circuit", "statement": "For every M-by-6 array of normalized inputs circuit returns an M-by-1 array and circuit_grad an M-by-6 array, row by row (also for a single point given as a 1-d array), and entry (i,j) of the second is the partial derivative of entry i of the first with respect to input (i,j), for all inputs in [-1,1].", "quantifier": "every M and every input in the cube", "why_tests_cant": "derivatives at a continuum of points", "anchors": ["tutorials/test_functions/otl_circuit/otlcircuit_functions.py:circuit", "tutorials/test_functions/otl_circuit/otlcircuit_functions.py:circuit_grad"]}
{"id": "C58", "title": "piston_grad is the gradient of piston", "statement": "For every M-by-7 array of normalized inputs piston returns an M-by-1 array and piston_grad an M-by-7 array, row by row (also for a single point given as a 1-d array), and entry (i,j) of the second is the partial derivative of entry i of the first with respect to input (i,j), for all inputs in [-1,1].", "quantifier": "every M and every input in the cube", "why_tests_cant": "derivatives at a continuum of points", "anchors": ["tutorials/test_functions/piston/piston_functions.py:piston", "tutorials/test_functions/piston/piston_functions.py:piston_grad"]}
{"id": "C59", "title": "borehole_grad is the gradient of borehole", "statement": "For every M-by-8 array of normalized inputs borehole returns an M-by-1 array and borehole_grad an M-by-8 array, row by row (also for a single point given as a 1-d array), and entry (i,j) of the second is the partial derivative of entry i of the first with respect to input (i,j), whenever the hole has a positive radius below the radius of influence and the last six inputs are in [-1,1].", "quantifier": "every M and every such input", "why_tests_cant": "derivatives at a continuum of points", "anchors": ["tutorials/test_functions/borehole/borehole_functions.py:borehole", "tutorials/test_functions/borehole/borehole_functions.py:borehole_grad"]}
{"id": "C60", "title": "wing_grad is the gradient of wing", "statement": "For every M-by-10 array of normalized inputs wing returns an M-by-1 array and wing_grad an M-by-10 array, row by row (also for a single point given as a 1-d array), and entry (i,j) of the second is the partial derivative of entry i of the first with respect to input (i,j), for all inputs in [-1,1].", "quantifier": "every M and every input in the cube", "why_tests_cant": "derivatives at a continuum of points", "anchors": ["tutorials/test_functions/wing_weight/wing_functions.py:wing", "tutorials/test_functions/wing_weight/wing_functions.py:wing_grad"]}
{"id": "C61", "title": "robot_grad is the gradient of robot", "statement": "For every M-by-8 array of normalized inputs robot returns an M-by-1 array and robot_grad an M-by-8 array, row by row (also for a single point given as a 1-d array), and entry (i,j) of the second is the partial derivative of entry i of the first with respect to input (i,j), wherever the end of the arm is not at the origin.", "quantifier": "every M and every such input", "why_tests_cant": "derivatives at a continuum of points", "anchors": ["tutorials/test_functions/robot/robot_functions.py:robot", "tutorials/test_functions/robot/robot_functions.py:robot_grad"]}
{"id": "C62", "title": "The tutorial's wing_grad is the gradient of its wing", "statement": "For every M-by-10 array of positive inputs (sweep angle in degrees, with positive cosine) entry (i,j) of wing_grad is the partial derivative of entry i of wing with respect to input (i,j).", "quantifier": "every M and every such input", "why_tests_cant": "derivatives at a continuum of points", "anchors": ["tutorials/wing_functions.py:wing", "tutorials/wing_functions.py:wing_grad"]}
{"id": "C63", "title": "The eigenvalue and subspace plots show what they are given", "statement": "For k > 0 nonnegative eigenvalues, eigenvalues(e, e_br, ..) opens one figure that has the curve (i, e_i), the band of the bootstrap range if one is given, a window that contains all of them, the ticks 1..k, the axis labels and the title; the figure is shown and the very same figure is saved in figs/evals_<label><type> exactly when the options ask for it (by default they do). The same holds for subspace_errors when 0 <= lower <= mean <= upper <= 1.", "quantifier": "every number of eigenvalues, all values, labels and options", "why_tests_cant": "needs all values; plots are not looked at by tests", "anchors": ["active_subspaces/utils/plotters.py:eigenvalues", "active_subspaces/utils/plotters.py:subspace_errors"]}
{"id": "C64", "title": "The eigenvector plot pairs each eigenvector with its own bootstrap range", "statement": "eigenvectors(W, W_br, ..) with n > 0 columns makes one figure with min(n,4) axes at distinct places; axes j shows column j of W, the band between columns 2j and 2j+1 of W_br and the title of eigenvector j+1, with all entries of modulus at most 1 in the window; the axes with none below them, and only those, carry the input labels; shown and saved figures agree. A range without 2n columns is refused before a figure is opened; n = 0 raises IndexError and leaves a figure open.", "quantifier": "every W, W_br, labels and options", "why_tests_cant": "needs all sizes; plots are not looked at by tests", "anchors": ["active_subspaces/utils/plotters.py:eigenvectors"]}
{"id": "C65", "title": "The sufficient summary plots show all the points", "statement": "sufficient_summary(y, f, ..) shows (and saves, if asked) the plot of f against the first active variable and, for two variables, the scatter plot of both with colour f; every point lies in the window of its figure. More or fewer variables are refused before a figure is opened.", "quantifier": "every number of points, all values, labels and options", "why_tests_cant": "fails for clouds of points on one side of the origin only", "anchors": ["active_subspaces/utils/plotters.py:sufficient_summary"]}
{"id": "C66", "title": "The zonotope plot is checked, complete and saved", "statement": "zonotope_2d_plot(vertices, ..) refuses wrong shapes before anything is drawn; otherwise it shows one figure with the hull of the vertices, the triangulation of design and vertices, the coloured points, and a window that contains the vertices if these lie on both sides of 0; with savefigs the same figure is saved.", "quantifier": "every vertices, design, y, f, labels and options; every outcome of ConvexHull and Delaunay", "why_tests_cant": "the image file is written by pyplot and not looked at by tests", "anchors": ["active_subspaces/utils/plotters.py:zonotope_2d_plot"]}
{"id": "C67", "title": "From gradients of a ridge function to the function", "statement": "Given values and gradients, not all zero, of x -> g(a.x) with a polynomial g of degree <= N at M > N points with N+1 different a.x: Subspaces.compute(df=..) returns with a one-dimensional active subspace spanned by a, and ActiveSubspaceResponseSurface.train_with_data with a PolynomialApproximation(N) on it returns a surface whose predictions and gradients at every new point are g(a.x) and g'(a.x) a.", "quantifier": "every direction a, polynomial g, number of points, data, new points, and every eigh, argsort, lstsq meeting their contract", "why_tests_cant": "tests compare with stored numbers on one data set; that the pieces compose to an exact method for ridge functions is about all of them", "anchors": ["active_subspaces/subspaces.py:Subspaces.compute", "active_subspaces/response_surfaces.py:ActiveSubspaceResponseSurface.train_with_data", "active_subspaces/response_surfaces.py:ActiveSubspaceResponseSurface.predict", "active_subspaces/utils/response_surfaces.py:PolynomialApproximation.train"]}
{"id": "C68", "title": "From gradients of a ridge function to its mean", "statement": "Given gradients, not all zero, of x -> g(a.x): compute, then integrate(fun, UnboundedActiveVariableMap, N, NMC) for a fun that evaluates the polynomial g(a.x) of degree < 2N returns the exact mean of g(a.x) under the standard Gaussian, i.e. of g(|a| t) in one variable, and both bounds equal to it.", "quantifier": "every direction a, polynomial g, N, NMC, random stream, and every eigh, argsort, eig meeting their contract", "why_tests_cant": "exactness for all polynomials of a degree, through three modules, is not a finite check", "anchors": ["active_subspaces/subspaces.py:Subspaces.compute", "active_subspaces/integrals.py:integrate", "active_subspaces/domains.py:UnboundedActiveVariableDomain.__init__"]}
{"id": "C69", "title": "Wrong arguments are refused with the stated exception and no side effect", "statement": "compute without data, with data of another rank, without the data its method needs or with an unknown method; partition with a non-integer or outside 1..m; domains from something other than a computed Subspaces object; designs, rules, samplers and integrals with a non-map or a non-integer; recurrences with N <= 0; gradient approximations with too few samples or p out of range; surfaces before training; maps on a domain of neither class: each raises the exception its check names and leaves object, random state, calls made and files as they were.  A domain of a computed object has its dimensions; the default surface is a radial basis of degree 2.", "quantifier": "every argument, object state and world", "why_tests_cant": "tests try single bad values and do not look at the random state or the call log", "anchors": ["active_subspaces/subspaces.py:Subspaces.compute", "active_subspaces/subspaces.py:Subspaces.partition", "active_subspaces/domains.py:UnboundedActiveVariableDomain.__init__", "active_subspaces/domains.py:BoundedActiveVariableDomain.__init__", "active_subspaces/domains.py:sample_z", "active_subspaces/domains.py:nzv", "active_subspaces/integrals.py:quadrature_rule", "active_subspaces/response_surfaces.py:ActiveSubspaceResponseSurface.__init__", "active_subspaces/response_surfaces.py:av_design", "active_subspaces/utils/quadrature.py:r_hermite", "active_subspaces/utils/quadrature.py:r_jacobi", "active_subspaces/gradients.py:local_linear_gradients", "active_subspaces/gradients.py:finite_difference_gradients", "active_subspaces/optimizers.py:minimize"]}
{"id": "C70", "title": "The test functions compute the published formulas of their physical inputs", "statement": "For physical inputs in the documented ranges, scaled to [-1,1], circuit, piston, borehole, wing and robot return the published formula of these inputs (for the tutorial's wing without scaling); the first four are positive; the circuit voltage falls in Rb1 and rises in Rb2; the piston volume balances the forces; the wing weight is even in the sweep angle; the robot's distance does not depend on the first angle, is at most the length of the arm, and equals it for a straight arm.", "quantifier": "every number of points and all inputs in the ranges", "why_tests_cant": "tests compare a few points", "anchors": ["tutorials/test_functions/otl_circuit/otlcircuit_functions.py:circuit", "tutorials/test_functions/piston/piston_functions.py:piston", "tutorials/test_functions/borehole/borehole_functions.py:borehole", "tutorials/test_functions/wing_weight/wing_functions.py:wing", "tutorials/test_functions/robot/robot_functions.py:robot", "tutorials/wing_functions.py:wing"]}
{"id": "C71", "title": "The estimated subspace moves with the problem", "statement": "Rotating the inputs by an orthogonal Q, scaling the outputs by c, scaling the weights by t >= 0 and reordering the samples multiplies every eigenvalue of active_subspace by t c^2 and, where there is a gap after the k-th eigenvalue and t c^2 > 0, rotates the projector onto the first k eigenvectors by Q; the dimension chosen from the gaps stays the same.", "quantifier": "every number of samples and inputs, all gradients and nonnegative weights, every rotation, scale and order, and any two eigensolvers and sorts meeting their contract", "why_tests_cant": "relates pairs of runs on unbounded families of inputs; tests fix one data set", "anchors": ["active_subspaces/subspaces.py:active_subspace", "active_subspaces/subspaces.py:sorted_eigh", "active_subspaces/subspaces.py:eig_partition"]}
{"id": "C72", "title": "Errors in the gradients move eigenvalues and subspace by a bounded amount", "statement": "If the gradients have length at most L and are perturbed by vectors of length at most h, then with eps = h (2L + h) sum(weights) every eigenvalue moves by at most eps; if eps is below the gap after the k-th eigenvalue the distance (norm of W1^T W2', as in the bootstrap) between the two k-dimensional subspaces is at most eps / (gap - eps); and the dimension chosen from the gaps does not change if the largest gap leads by more than 4 eps.", "quantifier": "every number of samples and inputs, all gradients and perturbations within the bounds, nonnegative weights, k, and any two eigensolvers and sorts meeting their contract", "why_tests_cant": "a worst case over a continuum of perturbations", "anchors": ["active_subspaces/subspaces.py:active_subspace", "active_subspaces/subspaces.py:sorted_eigh", "active_subspaces/subspaces.py:eig_partition", "active_subspaces/subspaces.py:_bootstrap_ranges"]}
{"id": "C73", "title": "Finite differences estimate the active subspace to first order in the step", "statement": "For a function whose slope along each coordinate through each sample changes by at most K per unit, finite_difference_gradients with step h > 0 is off by at most K h / 2 per entry, and active_subspace on its result differs from active_subspace on the exact gradients by the bounds of C72 with gradient error sqrt(m) K h / 2.", "quantifier": "every such function, sample, step, weights, and any eigensolvers and sorts meeting their contract", "why_tests_cant": "an error bound for all functions of a smoothness class; tests check single functions", "anchors": ["active_subspaces/gradients.py:finite_difference_gradients", "active_subspaces/subspaces.py:active_subspace"]}
{"id": "C74", "title": "Weights count samples", "statement": "Listing a sample several times is the same as giving it the sum of the weights: the eigenvalues of active_subspace agree, and so does the projector after a gap. Raising weights by at most a factor r raises no eigenvalue by more than r. A bootstrap replicate is the sample weighted by how often each row was drawn; its eigenvalues, and the ends of the bootstrap ranges for method AS, lie between 0 and M times the estimate.", "quantifier": "every sample, nonnegative weights, multiplicities, random stream, number of replicates, and any two eigensolvers and sorts meeting their contract", "why_tests_cant": "relates runs on different numbers of samples and every random stream", "anchors": ["active_subspaces/subspaces.py:active_subspace", "active_subspaces/subspaces.py:_bootstrap_ranges", "active_subspaces/subspaces.py:_bootstrap_replicate"]}
{"id": "C75", "title": "integrate on a bounded domain is close to the mean over the points drawn", "statement": "For a function g of the active variables with slope at most K: on an interval of length L cut into N bins the quadrature rule gives a value within K L / (2N) of the mean of g over the random points that were drawn; on a zonotope whose simplices have diameter at most delta, within n/(n+1) K delta (plus max|g| times the fraction of points outside the triangulation). For such functions integrate returns exactly the value of the rule, with lower and upper bound equal to it.", "quantifier": "every random stream, subspace, number of bins, such g, simulation with that value, and any LP solver, hull and triangulation meeting their contract", "why_tests_cant": "an error bound for all functions of a class and every random stream; tests check shapes", "anchors": ["active_subspaces/integrals.py:interval_quadrature_rule", "active_subspaces/integrals.py:zonotope_quadrature_rule", "active_subspaces/integrals.py:av_quadrature_rule", "active_subspaces/integrals.py:integrate"]}
{"id": "C76", "title": "The objective for the RBF scale is a generalised least squares fit", "statement": "For every scale at which kernel plus noise is positive definite, _rbf_objective returns log det L + M log max(q/M, 5 eps), with L the Cholesky factor and q the smallest |L^-1 (f - p)|^2 over polynomials p of degree at most N. Scaling the data by c and adding such a polynomial shifts it by M log c^2 (above the floor). For equal scales training is linear in the data, and training on f + p predicts p more than training on f.", "quantifier": "every number and dimension of points, data, noise, eigenvalues, scale, degree, and any solver, Cholesky routine and optimiser", "why_tests_cant": "a minimum over all polynomials, and relations between runs", "anchors": ["active_subspaces/utils/response_surfaces.py:_rbf_objective", "active_subspaces/utils/response_surfaces.py:RadialBasisApproximation.train", "active_subspaces/utils/response_surfaces.py:RadialBasisApproximation.predict"]}
{"id": "C77", "title": "The objective for the RBF scale is a negative log likelihood (false)", "statement": "The docstring says that for a Gaussian process the value would be the negative log likelihood. It is that (maximised over polynomial and variance, up to a constant) plus M/2 log of the variance, and it can prefer a scale that is less likely than another.", "quantifier": "every data set and scale for the relation; one data set and two scales for the refutation, for any solver", "why_tests_cant": "compares with a supremum over polynomials and variances", "anchors": ["active_subspaces/utils/response_surfaces.py:_rbf_objective"]}
{"id": "C78", "title": "RBF training returns on well-posed data (false for repeated points without noise)", "statement": "Training returns when the polynomial basis has full rank and either the noise is positive or it is nonnegative and the points are distinct. With two equal points and trailing eigenvalues zero it raises LinAlgError, although train keeps the noise above 1e-6: the objective does not.", "quantifier": "every data set, noise and eigenvalues, and any solver, Cholesky routine and optimiser meeting their contract", "why_tests_cant": "definiteness of kernel matrices of any size", "anchors": ["active_subspaces/utils/response_surfaces.py:RadialBasisApproximation.train", "active_subspaces/utils/response_surfaces.py:_rbf_objective"]}
{"id": "C79", "title": "The problems handed to scipy.optimize.minimize are well posed", "statement": "For a trained polynomial or RBF surface, the objective that minimize builds is the surface's prediction, defined at every point of R^n, and jac returns n numbers, its gradient. Constraints built from the zonotope are defined and their jac is the matrix of their derivatives, and the start has n entries: av_minimize gives the same run with any two optimisers that agree on such problems.", "quantifier": "every surface, domain of any dimension, optimiser, random generator and state", "why_tests_cant": "derivatives, and all optimisers", "anchors": ["active_subspaces/optimizers.py:minimize", "active_subspaces/optimizers.py:av_minimize", "active_subspaces/optimizers.py:zonotope_minimize", "active_subspaces/optimizers.py:unbounded_minimize"]}
{"id": "C80", "title": "Functions of n linear combinations are recovered from gradients and values", "statement": "For f(x) = g(b_1.x, .., b_n.x) with g a polynomial of degree at most N: if the sampled gradients span the b's and no other polynomial of degree N in the b.x fits the values, then compute, partition(n) and train of a degree N surface return, the eigenvalues after the n-th are zero, W1 spans the b's, and predictions and gradients are those of f at every point.", "quantifier": "every m, n, N, directions, polynomial, data and any eigenvalue and least squares routine meeting its contract", "why_tests_cant": "equality with f at all points of R^m", "anchors": ["active_subspaces/subspaces.py:Subspaces.compute", "active_subspaces/subspaces.py:Subspaces.partition", "active_subspaces/response_surfaces.py:ActiveSubspaceResponseSurface.train_with_data", "active_subspaces/response_surfaces.py:ActiveSubspaceResponseSurface.predict", "active_subspaces/utils/response_surfaces.py:PolynomialApproximation.train"]}
{"id": "C81", "title": "The design on the active variables has N points (false on unbounded domains)", "statement": "av_design with N >= 1 returns NMC inputs for every design point, each mapping to its point. Bounded domain: N points, equally spaced strictly inside the interval for n = 1, the maximin design of the zonotope's vertices for n >= 2. Unbounded domain: all combinations of p Gauss-Hermite nodes per variable, p the largest integer with p^n <= N, so only p^n points; for n = 2 and N = 3 there is one.", "quantifier": "every map, N, NMC, random generator and state, and any eigenvalue routine meeting its contract", "why_tests_cant": "all sizes, and nodes defined through an eigenvalue problem", "anchors": ["active_subspaces/response_surfaces.py:av_design", "active_subspaces/utils/designs.py:interval_design", "active_subspaces/utils/designs.py:maximin_design", "active_subspaces/utils/designs.py:gauss_hermite_design"]}
{"id": "C82", "title": "The recurrence coefficients are those of the Jacobi and Hermite polynomials", "statement": "For every N >= 1, l < r, a, b > -1, the rows of r_jacobi define monic polynomials p_(k+1) = (x - ab[k,0]) p_k - ab[k,1] p_(k-1) that are orthogonal on [l, r] for the weight (r-x)^a (x-l)^b, with ab[k,1] > 0 the ratio of consecutive squared norms and ab[0,1] = 1. For N >= 2 the rows of r_hermite do so for the standard Gaussian. Both return N+1 rows (r_hermite one row for N = 1), not the N rows of the docstrings.", "quantifier": "every N, interval and real exponents a, b > -1", "why_tests_cant": "integrals of all products, possibly improper, for real exponents; tests compare a few numbers", "anchors": ["active_subspaces/utils/quadrature.py:r_jacobi", "active_subspaces/utils/quadrature.py:r_hermite"]}
{"id": "C83", "title": "Arrays that do not fit are refused (false for one-column arrays)", "statement": "Elementwise operations return exactly when the shapes, aligned at the right, agree or are 1, and stretch the 1s; np.dot exactly when the inner dimensions agree; otherwise ValueError. Hence forward, the normalizers, the test functions, training, the design objective, the interval end points, errbnd_partition and a hit-and-run step with nothing to stop it refuse data of the wrong size. But an M-by-1 array is accepted by circuit, piston, wing and robot and read as equal columns, and the tutorial's wing accepts extra columns. Trained polynomial and radial basis surfaces of degree at least 1 refuse points with the wrong number of coordinates; a radial basis surface of degree 0 reads a single column as all coordinates.", "quantifier": "every array of every shape", "why_tests_cant": "all shapes and ranks; tests use the right sizes", "anchors": ["active_subspaces/utils/misc.py:BoundedNormalizer", "active_subspaces/utils/misc.py:process_inputs_outputs", "active_subspaces/utils/misc.py:atleast_2d", "active_subspaces/domains.py:ActiveVariableMap.forward", "active_subspaces/domains.py:interval_endpoints", "active_subspaces/domains.py:hit_and_run_z", "active_subspaces/utils/designs.py:_maximin_design_obj", "active_subspaces/subspaces.py:errbnd_partition", "active_subspaces/utils/response_surfaces.py:PolynomialApproximation.predict", "active_subspaces/utils/response_surfaces.py:RadialBasisApproximation.predict", "tutorials/test_functions/wing_weight/wing_functions.py:wing"]}
{"id": "C84", "title": "Quadrature points give the active subspace of the density exactly", "statement": "The sums over the points of gauss_hermite / gauss_legendre with n_k points in direction k are the exact means, under the standard normal density / the uniform density on the cube, of every polynomial of degree < 2 min n_k in m variables. Hence Subspaces.compute(df, weights=w) on the values at those points of a polynomial vector field of degree < min n_k returns eigenpairs of E[g g^T] itself: each eigenvalue is the mean squared slope along its eigenvector over the density, the matrix V diag(e) V^T has the entries E[g_i g_j], and no k orthonormal directions carry more mean squared slope than the first k eigenvectors.", "quantifier": "every dimension m >= 2, point counts, polynomial vector field and state", "why_tests_cant": "means over a continuous density of all polynomials, with solver-defined nodes", "anchors": ["active_subspaces/utils/quadrature.py:gauss_hermite", "active_subspaces/utils/quadrature.py:gauss_legendre", "active_subspaces/subspaces.py:Subspaces.compute", "active_subspaces/subspaces.py:active_subspace"]}
{"id": "C85", "title": "The eigenvalues bound the error of functions of the active variables", "statement": "Let f be a polynomial of degree D in m standard normal variables, and let compute be given its gradients and the weights at Gauss-Hermite points with at least D points in each direction. For every n the mean of f given the first n active variables has mean squared error at most the sum of the eigenvalues after the n-th, and no polynomial in those variables has a smaller error. For any other orthonormal directions at distance eps from the first n eigenvectors the mean squared error is at most eps^2 (e_1 + .. + e_n) + (e_(n+1) + .. + e_m). Hence the quantity minimised by errbnd_partition bounds the mean, over the bootstrap replicates, of the root-mean-square error made with the replicate's directions.", "quantifier": "every dimension, polynomial, orthonormal frame, n and bootstrap draw", "why_tests_cant": "a Poincare inequality over a continuous density; sampling gives no bound for all functions", "anchors": ["active_subspaces/subspaces.py:Subspaces.compute", "active_subspaces/subspaces.py:active_subspace", "active_subspaces/subspaces.py:errbnd_partition", "active_subspaces/subspaces.py:_bootstrap_ranges", "active_subspaces/utils/quadrature.py:gauss_hermite"]}
{"id": "C86", "title": "Regression on Gauss-Hermite points finds the mean gradient and Hessian (false of QPHD's weights)", "statement": "Let f hold the values of a polynomial p of degree N at the Gauss-Hermite points. compute with sstype OLS and the rule's weights (at least 2 points per direction, N + 1 < 2 n_k) stores |E grad p|^2 as its one nonzero eigenvalue, with eigenvector along E grad p. compute with sstype QPHD and the square roots of the weights (at least 3 points, N + 2 < 2 n_k) stores the eigenpairs of g g^T + H H^T for g = E grad p and H = E Hess p. Means are over the standard normal density and no derivative is evaluated. With the weights themselves QPHD weighs the squared residuals by their squares and gets something else.", "quantifier": "every dimension, polynomial, point counts and least squares and eigenvalue routines meeting their contracts", "why_tests_cant": "means of derivatives over a continuous density, from values only", "anchors": ["active_subspaces/subspaces.py:Subspaces.compute", "active_subspaces/subspaces.py:ols_subspace", "active_subspaces/subspaces.py:qphd_subspace", "active_subspaces/utils/response_surfaces.py:PolynomialApproximation.train", "active_subspaces/utils/quadrature.py:gauss_hermite"]}
{"id": "C87", "title": "The fitted polynomial depends on the data only through the best fit (R^2 is false of weighted data)", "statement": "PolynomialApproximation.train leaves a polynomial of degree N with the least weighted squared residuals of all such polynomials. When the weighted points determine a polynomial of degree N, the surface is therefore linear in the data, a polynomial of degree N added to the data is added to the surface, and neither the surface nor R^2 changes under reordering of the samples, a common factor in the weights, or an invertible affine change of the inputs; a factor in the data multiplies the surface and leaves R^2. With weights R^2 can be minus infinity.", "quantifier": "every degree, dimension, data, weights, permutation and invertible affine map, and any least squares routine meeting its contract", "why_tests_cant": "relations between runs on all pairs of data sets", "anchors": ["active_subspaces/utils/response_surfaces.py:PolynomialApproximation.train", "active_subspaces/utils/response_surfaces.py:PolynomialApproximation.predict"]}
{"id": "C88", "title": "The number of nonzero eigenvalues is the number of linear forms the function depends on", "statement": "Let df hold the gradients of a polynomial f at points that determine polynomials of the gradient's degree (with non-negative weights, the positively weighted points). compute(df=df, weights=weights) stores eigenvalues of which all but the first n are 0 if and only if f is a function of n linear forms, for every n; then f is a function of the first n active variables (the coordinates along the first n stored eigenvectors). The Gauss-Hermite points with at least as many points per direction as the degree of f are such points, and compute returns on them.", "quantifier": "every dimension, polynomial, sample and weights, partition type, number of replicates, and eigenvalue routines meeting their contracts", "why_tests_cant": "an equivalence over all functions and all sets of linear forms", "anchors": ["active_subspaces/subspaces.py:Subspaces.compute", "active_subspaces/subspaces.py:active_subspace", "active_subspaces/utils/quadrature.py:gauss_hermite"]}
{"id": "C89", "title": "Zero eigenvalues certify exact means and predictions", "statement": "Let df hold the gradients of a polynomial f of degree N at points that determine such gradients, and let compute store eigenvalues that are 0 from the n-th on. After partition(n), integrate on the unbounded domain with p points per active variable (N < 2p) returns the mean of f over the standard normal density of all m variables, as value and both bounds; and a polynomial surface of degree N trained on values of f at points whose n active variables determine such a polynomial predicts f and its gradient everywhere.", "quantifier": "every dimension, n, polynomial, sample, weights, training set, number of points, user state and numerical routines meeting their contracts", "why_tests_cant": "exactness everywhere from a finite observation, for all functions", "anchors": ["active_subspaces/subspaces.py:Subspaces.compute", "active_subspaces/subspaces.py:Subspaces.partition", "active_subspaces/integrals.py:integrate", "active_subspaces/response_surfaces.py:ActiveSubspaceResponseSurface.train_with_data", "active_subspaces/response_surfaces.py:ActiveSubspaceResponseSurface.predict"]}
{"id": "C90", "title": "The radial basis surface does not depend on the numbering of the samples or on the origin and axes of the inputs", "statement": "Renumber the samples, together with their values and noise variances, and map all inputs by x -> A x + b, where the map keeps distances (plain distances without eigenvalues, distances weighted by the eigenvalues with them). Then the objective that chooses the length scale is the same function; so if training on the old samples returns, training on the new ones returns, with the same R^2, its prediction at A y + b is the old prediction at y, and its gradient there, times A, is the old gradient.", "quantifier": "every degree, data set, noise, eigenvalues, renumbering, distance-preserving affine map, and solvers and minimiser meeting their contracts", "why_tests_cant": "relations between runs on all pairs of data sets; in exact arithmetic, not up to a tolerance", "anchors": ["active_subspaces/utils/response_surfaces.py:RadialBasisApproximation.train", "active_subspaces/utils/response_surfaces.py:RadialBasisApproximation.predict", "active_subspaces/utils/response_surfaces.py:_rbf_objective", "active_subspaces/utils/response_surfaces.py:exponential_squared"]}
{"id": "C91", "title": "Sampling error: how bootstrap and Monte Carlo samples distort eigenvalues and subspace, on average over the draws", "statement": "Draw M of K gradient samples with replacement and compute the active subspace from them, with weights scaled by K/M. Over all equally likely draws: the mean squared slope along every direction is the full one on average; the n leading eigenvalues are too large on average, the trailing ones too small, and the total is right; the squared error of all eigenvalues is on average at most spread = (K/M) sum_s w_s^2 |g_s|^4 - (sum_j e_j^2)/M, which for equal weights is of order 1/M; the squared subspace distance is on average at most 2 spread / gap^2; and the fractions of draws with larger errors obey Chebyshev's bound. Each bootstrap replicate of the program is such a draw with M = K.", "quantifier": "every data set, weights >= 0, K, M, dimension, subspace size with a gap, and eigensolvers meeting their contract", "why_tests_cant": "averages over K^M resampled data sets of any size; tests see a few random draws and no exact averages", "anchors": ["active_subspaces/subspaces.py:_bootstrap_replicate", "active_subspaces/subspaces.py:_bootstrap_ranges", "active_subspaces/subspaces.py:active_subspace"]}
{"id": "C92", "title": "The partition rules recognise data of exactly n linear forms: error bound exactly, largest gap never more (false of the ladle, one too many)", "statement": "Gradients whose matrix has exactly n nonzero eigenvalues, 1 <= n < m. The eigenvalue-gap rule never returns more than n columns. If every bootstrap replicate also has n nonzero eigenvalues, the error-bound rule returns exactly n. The ladle rule should return n too, but it is off by one: entry j of its metric belongs to dimension j, while the code returns argmin + 1, so it answers n + 1 whenever its metric is defined. A 4-sample data set with n = 2, m = 3 is partitioned into 3 active and 0 inactive columns.", "quantifier": "every data set with n nonzero eigenvalues, weights >= 0, number of replicates, generator, and solvers meeting their contracts", "why_tests_cant": "all random draws and all degenerate data sets; a test with noisy data cannot tell n from n + 1", "anchors": ["active_subspaces/subspaces.py:ladle_partition", "active_subspaces/subspaces.py:errbnd_partition", "active_subspaces/subspaces.py:eig_partition", "active_subspaces/subspaces.py:_bootstrap_ranges", "active_subspaces/subspaces.py:Subspaces.compute"]}
{"id": "C93", "title": "The radial basis surface is the smoothest fit, and at every point the best linear unbiased prediction", "statement": "Let ell and nu be the length scales and noise variances training chooses. Among all surfaces sum_j c_j k(x, z_j) + p(x), with any centres z_j, coefficients c_j and polynomial p of degree at most N, the trained one minimises sum_i (f_i - s(X_i))^2 / nu_i + roughness, where roughness = sum c_i c_j k(z_i, z_j) is the squared norm in the space of the kernel; if the samples determine the polynomials it is the only minimiser. At every point y the prediction is sum lam_i f_i with weights that do not depend on the values f, that predict every polynomial of degree at most N exactly, and whose mean squared error for a random field with this covariance is the smallest of all such weights, strictly.", "quantifier": "every degree, data set, noise, eigenvalues, point y, competing surface (any number of centres) and weights; solvers meeting their contracts", "why_tests_cant": "optimality over an infinite-dimensional family; a test compares against finitely many competitors", "anchors": ["active_subspaces/utils/response_surfaces.py:RadialBasisApproximation.train", "active_subspaces/utils/response_surfaces.py:RadialBasisApproximation.predict", "active_subspaces/utils/response_surfaces.py:exponential_squared"]}
{"id": "C94", "title": "More degree or more active variables never fit worse; the polynomial surface depends on the active subspace, not on its basis", "statement": "Train two polynomial surfaces on the same values and weights, the second of at least the degree of the first and on inputs of which those of the first are affine functions. The second has the smaller or equal weighted sum of squared residuals, and the larger or equal R^2 wherever R^2 is a number; it is a number for both or neither. So an active subspace surface with n' >= n columns of the same eigenvectors fits no worse. If the two sets of active directions have the same span and the samples determine the polynomial, the two surfaces predict the same value at every point of the full space and have the same R^2.", "quantifier": "every data set, weights, degrees, number of active variables and set of directions (not only orthonormal ones); least-squares solvers meeting their contract", "why_tests_cant": "all pairs of nested models on all data; tests compare a few fits to a tolerance", "anchors": ["active_subspaces/utils/response_surfaces.py:PolynomialApproximation.train", "active_subspaces/utils/response_surfaces.py:PolynomialApproximation.predict", "active_subspaces/response_surfaces.py:ActiveSubspaceResponseSurface.train_with_data", "active_subspaces/response_surfaces.py:ActiveSubspaceResponseSurface.predict", "active_subspaces/subspaces.py:Subspaces.partition"]}
{"id": "C95", "title": "Plotting functions on 1-d arrays and on arrays that do not fit (false: a call shows only its own figures)", "statement": "Eigenvalues and responses may be columns or 1-d arrays: figures, files and errors are the same. Bootstrap ranges with the wrong number of rows and responses of the wrong length raise ValueError, ranges with too few columns IndexError; nothing is shown or saved, but the figure already opened stays open. Arrays lacking the dimension asked for are refused before anything is drawn. It is false that a call shows only its own figures: after a failed call the unfinished figure is shown with the next plot.", "quantifier": "every size, all values, labels, options and states of the plotting library", "why_tests_cant": "needs all misfitting shapes and the state left by an earlier failed call", "anchors": ["active_subspaces/utils/plotters.py:eigenvalues", "active_subspaces/utils/plotters.py:subspace_errors", "active_subspaces/utils/plotters.py:eigenvectors", "active_subspaces/utils/plotters.py:sufficient_summary", "active_subspaces/utils/plotters.py:zonotope_2d_plot"]}
{"id": "C96", "title": "The example notebooks analyse the published functions (false: robot_example keeps the pictures it draws)", "statement": "Each of the notebooks of the circuit, piston, wing, robot and borehole runs to its end. Its inputs are the terms of numpy's stream scaled to the published ranges, column by column; XX are the same points in [-1,1]^m (standard normal for the first two of the borehole); f holds the published formula at the inputs and df the exact gradient with respect to XX. It computes the active subspace of those gradients with bootstrap ranges over nboot resamplings, and y, the first two active variables. Five figures are shown and saved: eigenvalues with ranges, subspace errors with ranges, two eigenvectors with the input names, and the one- and two-dimensional summary plots. The robot notebook leaves out the last eigenvalue and error and draws all eight eigenvectors in two figures; it saves both under one name, so only the second is kept, whose panels show eigenvectors 5 to 8 under the titles 1 to 4. With nboot at most 0 cell 9 draws and saves the eigenvalues without ranges and then raises AttributeError, and the robot's raises TypeError before it draws.", "quantifier": "every generator and seed, number of samples N >= 1 and of replicates, and solvers meeting their contracts; piston: the volume solves the quadratic equation; robot: gradient where the end of the arm is not at its base; borehole: where 0 < rw < r", "why_tests_cant": "whole programs over all random draws; tests do not run notebooks or look at pictures", "anchors": ["tutorials/test_functions/otl_circuit/otlcircuit_example.ipynb", "tutorials/test_functions/piston/piston_example.ipynb", "tutorials/test_functions/borehole/borehole_example.ipynb", "tutorials/test_functions/wing_weight/wing_example.ipynb", "tutorials/test_functions/robot/robot_example.ipynb"]}
{"id": "C97", "title": "Computing subspaces from input/output pairs: linear and quadratic models always succeed, the linear one keeps one direction (false: so does the outer product of gradients with bootstrap)", "statement": "Given M samples of m >= 2 inputs and their values, with or without weights: compute with the linear model (any M >= 1) or the quadratic model (2 M >= (m+1)(m+2)) returns, for the eigenvalue-gap rule with any number of bootstrap replicates and for the error-bound and ladle rules with at least one, whatever rows the bootstrap draws. With the linear model and the eigenvalue-gap rule exactly one direction is kept, that of the weighted least squares gradient. Local linear models do not share this: if a replicate repeats a point so often that fewer than floor(1.7 m) rows differ from it and a local model is centred there, compute raises ValueError, although it returns without bootstrap.", "quantifier": "every data set, weights, number of replicates, prior state, generator, and solvers meeting their contracts", "why_tests_cant": "all resamplings of all data sets; a test sees the few that one seed draws", "anchors": ["active_subspaces/subspaces.py:Subspaces.compute", "active_subspaces/subspaces.py:ols_subspace", "active_subspaces/subspaces.py:qphd_subspace", "active_subspaces/subspaces.py:opg_subspace", "active_subspaces/subspaces.py:_bootstrap_ranges", "active_subspaces/subspaces.py:_bootstrap_replicate", "active_subspaces/gradients.py:local_linear_gradients"]}
{"id": "C98", "title": "The first tutorial, cell by cell, and how far it runs", "statement": "basic.ipynb draws N points from the published ranges of the wing and computes their weights; XX are the points in [-1,1]^10, mirrored because the tutorial swaps the names of the limits. The linear model yields one active variable, along the best linear fit; the quadratic model, the local linear models and the exact gradients (derivatives of the weight with respect to XX) yield as many as the largest drop of their eigenvalues says, and each cell shows and saves eigenvalues and subspace errors with ranges over nboot resamplings and the summary plots. Cell 15 fits the quadratic least-squares polynomial of the active variable; cell 19 integrates it over the bins of the interval weighted with 10000 random points of the cube, next to a Monte Carlo mean of the weight and its standard error; cell 21 returns a point of the interval and the surface there. The notebook runs to its end exactly if the models ask for at most 2, 2 and 1 active variables; otherwise it stops with the summary plot's exception, or with ValueError in cell 15 when the gradients ask for two.", "quantifier": "every generator that does not draw a point twice, N >= 66 samples, any number of replicates, bins and Monte Carlo points, prior state; solvers meeting their contracts", "why_tests_cant": "a whole program over all random draws, with figures; tests do not run it", "anchors": ["tutorials/basic.ipynb", "tutorials/wing_functions.py:wing", "tutorials/wing_functions.py:wing_grad"]}
{"id": "C99", "title": "Which random numbers become which samples of the inactive variables", "statement": "Rejection sampling draws 50 N points, coordinate j of point r being lo_j + (hi_j - lo_j) u with u uniform number r k + j of the stream and [lo, hi] the smallest box that holds the polytope; it returns the first N of them that lie in the polytope, in order, or None when fewer do, and it always returns when the polytope holds a point. Hit and run then starts from the Chebyshev centre with the numbers that follow: up to 49 directions are tried in turn, the first along which a step of 1/4000000 stays strictly inside is taken, and the next point lies at fraction u of the chord through the old point of the polytope cut out by the faces further than sqrt(2^-52); seen from a point that far from all faces this is the whole chord, so the new point depends on the old one only through the line, and with one inactive variable not at all. After 49 blocked directions the old point fills the remaining rows. If some input is itself active (a zero row of W2) the walk can only stand still or raise. The random walk makes 11 N proposals of a fixed step size, moves when the proposal is inside, drops the first 10 N points and lays the others out column by column but reads them row by row.", "quantifier": "every generator, polytope, y, N, and linear programming back end meeting its contract", "why_tests_cant": "a statement about every stream of random numbers; tests fix a seed and check shapes", "anchors": ["active_subspaces/domains.py:sample_z", "active_subspaces/domains.py:rejection_sampling_z", "active_subspaces/domains.py:hit_and_run_z", "active_subspaces/domains.py:random_walk_z"]}
{"id": "C100", "title": "In floating point: normalizing stays in [-1,1], unnormalizing and intervals of active variables nearly keep their bounds (false: exactly; averages of equal values are that value)", "statement": "In every binary format with at least four digits, rounding to nearest even with gradual underflow and overflow: for floats lb < ub of moderate size, normalize maps the floats of [lb, ub] into [-1, 1], lb to -1 and ub to 1 exactly, keeps their order, and errs by at most 10 u + eta whatever lb and ub are (u the unit roundoff, eta half the smallest number). unnormalize maps the floats of [-1, 1] into [lb, ub + 2 u (ub - lb)], -1 to lb, keeps their order, and stays in [lb, ub] when lb = 0 or lb = -ub; unnormalizing and normalizing again returns within u (20 + 2 max(|lb|, |ub|) / (ub - lb)) + eta + 4 eta / (ub - lb). An active variable errs by at most ((1 + u)^d - 1) sum |x_k w_k| plus underflow, for every order of the additions of depth d, fused or not, and never leaves the endpoints if these are added in the same order. Conditional means err by at most ((1 + u)^(d+1) - 1) times the mean magnitude, conditional variances are never negative. Counterexamples in binary64: unnormalize of 1 exceeds ub; bounds +-2^1022 normalize ub to infinity; in another order of addition a corner of the cube lies outside the endpoints; the mean of three copies of the double nearest 0.1 is larger than each and the variance positive.", "quantifier": "every format, all floats of the box, every summation order", "why_tests_cant": "all floats and all orders of summation; tests compare a few values with a tolerance", "anchors": ["active_subspaces/utils/misc.py:BoundedNormalizer.normalize", "active_subspaces/utils/misc.py:BoundedNormalizer.unnormalize", "active_subspaces/utils/misc.py:conditional_expectations", "active_subspaces/domains.py:interval_endpoints", "active_subspaces/domains.py:ActiveVariableMap.forward", "active_subspaces/integrals.py:interval_quadrature_rule"]}
{"id": "C101", "title": "When the unit tests of the utilities pass (false: test_maximin_design_gradient_with_finite_difference always passes; an unknown solver is refused)", "statement": "The tests in test_misc.py, test_gradients.py, test_simrunners.py, test_designs.py, test_quadrature.py and test_qp_solver.py, over every stream of random numbers. test_bounded_normalizer passes unless one of its 30 uniform numbers is exactly 0; test_unbounded_normalizer passes exactly if the mean of each column's 100 normal numbers lies in [-1, 1]; the other three of test_misc pass always. The finite difference test always passes; the local linear gradient test passes whenever no three of its 200 points lie on a line and raises ValueError if all points coincide. The four runner tests pass and evaluate the function exactly once per row. The 17 quadrature tests, the interval and the Gauss-Hermite design tests pass always; the maximin tests of seeds pass whenever the design returns. The test of the design gradient passes if in every round one pair of points is closest and stays so over the difference step, and fails on draws where pairs tie. The linear and quadratic program tests pass whenever the solver returns; a solver with an unknown name is accepted.", "quantifier": "every generator, prior state, and solvers meeting their contracts", "why_tests_cant": "says when the tests themselves pass, over all random draws; each run sees one stream", "anchors": ["tests/test_misc.py", "tests/test_gradients.py", "tests/test_simrunners.py", "tests/test_designs.py", "tests/test_quadrature.py", "tests/test_qp_solver.py", "active_subspaces/utils/designs.py:maximin_design", "active_subspaces/gradients.py:local_linear_gradients"]}
{"id": "C102", "title": "Asking for few, no or negative numbers of points, empty plots, and length scales that do not fit", "statement": "In n unbounded active variables a quadrature rule (and design) of fewer than 2^n points is one point, the origin, with weight one; with n = 1 this holds for negative numbers too, with n >= 2 a negative number raises ValueError from rules, integrals and designs with nothing drawn or evaluated. An interval design of -2, -1 or 0 points is empty. nzv is 0 when there are no inputs or no active variables. Plots of empty arrays raise ValueError: the eigenvalue and error plots leave an open figure, the bivariate summary plot leaves two and has saved the first, the zonotope plot opens none. The kernels and their gradients refuse length scales that are not as many as the columns and point sets with different numbers of columns.", "quantifier": "every domain, map, size, generator and state", "why_tests_cant": "edge cases over all dimensions; tests do not reach them", "anchors": ["active_subspaces/integrals.py:av_quadrature_rule", "active_subspaces/response_surfaces.py:av_design", "active_subspaces/utils/quadrature.py:gauss_hermite", "active_subspaces/utils/designs.py:interval_design", "active_subspaces/domains.py:nzv", "active_subspaces/utils/plotters.py:eigenvalues", "active_subspaces/utils/plotters.py:sufficient_summary", "active_subspaces/utils/response_surfaces.py:grad_exponential_squared"]}
{"id": "C103", "title": "When the repository's tests of the subspace estimators pass, fail or break", "statement": "With eigh, argsort and lstsq doing what numpy's do, and for every random number generator in place of numpy's: test_sorted_eigh and test_active_subspace pass if and only if some direction exists in which the drawn vectors have a strictly larger sum of squared components than in every perpendicular direction, and otherwise end in an AssertionError. test_ols_subspace passes if some affine function of the drawn points fits the drawn values strictly better than every constant; the converse holds when only the zero affine function vanishes at the points. test_qphd_subspace passes if and only if the matrix built from the best quadratic fit has a sole leading direction. test_opg_subspace ends in a pass or an AssertionError whenever the drawn points are distinct. test_bootstrap_replicate and the three partition tests pass for every generator. test_bootstrap_ranges and test_subspace_class pass if the drawn points are distinct and every resampling has enough distinct points for OPG; for some generator with distinct points both end in a ValueError (refuted).", "quantifier": "every random number generator, initial state and solver satisfying the contracts", "why_tests_cant": "the tests run with the one seed 42; whether they depend on luck takes all generators", "anchors": ["tests/test_subspaces.py:test_sorted_eigh", "tests/test_subspaces.py:test_active_subspace", "tests/test_subspaces.py:test_ols_subspace", "tests/test_subspaces.py:test_qphd_subspace", "tests/test_subspaces.py:test_opg_subspace", "tests/test_subspaces.py:test_bootstrap_replicate", "tests/test_subspaces.py:test_bootstrap_ranges", "tests/test_subspaces.py:test_eig_partition", "tests/test_subspaces.py:test_errbnd_partition", "tests/test_subspaces.py:test_ladle_partition", "tests/test_subspaces.py:test_subspace_class"]}
{"id": "C104", "title": "When the repository's tests of the domains and maps pass, fail or break (false: the tests of hit and run and of inverse over bounded domains always pass)", "statement": "With eigh, argsort and the linear programming solver doing what they promise, and for every random number generator in place of numpy's: the tests of the unbounded domain and of forward and inverse over it always pass. The tests of the bounded domain and of forward over it always have the same outcome: they pass, or end in the error that the convex hull gives for the images of points of the cube under two orthonormal columns; they pass whatever the hull does when the drawn gradients are parallel. The tests of inverse over the bounded domain end in the hull's error, in a ValueError or OverflowError of the samplers, or, once inverse has returned, pass if all 100 points lie strictly inside the cube and fail with AssertionError if one coordinate does not; when all uniform numbers are 0 they fail, since the corner of the cube is its own inverse. The tests of rejection sampling and of the random walk always pass; those of hit and run and of sample_z pass or end in a ValueError or OverflowError, and hit and run ends in a ValueError when all normal numbers are 0.", "quantifier": "every random number generator, initial state and solver satisfying the contracts", "why_tests_cant": "the tests run with the seeds 42 and 43; whether they depend on luck takes all generators", "anchors": ["tests/test_domains.py:test_unbounded_active_variable_domain", "tests/test_domains.py:test_bounded_active_variable_domain_0", "tests/test_domains.py:test_unbounded_active_variable_map_0", "tests/test_domains.py:test_unbounded_active_variable_map_2", "tests/test_domains.py:test_bounded_active_variable_map_0", "tests/test_domains.py:test_bounded_active_variable_map_2", "tests/test_domains.py:test_rejection_sample_z", "tests/test_domains.py:test_hit_and_run_z", "tests/test_domains.py:test_random_walk_z", "tests/test_domains.py:test_sample_z"]}
{"id": "C105", "title": "Exactly when hit and run raises, and what", "statement": "For every draw: a face of the polytope is seen from a point if it is further than sqrt(2^-52), and the first direction, out of 49, along which a step of 1/4000000 meets no face is taken. Hit and run from the Chebyshev centre ends in an exception if and only if its walk reaches a point from which the direction taken has, among the seen faces, none behind (ValueError), none ahead and none beside (ValueError), or one beside and one behind (OverflowError); this also determines which exception it is. When an inscribed ball makes every face seen from the centre, the first point exists if and only if no entry of W2 d is zero for the direction d taken: all entries zero give a ValueError, some but not all an OverflowError, for every number of points asked for.", "quantifier": "every frame, active-variable value, number of points, random generator and solver meeting the contracts", "why_tests_cant": "the tests try one seed and generic directions; a direction parallel to a face has probability zero unless a row of W2 is zero", "anchors": ["active_subspaces/domains.py:hit_and_run_z"]}
{"id": "C106", "title": "When the repository's tests of the response surfaces pass, fail or break (false: the finite-difference test of the monomials always passes)", "statement": "With lstsq, solve, Cholesky and fminbound doing what they promise, and for every random number generator in place of numpy's: the tests that call the index set, the bases and the kernels pass, and so does the comparison of the Gaussian's gradient with finite differences. The comparison for the cubic monomials passes if and only if every drawn number lies strictly between -5-1/3000000 and 5-1/3000000, and otherwise ends in an AssertionError (it fails when all numbers are 5). The tests of exact data pass for both surfaces when the drawn first coordinates take three different values (one variable) and when no conic passes through the ten points (two variables). The tests of gradients of trained surfaces end in a pass or an AssertionError, for the Gaussian surface in two variables if no curve of degree five passes through the two hundred points. The four convergence tests always pass. The test with eigenvalues passes unless the two hundred points are on one line.", "quantifier": "every random number generator, initial state and solver satisfying the contracts", "why_tests_cant": "the tests run with the one seed 42; whether they depend on luck takes all generators", "anchors": ["tests/test_response_surfaces.py:test_index_set", "tests/test_response_surfaces.py:test_polynomial_bases", "tests/test_response_surfaces.py:test_grad_polynomial_bases_fd", "tests/test_response_surfaces.py:test_grad_exponential_squared_fd", "tests/test_response_surfaces.py:test_exact_polynomial_approximation_1d", "tests/test_response_surfaces.py:test_exact_polynomial_approximation_2d", "tests/test_response_surfaces.py:test_exact_rbf_approximation_1d", "tests/test_response_surfaces.py:test_exact_rbf_approximation_2d", "tests/test_response_surfaces.py:test_polynomial_grad_1d", "tests/test_response_surfaces.py:test_rbf_grad_2d", "tests/test_response_surfaces.py:test_poly_order_1d", "tests/test_response_surfaces.py:test_rbf_points_2d", "tests/test_response_surfaces.py:test_rbf_as"]}
{"id": "C107", "title": "The tests of the plots pass, and write over their own pictures", "statement": "Each of the eighteen tests of the plots that run (the four of the zonotope are inside a string literal and never run) passes from every state of pyplot and for all drawn points of the right shape, shows as many figures as it saves pictures, and leaves no figure open. Run in any order they pass and save nineteen pictures, under seven names: twelve pictures are written over. The pictures of the eigenvector tests show the unit vectors, one panel each, with the given bands; those of the eigenvalue tests show 10^-1, ..., 10^-6. After any tests, passed or failed, tearDown leaves no figure open, so that a test that follows shows its own figures alone; without it, a figure that a failed test left open is shown by the next.", "quantifier": "every state of pyplot, every drawn array, every order of the tests", "why_tests_cant": "the tests only show that nothing is raised for one seed and one order; they look at no picture", "anchors": ["tests/test_plotters.py:test_eigenvalues", "tests/test_plotters.py:test_subspace_errors", "tests/test_plotters.py:test_eigenvectors", "tests/test_plotters.py:test_ssp1", "tests/test_plotters.py:test_ssp2"]}
{"id": "C108", "title": "When the repository's tests of the surfaces and integrals over the active variables pass", "statement": "For every random number generator in place of numpy's, and with the solvers doing what they promise: the test of the constructors, the tests that train a polynomial surface over the unbounded domain (on data or on the quadratic function) and the integrals of the quadratic function over it pass. The tests that train a polynomial surface over the bounded domain pass or end in the error of the convex hull. The tests that train a Gaussian surface on data, and the integrals of it, do the same provided the drawn gradients span R^3 and no quadric passes through the drawn inputs; those that train it on the quadratic function over the unbounded domain only need the gradients to span. The test named test_rs_fun_train_pr_ubnd trains a Gaussian surface, like the test before it.", "quantifier": "every random number generator, initial state and solver satisfying the contracts", "why_tests_cant": "the tests run with the one seed 42; whether they depend on luck takes all generators", "anchors": ["tests/test_as_response_surfaces.py:test_rs_0", "tests/test_as_response_surfaces.py:test_rs_data_train_gp_ubnd", "tests/test_as_response_surfaces.py:test_rs_data_train_pr_bnd_2d", "tests/test_as_response_surfaces.py:test_rs_fun_train_pr_ubnd", "tests/test_as_response_surfaces.py:test_rs_fun_train_gp_ubnd_2d", "tests/test_as_integrals.py:test_rs_ubnd_int", "tests/test_as_integrals.py:test_rs_bnd_int", "tests/test_as_integrals.py:test_fun_ubnd_2d_int"]}
{"id": "C109", "title": "When the repository's tests of the optimizers pass, and what the one with two active variables finds", "statement": "For every random number generator in place of numpy's for which no quadric passes through the fifty inputs, and with the linear algebra doing what it promises: each of the four tests passes, unless a named outside solver lets it down. Unbounded, two active variables: unless BFGS does not answer for some well-posed problem. Unbounded, one active variable: the same, or the linear solver raises for a singular 2-by-2 matrix. Bounded, one active variable: unless fminbound does not answer for some function, or a feasible quadratic program raises. Bounded, two active variables: unless qhull gives no equations, SLSQP does not answer for some well-posed problem, or a quadratic program in one variable with a positive quadratic coefficient raises. In the unbounded test with two active variables, the minimiser returned has an inactive part of the wrong sign: the function is never smaller there than with the inactive part left out, is larger unless that part is zero, and is not larger at the point with the inactive part reversed.", "quantifier": "every random number generator, initial state and solver satisfying the contracts", "why_tests_cant": "the tests run with the one seed 42 and look at neither xstar nor fstar, so a minimiser of the wrong sign passes", "anchors": ["tests/test_as_optimizers.py:test_rs_ubnd_int", "tests/test_as_optimizers.py:test_rs_bnd_int", "tests/test_as_optimizers.py:test_rs_ubnd_2d_int", "tests/test_as_optimizers.py:test_rs_bnd_2d_int", "active_subspaces/optimizers.py:UnboundedMinVariableMap.regularize_z"]}
{"id": "C110", "title": "Local linear models estimate gradients and the active subspace to first order in the size of the neighbourhoods", "statement": "Let the samples be distinct and the data f come with gradients d at the samples that change by at most K per unit of distance (f_i - f_c - d_c.(x_i - x_c) is at most K/2 |x_i - x_c|^2). Let each sample have p others within r, and let the sum of squares of every affine function over p samples so near one be at least (s r)^2 times the squared length of its slope. Then each row that local_linear_gradients returns is within sqrt(p) K r / (2 s) of the gradient at some sample, although the samples used are not the nearest ones. With g for this number and gradients of length at most L, the eigenvalues computed from the rows are within g (2 L + g) (sum of weights) of those of the gradients at the same samples, and the subspace is within that over the gap less that.", "quantifier": "every sample set, data, number of neighbours, weights and random generator", "why_tests_cant": "an error bound must hold for every data set; the test has one linear function, for which the error is zero", "anchors": ["active_subspaces/gradients.py:local_linear_gradients", "active_subspaces/subspaces.py:active_subspace"]}
{"id": "C111", "title": "Forward differences in floating point, and the step that is lost (false: a small step always gives a derivative near the true one)", "statement": "Let every sum, difference and quotient be rounded to nearest in a binary format with unit roundoff u (binary64: 2^-53) and least number eta. If the simulation returns floats within E of g at the points where it is run, and the derivative along a coordinate changes by at most K per unit over the step, then each entry of finite_difference_gradients is a float within (1+u)^2 A + ((1+u)^2 - 1) |g'| + eta of the derivative g', with A = (K (h + d)^2 / 2 + 2 E + d |g'|) / h and d = u |x + h| for the rounding of the moved input. If the step is less than half the spacing of the floats at an input, the entry is 0 whatever the simulation is; with the default step 1e-6 this happens for f(x) = x at x = 2e11 (refuted).", "quantifier": "every binary format, input array, step and simulation", "why_tests_cant": "rounding at one input says nothing about the next; the tests use inputs between -1 and 1, where no step is lost", "anchors": ["active_subspaces/gradients.py:finite_difference_gradients"]}
{"id": "C112", "title": "The active subspace computed from rounded products (false: the computed matrix is symmetric)", "statement": "Let every product df*weights and every operation of the matrix product be rounded to nearest, the M products of each entry being added in any order of depth at most d (also with fused multiply-add). With gradients of length at most L, nonnegative weights of sum S, unit roundoff u and least number eta, let eps = ((1+u)^(d+1) - 1) L^2 S + m (1+u)^d M (1+L) eta. Each entry is a float within the corresponding bound of the exact entry. The eigenvalues that active_subspace returns (absolute values, since the computed matrix need not be positive semidefinite) are within eps of the exact ones, and the distance of the k-dimensional subspaces is at most eps / (gap - eps). The vectors returned are orthonormal and ordered all the same. The computed matrix need not be symmetric: with one gradient (5, 2^52+1) and weight 5 its two off-diagonal entries differ by 16 in binary64 (refuted), and eigh reads one of them only.", "quantifier": "every binary format, order of addition, gradient array, weights and solver meeting the contracts", "why_tests_cant": "a bound over all arrays and all orders of addition; the order is chosen by the BLAS library, not by the code", "anchors": ["active_subspaces/subspaces.py:active_subspace", "active_subspaces/subspaces.py:sorted_eigh"]}
{"id": "C113", "title": "From a simulation to its active subspace in floating point", "statement": "Let a simulation return floats within E of g where it is run, let the slopes of g along the coordinates change by at most K per unit over the step, and let gradients have length at most L and moved inputs size at most B. Forward differences with step h followed by active_subspace, with every operation rounded to nearest and the sums in any order of depth at most d, never raise, and with b = sqrt(m) ((1+u)^2 A + ((1+u)^2 - 1) L + eta), A = (K (h + u B)^2 / 2 + 2 E + u B L) / h and S the sum of the weights, the eigenvalues are within eps = b (2 L + b) S + ((1+u)^(d+1) - 1) (L + b)^2 S + m (1+u)^d M (1 + L + b) eta of those of the exact gradients, and the k-dimensional subspace is within eps / (gap - eps) of the exact one.", "quantifier": "every binary format, simulation, input array, step, weights, order of addition and solver meeting the contracts", "why_tests_cant": "the tests compare no subspace with an exact one; the bound says how small a step may be before rounding takes over", "anchors": ["active_subspaces/gradients.py:finite_difference_gradients", "active_subspaces/subspaces.py:active_subspace"]}
{"id": "C114", "title": "How the tests of the surfaces and integrals end over the bounded domain", "statement": "For every random number generator in place of numpy's, and with the solvers doing what they promise. Two active variables: the six tests build the same array of vertices, images of points of the cube under orthonormal columns, and if the convex hull raises for it all six end in its error; otherwise the polynomial surface trained on data passes, and the Gaussian one too when the draws are in general position. One active variable: the integral of the quadratic function, the polynomial surface trained on the function, and the Gaussian one when the drawn gradients span R^3, pass exactly when inverse returns for ten points inside the interval that the active variable fills over the cube, and otherwise end in the ValueError or the OverflowError of the samplers, nothing else. The tests that leave the number of variables to the gaps are of one of these two sorts.", "quantifier": "every random number generator, initial state and solver satisfying the contracts", "why_tests_cant": "the tests run with the one seed 42; the errors of the hull and of the samplers are not reached there", "anchors": ["tests/test_as_response_surfaces.py:test_rs_fun_train_gp_bnd", "tests/test_as_response_surfaces.py:test_rs_fun_train_pr_bnd", "tests/test_as_response_surfaces.py:test_rs_fun_train_gp_bnd_2d", "tests/test_as_response_surfaces.py:test_rs_fun_train_pr_bnd_2d", "tests/test_as_integrals.py:test_rs_bnd_2d_int", "tests/test_as_integrals.py:test_fun_bnd_int", "tests/test_as_integrals.py:test_fun_bnd_2d_int"]}
{"id": "C115", "title": "Integrals in floating point", "statement": "Take a run of integrate whose simulation returns floats, and round to nearest after every operation of quadrature_rule's division and of integrate's means, products, square root and bounds, the group sums added in any order of depth d and the products in any order of depth e. It then makes the same calls and ends in the same state, never takes the root of a negative number, returns floats with lb <= mu <= ub, and mu is within ((1+u)^(2d+4+e) - 1) sum |w_i| mean|f|_i, plus an explicit multiple of the smallest float, of the estimate without rounding. av_integrate is within ((1+u)^e - 1) sum |w_i f_i| + (1+u)^e q eta of its value without rounding. The weights that integrate uses are not those of the rule: in binary64, with two nodes of weights 0.3 and 0.7, the constant 1 and NMC = 10, mu = lb = ub = 1 - 2^-53, which is neither 1 nor the sum of the weights.", "quantifier": "every binary format, simulation, map, rule, NMC, order of addition and solver meeting the contracts", "why_tests_cant": "the tests compare integrals with stored values to a few digits; a bound over all orders of addition and the ordering of the bounds need an argument about rounding", "anchors": ["active_subspaces/integrals.py:integrate", "active_subspaces/integrals.py:av_integrate", "active_subspaces/integrals.py:quadrature_rule", "active_subspaces/utils/misc.py:conditional_expectations"]}
{"id": "C116", "title": "Polynomial surfaces in floating point (false: predictions are relatively accurate)", "statement": "Let every product and sum of PolynomialApproximation.predict be rounded to nearest in a binary format with unit roundoff u and least number eta, the m powers of a monomial multiplied and the n terms of a row added in any orders, the latter of depth at most e, and let np.power return floats with relative error at most d, or an underflow. predict then returns floats; with c = 1 + u, g = c^(m-1) (1+d)^m and h = (c+eta)^(m-1) (1+d+eta)^m each value is within (c^e g - 1) sum |w_i| |x^a_i| + c^e ((h - g) sum |w_i| max(1, |x|)^a_i + n eta) of the exact prediction from the same weights, factor by factor, and each entry of the gradient within the same bound for the differentiated monomials, with one more rounding. In the cube [-1,1]^m the bounds are (c^e h - 1) W + c^e n eta and (c^(e+1) h - 1) N W + c^e (W + n) eta, W the sum of the |weights|. Predictions need not be relatively accurate: (x-1)^2 at 1 + 2^-30 in binary64 is 2^-60 and is predicted as 0, while its gradient is exact (refuted).", "quantifier": "every binary format, power function within d, polynomial surface, degree, dimension, points and order of the operations", "why_tests_cant": "the tests compare predictions at a few points to six digits, where nothing cancels; a bound over all points, surfaces and orders needs an argument about rounding", "anchors": ["active_subspaces/utils/response_surfaces.py:PolynomialApproximation.predict", "active_subspaces/utils/response_surfaces.py:polynomial_bases", "active_subspaces/utils/response_surfaces.py:grad_polynomial_bases"]}
{"id": "C117", "title": "Radial basis surfaces in floating point (false: kernel matrices of distinct points are invertible)", "statement": "Let every operation of exponential_squared, grad_exponential_squared and RadialBasisApproximation.predict be rounded to nearest in a binary format with unit roundoff u and least number eta, sums in any orders (depth at most e in the exponent), and let np.exp return floats with relative error at most d at arguments that are not positive, or an underflow. With (1+u)^(e+4) = 1 + g < 2 each entry of the kernel for sigma = 1 is within q = exp(t) (g/(1-g) exp(-1) + t) + d + eta of exp(-sum (x_k-y_k)^2/ell_k), t an explicit multiple of eta that grows with the distance of the points, while the rest does not. For other sigma it is within |sigma| (q + u (1+q)) + eta. predict returns floats, each within (1+u)(E1+E2) + u |f| of the exact prediction f from the same weights, E1 the bound of the dot product with the kernel and its errors and E2 that of C116. The entries b K of grad_exponential_squared (K the kernel, b the derivative of its exponent times sigma, which five roundings put within delta = ((1+u)^5 - 1)|b| plus a multiple of eta) are within (1+u)((|b| + delta) q + delta K) + u |b| K + eta, and the gradient of predict is within the corresponding bound. Where np.exp underflows for every centre, predict returns exactly the floats of the polynomial part alone, although the exact prediction can differ. The computed kernel matrix of a set of points with itself is symmetric, has sigma on its diagonal and entries between 0 and sigma, provided the terms of each row are added in the same order, np.exp(0) = 1 and np.exp stays between 0 and 1 below 0. Rounding can make the kernel matrix of distinct points singular: for 0 and 2^-30 with length scale 1 in binary64 it is positive definite but computed as all ones (refuted).", "quantifier": "every binary format, exponential and power function within the contracts, points, length scales, weights and order of the operations", "why_tests_cant": "the tests compare predictions at a few points to six digits; how far the kernel can be off at any two points, and that this can make training singular, needs an argument about rounding", "anchors": ["active_subspaces/utils/response_surfaces.py:exponential_squared", "active_subspaces/utils/response_surfaces.py:grad_exponential_squared", "active_subspaces/utils/response_surfaces.py:RadialBasisApproximation.predict", "active_subspaces/utils/response_surfaces.py:polynomial_bases", "active_subspaces/utils/response_surfaces.py:grad_polynomial_bases"]}
