# property -> what is missing (makes the claim "partial")
partial = {
"C09": "false of the code: the mask D2 != 0 is indexed by sample number but applied to the sorted order, so the wrong sample is dropped (refuted with a witness) and p = M always raises (proved for every input); what holds for distinct samples is proved in C09_neighbours_partial",
"C15": "false of the code in one branch: np.amin < -1.0 compares a function object with a number, so inputs below -1 do not switch gamma to 1 (C15_gamma_refuted, f = x^2 at -2, 0, 1); everything else is proved",
"C18": "false after a compute that raises: eigenvecs is replaced while W1, W2 stay None or stale (C18_refuted, C18_stale_subspace_refuted); proved after every returning call of any history, and what a raising call does is proved",
"C32": "false for n = 1: two rows raise IndexError (C32_one_by_one_refuted); proved for every n >= 2 and all raising shapes",
}
partial["C52"] = "false for asymmetric Q: the gradient handed over is c + 2 Q^T x while the objective has gradient c + (Q + Q^T) x (C52_asymmetric_refuted); proved correct exactly when Q is symmetric, and the constraint Jacobian is proved correct"
partial["C22"] = "false of the code: hit_and_run_z leaves constraints met with slack <= sqrt(2^-52) out of the step bounds, so a step can leave the cube by far (C22_bounded_inverse_refuted: 3 inputs, y near the end of its range); proved: every returned point maps to y, rejection samples are always in the cube, hit-and-run starts in the cube and each step keeps every bound met with more than that slack"
partial["C27"] = "false of the code: the (m-n)-by-N walk array is reshaped instead of transposed (C27_random_walk_refuted); proved: the walk visits points of the polytope only, where their coordinates end up, and the claim for m-n = 1 or N = 1"
partial["C24"] = "false when a sign is zero: 0.0 and -0.0 differ as bytes, so unique_rows keeps the same vertex twice (C24_no_duplicates_refuted, W1 with a zero row); everything else, and uniqueness of rows without zero sign, is proved for every stream"
partial["C26"] = "proved for compute_boundary, whose vertex set is symmetric; in maximin_design the same sign slip makes the constraint describe the reflected hull (C26_maximin_constraint), so for asymmetric vertices the returned design can lie outside the polytope (C26_maximin_design_refuted, a triangle)"
partial["C34"] = "false beyond distance 1e5: the 1e5 added to the diagonal takes part in the minimum, so the value is -min(d, 1e10) (C34_objective_refuted); proved exactly as -min(d, 1e10), and the gradient is proved to be the derivative wherever the closest pair is unique and not exactly 1e5 apart"
partial["C35"] = "false when a solver run fails: the exception leaves the global stream seeded with 42 (C35_maximin_failure for every input, C35_state_after_exception_refuted); proved for every call that returns, and the outcome never depends on the prior state"
partial["C35"] = partial["C35"].replace("(C35_maximin_failure for every input, C35_state_after_exception_refuted)", "(C35_maximin_failure for every input, C35_state_after_exception_refuted, C35_optimizer_exception_refuted)")
partial["C47"] = "false when all ten values are 1e100 or more: the list that stands for no result has no x, so AttributeError (C47_large_values_refuted); everything else is proved for every solver"
partial["C49"] = "false of the code: the linear system lacks the minus sign, so the mirror image -z* of a stationary point z* is returned (C49_refuted); proved that it is exactly the mirror image, for every trained model and y"
partial["C50"] = "the box part is proved; the minimisation is false: the quadratic program is posed without the factor 1/2, so z minimises model(2 z) (C50_refuted); that is proved for every trained model and y"
partial["C62"] = "false for the sweep angle: the input is in degrees but the derivative with respect to radians is returned (C62_refuted); proved for the other nine columns, and for all ten once that column is multiplied by pi/180"
partial["C65"] = "false for the window of the bivariate plot: it is 1.1 times the range, so when all coordinates are positive (or all negative) extreme points fall outside (C65_refuted); proved that all points are inside exactly when the coordinates do not all have the same sign, and everything else"
partial["C66"] = "false for the file: the figure is saved after show, which closes it, so the file holds an empty figure (C66_refuted, with a window back end); everything else is proved"
# property -> remark on a proved claim
notes = {
"C38": "contract of numpy.linalg.lstsq is a hypothesis",
"C40": "contracts of numpy.linalg.solve and scipy fminbound are hypotheses; Gaussian kernel matrix proved positive semidefinite",
"C08": "contracts of numpy.argsort and numpy.linalg.lstsq are hypotheses",
"C01": "exact real arithmetic; inf/NaN modelled for the degenerate column",
"C02": "contracts of numpy.linalg.cholesky and solve are hypotheses",
"C10": "contracts of numpy.linalg.eigh and numpy.argsort are hypotheses, met by a reference solver built from a proof of the spectral theorem",
"C11": "contracts of eigh and argsort as hypotheses",
"C12": "contracts of eigh and argsort as hypotheses",
"C13": "contracts of eigh and argsort as hypotheses",
"C14": "contracts of eigh, argsort and lstsq as hypotheses; weights >= 0",
"C17": "finite metric and non-zero eigenvalue sum for ladle_partition; the undefined case is a separate theorem",
"C19": "contracts of eigh, argsort, norm(ord=2), det as hypotheses; V has as many rows as the data have columns",
"C53": "X and df, when both given, have the same number of columns",
"C55": "contracts of eigh, argsort and lstsq as hypotheses",
"C29": "contracts of numpy.linalg.eig (unit, independent eigenvectors of a symmetric matrix) and argsort as hypotheses; nodes coincide with the exact ones for N <= 10^24 (the 1e-12 cut cannot bite), for larger N within 1e-12",
"C30": "as C29, N <= 10^12",
"C31": "as C29, C30",
"C51": "the problem posed to each back end is proved equal to the documented one for every back end; optimality of the returned point assumes the back end keeps its promise (met by a Fourier-Motzkin reference solver for LPs)",
"C63": "matplotlib is a machine of open figures; what is drawn is recorded, pixels are not",
"C64": "as C63",
"C21": "for every regularize_z that returns inactive variables of the documented shape, in particular the unbounded map; bounded map: C22",
"C28": "contracts of linprog and Gurobi as hypotheses (met by the reference solver)",
"C04": "indices are naturals",
"C43": "bounded maps: contracts of linprog and Gurobi as hypotheses; weights: contracts of eig, argsort and Delaunay",
"C45": "contract of scipy.spatial.Delaunay as hypothesis (simplices are rows of the data, find_simplex is right)",
"C46": "contracts of eig and argsort as hypotheses; floor(N^(1/n)) <= 10^24",
"C48": "contracts of lstsq, solve, minimize, fminbound and Gurobi as hypotheses; the surface depends on the entries of its argument only",
"C67": "contracts of eigh, argsort, norm(ord=2), det, lstsq and solve as hypotheses",
"C68": "contracts of eigh, argsort, norm(ord=2), det and eig as hypotheses; N <= 10^24",
"C56": "a response surface of the user predicts one number per row",
}
na = {
}
