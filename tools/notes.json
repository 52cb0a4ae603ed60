{
 "C20": {
  "status": "proved",
  "note": "The code violates the documentation: C20_documented_repair_refuted gives the counterexample, C20_second_repair_raises and C20_one_class_is_repaired the exact behaviour."
 },
 "C21": {
  "status": "proved",
  "note": "The code violates the documentation (NameError at complexprojectivecoords.py:135); C21_repair_with_import shows the intended program is right."
 },
 "C24": {
  "status": "proved",
  "note": "The code violates the intended meaning: C24_coverage_is_zero gives the exact behaviour, C24_coverage_refuted a counterexample."
 },
 "C27": {
  "status": "proved",
  "note": "The code violates the documentation on the boundary."
 },
 "C74": {
  "status": "proved",
  "note": "The code violates the documentation: C74_radius_used gives the exact relation, C74_documented_alpha_refuted a counterexample."
 },
 "C40": {
  "status": "proved",
  "note": "refuted for three columns; true part (triangularity, one-step orthogonality, n<=2) proved"
 },
 "C42": {
  "status": "proved",
  "note": "documented promise refuted (Lovasz at n=3, size reduction at n=4, termination for every n>=5); true parts proved. Termination for n=4 is neither proved nor refuted."
 },
 "C35": {
  "status": "proved",
  "note": "documented promise refuted (C35_field_values_refuted: call overwrites the stored class by its integer lift); C35_stored_cocycles gives exact stored values after any call."
 },
 "C39": {
  "status": "proved",
  "note": "Full characterisation of both stored matrices for every call, plus a concrete call on which the documented meaning of _gram_matrix is false."
 },
 "C48": {
  "status": "proved",
  "note": "Shapes for every accepted argument (proj_dim>=0); failure of one-by-one for proj_dim=0 or proj_dim>=n_dim; unknown modes. Termination of the halving loop is part of the model's fuel never running out (result is Ok). Negative proj_dim is outside the statement."
 },
 "C49": {
  "status": "proved",
  "note": "Eigensolver arbitrary: square finite answer or failure (then the identity is used, as in the code)."
 },
 "C50": {
  "status": "proved",
  "note": "Eigensolver is any deterministic function of the Gram matrix; real numbers instead of floats."
 },
 "C51": {
  "status": "proved",
  "note": "Documented meaning refuted for modes direct/exponential (zeros) and for complex data (missing conjugate); proved for real eigenvectors in mode one-by-one."
 },
 "C75": {
  "status": "proved",
  "note": "Eigenvectors assumed unitary (LAPACK contract)."
 },
 "C76": {
  "status": "proved",
  "note": "Ky Fan maximum principle; eigenvectors and eigenvalues assumed correct and in increasing order (np.linalg.eigh contract)."
 },
 "C44": {
  "status": "proved",
  "note": "For every cocycle mod 2 (what ripser returns), every metric and covering choice; C44_constructor shows the constructor yields such objects. Real numbers instead of floats; eigensolver any function."
 },
 "C45": {
  "status": "proved",
  "note": "As C44 with p-th roots of unity. Note that complex_dim - 1 is handed to ppca, which returns complex_dim components (the docstring says complex_dim - 1)."
 },
 "C46": {
  "status": "proved",
  "note": "For all integer 2-cocycles; ripser, eigh, lsqr, argsort are parameters. best_integral uses that lsqr returns a least squares solution. n <= 2345 landmarks (int32 indices). NaN rows for uncovered points. Non-vacuity: octahedron; four points with a cocycle mod 3 that does not lift."
 },
 "C47": {
  "status": "proved",
  "note": "The code does not keep the documented promise on data of at most 10^6 bytes; both branches are characterised. That numba copies captured arrays of at most 10^6 bytes at compile time is an assumption about numba, see DESIGN.md."
 },
 "C58": {
  "status": "proved",
  "note": "All dimensions d >= 1, exact reals. Promise refuted for opposite vectors (C58_opposite_refuted). One-dimensional arguments; numpy broadcasting of length-1 vectors left out."
 },
 "C59": {
  "status": "proved",
  "note": "All d >= 1. C59_default_pole assumes the documented answer of np.linalg.eigh (orthogonal matrix of eigenvectors, increasing eigenvalues)."
 },
 "C60": {
  "status": "proved",
  "note": "In-place effect on the caller's array is the first component of the result. Float arrays with two entries."
 },
 "C61": {
  "status": "proved",
  "note": "Also onto."
 },
 "C62": {
  "status": "proved",
  "note": "All n >= 2."
 },
 "C63": {
  "status": "proved",
  "note": "Exact characterisation of the identifications; refuted on the core circle. np.angle is defined by acos (Classical_Prop.classic from the standard library's Ratan)."
 },
 "C64": {
  "status": "proved",
  "note": "Exact reals. Entries of get_csm are Euclidean distances, get_ssm is a metric; unequal dimensions raise ValueError."
 },
 "C65": {
  "status": "proved",
  "note": "Exact reals; uses Coq's acos, hence Classical_Prop.classic among the assumptions."
 },
 "C66": {
  "status": "proved",
  "note": "Exact reals. The cross-similarity argument is any function working row by row (proved of get_csm and get_csm_projarc); a csm_fn returning a single entry, which numpy would broadcast, is excluded. Also proved: the factor-2 optimality of the cover on pseudometrics."
 },
 "C67": {
  "status": "proved",
  "note": "KDTree.query and shortest_path are parameters whose contracts are hypotheses. The documented permutation holds exactly when n_landmarks points at pairwise non-zero geodesic distance exist; otherwise refuted (C67_permutation_refuted)."
 },
 "C68": {
  "status": "proved",
  "note": "Exact reals. Uses Coq's acos (classic) for the converse. Contract of the generator: numbers in [0,1)."
 },
 "C69": {
  "status": "proved",
  "note": "Exact reals; NaN rows characterised exactly."
 },
 "C70": {
  "status": "proved",
  "note": "Refuted as documented (dim is overwritten with 10, utils.py:877): C70_patch_size_refuted; true behaviour proved."
 },
 "C71": {
  "status": "proved",
  "note": "Symmetry refuted for every q >= 2 (C71_symmetric_refuted); zero diagonal, non-negativity and the exact meaning of the entries proved when no sample is the centre."
 },
 "C77": {
  "status": "proved",
  "note": "Exact reals; non-negative sizes; sigma = 0 not modelled."
 },
 "C78": {
  "status": "proved",
  "note": "Exact reals; uses acos, hence classic. A zero raw vector (NaN row) makes the model's whole result None."
 },
 "C79": {
  "status": "proved",
  "note": "Exact reals."
 },
 "C80": {
  "status": "proved",
  "note": "Exact reals."
 },
 "C81": {
  "status": "proved",
  "note": "Exact reals."
 },
 "C82": {
  "status": "proved",
  "note": "numpy's generator is a parameter with np.random.seed as a function of the seed only."
 },
 "C72": {
  "status": "proved",
  "note": "Drawing is modelled as the list of requests made to matplotlib. int(np.sqrt(.)) and np.ceil(np.sqrt(.)) are exact (floor/ceiling of the real square root); ticks are not modelled."
 },
 "C73": {
  "status": "proved",
  "note": "Limits are exact reals. The loss of an inverted axis' direction is proved as C73_inverted_refuted. matplotlib's own treatment of degenerate limits (all three lengths zero) is not modelled."
 },
 "C83": {
  "status": "proved",
  "note": "f is one-dimensional when it is mapped through the colour map. np.round is round-half-even on exact reals; the colour table itself and matplotlib's checks of the colour argument are not modelled."
 },
 "C84": {
  "status": "proved",
  "note": "Coordinates are exact reals; what matplotlib does with the requests (for example the downsampling of wireframes with more than 50 rows) is not modelled. The counts the docstring promises are refuted by C84_counts_refuted."
 },
 "C85": {
  "status": "proved",
  "note": "Exact reals. The pole v is the given centre unless it is within about 1e-15 of the line of the last axis (C58), as in C59 and C62."
 },
 "C86": {
  "status": "proved",
  "note": "documented promise refuted for five classes (C86_five_classes_refuted) and for dependent classes; true part for two and three independent classes proved. Four classes: neither proved nor refuted."
 },
 "C87": {
  "status": "proved",
  "note": "The half-open interval that the exact model gives (C38, C53) fails in double precision: C87_half_open_refuted."
 },
 "C88": {
  "status": "proved",
  "note": "C88_exp_refuted: with exponential bumps a covered point can be reported as uncovered."
 },
 "C89": {
  "status": "proved",
  "note": "C89_last_scale_refuted: at perc = 1 the coordinates may come from a cochain that is not a cocycle."
 },
 "C91": {
  "status": "proved",
  "note": "C91_below_death_refuted: with perc = 0.2 the computed threshold can exceed the death; C91_default proves it cannot with the default percentages."
 },
 "C92": {
  "status": "proved",
  "note": "Sums in any order, any inner product with the usual error bound; overflow is not modelled. C92_default discharges the conditions on the radius for the default arguments."
 },
 "C93": {
  "status": "proved",
  "note": "Sums and products in any order; overflow is not modelled."
 },
 "C94": {
  "status": "proved",
  "note": "Products in any order; np.arccos is any function accurate to 2^-52 on [0,1]."
 },
 "C95": {
  "status": "proved",
  "note": "Matrix products and eigh are parameters: products are assumed to be symmetric under signs (C95_signs, C95_projective) and to return doubles (C95_sphere), nothing else. Norms: sums in any order. Overflow is not modelled."
 },
 "C96": {
  "status": "proved",
  "note": "The powers of the root of unity are parameters with accuracy eps (hypothesis nearly_powers); the instance uses correctly rounded cosines and sines. No overflow."
 },
 "C97": {
  "status": "proved",
  "note": "The exponential on the imaginary axis is a parameter with accuracy eps and value 1 at 0; lsqr is a parameter (its accuracy is a hypothesis of the harmonic part only); the repair is not needed because the cocycle condition is a hypothesis when it is checked. No overflow."
 },
 "C98": {
  "status": "proved",
  "note": "External routines (sums, inner products, lsqr, eigh, Cholesky, milp) are deterministic functions of their arguments. No overflow."
 },
 "C99": {
  "status": "proved",
  "note": "eigh, lsqr and milp are deterministic functions of their arguments."
 },
 "C100": {
  "status": "proved",
  "note": "The claim about lens_3D_to_disk_3D is false for q = 17 (C100_lens_refuted, C100_lens_wrong) and proved for the listed primes; rotmat is not rounded here: the projections start from the rotated point."
 }
}