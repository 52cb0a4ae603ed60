{"id": "C01", "title": "Simplex numbering is a bijection", "statement": "For every vertex count n and dimension d covered by the lookup table, numbering the strictly increasing (d+1)-tuples of vertices below n with combinatorial_number_system_forward gives every integer in [0, number_of_simplices_of_dimension(d,n)) exactly once and never fails.", "quantifier": "all n, all d within the table, all simplices", "why_tests_cant": "unbounded families of simplices; the unit test checks five tuples", "anchors": ["dreimac/combinatorial.py:combinatorial_number_system_forward", "dreimac/combinatorial.py:number_of_simplices_of_dimension"]}
{"id": "C02", "title": "Simplex numbering is colexicographic and stable", "statement": "Simplex numbers do not depend on the size of the lookup table, and a simplex gets a smaller number than another exactly when it is smaller in colexicographic order (so simplices on the first m vertices are numbered before all others).", "quantifier": "all pairs of simplices, all table sizes", "why_tests_cant": "an order property over all pairs", "anchors": ["dreimac/combinatorial.py:combinatorial_number_system_forward"]}
{"id": "C03", "title": "Specialised numbering functions agree", "statement": "combinatorial_number_system_d1_forward and _d2_forward return what the generic forward function returns on every edge and triangle, and fail exactly when it fails.", "quantifier": "all vertex pairs/triples, all tables", "why_tests_cant": "all inputs", "anchors": ["dreimac/combinatorial.py:combinatorial_number_system_d1_forward", "dreimac/combinatorial.py:combinatorial_number_system_d2_forward"]}
{"id": "C04", "title": "Lookup table holds the binomials and does not overflow", "statement": "Every entry (i,l) of the lookup table is the binomial coefficient C(i,l); the entries fit int64 for up to 100000 vertices at the dimensions used; the flat triangle numbers fit the int32 row buffers up to 2345 vertices (and the bound is sharp).", "quantifier": "all table sizes and entries", "why_tests_cant": "unbounded sizes; overflow only at sizes too big to test", "anchors": ["dreimac/combinatorial.py:combinatorial_number_system_table", "dreimac/utils.py:CohomologyUtils.make_delta1"]}
{"id": "C05", "title": "parity is the sign of the permutation", "statement": "For every permutation of any length, CohomologyUtils.parity terminates and returns (-1)^(number of inversions).", "quantifier": "all permutations of all lengths", "why_tests_cant": "n! inputs for each n", "anchors": ["dreimac/utils.py:CohomologyUtils.parity"]}
{"id": "C06", "title": "order_simplex sorts and orients", "statement": "For every tuple of distinct vertices order_simplex returns the increasing rearrangement together with the orientation sign of the rearrangement.", "quantifier": "all tuples of distinct vertices", "why_tests_cant": "all lengths and orders", "anchors": ["dreimac/utils.py:CohomologyUtils.order_simplex"]}
{"id": "C07", "title": "Sparse cocycle to dense vector keeps oriented values", "statement": "The dense vector built from a sparse cocycle with distinct simplices has length C(n,d+1), holds at each simplex of the support the row value times the orientation sign, and 0 at every other simplex.", "quantifier": "all sparse cocycles on n vertices", "why_tests_cant": "all supports and orientations", "anchors": ["dreimac/utils.py:CohomologyUtils.sparse_cocycle_to_vector"]}
{"id": "C08", "title": "Integer lift of field values", "statement": "lift_to_integer_cocycle replaces every field value 0..p-1 by the unique congruent integer in the symmetric range of size p (least absolute value), keeps simplices and support, and applying it again changes nothing.", "quantifier": "all integers p>=2 (so all primes), all cocycles", "why_tests_cant": "all p and all values; idempotence on every history", "anchors": ["dreimac/utils.py:CohomologyUtils.lift_to_integer_cocycle"]}
{"id": "C09", "title": "Reindexing inverts the landmark labelling", "statement": "If cocycle vertices are data indices of landmarks, reindexing replaces each vertex idx_land[k] by k for every cocycle in every dimension and leaves the values alone; the map is exactly inverse to the landmark labelling.", "quantifier": "all landmark lists without repetition, all cocycles", "why_tests_cant": "all inputs", "anchors": ["dreimac/utils.py:CohomologyUtils.reindex_cocycles"]}
{"id": "C10", "title": "make_delta0 is the coboundary on the Rips graph and is memory safe", "statement": "For every distance matrix and threshold, building delta0 never writes outside its buffers or names an index outside its shape, and delta0 @ f has f_i - f_j at every edge with distance below the threshold and 0 at all other edges.", "quantifier": "all n up to 65536 (larger n overflow the 32 bit index buffers), distance matrices, thresholds, vectors f over any commutative ring", "why_tests_cant": "jitted code has no bounds checks; all inputs", "anchors": ["dreimac/utils.py:CohomologyUtils.make_delta0"]}
{"id": "C11", "title": "make_delta1 is the coboundary on the Rips 2-skeleton and is memory safe", "statement": "As C10 for triangles: (delta1 @ g) is g_ij + g_jk - g_ik at triangles of the Rips complex and 0 at other triangles; no out-of-buffer write.", "quantifier": "all n up to 2345 (larger n overflow the 32 bit index buffers, C04), distance matrices, thresholds, vectors over any commutative ring", "why_tests_cant": "all inputs", "anchors": ["dreimac/utils.py:CohomologyUtils.make_delta1"]}
{"id": "C12", "title": "make_delta1_compact has one row per present triangle", "statement": "make_delta1_compact has exactly one row per triangle of the Rips complex (in lexicographic order), each row is the coboundary functional of this triangle, and it is memory safe; delta1_compact @ c = 0 exactly when c is a 1-cocycle of the Rips complex.", "quantifier": "all n up to 2345 (larger n overflow the 32 bit index buffers, C04), distance matrices, thresholds, vectors over any commutative ring", "why_tests_cant": "all inputs", "anchors": ["dreimac/utils.py:CohomologyUtils.make_delta1_compact"]}
{"id": "C13", "title": "make_delta2_compact has one row per present tetrahedron", "statement": "As C12 for 3-simplices: memory safe, one row per tetrahedron, delta2_compact @ c = 0 exactly when c is a 2-cocycle of the Rips complex.", "quantifier": "all n up to 2345 and complexes with at most 2^31 tetrahedra (32 bit index buffers), distance matrices, thresholds, vectors over any commutative ring", "why_tests_cant": "all inputs", "anchors": ["dreimac/utils.py:CohomologyUtils.make_delta2_compact"]}
{"id": "C14", "title": "Coboundary of coboundary is zero", "statement": "delta1 (and its compact form) applied to delta0 @ f is zero for every f, and delta2_compact applied to delta1 @ g is zero for every g, over any distance matrix and threshold.", "quantifier": "all inputs within the sizes of C10-C13", "why_tests_cant": "algebraic law over all inputs", "anchors": ["dreimac/utils.py:CohomologyUtils"]}
{"id": "C15", "title": "The 1-cocycle test decides the cocycle condition", "statement": "_is_one_cocycle answers True exactly when c_ij + c_jk - c_ik = 0 for all i<j<k whose three distances are below the threshold, never reads out of bounds, and agrees with delta1_compact @ c = 0. Its second result is infinite when it answers True, and otherwise the length of the shortest side of a triangle on which the condition fails.", "quantifier": "all n (for the agreement with the matrix: sizes as in C12, C13), distance matrices, thresholds, integer cochains", "why_tests_cant": "all inputs", "anchors": ["dreimac/toroidalcoords.py:_is_one_cocycle"]}
{"id": "C16", "title": "The 2-cocycle test decides the cocycle condition", "statement": "_is_two_cocycle answers True exactly when the alternating sum vanishes on all tetrahedra of the Rips complex, never reads out of bounds, and agrees with delta2_compact @ c = 0.", "quantifier": "all n (for the agreement with the matrix: sizes as in C12, C13), distance matrices, thresholds, integer cochains", "why_tests_cant": "all inputs", "anchors": ["dreimac/complexprojectivecoords.py:_is_two_cocycle"]}
{"id": "C17", "title": "Inner product matrix", "statement": "_make_inner_product never writes out of bounds and yields the 0/1 diagonal matrix selecting the Rips edges; the second returned matrix squares to the first.", "quantifier": "all n up to 2^32, distance matrices, thresholds", "why_tests_cant": "all inputs", "anchors": ["dreimac/toroidalcoords.py:_make_inner_product"]}
{"id": "C18", "title": "Integer repair yields a cocycle with the same reduction mod p", "statement": "When the lifted cochain is not an integer cocycle but is one mod p, and the integer program reports success with an (approximately) feasible point, the repaired vector is an integer 1-cocycle on the Rips complex and is congruent to the original mod p; if the program reports failure, get_coordinates raises. So for one class: if its integer lift is already a cocycle it is used unchanged; if the class has no integral lift at the scale used, the call with check_cocycle_condition raises; if it has one and the solver finds existing solutions, the call returns.", "quantifier": "all cochains, primes, thresholds, solver answers within tolerance", "why_tests_cant": "all solver answers; solver behaviour cannot be enumerated", "anchors": ["dreimac/toroidalcoords.py:ToroidalCoords.get_coordinates"]}
{"id": "C19", "title": "Rounding of the solver answer is exact within tolerance", "statement": "If every solver entry is within e of an integer, the equations hold within t and 3e+t<1 (4e+t<1 for triangles), the rounded vector satisfies the equations exactly.", "quantifier": "all solver answers and tolerances", "why_tests_cant": "real-valued continuum of answers", "anchors": ["dreimac/toroidalcoords.py:ToroidalCoords.get_coordinates", "dreimac/complexprojectivecoords.py:ComplexProjectiveCoords.get_coordinates"]}
{"id": "C20", "title": "Several classes that need repair", "statement": "Documented: get_coordinates with check_cocycle_condition=True checks every selected class and fixes it if necessary. True behaviour: with at most one class in need of repair it is repaired (integer cocycle, same reduction mod p) and the others are kept; with two or more classes in need of repair the call always raises (ValueError from the truth value of a sparse array), although every class could be repaired, so the documented promise is false.", "quantifier": "all lists of selected classes with at least two needing repair", "why_tests_cant": "needs data where two lifts fail at once; no test has one", "anchors": ["dreimac/toroidalcoords.py:ToroidalCoords.get_coordinates"]}
{"id": "C21", "title": "Complex projective repair", "statement": "Documented: get_coordinates with check_cocycle_condition=True fixes a lifted 2-cochain that fails the cocycle condition. True behaviour: a 2-cocycle is kept; any other vector ends in NameError (the module never binds the name scipy), so the documented promise is false; with the name bound the repair yields an integer 2-cocycle with the same reduction mod p or reports that there is no integral lift.", "quantifier": "all cochains failing the condition", "why_tests_cant": "no test reaches the branch", "anchors": ["dreimac/complexprojectivecoords.py:ComplexProjectiveCoords.get_coordinates"]}
{"id": "C22", "title": "Constructor sorts classes by persistence and keeps cocycles matched", "statement": "After construction, in every dimension 1..maxdim the diagram rows are a permutation of the computed ones in order of non-increasing persistence, the i-th cocycle is the (reindexed) cocycle computed for the i-th row, and dimension 0 is left as computed.", "quantifier": "all ripser answers, any tie-breaking of argsort", "why_tests_cant": "unstable sort, ties, all diagrams", "anchors": ["dreimac/emcoords.py:EMCoords.__init__"]}
{"id": "C23", "title": "Landmark distances", "statement": "For point clouds, square and rectangular distance matrices the stored landmark-to-data matrix has one row per landmark, the landmark-to-landmark matrix is its restriction to landmark columns, and constructors reject maxdim<1.", "quantifier": "all inputs and ripser answers meeting its contract", "why_tests_cant": "all inputs", "anchors": ["dreimac/emcoords.py:EMCoords.__init__"]}
{"id": "C24", "title": "Coverage attribute", "statement": "Intended (and used in theory.rst): the stored _coverage is the covering radius of the landmarks, the greatest distance from a data point to its nearest landmark. True behaviour: for every data set whose distances are non-negative and vanish from a landmark to itself the stored value is 0 (the minimum is taken along the wrong axis), so it differs from the covering radius as soon as a data point is not a landmark.", "quantifier": "all data sets", "why_tests_cant": "tests never read it", "anchors": ["dreimac/emcoords.py:EMCoords.__init__"]}
{"id": "C25", "title": "Selecting a class", "statement": "get_representative_cocycle(k,d) returns birth, death and cocycle of the k-th most persistent class for 0<=k<number of classes, counts from the end for negative k, raises IndexError outside and AssertionError for non-int indices, and changes nothing.", "quantifier": "all indices, all diagrams", "why_tests_cant": "all indices including boundary", "anchors": ["dreimac/emcoords.py:EMCoords.get_representative_cocycle"]}
{"id": "C26", "title": "Cover radius lies in the requested range", "statement": "For 0<=perc<=1 get_cover_radius returns a threshold between start and end ((1-perc)start+perc end) and half of it as radius, monotone in perc; it raises exactly when start>end (start doubled iff standard_range), and when it raises the object is unchanged.", "quantifier": "all perc, births, deaths", "why_tests_cant": "continuum of inputs", "anchors": ["dreimac/emcoords.py:EMCoords.get_cover_radius"]}
{"id": "C27", "title": "Documented rejection at 2*birth = death", "statement": "Documented: with standard_range an error is raised whenever 2a >= b (a birth, b death). True behaviour: an error is raised exactly when 2a > b; at 2a = b every perc is accepted and gives threshold b, so the documented promise is false on the boundary.", "quantifier": "all classes with 2a=b", "why_tests_cant": "measure-zero boundary", "anchors": ["dreimac/emcoords.py:EMCoords.get_cover_radius", "docs/notebooks/parameter_standard_range.ipynb"]}
{"id": "C28", "title": "Partition of unity", "statement": "For every bump function positive on [0,r), get_covering_partition yields for each covered data point non-negative weights summing to 1, positive exactly on the landmarks closer than r; weights of an uncovered point are all NaN; the ball index of a covered point is the least landmark index closer than r.", "quantifier": "all distance matrices, radii, bump functions", "why_tests_cant": "continuum of inputs", "anchors": ["dreimac/emcoords.py:EMCoords.get_covering_partition"]}
{"id": "C29", "title": "Bump functions are admissible", "statement": "PartUnity.linear, quadratic and exp are positive for 0<=d<r and strictly decreasing in d; linear and quadratic vanish at d=r.", "quantifier": "all r>0 and distances", "why_tests_cant": "continuum of inputs", "anchors": ["dreimac/utils.py:PartUnity"]}
{"id": "C30", "title": "Upper-triangular integration is enough", "statement": "In circular/toroidal coordinates the matrix of harmonic values is only filled above the diagonal, yet every returned coordinate equals the one computed with the full antisymmetric matrix, because the chosen landmark is the first one covering the point.", "quantifier": "all data, thresholds, harmonic values", "why_tests_cant": "silent index-order coupling between two functions", "anchors": ["dreimac/toroidalcoords.py:_sparse_integrate", "dreimac/emcoords.py:EMCoords.get_covering_partition"]}
{"id": "C31", "title": "Circular coordinates do not depend on the chosen landmark", "statement": "For every covered data point b and every landmark j within the cover radius of b (not only the first), the returned coordinate equals 2*pi*(integral_j + sum_t theta_jt phi_t(b)) mod 2*pi.", "quantifier": "all metric data, cocycles, solver answers", "why_tests_cant": "all data, all choices", "anchors": ["dreimac/toroidalcoords.py:_sparse_integrate", "dreimac/toroidalcoords.py:ToroidalCoords.get_coordinates"]}
{"id": "C32", "title": "Guarantee: coordinates represent the selected class", "statement": "The returned circle-valued map has real lifts on the cover balls whose differences on overlaps are exactly the integer cocycle used, which is congruent mod p to the selected persistent cocycle (the documented guarantee).", "quantifier": "all metric data, selected classes, solver answers", "why_tests_cant": "homotopy-level statement about every input", "anchors": ["dreimac/toroidalcoords.py:ToroidalCoords.get_coordinates", "docs/theory.rst"]}
{"id": "C33", "title": "Range and NaN pattern of circular coordinates", "statement": "Each coordinate is in [0,2*pi) for covered points and NaN exactly for uncovered points.", "quantifier": "all inputs", "why_tests_cant": "all inputs", "anchors": ["dreimac/toroidalcoords.py:_sparse_integrate"]}
{"id": "C34", "title": "Repeated calls are independent of history", "statement": "Any sequence of get_coordinates calls on one object returns, for given arguments, what a fresh object returns, although the lift overwrites stored cocycles in place.", "quantifier": "all histories of calls", "why_tests_cant": "all call histories", "anchors": ["dreimac/toroidalcoords.py:ToroidalCoords.get_coordinates", "dreimac/utils.py:CohomologyUtils.lift_to_integer_cocycle"]}
{"id": "C35", "title": "Representative cocycles stay field valued", "statement": "get_representative_cocycle is documented to return a cocycle with values in the finite field (0..p-1). True behaviour: this holds until a call of ToroidalCoords.get_coordinates selects the class; from then on the stored (and returned) values of that class are the centred integer lift, which may be negative; the other classes are untouched and a second call sees the same values (lifting twice = lifting once).", "quantifier": "all histories of calls", "why_tests_cant": "only visible after another call", "anchors": ["dreimac/emcoords.py:EMCoords.get_representative_cocycle"]}
{"id": "C36", "title": "Disjoint supports are rejected", "statement": "Toroidal get_coordinates raises when the largest birth is at least the smallest death of the selected classes, otherwise the common threshold lies in every selected class's interval for 0<perc<1 (standard_range off) and above twice each birth when on. The stored matrices (original Gram matrix, Gram matrix, change of basis) are those of the last call that returned with several classes: a call that raises or selects one class keeps them.", "quantifier": "all selections", "why_tests_cant": "continuum of inputs", "anchors": ["dreimac/toroidalcoords.py:ToroidalCoords.get_coordinates"]}
{"id": "C37", "title": "Lattice reduction is a unimodular change of basis", "statement": "At every step of _lll the current basis is the input basis times the change matrix, and the change matrix is an integer matrix with integer inverse, whatever the rounding decisions; so it spans the same lattice.", "quantifier": "all matrices, all numbers of steps", "why_tests_cant": "invariant over all executions", "anchors": ["dreimac/toroidalcoords.py:_lll"]}
{"id": "C38", "title": "Reduced coordinates are an invertible integer recombination", "statement": "The coordinates returned for several classes are the integer combinations given by _change_basis of the individual coordinates mod 2*pi, and the individual ones are recovered from them by the inverse integer matrix.", "quantifier": "all inputs", "why_tests_cant": "all inputs", "anchors": ["dreimac/toroidalcoords.py:_reduce_circular_coordinates", "dreimac/utils.py:CircleMapUtils.linear_combination"]}
{"id": "C39", "title": "Stored Gram matrix of the new basis", "statement": "The comments promise that after a call with several classes _original_gram_matrix and _gram_matrix are the Gram matrices (inner products over the edges of the Rips complex) of the harmonic representatives before and after the change of basis. True behaviour: _original_gram_matrix is exactly that; the representatives of the returned coordinates have Gram matrix B B^T for the reduced basis B (rows), but _gram_matrix stores B^T B: same trace, in general neither the same off-diagonal entries nor the same norms (a theta graph with two loops stores [[5,-sqrt 3],[-sqrt 3,3]] where the Gram matrix is [[4,-2],[-2,4]]).", "quantifier": "all inputs", "why_tests_cant": "tests compare only norms, which agree", "anchors": ["dreimac/toroidalcoords.py:ToroidalCoords.get_coordinates"]}
{"id": "C40", "title": "Gram-Schmidt orthogonalises", "statement": "_gram_schmidt should return pairwise orthogonal columns with the same span. It does for one and two columns, and for any number the result is unit-triangular over the input (same span) with each column orthogonal to the previous input column; but because line 393 projects onto the input columns instead of the orthogonalised ones, the result is not orthogonal for three columns.", "quantifier": "all bases", "why_tests_cant": "tests cover at most norms of results", "anchors": ["dreimac/toroidalcoords.py:_gram_schmidt"]}
{"id": "C41", "title": "Lattice reduction for two classes", "statement": "For two linearly independent vectors _lll terminates and returns a size-reduced basis satisfying the Lovasz condition; total energy and the absolute off-diagonal inner product do not increase.", "quantifier": "all pairs of vectors", "why_tests_cant": "termination and optimality for all inputs", "anchors": ["dreimac/toroidalcoords.py:_lll"]}
{"id": "C42", "title": "Lattice reduction for three or more classes", "statement": "_lll should terminate and return an LLL-reduced basis for any number of independent vectors. For three it terminates with a size-reduced basis, and for any number, on exit, the coefficients on the first two orthogonalised vectors are at most 1/2 and the first Lovasz condition holds. But for three vectors the returned basis may violate the Lovasz condition, for four it may fail to be size-reduced, and for every number from five on there are independent vectors for which the loop never ends (all witnesses are rows of a Cholesky factor).", "quantifier": "all bases of size >= 3", "why_tests_cant": "needs rare inputs", "anchors": ["dreimac/toroidalcoords.py:_lll"]}
{"id": "C43", "title": "CircularCoords is ToroidalCoords with one class", "statement": "CircularCoords.get_coordinates(idx) is the single row of ToroidalCoords.get_coordinates([idx]) with the same effects and errors.", "quantifier": "all inputs", "why_tests_cant": "all inputs", "anchors": ["dreimac/circularcoords.py:CircularCoords.get_coordinates"]}
{"id": "C44", "title": "Real projective class map", "statement": "For every covered point the class map row is a unit vector, and choosing any other covering landmark multiplies the row by +1 or -1; so the point of RP^n is well defined.", "quantifier": "all metric data and Z/2 cocycles", "why_tests_cant": "all data and choices", "anchors": ["dreimac/projectivecoords.py:ProjectiveCoords.get_coordinates"]}
{"id": "C45", "title": "Lens class map", "statement": "For every covered point the class map row is a unit vector, and choosing any other covering landmark multiplies it by a p-th root of unity.", "quantifier": "all metric data and Z/p cocycles", "why_tests_cant": "all data and choices", "anchors": ["dreimac/lenscoords.py:LensCoords.get_coordinates"]}
{"id": "C46", "title": "Complex projective class map", "statement": "get_coordinates of ComplexProjectiveCoords answers PPCA of the class map of the integer lift of the class. For every covered point the class map row is a unit vector (NaN for a point in no ball), and choosing any other covering landmark multiplies the rows of the class map and of the answer by unit complex numbers; the stored cocycle is replaced by its lift. A class that is too short is refused; a class whose lift is not a cocycle ends in NameError (instead of the documented repair) when the check is on.", "quantifier": "all metric data with a Z/p 2-class, all percentages, bump functions, eigh and lsqr answers, all choices of covering landmarks", "why_tests_cant": "all data and choices", "anchors": ["dreimac/complexprojectivecoords.py:_sparse_integrate"]}
{"id": "C47", "title": "Complex projective class map depends on the class", "statement": "Documented: the class map is built from the integrated phases. True: this holds if the array of weights has more than 10^6 bytes; for smaller data numba compiles the still zero array into the function as a constant, all phases are lost, and the answer does not depend on the class (a zero class gives the same answer).", "quantifier": "all data sizes", "why_tests_cant": "depends on array size: numba freezes captured arrays up to 1 MB, the tests use larger ones", "anchors": ["dreimac/complexprojectivecoords.py:_sparse_integrate"]}
{"id": "C48", "title": "PPCA output shape", "statement": "ppca returns min(proj_dim+1, n_dim) columns per point in modes direct and exponential, proj_dim+1 in mode one-by-one for 1<=proj_dim<n_dim (and fails otherwise); unknown modes are rejected; the halving loop terminates.", "quantifier": "all sizes, all modes", "why_tests_cant": "all sizes", "anchors": ["dreimac/utils.py:EquivariantPCA.ppca"]}
{"id": "C49", "title": "PPCA output is on the sphere", "statement": "Every output row of ppca whose projection is non-zero at each stage has unit norm.", "quantifier": "all inputs, any eigensolver answer", "why_tests_cant": "all inputs", "anchors": ["dreimac/utils.py:EquivariantPCA.ppca"]}
{"id": "C50", "title": "PPCA is equivariant", "statement": "Multiplying each point of the class map by its own unit scalar multiplies the corresponding output row by the same scalar (in every mode), so projective/lens coordinates do not depend on representatives.", "quantifier": "all inputs and unit scalars, any deterministic eigensolver", "why_tests_cant": "all inputs", "anchors": ["dreimac/utils.py:EquivariantPCA.ppca"]}
{"id": "C51", "title": "PPCA variance", "statement": "Documented: the returned variance array holds the variance captured by each dimension. True behaviour: in modes direct and exponential the array is all zeros; in mode one-by-one the entry for the dimension dropped at a stage is the mean of the squared angles between the points and the hyperplane orthogonal to the complex conjugate of the dropped eigenvector, which is the documented number for real eigenvectors and not for complex ones.", "quantifier": "all inputs in every mode", "why_tests_cant": "the tests compare norms of an all-zero array", "anchors": ["dreimac/utils.py:EquivariantPCA.ppca"]}
{"id": "C52", "title": "Dependence on the cohomology class only", "statement": "If lsqr returns least-squares solutions, the harmonic representative is orthogonal to all coboundaries, has least energy in its class, and cohomologous integer cocycles give the same harmonic representative and coordinates equal up to a rotation constant on connected components.", "quantifier": "all data, all cohomologous cocycles", "why_tests_cant": "all inputs", "anchors": ["dreimac/toroidalcoords.py:_integrate_harmonic_representative"]}
{"id": "C53", "title": "Rotation offset", "statement": "CircleMapUtils.offset returns values in [0,2*pi) congruent to the input plus the offset; offsets compose additively and integer offsets act trivially on circle values.", "quantifier": "all values and offsets", "why_tests_cant": "continuum", "anchors": ["dreimac/utils.py:CircleMapUtils.offset"]}
{"id": "C54", "title": "Centering", "statement": "CircleMapUtils.center rotates all points by one common angle, returns values in [0,2*pi) and sends the left end of the fullest of the 50 bins to pi.", "quantifier": "all non-empty data", "why_tests_cant": "continuum", "anchors": ["dreimac/utils.py:CircleMapUtils.center"]}
{"id": "C55", "title": "Integer linear combinations act on the circle", "statement": "linear_combination with integer matrices returns values in [0,2*pi), does not depend on the representatives mod 2*pi, is functorial (M after N = M N, identity acts trivially) and rejects mismatched shapes.", "quantifier": "all integer matrices and maps", "why_tests_cant": "continuum", "anchors": ["dreimac/utils.py:CircleMapUtils.linear_combination"]}
{"id": "C56", "title": "Sinebow colours", "statement": "to_sinebow yields three channels in [0,1] with sum 3/2, equal for angles congruent mod 2*pi and different for different points of the circle.", "quantifier": "all angles", "why_tests_cant": "continuum", "anchors": ["dreimac/utils.py:CircleMapUtils.to_sinebow"]}
{"id": "C57", "title": "Level set colouring", "statement": "levelset_coloring rejects n_levelsets<1; with smoothing 0 it returns 0/1 alternating over 2n equal arcs; otherwise values strictly between 0 and 1, periodic mod 2*pi and continuous across arcs.", "quantifier": "all angles, level counts, smoothings", "why_tests_cant": "continuum", "anchors": ["dreimac/utils.py:CircleMapUtils.levelset_coloring"]}
{"id": "C58", "title": "Rotation matrix", "statement": "rotmat(a,b) (b absent: the last axis) returns, when a is at distance at least 1e-15 from the line of b after normalising, the orthogonal matrix that sends a/|a| to b/|b|, rotates their plane and fixes its orthogonal complement. The documented promise 'a coincides with b' fails for opposite vectors: within 1e-15 of the line of b the identity is returned, so rotmat(-b,b) leaves -b in place. A zero vector gives NaNs, different lengths ValueError.", "quantifier": "all pairs of non-zero vectors in all dimensions", "why_tests_cant": "continuum; degenerate directions", "anchors": ["dreimac/utils.py:ProjectiveMapUtils.rotmat"]}
{"id": "C59", "title": "Projective stereographic projection", "statement": "get_stereo_proj_codim1(pX,u) sends unit vectors into the closed unit ball of R^(d-1), with squared norm (1-|h|)/(1+|h|), h the component along the pole; x and -x have the same image off the equator and antipodal boundary images on it; two points have the same image only if they are equal or opposite. The default pole is a unit vector minimising the sum of squared components of the points. A zero pole gives NaNs, a pole of the wrong length ValueError.", "quantifier": "all unit vectors and poles", "why_tests_cant": "continuum", "anchors": ["dreimac/utils.py:ProjectiveMapUtils.get_stereo_proj_codim1"]}
{"id": "C60", "title": "North pole from circle point", "statement": "circle_to_3dnorthpole returns the point of the closed disk nearest to x (x itself if it is in the disk) and the unit vector of the closed upper hemisphere above it; when x is outside the disk the caller's array is overwritten with the clipped point.", "quantifier": "all planar points", "why_tests_cant": "continuum", "anchors": ["dreimac/utils.py:ProjectiveMapUtils.circle_to_3dnorthpole"]}
{"id": "C61", "title": "Hopf map", "statement": "hopf_map sends the unit sphere of C^2 onto the unit sphere of R^3, two unit vectors have the same image exactly when they differ by a unit scalar; fewer than two coordinates raise IndexError and further ones are ignored.", "quantifier": "all unit vectors of C^2", "why_tests_cant": "continuum", "anchors": ["dreimac/utils.py:ProjectiveMapUtils.hopf_map"]}
{"id": "C62", "title": "Two-disk projection of the sphere", "statement": "stereographic_projection_hemispheres maps the open lower hemisphere (with respect to the centre) into the open unit disk at the origin and the closed upper hemisphere into the closed unit disk centred at 2.5 e1, injectively on the whole sphere. A zero centre silently sends every point to the origin; a centre of the wrong length raises ValueError, fewer than two coordinates IndexError.", "quantifier": "all unit vectors, all dimensions", "why_tests_cant": "continuum", "anchors": ["dreimac/utils.py:ProjectiveMapUtils.stereographic_projection_hemispheres"]}
{"id": "C63", "title": "Lens space to disk", "statement": "lens_3D_to_disk_3D maps the unit sphere of C^2 into the unit ball of R^3; two points whose first coordinate is not zero have the same image exactly when they differ by a q-th root of unity. The documented reading as points of the lens space fails on the circle of points with first coordinate zero: there no two distinct points are identified, so for q >= 2 a point and some q-th root of unity multiple of it have different images.", "quantifier": "all unit vectors with all q>=1", "why_tests_cant": "continuum; degenerate first coordinate", "anchors": ["dreimac/utils.py:LensMapUtils.lens_3D_to_disk_3D"]}
{"id": "C64", "title": "Euclidean cross-similarity", "statement": "get_csm(X,Y) is the Euclidean distance matrix in exact arithmetic (the clipping never acts) and get_ssm is a metric.", "quantifier": "all point clouds", "why_tests_cant": "continuum", "anchors": ["dreimac/utils.py:GeometryUtils.get_csm", "dreimac/utils.py:GeometryUtils.get_ssm"]}
{"id": "C65", "title": "Projective arc distances", "statement": "get_csm_projarc is in [0,pi/2], symmetric, zero exactly on equal or antipodal unit vectors, invariant under sign changes and satisfies the triangle inequality on unit vectors.", "quantifier": "all point clouds; unit vectors for the metric laws", "why_tests_cant": "continuum", "anchors": ["dreimac/utils.py:GeometryUtils.get_csm_projarc"]}
{"id": "C66", "title": "Greedy permutation", "statement": "get_greedy_perm_pc/_dm start at point 0, each next landmark is the first point farthest from the earlier ones, lambdas (from the second on) are these distances and do not increase, all points are within the last lambda of the earlier landmarks, landmarks are pairwise at least the last lambda apart, points at pairwise positive distances give distinct landmarks, on a pseudometric the last lambda is at most twice the covering radius of any M-1 centres, and returned rows are the landmark rows. M=0 gives three empty arrays for _dm and IndexError for _pc; M<0 raises ValueError.", "quantifier": "all distance matrices and M", "why_tests_cant": "all inputs", "anchors": ["dreimac/utils.py:GeometryUtils.get_greedy_perm_pc", "dreimac/utils.py:GeometryUtils.get_greedy_perm_dm"]}
{"id": "C67", "title": "Geodesic landmarks permutation", "statement": "landmark_geodesic_distance is documented to return a permutation of 0..n-1 whose first n_landmarks entries are the landmarks, and the distances from the landmarks with columns permuted accordingly. True behaviour: the first n_landmarks entries are the furthest point samples (from point 0) for shortest walk lengths in the undirected nearest neighbour graph, entry (i,j) of the matrix is that distance from perm[i] to perm[j], every point occurs in perm, and perm is a permutation exactly when n_landmarks points at pairwise non-zero distance exist (two copies of one point and two landmarks give [0,0,1]). Arguments out of range raise AssertionError, ValueError or IndexError.", "quantifier": "all point clouds", "why_tests_cant": "duplicate points, all inputs", "anchors": ["dreimac/utils.py:GeometryUtils.landmark_geodesic_distance"]}
{"id": "C68", "title": "Torus and Klein bottle samples", "statement": "torus_3d samples satisfy the polynomial equation of the torus of radii R, r (for |r| <= R the usual (sqrt(x^2+y^2)-R)^2+z^2=r^2) and klein_bottle_4d samples the equations of the Klein bottle in R^4 whose fibre turns by half the angle, for all random draws; conversely every point of either surface can be drawn.", "quantifier": "all radii and random draws", "why_tests_cant": "random sampling", "anchors": ["dreimac/utils.py:GeometryExamples.torus_3d", "dreimac/utils.py:GeometryExamples.klein_bottle_4d"]}
{"id": "C69", "title": "Sphere and noisy circle samples", "statement": "Each sphere sample is the unit vector in the direction of the drawn point of the cube and every unit vector can be drawn; each noisy_circle sample is within noise_size/sqrt 2 of the unit circle, so within noise_size of radius 1, for all random draws; rows are NaN exactly when all numbers drawn for them are 1/2.", "quantifier": "all random draws", "why_tests_cant": "random sampling", "anchors": ["dreimac/utils.py:GeometryExamples.sphere", "dreimac/utils.py:GeometryExamples.noisy_circle"]}
{"id": "C70", "title": "moving_dot patch size", "statement": "moving_dot(k, dim=d) is documented to return a k^2 by d^2 array. True behaviour: d is ignored, the array is k^2 by 100 for every d (so the promise fails for every d other than 10), row a*k+b being a Gaussian bump of width sigma around (x_a, -x_b) on the 10x10 grid with values in (0,1].", "quantifier": "all k and d", "why_tests_cant": "test uses the default d only", "anchors": ["dreimac/utils.py:GeometryExamples.moving_dot"]}
{"id": "C71", "title": "Moore space distances", "statement": "moore_space_distance_matrix is documented to return a distance matrix. True behaviour, when no sampled point is the centre: it returns the pair (matrix, points in the unit disk); entry (i,j) is the least length of a straight segment from x_i to x_j or of a path from x_i radially to the boundary and from one of the identified boundary points straight to x_j; it has zero diagonal and lies between 0 and the Euclidean distance; but it is not symmetric: for every prime there are draws with entry (0,1) < entry (1,0). prime=0 raises ZeroDivisionError.", "quantifier": "all samples and primes", "why_tests_cant": "random sampling", "anchors": ["dreimac/utils.py:GeometryExamples.moore_space_distance_matrix"]}
{"id": "C72", "title": "Patch grid", "statement": "PlotUtils.imscatter draws each patch i, as the dim x dim picture whose rows follow one another in P[i], at X[i], in order and with one grey scale from the smallest to the largest entry of P; if there are fewer positions than patches it draws those it has and then raises IndexError. PlotUtils.plot_patches puts N >= 1 patches of d*d pixels, patch k at (k mod g, k div g), on the smallest square grid (side g) with room for N, so that no two share a cell. With no patches, empty patches, or a number of pixels that is not a perfect square it raises ValueError and draws nothing.", "quantifier": "all numbers of patches, patch sizes, pixel values and positions", "why_tests_cant": "The layout must be right for every N and every patch size; tests try a few.", "anchors": ["dreimac/plotting_utils.py:PlotUtils.imscatter", "dreimac/plotting_utils.py:PlotUtils.plot_patches"]}
{"id": "C73", "title": "Equal axes", "statement": "PlotUtils.set_axes_equal gives the three axes intervals of equal length, namely the largest of the three previous lengths, keeps every midpoint, and shows at least what was shown before; it is idempotent and leaves increasing axes of equal length alone. An inverted axis is not kept inverted: the new limits always increase.", "quantifier": "all axis limits", "why_tests_cant": "The limits range over a continuum.", "anchors": ["dreimac/plotting_utils.py:PlotUtils.set_axes_equal"]}
{"id": "C74", "title": "Documented covering radius", "statement": "Documented (theory.rst): coordinates are defined on the alpha-thickening of the landmarks with alpha = (1-perc) max(cover, start) + perc end. True behaviour: the radius used is at most half of that alpha, with equality exactly when perc = 1 or cover <= start, so points inside the documented thickening can be left without coordinates.", "quantifier": "all data", "why_tests_cant": "continuum", "anchors": ["docs/theory.rst", "dreimac/emcoords.py:EMCoords.get_cover_radius"]}
{"id": "C75", "title": "PPCA without dimension loss is an isometry", "statement": "When proj_dim+1 equals the number of columns of the class map, mode direct only changes coordinates: Hermitian products between unit rows are the same before and after, whatever orthonormal eigenvectors the solver returns.", "quantifier": "all sizes, class maps and orthonormal eigenvector answers", "why_tests_cant": "all inputs and all eigensolver answers", "anchors": ["dreimac/utils.py:EquivariantPCA.ppca"]}
{"id": "C76", "title": "PPCA direct keeps the best subspace", "statement": "In mode direct the rows are the normalized coordinates of the points along proj_dim+1 orthonormal directions, and no orthonormal family of that many vectors captures more of the total squared modulus of the points.", "quantifier": "all sizes and class maps, all correct eigensolver answers, all orthonormal families", "why_tests_cant": "an optimality statement over all subspaces", "anchors": ["dreimac/utils.py:EquivariantPCA.ppca"]}
{"id": "C77", "title": "Line patches", "statement": "line_patches(dim,n_angles,n_offsets,sigma) has n_angles*n_offsets rows and dim*dim columns; entry (i,j) of patch (a,b) is exp(-(s/sigma)^2) where s is the signed distance of the grid point from the line at angle a*pi/n_angles and offset -1+2b/(n_offsets-1), lies in (0,1] and is 1 exactly on the line; opposite offsets give patches turned by 180 degrees.", "quantifier": "all sizes, angles, offsets and sigma", "why_tests_cant": "continuum of parameters", "anchors": ["dreimac/utils.py:GeometryExamples.line_patches"]}
{"id": "C78", "title": "Projective plane metric", "statement": "rp2_metric returns unit vectors and their projective arc lengths: a pseudometric with values in [0,pi/2] that is zero exactly between equal or antipodal points, for all random draws (with non-zero raw vectors).", "quantifier": "all random draws, seeds and sizes", "why_tests_cant": "random sampling", "anchors": ["dreimac/utils.py:GeometryExamples.rp2_metric"]}
{"id": "C79", "title": "Genus two surface", "statement": "Every sample of genus_two_surface lies on one of two tori of radii 5 and 2 with centres (0,0,0) and (9,0,0), on its side of the plane x=4.5; the sample is invariant under the reflection x -> 9-x and has points on both sides.", "quantifier": "all samples", "why_tests_cant": "real-number identities for all grid points", "anchors": ["dreimac/utils.py:GeometryExamples.genus_two_surface"]}
{"id": "C80", "title": "Trefoil tube", "statement": "Every sample of trefoil is at distance exactly 1 from the point with its parameter u in [0,4pi) of a closed trefoil curve; with noisy=False the samples are the points of the tube with v=0 at equally spaced u.", "quantifier": "all random draws, widths and sizes", "why_tests_cant": "random sampling", "anchors": ["dreimac/utils.py:GeometryExamples.trefoil"]}
{"id": "C81", "title": "Bullseye and three circles", "statement": "bullseye returns 600 points, each within 0.1/sqrt 2 of its circle of radius 1, 2 or 3; three_circles returns 1050 points, 50, 500 and 500 within 0.3/sqrt 2 of the circles of radius 1, 2, 2.5 around (0,0), (4,0), (-4,0), for all random draws.", "quantifier": "all random draws", "why_tests_cant": "random sampling", "anchors": ["dreimac/utils.py:GeometryExamples.bullseye", "dreimac/utils.py:GeometryExamples.three_circles"]}
{"id": "C82", "title": "Reproducible examples", "statement": "All random examples give the same result whatever was drawn before, an omitted seed meaning the number of samples; they leave numpy's global generator in a state that depends on the arguments only; invalid seeds and negative sizes raise ValueError (so does an omitted seed with 2^32 samples or more).", "quantifier": "all generator states, seeds and sizes", "why_tests_cant": "all histories of the global generator", "anchors": ["dreimac/utils.py:GeometryExamples.torus_3d", "dreimac/utils.py:GeometryExamples.klein_bottle_4d", "dreimac/utils.py:GeometryExamples.rp2_metric", "dreimac/utils.py:GeometryExamples.noisy_circle", "dreimac/utils.py:GeometryExamples.sphere", "dreimac/utils.py:GeometryExamples.trefoil", "dreimac/utils.py:GeometryExamples.bullseye", "dreimac/utils.py:GeometryExamples.three_circles", "dreimac/utils.py:GeometryExamples.moore_space_distance_matrix"]}
{"id": "C83", "title": "Colours of projective 3-space plots", "statement": "PlotUtils.plot_rp3_stereo, given N points and a non-constant f of at most N values, colours point k with entry c_k of the 256-entry colour map, where 0 <= c_k <= 255 is an integer nearest to 255 (f_k - min f)/(max f - min f); the order of values is kept, the minimum gets entry 0 and the maximum 255. A constant f gives NaN instead of colours; an empty f raises ValueError before anything is drawn; more values than points are passed on as colours. Points with more than three coordinates are drawn, after a warning, by their first three; with fewer, IndexError is raised after the warning.", "quantifier": "all point sets and all colour functions", "why_tests_cant": "Rounding and ordering must be right for every real-valued f.", "anchors": ["dreimac/plotting_utils.py:PlotUtils.plot_rp3_stereo"]}
{"id": "C84", "title": "Drawn boundaries and meshes", "statement": "The boundary drawn for the projective plane is a closed polygon on the unit circle with two arrows exchanged by the antipodal map, inside a window that contains the whole unit disk; the boundary drawn for the two hemispheres consists of closed polygons on the unit circles around (0,0) and (5/2,0), with four arrows leaving the first at a point e and four matching ones entering the second at e + (5/2,0). The spherical mesh is an n_meridians x n_parallels grid of points of the unit sphere whose rows run from pole to pole along meridians and whose columns have constant height. The documented counts are not met: the first and the last meridian coincide and the first and last parallels are the poles.", "quantifier": "all sizes of the mesh, all points and colours", "why_tests_cant": "Pictures are not compared by tests; the mesh sizes are unbounded.", "anchors": ["dreimac/plotting_utils.py:PlotUtils.plot_proj_boundary", "dreimac/plotting_utils.py:PlotUtils.plot_2sphere_boundary", "dreimac/plotting_utils.py:PlotUtils.plot_3sphere_mesh", "dreimac/plotting_utils.py:PlotUtils.plot_rp2_stereo"]}
{"id": "C85", "title": "Nearby points are drawn nearby, up to gluing", "statement": "In the disk picture of projective space (get_stereo_proj_codim1) squared distances are at most twice the squared distances on the sphere when both points are on the same side of the equator, and at most twice after replacing one image by its negative when they are on different sides; so the only tears are along the antipodally glued boundary. In the two-disk picture of the sphere (stereographic_projection_hemispheres) the same bound holds for all pairs of points after moving the second disk back by (5/2, 0, ...); so the only tear is the equator, whose two images are glued by that translation.", "quantifier": "all dimensions, all sets of unit vectors, all centres", "why_tests_cant": "A continuity statement about all pairs of points in all dimensions.", "anchors": ["dreimac/utils.py:ProjectiveMapUtils.get_stereo_proj_codim1", "dreimac/utils.py:ProjectiveMapUtils.stereographic_projection_hemispheres"]}
{"id": "C86", "title": "Several classes: when the call returns", "statement": "ToroidalCoords.get_coordinates should return for any selection of classes whose lifts are cocycles at the chosen scale. It returns coordinates for two or three classes that are linearly independent in real cohomology at that scale. If the selected classes (any number, at least two) are linearly dependent there, for instance when an index is given twice, it raises numpy's LinAlgError. And there are a metric space with eight landmarks and five independent classes of it for which the call never returns, whatever the bump function.", "quantifier": "all objects, all selections of at least two classes, all radii, all bump functions positive inside the ball, all numbers of iterations of the loop; all external functions that meet their contracts", "why_tests_cant": "A test cannot tell a slow call from one that never ends, and cannot try all classes.", "anchors": ["dreimac/toroidalcoords.py:ToroidalCoords.get_coordinates", "dreimac/toroidalcoords.py:_reduce_circular_coordinates", "dreimac/toroidalcoords.py:_lll", "dreimac/toroidalcoords.py:_gram_matrix"]}
{"id": "C87", "title": "Angles in double precision", "statement": "Angles reduced modulo 2 pi in double precision (offset, center, toroidal and circular coordinates) lie in the closed interval from 0 to the double nearest to 2 pi and are the intended point of the circle up to a bounded rounding error (2^-44 for offset and center). The interval is not half open: a tiny negative number is reduced to the double nearest to 2 pi itself.", "quantifier": "all angles, offsets, ticks and class map values", "why_tests_cant": "rounding behaviour at every double; the endpoint case is hit only by exceptional inputs", "anchors": ["dreimac/utils.py:CircleMapUtils.offset", "dreimac/utils.py:CircleMapUtils.center", "dreimac/toroidalcoords.py:_sparse_integrate"]}
{"id": "C88", "title": "Partition of unity in double precision", "statement": "In double precision and for every order of summation the weights of a point are between 0 and 1, vanish outside the balls, differ from the exact quotients by at most (n+1) 2^-52 and add up to 1 up to the same error; they are NaN exactly when every bump value is 0. With the linear bump function that happens only for points in no ball, with the quadratic one as well up to underflow; with the exponential one a point that is covered only in the outermost 0.07 percent of a ball gets NaN, so that a covered point is reported as uncovered.", "quantifier": "all distances, radii, numbers of landmarks up to 2^50, orders of summation, implementations of exp", "why_tests_cant": "all orders of summation and all doubles; the failure sits in a thin layer", "anchors": ["dreimac/emcoords.py:EMCoords.get_covering_partition", "dreimac/utils.py:PartUnity"]}
{"id": "C89", "title": "Cohomology in single precision", "statement": "ripser rounds distances to single precision, the coordinates use the doubles. If the chosen threshold rounded to single precision is below the deaths of the selected classes (which a relative margin of 2^-24 ensures), the coordinates still represent the selected classes; at perc = 1 they may not: there is data on which the call returns, with the cocycle condition checked, although no integer cocycle at that scale is congruent to the class.", "quantifier": "all metric data, monotone roundings, selected classes, solver answers", "why_tests_cant": "the failure needs distances that are distinct doubles and equal singles", "anchors": ["dreimac/emcoords.py:EMCoords.__init__", "dreimac/emcoords.py:EMCoords.get_cover_radius", "dreimac/toroidalcoords.py:ToroidalCoords.get_coordinates"]}
{"id": "C90", "title": "Lattice reduction with rounding is unimodular", "statement": "However the floating point operations of the lattice reduction are rounded and in whatever order inner products are added up, if it returns and its integers stay below 2^53, the change of basis it returns is an integer matrix with an integer inverse.", "quantifier": "all input matrices, rounding functions, summation orders", "why_tests_cant": "all roundings", "anchors": ["dreimac/toroidalcoords.py:_lll", "dreimac/toroidalcoords.py:_gram_schmidt"]}
{"id": "C91", "title": "Threshold in double precision", "statement": "Computed in double precision, the threshold is the documented combination of the ends of the range up to 2^-51 of the death, exactly an end for perc 0 and 1, and the radius is exactly half of it. With the default percentages 0.5 and 0.9 it never exceeds the death of the class; with other percentages it can (perc 0.2, birth 1.5, death 3). If the part of the range above it is more than 2^-23 of the death, it is below the death even in single precision.", "quantifier": "all doubles birth, death, perc in [0,1], both ranges", "why_tests_cant": "rounding behaviour at every triple of doubles", "anchors": ["dreimac/emcoords.py:get_cover_radius"]}
{"id": "C92", "title": "Circle-valued coordinates in double precision represent the classes up to rounding", "statement": "With every floating point operation of ToroidalCoords.get_coordinates rounded to double precision: if the call returns, there are integer cocycles congruent to the selected classes mod the prime on the complex used, and an integer change matrix with integer inverse (the stored one), such that every returned coordinate of a covered point is a double between 0 and the double 2*pi that agrees, up to whole turns and an explicit error of order 2^-46 times the number of landmarks and the size of the cocycle and its integral, with the lift given by the recombined cocycle and integral, and is NaN at uncovered points; the differences of the lifts are exactly the integers of the cocycle. If the least squares routine satisfies the normal equations up to a tolerance, the cocycle minus the coboundary of the integral is harmonic up to an explicit multiple of that tolerance. With several classes the stored original Gram matrix holds the inner products of the harmonic representatives of the chosen cocycles up to an explicit error of order 2^-47. So rounding never changes the cohomology class the map represents. With the default bump function and percentage the remaining conditions on the radius hold for all doubles. A call with one class returns exactly when the integer lift is a cocycle or the class has an integral lift (with a complete solver). For CircularCoords with the default bump function and percentage: a class with an integral lift gives one row, the circle-valued map of an integer cocycle congruent to the class up to that error, and a class without one is refused.", "quantifier": "all inputs, classes, percentages, bump functions that return positive doubles, all orders of summation in numpy, all inner products with the usual error bound, all results of least squares and Cholesky", "why_tests_cant": "the error bound and the integrality of the class must hold for every data set, every order in which numpy adds and whatever the iterative solver returns", "anchors": ["dreimac/toroidalcoords.py:ToroidalCoords.get_coordinates", "dreimac/toroidalcoords.py:_sparse_integrate", "dreimac/toroidalcoords.py:_integrate_harmonic_representative", "dreimac/emcoords.py:get_covering_partition", "dreimac/utils.py:CircleMapUtils.linear_combination", "dreimac/circularcoords.py:CircularCoords.get_coordinates"]}
{"id": "C93", "title": "Distances and landmarks in double precision", "statement": "Computed in double precision, every entry of get_csm is a nonnegative double whose square differs from the squared Euclidean distance by at most (d+4)*2^-51 times the sum of the squared norms of the two points (plus an underflow term): the error is relative to the norms, not to the distance, so the distance itself is off by at most the square root of that, and by at most that divided by the distance. get_ssm is symmetric if the matrix product is and its diagonal is zero where the product adds up like the sum, but not in general (a point of norm 1 can be at distance 2*10^-8 from itself). Furthest point sampling of a point cloud covers the data within the last computed radius and its landmarks are at least the computed radii apart, up to these errors; balls of landmarks that meet at a data point have centres at computed distance below twice the radius plus three times the error. Distances are not translation invariant: on the line the points 2^27 and 2^27+1 get the distance 0 and the sampling takes the same landmark twice.", "quantifier": "all point clouds of doubles in dimension up to 2^40, all orders in which numpy adds, also different ones for different entries", "why_tests_cant": "the bound must hold for every point cloud and every order of summation", "anchors": ["dreimac/utils.py:GeometryUtils.get_csm", "dreimac/utils.py:GeometryUtils.get_ssm", "dreimac/utils.py:GeometryUtils.get_greedy_perm_pc"]}
{"id": "C94", "title": "Projective distances in double precision", "statement": "Computed in double precision, every entry of get_csm_projarc is a nonnegative double that differs from the arc cosine of the absolute inner product (clipped to 1) by at most twice the square root of the error of the inner product plus the error of the arc cosine; the bound is of the order 10^-8, and it is attained in kind: a point of norm 1 up to rounding can be at computed distance above 2*10^-8 from itself.", "quantifier": "all point clouds of doubles in dimension up to 2^50, all orders in which numpy adds, all arc cosines accurate to 2^-52", "why_tests_cant": "the bound must hold for every point cloud and every order of summation", "anchors": ["dreimac/utils.py:GeometryUtils.get_csm_projarc"]}
{"id": "C95", "title": "PPCA and ProjectiveCoords in double precision", "statement": "Computed in double precision, ppca commutes exactly with signs: if some data points are replaced by the opposite vectors, the same rows of the answer change sign exactly and the variance and failures stay the same; every returned point has squared norm 1 up to (k+4) 2^-51 (k coordinates), real or complex, or is NaN, or comes from a vector whose squares underflow (or, complex, are close to overflow). ProjectiveCoords.get_coordinates returns the PPCA of square roots of rounded weights with the signs of the cocycle; rows of covered points are unit vectors up to (n+3) 2^-52, others are NaN; another choice of covering landmarks changes whole rows by exact signs only. With the default bump function and percentage no rounding error in the radius can spoil this. Without rounding the same program is the exact ppca of C48-C51. A class is refused, and the object unchanged, exactly if its death is before its birth (twice the birth with the standard range); otherwise the rounded radius and threshold are stored.", "quantifier": "all class maps, dimensions and modes, all answers of eigh, all orders in which numpy adds, all objects with a metric of doubles, all classes that are cocycles up to their death", "why_tests_cant": "must hold for every data set, every answer of the eigenvalue routine and every order of summation", "anchors": ["dreimac/utils.py:EquivariantPCA.ppca", "dreimac/projectivecoords.py:ProjectiveCoords.get_coordinates", "dreimac/emcoords.py:EMCoords.get_covering_partition", "dreimac/emcoords.py:EMCoords.get_cover_radius"]}
{"id": "C96", "title": "LensCoords in double precision and the accuracy of class maps", "statement": "Computed in double precision, with powers of the p-th root of unity accurate up to eps, LensCoords.get_coordinates returns the PPCA of a class map each of whose real and imaginary parts differs from the exact class map by at most eps + (n+4) 2^-52 (n landmarks), whichever covering landmark is used for each point; rows of covered points are unit vectors up to 4 eps + (n+5) 2^-52 and other rows are NaN; the exact class maps for two choices differ by p-th roots of unity. With the default bump function and percentage no rounding error in the radius can spoil this. The class map of ProjectiveCoords is within (n+2) 2^-52 of the exact one. The points both classes return have squared norm 1 up to (k+4) 2^-51, or are NaN, or come from a vector whose squares underflow (or, complex, are close to overflow). A class is refused, and the object unchanged, exactly if its death is before its birth (twice the birth with the standard range); otherwise the rounded radius and threshold are stored.", "quantifier": "all objects with a metric of doubles, all classes that are cocycles mod p up to their death, all bump functions with positive double values, all orders in which numpy adds, all answers of eigh", "why_tests_cant": "must hold for every data set, prime, cocycle and order of summation", "anchors": ["dreimac/lenscoords.py:LensCoords.get_coordinates", "dreimac/projectivecoords.py:ProjectiveCoords.get_coordinates", "dreimac/utils.py:EquivariantPCA.ppca", "dreimac/emcoords.py:EMCoords.get_covering_partition"]}
{"id": "C97", "title": "ComplexProjectiveCoords in double precision", "statement": "Computed in double precision, with an exponential accurate up to eps, ComplexProjectiveCoords.get_coordinates replaces the stored class by its integer lift, stores the radius, and returns the PPCA of a class map. For arrays of more than 10^6 bytes each real and imaginary part of the class map differs from the exact one, with the computed integral of the exact part of the cocycle, by at most eps + 2^-47 (n+3)(K+3B+1) + (n+4) 2^-52 (n landmarks, cocycle values at most K, integral values at most B); for smaller arrays it consists of the rounded roots of the weights, so two classes of equal birth and death give the same answer bit for bit. Rows of covered points are unit vectors up to 4 eps + (n+5) 2^-52 and other rows are NaN. If the least squares solver is accurate, the cocycle minus the coboundary of the integral is harmonic up to a stated error. Exact class maps for two choices of covering landmarks differ by unit complex numbers. With the default bump function and percentage, rounding of the radius cannot spoil this. Classes that are too short are refused and the object is unchanged. The points returned have squared norm 1 up to (k+4) 2^-51, or are NaN, or come from a vector whose squares underflow or are close to overflow.", "quantifier": "all objects with at most 2345 landmarks and a symmetric matrix of distances, all classes of degree 2 whose lift is a cocycle where that is checked, all bump functions with positive double values, all orders in which numpy adds, all answers of lsqr in doubles, all answers of eigh", "why_tests_cant": "must hold for every data set, cocycle, solver answer and order of summation, and for arrays on both sides of numba's size limit", "anchors": ["dreimac/complexprojectivecoords.py:ComplexProjectiveCoords.get_coordinates", "dreimac/complexprojectivecoords.py:_sparse_integrate", "dreimac/combinatorial.py:CombinatorialNumberSystem", "dreimac/utils.py:EquivariantPCA.ppca", "dreimac/emcoords.py:EMCoords.get_covering_partition"]}
{"id": "C98", "title": "Errors, thresholds and independence of calls in double precision", "statement": "With every floating point operation rounded: ToroidalCoords.get_coordinates rejects a selection in which some class dies before or when another is born, an invalid index and an empty selection, changing nothing; otherwise it raises ClassTooShort when the standard range of the largest birth and smallest death is empty (threshold and radius stay as they were), or stores as threshold the point of that range chosen by perc up to a relative error 2^-51 of the death, and as radius half of it; with the default percentages the threshold is positive and no selected class dies before it. Calls of ToroidalCoords, CircularCoords, ProjectiveCoords, LensCoords and ComplexProjectiveCoords return, or raise, bit for bit what they do on the fresh object whatever calls were made before, and store the same matrices and variances; the stored cocycles are the original ones or their integer lifts. ProjectiveCoords, LensCoords and ComplexProjectiveCoords store the same threshold (up to that error) and radius even if the call raises later, change nothing for an invalid index or an empty range, and change the variance only if the call returns. A call of ToroidalCoords that raises or selects one class keeps the matrices stored before.", "quantifier": "all objects, all histories of calls with any arguments, orders of summation and external routines, all selections, percentages and bump functions", "why_tests_cant": "all call histories and all doubles", "anchors": ["dreimac/toroidalcoords.py:ToroidalCoords.get_coordinates", "dreimac/circularcoords.py:CircularCoords.get_coordinates", "dreimac/emcoords.py:EMCoords.get_cover_radius", "dreimac/projectivecoords.py:ProjectiveCoords.get_coordinates", "dreimac/lenscoords.py:LensCoords.get_coordinates", "dreimac/complexprojectivecoords.py:ComplexProjectiveCoords.get_coordinates"]}
{"id": "C99", "title": "Repeated calls of projective, lens and complex projective coordinates are independent", "statement": "Whatever get_coordinates calls were made before on one object of ProjectiveCoords, LensCoords or ComplexProjectiveCoords, with any arguments and whether or not they raised, a call returns or raises what it does on the fresh object, and stores the same variance. ProjectiveCoords and LensCoords never change the stored classes; ComplexProjectiveCoords may replace a class of degree 2 by its integer lift and changes no other degree. An invalid index and an empty range change no attribute; otherwise threshold and radius are the point of the range chosen by perc and half of it, even if the call raises later, and the variance changes only if the call returns.", "quantifier": "all objects (for ComplexProjectiveCoords with stored values 0..p-1), all histories of calls, all arguments and external routines", "why_tests_cant": "all call histories", "anchors": ["dreimac/projectivecoords.py:ProjectiveCoords.get_coordinates", "dreimac/lenscoords.py:LensCoords.get_coordinates", "dreimac/complexprojectivecoords.py:ComplexProjectiveCoords.get_coordinates", "dreimac/utils.py:CohomologyUtils.lift_to_integer_cocycle"]}
{"id": "C100", "title": "Map utilities in floating point: valid colours, spheres up to rounding, and the lens space picture", "statement": "In double precision, with library functions accurate to 2^-50: (1) the three channels returned by to_sinebow are doubles between 0 and 1 and near the exact colour. (2) Every coordinate returned by hopf_map is within 2^-48 of that of the exact point, if the real and imaginary parts are at most 1. (3) circle_to_3dnorthpole never returns NaN; the returned vector has norm 1 up to 2^-47 and nonnegative height; a point inside the disk is kept and one outside is moved to the circle in its direction. (4) The stereographic projections never divide by zero (the divisors are at least 1) and each coordinate has a relative error of a few roundings; the two hemispheres are drawn in disjoint half planes. (5) lens_3D_to_disk_3D gives the place in the ball of a point equivalent to the given one, up to 2^-24, for the primes q = 2, 3, 5, 7, 11, 13, 19, 23, 31, 47, 53. For q = 17 this fails: the sector 13 is computed as floor(12.99...) = 12, and every point with argument between 4.81 and 5.17 is drawn a seventeenth of a turn away from its place. The height is NaN exactly if the computed absolute value of the second coordinate exceeds 1, however little.", "quantifier": "all doubles (coordinates, angles), all points, all library functions with the stated accuracy", "why_tests_cant": "all floating point inputs; the failure for q = 17 needs an argument in one of 17 sectors", "anchors": ["dreimac/utils.py:CircleMapUtils.to_sinebow", "dreimac/utils.py:ProjectiveMapUtils.hopf_map", "dreimac/utils.py:ProjectiveMapUtils.circle_to_3dnorthpole", "dreimac/utils.py:ProjectiveMapUtils.get_stereo_proj_codim1", "dreimac/utils.py:ProjectiveMapUtils.stereographic_projection_hemispheres", "dreimac/utils.py:LensMapUtils.lens_3D_to_disk_3D"]}
