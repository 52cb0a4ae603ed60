{
 "claims": [
  {
   "property": "C01",
   "status": "proved",
   "theorems": [
    "C01_simplex_numbering_bijection"
   ],
   "note": ""
  },
  {
   "property": "C02",
   "status": "proved",
   "theorems": [
    "C02_simplex_numbering_stable",
    "C02_simplex_numbering_colex"
   ],
   "note": ""
  },
  {
   "property": "C03",
   "status": "proved",
   "theorems": [
    "C03_specialised_numbering"
   ],
   "note": ""
  },
  {
   "property": "C04",
   "status": "proved",
   "theorems": [
    "C04_table_is_binomial",
    "C04_table_fits_int64",
    "C04_triangle_number_fits_int32"
   ],
   "note": ""
  },
  {
   "property": "C05",
   "status": "proved",
   "theorems": [
    "C05_parity_is_sign"
   ],
   "note": ""
  },
  {
   "property": "C06",
   "status": "proved",
   "theorems": [
    "C06_order_simplex"
   ],
   "note": ""
  },
  {
   "property": "C07",
   "status": "proved",
   "theorems": [
    "C07_sparse_to_dense"
   ],
   "note": ""
  },
  {
   "property": "C08",
   "status": "proved",
   "theorems": [
    "C08_integer_lift"
   ],
   "note": ""
  },
  {
   "property": "C09",
   "status": "proved",
   "theorems": [
    "C09_reindex_inverts_labelling",
    "C09_reindex_other_indices"
   ],
   "note": ""
  },
  {
   "property": "C10",
   "status": "proved",
   "theorems": [
    "C10_delta0"
   ],
   "note": ""
  },
  {
   "property": "C11",
   "status": "proved",
   "theorems": [
    "C11_delta1"
   ],
   "note": ""
  },
  {
   "property": "C12",
   "status": "proved",
   "theorems": [
    "C12_delta1_compact",
    "C12_kernel_is_cocycles"
   ],
   "note": ""
  },
  {
   "property": "C13",
   "status": "proved",
   "theorems": [
    "C13_delta2_compact",
    "C13_kernel_is_cocycles"
   ],
   "note": ""
  },
  {
   "property": "C14",
   "status": "proved",
   "theorems": [
    "C14_delta1_delta0",
    "C14_delta2_delta1"
   ],
   "note": ""
  },
  {
   "property": "C15",
   "status": "proved",
   "theorems": [
    "C15_is_one_cocycle",
    "C15_first_failure",
    "C15_agrees_with_matrix"
   ],
   "note": ""
  },
  {
   "property": "C16",
   "status": "proved",
   "theorems": [
    "C16_is_two_cocycle",
    "C16_agrees_with_matrix"
   ],
   "note": ""
  },
  {
   "property": "C17",
   "status": "proved",
   "theorems": [
    "C17_inner_product"
   ],
   "note": ""
  },
  {
   "property": "C18",
   "status": "proved",
   "theorems": [
    "C18_repair",
    "C18_feasible_iff_integral_lift",
    "C18_failure_means_no_lift",
    "C18_call"
   ],
   "note": ""
  },
  {
   "property": "C19",
   "status": "proved",
   "theorems": [
    "C19_rounding_is_exact",
    "C19_row_weights"
   ],
   "note": ""
  },
  {
   "property": "C20",
   "status": "proved",
   "theorems": [
    "C20_one_class_is_repaired",
    "C20_second_repair_raises",
    "C20_documented_repair_refuted"
   ],
   "note": "The code violates the documentation: C20_documented_repair_refuted gives the counterexample, C20_second_repair_raises and C20_one_class_is_repaired the exact behaviour."
  },
  {
   "property": "C21",
   "status": "proved",
   "theorems": [
    "C21_repair_raises_NameError",
    "C21_repair_with_import",
    "C21_documented_repair_refuted"
   ],
   "note": "The code violates the documentation (NameError at complexprojectivecoords.py:135); C21_repair_with_import shows the intended program is right."
  },
  {
   "property": "C22",
   "status": "proved",
   "theorems": [
    "C22_sorted_and_matched"
   ],
   "note": ""
  },
  {
   "property": "C23",
   "status": "proved",
   "theorems": [
    "C23_landmark_distances",
    "C23_maxdim_rejected"
   ],
   "note": ""
  },
  {
   "property": "C24",
   "status": "proved",
   "theorems": [
    "C24_coverage_is_zero",
    "C24_coverage_refuted"
   ],
   "note": "The code violates the intended meaning: C24_coverage_is_zero gives the exact behaviour, C24_coverage_refuted a counterexample."
  },
  {
   "property": "C25",
   "status": "proved",
   "theorems": [
    "C25_selecting_a_class"
   ],
   "note": ""
  },
  {
   "property": "C26",
   "status": "proved",
   "theorems": [
    "C26_cover_radius",
    "C26_monotone_in_perc"
   ],
   "note": ""
  },
  {
   "property": "C27",
   "status": "proved",
   "theorems": [
    "C27_boundary_accepted_refuted"
   ],
   "note": "The code violates the documentation on the boundary."
  },
  {
   "property": "C28",
   "status": "proved",
   "theorems": [
    "C28_partition_of_unity",
    "C28_formula"
   ],
   "note": ""
  },
  {
   "property": "C29",
   "status": "proved",
   "theorems": [
    "C29_bump_functions"
   ],
   "note": ""
  },
  {
   "property": "C30",
   "status": "proved",
   "theorems": [
    "C30_upper_triangle_suffices"
   ],
   "note": ""
  },
  {
   "property": "C31",
   "status": "proved",
   "theorems": [
    "C31_any_covering_landmark"
   ],
   "note": ""
  },
  {
   "property": "C32",
   "status": "proved",
   "theorems": [
    "C32_coordinates_represent_the_classes",
    "C32_circular_coordinates_represent_the_class"
   ],
   "note": ""
  },
  {
   "property": "C33",
   "status": "proved",
   "theorems": [
    "C33_one_class_returned",
    "C33_several_classes_returned",
    "C33_constructor",
    "C33_range_and_nan"
   ],
   "note": ""
  },
  {
   "property": "C34",
   "status": "proved",
   "theorems": [
    "C34_calls_are_independent"
   ],
   "note": ""
  },
  {
   "property": "C35",
   "status": "proved",
   "theorems": [
    "C35_stored_cocycles",
    "C35_field_values_refuted"
   ],
   "note": "documented promise refuted (C35_field_values_refuted: call overwrites the stored class by its integer lift); C35_stored_cocycles gives exact stored values after any call."
  },
  {
   "property": "C36",
   "status": "proved",
   "theorems": [
    "C36_disjoint_supports",
    "C36_common_threshold",
    "C36_invalid_selection",
    "C36_stored_matrices"
   ],
   "note": ""
  },
  {
   "property": "C37",
   "status": "proved",
   "theorems": [
    "C37_every_step",
    "C37_result"
   ],
   "note": ""
  },
  {
   "property": "C38",
   "status": "proved",
   "theorems": [
    "C38_recombination"
   ],
   "note": ""
  },
  {
   "property": "C39",
   "status": "proved",
   "theorems": [
    "C39_stored_matrices",
    "C39_documented_gram_refuted"
   ],
   "note": "Full characterisation of both stored matrices for every call, plus a concrete call on which the documented meaning of _gram_matrix is false."
  },
  {
   "property": "C40",
   "status": "proved",
   "theorems": [
    "C40_gram_schmidt_triangular",
    "C40_orthogonal_for_two",
    "C40_orthogonal_for_three_refuted"
   ],
   "note": "refuted for three columns; true part (triangularity, one-step orthogonality, n<=2) proved"
  },
  {
   "property": "C41",
   "status": "proved",
   "theorems": [
    "C41_two_classes"
   ],
   "note": ""
  },
  {
   "property": "C42",
   "status": "proved",
   "theorems": [
    "C42_exit_condition",
    "C42_three_classes",
    "C42_three_lovasz_refuted",
    "C42_four_size_reduced_refuted",
    "C42_termination_refuted"
   ],
   "note": "documented promise refuted (Lovasz at n=3, size reduction at n=4, termination for every n>=5); true parts proved. Termination for n=4 is neither proved nor refuted."
  },
  {
   "property": "C43",
   "status": "proved",
   "theorems": [
    "C43_circular_is_toroidal_with_one_class"
   ],
   "note": ""
  },
  {
   "property": "C44",
   "status": "proved",
   "theorems": [
    "C44_projective",
    "C44_short_class",
    "C44_constructor",
    "C44_negative_value"
   ],
   "note": "For every cocycle mod 2 (what ripser returns), every metric and covering choice; C44_constructor shows the constructor yields such objects. Real numbers instead of floats; eigensolver any function."
  },
  {
   "property": "C45",
   "status": "proved",
   "theorems": [
    "C45_lens"
   ],
   "note": "As C44 with p-th roots of unity. Note that complex_dim - 1 is handed to ppca, which returns complex_dim components (the docstring says complex_dim - 1)."
  },
  {
   "property": "C46",
   "status": "proved",
   "theorems": [
    "C46_values",
    "C46_complex_projective",
    "C46_short_class",
    "C46_lift_fails",
    "C46_constructor"
   ],
   "note": "For all integer 2-cocycles; ripser, eigh, lsqr, argsort are parameters. best_integral uses that lsqr returns a least squares solution. n <= 2345 landmarks (int32 indices). NaN rows for uncovered points. Non-vacuity: octahedron; four points with a cocycle mod 3 that does not lift."
  },
  {
   "property": "C47",
   "status": "proved",
   "theorems": [
    "C47_small_data_ignores_class",
    "C47_documented_map"
   ],
   "note": "The code does not keep the documented promise on data of at most 10^6 bytes; both branches are characterised. That numba copies captured arrays of at most 10^6 bytes at compile time is an assumption about numba, see DESIGN.md."
  },
  {
   "property": "C48",
   "status": "proved",
   "theorems": [
    "C48_shape",
    "C48_one_by_one_fails",
    "C48_unknown_mode"
   ],
   "note": "Shapes for every accepted argument (proj_dim>=0); failure of one-by-one for proj_dim=0 or proj_dim>=n_dim; unknown modes. Termination of the halving loop is part of the model's fuel never running out (result is Ok). Negative proj_dim is outside the statement."
  },
  {
   "property": "C49",
   "status": "proved",
   "theorems": [
    "C49_reductions",
    "C49_on_sphere",
    "C49_direct_formula"
   ],
   "note": "Eigensolver arbitrary: square finite answer or failure (then the identity is used, as in the code)."
  },
  {
   "property": "C50",
   "status": "proved",
   "theorems": [
    "C50_equivariant"
   ],
   "note": "Eigensolver is any deterministic function of the Gram matrix; real numbers instead of floats."
  },
  {
   "property": "C51",
   "status": "proved",
   "theorems": [
    "C51_direct_and_exponential_zero",
    "C51_one_by_one",
    "C51_one_by_one_real",
    "C51_complex_refuted"
   ],
   "note": "Documented meaning refuted for modes direct/exponential (zeros) and for complex data (missing conjugate); proved for real eigenvectors in mode one-by-one."
  },
  {
   "property": "C52",
   "status": "proved",
   "theorems": [
    "C52_harmonic_representative",
    "C52_cohomologous_cochains",
    "C52_coordinates_depend_on_the_class"
   ],
   "note": ""
  },
  {
   "property": "C53",
   "status": "proved",
   "theorems": [
    "C53_offset"
   ],
   "note": ""
  },
  {
   "property": "C54",
   "status": "proved",
   "theorems": [
    "C54_center",
    "C54_center_degenerate"
   ],
   "note": ""
  },
  {
   "property": "C55",
   "status": "proved",
   "theorems": [
    "C55_linear_combination",
    "C55_functorial",
    "C55_identity",
    "C55_representatives",
    "C55_one_row_and_errors"
   ],
   "note": ""
  },
  {
   "property": "C56",
   "status": "proved",
   "theorems": [
    "C56_sinebow"
   ],
   "note": ""
  },
  {
   "property": "C57",
   "status": "proved",
   "theorems": [
    "C57_levelset_rejects",
    "C57_levelset_sharp",
    "C57_levelset_smooth"
   ],
   "note": ""
  },
  {
   "property": "C58",
   "status": "proved",
   "theorems": [
    "C58_rotation",
    "C58_near_the_line",
    "C58_opposite_refuted",
    "C58_other_inputs"
   ],
   "note": "All dimensions d >= 1, exact reals. Promise refuted for opposite vectors (C58_opposite_refuted). One-dimensional arguments; numpy broadcasting of length-1 vectors left out."
  },
  {
   "property": "C59",
   "status": "proved",
   "theorems": [
    "C59_projective",
    "C59_default_pole",
    "C59_other_poles"
   ],
   "note": "All d >= 1. C59_default_pole assumes the documented answer of np.linalg.eigh (orthogonal matrix of eigenvectors, increasing eigenvalues)."
  },
  {
   "property": "C60",
   "status": "proved",
   "theorems": [
    "C60_north_pole",
    "C60_nearest",
    "C60_other_lengths"
   ],
   "note": "In-place effect on the caller's array is the first component of the result. Float arrays with two entries."
  },
  {
   "property": "C61",
   "status": "proved",
   "theorems": [
    "C61_hopf",
    "C61_onto",
    "C61_columns"
   ],
   "note": "Also onto."
  },
  {
   "property": "C62",
   "status": "proved",
   "theorems": [
    "C62_two_disks",
    "C62_other_inputs"
   ],
   "note": "All n >= 2."
  },
  {
   "property": "C63",
   "status": "proved",
   "theorems": [
    "C63_ball",
    "C63_identified",
    "C63_core_circle_refuted",
    "C63_errors"
   ],
   "note": "Exact characterisation of the identifications; refuted on the core circle. np.angle is defined by acos (Classical_Prop.classic from the standard library's Ratan)."
  },
  {
   "property": "C64",
   "status": "proved",
   "theorems": [
    "C64_distances",
    "C64_metric"
   ],
   "note": "Exact reals. Entries of get_csm are Euclidean distances, get_ssm is a metric; unequal dimensions raise ValueError."
  },
  {
   "property": "C65",
   "status": "proved",
   "theorems": [
    "C65_range",
    "C65_projective_metric"
   ],
   "note": "Exact reals; uses Coq's acos, hence Classical_Prop.classic among the assumptions."
  },
  {
   "property": "C66",
   "status": "proved",
   "theorems": [
    "C66_distance_matrix",
    "C66_radii",
    "C66_two_approximation",
    "C66_point_cloud",
    "C66_cross_similarities",
    "C66_no_landmarks"
   ],
   "note": "Exact reals. The cross-similarity argument is any function working row by row (proved of get_csm and get_csm_projarc); a csm_fn returning a single entry, which numpy would broadcast, is excluded. Also proved: the factor-2 optimality of the cover on pseudometrics."
  },
  {
   "property": "C67",
   "status": "proved",
   "theorems": [
    "C67_geodesic_landmarks",
    "C67_permutation_refuted",
    "C67_errors"
   ],
   "note": "KDTree.query and shortest_path are parameters whose contracts are hypotheses. The documented permutation holds exactly when n_landmarks points at pairwise non-zero geodesic distance exist; otherwise refuted (C67_permutation_refuted)."
  },
  {
   "property": "C68",
   "status": "proved",
   "theorems": [
    "C68_torus",
    "C68_ring_torus",
    "C68_torus_onto",
    "C68_klein",
    "C68_klein_onto"
   ],
   "note": "Exact reals. Uses Coq's acos (classic) for the converse. Contract of the generator: numbers in [0,1)."
  },
  {
   "property": "C69",
   "status": "proved",
   "theorems": [
    "C69_sphere",
    "C69_sphere_onto",
    "C69_noisy_circle"
   ],
   "note": "Exact reals; NaN rows characterised exactly."
  },
  {
   "property": "C70",
   "status": "proved",
   "theorems": [
    "C70_dim_ignored",
    "C70_patch_size_refuted",
    "C70_values"
   ],
   "note": "Refuted as documented (dim is overwritten with 10, utils.py:877): C70_patch_size_refuted; true behaviour proved."
  },
  {
   "property": "C71",
   "status": "proved",
   "theorems": [
    "C71_moore",
    "C71_symmetric_refuted",
    "C71_errors"
   ],
   "note": "Symmetry refuted for every q >= 2 (C71_symmetric_refuted); zero diagonal, non-negativity and the exact meaning of the entries proved when no sample is the centre."
  },
  {
   "property": "C72",
   "status": "proved",
   "theorems": [
    "C72_imscatter",
    "C72_grid",
    "C72_refused"
   ],
   "note": "Drawing is modelled as the list of requests made to matplotlib. int(np.sqrt(.)) and np.ceil(np.sqrt(.)) are exact (floor/ceiling of the real square root); ticks are not modelled."
  },
  {
   "property": "C73",
   "status": "proved",
   "theorems": [
    "C73_equal",
    "C73_fixed",
    "C73_idempotent",
    "C73_inverted_refuted"
   ],
   "note": "Limits are exact reals. The loss of an inverted axis' direction is proved as C73_inverted_refuted. matplotlib's own treatment of degenerate limits (all three lengths zero) is not modelled."
  },
  {
   "property": "C74",
   "status": "proved",
   "theorems": [
    "C74_radius_used",
    "C74_documented_alpha_refuted"
   ],
   "note": "The code violates the documentation: C74_radius_used gives the exact relation, C74_documented_alpha_refuted a counterexample."
  },
  {
   "property": "C75",
   "status": "proved",
   "theorems": [
    "C75_full_dimension_isometry"
   ],
   "note": "Eigenvectors assumed unitary (LAPACK contract)."
  },
  {
   "property": "C76",
   "status": "proved",
   "theorems": [
    "C76_direct_best_subspace"
   ],
   "note": "Ky Fan maximum principle; eigenvectors and eigenvalues assumed correct and in increasing order (np.linalg.eigh contract)."
  },
  {
   "property": "C77",
   "status": "proved",
   "theorems": [
    "C77_line_patches",
    "C77_half_turn"
   ],
   "note": "Exact reals; non-negative sizes; sigma = 0 not modelled."
  },
  {
   "property": "C78",
   "status": "proved",
   "theorems": [
    "C78_rp2"
   ],
   "note": "Exact reals; uses acos, hence classic. A zero raw vector (NaN row) makes the model's whole result None."
  },
  {
   "property": "C79",
   "status": "proved",
   "theorems": [
    "C79_genus_two"
   ],
   "note": "Exact reals."
  },
  {
   "property": "C80",
   "status": "proved",
   "theorems": [
    "C80_trefoil"
   ],
   "note": "Exact reals."
  },
  {
   "property": "C81",
   "status": "proved",
   "theorems": [
    "C81_bullseye",
    "C81_three_circles"
   ],
   "note": "Exact reals."
  },
  {
   "property": "C82",
   "status": "proved",
   "theorems": [
    "C82_reproducible",
    "C82_seeds"
   ],
   "note": "numpy's generator is a parameter with np.random.seed as a function of the seed only."
  },
  {
   "property": "C83",
   "status": "proved",
   "theorems": [
    "C83_scale",
    "C83_other",
    "C83_columns"
   ],
   "note": "f is one-dimensional when it is mapped through the colour map. np.round is round-half-even on exact reals; the colour table itself and matplotlib's checks of the colour argument are not modelled."
  },
  {
   "property": "C84",
   "status": "proved",
   "theorems": [
    "C84_projective_boundary",
    "C84_projective_plane",
    "C84_hemispheres",
    "C84_mesh",
    "C84_counts_refuted"
   ],
   "note": "Coordinates are exact reals; what matplotlib does with the requests (for example the downsampling of wireframes with more than 50 rows) is not modelled. The counts the docstring promises are refuted by C84_counts_refuted."
  },
  {
   "property": "C85",
   "status": "proved",
   "theorems": [
    "C85_projective",
    "C85_hemispheres"
   ],
   "note": "Exact reals. The pole v is the given centre unless it is within about 1e-15 of the line of the last axis (C58), as in C59 and C62."
  },
  {
   "property": "C86",
   "status": "proved",
   "theorems": [
    "C86_up_to_three_classes",
    "C86_five_classes_refuted"
   ],
   "note": "documented promise refuted for five classes (C86_five_classes_refuted) and for dependent classes; true part for two and three independent classes proved. Four classes: neither proved nor refuted."
  },
  {
   "property": "C87",
   "status": "proved",
   "theorems": [
    "C87_reduced_angle",
    "C87_offset",
    "C87_center",
    "C87_coordinate",
    "C87_half_open_refuted"
   ],
   "note": "The half-open interval that the exact model gives (C38, C53) fails in double precision: C87_half_open_refuted."
  },
  {
   "property": "C88",
   "status": "proved",
   "theorems": [
    "C88_weights",
    "C88_linear",
    "C88_quadratic",
    "C88_exp",
    "C88_exp_refuted"
   ],
   "note": "C88_exp_refuted: with exponential bumps a covered point can be reported as uncovered."
  },
  {
   "property": "C89",
   "status": "proved",
   "theorems": [
    "C89_represented",
    "C89_margin",
    "C89_last_scale_refuted"
   ],
   "note": "C89_last_scale_refuted: at perc = 1 the coordinates may come from a cochain that is not a cocycle."
  },
  {
   "property": "C90",
   "status": "proved",
   "theorems": [
    "C90_unimodular"
   ],
   "note": ""
  },
  {
   "property": "C91",
   "status": "proved",
   "theorems": [
    "C91_threshold",
    "C91_default",
    "C91_below_death_refuted",
    "C91_margin"
   ],
   "note": "C91_below_death_refuted: with perc = 0.2 the computed threshold can exceed the death; C91_default proves it cannot with the default percentages."
  },
  {
   "property": "C92",
   "status": "proved",
   "theorems": [
    "C92_circular",
    "C92_classes_up_to_rounding",
    "C92_default",
    "C92_one_class_returns",
    "C92_several_classes_return"
   ],
   "note": "Sums in any order, any inner product with the usual error bound; overflow is not modelled. C92_default discharges the conditions on the radius for the default arguments."
  },
  {
   "property": "C93",
   "status": "proved",
   "theorems": [
    "C93_distances",
    "C93_symmetric",
    "C93_landmarks",
    "C93_balls_that_meet",
    "C93_translation_refuted",
    "C93_diagonal_refuted"
   ],
   "note": "Sums and products in any order; overflow is not modelled."
  },
  {
   "property": "C94",
   "status": "proved",
   "theorems": [
    "C94_arcs",
    "C94_diagonal_refuted"
   ],
   "note": "Products in any order; np.arccos is any function accurate to 2^-52 on [0,1]."
  },
  {
   "property": "C95",
   "status": "proved",
   "theorems": [
    "C95_unrounded",
    "C95_signs",
    "C95_sphere",
    "C95_sphere_complex",
    "C95_projective",
    "C95_default",
    "C95_short_class"
   ],
   "note": "Matrix products and eigh are parameters: products are assumed to be symmetric under signs (C95_signs, C95_projective) and to return doubles (C95_sphere), nothing else. Norms: sums in any order. Overflow is not modelled."
  },
  {
   "property": "C96",
   "status": "proved",
   "theorems": [
    "C96_lens",
    "C96_default",
    "C96_projective",
    "C96_sphere",
    "C96_short_class"
   ],
   "note": "The powers of the root of unity are parameters with accuracy eps (hypothesis nearly_powers); the instance uses correctly rounded cosines and sines. No overflow."
  },
  {
   "property": "C97",
   "status": "proved",
   "theorems": [
    "C97_complex_projective",
    "C97_default",
    "C97_small_data_ignores_class",
    "C97_short_class",
    "C97_sphere"
   ],
   "note": "The exponential on the imaginary axis is a parameter with accuracy eps and value 1 at 0; lsqr is a parameter (its accuracy is a hypothesis of the harmonic part only); the repair is not needed because the cocycle condition is a hypothesis when it is checked. No overflow."
  },
  {
   "property": "C98",
   "status": "proved",
   "theorems": [
    "C98_calls_are_independent",
    "C98_stored_cocycles",
    "C98_disjoint_supports",
    "C98_invalid_selection",
    "C98_stored_matrices",
    "C98_common_threshold",
    "C98_projective_calls",
    "C98_complex_projective_calls",
    "C98_attributes"
   ],
   "note": "External routines (sums, inner products, lsqr, eigh, Cholesky, milp) are deterministic functions of their arguments. No overflow."
  },
  {
   "property": "C99",
   "status": "proved",
   "theorems": [
    "C99_projective_calls",
    "C99_lens_calls",
    "C99_complex_projective_calls",
    "C99_attributes"
   ],
   "note": "eigh, lsqr and milp are deterministic functions of their arguments."
  },
  {
   "property": "C100",
   "status": "proved",
   "theorems": [
    "C100_lens",
    "C100_lens_nan",
    "C100_lens_refuted",
    "C100_hopf",
    "C100_sinebow",
    "C100_stereo",
    "C100_hemispheres",
    "C100_north_pole"
   ],
   "note": "The claim about lens_3D_to_disk_3D is false for q = 17 (C100_lens_refuted, C100_lens_wrong) and proved for the listed primes; rotmat is not rounded here: the projections start from the rotated point."
  }
 ]
}