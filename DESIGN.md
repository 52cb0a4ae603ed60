# Formal model of DREiMac in Rocq (Coq 8.16.1)

The first version of this file was written before the proofs; this one records what was
modelled, how each property is proved, and what is trusted.

## 1. Method

* /repo is read as text. Each Python function in scope is a Gallina function in a
  `rocq/theories/*Model.v` file, with the file and lines it models in the comment above it, and
  the simplifications made.
* `Spec*.v` files hold the vocabulary of the theorem statements (what a Rips complex, a cocycle,
  a partition of unity, an isometry ... is), written without reference to the models' helpers.
* `*Proofs.v`, `*Facts.v` and a few named files (`RealSum`, `Argsort`, `KyFan`, `LeastSquares`,
  `ToroidalCalls`, `ToroidalTotal`) hold lemmas.
* `Prop*.v` files hold the property theorems (`Cxx_...`), a `Print Assumptions` after each, and
  `Example`s (`Cxx_met...`) that show the hypotheses of the theorems to hold of concrete,
  non-trivial data. When the code breaks what its documentation promises, the promise is refuted
  by a theorem with suffix `_refuted` and the true behaviour is proved beside it.
* `tools/mutate.py` edits a copy of the model like a bug would edit the program and reports which
  theorems stop proving; results are in `seeded/LOG.jsonl`.

### Conventions of the model
* Exceptions are values: `res A = Ok a | Raise e`. Checked reads (`get`, `np_get`) raise
  `IndexError`; in numba-jitted functions, whose bounds checks are off, an access outside the
  array is the value `MemoryUnsafe`, and the theorems show it does not occur.
* `while` loops have fuel; running out is the value `LoopForever`, and the theorems either exclude
  it or say for which inputs it is excluded.
* Arrays are lists, two-dimensional ones lists of rows. Shapes that a list cannot carry (columns
  of an array without rows) are separate arguments.
* Floating point numbers are exact reals `R`; NaN is `None` where the code can create one.
  Outside the `Round*Model` files rounding errors are not modelled: those theorems are statements about the
  program over the reals. Thresholds the code uses for safety (1e-15 in `rotmat`, the milp tolerance) are
  kept as they are.
* Python ints, int64 and int32 arrays are `Z`/`nat`; C04, C07, C10-C17 and C46 prove that
  the numbers stored in machine-integer buffers fit.
* Objects are records; a method returns the new object beside its result, also when it raises, so
  that histories of calls can be stated (C34, C35).
* External functions are parameters of the model: ripser, `scipy.sparse.linalg.lsqr`,
  `scipy.optimize.milp`, `numpy.linalg.eigh`, `numpy.linalg.cholesky`, `numpy.argsort`,
  `scipy.spatial.KDTree.query`, `scipy.sparse.csgraph.shortest_path`, numpy's global random
  generator, and user-supplied functions (`partunity_fn`, `csm_fn`). What a theorem needs of
  them is a hypothesis of the theorem.

## 2. Trusted base

1. Coq 8.16.1's kernel (and its `vm_compute`, used in examples and in refutations by execution).
2. The axioms of the standard library that `Print Assumptions` lists. Complete list over all
   theorems (per theorem: `AXIOMS.md`, generated by `tools/axioms.py`):
   * `ClassicalDedekindReals.sig_forall_dec`, `ClassicalDedekindReals.sig_not_dec` (Coq's reals),
   * `FunctionalExtensionality.functional_extensionality_dep` (used by Coq's reals),
   * `Classical_Prop.classic`: used by the standard library's trigonometry and exponentials
     (`acos`, `exp`, powers in `Ratan`/`Rpower`), hence in theorems whose model
     contains `arccos`, `np.angle` or `exp`: C29, C44-C51, C63, C65, C66 (the arc
     similarity), C68 (onto), C70, C75, C76, C77, C78, C82; and by Flocq's lemmas: C87-C98, C100.
   The combinatorial part (C01-C17, C25, and others listed there) is closed under the global
   context. No axiom, parameter, functor or module type is declared here. Libraries used: Coq's
   standard library, and in the files about rounding (`SpecRound*`, `Round*`, `PropRound*`, `PropSingle`, `PropCover`)
   Flocq's definitions and lemmas about rounding; Flocq declares no axiom, and the theorems
   that use it (C87-C98, C100) rest on the four axioms above at most.
3. That the model is the code: the translation of Python to Gallina was done by hand. Citations in
   the model files make it reviewable. Facts about the environment that the translation relies on:
   * numpy/scipy semantics of the operations used (indexing with negative numbers, slicing,
     broadcasting where it occurs, `np.mod` floored, `np.rint`/`np.round` half to even,
     COO duplicates are added when converted to CSR, `or` on a sparse array raises);
   * numba: closures compiled with `@jit` copy captured arrays of at most 10^6 bytes at compile
     time and refer to the global memory of larger ones (C47); int32 buffers wrap (excluded by
     the theorems);
   * `for x in l` over a list that is being modified sees the modification (`parity`, C05).

## 3. What is modelled, what is not

| file | functions | model |
|---|---|---|
| combinatorial.py | all | CombinatorialModel |
| utils.py GeometryUtils | all six functions | GeometryModel |
| utils.py CohomologyUtils | lift, reindex, parity, order_simplex, sparse_cocycle_to_vector | CohomologyModel |
| | make_delta0, make_delta1, make_delta1_compact, make_delta2_compact | DeltaModel |
| utils.py PartUnity | linear, quadratic, exp | EMModel |
| utils.py EquivariantPCA | ppca | PPCAModel |
| utils.py GeometryExamples | all twelve | ExamplesModel |
| utils.py CircleMapUtils | all five | CircleModel |
| utils.py ProjectiveMapUtils, LensMapUtils | all six | MapUtilsModel |
| emcoords.py | EMCoords, all methods | EMModel |
| toroidalcoords.py | ToroidalCoords and the module's functions | ToroidalModel, RepairModel (milp branch), DeltaModel (inner product, cocycle test), LLLModel (_gram_schmidt, _lll) |
| circularcoords.py | CircularCoords | ToroidalModel |
| projectivecoords.py, lenscoords.py | ProjectiveCoords, LensCoords | ClassMapModel |
| complexprojectivecoords.py | ComplexProjectiveCoords and the module's functions | ComplexProjModel, RepairModel, DeltaModel |
| plotting_utils.py | all | PlotModel (as the list of requests to matplotlib) |

In double precision (`RoundModel`, every operation rounded): reduction of angles, the partition of unity,
the cover radius, the lattice reduction; and all of ToroidalCoords.get_coordinates
(`RoundTorusModel`), and of GeometryUtils get_csm, get_csm_projarc and get_greedy_perm_pc (`RoundGeomModel`), and of EquivariantPCA.ppca and
ProjectiveCoords.get_coordinates and LensCoords.get_coordinates (`RoundPPCAModel`), and of
ComplexProjectiveCoords.get_coordinates (`RoundCProjModel`), and of the map utilities to_sinebow, hopf_map,
circle_to_3dnorthpole, the stereographic projections of a rotated point and lens_3D_to_disk_3D (`RoundMapsModel`; not rotmat). The single precision of ripser: `cocycle_until_rounded`
(SpecRound). The other models compute with exact reals.

Not modelled: rounding in the other functions, overflow to infinity, time and memory use, text printed in
verbose mode, texts of warnings and errors (the classes of errors are), the inside of the external
functions listed above, rendering by matplotlib, `docs/`, `test/`, packaging. Arguments of the wrong
Python type (e.g. a string for a number) are not representable. Where numpy would broadcast an
argument of an unintended shape the comment at the definition says what is left out.

## 4. Properties: model and proof

| id | what is modelled | how it is proved |
|---|---|---|
| C01-C04 | the lookup table as a list of lists with checked reads; the numbering functions | induction on vertices and dimension, Pascal's rule; growth bounds for int64/int32 |
| C05-C07 | the parity loop over a list it mutates; argsort as a parameter with its contract; dense vectors | loop invariant over orbits, sign = product over inversions |
| C08, C09 | lift and in-place reindexing | arithmetic mod p; injectivity of the label map |
| C10-C14 | the coboundary loops writing into preallocated buffers, COO to CSR | loops = flat lists of entries, counting of buffer sizes, telescoping of faces |
| C15, C16 | the cocycle tests | loop invariants: equivalence with the coboundary over all present triangles/tetrahedra; the second result of the 1-cocycle test is the shortest side of a failing triangle |
| C17 | the inner product matrix | as C10 |
| C18, C19 | the repair branch with a milp oracle and its tolerance; for C18 also whole calls of CircularCoords (PropRepairCall) | divisibility; the error bound of rounding; a call raises exactly when the class has no integral lift (GraphExample: a graph where repair succeeds, a projective plane where it must fail) |
| C20, C21 | `or` on sparse arrays; the missing import | execution of the model, and the exact behaviour for all inputs |
| C22-C25 | the constructor over a ripser answer; selection of classes | permutations, sortedness |
| C26, C27, C74 | cover radius | real arithmetic; refutations at the boundary |
| C28, C29 | partition of unity with NaN columns; bump functions | real arithmetic, monotonicity of exp |
| C30-C36, C43 | the whole of ToroidalCoords.get_coordinates as a state transformer | algebra over R; induction over histories of calls |
| C52 | harmonic representatives | least squares: normal equations, uniqueness of the projection |
| C37-C42 | `_lll` with fuel over R | loop invariants (unimodularity), potentials for n = 2 and 3; refutations by exact rational execution inside Coq (LLLExecution), a cycle of states for the non-termination |
| C44-C46 | class maps over C, transition functions | algebra with unit complex numbers; C46 integrates 1-cochains |
| C47 | the array captured by a jitted closure as a parameter of the model | both branches characterised |
| C48-C51, C75, C76 | ppca with eigh as a parameter | loop invariants; unitary invariance; the Ky Fan principle (KyFan.v) |
| C53-C57 | CircleMapUtils over R with floored mod | algebra of mod 2 pi; histogram bins |
| C58-C63 | rotmat, stereographic projections, Hopf map, lens space to ball | linear isometries, trigonometry |
| C64-C67 | similarities and greedy permutations | Cauchy-Schwarz; invariants of furthest point sampling, factor-two optimality; contracts of KDTree and shortest_path |
| C68-C71, C77-C82 | the example data sets over any random generator | polynomial identities, trigonometry; for C71 an explicit asymmetric pair |
| C72, C73, C83, C84 | plotting: requests to matplotlib | arithmetic of grids; real arithmetic |
| C85 | the two stereographic pictures | a Lipschitz estimate |
| C86 | get_coordinates for several classes, with the number of turns of the lattice reduction as a parameter | the Gram matrix is positive definite iff the classes are independent (ToroidalSeveral); `_lll` depends only on inner products (LLLTwins), so an integer run decides the real one; an exact Cholesky factorisation is constructed to show that the contract can be met (Cholesky) |
| C87 | np.mod as numpy computes it from the exact fmod, rounded; offset, center, coordinates | Flocq's rounding errors; the refuted part exhibits a double whose reduction is 2 pi |
| C88 | the bump functions and get_covering_partition with every operation rounded, any order of summation | error of a sum by induction over the additions; underflow of exp: bounds on its argument |
| C89 | ripser's promise weakened to rounded distances (`cocycle_until_rounded`) in the exact model of the call | monotone rounding: an edge below the threshold rounds below the rounded threshold; counterexample with distances that round together |
| C90 | _lll with every operation rounded by an arbitrary function, integers checked against 2^53 | invariant: change has an integer inverse |
| C91 | get_cover_radius with every operation rounded | monotonicity of rounding; for 0.9 an analysis of the mantissa modulo 10; counterexample evaluated by hand |
| C92 | get_coordinates of ToroidalCoords with every operation on floats rounded (RoundTorusModel); sums in any order, any inner product with the usual error bound | error analysis of the sums and of the two reductions modulo 2 pi; the integers of the cocycles are exact, so lifts over two balls differ by exactly the cocycle; C90 for the change matrix; the weights of the inner product are 0 and 1, so the Gram matrix has the error of one inner product (RoundGram); the error of a recombination is bounded by the sum of the coefficients |
| C93 | get_csm and get_greedy_perm_pc with every operation rounded (RoundGeomModel); rows and products added up in any order, which may depend on the arrays and the entry | error of the sums of squares, of the product and of the root; C66 on the matrix of computed distances; counterexamples by rounding explicit numbers |
| C94 | get_csm_projarc with every operation rounded; any arc cosine accurate to 2^-52 | the arc cosine is Hoelder continuous of exponent 1/2 (mean value theorem for the sine) |
| C95 | ppca, real and complex, and ProjectiveCoords.get_coordinates with every operation rounded (RoundPPCAModel); eigh and matrix products are parameters | the Gram matrix does not see signs and everything else is odd; error of norm and quotient; weights from C88, radius from C91, triangles mod 2 as in C44 |
| C96 | LensCoords.get_coordinates with every operation rounded (RoundPPCAModel); powers of the root of unity are parameters with an accuracy | relative error of the weights from C88, through the square root and the product; triangles mod p as in C45; C95 for the sphere |
| C97 | ComplexProjectiveCoords.get_coordinates with every operation rounded (RoundCProjModel); exponential, lsqr, eigh are parameters; the frozen array of `_sparse_integrate` as in C46 | error of the residual, of the sum over the partition of unity, of the angle; cosine and sine are Lipschitz; radius from C91, weights from C88, sphere from C95, normal equations as in C92 |
| C98 | the calls of C92 and C95-C97 with histories of calls; deterministic external routines | the first half of a call forwards (RoundTorusCalls); the stored cocycles are lifted some number of times and lifting twice is lifting once; radius from C91 |
| C99 | get_coordinates of ProjectiveCoords, LensCoords, ComplexProjectiveCoords with histories of calls | induction on the history: same data, and stored cocycles equal up to the lift (CallFacts) |
| C100 | to_sinebow, hopf_map, circle_to_3dnorthpole, stereographic projections after the rotation, lens_3D_to_disk_3D with every operation rounded (RoundMapsModel); np.angle, np.abs, sin, cos are parameters with an accuracy | np.pi is computed from Machin's series (RoundConstants), the sector of the lens space by integer arithmetic for each q; error analysis; q = 17 refuted |

## 5. Departures from the documentation that are proved

* C20: with several classes, the second one that needs repair raises (`delta1 or ...` on a sparse array).
* C21: complex projective repair raises NameError (the module never binds the name `scipy`).
* C24: the `_coverage` attribute is 0, not the covering radius.
* C27: the documented rejection at 2*birth = death does not happen on the boundary.
* C35: a call overwrites the stored cocycle with its integer lift.
* C39, C40, C42: the stored Gram matrix, `_gram_schmidt` from three columns on, and `_lll` from three classes on
  (result not reduced; from five on there are inputs for which the loop never ends).
* C86: get_coordinates never returns for some five independent classes of an eight-point metric space; dependent
  classes (an index given twice) raise LinAlgError. (A simulation of the loop in floating point confirms the cycle.)
* C47: on data of at most 10^6 bytes the integrated phases are lost and the class map does not depend on the class.
* C51: the variance is zero in two modes and wrong for complex data.
* C58: `rotmat` of opposite vectors is the identity. C60: an argument outside the disk is clipped in place.
* C63: points of the core circle that the lens space identifies have different images. C67: not a permutation when points coincide.
* C70: `dim` is ignored. C71: the distance matrix of the Moore space is not symmetric.
* C73: an inverted axis loses its direction. C74: the radius used is not the documented one.
* C87: in double precision the reduction of an angle can yield 2 pi itself. C88: a covered point near the boundary of its ball is
  reported as uncovered (NaN) with the exponential bump functions. C89: with perc = 1 the coordinates can be those
  of a cochain that is not a cocycle, although the check passes, because ripser works in single precision.
  C91: with perc = 0.2 the computed threshold can exceed the death of the class.
  C93: get_csm loses distances far from the origin (2^27 and 2^27 + 1 get distance 0 and the greedy permutation repeats a
  landmark); C93, C94: the diagonal of a computed distance matrix need not be zero (about 2*10^-8 for points of norm 1).
* C84: the mesh has one meridian and two parallels fewer than asked for.
* C100: in double precision lens_3D_to_disk_3D draws a whole sector of the lens space of q = 17 (and of 29, 37, 41, 43, ...) a q-th of a turn away from its place, because floor is applied to a quotient just below an integer; its height is NaN if the absolute value of the second coordinate is 1 + 2^-52.

## 6. Files

| properties file | properties | vocabulary of the statements |
|---|---|---|
| PropCircle | C53, C54, C55, C56, C57 | SpecCircle, SpecEM |
| PropClassMap | C44, C45 | SpecClassMap, SpecCohomology, SpecEM, SpecPPCA, SpecToroidal |
| PropCohomology | C05, C06, C07, C08, C09 | SpecCohomology, SpecSimplex |
| PropCombinatorial | C01, C02, C03, C04 | SpecSimplex |
| PropComplexProj | C46, C47 | SpecClassMap, SpecCohomology, SpecComplexProj, SpecEM, SpecHarmonic, SpecLLL, SpecPPCA, SpecRips, SpecSimplex, SpecToroidal |
| PropDelta | C10, C11, C12, C13, C14, C15, C16, C17 | SpecRips, SpecSimplex |
| PropEM | C22, C23, C24, C25, C26, C27, C28, C29, C74 | SpecCohomology, SpecEM |
| PropExamples | C68, C69, C70, C71, C77, C78, C79, C80, C81, C82 | SpecEM, SpecExamples, SpecGeometry, SpecLLL, SpecMapUtils |
| PropGeometry | C64, C65, C66, C67 | SpecEM, SpecGeometry, SpecLLL, SpecMapUtils |
| PropGluing | C85 | SpecEM, SpecLLL, SpecMapUtils |
| PropHarmonic | C33, C39, C52 | SpecCircle, SpecCohomology, SpecEM, SpecHarmonic, SpecLLL, SpecRepair, SpecRips, SpecSimplex, SpecToroidal |
| PropLLL | C37, C40, C41, C42 | SpecCircle, SpecEM, SpecLLL |
| PropMapUtils | C58, C59, C60, C61, C62, C63 | SpecCircle, SpecEM, SpecLLL, SpecMapUtils |
| PropPPCA | C48, C49, C50, C51, C75, C76 | SpecEM, SpecPPCA |
| PropPlot | C72, C73, C83, C84 | SpecEM, SpecExamples, SpecGeometry, SpecLLL, SpecMapUtils, SpecPlot |
| PropRepair | C18, C19, C20, C21 | SpecRepair, SpecRips, SpecSimplex |
| PropRepairCall | C18 | SpecCircle, SpecCohomology, SpecEM, SpecHarmonic, SpecLLL, SpecRepair, SpecRips, SpecSimplex, SpecToroidal |
| PropRound | C87, C88, C90 | SpecRound |
| PropCover | C91 | SpecRound |
| RoundTorusModel, RoundTorusProofs, RoundHarmonic, RoundGram, RoundTorusFacts | ToroidalCoords.get_coordinates in double precision and lemmas | |
| PropRoundTorus, PropRoundCircular | C92 | SpecRound |
| RoundGeomModel, RoundGeomProofs | distances in double precision and lemmas | |
| PropRoundGeom | C93, C94 | SpecRoundGeom, SpecRound |
| RoundPPCAModel, RoundPPCAProofs, RoundPPCAExact, RoundClassMap | ppca and projective coordinates in double precision and lemmas | |
| PropRoundPPCA | C95 | SpecRoundPPCA, SpecClassMap, SpecRound |
| RoundLens | accuracy of class maps: lemmas | |
| PropRoundLens | C96 | SpecRoundPPCA, SpecClassMap, SpecRound |
| RoundCProjModel, RoundCProj, RoundCProjAngles, RoundCProjMap | complex projective coordinates in double precision and lemmas | |
| PropRoundCProj | C97 | SpecRoundCProj, SpecRoundPPCA, SpecComplexProj, SpecClassMap, SpecRound |
| CallFacts, RoundTorusCalls | effects of calls on the stored cocycles: lemmas (with the histories of C98) | |
| PropRoundCalls | C98 | SpecRound, SpecToroidal, SpecCalls |
| PropCalls | C99 | SpecCalls, SpecEM |
| RoundConstants | rounding a ratio of integers by computation, the value of np.pi | |
| RoundMapsModel, RoundLensMap | map utilities in double precision and lemmas | |
| PropRoundMaps | C100 | SpecRoundMaps, SpecRound |
| PropSingle | C89 | SpecRound, SpecToroidal |
| PropTermination | C86 | SpecCircle, SpecCohomology, SpecEM, SpecHarmonic, SpecLLL, SpecRepair, SpecRips, SpecSimplex, SpecTermination, SpecToroidal |
| PropTheta | C39 | SpecCircle, SpecCohomology, SpecEM, SpecHarmonic, SpecLLL, SpecRepair, SpecRips, SpecSimplex, SpecToroidal |
| PropToroidal | C30, C31, C32, C33, C43 | SpecCircle, SpecCohomology, SpecEM, SpecLLL, SpecRepair, SpecRips, SpecSimplex, SpecToroidal |
| PropTorusCalls | C34, C35, C36, C38 | SpecCircle, SpecCohomology, SpecEM, SpecLLL, SpecRepair, SpecRips, SpecSimplex, SpecToroidal |

Lemma files: `Base`, `BaseProofs` (result monad, loops, checked reads), `RealBase`, `RealSum`, `ComplexBase`,
`Argsort`; one `*Proofs`/`*Facts` file per model; `ParityProofs`, `SignProofs` (C05-C07), `RipsProofs`
(loops over the complex = lists of simplices), `KyFan`, `PPCAReductions` (the order in which ppca may reduce),
`LeastSquares` (an exact least squares solver, so that its contract is satisfiable), `Cholesky` (the same for
Cholesky), `LLLExecution` (exact execution of the lattice reduction over Q and its agreement with the model over R),
`LLLTwins`, `ToroidalCalls`, `ToroidalTotal`, `ToroidalSeveral` (whole calls), `GraphExample` (objects built from a
graph, an exhaustive integer-program solver meeting both contracts).
