# tinymesh in Rocq: design

Source under study: `/repo` (tatsy/tinymesh, C++), read as text only.
Proof assistant: Coq 8.16.1, standard library only (no third-party library is imported).

## 1. How the code is modelled

### 1.1 Numbers
`Num.v` defines a record `Num` of the arithmetic the code uses (`+ - * / sqrt`, comparisons, `isfinite`, and
the libm functions `acos`, `atan2`, `exp` as fields). All geometric and mesh code is written once, over an
arbitrary `Num`. Two instances are used:

* `NumF a e t`: IEEE binary64, Coq's primitive floats, with arbitrary functions `a e t` for `acos`, `exp`, `atan2`.
  Used for witnesses and examples; this is the arithmetic the C++ runs.
* `NumR`: the real numbers of the standard library. Used for geometric laws ("exact arithmetic" in the properties).

Theorems about connectivity hold for every `Num`, hence also for binary64 including NaN and infinities.
Two classes restrict `Num` where something is needed: `NumEq` (comparing positions is an equivalence on the positions
in question, i.e. no NaN) and `NumAngle` (what libm guarantees of `acos`: the result is between 0 and pi, or NaN).

### 1.2 Memory
The mesh is modelled as a heap. A pointer is `option nat` (`None` = `nullptr`). The state `mesh` holds the three
`std::vector`s as lists of addresses, `indices_`, and one map per C++ data member (`h_next : nat -> option nat`, ...)
together with liveness maps. Statements are in a state-and-error monad with the outcomes

* `Ok` - normal result,
* `UB` - undefined behaviour: null dereference, access to a freed or never allocated object, vector index out of range,
* `Abort` - a call of `Error(...)` or a failing `Assertion`, or an uncaught exception (zero division in `Vec`),
* `NoFuel` - a pointer-chasing loop did not come back within as many steps as there are objects, i.e. it runs forever.

Every function of the model is a line-by-line transcription and cites the lines it models.

### 1.3 What is specified where
`Spec.v` states the properties' vocabulary on its own: what a valid half-edge mesh is (in terms of the fields a user can
read: src, next, rev, face, index, halfedge), orbits, fans of a triangle soup, triangulations of a polygon, and so on.
The other `*Spec.v` files do the same for their area. They do not use the model's algorithms. `Prop*.v` files contain only
the property theorems, each closed by `exact`, with `Print Assumptions` below and an `Example` or a `_case` theorem showing
that the hypotheses are met by a non-trivial case.

If a property as a user would want it is false of the code, the false part is stated and refuted
(`..._refuted`, with a concrete witness), and the part that does hold is proved (`..._partial`).

## 2. Plan per property

| id | modelled | method |
|----|----------|--------|
| C01 | both `construct` overloads, `add*` | loop invariants for the five phases of construct; validity at the end |
| C02 | same, `getVertexIndices` | same invariants carry the list of accepted triangles |
| C03 | same | the fan condition implies that no phase aborts; termination of hole loops by injectivity of the rotation |
| C04 | same | counting argument: the orbit of a fan is a proper subset of the vertex' half-edges |
| C05 | duplicate check | invariant: edge map = edges of accepted triangles |
| C06 | degenerate removal loop | refuted by a concrete array; proved: which arrays have all of them dropped (decided by the position of the last one), all others end in an error |
| C07 | construct, loadOBJ/loadPLY on an existing object | refuted for construct and PLY; proved for OBJ and for objects with an empty index array |
| C08 | vertex de-duplication | induction over the index array |
| C09 | construct | refuted (vertex used only by skipped triangles); proved when every vertex has an accepted triangle |
| C10 | boundary loops in construct | bijection between unpaired half-edges |
| C11, C12 | iterators, `degree`, `numCorners`, `prev` | orbits of a permutation of a finite set |
| C13 | `numEdges`, `getMeanEdgeLength` | induction over the half-edge array with the visited set |
| C14 | `isBoundary`, flags set by construct | invariants of construct |
| C15, C16, C18 | `splitHE`, `flipHE`, `collapseHE`, `remove*` | symbolic execution, then surgery on orbit lists |
| C17, C19 | same | refuted by concrete meshes |
| C20 | same | all writes come after the last `return false` |
| C21 | `collapseFace` | refuted (returns false after a successful first collapse); safety proved |
| C22, C23 | sequences of edits | induction over the list of operations |
| C24 | `verify`, `verifyVertex` | completeness proved, soundness refuted |
| C25 | `fillHoles`, `holeFillMinDihedral_`, `addNewTriangle` | the split table describes a polygon triangulation; invariant over the list of new triangles |
| C26 | same | refuted: the outer half-edges keep their flag |
| C27, C28 | `clone`, `getVertices`, `getVertexIndices` | corollary of C01-C03; isolated triangles refuted |
| C29 | writers/readers as lists of lines and elements (`Io.v`) | round trip modulo an arbitrary rounding function, composed with C01-C03; three refutations |
| C30, C31, C32 | `smoothLaplacian`, `smoothTaubin` | loop bodies write disjoint cells; maximum principle over R |
| C33 | `implicitFairing`, `denoise*` update step | refuted |
| C34 | Laplacian assembly, `cotWeight` | sums over orbits |
| C35, C36 | `simplifyQEM` with arbitrary cost oracle | loop invariant; measure |
| C37 | `remeshTriangular` with arbitrary permutations | loop invariant |
| C38 | `Triangle::closestPoint` | refuted over R and over binary64; membership in the triangle, and the regions where it is right, proved |
| C39, C40, C47 | BVH, Bounds | induction over trees / lists over R |
| C41 | Hausdorff | symmetry proved, identity refuted |
| C42 | `getPrincipalCurvaturesFromTensors` | algebra over R; directions refuted |
| C43, C44, C46 | vec.h, vertex.cpp | algebra over R |
| C45 | Vec constructor | model of the component writes; refuted for two dimensions |
| C48 | ProgressBar arithmetic | refuted / proved over Z |
| C49 | `volonoiArea()` summed over vertices | C43 summed over the faces of a closed mesh; refuted next to holes |
| C50 | `getVertexIndices` on any valid mesh | induction over the face array |
| C51 | `Face::area`, `Face::normal` | algebra over R, invariance under rotation of the corners |
| C52, C53 | `simplifyQEM`, `remeshTriangular` | further invariants of the loops of C35-C37 |
| C54 | `fillHoles` | refuted; proved: every duplicate involves a new inner edge of a hole, and holes with three corners leave a valid mesh |
| C55 | the flip test in `collapseHE` | refuted; proved over R under a stated condition |
| C56 | `collapseHE` | its decision equals an independently stated predicate on the mesh |
| C57 | `smoothLaplacian`, `smoothTaubin` | the loops compute the stated step; over R |
| C58 | `implicitFairing` with an exact solver | rows of the assembled matrix; over R |

| C59 | `Vertex::K`, `volonoiArea` | exact arithmetic: sum over the half-edges of a vertex = sum over its triangles; double counting for Gauss-Bonnet; `Curv.v` |
| C60 | `Vertex::normal` | exact arithmetic: the loop computes the weighted sum; telescoping for the sphere; `CurvN.v` |
| C61 | `Vertex::H` | exact arithmetic: reindexing of the reversed ring; `CurvN.v` |
| C62 | `getMeanFaceArea`, `getMeanDihedralAngle` | any arithmetic; hole faces counted (witness); `Means.v` |
| C63 | `denoiseNormalGaussian`, `denoiseNormalBilateral` | exact arithmetic: invariants of the parallel loops give the value every vertex ends with; `DenoiseF.v`, `DenoiseR.v`, `DenoiseT.v` |
| C64 | kernel `K` of denoise.cpp | monotone on each side of 2 sigma, jumps up there (refuted) |
| C65 | `denoiseL0Smooth` | exact arithmetic: the matrix is that of a positive definite quadratic form, so solving it is minimising the energy; `LinR.v`, `L0P.v`, `L0T.v` |
| C66 | `denoiseL0Smooth` | positive definite systems have one solution (`LinR.v`), beta grows geometrically; beta <= 0 never ends (refuted) |
| C67 | `computeQEM`, quadrics, queue | exact arithmetic: the quadric of a vertex is the sum of the squared distances to its planes; the solved system is the condition for its minimum; `QemR.v`, `QemM.v` |
| C68 | `simplifyQEM` with its queue | induction on the loop over the queue; refinement of the model of C35/C36 in which any order is allowed; `QemP.v`, `QemT.v`, `QemC.v` |
| C69 | check for turned triangles | refuted on a concrete mesh; `QemC.v` says which edges pass the checks |
| C70 | `holeFillAdvancingFront_` | invariant of the loop over fronts (`FrontI.v`): a fan of new triangles (`FrontF.v`, `FrontA.v`, `FrontJ.v`, `FrontR.v`), a merge (`FrontM.v`, `FrontG.v`) and the last triangle keep it (`FrontS.v`, `FrontE.v`) |
| C71 | positions | from C70; refuted on a square hole (`FrontW.v`) |
| C72 | flags | from C70; refuted on a square hole (`FrontW.v`) |
| C73 | `holeFillContextCoherent` 97-110 | induction on the loop over faces, composing C70 (`FrontD.v`) |
| C74 | `getCurvatureTensors` | rotations and least squares over the reals (`TensorR.v`), loops over faces and around vertices (`TensorM.v`) |
| C75 | `getPrincipalCurvatures` | from C74: the best form of each face is 1/r times the metric (`TensorS.v`); refuted on the regular tetrahedron (`TensorW.v`) |
| C76 | `getPrincipalCurvatures` | the loop over faces reaches the assertion (`TensorW.v`) |
| C77 | `getHeatKernelSignatures` | sums over the reals (`HksP.v`) |
| C78 | `getHeatKernelSignatures`, `getMeshLaplacian` | Bessel's inequality, eigenvalues of a semidefinite form, the constant eigenvector (`HksP.v`, `HksT.v`, `HksW.v`) |
| C79 | `getHeatKernelSignatures` | two orthonormal eigenbases span the same space, by traces of projections (`HksR.v`); refuted with eigenvalues 0, 4, 4, 4 (`HksW.v`) |
| C80 | `getHeatKernelSignatures` | C77; propagation of NaN in binary64 (`HksF.v`) |
| C81 | `getMeshLaplacian` | half-edge sums regrouped by faces, Dirichlet energy of a triangle (`CotPsd.v`); refuted by computation (`CotW.v`) |
| C82 | `getPrincipalCurvaturesWithDerivatives`, `smoothingTensors` | positive definite normal equations of the cubic fit (`DerivR.v`), circulations (`DerivM.v`, `DerivT.v`, `DerivO.v`) |
| C83 | `getPrincipalCurvaturesWithDerivatives` | algebra in an orthonormal frame (`DerivR.v`); regular tetrahedron (`DerivW.v`) |
| C84 | `getFeatureLineFieldWithFlags` (lambda checkRV) | case analysis (`FeatR.v`), witness (`FeatW.v`) |
| C85 | `getFeatureLineFieldWithFlags` | circulations and accumulated marks (`FeatM.v`), renumbered system (`FeatS.v`, `FeatO.v`) |
| C86 | `getFeatureLineFieldWithFlags` | zero Dirichlet energy forces constants (`FeatE.v`), so the reduced matrix is positive definite (`FeatO.v`) |
| C87 | `getFeatureLineField` | from C86; spheres of radius above 100 (`FeatW.v`) |
| C88 | `getFeatureLineFieldWithFlags` (lambda checkRV) | case analysis, witness (`FeatW.v`) |
| C89 | `holeFillContextCoherent`, lines 118-181 | Jensen's inequality for the logarithm, per iteration (`GmmP.v`) |
| C90 | `solveRigidICP` | bound on the trace of a rotation times a diagonal matrix, decomposition about the means (`IcpP.v`), witness (`IcpW.v`) |
| C91 | `holeFillContextCoherent`, lines 510-632 | the sum of the edge lengths at a target decreases with every split by a fixed amount, its degree with every flip, the number of vertices with every collapse (`RepairP.v`); witnesses (`RepairW.v`) |
| C92 | `holeFillContextCoherent`, lines 202-263 | invariants of the breadth first search: distances in the queue, visited faces (`PatchP.v`) |
| C93 | lines 279-321 | sums and maxima of lists, sortedness and permutation of the insertion sort (`DescrP.v`, `CoherentR.v`) |
| C94 | lines 414-508 | the system has the rows of the cotangent operator, so that the harmonic extension of C86 solves it (`SoftP.v`, `MoveP.v`); read-only programs (`ReadOnly.v`) |
| C95 | the whole function | reads leave the mesh alone (`ReadOnly.v`), so that an outcome of the whole is an outcome of its parts (`CoherentP.v`) |
| C96 | core/completion.cpp 548-701, the relaxation in `holeFillAdvancingFront_` | the program computes normals, their smoothing by Gauss-Seidel steps and the system (`RelaxP.v`, `RelaxQ.v`); the operator is positive definite on the region, so that the system has one solution; linear functions are in the kernel of the operator (`LapGrad.v`, `RelaxR.v`) |
| C97 | the same | algebra of the rotation about an axis that is not of unit length (`RelaxA.v`); the cotangent operator applied to positions is the gradient of the area, a sum over corners (`LapGrad.v`) |
| C98 | `getMeshLaplacian`, `cotWeight`, `Face::area` | derivative of the area of a triangle with a moving corner; the sum over half-edges of a vertex is regrouped into its triangles (`LapGrad.v`, `AreaGrad.v`) |
| C99 | all of `holeFillAdvancingFront` (completion.cpp 230-702) | composition of C70 and C96: the breadth-first search finds exactly the unlocked vertices next to the last triangle (`WholeP.v`); the relaxation is safe on any well-formed mesh (`Safe.v`, `RelaxS.v`) and does not read boundary flags (`RelaxB.v`), which the front leaves wrong |
| C100 | construction, edits, hole filling and the front on a moved mesh | equivariance of each function of the model, composed (`RigidM.v`, `RigidE.v`, `RigidF.v`): running on the moved mesh gives the moved outcome, also for undefined behaviour; rotations are the linear maps that keep dot and cross products (`RigidSpec.v`) |
| C101 | queries and operators on a moved mesh | the same |
| C102 | the parallel filters and remeshing on a moved mesh | smoothing: the pass computed by C30 commutes with the motion (`RigidS.v`); filters of normals: a simulation between the two memories for every schedule (`RigidP.v`); remeshing: composition (`RigidR.v`) |
| C103 | BVH distances and the Hausdorff distance on a moved pair of meshes | the closest point of a triangle moves along (`RigidH.v`); both trees agree with the minimum over all triangles by C40, so their shapes do not matter; refuted beyond 1e20 |
| C104 | QEM simplification with its queue on a moved mesh | the minimiser and the cost of a quadric move along by an identity in homogeneous coordinates; then induction over the queue (`RigidQ.v`); the converse by undoing the motion (`RigidI.v`) |
| C105 | implicit fairing on a moved mesh | the matrix does not change and its rows add up to 1, so solutions move along; induction over the iterations (`RigidG.v`) |
| C106 | holeFillMinDihedral and fillHoles on holes in flat regions | invariant of the tables: the angle is 0 exactly where the interval is cut without folds, and the area is at least the signed area, with equality only then, so neither reason to replace a cut can bring a fold in (`FlatF.v`); that patches of other holes do not matter (`FlatP.v`) |
| C107 | holeFillMinDihedral on holes with four corners | the tables are computed symbolically (`CutF.v`), which gives the rule by which the diagonal is chosen (`CutP.v`); two refutations of the claim with meshes whose bends are compared by the signs of dot products (`CutE.v`) |
| C108 | holeFillMinDihedral with its default bound on holes with four corners | from the same rule, as angles never differ by more than PI; refuted by a hole whose larger filling bends less (`CutE.v`) |
| C109 | construct, splitHE, flipHE, collapseHE, collapseFace, verify, triangulate, fillHoles, the loop of the advancing front | each function is related step by step to itself on the scaled mesh (`ScaleM.v`, `ScaleE.v`, `ScaleF.v`, `ScaleH.v`); the tables of hole filling hold values that scale and an initial value that does not, so they are related by an invariant (`ScaleG.v`) |
| C110 | length, area, normal, dihedral angle and their means | the same relation, with the factor that a value gains (`ScaleE.v`, `ScaleF.v`) |
| C111 | smoothLaplacian, smoothTaubin, both normal filters, remeshTriangular | every run is matched with a run on the scaled mesh (`ScaleS.v`, `ScaleP.v`, `ScaleR.v`); scaling back gives the converse |
| C112 | cotWeight, the cotangent operator, one pass of smoothing | the weights are rewritten with sines and cosines of the corners (`ScaleC.v`); refuted with a regular tetrahedron |
| C113 | Mesh(vertices, indices) | welding keeps the triangles in space; edges, links and fans are carried from one numbering to the other (`Order.v`), so the characterisations of C03 and C04 apply to both; refuted with three triangles on a square |
| C114 | Vertex::degree, volonoiArea, K, normal, H | the corners around a vertex, as triples of points, are a permutation of those around its twin (`OrderM.v`), and each measurement is a sum over them |
| C115 | smoothLaplacian, smoothTaubin | vertices at the same point are paired; adjacency, triangles, flags and locks correspond (`OrderS.v`), so each pass of the specification of C57 keeps the pairing |
| C116 | denoiseNormalGaussian, denoiseNormalBilateral | the pairing of C115 extended to half-edges and faces (`OrderD.v`): normals, centroids, areas, weights and the mean edge length agree, so each pass of the specification of C63 keeps the pairing |
Not expressible in this model and left out: text formatting of numbers (`operator<<`, `%f`), file-system errors, the
numerical solvers of Eigen/Spectra (treated as oracles), performance, and the Python reference counts.

## 3. Trusted base

1. Coq 8.16.1: kernel and its conversion tests, including the VM (`vm_compute` is used in `Prop*`-adjacent witness files:
   `Refute.v`, `Examples.v`, `*W.v`, `*Ex.v`). `coqchk` re-checks every compiled file without the VM.
2. The axioms listed per theorem in section 3.1. They all come from the standard library:
   * `PrimFloat.*`, `PrimInt63.*`: the kernel's binary64 and 63-bit integer primitives (types and operations, no axioms about them);
   * `FloatAxioms.eqb_spec`: the standard library's specification of `PrimFloat.eqb` (one theorem only);
   * `ClassicalDedekindReals.sig_forall_dec`, `ClassicalDedekindReals.sig_not_dec`: the standard library's reals;
   * `Classical_Prop.classic`: excluded middle (through `Rtrigo`, `Ratan`, ... of the standard library);
   * `FunctionalExtensionality.functional_extensionality_dep`.
   Not a single theorem uses an axiom, `Variable`, `Hypothesis` or `Parameter` of this development.
3. The transcription of C++ into the model (sections 3.2, 3.3): read and checked by hand, function by function, and probed with
   seeded faults (`seeded/LOG.jsonl`).
4. The statements: the `Spec` files and the `Prop` files.

### 3.1 `Print Assumptions` per theorem

`reals` = `sig_forall_dec` and `sig_not_dec`; `funext` = `functional_extensionality_dep`; `float/int63 primitives` = some of
`PrimFloat.{float,abs,add,classify,div,eqb,leb,ltb,mul,of_uint63,opp,sqrt,sub,frshiftexp,normfr_mantissa}` and `PrimInt63.{int,eqb,land,lor,lsl,lsr,sub}`.

| theorem | file | assumptions |
|---|---|---|
| `C01_construct_valid` | PropBuild.v | none |
| `C02_construct_faithful` | PropBuild.v | none |
| `C03_manifold_accepted` | PropBuild.v | none |
| `C03_manifold_accepted_distinct` | PropBuild.v | none |
| `C04_nonmanifold_rejected` | PropBuild.v | none |
| `C05_skipped_iff_repeated` | PropBuild.v | none |
| `C06_all_dropped_partial` | PropBuild.v | none |
| `C06_degenerate_dropped_partial` | PropBuild.v | none |
| `C06_degenerate_refuted` | PropBuild.v | float/int63 primitives |
| `C06_some_left` | PropBuild.v | none |
| `C07_load_obj` | PropIo.v | none |
| `C07_replace_out_of_bounds_refuted` | PropBuild.v | float/int63 primitives |
| `C07_replace_partial` | PropBuild.v | none |
| `C07_replace_refuted` | PropBuild.v | float/int63 primitives |
| `C08_welded` | PropBuild.v | none |
| `C09_classified_partial` | PropBuild.v | none |
| `C09_no_ub_partial` | PropBuild.v | none |
| `C09_no_ub_refuted` | PropBuild.v | float/int63 primitives |
| `C09_outcomes_partial` | PropBuild.v | none |
| `C10_hole_faces` | PropBuild.v | none |
| `C11_circulate_vertex` | PropQuery.v | none |
| `C12_circulate_face` | PropQuery.v | none |
| `C12_prev` | PropQuery.v | none |
| `C13_meanEdgeLength` | PropQuery.v | none |
| `C13_numEdges` | PropQuery.v | none |
| `C14_boundary` | PropBuild.v | none |
| `C15_split` | PropEdit.v | none |
| `C16_flip` | PropEdit.v | none |
| `C17_flip_partial` | PropEdit.v | none |
| `C17_flip_refuted` | PropEdit.v | float/int63 primitives |
| `C18_collapse_nan_refuted` | PropEdit.v | float/int63 primitives |
| `C18_collapse_partial` | PropEdit.v | none |
| `C19_one_gap_partial` | PropEdit.v | none |
| `C19_one_gap_refuted` | PropEdit.v | float/int63 primitives |
| `C20_refused` | PropEdit.v | none |
| `C21_collapseFace_partial` | PropEdit.v | none |
| `C21_collapseFace_refuted` | PropEdit.v | float/int63 primitives |
| `C22_edit_sequences` | PropEdit.v | none |
| `C22_edit_sequences_exact` | PropEdit.v | none |
| `C23_edits_euler` | PropEdit.v | none |
| `C23_fill_euler` | PropFill.v | none |
| `C24_verify_partial` | PropQuery.v | none |
| `C24_verify_refuted` | PropQuery.v | float/int63 primitives |
| `C25_fill` | PropFill.v | none |
| `C25_fill_again` | PropFill.v | none |
| `C25_fill_constructed` | PropFill.v | none |
| `C25_fill_edited` | PropFill.v | none |
| `C26_flags_refuted` | PropFill.v | float/int63 primitives |
| `C26_no_hole_partial` | PropFill.v | none |
| `C27_C28_single_triangle_refuted` | PropBuild.v | float/int63 primitives |
| `C27_clone_partial` | PropBuild.v | none |
| `C28_indices_partial` | PropBuild.v | none |
| `C29_C07_load_ply_refuted` | PropIo.v | float/int63 primitives |
| `C29_alone_refuted` | PropIo.v | float/int63 primitives |
| `C29_rounding_refuted` | PropIo.v | float/int63 primitives |
| `C29_save_load_partial` | PropIo.v | none |
| `C30_smoothing` | PropSmooth.v | funext |
| `C30_stays_valid` | PropSmooth.v | none |
| `C31_denoise_deterministic` | PropSmooth.v | funext |
| `C31_deterministic` | PropSmooth.v | funext |
| `C32_bounding_box` | PropSmooth.v | reals, classic, funext |
| `C33_denoise_refuted` | PropSmooth.v | float/int63 primitives |
| `C33_fairing_refuted` | PropSmooth.v | float/int63 primitives, reals, classic, funext, eqb_spec |
| `C33_l0_refuted` | PropL0.v | float/int63 primitives, reals, classic, funext, eqb_spec |
| `C33_locked_partial` | PropSmooth.v | funext |
| `C34_adjacent` | PropSmooth.v | reals, classic, funext |
| `C34_belkin` | PropSmooth.v | reals, classic, funext |
| `C34_cotangent` | PropSmooth.v | reals, classic, funext |
| `C35_simplify` | PropRemesh.v | funext |
| `C36_simplify` | PropRemesh.v | funext |
| `C36_simplify_exact` | PropRemesh.v | reals, classic, funext |
| `C37_remesh` | PropRemesh.v | funext |
| `C37_remesh_exact` | PropRemesh.v | reals, classic, funext |
| `C38_closestPoint_partial` | PropGeom.v | reals, classic, funext |
| `C38_closestPoint_refuted` | PropGeom.v | reals, classic, funext |
| `C38_inside_refuted` | PropGeom.v | reals, classic, funext |
| `C39_bvh_agrees` | PropGeom.v | reals, classic, funext |
| `C40_bvh_build` | PropGeom.v | reals, classic, funext |
| `C41_empty_refuted` | PropGeom.v | reals, classic, funext |
| `C41_hausdorff_partial` | PropGeom.v | reals, classic, funext |
| `C41_hausdorff_self_refuted` | PropGeom.v | float/int63 primitives |
| `C41_nearest_point` | PropGeom.v | reals, classic, funext |
| `C42_principal_partial` | PropGeom.v | reals, classic, funext |
| `C42_principal_refuted` | PropGeom.v | reals, classic, funext |
| `C43_corner_areas` | PropGeom.v | reals, classic, funext |
| `C44_products_partial` | PropGeom.v | reals, classic, funext |
| `C44_subtract_scalar_refuted` | PropGeom.v | reals, classic, funext |
| `C44_vector_space_partial` | PropGeom.v | reals, classic, funext |
| `C45_constructor_partial` | PropGeom.v | none |
| `C45_constructor_refuted` | PropGeom.v | none |
| `C46_dihedral` | PropGeom.v | reals, classic, funext |
| `C47_bounds` | PropGeom.v | reals, classic, funext |
| `C48_finish_partial` | PropGeom.v | none |
| `C48_progress_no_throw_partial` | PropGeom.v | none |
| `C48_progress_partial` | PropGeom.v | none |
| `C48_progress_throws_refuted` | PropGeom.v | none |
| `C48_progress_undefined_refuted` | PropGeom.v | none |
| `C49_areas_closed_partial` | PropGeom.v | reals, classic, funext |
| `C49_areas_open_refuted` | PropGeom.v | float/int63 primitives |
| `C50_indices_valid` | PropGeom.v | none |
| `C51_face_area` | PropGeom.v | reals, classic, funext |
| `C51_face_normal` | PropGeom.v | reals, classic, funext |
| `C51_toTriangle` | PropDen.v | reals, classic, funext |
| `C52_boundary` | PropRemesh.v | funext |
| `C53_euler` | PropRemesh.v | funext |
| `C54_duplicate_edges_partial` | PropFill.v | none |
| `C54_duplicate_edges_refuted` | PropFill.v | float/int63 primitives |
| `C55_turned_partial` | PropCollapse.v | reals, classic, funext |
| `C55_turned_refuted` | PropCollapse.v | float/int63 primitives |
| `C56_collapse_iff` | PropCollapse.v | none |
| `C57_laplacian` | PropSmooth.v | reals, classic, funext |
| `C57_taubin` | PropSmooth.v | reals, classic, funext |
| `C58_fairing` | PropSmooth.v | reals, classic, funext |
| `C59_angle_defect` | PropCurv.v | reals, classic, funext |
| `C59_gauss_bonnet` | PropCurv.v | reals, classic, funext |
| `C60_side` | PropCurv.v | reals, classic, funext |
| `C60_sphere` | PropCurv.v | reals, classic, funext |
| `C60_vertex_normal` | PropCurv.v | reals, classic, funext |
| `C61_flat` | PropCurv.v | reals, classic, funext |
| `C61_mean_curvature` | PropCurv.v | reals, classic, funext |
| `C62_dihedral` | PropCurv.v | none |
| `C62_face_area_partial` | PropCurv.v | none |
| `C62_open_refuted` | PropCurv.v | float/int63 primitives |
| `C63_bilateral` | PropDen.v | reals, classic, funext |
| `C63_bilateral_succeeds` | PropDen.v | reals, classic, funext |
| `C63_gaussian` | PropDen.v | reals, classic, funext |
| `C63_gaussian_succeeds` | PropDen.v | reals, classic, funext |
| `C64_kernel_partial` | PropDen.v | reals, classic, funext |
| `C64_kernel_refuted` | PropDen.v | reals, classic, funext |
| `C65_l0` | PropL0.v | reals, classic, funext |
| `C65_operator_flat` | PropL0.v | reals, classic, funext |
| `C66_ends_partial` | PropL0.v | reals, classic, funext |
| `C66_never_refuted` | PropL0.v | reals, classic, funext |
| `C67_queue` | PropQem.v | reals, classic, funext |
| `C68_first` | PropQem.v | reals, classic, funext |
| `C68_refines` | PropQem.v | none |
| `C68_returns` | PropQem.v | reals, classic, funext |
| `C69_checked_partial` | PropQem.v | reals, classic, funext |
| `C69_turned_refuted` | PropQem.v | float/int63 primitives |
| `C70_front` | PropFront.v | none |
| `C70_front_constructed` | PropFront.v | none |
| `C70_front_real` | PropFront.v | reals, classic, funext |
| `C71_rim_partial` | PropFront.v | none |
| `C71_rim_refuted` | PropFront.v | float/int63 primitives |
| `C72_flags_partial` | PropFront.v | none |
| `C72_flags_refuted` | PropFront.v | float/int63 primitives |
| `C73_all` | PropFront.v | none |
| `C73_all_constructed` | PropFront.v | none |
| `C74_rotation` | PropTensor.v | reals, classic, funext |
| `C74_tensors` | PropTensor.v | reals, classic, funext |
| `C74_total` | PropTensor.v | reals, classic, funext |
| `C75_sphere_partial` | PropTensor.v | reals, classic, funext |
| `C75_sphere_refuted` | PropTensor.v | float/int63 primitives, reals, classic, funext, eqb_spec |
| `C75_sphere_total_partial` | PropTensor.v | reals, classic, funext |
| `C76_every_mesh_partial` | PropTensor.v | none |
| `C76_every_mesh_refuted` | PropTensor.v | float/int63 primitives |
| `C77_signatures` | PropHks.v | reals, classic, funext |
| `C78_mesh` | PropHks.v | reals, classic, funext |
| `C78_operator` | PropHks.v | reals, classic, funext |
| `C79_determined_partial` | PropHks.v | reals, classic, funext |
| `C79_determined_refuted` | PropHks.v | float/int63 primitives, reals, classic, funext, eqb_spec |
| `C80_many_partial` | PropHks.v | reals, classic, funext |
| `C80_once_refuted` | PropHks.v | float/int63 primitives, add_spec, div_spec, eqb_spec, mul_spec, opp_spec |
| `C80_one_refuted` | PropHks.v | none |
| `C81_cotangent_partial` | PropHks.v | reals, classic, funext |
| `C81_cotangent_refuted` | PropHks.v | float/int63 primitives |
| `C82_derivatives` | PropDeriv.v | reals, classic, funext |
| `C82_holes` | PropDeriv.v | none |
| `C82_smoothing` | PropDeriv.v | reals, classic, funext |
| `C82_total` | PropDeriv.v | reals, classic, funext |
| `C83_form_partial` | PropDeriv.v | reals, classic, funext |
| `C83_form_refuted` | PropDeriv.v | float/int63 primitives, reals, classic, funext, eqb_spec |
| `C84_edges` | PropFeat.v | reals, classic, funext |
| `C84_order` | PropFeat.v | reals, classic, funext |
| `C84_sign_partial` | PropFeat.v | reals, classic, funext |
| `C84_sign_refuted` | PropFeat.v | reals, classic, funext |
| `C85_field` | PropFeat.v | reals, classic, funext |
| `C85_marks` | PropFeat.v | reals, classic, funext |
| `C86_extension` | PropFeat.v | reals, classic, funext |
| `C87_spheres_refuted` | PropFeat.v | reals, classic, funext |
| `C87_works_partial` | PropFeat.v | reals, classic, funext |
| `C87_works_refuted` | PropFeat.v | float/int63 primitives, reals, classic, funext, eqb_spec |
| `C88_inverted_partial` | PropFeat.v | reals, classic, funext |
| `C88_inverted_refuted` | PropFeat.v | reals, classic, funext |
| `C89_fit_partial` | PropMix.v | reals, classic, funext |
| `C89_fit_refuted` | PropMix.v | reals, classic, funext |
| `C89_likelihood_partial` | PropMix.v | reals, classic, funext |
| `C89_radius_partial` | PropMix.v | reals, classic, funext |
| `C90_error_refuted` | PropMix.v | reals, classic, funext |
| `C90_motion_partial` | PropMix.v | reals, classic, funext |
| `C91_collapses_partial` | PropRepair.v | reals, classic, funext |
| `C91_edges_partial` | PropRepair.v | reals, classic, funext |
| `C91_faces_refuted` | PropRepair.v | float/int63 primitives |
| `C91_flips_partial` | PropRepair.v | reals, classic, funext |
| `C91_locked_refuted` | PropRepair.v | float/int63 primitives, reals, classic, funext |
| `C91_signatures_partial` | PropRepair.v | none |
| `C92_patches` | PropCoherent.v | none |
| `C93_candidates_partial` | PropCoherent.v | reals, classic, funext |
| `C93_constant_refuted` | PropCoherent.v | reals, classic, funext |
| `C93_deviation_partial` | PropCoherent.v | reals, classic, funext |
| `C93_deviation_refuted` | PropCoherent.v | reals, classic, funext |
| `C93_mean_partial` | PropCoherent.v | reals, classic, funext |
| `C94_locked_stay` | PropCoherent.v | none |
| `C94_step` | PropCoherent.v | reals, classic, funext |
| `C95_few_locked_refuted` | PropCoherent.v | none |
| `C95_returns_partial` | PropCoherent.v | none |
| `C95_small_refuted` | PropCoherent.v | float/int63 primitives |
| `C96_flat` | PropRelax.v | reals, classic, funext |
| `C96_relaxation` | PropRelax.v | reals, classic, funext |
| `C96_unique` | PropRelax.v | reals, classic, funext |
| `C97_dome_partial` | PropRelax.v | reals, classic, funext |
| `C97_dome_refuted` | PropRelax.v | float/int63 primitives, reals, classic, funext, eqb_spec |
| `C97_rest_partial` | PropRelax.v | reals, classic, funext |
| `C97_still_partial` | PropRelax.v | reals, classic, funext |
| `C97_turn_partial` | PropRelax.v | reals, classic, funext |
| `C97_turn_refuted` | PropRelax.v | reals, classic, funext |
| `C98_energy_partial` | PropArea.v | reals, classic, funext |
| `C98_gradient_partial` | PropArea.v | reals, classic, funext |
| `C98_tiny_refuted` | PropArea.v | float/int63 primitives, reals, classic, funext, eqb_spec |
| `C99_filled` | PropWhole.v | none |
| `C99_filled_constructed` | PropWhole.v | none |
| `C99_filled_real` | PropWhole.v | reals, classic, funext |
| `C99_moved` | PropWhole.v | none |
| `C99_relaxed` | PropWhole.v | reals, classic, funext |
| `C99_same` | PropWhole.v | none |
| `C99_three` | PropWhole.v | none |
| `C99_triangulated` | PropWhole.v | none |
| `C100_construct` | PropRigid.v | reals, classic, funext |
| `C100_edits` | PropRigid.v | reals, classic, funext |
| `C100_filling` | PropRigid.v | reals, classic, funext |
| `C100_front` | PropRigid.v | reals, classic, funext |
| `C101_measures` | PropRigid.v | reals, classic, funext |
| `C101_normals` | PropRigid.v | reals, classic, funext |
| `C101_positions` | PropRigid.v | reals, classic, funext |
| `C102_denoising` | PropRigid.v | reals, classic, funext |
| `C102_onto` | PropRigid.v | reals, classic, funext |
| `C102_remeshing` | PropRigid.v | reals, classic, funext |
| `C102_smoothing` | PropRigid.v | reals, classic, funext |
| `C103_distances_partial` | PropRigid.v | reals, classic, funext |
| `C103_far_refuted` | PropRigid.v | reals, classic, funext |
| `C103_hausdorff_partial` | PropRigid.v | reals, classic, funext |
| `C104_simplification` | PropRigid.v | reals, classic, funext |
| `C105_fairing` | PropRigid.v | reals, classic, funext |
| `C106_convex` | PropFlat.v | reals, classic, funext |
| `C106_fill` | PropFlat.v | reals, classic, funext |
| `C106_hole` | PropFlat.v | reals, classic, funext |
| `C107_bound_refuted` | PropFlat.v | float/int63 primitives, reals, classic, funext |
| `C107_four_partial` | PropFlat.v | reals, classic, funext |
| `C107_last_refuted` | PropFlat.v | float/int63 primitives, reals, classic, funext |
| `C108_four_partial` | PropFlat.v | reals, classic, funext |
| `C108_refuted` | PropFlat.v | float/int63 primitives, reals, classic, funext |
| `C109_construct` | PropScale.v | reals, classic, funext |
| `C109_edits` | PropScale.v | reals, classic, funext |
| `C109_filling` | PropScale.v | reals, classic, funext |
| `C109_front` | PropScale.v | reals, classic, funext |
| `C110_lengths_areas` | PropScale.v | reals, classic, funext |
| `C110_normals_angles` | PropScale.v | reals, classic, funext |
| `C110_positions` | PropScale.v | reals, classic, funext |
| `C111_denoising` | PropScale.v | reals, classic, funext |
| `C111_onto` | PropScale.v | reals, classic, funext |
| `C111_remeshing` | PropScale.v | reals, classic, funext |
| `C111_smoothing` | PropScale.v | reals, classic, funext |
| `C112_cotangent_partial` | PropScale.v | reals, classic, funext |
| `C112_unit_refuted` | PropScale.v | float/int63 primitives, reals, classic, funext, eqb_spec |
| `C113_order_partial` | PropOrder.v | none |
| `C113_order_refuted` | PropOrder.v | float/int63 primitives |
| `C114_measured` | PropOrder.v | reals, classic, funext |
| `C114_whole` | PropOrder.v | reals, classic, funext |
| `C115_returns` | PropOrder.v | reals, classic, funext |
| `C115_smoothing` | PropOrder.v | reals, classic, funext |
| `C116_denoising` | PropOrder.v | reals, classic, funext |

### 3.2 What is modelled

| code | model |
|------|-------|
| core/vec.h | `Vec.v`, `VecN.v` |
| core/vertex.cpp, halfedge.cpp, face.cpp and the iterators of their headers | `Mesh.v`, `Measure.v`, `Lapl.v` |
| core/mesh.cpp 51-365, 562-1064: construction, queries, `splitHE`, `collapseHE`, `collapseFace`, `flipHE`, `fillHoles`, `triangulate`, `verify`, `add*`, `remove*` | `Mesh.v`, `Construct.v`, `Measure.v`, `Fill.v` |
| core/mesh.cpp 69-86, 109-136, 367-560: load, save, clone, getVertices, getVertexIndices | `Clone.v`, `Indices.v`, `Io.v` |
| core/completion.cpp 23-228: `addNewTriangle`, `holeFillMinDihedral_` | `Fill.v` |
| core/bounds.h, triangle.h/.cpp, bvh.cpp | `Bounds.v`, `Bvh.v` |
| core/progress.h | `Progress.v` |
| ops/operators.cpp | `Lapl.v` |
| ops/features.cpp 34-81 | `Features.v` |
| ops/metrics.cpp | `Hausdorff.v` |
| filters/smooth.cpp | `Smooth.v`, `Fair.v`, `Prog.v` |
| filters/denoise.cpp 19-172: Gaussian and bilateral normal filters | `Smooth.v` |
| remesh/remesh.cpp | `Remesh.v` |
| remesh/simplify.cpp 27-62, 115-371 | `Simplify.v` |
| filters/denoise.cpp 174-314 | `L0.v` |
| remesh/simplify.cpp 68-113, 139-192 (quadrics, costs, queue) | `Qem.v` |
| core/completion.cpp 230-546 (`holeFillAdvancingFront_`; the new positions inside are an arbitrary function) | `Front.v` |
| restore/completion.cpp 93-110 | `FrontC.v` |
| ops/features.cpp 21-23, 83-127, 178-340, core/utils.h 31-56 (`getCurvatureTensors`, `smoothingTensors`, `getPrincipalCurvatures`; the solver and cos, sin are parameters) | `Tensor.v` |
| ops/features.cpp 131-173 (`getHeatKernelSignatures`; the eigenvalue solver and log are parameters) | `Hks.v` |
| ops/features.cpp 25-32, 342-500 (`getPrincipalCurvaturesWithDerivatives`) | `Deriv.v` |
| ops/features.cpp 501-736 (`getFeatureLineField`, `getFeatureLineFieldWithFlags`) | `Feat.v` |
| restore/completion.cpp 26-85 (`solveRigidICP`) | `Icp.v` |
| restore/completion.cpp 118-181 (mixture and patch radius) | `Gmm.v` |
| restore/completion.cpp 510-632 (repair of the mesh) | `Repair.v` |
| restore/completion.cpp 97-117, 182-509, 633-638 (the rest of the context coherent completion) | `Coherent.v` |
| core/completion.cpp 548-701 (the new positions inside) | `Relax.v` |
Not modelled: Eigen and Spectra, tinyobj and tinyply, the Python bindings, the examples, and `utils.h`'s
diagnostics printing.

### 3.3 Simplifications

* Addresses are natural numbers and are never reused; a freed object stays known as freed, so that any later access is `UB`.
  Sizes and counters are unbounded: overflow of `int` and `uint32_t` is not modelled (an index of the input array is
  a natural number).
* `std::vector`, `std::set`, `std::unordered_map` are lists or functions. Where the order of iterating a hash
  table can be observed the model takes an arbitrary order.
* `collapseHE`: the four degree tests are evaluated without short-circuiting; none of them has an effect.
* OpenMP loops (`Prog.v`): every interleaving of the iterations' single reads and writes; data races would show as
  results that depend on the interleaving.
* `implicitFairing`: the matrix is assembled as in the code, the solver is an oracle (C33: arbitrary; C58: exact).
* `simplifyQEM`: edge costs and optimal positions are arbitrary oracles, hence every computation of the quadrics is covered;
  non-verbose, i.e. without the progress line (C48 has it on its own).
* `remeshTriangular`: the random shuffles are arbitrary permutations.
* `holeFillMinDihedral_`: the unqualified `abs` is an arbitrary function; `O[i][j] = -1` is `None`; a missing entry of
  `he2pair` is the pair (0,0), as `operator[]` inserts it.
* Files (`Io.v`): a file is the list of its lines (OBJ) or of its elements (PLY); how numbers are printed and parsed is an
  arbitrary codec with arbitrary rounding.

## 4. What was found in the code

1. `construct` removes degenerate triangles by swapping with the last one but does not look at the one swapped in (C06); the order of triangles changes.
2. `construct(vertices, indices)` and `loadPLY` do not clear the index array of the object, `loadOBJ` does (C07, C29).
3. An index that is out of range, or an index array whose length is not a multiple of three, is read out of bounds.
4. A vertex used only by skipped or dropped triangles is a null dereference before the "not referenced" check (C09).
5. `getVertexIndices` gives the corners rotated; `clone` renumbers.
6. A triangle sharing no edge with another is reported as a hole and lost by `clone`, `getVertexIndices` and `save` (C27-C29).
7. `flipHE` on a boundary edge next to a hole with more than three corners corrupts the mesh; `verify` then never returns (C17).
8. `collapseHE` can pinch the boundary (C19).
9. `collapseFace` may return false after having changed the mesh (C21).
10. `fillHoles` leaves `isBoundary_` of the outer half-edges set (C26).
11. `holeFillAdvancingFront_` tests `isLocked` of the same vertex twice instead of both ends of the edge.
12. `verify` does not check `rev`, `next` and `face` against each other (C24).
13. `implicitFairing` and the normal filters move locked vertices and boundary vertices (C33).
14. Vector minus scalar multiplies (C44); the three-argument constructor writes out of bounds below three dimensions (C45).
15. `Triangle::closestPoint` uses `p - p2` where `p - p1` is meant: the answer is always on the two edges at the first corner (C38). Hence the Hausdorff distance of a mesh to itself need not be 0 (C41). A BVH of a mesh without faces dereferences null; queries farther than 1e20 return the origin.
16. `simplifyQEM`: moves the vertex before a collapse that fails; when the collapse swaps its ends the optimal position is lost; the flip check looks only at triangles containing both ends; locks are ignored; the progress bar throws for small totals (C48).
17. The two principal directions are exchanged (C42).
18. A NaN position is never recognised as welded; each reference makes a new vertex but index 0 is used.
19. `UnionFindTree::same` compares values instead of roots (unused).
20. `getMeanFaceArea` includes hole faces.
21. PLY's single precision may weld vertices (C29); `fillHoles` may create duplicate edges, which breaks `clone` (C54).
22. Smoothing throws if the weights of a vertex add up to 0; `implicitFairing` divides without a check.
23. `remeshTriangular` can remove boundary vertices.
24. `collapseHE` on a vertex with a NaN position fails its assertion (C18).
25. progress.h: conversion of infinity to int in the first millisecond, division by zero for total 0.
26. The vertex frames in features.cpp are not orthonormal in general.
27. `volonoiArea()` at boundary vertices counts the wedge of the hole (C49).
28. `denoiseNormal*` call `Error` inside an OpenMP region on meshes with holes.
29. completion.cpp uses unqualified `abs`, which may be the integer version.
30. `fillHoles` on a hole with two corners would be undefined; such holes never occur in constructed or edited meshes (C25).
31. The flip test of `collapseHE` compares consecutive signs only (C55).
32. A `load` that cannot open its file leaves the object empty; `loadPLY` copies the buffers assuming float and uint32 data.
33. The kernel of denoise.cpp uses exp(-x^2/sigma^2) where the matching quartic expects exp(-x^2/(2 sigma^2)): its value jumps from e^-4 to e^-2 at 2 sigma (C64).
34. On meshes whose holes have three sides the hole faces take part in the normal filters like triangles.
35. `denoiseL0Smooth` does not end when beta is zero or negative (C66).
36. `denoiseL0Smooth` moves locked and boundary vertices (C33).
37. `denoiseL0Smooth` rebuilds its edge operators in each round from the positions of the mesh, which the loop does not change: they are always those of the mesh after `smoothTaubin`, while the solution and the reference positions start from those before it (C65). With beta at least 1000 the loop does not run and the call returns the positions it was given.
38. A failed solve in `denoiseL0Smooth` is only reported; whatever the solver left is used.
39. The check of `simplifyQEM` for turned triangles skips the triangles that remain and looks at the two that vanish (the condition at simplify.cpp:253 is inverted): a contraction can turn a remaining triangle over (C69).
40. The triangles next to a hole that was filled keep flagged half-edges, so their planes are left out of the error (C67).
41. Where the normals are nearly parallel to one plane, the middle of the edge is used even if other points have a smaller error (C67).
42. `simplifyQEM` moves the vertex before it calls `collapseHE`; if that refuses, the vertex stays at the new position (C68).
43. `holeFillAdvancingFront` moves locked corners of the hole: a new vertex that is too close to its successor is merged into it even if the successor is locked, and the successor goes to the middle (C71; see finding 11).
44. Inner edges of the filling keep their boundary flags; only the flags at the last triangle are cleared (C72). `holeFillContextCoherent` clears all flags afterwards, other callers do not.
45. The vertices inside are collected from an unlocked corner of the last triangle; if its corners are all locked nothing is relaxed, whatever was added before (C70's example).
46. The locks that `holeFillAdvancingFront` sets on the corners of the hole are never released (C70).
47. If no angle of the front is below 1e20 (all are NaN, for example after overflow) the index -1 is used (C70).
48. While normals are smoothed (completion.cpp 555-569) the normal of a vertex on the rim is looked up in a table that has only inner vertices, so it counts as zero. (`Relax.v`, C96.)
49. `getCurvatureTensors` computes smoothed normals that it never uses; normalising one that is zero throws an exception all the same (C74).
50. On a sphere `getPrincipalCurvatures` gives k_min = (1 - (len / 2r)^2) / r instead of 1/r, because the first vector of a vertex frame is an edge, not a tangent (C75, finding 26); k_min depends on which neighbour comes first.
51. `getPrincipalCurvatures` aborts on every mesh with a hole that is not a triangle (C76).
52. `getHeatKernelSignatures` with K = 1 reads lambda(1) beyond the end of the vector (C80).
53. `getHeatKernelSignatures` with nTimes = 1 divides by zero; every signature is NaN (C80).
54. The signatures depend on the eigenvectors the solver picks when K cuts through a multiple eigenvalue; symmetric vertices then get different signatures (C79).
55. At a boundary `Halfedge::cotWeight` measures an angle at a vertex of the next boundary edge; the cotangent operator of an open mesh can have negative diagonal entries, so it is no energy and the signatures of such a mesh can grow with time (C81).
56. `getPrincipalCurvaturesWithDerivatives` rebuilds the second fundamental form from principal directions that belong to the other curvature (finding on C42), so it differentiates the form with interchanged eigenvalues; at umbilics, where the directions are zero, it differentiates zero (C83).
57. Whether an edge is crossed by a ridge depends on the arbitrary sign of a principal direction when the directions at its ends are at a right angle, in particular when one of them is the zero vector that umbilic vertices get (C84).
58. `getFeatureLineField` throws on surfaces without ridges and valleys: the linear system is then the singular Laplacian with a zero right-hand side. The umbilic threshold 0.01 is not relative to the size of the mesh, so every sphere of radius above 100 is an example (C87).
59. Valleys are detected with the derivative of the maximal curvature; the derivative and the direction of the minimal curvature are computed and not used (C88).
60. The flag of a vertex that collects directions that cancel out is set although its direction is (nearly) zero: only means longer than 1e-8 are normalized (part of the specification VertexMark of C85).
61. The mixture of Gaussians that `holeFillContextCoherent` fits to the curvatures degenerates when all curvatures are the same (a sphere, a plane): its variances become zero and the next iteration divides by them (C89).
62. `solveRigidICP` adds the translation to points that are already relative to their mean, so the error it returns is too large by the squared length of the translation, and candidate patches are ranked by how far they are from the hole (C90).
63. The repair in `holeFillContextCoherent` collapses edges between a vertex that may be moved and a locked one without looking at the lock; the end point with more neighbours is removed, so vertices of the original mesh disappear (C91).
64. Its loop over small faces continues with an iterator into freed half-edges when `collapseFace` returns false after one of its two collapses (C91).
65. The loops of the repair address vertices by an index computed before the repair; after a removal the index belongs to another vertex, which may be locked. The table of signatures keeps the entries of removed vertices, so a new vertex at the same address inherits an old signature (the model never reuses addresses, so this is not a theorem).
66. `holeFillContextCoherent` divides the sums of the signatures of a patch by the number of vertices of the mesh instead of the patch. Scaling hides this for the mean, but not for the deviation: on a patch where all signatures agree the deviation is not zero (C93).
67. It asks for 300 eigenvalues, so that a filled mesh with at most 300 vertices fails an assertion, even with no iteration (C95).
68. It takes at least ten candidates from the sorted sources without looking at how many there are, and reads beyond the array if fewer than ten vertices are locked (C95).
69. The relaxation in `holeFillAdvancingFront_` (completion.cpp 588-600) rotates about the cross product of two normals, which is not of unit length. `rotationAxisAngle` does not normalise it, so that the rotation takes one normal to the other only if they are equal or orthogonal (C97).
70. The right-hand side of the Poisson equation has the sign opposite to the Laplacian of the positions, and is a mean instead of a sum. A surface that is aligned with its normals already is changed unless its Laplacian is zero, and a corner is pushed through the plane of its neighbours: a vertex of a regular tetrahedron ends on the other side of the face through its neighbours (C97).
71. `cotWeight` divides by at least 1.0e-6, so that on small meshes (in scan units, triangles with sides below about a thousandth) the cotangent operator is too small and no longer the gradient of the area (C98).
72. Distances depend on the place of the meshes when they are very far apart (C103): a query farther than 1e20 from every triangle returns the origin as its closest point, so shifting a triangle and a point together changes their distance (witness: from 1e21 to 0).
73. Minimum dihedral hole filling with its default bound PI prefers a smaller area to smaller bends (C107_bound_refuted): any two angles differ by less than PI, so a cut is replaced whenever the new one has a smaller angle or a smaller area. A hole with four corners is filled with a bend of more than a right angle although the other diagonal leaves only bends of less than one.
74. The edge from the last corner of the hole to the first is never looked at (C107_last_refuted): the bend between the filling and the triangle beside that edge does not count, so the choice depends on the half-edge the face happens to start with.
75. With the bound Pi the function is documented to be Barequet's method, which minimises the area, but a smaller angle is enough to replace a cut with a smaller area (C108_refuted): together with 73 this means that the last cut that is better in either respect wins.
76. Cotangent weights depend on the unit of length (C112_unit_refuted): the product of the sine and two edge lengths is raised to 1e-6 before the division, which is an absolute bound on twice the area of the triangle. The weights of a regular tetrahedron fall from 0.577 to 0.04 when its size is given in a unit 10000 times larger.
77. The order of the triangles matters when a directed edge is repeated (C113_order_refuted): (0,1,2), (0,2,3), (0,1,3) on a square builds the square, (0,1,3), (0,1,2), (0,2,3) skips two triangles, leaves a vertex without half-edge and follows a null pointer.
