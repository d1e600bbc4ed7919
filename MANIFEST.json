{
 "claims": [
  {
   "property": "C01",
   "status": "proved",
   "theorems": [
    "C01_construct_valid"
   ],
   "note": "any arrays, any previous contents of the object, any arithmetic"
  },
  {
   "property": "C02",
   "status": "proved",
   "theorems": [
    "C02_construct_faithful"
   ],
   "note": "for arrays without NaN among the referenced positions; removal of degenerate triangles reorders, so input order is claimed only without them"
  },
  {
   "property": "C03",
   "status": "proved",
   "theorems": [
    "C03_manifold_accepted",
    "C03_manifold_accepted_distinct"
   ],
   "note": ""
  },
  {
   "property": "C04",
   "status": "proved",
   "theorems": [
    "C04_nonmanifold_rejected"
   ],
   "note": ""
  },
  {
   "property": "C05",
   "status": "proved",
   "theorems": [
    "C05_skipped_iff_repeated"
   ],
   "note": ""
  },
  {
   "property": "C06",
   "status": "partial",
   "theorems": [
    "C06_degenerate_dropped_partial",
    "C06_all_dropped_partial",
    "C06_some_left",
    "C06_degenerate_refuted"
   ],
   "note": "false as stated: with two degenerate triangles, one of them last, construction ends in Error. Proved: exactly which arrays have all their degenerate triangles dropped (at least as many triangles follow the last degenerate one as degenerate ones precede it); all others end in Error."
  },
  {
   "property": "C07",
   "status": "partial",
   "theorems": [
    "C07_replace_partial",
    "C07_load_obj",
    "C07_replace_refuted",
    "C07_replace_out_of_bounds_refuted",
    "C29_C07_load_ply_refuted"
   ],
   "note": "false as stated: construct and loading PLY keep the old index array. Proved for construct on objects whose index array is empty, and for loading OBJ files into any object."
  },
  {
   "property": "C08",
   "status": "proved",
   "theorems": [
    "C08_welded"
   ],
   "note": ""
  },
  {
   "property": "C09",
   "status": "partial",
   "theorems": [
    "C09_outcomes_partial",
    "C09_no_ub_partial",
    "C09_classified_partial",
    "C09_no_ub_refuted"
   ],
   "note": "false as stated: a vertex used only by dropped or skipped triangles is a null dereference. Proved: that is the only undefined behaviour, construction terminates, and none without degenerate triangles and repeated edges."
  },
  {
   "property": "C10",
   "status": "proved",
   "theorems": [
    "C10_hole_faces"
   ],
   "note": ""
  },
  {
   "property": "C100",
   "status": "proved",
   "theorems": [
    "C100_construct",
    "C100_edits",
    "C100_filling",
    "C100_front"
   ],
   "note": "in exact arithmetic; the relaxation after the front is not part of it, as it calls a solver"
  },
  {
   "property": "C101",
   "status": "proved",
   "theorems": [
    "C101_positions",
    "C101_normals",
    "C101_measures"
   ],
   "note": "in exact arithmetic"
  },
  {
   "property": "C102",
   "status": "proved",
   "theorems": [
    "C102_smoothing",
    "C102_denoising",
    "C102_remeshing",
    "C102_onto"
   ],
   "note": "in exact arithmetic"
  },
  {
   "property": "C103",
   "status": "partial",
   "theorems": [
    "C103_distances_partial",
    "C103_hausdorff_partial",
    "C103_far_refuted"
   ],
   "note": "proved when every vertex is closer than 1e20 to the other surface; farther away the closest point is taken to be the origin, so the claim is false there. In exact arithmetic"
  },
  {
   "property": "C104",
   "status": "proved",
   "theorems": [
    "C104_simplification"
   ],
   "note": "in exact arithmetic; the solver of the 4 by 4 systems is any that solves them when they have one solution, as in C68"
  },
  {
   "property": "C105",
   "status": "proved",
   "theorems": [
    "C105_fairing"
   ],
   "note": "in exact arithmetic; a translation needs cotangent weights that do not add up to 0 at a vertex, as the code divides by the sum"
  },
  {
   "property": "C106",
   "status": "proved",
   "theorems": [
    "C106_hole",
    "C106_fill",
    "C106_convex"
   ],
   "note": "in exact arithmetic"
  },
  {
   "property": "C107",
   "status": "partial",
   "theorems": [
    "C107_four_partial",
    "C107_bound_refuted",
    "C107_last_refuted"
   ],
   "note": "false as stated: with the default bound PI a smaller area wins over a smaller bend, and one edge of the hole is never looked at; the exact rule is proved for holes with four corners. In exact arithmetic"
  },
  {
   "property": "C108",
   "status": "partial",
   "theorems": [
    "C108_four_partial",
    "C108_refuted"
   ],
   "note": "false as stated: the documentation promises the smallest area for the bound Pi, but a smaller angle is enough to replace a smaller area; the exact rule is proved for holes with four corners. In exact arithmetic"
  },
  {
   "property": "C109",
   "status": "proved",
   "theorems": [
    "C109_construct",
    "C109_edits",
    "C109_filling",
    "C109_front"
   ],
   "note": "in exact arithmetic; the guard values of the filling tables do not scale, but are never used"
  },
  {
   "property": "C11",
   "status": "proved",
   "theorems": [
    "C11_circulate_vertex"
   ],
   "note": ""
  },
  {
   "property": "C110",
   "status": "proved",
   "theorems": [
    "C110_positions",
    "C110_lengths_areas",
    "C110_normals_angles"
   ],
   "note": "in exact arithmetic"
  },
  {
   "property": "C111",
   "status": "proved",
   "theorems": [
    "C111_smoothing",
    "C111_denoising",
    "C111_remeshing",
    "C111_onto"
   ],
   "note": "in exact arithmetic"
  },
  {
   "property": "C112",
   "status": "partial",
   "theorems": [
    "C112_cotangent_partial",
    "C112_unit_refuted"
   ],
   "note": "false as stated: the sine is raised to 1e-6 before the division; proved for closed meshes without triangles of less than half that area in either unit. In exact arithmetic"
  },
  {
   "property": "C113",
   "status": "partial",
   "theorems": [
    "C113_order_partial",
    "C113_order_refuted"
   ],
   "note": "false as stated: with a repeated edge the order decides which triangle is skipped, and whether a vertex is left without triangles (null dereference). Proved for all inputs without degenerate triangles and repeated edges, manifold or not."
  },
  {
   "property": "C114",
   "status": "proved",
   "theorems": [
    "C114_measured",
    "C114_whole"
   ],
   "note": "number of edges and mean edge length of every mesh; degree, volonoiArea, K, normal and H at every inner vertex without degenerate triangles; exact arithmetic"
  },
  {
   "property": "C115",
   "status": "proved",
   "theorems": [
    "C115_smoothing",
    "C115_returns"
   ],
   "note": "every run of both meshes that returns, any epsilon, weights, number of iterations and schedule; exact arithmetic. On closed meshes smoothLaplacian returns on both or on neither"
  },
  {
   "property": "C116",
   "status": "proved",
   "theorems": [
    "C116_denoising"
   ],
   "note": "every run of both meshes that returns, any parameters, number of iterations and schedule; closed meshes, exact arithmetic"
  },
  {
   "property": "C12",
   "status": "proved",
   "theorems": [
    "C12_circulate_face",
    "C12_prev"
   ],
   "note": ""
  },
  {
   "property": "C13",
   "status": "proved",
   "theorems": [
    "C13_numEdges",
    "C13_meanEdgeLength"
   ],
   "note": ""
  },
  {
   "property": "C14",
   "status": "proved",
   "theorems": [
    "C14_boundary"
   ],
   "note": ""
  },
  {
   "property": "C15",
   "status": "proved",
   "theorems": [
    "C15_split"
   ],
   "note": ""
  },
  {
   "property": "C16",
   "status": "proved",
   "theorems": [
    "C16_flip"
   ],
   "note": ""
  },
  {
   "property": "C17",
   "status": "partial",
   "theorems": [
    "C17_flip_partial",
    "C17_flip_refuted"
   ],
   "note": "false as stated: flipping a boundary edge next to a hole with more than three corners corrupts the mesh."
  },
  {
   "property": "C18",
   "status": "partial",
   "theorems": [
    "C18_collapse_partial",
    "C18_collapse_nan_refuted"
   ],
   "note": "the assertion in removeVertex can fail, but only if a position is NaN; otherwise proved in full"
  },
  {
   "property": "C19",
   "status": "partial",
   "theorems": [
    "C19_one_gap_partial",
    "C19_one_gap_refuted"
   ],
   "note": "false if both end points are on the boundary, proved otherwise"
  },
  {
   "property": "C20",
   "status": "proved",
   "theorems": [
    "C20_refused"
   ],
   "note": "on any state, valid or not"
  },
  {
   "property": "C21",
   "status": "partial",
   "theorems": [
    "C21_collapseFace_partial",
    "C21_collapseFace_refuted"
   ],
   "note": "safe, but false can be returned after one of the two collapses"
  },
  {
   "property": "C22",
   "status": "proved",
   "theorems": [
    "C22_edit_sequences",
    "C22_edit_sequences_exact"
   ],
   "note": "the assertion of C18 is the only way not to finish"
  },
  {
   "property": "C23",
   "status": "proved",
   "theorems": [
    "C23_edits_euler",
    "C23_fill_euler"
   ],
   "note": ""
  },
  {
   "property": "C24",
   "status": "partial",
   "theorems": [
    "C24_verify_partial",
    "C24_verify_refuted"
   ],
   "note": "completeness proved; soundness is false"
  },
  {
   "property": "C25",
   "status": "proved",
   "theorems": [
    "C25_fill",
    "C25_fill_constructed",
    "C25_fill_edited",
    "C25_fill_again"
   ],
   "note": "for faces with at least three corners, which all reachable meshes have; acos is assumed to give angles (NumAngle)"
  },
  {
   "property": "C26",
   "status": "partial",
   "theorems": [
    "C26_no_hole_partial",
    "C26_flags_refuted"
   ],
   "note": "no hole is left, but the outer half-edges keep their boundary flag"
  },
  {
   "property": "C27",
   "status": "partial",
   "theorems": [
    "C27_clone_partial",
    "C27_C28_single_triangle_refuted"
   ],
   "note": "triangles sharing no edge are lost"
  },
  {
   "property": "C28",
   "status": "partial",
   "theorems": [
    "C28_indices_partial",
    "C27_C28_single_triangle_refuted"
   ],
   "note": "triangles sharing no edge are not listed"
  },
  {
   "property": "C29",
   "status": "partial",
   "theorems": [
    "C29_save_load_partial",
    "C29_alone_refuted",
    "C29_C07_load_ply_refuted",
    "C29_rounding_refuted"
   ],
   "note": "false as stated: isolated triangles are lost, PLY files loaded into used objects keep the old triangles, rounding can merge vertices. Proved for all meshes, formats and previous contents outside these cases. The file is modelled as lines and elements; tinyobj and tinyply are not in the repository."
  },
  {
   "property": "C30",
   "status": "proved",
   "theorems": [
    "C30_smoothing",
    "C30_stays_valid"
   ],
   "note": "a division by a zero weight sum throws instead"
  },
  {
   "property": "C31",
   "status": "proved",
   "theorems": [
    "C31_deterministic",
    "C31_denoise_deterministic"
   ],
   "note": "all interleavings of single accesses; the normal filters as well"
  },
  {
   "property": "C32",
   "status": "proved",
   "theorems": [
    "C32_bounding_box"
   ],
   "note": "exact arithmetic"
  },
  {
   "property": "C33",
   "status": "partial",
   "theorems": [
    "C33_locked_partial",
    "C33_denoise_refuted",
    "C33_fairing_refuted",
    "C33_l0_refuted"
   ],
   "note": "smoothLaplacian and smoothTaubin respect locks, the normal filters, denoiseL0Smooth and implicitFairing do not"
  },
  {
   "property": "C34",
   "status": "proved",
   "theorems": [
    "C34_adjacent",
    "C34_cotangent",
    "C34_belkin"
   ],
   "note": "exact arithmetic"
  },
  {
   "property": "C35",
   "status": "proved",
   "theorems": [
    "C35_simplify"
   ],
   "note": ""
  },
  {
   "property": "C36",
   "status": "proved",
   "theorems": [
    "C36_simplify",
    "C36_simplify_exact"
   ],
   "note": "may end with an exception or failed assertion when positions are NaN or weights vanish"
  },
  {
   "property": "C37",
   "status": "proved",
   "theorems": [
    "C37_remesh",
    "C37_remesh_exact"
   ],
   "note": "feature vertices: with exact arithmetic"
  },
  {
   "property": "C38",
   "status": "partial",
   "theorems": [
    "C38_closestPoint_partial",
    "C38_inside_refuted",
    "C38_closestPoint_refuted"
   ],
   "note": "the point is in the triangle (proved) but not always the closest (refuted)"
  },
  {
   "property": "C39",
   "status": "proved",
   "theorems": [
    "C39_bvh_agrees"
   ],
   "note": ""
  },
  {
   "property": "C40",
   "status": "proved",
   "theorems": [
    "C40_bvh_build"
   ],
   "note": ""
  },
  {
   "property": "C41",
   "status": "partial",
   "theorems": [
    "C41_hausdorff_partial",
    "C41_nearest_point",
    "C41_hausdorff_self_refuted",
    "C41_empty_refuted"
   ],
   "note": "symmetric, non-negative, never underestimates; the distance of a mesh to itself need not be 0 because of C38; a mesh without faces dereferences null"
  },
  {
   "property": "C42",
   "status": "partial",
   "theorems": [
    "C42_principal_partial",
    "C42_principal_refuted"
   ],
   "note": "values right; the two directions are exchanged"
  },
  {
   "property": "C43",
   "status": "proved",
   "theorems": [
    "C43_corner_areas"
   ],
   "note": ""
  },
  {
   "property": "C44",
   "status": "partial",
   "theorems": [
    "C44_vector_space_partial",
    "C44_products_partial",
    "C44_subtract_scalar_refuted"
   ],
   "note": "vector minus scalar multiplies"
  },
  {
   "property": "C45",
   "status": "partial",
   "theorems": [
    "C45_constructor_partial",
    "C45_constructor_refuted"
   ],
   "note": "out of bounds below three dimensions"
  },
  {
   "property": "C46",
   "status": "proved",
   "theorems": [
    "C46_dihedral"
   ],
   "note": ""
  },
  {
   "property": "C47",
   "status": "proved",
   "theorems": [
    "C47_bounds"
   ],
   "note": ""
  },
  {
   "property": "C48",
   "status": "partial",
   "theorems": [
    "C48_progress_no_throw_partial",
    "C48_progress_partial",
    "C48_finish_partial",
    "C48_progress_throws_refuted",
    "C48_progress_undefined_refuted"
   ],
   "note": "throws if the steps exceed the total; undefined conversion if called in the first millisecond"
  },
  {
   "property": "C49",
   "status": "partial",
   "theorems": [
    "C49_areas_closed_partial",
    "C49_areas_open_refuted"
   ],
   "note": "proved for closed meshes, false next to holes"
  },
  {
   "property": "C50",
   "status": "proved",
   "theorems": [
    "C50_indices_valid"
   ],
   "note": ""
  },
  {
   "property": "C51",
   "status": "proved",
   "theorems": [
    "C51_face_area",
    "C51_face_normal",
    "C51_toTriangle"
   ],
   "note": ""
  },
  {
   "property": "C52",
   "status": "proved",
   "theorems": [
    "C52_boundary"
   ],
   "note": ""
  },
  {
   "property": "C53",
   "status": "proved",
   "theorems": [
    "C53_euler"
   ],
   "note": ""
  },
  {
   "property": "C54",
   "status": "partial",
   "theorems": [
    "C54_duplicate_edges_partial",
    "C54_duplicate_edges_refuted"
   ],
   "note": "false: an inner edge of a filled hole may join vertices that are neighbours already"
  },
  {
   "property": "C55",
   "status": "partial",
   "theorems": [
    "C55_turned_partial",
    "C55_turned_refuted"
   ],
   "note": "false: the test compares only consecutive signs in an order that depends on the stored half-edge; proved over the reals if that half-edge leads to the remaining vertex and no triangle becomes perpendicular to the ring"
  },
  {
   "property": "C56",
   "status": "proved",
   "theorems": [
    "C56_collapse_iff"
   ],
   "note": ""
  },
  {
   "property": "C57",
   "status": "proved",
   "theorems": [
    "C57_laplacian",
    "C57_taubin"
   ],
   "note": "exact arithmetic"
  },
  {
   "property": "C58",
   "status": "proved",
   "theorems": [
    "C58_fairing"
   ],
   "note": "exact arithmetic; the solver is assumed to be exact"
  },
  {
   "property": "C59",
   "status": "proved",
   "theorems": [
    "C59_angle_defect",
    "C59_gauss_bonnet"
   ],
   "note": "exact arithmetic; vertices not on the boundary, non-degenerate triangles"
  },
  {
   "property": "C60",
   "status": "proved",
   "theorems": [
    "C60_vertex_normal",
    "C60_side",
    "C60_sphere"
   ],
   "note": "exact arithmetic; vertices not on the boundary, non-degenerate triangles"
  },
  {
   "property": "C61",
   "status": "proved",
   "theorems": [
    "C61_mean_curvature",
    "C61_flat"
   ],
   "note": "exact arithmetic; vertices not on the boundary, non-degenerate triangles"
  },
  {
   "property": "C62",
   "status": "partial",
   "theorems": [
    "C62_face_area_partial",
    "C62_open_refuted",
    "C62_dihedral"
   ],
   "note": "the mean of the areas counts the faces that fill holes: true for closed meshes, false for open ones"
  },
  {
   "property": "C63",
   "status": "proved",
   "theorems": [
    "C63_gaussian",
    "C63_bilateral",
    "C63_gaussian_succeeds",
    "C63_bilateral_succeeds"
   ],
   "note": "exact arithmetic"
  },
  {
   "property": "C64",
   "status": "partial",
   "theorems": [
    "C64_kernel_partial",
    "C64_kernel_refuted"
   ],
   "note": "true on each side of two sigma, false across it"
  },
  {
   "property": "C65",
   "status": "proved",
   "theorems": [
    "C65_l0",
    "C65_operator_flat"
   ],
   "note": "exact arithmetic and an exact solver"
  },
  {
   "property": "C66",
   "status": "partial",
   "theorems": [
    "C66_ends_partial",
    "C66_never_refuted"
   ],
   "note": "true for beta > 0, false for beta <= 0 on every mesh whose mean edge length is positive"
  },
  {
   "property": "C67",
   "status": "proved",
   "theorems": [
    "C67_queue"
   ],
   "note": "exact arithmetic and an exact solver"
  },
  {
   "property": "C68",
   "status": "proved",
   "theorems": [
    "C68_first",
    "C68_returns",
    "C68_refines"
   ],
   "note": "exact arithmetic; C68_refines holds in any arithmetic"
  },
  {
   "property": "C69",
   "status": "partial",
   "theorems": [
    "C69_checked_partial",
    "C69_turned_refuted"
   ],
   "note": "false: the check looks at the two triangles that vanish; proved is exactly which edges are contracted at the start of a trial"
  },
  {
   "property": "C70",
   "status": "proved",
   "theorems": [
    "C70_front",
    "C70_front_constructed",
    "C70_front_real"
   ],
   "note": "that the loop ends is not claimed: running out of fuel and failing assertions are allowed outcomes; the index -1 is used only if no angle is below 1e20, which cannot happen over the reals; the second part (new positions inside) is an arbitrary function"
  },
  {
   "property": "C71",
   "status": "partial",
   "theorems": [
    "C71_rim_partial",
    "C71_rim_refuted"
   ],
   "note": "false for corners of the hole: a new vertex is merged into a corner, which moves; the other vertices do not move"
  },
  {
   "property": "C72",
   "status": "partial",
   "theorems": [
    "C72_flags_partial",
    "C72_flags_refuted"
   ],
   "note": "false: flags on inner edges stay; no new holes, and flags of old faces only disappear"
  },
  {
   "property": "C73",
   "status": "proved",
   "theorems": [
    "C73_all",
    "C73_all_constructed"
   ],
   "note": "as C70; holes must not share an edge"
  },
  {
   "property": "C74",
   "status": "proved",
   "theorems": [
    "C74_tensors",
    "C74_total",
    "C74_rotation"
   ],
   "note": "exact arithmetic and an exact solver for positive definite systems; smoothingTensors is modelled but only C76 speaks about it"
  },
  {
   "property": "C75",
   "status": "partial",
   "theorems": [
    "C75_sphere_partial",
    "C75_sphere_total_partial",
    "C75_sphere_refuted"
   ],
   "note": "false: k_max = 1/r, but k_min = (1 - (len / 2r)^2) / r with len the length of one edge; on a regular tetrahedron a third of what it should be; without smoothing of the tensors"
  },
  {
   "property": "C76",
   "status": "partial",
   "theorems": [
    "C76_every_mesh_partial",
    "C76_every_mesh_refuted",
    "C74_total"
   ],
   "note": "false: a hole that is no triangle fails an assertion"
  },
  {
   "property": "C77",
   "status": "proved",
   "theorems": [
    "C77_signatures"
   ],
   "note": "exact arithmetic; the eigenvalue solver of Spectra is a parameter"
  },
  {
   "property": "C78",
   "status": "proved",
   "theorems": [
    "C78_operator",
    "C78_mesh"
   ],
   "note": "exact arithmetic and an exact solver"
  },
  {
   "property": "C79",
   "status": "partial",
   "theorems": [
    "C79_determined_partial",
    "C79_determined_refuted"
   ],
   "note": "false when the K-th and the next eigenvalue agree: on a regular tetrahedron an exact solver gives symmetric vertices different signatures"
  },
  {
   "property": "C80",
   "status": "partial",
   "theorems": [
    "C80_many_partial",
    "C80_one_refuted",
    "C80_once_refuted"
   ],
   "note": "false: with K = 1 an eigenvalue is read beyond the end, with nTimes = 1 all signatures are NaN"
  },
  {
   "property": "C81",
   "status": "partial",
   "theorems": [
    "C81_cotangent_partial",
    "C81_cotangent_refuted"
   ],
   "note": "closed meshes only; false with boundary"
  },
  {
   "property": "C82",
   "status": "proved",
   "theorems": [
    "C82_derivatives",
    "C82_total",
    "C82_smoothing",
    "C82_holes"
   ],
   "note": "exact arithmetic and an exact solver; may throw when a vertex normal and a face normal are opposite"
  },
  {
   "property": "C83",
   "status": "partial",
   "theorems": [
    "C83_form_partial",
    "C83_form_refuted"
   ],
   "note": "false: the two eigenvalues are interchanged, and the form is zero where the curvatures are almost equal"
  },
  {
   "property": "C84",
   "status": "partial",
   "theorems": [
    "C84_edges",
    "C84_order",
    "C84_sign_partial",
    "C84_sign_refuted"
   ],
   "note": "false for directions at a right angle: the answer then depends on which of two opposite directions was chosen"
  },
  {
   "property": "C85",
   "status": "proved",
   "theorems": [
    "C85_field",
    "C85_marks"
   ],
   "note": "exact arithmetic and exact solvers"
  },
  {
   "property": "C86",
   "status": "proved",
   "theorems": [
    "C86_extension"
   ],
   "note": "exact arithmetic and exact solvers"
  },
  {
   "property": "C87",
   "status": "partial",
   "theorems": [
    "C87_works_partial",
    "C87_spheres_refuted",
    "C87_works_refuted"
   ],
   "note": "false: on spheres with a radius above 100 every vertex is umbilic, nothing is flagged and the normalization of zero throws"
  },
  {
   "property": "C88",
   "status": "partial",
   "theorems": [
    "C88_inverted_partial",
    "C88_inverted_refuted"
   ],
   "note": "false: the derivatives of the minimal curvature are never used"
  },
  {
   "property": "C89",
   "status": "partial",
   "theorems": [
    "C89_fit_partial",
    "C89_likelihood_partial",
    "C89_radius_partial",
    "C89_fit_refuted"
   ],
   "note": "exact arithmetic; false for equal curvatures (a sphere): all variances are zero after one iteration and the next divides by them"
  },
  {
   "property": "C90",
   "status": "partial",
   "theorems": [
    "C90_motion_partial",
    "C90_error_refuted"
   ],
   "note": "exact arithmetic and an exact singular value decomposition; false for the error, which also counts the length of the translation"
  },
  {
   "property": "C91",
   "status": "partial",
   "theorems": [
    "C91_edges_partial",
    "C91_flips_partial",
    "C91_collapses_partial",
    "C91_signatures_partial",
    "C91_locked_refuted",
    "C91_faces_refuted"
   ],
   "note": "exact arithmetic for the edge loops; the bound on the edge length needs three neighbours at every vertex; false for locked vertices, which are removed when they have more neighbours, and for the face loop, which uses freed memory when collapseFace stops half way"
  },
  {
   "property": "C92",
   "status": "proved",
   "theorems": [
    "C92_patches"
   ],
   "note": "for every arithmetic"
  },
  {
   "property": "C93",
   "status": "partial",
   "theorems": [
    "C93_mean_partial",
    "C93_deviation_partial",
    "C93_candidates_partial",
    "C93_constant_refuted",
    "C93_deviation_refuted"
   ],
   "note": "exact arithmetic; the deviation is right only if the patch is the whole mesh, since sums are divided by the number of vertices of the mesh; with fewer sources than candidates see C95"
  },
  {
   "property": "C94",
   "status": "proved",
   "theorems": [
    "C94_step",
    "C94_locked_stay"
   ],
   "note": "exact arithmetic and an exact solver for the step; that locked vertices stay holds for every arithmetic"
  },
  {
   "property": "C95",
   "status": "partial",
   "theorems": [
    "C95_returns_partial",
    "C95_small_refuted",
    "C95_few_locked_refuted"
   ],
   "note": "what holds after a return is stated for no iteration only; what an iteration does is in C91 to C94; false for filled meshes with at most 300 vertices and for fewer than ten locked vertices"
  },
  {
   "property": "C96",
   "status": "proved",
   "theorems": [
    "C96_relaxation",
    "C96_unique",
    "C96_flat"
   ],
   "note": "exact arithmetic and an exact solver"
  },
  {
   "property": "C97",
   "status": "partial",
   "theorems": [
    "C97_turn_partial",
    "C97_still_partial",
    "C97_rest_partial",
    "C97_dome_partial",
    "C97_turn_refuted",
    "C97_dome_refuted"
   ],
   "note": "exact arithmetic; the turn takes one normal to the other only if they are equal or orthogonal, and triangles that are not turned stay only if the Laplacian of the positions is zero; a corner is pushed through the plane of its neighbours"
  },
  {
   "property": "C98",
   "status": "partial",
   "theorems": [
    "C98_gradient_partial",
    "C98_energy_partial",
    "C98_tiny_refuted"
   ],
   "note": "exact arithmetic; true if twice the area of each triangle at the vertex is at least 1/1000000, and false for smaller triangles, where cotangents are cut off"
  },
  {
   "property": "C99",
   "status": "proved",
   "theorems": [
    "C99_filled",
    "C99_filled_constructed",
    "C99_filled_real",
    "C99_moved",
    "C99_relaxed",
    "C99_triangulated",
    "C99_three",
    "C99_same"
   ],
   "note": "that the loop ends is not claimed (see C73 for runs that do not); C99_relaxed is for meshes whose only hole is the one filled; its real example has no vertex to move, the example with a moved vertex is in floating point"
  }
 ]
}