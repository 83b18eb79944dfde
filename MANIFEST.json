{
 "claims": [
  {
   "property": "C01",
   "status": "proved",
   "theorems": [
    "C01_rational_programs_exact",
    "C01_simplify_reduces",
    "C01_gcd_lcm"
   ],
   "note": ""
  },
  {
   "property": "C02",
   "status": "partial",
   "theorems": [
    "C02_order_partial",
    "C02_order_refuted"
   ],
   "note": "Comparisons proved when the last operation adjusts signs; refuted by witness for results of *= (rational) and /= (integer), which can leave a negative denominator."
  },
  {
   "property": "C03",
   "status": "proved",
   "theorems": [
    "C03_lookup_iff_stored",
    "C03_offset_of_stored"
   ],
   "note": ""
  },
  {
   "property": "C04",
   "status": "proved",
   "theorems": [
    "C04_loops_visit_exactly",
    "C04_sizes",
    "C04_loops_agree_with_queries",
    "C04_boundary_id_list"
   ],
   "note": "filter iterators, predicates and counts of mesh.hpp; boundary_info must have one entry per face."
  },
  {
   "property": "C05",
   "status": "proved",
   "theorems": [
    "C05_connectivity_built_iff",
    "C05_neighbour_is_other_owner",
    "C05_neighbour_symmetric"
   ],
   "note": ""
  },
  {
   "property": "C06",
   "status": "partial",
   "theorems": [
    "C06_corners_are_points_partial",
    "C06_comparable_points_partial",
    "C06_one_dimensional",
    "C06_bounding_box_refuted"
   ],
   "note": "Corners are mesh points for all inputs; the box contains all points for pairwise comparable points (in particular 1D). Refuted in 2D: points (0,1),(1,0)."
  },
  {
   "property": "C07",
   "status": "proved",
   "theorems": [
    "C07_tri_mesh_conforming"
   ],
   "note": "all refinement levels; std::sort modelled as a stable insertion sort (keys are proved distinct, so the result is determined)"
  },
  {
   "property": "C08",
   "status": "proved",
   "theorems": [
    "C08_tri_mesh_sides_and_area"
   ],
   "note": "areas sum to 1, equal areas, coverage of the square, ids of the sides"
  },
  {
   "property": "C09",
   "status": "proved",
   "theorems": [
    "C09_cart_mesh_conforming",
    "C09_cart_mesh_squares"
   ],
   "note": "n refinements of the initial 2x2 grid give 4^(n+1) cells; orientation clause moved to C88"
  },
  {
   "property": "C10",
   "status": "proved",
   "theorems": [
    "C10_tet_mesh_conforming",
    "C10_tet_mesh_sides_and_volume",
    "C10_refine_tiles",
    "C10_children_nondegenerate",
    "C10_faces_pass_descriptor"
   ],
   "note": "Whole-mesh conformity, volumes and boundary ids for every refinement level; per-tetrahedron subdivision (8 children of 1/8 volume, contained, covering, each arising once) for arbitrary point coordinates; each triangle's four sub-triangles keep its boundary descriptor. Disjointness of interiors follows from volumes and covering and is not restated."
  },
  {
   "property": "C11",
   "status": "proved",
   "theorems": [
    "C11_never_throws",
    "C11_owners",
    "C11_edges",
    "C11_shapes",
    "C11_area"
   ],
   "note": ""
  },
  {
   "property": "C12",
   "status": "partial",
   "theorems": [
    "C12_build",
    "C12_children",
    "C12_locate",
    "C12_deep_level_reported_partial",
    "C12_missing_level_refuted"
   ],
   "note": "Construction, coarse-to-fine maps and location proved for every conforming non-degenerate mesh, level and point. Refuted: locate_recursive tests max_level > meshes.size(), so the first missing level is undefined behaviour (reads past the vector of meshes) instead of an error; levels beyond it are reported."
  },
  {
   "property": "C13",
   "status": "partial",
   "theorems": [
    "C13_triangle",
    "C13_tetra_refuted",
    "C13_tetra_partial",
    "C13_rect_refuted",
    "C13_rect_partial",
    "C13_box_refuted",
    "C13_box_partial",
    "C13_polygon",
    "C13_interval"
   ],
   "note": "Proved for intervals, triangles and polygons with any number of sides. False in the code for tetrahedra (surfaces not sorted, lookup of the face 0-2-3 throws), rectangles (edges 0-3 and 1-2 stored instead of 0-2 and 1-3) and boxes (two faces stored with another vertex order): refuted, with the exact set of faces that are found."
  },
  {
   "property": "C14",
   "status": "partial",
   "theorems": [
    "C14_counters",
    "C14_total",
    "C14_counter_counts_faces_partial",
    "C14_covered_faces_reported",
    "C14_double_registration_refuted"
   ],
   "note": "Counter equals the reported faces exactly when no face is covered twice by the same kind (proved iff); refuted by registering one id twice. Every covered face is reported: proved."
  },
  {
   "property": "C15",
   "status": "proved",
   "theorems": [
    "C15_calls_never_fail",
    "C15_queries_report_last",
    "C15_boundary_ids",
    "C15_functions",
    "C15_foreign_face_rejected",
    "C15_cell_queries"
   ],
   "note": ""
  },
  {
   "property": "C16",
   "status": "partial",
   "theorems": [
    "C16_degrees_admissible",
    "C16_three_degrees_partial",
    "C16_three_degrees_refuted"
   ],
   "note": "Cell/reconstruction degree admissibility proved for the two-argument constructor; see refutation for the three-argument one."
  },
  {
   "property": "C17",
   "status": "proved",
   "theorems": [
    "C17_store_returns_last_set",
    "C17_foreign_element_rejected",
    "C17_constructors_agree"
   ],
   "note": ""
  },
  {
   "property": "C18",
   "status": "proved",
   "theorems": [
    "C18_size",
    "C18_size_overflow",
    "C18_cell1",
    "C18_cell1_values",
    "C18_face1",
    "C18_cell2",
    "C18_face2",
    "C18_cell3",
    "C18_face3",
    "C18_new2",
    "C18_new3",
    "C18_new_face2",
    "C18_raw2"
   ],
   "note": ""
  },
  {
   "property": "C19",
   "status": "proved",
   "theorems": [
    "C19_cell1",
    "C19_cell2",
    "C19_cell3",
    "C19_new2",
    "C19_new3",
    "C19_raw2",
    "C19_curls2"
   ],
   "note": ""
  },
  {
   "property": "C20",
   "status": "partial",
   "theorems": [
    "C20_orthonormal",
    "C20_rejects",
    "C20_derivative_partial",
    "C20_derivative_refuted"
   ],
   "note": "Orthonormality (all degrees <= 10), rejection above 10 and derivatives of functions 0-7 and 9 are proved; the derivative tables of functions 8 and 10 are wrong in the code (72012 for 72072, 450450 for 540540): C20_derivative_refuted."
  },
  {
   "property": "C21",
   "status": "partial",
   "theorems": [
    "C21_vector_cell2",
    "C21_vector_cell3",
    "C21_vector_face3",
    "C21_vector_face2",
    "C21_tangential",
    "C21_nedelec",
    "C21_nedelec_size",
    "C21_rt2",
    "C21_rt3_partial",
    "C21_rt3_degree1_refuted",
    "C21_matrix2",
    "C21_matrix3",
    "C21_symmetric2",
    "C21_symmetric3",
    "C21_symmetric_size_refuted",
    "C21_rt_matrix2",
    "C21_rt_matrix3",
    "C21_rt_symmetric2",
    "C21_rt_symmetric3_partial",
    "C21_rt_symmetric3_refuted",
    "C21_rt_refused"
   ],
   "note": "Proved for every class with independence: vector cells and faces, tangential, Nedelec, RT vectors in 2D, RT matrices 2D/3D, full and symmetric matrices, RT symmetric 2D. Refuted: 3D RT vectors of degree 1 (fourth function is identically zero), 3D RT symmetric matrices of degree >= 3 (more functions than announced), symmetric size in other dimensions (exception dropped, 0 returned)."
  },
  {
   "property": "C22",
   "status": "partial",
   "theorems": [
    "C22_plane_functions",
    "C22_plane_harmonic",
    "C22_plane_gradients_partial",
    "C22_plane_gradients_diam2_partial",
    "C22_plane_gradients_refuted",
    "C22_space_functions_partial",
    "C22_space_harmonic",
    "C22_space_gradients_partial",
    "C22_space_functions_refuted"
   ],
   "note": "Plane: the functions are the monomials up to the polynomial degree and then the real and imaginary parts of powers, all harmonic; the gradient rows of the harmonic part lack the factor 2/diameter (exact statement C22_plane_gradients_partial), so they are gradients on cells of diameter 2 (diam2_partial) and wrong otherwise (refuted). Space: away from the line through the barycenter along x the functions are the solid harmonics, harmonic everywhere, with the same missing factor; on that line the values are not finite (refuted)."
  },
  {
   "property": "C23",
   "status": "proved",
   "theorems": [
    "C23_gauss_legendre",
    "C23_gauss_legendre_segment"
   ],
   "note": "Nodes and weights are the printed decimals read as exact rationals; the bound 4e-15 is relative to the integrand's size."
  },
  {
   "property": "C24",
   "status": "proved",
   "theorems": [
    "C24_gauss_lobatto",
    "C24_gauss_lobatto_segment"
   ],
   "note": ""
  },
  {
   "property": "C25",
   "status": "partial",
   "theorems": [
    "C25_dunavant_partial",
    "C25_dunavant_space_partial",
    "C25_size_partial",
    "C25_degree_21_refuted"
   ],
   "note": "Degrees 0-20 and > 21 proved on every triangle (plane and space) with tolerance 1e-14 relative to the integrand size; degree 21 refuted: the table terminator is used and an empty rule is returned (asserts compiled out)."
  },
  {
   "property": "C26",
   "status": "proved",
   "theorems": [
    "C26_triangle_gauss",
    "C26_triangle_gauss_space"
   ],
   "note": "All degrees 0-30, plane and space triangles; tolerance 1e-14 relative to the integrand size; tables checked by kernel computation."
  },
  {
   "property": "C27",
   "status": "proved",
   "theorems": [
    "C27_compositions",
    "C27_size",
    "C27_inside",
    "C27_exact",
    "C27_triangle",
    "C27_tetrahedron"
   ],
   "note": "exact for every order and dimension over exact reals; 32-bit int overflow of i4_choose and rounding are not modelled"
  },
  {
   "property": "C28",
   "status": "proved",
   "theorems": [
    "C28_rule",
    "C28_tensorized_even",
    "C28_tensorized_parallelogram"
   ],
   "note": ""
  },
  {
   "property": "C29",
   "status": "proved",
   "theorems": [
    "C29_numbering_basic",
    "C29_numbering",
    "C29_numbering_bnd"
   ],
   "note": "Diffusion assembler with and without boundary-condition object, and basic assembler built from flags."
  },
  {
   "property": "C30",
   "status": "proved",
   "theorems": [
    "C30_assembly",
    "C30_assembly_bnd",
    "C30_solutions",
    "C30_order",
    "C30_wrong_overload"
   ],
   "note": "Exact arithmetic over any commutative ring. Diffusion assembler; the basic assembler is C57."
  },
  {
   "property": "C31",
   "status": "proved",
   "theorems": [
    "C31_condensation_defined",
    "C31_wrong_rhs_rejected",
    "C31_singular_block_rejected",
    "C31_condensation_equivalent",
    "C31_decondensations_agree",
    "C31_schur_agrees"
   ],
   "note": ""
  },
  {
   "property": "C32",
   "status": "proved",
   "theorems": [
    "C32_take_local",
    "C32_take_local_bnd"
   ],
   "note": "Diffusion assembler; the basic assembler is C57."
  },
  {
   "property": "C33",
   "status": "partial",
   "theorems": [
    "C33_construction_tiles",
    "C33_single_interval",
    "C33_history_tiles",
    "C33_calls_defined_iff_nonempty",
    "C33_split_halves",
    "C33_final_time_never_exceeded",
    "C33_final_time_refuted",
    "C33_double_last_step_dropped_refuted"
   ],
   "note": "Proved for increasing schedules in exact arithmetic. Refuted: an explicit final time that is not a grid point is not reached; in IEEE double the last step can be dropped (T=0.1, 11 steps)."
  },
  {
   "property": "C34",
   "status": "proved",
   "theorems": [
    "C34_terminates",
    "C34_keeps_last_converged_state",
    "C34_success_means_converged_iterate",
    "C34_accepted_steps_tile",
    "C34_convergence_flag"
   ],
   "note": "Finite element work is an arbitrary oracle. sublevel and iter_max are natural numbers (a negative int is converted to a huge unsigned value by the code)."
  },
  {
   "property": "C35",
   "status": "partial",
   "theorems": [
    "C35_round_trip_partial",
    "C35_unpack_pack_partial",
    "C35_sizes",
    "C35_size6_refuted",
    "C35_size6_partial"
   ],
   "note": "Proved for sizes 4, 5, 9 in both directions and for rejected sizes. False of the code for size 6 (tensor_conversion.hpp:288 writes (0,1) instead of (1,2)): refuted, with the exact content of the result."
  },
  {
   "property": "C36",
   "status": "proved",
   "theorems": [
    "C36_coeff_read_write",
    "C36_coeff_defined",
    "C36_products",
    "C36_product_maps",
    "C36_contractions",
    "C36_single_entry",
    "C36_identities",
    "C36_deviator",
    "C36_plane_conversions",
    "C36_first_piola_tangent",
    "C36_mandel"
   ],
   "note": ""
  },
  {
   "property": "C37",
   "status": "partial",
   "theorems": [
    "C37_isotropic_return",
    "C37_kinematic_return",
    "C37_isotropic_accepted",
    "C37_kinematic_accepted",
    "C37_hardening_curves",
    "C37_curve_is_a_function",
    "C37_empty_curve_elastic",
    "C37_single_point_refuted"
   ],
   "note": "Isotropic (piecewise linear curve) and linear isotropic+kinematic laws, for every reachable state in 2D and 3D; curves may soften, but no faster than 3 mu, and stay positive; C37_hardening_curves shows every non-decreasing curve qualifies. An empty curve gives the elastic law. Finding: a curve with a single point reads out of range (C37_single_point_refuted). Exact arithmetic."
  },
  {
   "property": "C38",
   "status": "partial",
   "theorems": [
    "C38_constant_acceleration_refuted",
    "C38_gamma_ignored_refuted",
    "C38_newmark_partial"
   ],
   "note": "False of the code: the inertia prediction is added with the wrong sign, the acceleration uses the increment only, the prediction weighs the acceleration by dt^2, and gamma has no effect (C38_constant_acceleration_refuted, C38_gamma_ignored_refuted; NewtonIteration.hpp:168-169,433-435, NewtonSolverComput.hpp:549). The partial theorem states what the step does. One degree of freedom, zero stiffness."
  },
  {
   "property": "C39",
   "status": "proved",
   "theorems": [
    "C39_rejected",
    "C39_stops",
    "C39_exact",
    "C39_orthogonality",
    "C39_positive_definite"
   ],
   "note": ""
  },
  {
   "property": "C40",
   "status": "proved",
   "theorems": [
    "C40_store_round_trip"
   ],
   "note": ""
  },
  {
   "property": "C41",
   "status": "proved",
   "theorems": [
    "C41_uniform_partition",
    "C41_incidence_and_boundary"
   ],
   "note": ""
  },
  {
   "property": "C42",
   "status": "proved",
   "theorems": [
    "C42_round_trip",
    "C42_invalid_throws",
    "C42_order_of_valid",
    "C42_packed",
    "C42_packed_truncates",
    "C42_packed_invalid_throws"
   ],
   "note": ""
  },
  {
   "property": "C43",
   "status": "proved",
   "theorems": [
    "C43_order_and_equality",
    "C43_simplicial_constructor_defined",
    "C43_simplicial_equality",
    "C43_generic_edge_equality"
   ],
   "note": ""
  },
  {
   "property": "C44",
   "status": "partial",
   "theorems": [
    "C44_tetra_partial",
    "C44_tetra_negative_partial",
    "C44_tetra_refuted",
    "C44_polygon_refuted"
   ],
   "note": "Tetrahedra of positive orientation: exact (closed cell). Negative orientation: only interior points are accepted (refutation C44_tetra_refuted). Plane cells: the loop compares each vertex with itself (i % size instead of (i+1) % size), so every point is reported inside (C44_polygon_refuted)."
  },
  {
   "property": "C45",
   "status": "proved",
   "theorems": [
    "C45_iexp_pow",
    "C45_ipow"
   ],
   "note": ""
  },
  {
   "property": "C46",
   "status": "proved",
   "theorems": [
    "C46_dg_assembly",
    "C46_dg_eigen_assembly"
   ],
   "note": "Both DG assemblers; cells must be stored in the mesh."
  },
  {
   "property": "C47",
   "status": "proved",
   "theorems": [
    "C47_triangle",
    "C47_triangle_in_space",
    "C47_tetrahedron",
    "C47_measure",
    "C47_barycenter"
   ],
   "note": ""
  },
  {
   "property": "C48",
   "status": "proved",
   "theorems": [
    "C48_sort_uniq",
    "C48_sort_uniq_elements"
   ],
   "note": ""
  },
  {
   "property": "C49",
   "status": "proved",
   "theorems": [
    "C49_two_phases",
    "C49_before_update",
    "C49_foreign_cell_rejected"
   ],
   "note": ""
  },
  {
   "property": "C50",
   "status": "proved",
   "theorems": [
    "C50_mark_internal_faces"
   ],
   "note": ""
  },
  {
   "property": "C51",
   "status": "partial",
   "theorems": [
    "C51_generic_equality_same_size_partial",
    "C51_generic_equality_refuted",
    "C51_sort_uniq_loses_element_refuted"
   ],
   "note": "Equality right for equal numbers of faces; refuted (and out-of-range read) otherwise, and sort_uniq can then lose an element."
  },
  {
   "property": "C52",
   "status": "partial",
   "theorems": [
    "C52_lookup_queries_reject_partial",
    "C52_offset_answers_partial",
    "C52_offset_absent_refuted",
    "C52_foreign_face_refuted"
   ],
   "note": "lookup-based queries reject; offset() and (in release builds) neighbour_via do not: witnesses."
  },
  {
   "property": "C53",
   "status": "partial",
   "theorems": [
    "C53_contact_id_by_face_partial",
    "C53_contact_id_by_face_refuted"
   ],
   "note": "The by-face overload calls robin_boundary_id (513-521): right iff the Robin id happens to agree; refuted by witness."
  },
  {
   "property": "C54",
   "status": "partial",
   "theorems": [
    "C54_packed_partial",
    "C54_invalid_equals_valid_refuted"
   ],
   "note": "True of the packed 32-bit specialisation (C54_packed_partial); refuted for the generic one, whose operator== ignores the validity flag."
  },
  {
   "property": "C55",
   "status": "partial",
   "theorems": [
    "C55_ends_in_order_partial",
    "C55_ends_in_order_refuted"
   ],
   "note": "Guarded theorem for x_min <= x_max; refuted for reversed intervals: the node coordinates leave the interval."
  },
  {
   "property": "C56",
   "status": "proved",
   "theorems": [
    "C56_boundary_terms",
    "C56_rejected",
    "C56_conflict_rejected"
   ],
   "note": "Face loads and face mass matrices are arbitrary functions of the face."
  },
  {
   "property": "C57",
   "status": "partial",
   "theorems": [
    "C57_basic_assembly",
    "C57_basic_assembly_flags",
    "C57_basic_take_local",
    "C57_empty_flags_refuted"
   ],
   "note": "For an empty flag vector on a mesh the constructor silently falls back on the mesh boundary without counting it and the first assemble reads outside the vector (C57_empty_flags_refuted). Inhomogeneous Dirichlet data is not supported by this assembler: the code that would subtract it is commented out in /repo."
  },
  {
   "property": "C58",
   "status": "partial",
   "theorems": [
    "C58_true_without_convergence_refuted",
    "C58_flag_is_size_check_partial"
   ],
   "note": "False of the code: the flag only says the sizes agree (solver.hpp:155 always returns true). Refuted with a 2x2 system; C58_flag_is_size_check_partial says exactly what the flag means."
  },
  {
   "property": "C59",
   "status": "partial",
   "theorems": [
    "C59_lua_tolerance_refuted",
    "C59_lua_parameters_partial"
   ],
   "note": "False of the code for rr_tol: solver.hpp:168 reads the table 'sover'. rr_max and max_iter are honoured."
  },
  {
   "property": "C60",
   "status": "partial",
   "theorems": [
    "C60_tangent_partial",
    "C60_sizes",
    "C60_size36_refuted",
    "C60_size36_partial"
   ],
   "note": "Proved for sizes 16, 25 and 81. False of the code for size 36: convertTensorFromMgis reads the order (xx,yy,zz,yz,zx,xy), convertMatrixToMgis writes (xx,yy,zz,xy,xz,yz), and in row xy the divisors of zz and zx are exchanged (tensor_conversion.hpp:444,447); refuted, with the exact positive statement for size 36."
  },
  {
   "property": "C61",
   "status": "proved",
   "theorems": [
    "C61_faces_of_simplices"
   ],
   "note": ""
  },
  {
   "property": "C62",
   "status": "proved",
   "theorems": [
    "C62_isotropic_tangent",
    "C62_kinematic_tangent",
    "C62_tangent_flag",
    "C62_linear_laws"
   ],
   "note": "3D laws (2D calls embed the strain; the extraction of the plane part is C36). Exact arithmetic over R."
  },
  {
   "property": "C63",
   "status": "proved",
   "theorems": [
    "C63_neohookean",
    "C63_cavitation",
    "C63_rejects"
   ],
   "note": "All six volumetric functions for the tangent, five for the energy (the remaining one is C67). Exact arithmetic over R."
  },
  {
   "property": "C64",
   "status": "proved",
   "theorems": [
    "C64_stress_measures",
    "C64_inverse",
    "C64_strain_measures",
    "C64_rotation_invariant",
    "C64_von_mises"
   ],
   "note": "All conversions of both files except the linearised strain (C68)."
  },
  {
   "property": "C65",
   "status": "proved",
   "theorems": [
    "C65_first_derivative",
    "C65_second_derivative_2D"
   ],
   "note": ""
  },
  {
   "property": "C66",
   "status": "proved",
   "theorems": [
    "C66_young_poisson",
    "C66_lame",
    "C66_tangent_modulus",
    "C66_check_curve"
   ],
   "note": "Exact arithmetic over R."
  },
  {
   "property": "C67",
   "status": "partial",
   "theorems": [
    "C67_energy_law4_refuted",
    "C67_law4_partial"
   ],
   "note": "False of the code: U is 1/(1-J) instead of 1-1/J (C67_energy_law4_refuted); the partial theorem says that stress and tangent agree."
  },
  {
   "property": "C68",
   "status": "partial",
   "theorems": [
    "C68_linearized_strain_refuted",
    "C68_linearized_strain_partial"
   ],
   "note": "False of the code, which computes G G^T/2 (C68_linearized_strain_refuted, deformation_tensors.hpp:43); the partial theorem states what is computed."
  },
  {
   "property": "C69",
   "status": "partial",
   "theorems": [
    "C69_second_derivative_3D_partial",
    "C69_second_derivative_3D_refuted"
   ],
   "note": "False of the code: entry (6,3) is -M(2,1) instead of -M(1,2); the partial theorem shows that all other entries are right and that the result is right when M(1,2)=M(2,1)."
  },
  {
   "property": "C70",
   "status": "proved",
   "theorems": [
    "C70_face",
    "C70_skew_face_refuted",
    "C70_hexahedron"
   ],
   "note": "C70_skew_face_refuted shows the right angle is needed: the code's face weight |p1-p0||p3-p0| is the area of a rectangle only. Cartesian meshes have only rectangular faces."
  },
  {
   "property": "C71",
   "status": "proved",
   "theorems": [
    "C71_closed_form_gauss"
   ],
   "note": ""
  },
  {
   "property": "C72",
   "status": "partial",
   "theorems": [
    "C72_odd_degree_partial",
    "C72_odd_degree_refuted"
   ],
   "note": "False in the code: on the trapezoid (0,0),(2,0),(1,1),(0,1) the degree-1 rule gives 9/8 for the integral of x, which is 7/6 (C72_odd_degree_refuted). What holds is exactness up to degree-1 (C72_odd_degree_partial)."
  },
  {
   "property": "C73",
   "status": "partial",
   "theorems": [
    "C73_polygon_measure_partial",
    "C73_translation",
    "C73_nonconvex_refuted",
    "C73_inward_normal_refuted"
   ],
   "note": "Proved for all convex polygons of positive area (any face order/direction). Refuted for non-convex cells: an L-shape of area 5 gets measure 1, because normals are oriented with the barycenter."
  },
  {
   "property": "C74",
   "status": "proved",
   "theorems": [
    "C74_polygon_centroid",
    "C74_translation",
    "C74_triangulation"
   ],
   "note": ""
  },
  {
   "property": "C75",
   "status": "proved",
   "theorems": [
    "C75_normal_2d",
    "C75_normal_polygon",
    "C75_normal_3d"
   ],
   "note": "Proved for cells lying on one side of the face; C73_inward_normal_refuted shows that the restriction to convex cells is needed."
  },
  {
   "property": "C76",
   "status": "partial",
   "theorems": [
    "C76_accepts_convex",
    "C76_quadrangle",
    "C76_star_refuted"
   ],
   "note": "Convex polygons accepted and quadrangles decided exactly; a five-pointed star is accepted although it is not convex (C76_star_refuted)."
  },
  {
   "property": "C77",
   "status": "proved",
   "theorems": [
    "C77_diameter",
    "C77_bounding_box"
   ],
   "note": ""
  },
  {
   "property": "C78",
   "status": "proved",
   "theorems": [
    "C78_local_axes"
   ],
   "note": ""
  },
  {
   "property": "C79",
   "status": "partial",
   "theorems": [
    "C79_rational_refuted",
    "C79_rational_partial"
   ],
   "note": "The rational specialisation forgets the factor 1/2: C79_rational_refuted."
  },
  {
   "property": "C80",
   "status": "partial",
   "theorems": [
    "C80_gradient1_partial",
    "C80_degree0_refuted",
    "C80_scale_refuted",
    "C80_orientation_refuted"
   ],
   "note": "False in the code at degree 0 (write past the end), for a scale factor other than 2 and when the second point is on the left; proved for degree >= 1, scale 2, increasing points."
  },
  {
   "property": "C81",
   "status": "partial",
   "theorems": [
    "C81_face_gradients_refuted",
    "C81_face_gradients_partial"
   ],
   "note": "False in the code: 3D face gradients read an entry never set (undefined behaviour at every degree), 2D face gradients throw; the gradients of the same functions through the raw basis are proved right."
  },
  {
   "property": "C82",
   "status": "proved",
   "theorems": [
    "C82_orthonormal2",
    "C82_orthonormal3",
    "C82_sizes",
    "C82_gradients"
   ],
   "note": ""
  },
  {
   "property": "C83",
   "status": "partial",
   "theorems": [
    "C83_face_gram_partial",
    "C83_face_orthonormal_refuted"
   ],
   "note": "False in the code: the Gram matrix is 2/L times the identity (proved), so orthonormal only for L = 2."
  },
  {
   "property": "C84",
   "status": "partial",
   "theorems": [
    "C84_face_axes_partial",
    "C84_first_corner_refuted",
    "C84_straight_corner_refuted"
   ],
   "note": "Orthonormality and span proved when no corner is flat and some corner other than the first is wider than 8 degrees; otherwise the code reads past the points (C84_first_corner_refuted) or returns NaN (C84_straight_corner_refuted)."
  },
  {
   "property": "C85",
   "status": "proved",
   "theorems": [
    "C85_last_call_wins",
    "C85_sizes",
    "C85_other_dimensions"
   ],
   "note": ""
  },
  {
   "property": "C86",
   "status": "partial",
   "theorems": [
    "C86_gradients2",
    "C86_sgradients2",
    "C86_divergences2",
    "C86_gradients3",
    "C86_sgradients3",
    "C86_divergences3",
    "C86_curls3",
    "C86_curls2_opposite",
    "C86_old_curls3_refuted"
   ],
   "note": "The deprecated 3D eval_curls does not compute a curl (refuted); eval_curls2 does. The 2D eval_curls returns the opposite of the curl."
  },
  {
   "property": "C87",
   "status": "proved",
   "theorems": [
    "C87_rt2_divergences",
    "C87_rt3_divergences",
    "C87_nedelec_gradients",
    "C87_tangent"
   ],
   "note": ""
  },
  {
   "property": "C88",
   "status": "partial",
   "theorems": [
    "C88_initial_numbering_partial",
    "C88_numbering_after_refinement_refuted"
   ],
   "note": "holds on the initial grid only: refine() rotates three of the four children (meshgen.hpp:692-703)"
  },
  {
   "property": "C89",
   "status": "proved",
   "theorems": [
    "C89_boundary_ids"
   ],
   "note": "From tri_next_edge; the remove_if without erase in refine() is modelled as in libstdc++ and shown harmless because a triangle adds more edges than the mesh had."
  },
  {
   "property": "C90",
   "status": "partial",
   "theorems": [
    "C90_polygon_boundary",
    "C90_interval_boundary",
    "C90_boundary_refuted"
   ],
   "note": "Proved for intervals and polygons; the simplicial and cartesian generators never size boundary_info, so is_boundary throws out_of_range (refuted)."
  },
  {
   "property": "C91",
   "status": "partial",
   "theorems": [
    "C91_face_order_refuted"
   ],
   "note": "Refuted for every number of sides: edges are sorted after the cell's face numbers are assigned, so face 1 joins points 0 and n-1."
  },
  {
   "property": "C92",
   "status": "proved",
   "theorems": [
    "C92_faces",
    "C92_boundary",
    "C92_area"
   ],
   "note": ""
  },
  {
   "property": "C93",
   "status": "proved",
   "theorems": [
    "C93_tetrahedron",
    "C93_sizes"
   ],
   "note": "Tolerance 2e-14 relative to the integrand size; tables checked by kernel computation; weights modelled after the library's renormalisation."
  },
  {
   "property": "C94",
   "status": "proved",
   "theorems": [
    "C94_reconstruction",
    "C94_reconstruction_faces"
   ],
   "note": ""
  },
  {
   "property": "C95",
   "status": "proved",
   "theorems": [
    "C95_consistency",
    "C95_consistency_faces"
   ],
   "note": ""
  },
  {
   "property": "C96",
   "status": "proved",
   "theorems": [
    "C96_hho_stabilization",
    "C96_symmetric_positive"
   ],
   "note": ""
  },
  {
   "property": "C97",
   "status": "proved",
   "theorems": [
    "C97_hdg_stabilization",
    "C97_hdg_stabilization_tensor",
    "C97_symmetric_positive"
   ],
   "note": ""
  },
  {
   "property": "C98",
   "status": "proved",
   "theorems": [
    "C98_kernel",
    "C98_kernel_hdg"
   ],
   "note": ""
  },
  {
   "property": "C99",
   "status": "proved",
   "theorems": [
    "C99_patch",
    "C99_patch_hdg"
   ],
   "note": ""
  },
  {
   "property": "C100",
   "status": "proved",
   "theorems": [
    "C100_projection",
    "C100_projection_same",
    "C100_projection_id"
   ],
   "note": ""
  },
  {
   "property": "C101",
   "status": "proved",
   "theorems": [
    "C101_regular"
   ],
   "note": ""
  },
  {
   "property": "C102",
   "status": "proved",
   "theorems": [
    "C102_oriented_area",
    "C102_face_area"
   ],
   "note": ""
  },
  {
   "property": "C103",
   "status": "proved",
   "theorems": [
    "C103_face_axes",
    "C103_flat_face"
   ],
   "note": ""
  },
  {
   "property": "C104",
   "status": "proved",
   "theorems": [
    "C104_gradient",
    "C104_gradient_all_faces",
    "C104_commutes",
    "C104_missing_face_refuted"
   ],
   "note": "The documented form with grad uT is proved when all faces have unknowns; with a face without unknowns it is refuted (C104_missing_face_refuted), the form actually computed is proved in general."
  },
  {
   "property": "C105",
   "status": "proved",
   "theorems": [
    "C105_gradient_tensor"
   ],
   "note": ""
  },
  {
   "property": "C106",
   "status": "proved",
   "theorems": [
    "C106_divergence",
    "C106_conservation",
    "C106_commutes"
   ],
   "note": ""
  },
  {
   "property": "C107",
   "status": "proved",
   "theorems": [
    "C107_symmetric_gradient",
    "C107_commutes",
    "C107_kernel"
   ],
   "note": ""
  },
  {
   "property": "C108",
   "status": "proved",
   "theorems": [
    "C108_vector_laplacian",
    "C108_vector_laplacian_refuted",
    "C108_matrix_gradient",
    "C108_vector_stabilizations",
    "C108_components",
    "C108_projection"
   ],
   "note": "make_vector_hho_laplacian: the assertion on sizes fails for other reconstruction degrees (C108_vector_laplacian_refuted)."
  },
  {
   "property": "C109",
   "status": "proved",
   "theorems": [
    "C109_forms",
    "C109_rhs",
    "C109_material"
   ],
   "note": "Exact for every degree; the material product multiplies by the transposed tensor (same result for symmetric tensors) and its quadrature degree does not know the degree of the tensor."
  },
  {
   "property": "C110",
   "status": "partial",
   "theorems": [
    "C110_project",
    "C110_projector",
    "C110_projector_refuted"
   ],
   "note": "C110_projector_refuted: on the triangle (0,0),(2,0),(0,1) with constants, the projector of x^2 is not its mean."
  },
  {
   "property": "C111",
   "status": "partial",
   "theorems": [
    "C111_reconstruction",
    "C111_consistency",
    "C111_undefined",
    "C111_low_cell_refuted"
   ],
   "note": "C111_low_cell_refuted: cell degree 0, face degree 1, x^2 on a triangle: L2_project integrates with degree 1, so the reduction is wrong and so is the reconstruction."
  },
  {
   "property": "C112",
   "status": "proved",
   "theorems": [
    "C112_stabilization",
    "C112_stabilization_hdg",
    "C112_kernel",
    "C112_patch",
    "C112_reduction"
   ],
   "note": "Both stabilisations; the HDG one is not scaled (the division by the diameter is commented out in the code)."
  },
  {
   "property": "C113",
   "status": "proved",
   "theorems": [
    "C113_netgen_2d",
    "C113_netgen_3d",
    "C113_netgen_2d_wf",
    "C113_netgen_3d_wf",
    "C113_layout_irrelevant"
   ],
   "note": "Exact theorems in 2D and 3D on the model of the reader (text level: strtoul/strtod on exact rationals) and of populate_mesh; well-formedness for the queries; layout irrelevance. Rounding of strtod is not modelled. Findings: 2D drops the domain number of triangles and never marks internal boundaries (3D does both)."
  },
  {
   "property": "C114",
   "status": "partial",
   "theorems": [
    "C114_netgen_3d_rejects_partial",
    "C114_netgen_2d_populate_rejects_partial",
    "C114_netgen_2d_rejects_refuted",
    "C114_empty_file_accepted_refuted"
   ],
   "note": "3D: throws for every such file. 2D: populate_mesh returns false for every such file but load_mesh drops the value and returns true (refuted for all of them); an empty file is accepted."
  },
  {
   "property": "C115",
   "status": "partial",
   "theorems": [
    "C115_cartesian_2d_partial",
    "C115_cartesian_3d_partial",
    "C115_rows_are_box_faces",
    "C115_faces_once_partial",
    "C115_faces_once_3d_partial",
    "C115_faces_once_refuted"
   ],
   "note": "Faithful loading proved for all files; the clause that a shared face is stored once holds exactly for files whose cells list shared faces in the same order (proved) and is refuted otherwise (witness: two squares). Missing: nothing can be proved for incoherent files, since the element constructor does not canonicalise."
  },
  {
   "property": "C116",
   "status": "partial",
   "theorems": [
    "C116_vertices_exist_partial",
    "C116_vertices_exist_3d_partial",
    "C116_vertices_exist_refuted"
   ],
   "note": "Proved when the numbers of the file are in range; refuted otherwise: no loader checks them (witness file accepted with return value true)."
  },
  {
   "property": "C117",
   "status": "proved",
   "theorems": [
    "C117_medit3d",
    "C117_poly3d",
    "C117_poly2d"
   ],
   "note": "medit3d, poly2d, poly3d from the numbers read (the tokens of the file are not modelled). The poly theorems assume that node lists stand in number order; see C118."
  },
  {
   "property": "C118",
   "status": "partial",
   "theorems": [
    "C118_poly_node_numbers_refuted",
    "C118_poly_by_position_partial"
   ],
   "note": "False in the code: node lists are looked up by position (C118_poly_node_numbers_refuted). Proved: the mesh is that of the file with node lists numbered by position."
  },
  {
   "property": "C119",
   "status": "partial",
   "theorems": [
    "C119_fvca6_partial",
    "C119_fvca6_edges_refuted"
   ],
   "note": "Faces, volumes, their points and the order are right for every valid file. Edges keep the 1-based vertex numbers: for every file whose last point lies on an edge some stored edge refers to a point that does not exist (C119_fvca6_edges_refuted)."
  },
  {
   "property": "C120",
   "status": "proved",
   "theorems": [
    "C120_side_of_normal_2d",
    "C120_side_of_normal_3d",
    "C120_renumbering"
   ],
   "note": "Normals are exact rationals; the computation of the normal is a parameter of the renumbering theorem."
  },
  {
   "property": "C121",
   "status": "proved",
   "theorems": [
    "C121_fvca6_boundary"
   ],
   "note": "From the numbers read; the function that tells a side from the stored cell and face is a parameter."
  },
  {
   "property": "C122",
   "status": "proved",
   "theorems": [
    "C122_medit2d_accepts",
    "C122_medit2d_mesh",
    "C122_medit2d_rejects"
   ],
   "note": "model starts from the numbers read; index 0 excluded (it wraps around unchecked)"
  },
  {
   "property": "C123",
   "status": "proved",
   "theorems": [
    "C123_fvca5_mesh",
    "C123_fvca5_closed",
    "C123_fvca5_domain",
    "C123_fvca5_dangling",
    "C123_fvca5_bad_edge",
    "C123_fvca5_bad_boundary",
    "C123_fvca5_unknown_boundary"
   ],
   "note": "model starts from the numbers read, in the order of the blocks"
  },
  {
   "property": "C124",
   "status": "proved",
   "theorems": [
    "C124_fvca5_boundary"
   ],
   "note": "boundary_number of the normal is an arbitrary function here; C120 says what it is"
  },
  {
   "property": "C125",
   "status": "partial",
   "theorems": [
    "C125_medit2d_domains_refuted",
    "C125_medit2d_domains_partial"
   ],
   "note": "false: the loader drops the numbers (refuted); proved: domain_info throws for every cell of every accepted file"
  },
  {
   "property": "C126",
   "status": "proved",
   "theorems": [
    "C126_numbering",
    "C126_bad_type_rejected"
   ],
   "note": "Both constructors; faces with a Dirichlet condition must have unknowns; contact faces as in C131. The rejection theorem is for assembler_mechanics and types other than NOTHING. Finding (Example C126_nothing_accepted): a Dirichlet condition of type NOTHING passes the constructor and is rejected only when a cell is assembled."
  },
  {
   "property": "C127",
   "status": "proved",
   "theorems": [
    "C127_assembly_mechanics",
    "C127_assembly_primal",
    "C127_solutions"
   ],
   "note": "vector_primal and vector_mechanics share the model prim_*; projection is an oracle giving one coefficient per unknown. Solutions are characterised by C127_solutions."
  },
  {
   "property": "C128",
   "status": "proved",
   "theorems": [
    "C128_take_local",
    "C128_expand"
   ],
   "note": "One model function per reading loop; the model reads a call with the wrong number of arguments in vector_primal::take_local_solution as the evident one (see DESIGN)."
  },
  {
   "property": "C129",
   "status": "proved",
   "theorems": [
    "C129_newton_systems",
    "C129_correction",
    "C129_prescribed_values_reached"
   ],
   "note": "clear = initialize / setZeroRhs."
  },
  {
   "property": "C130",
   "status": "partial",
   "theorems": [
    "C130_neumann_partial",
    "C130_entirely_prescribed_rejected",
    "C130_component_dirichlet_refuted",
    "C130_overwritten_refuted",
    "C130_wrong_component_refuted"
   ],
   "note": "Proved when no face has both a Neumann and a Dirichlet condition, and the rejection of entirely prescribed faces. False in the code on faces with some components prescribed: wrong equation, write beyond the end, overwritten right-hand side (three refutations)."
  },
  {
   "property": "C131",
   "status": "partial",
   "theorems": [
    "C131_contact_degrees",
    "C131_contact_refuted"
   ],
   "note": "Degrees and the rejection are proved for all meshes; numbering of contact faces is proved under contact_plain in C126 and false otherwise (C131_contact_refuted: SIGNORINI shares unknowns or writes outside the matrix; SIGNORINI_FACE with prescribed components gets surplus rows)."
  },
  {
   "property": "C132",
   "status": "proved",
   "theorems": [
    "C132_primal_rounds"
   ],
   "note": "For registrations that cover no face twice (C133); Neumann and Robin calls when no face carries two kinds."
  },
  {
   "property": "C133",
   "status": "partial",
   "theorems": [
    "C133_size_partial",
    "C133_double_registration_refuted"
   ],
   "note": "False as stated: the counter of Dirichlet faces counts a face once per registration covering it, so overlapping registrations make the system too small and finalize writes outside it (C133_double_registration_refuted). C133_size_partial gives the size in general and shows it right exactly when no face is covered twice."
  },
  {
   "property": "C134",
   "status": "proved",
   "theorems": [
    "C134_take_local",
    "C134_expand"
   ],
   "note": "Same guard as C132."
  },
  {
   "property": "C135",
   "status": "proved",
   "theorems": [
    "C135_conflict_rejected",
    "C135_nothing_to_impose"
   ],
   "note": "Unconditional."
  },
  {
   "property": "C136",
   "status": "proved",
   "theorems": [
    "C136_stokes_rounds",
    "C136_size"
   ],
   "note": "both members; any mix of rounds"
  },
  {
   "property": "C137",
   "status": "proved",
   "theorems": [
    "C137_take",
    "C137_solutions",
    "C137_zero_mean",
    "C137_face_offset"
   ],
   "note": "take_velocity uses quadrature increment 2; see C140 for the mismatch"
  },
  {
   "property": "C138",
   "status": "proved",
   "theorems": [
    "C138_split_assembly",
    "C138_take",
    "C138_read_back"
   ],
   "note": "unconditional"
  },
  {
   "property": "C139",
   "status": "partial",
   "theorems": [
    "C139_condition_types_partial",
    "C139_condition_types_refuted"
   ],
   "note": "false for DX and CLAMPED (refuted); true when every condition in force is DIRICHLET"
  },
  {
   "property": "C140",
   "status": "partial",
   "theorems": [
    "C140_read_back_partial",
    "C140_read_back_refuted"
   ],
   "note": "false for assemble with general projections (refuted); true for assemble_alg and when projections agree"
  },
  {
   "property": "C141",
   "status": "proved",
   "theorems": [
    "C141_incidence",
    "C141_stokes"
   ],
   "note": ""
  },
  {
   "property": "C142",
   "status": "proved",
   "theorems": [
    "C142_primal_vectors",
    "C142_duality"
   ],
   "note": ""
  },
  {
   "property": "C143",
   "status": "proved",
   "theorems": [
    "C143_symmetric",
    "C143_constant_fields",
    "C143_constant_fields_scalar",
    "C143_positive_definite",
    "C143_positive_definite_scalar",
    "C143_energy"
   ],
   "note": ""
  },
  {
   "property": "C144",
   "status": "proved",
   "theorems": [
    "C144_outward_normals"
   ],
   "note": ""
  },
  {
   "property": "C145",
   "status": "partial",
   "theorems": [
    "C145_triangle_normals_partial",
    "C145_face_dual_edges_partial",
    "C145_triangle_normals_refuted",
    "C145_face_dual_edges_refuted"
   ],
   "note": "False of the code: C145_triangle_normals_refuted, C145_face_dual_edges_refuted. The partial theorems say which vector points where for every triangle and tetrahedron."
  },
  {
   "property": "C146",
   "status": "partial",
   "theorems": [
    "C146_any_tensor_partial",
    "C146_any_tensor_refuted"
   ],
   "note": "False of the code: C146_any_tensor_refuted. C146_any_tensor_partial proves that the claim holds exactly when the tensor is symmetric."
  },
  {
   "property": "C147",
   "status": "proved",
   "theorems": [
    "C147_edge_numbers",
    "C147_edge_numbers_face"
   ],
   "note": ""
  },
  {
   "property": "C148",
   "status": "proved",
   "theorems": [
    "C148_basis",
    "C148_gradient"
   ],
   "note": ""
  },
  {
   "property": "C149",
   "status": "proved",
   "theorems": [
    "C149_mass",
    "C149_stiffness",
    "C149_kernel",
    "C149_rhs"
   ],
   "note": ""
  },
  {
   "property": "C151",
   "status": "proved",
   "theorems": [
    "C151_projection",
    "C151_projection_unique",
    "C151_reproduction",
    "C151_energy",
    "C151_definite",
    "C151_consistency",
    "C151_load",
    "C151_load_polynomial"
   ],
   "note": "the cell is any polytope of the plane with the divergence theorem and rules exact as the code asks for; triangles with trapezoidal (k=1) and Simpson (k=2) nodes are an instance. lu() and ldlt() are solvers of regular and of positive definite systems"
  },
  {
   "property": "C152",
   "status": "partial",
   "theorems": [
    "C152_linear_exact",
    "C152_linear_partial",
    "C152_linear_refuted"
   ],
   "note": "false: the mean row of G uses the cell and that of B the vertices. C152_linear_exact gives the error, C152_linear_partial holds when the two means agree, C152_linear_refuted is a triangle with a hanging node"
  },
  {
   "property": "C153",
   "status": "partial",
   "theorems": [
    "C153_moments",
    "C153_reproduction",
    "C153_constant",
    "C153_l2_refuted"
   ],
   "note": "moments, reproduction and the case k = 1 are proved; the L2 clause is false (C153_l2_refuted): the part of degree k of the first projection is dropped"
  },
  {
   "property": "C150",
   "status": "proved",
   "theorems": [
    "C150_walk",
    "C150_defined",
    "C150_edges",
    "C150_no_gap",
    "C150_no_overlap",
    "C150_cells",
    "C150_cell_numbers_distinct",
    "C150_cell_sides",
    "C150_conforming",
    "C150_boundary"
   ],
   "note": "The edges are lists of two increasing point numbers in sorted order (C02, C43 give this); C155 is about the orientation of the walk."
  },
  {
   "property": "C154",
   "status": "proved",
   "theorems": [
    "C154_defined",
    "C154_equivalent",
    "C154_nothing_to_condense"
   ],
   "note": "Exact arithmetic; LDLT is an oracle that fails or solves exactly."
  },
  {
   "property": "C155",
   "status": "partial",
   "theorems": [
    "C155_counterclockwise_partial",
    "C155_counterclockwise_refuted"
   ],
   "note": "Refuted: a triangle whose point numbers increase clockwise. Proved: the order is counterclockwise exactly when the points in increasing number are."
  },
  {
   "property": "C156",
   "status": "partial",
   "theorems": [
    "C156_recompute_partial",
    "C156_keeps_old",
    "C156_recompute_refuted"
   ],
   "note": "Refuted: the tables are not cleared. Proved: recomputing with the same mesh and degree changes nothing, and in every case the old entries stay."
  },
  {
   "property": "C157",
   "status": "proved",
   "theorems": [
    "C157_difference"
   ],
   "note": "All rows: on faces with unknowns the coefficients of uF - uT, zero elsewhere."
  },
  {
   "property": "C158",
   "status": "proved",
   "theorems": [
    "C158_dg_stabilization",
    "C158_dg_kernel"
   ],
   "note": "Form, symmetry, sign, zero set; kernel with the reconstruction, no condition between the degrees of faces and reconstruction."
  },
  {
   "property": "C159",
   "status": "proved",
   "theorems": [
    "C159_differences",
    "C159_forms"
   ],
   "note": "Both identities, and what the two forms on differences are."
  },
  {
   "property": "C160",
   "status": "partial",
   "theorems": [
    "C160_fluxes_partial",
    "C160_fluxes_refuted"
   ],
   "note": "False when a face has no unknowns (C160_fluxes_refuted: the matrix is singular); true when all faces have some (C160_fluxes_partial)."
  },
  {
   "property": "C161",
   "status": "proved",
   "theorems": [
    "C161_form",
    "C161_kernel",
    "C161_consistent"
   ],
   "note": "Form for every reconstruction matrix, with existence of the projections; symmetry, sign, kernel, consistency with make_scalar_hho_laplacian of the same degrees."
  },
  {
   "property": "C162",
   "status": "proved",
   "theorems": [
    "C162_tensor"
   ],
   "note": "Form for every reconstruction matrix; symmetric for every tensor, nonnegative for nonnegative tensors."
  },
  {
   "property": "C163",
   "status": "proved",
   "theorems": [
    "C163_fluxes"
   ],
   "note": "The QR solver is any function that solves systems with exactly one solution; the hypotheses of such a solver are proved of the system."
  },
  {
   "property": "C164",
   "status": "partial",
   "theorems": [
    "C164_cell_scaling_partial",
    "C164_cell_scaling_refuted"
   ],
   "note": "False (C164_cell_scaling_refuted); C164_cell_scaling_partial says what is computed: the face scaling of the stabilisation, whatever is asked."
  },
  {
   "property": "C165",
   "status": "proved",
   "theorems": [
    "C165_reconstruction",
    "C165_unique",
    "C165_interpolates",
    "C165_common"
   ],
   "note": "The solver is any function that solves symmetric injective systems (the program calls partialPivLu). Reconstruction degree at least 1, cell degree at most the reconstruction degree. C165_common is the overload with one face degree for the cell."
  },
  {
   "property": "C166",
   "status": "proved",
   "theorems": [
    "C166_form"
   ],
   "note": "Any reconstruction matrix; cell degree at most the reconstruction degree."
  },
  {
   "property": "C167",
   "status": "proved",
   "theorems": [
    "C167_kernel"
   ],
   "note": "Reconstruction degree at most face degree + 1 on every face."
  },
  {
   "property": "C168",
   "status": "partial",
   "theorems": [
    "C168_consistent_partial",
    "C168_consistent_refuted"
   ],
   "note": "Proved with cell degree at least 1, or for vectors of zero mean rotation; refuted for degree 0 with a rotation of a triangle."
  },
  {
   "property": "C169",
   "status": "proved",
   "theorems": [
    "C169_form",
    "C169_kernel"
   ],
   "note": "The kernel needs no condition on the face degrees."
  },
  {
   "property": "C170",
   "status": "proved",
   "theorems": [
    "C170_form",
    "C170_symmetric"
   ],
   "note": "The datum is a polynomial of degree at most the reconstruction degree (general data are only integrated by quadrature); all faces carry the same number of unknowns, as the offsets of the code assume; exact arithmetic."
  },
  {
   "property": "C171",
   "status": "proved",
   "theorems": [
    "C171_consistent",
    "C171_patch"
   ],
   "note": "For polynomial solutions, diffusion tensor identity (the routine knows no other)."
  },
  {
   "property": "C172",
   "status": "partial",
   "theorems": [
    "C172_threshold",
    "C172_definite",
    "C172_default_refuted"
   ],
   "note": "C172_threshold and C172_definite prove the first sentence; the last sentence is false of the code: C172_default_refuted exhibits a triangle with degree 0 on which the default penalisation 1.0 gives a negative energy."
  },
  {
   "property": "C173",
   "status": "proved",
   "theorems": [
    "C173_reconstruction",
    "C173_projected",
    "C173_consistent"
   ],
   "note": "rec_basis: independent polynomials of degree at most rd, the first 1. The projecting variants need fd <= rd (exact face mass matrix)."
  },
  {
   "property": "C174",
   "status": "proved",
   "theorems": [
    "C174_reconstruction"
   ],
   "note": "starts_with: the outer basis begins with the monomials of degree cd and fd + 1, as the harmonic-top basis does when fd + 1 <= cd + 2 and both are at most rd. C174_inner shows that r exists."
  },
  {
   "property": "C175",
   "status": "proved",
   "theorems": [
    "C175_consistent"
   ],
   "note": "div (K grad w) of the cell degree holds for harmonic functions when K is the identity (and for full polynomials up to degree cd + 2); C175_ex has two harmonic cubics with cd = fd = 0, rd = 3."
  },
  {
   "property": "C176",
   "status": "proved",
   "theorems": [
    "C176_commutes_span",
    "C176_reconstruction",
    "C176_commutes",
    "C176_tangential"
   ],
   "note": "Full statement, for real scalars. The Nedelec variant is the same theorem with the Nedelec face functions as tb; that those are tangent and independent on the face is a hypothesis (tb_fits), proved here for the tangential basis (C176_tangential) only. C176_commutes asks for the projections on all tangential polynomials of degree fd; C176_commutes_span for the projections on the face functions, when these contain the tangential polynomials of degree rd."
  },
  {
   "property": "C177",
   "status": "proved",
   "theorems": [
    "C177_consistent_span",
    "C177_reconstruction",
    "C177_out_of_range",
    "C177_plane"
   ],
   "note": "Full statement, 3D and 2D, for real scalars. FullPivLU is a solver that finds a solution of every consistent system (solves_any); any_solve, a Gaussian elimination with pivoting, shows such a solver exists. C177_consistent_span is the exactness for projections on the face functions themselves."
  },
  {
   "property": "C178",
   "status": "proved",
   "theorems": [
    "C178_hdg",
    "C178_nedelec",
    "C178_Z"
   ],
   "note": "Full statement, for real scalars."
  },
  {
   "property": "C179",
   "status": "partial",
   "theorems": [
    "C179_cell_partial",
    "C179_faces_refuted"
   ],
   "note": "The cell part is proved; the face part is false in the code (integrals taken over the cell, curl.hpp:403): C179_faces_refuted for every solver of SPD systems."
  },
  {
   "property": "C180",
   "status": "proved",
   "theorems": [
    "C180_mass",
    "C180_impedance",
    "C180_plane_wave"
   ],
   "note": "Full statement, for real scalars; boundary faces are given by a mark per face."
  },
  {
   "property": "C181",
   "status": "proved",
   "theorems": [
    "C181_stabilization",
    "C181_consistent"
   ],
   "note": "CurlS_Model.curl_hho_stabilization. The differences exist for every unknown; the form, symmetry, positivity (face diameters positive) and consistency are stated with them. Consistency on fields above the cell degree is not claimed: the gradient part of the reconstruction is the solver's choice (see the findings)."
  },
  {
   "property": "C182",
   "status": "proved",
   "theorems": [
    "C182_reconstruction",
    "C182_same_curl",
    "C182_out_of_range"
   ],
   "note": "CurlS_Model.curl_reconstruction_div with FullPivLU as any solver that solves consistent systems. The solution of the saddle-point system is not unique (it is determined up to gradients of polynomials of degree rd + 1 orthogonal to those of degree rd), so uniqueness is stated for the curl."
  },
  {
   "property": "C183",
   "status": "proved",
   "theorems": [
    "C183_plane",
    "C183_curl_curl"
   ],
   "note": "CurlS_Model.curl_hdg_stabilization_2d and make_curl_curl_matrix."
  },
  {
   "property": "C184",
   "status": "proved",
   "theorems": [
    "C184_energy_plane",
    "C184_secant_plane",
    "C184_unique_plane"
   ],
   "note": "Energy, secant bounds against the returned tangent, and uniqueness of the strain, for all materials and strains in the plane."
  },
  {
   "property": "C185",
   "status": "partial",
   "theorems": [
    "C185_energy_space_refuted",
    "C185_monotone_space_refuted",
    "C185_secant_space_partial"
   ],
   "note": "Refuted: no energy exists in space and the law is not monotone, for every mu > 0. Proved: the secant bounds between strains of equal trace."
  },
  {
   "property": "C186",
   "status": "partial",
   "theorems": [
    "C186_tangent_at_zero_partial",
    "C186_tangent_refuted"
   ],
   "note": "Proved at zero strain for DIM 2 and 3; refuted in the plane at every symmetric strain with a deviator."
  },
  {
   "property": "C187",
   "status": "partial",
   "theorems": [
    "C187_no_history",
    "C187_stress3D_partial",
    "C187_stress3D_refuted"
   ],
   "note": "History independence and storage proved. Agreement of compute_stress3D proved in space and for trace zero in the plane, refuted otherwise."
  },
  {
   "property": "C188",
   "status": "proved",
   "theorems": [
    "C188_convex_volume",
    "C188_tetrahedron"
   ],
   "note": "Exact arithmetic. convex_polyhedron: plane convex faces, vertices of the cell behind each, every edge traversed as often in each direction. Example: a triangular prism with faces listed from both sides."
  },
  {
   "property": "C189",
   "status": "partial",
   "theorems": [
    "C189_star_volume_partial",
    "C189_nonconvex_refuted"
   ],
   "note": "Proved when the mean of the vertices is behind every face (example: a box with a pyramid cut out of its top). Refuted in general by a tetrahedron with a deep dent: 490 instead of 98."
  },
  {
   "property": "C190",
   "status": "proved",
   "theorems": [
    "C190_cell_quadrature",
    "C190_weights",
    "C190_special"
   ],
   "note": "Exact on the list of tetrahedra returned by the splitting; that these fill the cell without overlap is expressed by the total weight being the volume (convex cells)."
  },
  {
   "property": "C191",
   "status": "partial",
   "theorems": [
    "C191_face_quadrature",
    "C191_weights",
    "C191_few_points",
    "C191_high_degree_refuted"
   ],
   "note": "Up to degree 30, to the printed accuracy of the tables (1e-14 relative to the size of the integrand). Degrees above 30: undefined behaviour, refuted."
  },
  {
   "property": "C192",
   "status": "proved",
   "theorems": [
    "C192_cell_fill",
    "C192_points"
   ],
   "note": "Any number of faces. The cell is given by its faces seen from outside; strictly convex = convex, faces without empty edges, adjacent faces not coplanar. That the tetrahedra do not overlap follows for the volume from C188 but is not stated as a point-set theorem. Four-point cells are returned as they are (C188_tetrahedron)."
  },
  {
   "property": "C193",
   "status": "proved",
   "theorems": [
    "C193_face_fill"
   ],
   "note": "Any number of vertices, convex polygon in a plane of space; membership is expressed through the area vector, so no normal has to be given."
  },
  {
   "property": "C194",
   "status": "proved",
   "theorems": [
    "C194_rectangle",
    "C194_faces",
    "C194_volume"
   ],
   "note": "Exact reals, square roots included. The converse for 3D cells assumes that no side is empty."
  },
  {
   "property": "C195",
   "status": "proved",
   "theorems": [
    "C195_plane",
    "C195_space",
    "C195_face",
    "C195_weights"
   ],
   "note": "Accuracy of the tables: quad_eps = 4e-15, relative to the size of the integrand. In the plane the cell is numbered counterclockwise (as the generator and the loader do)."
  },
  {
   "property": "C196",
   "status": "proved",
   "theorems": [
    "C196_points",
    "C196_cover"
   ],
   "note": "PostMesh of three-dimensional meshes, for every mesh with valid numbers. A face of a cell is given by its position in the mesh (msh.lookup). The 2D version uses the external earcut triangulation and is not modelled."
  },
  {
   "property": "C197",
   "status": "proved",
   "theorems": [
    "C197_nodes",
    "C197_conforming"
   ],
   "note": "The triangles of a face depend on the face only; numbers of nodes_cell with their coordinates."
  },
  {
   "property": "C198",
   "status": "partial",
   "theorems": [
    "C198_coefficients_partial",
    "C198_coefficients_refuted"
   ],
   "note": "Refuted when the two last (for Eigen: largest) eigenvalues coincide alone: the code then reads the derivatives at the first eigenvalue. Proved in every other pattern; eta also leaves out the pattern where the first and last coincide alone, which sorted eigenvalues never show."
  },
  {
   "property": "C199",
   "status": "partial",
   "theorems": [
    "C199_strain_unique",
    "C199_projector_partial",
    "C199_projector_pk2_partial",
    "C199_projector_refuted",
    "C199_power_partial"
   ],
   "note": "Refuted by a shear in the plane of two coinciding largest eigenvalues, where the projector gives a strain rate four times too large. Proved in every other pattern; the power holds in every pattern when the stress of the law has the eigenvectors of the strain. The eigenvalue solver is a parameter with the diagonalisation as hypothesis; the motion has a differentiable diagonalisation."
  },
  {
   "property": "C200",
   "status": "proved",
   "theorems": [
    "C200_throws",
    "C200_moments",
    "C200_objective",
    "C200_principal"
   ],
   "note": "For every law, eigenvalue solver and pattern of coincidence; the eigenvalue solver sees the Cauchy-Green tensor only."
  },
  {
   "property": "C201",
   "status": "partial",
   "theorems": [
    "C201_rate",
    "C201_stress_partial",
    "C201_tangent_partial",
    "C201_stress_refuted"
   ],
   "note": "Proved when the last two eigenvalues, and the first and the last, coincide only if the three do; with the two largest equal the stress of the code is wrong (C201_stress_refuted, C198_coefficients_refuted, C199_projector_refuted). Sorted eigenvalues never have the first and last equal alone. The motion has a differentiable diagonalisation; the test of equality of the code separates the eigenvalues that differ."
  },
  {
   "property": "C202",
   "status": "partial",
   "theorems": [
    "C202_throws",
    "C202_tangent_partial",
    "C202_moments"
   ],
   "note": "C202_throws, C202_moments and C202_tangent_partial: the plane compute_whole throws iff det F <= 1/100, balances moments, and its tangent is the derivative of the plane stress. Missing (as in C201): eigenvalues of which the last two, or the first and last, coincide alone, where the coefficients of the code are wrong."
  },
  {
   "property": "C203",
   "status": "proved",
   "theorems": [
    "C203_points",
    "C203_fresh",
    "C203_update",
    "C203_local"
   ],
   "note": "For every history of update() and of evaluations at points. The law at a point is a parameter; an access to a point outside its cell is undefined behaviour and kept apart."
  },
  {
   "property": "C204",
   "status": "proved",
   "theorems": [
    "C204_plastic_strain",
    "C204_state",
    "C204_elastic",
    "C204_total",
    "C204_polynomial",
    "C204_least_squares",
    "C204_unique"
   ],
   "note": "For every solver that solves symmetric positive definite systems and every cell whose quadratures and bases fit (every triangle does, HHOInst_Properties). Least squares and reproduction need points of degree 2k; the Newton solver asks for that degree."
  },
  {
   "property": "C205",
   "status": "proved",
   "theorems": [
    "C205_stress",
    "C205_symmetric"
   ],
   "note": "Entry by entry, so C204_total, C204_polynomial, C204_least_squares and C204_unique apply to each entry."
  },
  {
   "property": "C206",
   "status": "partial",
   "theorems": [
    "C206_boundary",
    "C206_stuck",
    "C206_minimum_partial",
    "C206_energy_refuted"
   ],
   "note": "The boundary stays (C206_boundary). The minimum is refuted: the right hand side is built with the coordinates of the free point instead of those of its neighbour on the boundary, so a point whose neighbours are all on the boundary never moves (C206_stuck), and the energy of a square cut from (1/4, 1/2) is not least (C206_energy_refuted). What is minimised is the energy in which the springs to the boundary hold the free points where they were (C206_minimum_partial). The theorems assume the solver solved its system."
  },
  {
   "property": "C207",
   "status": "proved",
   "theorems": [
    "C207_gradient",
    "C207_polynomial",
    "C207_least_squares"
   ],
   "note": "For cells; on a face the function takes the size of the cell basis. The solver is any that solves symmetric positive definite systems, the quadratures are exact for their degree, and the system is shown to be positive definite."
  },
  {
   "property": "C208",
   "status": "partial",
   "theorems": [
    "C208_points",
    "C208_image",
    "C208_triangle",
    "C208_tetrahedron",
    "C208_barycenter",
    "C208_diameter",
    "C208_polygon_partial",
    "C208_reflection_refuted"
   ],
   "note": "C208_points: the points of an element after any map, by their numbers, and when they are defined. Triangles and tetrahedra for every affine map, barycenters for every affine map and dimension, diameters for every similarity. Polygons: convex cells of positive area and maps of positive determinant (C208_polygon_partial); for a reflection the convexity test fails on a square (C208_reflection_refuted). Missing: the measure of cells that are not convex."
  }
 ]
}