# Formal model of wareHHOuse/diskpp in Rocq (Coq 8.16.1)

The code is read as text (`/repo`), never built or run.  Every model definition
carries a comment `(* file:lines *)` naming the code it models and the
simplifications made.

## Layout of `rocq/theories`

* `Common/…`   outcome type (`Ok | Throw | UB`), list/vector helpers used by several models.
* `X_Model.v`  Gallina functions modelling the code of area X (no proofs about them).
* `X_Spec.v`   small, model-independent specification (when the statement needs one).
* `X_Proofs.v` lemmas.
* `X_Properties.v` only `Theorem … exact lemma.`, `Print Assumptions`, and the
  non-vacuity `Example`s.

## Modelling conventions

* Exceptions are `Throw`, undefined behaviour (out-of-range access, unset data) is `UB`;
  `assert` is *not* executed (release build, `NDEBUG`) unless the comment says otherwise.
* `size_t` counters are `nat`; wrap-around is written explicitly where the code depends on it.
* Floating point numbers are modelled by exact numbers (`Q`, `R`).  Every theorem about
  coordinates, weights, matrices is therefore a theorem about exact arithmetic; rounding is
  outside the model except where a property is about it.
* `std::vector` is `list`, `std::map` a function or association list, `std::sort`+`unique`
  a verified insertion sort (the result is determined by the order, the algorithm is not).
* Eigen dense matrices are functions `nat -> nat -> R` with explicit sizes, Eigen's
  `ldlt().solve` is an oracle that returns an exact solution (stated as a hypothesis).

## Plan per property

| id | model | how it is proved |
|----|-------|------------------|
| C01 | `rational.hpp` on `Z` (truncating `%`, recursive gcd with fuel) | value lemma in `Q`, gcd divides both, coprime after simplify |
| C02 | same | ordering under positive denominators; refuted by witness for values made by `*=`/`/=` |
| C03 | `lower_bound` loop as in libstdc++ on a list with a comparison | loop invariant; absent elements for `offset` refuted |
| C04 | filter_iterator as state machine over descriptor list | induction on the list |
| C05 | connectivity table | induction over cells; refuted/guarded for non owners |
| C06 | `bounding_box::compute` fold | refuted by witness; positive theorem for the guard under which it is right |
| C07,C08 | triangle mesher: state (points, edges, triangles), `refine` | invariant preserved by refine, induction on depth |
| C09 | cartesian mesher | same |
| C10 | `make_tetra`, refine children | determinant identities by `ring`; boundary inheritance by invariant |
| C11 | hexagonal mesh generator | quadtree recursion = all tiles; edge ownership by local tile analysis |
| C12 | barycentric test + recursion | sign analysis (lra/nra), induction on level; level check off by one refuted |
| C13 | generators and `faces()` tables | computation on symbolic vertices; refuted where tables disagree |
| C14,C15 | boundary condition state machine | invariant over call lists; double counting and contact id refuted |
| C16 | constructors | case analysis; three-argument constructor refuted |
| C17,C49 | stores indexed by element | set/get laws over histories |
| C18 | exponent enumeration loops | length = binomial by induction; NoDup, completeness |
| C19 | monomials over `R`, derivatives with `derivable_pt_lim` | product/power rules |
| C20 | tables 0..10 | derivative by `auto_derive`/ring; refuted at 8 and 10 |
| C21 | size formulas and fill loops | arithmetic; refuted for RT degree 1 (3D) and symmetric RT |
| C22 | recursion P,Q | complex power identities; gradient factor refuted |
| C23,C24,C25,C26 | tables transcribed in `Q` | monomial errors by `vm_compute`, lifted to all polynomials and intervals/triangles |
| C27 | `comp_next`, `gm_rule_set` | enumeration by invariant; exactness by generating functions |
| C28 | tensor rule on bilinear map | refuted for odd degree; parallelograms proved |
| C29,C30,C32 | assembler as fold over faces/cells | induction, counting |
| C31 | block matrices | linear algebra identities |
| C33 | time-step list on `Q` | invariant over op list |
| C34 | time loop with oracle | well-founded measure, invariant |
| C35,C36 | 3x3 and DIM^4 index maps | computation on symbolic matrices; case 6 refuted |
| C37 | scalar return mapping on piecewise linear curve | induction on segments |
| C38 | update formulas | refuted by witness; exact characterisation |
| C39 | loop with fuel = max_iter | invariant r=b-Ax; orthogonality by induction |
| C40 | flat vector + iterator | induction |
| C41 | loop | induction |
| C42 | packed/unpacked identifiers | case analysis |
| C43 | lexicographic order on sorted id lists | order theory |
| C44 | cross product tests | refuted (2D), proved (simplex) |
| C45 | loops | strong induction |
| C46 | triplet list | induction over history |
| C47 | determinants | ring/lra |
| C48 | insertion sort + unique | induction |
| C50 | `Mesh_Model`: marking of internal boundaries | induction over faces |
| C51 | `Elem_Model`: comparison of generic elements | case analysis; refuted for different lengths |
| C52 | `Mesh_Model`: queries with absent elements | binary search invariant; witnesses |
| C53 | `BC_Model`: by-face overloads | case analysis; refuted |
| C54 | `Util_Model`: identifiers | case analysis; refuted for the generic class |
| C55 | `Uniform_Model` | induction; refuted for reversed intervals |
| C56 | `Asm_Model`: boundary terms | induction over faces |
| C57 | `Asm_Model`: basic condensed assembler | same invariant as C29/C30; empty flags refuted |
| C58, C59 | `CG_Model` | exact characterisation of the flag; refuted |
| C60 | `Tensor_Model`: packed tangents | symbolic computation; size 36 refuted |
| C61 | `Elem_Model` | combinatorics of sorted lists |
| C62-C69 | `Law_Model`: behaviours and kinematics | Fréchet derivatives over `R` (`Tensor_Spec`), ring identities; C67-C69 refuted |
| C70-C72 | `Quad_Model` | change of variables for polynomials; counterexamples for skew faces and odd degree |
| C73-C79 | `Geo_Model` | shoelace identities by induction on the polygon, sign analysis |
| C80-C84 | `Bases_Model` | derivatives, Gram matrices through exact Gauss integrals; refutations |
| C85 | `Harm_Model` sizes | invariant over call histories |
| C86, C87 | `VBases_Model` | derivatives component by component |
| C88 | `Mesher_Model` | refuted after one refinement |
| C89 | `Hier_Model` | refinement invariant shared with C07 |
| C90, C91 | `Single_Model` | induction on the number of sides; refutations |
| C92 | `Hex_Model` | tile decomposition, exact areas, convexity, coverage of the square |
| C93 | `Arbq_Model` + `Arbq_Tables` | certified fixed-point check of all moments, lifted to every polynomial and tetrahedron |
| C94, C95 | `HHO_Model`: make_scalar_hho_laplacian (one face degree, per-face degrees) | the loops are sums of exact integrals (exact quadratures, polynomial bases); Green's formula on the polytope; the solver oracle solves SPD systems |
| C96, C97 | `HHO_Model`: make_scalar_hho_stabilization, make_scalar_hdg_stabilization | the assembled matrix is the bilinear form of the projected face residuals; symmetry and positivity from that form |
| C98 | `HHO_Model`: reconstruction + stabilisation | kernel: zero energy forces a constant; connectedness of the cell |
| C99 | `HHO_Model`: reconstruction + stabilisation + project_function | the interpolate of a polynomial reproduces it; integration by parts gives the exact right hand side |
| C100 | `HHO_Model`: project_function | normal equations of the L2 projection |
| C101 | `Single_Model`: single_polygon | trigonometric identities |
| C102 | `Geo_Model`: split_in_raw_triangles | telescoping over the edges; sign analysis for plane convex faces |
| C103 | `Bases_Model`: face3_frame | case analysis |
| C104, C105 | `VHHO_Model`: vector gradient reconstruction, with a tensor | normal equations in a vector basis, integration by parts; witness for a face without unknowns |
| C106 | `VHHO_Model`: divergence reconstruction | the same, tested with 1 for conservation |
| C107 | `VHHO_Model`: symmetric gradient with the sparse mass matrix | orthonormality of the constant tensors, integration by parts for matrices, kernel with the HDG stabilisation |
| C108 | `VHHO_Model`: vector Laplacian, matrix gradient, vector stabilisations, vector interpolation | entries of the replicated blocks, index arithmetic |
| C109 | `SLapl_Model`: `integrate` on evaluators (value, gradient, normal derivative, material product) | exactness of the quadrature and degrees of the products |
| C110 | `SLapl_Model`: `L2_project`, `L2_projector` | Gram matrix and right hand side exact, solver; concrete counterexample |
| C111 | `SLapl_Model`: `local_operator` | rows of the right hand side by induction over the faces, then the core of C94/C95; counterexample by Green's formula |
| C112 | `SLapl_Model`: stabilisations, reduction | one-face forms, fold over faces, generic consequences (`HHO10_Proofs`) |
| C113 | `Load_Model`: text reader (`strtot`), `netgen_read`, `populate_mesh`, `load_mesh`, 2D and 3D | lexical lemmas (spelling of numbers), block reader by induction, sort/unique facts of C48, loop invariant of the marking loop |
| C114 | same | the marking loop on a face that is absent; refutation in 2D for every such file |
| C115 | `Load_Model`: `quad_read`, `hex_read`, cartesian `populate_mesh` | as C113, with the corner tables; refutation by a two-square file |
| C116 | as C113 | consequence of C113; refutation by a file with an index out of range |
| C117 | `Conn_Model`: `medit3_populate`, `poly2_populate`, `poly3_populate` | the conversion table is a permutation (`table_placed`), level by level: edges, faces, volumes; groups by induction |
| C118 | same | refutation by a file with two triangles; theorem for lists matched by position |
| C119 | `Conn_Model`: `fvca6_read`, `fvca6_populate` | as C117 on the file with 1-based edges; refutation for all files |
| C120 | `Conn_Model`: `renumber`, `boundary_number2`, `boundary_number3` | invariant of the two loops over C05; linear arithmetic on unit vectors |
| C121 | `fvca6_populate` | counting of volumes against outer faces of the file, renumbering (C120) and its fallback |
| C122 | `Plane_Model`: `medit2_populate` | the attached edges are a sorted set; positions in the sorted edge list; marking loop as in C113 |
| C123 | `Plane_Model`: `f5_parse`, `f5_populate` | invariant over the blocks of the file (edges attached so far), sorting by edge numbers |
| C124 | same, with C05 and C120 | counting the neighbours of an edge; outer edges are those with one neighbour |
| C125 | `Plane_Model`: `medit2_populate`, `domain_info` | refutation by a two-triangle file; theorem for all files |
| C126 | `VAsm_Model`: `mech_make`, `prim_make` | each (face, component) unknown is one "face" of C29's counting; induction over faces |
| C127 | `mech_assemble`, `prim_assemble`, finalize | loop invariants over faces of a cell, rows and columns; reuse of `assembled` (C30) with one unknown per item |
| C128 | `take_local_v`, `mech_expand`, `prim_expand` | reading along the same numbering |
| C129 | `mech_newton`, `prim_newton` | invariant between iterations: numbering kept, no pending entries |
| C130 | `mech_neumann`, `prim_neumann` | theorem when no face has both conditions, rejection for entirely prescribed faces, refutations otherwise |
| C131 | `select_faces_degree`, `prim_make_hdi` | loop over boundary faces; refutation for other contact types |
| C132 | `SAsm_Model`: `sp_make`, `sp_initialize`, `sp_assemble`, `sp_neumann`, `sp_robin`, `sp_finalize` | lists of local entries scattered by labels (`Scat_Proofs`); induction over calls, then over rounds |
| C133 | `sp_make` | counting Dirichlet faces with multiplicity against the rank of free faces; refutation on two triangles |
| C134 | `sp_take_local`, `sp_expand` | induction over the faces of the cell, of the mesh |
| C135 | `sp_neumann_step`, `sp_robin_step` | some iteration of the loop fails |
| C136 | `SAsm_Model`: `st_make`, `st_initialize`, `st_assemble`, `st_assemble_alg`, `st_finalize` | local entries scattered by labels; rank of the unknowns of cells, faces, pressures; induction over calls and rounds |
| C137 | `take_velocity`, `take_pressure`, `global_face_offset` | completion of the solution; the multiplier row of the full system |
| C138 | `alg_initialize_lhs` ... `alg_finalize_rhs` | invariant: matrix and prescribed part belong to the last left-hand side; sum of two scattered systems |
| C139 | the same, against the condition types of `VAsm_Spec` | refutation (DX, CLAMPED); positive theorem for DIRICHLET |
| C140 | `st_assemble` then `take_velocity` | refutation with a projection depending on the quadrature; positive theorem when both agree, and for `assemble_alg` |
| C141 | `DGA_Model`: `grad_matrix`, `curl_matrix`, `edges_vol`, `faces_vol` | finite identities for symbolic values; the circulation is an integral, computed for affine fields |
| C142 | `pev_vol`, `pav_vol`, `dav_vol`, `dev_vol`, volumes | closed forms of the dual vectors, then identities in the coordinates; the orientation is a sign |
| C143 | `edge_matrix`, `face_matrix` and the scalar versions | quadratic form written as a sum over the vertices; consistency row by row |
| C144 | `normals_vol` | positive multiple of the area vector, sign of the determinant |
| C145 | `normals_surf`, `dev_surf` | refutation and what holds for each edge |
| C146 | `edge_matrix`, `face_matrix` | equivalence with symmetry of the tensor, witness |
| C147 | `edge_offset`, `edge_ids_vol`, `edge_ids_surf` | lower bound in a sorted list (`Mesh_Proofs`) |
| C148 | `CFEM_Model`: `cf_basis`, `cf_grad` | field identities in the coordinates |
| C149 | `cf_mass`, `cf_stiff`, `cf_stiff_k`, `cf_rhs` | integrals of quadratic polynomials on the reference triangle; energy of affine functions |
| C151 | `VEM_Model`: all of namespace `vem_2d` | the matrices in closed form (`VEM2_Proofs`), B D = G by Green's formula on the polytope, G is regular; energy form of the product |
| C152 | the same with k = 1 | the first rows of G and B differ: exact error formula, counterexample with a hanging node |
| C153 | `projector_zero` | moments row by row, mass matrix positive definite; counterexample of degree 2 |
| C150 | `VDof_Model`: `faces_ccw` of the three kinds of meshes, `dof_mapper` | closed form of the numbering of edges and cells by induction on the loops; the walk around a cell has distinct sides |
| C154 | `VSch_Model`: `vem_schur`, `vem_deschur` | block elimination with the boundary block first |
| C155 | `tri_faces_ccw` | signed area of the walk; a triangle numbered clockwise |
| C156 | `recompute` | the tables are extended, never cleared; counterexample with degrees 1 and 2 |
| C157 | `Stab_Model`: `hho_difference`, `diff_dofs` | the projection on a face space that contains the restrictions is exact there; blocks of rows |
| C158 | `dg_stabilization` | form per face, positivity of the integrals; kernel with the reconstruction by Green's formula |
| C159 | `dg_stabilization_diff`, `hdg_stabilization_diff` | both forms evaluated on the functions of the differences |
| C160 | `stabilization_fluxes` | the form on differences is positive definite when all faces have unknowns; witness with a row of zeros |
| C161 | `hho_stabilization_cdi` | form by the projections on the cell and on each face; kernel and interpolates as for C98, C99, with a degree per face |
| C162 | `hho_stabilization2` | the same with the weight of the tensor |
| C163 | `hho_stabilization_fluxes` | the system has full column rank and its right-hand side is in the range: the stabilisation vanishes on what the rows do not see |
| C164 | the same with the diameter of the cell | exact statement of what is computed; triangle on which the two scalings differ |
| C165 | `symmetric_laplacian` | saddle-point matrix with multipliers for the mean rotation: symmetric and injective (vectors without strain and mean rotation are constant), multipliers are zero, so the reconstruction solves its variational problem; uniqueness up to constants |
| C166 | `vector_hho_stabilization` | as C161 with vectors, any reconstruction matrix |
| C167 | both | zero strain and zero mean rotation make the reconstruction constant, so the lifting is uT; rigid motions from zero strain |
| C168 | both | the reconstruction of an interpolate differs from the vector by a rigid motion, which the projection keeps if the cell degree is at least 1; triangle with degree 0 |
| C169 | `vector_dg_stabilization` | component-wise from C158; kernel as C167 |
| C170 | `apply_dirichlet_via_nitsche` | fold over the faces; exact quadrature turns each block into the bilinear form; symmetry of the form |
| C171 | same, with the reconstruction and stabilisation | the reconstruction of an interpolate is the polynomial up to a constant; Green's formula |
| C172 | same | Cauchy-Schwarz and an inverse trace constant on the finite-dimensional polynomial space; kernel of the stabilised operator; a triangle where the default fails |
| C173 | `hho_laplacian` with any basis (`make_shl_harmonic`, `make_shl_face_proj_harmonic`) | as C94 for an abstract basis; the energy form is definite on its span modulo constants |
| C174 | `make_sfl` | two Galerkin problems, the second against the first; invariance of r - t under constants |
| C175 | `make_sfl` | consistency of the inner reconstruction, Green's formula; a basis with two harmonic cubics on a triangle |
| C176 | `Curl_Model`: `curl_reconstruction_pk`, `tang_basis` | Galerkin equation with the mass matrix of the vector basis; Green's formula for the curl; frames give all tangential polynomials |
| C177 | `curl_reconstruction` (3D, 2D) | the curl-curl matrix is singular: the right-hand side vanishes on its kernel (Fredholm), so any solver of consistent systems finds a solution; consistency by Green twice |
| C178 | `chdg` and its three instances | each face matrix is the Gram form of the projected jumps |
| C179 | `maxwell_prj` | cell: projection; faces: the reference tetrahedron and V = (0, x, 0), which vanishes on x = 0 |
| C180 | `make_vector_mass_oper`, `make_impedance_term`, `make_plane_wave_term` | exact quadrature, sums over the marked faces |
| C181 | `CurlS_Model`: `curl_hho_stabilization` | each face matrix is the Gram form of the projected difference uF - Ru + p - uT; zero when Ru - V has the degree of the cell |
| C182 | `curl_reconstruction_div` | the saddle-point matrix is singular: the right-hand side vanishes on its kernel; the blocks give the equation of the curl, the moments against gradients and the mean |
| C183 | `curl_hdg_stabilization` in the plane, `make_curl_curl_matrix` | Gram form of the projected jumps; exact quadrature |
| C184 | `Hencky_Model`: the Hencky-Mises law, DIM = 2 | derivative of the energy along every line; Cauchy-Schwarz and the monotonicity of t / sqrt(1 + t^2) for the secant bounds |
| C185 | the same, DIM = 3 | a potential would have two different second differences on the strains s I + t diag(1,-1,0); a pair of strains with negative work; bounds for equal traces |
| C186 | its tangent | derivative at zero; derivative in the direction of the deviator, smaller than the returned one |
| C187 | its state, `compute_stress3D` | history independence; the two stresses agree for trace zero, differ for diag(1,0) |
| C188 | `Polyh_Model`: `split_in_raw_tetrahedra`, `measure` of a polyhedral cell | cones over the triangles of the faces; the area vectors of a closed surface add up to zero, so the apex does not matter |
| C189 | the same, cells that are not convex | the barycentre behind every face is enough; a tetrahedron with a deep dent as counterexample |
| C190 | `integrate` on a polyhedral cell | composition of the exact Grundmann-Moeller rules; total weight |
| C191 | `integrate` on a polyhedral face | composition of the triangle rules; the table is read at [degree] before any check |
| C192 | `split_in_raw_tetrahedra`, `integrate` as point sets | the ray from the barycentre leaves a convex cell through a face; a boundary point outside the polygon of its face is beyond the neighbouring face; converse by convexity |
| C193 | `split_in_raw_triangles` as a point set | fan induction on the edges of the polygon; the area vector is a positive multiple of the normal |
| C194 | `Cart_Model`: `faces`, `measure` of cartesian cells and faces | Lagrange and Hadamard identities with their defect; the six faces close up and enclose the determinant |
| C195 | `integrate` on cartesian cells and faces | the reordering of the corners meets the hypotheses of C28 and C70; weights against measure |
| C196 | `Post_Model`: `PostMesh` of three-dimensional meshes | invariant of the loops over faces and cells: the points only grow at the end; covering by C192 with the fan of every large face |
| C197 | `nodes_cell` and the triangles of the faces | the list of triangles depends on the face only; it fills the face by C193 |
| C198 | `Log_Model`: coefficients of `logarithmic_tools.hpp` | case analysis on the equality test against divided differences of half the logarithm; refuted when the two last eigenvalues coincide |
| C199 | projectors, `compute_whole3D` | differentiation of `W h(L) W^T` with skew `W^T W'`; change of frame for two diagonalisations of one tensor; the projector as a Hadamard product in the frame of the eigenvectors |
| C200 | `compute_whole3D` | the stress is F times a symmetric tensor that depends on the Cauchy-Green tensor only |
| C201 | the tangent modulus of `compute_whole3D` | derivative of the divided difference by the function ln u / (u - 1) at one; second derivative of the strain as a sum of second divided differences, in any frame of eigenvectors; bilinear forms of the tensors of the code; product rule for F S |
| C202 | `compute_whole` of the logarithmic strain for plane problems | the plane results are the parts of the 3D results on the embedded gradient; a plane motion is a motion with third stretch one, to which C200 and C201 apply |
| C203 | `LawTypeBones`, `LawTypeCellBones`: construction, update, access | list of cells, each a list of points with a state; a history is a list of calls; places of the points are an invariant |
| C204 | `projectPOnCell`, `projectStateOnCell` | the mass matrix of the basis is its Gram matrix (C100), the right hand side a weighted sum of the values; weak identity for all polynomials, then total, reproduction, least squares, uniqueness |
| C205 | `projectStressOnCell` | the same with the matrix basis, tested with matrices that have one entry |
| C206 | `relax_mesh` | the rows of the assembled system, computed cell by cell; a row whose neighbours are all on the boundary has the old coordinate as its only solution; witness of a mesh that could have less energy; the energy that is least by summing the rows against any displacement |
| C207 | `project_gradient`, stiffness of vector bases | the gradients of the functions after the constants are independent on a connected cell, so the system is positive definite; its solution tested against all gradients |
| C208 | `mesh::transform`, `points(msh, elem)` | image of the list of points; products of differences of an affine map are the determinant times the old ones; barycenter by linearity; diameter as a maximum of scaled distances; convexity edge by edge; a reflected square for the refutation |

## Status and findings

Properties that are false of the code as it stands (or hold only under a guard) carry a theorem
`…_refuted` with a concrete execution, and theorems `…_partial` with the exact guard.

Proved as stated: C01, C03, C04, C05, C07, C08, C09, C10, C11, C15, C17, C18, C19, C23, C24, C26, C27, C28, C29, C30, C31, C32, C34, C36, C39, C40, C41, C42, C43, C45, C46, C47, C48, C49, C50, C56, C61, C62, C63, C64, C65, C66, C70, C71, C74, C75, C77, C78, C82, C85, C87, C89, C92, C93, C94, C95, C96, C97, C98, C99, C100, C101, C102, C103, C104, C105, C106, C107, C108, C109, C112, C113, C117, C120, C121, C122, C123, C124, C126, C127, C128, C129, C132, C134, C135, C136, C137, C138, C141, C142, C143, C144, C147, C148, C149, C151, C150, C154, C157, C158, C159, C161, C162, C163, C165, C166, C167, C169, C170, C171, C173, C174, C175, C176, C177, C178, C180, C181, C182, C183, C184, C188, C190, C192, C193, C194, C195, C196, C197, C200, C203, C204, C205, C207.

* **C02** (partial) Comparisons proved when the last operation adjusts signs; refuted by witness for results of *= (rational) and /= (integer), which can leave a negative denominator.
* **C06** (partial) Corners are mesh points for all inputs; the box contains all points for pairwise comparable points (in particular 1D). Refuted in 2D: points (0,1),(1,0).
* **C12** (partial) Construction, coarse-to-fine maps and location proved for every conforming non-degenerate mesh, level and point. Refuted: locate_recursive tests max_level > meshes.size(), so the first missing level is undefined behaviour (reads past the vector of meshes) instead of an error; levels beyond it are reported.
* **C13** (partial) Proved for intervals, triangles and polygons with any number of sides. False in the code for tetrahedra (surfaces not sorted, lookup of the face 0-2-3 throws), rectangles (edges 0-3 and 1-2 stored instead of 0-2 and 1-3) and boxes (two faces stored with another vertex order): refuted, with the exact set of faces that are found.
* **C14** (partial) Counter equals the reported faces exactly when no face is covered twice by the same kind (proved iff); refuted by registering one id twice. Every covered face is reported: proved.
* **C16** (partial) Cell/reconstruction degree admissibility proved for the two-argument constructor; see refutation for the three-argument one.
* **C20** (partial) Orthonormality (all degrees <= 10), rejection above 10 and derivatives of functions 0-7 and 9 are proved; the derivative tables of functions 8 and 10 are wrong in the code (72012 for 72072, 450450 for 540540): C20_derivative_refuted.
* **C21** (partial) Proved for every class with independence: vector cells and faces, tangential, Nedelec, RT vectors in 2D, RT matrices 2D/3D, full and symmetric matrices, RT symmetric 2D. Refuted: 3D RT vectors of degree 1 (fourth function is identically zero), 3D RT symmetric matrices of degree >= 3 (more functions than announced), symmetric size in other dimensions (exception dropped, 0 returned).
* **C22** (partial) Plane: the functions are the monomials up to the polynomial degree and then the real and imaginary parts of powers, all harmonic; the gradient rows of the harmonic part lack the factor 2/diameter (exact statement C22_plane_gradients_partial), so they are gradients on cells of diameter 2 (diam2_partial) and wrong otherwise (refuted). Space: away from the line through the barycenter along x the functions are the solid harmonics, harmonic everywhere, with the same missing factor; on that line the values are not finite (refuted).
* **C25** (partial) Degrees 0-20 and > 21 proved on every triangle (plane and space) with tolerance 1e-14 relative to the integrand size; degree 21 refuted: the table terminator is used and an empty rule is returned (asserts compiled out).
* **C33** (partial) Proved for increasing schedules in exact arithmetic. Refuted: an explicit final time that is not a grid point is not reached; in IEEE double the last step can be dropped (T=0.1, 11 steps).
* **C35** (partial) Proved for sizes 4, 5, 9 in both directions and for rejected sizes. False of the code for size 6 (tensor_conversion.hpp:288 writes (0,1) instead of (1,2)): refuted, with the exact content of the result.
* **C37** (partial) Isotropic (piecewise linear curve) and linear isotropic+kinematic laws, for every reachable state in 2D and 3D; curves may soften, but no faster than 3 mu, and stay positive; C37_hardening_curves shows every non-decreasing curve qualifies. An empty curve gives the elastic law. Finding: a curve with a single point reads out of range (C37_single_point_refuted). Exact arithmetic.
* **C38** (partial) False of the code: the inertia prediction is added with the wrong sign, the acceleration uses the increment only, the prediction weighs the acceleration by dt^2, and gamma has no effect (C38_constant_acceleration_refuted, C38_gamma_ignored_refuted; NewtonIteration.hpp:168-169,433-435, NewtonSolverComput.hpp:549). The partial theorem states what the step does. One degree of freedom, zero stiffness.
* **C44** (partial) Tetrahedra of positive orientation: exact (closed cell). Negative orientation: only interior points are accepted (refutation C44_tetra_refuted). Plane cells: the loop compares each vertex with itself (i % size instead of (i+1) % size), so every point is reported inside (C44_polygon_refuted).
* **C51** (partial) Equality right for equal numbers of faces; refuted (and out-of-range read) otherwise, and sort_uniq can then lose an element.
* **C52** (partial) lookup-based queries reject; offset() and (in release builds) neighbour_via do not: witnesses.
* **C53** (partial) The by-face overload calls robin_boundary_id (513-521): right iff the Robin id happens to agree; refuted by witness.
* **C54** (partial) True of the packed 32-bit specialisation (C54_packed_partial); refuted for the generic one, whose operator== ignores the validity flag.
* **C55** (partial) Guarded theorem for x_min <= x_max; refuted for reversed intervals: the node coordinates leave the interval.
* **C57** (partial) For an empty flag vector on a mesh the constructor silently falls back on the mesh boundary without counting it and the first assemble reads outside the vector (C57_empty_flags_refuted). Inhomogeneous Dirichlet data is not supported by this assembler: the code that would subtract it is commented out in /repo.
* **C58** (partial) False of the code: the flag only says the sizes agree (solver.hpp:155 always returns true). Refuted with a 2x2 system; C58_flag_is_size_check_partial says exactly what the flag means.
* **C59** (partial) False of the code for rr_tol: solver.hpp:168 reads the table 'sover'. rr_max and max_iter are honoured.
* **C60** (partial) Proved for sizes 16, 25 and 81. False of the code for size 36: convertTensorFromMgis reads the order (xx,yy,zz,yz,zx,xy), convertMatrixToMgis writes (xx,yy,zz,xy,xz,yz), and in row xy the divisors of zz and zx are exchanged (tensor_conversion.hpp:444,447); refuted, with the exact positive statement for size 36.
* **C67** (partial) False of the code: U is 1/(1-J) instead of 1-1/J (C67_energy_law4_refuted); the partial theorem says that stress and tangent agree.
* **C68** (partial) False of the code, which computes G G^T/2 (C68_linearized_strain_refuted, deformation_tensors.hpp:43); the partial theorem states what is computed.
* **C69** (partial) False of the code: entry (6,3) is -M(2,1) instead of -M(1,2); the partial theorem shows that all other entries are right and that the result is right when M(1,2)=M(2,1).
* **C72** (partial) False in the code: on the trapezoid (0,0),(2,0),(1,1),(0,1) the degree-1 rule gives 9/8 for the integral of x, which is 7/6 (C72_odd_degree_refuted). What holds is exactness up to degree-1 (C72_odd_degree_partial).
* **C73** (partial) Proved for all convex polygons of positive area (any face order/direction). Refuted for non-convex cells: an L-shape of area 5 gets measure 1, because normals are oriented with the barycenter.
* **C76** (partial) Convex polygons accepted and quadrangles decided exactly; a five-pointed star is accepted although it is not convex (C76_star_refuted).
* **C79** (partial) The rational specialisation forgets the factor 1/2: C79_rational_refuted.
* **C80** (partial) False in the code at degree 0 (write past the end), for a scale factor other than 2 and when the second point is on the left; proved for degree >= 1, scale 2, increasing points.
* **C81** (partial) False in the code: 3D face gradients read an entry never set (undefined behaviour at every degree), 2D face gradients throw; the gradients of the same functions through the raw basis are proved right.
* **C83** (partial) False in the code: the Gram matrix is 2/L times the identity (proved), so orthonormal only for L = 2.
* **C84** (partial) Orthonormality and span proved when no corner is flat and some corner other than the first is wider than 8 degrees; otherwise the code reads past the points (C84_first_corner_refuted) or returns NaN (C84_straight_corner_refuted).
* **C86** (partial) The deprecated 3D eval_curls does not compute a curl (refuted); eval_curls2 does. The 2D eval_curls returns the opposite of the curl.
* **C88** (partial) holds on the initial grid only: refine() rotates three of the four children (meshgen.hpp:692-703)
* **C90** (partial) Proved for intervals and polygons; the simplicial and cartesian generators never size boundary_info, so is_boundary throws out_of_range (refuted).
* **C91** (partial) Refuted for every number of sides: edges are sorted after the cell's face numbers are assigned, so face 1 joins points 0 and n-1.
* **C110** (partial) C110_projector_refuted: on the triangle (0,0),(2,0),(0,1) with constants, the projector of x^2 is not its mean.
* **C111** (partial) C111_low_cell_refuted: cell degree 0, face degree 1, x^2 on a triangle: L2_project integrates with degree 1, so the reduction is wrong and so is the reconstruction.
* **C114** (partial) 3D: throws for every such file. 2D: populate_mesh returns false for every such file but load_mesh drops the value and returns true (refuted for all of them); an empty file is accepted.
* **C115** (partial) Faithful loading proved for all files; the clause that a shared face is stored once holds exactly for files whose cells list shared faces in the same order (proved) and is refuted otherwise (witness: two squares). Missing: nothing can be proved for incoherent files, since the element constructor does not canonicalise.
* **C116** (partial) Proved when the numbers of the file are in range; refuted otherwise: no loader checks them (witness file accepted with return value true).
* **C118** (partial) False in the code: node lists are looked up by position (C118_poly_node_numbers_refuted). Proved: the mesh is that of the file with node lists numbered by position.
* **C119** (partial) Faces, volumes, their points and the order are right for every valid file. Edges keep the 1-based vertex numbers: for every file whose last point lies on an edge some stored edge refers to a point that does not exist (C119_fvca6_edges_refuted).
* **C125** (partial) false: the loader drops the numbers (refuted); proved: domain_info throws for every cell of every accepted file
* **C130** (partial) Proved when no face has both a Neumann and a Dirichlet condition, and the rejection of entirely prescribed faces. False in the code on faces with some components prescribed: wrong equation, write beyond the end, overwritten right-hand side (three refutations).
* **C131** (partial) Degrees and the rejection are proved for all meshes; numbering of contact faces is proved under contact_plain in C126 and false otherwise (C131_contact_refuted: SIGNORINI shares unknowns or writes outside the matrix; SIGNORINI_FACE with prescribed components gets surplus rows).
* **C133** (partial) False as stated: the counter of Dirichlet faces counts a face once per registration covering it, so overlapping registrations make the system too small and finalize writes outside it (C133_double_registration_refuted). C133_size_partial gives the size in general and shows it right exactly when no face is covered twice.
* **C139** (partial) false for DX and CLAMPED (refuted); true when every condition in force is DIRICHLET
* **C140** (partial) false for assemble with general projections (refuted); true for assemble_alg and when projections agree
* **C145** (partial) False of the code: C145_triangle_normals_refuted, C145_face_dual_edges_refuted. The partial theorems say which vector points where for every triangle and tetrahedron.
* **C146** (partial) False of the code: C146_any_tensor_refuted. C146_any_tensor_partial proves that the claim holds exactly when the tensor is symmetric.
* **C152** (partial) false: the mean row of G uses the cell and that of B the vertices. C152_linear_exact gives the error, C152_linear_partial holds when the two means agree, C152_linear_refuted is a triangle with a hanging node
* **C153** (partial) moments, reproduction and the case k = 1 are proved; the L2 clause is false (C153_l2_refuted): the part of degree k of the first projection is dropped
* **C155** (partial) Refuted: a triangle whose point numbers increase clockwise. Proved: the order is counterclockwise exactly when the points in increasing number are.
* **C156** (partial) Refuted: the tables are not cleared. Proved: recomputing with the same mesh and degree changes nothing, and in every case the old entries stay.
* **C160** (partial) False when a face has no unknowns (C160_fluxes_refuted: the matrix is singular); true when all faces have some (C160_fluxes_partial).
* **C164** (partial) False (C164_cell_scaling_refuted); C164_cell_scaling_partial says what is computed: the face scaling of the stabilisation, whatever is asked.
* **C168** (partial) Proved with cell degree at least 1, or for vectors of zero mean rotation; refuted for degree 0 with a rotation of a triangle.
* **C172** (partial) C172_threshold and C172_definite prove the first sentence; the last sentence is false of the code: C172_default_refuted exhibits a triangle with degree 0 on which the default penalisation 1.0 gives a negative energy.
* **C179** (partial) The cell part is proved; the face part is false in the code (integrals taken over the cell, curl.hpp:403): C179_faces_refuted for every solver of SPD systems.
* **C185** (partial) Refuted: no energy exists in space and the law is not monotone, for every mu > 0. Proved: the secant bounds between strains of equal trace.
* **C186** (partial) Proved at zero strain for DIM 2 and 3; refuted in the plane at every symmetric strain with a deviator.
* **C187** (partial) History independence and storage proved. Agreement of compute_stress3D proved in space and for trace zero in the plane, refuted otherwise.
* **C189** (partial) Proved when the mean of the vertices is behind every face (example: a box with a pyramid cut out of its top). Refuted in general by a tetrahedron with a deep dent: 490 instead of 98.
* **C191** (partial) Up to degree 30, to the printed accuracy of the tables (1e-14 relative to the size of the integrand). Degrees above 30: undefined behaviour, refuted.
* **C198** (partial) Refuted when the two last (for Eigen: largest) eigenvalues coincide alone: the code then reads the derivatives at the first eigenvalue. Proved in every other pattern; eta also leaves out the pattern where the first and last coincide alone, which sorted eigenvalues never show.
* **C199** (partial) Refuted by a shear in the plane of two coinciding largest eigenvalues, where the projector gives a strain rate four times too large. Proved in every other pattern; the power holds in every pattern when the stress of the law has the eigenvectors of the strain. The eigenvalue solver is a parameter with the diagonalisation as hypothesis; the motion has a differentiable diagonalisation.
* **C201** (partial) Proved when the last two eigenvalues, and the first and the last, coincide only if the three do; with the two largest equal the stress of the code is wrong (C201_stress_refuted, C198_coefficients_refuted, C199_projector_refuted). Sorted eigenvalues never have the first and last equal alone. The motion has a differentiable diagonalisation; the test of equality of the code separates the eigenvalues that differ.
* **C202** (partial) C202_throws, C202_moments and C202_tangent_partial: the plane compute_whole throws iff det F <= 1/100, balances moments, and its tangent is the derivative of the plane stress. Missing (as in C201): eigenvalues of which the last two, or the first and last, coincide alone, where the coefficients of the code are wrong.
* **C206** (partial) The boundary stays (C206_boundary). The minimum is refuted: the right hand side is built with the coordinates of the free point instead of those of its neighbour on the boundary, so a point whose neighbours are all on the boundary never moves (C206_stuck), and the energy of a square cut from (1/4, 1/2) is not least (C206_energy_refuted). What is minimised is the energy in which the springs to the boundary hold the free points where they were (C206_minimum_partial). The theorems assume the solver solved its system.
* **C208** (partial) C208_points: the points of an element after any map, by their numbers, and when they are defined. Triangles and tetrahedra for every affine map, barycenters for every affine map and dimension, diameters for every similarity. Polygons: convex cells of positive area and maps of positive determinant (C208_polygon_partial); for a reflection the convexity test fails on a square (C208_reflection_refuted). Missing: the measure of cells that are not convex.

Other defects met while reading, outside the stated properties:

* `dunavant` degree 18 has a node outside the triangle (negative barycentric coordinates, as published).
* `arbq` ends the process (`exit(1)`) for degrees above 15.
* `geometry_hexahedral.hpp:264-275` asserts four points for a hexahedron, which has eight.
* `utils_hho.hpp:311-347` (`*_faces_offset`) cannot be instantiated.
* `NewtonSolverParameters.hpp` `readParameters` loops forever when `EndParameters` is missing.
* `mesh_utility.hpp` submesher: the edge constructor does not sort and `remove_if` is not followed by `erase`.
* `make_scalar_hho_stabilization(hdi)` documents a scaling by 1/h_F; it scales by the diameter of the cell and ignores its last argument (`scalar_stabilization.hpp:903-913`).
* `project_function` with `di = 0` integrates with degree 2k.  That is not enough for polynomials of degree k+1, so the interpolate used by the patch test needs `di >= 1`; C99 and C100 state the degrees required.
* `methods_hho.hpp:306`: `project_function` with `MeshDegreeInfo` calls `scalar_faces_dofs(msh, cl, vector)`, for which there is no overload; the template cannot be instantiated.  The model uses the size the callers use.
* `scalar_stabilization.hpp` `make_scalar_hho_stabilization_fluxes` calls `make_scalar_hho_stabilization` without its `hF` argument, so `hF = false` mixes the two scalings; `make_scalar_dg_stabilization_fluxes` calls an overload of `make_scalar_hho_difference` that does not exist.
* `vector_hho_gradrec.hpp`: the Raviart-Thomas variant calls `make_vector_hho_gradrec_impl` without `priv::`, and with `MeshDegreeInfo` uses bases of different sizes for the operator and for the mass matrix.
* The gradient and divergence reconstructions take the trace of a face without unknowns to be zero; the Laplacian reconstruction leaves such a face out.  See C104.
* `utils_hho.hpp` `compute_grad_vector` with `FILL_COLMAJOR` loops over as many rows as there are unknowns.
* `matrix_hho_gradrec.hpp` builds a `std::logic_error` for an unsupported dimension and does not throw it.
* `vector_hho_laplacian.hpp:192-200` (`MeshDegreeInfo`) passes a `CellDegreeInfo` to an overload that does not exist.
* `make_vector_hho_laplacian(hho_degree_info)` works only when the reconstruction degree is the face degree plus one: `compute_grad_vector` rebuilds the degrees and loses it (`utils_hho.hpp:497-505`, `adaptivity.hpp:100-112`).  See C108.
* `bases_new.hpp:862,877`: `L2_projector` computes the quadrature degree it needs and does not use it; it projects with the rule of its constructor.  See C110.
* `hho_slapl.hpp`: `local_reduction` integrates with degree `2 cell + 1`; with `cell = face - 1` the polynomials of the reconstruction degree are not reduced exactly.  See C111.
* `hho_slapl.hpp:178-206`: `local_stabilization_hdg` prints its matrices to `std::cout`, and its scaling by the diameter is commented out.
* `bases_operations.hpp:250-256`: the material product is `basis * tensor`, the transposed tensor applied to the gradient; `scalar_reconstruction.hpp` uses `K.transpose()` there.  They differ for tensors that are not symmetric.  Its integration degree is that of the basis, so tensors of degree above one are not integrated exactly.
* `loader.hpp:103-119`: `load_mesh` ignores the value returned by `populate_mesh`: a 2D file with a stray boundary edge is reported as loaded, with a mesh without subdomain data.  See C114.
* `loader_netgen.hpp`: the 2D loader drops the domain numbers of triangles and does not call `mark_internal_faces`; the 3D loader does both.  The 3D loader keeps duplicated volumes.  Vertex numbers are never checked: 0 wraps around to `2^64 - 1`, numbers beyond the last point are kept, a truncated file is padded with zeros.  See C113, C116.
* `loader_cartesian.hpp`: elements are not canonicalised, so a face that two cells list in different orders is stored twice.  Subdomain data are never resized: `domain_info(cl)` throws.  See C115.
* `loader_fvca6.hpp`, edge block: the two vertices of an edge stay 1-based while every other index is made 0-based.
* `loader_fvca5.hpp`: the words `ennagons` and `ettagons` (9 and 7 sides) stand for 7 and 8 sides.
* `loader_poly.hpp`: node lists of faces and volumes are looked up by position although every entry carries a number; nodes likewise.  See C118.
* `loader_medit.hpp`: the 3D `populate_mesh` returns false after success; the 2D one announces "dimension >= 2" but requires 3, and loops forever when `End` is missing.
* `loader_fvca6.hpp`: as said above, edges stay 1-based; for every file whose last point lies on an edge, some stored edge refers to a point that does not exist.  See C119.
* `loader_medit.hpp`, 2D: the polygon numbers (`id`) are read and then dropped, `subdomain_info` stays empty and `domain_info` throws for every cell (C125).
* `assembler_hho.hpp:2229-2347` (`assembler_mechanics::impose_neumann_boundary_conditions`): on a face with a component-wise Dirichlet condition the loads are added at positions that count the prescribed components, although the equations of the face are numbered without them; for `DY` the code writes `RHS(..) = ..` instead of `+=`.  3797-3928 and 4652-4775 (the primal assemblers): the same positions, and for `DY` in 3D `push_back(compress_offset + i, neumann(i + 2))`.  See C130.
* `assembler_hho.hpp:2827-2895, 4305-4384`: a contact face of a type other than `SIGNORINI_FACE` gets no numbers but its unknowns are used; a `SIGNORINI_FACE` with prescribed components gets rows that nothing fills.  See C131.
* `assembler_hho.hpp:3597`: the branch `FILL_COLMAJOR` uses `i` outside its loop; 3180: `num_faces_dofs(face_id)` is called with one argument (declared with two).  Neither compiles if used; the model reads the second as `num_face_dofs`.
* A Dirichlet condition registered with type `NOTHING` passes the constructors of the vector assemblers and makes `assemble` throw `std::logic_error`.  See C126.
* `assembler_hho.hpp:2402` (`scalar_primal_hho_assembler`): the size comes from `nb_faces_dirichlet`, which counts a boundary registered twice twice; the numbering counts it once.  The system is then too small and `finalize` writes outside of it.  See C133.
* `assembler_hho.hpp:668-689, 1068-1093` (Stokes assemblers): the type of a Dirichlet condition is ignored.  With `DX` both components are eliminated, with `CLAMPED` the registered function is used instead of zero.  See C139.
* `assembler_hho.hpp:687` projects the Dirichlet data with a quadrature raised by the face degree, `take_velocity` (880) with one raised by 2: what is read back need not satisfy the equations that were solved.  See C140.
* `stokes_assembler_alg::finalize_rhs` adds the prescribed part again at each call; it must be called once for each `initialize_rhs` (`C138_finalize_rhs_twice`).
* `methods_dga.hpp:566-586`: the normals of a triangle have the signs +, +, -; the second and third point inwards.  304-341: the dual edges of a face have the same mistake, against the comment "cross(pev, dev) = outward".  See C145.
* `methods_dga.hpp`: `integrate_on_primal_faces` and `integrate_on_dual_faces` of a triangle call functions that do not exist; `integrate_on_primal_faces` of a tetrahedron declares a vector of three and writes four entries.
* `methods_dga.hpp:752-816`: with a tensor that is not symmetric, the matrices are still symmetric and do not reproduce constant fields.  See C146.
* `methods_vem_2d.hpp:276-300` and 417-450: for k = 1 the first row of G is the mean over the cell, the first row of B the mean over the vertices.  They agree only if the vertices have the barycenter as mean.  Otherwise linear functions are not reproduced and the patch test fails.  See C152.
* `methods_vem_2d.hpp:529-571`: `projector_zero` multiplies the mass matrix of degree k-1 by the first rows of the first projector, which drops its part of degree k.  The moments of degree k-1 are then not those of the projection.  See C153.
* `methods_vem_2d.hpp:35-49`: `faces_ccw` of a triangle follows the increasing point numbers; when the points are numbered clockwise so is the list, against the comment of line 32.  The local matrices do not depend on it (the normals come from the geometry).  See C155.
* `methods_vem_2d.hpp:117-167`: `recompute` does not clear the tables, so a mapper recomputed for another mesh or degree answers with the old numbers.  See C156.
* `scalar_stabilization.hpp:939`: `make_scalar_hho_stabilization_fluxes` takes `hF` but computes the stabilisation with its default `true`; with `hF = false` the fluxes belong to the other scaling.  See C164.
* `scalar_stabilization.hpp`: `scalar_diff_dofs` counts rows for faces without unknowns, which the matrices on differences leave at zero; the factorisation in the fluxes is then of a singular matrix.  See C160.
* `scalar_stabilization.hpp`: `make_scalar_dg_stabilization_fluxes` calls `make_scalar_hho_difference` with an argument too many and does not compile when used.
* `scalar_stabilization.hpp`: `make_scalar_hho_stabilization2` integrates the mass matrix of a face with the quadrature of its trace, of degree reconstruction plus face; it is exact when the face degree is at most the reconstruction degree (hypothesis of C162).
* `vector_hho_laplacian.hpp`: the symmetric reconstruction has mean rotation zero, whatever the unknowns (the multipliers impose zero, not the mean rotation of the faces).  With cell unknowns of degree 0 the stabilisation then does not vanish on interpolates of rotations, so the lowest-order method is not consistent for rigid motions.  See C168.
* `scalar_hho_laplacian.hpp`: `apply_dirichlet_via_nitsche` has the default penalisation 1.0, which does not suffice: on a single triangle with degree 0 the matrix of the cell with the HHO operator and stabilisation is indefinite.  A threshold exists for every cell and degree, but it is not computed.  See C172.  The routine always uses the monomial reconstruction basis and no diffusion tensor, so it does not match the tensor or harmonic variants of the operator.
* `scalar_hho_laplacian.hpp`: the harmonic variants and `make_sfl` only use the gradients of the harmonic functions.  Where `eval_gradients` is off by a factor (C22), C173-C175 hold with the functions scaled by that factor, so the coefficients returned do not belong to the functions that `eval_functions` returns.
* `curl.hpp`: `maxwell_prj` integrates the face right-hand sides and mass matrices over the cell (`integrate(msh, cl, ...)` in the loop over the faces, line 403), so what it returns on a face is not the projection of the function on that face.  See C179: V = (0, x, 0) on the reference tetrahedron, not zero on the face x = 0 where V vanishes.
* `curl.hpp`: `curl_reconstruction` reads `stiff.block(3, 0, rbs-3, cbs)` and so needs a reconstruction degree at least the cell degree, which no check enforces (C177_out_of_range).  The system it solves is singular (gradients are in its kernel), and the solution returned is one of many; only its curl is determined.
* `curl.hpp`: `make_impedance_term` on a cell fills its right-hand side with the third component of the face functions, whatever the field: the incident wave is fixed to (0, 0, 1).
* `curl.hpp`: the overload of `curl_reconstruction_div` for the plane (974-980) has an empty body in a function that returns a pair: calling it is undefined behaviour.  The operator of the overload in space has one row per function of the basis and two more blocks of rows, so it cannot be given to `curl_hho_stabilization`, which expects the rows of `curl_reconstruction` (without the three constant functions).
* `curl.hpp`: `curl_hho_stabilization` vanishes on the projections of a field V only when Ru - V has the degree of the cell (C181): `curl_reconstruction` leaves the gradient part of Ru to the solver, so with a cell degree below the reconstruction degree the stabilisation of the projections of a gradient field of degree rd need not be zero.
* `HenckyMises_qp.hpp`: `compute_whole` always returns the elastic modulus as tangent.  It is the derivative of the stress at zero strain only (C186), so Newton's method with it is a fixed-point iteration; in the plane the secant bounds of C184 explain why it still works.
* `HenckyMises_qp.hpp`: with the coefficients of the code (`tildelambda` has mu / 2, whatever DIM) the stress derives from an energy in the plane but not in space, where it is not even monotone (C185).  In space mu / 3 would be needed.
* `HenckyMises_qp.hpp`: in the plane `compute_stress` uses the deviator of the 2 x 2 strain and `compute_stress3D` the one of the 3 x 3 strain, so the in-plane stresses differ unless the trace is zero (C187).  The comment at the top of the file (factor 2 in front of mu, no square of the norm) is not what the code computes; `derivativetildelambda` calls `derivativetildemu` with an argument missing and does not compile when used.
* `mesh_utility.hpp`: `submesher` uses the type `bnd_info`, defined nowhere in the library; the header does not compile and its functions are not modelled.
* `geometry_generic.hpp`, `raw_simplices.hpp`: the volume and the quadrature of a polyhedral cell use the cones from the mean of the vertices and their absolute volumes.  They are right for convex cells and for cells seen in full from that point (C188, C189); otherwise the cones overlap and the volume is too large without any warning (C189_nonconvex_refuted: 490 instead of 98).
* `quad_phys_generic.hpp:164`: `integrate_polyhedron_face` reads `triangle_gauss_rules[degree]` to reserve memory before it calls `triangle_gauss`; for a degree above 30 it reads past the end of the table (C191_high_degree_refuted).
* `loader_cartesian.hpp`, `raw_simplices.hpp`: the cells of a cartesian mesh of the plane list their points row by row (p0, p1, p2, p3 with p1p2 a diagonal), while `split_in_raw_triangles` takes the points of a cell as a closed polygon; on those meshes it would split a bow tie.  Not modelled.
* `geometry_hexahedral.hpp`: measure of a cartesian cell is the product of the lengths of three sides; by C194 this is the volume exactly when the sides are orthogonal, while `integrate` is right on every parallelepiped.  The loader does not check the angles: on a sheared cell the two disagree.  The 3D `measure` asserts `pts.size() == 4` on an array of eight points, so in a build with assertions it stops on every cell.  See C194.
* `logarithmic_tools.hpp:366-387`: when the two largest eigenvalues of the Cauchy-Green tensor coincide (uniaxial compression of a block, equibiaxial tension), `compute_two_equal` takes theta(1,2) and xi(1,2) from the derivatives at the smallest eigenvalue (`di(0)`, `fi(0)` instead of `di(1)`, `fi(1)`) and eta from xi(1,2) instead of xi(0,1).  The projector is then not the derivative of the strain (C198_coefficients_refuted, C199_projector_refuted).  The stress of an isotropic law is not affected (C199_power_partial, C200_principal); the tangent modulus and the stress of a law with its own axes are.  Line 363: in the case of equal first and last eigenvalues eta should be xi(1,0); Eigen sorts eigenvalues, so the case is not reached.
* `logarithmic_tools.hpp:389,412`: `std::invalid_argument` is built and not thrown.
* `mesh_utility.hpp:390-391`: `relax_mesh` moves the known terms of the system to the right-hand side with the coordinates of the free point (`pts[i]`) instead of those of its neighbour on the boundary (`pts[j]`).  A point whose neighbours are all on the boundary never moves (C206_stuck), and the result is not the placement of least energy the comment announces (C206_energy_refuted).  It is the placement of least energy when the springs to the boundary are tied to the old place of the free point (C206_minimum_partial).  The energy in the theorem is the one whose stiffness matrix the code assembles, one spring for each side of each cell.
* `bases_utils.hpp:396-421`: `project_gradient` takes any element but computes the size of its basis with the dimension of the mesh, which is the size for a cell; C207 is about cells.
* `mesh.hpp:602-604`: `transform` with a map that reverses the orientation (a reflection) leaves the points of 2D polygonal cells in clockwise order; `is_convex` then answers false for convex cells (C208_reflection_refuted). The code documents no restriction on the map.

## What is modelled and what is not

Paths are relative to `libdiskpp/include/diskpp`.

| area | modelled | not modelled |
|------|----------|--------------|
| common | `rational.hpp` arithmetic and comparison | iostream operators, `util.h`, `timecounter`, configuration parser |
| mesh core | `mesh.hpp` lookup, iterators, `transform`, counts, boundary queries, connectivity; element classes' ordering and constructors; `bounding_box`; `ident.hpp` | mesh copy/move, storage of user data, coarsening |
| mesh generation | triangle, cartesian, tetrahedron meshers with any number of refinements; hexagonal mesher at every level; single-element meshes; 1D uniform loader; mesh hierarchy and point location; Netgen and DiSk++ cartesian files from the text to the mesh; poly2d, poly3d, medit2d, medit3d, fvca5, fvca6 from the numbers read to the mesh; `renumber_hypercube_boundaries`, `relax_mesh` | tokens of fvca/medit/poly files, gmsh loader, `submesher`, `dump_netgen_format` |
| output | `PostMesh` of 3D meshes (`postMesh.hpp:170-353`) | `PostMesh` of 1D and 2D meshes (the 2D one triangulates with the external earcut), Gmsh, Silo and HDF5 writers |
| geometry | measures, barycenters, diameters, normals, convexity, triangulations, point-in-cell, local axes, bounding boxes, volumes of polyhedra, faces and measures of cartesian cells | |
| quadratures | Gauss-Legendre, Gauss-Lobatto, tensor rules on quadrangles, hexahedra and faces, Dunavant, default triangle rules up to degree 30, Grundmann-Moeller in every dimension, `arbq` tetrahedron rules, composition over polyhedra and their faces, cartesian cells | `triquad` (degree above 30) |
| bases | scaled monomials (1D, 2D, 3D cells and faces), Legendre, `bases_new`, harmonic, vector, matrix, Raviart-Thomas, Nédélec, tangential; forms, projections of `bases_new` / `bases_operations` | vector bases of `bases_new`; of `bases_utils` only mass, stiffness, right hand side, projection and `project_gradient` are modelled |
| methods | degree information, static condensation, diffusion / basic / DG assemblers, `assembler_mechanics`, `vector_primal_hho_assembler`, `vector_mechanics_hho_assembler`, `scalar_primal_hho_assembler`, `stokes_assembler`, `stokes_assembler_alg`; scalar HHO: reconstruction (all four variants, in any basis, with a degree per face, and `make_sfl`), all stabilisations (HHO, HDG, DG, with tensor, with a degree per face), differences and fluxes, Nitsche boundary terms, projection; vector HHO: gradient (with tensor), divergence, symmetric gradient, component-wise Laplacian, matrix gradient and stabilisations, symmetric Laplacian (with a degree per face), HHO and DG stabilisations with a degree per face, projection; `hho_slapl`; curl operators: reconstructions (tangential and Nedelec faces, with a potential in space and in the plane, with a constraint on the divergence), all stabilisations, the curl-curl matrix, `maxwell_prj`, mass, impedance and plane-wave terms | Raviart-Thomas variants; complex scalars; the empty overload of `curl_reconstruction_div` in the plane |
| linear finite elements | `cfem.hpp` | |
| virtual elements | `methods_vem_2d.hpp`: local matrices, projectors, load, numbering, condensation | |
| discrete geometric approach | primal and dual vectors, incidence and material matrices, normals, edge numbers | `integrate_on_primal_faces` / `integrate_on_dual_faces` of a triangle (do not compile), the analytic-function overloads |
| mechanics | time steps, nonlinear loop, stabilisation store, tensor conversion and algebra, behaviours (isotropic, kinematic, hyperelastic, Hencky-Mises), kinematics, logarithmic strain (strain, projectors, stress, tangent modulus), material points of the cells and their output fields | MFront, contact solver |
| solvers | conjugate gradient and its Lua parameters | direct solvers (external) |
| boundary conditions | the whole class | function evaluation |

External code (Eigen factorisations, `std::` algorithms, exceptions, `libm`) is
represented by its contract: a solve is an oracle, `std::sort` a sort, `sqrt`,
`sin`, `cos` the real functions.  Rounding, overflow of `int`/`size_t` (unless a
comment says otherwise), concurrency and I/O are outside the model.

## Trusted base

* Coq 8.16.1's kernel (including `vm_compute` conversion), and `coqchk`.
* The hand transcription of the code into `*_Model.v` and `*_Tables.v` (each definition cites
  its lines) and the English reading of the statements in `*_Spec.v` and `*_Properties.v`.
* The axioms printed by `Print Assumptions` in the `*_Properties.v` files.  Only axioms of the
  standard library occur, abbreviated in the table below:
  SF `ClassicalDedekindReals.sig_forall_dec`, SN `ClassicalDedekindReals.sig_not_dec`,
  FE `FunctionalExtensionality.functional_extensionality_dep`, CL `Classical_Prop.classic`, UI the
  primitive machine integers of the kernel and their standard specifications (used only to
  evaluate the checker of the triangle and tetrahedron quadrature tables).

### What the seeded bugs show

`seeded/LOG.jsonl` records the declarations at which the build of the edited model stopped
(`error_observed_in`).  Its `theorems_failed` is inferred from these by following names through the
current theories: those theorems were not each rebuilt against the edit, and some are more recent than
the run.  A proof script that stops does not show that the statement is false of the edited program, and
this was not checked edit by edit; the first version of C208_points was an example of a statement that
stayed true.  The log is evidence that the proofs depend on the edited definitions, and weaker evidence
that the statements are tight.  See `seeded/README.md`.
UI abbreviates the following, all from the standard library (`Coq.Numbers.Cyclic.Int63`): `PrimInt63.add`, `PrimInt63.div`, `PrimInt63.eqb`, `PrimInt63.int`, `PrimInt63.land`, `PrimInt63.leb`, `PrimInt63.lor`, `PrimInt63.lsl`, `PrimInt63.lsr`, `PrimInt63.ltb`, `PrimInt63.mod`, `PrimInt63.mulc`, `PrimInt63.sub`, `Uint63.add_spec`, `Uint63.div_spec`, `Uint63.eqb_correct`, `Uint63.eqb_refl`, `Uint63.leb_spec`, `Uint63.lor_spec`, `Uint63.lsl_spec`, `Uint63.lsr_spec`, `Uint63.ltb_spec`, `Uint63.mod_spec`, `Uint63.mulc_spec`, `Uint63.of_to_Z`, `Uint63.sub_spec`, `classic`.  They are the primitive 63-bit integers of the kernel and the specifications of their operations; a theorem marked UI depends on some or all of them.

| file | theorems | axioms |
|---|---|---|
| `Arbq_Properties.v` | `C93_tetrahedron` | SF, SN, CL, FE, UI |
| `Arbq_Properties.v` | `C93_sizes` | SF, SN, FE, UI |
| `Asm2_Properties.v` | `C56_boundary_terms`, `C56_rejected`, `C56_conflict_rejected`, `C29_numbering_basic`, `C57_basic_assembly`, `C57_basic_assembly_flags`, `C57_basic_take_local`, `C57_empty_flags_refuted`, `C46_dg_assembly`, `C46_dg_eigen_assembly` | none (closed under the global context) |
| `Asm_Properties.v` | `C29_numbering`, `C29_numbering_bnd`, `C30_assembly`, `C30_assembly_bnd`, `C30_solutions`, `C30_order`, `C30_wrong_overload`, `C32_take_local`, `C32_take_local_bnd` | none (closed under the global context) |
| `BC_Properties.v` | `C15_calls_never_fail`, `C15_queries_report_last`, `C15_boundary_ids`, `C15_functions`, `C53_contact_id_by_face_partial`, `C15_foreign_face_rejected`, `C15_cell_queries`, `C14_counters`, `C14_total`, `C14_counter_counts_faces_partial`, `C14_covered_faces_reported`, `C14_double_registration_refuted`, `C53_contact_id_by_face_refuted` | none (closed under the global context) |
| `Bases_Properties.v` | `C18_size`, `C18_size_overflow` | none (closed under the global context) |
| `Bases_Properties.v` | `C18_cell1`, `C18_cell1_values`, `C18_cell2`, `C18_face2`, `C18_cell3`, `C18_face3`, `C18_new2`, `C18_new3`, `C18_raw2`, `C19_cell1`, `C19_cell2`, `C19_cell3`, `C19_new2`, `C19_new3`, `C19_raw2`, `C19_curls2`, `C80_gradient1_partial`, `C80_degree0_refuted`, `C80_scale_refuted`, `C80_orientation_refuted`, `C81_face_gradients_refuted`, `C81_face_gradients_partial` | SF, FE |
| `Bases_Properties.v` | `C18_face1` | SF |
| `Bases_Properties.v` | `C18_new_face2`, `C20_orthonormal`, `C20_rejects`, `C20_derivative_partial`, `C20_derivative_refuted`, `C82_orthonormal2`, `C82_orthonormal3`, `C82_sizes`, `C82_gradients`, `C83_face_gram_partial`, `C84_face_axes_partial`, `C84_first_corner_refuted`, `C84_straight_corner_refuted` | SF, SN, FE |
| `Bases_Properties.v` | `C83_face_orthonormal_refuted` | SF, SN, CL, FE |
| `CFEM_Properties.v` | `C148_basis`, `C148_gradient` | SF, FE |
| `CFEM_Properties.v` | `C149_mass`, `C149_stiffness`, `C149_kernel`, `C149_rhs` | SF, SN, FE |
| `CG_Properties.v` | `C39_rejected`, `C39_stops`, `C39_exact`, `C39_orthogonality`, `C39_positive_definite`, `C58_true_without_convergence_refuted`, `C58_flag_is_size_check_partial`, `C59_lua_parameters_partial` | SF, SN, FE |
| `CG_Properties.v` | `C59_lua_tolerance_refuted` | SF, FE |
| `Cart_Properties.v` | `C194_rectangle`, `C194_faces`, `C194_volume` | SF, SN, FE |
| `Cart_Properties.v` | `C195_plane`, `C195_space`, `C195_face`, `C195_weights` | SF, SN, CL, FE |
| `Cell_Properties.v` | `C203_points`, `C203_fresh`, `C203_update`, `C203_local` | none (closed under the global context) |
| `Cell_Properties.v` | `C204_plastic_strain`, `C204_state`, `C204_elastic`, `C204_total`, `C204_polynomial`, `C204_least_squares`, `C204_unique`, `C205_stress`, `C205_symmetric` | SF, FE |
| `Cond_Properties.v` | `C31_condensation_defined`, `C31_wrong_rhs_rejected`, `C31_singular_block_rejected`, `C31_condensation_equivalent`, `C31_decondensations_agree`, `C31_schur_agrees` | none (closed under the global context) |
| `Conn_Properties.v` | `C117_medit3d`, `C117_poly3d`, `C117_poly2d`, `C118_poly_node_numbers_refuted`, `C118_poly_by_position_partial`, `C119_fvca6_partial`, `C119_fvca6_edges_refuted`, `C120_side_of_normal_2d`, `C120_side_of_normal_3d`, `C120_renumbering`, `C121_fvca6_boundary` | none (closed under the global context) |
| `CurlS_Properties.v` | `C176_commutes_span`, `C177_consistent_span`, `C181_stabilization`, `C181_consistent`, `C182_reconstruction`, `C182_same_curl`, `C183_plane`, `C183_curl_curl` | SF, FE |
| `CurlS_Properties.v` | `C182_out_of_range` | SF |
| `Curl_Properties.v` | `C176_reconstruction`, `C176_commutes`, `C176_tangential`, `C177_reconstruction`, `C177_plane`, `C178_hdg`, `C178_nedelec`, `C178_Z`, `C179_cell_partial`, `C180_mass`, `C180_impedance`, `C180_plane_wave` | SF, FE |
| `Curl_Properties.v` | `C177_out_of_range` | SF |
| `Curl_Properties.v` | `C179_faces_refuted` | SF, SN, CL, FE |
| `DGA_Properties.v` | `C141_incidence`, `C142_primal_vectors`, `C142_duality`, `C143_symmetric`, `C143_constant_fields`, `C143_constant_fields_scalar`, `C143_positive_definite`, `C143_positive_definite_scalar`, `C143_energy`, `C145_face_dual_edges_partial`, `C145_face_dual_edges_refuted`, `C146_any_tensor_partial` | SF, FE |
| `DGA_Properties.v` | `C141_stokes` | SF, SN, FE, UI |
| `DGA_Properties.v` | `C144_outward_normals`, `C145_triangle_normals_partial`, `C145_triangle_normals_refuted` | SF, SN, FE |
| `DGA_Properties.v` | `C147_edge_numbers`, `C147_edge_numbers_face` | none (closed under the global context) |
| `DGA_Properties.v` | `C146_any_tensor_refuted` | SF, FE, UI |
| `Degree_Properties.v` | `C16_degrees_admissible`, `C16_three_degrees_partial`, `C16_three_degrees_refuted`, `C17_store_returns_last_set`, `C17_foreign_element_rejected`, `C17_constructors_agree` | none (closed under the global context) |
| `Elem_Properties.v` | `C43_order_and_equality`, `C43_simplicial_constructor_defined`, `C43_simplicial_equality`, `C43_generic_edge_equality`, `C51_generic_equality_same_size_partial`, `C51_generic_equality_refuted`, `C48_sort_uniq`, `C48_sort_uniq_elements`, `C51_sort_uniq_loses_element_refuted`, `C61_faces_of_simplices` | none (closed under the global context) |
| `Fill_Properties.v` | `C192_cell_fill`, `C192_points`, `C193_face_fill` | SF, FE |
| `GM_Properties.v` | `C27_compositions`, `C27_size`, `C27_inside` | SF, FE |
| `GM_Properties.v` | `C27_exact`, `C27_triangle`, `C27_tetrahedron` | SF, SN, CL, FE |
| `Geo_Properties.v` | `C47_triangle`, `C47_triangle_in_space`, `C47_tetrahedron`, `C73_polygon_measure_partial`, `C74_polygon_centroid`, `C74_triangulation`, `C79_rational_partial` | SF, SN, CL, FE |
| `Geo_Properties.v` | `C47_measure`, `C73_nonconvex_refuted`, `C75_normal_2d`, `C75_normal_polygon`, `C75_normal_3d`, `C73_inward_normal_refuted`, `C77_diameter`, `C79_rational_refuted` | SF, SN, FE |
| `Geo_Properties.v` | `C47_barycenter`, `C44_tetra_partial`, `C44_tetra_negative_partial`, `C44_tetra_refuted`, `C44_polygon_refuted`, `C73_translation`, `C74_translation`, `C76_accepts_convex`, `C76_quadrangle`, `C76_star_refuted`, `C77_bounding_box`, `C78_local_axes` | SF, FE |
| `HHO_Properties.v` | `C94_reconstruction`, `C94_reconstruction_faces`, `C95_consistency`, `C95_consistency_faces`, `C96_hho_stabilization`, `C96_symmetric_positive`, `C97_hdg_stabilization`, `C97_hdg_stabilization_tensor`, `C97_symmetric_positive`, `C98_kernel`, `C98_kernel_hdg`, `C99_patch`, `C99_patch_hdg`, `C100_projection`, `C100_projection_id` | SF, FE |
| `HHO_Properties.v` | `C100_projection_same` | SF |
| `Harm_Properties.v` | `C85_last_call_wins`, `C85_sizes`, `C85_other_dimensions` | none (closed under the global context) |
| `Harm_Properties.v` | `C22_plane_functions`, `C22_plane_harmonic`, `C22_plane_gradients_partial`, `C22_plane_gradients_diam2_partial`, `C22_plane_gradients_refuted`, `C22_space_functions_partial`, `C22_space_harmonic`, `C22_space_gradients_partial`, `C22_space_functions_refuted` | SF, FE |
| `Hencky_Properties.v` | `C184_energy_plane`, `C184_secant_plane`, `C184_unique_plane`, `C185_monotone_space_refuted`, `C185_secant_space_partial`, `C186_tangent_at_zero_partial`, `C186_tangent_refuted`, `C187_no_history`, `C187_stress3D_partial`, `C187_stress3D_refuted` | SF, SN, FE |
| `Hencky_Properties.v` | `C185_energy_space_refuted` | SF, SN, CL, FE |
| `Hex_Properties.v` | `C11_never_throws`, `C11_owners`, `C11_edges`, `C11_shapes`, `C11_area` | CL |
| `Hex_Properties.v` | `C92_faces`, `C92_boundary`, `C92_area` | SF, CL, FE |
| `Hier_Properties.v` | `C12_build`, `C12_children`, `C12_locate`, `C12_deep_level_reported_partial`, `C12_missing_level_refuted`, `C89_boundary_ids` | SF, FE |
| `Law_Properties.v` | `C37_isotropic_return`, `C37_kinematic_return`, `C37_isotropic_accepted`, `C37_kinematic_accepted`, `C37_empty_curve_elastic`, `C62_isotropic_tangent`, `C62_kinematic_tangent`, `C37_single_point_refuted`, `C62_tangent_flag`, `C64_von_mises` | SF, SN, FE |
| `Law_Properties.v` | `C37_hardening_curves`, `C62_linear_laws`, `C64_stress_measures`, `C64_strain_measures`, `C65_first_derivative`, `C69_second_derivative_3D_partial`, `C66_check_curve`, `C38_newmark_partial`, `C37_curve_is_a_function`, `C64_inverse`, `C64_rotation_invariant`, `C68_linearized_strain_refuted`, `C68_linearized_strain_partial`, `C65_second_derivative_2D`, `C69_second_derivative_3D_refuted`, `C66_young_poisson`, `C66_lame`, `C66_tangent_modulus`, `C38_constant_acceleration_refuted`, `C38_gamma_ignored_refuted` | SF, FE |
| `Law_Properties.v` | `C63_neohookean`, `C63_cavitation`, `C67_energy_law4_refuted`, `C63_rejects`, `C67_law4_partial` | SF, SN, CL, FE |
| `Load_Properties.v` | `C113_netgen_2d`, `C113_netgen_3d`, `C113_netgen_2d_wf`, `C113_netgen_3d_wf`, `C113_layout_irrelevant`, `C114_netgen_3d_rejects_partial`, `C114_netgen_2d_populate_rejects_partial`, `C114_netgen_2d_rejects_refuted`, `C114_empty_file_accepted_refuted`, `C115_cartesian_2d_partial`, `C115_cartesian_3d_partial`, `C115_rows_are_box_faces`, `C115_faces_once_partial`, `C115_faces_once_3d_partial`, `C116_vertices_exist_partial`, `C116_vertices_exist_3d_partial`, `C115_faces_once_refuted`, `C116_vertices_exist_refuted` | none (closed under the global context) |
| `Log_Properties.v` | `C198_coefficients_partial`, `C198_coefficients_refuted`, `C199_strain_unique`, `C199_projector_partial`, `C199_projector_pk2_partial`, `C199_projector_refuted`, `C199_power_partial`, `C200_throws`, `C200_moments`, `C200_objective`, `C200_principal` | SF, SN, CL, FE |
| `Logt_Properties.v` | `C201_rate`, `C201_stress_partial`, `C201_tangent_partial`, `C202_throws`, `C202_tangent_partial`, `C202_moments`, `C201_stress_refuted` | SF, SN, CL, FE |
| `Mesh_Properties.v` | `C03_lookup_iff_stored`, `C03_offset_of_stored`, `C52_lookup_queries_reject_partial`, `C52_offset_answers_partial`, `C52_offset_absent_refuted`, `C04_loops_visit_exactly`, `C04_sizes`, `C04_loops_agree_with_queries`, `C04_boundary_id_list`, `C05_connectivity_built_iff`, `C05_neighbour_is_other_owner`, `C05_neighbour_symmetric`, `C52_foreign_face_refuted`, `C50_mark_internal_faces`, `C06_corners_are_points_partial`, `C06_comparable_points_partial`, `C06_one_dimensional`, `C06_bounding_box_refuted` | none (closed under the global context) |
| `Mesher_Properties.v` | `C07_tri_mesh_conforming`, `C08_tri_mesh_sides_and_area`, `C09_cart_mesh_conforming`, `C09_cart_mesh_squares`, `C88_initial_numbering_partial`, `C88_numbering_after_refinement_refuted` | SF, FE |
| `Newton_Properties.v` | `C34_terminates`, `C34_keeps_last_converged_state`, `C34_success_means_converged_iterate`, `C34_accepted_steps_tile`, `C34_convergence_flag` | none (closed under the global context) |
| `Nit_Properties.v` | `C170_form`, `C170_symmetric`, `C171_consistent`, `C171_patch`, `C172_threshold`, `C172_definite` | SF, FE |
| `Nit_Properties.v` | `C172_default_refuted` | SF, SN, CL, FE |
| `PGrad_Properties.v` | `C207_gradient`, `C207_polynomial`, `C207_least_squares` | SF, FE |
| `Plane_Properties.v` | `C122_medit2d_accepts`, `C122_medit2d_mesh`, `C122_medit2d_rejects`, `C123_fvca5_mesh`, `C123_fvca5_closed`, `C123_fvca5_domain`, `C123_fvca5_dangling`, `C123_fvca5_bad_edge`, `C123_fvca5_bad_boundary`, `C123_fvca5_unknown_boundary`, `C124_fvca5_boundary`, `C125_medit2d_domains_refuted`, `C125_medit2d_domains_partial` | none (closed under the global context) |
| `Polyh_Properties.v` | `C188_convex_volume`, `C189_star_volume_partial`, `C189_nonconvex_refuted`, `C190_special` | SF, FE |
| `Polyh_Properties.v` | `C188_tetrahedron`, `C190_cell_quadrature`, `C190_weights` | SF, SN, CL, FE |
| `Polyh_Properties.v` | `C191_face_quadrature`, `C191_weights` | SF, SN, CL, FE, UI |
| `Polyh_Properties.v` | `C191_few_points`, `C191_high_degree_refuted` | SF, SN, FE |
| `Post_Properties.v` | `C196_points`, `C196_cover`, `C197_nodes`, `C197_conforming` | SF, FE |
| `Quad_Properties.v` | `C23_gauss_legendre`, `C23_gauss_legendre_segment`, `C24_gauss_lobatto`, `C24_gauss_lobatto_segment`, `C28_tensorized_even`, `C28_tensorized_parallelogram`, `C72_odd_degree_partial`, `C70_face`, `C70_hexahedron`, `C71_closed_form_gauss` | SF, SN, CL, FE |
| `Quad_Properties.v` | `C28_rule`, `C72_odd_degree_refuted` | SF, FE |
| `Quad_Properties.v` | `C70_skew_face_refuted` | SF, SN, FE |
| `Rational_Properties.v` | `C01_rational_programs_exact`, `C01_simplify_reduces`, `C01_gcd_lcm`, `C02_order_partial`, `C02_order_refuted` | none (closed under the global context) |
| `Relax_Properties.v` | `C206_boundary`, `C206_stuck`, `C206_energy_refuted`, `C206_minimum_partial` | SF, SN, FE |
| `SAsm_Properties.v` | `C132_primal_rounds`, `C133_size_partial`, `C133_double_registration_refuted`, `C134_take_local`, `C134_expand`, `C135_conflict_rejected`, `C135_nothing_to_impose` | none (closed under the global context) |
| `SLapl_Properties.v` | `C109_forms`, `C109_rhs`, `C109_material`, `C110_project`, `C110_projector`, `C111_reconstruction`, `C111_consistency`, `C112_stabilization`, `C112_stabilization_hdg`, `C112_kernel`, `C112_patch`, `C112_reduction` | SF, FE |
| `SLapl_Properties.v` | `C110_projector_refuted`, `C111_low_cell_refuted` | SF, SN, CL, FE |
| `SLapl_Properties.v` | `C111_undefined` | SF |
| `Sfl_Properties.v` | `C173_reconstruction`, `C173_projected`, `C173_consistent`, `C174_reconstruction`, `C175_consistent` | SF, FE |
| `Shape_Properties.v` | `C101_regular`, `C102_face_area` | SF, SN, FE |
| `Shape_Properties.v` | `C102_oriented_area`, `C103_face_axes`, `C103_flat_face` | SF, FE |
| `Single_Properties.v` | `C13_triangle`, `C13_tetra_refuted`, `C13_tetra_partial`, `C13_interval`, `C90_interval_boundary` | none (closed under the global context) |
| `Single_Properties.v` | `C13_rect_refuted`, `C13_rect_partial`, `C13_box_refuted`, `C13_box_partial`, `C90_boundary_refuted` | SF |
| `Single_Properties.v` | `C13_polygon`, `C90_polygon_boundary`, `C91_face_order_refuted` | SF, SN, FE |
| `St_Properties.v` | `C136_stokes_rounds`, `C136_size`, `C137_take`, `C137_solutions`, `C137_zero_mean`, `C137_face_offset`, `C138_split_assembly`, `C138_take`, `C138_read_back`, `C139_condition_types_partial`, `C139_condition_types_refuted`, `C140_read_back_partial`, `C140_read_back_refuted` | none (closed under the global context) |
| `Stab_Properties.v` | `C157_difference`, `C158_dg_stabilization`, `C158_dg_kernel`, `C159_differences`, `C159_forms`, `C160_fluxes_partial`, `C161_form`, `C161_kernel`, `C161_consistent`, `C162_tensor`, `C163_fluxes`, `C164_cell_scaling_partial` | SF, FE |
| `Stab_Properties.v` | `C160_fluxes_refuted`, `C164_cell_scaling_refuted` | SF, SN, CL, FE |
| `SymL_Properties.v` | `C165_reconstruction`, `C165_unique`, `C165_interpolates`, `C165_common`, `C166_form`, `C167_kernel`, `C168_consistent_partial`, `C169_form`, `C169_kernel` | SF, FE |
| `SymL_Properties.v` | `C168_consistent_refuted` | SF, SN, CL, FE |
| `Tensor_Properties.v` | `C35_round_trip_partial`, `C35_unpack_pack_partial`, `C35_sizes`, `C35_size6_refuted`, `C35_size6_partial`, `C36_mandel`, `C60_tangent_partial`, `C60_sizes`, `C60_size36_refuted`, `C60_size36_partial` | SF, SN, FE |
| `Tensor_Properties.v` | `C36_coeff_read_write`, `C36_coeff_defined` | none (closed under the global context) |
| `Tensor_Properties.v` | `C36_products`, `C36_product_maps`, `C36_contractions`, `C36_single_entry`, `C36_identities`, `C36_deviator`, `C36_plane_conversions`, `C36_first_piola_tangent` | SF, FE |
| `Tet_Properties.v` | `C10_tet_mesh_conforming`, `C10_tet_mesh_sides_and_volume`, `C10_refine_tiles`, `C10_children_nondegenerate`, `C10_faces_pass_descriptor` | SF, FE |
| `Time_Properties.v` | `C33_construction_tiles`, `C33_single_interval`, `C33_history_tiles`, `C33_calls_defined_iff_nonempty`, `C33_split_halves`, `C33_final_time_never_exceeded`, `C33_final_time_refuted`, `C33_double_last_step_dropped_refuted` | none (closed under the global context) |
| `Trans_Properties.v` | `C208_barycenter`, `C208_tetrahedron`, `C208_reflection_refuted` | SF, FE |
| `Trans_Properties.v` | `C208_diameter`, `C208_triangle` | SF, SN, FE |
| `Trans_Properties.v` | `C208_image`, `C208_points` | SF |
| `Trans_Properties.v` | `C208_polygon_partial` | SF, SN, CL, FE |
| `Tri_Properties.v` | `C25_dunavant_partial`, `C25_dunavant_space_partial`, `C26_triangle_gauss`, `C26_triangle_gauss_space` | SF, SN, CL, FE, UI |
| `Tri_Properties.v` | `C25_size_partial` | SF, SN, FE, UI |
| `Tri_Properties.v` | `C25_degree_21_refuted` | SF, SN, FE |
| `Uniform_Properties.v` | `C41_uniform_partition`, `C41_incidence_and_boundary`, `C55_ends_in_order_partial`, `C55_ends_in_order_refuted` | SF, FE |
| `Util_Properties.v` | `C40_store_round_trip`, `C42_round_trip`, `C42_order_of_valid`, `C42_packed`, `C42_packed_truncates`, `C42_packed_invalid_throws`, `C54_packed_partial`, `C54_invalid_equals_valid_refuted`, `C45_iexp_pow`, `C45_ipow`, `C49_two_phases`, `C49_before_update`, `C49_foreign_cell_rejected`, `C42_invalid_throws` | none (closed under the global context) |
| `VAsm_Properties.v` | `C130_component_dirichlet_refuted`, `C130_overwritten_refuted`, `C130_wrong_component_refuted`, `C131_contact_refuted`, `C126_numbering`, `C126_bad_type_rejected`, `C127_assembly_mechanics`, `C127_assembly_primal`, `C127_solutions`, `C128_take_local`, `C128_expand`, `C129_newton_systems`, `C129_correction`, `C129_prescribed_values_reached`, `C130_neumann_partial`, `C130_entirely_prescribed_rejected`, `C131_contact_degrees` | none (closed under the global context) |
| `VBases_Properties.v` | `C21_vector_cell2`, `C21_vector_cell3`, `C21_vector_face2`, `C21_vector_face3`, `C21_tangential`, `C21_nedelec`, `C21_rt2`, `C21_rt3_partial`, `C21_rt3_degree1_refuted`, `C21_matrix2`, `C21_matrix3`, `C21_rt_matrix2`, `C21_rt_matrix3`, `C86_gradients2`, `C86_sgradients2`, `C86_divergences2`, `C86_gradients3`, `C86_sgradients3`, `C86_divergences3`, `C86_curls3`, `C86_curls2_opposite`, `C86_old_curls3_refuted`, `C87_rt2_divergences`, `C87_rt3_divergences`, `C87_nedelec_gradients`, `C87_tangent` | SF, FE |
| `VBases_Properties.v` | `C21_nedelec_size`, `C21_symmetric_size_refuted`, `C21_rt_refused` | none (closed under the global context) |
| `VBases_Properties.v` | `C21_symmetric2`, `C21_symmetric3`, `C21_rt_symmetric2`, `C21_rt_symmetric3_partial`, `C21_rt_symmetric3_refuted` | SF, SN, FE |
| `VDof_Properties.v` | `C150_walk`, `C150_defined`, `C150_edges`, `C150_no_gap`, `C150_no_overlap`, `C150_cells`, `C150_cell_numbers_distinct`, `C150_cell_sides`, `C150_conforming`, `C150_boundary`, `C155_counterclockwise_partial`, `C155_counterclockwise_refuted`, `C156_recompute_partial`, `C156_keeps_old`, `C156_recompute_refuted` | none (closed under the global context) |
| `VEM_Properties.v` | `C151_projection`, `C151_projection_unique`, `C151_reproduction`, `C151_energy`, `C151_definite`, `C151_consistency`, `C151_load`, `C151_load_polynomial`, `C152_linear_exact`, `C152_linear_partial`, `C153_moments`, `C153_reproduction`, `C153_constant` | SF, FE |
| `VEM_Properties.v` | `C152_linear_refuted`, `C153_l2_refuted` | SF, SN, CL, FE |
| `VHHO_Properties.v` | `C104_gradient`, `C104_gradient_all_faces`, `C104_commutes`, `C105_gradient_tensor`, `C106_divergence`, `C106_conservation`, `C106_commutes`, `C108_vector_laplacian`, `C108_matrix_gradient`, `C108_vector_stabilizations`, `C108_components`, `C108_projection` | SF, FE |
| `VHHO_Properties.v` | `C104_missing_face_refuted`, `C108_vector_laplacian_refuted` | SF, SN, CL, FE |
| `VHHO_Properties.v` | `C107_symmetric_gradient`, `C107_commutes`, `C107_kernel` | SF, SN, FE |
| `VSch_Properties.v` | `C154_defined`, `C154_equivalent`, `C154_nothing_to_condense` | none (closed under the global context) |
