{"id": "C01", "title": "Rational arithmetic is exact", "statement": "For rational numbers with non-zero denominators, +, -, *, / (by a rational with non-zero numerator), unary minus, abs and inverse return a rational whose numerical value num/den is exactly the mathematical result, and simplify() never changes the value and leaves numerator and denominator coprime.", "quantifier": "all integers numerators/denominators (den != 0), all signs, any chain of operations", "why_tests_cant": "the domain is infinite and the gcd may be negative for negative operands; a handful of examples never covers all sign combinations and chains", "anchors": ["libdiskpp/include/diskpp/mesh/rational.hpp: rational, gcd, simplify, operator+=, -=, *=, /="]}
{"id": "C02", "title": "Rational comparisons follow the numerical order", "statement": "For any two rationals produced by the API, a<b, a<=b, a>b, a>=b return what the numerical order of the values says.", "quantifier": "all rationals reachable by any sequence of arithmetic operations", "why_tests_cant": "depends on the sign of the denominator after an arbitrary history of operations", "anchors": ["libdiskpp/include/diskpp/mesh/rational.hpp: operator<, <=, >, >=, operator*=, operator/="]}
{"id": "C03", "title": "Element lookup finds exactly the stored element", "statement": "On a mesh whose element container is sorted and duplicate-free, lookup(e) returns the index i with elements[i]==e when e is stored and throws otherwise; offset() returns the same index for a stored element.", "quantifier": "every sorted container of every length, every query element present or absent", "why_tests_cant": "binary search correctness over all containers, including absent elements and both ends", "anchors": ["libdiskpp/include/diskpp/mesh/mesh.hpp: find_element_id, mesh::lookup, offset"]}
{"id": "C04", "title": "Boundary iterators enumerate exactly the boundary faces", "statement": "Iterating boundary_faces_begin/end visits, in storage order and exactly once, the faces flagged as boundary, internal_faces_begin/end visits exactly the others, and boundary_faces_size/internal_faces_size/boundary_faces_size(id) are the corresponding counts and add up to the number of faces.", "quantifier": "every mesh and every assignment of boundary descriptors", "why_tests_cant": "filter iterators must be right for every flag pattern (leading/trailing/none/all)", "anchors": ["libdiskpp/include/diskpp/mesh/mesh.hpp: filter_iterator, boundary_faces_begin, internal_faces_begin, boundary_faces_size, internal_faces_size"]}
{"id": "C05", "title": "Neighbour lookup through a face is symmetric", "statement": "When every face has at most two owning cells, neighbour_via(c,f) returns the other owner of f if there is one and nothing otherwise, so n=neighbour_via(c,f) implies neighbour_via(n,f)=c; building the connectivity throws when some face has three or more owners.", "quantifier": "every list of cells and faces", "why_tests_cant": "all incidence patterns, including faces with 0,1,2,>=3 owners", "anchors": ["libdiskpp/include/diskpp/mesh/mesh.hpp: neighbour_connectivity, neighbour_via, connect_neighbours"]}
{"id": "C06", "title": "Bounding box contains the whole mesh", "statement": "The bounding box computed from a mesh contains every mesh point and each of its bounds is attained.", "quantifier": "every non-empty list of points", "why_tests_cant": "depends on the order in which the points are visited", "anchors": ["libdiskpp/include/diskpp/mesh/mesh.hpp: bounding_box"]}
{"id": "C07", "title": "Triangular mesher stays conforming under refinement", "statement": "After any number of refine() calls on the unit-square triangular mesher every face of every triangle is stored exactly once in the sorted edge list (so lookup never throws), each edge belongs to one triangle if it is boundary and to two otherwise, and the element counts are 4^(n+1) triangles.", "quantifier": "every number of refinements", "why_tests_cant": "refinement depth is unbounded", "anchors": ["libdiskpp/include/diskpp/mesh/meshgen.hpp: simple_mesher<simplicial 2D>, refine"]}
{"id": "C08", "title": "Triangular mesher boundary ids and area", "statement": "At every refinement level the boundary edges are exactly those lying on the sides of the unit square and carry id 0 bottom, 1 right, 2 top, 3 left; the triangle areas sum to 1.", "quantifier": "every number of refinements", "why_tests_cant": "unbounded depth", "anchors": ["libdiskpp/include/diskpp/mesh/meshgen.hpp: simple_mesher<simplicial 2D>"]}
{"id": "C09", "title": "Cartesian mesher never loses an edge", "statement": "At every refinement level n of the cartesian mesher each of the four edges that faces() derives for a quadrangle is stored (so lookup never throws), each edge has one owner if it is boundary and two otherwise, every quadrangle lists a corner, its two neighbours and the opposite corner of an axis-aligned square of side 2^-(n+1), there are 4^(n+1) cells, they tile the unit square, and boundary ids name the side.", "quantifier": "every number of refinements", "why_tests_cant": "unbounded depth; correctness relies on an ordering invariant between new and old point numbers", "anchors": ["libdiskpp/include/diskpp/mesh/meshgen.hpp: simple_mesher<cartesian 2D>", "libdiskpp/include/diskpp/geometry/geometry_hexahedral.hpp: faces"]}
{"id": "C10", "title": "Tetrahedral refinement: counts, volume, boundary", "statement": "Each refinement of the tetrahedral mesher replaces a tetrahedron by 8 children of one eighth of its volume that tile it, all 8 children are non-degenerate, and boundary triangles pass their id to their four children.", "quantifier": "every tetrahedron (all coordinates), every number of refinements", "why_tests_cant": "geometric statement over all real coordinates", "anchors": ["libdiskpp/include/diskpp/mesh/meshgen.hpp: simple_mesher<simplicial 3D>, refine"]}
{"id": "C11", "title": "FVCA5 hexagonal mesh is conforming at every level", "statement": "make_hexmesh(l) never throws \"more than two owners\"; an edge has exactly one owning polygon iff it is recorded as a boundary edge with the side it lies on; the polygons tile the square (area sum is coord_max^2).", "quantifier": "every level l", "why_tests_cant": "level is unbounded; tiles are generated by a quadtree recursion with neighbour-dependent shapes", "anchors": ["libdiskpp/include/diskpp/mesh/meshgen_fvca5hex.hpp: make_hexmesh, hexmesh_work, update_geometry"]}
{"id": "C12", "title": "Point location in the mesh hierarchy succeeds", "statement": "If a point lies in a coarse triangle, then at each refinement it lies in one of the four children recorded for that triangle, so locate_point() returns a fine triangle that contains it for every valid level and never throws; asking for a level that does not exist is reported as an error.", "quantifier": "every point, triangle and level", "why_tests_cant": "geometric property over all reals and unbounded recursion", "anchors": ["libdiskpp/include/diskpp/mesh/mesh_hierarchy.hpp: refine, locate_recursive, is_inside, locate_point"]}
{"id": "C13", "title": "Single-element mesh generators produce consistent meshes", "statement": "make_single_element_mesh yields a mesh in which every face of the cell can be looked up.", "quantifier": "every vertex list accepted, for each element kind", "why_tests_cant": "relies on the agreement of two tables in different files for all inputs", "anchors": ["libdiskpp/include/diskpp/mesh/meshgen.hpp: make_single_element_mesh", "libdiskpp/include/diskpp/geometry/geometry_simplicial.hpp: faces", "libdiskpp/include/diskpp/geometry/geometry_hexahedral.hpp: faces"]}
{"id": "C14", "title": "Boundary condition counters count faces", "statement": "After any sequence of addDirichletBC/addNeumannBC/addRobinBC/addContactBC/addDirichletEverywhere calls, nb_faces_X() equals the number of faces for which is_X_face() is true, and every boundary face covered by a call is reported.", "quantifier": "every mesh boundary labelling and every call history", "why_tests_cant": "call histories are unbounded", "anchors": ["libdiskpp/include/diskpp/boundary_conditions/boundary_conditions.hpp: BoundaryConditions"]}
{"id": "C15", "title": "Boundary condition queries return the registered data", "statement": "After any history of registration calls, is_X_face(f), X_boundary_type(f) and X_boundary_id (by face for Dirichlet, Neumann and Robin, by index for contact) report the last registered condition of kind X covering f, and the documented neutral values when there is none; X_boundary_func returns the last registered function (times the multiplication factor for Dirichlet, Neumann, Robin) and throws when there is none; the cell queries agree with the face queries; conditions of one kind never alter those of another.", "quantifier": "every call history and face", "why_tests_cant": "call histories are unbounded and kinds may interfere", "anchors": ["libdiskpp/include/diskpp/boundary_conditions/boundary_conditions.hpp: contact_boundary_id, dirichlet_boundary_id, is_dirichlet_face, cell_has_dirichlet_faces, faces_with_contact"]}
{"id": "C16", "title": "HHO degree information is always admissible", "statement": "Whatever arguments are passed to the constructors, the resulting cell degree c and face degree f satisfy f-1<=c<=f+1, grad degree >= face degree and reconstruction degree = f+1.", "quantifier": "all size_t degrees", "why_tests_cant": "infinite domain with an admissibility predicate", "anchors": ["libdiskpp/include/diskpp/methods/implementation_hho/utils_hho.hpp: hho_degree_info"]}
{"id": "C17", "title": "Per-element degree store", "statement": "degreeInfo(msh,e) returns the value last set for e whatever was set for other cells and faces; cellDegreeInfo(msh,cl) lists exactly the stored data of cl and of its faces in faces(msh,cl) order.", "quantifier": "every set/get history on every mesh", "why_tests_cant": "unbounded histories", "anchors": ["libdiskpp/include/diskpp/adaptivity/adaptivity.hpp: MeshDegreeInfo, CellDegreeInfo"]}
{"id": "C18", "title": "Basis size equals number of evaluated functions", "statement": "For each monomial basis the number of functions produced by eval_functions/eval_gradients equals size() and equals binomial(k+d,d), so no entry is left unset or written out of range; the exponents enumerate each monomial of degree <= k exactly once.", "quantifier": "every polynomial degree", "why_tests_cant": "degree is unbounded", "anchors": ["libdiskpp/include/diskpp/bases/bases_scalar.hpp: scalar_basis_size, scaled_monomial_scalar_basis", "libdiskpp/include/diskpp/bases/bases_new.hpp: scalar_monomial"]}
{"id": "C19", "title": "Basis gradients are derivatives of basis functions", "statement": "The gradient returned by each scalar monomial basis at a point is the derivative, in physical coordinates, of the function value returned by the same basis.", "quantifier": "every degree, every point, every cell frame", "why_tests_cant": "analytic statement over all points and degrees", "anchors": ["libdiskpp/include/diskpp/bases/bases_scalar.hpp: eval_gradients", "libdiskpp/include/diskpp/bases/bases_new.hpp: grad", "libdiskpp/include/diskpp/bases/bases_raw.hpp"]}
{"id": "C20", "title": "Legendre basis derivative and orthonormality", "statement": "For every supported degree eval_deriv is the derivative of eval_poly and the functions are orthonormal on [-1,1]; degrees above 10 are rejected.", "quantifier": "every degree, every point of the reference element", "why_tests_cant": "analytic statement", "anchors": ["libdiskpp/include/diskpp/bases/bases_scalar.hpp: legendre_1D"]}
{"id": "C21", "title": "Vector, matrix and Raviart-Thomas bases have the announced dimension", "statement": "The number of non-zero vector/matrix functions produced equals the announced size for every degree and dimension and none of them is written out of range.", "quantifier": "every degree and dimension", "why_tests_cant": "degree is unbounded", "anchors": ["libdiskpp/include/diskpp/bases/bases_vector.hpp: vector_basis_size, RT bases", "libdiskpp/include/diskpp/bases/bases_matrix.hpp: matrix_basis_size, sym_matrix_basis_size, RT bases"]}
{"id": "C22", "title": "Harmonic basis functions are harmonic and gradients are consistent", "statement": "Each function of the harmonic enrichment has zero Laplacian and the gradients returned are the derivatives of the functions.", "quantifier": "every degree and point", "why_tests_cant": "analytic statement for all degrees", "anchors": ["libdiskpp/include/diskpp/bases/bases_scalar.hpp: scaled_harmonic_top_scalar_basis, harmonic_basis_size"]}
{"id": "C23", "title": "Gauss-Legendre quadrature is exact", "statement": "gauss_legendre(degree,a,b) integrates every polynomial of degree <= degree on [a,b] exactly up to the accuracy of the printed table (stated tolerance), has positive weights and interior points, and throws for degree >= 40.", "quantifier": "every degree, interval and polynomial", "why_tests_cant": "all polynomials and intervals", "anchors": ["libdiskpp/include/diskpp/quadratures/bits/quad_raw_gauss.hpp: gauss_legendre, gauss_rules"]}
{"id": "C24", "title": "Gauss-Lobatto quadrature is exact and includes the end points", "statement": "gauss_lobatto(degree,a,b) integrates every polynomial of degree <= degree up to table accuracy, contains both end points, and throws beyond the table.", "quantifier": "every degree, interval and polynomial", "why_tests_cant": "all polynomials and intervals", "anchors": ["libdiskpp/include/diskpp/quadratures/bits/quad_raw_gauss_lobatto.hpp: gauss_lobatto"]}
{"id": "C25", "title": "Dunavant triangle quadrature is exact or rejected", "statement": "dunavant(degree,...) either throws or returns a non-empty rule integrating every bivariate polynomial of degree <= degree on every triangle up to table accuracy.", "quantifier": "every degree, triangle and polynomial", "why_tests_cant": "all polynomials and triangles", "anchors": ["libdiskpp/include/diskpp/quadratures/bits/quad_raw_triangle.hpp: dunavant"]}
{"id": "C26", "title": "Default triangle quadrature is exact", "statement": "triangle_gauss(degree,...) for degree<=30 integrates every bivariate polynomial of degree <= degree on every triangle up to table accuracy.", "quantifier": "every degree, triangle and polynomial", "why_tests_cant": "all polynomials and triangles", "anchors": ["libdiskpp/include/diskpp/quadratures/bits/quad_raw_triangle.hpp: triangle_gauss"]}
{"id": "C27", "title": "Grundmann-Moeller rules are exact", "statement": "For every order s and dimension the Grundmann-Moeller rule enumerates each composition exactly once, has gm_rule_size points all inside the simplex, and integrates every polynomial of degree <= 2s+1 exactly.", "quantifier": "every order and dimension", "why_tests_cant": "order is unbounded; the rule is computed, not tabulated", "anchors": ["libdiskpp/contrib/jburkardt/src/simplex_gm_rule.cpp: comp_next, gm_rule_set, gm_rule_size", "libdiskpp/include/diskpp/quadratures/bits/quad_raw_triangle.hpp: grundmann_moeller"]}
{"id": "C28", "title": "Tensorised quadrature on quadrangles", "statement": "tensorized_gauss_legendre(degree,...) throws for degree >= 40; otherwise its (degree/2+1)^2 weights are non-negative and it integrates every polynomial of degree <= degree up to table accuracy on every convex quadrangle if degree is even, and on every parallelogram whatever degree is.", "quantifier": "every degree, quadrangle and polynomial", "why_tests_cant": "all polynomials and quadrangles", "anchors": ["libdiskpp/include/diskpp/quadratures/bits/quad_raw_gauss.hpp: tensorized_gauss_legendre"]}
{"id": "C29", "title": "Assembler numbering is a bijection", "statement": "compress/expand tables built by the assemblers are mutually inverse between the non-Dirichlet faces and 0..n-1, preserve order, and the global system size is (faces-Dirichlet faces) * face dofs.", "quantifier": "every mesh and Dirichlet set", "why_tests_cant": "all subsets of faces", "anchors": ["libdiskpp/include/diskpp/methods/implementation_hho/assembler_hho.hpp: diffusion_condensed_assembler", "libdiskpp/include/diskpp/methods/hho_assemblers.hpp: basic_condensed_assembler"]}
{"id": "C30", "title": "Assembly equals elimination of Dirichlet unknowns", "statement": "After assembling any list of cells, LHS and RHS equal the sum over cells of the local contributions restricted to the free unknowns, with RHS decreased by the columns of Dirichlet unknowns times their values; a vector solves the assembled system iff together with the Dirichlet data it solves the free rows of the full system; no index is out of range; the order of the cells does not matter.", "quantifier": "every mesh, local matrices, Dirichlet data and assembly order", "why_tests_cant": "all matrices and orders", "anchors": ["libdiskpp/include/diskpp/methods/implementation_hho/assembler_hho.hpp: assemble, finalize, assembly_index"]}
{"id": "C31", "title": "Static condensation is equivalent to the full local system", "statement": "With an exact solver for the cell block, (uT,uF) solves the local system iff uF solves the condensed system and uT is the decondensed cell unknown; both decondensation routines agree; a right-hand side of any other size is rejected.", "quantifier": "every local matrix with invertible cell block, every right-hand side and block sizes", "why_tests_cant": "all matrices and sizes", "anchors": ["libdiskpp/include/diskpp/methods/implementation_hho/scalar_hho_condensation.hpp: static_condensation_impl, static_decondensation_impl", "libdiskpp/include/diskpp/methods/hho_assemblers.hpp: schur, deschur"]}
{"id": "C32", "title": "Local solution extraction inverts the numbering", "statement": "take_local_solution returns for each local face the Dirichlet projection on Dirichlet faces and the corresponding block of the global vector elsewhere.", "quantifier": "every mesh, solution vector and cell", "why_tests_cant": "all index maps", "anchors": ["libdiskpp/include/diskpp/methods/implementation_hho/assembler_hho.hpp: take_local_solution, take_local_data", "libdiskpp/include/diskpp/methods/hho_assemblers.hpp: take_local_solution"]}
{"id": "C33", "title": "Time-step list always tiles the remaining time interval", "statement": "After construction and any sequence of split/remove operations the remaining steps are consecutive, start where the last removed step ended, end at the final time, and numberOfTimeStep is completed+remaining.", "quantifier": "every list of (time,steps) pairs and every history of operations", "why_tests_cant": "unbounded histories", "anchors": ["libdiskpp/include/diskpp/mechanics/NewtonSolver/TimeManager.hpp: ListOfTimeStep"]}
{"id": "C34", "title": "The nonlinear time loop terminates and keeps the last converged state", "statement": "For every behaviour of the Newton solver the time loop performs finitely many steps (bounded by sublevel splitting), the accepted steps tile an initial part of the time interval, and the returned solution is that of the last accepted step.", "quantifier": "every convergence pattern (oracle) and parameters", "why_tests_cant": "unbounded schedules of failures", "anchors": ["libdiskpp/include/diskpp/mechanics/NewtonSolver/NewtonSolver.hpp: compute", "libdiskpp/include/diskpp/mechanics/NewtonSolver/NewtonStep.hpp: compute"]}
{"id": "C35", "title": "Conversion to and from packed tensors is lossless", "statement": "Packing a symmetric (sizes 4,6) or general (sizes 5,9) matrix and unpacking it gives back the matrix; other sizes are rejected.", "quantifier": "every matrix", "why_tests_cant": "all real matrices", "anchors": ["libdiskpp/include/diskpp/mechanics/behaviors/tensor_conversion.hpp: convertMatrixToMgis, convertMatrixFromMgis"]}
{"id": "C36", "title": "Fourth-order tensor algebra", "statement": "coeff read/write laws, contraction with identity tensors, Kronecker/ProductSup/ProductInf coefficients, transposition is an involution and adjoint for contraction, symmetric identity projects on symmetric matrices, Mandel notation preserves double contraction.", "quantifier": "every tensor, matrix and index", "why_tests_cant": "all tensors", "anchors": ["libdiskpp/include/diskpp/mechanics/behaviors/maths_tensor.hpp", "libdiskpp/include/diskpp/mechanics/behaviors/tensor_conversion.hpp: convertTensorNotationMangel, convertTensor"]}
{"id": "C37", "title": "Plastic return mapping lands on the yield surface", "statement": "For every piecewise linear hardening curve with increasing plastic strain and any trial state, the update leaves the state elastic when below the yield limit and otherwise returns a plastic increment >= 0 such that the updated equivalent stress equals the hardening curve at the updated plastic strain; total strain is preserved and plastic strain stays trace-free.", "quantifier": "every curve, material and strain history", "why_tests_cant": "all curves (any number of segments) and trial states", "anchors": ["libdiskpp/include/diskpp/mechanics/behaviors/laws/IsotropicHardeningVMis/IsotropicHardeningVMis_qp.hpp: compute_whole3D"]}
{"id": "C38", "title": "Newmark update is consistent", "statement": "A unit-mass motion with constant acceleration is reproduced exactly by the time integrator: displacement, velocity and acceleration after a step follow u+dt v+dt^2/2 a, v+dt a, a, and gamma weights old and new acceleration.", "quantifier": "all beta, gamma, dt and states", "why_tests_cant": "all parameters", "anchors": ["libdiskpp/include/diskpp/mechanics/NewtonSolver/NewtonIteration.hpp: initialize, postprocess"]}
{"id": "C39", "title": "Conjugate gradient", "statement": "conjugated_gradient rejects mis-sized input leaving x unchanged, otherwise runs at most max_iter iterations (2N when max_iter is 0) and stops only when the true residual b-A*x meets the tolerance, has grown by rr_max, the iterations are used up, or the start was already exact; zero residual means a solution; for symmetric A residuals of different iterates are orthogonal and steps A-conjugate; for symmetric positive definite A and max_iter >= N the answer is finite and reached in at most N iterations.", "quantifier": "every matrix, right-hand side, starting vector and parameters", "why_tests_cant": "all matrices and iteration counts", "anchors": ["libdiskpp/include/diskpp/solvers/solver.hpp: conjugated_gradient, conjugated_gradient_params"]}
{"id": "C40", "title": "Polygon store round-trip", "statement": "Iterating a polygon_store yields exactly the polygons added, in order.", "quantifier": "every sequence of polygons", "why_tests_cant": "unbounded sequences", "anchors": ["libdiskpp/include/diskpp/loaders/polygon.hpp: polygon_store, polygon_iterator"]}
{"id": "C41", "title": "Uniform 1D mesh is a uniform partition", "statement": "For x_min <= x_max and N > 0 the 1D mesh has N consecutive cells of equal length covering the interval between the given ends, exactly two boundary nodes at the ends, and consistent node/cell incidence.", "quantifier": "every interval with x_min <= x_max and every N > 0", "why_tests_cant": "every N and interval", "anchors": ["libdiskpp/include/diskpp/loaders/loader_uniform.hpp: uniform_mesh_loader"]}
{"id": "C42", "title": "Identifiers", "statement": "An identifier built from a raw value converts back to that value (the packed 32-bit specialisation keeps 31 bits and reduces larger values modulo 2^31), an invalid one throws, and ordering of valid identifiers is the ordering of raw values.", "quantifier": "all raw values", "why_tests_cant": "full integer range", "anchors": ["libdiskpp/include/diskpp/mesh/ident.hpp: identifier"]}
{"id": "C43", "title": "Mesh elements are totally ordered by their nodes", "statement": "operator< on simplicial and cartesian elements is a strict total order compatible with operator==, and simplicial elements are equal iff they have the same vertex set whatever the order given to the constructor.", "quantifier": "all node lists", "why_tests_cant": "all permutations and pairs/triples of elements", "anchors": ["libdiskpp/include/diskpp/geometry/element_simplicial.hpp", "libdiskpp/include/diskpp/geometry/element_hexahedral.hpp"]}
{"id": "C44", "title": "Point-in-cell test", "statement": "is_inside(msh,cl,pt) is true exactly for the points of the (closed) convex cell.", "quantifier": "all points and cells", "why_tests_cant": "all real points", "anchors": ["libdiskpp/include/diskpp/geometry/geometry_all.hpp: is_inside", "libdiskpp/include/diskpp/geometry/geometry_simplicial.hpp: is_inside"]}
{"id": "C45", "title": "Integer powers", "statement": "iexp_pow(x,n) and ipow(b,e) return x^n for every exponent.", "quantifier": "all bases and exponents", "why_tests_cant": "unbounded loop", "anchors": ["libdiskpp/include/diskpp/bases/bases_all.hpp: iexp_pow", "libdiskpp/include/diskpp/mesh/meshgen_fvca5hex.hpp: ipow"]}
{"id": "C46", "title": "Discontinuous Galerkin assembly", "statement": "After any sequence of assemble calls and finalize, the global matrix entry (c*cbs+i, d*cbs+j) is the sum of the local entries (i,j) assembled for the pair (c,d), and RHS likewise; all other entries are zero.", "quantifier": "every history of calls", "why_tests_cant": "unbounded histories", "anchors": ["libdiskpp/include/diskpp/methods/implementation_dg/assembler.hpp: discontinuous_galerkin_assembler"]}
{"id": "C47", "title": "Measures and barycenters of simplices", "statement": "The measure of a simplex (triangle in the plane or in space, tetrahedron) is the integral of 1 over it: it is non-negative, invariant under vertex permutation and translation, zero exactly for degenerate simplices, and additive when the simplex is cut through an edge point (a quarter of the area for each triangle of the midpoint subdivision). The signed variant has the sign of the orientation. The barycenter is the vertex average, invariant under permutation, and follows translations.", "quantifier": "all vertex coordinates", "why_tests_cant": "all reals", "anchors": ["libdiskpp/include/diskpp/geometry/geometry_simplicial.hpp: measure", "libdiskpp/include/diskpp/geometry/geometry_all.hpp: barycenter", "libdiskpp/include/diskpp/common/simplicial_formula.hpp: area_triangle_kahan, volume_tetrahedron_kahan"]}
{"id": "C48", "title": "sort_uniq and sorted containers", "statement": "sort_uniq leaves a strictly increasing container with exactly the same set of elements.", "quantifier": "every list", "why_tests_cant": "all lists", "anchors": ["libdiskpp/include/diskpp/loaders/loader_utils.hpp: sort_uniq", "libdiskpp/include/diskpp/mesh/meshgen.hpp"]}
{"id": "C49", "title": "Stabilisation coefficients are updated in two phases", "statement": "getValue returns the value current at the last update(), setValueNext is invisible until update(), and cells do not interfere.", "quantifier": "every history", "why_tests_cant": "unbounded histories", "anchors": ["libdiskpp/include/diskpp/mechanics/NewtonSolver/StabilizationManager.hpp: StabCoeffManager"]}
{"id": "C50", "title": "Internal boundary faces are marked exactly", "statement": "mark_internal_faces() raises the internal flag exactly on the faces that are flagged boundary and are shared by two cells, and changes no id, tag or boundary flag.", "quantifier": "every mesh and boundary labelling", "why_tests_cant": "all incidence patterns and labellings", "anchors": ["libdiskpp/include/diskpp/mesh/mesh.hpp: mark_internal_faces"]}
{"id": "C51", "title": "Generic elements compare equal only when they are equal", "statement": "operator== on generic (polygonal/polyhedral) elements is true exactly for elements with the same sub-elements, so removing duplicates from a container never loses an element.", "quantifier": "all pairs of elements, any numbers of faces", "why_tests_cant": "pairs where one element has a prefix of the faces of the other", "anchors": ["libdiskpp/include/diskpp/geometry/element_generic.hpp: generic_element::operator==", "libdiskpp/include/diskpp/loaders/loader_utils.hpp: sort_uniq"]}
{"id": "C52", "title": "Queries about foreign elements are rejected", "statement": "lookup, is_boundary, boundary_id, offset and neighbour_via called with an element that is not stored, or with a face that does not belong to the given cell, report an error.", "quantifier": "every mesh and every foreign element", "why_tests_cant": "all absent elements, between any two stored ones", "anchors": ["libdiskpp/include/diskpp/mesh/mesh.hpp: offset, lookup, is_boundary, boundary_id, neighbour_via"]}
{"id": "C53", "title": "The contact boundary id asked by face is the contact id", "statement": "contact_boundary_id(face) returns the id of the last contact condition covering the face.", "quantifier": "every call history and face", "why_tests_cant": "the answer depends on conditions of other kinds", "anchors": ["libdiskpp/include/diskpp/boundary_conditions/boundary_conditions.hpp: contact_boundary_id"]}
{"id": "C54", "title": "An invalid identifier never equals a valid one", "statement": "operator== is true for two identifiers only if both are valid with the same value or both are invalid.", "quantifier": "all pairs of identifiers", "why_tests_cant": "the full value range; the wrong answer needs a particular raw value", "anchors": ["libdiskpp/include/diskpp/mesh/ident.hpp: identifier"]}
{"id": "C55", "title": "Uniform loader orders reversed intervals", "statement": "The uniform 1D loader produces a mesh whose nodes run from the smaller to the larger of the two given ends, in whatever order they are given.", "quantifier": "every pair of ends and N > 0", "why_tests_cant": "every interval", "anchors": ["libdiskpp/include/diskpp/loaders/loader_uniform.hpp: uniform_mesh_loader"]}
{"id": "C56", "title": "Neumann and Robin terms", "statement": "Calling impose_neumann and impose_robin in any order with assemble adds, for every face carrying the condition and for no other, the load of the last registered function (times the last factor) and, for Robin, the face mass matrix, at the rows and columns of that face; conflicting conditions on a face, Neumann imposition without Neumann faces, and imposition on an assembler built without boundary conditions are rejected.", "quantifier": "every mesh, boundary-condition history and call sequence", "why_tests_cant": "all histories and orders", "anchors": ["libdiskpp/include/diskpp/methods/implementation_hho/assembler_hho.hpp: impose_neumann_boundary_conditions, impose_robin_boundary_conditions"]}
{"id": "C57", "title": "Basic condensed assembler", "statement": "The basic condensed assembler assembles exactly the system obtained by setting the unknowns of its Dirichlet faces (outer boundary faces, or the flagged faces) to zero, and extracts zeros on those faces and the solution elsewhere.", "quantifier": "every mesh, flag vector and call sequence", "why_tests_cant": "all matrices, flag vectors and orders", "anchors": ["libdiskpp/include/diskpp/methods/hho_assemblers.hpp: basic_condensed_assembler"]}
{"id": "C58", "title": "Conjugate gradient reports convergence", "statement": "conjugated_gradient returns true only if the answer meets the requested tolerance.", "quantifier": "every matrix, right-hand side and parameters", "why_tests_cant": "all systems; the flag is constant in any run a test picks", "anchors": ["libdiskpp/include/diskpp/solvers/solver.hpp: conjugated_gradient"]}
{"id": "C59", "title": "Conjugate gradient parameters from Lua", "statement": "The Lua overload uses solver.cg.rr_tol, solver.cg.rr_max and solver.cg.max_iter when set and the documented defaults otherwise.", "quantifier": "every Lua state", "why_tests_cant": "all configurations", "anchors": ["libdiskpp/include/diskpp/solvers/solver.hpp: conjugated_gradient(sol::state&, ...)"]}
{"id": "C60", "title": "Packed tangent operators", "statement": "Packing a strain, applying the packed tangent operator (sizes 16, 25, 36, 81, stored row after row) and unpacking gives the stress obtained by converting the operator to a fourth-order tensor and contracting it with the strain; other sizes are rejected.", "quantifier": "every operator and strain of the packed class", "why_tests_cant": "all operators; needs a constitutive library in tests", "anchors": ["libdiskpp/include/diskpp/mechanics/behaviors/tensor_conversion.hpp: convertTensorFromMgis, convertMatrixToMgis, convertMatrixFromMgis"]}
{"id": "C61", "title": "The faces of a simplex are its vertex subsets", "statement": "For a triangle or tetrahedron with distinct vertices, the list of faces contains, exactly once each, the element made of all vertices but one, whatever the order of the vertices.", "quantifier": "every list of 3 or 4 distinct vertex identifiers", "why_tests_cant": "every numbering of the vertices has to be covered; tests use a few", "anchors": ["libdiskpp/include/diskpp/geometry/geometry_simplicial.hpp: faces"]}
{"id": "C62", "title": "Behaviour laws return a consistent tangent", "statement": "For the plastic laws and the linear laws, the fourth order tangent returned with a stress is the derivative of the returned stress with respect to the strain, in every symmetric direction, for every reachable internal state; the only exceptions are plastic steps that end exactly on a corner of the hardening curve or that have a zero plastic increment. Asking for the tangent changes neither the state nor the stress.", "quantifier": "every material, hardening curve, strain history, strain and direction", "why_tests_cant": "derivative statement over a continuum of states and directions", "anchors": ["libdiskpp/include/diskpp/mechanics/behaviors/laws/IsotropicHardeningVMis/IsotropicHardeningVMis_qp.hpp: compute_whole3D", "libdiskpp/include/diskpp/mechanics/behaviors/laws/LinearIsotropicAndKinematicHardening/LinearIsotropicAndKinematicHardening_qp.hpp: compute_whole3D"]}
{"id": "C63", "title": "Hyperelastic stress and tangent derive from the energy", "statement": "For the Neohookean and cavitation laws and each of the six volumetric functions, the tangent is the derivative of the first Piola-Kirchhoff stress in every direction, at every deformation gradient with positive determinant, and the stress is the derivative of the energy (volumetric function 4 is property C67); other determinants or volumetric types are rejected.", "quantifier": "every deformation gradient, direction, material and volumetric type", "why_tests_cant": "derivative statement over all deformation gradients", "anchors": ["libdiskpp/include/diskpp/mechanics/behaviors/laws/Neohookean/Neohookean_qp.hpp: compute_stress, compute_tangent_moduli, compute_energy", "libdiskpp/include/diskpp/mechanics/behaviors/laws/Cavitation/Cavitation_qp.hpp: compute_stress, compute_tangent_moduli, compute_energy"]}
{"id": "C64", "title": "Strain and stress measure conversions", "statement": "The conversions between the first and second Piola-Kirchhoff and the Cauchy stress are mutual inverses for every invertible deformation gradient; conversions of the displacement gradient give F = G + I, the Cauchy-Green tensors and the Green-Lagrange strain, which is unchanged by rotations; the von Mises criterion of a 3x3 stress is sqrt(3/2 dev:dev).", "quantifier": "every matrix of size 2 or 3", "why_tests_cant": "all matrices", "anchors": ["libdiskpp/include/diskpp/mechanics/deformation_tensors.hpp", "libdiskpp/include/diskpp/mechanics/stress_tensors.hpp"]}
{"id": "C65", "title": "Derivatives of the determinant", "statement": "The first derivative of the determinant of a 2x2 or 3x3 matrix and the second derivative of a 2x2 determinant are what the helper functions return.", "quantifier": "every matrix and direction", "why_tests_cant": "derivatives at every matrix", "anchors": ["libdiskpp/include/diskpp/mechanics/behaviors/maths_jacobian_derivate.hpp"]}
{"id": "C66", "title": "Material parameters are consistent", "statement": "Young modulus and Poisson ratio set on a material are the ones read back, and likewise the Lame coefficients and the tangent modulus; checking a hardening curve sorts it by plastic strain, keeps its points, and fails exactly when two points are closer than the tolerance.", "quantifier": "every material and every list of points", "why_tests_cant": "all parameter values and curve lengths", "anchors": ["libdiskpp/include/diskpp/mechanics/behaviors/laws/materialData.hpp: setMu, setLambda, setH, getE, getNu, getET, checkRpCurve"]}
{"id": "C67", "title": "Energy of volumetric law 4", "statement": "With volumetric function 4 the stress of the Neohookean and cavitation laws is the derivative of the energy.", "quantifier": "every deformation gradient and direction", "why_tests_cant": "all deformation gradients", "anchors": ["libdiskpp/include/diskpp/mechanics/behaviors/laws/Neohookean/Neohookean_qp.hpp: compute_U"]}
{"id": "C68", "title": "Linearised strain", "statement": "The linearised strain of a displacement gradient G is (G + G^T)/2.", "quantifier": "every 2x2 or 3x3 gradient", "why_tests_cant": "all gradients", "anchors": ["libdiskpp/include/diskpp/mechanics/deformation_tensors.hpp: convertGtoLinearizedStrain"]}
{"id": "C69", "title": "Second derivative of the 3x3 determinant", "statement": "The second derivative of the determinant of a 3x3 matrix is what the helper function returns.", "quantifier": "every matrix and direction", "why_tests_cant": "all matrices", "anchors": ["libdiskpp/include/diskpp/mechanics/behaviors/maths_jacobian_derivate.hpp: computeJacobianSecondDerivate"]}
{"id": "C70", "title": "Tensorised quadrature on rectangular faces and parallelepipeds", "statement": "In space, the tensorised rule of any degree < 40 integrates every polynomial of at most that degree, up to table accuracy, over every rectangle (faces) and every parallelepiped (cells); larger degrees are rejected. On a face without right angles the weights do not sum to the area.", "quantifier": "every degree, rectangle, parallelepiped and polynomial", "why_tests_cant": "all polynomials and shapes", "anchors": ["libdiskpp/include/diskpp/quadratures/bits/quad_raw_gauss.hpp: tensorized_gauss_legendre"]}
{"id": "C71", "title": "Quadrature on one-dimensional cells is exact up to degree 9", "statement": "integrate(msh,cl,degree) on a 1D cell [a,b] with degree <= 9 returns degree/2+1 points and integrates every polynomial of degree <= degree exactly in real arithmetic.", "quantifier": "every degree up to 9, interval and polynomial", "why_tests_cant": "all polynomials and intervals", "anchors": ["libdiskpp/include/diskpp/quadratures/bits/quad_bones.hpp: gauss_legendre", "libdiskpp/include/diskpp/quadratures/bits/quad_phys_generic.hpp: integrate"]}
{"id": "C72", "title": "Tensorised quadrature of odd degree on general quadrangles", "statement": "tensorized_gauss_legendre(degree,...) with odd degree integrates every polynomial of degree <= degree on every convex quadrangle.", "quantifier": "every odd degree, convex quadrangle and polynomial", "why_tests_cant": "all polynomials and quadrangles", "anchors": ["libdiskpp/include/diskpp/quadratures/bits/quad_raw_gauss.hpp: tensorized_gauss_legendre"]}
{"id": "C73", "title": "Measure of polygonal cells", "statement": "measure(msh,cl) of a polygonal cell is its area, whatever the order and direction of its faces and for non-convex cells too (as the code comment claims).", "quantifier": "all polygons and face orders", "why_tests_cant": "all reals, unbounded vertex counts", "anchors": ["libdiskpp/include/diskpp/geometry/geometry_generic.hpp: measure"]}
{"id": "C74", "title": "Barycenter and triangulation of polygonal cells", "statement": "The barycenter of a convex polygonal cell is its centre of mass (the integral of each coordinate divided by the area), lies strictly inside every edge, and follows translations; the triangles built from the edges and the vertex average cover the polygon without losing area or first moments.", "quantifier": "all convex polygons with any number of vertices", "why_tests_cant": "all reals, unbounded vertex counts", "anchors": ["libdiskpp/include/diskpp/geometry/geometry_generic.hpp: barycenter", "libdiskpp/include/diskpp/geometry/bits/geometry_generic_triangulations.hpp: triangulate_convex_polygon"]}
{"id": "C75", "title": "Outward unit normals", "statement": "normal(msh,cl,fc) is a unit vector, orthogonal to the face, pointing out of the cell, for every face of every cell lying on one side of its faces (convex cells), in the plane and in space.", "quantifier": "all convex cells and faces", "why_tests_cant": "all reals", "anchors": ["libdiskpp/include/diskpp/geometry/geometry_all.hpp: normal"]}
{"id": "C76", "title": "Convexity test", "statement": "is_convex(msh,cl) accepts every convex counterclockwise polygon, decides convexity of quadrangles, and rejects every polygon that is not convex.", "quantifier": "all polygons", "why_tests_cant": "all reals, unbounded vertex counts", "anchors": ["libdiskpp/include/diskpp/geometry/geometry_generic.hpp: is_convex"]}
{"id": "C77", "title": "Diameters and bounding boxes", "statement": "diameter(msh,elem) is the largest distance between two vertices (attained, independent of the vertex order); diameters() and diameter_boundingbox() are the widths of the bounding box and bb_barycenter() is its centre.", "quantifier": "all vertex lists", "why_tests_cant": "all reals, unbounded vertex counts", "anchors": ["libdiskpp/include/diskpp/geometry/geometry_all.hpp: diameter, diameters, bb_barycenter, diameter_boundingbox"]}
{"id": "C78", "title": "Local axes of a cell of space are orthogonal", "statement": "For a cell whose first four vertices are not coplanar, element_local_axes returns three pairwise orthogonal vectors spanning the same oriented volume as the first three edges.", "quantifier": "all non-coplanar vertices", "why_tests_cant": "all reals", "anchors": ["libdiskpp/include/diskpp/geometry/geometry_all.hpp: element_local_axes"]}
{"id": "C79", "title": "Measure of triangles with rational coordinates", "statement": "measure(msh,cl) on a mesh with rational coordinates is the area of the triangle.", "quantifier": "all triangles", "why_tests_cant": "all rationals", "anchors": ["libdiskpp/include/diskpp/geometry/geometry_simplicial.hpp: measure (rational specialisation)"]}
{"id": "C80", "title": "Gradients of the 1D monomial basis", "statement": "The gradient returned by the one-dimensional basis of bases_new is the derivative of its functions, for every degree including zero, every scale factor and both orders of the end points.", "quantifier": "every degree, every point, every cell", "why_tests_cant": "an error in the chain rule shows only for particular scales or orientations; degree zero writes past the array silently", "anchors": ["libdiskpp/include/diskpp/bases/bases_new.hpp: scalar_monomial (1D cells) phys2ref, operator(), grad"]}
{"id": "C81", "title": "Gradients of the face bases of bases_new", "statement": "Evaluating the gradient of a face basis returns the derivatives of its functions in space.", "quantifier": "every degree, every point, every face frame", "why_tests_cant": "an uninitialised entry often holds zero in a test run", "anchors": ["libdiskpp/include/diskpp/bases/bases_new.hpp: scalar_monomial (3D faces, 2D faces) grad"]}
{"id": "C82", "title": "Scaled Legendre cell bases", "statement": "On axis-parallel boxes the scaled Legendre cell bases are L2-orthonormal, have as many functions as their size in every frame, and their gradients are derivatives up to degree 7.", "quantifier": "every degree up to 10, every box, every pair of functions; every frame for sizes and gradients", "why_tests_cant": "tests integrate numerically on a few boxes", "anchors": ["libdiskpp/include/diskpp/bases/bases_scalar.hpp: scaled_legendre_scalar_basis (cells)"]}
{"id": "C83", "title": "The Legendre face basis that reports being orthonormal is orthonormal", "statement": "The 2D-face Legendre basis, whose is_orthonormal() returns true, has the identity as Gram matrix on every face.", "quantifier": "every face, every degree up to 10", "why_tests_cant": "holds on faces of length 2 only", "anchors": ["libdiskpp/include/diskpp/bases/bases_scalar.hpp: scaled_legendre_scalar_basis (2D faces) is_orthonormal, eval_functions"]}
{"id": "C84", "title": "Frame of a 3D face built from two edges", "statement": "For every non-degenerate planar face the two axes computed from its edges are orthonormal and span the face.", "quantifier": "every list of face points", "why_tests_cant": "the failing configurations (only wide corner first, hanging node at the second point) are not in the test meshes", "anchors": ["libdiskpp/include/diskpp/bases/bases_all.hpp: scaled_monomial_abstract_face_basis::compute_axis"]}
{"id": "C85", "title": "Sizes of the harmonic enrichment after any calls", "statement": "After any sequence of maximum_polynomial_degree calls the last accepted degree is in force (a call above the full degree is ignored), poly_size() is the number of monomials, harmonic_size() the number of harmonic functions of the remaining degrees and size() their sum.", "quantifier": "every dimension 2 or 3, every full degree, every history of calls", "why_tests_cant": "histories of calls are unbounded", "anchors": ["libdiskpp/include/diskpp/bases/bases_scalar.hpp: scaled_harmonic_top_scalar_basis::maximum_polynomial_degree, harmonic_basis_size"]}
{"id": "C86", "title": "Vector basis operators are the derivatives of the functions", "statement": "At every point the gradients, symmetric gradients, divergences and (3D) curls returned by a vector basis are the Jacobian matrix, its symmetric part, its trace and its curl for each basis function, one value per function in the order of the functions.", "quantifier": "every degree, frame and point", "why_tests_cant": "the degree and the point are unbounded", "anchors": ["libdiskpp/include/diskpp/bases/bases_vector.hpp: eval_gradients, eval_sgradients, eval_divergences, eval_curls, eval_curls2"]}
{"id": "C87", "title": "Raviart-Thomas divergences and tangential spaces", "statement": "The divergences returned by the Raviart-Thomas bases are the divergences of the returned functions; the functions of the tangential bases are tangent to the face and the added functions of the Nedelec basis are gradients.", "quantifier": "every degree, frame and point", "why_tests_cant": "the degree and the point are unbounded", "anchors": ["libdiskpp/include/diskpp/bases/bases_vector.hpp: scaled_monomial_vector_basis_RT, scaled_monomial_vector_tangential_basis, scaled_monomial_nedelec_tangential_basis"]}
{"id": "C88", "title": "Cartesian mesher vertex numbering", "statement": "The vertices of every quadrangle produced by the cartesian mesher are numbered south-west, south-east, north-west, north-east, at every refinement level.", "quantifier": "every number of refinements, every quadrangle", "why_tests_cant": "the depth is unbounded and the numbering is only implicit in the code that reads it", "anchors": ["libdiskpp/include/diskpp/mesh/meshgen.hpp: simple_mesher<cartesian 2D>, refine"]}
{"id": "C89", "title": "Refined meshes of the hierarchy keep boundary ids", "statement": "Every boundary edge of a mesh of the hierarchy is one half of a boundary edge of the previous mesh and carries its boundary id.", "quantifier": "every conforming triangular mesh, number of levels, level and edge", "why_tests_cant": "unbounded meshes and levels; relies on a remove_if without erase leaving only duplicates behind", "anchors": ["libdiskpp/include/diskpp/mesh/mesh_hierarchy.hpp: refine, convert_internal_to_simplicial"]}
{"id": "C90", "title": "Boundary queries on a single-element mesh", "statement": "After make_single_element_mesh, every face of the mesh reports itself as a boundary face and its boundary id can be read, without an exception.", "quantifier": "all single-element meshes (interval, polygon with any number of sides, triangle, tetrahedron, rectangle, box) and all their faces", "why_tests_cant": "The answer depends on whether the generator sized the boundary table; it must hold for every element kind and every number of sides.", "anchors": ["libdiskpp/include/diskpp/mesh/meshgen.hpp: make_single_element_mesh", "libdiskpp/include/diskpp/mesh/mesh.hpp: is_boundary, boundary_id"]}
{"id": "C91", "title": "Face order of a single polygon", "statement": "In the mesh of one regular polygon, the i-th face of the cell joins the i-th point of the cell and the next one.", "quantifier": "all polygons with at least three sides", "why_tests_cant": "The edges are sorted after the cell has recorded their numbers; the mismatch has to be characterised for every number of sides.", "anchors": ["libdiskpp/include/diskpp/mesh/meshgen.hpp: make_single_element_mesh(generic_mesh<T,2>&, const T&, size_t)", "libdiskpp/include/diskpp/geometry/geometry_generic.hpp: faces"]}
{"id": "C92", "title": "Hexagonal mesher produces a conforming mesh of the unit square", "statement": "For every level, the hexagonal mesher fills the mesh without throwing: the i-th face of each cell joins its i-th and next vertices, each face can be looked up and is found at its own position, a face is marked as boundary iff it belongs to exactly one cell (otherwise exactly two) and then its boundary id is the side of the unit square containing it, vertices are distinct points of the unit square, and the cell areas are positive and sum to 1.", "quantifier": "every refinement level", "why_tests_cant": "levels are unbounded; edge numbering depends on sorting transformed edges", "anchors": ["libdiskpp/include/diskpp/mesh/meshgen.hpp: fvca5_hex_mesher::make_level", "libdiskpp/include/diskpp/mesh/meshgen_fvca5hex.hpp: offset, make_hexmesh"]}
{"id": "C93", "title": "Default tetrahedron quadrature is exact", "statement": "The default tetrahedron quadrature returns, for every degree <= 15, a rule with positive weights and points strictly inside the tetrahedron that integrates every polynomial of that degree up to the accuracy of the printed tables; for larger degrees it ends the process.", "quantifier": "every degree, tetrahedron and polynomial", "why_tests_cant": "all polynomials and tetrahedra; fifteen tables of up to 214 points", "anchors": ["libdiskpp/include/diskpp/quadratures/bits/quad_raw_tetra.hpp: arbq, default_tetrahedron_quadrature", "libdiskpp/contrib/jburkardt/src/tetrahedron_arbq_rule.cpp: tetrahedron_arbq, tetrahedron_arbq_size"]}
{"id": "C94", "title": "The HHO reconstruction solves its defining elliptic problem", "statement": "For every cell, diffusion tensor and choice of degrees with cell degree <= reconstruction degree, the matrix returned by make_scalar_hho_laplacian / make_shl_face_proj maps the unknowns (uT, (uF)) to the polynomial r with (K grad r, grad w) = (K grad uT, grad w) + sum_F (uF - uT, K grad w . n) for all polynomials w of the reconstruction degree, and the second matrix it returns is the energy (K grad r(u), grad r(v)).", "quantifier": "all cells (any polytope, any dimension), symmetric positive definite tensors, degrees, unknown vectors and test polynomials; with one degree for all faces or one per face, faces without unknowns included", "why_tests_cant": "Tests compare errors on a few meshes and degrees; the identity is quantified over all cells, degrees and unknowns.", "anchors": ["libdiskpp/include/diskpp/methods/implementation_hho/scalar_hho_laplacian.hpp: make_scalar_hho_laplacian, make_shl_face_proj, priv::make_scalar_hho_laplacian", "libdiskpp/include/diskpp/methods/hho"]}
{"id": "C95", "title": "The HHO reconstruction reproduces polynomials", "statement": "Reconstructing the interpolate of a polynomial p of the reconstruction degree gives p up to a constant, on every cell, for cell degree within two and face degree within one of the reconstruction degree, provided project_function is given a degree increase making its quadrature exact.", "quantifier": "all cells, tensors, admissible degrees and polynomials", "why_tests_cant": "Tests check convergence orders on a few meshes, not exactness on every cell.", "anchors": ["libdiskpp/include/diskpp/methods/implementation_hho/scalar_hho_laplacian.hpp: make_scalar_hho_laplacian", "libdiskpp/include/diskpp/methods/implementation_hho/methods_hho.hpp: project_function"]}
{"id": "C96", "title": "The HHO stabilisation penalises the projected difference of lifted cell and face functions", "statement": "make_scalar_hho_stabilization returns the symmetric positive semidefinite form sum_F 1/h_T (proj_F(R u + uT - proj_T R u - uF), proj_F(R v + vT - proj_T R v - vF))_F where R is the given reconstruction.", "quantifier": "all cells, degrees, reconstruction matrices and unknown vectors", "why_tests_cant": "The identity ranges over all cells and unknowns.", "anchors": ["libdiskpp/include/diskpp/methods/implementation_hho/scalar_stabilization.hpp: make_scalar_hho_stabilization"]}
{"id": "C97", "title": "The HDG stabilisations penalise the projected difference of cell and face functions", "statement": "make_scalar_hdg_stabilization returns sum_F 1/h (proj_F(uT - uF), proj_F(vT - vF))_F with h the diameter of the face or of the cell as asked, make_scalar_hdg_stabilization2 the same scaled by n.kappa n/h_T; they are symmetric and positive semidefinite.", "quantifier": "all cells, degrees per face, faces without unknowns, unknown vectors", "why_tests_cant": "The identity ranges over all cells and unknowns.", "anchors": ["libdiskpp/include/diskpp/methods/implementation_hho/scalar_stabilization.hpp: make_scalar_hdg_stabilization, make_scalar_hdg_stabilization2"]}
{"id": "C98", "title": "The stabilised HHO operator vanishes exactly on constants", "statement": "The local matrix reconstruction + stabilisation (HHO or HDG) is positive semidefinite and has zero energy at u exactly when the cell function and all face functions are one and the same constant.", "quantifier": "all cells, tensors, degrees with cell degree <= reconstruction degree <= face degree + 1, and unknown vectors", "why_tests_cant": "Coercivity must hold for every cell shape and every vector of unknowns.", "anchors": ["libdiskpp/include/diskpp/methods/implementation_hho/scalar_hho_laplacian.hpp: make_scalar_hho_laplacian", "libdiskpp/include/diskpp/methods/implementation_hho/scalar_stabilization.hpp: make_scalar_hho_stabilization, make_scalar_hdg_stabilization"]}
{"id": "C99", "title": "Local patch test", "statement": "On the interpolate of a polynomial p of the reconstruction degree the HHO stabilisation vanishes and the stabilised local operator returns -(vT, div K grad p) + sum_F (vF, K grad p . n) for every test vector v; with the HDG stabilisation the same for polynomials of the cell degree.", "quantifier": "all cells, tensors, admissible degrees, polynomials and test vectors", "why_tests_cant": "Exactness on every polynomial and cell cannot be sampled.", "anchors": ["libdiskpp/include/diskpp/methods/implementation_hho/scalar_hho_laplacian.hpp: make_scalar_hho_laplacian", "libdiskpp/include/diskpp/methods/implementation_hho/scalar_stabilization.hpp: make_scalar_hho_stabilization, make_scalar_hdg_stabilization", "libdiskpp/include/diskpp/methods/implementation_hho/methods_hho.hpp: project_function"]}
{"id": "C100", "title": "project_function computes the L2 projections on a cell and its faces", "statement": "The vector returned by project_function on a cell holds the coefficients of the L2 projection of the function on the cell polynomials, followed for each face in order by those of its L2 projection on the face polynomials, for polynomial functions within the exactness of the quadrature; polynomials of the cell degree are reproduced.", "quantifier": "all cells, degrees per face, faces without unknowns, polynomial functions", "why_tests_cant": "Ranges over all cells, degrees and functions.", "anchors": ["libdiskpp/include/diskpp/methods/implementation_hho/methods_hho.hpp: project_function"]}
{"id": "C101", "title": "make_single_element_mesh makes a regular polygon", "statement": "The polygon mesh of radius r and n >= 3 faces has n vertices on the circle of radius r around the origin, the first on the positive x axis; consecutive vertices, the last and the first included, are all 2 r sin(pi/n) apart; the vertices are in strictly convex position, counterclockwise.", "quantifier": "every radius r > 0 and every n >= 3", "why_tests_cant": "holds for every number of faces; a test looks at a few n", "anchors": ["libdiskpp/include/diskpp/mesh/meshgen.hpp: make_single_element_mesh(generic_mesh<T,2>&, const T&, size_t)"]}
{"id": "C102", "title": "The triangles used to integrate over a polygonal face fill the face", "statement": "For a face with any number m >= 3 of vertices the triangles of split_in_raw_triangles have, in every coordinate plane, oriented areas that add up to that of the closed polygon; on a plane convex face they are all oriented like the face and their areas add up to the area of the face, which is what measure(msh, fc) returns.", "quantifier": "every polygon with at least three vertices (first part), every plane convex polygon in space (second part)", "why_tests_cant": "depends on the number of vertices (three code paths) and on the shape; tests use a few shapes", "anchors": ["libdiskpp/include/diskpp/quadratures/bits/raw_simplices.hpp: split_in_raw_triangles(msh, fc)", "libdiskpp/include/diskpp/geometry/geometry_generic.hpp: measure(msh, fc)"]}
{"id": "C103", "title": "The basis of a 3D face uses the two longest axes", "statement": "The frame of a scaled monomial basis on a 3D face keeps two of the three inertia axes, in order, together with the corresponding lengths, and drops one of least length; on a flat face it drops the normal direction and the lengths kept, by which the basis divides, are positive.", "quantifier": "every choice of three axes and lengths", "why_tests_cant": "ties and every position of the normal axis", "anchors": ["libdiskpp/include/diskpp/bases/bases_all.hpp: scaled_monomial_abstract_basis<Mesh<T,3,Storage>, face>::compute_axes_box"]}
{"id": "C104", "title": "Gradient reconstruction solves its variational problem and commutes with projection", "statement": "The vector-valued gradient reconstruction of HHO unknowns is the unique polynomial vector of the requested degree whose product with any test vector t is -(cell function, div t) plus the sum over faces of (face function, t.n). The matrix returned with it is the L2 product of the reconstructions. When all faces carry unknowns the right side equals the form with the gradient of the cell function and the jumps, and the reconstruction of the interpolate of a polynomial is the L2 projection of its gradient. With a face without unknowns the documented form is not what is computed.", "quantifier": "every cell of every dimension, degrees, per-face degrees, unknowns and test functions", "why_tests_cant": "the identity quantifies over all unknowns and test polynomials of any degree on any polytope", "anchors": ["libdiskpp/include/diskpp/methods/implementation_hho/vector_hho_gradrec.hpp make_vector_hho_gradrec"]}
{"id": "C105", "title": "Gradient reconstruction with a tensor", "statement": "With a material tensor constant on the cell, the operator is that of C104 and the matrix is the product (G u, K G v).", "quantifier": "every cell, degrees, tensor and unknowns", "why_tests_cant": "universally quantified bilinear identity", "anchors": ["libdiskpp/include/diskpp/methods/implementation_hho/vector_hho_gradrec.hpp make_vector_hho_gradrec (material_tensor)"]}
{"id": "C106", "title": "Divergence reconstruction", "statement": "The divergence reconstruction of vector unknowns solves (D,q) = -(uT, grad q) + sum over faces (uF.n, q); its integral over the cell is the flux of the face unknowns; on interpolates it is the L2 projection of the divergence.", "quantifier": "every cell, degrees, unknowns and test polynomials", "why_tests_cant": "universally quantified; conservation must hold for every state", "anchors": ["libdiskpp/include/diskpp/methods/implementation_hho/scalar_hho_divrec.hpp make_hho_divergence_reconstruction"]}
{"id": "C107", "title": "Symmetric gradient reconstruction", "statement": "In two and three dimensions the symmetric gradient reconstruction, computed with the sparse mass matrix, is the symmetric polynomial matrix with (E,t) = (sym grad uT, t) + sum over faces (uF-uT, t n) for every symmetric t; it commutes with interpolation; with the HDG stabilisation its energy vanishes exactly on strain-free displacements whose face unknowns are projections of the cell displacement.", "quantifier": "every cell in 2D and 3D, degrees, unknowns and symmetric test matrices", "why_tests_cant": "the kernel characterisation ranges over all unknowns", "anchors": ["libdiskpp/include/diskpp/methods/implementation_hho/matrix_hho_gradrec.hpp make_matrix_hho_symmetric_gradrec", "libdiskpp/include/diskpp/methods/implementation_hho/vector_stabilization.hpp make_vector_hdg_stabilization"]}
{"id": "C108", "title": "Vector operators act component by component", "statement": "The vector Laplacian, matrix gradient, vector HDG and HHO (optimised) stabilisations act on each component of the unknowns exactly as the scalar operator does, their matrices are the sums over the components, and vector interpolation is the L2 projection. The vector Laplacian requires the reconstruction degree to be the face degree plus one.", "quantifier": "every dimension, cell, degrees and unknowns", "why_tests_cant": "index bookkeeping must hold for all sizes", "anchors": ["libdiskpp/include/diskpp/methods/implementation_hho/utils_hho.hpp compute_lhs_vector compute_grad_vector compute_grad_matrix", "libdiskpp/include/diskpp/methods/implementation_hho/vector_hho_laplacian.hpp make_vector_hho_laplacian", "libdiskpp/include/diskpp/methods/methods_hho.hpp project_function"]}
{"id": "C109", "title": "The forms of the new bases are the integrals they name", "statement": "integrate(trial, test) returns, with one row per test function and one column per trial function, the exact integrals of the products of two scalar bases, of two gradients and of a basis with the normal derivative of another; integrate(f, basis) returns the exact products with polynomials up to one degree above the basis; a material tensor with entries of degree at most one multiplies the gradient from the right (transposed) and the form is exact.", "quantifier": "All elements with quadratures exact for the degree asked, all pairs of bases, degrees, normals, tensors of degree at most one", "why_tests_cant": "The quadrature degree is computed from the degrees of the expressions; a test sees particular degrees, and on low degrees a rule one degree short is often exact by symmetry.", "anchors": ["libdiskpp/include/diskpp/bases/bases_new.hpp: integrate", "libdiskpp/include/diskpp/bases/bases_operations.hpp: grad_evaluator, dot_evaluator, material_prod_evaluator"]}
{"id": "C110", "title": "The L2 projections of the new bases are L2 projections", "statement": "L2_project returns the L2 projection of polynomials up to one degree above the basis.  L2_projector (which uses one quadrature of twice the degree of its basis for everything) reproduces the polynomials of the degree of its basis, given as functions or as another basis; it is not the L2 projection for polynomials of higher degree (two degrees above already fails).", "quantifier": "All elements, degrees, polynomials; a concrete failing case for the exception", "why_tests_cant": "Orthogonality of the error is against all polynomials of the degree; the failing quadrature is invisible to tests that project what the basis contains.", "anchors": ["libdiskpp/include/diskpp/bases/bases_operations.hpp: L2_project", "libdiskpp/include/diskpp/bases/bases_new.hpp: L2_projector"]}
{"id": "C111", "title": "The Laplacian reconstruction of hho_slapl is consistent", "statement": "local_operator returns the reconstruction defined by (grad r, grad w) = (grad uT, grad w) + sum over faces of (uF - uT, grad w . n) for all polynomials w of the face degree plus one, with its energy matrix; applied to the reduction of a polynomial of that degree it returns it up to a constant when the cell degree is the face degree or one more.  With a cell degree of one less than that of the faces, this fails; cell degrees above the face degree plus one are not accepted.", "quantifier": "All cells, degrees, polynomials, local unknowns", "why_tests_cant": "Consistency is an identity over all polynomials and cells; a test checks convergence on particular meshes, where a loss in the reduction looks like discretisation error.", "anchors": ["libdiskpp/include/diskpp/methods/hho_slapl.hpp: local_operator, local_reduction, degree_info"]}
{"id": "C112", "title": "The stabilisations of hho_slapl are symmetric, positive, and see only jumps", "statement": "local_stabilization is the sum over the faces of 1/h_T times the products of the projected jumps of rec u + uT - proj(rec u) - uF, local_stabilization_hdg the sum of the products of the projected jumps of uT - uF, without division by a diameter.  Both are symmetric and nonnegative; added to the energy they vanish exactly on the constants; they vanish on the reduction of polynomials (of the face degree plus one; of the cell degree), on which the operator returns the exact residual.  local_reduction computes the L2 projections of polynomials one degree above those of the cell and of the faces.", "quantifier": "All cells, degrees, local unknowns, polynomials", "why_tests_cant": "A kernel that is too large only shows on meshes where the spurious mode is excited.", "anchors": ["libdiskpp/include/diskpp/methods/hho_slapl.hpp: local_stabilization, local_stabilization_hdg, local_reduction"]}
{"id": "C113", "title": "Netgen meshes are loaded faithfully", "statement": "For every Netgen 2D or 3D file whose numbers, in any layout and any decimal spelling, describe points, simplices and boundary faces that are sides of the simplices, loading returns true and the mesh holds exactly the points of the file in order, exactly the cells of the file, exactly their faces (and edges in 3D), each stored once in sorted order; every listed boundary face carries the number of its last listing and every other face is not a boundary; in 3D each volume keeps its subdomain number; the result satisfies the well-formedness that mesh queries rely on. In 3D the cells must be distinct; in 2D the subdomain of every cell is 0 whatever the file says.", "quantifier": "all mesh data and all texts that spell them", "why_tests_cant": "the space of files is unbounded; tests load a few sample meshes", "anchors": ["libdiskpp/include/diskpp/loaders/loader_netgen.hpp netgen_mesh_loader", "libdiskpp/include/diskpp/loaders/loader.hpp load_mesh", "libdiskpp/include/diskpp/loaders/strtot.hpp strtot"]}
{"id": "C114", "title": "Inconsistent mesh files are reported", "statement": "A Netgen file that lists a boundary face that no cell has is reported to the caller: the 3D loader throws std::logic_error. In 2D load_mesh should return false.", "quantifier": "all mesh data with a stray boundary face and all texts that spell them", "why_tests_cant": "malformed files are rarely in test suites", "anchors": ["libdiskpp/include/diskpp/loaders/loader_netgen.hpp populate_mesh", "libdiskpp/include/diskpp/loaders/loader.hpp load_mesh"]}
{"id": "C115", "title": "Cartesian meshes are loaded faithfully", "statement": "For every DiSk++ cartesian 2D or 3D file that describes points, boxes and boundary faces that are faces of the boxes, loading returns true and the mesh holds exactly the points, boxes, and box faces (edges too in 3D), sorted; the listed boundary faces are the boundary, with id 0. A face shared by two boxes is stored once.", "quantifier": "all mesh data and all texts that spell them", "why_tests_cant": "the space of files is unbounded; test meshes come from one generator with one orientation", "anchors": ["libdiskpp/include/diskpp/loaders/loader_cartesian.hpp cartesian_mesh_loader", "libdiskpp/include/diskpp/loaders/loader.hpp load_mesh_diskpp_cartesian"]}
{"id": "C116", "title": "Elements of a loaded mesh refer to points of the mesh", "statement": "Every vertex number of an element of a mesh loaded from a Netgen file is the number of a point of the mesh, in 2D and 3D.", "quantifier": "all Netgen files and all elements of the loaded mesh", "why_tests_cant": "needs malformed files", "anchors": ["libdiskpp/include/diskpp/loaders/loader_netgen.hpp netgen_mesh_loader"]}
{"id": "C117", "title": "Explicit-connectivity mesh files are loaded faithfully", "statement": "For every medit (3D), poly2d or poly3d file whose items are numbered 0, 1, ... in any order and whose references exist, loading stores every edge, face and volume of the file exactly once; each stored face or volume refers to the stored positions of its own edges or faces and has the points the file gives it; the boundary descriptor of a face is that of the last group that names it and the default if none does; if the file repeats no element the containers come out strictly sorted, as mesh queries need. For poly files the node lists must stand in the order of their numbers.", "quantifier": "all consistent files, of any size and in any order", "why_tests_cant": "the space of files is unbounded; the orders in which items are listed and sorted interact", "anchors": ["libdiskpp/include/diskpp/loaders/loader_poly.hpp populate_mesh", "libdiskpp/include/diskpp/loaders/loader_medit.hpp populate_mesh"]}
{"id": "C118", "title": "Node lists of poly files are matched by number", "statement": "In a poly file every entry carries its number, so the order of the entries of a block does not matter: a cell has the nodes listed under its number.", "quantifier": "all poly files", "why_tests_cant": "sample files list everything in order", "anchors": ["libdiskpp/include/diskpp/loaders/loader_poly.hpp populate_mesh"]}
{"id": "C119", "title": "fvca6 meshes are loaded faithfully", "statement": "For every valid fvca6 file (numbers from 1) loading stores every edge, face and volume once, in sorted order, with the connectivity and the points of the file; all stored indices start from 0 and refer to existing points.", "quantifier": "all valid fvca6 files", "why_tests_cant": "the space of files is unbounded", "anchors": ["libdiskpp/include/diskpp/loaders/loader_fvca6.hpp fvca6_mesh_loader"]}
{"id": "C120", "title": "Boundary faces of hypercubes are numbered by side", "statement": "For every well-formed mesh renumber_hypercube_boundaries returns true exactly when the normal of every outer face tells a side of the unit square or cube; then every outer face has the number of its side (2D: 0 below, 1 right, 2 above, 3 left; 3D: 2 and 5, 1 and 4, 0 and 3 for the low and high sides in x, y, z), and faces with two cells keep their descriptor. A unit normal tells a side exactly when one of its components exceeds 99/100 in absolute value.", "quantifier": "all meshes and all unit normals", "why_tests_cant": "holds for every mesh; tests look at a few", "anchors": ["libdiskpp/include/diskpp/loaders/loader_utils.hpp renumber_hypercube_boundaries", "libdiskpp/include/diskpp/loaders/loader_utils.hpp boundary_number"]}
{"id": "C121", "title": "Boundary faces of fvca6 meshes", "statement": "After loading a valid fvca6 file a face is a boundary face exactly when one volume of the file lists it. If the normals of all of them tell a side of the unit cube, each has the number of its side; otherwise all have number 0.", "quantifier": "all valid fvca6 files and all normals", "why_tests_cant": "the renumbering stops half-way when a normal is not recognised; only a proof shows that nothing of the half-way state is left", "anchors": ["libdiskpp/include/diskpp/loaders/loader_fvca6.hpp populate_mesh", "libdiskpp/include/diskpp/loaders/loader_utils.hpp renumber_hypercube_boundaries"]}
{"id": "C122", "title": "Plane medit files", "statement": "The loader of plane medit meshes accepts a file exactly when every listed boundary edge joins two consecutive corners of some polygon. The mesh then has each side of the polygons once, one cell per polygon with its corners in the order of the file and its own sides, and boundary descriptors from the last entry that lists the edge.", "quantifier": "all polygon lists (any number of sides) and all boundary lists with positive indices", "why_tests_cant": "duplicate sides, orientation of edges and the sorting of cells interact for arbitrarily large meshes", "anchors": ["libdiskpp/include/diskpp/loaders/loader_medit.hpp populate_mesh (2D)", "libdiskpp/include/diskpp/loaders/loader_medit.hpp medit_read_polygons"]}
{"id": "C123", "title": "fvca5 files", "statement": "A valid fvca5 file is loaded: each of its edges is stored once, each polygon becomes a cell with its corners, its domain number and the edges that name it as neighbour, which are its sides if the file is closed. An edge that names a polygon not read yet makes the loader throw; indices 0, equal ends and boundary edges that are no edges make it fail.", "quantifier": "all sequences of blocks of an fvca5 file", "why_tests_cant": "the blocks can come in any order and cells are assembled from back references of edges", "anchors": ["libdiskpp/include/diskpp/loaders/loader_fvca5.hpp fvca5_parse_all_edges", "libdiskpp/include/diskpp/loaders/loader_fvca5.hpp populate_mesh", "libdiskpp/include/diskpp/mesh/mesh.hpp domain_info"]}
{"id": "C124", "title": "Boundary edges of fvca5 meshes", "statement": "After loading a valid fvca5 file an edge between two polygons is internal, marked as an interface (number 0) if the file lists it. Edges with one polygon have the number of their side of the unit square if all of them have one; otherwise listed ones have number 0 and the others are unmarked.", "quantifier": "all valid fvca5 files and all normals", "why_tests_cant": "it depends on counting the owners of an edge and on the renumbering that may stop half-way", "anchors": ["libdiskpp/include/diskpp/loaders/loader_fvca5.hpp populate_mesh", "libdiskpp/include/diskpp/loaders/loader_utils.hpp renumber_hypercube_boundaries", "libdiskpp/include/diskpp/mesh/mesh.hpp mark_internal_faces"]}
{"id": "C125", "title": "Domain numbers of plane medit files", "statement": "After loading a plane medit file the domain number of a cell is the number given with its polygon.", "quantifier": "all plane medit files", "why_tests_cant": "must hold for every cell of every file", "anchors": ["libdiskpp/include/diskpp/loaders/loader_medit.hpp populate_mesh (2D)", "libdiskpp/include/diskpp/mesh/mesh.hpp domain_info"]}
{"id": "C126", "title": "Vector assemblers number exactly the components that are not prescribed", "statement": "For every mesh and every sequence of registered conditions whose Dirichlet types make sense in the dimension, the constructors of assembler_mechanics, vector_primal_hho_assembler and vector_mechanics_hho_assembler give the linear system one row per face unknown whose component is not prescribed by the last condition on its face; the numbers of a face start at the count of such unknowns on the faces before it. Types that make no sense in the dimension are rejected: prescribing z in 2D as invalid_argument, unknown types as logic_error.", "quantifier": "all meshes, sequences of boundary-condition calls, degrees per face, 2D and 3D", "why_tests_cant": "the numbering interleaves components and depends on every face before; tests use one mesh and full Dirichlet conditions", "anchors": ["libdiskpp/include/diskpp/methods/implementation_hho/assembler_hho.hpp assembler_mechanics, vector_primal_hho_assembler, vector_mechanics_hho_assembler", "libdiskpp/include/diskpp/boundary_conditions/boundary_conditions.hpp dirichlet_imposed_dofs"]}
{"id": "C127", "title": "Vector assembly eliminates exactly the prescribed components", "statement": "Assembling any cells in any order and finalizing gives the full system of all contributions restricted to the components that are not prescribed, with the prescribed ones eliminated at their values: zero on clamped faces, otherwise the coefficients of the projection of the last registered function times the factor. So the vectors solving it are exactly those whose completion by the prescribed values satisfies every equation of a free component.", "quantifier": "all meshes, boundary conditions of every type (full, clamped, single and double components), degrees per face, call sequences and local matrices", "why_tests_cant": "all combinations of types on the faces of a cell, and the order of calls", "anchors": ["libdiskpp/include/diskpp/methods/implementation_hho/assembler_hho.hpp assemble, finalize (assembler_mechanics, vector_primal, vector_mechanics)"]}
{"id": "C128", "title": "Vector solutions are read back with the prescribed values in place", "statement": "take_local_data / take_local_solution of a cell and expand_solution return, for every unknown of every face, its prescribed value if its component is prescribed and otherwise the entry of the solution that belongs to it.", "quantifier": "all meshes, conditions, degrees, solution vectors and cells", "why_tests_cant": "the index inside a face advances only on free components; every combination of types must agree with the constructor", "anchors": ["libdiskpp/include/diskpp/methods/implementation_hho/assembler_hho.hpp take_local_data, take_local_solution, expand_solution"]}
{"id": "C129", "title": "Newton iterations correct the prescribed components exactly", "statement": "With one assembler used for any number of iterations (clear, assemble_nonlinear with the current face values, finalize), the system of the last iteration depends on that iteration only and is the full system for the correction, in which the prescribed components are corrected by prescribed minus current value; the correction read back or expanded contains these differences, so that one update puts every prescribed component at its value.", "quantifier": "all histories of iterations, with any current values and any calls in each", "why_tests_cant": "state left from earlier iterations shows only in long histories", "anchors": ["libdiskpp/include/diskpp/methods/implementation_hho/assembler_hho.hpp assemble_nl, assemble_nonlinear, expand_solution_nl, take_local_solution_nonlinear, setZeroRhs, initialize", "libdiskpp/include/diskpp/mechanics/NewtonSolver/NewtonIteration.hpp"]}
{"id": "C130", "title": "Neumann loads reach the equations of their face", "statement": "impose_neumann_boundary_conditions of the vector assemblers adds the load of every face with a Neumann condition to the equations of the components that are not prescribed there; a face whose components are all prescribed is rejected with invalid_argument.", "quantifier": "all meshes, sequences of registered conditions, degrees and calls", "why_tests_cant": "combinations of conditions on one face are not in the test suite", "anchors": ["libdiskpp/include/diskpp/methods/implementation_hho/assembler_hho.hpp impose_neumann_boundary_conditions"]}
{"id": "C131", "title": "Contact faces keep their unknowns", "statement": "The primal vector assemblers built from a degree k use degree k+1 on faces registered as SIGNORINI_FACE and k elsewhere, reject SIGNORINI_CELL, and give every unknown of a contact face that is not prescribed its own number.", "quantifier": "all meshes, contact types and other conditions on the same faces", "why_tests_cant": "needs every contact type on every position of the face list", "anchors": ["libdiskpp/include/diskpp/methods/implementation_hho/assembler_hho.hpp select_faces_degree and constructors of vector_primal_hho_assembler, vector_mechanics_hho_assembler"]}
{"id": "C132", "title": "Rounds of the scalar primal assembler are independent", "statement": "After any number of earlier rounds, a round of initialize, any sequence of assemble, impose_neumann and impose_robin calls and finalize leaves in LHS and RHS exactly the full system of that round, restricted to the faces without Dirichlet condition, with the projected Dirichlet values eliminated.", "quantifier": "all meshes, registered conditions without overlap, numbers of face unknowns, local matrices, and histories of rounds", "why_tests_cant": "histories and call orders are unbounded", "anchors": ["libdiskpp/include/diskpp/methods/implementation_hho/assembler_hho.hpp scalar_primal_hho_assembler"]}
{"id": "C133", "title": "The scalar primal system has one equation per free unknown", "statement": "The size of the system of the scalar primal assembler is the number of unknowns on faces without Dirichlet condition, whatever conditions were registered.", "quantifier": "all meshes and sequences of registrations", "why_tests_cant": "depends on overlapping registrations, which no test contains", "anchors": ["libdiskpp/include/diskpp/methods/implementation_hho/assembler_hho.hpp scalar_primal_hho_assembler constructor", "libdiskpp/include/diskpp/boundary_conditions/boundary_conditions.hpp nb_faces_dirichlet"]}
{"id": "C134", "title": "Solutions of the scalar primal system are read back completely", "statement": "take_local_solution returns for each face of the cell the entries of the solution, or the projection of the Dirichlet data on Dirichlet faces, in the local order; expand_solution returns the same values for all faces in the order of the mesh.", "quantifier": "all meshes, conditions, histories, solutions and cells", "why_tests_cant": "every cell and numbering", "anchors": ["libdiskpp/include/diskpp/methods/implementation_hho/assembler_hho.hpp scalar_primal_hho_assembler take_local_solution, expand_solution"]}
{"id": "C135", "title": "Conflicting conditions are rejected by the scalar primal assembler", "statement": "Imposing Neumann conditions fails if a face with a Neumann condition also has a Dirichlet or a Robin condition; the same for Robin with Dirichlet or Neumann; when no face has such a condition the call changes nothing.", "quantifier": "all meshes, registrations and states of the assembler", "why_tests_cant": "every combination on every face", "anchors": ["libdiskpp/include/diskpp/methods/implementation_hho/assembler_hho.hpp scalar_primal_hho_assembler impose_neumann_boundary_conditions, impose_robin_boundary_conditions"]}
{"id": "C136", "title": "Rounds of Stokes assembly are independent and complete", "statement": "After initialize, assemble (or assemble_alg) calls for any cells in any order, and finalize, the matrix and right-hand side of stokes_assembler are those of the saddle-point system summed over the calls of this round, with velocity, pressure and mean-pressure multiplier blocks, the unknowns of Dirichlet faces eliminated with their projected data; the size is the number of unknowns that are not prescribed plus one.", "quantifier": "all meshes, boundary conditions, block sizes, sequences of rounds and of calls", "why_tests_cant": "the history of rounds and calls is unbounded", "anchors": ["libdiskpp/include/diskpp/methods/implementation_hho/assembler_hho.hpp stokes_assembler initialize, assemble, assemble_alg, finalize"]}
{"id": "C137", "title": "Velocities and pressures are read back consistently", "statement": "take_velocity returns for a cell its velocity unknowns from the solution, with the projected data on Dirichlet faces, take_pressure its pressure unknowns; a vector solves the system exactly if its completion satisfies the full equations; the pressures of a solution have zero mean over the assembled cells; global_face_offset reports where a free face starts.", "quantifier": "all meshes, conditions, histories, solutions and cells", "why_tests_cant": "every numbering of every mesh", "anchors": ["libdiskpp/include/diskpp/methods/implementation_hho/assembler_hho.hpp stokes_assembler take_velocity, take_pressure, global_face_offset"]}
{"id": "C138", "title": "A Stokes matrix can be kept for many right-hand sides", "statement": "With stokes_assembler_alg, after the left-hand side was assembled once, every later assembly of loads yields the complete system of that left-hand side and these loads only, prescribed values included once, whatever was assembled before; solutions read back satisfy the equations.", "quantifier": "all meshes, conditions and histories of left-hand side and right-hand side phases", "why_tests_cant": "the history of phases is unbounded", "anchors": ["libdiskpp/include/diskpp/methods/implementation_hho/assembler_hho.hpp stokes_assembler_alg initialize_lhs, assemble_lhs, finalize_lhs, initialize_rhs, assemble_rhs, finalize_rhs"]}
{"id": "C139", "title": "The Stokes assemblers respect the type of a Dirichlet condition", "statement": "A condition on one component (DX, DY, ...) leaves the other components of the face unknown, and a clamped face gets the value zero.", "quantifier": "all meshes and registrations", "why_tests_cant": "tests use plain DIRICHLET conditions only", "anchors": ["libdiskpp/include/diskpp/methods/implementation_hho/assembler_hho.hpp stokes_assembler assemble, stokes_assembler_alg assemble_lhs", "libdiskpp/include/diskpp/boundary_conditions/boundary_conditions.hpp dirichlet_boundary_type"]}
{"id": "C140", "title": "What is read back from a Stokes solution satisfies the assembled equations", "statement": "The velocities and pressures read back from a solution satisfy the equations of all calls of the round.", "quantifier": "all meshes, data, degrees, quadratures and solutions", "why_tests_cant": "the data projected when assembling and when reading back agree for the polynomial data of tests", "anchors": ["libdiskpp/include/diskpp/methods/implementation_hho/assembler_hho.hpp stokes_assembler assemble, take_velocity"]}
{"id": "C141", "title": "The incidence matrices of a tetrahedron form a complex", "statement": "For every tetrahedron the gradient matrix gives the differences of a potential along the oriented edges, and the curl matrix gives for each face the circulation around the face oriented by its sorted vertices. So the contribution of a shared face is the same from both sides. The curl of a gradient is zero and the alternating sum of the four curls is zero. For an affine field, the curl matrix applied to the circulations along the edges gives the flux of the curl through the faces (Stokes).", "quantifier": "every tetrahedron of every mesh, every potential and every edge field, every affine vector field", "why_tests_cant": "identities over all real values and positions", "anchors": ["libdiskpp/include/diskpp/methods/implementation_dga/methods_dga.hpp: grad_matrix, curl_matrix, edges, faces, primal_area_vectors"]}
{"id": "C142", "title": "Primal and dual vectors of a tetrahedron are in duality", "statement": "For every tetrahedron, of either orientation, the edge vectors and area vectors are those of its sorted edges and faces, and the signed area vectors add up to zero. Each edge vector times its dual area vector is half of the volume; each area vector times its dual edge vector is three quarters of the volume. The sum of the products edge x dual area and of the products area x dual edge is the volume times the identity.", "quantifier": "every tetrahedron with increasing vertex numbers and every position of its vertices", "why_tests_cant": "identities over all real coordinates and both orientations", "anchors": ["libdiskpp/include/diskpp/methods/implementation_dga/methods_dga.hpp: primal_edge_vectors, primal_area_vectors, dual_edge_vectors, dual_area_vectors, volume_signed, volume_unsigned"]}
{"id": "C143", "title": "Material matrices of a tetrahedron are consistent, symmetric and positive definite", "statement": "For a non-degenerate tetrahedron and a symmetric tensor (or a scalar) the edge matrix maps the voltages of a constant field e to the fluxes of k e through the dual faces. The face matrix maps the fluxes of a constant field to the voltages of k b along the dual edges. Both matrices are symmetric, and positive definite when k is. The energy of a constant field is the volume times e . k e.", "quantifier": "every non-degenerate tetrahedron, every symmetric tensor or scalar, every constant field and every vector of degrees of freedom", "why_tests_cant": "identities and inequalities over all real data", "anchors": ["libdiskpp/include/diskpp/methods/implementation_dga/methods_dga.hpp: edge_matrix, face_matrix, edge_matrix_simplicial_element, face_matrix_simplicial_element"]}
{"id": "C144", "title": "Normals of the faces of a tetrahedron point outwards", "statement": "For a non-degenerate tetrahedron of either orientation, normals() returns one vector per face. It has length one, is orthogonal to the face and points away from the opposite vertex.", "quantifier": "every non-degenerate tetrahedron", "why_tests_cant": "all real coordinates and both orientations", "anchors": ["libdiskpp/include/diskpp/methods/implementation_dga/methods_dga.hpp: normals (volume), primal_area_vectors"]}
{"id": "C145", "title": "Vectors of a triangle have the documented orientation", "statement": "The normals of the edges of a triangle point outwards, and the dual edges of a face seen from a tetrahedron satisfy cross(pev, dev) = outward. This is false of the code. The first edge is right; for the two others the vector points the other way.", "quantifier": "every non-degenerate triangle and tetrahedron", "why_tests_cant": "all real coordinates", "anchors": ["libdiskpp/include/diskpp/methods/implementation_dga/methods_dga.hpp: normals (surface), dual_edge_vectors (surface, volume)"]}
{"id": "C146", "title": "Material matrices reproduce constant fields for every tensor", "statement": "The edge and face matrices reproduce constant fields whatever the material tensor. This is false of the code: it holds exactly when the tensor is symmetric.", "quantifier": "every non-degenerate tetrahedron and every tensor", "why_tests_cant": "all real tensors", "anchors": ["libdiskpp/include/diskpp/methods/implementation_dga/methods_dga.hpp: edge_matrix, face_matrix (tensor)"]}
{"id": "C147", "title": "Edge numbers of an element", "statement": "edge_ids of a tetrahedron or triangle returns the positions of its sorted edges in the edge list of the mesh. If one of them is not stored, it throws std::invalid_argument.", "quantifier": "every sorted edge list and every element", "why_tests_cant": "all lists", "anchors": ["libdiskpp/include/diskpp/methods/implementation_dga/methods_dga.hpp: offset, edge_ids, edges"]}
{"id": "C148", "title": "Linear finite element basis on a triangle", "statement": "For every non-degenerate triangle the three basis functions are 1 at their vertex and 0 at the others. They add up to one everywhere and reproduce affine functions from their vertex values. The gradient matrix contains their derivatives.", "quantifier": "every non-degenerate triangle of either orientation, every evaluation point, every affine function", "why_tests_cant": "all real coordinates", "anchors": ["libdiskpp/include/diskpp/cfem/cfem.hpp: eval_basis, eval_basis_grad"]}
{"id": "C149", "title": "Linear finite element matrices on a triangle", "statement": "The mass matrix holds the exact integrals of the products of the basis functions and is positive definite. The stiffness matrices (with and without a tensor) give the energy of the affine functions with the given vertex values, have zero row and column sums, and are symmetric for symmetric tensors. The energy vanishes only for constants. The load vector is exact for constant loads, and its sum is the exact integral for affine loads.", "quantifier": "every non-degenerate triangle, every tensor, every vector of vertex values, every affine load", "why_tests_cant": "all real coordinates and data", "anchors": ["libdiskpp/include/diskpp/cfem/cfem.hpp: mass_matrix, stiffness_matrix, make_rhs"]}
{"id": "C151", "title": "Virtual element: projection and stiffness matrix", "statement": "The polynomial that the local projector of the virtual element method builds from the degrees of freedom of a cell satisfies the Green formula (integral of the gradient products computed from boundary values and interior moments alone) against every polynomial of degree k, and has the prescribed mean; it is the only polynomial of degree k that does. For k at least 2 it reproduces every polynomial of degree k from its degrees of freedom. The local stiffness matrix is the energy of the projections plus the Euclidean products of what the projections miss; it is symmetric and positive, vanishes exactly on constants, and for k at least 2 is exact whenever one argument is a polynomial of degree k. The load vector is the quadrature of the load times the projection of degree k-1, exact for loads of degree k+1.", "quantifier": "every polygon with the divergence theorem, every order, every vector of degrees of freedom, every polynomial of the order", "why_tests_cant": "all real coordinates, all orders and all degrees of freedom", "anchors": ["libdiskpp/include/diskpp/methods/implementation_vem/methods_vem_2d.hpp: vem_2d::matrix_G, matrix_BF, matrix_BT, matrix_B, matrix_D, projector_nabla, local_stiffness_matrix, local_rhs, compute_local"]}
{"id": "C152", "title": "Virtual element of order 1: linear functions", "statement": "For k = 1 the local projector reproduces linear functions from their vertex values and the stiffness matrix is exact on them (patch test), on every polygon.", "quantifier": "every polygon, every linear function", "why_tests_cant": "all real coordinates", "anchors": ["libdiskpp/include/diskpp/methods/implementation_vem/methods_vem_2d.hpp: vem_2d::matrix_G, matrix_B, projector_nabla"]}
{"id": "C153", "title": "Virtual element: L2 projection of degree k-1", "statement": "The projection of degree k-1 has the moments up to degree k-2 given by the degrees of freedom, reproduces polynomials of degree k-1, and for degrees of freedom of a polynomial of degree k is its L2 projection.", "quantifier": "every polygon, every order, every vector of degrees of freedom", "why_tests_cant": "all real coordinates and orders", "anchors": ["libdiskpp/include/diskpp/methods/implementation_vem/methods_vem_2d.hpp: vem_2d::projector_zero"]}
{"id": "C150", "title": "Numbering of the boundary unknowns of virtual elements", "statement": "For every degree k >= 1, dof_mapper gives each edge of the mesh its two points (by point number) and between them k-1 numbers of its own, the numbers of all edges following those of the points without gap or overlap. The unknowns of a cell are listed as a walk around the cell meets them: k for each side, none twice, and the k+1 entries from place ik on are the unknowns of the i-th side in the direction of the walk. Two cells share exactly the unknowns at common points and inside common edges. bnd_to_global gives the unknowns of each boundary edge in the direction of its cell and nothing for other edges. Degree 0 is refused.", "quantifier": "all triangular, cartesian and polygonal meshes in 2D with sorted edges, all degrees", "why_tests_cant": "a wrong flip shows only on cells with a certain numbering of their points; every mesh and degree must work", "anchors": ["libdiskpp/include/diskpp/methods/implementation_vem/methods_vem_2d.hpp: faces_ccw, dof_mapper"]}
{"id": "C154", "title": "Condensation of virtual elements", "statement": "vem::schur and vem::deschur eliminate the inner unknowns exactly: (xF, xT) solves the local system if and only if xF solves the condensed system and deschur returns (xF, xT). A block that cannot be factorised is refused by both. Without inner unknowns the system is returned unchanged.", "quantifier": "all matrices, right hand sides and numbers of boundary unknowns; any commutative ring of scalars, exact factorisation", "why_tests_cant": "a block taken from the wrong corner can go unnoticed on symmetric or small examples", "anchors": ["libdiskpp/include/diskpp/methods/implementation_vem/methods_vem_2d.hpp: schur, deschur"]}
{"id": "C155", "title": "faces_ccw lists the faces counterclockwise", "statement": "faces_ccw(msh, cl) lists the faces of a triangle in counterclockwise order.", "quantifier": "all triangles of a simplicial mesh", "why_tests_cant": "the order depends on how the points happen to be numbered", "anchors": ["libdiskpp/include/diskpp/methods/implementation_vem/methods_vem_2d.hpp: faces_ccw(simplicial_mesh)"]}
{"id": "C156", "title": "dof_mapper can be recomputed", "statement": "After recompute(msh, k) a dof_mapper answers as one constructed for that mesh and that degree.", "quantifier": "all meshes, degrees and earlier contents of the mapper", "why_tests_cant": "only histories with two different meshes or degrees show it", "anchors": ["libdiskpp/include/diskpp/methods/implementation_vem/methods_vem_2d.hpp: dof_mapper::recompute"]}
{"id": "C157", "title": "The difference operator computes face minus cell", "statement": "The matrix returned by make_scalar_hho_difference maps the unknowns of a cell to the coefficients, on every face that carries unknowns and in the face space of the larger of the two degrees, of the function (face unknown - cell unknown); the rows beyond those faces are zero.", "quantifier": "every cell, every cell degree, every face degree (or no unknowns) per face, every vector of unknowns", "why_tests_cant": "infinitely many cells, degrees and unknowns; a test sees some of them", "anchors": ["libdiskpp/include/diskpp/methods/implementation_hho/scalar_stabilization.hpp:make_scalar_hho_difference", "libdiskpp/include/diskpp/methods/implementation_hho/scalar_stabilization.hpp:scalar_diff_dofs"]}
{"id": "C158", "title": "The DG stabilisation penalises exactly the jumps", "statement": "The DG stabilisation is the sum over the faces of 1/h times the integral of (uF - uT)(vF - vT), is symmetric and nonnegative, and is zero exactly when every face function agrees with the cell function; added to the reconstruction it is zero only on constants, whatever the degrees of the faces.", "quantifier": "every cell, degrees, faces with or without unknowns, both scalings", "why_tests_cant": "stability must hold for every vector of unknowns", "anchors": ["libdiskpp/include/diskpp/methods/implementation_hho/scalar_stabilization.hpp:make_scalar_dg_stabilization"]}
{"id": "C159", "title": "Stabilisations written on differences agree with those on unknowns", "statement": "Applying the DG or HDG form on differences to the differences of the unknowns gives the DG or HDG stabilisation.", "quantifier": "every cell, degrees, unknowns", "why_tests_cant": "an identity of bilinear forms for all degrees", "anchors": ["libdiskpp/include/diskpp/methods/implementation_hho/scalar_stabilization.hpp:make_scalar_dg_stabilization_diff", "libdiskpp/include/diskpp/methods/implementation_hho/scalar_stabilization.hpp:make_scalar_hdg_stabilization_diff"]}
{"id": "C160", "title": "Fluxes of a form on differences represent it", "statement": "The fluxes computed from a form on differences, tested with the product weighted by 1/h, give that form; the system solved is positive definite.", "quantifier": "every cell, degrees, faces with or without unknowns", "why_tests_cant": "existence of the fluxes depends on the degrees of every face", "anchors": ["libdiskpp/include/diskpp/methods/implementation_hho/scalar_stabilization.hpp:make_scalar_stabilization_fluxes"]}
{"id": "C161", "title": "The HHO stabilisation with a degree per face", "statement": "The stabilisation is the 1/h weighted product of the face projections of reconstruction + (cell - projected reconstruction) - face; with the reconstruction it is symmetric, nonnegative, zero only on constants, and vanishes on the interpolates of polynomials of the reconstruction degree.", "quantifier": "every cell, every reconstruction degree, every degree (or none) per face with reconstruction degree at most face degree plus one", "why_tests_cant": "stability and consistency for all unknowns and all mixtures of degrees", "anchors": ["libdiskpp/include/diskpp/methods/implementation_hho/scalar_stabilization.hpp:make_scalar_hho_stabilization"]}
{"id": "C162", "title": "The stabilisation with a diffusion tensor", "statement": "It weighs every face with n.(kappa n)/h of the cell, is symmetric for every tensor and nonnegative when the tensor is.", "quantifier": "every cell, tensor, degrees with face degree at most the reconstruction degree", "why_tests_cant": "an identity for all tensors and unknowns", "anchors": ["libdiskpp/include/diskpp/methods/implementation_hho/scalar_stabilization.hpp:make_scalar_hho_stabilization2"]}
{"id": "C163", "title": "Numerical fluxes of the HHO stabilisation", "statement": "The fluxes computed for the HHO stabilisation, integrated against vF - vT with weight 1/h of the face, equal the stabilisation for every test function: the overdetermined system that defines them has exactly one solution.", "quantifier": "every cell, degrees, unknowns and test functions", "why_tests_cant": "solvability of an overdetermined system for all degrees", "anchors": ["libdiskpp/include/diskpp/methods/implementation_hho/scalar_stabilization.hpp:make_scalar_hho_stabilization_fluxes"]}
{"id": "C164", "title": "The scaling asked for is the one the fluxes use", "statement": "With the diameter of the cell as scaling, the fluxes represent the stabilisation with that scaling.", "quantifier": "every cell, degrees, unknowns, both scalings", "why_tests_cant": "only a comparison with the other scaling shows the difference", "anchors": ["libdiskpp/include/diskpp/methods/implementation_hho/scalar_stabilization.hpp:make_scalar_hho_stabilization_fluxes"]}
{"id": "C165", "title": "The symmetric reconstruction solves its variational problem", "statement": "The vector reconstruction r of the symmetric Laplacian satisfies (strain w, strain r) = (strain w, strain uT) + sum over faces of (uF - uT, (strain w) n) for every w of its degree, has zero mean rotation, is determined by this up to constants, and the returned matrix is (strain r(u), strain r(v)); on interpolates of vectors of its degree its strain is theirs.", "quantifier": "every cell in 2D and 3D, degrees (also one per face, also faces without unknowns), unknowns and test functions", "why_tests_cant": "an identity for all polynomials and unknowns; solvability of an indefinite system for all degrees", "anchors": ["libdiskpp/include/diskpp/methods/implementation_hho/vector_hho_laplacian.hpp:make_vector_hho_symmetric_laplacian"]}
{"id": "C166", "title": "What the HHO stabilisation of vectors computes", "statement": "For any reconstruction it is the sum over the faces of 1/h times the product of the projections on the face of R u + (uT - projection of R u) - uF; it is symmetric and nonnegative.", "quantifier": "every cell, reconstruction matrix, degrees, unknowns", "why_tests_cant": "an identity for all unknowns", "anchors": ["libdiskpp/include/diskpp/methods/implementation_hho/vector_stabilization.hpp:make_vector_hho_stabilization"]}
{"id": "C167", "title": "Only rigid motions have no energy", "statement": "The symmetric Laplacian plus the HHO stabilisation is nonnegative and vanishes exactly if the cell unknown is a rigid motion and every face carries its projection.", "quantifier": "every cell in 2D and 3D, degrees (also one per face, also faces without unknowns), unknowns", "why_tests_cant": "a statement about the whole kernel", "anchors": ["libdiskpp/include/diskpp/methods/implementation_hho/vector_hho_laplacian.hpp:make_vector_hho_symmetric_laplacian", "libdiskpp/include/diskpp/methods/implementation_hho/vector_stabilization.hpp:make_vector_hho_stabilization"]}
{"id": "C168", "title": "The vector stabilisation vanishes on interpolates", "statement": "With the symmetric reconstruction the HHO stabilisation of the interpolate of every vector of the reconstruction degree is zero against every test function.", "quantifier": "every cell, degrees, vector polynomial and test function", "why_tests_cant": "an identity for all polynomials; false in the lowest order", "anchors": ["libdiskpp/include/diskpp/methods/implementation_hho/vector_stabilization.hpp:make_vector_hho_stabilization", "libdiskpp/include/diskpp/methods/implementation_hho/vector_hho_laplacian.hpp:make_vector_hho_symmetric_laplacian"]}
{"id": "C169", "title": "The DG stabilisation of vectors", "statement": "It is the sum over the faces of 1/h times the integral of (uF - uT).(vF - vT); with the symmetric Laplacian it vanishes exactly if the cell unknown is a rigid motion that the faces agree with.", "quantifier": "every cell, degrees, unknowns", "why_tests_cant": "an identity for all unknowns and a statement about the whole kernel", "anchors": ["libdiskpp/include/diskpp/methods/implementation_hho/vector_stabilization.hpp:make_vector_dg_stabilization"]}
{"id": "C170", "title": "Nitsche boundary terms", "statement": "Imposing Dirichlet data by Nitsche changes the matrix and right-hand side of a cell only through its boundary faces: it adds -(dn Ru, vF) - (uF, dn Rv) + eta/|F| (uF, vF) to the form and -(g, dn Rv) + eta/|F| (g, vF) to the right-hand side, and keeps a symmetric matrix symmetric.", "quantifier": "every cell, reconstruction matrix, degrees, set of boundary faces, penalisation and polynomial datum", "why_tests_cant": "an identity for all unknowns, cells and sets of boundary faces", "anchors": ["libdiskpp/include/diskpp/methods/implementation_hho/scalar_hho_laplacian.hpp:apply_dirichlet_via_nitsche"]}
{"id": "C171", "title": "Nitsche is consistent", "statement": "If the exact solution is a polynomial of the reconstruction degree and the Dirichlet data is its trace, the penalty and symmetry terms cancel: the residual of its interpolate changes only by the boundary flux, and with the HHO operator and stabilisation the remaining residual is the load and the flux through the interior faces.", "quantifier": "every polynomial, cell, test vector, penalisation", "why_tests_cant": "consistency is a statement about every polynomial and test vector", "anchors": ["libdiskpp/include/diskpp/methods/implementation_hho/scalar_hho_laplacian.hpp:apply_dirichlet_via_nitsche"]}
{"id": "C172", "title": "Nitsche is coercive above a threshold", "statement": "For every cell and degrees there is a threshold such that with a larger penalisation the matrix of the cell keeps half of the energy plus a multiple of the boundary mass, and with a boundary face is positive definite. The default penalisation is large enough.", "quantifier": "every cell, degrees, unknowns and penalisation above the threshold", "why_tests_cant": "coercivity is about all unknowns at once; the threshold is uniform in them", "anchors": ["libdiskpp/include/diskpp/methods/implementation_hho/scalar_hho_laplacian.hpp:apply_dirichlet_via_nitsche"]}
{"id": "C173", "title": "Reconstruction in other bases", "statement": "With any independent polynomials starting with 1 as reconstruction basis (for example full polynomials topped with harmonic ones) the reconstruction r of the unknowns satisfies (K grad r, grad w) = (K grad uT, grad w) + sum over faces of (uF - uT, K grad w . n) for all w of the span, with uT projected on the faces in the projecting variants; the matrix returned is its energy. If div(K grad w) has the cell degree for the basis functions, interpolates of functions of the span are reproduced up to a constant.", "quantifier": "every basis, cell, tensor, degrees, unknowns and test function", "why_tests_cant": "identities for all unknowns and all bases", "anchors": ["libdiskpp/include/diskpp/methods/implementation_hho/scalar_hho_laplacian.hpp:make_shl_harmonic", "libdiskpp/include/diskpp/methods/implementation_hho/scalar_hho_laplacian.hpp:make_shl_face_proj_harmonic"]}
{"id": "C174", "title": "The stabilisation-free reconstruction", "statement": "make_sfl returns the matrix of the reconstruction R with (K grad R, grad w) = (K grad uT, grad w) + sum over faces of (uF - uT + (r - projection of r), K grad w . n), r being the standard reconstruction of degree k+1 of the unknowns, for every w of the outer space; the second matrix is its energy.", "quantifier": "every cell, tensor, degrees, outer basis, unknowns and test function", "why_tests_cant": "an identity for all unknowns", "anchors": ["libdiskpp/include/diskpp/methods/implementation_hho/scalar_hho_laplacian.hpp:make_sfl"]}
{"id": "C175", "title": "The stabilisation-free operator is consistent", "statement": "Without any stabilisation, the interpolate of a polynomial of degree k+1 is reconstructed up to a constant and its residual against every vector of unknowns is the load plus the fluxes through the faces.", "quantifier": "every polynomial of degree k+1, cell, tensor, test vector", "why_tests_cant": "consistency is about every polynomial and test vector", "anchors": ["libdiskpp/include/diskpp/methods/implementation_hho/scalar_hho_laplacian.hpp:make_sfl"]}
{"id": "C176", "title": "The P^k and Nedelec curl reconstructions satisfy their defining equation and commute with projections", "statement": "The operator of curl_reconstruction_pk and curl_reconstruction_nedelec maps the unknowns of a cell (a vector polynomial in the cell, tangential functions on the faces) to the vector polynomial C u of the reconstruction degree with int t.Cu = int t.curl(uT) + sum over faces int (t x n).(uF - uT) for every t; the second matrix is int Cu.Cv; if the unknowns are the projections of a field V then Cu is the L2 projection of curl V. The tangential basis of a face is independent, tangent, and spans all tangential polynomials of its degree.", "quantifier": "every polyhedral cell, every degrees within the stated bounds, every independent tangential face functions, every unknowns, every test function, every field V", "why_tests_cant": "the identity ranges over all cells, degrees, unknowns and test functions; tests sample a few meshes and fields", "anchors": ["libdiskpp/include/diskpp/methods/implementation_hho/curl.hpp:curl_reconstruction_pk", "libdiskpp/include/diskpp/methods/implementation_hho/curl.hpp:curl_reconstruction_nedelec", "libdiskpp/include/diskpp/bases/bases_vector.hpp:scaled_monomial_vector_tangential_basis"]}
{"id": "C177", "title": "The curl reconstruction solves a consistent singular system and is exact on polynomials", "statement": "curl_reconstruction in space: the system is singular but always consistent, so a solver that finds a solution when there is one yields Ru with int curl t.curl Ru = int curl t.curl uT + sum over faces int (curl t x n).(uF - uT) for every t of the reconstruction degree; the second matrix is int curl Ru.curl Rv; for the interpolate of a polynomial V of the reconstruction degree, curl Ru = curl V. In the plane the operator is the gradient reconstruction. If the cell basis is larger than the reconstruction basis the program reads outside its matrix.", "quantifier": "every cell, degrees, tangential face functions, solver of consistent systems, unknowns, test functions and polynomial fields", "why_tests_cant": "consistency of a singular system for every input cannot be observed on samples, and a sample cannot show that the choice of the solution does not matter", "anchors": ["libdiskpp/include/diskpp/methods/implementation_hho/curl.hpp:curl_reconstruction"]}
{"id": "C178", "title": "The curl stabilisations penalise exactly the projected tangential jumps", "statement": "The matrices of curl_hdg_stabilization, curl_hdg_stabilization_nedelec and curl_Z_stabilization are s times the sum over the faces of int d(u).d(v), d(u) the projection on the face functions of kF uF + kT uT (coefficients 1, -1 and scale 1 or 1/h; -jwmu0/Z, jwmu0/Z and scale 1); they are symmetric, positive semidefinite, and vanish when every face function is the tangential projection of the cell function.", "quantifier": "every cell with unit normals, every degrees, tangential face functions, unknowns u and v, every real jwmu0 and Z", "why_tests_cant": "an identity of bilinear forms over all cells and unknowns", "anchors": ["libdiskpp/include/diskpp/methods/implementation_hho/curl.hpp:curl_hdg_stabilization", "libdiskpp/include/diskpp/methods/implementation_hho/curl.hpp:curl_hdg_stabilization_nedelec", "libdiskpp/include/diskpp/methods/implementation_hho/curl.hpp:curl_Z_stabilization"]}
{"id": "C179", "title": "maxwell_prj returns the projections of a field on the cell and on the faces", "statement": "The vector returned by maxwell_prj holds, for the cell and for each face, the coefficients of the L2 projection of the given field on the functions of the cell and of the face.", "quantifier": "every cell, degrees, face functions and fields", "why_tests_cant": "tests with fields that happen to have the same mean on the cell and on the face (constants) do not see the wrong domain of integration", "anchors": ["libdiskpp/include/diskpp/methods/implementation_hho/curl.hpp:maxwell_prj"]}
{"id": "C180", "title": "The mass, impedance and plane-wave terms are the exact forms they name", "statement": "make_vector_mass_oper is int uT.vT; make_impedance_term on a cell is z times the sum over the faces of the given boundary of int uF.vF, with right-hand side z times the sum of int of the third component of vF, and touches nothing else; make_plane_wave_term is the face mass matrix and the load int phi.V for polynomial V of the face degree.", "quantifier": "every cell, degrees, face functions, set of boundary faces, impedance z and unknowns", "why_tests_cant": "identities over all cells, unknowns and boundary markings", "anchors": ["libdiskpp/include/diskpp/methods/implementation_hho/curl.hpp:make_vector_mass_oper", "libdiskpp/include/diskpp/methods/implementation_hho/curl.hpp:make_impedance_term", "libdiskpp/include/diskpp/methods/implementation_hho/curl.hpp:make_plane_wave_term"]}
{"id": "C181", "title": "The curl stabilisation with the reconstruction is the weighted sum of projected differences", "statement": "curl_hho_stabilization, for any reconstruction operator Ru on the basis without the constants, returns the symmetric positive semidefinite matrix of sum over faces 1/h int d(v).d(u), where d(u) is the projection on the functions of the face of uF - Ru + p - uT and p the projection of Ru on the polynomials of the cell degree. It is zero on the projections of V when Ru - V has the cell degree; in particular, with equal cell and reconstruction degrees, on the projections of every polynomial field of that degree.", "quantifier": "every cell, degrees with cell and face degree at most the reconstruction degree, independent tangential face functions, every reconstruction operator, unknowns and fields", "why_tests_cant": "a matrix identity over all cells, degrees and operators; positivity for every unknown cannot be sampled", "anchors": ["libdiskpp/include/diskpp/curl.hpp:curl_hho_stabilization"]}
{"id": "C182", "title": "The divergence-constrained curl reconstruction solves a consistent saddle-point system", "statement": "curl_reconstruction_div in space: the system is singular but always consistent, so a solver that finds a solution when there is one yields Ru with int curl t.curl Ru = int curl t.curl uT + sum over faces int (curl t x n).(uF - uT) for every t of the reconstruction degree, int grad p.Ru = int grad p.uT for every p of that degree, and the mean of uT; the second matrix is int curl Ru.curl Rv; curl Ru and this matrix are those of curl_reconstruction whatever the solutions found. A cell basis larger than the reconstruction basis leaves the matrix.", "quantifier": "every cell, degrees, tangential face functions, solver of consistent systems, unknowns, test fields and scalar polynomials", "why_tests_cant": "consistency of a singular system for every input cannot be observed on samples, nor that the choice of the solution does not matter", "anchors": ["libdiskpp/include/diskpp/curl.hpp:curl_reconstruction_div"]}
{"id": "C183", "title": "The curl stabilisation in the plane and the curl-curl matrix are the intended forms", "statement": "curl_hdg_stabilization in the plane is the matrix of sum over faces 1/h int d(v) d(u) with d(u) the projection of uT - uF on the polynomials of the face. make_curl_curl_matrix is the matrix of int curl u.curl v on the vector polynomials of the cell.", "quantifier": "every cell, every degrees, every unknowns", "why_tests_cant": "an identity over all cells, degrees and unknowns", "anchors": ["libdiskpp/include/diskpp/curl.hpp:curl_hdg_stabilization", "libdiskpp/include/diskpp/curl.hpp:make_curl_curl_matrix"]}
{"id": "C184", "title": "The Hencky-Mises law in the plane derives from a convex energy", "statement": "In the plane, the stress that compute_whole returns is the gradient of mu (|dev e|^2 / 2 + sqrt(1 + |dev e|^2)) + (lambda + mu)/2 tr(e)^2 for every strain and direction. For two symmetric strains the work of the stress difference lies between one half of what the returned tangent gives and what it gives; strains with equal stresses are equal.", "quantifier": "every material with mu and lambda + mu nonnegative (positive for uniqueness), every pair of strains, every earlier state", "why_tests_cant": "an inequality over all pairs of strains and a derivative at every strain cannot be sampled", "anchors": ["libdiskpp/include/diskpp/mechanics/behaviors/laws/HenckyMises/HenckyMises_qp.hpp:compute_whole", "libdiskpp/include/diskpp/mechanics/behaviors/laws/HenckyMises/HenckyMises_qp.hpp:compute_stress"]}
{"id": "C185", "title": "The Hencky-Mises law in space derives from an energy and is monotone", "statement": "In space the stress is the gradient of an energy and the work of a stress difference on the strain difference is nonnegative. Both are false for every mu > 0; between strains of equal trace the work lies between mu |d|^2 and 2 mu |d|^2.", "quantifier": "every material, every pair of strains", "why_tests_cant": "nonexistence of a potential is a statement about all functions; monotonicity fails only for large traces", "anchors": ["libdiskpp/include/diskpp/mechanics/behaviors/laws/HenckyMises/HenckyMises_qp.hpp:compute_whole"]}
{"id": "C186", "title": "The tangent of the Hencky-Mises law is the derivative of its stress", "statement": "The tangent returned by compute_whole is the derivative of the stress it returns. True at zero strain in every symmetric direction, in the plane and in space; false in the plane at every symmetric strain with a nonzero deviator.", "quantifier": "every material, strain and symmetric direction", "why_tests_cant": "a derivative at every strain", "anchors": ["libdiskpp/include/diskpp/mechanics/behaviors/laws/HenckyMises/HenckyMises_qp.hpp:compute_whole"]}
{"id": "C187", "title": "The Hencky-Mises law has no history and its two stresses agree", "statement": "Stress, tangent and stored strain of compute_whole depend neither on the earlier state nor on the flag; the strain is stored and the previous strain changes at update only. compute_stress3D then agrees in the plane with the returned stress: true in space, and in the plane for strains of trace zero; false in general in the plane.", "quantifier": "every history of calls, every material and strain", "why_tests_cant": "all histories and all strains", "anchors": ["libdiskpp/include/diskpp/mechanics/behaviors/laws/HenckyMises/HenckyMises_qp.hpp:compute_stress3D", "libdiskpp/include/diskpp/mechanics/behaviors/laws/law_qp_bones.hpp:update"]}
{"id": "C188", "title": "The volume of a convex polyhedral cell is its volume", "statement": "For a cell of a polyhedral mesh that is a convex polyhedron, measure returns the volume given by the divergence theorem: the sum over the faces of a third of the signed height times the area, for any reference point, whatever the order of the faces and the direction in which each face lists its vertices. A cell with four points gets the volume of the tetrahedron.", "quantifier": "every convex polyhedron with any number of vertices, faces and vertices per face, every listing of its faces", "why_tests_cant": "all shapes and all listings", "anchors": ["libdiskpp/include/diskpp/geometry/geometry_generic.hpp:measure", "libdiskpp/include/diskpp/quadratures/bits/raw_simplices.hpp:split_in_raw_tetrahedra"]}
{"id": "C189", "title": "The volume of a polyhedral cell that is not convex", "statement": "measure returns the volume of any cell bounded by a closed surface with plane convex faces. True when the mean of the vertices is behind every face; false in general: the volumes of overlapping cones are added.", "quantifier": "every closed surface with plane convex faces", "why_tests_cant": "all shapes; the failure needs a cell that is not star-shaped around the mean of its vertices", "anchors": ["libdiskpp/include/diskpp/geometry/geometry_generic.hpp:measure", "libdiskpp/include/diskpp/quadratures/bits/raw_simplices.hpp:split_in_raw_tetrahedra"]}
{"id": "C190", "title": "The quadrature of a polyhedral cell is exact on the pieces of the cell", "statement": "integrate on a polyhedral cell with at least four points returns for every degree above zero a rule exact for all polynomials of that degree on the tetrahedra into which the cell is split, whose weights add up to measure; on a convex polyhedron the weights add up to its volume for every degree. Degree zero gives one point; less than four points is reported as invalid argument.", "quantifier": "every cell, degree and polynomial of the degree", "why_tests_cant": "all cells, degrees and polynomials", "anchors": ["libdiskpp/include/diskpp/quadratures/bits/quad_phys_generic.hpp:integrate", "libdiskpp/include/diskpp/quadratures/bits/quad_phys_generic.hpp:integrate_polyhedron", "libdiskpp/include/diskpp/quadratures/quad_bones.hpp:integrate_degree0"]}
{"id": "C191", "title": "The quadrature of a polyhedral face integrates over the face", "statement": "integrate on a face of a polyhedral mesh integrates every polynomial of the degree over the triangles of the face up to the accuracy of the tables; on a plane convex face the weights add up to measure; less than three points is reported as invalid argument. For degrees above 30 the call is undefined, although the triangle rule has a branch for them.", "quantifier": "every face, degree and polynomial of the degree", "why_tests_cant": "all faces, degrees and polynomials", "anchors": ["libdiskpp/include/diskpp/quadratures/bits/quad_phys_generic.hpp:integrate", "libdiskpp/include/diskpp/quadratures/bits/quad_phys_generic.hpp:integrate_polyhedron_face"]}
{"id": "C192", "title": "The tetrahedra of a convex polyhedral cell cover exactly the cell", "statement": "For a convex polyhedral cell whose adjacent faces are not coplanar, a point is on the inner side of all the faces exactly when it lies in one of the tetrahedra into which split_in_raw_tetrahedra cuts the cell: nothing of the cell is left out and nothing outside is added. In particular every point of the quadrature of integrate, for every degree, lies in the cell.", "quantifier": "every strictly convex polyhedral cell with a number of points different from four, every point of space, every degree", "why_tests_cant": "all cells with any number of faces and all points", "anchors": ["libdiskpp/include/diskpp/geometry/geometry_generic.hpp:split_in_raw_tetrahedra", "libdiskpp/include/diskpp/quadratures/bits/quad_phys_generic.hpp:integrate"]}
{"id": "C193", "title": "The triangles of a convex face cover exactly the face", "statement": "For a plane convex polygon in space, a point is in the plane and on the inner side of every edge exactly when it lies in one of the triangles into which split_in_raw_triangles cuts the polygon.", "quantifier": "every plane convex polygon without empty edges, every point of space", "why_tests_cant": "all polygons with any number of vertices and all points", "anchors": ["libdiskpp/include/diskpp/geometry/geometry_generic.hpp:split_in_raw_triangles"]}
{"id": "C194", "title": "Faces and measures of cartesian cells", "statement": "The four faces of a cartesian 2D cell are the sides of its parallelogram with their lengths; the six faces of a 3D cell close up around it and enclose the volume of the parallelepiped. measure is never less than the area or volume, and equals it exactly when the sides are orthogonal; then the measure of each face is its area too.", "quantifier": "every cell that is a parallelogram or a parallelepiped, with any corner and sides, and every face", "why_tests_cant": "all cells", "anchors": ["libdiskpp/include/diskpp/geometry/geometry_hexahedral.hpp:measure", "libdiskpp/include/diskpp/geometry/geometry_hexahedral.hpp:faces"]}
{"id": "C195", "title": "Quadratures on cartesian cells integrate over the cell", "statement": "integrate on a cartesian cell, in the plane or in space, and on the faces of a cell with right angles, integrates every polynomial of the degree over the element up to the accuracy of the tables, for degrees below 40; higher degrees are reported as invalid argument. On a 3D cell with right angles the weights add up to measure, up to the tables.", "quantifier": "every parallelepiped or parallelogram, every degree and polynomial of the degree", "why_tests_cant": "all cells, degrees and polynomials", "anchors": ["libdiskpp/include/diskpp/quadratures/bits/quad_phys_cartesian.hpp:integrate"]}
{"id": "C196", "title": "The mesh written for visualisation covers every cell", "statement": "PostMesh of a 3D mesh keeps the points, nodes and edges under their numbers and appends the means of the faces with more than three points and of the cells with other than four; every tetrahedron it makes has four points of the new mesh. A cell with four points stays as it is; a point belongs to a strictly convex cell with any other number of points exactly when it belongs to one of the tetrahedra made from that cell.", "quantifier": "every mesh with valid numbers, every cell that is a strictly convex polyhedron with faces listed in either direction, every point of space", "why_tests_cant": "all meshes, cells and points", "anchors": ["libdiskpp/include/diskpp/output/postMesh.hpp:PostMesh"]}
{"id": "C197", "title": "The mesh written for visualisation is conforming and knows the nodes of the cells", "statement": "Every face of the input has one list of triangles, whatever the cells that share it, and they fill the face when it is a plane convex polygon; the tetrahedra of a cell that is cut are exactly the cones over the triangles of its faces from its mean. nodes_cell lists the points of the cell and, when it is cut, its mean followed by the means of its faces with more than three points; a cell number out of range throws.", "quantifier": "every mesh with valid numbers, every cell number, face and point", "why_tests_cant": "all meshes and faces", "anchors": ["libdiskpp/include/diskpp/output/postMesh.hpp:nodes_cell", "libdiskpp/include/diskpp/output/postMesh.hpp:split_in_triangles"]}
{"id": "C198", "title": "The coefficients of the logarithmic strain are divided differences of the logarithm", "statement": "compute_coefficient returns the first divided differences theta(i,j) and the second divided differences xi(i,j), eta of half the logarithm at the eigenvalues, with their limits where eigenvalues coincide.", "quantifier": "every triple of positive eigenvalues that the equality test of the code tells apart or that are equal", "why_tests_cant": "all positive reals, in every pattern of coincidence", "anchors": ["libdiskpp/include/diskpp/mechanics/behaviors/logarithmic_strain/logarithmic_tools.hpp:compute_coefficient", "libdiskpp/include/diskpp/mechanics/behaviors/logarithmic_strain/logarithmic_tools.hpp:compute_two_equal"]}
{"id": "C199", "title": "The projector of the logarithmic strain is its derivative and the stress does the right power", "statement": "The logarithmic strain depends on the Cauchy-Green tensor only, not on the eigenvectors that were found. The projector applied to the rate of the deformation gradient is the rate of the logarithmic strain, the second projector is twice the derivative with respect to the Cauchy-Green tensor, and the power of the first Piola-Kirchhoff stress on the rate of the deformation gradient is the power of the stress of the law on the rate of the strain.", "quantifier": "every differentiable motion, every diagonalisation, every law", "why_tests_cant": "all deformation gradients, directions and laws, including coinciding eigenvalues", "anchors": ["libdiskpp/include/diskpp/mechanics/behaviors/logarithmic_strain/logarithmic_tools.hpp:compute_projector", "libdiskpp/include/diskpp/mechanics/behaviors/logarithmic_strain/logarithmic_tools.hpp:compute_projector_PK2", "libdiskpp/include/diskpp/mechanics/behaviors/logarithmic_strain/LogarithmicStrain_qp.hpp:compute_whole3D"]}
{"id": "C200", "title": "The stress of the logarithmic strain is objective and balances moments", "statement": "compute_whole throws exactly when the determinant of the deformation gradient is at most 0.01. Otherwise the first Piola-Kirchhoff stress times the transposed deformation gradient is symmetric, a rotation of the deformed body rotates the stress, and a stress of the law with the eigenvectors of the strain gives the stress of the principal stretches.", "quantifier": "every deformation gradient, eigenvalue solver, law and rotation", "why_tests_cant": "all deformation gradients, laws and rotations", "anchors": ["libdiskpp/include/diskpp/mechanics/behaviors/logarithmic_strain/LogarithmicStrain_qp.hpp:compute_whole3D"]}
{"id": "C201", "title": "The tangent modulus of the logarithmic strain is the derivative of the stress", "statement": "The first Piola-Kirchhoff stress returned by compute_whole has the power of the stress of the law for every rate of the deformation gradient, and the tangent modulus returned with it maps every rate of the deformation gradient to the rate of that stress, when the law returns its own derivative.", "quantifier": "every differentiable motion, every diagonalisation, every law with symmetric stress and a tangent with major symmetry", "why_tests_cant": "all deformation gradients, directions and laws; the formulas divide by differences of eigenvalues and switch to limits", "anchors": ["libdiskpp/include/diskpp/mechanics/behaviors/logarithmic_strain/LogarithmicStrain_qp.hpp:compute_whole3D", "libdiskpp/include/diskpp/mechanics/behaviors/logarithmic_strain/logarithmic_tools.hpp:compute_projector_PK2", "libdiskpp/include/diskpp/mechanics/behaviors/tensor_conversion.hpp:convertCtoA"]}
{"id": "C202", "title": "Plane problems with the logarithmic strain: stress and tangent", "statement": "For plane problems compute_whole throws exactly when the determinant of the plane gradient is at most 1/100; otherwise the plane part of the first Piola-Kirchhoff stress it returns balances moments, and the plane tangent modulus is the derivative of that stress along every plane motion.", "quantifier": "every plane deformation gradient, every law with symmetric stress and symmetric tangent, every differentiable plane motion with a differentiable diagonalisation", "why_tests_cant": "derivative over all motions of the plane; a test compares a few values with finite differences", "anchors": ["libdiskpp/include/diskpp/mechanics/behaviors/logarithmic_strain/LogarithmicStrain_qp.hpp:compute_whole", "libdiskpp/include/diskpp/mechanics/behaviors/tensor_conversion.hpp:convertTensor"]}
{"id": "C203", "title": "Every cell keeps its material points", "statement": "Whatever sequence of updates and evaluations a program runs on a behaviour law, the points and weights stored for a cell stay those of the quadrature of that cell, in order, the number of points is the total over the cells, getCellQPs accepts the numbers of cells only, update updates every point once, and an evaluation changes the state of its own point and of no other.", "quantifier": "every mesh, quadrature degree, law at a point, and every finite history of calls", "why_tests_cant": "histories and meshes are unbounded", "anchors": ["libdiskpp/include/diskpp/mechanics/behaviors/laws/law_bones.hpp:LawTypeBones", "libdiskpp/include/diskpp/mechanics/behaviors/laws/law_cell_bones.hpp:LawTypeCellBones"]}
{"id": "C204", "title": "The output fields of plasticity are projections of the values at the points", "statement": "projectPOnCell and projectStateOnCell return the coefficients of the only polynomial of the gradient degree with the same products as the values at the material points: the total is kept, values of a polynomial give its L2 projection and a polynomial of that degree is found again, and the field is the least squares fit of the values. For laws without plasticity the fields are zero.", "quantifier": "every cell with exact quadratures, every degree, every values at the points", "why_tests_cant": "all cells, degrees and values", "anchors": ["libdiskpp/include/diskpp/mechanics/behaviors/laws/law_cell_bones.hpp:projectPOnCell", "libdiskpp/include/diskpp/mechanics/behaviors/laws/law_cell_bones.hpp:projectStateOnCell"]}
{"id": "C205", "title": "The output field of the stress is the projection of the stresses at the points", "statement": "Each entry of the matrix field whose coefficients projectStressOnCell returns is the projection of that entry of the stresses at the material points, in any dimension; the field of symmetric stresses is symmetric.", "quantifier": "every cell with exact quadratures, every degree and dimension, every stresses at the points", "why_tests_cant": "all cells, degrees and values", "anchors": ["libdiskpp/include/diskpp/mechanics/behaviors/laws/law_cell_bones.hpp:projectStressOnCell"]}
{"id": "C206", "title": "Relaxing a triangular mesh minimises its energy and keeps the boundary", "statement": "relax_mesh moves the interior points of a triangular mesh to the placement of least energy (the sides are springs as stiff as they are long) and leaves the points of the boundary where they are.", "quantifier": "every triangular mesh, every placement of the interior points", "why_tests_cant": "a minimum over all placements", "anchors": ["libdiskpp/include/diskpp/mesh/mesh_utility.hpp:relax_mesh"]}
{"id": "C207", "title": "project_gradient gives the vector polynomial whose gradient is closest to the function", "statement": "For a cell and a matrix valued function, the vector polynomial returned by project_gradient (coefficients on the basis without the constants) has the same products as the function with the gradients of all vector polynomials of the degree. No other vector polynomial of the degree has a gradient closer to the function at the quadrature points. The gradient of a vector polynomial of the degree gives that polynomial back, up to a constant.", "quantifier": "every cell, degree at least one, matrix valued function and degree increase, every vector polynomial of the degree", "why_tests_cant": "a statement about all functions and all competing polynomials, on cells of any shape", "anchors": ["libdiskpp/include/diskpp/bases/bases_utils.hpp:project_gradient", "libdiskpp/include/diskpp/bases/bases_utils.hpp:make_stiffness_matrix"]}
{"id": "C208", "title": "transforming a mesh moves its elements and scales their measures", "statement": "After transform(tr) the points of an element are the images by tr of its points before, in the same order. An affine map multiplies the area of every triangle and the volume of every tetrahedron by the absolute value of its determinant. The barycenter of an element (mean of its points) is moved by the affine map, and a similarity multiplies the diameter by its ratio. If the determinant is positive, a convex polygonal cell is still reported convex and its measure is multiplied by the determinant. The same is wanted of maps of negative determinant.", "quantifier": "every mesh, element, transformation; every affine map for the measures", "why_tests_cant": "A test applies one map to one mesh; the claim is for all maps and cells.", "anchors": ["libdiskpp/include/diskpp/mesh/mesh.hpp:mesh::transform", "libdiskpp/include/diskpp/geometry/geometry_all.hpp:points"]}
