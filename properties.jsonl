{"id": "C01", "title": "Entries of a dense matrix are stored independently", "statement": "For a SmallMat of any size, writing entry (row,col) makes that entry read back as the written value, leaves every other entry unchanged, and never touches memory outside the n_rows*n_cols storage. set_column changes exactly one column and get_column reads exactly that column.", "quantifier": "all matrix sizes, all index pairs inside the matrix, all contents", "why_tests_cant": "A test fixes one or two template sizes; the claim is about the index arithmetic for every size and every pair of entries.", "anchors": ["include/HyperHDG/dense_la.hxx: SmallMat::loc_matrix_index, operator(), get_column, set_column"]}
{"id": "C02", "title": "Dense sums, differences and scalings are the matrix operations", "statement": "SmallMat addition and subtraction (including the forms that add a vector to every column), scalar addition, subtraction, multiplication and division, and Hadamard product agree entry by entry with the mathematical operations; compound and binary forms give the same result.", "quantifier": "all sizes, all matrices, all scalars (non-zero divisors), over any field", "why_tests_cant": "Only finitely many literal matrices can be tested; aliasing and column-broadcast index errors show only for some shapes.", "anchors": ["include/HyperHDG/dense_la.hxx: SmallMat::operator+=, operator-=, operator*=, operator/=, hada_prod, operator+, operator-"]}
{"id": "C03", "title": "Dense products are the matrix products", "statement": "A*B, transposed_mat_times_mat(A,B), transposed(A), dyadic_product(u,v), diagonal(v) and scalar_product(u,v) return the linear-algebra objects their names announce, for every shape that compiles.", "quantifier": "all conforming shapes and all entries, over any commutative ring", "why_tests_cant": "Index transpositions are invisible on square symmetric or 1-by-n test data.", "anchors": ["include/HyperHDG/dense_la.hxx: operator*, transposed_mat_times_mat, transposed, dyadic_product, diagonal, scalar_product"]}
{"id": "C04", "title": "mat_times_transposed_mat(A,B) is A times B transposed", "statement": "mat_times_transposed_mat(A,B) returns the product A * B^T.", "quantifier": "all shapes accepted by the function, all matrices", "why_tests_cant": "On symmetric or commuting test matrices the wrong index order is invisible.", "anchors": ["include/HyperHDG/dense_la.hxx: mat_times_transposed_mat"]}
{"id": "C05", "title": "Operator < orders points so that sorting and uniqueness checks are meaningful", "statement": "operator< on SmallMat is a strict total order that is compatible with ==: irreflexive, transitive, and of any two points exactly one of a<b, a==b, b<a holds.", "quantifier": "all points of equal size with entries from any totally ordered field", "why_tests_cant": "std::sort has undefined behaviour if the comparison fails on some triple; no finite test covers all triples.", "anchors": ["include/HyperHDG/dense_la.hxx: SmallMat::operator<, operator==, operator!=", "include/HyperHDG/epsilon_neighborhood_graph.hxx: make_epsilon_neighborhood_graph"]}
{"id": "C06", "title": "A failed division leaves its operand unchanged", "statement": "If dividing a SmallMat in place (by a scalar or entry-wise by another matrix) raises the division-by-zero exception, the left operand still holds its old value.", "quantifier": "all matrices, all divisors containing a zero in any position", "why_tests_cant": "The partial update depends on the position of the first zero divisor; a test using a zero in position 0 passes.", "anchors": ["include/HyperHDG/dense_la.hxx: SmallMat::operator/=(const mat_entry_t), operator/=(const SmallMat&), hada_divi"]}
{"id": "C07", "title": "qr_decomp factors its argument", "statement": "After qr_decomp(A,Q,R), Q is orthogonal, Q times the (zero-extended) R equals A, and every diagonal entry of R except possibly the first is non-negative, provided LAPACK's QR meets its contract and R is extracted correctly.", "quantifier": "all shapes with n_rows >= n_cols >= 1, all matrices, all outcomes LAPACK may return", "why_tests_cant": "The sign normalisation depends on sign patterns of the diagonal and on parity of the dimension.", "anchors": ["include/HyperHDG/dense_la.hxx: qr_decomp", "include/HyperHDG/wrapper/lapack.hxx: lapack_qr_decomp"]}
{"id": "C08", "title": "qr_decomp returns a rotation", "statement": "After qr_decomp(A,Q,R) the orthogonal factor Q has determinant +1, as documented.", "quantifier": "all shapes and matrices", "why_tests_cant": "Depends on the parity of rows, columns and of the reflections LAPACK skipped.", "anchors": ["include/HyperHDG/dense_la.hxx: qr_decomp"]}
{"id": "C09", "title": "determinant returns the determinant", "statement": "determinant(A) of a square matrix equals the mathematical determinant, including its sign.", "quantifier": "all square matrices and all LAPACK-conforming QR results", "why_tests_cant": "The sign depends on how many Householder reflections are trivial; absolute values agree, and in-tree callers take absolute values.", "anchors": ["include/HyperHDG/dense_la.hxx: determinant", "include/HyperHDG/wrapper/lapack.hxx: lapack_det"]}
{"id": "C10", "title": "The R factor is extracted completely and in bounds", "statement": "Extracting R from the LAPACK result writes only inside the n_cols*n_cols target and leaves R upper triangular with LAPACK's upper triangle, whatever R held before.", "quantifier": "all shapes n_rows >= n_cols and all previous contents of R", "why_tests_cant": "The defect needs at least three columns and more rows than columns; out-of-bounds writes are silent in release builds.", "anchors": ["include/HyperHDG/wrapper/lapack.hxx: get_r_from_lapack_qr_result"]}
{"id": "C11", "title": "Solving a dense system", "statement": "b / A returns the x with A x = b whenever LAPACK reports success, raises an exception whenever LAPACK reports failure, and never modifies A or b.", "quantifier": "all square sizes, all right-hand sides, all LAPACK outcomes", "why_tests_cant": "In-place LAPACK calls overwrite their arguments; the absence of aliasing must hold at every size.", "anchors": ["include/HyperHDG/dense_la.hxx: operator/", "include/HyperHDG/wrapper/lapack.hxx: lapack_solve"]}
{"id": "C12", "title": "Tensor indices enumerate the full grid", "statement": "Hypercube index decomposition is a bijection between flat indices below n^dim and index tuples below n, first coordinate fastest, and tensorial_pt visits every tensor grid point exactly once.", "quantifier": "all dimensions and all numbers of points per direction", "why_tests_cant": "Dimension is a template parameter; tests fix it at 1 to 3.", "anchors": ["include/HyperHDG/hypercube.hxx: index_decompose, tensorial_pt, pow"]}
{"id": "C13", "title": "Degrees of freedom are partitioned among hypernodes", "statement": "The dof ranges of distinct hypernodes are disjoint, together cover exactly 0..n_global_dofs-1, and get_hyNode_from_dof_index inverts get_dof_indices.", "quantifier": "all numbers of hypernodes and dofs per node (no 32-bit overflow)", "why_tests_cant": "Must hold for every node number and dof count.", "anchors": ["include/HyperHDG/hypernodefactory.hxx: get_dof_indices, get_hyNode_from_dof_index, n_global_dofs"]}
{"id": "C14", "title": "Access to hypernode dofs touches only that hypernode", "statement": "set_dof_values followed by get_dof_values returns the values set; set and add_to change no dof of another hypernode, keep the vector length, and out-of-range hypernodes are rejected (debug) rather than silently read.", "quantifier": "all vectors, all hypernodes, all values", "why_tests_cant": "Frame conditions quantify over every other entry of an arbitrary vector.", "anchors": ["include/HyperHDG/hypernodefactory.hxx: get_dof_values, add_to_dof_values, set_dof_values"]}
{"id": "C15", "title": "Dof numbering with 32-bit indices", "statement": "With the default unsigned int indices, dof ranges stay distinct exactly as long as n_hyNodes * n_dofs_per_node does not exceed 2^32; beyond that two hypernodes share dofs.", "quantifier": "all node counts and dofs per node, arithmetic modulo 2^32", "why_tests_cant": "The failing sizes are far beyond unit tests.", "anchors": ["include/HyperHDG/hypernodefactory.hxx: HyperNodeFactory"]}
{"id": "C16", "title": "Cubic topology numbers its hypernodes densely", "statement": "For a cubic hypergraph of any dimension and any refinement, every hyperedge lists 2*dim hypernode numbers, all smaller than n_hyNodes, pairwise distinct within the hyperedge, and every number below n_hyNodes is used by some hyperedge.", "quantifier": "all space and hyperedge dimensions, all grid extents, all refinement levels >= 1", "why_tests_cant": "Quantifies over dimension, extents and refinement; index formulas mix coarse and fine numbering.", "anchors": ["include/HyperHDG/topology/cubic.hxx: hyEdge, n_hyNodes_, set_refinement"]}
{"id": "C17", "title": "Hyperedges share a hypernode exactly when they share a face", "statement": "In a (refined) cubic hypergraph two hyperedge faces carry the same hypernode number if and only if they are the same face of the unit cube subdivision according to the geometry.", "quantifier": "all dimensions, extents, refinement levels, pairs of hyperedges and faces", "why_tests_cant": "A wrong identification couples unrelated unknowns only for particular positions and levels.", "anchors": ["include/HyperHDG/topology/cubic.hxx: hyEdge", "include/HyperHDG/geometry/unit_cube.hxx: hyEdge"]}
{"id": "C18", "title": "Refining a file graph subdivides its edges", "statement": "For a one-dimensional hypergraph read from file, refinement by n turns every edge into a path of n edges between the same two end nodes, through n-1 new nodes that belong to no other edge; old node numbers survive.", "quantifier": "all graphs, all refinement levels", "why_tests_cant": "Graph and level are unbounded.", "anchors": ["include/HyperHDG/topology/file.hxx: hyEdge, n_hyEdges, n_hyNodes"]}
{"id": "C19", "title": "Refinement depends only on the last level set", "statement": "After any sequence of set_refinement calls the hypergraph (topology, geometry, node types, node factory, data container) is the same as after construction followed by only the last call, and all components agree on the number of hyperedges and hypernodes.", "quantifier": "all sequences of refinement levels", "why_tests_cant": "Histories are unbounded; stale sizes only show after particular sequences.", "anchors": ["include/HyperHDG/hdg_hypergraph.hxx: set_refinement", "include/HyperHDG/topology/cubic.hxx", "include/HyperHDG/topology/file.hxx", "include/HyperHDG/geometry/unit_cube.hxx", "include/HyperHDG/node_descriptor/cubic.hxx"]}
{"id": "C20", "title": "Node types mark exactly the domain boundary", "statement": "The cubic node descriptor gives type 0 to a face iff the face lies in no boundary plane of the unit cube among the directions normal to it, gives equal codes to hyperedges sharing a face, and distinguishes all boundary patterns.", "quantifier": "all dimensions, extents, refinements and faces", "why_tests_cant": "Base-3 codes collide only for certain direction patterns.", "anchors": ["include/HyperHDG/node_descriptor/cubic.hxx: hyEdge"]}
{"id": "C21", "title": "Refined hyperedges tile the coarse hyperedge", "statement": "In the unit-cube geometry the images of the reference cube under the refined hyperedges have equal size, have disjoint interiors and cover the coarse hyperedge; refined corner points coincide with the grid points.", "quantifier": "all dimensions, extents, refinement levels", "why_tests_cant": "Geometric statement for all levels and cells.", "anchors": ["include/HyperHDG/geometry/unit_cube.hxx: hyEdge, adapt_data, map_ref_to_phys"]}
{"id": "C22", "title": "Face normals point outward and are unit vectors", "statement": "local_normal of face i is a unit vector, orthogonal to the face, opposite on opposite faces and pointing out of the reference cube; in the unit-cube geometry the sum over faces of normal times face area vanishes.", "quantifier": "all dimensions and faces", "why_tests_cant": "Sign conventions must hold for each face of each dimension.", "anchors": ["include/HyperHDG/geometry/unit_cube.hxx: local_normal, inner_normal, outer_normal", "include/HyperHDG/geometry/file.hxx", "include/HyperHDG/mapping/linear.hxx"]}
{"id": "C23", "title": "Areas add up", "statement": "Refined hyperedge areas sum to the area of the coarse hyperedge, likewise face areas.", "quantifier": "all dimensions, extents, refinement levels", "why_tests_cant": "Exponent errors in the length factors vanish for dimension one or level one.", "anchors": ["include/HyperHDG/geometry/unit_cube.hxx: area, face_area"]}
{"id": "C24", "title": "Mapping to reference coordinates inverts the mapping to physical coordinates", "statement": "For a linear mapping with invertible square matrix, map_phys_to_ref(map_ref_to_phys(x)) = x for every set of points and vice versa; the map is affine.", "quantifier": "all invertible mappings and points", "why_tests_cant": "Universally quantified over matrices.", "anchors": ["include/HyperHDG/mapping/linear.hxx: map_reference_to_physical, map_physical_to_reference"]}
{"id": "C25", "title": "The epsilon-neighbourhood graph contains exactly the close pairs", "statement": "Every pair of distinct points of the component of the smallest point at distance < epsilon is connected by exactly one hyperedge, and no other pair is.", "quantifier": "all point sets in any dimension, all epsilon", "why_tests_cant": "Correctness relies on sortedness and on the visited/queued bookkeeping over the entire search history.", "anchors": ["include/HyperHDG/epsilon_neighborhood_graph.hxx: make_epsilon_neighborhood_graph"]}
{"id": "C26", "title": "The epsilon graph routine accepts exactly connected point sets", "statement": "The routine's final check succeeds iff every point can be reached from every other by steps shorter than epsilon; the search always terminates and visits each point at most once.", "quantifier": "all point sets and epsilons", "why_tests_cant": "Termination and reachability are unbounded claims.", "anchors": ["include/HyperHDG/epsilon_neighborhood_graph.hxx: make_epsilon_neighborhood_graph"]}
{"id": "C27", "title": "Written graph files are read back unchanged", "statement": "Reading a .geo file produced by the epsilon-graph writer yields the same points, hyperedges, types and node lists (up to decimal rounding of coordinates).", "quantifier": "all graphs", "why_tests_cant": "All sizes; the parser is line- and order-dependent.", "anchors": ["include/HyperHDG/epsilon_neighborhood_graph.hxx", "include/HyperHDG/read_domain.hxx: read_domain_geo"]}
{"id": "C28", "title": "Inconsistent domains are detected", "statement": "check_consistency returns true only if every hyperedge refers to existing hypernodes and points and no index is repeated where uniqueness is demanded.", "quantifier": "all domain descriptions", "why_tests_cant": "The result variable is overwritten inside loops, so only the last iteration is tested.", "anchors": ["include/HyperHDG/read_domain.hxx: DomainInfo::check_consistency, is_unique"]}
{"id": "C29", "title": "Large-vector helpers", "statement": "inner_product is symmetric, bilinear and positive; linear_combination computes left_fac*left + right_fac*right also when the result aliases an operand; norm is its square root; size mismatches are rejected.", "quantifier": "all vector lengths, contents and aliasing patterns", "why_tests_cant": "Aliasing correctness depends on evaluation order at every index.", "anchors": ["include/HyperHDG/sparse_la.hxx: inner_product, norm_2, linear_combination"]}
{"id": "C30", "title": "A returned conjugate-gradient solution solves the system", "statement": "If conjugate_gradient returns x then the true residual satisfies |b - A x| < tolerance, in exact arithmetic, for any linear operator.", "quantifier": "all linear operators, right-hand sides, iteration bounds, tolerances", "why_tests_cant": "The recurrence residual must equal the true residual after every number of steps.", "anchors": ["include/HyperHDG/sparse_la.hxx: conjugate_gradient"]}
{"id": "C31", "title": "Conjugate gradients terminate within n steps", "statement": "For a symmetric positive definite operator of dimension n and positive tolerance, conjugate_gradient with the default iteration bound returns a solution and never throws, in exact arithmetic.", "quantifier": "all dimensions, all SPD operators (and operators definite of either sign on an invariant subspace containing b), all right-hand sides", "why_tests_cant": "Krylov termination is a theorem, not a testable instance.", "anchors": ["include/HyperHDG/sparse_la.hxx: conjugate_gradient"]}
{"id": "C32", "title": "conjugate_gradient reports how many iterations it used", "statement": "As documented, the caller can observe the number of iterations performed; a zero tolerance is usable when b = 0, where the starting vector 0 is exact.", "quantifier": "all calls", "why_tests_cant": "By-value parameter: no caller can see the result.", "anchors": ["include/HyperHDG/sparse_la.hxx: conjugate_gradient"]}
{"id": "C33", "title": "The global operator is linear", "statement": "For a local solver that is linear, trace_to_flux satisfies superposition: f(a x + b y) = a f(x) + b f(y), keeps the vector length, and reads x without changing it.", "quantifier": "all hypergraphs, vectors and scalars", "why_tests_cant": "Quantifies over all hypergraphs and vectors.", "anchors": ["include/HyperHDG/global_loop/prototype.hxx: prototype_mat_vec_multiply", "include/HyperHDG/global_loop/elliptic.hxx: trace_to_flux"]}
{"id": "C34", "title": "The result does not depend on the order of hyperedges", "statement": "trace_to_flux gives the same vector whatever the order in which hyperedges are visited (exact arithmetic), and equals the sum over hyperedges of the scattered local results.", "quantifier": "all permutations of hyperedges", "why_tests_cant": "All orders of all hypergraphs.", "anchors": ["include/HyperHDG/global_loop/prototype.hxx: prototype_mat_vec_multiply"]}
{"id": "C35", "title": "The assembled sparse matrix is the matrix of the operator", "statement": "Multiplying the coordinate-format matrix returned by trace_to_flux_mat with x gives trace_to_flux(x) for every x, when no Dirichlet indices were set; all row and column numbers are in range.", "quantifier": "all hypergraphs, linear local solvers and vectors", "why_tests_cant": "Matrix and matrix-free code are separate implementations.", "anchors": ["include/HyperHDG/global_loop/prototype.hxx: prototype_mat_generate", "include/HyperHDG/global_loop/elliptic.hxx: trace_to_flux_mat"]}
{"id": "C36", "title": "Matrix and operator treat Dirichlet indices alike", "statement": "After read_dirichlet_indices, multiplying the matrix from trace_to_flux_mat with x still gives trace_to_flux(x).", "quantifier": "all index sets, hypergraphs, vectors", "why_tests_cant": "Needs Dirichlet indices together with the matrix path.", "anchors": ["include/HyperHDG/global_loop/elliptic.hxx: trace_to_flux, trace_to_flux_mat, read_dirichlet_indices"]}
{"id": "C37", "title": "Dirichlet rows are zero and nothing else changes", "statement": "After read_dirichlet_indices(l), trace_to_flux and residual_flux return 0 at exactly the listed indices and the unconstrained value elsewhere; order and repetitions in l do not matter.", "quantifier": "all index lists and vectors", "why_tests_cant": "All lists including duplicates and permutations.", "anchors": ["include/HyperHDG/global_loop/elliptic.hxx: read_dirichlet_indices, trace_to_flux, residual_flux"]}
{"id": "C38", "title": "Dirichlet indices stay valid across refinement", "statement": "After set_refinement, the Dirichlet indices used or returned by the global loops refer to the refined hypergraph.", "quantifier": "all refinement histories", "why_tests_cant": "Requires a particular call history.", "anchors": ["include/HyperHDG/global_loop/elliptic.hxx", "include/HyperHDG/global_loop/mass_approx_eigenvalue.hxx: dirichlet_indices", "include/HyperHDG/global_loop/shifted_inverse_eigenvalue.hxx: dirichlet_indices"]}
{"id": "C39", "title": "Symmetry and definiteness carry over from local to global", "statement": "If every local operator is symmetric (negative semidefinite), so is the global operator.", "quantifier": "all hypergraphs and vectors", "why_tests_cant": "Statement about all pairs of vectors.", "anchors": ["include/HyperHDG/global_loop/prototype.hxx"]}
{"id": "C40", "title": "residual_flux differs from trace_to_flux by a constant vector", "statement": "residual_flux(x) - trace_to_flux(x) is the same vector for all x, so solving with the negative residual of zero gives the exact discrete solution: residual_flux(x) = 0 iff trace_to_flux(x) = -residual_flux(0).", "quantifier": "all vectors and hypergraphs", "why_tests_cant": "Affine structure for all vectors.", "anchors": ["include/HyperHDG/global_loop/elliptic.hxx: residual_flux", "include/HyperHDG/local_solver/diffusion_ldgh.hxx: residual_flux"]}
{"id": "C41", "title": "Errors accumulate over hyperedges", "statement": "errors(x) is the post-processed sum of the local errors, independent of the order of hyperedges; it is zero iff all local errors vanish.", "quantifier": "all hypergraphs and vectors", "why_tests_cant": "All sizes and orders.", "anchors": ["include/HyperHDG/global_loop/elliptic.hxx: errors"]}
{"id": "C42", "title": "make_initial uses the time it was given", "statement": "GlobalLoop::Parabolic::make_initial(x, t) evaluates initial data at time t, and two hyperedges sharing a hypernode with the same local value leave that value.", "quantifier": "all times and hypergraphs", "why_tests_cant": "Tests call it with time 0 only.", "anchors": ["include/HyperHDG/global_loop/parabolic.hxx: make_initial"]}
{"id": "C43", "title": "set_data updates every hyperedge exactly once", "statement": "Parabolic::set_data(x,t) updates the stored data of each hyperedge exactly once, from that hyperedge's dofs only, and changes nothing else.", "quantifier": "all hypergraphs, vectors, times", "why_tests_cant": "Histories over all hyperedges.", "anchors": ["include/HyperHDG/global_loop/parabolic.hxx: set_data", "include/HyperHDG/hy_data_container.hxx"]}
{"id": "C44", "title": "Iterating over a hypergraph visits each hyperedge once", "statement": "begin()..end() yields hyperedges 0..n_hyEdges-1 in order, each once, and every access is in range.", "quantifier": "all hypergraphs and refinements", "why_tests_cant": "All sizes.", "anchors": ["include/HyperHDG/hdg_hypergraph.hxx: iterator, begin, end, operator[]"]}
{"id": "C45", "title": "The uniform diffusion local solver is linear and symmetric negative semidefinite", "statement": "trace_to_flux of DiffusionUniform is linear, <y, f(x)> = <x, f(y)> and <x, f(x)> <= 0, given exact quadrature and a successful local solve.", "quantifier": "all dimensions, polynomial degrees, tau > 0, traces", "why_tests_cant": "Requires all traces and all degrees.", "anchors": ["include/HyperHDG/local_solver/diffusion_uniform_ldgh.hxx: trace_to_flux, assemble_loc_matrix, assemble_rhs, primal_at_boundary, dual_at_boundary"]}
{"id": "C46", "title": "Constant traces produce no flux and fluxes are conserved", "statement": "For the uniform diffusion local solver the trace of a constant function gives zero flux and the fluxes through all faces sum to zero against constants.", "quantifier": "all dimensions, degrees, tau, traces", "why_tests_cant": "All traces.", "anchors": ["include/HyperHDG/local_solver/diffusion_uniform_ldgh.hxx"]}
{"id": "C47", "title": "Diffusion with coefficients and Dirichlet nodes", "statement": "For LocalSolver::Diffusion, trace_to_flux is linear, vanishes on Dirichlet faces, is symmetric negative semidefinite on the non-Dirichlet faces, and residual_flux is its affine extension.", "quantifier": "all hyperedge geometries, node types, coefficients, traces", "why_tests_cant": "All node-type patterns and data.", "anchors": ["include/HyperHDG/local_solver/diffusion_ldgh.hxx: trace_to_flux, residual_flux, assemble_loc_matrix"]}
{"id": "C48", "title": "Plotted cells reference existing points", "statement": "In the VTU output all connectivity indices are smaller than the number of points, the connectivity length equals the last offset, and the numbers of cells, offsets and types agree.", "quantifier": "all hypergraphs, dimensions 1 to 3, subdivisions and plot options", "why_tests_cant": "Index sums over all sizes.", "anchors": ["include/HyperHDG/plot.hxx: plot_vtu_unstructured_geometry, vtu_sub_cube_connectivity"]}
{"id": "C49", "title": "Plotted sub-cells are the cells of the subdivision", "statement": "Each sub-cell emitted lists the corners of one cell of the regular subdivision in VTK pixel/voxel order, and all cells appear once.", "quantifier": "all subdivisions and dimensions", "why_tests_cant": "All sizes.", "anchors": ["include/HyperHDG/plot.hxx: vtu_sub_cube_connectivity"]}
{"id": "C50", "title": "Plotted point data has one value tuple per point", "statement": "The number of values in PointData equals number of points times NumberOfComponents for all plot options.", "quantifier": "all solvers, dimensions, subdivisions and options", "why_tests_cant": "Depends on combinations of system dimensions, options and subdivisions.", "anchors": ["include/HyperHDG/plot.hxx: plot_edge_values, plot_boundary_values"]}
{"id": "C51", "title": "Plot options read back what was set", "statement": "plot_option(name, value) stores the value and returns the current value; plot_option(name, '') returns the current value without change; plot increments the file number iff asked to; other options never change.", "quantifier": "all option names, values and call sequences", "why_tests_cant": "Call histories are unbounded.", "anchors": ["include/HyperHDG/plot.hxx: set_plot_option, plot"]}
{"id": "C52", "title": "The import cache recompiles when a dependency changed", "statement": "HyperHDG.include reuses a compiled module only if every project header reachable by #include <HyperHDG/...> from the included files is not newer than the module; the dependency scan terminates for cyclic includes.", "quantifier": "all include graphs and time stamps", "why_tests_cant": "Graph closure over all graphs.", "anchors": ["import/HyperHDG/import_cxx/compile_prep.py: need_compile, need_compile_check_hy_files"]}
{"id": "C53", "title": "The imported module was built from the requested code", "statement": "After any history of include calls, some of which fail to compile, a successful include returns a module built from the requested cpp_code.", "quantifier": "all histories of include calls and crash points", "why_tests_cant": "Needs a failed compilation between two calls.", "anchors": ["import/HyperHDG/import_cxx/compile_prep.py: own_code, need_compile", "import/HyperHDG/import_cxx/include.py: include"]}
{"id": "C54", "title": "Different configurations get different modules", "statement": "Two configurations that generate different Cython sources never share a compiled module.", "quantifier": "all pairs of configurations", "why_tests_cant": "Pairs of configurations.", "anchors": ["import/HyperHDG/import_cxx/names.py: files", "import/HyperHDG/import_cxx/config.py: generate_cy_replace"]}
{"id": "C55", "title": "Class names map to file names", "statement": "cython_from_cpp turns a CamelCase class name into the snake_case file name, and extract_classname returns the name before the template arguments.", "quantifier": "all class names built from capitalised words", "why_tests_cant": "All names.", "anchors": ["import/HyperHDG/import_cxx/names.py: cython_from_cpp", "import/HyperHDG/import_cxx/cpp.py: extract_classname"]}
{"id": "C56", "title": "Data containers follow the hypergraph", "statement": "The number of stored hyperedge data entries equals n_hyEdges after construction and after every set_refinement, and entries survive unless the hypergraph is refined.", "quantifier": "all refinement histories", "why_tests_cant": "Histories.", "anchors": ["include/HyperHDG/hy_data_container.hxx", "include/HyperHDG/hdg_hypergraph.hxx: set_refinement"]}
{"id": "C57", "title": "The Jacobian loop is the derivative of the nonlinear flux", "statement": "For NonlinearEigenvalue, jacobian_of_trace_to_flux(x, y) is the scattered sum of the local Jacobians applied to the dofs of x at the point y; if each local Jacobian is the derivative of the local flux, the global one is the derivative of the global flux.", "quantifier": "all hypergraphs, directions, linearization points", "why_tests_cant": "Derivative statement over all vectors.", "anchors": ["include/HyperHDG/global_loop/nonlinear_eigenvalue.hxx: jacobian_of_trace_to_flux, trace_to_flux"]}
{"id": "C58", "title": "Hypergraphs sharing a topology stay usable when one is refined", "statement": "If two HDGHyperGraph objects are constructed from the same shared topology and one is refined, iterating over the other still succeeds.", "quantifier": "all refinement levels and numbers of sharing objects", "why_tests_cant": "Needs a history with two objects.", "anchors": ["include/HyperHDG/hdg_hypergraph.hxx: HDGHyperGraph(shared_ptr,...), set_refinement"]}
{"id": "C59", "title": "Node types of refined file hypergraphs", "statement": "NodeDescriptor::File gives a refined face lying on a coarse face the type of that coarse face and type 0 to every face created inside a hyperedge; if the types in the file belong to the hypernodes, hyperedges that share a refined hypernode agree on its type.", "quantifier": "all domains, dimensions, refinement levels, hyperedges and faces", "why_tests_cant": "All levels and all graphs.", "anchors": ["include/HyperHDG/node_descriptor/file.hxx: hyEdge", "include/HyperHDG/topology/file.hxx"]}
{"id": "C60", "title": "QR data of unit-cube hyperedges", "statement": "mat_q is orthogonal, the spanning vectors are the columns of mat_q times mat_r, and outer_normal(i) is column hyEdge_dim + i of mat_q and orthogonal to the hyperedge.", "quantifier": "all dimensions, extents, refinement levels, hyperedges", "why_tests_cant": "The skip loop over directions must work for all direction patterns.", "anchors": ["include/HyperHDG/geometry/unit_cube.hxx: mat_q, mat_r, outer_normal, span_vec"]}
{"id": "C61", "title": "Lexicographic points enumerate the tensor grid", "statement": "lexicographic(index, points_1d) is the tensor point whose k-th coordinate is points_1d at digit k of index in base n_points; boundary_lexicographic puts the lower-dimensional tensor point onto the requested face (scaled towards the centre).", "quantifier": "all dimensions, numbers of points, indices, faces", "why_tests_cant": "All dimensions and sizes.", "anchors": ["include/HyperHDG/geometry/unit_cube.hxx: lexicographic, boundary_lexicographic", "include/HyperHDG/geometry/file.hxx"]}
{"id": "C62", "title": "Normals of hyperedges read from file in the full space", "statement": "Mapping::Linear::inner_normal is the outer unit normal of the hypernode within the hyperedge, outer_normal completes it to normals of the hyperedge.", "quantifier": "all hyperedges of Geometry::File", "why_tests_cant": "Signs and orthogonality depend on the matrix; only axis-parallel or lucky edges behave.", "anchors": ["include/HyperHDG/mapping/linear.hxx: inner_normal, outer_normal", "include/HyperHDG/geometry/file.hxx: inner_normal, outer_normal", "include/HyperHDG/local_solver/advection_parab_ldgh.hxx"]}
{"id": "C63", "title": "The global system of uniform diffusion is uniquely solvable", "statement": "With DiffusionUniform, GlobalLoop::Elliptic::trace_to_flux is symmetric and negative semidefinite, has the constants in its kernel, conserves flux, and, if every hypernode is joined by hyperedges to a Dirichlet hypernode, is negative definite with exactly one solution for every right-hand side.", "quantifier": "all hypergraphs, dimensions, degrees, tau > 0, Dirichlet sets, right-hand sides", "why_tests_cant": "Solvability for all graphs cannot be sampled.", "anchors": ["include/HyperHDG/global_loop/elliptic.hxx: trace_to_flux", "include/HyperHDG/local_solver/diffusion_uniform_ldgh.hxx: trace_to_flux"]}
{"id": "C64", "title": "Mass fluxes of Diffusion are the L2 product of local solutions", "statement": "For LocalSolver::Diffusion, trace_to_mass_flux is linear in the trace, and tested with a trace that vanishes on Dirichlet faces it gives the L2 inner product of the two local solutions; hence it is symmetric and positive semidefinite. total_numerical_flux_mass is the same with the source and the boundary values included.", "quantifier": "all hyperedge geometries, node types, coefficients, traces", "why_tests_cant": "A bilinear identity over all traces and data.", "anchors": ["include/HyperHDG/local_solver/diffusion_ldgh.hxx: trace_to_mass_flux, total_numerical_flux_mass, assemble_rhs_from_coeffs"]}
{"id": "C65", "title": "The global system of Diffusion is uniquely solvable", "statement": "With LocalSolver::Diffusion the global operator is symmetric on the traces that vanish at Dirichlet hypernodes; if every hypernode is joined by hyperedges to a Dirichlet hypernode it is negative definite there, and there is exactly one trace for which the residuals of all hyperedges cancel.", "quantifier": "all hypergraphs, geometries, coefficients, sources, boundary values, tau > 0", "why_tests_cant": "Solvability for all graphs and data cannot be sampled.", "anchors": ["include/HyperHDG/global_loop/elliptic.hxx: trace_to_flux, residual_flux", "include/HyperHDG/local_solver/diffusion_ldgh.hxx: trace_to_flux, residual_flux"]}
{"id": "C66", "title": "Conservation and evaluation of the local solution", "statement": "For LocalSolver::Diffusion without Dirichlet faces the fluxes of residual_flux sum to the integral of the source; the local problem with source and boundary values has exactly one solution, and errors, errors_temp and bulk_values evaluate that solution; make_initial writes the projections of the initial value, and zero on Dirichlet faces.", "quantifier": "all hyperedge geometries, node types, coefficients, traces, abscissas", "why_tests_cant": "Holds for all data.", "anchors": ["include/HyperHDG/local_solver/diffusion_ldgh.hxx: residual_flux, errors, errors_temp, bulk_values, make_initial"]}
{"id": "C67", "title": "Geometries satisfy the divergence identity", "statement": "For every hyperedge of Geometry::UnitCube and every nondegenerate hyperedge of Geometry::File, face_area(f) times local_normal(f) is plus or minus area() times row k of the inverse of mat_r(), where f = 2k or 2k+1: what integration by parts in the local solvers relies on.", "quantifier": "all hyperedges, dimensions, refinements", "why_tests_cant": "An identity between LAPACK results for all vertices.", "anchors": ["include/HyperHDG/geometry/unit_cube.hxx: area, face_area, local_normal, mat_r", "include/HyperHDG/geometry/file.hxx: area, face_area, local_normal, mat_r", "include/HyperHDG/mapping/linear.hxx"]}
{"id": "C69", "title": "Successive plots write different files", "statement": "plot writes to outputDir/fileName.number.vtu; if the number is printed and incremented, a sequence of plots never overwrites a file it wrote.", "quantifier": "all options and sequences of at most 2^32 plots", "why_tests_cant": "Sequences of plots and the decimal text of all numbers.", "anchors": ["include/HyperHDG/plot.hxx: plot, open_ofstream"]}
{"id": "C70", "title": "Plotting boundaries writes points of the boundaries", "statement": "With plotEdgeBoundaries, the points written for boundary b of a hyperedge are points of that boundary (scaled towards its centre).", "quantifier": "all hyperedges, boundaries and points", "why_tests_cant": "The point numbers passed by plot must fit what the geometry expects, for all boundaries.", "anchors": ["include/HyperHDG/plot.hxx: plot_vtu_unstructured_geometry", "include/HyperHDG/geometry/file.hxx: boundary_lexicographic", "include/HyperHDG/geometry/unit_cube.hxx: boundary_lexicographic"]}
{"id": "C68", "title": "Domain files are read as written", "statement": "A .geo file of the documented format (comments, settings, sections of rows, optional properties) is read as exactly the numbers, points, hypernodes, face types, points of hyperedges and properties it states.", "quantifier": "all files of the format, all dimensions, sizes and contents, with and without assertions", "why_tests_cant": "All files; the examples have one dimension and little variety.", "anchors": ["include/HyperHDG/read_domain.hxx: read_domain_geo, read_domain", "domains/*.geo"]}
{"id": "C71", "title": "One time step of the parabolic diffusion solver", "statement": "For LocalSolver::DiffusionParab, trace_to_flux is linear, symmetric and negative definite on traces that vanish on Dirichlet faces, vanishes on Dirichlet faces, and gives theta times the numerical fluxes of the implicit part of a step; residual_flux is its affine extension that also contains the stored old solution.", "quantifier": "all hyperedge geometries, node types, coefficients, sources, theta, step sizes, traces and stored states", "why_tests_cant": "All traces, states and step sizes.", "anchors": ["include/HyperHDG/local_solver/diffusion_parab_ldgh.hxx: trace_to_flux, residual_flux, assemble_loc_matrix, assemble_rhs_from_lambda, assemble_rhs_from_global_rhs"]}
{"id": "C72", "title": "set_data advances the parabolic solver by one theta step", "statement": "set_data stores the solution of the theta scheme: area (u_new - u_old) = dt (theta rate_new + (1 - theta) rate_old), with the boundary fluxes of the new time; the mean of u changes by sources minus residual fluxes, and a stationary solution is kept.", "quantifier": "all states, traces, theta, step sizes", "why_tests_cant": "Chains of steps: what one step stores the next one uses.", "anchors": ["include/HyperHDG/local_solver/diffusion_parab_ldgh.hxx: set_data, residual_flux"]}
{"id": "C73", "title": "Time stepping is stable", "statement": "Without sources and with zero Dirichlet values, the L2 norm of u on the hypergraph never grows in a step of the theta scheme with theta at least 1/2, for any step size and any number of steps.", "quantifier": "all hypergraphs, geometries, states, step sizes, numbers of steps", "why_tests_cant": "Stability is about runs of any length and any step size.", "anchors": ["include/HyperHDG/local_solver/diffusion_parab_ldgh.hxx: residual_flux, set_data", "include/HyperHDG/global_loop/parabolic.hxx: residual_flux, set_data"]}
{"id": "C74", "title": "Errors and plots show the stored solution", "statement": "After set_data, errors and bulk_values evaluate the solution that was stored.", "quantifier": "all states, traces, abscissas", "why_tests_cant": "Needs a call history.", "anchors": ["include/HyperHDG/local_solver/diffusion_parab_ldgh.hxx: errors, bulk_values, set_data", "reproducibles_python/diffusion_convergence_parabolic.py"]}
{"id": "C75", "title": "Every time step has exactly one solution", "statement": "With LocalSolver::DiffusionParab and theta, dt > 0 the global operator of GlobalLoop::Parabolic is symmetric and negative definite on traces that vanish at Dirichlet hypernodes, even without any Dirichlet hypernode; exactly one trace makes all residuals cancel, it solves the system of trace_to_flux and residual_flux(0), and set_data then stores the step on each hyperedge.", "quantifier": "all hypergraphs, geometries, data, theta > 0, dt > 0", "why_tests_cant": "Solvability for all graphs and data cannot be sampled.", "anchors": ["include/HyperHDG/global_loop/parabolic.hxx: trace_to_flux, residual_flux, set_data", "include/HyperHDG/local_solver/diffusion_parab_ldgh.hxx"]}
{"id": "C76", "title": "make_initial stores a consistent start", "statement": "make_initial writes the projections of the initial value (zero on Dirichlet faces) to the traces and stores the projected u with a flux q, the rate and the boundary fluxes, so that the first step is a step of the same scheme; for an initial value of the discrete space q solves the first local equation.", "quantifier": "all hyperedges, data and initial values", "why_tests_cant": "All data.", "anchors": ["include/HyperHDG/local_solver/diffusion_parab_ldgh.hxx: make_initial"]}
{"id": "C77", "title": "Fluxes of the eigenvalue solver", "statement": "For LocalSolver::DiffusionEigs and an eigenvalue candidate that is no eigenvalue of the local problem with zero traces, trace_to_flux gives the numerical fluxes of the local solution with right-hand side eig u, linear and symmetric in the traces; non-positive candidates are always admissible, at most (p+1)^dim values are not, and at these the solver reports the error instead of returning values.", "quantifier": "all hyperedge geometries, coefficients, node types, eigenvalue candidates, traces", "why_tests_cant": "All traces and all real candidates.", "anchors": ["include/HyperHDG/local_solver/diffusion_eigs_ldgh.hxx: trace_to_flux, assemble_loc_matrix, solve_local_problem, numerical_flux_at_boundary"]}
{"id": "C78", "title": "The Jacobian of the eigenvalue solver is the derivative of its fluxes", "statement": "jacobian_of_trace_to_flux(direction, point) is the derivative of trace_to_flux with respect to traces and eigenvalue: the remainder is bounded by a constant times the square of the step, on a hyperedge and in the global loop NonlinearEigenvalue, for every coefficient the parameter class may return.", "quantifier": "all hypergraphs, geometries, coefficients, points, directions and small steps", "why_tests_cant": "A derivative: all small steps.", "anchors": ["include/HyperHDG/local_solver/diffusion_eigs_ldgh.hxx: jacobian_of_trace_to_flux", "include/HyperHDG/global_loop/nonlinear_eigenvalue.hxx: trace_to_flux, jacobian_of_trace_to_flux"]}
{"id": "C79", "title": "Zeros of the residual are discrete eigenpairs", "statement": "A trace that vanishes at Dirichlet hypernodes and an admissible eig have zero residual in NonlinearEigenvalue iff they solve the discrete eigenvalue problem; the eigenvalue is then the Rayleigh quotient, is not negative (positive if every hypernode is joined to a Dirichlet hypernode), eigenfunctions of different eigenvalues are orthogonal and there are at most n_hyEdges (p+1)^dim eigenvalues.", "quantifier": "all hypergraphs, geometries, coefficients, traces, eigenvalues", "why_tests_cant": "All graphs and vectors.", "anchors": ["include/HyperHDG/global_loop/nonlinear_eigenvalue.hxx: trace_to_flux", "include/HyperHDG/local_solver/diffusion_eigs_ldgh.hxx: trace_to_flux"]}
{"id": "C80", "title": "Fluxes of the bilaplacian solver", "statement": "For LocalSolver::Bilaplacian, trace_to_flux gives the numerical fluxes of the two coupled diffusion problems (w from the second half of the traces, u from the first half with source w times the inverse coefficient), the flux of w first; it is linear, vanishes in the halves that belong to boundary conditions, annihilates constant u with w = 0 and conserves fluxes; traces of the wrong size and a failing dgesv end in an assertion.", "quantifier": "all hyperedge geometries, coefficients, node types, tau > 0, traces", "why_tests_cant": "All traces and all data.", "anchors": ["include/HyperHDG/local_solver/bilaplacian_ldgh.hxx: trace_to_flux, assemble_loc_matrix, assemble_rhs_from_lambda, assemble_rhs_from_global_rhs, primal_at_boundary, dual_at_boundary, node_types"]}
{"id": "C81", "title": "The bilaplacian operator is symmetric and definite", "statement": "On traces that vanish where boundary conditions are given, trace_to_flux of Bilaplacian is symmetric and definite, as the conjugate gradient method of the drivers asks for.", "quantifier": "all hyperedges, data and traces", "why_tests_cant": "A bilinear identity and a sign for all traces.", "anchors": ["include/HyperHDG/local_solver/bilaplacian_ldgh.hxx: trace_to_flux", "reproducibles_python/bilaplacian_convergence_elliptic.py"]}
{"id": "C82", "title": "residual_flux of the bilaplacian solver is the affine extension of trace_to_flux", "statement": "residual_flux(x) = trace_to_flux(x) + residual_flux(0), and it gives the numerical fluxes of the local problem with source and boundary values.", "quantifier": "all hyperedges, data and traces", "why_tests_cant": "All traces.", "anchors": ["include/HyperHDG/local_solver/bilaplacian_ldgh.hxx: residual_flux, trace_to_flux"]}
{"id": "C83", "title": "make_initial of the bilaplacian solver writes the projections of the initial values", "statement": "Entry j of face i becomes the integral of the initial value against face function j on face i, the second half that of the initial Laplacian; zero on Dirichlet faces.", "quantifier": "all hyperedges, data, numbers of functions", "why_tests_cant": "The order of two unsigned arguments; needs a non-symmetric example.", "anchors": ["include/HyperHDG/local_solver/bilaplacian_ldgh.hxx: make_initial"]}
{"id": "C84", "title": "Mass fluxes of the bilaplacian solver are the L2 product of local solutions", "statement": "trace_to_mass_flux, tested with a trace that vanishes where boundary conditions are given, is the L2 product of the functions u of the two traces: symmetric and positive semidefinite; total_numerical_flux_mass is the same with source and boundary values.", "quantifier": "all hyperedges, data and traces", "why_tests_cant": "A bilinear identity over all traces and data.", "anchors": ["include/HyperHDG/local_solver/bilaplacian_ldgh.hxx: trace_to_mass_flux, total_numerical_flux_mass, solve_mass_problem"]}
{"id": "C85", "title": "Errors and values of the bilaplacian solver", "statement": "errors, errors_temp and bulk_values evaluate the only solution of the local problem with data; errors_temp that with the difference quotient of two local solutions as additional source.", "quantifier": "all hyperedges, data, traces, step sizes, abscissas", "why_tests_cant": "Holds for all data.", "anchors": ["include/HyperHDG/local_solver/bilaplacian_ldgh.hxx: errors, errors_temp, bulk_values, solve_loc_prob_cor"]}
{"id": "C86", "title": "The global bilaplacian system is uniquely solvable", "statement": "With LocalSolver::Bilaplacian the global operator of GlobalLoop::Elliptic is symmetric on the vectors that vanish where boundary conditions are given, maps into them, and, if every hypernode is joined by hyperedges to hypernodes with boundary conditions, has exactly one solution for every right-hand side, in particular for minus the residual at zero.", "quantifier": "all hypergraphs, geometries, coefficients, sources, boundary values, tau > 0", "why_tests_cant": "Solvability of an indefinite system for all graphs and data.", "anchors": ["include/HyperHDG/global_loop/elliptic.hxx: trace_to_flux, residual_flux", "include/HyperHDG/local_solver/bilaplacian_ldgh.hxx"]}
{"id": "C87", "title": "Local solver of the uniform bilaplacian", "statement": "BilaplacianUniform computes the fluxes of the only solution of two coupled HDG problems; it is linear; the second half of its fluxes is what DiffusionUniform computes, the first one too if no trace of the Laplacian is given; the fluxes of the Laplacian sum up to zero and those of u to the integral of the Laplacian; the operator is symmetric after exchanging the halves of the result, which the class, unlike Bilaplacian, does not do; bulk_values shows that solution; wrong sizes and failures of LAPACK end in an assertion.", "quantifier": "all dimensions, polynomial degrees, tau > 0, traces", "why_tests_cant": "Holds for all degrees, dimensions and traces.", "anchors": ["include/HyperHDG/local_solver/bilaplacian_uniform_ldgh.hxx: BilaplacianUniform"]}
{"id": "C88", "title": "Time steps of the advection solver", "statement": "For LocalSolver::AdvectionParab, trace_to_flux is linear and gives theta times the upwind fluxes of the implicit part of a step, residual_flux is its affine extension with the stored state, both vanish where values are given; set_data stores the theta step with its rate and fluxes, so that consecutive calls are the theta scheme with the data of both times, also for the fluxes; a state whose rate vanishes is kept; make_initial stores a consistent start; errors and bulk_values show what is stored; traces of the wrong size and a failing dgesv end in an assertion.", "quantifier": "all hyperedges, velocities without divergence, sources, given values, tau >= 0, theta dt >= 0, traces, stored states", "why_tests_cant": "All traces, states, step sizes and chains of calls.", "anchors": ["include/HyperHDG/local_solver/advection_parab_ldgh.hxx: trace_to_flux, residual_flux, set_data, make_initial, errors, bulk_values"]}
{"id": "C89", "title": "Advection conserves mass and constants", "statement": "In a step the integral of u over a hyperedge changes by sources minus the fluxes through its faces; over the hypergraph it changes by sources minus what passes the boundary, inner hypernodes adding nothing, whatever the winds there are; a constant with matching inflow values and wind that is conserved at the hypernodes is reproduced by a step.", "quantifier": "all hypergraphs, velocities, data, theta, step sizes, states that steps leave", "why_tests_cant": "A balance over all hyperedges of any graph.", "anchors": ["include/HyperHDG/local_solver/advection_parab_ldgh.hxx: residual_flux, set_data", "include/HyperHDG/global_loop/parabolic.hxx: residual_flux, set_data"]}
{"id": "C90", "title": "Every boundary face is either inflow or outflow", "statement": "A face whose node type is listed in boundary_nodes only is treated as inflow or as outflow, never as both or neither, according to the sign of the wind at its centre; types in dirichlet_nodes and outflow_nodes are as listed, all others inner.", "quantifier": "all faces, node types, lists, winds", "why_tests_cant": "All lists and real winds, in particular zero wind.", "anchors": ["include/HyperHDG/local_solver/advection_parab_ldgh.hxx: is_dirichlet, is_outflow"]}
{"id": "C91", "title": "The global matrix of the advection solver is regular", "statement": "Apart from hypernodes where values are given, trace_to_flux of GlobalLoop::Parabolic with AdvectionParab determines all entries of the trace, also with tau = 0.", "quantifier": "all hypergraphs and winds, tau = 0", "why_tests_cant": "Solvability for all graphs.", "anchors": ["include/HyperHDG/local_solver/advection_parab_ldgh.hxx: flux_at_boundary, trace_to_flux, is_outflow", "include/HyperHDG/global_loop/parabolic.hxx: trace_to_flux"]}
{"id": "C92", "title": "Upwind time stepping on hypergraphs is solvable and stable", "statement": "With tau = 0, wind conserved at inner hypernodes, leaving at free outflow and not vanishing on inner hypernodes, each step has a solution that is unique apart from hypernodes with free outflow; without sources and inflow values the L2 norm of u never grows for theta at least 1/2, over any number of steps.", "quantifier": "all hypergraphs, winds, theta, step sizes, states, numbers of steps", "why_tests_cant": "Stability is about runs of any length, step size and graph.", "anchors": ["include/HyperHDG/local_solver/advection_parab_ldgh.hxx: residual_flux, set_data, trace_to_flux", "include/HyperHDG/global_loop/parabolic.hxx: residual_flux, set_data"]}
{"id": "C93", "title": "Local problem of a beam", "statement": "For LocalSolver::TimoshenkoBeam, trace_to_flux gives the fluxes of the only solution of the discrete Timoshenko equations of a beam in the frame of that beam, turned back to space, and residual_flux the same with loads and given values; both add to what the output holds, report nothing where values are given, and are linear and affine; errors and bulk_values show that solution; wrong sizes and failures of LAPACK end in an assertion, extra data with fewer than twelve numbers are read beyond their end.", "quantifier": "all polynomial degrees, beams, frames, constants > 0, tau > 0, loads, traces", "why_tests_cant": "Holds for all degrees, frames, constants and traces.", "anchors": ["include/HyperHDG/local_solver/timoshenko_network.hxx: trace_to_flux, residual_flux, errors, bulk_values, assemble_loc_matrix, assemble_rhs_from_lambda, assemble_rhs_from_global_rhs"]}
{"id": "C94", "title": "The operator of a beam is symmetric and its energy is the strain energy", "statement": "trace_to_flux of TimoshenkoBeam is symmetric; the work of its fluxes is minus the energy of the solution, hence never positive, and zero for rigid motions of the beam only.", "quantifier": "all beams, frames, traces that vanish where values are given", "why_tests_cant": "A statement about all pairs of traces.", "anchors": ["include/HyperHDG/local_solver/timoshenko_network.hxx: trace_to_flux"]}
{"id": "C95", "title": "Beams do not resist rigid motions and are in equilibrium", "statement": "Rigid motions of a beam produce no fluxes, the forces and moments at its ends are in equilibrium with the load, and this is so with one rule for the sign of the rotations for all beams of a network read from file.", "quantifier": "all beams, frames, traces, rigid motions; all geometries with mapping from file", "why_tests_cant": "All motions and all QR decompositions of tangents.", "anchors": ["include/HyperHDG/local_solver/timoshenko_network.hxx: trace_to_flux, node_to_edge? edge_dof_coeffs, residual_flux", "include/HyperHDG/mapping/linear.hxx: Linear, inner_normal, outer_normal"]}
{"id": "C96", "title": "Structural constants follow the axes of the section", "statement": "The stiffness of a beam whose section is described by extra data is the given one in the direction of the given normals.", "quantifier": "all frames and sections with the tangent of the beam", "why_tests_cant": "All orientations of frames against sections.", "anchors": ["include/HyperHDG/local_solver/timoshenko_network.hxx: TimoshenkoBeam (use of extra data)"]}
{"id": "C97", "title": "Networks of beams", "statement": "The global system of a network of beams is symmetric, and if every node is joined to a clamped one it is definite and uniquely solvable, and the residual vanishes for exactly one displacement; in a network whose frames have one hand rigid motions are not resisted, nodal forces sum up to the loads, the fluxes do no work in rigid motions, and only rigid motions of a connected free network have no fluxes.", "quantifier": "all graphs, beams, frames, node types, displacements", "why_tests_cant": "Solvability and equilibrium of every network.", "anchors": ["include/HyperHDG/local_solver/timoshenko_network.hxx: trace_to_flux, residual_flux", "include/HyperHDG/global_loop/elliptic.hxx: trace_to_flux, residual_flux"]}
{"id": "C98", "title": "Local problem of DiffusionAdvectionReaction", "statement": "For LocalSolver::DiffusionAdvectionReaction, trace_to_flux gives the numerical fluxes of the only solution of the discrete diffusion-advection-reaction problem on a hyperedge whenever that problem is regular, residual_flux the same with source and Dirichlet values, trace_to_mass_flux and total_numerical_flux_mass those of the problem with that solution as source; they are linear and affine, report nothing on Dirichlet faces, and end in an assertion for wrong sizes, failures of LAPACK and singular local problems.", "quantifier": "all dimensions, polynomial degrees, tau, coefficients, sources, traces, times", "why_tests_cant": "Holds for all degrees, coefficients and traces.", "anchors": ["include/HyperHDG/local_solver/diffusion_advection_reaction_ldg.hxx: assemble_loc_matrix, solve_local_problem, trace_to_flux, residual_flux, trace_to_mass_flux, total_numerical_flux_mass"]}
{"id": "C99", "title": "When advection and reaction leave the local problem stable", "statement": "The local problem is regular, and the work of the fluxes on the traces is bounded by half of what the wind carries out of the hyperedge with equality for constants only, if at each point the square of the velocity is less than four times diffusion times reaction, or if the wind is constant in the hyperedge, there is no production and tau exceeds half of the inflow per area.", "quantifier": "all dimensions, degrees, coefficients, geometries, traces", "why_tests_cant": "A statement about all coefficients and all traces.", "anchors": ["include/HyperHDG/local_solver/diffusion_advection_reaction_ldg.hxx: assemble_loc_matrix, trace_to_flux"]}
{"id": "C100", "title": "Balance of a hyperedge with reaction", "statement": "What leaves a hyperedge through its faces is what the source brings minus what the reaction takes, whatever the traces and the velocity.", "quantifier": "all dimensions, degrees, coefficients, traces, times", "why_tests_cant": "Conservation for every trace and coefficient.", "anchors": ["include/HyperHDG/local_solver/diffusion_advection_reaction_ldg.hxx: residual_flux"]}
{"id": "C101", "title": "The global diffusion-advection-reaction system is uniquely solvable", "statement": "If each hyperedge is stable as in C99, the winds do not bring more to a free hypernode than they take away, and every hypernode is connected to a Dirichlet node or to a hyperedge with reaction, then the global operator is definite, every right-hand side has one solution and the residual vanishes for exactly one vector.", "quantifier": "all hypergraphs, dimensions, degrees, coefficients, node types", "why_tests_cant": "Solvability of every such system.", "anchors": ["include/HyperHDG/local_solver/diffusion_advection_reaction_ldg.hxx: trace_to_flux, residual_flux", "include/HyperHDG/global_loop/elliptic.hxx: trace_to_flux, residual_flux"]}
{"id": "C102", "title": "DiffusionAdvectionReaction evaluates and post-processes the problem at the time it is given", "statement": "errors, errors_temp and bulk_values show the solution of the local problem at the given time; all coefficients, the velocity included, are taken at that time; without velocity and reaction the fluxes are those of Diffusion.", "quantifier": "all times, coefficients, traces", "why_tests_cant": "All coefficients that depend on time.", "anchors": ["include/HyperHDG/local_solver/diffusion_advection_reaction_ldg.hxx: assemble_loc_matrix, errors, errors_temp, bulk_values"]}
{"id": "C103", "title": "The operator of DiffusionAdvectionReaction is symmetric", "statement": "trace_to_flux is symmetric, as the CG iteration that the driver of the convergence test starts with assumes.", "quantifier": "all coefficients and traces", "why_tests_cant": "A statement about all pairs of traces.", "anchors": ["include/HyperHDG/local_solver/diffusion_advection_reaction_ldg.hxx: trace_to_flux", "reproducibles_python/advection_diffusion_reaction_convergence_elliptic.py"]}
{"id": "C104", "title": "DiffusionPostprocess measures the error of the post-processed solution", "statement": "LocalSolver::DiffusionPostprocess has the fluxes of Diffusion; its errors measures the error of the only polynomial of degree p+1 that has the mean of the local solution and whose diffusive flux has the same work on gradients as the local flux. Wrong sizes end in an assertion; a failure of LAPACK in the post-processing leaves the function as an exception.", "quantifier": "all dimensions, degrees, coefficients, sources, traces, times", "why_tests_cant": "Unique solvability for all degrees, coefficients and geometries.", "anchors": ["include/HyperHDG/local_solver/diffusion_ldgh_pp.hxx: errors, trace_to_flux, residual_flux"]}
{"id": "C105", "title": "What the post-processing of DiffusionPostprocess preserves", "statement": "The post-processed solution has the mean of the local solution, its flux tests with the gradients of all polynomials of degree p+1 as the flux of the local problem does, it is the polynomial w up to a constant if that flux is the flux of w, and constants are reproduced.", "quantifier": "all dimensions, degrees, coefficients, fluxes, polynomials", "why_tests_cant": "Exactness for all polynomials of degree p+1.", "anchors": ["include/HyperHDG/local_solver/diffusion_ldgh_pp.hxx: errors"]}
{"id": "C106", "title": "The local problem of DiffusionIP", "statement": "LocalSolver::DiffusionIP solves the interior penalty equations: the returned fluxes are minus the normal derivative plus tau times the jump to the trace, tested with the face functions, nothing on Dirichlet faces; they depend linearly (affinely with source and boundary values) on the traces; errors and bulk values belong to the same solution. Wrong sizes, a failing LAPACK and a singular matrix end in an assertion.", "quantifier": "all dimensions, degrees, coefficients, penalties, sources, traces, times", "why_tests_cant": "The equations hold for all data, tested with all functions.", "anchors": ["include/HyperHDG/local_solver/diffusion_ip.hxx: trace_to_flux, residual_flux, errors, bulk_values, node_types"]}
{"id": "C107", "title": "Stability of DiffusionIP", "statement": "There is a bound, depending on the hyperedge and its coefficient, such that every penalty above it makes the local problem solvable and the operator dissipative, with only constants dissipating nothing; an energy identity holds. A positive penalty below the bound may make the local matrix singular.", "quantifier": "all dimensions, degrees, coefficients, geometries, traces", "why_tests_cant": "Definiteness for all traces and existence of the bound for all data.", "anchors": ["include/HyperHDG/local_solver/diffusion_ip.hxx: assemble_loc_matrix, trace_to_flux"]}
{"id": "C108", "title": "Conservation of DiffusionIP", "statement": "The fluxes of a hyperedge add up to the integral of its source, with what passes the Dirichlet faces taken into account; constant traces have no flux.", "quantifier": "all dimensions, degrees, coefficients, penalties, sources, traces", "why_tests_cant": "An exact balance for all data.", "anchors": ["include/HyperHDG/local_solver/diffusion_ip.hxx: trace_to_flux, residual_flux"]}
{"id": "C109", "title": "DiffusionIP reproduces affine functions", "statement": "From the traces of an affine function, and a coefficient constant in space, DiffusionIP recovers the function and its exact fluxes, at every time.", "quantifier": "all dimensions, degrees, coefficients, affine functions, times", "why_tests_cant": "Exactness for a whole space of functions and all times.", "anchors": ["include/HyperHDG/local_solver/diffusion_ip.hxx: assemble_loc_matrix, dual_at_boundary"]}
{"id": "C110", "title": "The operator of DiffusionIP is symmetric", "statement": "The matrix that conjugate gradients are applied to is symmetric: the work of the fluxes of one trace on another is the same with the two exchanged.", "quantifier": "all pairs of traces, dimensions, degrees, penalties", "why_tests_cant": "Symmetry is a statement about all pairs of traces.", "anchors": ["include/HyperHDG/local_solver/diffusion_ip.hxx: trace_to_flux", "reproducibles_python/diffusion_convergence_elliptic_ip.py"]}
{"id": "C111", "title": "The global system of DiffusionIP has one solution", "statement": "If each penalty exceeds its bound and every hypernode is connected to a Dirichlet node, the global operator is definite, and each right-hand side and each set of data has exactly one solution.", "quantifier": "all hypergraphs, dimensions, degrees, data", "why_tests_cant": "Solvability for all hypergraphs.", "anchors": ["include/HyperHDG/local_solver/diffusion_ip.hxx: trace_to_flux, residual_flux", "include/HyperHDG/global_loop/elliptic.hxx: trace_to_flux, residual_flux"]}
{"id": "C112", "title": "The local problem of BilaplacianParab", "statement": "The fluxes of LocalSolver::BilaplacianParab::trace_to_flux are those of one implicit step without data of the two coupled equations; they exist for every trace, depend linearly on it, vanish where boundary values are given, form a symmetric operator with a definite energy, and depend on theta and the time step by their product only. Arrays of the wrong size and a failure of LAPACK end the program.", "quantifier": "all dimensions, degrees, coefficients, traces, time steps, theta", "why_tests_cant": "Existence and symmetry for all traces and data.", "anchors": ["include/HyperHDG/local_solver/bilaplacian_parab_ldgh.hxx: assemble_loc_matrix, solve_local_problem, trace_to_flux"]}
{"id": "C113", "title": "Data and stored state of BilaplacianParab", "statement": "trace_to_flux plus residual_flux at zero is the step of the theta scheme from the stored function; set_data stores that step, make_initial the initial value, errors and bulk values show the stored function; stationary solutions are kept.", "quantifier": "all dimensions, degrees, data, traces, stored states, time steps, theta", "why_tests_cant": "Relations between several functions for all states.", "anchors": ["include/HyperHDG/local_solver/bilaplacian_parab_ldgh.hxx: residual_flux, set_data, make_initial, errors, bulk_values, assemble_rhs_from_global_rhs, assemble_rhs_from_coeffs"]}
{"id": "C114", "title": "Global time steps of BilaplacianParab", "statement": "On every hypergraph the system of a step is symmetric, has exactly one solution, and without data a step does not increase the mass norm of u, with an exact energy balance.", "quantifier": "all hypergraphs, dimensions, degrees, data, stored states, time steps", "why_tests_cant": "Solvability and stability for all hypergraphs and states.", "anchors": ["include/HyperHDG/local_solver/bilaplacian_parab_ldgh.hxx: trace_to_flux, residual_flux, set_data", "reproducibles_python/bilaplacian_convergence_parabolic.py"]}
{"id": "C115", "title": "Fluxes of BilaplacianEigs", "statement": "For LocalSolver::BilaplacianEigs and a candidate eig that is no eigenvalue of the local problem with zero traces, trace_to_flux gives the fluxes of the two coupled local problems with source eig u for w, linear and symmetric in the traces, with an exact energy identity; candidates that are not positive are admissible, at most (p+1)^dim values are not, and at these the solver stops. At eig = 0 it is Bilaplacian.", "quantifier": "all dimensions, degrees, coefficients, node types, candidates, traces", "why_tests_cant": "All traces and all real candidates.", "anchors": ["include/HyperHDG/local_solver/bilaplacian_eigs_ldgh.hxx: assemble_loc_matrix, solve_local_problem, trace_to_flux, make_initial, bulk_values, node_types"]}
{"id": "C116", "title": "The Jacobian of BilaplacianEigs is the derivative of its fluxes", "statement": "jacobian_of_trace_to_flux is the derivative of trace_to_flux with respect to traces and eigenvalue, with a remainder bounded by a constant times the square of the step, on a hyperedge and in the global loop NonlinearEigenvalue, for every coefficient the parameter class may return.", "quantifier": "all hypergraphs, dimensions, degrees, coefficients, points, directions and small steps", "why_tests_cant": "A derivative: all small steps.", "anchors": ["include/HyperHDG/local_solver/bilaplacian_eigs_ldgh.hxx: jacobian_of_trace_to_flux", "include/HyperHDG/global_loop/nonlinear_eigenvalue.hxx: trace_to_flux, jacobian_of_trace_to_flux"]}
{"id": "C117", "title": "Discrete eigenpairs of the bilaplacian", "statement": "The zeros of the residual of NonlinearEigenvalue with BilaplacianEigs are the discrete eigenpairs; the eigenvalue is a Rayleigh quotient; eigenfunctions of different eigenvalues are orthogonal. If u and w are given at the same hypernodes, eigenvalues are not negative (positive if every hypernode is joined to one with given values), there are at most n_hyEdges (p+1)^dim of them, and for coefficient one they are exactly the squares of those of DiffusionEigs.", "quantifier": "all hypergraphs, dimensions, degrees, coefficients, traces, eigenvalues", "why_tests_cant": "All graphs and vectors.", "anchors": ["include/HyperHDG/local_solver/bilaplacian_eigs_ldgh.hxx: trace_to_flux", "include/HyperHDG/global_loop/nonlinear_eigenvalue.hxx: trace_to_flux"]}
{"id": "C118", "title": "Index lists of the eigenvalue drivers", "statement": "helper_ev_approx accepts the list returned by dirichlet_indices(); its two index lists number the free unknowns in increasing order. long_vector fills zeros at the constrained unknowns, short_vector drops them, the two are inverse to each other on vectors that vanish there, and they are adjoint. Any list of constrained unknowns is treated correctly, also one with duplicates or in another order.", "quantifier": "all numbers of unknowns, all lists of constrained unknowns, all vectors", "why_tests_cant": "All sizes and lists.", "anchors": ["reproducibles_python/diffusion_convergence_eigenvalue_approx.py: helper_ev_approx.__init__, long_vector, short_vector", "include/HyperHDG/global_loop/elliptic.hxx: dirichlet_indices"]}
{"id": "C119", "title": "Operators of the eigenvalue drivers on the free unknowns", "statement": "multiply_stiff, multiply_mass and shifted_mult of helper_ev_approx are the negative flux operator, the mass operator and stiffness minus sigma times mass restricted to the free unknowns; symmetry and definiteness carry over; their eigenpairs are those of the full problem. With shifted inverse, sigma is an eigenvalue of the reduced operators if and only if it is a discrete eigenvalue of DiffusionEigs or BilaplacianEigs; only unknowns with given values are removed.", "quantifier": "all hypergraphs, dimensions, degrees, coefficients, vectors, shifts", "why_tests_cant": "All graphs and vectors.", "anchors": ["reproducibles_python/diffusion_convergence_eigenvalue_approx.py: multiply_stiff, multiply_mass, shifted_mult", "reproducibles_python/diffusion_convergence_eigenvalue_shifted_inverse.py: multiply_stiff, shifted_mult, multiply_mass", "reproducibles_python/bilaplacian_convergence_eigenvalue_shifted_inverse.py"]}
{"id": "C120", "title": "The nonlinear system of the Newton eigenvalue drivers", "statement": "The zeros of eval_residual of helper_ev_newt are the discrete eigenpairs with normalised trace, and eval_jacobian is the derivative of eval_residual in traces and eigenvalue, for DiffusionEigs and BilaplacianEigs. A start vector given by another driver is normalised without changing its eigenvalue.", "quantifier": "all hypergraphs, dimensions, degrees, coefficients independent of time, points, directions and small steps", "why_tests_cant": "A derivative: all small steps.", "anchors": ["reproducibles_python/diffusion_convergence_eigenvalue_newt.py: helper_ev_newt.eval_residual, eval_jacobian", "reproducibles_python/bilaplacian_convergence_eigenvalue_newt.py: helper_ev_newt"]}
{"id": "C121", "title": "The damped Newton method of the eigenvalue drivers", "statement": "Every result of the driver has a residual norm below 1e-9, reached in at most ten steps of decreasing residual; the line search ends; what every step keeps holds for the result; an exact full step is accepted. If GMRES does not converge, BiCGStab is tried.", "quantifier": "all residuals, norms, linear solvers and start vectors", "why_tests_cant": "All functions and executions.", "anchors": ["reproducibles_python/diffusion_convergence_eigenvalue_newt.py: eigenvalue_newt"]}
{"id": "C122", "title": "The parameter classes of the convergence tests solve their equations", "statement": "For every parameter class of reproducibles_python/parameters with an analytic_result, this function is a classical solution of the equation of its local solver with the right-hand side, coefficient, velocity, reaction rate and second unknown of the class, on every hyperedge, for all points and times; boundary and start values are those of the solution.", "quantifier": "all points, times, space dimensions, hyperedge dimensions and positions of flat hyperedges in space", "why_tests_cant": "Derivatives at all points; a test only sees the decay of an error.", "anchors": ["reproducibles_python/parameters/diffusion.hxx: TestParametersSinEllipt, HG::TestParametersQuadEllipt, HG::TestParametersQuadElliptHO, TestParametersSinParab", "reproducibles_python/parameters/bilaplacian.hxx: TestParametersSinEllipt, HG::TestParametersQuadEllipt, TestParametersSinParab", "reproducibles_python/parameters/advection.hxx: TestParametersSinParab", "reproducibles_python/parameters/diffusion_advection_reaction.hxx: TestParametersSinEllipt, HG::TestParametersQuadEllipt"]}
{"id": "C123", "title": "The time loops of the parabolic drivers", "statement": "The drivers for DiffusionParab, AdvectionParab and BilaplacianParab make successive steps of the scheme: each step starts from the data stored by the step before, uses sources and boundary values at its own time and solves the system of that step; the two orders of calling set_data agree apart from the last call; the reported errors belong to the function of the last step.", "quantifier": "all numbers of steps, solvers that return solutions, wrapped classes; for DiffusionParab, AdvectionParab and BilaplacianParab all hypergraphs, dimensions, degrees and data with a coefficient or velocity independent of time", "why_tests_cant": "Induction over any number of steps, and the interplay of three stored states.", "anchors": ["reproducibles_python/diffusion_convergence_parabolic.py: diffusion_test", "reproducibles_python/bilaplacian_convergence_parabolic.py: bilaplacian_test", "reproducibles_python/advection_convergence_parabolic.py: diffusion_test", "include/HyperHDG/global_loop/parabolic.hxx: trace_to_flux, residual_flux, set_data, errors"]}
