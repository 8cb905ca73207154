{
 "claims": [
  {
   "property": "C01",
   "status": "proved",
   "theorems": [
    "C01_in_range",
    "C01_checked",
    "C01_every_place_used",
    "C01_write_read",
    "C01_write_keeps_size",
    "C01_get_column",
    "C01_set_column"
   ],
   "note": ""
  },
  {
   "property": "C02",
   "status": "proved",
   "theorems": [
    "C02_add",
    "C02_add_vector_right",
    "C02_add_vector_left",
    "C02_sub",
    "C02_sub_vector_right",
    "C02_sub_vector_left",
    "C02_add_in_place",
    "C02_sub_in_place",
    "C02_add_vector_in_place",
    "C02_sub_vector_in_place",
    "C02_add_scalar",
    "C02_sub_scalar",
    "C02_scalar_sub",
    "C02_hadamard",
    "C02_equality",
    "C02_inequality",
    "C02_mul_scalar",
    "C02_div_scalar",
    "C02_scalar_div",
    "C02_scalar_div_zero",
    "C02_hadamard_div",
    "C02_hadamard_div_zero"
   ],
   "note": "exact arithmetic over any ring / field"
  },
  {
   "property": "C03",
   "status": "proved",
   "theorems": [
    "C03_product",
    "C03_transposed_product",
    "C03_transposed",
    "C03_dyadic",
    "C03_identity",
    "C03_diagonal",
    "C03_repeated",
    "C03_scalar_product",
    "C03_unfit_product",
    "C03_cross_product",
    "C03_norm_1_matrix",
    "C03_norm_infty_matrix",
    "C03_norm_1_vector",
    "C03_norm_infty_vector",
    "C03_norm_2"
   ],
   "note": "exact arithmetic over any ring; includes the norms"
  },
  {
   "property": "C04",
   "status": "partial",
   "theorems": [
    "C04_actual_value",
    "C04_refuted",
    "C04_partial"
   ],
   "note": "REFUTED: the function returns (B*A)^T. C04_refuted gives a 2x2 witness, C04_actual_value the exact result; C04_partial holds for symmetric A."
  },
  {
   "property": "C05",
   "status": "proved",
   "theorems": [
    "C05_meaning",
    "C05_irreflexive",
    "C05_transitive",
    "C05_trichotomy"
   ],
   "note": ""
  },
  {
   "property": "C06",
   "status": "partial",
   "theorems": [
    "C06_scalar",
    "C06_hadamard_refuted",
    "C06_hadamard_partial"
   ],
   "note": "REFUTED for entry-wise division (C06_hadamard_refuted): entries before the first zero divisor are already overwritten when the exception is raised. Proved for division by a scalar."
  },
  {
   "property": "C07",
   "status": "partial",
   "theorems": [
    "C07_factors",
    "C07_failure",
    "C07_q_only",
    "C07_documented_mat_refuted"
   ],
   "note": "Proved (C07_factors) for every shape and LAPACK result when R fits (r_fits) and R starts clean; shapes where the R extraction is wrong are excluded (see C10). The documented value of the first argument after the call is refuted (C07_documented_mat_refuted)."
  },
  {
   "property": "C08",
   "status": "partial",
   "theorems": [
    "C08_refuted",
    "C08_square_value"
   ],
   "note": "REFUTED: C08_refuted (A=(3,4)^T with LAPACK's actual output). The exact determinant is the last conjunct of C07_factors; for square matrices with n-1 reflections it is -1."
  },
  {
   "property": "C09",
   "status": "partial",
   "theorems": [
    "C09_refuted",
    "C09_partial",
    "C09_rectangular"
   ],
   "note": "REFUTED: wrong sign, C09_refuted (2x2). C09_partial gives the exact value; C09_rectangular the square."
  },
  {
   "property": "C10",
   "status": "partial",
   "theorems": [
    "C10_stale_refuted",
    "C10_bounds_refuted",
    "C10_bounds_exact",
    "C10_partial",
    "C10_in_place"
   ],
   "note": "REFUTED: stale entries (C10_stale_refuted, 4x3) and out-of-bounds write (C10_bounds_refuted, 7x3). C10_bounds_exact/C10_partial describe all shapes."
  },
  {
   "property": "C11",
   "status": "partial",
   "theorems": [
    "C11_const",
    "C11_unique",
    "C11_non_const_refuted",
    "C11_non_const_partial"
   ],
   "note": "Proved for constant operands (C11_const). REFUTED for non-constant operands: C11_non_const_refuted (operands are overwritten)."
  },
  {
   "property": "C12",
   "status": "proved",
   "theorems": [
    "C12_decompose",
    "C12_onto",
    "C12_reject",
    "C12_points_onto",
    "C12_points_once",
    "C12_pow"
   ],
   "note": ""
  },
  {
   "property": "C13",
   "status": "proved",
   "theorems": [
    "C13_cover",
    "C13_inverse",
    "C13_disjoint",
    "C13_block",
    "C13_outside"
   ],
   "note": "unbounded indices; C15 covers word size"
  },
  {
   "property": "C14",
   "status": "proved",
   "theorems": [
    "C14_get",
    "C14_set_get",
    "C14_set_frame",
    "C14_set_const",
    "C14_add_frame",
    "C14_in_range",
    "C14_reject"
   ],
   "note": "debug build (assertions on)"
  },
  {
   "property": "C15",
   "status": "proved",
   "theorems": [
    "C15_distinct",
    "C15_collision",
    "C15_exact",
    "C15_check_wraps"
   ],
   "note": "for every word size W; W = 2^32 for unsigned int. C15_check_wraps additionally shows the range check wraps."
  },
  {
   "property": "C16",
   "status": "proved",
   "theorems": [
    "C16_dense",
    "C16_onto"
   ],
   "note": "TPCC enumeration by contract (S_Topology.tpcc_spec), shown satisfiable"
  },
  {
   "property": "C17",
   "status": "proved",
   "theorems": [
    "C17_points",
    "C17_barycenter",
    "C17_cells"
   ],
   "note": "cells of the refined grid (C17_cells), sets of physical points (C17_points) and face barycenters (C17_barycenter)"
  },
  {
   "property": "C18",
   "status": "proved",
   "theorems": [
    "C18_path",
    "C18_share"
   ],
   "note": "order of the parts within an edge left to TPCC; C18_share covers any dimension"
  },
  {
   "property": "C19",
   "status": "proved",
   "theorems": [
    "C19_last_level",
    "C19_agree",
    "C19_late_construction",
    "C19_file"
   ],
   "note": "topology, geometry, node descriptor, node factory and data container sizes"
  },
  {
   "property": "C20",
   "status": "partial",
   "theorems": [
    "C20_refuted",
    "C20_partial",
    "C20_types",
    "C20_shared",
    "C20_codes"
   ],
   "note": "REFUTED as stated (faces created inside a hyperedge lying in a boundary plane get type 0); proved for hyperedges of full dimension and for unrefined hypergraphs, general description in C20_types"
  },
  {
   "property": "C21",
   "status": "proved",
   "theorems": [
    "C21_map",
    "C21_disjoint",
    "C21_cover",
    "C21_size",
    "C21_corners",
    "C21_volume",
    "C21_file_map",
    "C21_file_cover",
    "C21_file_disjoint"
   ],
   "note": "unit cube geometry, and also parts of hyperedges read from file (nondegenerate ones for disjointness); exact arithmetic"
  },
  {
   "property": "C22",
   "status": "proved",
   "theorems": [
    "C22_local",
    "C22_inner",
    "C22_opposite",
    "C22_total",
    "C22_sum",
    "C22_file",
    "C22_file_barycenter"
   ],
   "note": "unit cube: local and inner normals; file geometry: local normals of nondegenerate hyperedges, given the LAPACK contract"
  },
  {
   "property": "C23",
   "status": "proved",
   "theorems": [
    "C23_area",
    "C23_face_area",
    "C23_on_coarse",
    "C23_file_area",
    "C23_file_part",
    "C23_file_face",
    "C23_gram"
   ],
   "note": "unit cube, and file geometry given the LAPACK contract and r_fits"
  },
  {
   "property": "C24",
   "status": "proved",
   "theorems": [
    "C24_inverse",
    "C24_affine"
   ],
   "note": "given the contract of dgesv"
  },
  {
   "property": "C25",
   "status": "proved",
   "theorems": [
    "C25_pairs",
    "C25_listed",
    "C25_all",
    "C25_duplicates",
    "C25_empty"
   ],
   "note": "exact arithmetic; points sorted by std::sort; C25_all: in a connected set every close pair is listed exactly once; duplicates abort (C25_duplicates), an empty file is undefined behaviour (C25_empty)"
  },
  {
   "property": "C26",
   "status": "proved",
   "theorems": [
    "C26_visits",
    "C26_accepts",
    "C26_rejects",
    "C26_order"
   ],
   "note": "the list of expanded points has no repetition (C26_visits); connectedness is independent of the order (C26_order); in a build without assertions the final check is absent (C26_accepts with asserts = false)"
  },
  {
   "property": "C27",
   "status": "proved",
   "theorems": [
    "C27_read_back",
    "C27_points",
    "C27_domain",
    "C27_types"
   ],
   "note": "reading and writing of floating point numbers by contract float_text (satisfiable: C27_example); file without pairs, or points that coincide after rounding, fail an assertion (C27_domain); types of faces are the hypernode numbers (C27_types)"
  },
  {
   "property": "C28",
   "status": "partial",
   "theorems": [
    "C28_debug",
    "C28_debug_only",
    "C28_debug_abort",
    "C28_ndebug",
    "C28_refuted",
    "C28_read",
    "C28_sized",
    "C28_graph"
   ],
   "note": "REFUTED for builds without assertions (C28_refuted, C28_ndebug: out of range indices are accepted); proved for builds with assertions: C28_debug, C28_debug_only, C28_debug_abort, C28_read"
  },
  {
   "property": "C29",
   "status": "proved",
   "theorems": [
    "C29_inner_product",
    "C29_symmetric",
    "C29_bilinear",
    "C29_positive",
    "C29_norm",
    "C29_linear_combination",
    "C29_aliasing",
    "C29_mismatch"
   ],
   "note": "exact arithmetic over any ordered field; aliasing expressed with named vectors"
  },
  {
   "property": "C30",
   "status": "proved",
   "theorems": [
    "C30_residual"
   ],
   "note": "exact arithmetic; a zero divisor is modelled as non-convergence"
  },
  {
   "property": "C31",
   "status": "proved",
   "theorems": [
    "C31_returns",
    "C31_spd",
    "C31_steps"
   ],
   "note": "exact arithmetic"
  },
  {
   "property": "C32",
   "status": "partial",
   "theorems": [
    "C32_refuted",
    "C32_zero_tolerance"
   ],
   "note": "REFUTED: C32_refuted (by-value parameter), C32_zero_tolerance (tolerance 0 never succeeds, even for b = 0). C31_steps bounds the internal count."
  },
  {
   "property": "C33",
   "status": "proved",
   "theorems": [
    "C33_linear"
   ],
   "note": "for any local solver that computes a linear map; exact arithmetic"
  },
  {
   "property": "C34",
   "status": "proved",
   "theorems": [
    "C34_order"
   ],
   "note": "exact arithmetic"
  },
  {
   "property": "C35",
   "status": "proved",
   "theorems": [
    "C35_matrix",
    "C35_one_matrix"
   ],
   "note": "exact arithmetic"
  },
  {
   "property": "C36",
   "status": "partial",
   "theorems": [
    "C36_refuted",
    "C36_partial"
   ],
   "note": "REFUTED: C36_refuted. trace_to_flux_mat ignores the Dirichlet indices; C36_partial gives the exact relation."
  },
  {
   "property": "C37",
   "status": "proved",
   "theorems": [
    "C37_rows",
    "C37_order",
    "C37_out_of_range"
   ],
   "note": ""
  },
  {
   "property": "C38",
   "status": "partial",
   "theorems": [
    "C38_accumulated_refuted",
    "C38_kept_refuted",
    "C38_actual",
    "C38_partial"
   ],
   "note": "REFUTED: C38_accumulated_refuted (dirichlet_indices() keeps stale indices), C38_kept_refuted (Elliptic keeps old indices), C38_actual (they can end the next call). C38_partial: correct without refinement in between."
  },
  {
   "property": "C39",
   "status": "proved",
   "theorems": [
    "C39_symmetric",
    "C39_nonpositive"
   ],
   "note": "on vectors vanishing at the Dirichlet dofs"
  },
  {
   "property": "C40",
   "status": "proved",
   "theorems": [
    "C40_affine"
   ],
   "note": ""
  },
  {
   "property": "C41",
   "status": "proved",
   "theorems": [
    "C41_sum",
    "C41_order",
    "C41_zero"
   ],
   "note": "square root abstracted to a function with sqrt a = 0 iff a = 0"
  },
  {
   "property": "C42",
   "status": "partial",
   "theorems": [
    "C42_refuted",
    "C42_partial"
   ],
   "note": "REFUTED: C42_refuted (time 5/2 becomes 2). C42_partial: correct values at shared hypernodes for the converted time."
  },
  {
   "property": "C43",
   "status": "proved",
   "theorems": [
    "C43_set_data"
   ],
   "note": ""
  },
  {
   "property": "C44",
   "status": "proved",
   "theorems": [
    "C44_iteration"
   ],
   "note": ""
  },
  {
   "property": "C45",
   "status": "proved",
   "theorems": [
    "C45_flux",
    "C45_linear",
    "C45_symmetric",
    "C45_negative",
    "C45_checked",
    "C45_lapack"
   ],
   "note": "integrals of TPP by contract S_Tpp (exact, orthonormal basis; satisfiable for every degree), LAPACK by gesv_correct (satisfiable), exact arithmetic; size and LAPACK failures: C45_checked, C45_lapack"
  },
  {
   "property": "C46",
   "status": "proved",
   "theorems": [
    "C46_constant",
    "C46_conserved",
    "C46_kernel"
   ],
   "note": "same contracts as C45; C46_kernel adds that only constants have zero energy"
  },
  {
   "property": "C47",
   "status": "proved",
   "theorems": [
    "C47_flux",
    "C47_residual",
    "C47_linear",
    "C47_dirichlet",
    "C47_symmetric",
    "C47_negative",
    "C47_constant",
    "C47_affine",
    "C47_weak",
    "C47_checked",
    "C47_lapack",
    "C47_node_types"
   ],
   "note": "integrals of TPP by contract diffusion_data (S_TppGeo: affine geometry, orthonormal basis, exact quadrature; satisfiable: C47_example), LAPACK by gesv_correct; symmetry on traces that vanish on Dirichlet faces, since the code still reads the trace there"
  },
  {
   "property": "C48",
   "status": "partial",
   "theorems": [
    "C48_file_describes_grid_partial",
    "C48_plot_succeeds",
    "C48_vertex_cells_refuted"
   ],
   "note": "REFUTED for boundaries of one-dimensional hyperedges with more than one subinterval (C48_vertex_cells_refuted); proved for all other dimensions up to 3, subdivisions and options (C48_file_describes_grid_partial, C48_plot_succeeds); numbers below 2^32; written numbers by contract float_word (satisfiable: C48_show_word)"
  },
  {
   "property": "C49",
   "status": "proved",
   "theorems": [
    "C49_edge_cells",
    "C49_boundary_cells",
    "C49_number_of_cells",
    "C49_every_cell",
    "C49_once",
    "C49_corner_position"
   ],
   "note": "C49_edge_cells and C49_boundary_cells with the cells of the file given by C48_file_describes_grid_partial; C49_corner_position: positions for Geometry::File"
  },
  {
   "property": "C50",
   "status": "partial",
   "theorems": [
    "C50_values_partial",
    "C50_no_values",
    "C50_cell_numbers_partial",
    "C50_subdivision_refuted",
    "C50_boundary_refuted"
   ],
   "note": "REFUTED with subdivision (C50_subdivision_refuted) and for boundaries of dimension at least 1 if the solution has more components than the skeleton (C50_boundary_refuted); proved otherwise, with the values themselves: C50_values_partial; cell numbers: C50_cell_numbers_partial"
  },
  {
   "property": "C51",
   "status": "partial",
   "theorems": [
    "C51_set_partial",
    "C51_get",
    "C51_calls",
    "C51_file_ending_refuted",
    "C51_plot"
   ],
   "note": "REFUTED for fileEnding, which returns a zero byte (C51_file_ending_refuted); proved for all other options and call sequences; std::stof and std::to_string are parameters; numbers up to 2^31"
  },
  {
   "property": "C52",
   "status": "proved",
   "theorems": [
    "C52_current",
    "C52_reused",
    "C52_terminates",
    "C52_included",
    "C52_own_code_refuted"
   ],
   "note": "for every history of edits, calls and new processes (C52_current); the headers are those reachable from the included files, headers that only cpp_code includes are not watched (C52_own_code_refuted); the clock is strictly increasing, no file is deleted, a compilation takes no time"
  },
  {
   "property": "C53",
   "status": "partial",
   "theorems": [
    "C53_failed_refuted",
    "C53_removed_refuted",
    "C53_process_refuted",
    "C53_code_partial"
   ],
   "note": "REFUTED in three ways (failed compilation, code removed, same process); C53_code_partial: true if all calls for the module have code and succeed and the process has not imported it"
  },
  {
   "property": "C54",
   "status": "partial",
   "theorems": [
    "C54_refuted",
    "C54_history_refuted",
    "C54_class_partial",
    "C54_parts"
   ],
   "note": "REFUTED (C54_refuted: other replacements; C54_history_refuted: shared list of included files); C54_class_partial: the module has the requested C++ class up to spaces and the requested debug flag unless digests collide"
  },
  {
   "property": "C55",
   "status": "proved",
   "theorems": [
    "C55_file_name",
    "C55_class_name"
   ],
   "note": "names made of words of a capital letter and at least one small letter or digit"
  },
  {
   "property": "C56",
   "status": "proved",
   "theorems": [
    "C56_sizes",
    "C56_access",
    "C56_reset"
   ],
   "note": "in addition C56_reset: refinement resets all data"
  },
  {
   "property": "C57",
   "status": "proved",
   "theorems": [
    "C57_jacobian",
    "C57_derivative"
   ],
   "note": "the local derivative identity is a hypothesis"
  },
  {
   "property": "C58",
   "status": "partial",
   "theorems": [
    "C58_refuted",
    "C58_partial"
   ],
   "note": "REFUTED in general: C58_refuted; C58_partial for the hypergraph refined last."
  },
  {
   "property": "C59",
   "status": "proved",
   "theorems": [
    "C59_types",
    "C59_shared"
   ],
   "note": ""
  },
  {
   "property": "C60",
   "status": "proved",
   "theorems": [
    "C60_orthogonal",
    "C60_factors",
    "C60_outer"
   ],
   "note": ""
  },
  {
   "property": "C61",
   "status": "proved",
   "theorems": [
    "C61_unit_cube",
    "C61_unit_cube_boundary",
    "C61_range",
    "C61_lexicographic",
    "C61_boundary",
    "C61_on_face",
    "C61_file",
    "C61_file_boundary"
   ],
   "note": "index counted from the first point of the face; smaller indices underflow in the code"
  },
  {
   "property": "C62",
   "status": "partial",
   "theorems": [
    "C62_inner_partial",
    "C62_opposite",
    "C62_outer",
    "C62_refuted_inward",
    "C62_refuted_orthogonal"
   ],
   "note": "REFUTED: inner normals may point inward (C62_refuted_inward) and need not be orthogonal to the face (C62_refuted_orthogonal); what holds is in C62_inner_partial, C62_opposite; outer normals are correct (C62_outer)"
  },
  {
   "property": "C63",
   "status": "proved",
   "theorems": [
    "C63_symmetric",
    "C63_definite",
    "C63_solvable",
    "C63_constant",
    "C63_conserved"
   ],
   "note": "contracts as in C45; exact arithmetic; anchored = joined to a fully fixed node by a chain of hyperedges"
  },
  {
   "property": "C64",
   "status": "proved",
   "theorems": [
    "C64_flux",
    "C64_total",
    "C64_form",
    "C64_symmetric",
    "C64_linear"
   ],
   "note": "contracts as in C47"
  },
  {
   "property": "C65",
   "status": "proved",
   "theorems": [
    "C65_symmetric",
    "C65_definite",
    "C65_solvable",
    "C65_solution"
   ],
   "note": "contracts as in C47; node types agree between hyperedges"
  },
  {
   "property": "C66",
   "status": "proved",
   "theorems": [
    "C66_conserved",
    "C66_unique",
    "C66_errors",
    "C66_bulk",
    "C66_errors_temp",
    "C66_initial"
   ],
   "note": "contracts as in C47; df_diffsq and df_eval (TPP) are left abstract"
  },
  {
   "property": "C67",
   "status": "proved",
   "theorems": [
    "C67_file",
    "C67_cube"
   ],
   "note": "file geometry: given the LAPACK contract, r_fits and a nonzero determinant"
  },
  {
   "property": "C69",
   "status": "proved",
   "theorems": [
    "C69_name",
    "C69_distinct_files"
   ],
   "note": "file numbers below 2^32; the options are not changed in between"
  },
  {
   "property": "C70",
   "status": "partial",
   "theorems": [
    "C70_boundary_points_refuted",
    "C70_boundary_plot_refuted"
   ],
   "note": "REFUTED: for Geometry::File every plot of boundaries has undefined behaviour (C70_boundary_plot_refuted), since plot passes point numbers starting at 0 for every boundary"
  },
  {
   "property": "C68",
   "status": "proved",
   "theorems": [
    "C68_read",
    "C68_read_domain",
    "C68_unambiguous",
    "C68_writable"
   ],
   "note": "the format is S_GeoFile.says_domain: unambiguous (C68_unambiguous), every domain can be written (C68_writable), example with text C68_example_reads; recognising a floating point number is the parameter parse"
  },
  {
   "property": "C71",
   "status": "partial",
   "theorems": [
    "C71_flux",
    "C71_residual",
    "C71_checked",
    "C71_unique",
    "C71_linear",
    "C71_affine",
    "C71_dirichlet",
    "C71_explicit_refuted",
    "C71_symmetric",
    "C71_definite"
   ],
   "note": "REFUTED for theta = 0 (C71_explicit_refuted: the matrix is zero); proved for theta, dt, tau > 0; contracts as in C47, with the area as mass matrix (satisfiable: C71_example)"
  },
  {
   "property": "C72",
   "status": "proved",
   "theorems": [
    "C72_step",
    "C72_scheme",
    "C72_balance",
    "C72_steady"
   ],
   "note": "the old data of a step must be that of the state: types of faces and old Dirichlet values (hypotheses of C72_scheme)"
  },
  {
   "property": "C73",
   "status": "proved",
   "theorems": [
    "C73_implicit",
    "C73_theta",
    "C73_run"
   ],
   "note": "theta = 1 from any state; 1/2 <= theta from states that hold local solutions, hence from the second step on from any state (C73_run)"
  },
  {
   "property": "C74",
   "status": "partial",
   "theorems": [
    "C74_errors",
    "C74_bulk_partial",
    "C74_plot_refuted"
   ],
   "note": "REFUTED for bulk_values (C74_plot_refuted: it shows one more step); proved for errors, and C74_bulk_partial: what bulk_values shows"
  },
  {
   "property": "C75",
   "status": "proved",
   "theorems": [
    "C75_symmetric",
    "C75_definite",
    "C75_solution",
    "C75_system",
    "C75_stored",
    "C75_step"
   ],
   "note": "theta, dt, tau > 0 (see C71_explicit_refuted for theta = 0); node types agree between hyperedges; every hypernode is a Dirichlet node or belongs to a hyperedge"
  },
  {
   "property": "C76",
   "status": "proved",
   "theorems": [
    "C76_initial",
    "C76_discrete",
    "C76_fresh"
   ],
   "note": "the integrals of the initial value are parameters; C76_discrete: hypotheses on them for an initial value of the discrete space"
  },
  {
   "property": "C77",
   "status": "proved",
   "theorems": [
    "C77_flux",
    "C77_unique",
    "C77_linear",
    "C77_symmetric",
    "C77_nonpositive",
    "C77_negative",
    "C77_few",
    "C77_irregular",
    "C77_checked"
   ],
   "note": "contracts as in C47 with the area as mass matrix, a coefficient for each eigenvalue (satisfiable: C77_example); C77_few for coefficients independent of time; C77_irregular needs that dgesv reports singular matrices"
  },
  {
   "property": "C78",
   "status": "partial",
   "theorems": [
    "C78_derivative",
    "C78_time_refuted",
    "C78_global"
   ],
   "note": "REFUTED for coefficients that depend on time, for which the solver inserts the eigenvalue (C78_time_refuted); proved otherwise"
  },
  {
   "property": "C79",
   "status": "proved",
   "theorems": [
    "C79_zeros",
    "C79_rayleigh",
    "C79_norm",
    "C79_positive",
    "C79_orthogonal",
    "C79_count"
   ],
   "note": "C79_orthogonal and C79_count for coefficients independent of time; an eigenpair exists: C79_example"
  },
  {
   "property": "C80",
   "status": "proved",
   "theorems": [
    "C80_flux",
    "C80_unique",
    "C80_linear",
    "C80_dirichlet",
    "C80_constant",
    "C80_conserved",
    "C80_source",
    "C80_checked",
    "C80_lapack",
    "C80_node_types"
   ],
   "note": "contracts as in C47 (satisfiable: C80_example)"
  },
  {
   "property": "C81",
   "status": "partial",
   "theorems": [
    "C81_symmetric",
    "C81_form",
    "C81_isotropic",
    "C81_definite_refuted"
   ],
   "note": "REFUTED: the form takes both signs (C81_definite_refuted); proved: symmetric, and its value (C81_form)"
  },
  {
   "property": "C82",
   "status": "partial",
   "theorems": [
    "C82_superposition",
    "C82_residual",
    "C82_difference",
    "C82_affine_refuted"
   ],
   "note": "REFUTED: residual_flux does not exchange the halves of the traces (C82_affine_refuted: wrong for every trace whose halves differ on a face that is not Dirichlet); proved: the exact difference (C82_difference), and that trace_to_flux plus the residual at zero, which the drivers use, is the discretisation of the problem with data (C82_superposition)"
  },
  {
   "property": "C83",
   "status": "partial",
   "theorems": [
    "C83_initial",
    "C83_faces_refuted"
   ],
   "note": "REFUTED: face and function are exchanged in the call (C83_faces_refuted); proved: what is computed (C83_initial)"
  },
  {
   "property": "C84",
   "status": "proved",
   "theorems": [
    "C84_mass",
    "C84_total",
    "C84_form",
    "C84_symmetric"
   ],
   "note": "contracts as in C47"
  },
  {
   "property": "C85",
   "status": "proved",
   "theorems": [
    "C85_errors",
    "C85_bulk",
    "C85_errors_temp"
   ],
   "note": "contracts as in C47; errors stops if the computed square is negative; errors_temp for a step size other than zero"
  },
  {
   "property": "C86",
   "status": "partial",
   "theorems": [
    "C86_clamped_refuted",
    "C86_unsolvable_refuted",
    "C86_w_unique",
    "C86_clamped_unique",
    "C86_clamped_solvable",
    "C86_symmetric",
    "C86_range",
    "C86_solvable_partial",
    "C86_solution_partial"
   ],
   "note": "symmetry and range for all boundary conditions; solvability if u and w are given at the same hypernodes (C86_solvable_partial); refuted for different hypernodes with piecewise constants (C86_clamped_refuted), where w is still unique, and so are u and its gradient if u is given wherever w is (C86_clamped_unique), and a solution exists if the given u is zero (C86_clamped_solvable), but not in general (C86_unsolvable_refuted); missing: solvability for different hypernodes with other given u and degree at least one"
  },
  {
   "property": "C87",
   "status": "proved",
   "theorems": [
    "C87_flux",
    "C87_unique",
    "C87_linear",
    "C87_second",
    "C87_first",
    "C87_conserved",
    "C87_symmetric",
    "C87_symmetric_refuted",
    "C87_bulk",
    "C87_checked",
    "C87_lapack",
    "C87_residual"
   ],
   "note": "the symmetry of the operator as it is returned is refuted (C87_symmetric_refuted); it is symmetric after exchanging the halves"
  },
  {
   "property": "C88",
   "status": "proved",
   "theorems": [
    "C88_checked",
    "C88_set_checked",
    "C88_lapack",
    "C88_fresh",
    "C88_initial",
    "C88_flux",
    "C88_residual",
    "C88_unique",
    "C88_linear",
    "C88_affine",
    "C88_inflow",
    "C88_set",
    "C88_scheme",
    "C88_steady",
    "C88_shown",
    "C88_explicit_refuted",
    "C88_satisfiable"
   ],
   "note": "contract of the upwind integrals (upwind_contract: our reading of the names of the TPP functions; satisfiable: C88_satisfiable); the stored rate leaves out traces at faces with given values (C88_set), so the scheme is stated for traces that vanish there; for theta = 0 the matrix is zero (C88_explicit_refuted)"
  },
  {
   "property": "C89",
   "status": "proved",
   "theorems": [
    "C89_balance",
    "C89_global",
    "C89_constants"
   ],
   "note": "contract as in C88; C89_constants for tau = 0"
  },
  {
   "property": "C90",
   "status": "proved",
   "theorems": [
    "C90_kinds",
    "C90_disjoint"
   ],
   "note": "no contract; C90_disjoint for lists without common types"
  },
  {
   "property": "C91",
   "status": "partial",
   "theorems": [
    "C91_rows",
    "C91_columns",
    "C91_singular_refuted"
   ],
   "note": "REFUTED: with tau = 0 rows and columns of hypernodes with free outflow vanish (C91_rows, C91_columns, C91_singular_refuted, C91_case); all other entries are determined: C92_solution"
  },
  {
   "property": "C92",
   "status": "proved",
   "theorems": [
    "C92_solution",
    "C92_step",
    "C92_ready",
    "C92_ready_euler",
    "C92_stable",
    "C92_stable_euler",
    "C92_stable_run"
   ],
   "note": "contract as in C88; hypotheses on the winds satisfied by rows of hyperedges of any length (C92_case)"
  },
  {
   "property": "C93",
   "status": "proved",
   "theorems": [
    "C93_checked",
    "C93_errors_checked",
    "C93_lapack",
    "C93_extra",
    "C93_short",
    "C93_flux",
    "C93_residual",
    "C93_unique",
    "C93_linear",
    "C93_affine",
    "C93_errors",
    "C93_bulk"
   ],
   "note": "contracts of the TPP integrals on a segment (segment_data) and of dgesv; time is ignored by the class"
  },
  {
   "property": "C94",
   "status": "proved",
   "theorems": [
    "C94_symmetric",
    "C94_energy",
    "C94_nonpos",
    "C94_kernel"
   ],
   "note": "contracts as in C93; C94_kernel for orthonormal frames"
  },
  {
   "property": "C95",
   "status": "partial",
   "theorems": [
    "C95_rigid",
    "C95_translation",
    "C95_forces",
    "C95_moments",
    "C95_handed",
    "C95_file",
    "C95_refuted"
   ],
   "note": "every beam: C95_rigid, C95_forces, C95_moments for p > 0 (moments without load); REFUTED that one rule for rotations holds for all beams of a file: the frame of a beam on the first axis has determinant -1, all others +1 (C95_file, C95_refuted)"
  },
  {
   "property": "C96",
   "status": "partial",
   "theorems": [
    "C96_aligned_partial",
    "C96_refuted_isotropic",
    "C96_refuted_zero"
   ],
   "note": "holds if the outer normals of the frame are the given normals up to sign and order (C96_aligned_partial); REFUTED otherwise: equal constants become dependent on the frame and may vanish (C96_refuted_isotropic, C96_refuted_zero)"
  },
  {
   "property": "C97",
   "status": "proved",
   "theorems": [
    "C97_symmetric",
    "C97_residual",
    "C97_definite",
    "C97_solvable",
    "C97_solution",
    "C97_rigid",
    "C97_forces",
    "C97_balance",
    "C97_kernel"
   ],
   "note": "contracts as in C93; hypotheses on the hand of the frames only for the parts on rigid motions; C97_example is a chain"
  },
  {
   "property": "C98",
   "status": "proved",
   "theorems": [
    "C98_checked",
    "C98_checked_errors",
    "C98_lapack",
    "C98_singular",
    "C98_flux",
    "C98_residual",
    "C98_unique",
    "C98_linear",
    "C98_affine",
    "C98_mass",
    "C98_total",
    "C98_mass_linear"
   ],
   "note": "contract of dgesv; regularity as hypothesis, met in the cases of C99; C98_singular with gesv_detects"
  },
  {
   "property": "C99",
   "status": "proved",
   "theorems": [
    "C99_regular",
    "C99_energy",
    "C99_stable"
   ],
   "note": "contracts of the TPP integrals (ar_small, ar_wind) and of dgesv"
  },
  {
   "property": "C100",
   "status": "proved",
   "theorems": [
    "C100_balance"
   ],
   "note": "contracts as in C99, regular local problem, no Dirichlet faces"
  },
  {
   "property": "C101",
   "status": "proved",
   "theorems": [
    "C101_definite",
    "C101_solvable",
    "C101_solution"
   ],
   "note": "contracts as in C99; C101_example is a row of hyperedges with a wind"
  },
  {
   "property": "C102",
   "status": "partial",
   "theorems": [
    "C102_errors",
    "C102_bulk",
    "C102_errors_temp",
    "C102_velocity_refuted",
    "C102_diffusion"
   ],
   "note": "proved but for the velocity; REFUTED that the velocity is taken at the given time: it is the one at time 0 (C102_velocity_refuted)"
  },
  {
   "property": "C103",
   "status": "partial",
   "theorems": [
    "C103_constant",
    "C103_asymmetric",
    "C103_refuted"
   ],
   "note": "REFUTED: with a steady wind through some face and no reaction the flux is never symmetric (C103_asymmetric, C103_refuted); C103_constant gives the flux of constants"
  },
  {
   "property": "C104",
   "status": "proved",
   "theorems": [
    "C104_flux",
    "C104_residual",
    "C104_errors",
    "C104_exists",
    "C104_unique",
    "C104_checked",
    "C104_throw"
   ],
   "note": "contracts of the TPP integrals (setting_ok) and of dgesv"
  },
  {
   "property": "C105",
   "status": "proved",
   "theorems": [
    "C105_mean",
    "C105_weak",
    "C105_exact",
    "C105_constant"
   ],
   "note": "contracts as in C104; the diffusion coefficient of the post-processing need not be the inverse of the one of the local problem"
  },
  {
   "property": "C106",
   "status": "proved",
   "theorems": [
    "C106_checked",
    "C106_checked_errors",
    "C106_lapack",
    "C106_other",
    "C106_singular",
    "C106_types",
    "C106_flux",
    "C106_residual",
    "C106_unique",
    "C106_linear",
    "C106_affine",
    "C106_errors",
    "C106_bulk",
    "C106_weak",
    "C106_weak_flux"
   ],
   "note": "contracts of the TPP integrals (ip_contract) and of dgesv; solvable local problem"
  },
  {
   "property": "C107",
   "status": "proved",
   "theorems": [
    "C107_large",
    "C107_regular",
    "C107_dissipative",
    "C107_energy",
    "C107_positive_refuted"
   ],
   "note": "contracts as in C106; C107_positive_refuted shows that a positive penalty alone is not enough"
  },
  {
   "property": "C108",
   "status": "proved",
   "theorems": [
    "C108_conservation",
    "C108_balance",
    "C108_dirichlet",
    "C108_constant"
   ],
   "note": "contracts as in C106; solvable local problem"
  },
  {
   "property": "C109",
   "status": "partial",
   "theorems": [
    "C109_exact_partial",
    "C109_frozen",
    "C109_refuted"
   ],
   "note": "exact if the coefficient is that of time 0; refuted for coefficients that depend on time, because assemble_loc_matrix and dual_at_boundary do not pass the time to the integrals over the faces"
  },
  {
   "property": "C110",
   "status": "partial",
   "theorems": [
    "C110_one_dimension_partial",
    "C110_refuted"
   ],
   "note": "proved in one dimension; refuted in two dimensions for every penalty"
  },
  {
   "property": "C111",
   "status": "proved",
   "theorems": [
    "C111_definite",
    "C111_solvable",
    "C111_solution"
   ],
   "note": "contracts as in C106; penalties above the bound"
  },
  {
   "property": "C112",
   "status": "proved",
   "theorems": [
    "C112_flux",
    "C112_unique",
    "C112_linear",
    "C112_dirichlet",
    "C112_symmetric",
    "C112_energy",
    "C112_euler",
    "C112_checked",
    "C112_lapack"
   ],
   "note": "contracts of the TPP integrals and of dgesv; theta times the step positive"
  },
  {
   "property": "C113",
   "status": "partial",
   "theorems": [
    "C113_superposition",
    "C113_residual",
    "C113_difference",
    "C113_affine_refuted",
    "C113_set_data",
    "C113_initial",
    "C113_errors",
    "C113_bulk",
    "C113_again_refuted",
    "C113_steady",
    "C113_steady_refuted",
    "C113_checked"
   ],
   "note": "proved for superposition, residual_flux, set_data, make_initial and theta = 1; refuted: residual_flux is not the affine map of trace_to_flux, for theta other than 1 stationary solutions are left, errors after set_data shows a further step"
  },
  {
   "property": "C114",
   "status": "partial",
   "theorems": [
    "C114_clamped_refuted",
    "C114_unsolvable_refuted",
    "C114_step_unique",
    "C114_clamped_unique",
    "C114_clamped_solvable",
    "C114_symmetric",
    "C114_range",
    "C114_solvable_partial",
    "C114_solution_partial",
    "C114_energy",
    "C114_stable"
   ],
   "note": "symmetry, energy and stability in general; solvability if u and w are given at the same hypernodes; refuted for different hypernodes with piecewise constants (C114_clamped_refuted), where the next u and w are still unique (C114_step_unique) and exist if u is given wherever w is, with zero values (C114_clamped_solvable), but not in general (C114_unsolvable_refuted); missing: solvability for different hypernodes with other given u and degree at least one"
  },
  {
   "property": "C115",
   "status": "proved",
   "theorems": [
    "C115_flux",
    "C115_unique",
    "C115_linear",
    "C115_dirichlet",
    "C115_symmetric",
    "C115_energy",
    "C115_nonpositive",
    "C115_few",
    "C115_irregular",
    "C115_zero",
    "C115_checked",
    "C115_initial",
    "C115_bulk",
    "C115_node_types",
    "C115_lapack"
   ],
   "note": "contracts of the TPP integrals and of dgesv"
  },
  {
   "property": "C116",
   "status": "partial",
   "theorems": [
    "C116_form",
    "C116_derivative",
    "C116_time_refuted",
    "C116_global"
   ],
   "note": "proved for coefficients that do not depend on time; refuted if the coefficient depends on time, for which the solver inserts the eigenvalue"
  },
  {
   "property": "C117",
   "status": "proved",
   "theorems": [
    "C117_zeros",
    "C117_rayleigh",
    "C117_orthogonal",
    "C117_norm",
    "C117_positive",
    "C117_count",
    "C117_square",
    "C117_spectrum"
   ],
   "note": "contracts of the TPP integrals and of dgesv"
  },
  {
   "property": "C118",
   "status": "partial",
   "theorems": [
    "C118_lists",
    "C118_long",
    "C118_short",
    "C118_short_long",
    "C118_long_short",
    "C118_adjoint",
    "C118_dirichlet",
    "C118_duplicate_refuted"
   ],
   "note": "proved for increasing lists, as dirichlet_indices returns; refuted for lists with duplicates or in another order"
  },
  {
   "property": "C119",
   "status": "partial",
   "theorems": [
    "C119_stiff",
    "C119_mass",
    "C119_stiff_symmetric",
    "C119_mass_symmetric",
    "C119_stiff_positive",
    "C119_shifted",
    "C119_eigen",
    "C119_inverse_mass",
    "C119_inverse_shifted",
    "C119_inverse_symmetric",
    "C119_inverse_positive",
    "C119_diffusion",
    "C119_bilaplacian",
    "C119_bilaplacian_w_refuted"
   ],
   "note": "proved, for BilaplacianEigs if u and w are given at the same hypernodes; refuted there: where only u is given, the unknowns of w are removed as well"
  },
  {
   "property": "C120",
   "status": "proved",
   "theorems": [
    "C120_diffusion_zeros",
    "C120_diffusion_derivative",
    "C120_bilaplacian_zeros",
    "C120_bilaplacian_derivative",
    "C120_normalise",
    "C120_normalise_row",
    "C120_normalise_again"
   ],
   "note": "contracts of the TPP integrals and of dgesv; the norm is the Euclidean norm"
  },
  {
   "property": "C121",
   "status": "partial",
   "theorems": [
    "C121_result",
    "C121_ends",
    "C121_invariant",
    "C121_exact",
    "C121_gmres_refuted"
   ],
   "note": "proved for all residuals and linear solvers; refuted: if GMRES fails, the driver raises an exception (misspelt name)"
  },
  {
   "property": "C122",
   "status": "partial",
   "theorems": [
    "C122_sin_ellipt_partial",
    "C122_quad_ellipt",
    "C122_quad_ellipt_ho_partial",
    "C122_sin_parab_partial",
    "C122_bi_sin_ellipt_partial",
    "C122_bi_quad_ellipt",
    "C122_bi_sin_parab_partial",
    "C122_adv_sin_parab_partial",
    "C122_adr_sin_ellipt_partial",
    "C122_adr_quad_ellipt",
    "C122_unique",
    "C122_values",
    "C122_bi_values",
    "C122_adv_values",
    "C122_adr_values",
    "C122_bi_parab_laplace",
    "C122_inverse",
    "C122_sin_line_refuted",
    "C122_ho_refuted",
    "C122_initial_laplace_refuted"
   ],
   "note": "the _partial theorems ask for directions the classes suit (sine classes: first axis; QuadElliptHO: heights that are multiples of 1/2); refuted for TestParametersSinEllipt on a line in another direction (networks of fibres), for QuadElliptHO at other heights than multiples of 1/2, and for initial_laplace of the elliptic bilaplacian classes; uses the axioms of the real numbers of the standard library"
  },
  {
   "property": "C123",
   "status": "proved",
   "theorems": [
    "C123_same",
    "C123_after",
    "C123_before",
    "C123_diffusion",
    "C123_diffusion_errors",
    "C123_diffusion_stable",
    "C123_bilaplacian_errors",
    "C123_advection",
    "C123_advection_stable",
    "C123_advection_errors",
    "C123_advection_start",
    "C123_bilaplacian",
    "C123_bilaplacian_before",
    "C123_bilaplacian_stable"
   ],
   "note": "the iterative solvers enter with a contract: a result solves the system exactly and is zero where right-hand side and operator are"
  }
 ]
}