{"claims": [
  {"property": "C01", "status": "proved", "theorems": ["C01_equal_iff_same_vertices", "C01_contains", "C01_size_is_cardinality", "C01_strict_total_order", "C01_dimension"], "note": "Closed under the global context. All ranges of vertices (nat) and all data values."},
  {"property": "C02", "status": "proved", "theorems": ["C02_boundary_members", "C02_boundary_empty", "C02_codimension_two"], "note": "Closed under the global context. All simplices built by the range constructor."},
  {"property": "C03", "status": "proved", "theorems": ["C03_views_consistent", "C03_push_back", "C03_replace", "C03_sort_permutes"], "note": "Closed under the global context. All complexes reachable from the empty one by any history of eleven public mutators."},
  {"property": "C04", "status": "proved", "theorems": ["C04_missing_faces"], "note": "Closed under the global context. All reachable complexes; the loop is shown to terminate."},
  {"property": "C05", "status": "partial", "theorems": ["C05_face_weights_refuted", "C05_constant_data"], "note": "Closed under the global context. FINDING: the property as stated is false of the code; C05_face_weights_refuted gives a witness ({0,1,2} with data 5, {1,2,3} with data 1: the shared edge gets 5). It holds when all data agree (C05_constant_data)."},
  {"property": "C06", "status": "proved", "theorems": ["C06_remove_open_star", "C06_not_closed_refuted"], "note": "Closed under the global context. All reachable closed complexes; C06_not_closed_refuted shows that closure is needed."},
  {"property": "C07", "status": "proved", "theorems": ["C07_recalculate_maximum", "C07_recalculate_minimum", "C07_skip_one_dimensional", "C07_recalculate_range"], "note": "Closed under the global context. Data within the numeric limits of the data type."},
  {"property": "C08", "status": "proved", "theorems": ["C08_comparisons_are_orderings", "C08_default_order", "C08_data_filtration", "C08_data_filtration_descending", "C08_lower_star", "C08_upper_star"], "note": "Closed under the global context. "},
  {"property": "C09", "status": "proved", "theorems": ["C09_boundary_matrix", "C09_maximum_index", "C09_missing_faces_refuted"], "note": "Closed under the global context. Closed reachable complexes in filtration order; for complexes that are not closed the column refers to simplex 0 (C09_missing_faces_refuted, finding)."},
  {"property": "C10", "status": "proved", "theorems": ["C10_representations_interchangeable", "C10_duplicates_refuted"], "note": "Closed under the global context. Any client program (with error handling) over the vector, list and set representations; C10_duplicates_refuted shows the duplicate-free restriction is needed. Heap.hh is excluded (cannot be instantiated)."},
  {"property": "C11", "status": "proved", "theorems": ["C11_standard_reduces", "C11_duplicates_diverge_refuted"], "note": "Closed under the global context. All matrices with ascending duplicate-free columns and in-range rows; with repeated indices Standard need not terminate (C11_duplicates_diverge_refuted, finding)."},
  {"property": "C12", "status": "proved", "theorems": ["C12_same_pairing", "C12_pairing_characterised"], "note": "Closed under the global context. Standard, StandardRectangular and Twist, all flags, all hash orders."},
  {"property": "C13", "status": "proved", "theorems": ["C13_every_index_once", "C13_without_top_creators", "C13_maximum_index"], "note": "Closed under the global context. "},
  {"property": "C14", "status": "proved", "theorems": ["C14_dualize_is_anti_transpose", "C14_dualize_twice"], "note": "Closed under the global context. "},
  {"property": "C15", "status": "proved", "theorems": ["C15_dual_pairing"], "note": "Closed under the global context. All three algorithms on either side, all flags and maximum indices."},
  {"property": "C16", "status": "proved", "theorems": ["C16_betti_numbers", "C16_betti_unique", "C17_complex"], "note": "Closed under the global context. All valid boundary matrices, all algorithms; dimension of a space defined by bases and shown to be unique."},
  {"property": "C17", "status": "proved", "theorems": ["C17_persistent_ranks", "C17_rank_unique", "C17_complex"], "note": "Closed under the global context. All valid boundary matrices, all algorithms, all pairs of indices."},
  {"property": "C18", "status": "proved", "theorems": ["C18_schedule_independent", "C18_agrees_with_standard"], "note": "Closed under the global context. "},
  {"property": "C19", "status": "proved", "theorems": ["C19_tabulates_pairing", "C19_invalid_creator"], "note": "Closed under the global context. For all complexes reachable by the public interface and all pairings."},
  {"property": "C20", "status": "partial", "theorems": ["C20_refuted", "C20_single_value"], "note": "Closed under the global context. FINDING: the statement is false for every function with at least two values, whatever the algorithm: the pair of the global minimum has no destroyer and functionValues.at(max) throws. C20_single_value: for a single value the diagram is empty."},
  {"property": "C21", "status": "proved", "theorems": ["C21_classes", "C21_merge_directional", "C21_merge_unknown"], "note": "Closed under the global context. For all vertex lists and all histories of operations on known vertices; a merge of an unknown vertex ends the program (noexcept)."},
  {"property": "C22", "status": "proved", "theorems": ["C22_components", "C22_not_closed_refuted"], "note": "Closed under the global context. FINDING: for complexes that are not closed the program is terminated (noexcept merge throws), shown by C22_not_closed_refuted."},
  {"property": "C23", "status": "proved", "theorems": ["C23_agrees_with_matrix", "C23_components"], "note": "Closed under the global context. static_cast of indices to vertices is taken to be lossless; both element traits are covered."},
  {"property": "C24", "status": "proved", "theorems": ["C24_operations", "C24_equality"], "note": "Closed under the global context. "},
  {"property": "C25", "status": "proved", "theorems": ["C25_expansion", "C25_clique_complex"], "note": "Closed under the global context. For any iteration order of the hash container. The expander never throws on complexes reachable by the public interface."},
  {"property": "C26", "status": "proved", "theorems": ["C26_weights", "C26_edges", "C26_negative_refuted"], "note": "Closed under the global context. FINDING: with negative edge weights an expanded simplex keeps the weight 0 (C26_negative_refuted)."},
  {"property": "C27", "status": "proved", "theorems": ["C27_maximum_data", "C27_missing_values"], "note": "Closed under the global context. FINDING: too few values are an out-of-bounds read (C27_missing_values)."},
  {"property": "C28", "status": "proved", "theorems": ["C28_koch", "C28_bron_kerbosch", "C28_not_closed_refuted"], "note": "Closed under the global context. Every traversal order of the hash sets; every graph whose edges have stored vertices (the empty graph has the empty clique). FINDING: an edge without stored vertices raises out_of_range."},
  {"property": "C29", "status": "proved", "theorems": ["C29_shortest_walks", "C29_not_closed_refuted"], "note": "Closed under the global context. Data type with an infinity and exact arithmetic; edges of weight 0 count with the default weight. FINDING: an edge without stored vertices raises out_of_range."},
  {"property": "C30", "status": "proved", "theorems": ["C30_cone", "C30_suspension", "C30_empty", "C30_not_closed_refuted"], "note": "Closed under the global context. Vertex labels are unbounded. FINDING: for complexes that are not closed the largest stored vertex need not be the largest label, so that the new vertex may already be in use."},
  {"property": "C31", "status": "proved", "theorems": ["C31_spine", "C31_dumb_spine", "C31_isPrincipal", "C31_isAdmissible", "C31_not_closed_refuted"], "note": "Closed under the global context. Both implementations, for every choice of begin() of the hash maps. FINDING: for a complex that lacks faces, spine raises out_of_range."},
  {"property": "C32", "status": "partial", "theorems": ["C32_refuted", "C32_omits_top_dimension", "C32_diagrams"], "note": "Closed under the global context. FINDING: the loop stops before the largest dimension, so the result is wrong for every non-empty complex; what is computed is stated by C32_omits_top_dimension and, for diagrams, C32_diagrams."},
  {"property": "C33", "status": "proved", "theorems": ["C33_symmetric_storage"], "note": "Closed under the global context. Index arithmetic is assumed not to wrap around."},
  {"property": "C34", "status": "proved", "theorems": ["C34_optimal", "C34_size"], "note": "Closed under the global context. Exact arithmetic; numeric_limits::max() only has to be positive."},
  {"property": "C35", "status": "proved", "theorems": ["C35_optimal", "C35_dimension", "C35_symmetric", "C35_zero", "C35_integer_power_refuted"], "note": "Closed under the global context. Exact arithmetic; the powers and the root are parameters. FINDING: for integral types and power >= 2 the root 1/power is 0 and equal diagrams have distance 1 (C35_integer_power_refuted)."},
  {"property": "C36", "status": "proved", "theorems": ["C36_hausdorff", "C36_zero", "C36_symmetric", "C36_triangle", "C36_empty", "C36_infinity_metric"], "note": "Closed under the global context. Exact arithmetic; all distances are at most max()."},
  {"property": "C37", "status": "partial", "theorems": ["C37_defined_partial", "C37_zero_partial", "C37_second_empty_partial", "C37_one_each_partial", "C37_empty_refuted", "C37_one_point_refuted", "C37_symmetric_refuted", "C37_separated_refuted", "C37_order_refuted", "C37_large_refuted"], "note": "Closed under the global context. FINDING: the statement is false. The loop over the second diagram does not advance, and the diagonal edges start at the wrong vertex: the result is not symmetric, can be zero for different diagrams, too large, and depends on the order of points; two empty diagrams, or one point against none, are undefined behaviour. Proved: definedness, zero for equal diagrams, and the right value for an empty second diagram and for one point each."},
  {"property": "C38", "status": "proved", "theorems": ["C38_indicator", "C38_negative_diagonal_refuted", "C38_mixed_refuted"], "note": "Closed under the global context. Integer data types; for floating point types the argument is the same, with nextafter as successor. FINDINGS: a diagonal point at a negative smallest value ends the program (noexcept add throws); points on both sides of the diagonal make the unsigned counter wrap around."},
  {"property": "C39", "status": "proved", "theorems": ["C39_eval", "C39_constructor", "C39_sum", "C39_sum_refuted", "C39_scalar", "C39_division_by_zero", "C39_equality", "C39_equality_refuted", "C39_max"], "note": "Closed under the global context. Exact rational arithmetic. FINDINGS: with different domains the sum is not pointwise and functions that differ may compare as equal; operator/ is noexcept but calls a throwing operator."},
  {"property": "C40", "status": "proved", "theorems": ["C40_load", "C40_inconsistent", "C40_indented_comment_refuted", "C40_single_index_refuted"], "note": "Closed under the global context. FINDINGS: indented comments raise invalid_argument; a line of dimension 0 with one index is accepted. Streams are character sequences; Index has 32 bits, stoul 64."},
  {"property": "C41", "status": "proved", "theorems": ["C41_load", "C41_no_values", "C41_reused_matrix_refuted"], "note": "Closed under the global context. FINDING: with a matrix that held another function before, vertices can keep the dimension of an edge (C41_reused_matrix_refuted)."},
  {"property": "C42", "status": "proved", "theorems": ["C42_skeleton", "C42_filter", "C42_threshold"], "note": "Closed under the global context. "},
  {"property": "C43", "status": "proved", "theorems": ["C43_perversity", "C43_goresky_macpherson", "C43_dimension_zero_refuted", "C43_goresky_macpherson_refuted"], "note": "Closed under the global context. FINDINGS: the documentation promises 0 for invalid dimensions, but dimension 0 (and 1 for PerversityGM) is an out-of-bounds read; the documented p_2=0 is not established."},
  {"property": "C44", "status": "proved", "theorems": ["C44_partition"], "note": "Closed under the global context. "},
  {"property": "C45", "status": "proved", "theorems": ["C45_combinations"], "note": "Closed under the global context. The loop around next_combination, as in RipsExpanderTopDown, for a range that starts in ascending order."},
  {"property": "C46", "status": "partial", "theorems": ["C46_refuted", "C46_no_points"], "note": "Closed under the global context. FINDING: for every diagram that keeps at least one point the last abscissa makes the loop dereference end()."},
  {"property": "C47", "status": "proved", "theorems": ["C47_vertices_closed", "C47_vertices_refuted"], "note": "Closed under the global context. FINDING: the documented guarantee fails for complexes that are not closed (C47_vertices_refuted)."},
  {"property": "C48", "status": "proved", "theorems": ["C48_clique_complex", "C48_agreement"], "note": "Closed under the global context. Every traversal order of the hash containers; kMax + 1 does not overflow."},
  {"property": "C49", "status": "proved", "theorems": ["C49_clique_graph", "C49_maximum"], "note": "Closed under the global context. The conversion of indices to vertex labels is exact; the order of the functor's arguments is the lexicographic order of the simplices."},
  {"property": "C50", "status": "proved", "theorems": ["C50_median", "C50_unique", "C50_empty_refuted"], "note": "Closed under the global context. For every nth_element that satisfies the contract of the standard. FINDING: an empty range is read out of bounds."},
  {"property": "C51", "status": "proved", "theorems": ["C51_degrees", "C51_isolated_vertex_refuted"], "note": "Closed under the global context. FINDING: documented alignment with vertices() fails (C51_isolated_vertex_refuted)."},
  {"property": "C52", "status": "proved", "theorems": ["C52_n_degree"], "note": "Closed under the global context. "},
  {"property": "C53", "status": "proved", "theorems": ["C53_find_pair", "C53_find_creator"], "note": "Closed under the global context. "},
  {"property": "C54", "status": "proved", "theorems": ["C54_equality"], "note": "Closed under the global context. "},
  {"property": "C55", "status": "proved", "theorems": ["C55_parameters_do_not_matter", "C55_diagrams_give_persistent_ranks", "C55_betti"], "note": "Closed under the global context. End-to-end statement from complexes to diagrams."},
  {"property": "C56", "status": "proved", "theorems": ["C56_complex"], "note": "Closed under the global context. "},
  {"property": "C57", "status": "proved", "theorems": ["C57_weights"], "note": "Closed under the global context. Integer data."},
  {"property": "C58", "status": "proved", "theorems": ["C58_nearest", "C58_kahan", "C58_empty"], "note": "Closed under the global context. Exact arithmetic. FINDING: if one diagram is empty, every point of the other one contributes max() (C58_empty), which overflows from two points on."},
  {"property": "C59", "status": "proved", "theorems": ["C59_add", "C59_overlap", "C59_add_terminates", "C59_eval", "C59_eval_refuted", "C59_operations", "C59_pointwise", "C59_integral", "C59_max", "C59_integer_division_refuted", "C59_indicator_division_refuted"], "note": "Closed under the global context. Integer domain and image. FINDINGS: at common end points the value of largest absolute value is not taken if values are negative; division by a scalar gives 0 for integer images; IndicatorFunction::operator/= calls itself for ever; an inverted interval ends the program."},
  {"property": "C60", "status": "partial", "theorems": ["C60_sum_refuted", "C60_difference_refuted"], "note": "Closed under the global context. FINDING: clean() dereferences end() whenever the sum has an interval of positive length, so the statement is false of every pair of functions with a non-trivial sum."},
  {"property": "C61", "status": "proved", "theorems": ["C61_integral", "C61_integer_refuted"], "note": "Closed under the global context. FINDING: for integer types a value that is both start and end costs area (C61_integer_refuted)."},
  {"property": "C62", "status": "proved", "theorems": ["C62_abs", "C62_integral", "C62_difference", "C62_distance", "C62_sum_refuted", "C62_scalar_refuted"], "note": "Closed under the global context. Power p=1, exact rational arithmetic. FINDING: after f+g or f+c the absolute value and the integral can be wrong (C62_sum_refuted, C62_scalar_refuted)."},
  {"property": "C63", "status": "proved", "theorems": ["C63_triangle", "C63_hypotheses"], "note": "Closed under the global context. Exact arithmetic, power 1."},
  {"property": "C64", "status": "proved", "theorems": ["C64_for_each"], "note": "Closed under the global context. Iterators are positions in a vector; the function object may have a state and may throw."},
  {"property": "C65", "status": "proved", "theorems": ["C65_count", "C65_calls"], "note": "Closed under the global context. The largest value of the unsigned type is a parameter."},
  {"property": "C66", "status": "proved", "theorems": ["C66_intersect", "C66_closed", "C66_constrained", "C66_constrained_vertex", "C66_constrained_refuted", "C66_empty"], "note": "Closed under the global context. FINDINGS: for a simplex that is no vertex, intersectWithConstrainedDimension misses faces of the simplex that are in a closed complex (C66_constrained_refuted); the empty simplex terminates the program (C66_empty)."},
  {"property": "C67", "status": "proved", "theorems": ["C67_last"], "note": "Closed under the global context. "},
  {"property": "C68", "status": "proved", "theorems": ["C68_dowker", "C68_filtration", "C68_order"], "note": "Closed under the global context. The weights are at least std::numeric_limits<D>::lowest(), a parameter."},
  {"property": "C69", "status": "proved", "theorems": ["C69_pairs", "C69_dowker"], "note": "Closed under the global context. The matrix of path lengths comes from the boost library and is a parameter."},
  {"property": "C70", "status": "proved", "theorems": ["C70_cech", "C70_filtration", "C70_monotone_needed"], "note": "Closed under the global context. The radius comes from the external Miniball code and is a parameter, as is the square root."},
  {"property": "C71", "status": "proved", "theorems": ["C71_rips", "C71_values"], "note": "Closed under the global context. Distances are a function of two indices (exact arithmetic); the nearest-neighbour structure is the brute-force one."},
  {"property": "C72", "status": "proved", "theorems": ["C72_radius", "C72_nearest", "C72_too_many"], "note": "Closed under the global context. FINDING: with more neighbours than points requested, nth_element and the copy run past the end (C72_too_many)."},
  {"property": "C73", "status": "proved", "theorems": ["C73_subdivision", "C73_not_closed", "C73_closed", "C73_dimension_refuted"], "note": "Closed under the global context. The vertex type does not overflow. FINDING: the functor is documented to get the dimension of the simplex but gets its number of vertices (0 for the new vertices), so the factor for dimension 1 is never used (C73_dimension_refuted)."},
  {"property": "C74", "status": "proved", "theorems": ["C74_manhattan", "C74_hamming", "C74_euclidean", "C74_short", "C74_metric", "C74_accum", "C74_points", "C74_hamming_accum_refuted", "C74_bound_refuted"], "note": "Closed under the global context. Exact integers. FINDINGS: Hamming::accum_dist is the Manhattan distance (C74_hamming_accum_refuted); Euclidean ignores the documented bound because lastGroup is computed from the beginning, and with that always is an iterator before the vector (C74_bound_refuted)."},
  {"property": "C75", "status": "proved", "theorems": ["C75_total", "C75_total_norm", "C75_pnorm", "C75_infinity", "C75_sandwich", "C75_values", "C75_weighted", "C75_mean"], "note": "Closed under the global context. Exact integer coordinates; natural exponents; the root is a parameter."},
  {"property": "C76", "status": "proved", "theorems": ["C76_mean", "C76_mean_bounds", "C76_variance", "C76_affine", "C76_covariance_sizes", "C76_covariance", "C76_kurtosis", "C76_skewness", "C76_covariance_sizes_refuted"], "note": "Closed under the global context. Exact rational arithmetic; the power 3/2 is a parameter. FINDING: ranges of different sizes are not rejected if one of them has fewer than two values (C76_covariance_sizes_refuted)."},
  {"property": "C77", "status": "proved", "theorems": ["C77_pairing", "C77_pairing_dimension", "C77_empty", "C77_point", "C77_result", "C77_same", "C77_dimension_refuted"], "note": "Closed under the global context. Exact integers; Munkres solver as in C34. Termination of the iteration in general is not claimed. FINDING: mean always throws runtime_error if one of the diagrams has a dimension other than 0, because the new estimate is a default-constructed diagram (C77_dimension_refuted)."},
  {"property": "C78", "status": "proved", "theorems": ["C78_curvature", "C78_weighted", "C78_unit", "C78_angle", "C78_self_refuted", "C78_wrap_refuted", "C78_not_closed_refuted", "C78_absolute_refuted"], "note": "Closed under the global context. Exact rational arithmetic; square root, 2*pi and arc cosine are parameters. FINDINGS: a simplex without coface is its own parallel neighbour, so that its curvature is off by one (C78_self_refuted); negative values wrap around (C78_wrap_refuted); weightedCurvature dereferences end() on complexes that are not closed (C78_not_closed_refuted) and takes the absolute value of the sum over all neighbours instead of the sum of absolute values (C78_absolute_refuted)."},
  {"property": "C79", "status": "proved", "theorems": ["C79_ranks", "C79_perversity", "C79_perversityGM", "C79_rejected", "C79_too_few_strata"], "note": "Closed under the global context. FINDINGS: the check for empty complexes looks at K instead of the stratum, so that an empty stratum, which is legitimate, is rejected with a runtime_error (C79_rejected); missing strata are not noticed by the checks and lead to out_of_range (C79_too_few_strata)."},
  {"property": "C80", "status": "proved", "theorems": ["C80_witness", "C80_empty", "C80_nu", "C80_missing_landmark", "C80_threshold_refuted"], "note": "Closed under the global context. FINDINGS: nu above the number of landmarks is not checked (a single landmark with the default nu=2 throws, C80_nu); landmarks are not checked (C80_missing_landmark); the data of an edge is not the smallest threshold R for which it exists (C80_threshold_refuted)."},
  {"property": "C81", "status": "proved", "theorems": ["C81_maxmin", "C81_cover_and_packing", "C81_two_approximation", "C81_distinct", "C81_none", "C81_too_many", "C81_random"], "note": "Closed under the global context. FINDINGS: a landmark is returned even for n=0, which for an empty container is an arbitrary number (C81_none); too large k is not checked by generateRandomLandmarks (C81_random)."},
  {"property": "C82", "status": "proved", "theorems": ["C82_sum", "C82_empty", "C82_symmetric", "C82_zero", "C82_triangle_refuted", "C82_integral_refuted"], "note": "Closed under the global context. FINDINGS: the documented metric does not satisfy the triangle inequality (C82_triangle_refuted); DataType(0.5) is zero for integral types, for which all non-empty diagrams have distance zero (C82_integral_refuted)."},
  {"property": "C83", "status": "proved", "theorems": ["C83_persistent", "C83_nonnegative", "C83_invariant", "C83_diagonal_refuted", "C83_area", "C83_single", "C83_grid", "C83_grid_constant_refuted", "C83_grid_empty"], "note": "Closed under the global context. FINDINGS: a single point on the diagonal or without partner makes persistentEntropy NaN (C83_diagonal_refuted); nearestNeighbourAreaEntropy is undefined for one point and NaN if all points are duplicates (C83_single, C83_area); gridEntropy is undefined if all births or all deaths are equal, as for connected components (C83_grid_constant_refuted), and for n=0 (C83_grid_empty); its two rotations cancel, so that the grid is parallel to the axes (C83_grid)."},
  {"property": "C84", "status": "proved", "theorems": ["C84_trim", "C84_trim_unique", "C84_split", "C84_split_limits", "C84_whitespace", "C84_convert", "C84_convert_special", "C84_convert_fails", "C84_overflow_refuted"], "note": "Closed under the global context. FINDINGS: numbers that are too large are reported as a success with the largest number (C84_overflow_refuted); text after a number is ignored and reported as a success (C84_convert)."},
  {"property": "C85", "status": "proved", "theorems": ["C85_access", "C85_storage", "C85_equality", "C85_append", "C85_load", "C85_last_line_refuted", "C85_round_trip", "C85_integers"], "note": "Closed under the global context. FINDING (C85_last_line_refuted): a file whose last line describes a point and is not terminated is rejected with an exception; if it is the only line, the result is an empty cloud."},
  {"property": "C86", "status": "proved", "theorems": ["C86_matrix", "C86_columns", "C86_empty_file", "C86_empty_line_refuted", "C86_comment_refuted"], "note": "Closed under the global context. FINDING (C86_empty_line_refuted, C86_comment_refuted): contrary to the documentation, empty lines are not permitted and comments are not ignored. DataType is an integer type."},
  {"property": "C87", "status": "proved", "theorems": ["C87_adjacency", "C87_default", "C87_total", "C87_comment_refuted", "C87_order_refuted"], "note": "Closed under the global context. FINDING (C87_comment_refuted, C87_order_refuted): comments end the reading of values; other strategies or decreasing functors give complexes that are not in filtration order. DataType is an integer type."},
  {"property": "C88", "status": "proved", "theorems": ["C88_bipartite", "C88_total", "C88_lines_refuted", "C88_zero_refuted", "C88_absolute_refuted"], "note": "Closed under the global context. FINDING (C88_lines_refuted, C88_zero_refuted, C88_absolute_refuted): empty lines change the shape of the matrix, comments end the reading, zeros are edges, and least absolute values are not a filtration. DataType is an integer type."},
  {"property": "C89", "status": "proved", "theorems": ["C89_numbers", "C89_labels", "C89_total", "C89_tokens", "C89_second_file_refuted", "C89_mixed_refuted", "C89_untrimmed_refuted"], "note": "Closed under the global context. FINDING (C89_second_file_refuted, C89_mixed_refuted, C89_untrimmed_refuted): a second file read with the same reader gives known numbers to new labels; numbers and labels share vertices; leading white space adds the vertex 0 if lines are not trimmed. DataType is an integer type, separators are white space in C89_numbers and C89_labels."},
  {"property": "C90", "status": "proved", "theorems": ["C90_triangulations", "C90_loop_refuted", "C90_nontermination_refuted", "C90_next_line_refuted", "C90_end_refuted"], "note": "Closed under the global context. FINDING (C90_loop_refuted, C90_nontermination_refuted, C90_next_line_refuted, C90_end_refuted): other characters between simplices, or a single simplex without the outer brackets, make the parser loop forever; a list that starts in the line after its name yields empty complexes; the end iterator can be dereferenced."},
  {"property": "C91", "status": "proved", "theorems": ["C91_hierarchy", "C91_forest", "C91_indices_refuted", "C91_edges_refuted"], "note": "Closed under the global context. FINDING (C91_indices_refuted, C91_edges_refuted): the indices of the pairing are those of the one-skeleton rather than those of the given complex, and the edges of the hierarchy contain vertices although the documentation says that they refer to indices in the original complex. Data are integers; indices are assumed to be representable as vertices."},
  {"property": "C92", "status": "proved", "theorems": ["C92_insert", "C92_checks", "C92_levels", "C92_triangle_refuted", "C92_empty_refuted"], "note": "Closed under the global context. FINDING (C92_empty_refuted): points, getNodesByLevel and isValid dereference a null pointer for the empty tree. The triangle inequality is required (C92_triangle_refuted). Distances are rational numbers; the levels are unbounded integers, powers of two are exact."},
  {"property": "C93", "status": "proved", "theorems": ["C93_harmonic", "C93_duplicates_refuted", "C93_lost_refuted", "C93_query_refuted"], "note": "Closed under the global context. FINDING (C93_duplicates_refuted, C93_lost_refuted): with two equal points the function need not terminate, or it loses duplicates. It replaces the tree even if its result is true (C93_query_refuted)."},
  {"property": "C94", "status": "proved", "theorems": ["C94_vertices", "C94_faces", "C94_count_refuted", "C94_isolated_refuted", "C94_id_refuted", "C94_components_refuted"], "note": "Closed under the global context. FINDING (C94_count_refuted): of the eight triangles in the third test of the project only four are reported by faces and numFaces. FINDING (C94_components_refuted): numConnectedComponents is 2 for a connected mesh. FINDING (C94_isolated_refuted): a vertex that belongs to no face leads to a null pointer. FINDING (C94_id_refuted): after a vertex with ID 5, a vertex without ID gets 5 as well, and an exception is thrown. Assertions are enabled in the model; coordinates and data are integers."},
  {"property": "C95", "status": "proved", "theorems": ["C95_neighbours", "C95_polygon", "C95_star", "C95_star_refuted", "C95_tetrahedron_refuted", "C95_disk_refuted", "C95_shared_refuted", "C95_orientation_refuted"], "note": "Closed under the global context. FINDING (C95_tetrahedron_refuted, C95_disk_refuted): for the boundary of a tetrahedron, link and hasEdge dereference a null pointer. FINDING (C95_shared_refuted): for two triangles that share a vertex, hasEdge misses edges. FINDING (C95_star_refuted): stars of vertices on the boundary lack faces or are empty."},
  {"property": "C96", "status": "proved", "theorems": ["C96_for_each"], "note": "Closed under the global context. Iterators are positions in a vector; the function object may have a state and may throw."},
  {"property": "C97", "status": "proved", "theorems": ["C97_for_each"], "note": "Closed under the global context. As for C96."},
  {"property": "C98", "status": "proved", "theorems": ["C98_for_each"], "note": "Closed under the global context. As for C96. The order of the calls is not stated."},
  {"property": "C99", "status": "proved", "theorems": ["C99_for_each", "C99_empty_refuted"], "note": "Closed under the global context. FINDING (C99_empty_refuted): for k = 0 and an empty range, the position after the start of the range is formed, which is undefined; the other three functions make one call."},
  {"property": "C100", "status": "proved", "theorems": ["C100_permutations", "C100_circular", "C100_reversible", "C100_reversible_circular"], "note": "Closed under the global context. The largest value of the unsigned type is a parameter."},
  {"property": "C101", "status": "proved", "theorems": ["C101_skeleton"], "note": "Closed under the global context. Integral coordinates, rational beta; distances are represented by their squares."},
  {"property": "C102", "status": "proved", "theorems": ["C102_monotone", "C102_gabriel", "C102_relative_neighbours", "C102_euclidean", "C102_connected", "C102_triangle_refuted", "C102_duplicate_refuted", "C102_triple_refuted"], "note": "Closed under the global context. FINDING: the lunes are closed, so that for beta = 2 an equilateral triangle has no edges (C102_triangle_refuted), a duplicated point is separated from the others for beta >= 1 (C102_duplicate_refuted), and three copies of a point are isolated for every beta (C102_triple_refuted)."},
  {"property": "C103", "status": "proved", "theorems": ["C103_replicates", "C103_empty", "C103_percentile", "C103_throws", "C103_standard_error", "C103_conversion_refuted"], "note": "Closed under the global context. The drawn positions are a parameter; values are rational. FINDING (C103_conversion_refuted): a negative alpha leads to the conversion of a value that the unsigned index cannot represent, which is undefined; it is not checked."},
  {"property": "C104", "status": "proved", "theorems": ["C104_adjacency", "C104_laplacian", "C104_form", "C104_semidefinite", "C104_kernel", "C104_throws", "C104_pinv_refuted"], "note": "Closed under the global context. Integral weights; Eigen matrices are lists of rows. FINDING (C104_pinv_refuted): pinvWeightedLaplacianMatrix divides the integers 1 and n, so that it inverts the singular Laplacian for n >= 2, and divides by zero for an empty complex."},
  {"property": "C105", "status": "proved", "theorems": ["C105_bisect", "C105_halves", "C105_throws", "C105_empty_refuted"], "note": "Closed under the global context. The eigenvectors of Eigen's solver are a parameter. FINDING (C105_empty_refuted): the first complex can be empty for a connected graph, for example for a star with four leaves."},
  {"property": "C106", "status": "proved", "theorems": ["C106_heat", "C106_spectrum", "C106_determinant_refuted", "C106_all_refuted"], "note": "Real numbers instead of double; depends on the axioms of the real numbers of the standard library (DESIGN.md, section 1). The eigenvectors of Eigen's solver are a parameter. FINDING (C106_determinant_refuted): the product of determinant starts at 0, so that it always returns 0. FINDING (C106_all_refuted): the evaluation for all vertices adds matrices of different sizes."},
  {"property": "C107", "status": "proved", "theorems": ["C107_sampling", "C107_single_refuted", "C107_skip_refuted", "C107_vertex_refuted"], "note": "Real numbers instead of double; depends on the axioms of the real numbers of the standard library (DESIGN.md, section 1). FINDING (C107_single_refuted): one sample is not finite. FINDING (C107_skip_refuted): setSkip can only be called after construction, when the eigenvalues have been stored; the interval then divides by the first eigenvalue 0. FINDING (C107_vertex_refuted): for a single vertex, the second eigenvalue is read although there is none."},
  {"property": "C108", "status": "proved", "theorems": ["C108_order", "C108_max", "C108_lipschitz", "C108_bound", "C108_single_refuted"], "note": "Real numbers instead of double; depends on the axioms of the real numbers of the standard library (DESIGN.md, section 1). FINDING (C108_single_refuted): for order 0 and a single point, the end of an empty vector is dereferenced."},
  {"property": "C109", "status": "proved", "theorems": ["C109_measure", "C109_measure_refuted", "C109_gaussian", "C109_bandwidth_refuted", "C109_scale_refuted"], "note": "The theorems about truncated Gaussians use real numbers and depend on the axioms of the real numbers of the standard library; the others are closed. FINDING (C109_measure_refuted): more neighbours than points are undefined behaviour. FINDING (C109_bandwidth_refuted): bandwidth 0 gives no finite density. FINDING (C109_scale_refuted): the exponent divides by the bandwidth instead of its square, so that densities depend on the unit of length."},
  {"property": "C110", "status": "proved", "theorems": ["C110_lens"], "note": "Closed under the global context. "},
  {"property": "C111", "status": "proved", "theorems": ["C111_integral", "C111_total"], "note": "Closed under the global context. "},
  {"property": "C112", "status": "proved", "theorems": ["C112_throws", "C112_regression", "C112_power", "C112_short_refuted"], "note": "Real numbers instead of double; depends on the axioms of the real numbers of the standard library (DESIGN.md, section 1). FINDING (C112_short_refuted): fewer than two samples give no finite dimension."},
  {"property": "C113", "status": "proved", "theorems": ["C113_none", "C113_step", "C113_bounds", "C113_affine", "C113_longer_refuted", "C113_weight_refuted"], "note": "Closed under the global context. FINDING (C113_longer_refuted): values beyond the number of points become 0. FINDING (C113_weight_refuted): a neighbour at a distance below 1 has a larger weight than the point itself, so that two points can exchange their order."},
  {"property": "C114", "status": "proved", "theorems": ["C114_nn", "C114_range", "C114_order", "C114_throws", "C114_zero_refuted", "C114_narrow_refuted", "C114_last_refuted"], "note": "Closed under the global context. FINDING (C114_zero_refuted): k = 0 gives no finite estimates. FINDING (C114_narrow_refuted): a range with kMax <= kMin + 1 gives no finite estimates. FINDING (C114_last_refuted): the last of the kMax neighbours has no influence."},
  {"property": "C115", "status": "proved", "theorems": ["C115_gap", "C115_missing_refuted"], "note": "Closed under the global context. The singular values of Eigen are a parameter. FINDING (C115_missing_refuted): neighbourhoods with fewer than two singular values are omitted, so that the estimates do not belong to the points in order."},
  {"property": "C116", "status": "proved", "theorems": ["C116_mle", "C116_scale", "C116_order", "C116_throws", "C116_small_refuted"], "note": "Real numbers instead of double; depends on the axioms of the real numbers of the standard library (DESIGN.md, section 1). FINDING (C116_small_refuted): for kMin = 1, the two missing estimates are counted in the denominator, so that estimates are too small by the factor ( kMax - 2 ) / kMax."},
  {"property": "C117", "status": "proved", "theorems": ["C117_kernel", "C117_additive", "C117_diagonal", "C117_semidefinite", "C117_metric", "C117_feature", "C117_sigma_refuted"], "note": "Real numbers instead of double; depends on the axioms of the real numbers of the standard library (DESIGN.md, section 1). FINDING (C117_sigma_refuted): the smoothing parameter is missing from the exponents and only scales the kernel."},
  {"property": "C118", "status": "proved", "theorems": ["C118_linear", "C118_weight", "C118_metric_refuted", "C118_gaussian_refuted"], "note": "Real numbers instead of double; depends on the axioms of the real numbers of the standard library (DESIGN.md, section 1). FINDING (C118_metric_refuted, C118_gaussian_refuted): pseudoMetric uses the pair ( D, E ) for all three kernel values, so that it is always 0 and the Gaussian kernel always 1."},
  {"property": "C119", "status": "proved", "theorems": ["C119_sum", "C119_translation", "C119_bounds", "C119_density", "C119_empty_refuted"], "note": "Real numbers instead of double; depends on the axioms of the real numbers of the standard library (DESIGN.md, section 1). FINDING (C119_empty_refuted): without samples there is no finite estimate."},
  {"property": "C120", "status": "proved", "theorems": ["C120_sphere", "C120_centre_refuted", "C120_degenerate", "C120_throws"], "note": "Real numbers instead of double; depends on the axioms of the real numbers of the standard library (DESIGN.md, section 1). FINDING (C120_centre_refuted): the sign of the centre is wrong."},
  {"property": "C121", "status": "proved", "theorems": ["C121_erdos_renyi", "C121_extremes", "C121_weighted", "C121_loop_refuted"], "note": "Closed under the global context. The random number generator is a sequence of Booleans. FINDING (C121_loop_refuted): generateWeightedRandomGraph does not terminate for probability 1."},
  {"property": "C122", "status": "proved", "theorems": ["C122_segments", "C122_kind", "C122_report", "C122_extremum_refuted", "C122_regular_refuted"], "note": "Closed under the global context. The printed text is modelled by its contents. FINDING (C122_extremum_refuted): for a strict local extremum the behaviour is undefined, since the iterator after the end of an empty vector is used; this happens in the test of the project. FINDING (C122_regular_refuted): regular vertices are reported as saddles."},
  {"property": "C123", "status": "proved", "theorems": ["C123_load", "C123_round_trip", "C123_integers", "C123_garbage_refuted", "C123_comment_refuted", "C123_blank_refuted"], "note": "Closed under the global context. The conversion of a word is a parameter, or the one of C84 for integers. FINDING (C123_garbage_refuted): words that are no numbers are read as 0. FINDING (C123_comment_refuted): an indented comment is read as a point. FINDING (C123_blank_refuted): a line of spaces throws."},
  {"property": "C124", "status": "proved", "theorems": ["C124_parse", "C124_write", "C124_read", "C124_missing", "C124_round_trip", "C124_alone_refuted", "C124_quote_refuted", "C124_key_refuted", "C124_garbage_refuted", "C124_assert_refuted"], "note": "Closed under the global context. RapidJSON is modelled by a parser for strings without escapes, natural numbers, arrays and objects; C124_parse relates it to a grammar. FINDING (C124_alone_refuted): the output of writeJSON cannot be read by readJSON. FINDING (C124_quote_refuted): strings are not escaped. FINDING (C124_key_refuted): a key 'size' shadows the size. FINDING (C124_garbage_refuted): strings that are no numbers are read as 0. FINDING (C124_assert_refuted): missing members and wrong types violate assertions instead of throwing."},
  {"property": "C125", "status": "proved", "theorems": ["C125_sphere", "C125_uniform", "C125_torus", "C125_rejection", "C125_density", "C125_density_refuted"], "note": "Real numbers instead of double; depends on the axioms of the real numbers of the standard library (DESIGN.md, section 1). The random number generators are sequences of draws. FINDING (C125_density_refuted): for r > R > 0 the density is negative at pi and exceeds the bound at 0, so that the sample is not uniform."},
  {"property": "C126", "status": "proved", "theorems": ["C126_basename", "C126_extension"], "note": "Closed under the global context. The function basename of POSIX is modelled according to its specification."},
  {"property": "C127", "status": "proved", "theorems": ["C127_lines", "C127_throws"], "note": "Closed under the global context. An index outside of the container is undefined and excluded."},
  {"property": "C128", "status": "proved", "theorems": ["C128_filtration", "C128_normalised", "C128_maps", "C128_single_refuted", "C128_reuse_refuted", "C128_negative_refuted"], "note": "Closed under the global context. Rational numbers instead of floating point numbers; the conversion of a line is a parameter. FINDING (C128_single_refuted): a spectrum with a single line is not normalised. FINDING (C128_reuse_refuted): values of a longer file that has been read before remain in the maps. FINDING (C128_negative_refuted): normalisation with a negative sum does not yield a filtration."},
  {"property": "C129", "status": "proved", "theorems": ["C129_expressions", "C129_read", "C129_unlabelled", "C129_errors", "C129_labels", "C129_blank_refuted", "C129_isolated_refuted", "C129_accepted_refuted", "C129_rejected_refuted", "C129_labels_refuted"], "note": "Closed under the global context. The regular expressions are modelled by functions; C129_expressions proves that they compute the matches. FINDING (C129_labels_refuted): the labels follow the lexicographical order of the numbers and skip empty labels, hence they are not in the order of the vertices as documented. FINDING (C129_blank_refuted): an empty line, as in the files of the tests, is undefined; if it is read as a null character, it throws inside of the sections. FINDING (C129_isolated_refuted): without labels and edges, no vertices are created. FINDING (C129_accepted_refuted): '1 2.5' is read as an edge from 1 to 2, endpoints need not be vertices, loops are dropped, and the numbers 1 and 01 may both occur. FINDING (C129_rejected_refuted): negative weights and coordinates after a label are rejected."},
  {"property": "C130", "status": "proved", "theorems": ["C130_read", "C130_matrix_errors", "C130_indicator_errors", "C130_crossing", "C130_isolated_refuted", "C130_label_refuted", "C130_no_labels_refuted", "C130_foreign_refuted"], "note": "Closed under the global context. The files are given by their contents; the conversion of texts is a parameter. FINDING (C130_isolated_refuted): nodes without edges are missing in the complexes, although the reader treats them for the attributes. FINDING (C130_label_refuted): if graph identifiers are not contiguous, graphs get the labels of others. FINDING (C130_no_labels_refuted): reading without labels always throws std::out_of_range for graphs with edges. FINDING (C130_foreign_refuted): a node without graph becomes a vertex of the first graph."},
  {"property": "C131", "status": "proved", "theorems": ["C131_expressions", "C131_read", "C131_attributes", "C131_labels", "C131_errors", "C131_write", "C131_roundtrip", "C131_negative_refuted", "C131_vertex_data_refuted", "C131_vertex_zero_refuted", "C131_nested_refuted", "C131_distinct_refuted", "C131_label_order_refuted", "C131_unknown_refuted", "C131_levels"], "note": "Closed under the global context. Regular expressions are modelled by matching functions that are proved to decide the languages of the expressions; the conversion and the printing of numbers are parameters. FINDING (C131_negative_refuted): negative weights are read as 0. FINDING (C131_vertex_data_refuted): the data of vertices are written but not read. FINDING (C131_vertex_zero_refuted): labels cannot be written with a vertex 0. FINDING (C131_nested_refuted): nested records such as graphics end in undefined behaviour. FINDING (C131_distinct_refuted): distinct identifiers may yield one vertex. FINDING (C131_label_order_refuted): labels are not in the order of the vertices. FINDING (C131_unknown_refuted): weighted edges to unknown identifiers are accepted."},
  {"property": "C132", "status": "proved", "theorems": ["C132_expressions", "C132_index", "C132_read", "C132_rejected", "C132_errors", "C132_blank_line_refuted", "C132_name_refuted", "C132_carriage_return_refuted", "C132_unsigned_refuted", "C132_unknown_type_refuted", "C132_few_values_refuted", "C132_number_of_points_refuted"], "note": "Closed under the global context. Regular expressions are modelled by matching functions that are proved to decide the languages of the expressions; the conversion of numbers is a parameter and indices do not overflow. FINDING (C132_blank_line_refuted): blank lines are read as a value 0, which shifts all data. FINDING (C132_name_refuted): names with underscores make the declaration of scalars a line of values. FINDING (C132_carriage_return_refuted): so does white space after the number of point data. FINDING (C132_unsigned_refuted): points of unsigned types are never read. FINDING (C132_unknown_type_refuted): the size of other types is indeterminate. FINDING (C132_few_values_refuted): with too few values, data of edges are used for points and edges lead to missing vertices. FINDING (C132_number_of_points_refuted): the number of points is not compared with the dimensions."},
  {"property": "C133", "status": "proved", "theorems": ["C133_read", "C133_errors", "C133_sizes", "C133_types_refuted", "C133_negative_refuted", "C133_binary_refuted", "C133_order_refuted", "C133_elements_refuted", "C133_truncated_refuted", "C133_face_refuted"], "note": "Closed under the global context. Conversions of numbers are parameters; a reader is used once. FINDING (C133_binary_refuted): every binary file with a scalar property leads to undefined behaviour, since the sizes of lists are not initialised. FINDING (C133_types_refuted): float32, float64, int8, int16 and uint16 are not known. FINDING (C133_order_refuted): faces declared before vertices shift the positions of the coordinates. FINDING (C133_elements_refuted): lines of other elements are not skipped. FINDING (C133_truncated_refuted): a truncated file is accepted if its last line has no end. FINDING (C133_face_refuted): faces with repeated vertices lead to undefined behaviour, and indices are not compared with the number of vertices. FINDING (C133_negative_refuted): a negative number of vertices in the header is accepted and wraps around modulo 2^64."},
  {"property": "C134", "status": "proved", "theorems": ["C134_read", "C134_complex", "C134_others", "C134_rectangle_refuted"], "note": "Closed under the global context. The library is not modelled: a data set is given by its extents, its type and its values in the order of the file. FINDING (C134_rectangle_refuted): the number of rows is used as the length of a row, so that for fields that are not square neighbouring entries are not connected and ends of rows are connected."},
  {"property": "C135", "status": "proved", "theorems": ["C135_formats", "C135_attributes", "C135_state", "C135_functor", "C135_mesh", "C135_functor_refuted", "C135_labels_refuted", "C135_index_refuted", "C135_sorted_refuted", "C135_case_refuted", "C135_silent_refuted"], "note": "Closed under the global context. Parameters and simplifications are those of the readers. FINDING (C135_functor_refuted): the functor is ignored for all formats but VTK, although it is documented to assign the weights. FINDING (C135_labels_refuted): labels of a previous file remain. FINDING (C135_index_refuted): the first label need not belong to the vertex 0, as documented. FINDING (C135_sorted_refuted): complexes of edge lists are neither monotone nor sorted, as documented. FINDING (C135_case_refuted): endings in upper case are read as edge lists. FINDING (C135_silent_refuted): a VTK file without the expected header is not reported."},
  {"property": "C136", "status": "proved", "theorems": ["C136_read", "C136_total", "C136_names", "C136_errors", "C136_functor_refuted", "C136_monotone_refuted", "C136_declaration_refuted", "C136_order_refuted", "C136_duplicate_refuted", "C136_empty_data_refuted", "C136_missing_weight_refuted", "C136_valid_refuted", "C136_names_refuted"], "note": "Closed under the global context. The parser tinyxml2 is not modelled: the reader is modelled on the tree of elements. FINDING (C136_functor_refuted, C136_monotone_refuted): unless the weights of edges are switched off, the functor is never used, hence edges of graphs with weighted nodes have weight zero and the complex is not monotone. FINDING (C136_declaration_refuted): a file without an XML declaration, and a file that cannot be loaded, lead to undefined behaviour. FINDING (C136_order_refuted): vertices follow the lexicographic order, contrary to the documentation of id_to_index. FINDING (C136_duplicate_refuted): nodes with equal identifiers are accepted, and edges then use weights of other nodes. FINDING (C136_empty_data_refuted): data without text leads to undefined behaviour. FINDING (C136_missing_weight_refuted): a node without weight is accepted, but its edges then throw. FINDING (C136_valid_refuted): valid files with keys for all elements or edges without identifier are rejected. FINDING (C136_names_refuted): the names of attributes are the identifiers of the keys instead of the names."},
  {"property": "C137", "status": "proved", "theorems": ["C137_equal", "C137_less", "C137_text", "C137_wrapper", "C137_values", "C137_format", "C137_fill", "C137_order", "C137_symmetry_refuted", "C137_format_refuted"], "note": "Closed under the global context. Coordinates and numbers are integers; the logarithm is exact. FINDING (C137_symmetry_refuted): the comparison of points of different dimensions is not symmetric, differs from the order, and reads past the end of the second point. FINDING (C137_format_refuted): the maximum zero leads to an undefined conversion, and negative numbers are filled before the sign."},
  {"property": "C138", "status": "proved", "theorems": ["C138_picture", "C138_errors", "C138_required", "C138_placed_refuted", "C138_container_refuted", "C138_triangle_refuted"], "note": "Closed under the global context. The texts of coordinates and sizes are parameters. FINDING (C138_placed_refuted): a complex without its vertices yields lines at names that are never placed. FINDING (C138_container_refuted): a vertex beyond the end of the container leads to undefined behaviour. FINDING (C138_triangle_refuted): by default a filled triangle and its boundary yield the same picture."},
  {"property": "C139", "status": "proved", "theorems": ["C139_components", "C139_empty", "C139_translation", "C139_variance_refuted", "C139_ragged_refuted"], "note": "Real numbers instead of double; depends on the axioms of the real numbers of the standard library (DESIGN.md, section 1). The singular value decomposition of Eigen is a parameter with the usual specification. FINDING (C139_variance_refuted): squared singular values are divided by the number of columns instead of the number of points, hence are no variances. FINDING (C139_ragged_refuted): rows shorter than the first one are read past their end."},
  {"property": "C140", "status": "proved", "theorems": ["C140_spaces", "C140_normal", "C140_orientation", "C140_weights", "C140_farthest", "C140_curvature", "C140_normal_refuted", "C140_orientation_refuted", "C140_choice_refuted"], "note": "Real numbers instead of double; depends on the axioms of the real numbers of the standard library (DESIGN.md, section 1). The decompositions of Eigen are parameters with the usual specifications; fitSpheres, which is never called, is not modelled. FINDING (C140_normal_refuted): the centroid is divided by the number of all points; the normal of a point on a line can be parallel to the line. FINDING (C140_orientation_refuted): adjacent points can end up with opposite normals although a consistent orientation exists. FINDING (C140_choice_refuted): the first positive eigenvalue is used instead of the smallest one."},
  {"property": "C141", "status": "proved", "theorems": ["C141_add", "C141_pointwise", "C141_distance", "C141_first_norm", "C141_integral_p", "C141_normalize", "C141_norm_refuted", "C141_single_refuted", "C141_negative_refuted"], "note": "Real numbers instead of double; depends on the axioms of the real numbers of the standard library (DESIGN.md, section 1). FINDING (C141_norm_refuted): integral_p is not the norm of the function unless the exponent is 1; it changes if an interval is split. FINDING (C141_single_refuted): normalize returns functions with one value as they are. FINDING (C141_negative_refuted): normalize takes 0 for the minimum; negative values leave the range, may be reversed, and a maximum of 0 throws."},
  {"property": "C142", "status": "proved", "theorems": ["C142_round_trip", "C142_append", "C142_origin", "C142_comment_refuted", "C142_inverted_refuted"], "note": "Closed under the global context. Domain and image are integral types. FINDING (C142_comment_refuted): a comment between the lines of an interval makes the reader pair ends with starts. FINDING (C142_inverted_refuted): an interval whose end precedes its start ends the program, since add is noexcept."},
  {"property": "C143", "status": "proved", "theorems": ["C143_perversities", "C143_signature", "C143_signature_fails", "C143_order", "C143_euler", "C143_euler_poincare", "C143_dimension_zero_refuted"], "note": "Closed under the global context. FINDING (C143_dimension_zero_refuted): for dimension zero, getPerversities throws std::out_of_range instead of yielding the single empty perversity."},
  {"property": "C144", "status": "proved", "theorems": ["C144_graph", "C144_few_strata", "C144_filtration", "C144_lower", "C144_upper", "C144_merge", "C144_many_vertices_refuted", "C144_every_other_refuted", "C144_upper_refuted", "C144_merge_refuted"], "note": "Closed under the global context. FINDING (C144_every_other_refuted): only consecutive strata are connected, though the comment says that every stratum is connected to every other one. FINDING (C144_many_vertices_refuted): vertices are numbers of 16 bits, hence larger graphs lose vertices. FINDING (C144_upper_refuted): the upper filtration is returned unsorted. FINDING (C144_merge_refuted): merge refuses diagrams of equal positive dimension and accepts ones of different dimension."},
  {"property": "C145", "status": "proved", "theorems": ["C145_absolute", "C145_names", "C145_weights", "C145_isolated", "C145_unknown", "C145_standard", "C145_minimum", "C145_comparison_refuted", "C145_absolute_weights_refuted"], "note": "Closed under the global context. FINDING (C145_comparison_refuted, C145_absolute_weights_refuted): the comparisons of the absolute filtration are no strict weak orderings; an edge and a larger vertex with the same weight precede each other, which happens in the tool after the assignment of weights."},
  {"property": "C146", "status": "proved", "theorems": ["C146_unchanged", "C146_abs", "C146_minmax", "C146_standardize", "C146_fails", "C146_monotone", "C146_range_refuted", "C146_equal_refuted"], "note": "Real numbers instead of double; depends on the axioms of the real numbers of the standard library (DESIGN.md, section 1). FINDING (C146_range_refuted): minmax takes the weights of edges to [-1,1], not those of vertices. FINDING (C146_equal_refuted): if all edges have the same weight, an assertion stops the program for every strategy."},
  {"property": "C147", "status": "proved", "theorems": ["C147_pairs", "C147_number", "C147_matrix", "C147_distances", "C147_store", "C147_kernel_refuted"], "note": "Real numbers instead of double; depends on the axioms of the real numbers of the standard library (DESIGN.md, section 1). FINDING (C147_kernel_refuted): the diagonal of a matrix of kernel values is zero as well, hence the matrix is not positive semidefinite."},
  {"property": "C148", "status": "proved", "theorems": ["C148_name", "C148_groups", "C148_dimensions_refuted"], "note": "Closed under the global context. FINDING (C148_dimensions_refuted): the letters are not told apart and numbers are reduced modulo 2^32, so that files of a data set may share a dimension; only the first of these is used."},
  {"property": "C149", "status": "proved", "theorems": ["C149_method", "C149_sum", "C149_hausdorff", "C149_last_refuted", "C149_kernel_refuted", "C149_root_refuted", "C149_missing_refuted"], "note": "Real numbers instead of double; depends on the axioms of the real numbers of the standard library (DESIGN.md, section 1). FINDING (C149_last_refuted): -h has no effect after -b. FINDING (C149_kernel_refuted): after -S, distances are negated as kernel values. FINDING (C149_root_refuted): Wasserstein and bottleneck distances are no powers, but a root is taken, hence the result is not the distance. FINDING (C149_missing_refuted): a missing diagram of positive dimension makes the Wasserstein distance throw."},
  {"property": "C150", "status": "proved", "theorems": ["C150_maximum", "C150_extremes", "C150_clean", "C150_factor", "C150_duplicates", "C150_invalid", "C150_parse", "C150_normalize_refuted", "C150_negative_refuted", "C150_names_refuted"], "note": "Closed under the global context. DataType is an integral type. FINDING (C150_normalize_refuted): normalization of diagrams changes nothing. FINDING (C150_negative_refuted): with negative coordinates the factor puts unpaired points below the diagonal. FINDING (C150_names_refuted): the extension is removed twice from a name without a dimension."},
  {"property": "C151", "status": "proved", "theorems": ["C151_calls", "C151_relevance", "C151_labels_refuted"], "note": "Closed under the global context. Quotients of sizes are rational numbers. FINDING (C151_labels_refuted): if labels exist, but not for all vertices, the tool ends with an exception."},
  {"property": "C152", "status": "proved", "theorems": ["C152_tool", "C152_maximum_refuted"], "note": "Closed under the global context. Weights are integers; reading, normalization and expansion come before the model, labels are left out. FINDING (C152_maximum_refuted): unless empty graphs are ignored, a maximum dimension above that of the largest clique suppresses all output, because dimensions are processed in descending order."},
  {"property": "C153", "status": "proved", "theorems": ["C153_points", "C153_unit", "C153_unit_refuted"], "note": "Real numbers instead of double; depends on the axioms of the real numbers of the standard library (DESIGN.md, section 1). FINDING (C153_unit_refuted): the comment says that all weights are in [0,1] after normalization; with negative weights neither filtration yields this, because the smallest absolute weight, and absolute values, are scaled by the signed range."},
  {"property": "C154", "status": "proved", "theorems": ["C154_glyphs", "C154_zero_refuted", "C154_log_ends_refuted", "C154_print_refuted"], "note": "Real numbers instead of double; depends on the axioms of the real numbers of the standard library (DESIGN.md, section 1). std::nextafter is a pair of functions that stay between samples; the functions are arbitrary. FINDINGS: if the smallest value of the domain is not positive, a value that is not finite is converted to an index, which is undefined (C154_zero_refuted); the announced ends of logarithmic bins, which use n-1 intervals, are not those of the histogram, and the last one has no bin (C154_log_ends_refuted); the columns of the output are exchanged with respect to the documentation (C154_print_refuted)."},
  {"property": "C155", "status": "proved", "theorems": ["C155_signatures", "C155_order", "C155_length", "C155_normalized", "C155_filter", "C155_unpaired", "C155_empty_refuted"], "note": "Real numbers instead of double; depends on the axioms of the real numbers of the standard library (DESIGN.md, section 1). Coordinates are real numbers or infinite. FINDING (C155_empty_refuted): for an empty diagram, for example if the filter removes all points, the memory to be reserved is computed from -1, and std::length_error ends the program."},
  {"property": "C156", "status": "proved", "theorems": ["C156_levels"], "note": "Closed under the global context. Components are given by lists of representatives; links are paths of edges at the second level."},
  {"property": "C157", "status": "proved", "theorems": ["C157_diagram", "C157_analysis", "C157_condensed", "C157_short_refuted"], "note": "Real numbers instead of double; depends on the axioms of the real numbers of the standard library (DESIGN.md, section 1). C157_diagram is closed under the global context. FINDING (C157_short_refuted): a line with a single value, whose diagram has one point, ends the program with an exception, because unpaired creators of the largest dimension are left out."},
  {"property": "C158", "status": "proved", "theorems": ["C158_filtration", "C158_files", "C158_normalised", "C158_centrality", "C158_superlevel_refuted", "C158_sum_refuted", "C158_dimension_refuted", "C158_empty_refuted", "C158_isolated_refuted"], "note": "Closed under the global context. Data are integers and sums exact; normalized degrees and centralities are rational numbers. FINDINGS: superlevel sets are sorted in ascending order, which is no filtration (C158_superlevel_refuted); the dimension has no effect because expanded complexes are discarded (C158_dimension_refuted); with sums of degrees, unpaired points can be written on the diagonal (C158_sum_refuted); a graph without edges ends the calculation (C158_empty_refuted); isolated vertices lead to undefined behaviour (C158_isolated_refuted)."},
  {"property": "C159", "status": "proved", "theorems": ["C159_dimensions"], "note": "Closed under the global context. Cycles are those of the boundary matrix over the field with two elements."},
  {"property": "C160", "status": "proved", "theorems": ["C160_contrast", "C160_patch", "C160_brightness", "C160_result", "C160_sphere", "C160_norm_refuted", "C160_brightness_refuted", "C160_discard_refuted", "C160_sphere_refuted"], "note": "Real numbers instead of double; depends on the axioms of the real numbers of the standard library (DESIGN.md, section 1). Sums are exact; ceil( 0.8*n ) is that of the exact product. FINDINGS: the division by the norm does not normalize because the square root is missing and differences are counted twice (C160_norm_refuted); black pixels break the invariance under scaling (C160_brightness_refuted); as soon as a patch is discarded, the last loop accesses a point outside of the filtered cloud and the tool throws (C160_discard_refuted); the Euclidean norm is accumulated as an int, so that points are not on the sphere or not even finite (C160_sphere_refuted)."},
  {"property": "C161", "status": "proved", "theorems": ["C161_name", "C161_numbers", "C161_failures", "C161_all_files_refuted"], "note": "Closed under the global context. The reader is that of GML files (C135); here, its complexes are the input. FINDING: different files may have the same identifier, for example those of run2_step10.gml and run2_step11.gml, and all but the last one are lost without a message (C161_all_files_refuted)."},
  {"property": "C162", "status": "proved", "theorems": ["C162_diagrams", "C162_document", "C162_numbering_refuted", "C162_json_refuted"], "note": "Closed under the global context. A file that is not a matrix leaves an empty complex (C87). FINDING: the complex is sorted lexicographically, not by weight, so the destruction values depend on the numbers of the vertices (C162_numbering_refuted); with two or more diagrams there is no comma between them and the document is not JSON (C162_json_refuted)."},
  {"property": "C163", "status": "proved", "theorems": ["C163_ascending", "C163_distance", "C163_collection", "C163_descending_refuted"], "note": "Closed under the global context. C163_collection holds for all dimensions of the expansion. FINDING: the second pass, which is documented as the descending filtration, sorts in ascending order although the vertices have the maximum weight, so edges precede their vertices and the points are not those of superlevel sets (C163_descending_refuted)."},
  {"property": "C164", "status": "proved", "theorems": ["C164_filtration", "C164_files", "C164_edge_lists", "C164_isolated_refuted"], "note": "Closed under the global context. FINDING: a line such as '0 0' makes a vertex without any edge, for which there is no degree, so that the values of all larger vertices are shifted and the last one is read out of bounds (C164_isolated_refuted)."},
  {"property": "C165", "status": "proved", "theorems": ["C165_distances", "C165_degrees", "C165_document", "C165_unknown", "C165_degree_refuted", "C165_single_refuted"], "note": "Closed under the global context. Distances are integers and sums are exact. FINDING: the unweighted degrees count the point itself and are one more than those of the neighbourhood graph (C165_degree_refuted); for a single point the output starts with a comma and is no JSON document (C165_single_refuted)."},
  {"property": "C166", "status": "proved", "theorems": ["C166_normalise", "C166_invert", "C166_diagrams", "C166_document", "C166_names", "C166_default_epsilon", "C166_unknown_refuted"], "note": "Closed under the global context. Normalisation and inversion are modelled for rational numbers, diagrams for integer values. FINDING: the default threshold is zero, which never yields any diagram (C166_default_epsilon); an unknown name of a descriptor gives an empty vector of values that is read out of bounds (C166_unknown_refuted)."},
  {"property": "C167", "status": "proved", "theorems": ["C167_classes", "C167_output", "C167_empty", "C167_isolated_refuted"], "note": "Closed under the global context. Nodes and edges are modelled as numbers and values rather than text. FINDING: components without an edge of the hierarchy are not displayed, so that a monotone function has a point in its diagram but no node (C167_isolated_refuted); an empty complex reads the front of an empty vector (C167_empty)."},
  {"property": "C168", "status": "proved", "theorems": ["C168_communities", "C168_complex", "C168_document", "C168_labels", "C168_threshold_refuted"], "note": "Closed under the global context. Weights are integers and the flag for normalisation is left out. FINDING: vertices have weight zero and are subject to the threshold, so that a negative threshold removes all edges as well, however small their weights (C168_threshold_refuted)."},
  {"property": "C169", "status": "proved", "theorems": ["C169_strata", "C169_short", "C169_no_singular", "C169_dimension", "C169_values", "C169_canonical", "C169_inverted_refuted", "C169_front_refuted", "C169_files", "C169_rows", "C169_file_refuted"], "note": "Closed under the global context. The loading of the complex is C56-C60 and left out here; the standardisation of singularity values is left out; weights of the subdivision are doubled so that they remain integers. FINDINGS: with --invert, the second stratum need not be a complex (C169_inverted_refuted); the front of an empty vector of diagrams is accessed if all vertices of a triangle are singular or if there are only points (C169_front_refuted, C169_points_example); the number in the name of a file is the position of a diagram, not its dimension (C169_file_refuted)."},
  {"property": "C170", "status": "proved", "theorems": ["C170_complex", "C170_nodes", "C170_short", "C170_reports", "C170_last", "C170_inverted_refuted", "C170_normalized_refuted", "C170_negative_refuted", "C170_separator_refuted"], "note": "Closed under the global context. Data are integers; after normalisation they are given in units of the reciprocal of the range. FINDINGS: inversion and normalisation skip vertices, so that with weights of nodes components are destroyed before they are created (C170_inverted_refuted, C170_normalized_refuted); the same happens for negative weights (C170_negative_refuted); diagrams are compared by their points only, and empty lines between two reports may be missing with --infinity (C170_separator_refuted)."},
  {"property": "C171", "status": "proved", "theorems": ["C171_lines", "C171_prominence", "C171_diagram", "C171_empty", "C171_identity", "C171_reader", "C171_repeated_refuted", "C171_minimum_refuted"], "note": "Closed under the global context. Numbers are integers and --normalize is not modelled here; C171_reader shows that the complex is the one of the reader (C128). C171_prominence needs distinct positions. FINDINGS: an empty spectrum fails an assertion in the default mode (C171_empty); of lines with the same position only one survives, possibly the one with the smaller prominence (C171_repeated_refuted); with negative intensities the highest line is not paired with the smallest intensity, contrary to the comment (C171_minimum_refuted)."},
  {"property": "C172", "status": "proved", "theorems": ["C172_scales", "C172_output", "C172_line_refuted", "C172_repeated_refuted"], "note": "Real numbers instead of double; depends on the axioms of the real numbers of the standard library (DESIGN.md, section 1). Distances are fixed-point numbers (any function of the squared distance that is positive for positive arguments); the solver of Eigen is assumed to give a spectral decomposition, as in C106. C172_scales holds for all complexes. FINDINGS: points with one coordinate are read out of bounds (C172_line_refuted); equal points may have no edges, so that the scale is 0/0 (C172_repeated_refuted)."},
  {"property": "C173", "status": "proved", "theorems": ["C173_names", "C173_files", "C173_mean_zero", "C173_stem_refuted", "C173_mean_refuted", "C173_none_refuted"], "note": "Closed under the global context. Numbers are integers as in C38; the contents of the input files are given. FINDINGS: inputs with the same stem overwrite each other (C173_stem_refuted); --mean never terminates normally if a diagram has an interval, since clean() dereferences end() (C173_mean_refuted, see C60); --mean without files throws (C173_none_refuted)."},
  {"property": "C174", "status": "proved", "theorems": ["C174_defined", "C174_matrix", "C174_diagrams", "C174_spine", "C174_dumb_spine", "C174_persistence"], "note": "Closed under the global context. Simplicial homology over the field with two elements is specified in SpecSimplicial.v without positions, matrices or algorithms. Every elementary collapse is shown to change the dimensions of cycles and boundaries by the same number."},
  {"property": "C175", "status": "proved", "theorems": ["C175_simplex_text", "C175_complex_text", "C175_output", "C175_tikz", "C175_sign", "C175_line_refuted"], "note": "Closed under the global context. The point cloud is given; smallest balls are a parameter, as in C70. A negative radius acts like its absolute value (C175_sign). FINDING: --tikz throws for points with one coordinate, after all calculations (C175_line_refuted); the short option -s has no argument in the string for getopt_long, so that it assigns a null pointer to a string (from reading)."},
  {"property": "C176", "status": "proved", "theorems": ["C176_skeleton", "C176_cone", "C176_suspension", "C176_sphere", "C176_skeleton_bound_refuted"], "note": "Closed under the global context. Betti numbers are dimensions of cycles and boundaries of chains (SpecSimplicial, C174), which do not mention matrices, diagrams or the reduction. C176_skeleton_bound_refuted shows that the bound for skeletons cannot be weakened to d <= k. Vertices are unbounded (see C30)."},
  {"property": "C177", "status": "proved", "theorems": ["C177_homology", "C177_output", "C177_points_refuted", "C177_empty_refuted"], "note": "Closed under the global context. C177_output is stated for runs that end without an exception; C177_homology shows that the first part always succeeds. Betti numbers of the first part are those of chains (C174). The numbers of the second part are read off the diagrams of calculateIntersectionHomology; that these are the dimensions of intersection homology is C79, which needs a complex in filtration order, and the tool does not sort the subdivision. Weights are those of the tool (zero); vertices are read as in C90. FINDING: a triangulation of points only throws std::out_of_range from getPerversities (C177_points_refuted), an empty list throws std::runtime_error from dimension() (C177_empty_refuted); both after a part of the output has been written."},
  {"property": "C178", "status": "proved", "theorems": ["C178_ranks", "C178_betti", "C178_order", "C178_superlevel", "C178_superlevel_order"], "note": "Closed under the global context. Homology is that of chains on vertex sets (SpecSimplicial, C174), without matrices and indices; C55 states the first part for the boundary matrix. Unpaired creators of the largest dimension are included. Data are integers, and the largest one is reserved for unpaired points; C178_order and the theorems for superlevels need data below it."},
  {"property": "C179", "status": "proved", "theorems": ["C179_image", "C179_single_cell_refuted"], "note": "Closed under the global context. Values are integers within bounds, below the value for infinity; unpaired points are printed as inf. Points on the diagonal do not contribute to the numbers, so that nothing is lost by removing them. FINDING: for an image with a single cell nothing is printed, although its part above its value has one component (C179_single_cell_refuted): unpaired creators of the dimension of the complex are left out by default."},
  {"property": "C180", "status": "proved", "theorems": ["C180_sublevels", "C180_superlevels_refuted"], "note": "Closed under the global context. Proved for the default, sublevel sets. Numbers are integers, and conversions of texts are parameters (C133); statistics on the error stream are left out. FINDING: with --superlevel the weights of simplices become the minimum over their vertices, but the complex is then sorted by ascending weights instead of descending ones. Faces come after the simplices they belong to, and the points do not describe superlevel sets: for two triangles the program reports a hole although no superlevel set has one (C180_superlevels_refuted)."},
  {"property": "C181", "status": "proved", "theorems": ["C181_grid", "C181_single_point_refuted"], "note": "Closed under the global context. Numbers are integers; the conversion of texts is a parameter (C132). The complex has no triangles, and cycles of the graph are not printed because unpaired creators of the largest dimension are left out by default. FINDING: for a grid with a single point nothing is printed, although it has a component (C181_single_point_refuted)."},
  {"property": "C182", "status": "proved", "theorems": ["C182_rips", "C182_block", "C182_points", "C182_divisor", "C182_arguments", "C182_normalise_refuted", "C182_isolated_refuted"], "note": "Closed under the global context. Distances are integers, normalised values rational numbers; loading the point cloud and converting epsilon are parameters. FINDING: the normalisation divides by the square of the greatest distance, because the functor for Euclidean distances returns squares, so that values are not mapped to the unit interval (C182_normalise_refuted). FINDING: points that are further apart than epsilon are components, but nothing is printed for them (C182_isolated_refuted). FINDING: with an input but without a threshold, a string is constructed from a null pointer (C182_arguments)."},
  {"property": "C183", "status": "proved", "theorems": ["C183_witness", "C183_landmarks", "C183_small", "C183_arguments", "C183_dimension_refuted"], "note": "Closed under the global context. Distances are integers, the fraction of landmarks is a rational number; loading the point cloud, random numbers and std::nth_element are parameters. FINDING: with the default options, every point cloud with less than 20 points has a single landmark, and the program ends with an exception (C183_small). FINDING: the dimension is described as an optional argument, but without it the program only shows its usage, and with it the dimension is ignored (C183_arguments, C183_dimension_refuted)."},
  {"property": "C184", "status": "proved", "theorems": ["C184_eccentricity", "C184_transformed", "C184_constant_refuted", "C184_star"], "note": "Closed under the global context. The eccentricities are given; transformed ones are rational numbers, and the complex takes integers (a common multiple). FINDING: if all eccentricities agree, as for a single point or the corners of a square, no value is a number (0/0), and without points an iterator at the end is dereferenced (C184_constant_refuted)."},
  {"property": "C185", "status": "proved", "theorems": ["C185_band", "C185_level_refuted", "C185_files"], "note": "Closed under the global context. Numbers are rational; random numbers, the square root of the number of functions (any positive number) and reading the files are parameters. For different domains, sums are not pointwise (C39_sum_refuted). FINDING: the significance level is not checked, and for alpha = 1 the program ends with an exception, because the index of the quantile wraps around (C185_level_refuted)."}
]}
