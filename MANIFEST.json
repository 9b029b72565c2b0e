{
 "claims": [
  {
   "property": "C01",
   "status": "proved",
   "theorems": [
    "c01_find_answers_merge_history"
   ],
   "note": "Any history of in-range calls from UnionFind(n)."
  },
  {
   "property": "C02",
   "status": "proved",
   "theorems": [
    "c02_merge_joins_exactly_two_classes"
   ],
   "note": ""
  },
  {
   "property": "C03",
   "status": "proved",
   "theorems": [
    "c03_find_is_logarithmic"
   ],
   "note": "Links followed counted by the fuel of the modelled loop."
  },
  {
   "property": "C04",
   "status": "proved",
   "theorems": [
    "c04_label_constructor_find_returns",
    "c04_cyclic_labels_stable_answers_refuted"
   ],
   "note": "Second theorem exhibits the unstable answers of a 3-cycle."
  },
  {
   "property": "C05",
   "status": "proved",
   "theorems": [
    "c05_partition_partitions",
    "c05_partition_within_tolerance",
    "c05_partition_close_values_refuted"
   ],
   "note": ""
  },
  {
   "property": "C06",
   "status": "proved",
   "theorems": [
    "c06_quickselect_selects"
   ],
   "note": ""
  },
  {
   "property": "C07",
   "status": "proved",
   "theorems": [
    "c07_quicksort_sorts",
    "c07_quicksort_within_tolerance"
   ],
   "note": ""
  },
  {
   "property": "C08",
   "status": "proved",
   "theorems": [
    "c08_median_index_of_three"
   ],
   "note": ""
  },
  {
   "property": "C09",
   "status": "proved",
   "theorems": [
    "c09_median_split_is_strict"
   ],
   "note": ""
  },
  {
   "property": "C10",
   "status": "proved",
   "theorems": [
    "c10_construction_partitions_the_indices"
   ],
   "note": "Axis policy is any function returning a valid axis."
  },
  {
   "property": "C100",
   "status": "proved",
   "theorems": [
    "c100_levels_times_a_constant",
    "c100_finest_clusters_ignore_levels",
    "c100_densities_zero",
    "c100_dendrograms_keep_their_shape",
    "c100_hdbscan_change_of_unit",
    "c100_hdbscan_finest_clusters",
    "c100_distances_below_epsilon",
    "c100_unit_of_the_data_refuted"
   ],
   "note": "exact arithmetic, the inverse of a distance is any function of it; refuted expectation inside the statement"
  },
  {
   "property": "C101",
   "status": "proved",
   "theorems": [
    "c101_predict_image",
    "c101_lloyd_image",
    "c101_hamerly_image",
    "c101_default_tolerance",
    "c101_fit_hamerly_image",
    "c101_fit_lloyd_image",
    "c101_translation_refuted",
    "c101_unit_refuted",
    "c101_tolerance_refuted"
   ],
   "note": "Forward simulation of both algorithms and of fit for every affine similarity, in exact rational arithmetic with any distance function that the map scales; the three _refuted theorems are the exceptions named in the statement."
  },
  {
   "property": "C102",
   "status": "proved",
   "theorems": [
    "c102_fit",
    "c102_steps",
    "c102_predict",
    "c102_forward",
    "c102_samples",
    "c102_msc",
    "c102_two_medoids_refuted"
   ],
   "note": "Integer overflow is not modelled (sums are exact); the refutation is part of the statement."
  },
  {
   "property": "C103",
   "status": "proved",
   "theorems": [
    "c103_steps",
    "c103_fit",
    "c103_empty_cluster_refuted",
    "c103_tie_refuted",
    "c103_candidates_refuted"
   ],
   "note": "The runs are compared step by step for any metric with the triangle inequality; the three differences are part of the statement and proved by witnesses."
  },
  {
   "property": "C104",
   "status": "proved",
   "theorems": [
    "c104_private",
    "c104_kmeans",
    "c104_medoids",
    "c104_exception_refuted",
    "c104_no_exceptions"
   ],
   "note": "The parallel loop is a transition system whose schedule is quantified over; an access to one element of a shared vector is one action."
  },
  {
   "property": "C105",
   "status": "proved",
   "theorems": [
    "c105_alone",
    "c105_finds",
    "c105_one_merge",
    "c105_order",
    "c105_find_race_refuted",
    "c105_two_merges_refuted"
   ],
   "note": "Element accesses are atomic actions in the model; that C++ makes the race undefined is what c105_find_race_refuted points out."
  },
  {
   "property": "C106",
   "status": "proved",
   "theorems": [
    "c106_fit_given",
    "c106_fit_random",
    "c106_single_medoid_throws",
    "c106_no_init_undefined",
    "c106_two_settle",
    "c106_three_settle",
    "c106_parallel",
    "c106_best_refuted",
    "c106_again_refuted",
    "c106_unit_refuted"
   ],
   "note": "Exact distances (Q), no rounding. Settling is proved for two and three medoids; for four and more it is neither claimed nor refuted."
  },
  {
   "property": "C107",
   "status": "proved",
   "theorems": [
    "c107_values_in_range",
    "c107_alone",
    "c107_one_cluster",
    "c107_average_in_range",
    "c107_accurate",
    "c107_accurate_doubles",
    "c107_order_refuted"
   ],
   "note": "Flocq's binary formats; uses the axioms of the real numbers of the standard library. c107_order_refuted: two orders of the same samples give different values."
  },
  {
   "property": "C108",
   "status": "proved",
   "theorems": [
    "c108_labels_in_range",
    "c108_assignment",
    "c108_assignment_accurate",
    "c108_centroid_accurate",
    "c108_centroids_finite",
    "c108_whole_numbers",
    "c108_identical_refuted",
    "c108_overflow_refuted",
    "c108_order_refuted"
   ],
   "note": "Flocq's binary formats with rounding to nearest; the addition order inside a distance is arbitrary, the sums of a step run through the samples in order as in the code."
  },
  {
   "property": "C109",
   "status": "proved",
   "theorems": [
    "c109_defined",
    "c109_whole_numbers",
    "c109_mean_refuted",
    "c109_unit_refuted"
   ],
   "note": "Flocq's binary formats with rounding to nearest, with the infinity, max() and lowest() of the format. The reported loss is not part of this model (C62 is about it)."
  },
  {
   "property": "C11",
   "status": "proved",
   "theorems": [
    "c11_nodes_respect_limits",
    "c11_default_depth_gives_one_leaf"
   ],
   "note": ""
  },
  {
   "property": "C110",
   "status": "proved",
   "theorems": [
    "c110_defined",
    "c110_accurate",
    "c110_zero_never",
    "c110_infinite_only",
    "c110_many_refuted",
    "c110_range_refuted"
   ],
   "note": "IEEE 754 formats by Flocq, round to nearest even; the random numbers are arbitrary numbers of the format in [0, 1). Shares are those of equally probable cells and a uniform second number. Refuted beyond the stated numbers of weights and ranges of the sum."
  },
  {
   "property": "C111",
   "status": "proved",
   "theorems": [
    "c111_samples",
    "c111_away",
    "c111_distinct",
    "c111_distinct_refuted"
   ],
   "note": "Both seedings on Flocq's binary formats, with the nearest-centroid distances and the alias table of C108 and C110; the false expectations are c111_distinct_refuted."
  },
  {
   "property": "C112",
   "status": "proved",
   "theorems": [
    "c112_labels_in_any_arithmetic",
    "c112_stability",
    "c112_selection",
    "c112_exact_selection_refuted"
   ],
   "note": "First theorem for any operations; the others for every binary format with prec >= 2, emax >= 2 prec + 2, levels above epsilon."
  },
  {
   "property": "C113",
   "status": "proved",
   "theorems": [
    "c113_labels_in_any_arithmetic",
    "c113_labels",
    "c113_selection"
   ],
   "note": "labels in any arithmetic of stabilities; on float and double with rounded distances; excess of mass greatest up to 4+n roundings"
  },
  {
   "property": "C114",
   "status": "proved",
   "theorems": [
    "c114_valid_in_any_arithmetic",
    "c114_fit_valid",
    "c114_steps",
    "c114_reported_deviation",
    "c114_growth",
    "c114_fit_distinct",
    "c114_integers_included",
    "c114_improves_refuted",
    "c114_distinct_refuted"
   ],
   "note": "First part for any operations on the distances; second part for float formats from clearly separated starts, with a bound of the growth of the total deviation. That the deviation never grows and, from starts with ties, that the medoids differ are refuted."
  },
  {
   "property": "C115",
   "status": "proved",
   "theorems": [
    "c115_symmetric",
    "c115_second_too_short",
    "c115_accurate",
    "c115_bounded",
    "c115_sign",
    "c115_at_most_one_refuted",
    "c115_lengths_do_not_matter_refuted"
   ],
   "note": "Both vectors of one type; the code also accepts one of float and one of double."
  },
  {
   "property": "C116",
   "status": "proved",
   "theorems": [
    "c116_symmetric",
    "c116_second_too_short",
    "c116_zero",
    "c116_at_least_each",
    "c116_monotone",
    "c116_accurate",
    "c116_from_origin",
    "c116_triangle_refuted"
   ],
   "note": "Both points of one type; the code also accepts one of float and one of double."
  },
  {
   "property": "C117",
   "status": "proved",
   "theorems": [
    "c117_equal",
    "c117_range",
    "c117_antitone",
    "c117_ends",
    "c117_accurate",
    "c117_strict_refuted",
    "c117_overflow_refuted"
   ],
   "note": "Values and scores of the same type; std::minmax_element element by element."
  },
  {
   "property": "C12",
   "status": "proved",
   "theorems": [
    "c12_nodes_separate_and_enclose",
    "c12_boxes_are_cut_at_the_samples",
    "c12_close_values_enclosure_refuted"
   ],
   "note": "Refutation: values within the tolerance."
  },
  {
   "property": "C13",
   "status": "proved",
   "theorems": [
    "c13_buffer_keeps_the_k_nearest"
   ],
   "note": "any candidate sequence, any total preorder of distances, capacity k >= 1 below 2^64"
  },
  {
   "property": "C14",
   "status": "proved",
   "theorems": [
    "c14_capacity_bounds_the_size",
    "c14_default_capacity_keeps_everything"
   ],
   "note": "capacity bound and unlimited default capacity"
  },
  {
   "property": "C15",
   "status": "proved",
   "theorems": [
    "c15_tree_search_finds_the_k_nearest",
    "int_metric_ok",
    "float_metric_ok",
    "c15_close_values_refuted"
   ],
   "note": "for both value kinds (instances of metric_ok); values of one feature equal or further apart than epsilon (always so for integers), with a counterexample otherwise"
  },
  {
   "property": "C16",
   "status": "proved",
   "theorems": [
    "c16_radius_search_is_exact",
    "float_infinity_ok",
    "c16_integer_radius_search_refuted"
   ],
   "note": "exact for floats and for integer searches centred on an indexed sample; counterexample for other integer searches"
  },
  {
   "property": "C17",
   "status": "proved",
   "theorems": [
    "c17_nearest_sample_of_another_component"
   ],
   "note": "any capacity k >= 1, any reachable UnionFind state"
  },
  {
   "property": "C18",
   "status": "proved",
   "theorems": [
    "c18_nearest_unvisited_samples"
   ],
   "note": ""
  },
  {
   "property": "C19",
   "status": "proved",
   "theorems": [
    "c19_nearest_neighbours_inside_a_ball"
   ],
   "note": ""
  },
  {
   "property": "C20",
   "status": "proved",
   "theorems": [
    "c20_boruvka_returns_a_spanning_tree",
    "c20_empty_dataset_throws"
   ],
   "note": "exact arithmetic; separated values hypothesis of the tree (tolerance)"
  },
  {
   "property": "C21",
   "status": "proved",
   "theorems": [
    "c21_boruvka_tree_is_minimum"
   ],
   "note": "threshold counts, edge matching and total of any monotone value"
  },
  {
   "property": "C22",
   "status": "proved",
   "theorems": [
    "c22_tree_carries_single_linkage"
   ],
   "note": ""
  },
  {
   "property": "C23",
   "status": "proved",
   "theorems": [
    "c23_mutual_reachability_tree_not_minimal_refuted"
   ],
   "note": "witness"
  },
  {
   "property": "C24",
   "status": "proved",
   "theorems": [
    "c24_boruvka_never_returns_on_integers"
   ],
   "note": "for every amount of fuel"
  },
  {
   "property": "C25",
   "status": "proved",
   "theorems": [
    "c25_slink_is_a_dendrogram"
   ],
   "note": "Every spanning tree, any tie order of std::sort, any hash map order."
  },
  {
   "property": "C26",
   "status": "proved",
   "theorems": [
    "c26_cut_gives_threshold_components"
   ],
   "note": "Every spanning tree, threshold and pair of distinct samples."
  },
  {
   "property": "C27",
   "status": "proved",
   "theorems": [
    "c27_flat_labels_of_a_tree",
    "c27_default_cut_gives_one_label",
    "c27_cut_at_zero_separates_all",
    "c27_connected_samples_share_labels",
    "c27_labels_separate_components_refuted",
    "c27_noise_label_is_unambiguous_refuted"
   ],
   "note": "Exact description of the labels; the two expectations that fail are refuted with witnesses."
  },
  {
   "property": "C28",
   "status": "proved",
   "theorems": [
    "c28_condensed_labels_are_well_formed"
   ],
   "note": "Every dendrogram as built by C25, all options; labels k+1 are exactly the samples of the k-th of pairwise disjoint clusters."
  },
  {
   "property": "C29",
   "status": "proved",
   "theorems": [
    "c29_clusters_are_not_too_small"
   ],
   "note": "Counted on the returned labels."
  },
  {
   "property": "C30",
   "status": "proved",
   "theorems": [
    "c30_selection_maximises_stability",
    "c30_best_of_all_disjoint_clusters",
    "c30_best_without_the_whole_dendrogram"
   ],
   "note": "Exact rationals instead of floats; clusters and stabilities are specified on the dendrogram, independently of the condensed tree."
  },
  {
   "property": "C31",
   "status": "proved",
   "theorems": [
    "c31_stability_is_not_negative",
    "c31_float_levels",
    "c31_integer_levels",
    "c31_zero_levels_refuted"
   ],
   "note": "Positive levels; duplicates refute it."
  },
  {
   "property": "C32",
   "status": "proved",
   "theorems": [
    "c32_single_cluster_option",
    "c32_leaf_option"
   ],
   "note": "All dendrograms."
  },
  {
   "property": "C33",
   "status": "proved",
   "theorems": [
    "c33_hdbscan_returns_labels",
    "c33_hdbscan_never_returns_on_integers"
   ],
   "note": "Composition of the Boruvka, single linkage and condensed tree models; inverse of a level arbitrary."
  },
  {
   "property": "C34",
   "status": "proved",
   "theorems": [
    "c34_dbscan_labels_are_gap_free"
   ],
   "note": "Any duplicate-free index subset. Floating-point metric, or integers with every sample in its own ball."
  },
  {
   "property": "C35",
   "status": "proved",
   "theorems": [
    "c35_core_samples_by_density_connectivity"
   ],
   "note": "Tree over all samples, symmetric distance. Floating-point metric, or integers with every sample in its own ball."
  },
  {
   "property": "C36",
   "status": "proved",
   "theorems": [
    "c36_border_and_noise",
    "c36_border_samples_are_labelled_refuted"
   ],
   "note": "The failing converse is the refuted theorem."
  },
  {
   "property": "C37",
   "status": "proved",
   "theorems": [
    "c37_result_covers_the_whole_dataset",
    "c37_documented_length_refuted"
   ],
   "note": "The documented length is the refuted theorem."
  },
  {
   "property": "C38",
   "status": "proved",
   "theorems": [
    "c38_transpose_moves_every_entry",
    "c38_transposing_twice_is_the_identity",
    "c38_transposing_an_empty_matrix_back_refuted"
   ],
   "note": "Sequential and blocked parallel versions, any order of the assignments."
  },
  {
   "property": "C39",
   "status": "proved",
   "theorems": [
    "c39_distance_matrix"
   ],
   "note": "For any distance function that is symmetric and zero on equal vectors; also agrees with the on-demand matrix."
  },
  {
   "property": "C40",
   "status": "proved",
   "theorems": [
    "c40_levenshtein_is_the_fewest_edits"
   ],
   "note": "Specification: chains of single edits anywhere in the sequence. Costs do not overflow."
  },
  {
   "property": "C41",
   "status": "proved",
   "theorems": [
    "c41_manhattan_is_a_metric",
    "c41_unsigned_manhattan",
    "c41_unsigned_manhattan_separates_refuted"
   ],
   "note": "Signed values without overflow; unsigned with 32-bit wrapping."
  },
  {
   "property": "C42",
   "status": "proved",
   "theorems": [
    "c42_box_min_distance",
    "c42_box_contains",
    "c42_box_diameter",
    "c42_ball_min_distance"
   ],
   "note": "Box distances are compared squared (the final square root is monotone); ball distances for integer data."
  },
  {
   "property": "C43",
   "status": "proved",
   "theorems": [
    "c43_tight_bound"
   ],
   "note": "Values must lie between numeric_limits lowest() and max()."
  },
  {
   "property": "C44",
   "status": "proved",
   "theorems": [
    "c44_predict_nearest",
    "c44_integer_predict_constant",
    "c44_integer_nearest_refuted",
    "c44_lloyd_steps"
   ],
   "note": "Exact arithmetic over any ordered commutative addition."
  },
  {
   "property": "C45",
   "status": "proved",
   "theorems": [
    "c45_hamerly_steps",
    "c45_tie_refuted"
   ],
   "note": "Exact arithmetic, distance with the triangle inequality. The tie case comes to rest with a sample at a centroid that is not nearest."
  },
  {
   "property": "C46",
   "status": "proved",
   "theorems": [
    "c46_sources",
    "c46_construction",
    "c46_swap_gain",
    "c46_candidate",
    "c46_steps",
    "c46_fixed_point",
    "c46_settles",
    "c46_single_medoid_throws",
    "c46_unsigned_never_swaps",
    "c46_local_optimum_refuted",
    "c46_tie_refuted"
   ],
   "note": "Integer distances without overflow. c46_construction excludes ties, which c46_tie_refuted shows to be needed."
  },
  {
   "property": "C47",
   "status": "proved",
   "theorems": [
    "c47_share_is_weight",
    "c47_sample_has_positive_weight",
    "c47_zero_weights_are_uniform",
    "c47_no_weights_throws"
   ],
   "note": "Exact rational arithmetic; the zero-sum case uses that 0 * infinity is not a number."
  },
  {
   "property": "C48",
   "status": "proved",
   "theorems": [
    "c48_value_is_the_formula",
    "c48_values_in_range",
    "c48_alone_in_its_cluster",
    "c48_alone_is_zero_refuted",
    "c48_one_cluster_is_perfect",
    "c48_integer_values",
    "c48_average",
    "c48_no_samples_is_undefined"
   ],
   "note": "Exact rational arithmetic with infinity and not-a-number; integers without overflow."
  },
  {
   "property": "C49",
   "status": "proved",
   "theorems": [
    "c49_dual_tree_closest_pair",
    "c49_closest_pair_of_another_component",
    "c49_closest_pair_of_the_unvisited",
    "c49_dual_tree_edge_is_genuine",
    "c49_pruning_compares_the_sum_of_the_roots",
    "c49_integer_disjoint_boxes_refuted",
    "c49_integer_closest_pair_refuted",
    "c49_two_neighbours_refuted",
    "c49_three_neighbours_refuted"
   ],
   "note": "One neighbour on floating-point values equals brute force; genuineness for any values and number of neighbours; integers and k > 1 refuted as the statement says."
  },
  {
   "property": "C50",
   "status": "proved",
   "theorems": [
    "c50_integer_centroid",
    "c50_integer_centroid_inside_refuted"
   ],
   "note": "Exact characterisation; the refutation is the witness [-3,-3]."
  },
  {
   "property": "C51",
   "status": "proved",
   "theorems": [
    "c51_permutation_from_indices",
    "c51_permutation_permutes",
    "c51_remap_rows",
    "c51_remap_permutes",
    "c51_wrong_size_throws",
    "c51_index_outside_undefined"
   ],
   "note": "Elements of any type."
  },
  {
   "property": "C52",
   "status": "proved",
   "theorems": [
    "c52_lower_bound_and_length"
   ],
   "note": ""
  },
  {
   "property": "C53",
   "status": "proved",
   "theorems": [
    "c53_nodes_store_the_root_centroid",
    "c53_node_centroid_refuted"
   ],
   "note": ""
  },
  {
   "property": "C54",
   "status": "proved",
   "theorems": [
    "c54_unsigned_search_refuted"
   ],
   "note": "counterexample for uint32 data"
  },
  {
   "property": "C55",
   "status": "proved",
   "theorems": [
    "c55_two_neighbours_give_the_plain_tree"
   ],
   "note": ""
  },
  {
   "property": "C56",
   "status": "proved",
   "theorems": [
    "c56_stability_is_excess_of_mass"
   ],
   "note": "All clusters of all dendrograms."
  },
  {
   "property": "C57",
   "status": "proved",
   "theorems": [
    "c57_hdbscan_clusters_are_single_linkage_clusters"
   ],
   "note": "Whole dataset indexed, floating-point metric."
  },
  {
   "property": "C58",
   "status": "proved",
   "theorems": [
    "c58_dbscan_labels_are_determined",
    "c58_dbscan_does_not_depend_on_the_index"
   ],
   "note": "Tree over all samples, symmetric distance. Floating-point metric, or integers with every sample in its own ball."
  },
  {
   "property": "C59",
   "status": "proved",
   "theorems": [
    "c59_euclidean_is_a_metric",
    "c59_distance_after_translation"
   ],
   "note": "Exact arithmetic; the triangle inequality of the square roots is stated through rational upper bounds."
  },
  {
   "property": "C60",
   "status": "proved",
   "theorems": [
    "c60_cosine_similarity",
    "c60_cosine_is_scale_free_refuted"
   ],
   "note": "Exact arithmetic; the value dot/sqrt(m) is represented by (dot, m)."
  },
  {
   "property": "C61",
   "status": "proved",
   "theorems": [
    "c61_fit_lloyd",
    "c61_fit_hamerly",
    "c61_lloyd_fixed_point",
    "c61_hamerly_fixed_point",
    "c61_no_init_undefined"
   ],
   "note": "With Hamerly: for initial centroids without ties."
  },
  {
   "property": "C62",
   "status": "proved",
   "theorems": [
    "c62_initial_loss",
    "c62_stale_loss",
    "c62_step_loss",
    "c62_fit_choice_refuted"
   ],
   "note": ""
  },
  {
   "property": "C63",
   "status": "proved",
   "theorems": [
    "c63_inertia_never_increases",
    "c63_deviation_refuted"
   ],
   "note": "Over rationals."
  },
  {
   "property": "C64",
   "status": "proved",
   "theorems": [
    "c64_selection_permutes_the_first",
    "c64_every_order_is_reached_once",
    "c64_too_many_is_undefined",
    "c64_random_samples_are_the_first",
    "c64_every_sample_may_be_selected_refuted"
   ],
   "note": "The generator is any function within its bounds."
  },
  {
   "property": "C65",
   "status": "proved",
   "theorems": [
    "c65_centroids_in_the_box",
    "c65_box_refuted",
    "c65_no_samples_is_undefined"
   ],
   "note": "Values in units of a quantum."
  },
  {
   "property": "C66",
   "status": "proved",
   "theorems": [
    "c66_centroids_are_samples_apart",
    "c66_centroids_are_distinct",
    "c66_chance_is_distance",
    "c66_previous_version",
    "c66_previous_version_distinct_refuted",
    "c66_integer_samples_are_drawn_uniformly",
    "c66_integer_distinct_refuted"
   ],
   "note": "Distances are rational, weights exact."
  },
  {
   "property": "C67",
   "status": "proved",
   "theorems": [
    "c67_predict",
    "c67_overloads_agree",
    "c67_no_medoids_throws",
    "c67_medoid_outside_undefined",
    "c67_other_samples_refuted"
   ],
   "note": "Integer (Manhattan) distances smaller than the largest value of the type."
  },
  {
   "property": "C68",
   "status": "proved",
   "theorems": [
    "c68_fit_given",
    "c68_fit_random",
    "c68_early_stop_is_fixed",
    "c68_no_init_undefined",
    "c68_single_medoid_throws"
   ],
   "note": "With FasterPAM, integer distances without overflow."
  },
  {
   "property": "C69",
   "status": "proved",
   "theorems": [
    "c69_containers_equal",
    "c69_containers_equal_relation",
    "c69_transitive_refuted",
    "c69_ranges",
    "c69_count_matches",
    "c69_element_in"
   ],
   "note": "Integers, or floating point numbers as multiples of a quantum; not-a-number is not modelled."
  },
  {
   "property": "C70",
   "status": "proved",
   "theorems": [
    "c70_simple_shortest_pair_of_distinct_samples",
    "c70_simple_closest_pair",
    "c70_simple_passes_over_common_samples_refuted",
    "c70_simple_integers",
    "c70_simple_integers_never_find_a_pair",
    "c70_dual_set_kth_shortest_pair",
    "c70_fewer_references_than_neighbours_refuted",
    "c70_dual_set_integers",
    "c70_sequential_closest_pair",
    "c70_sequential_integers_never_find_a_pair"
   ],
   "note": "All three algorithms, floats and signed integers; the failing cases are proved with witnesses or for all inputs."
  },
  {
   "property": "C71",
   "status": "proved",
   "theorems": [
    "c71_dual_boruvka_returns_a_spanning_tree",
    "c71_dual_boruvka_one_neighbour_is_minimum",
    "c71_default_neighbours_not_minimum_refuted",
    "c71_dual_boruvka_integers_minimum",
    "c71_integers_deeper_tree_not_minimum_refuted",
    "c71_empty_dataset_throws"
   ],
   "note": "make_tree_2 through the modelled dual tree search; the private step_dual_tree_parallel is never called and not modelled."
  },
  {
   "property": "C72",
   "status": "proved",
   "theorems": [
    "c72_construction",
    "c72_construction_any",
    "c72_construction_throws",
    "c72_best_swap",
    "c72_candidate",
    "c72_optimum_stays",
    "c72_steps_safe",
    "c72_initial_loss_refuted",
    "c72_tie_refuted",
    "c72_loss_refuted",
    "c72_worse_refuted",
    "c72_distinct_refuted",
    "c72_stuck_refuted"
   ],
   "note": "exact rational arithmetic; the tolerance and the largest number are parameters"
  },
  {
   "property": "C73",
   "status": "proved",
   "theorems": [
    "c73_construction",
    "c73_candidate",
    "c73_counted",
    "c73_step",
    "c73_steps",
    "c73_loss_refuted",
    "c73_worse_refuted",
    "c73_distinct_refuted"
   ],
   "note": "exact rational arithmetic; the tolerance and the largest number are parameters"
  },
  {
   "property": "C74",
   "status": "proved",
   "theorems": [
    "c74_mean_per_feature",
    "c74_mean_of_the_dataset",
    "c74_masked_mean",
    "c74_variance_per_feature",
    "c74_variance_of_the_dataset",
    "c74_variance_of_one_sample",
    "c74_masked_variance",
    "c74_masked_variance_refuted",
    "c74_argmax_variance",
    "c74_argmax_variance_of_the_dataset",
    "c74_argmax_variance_masked",
    "c74_argmax_variance_masked_refuted",
    "c74_variance_of_a_list",
    "c74_integer_mean",
    "c74_negative_mean_refuted",
    "c74_integer_argmax_variance_refuted",
    "c74_integer_variance_of_a_list"
   ],
   "note": "exact rationals for floats; signed integers of w bits with undefined overflow and the conversion to size_t"
  },
  {
   "property": "C75",
   "status": "proved",
   "theorems": [
    "c75_argmax_argmin",
    "c75_argmax_of_small_integers_refuted",
    "c75_elementwise_minimum",
    "c75_normalize_min_max",
    "c75_integer_normalize_min_max",
    "c75_integer_normalize_min_max_refuted",
    "c75_normalize",
    "c75_nth_smallest"
   ],
   "note": "exact rationals for floats; integers for the failing cases"
  },
  {
   "property": "C76",
   "status": "proved",
   "theorems": [
    "c76_cycle_uses_each_axis_once",
    "c76_spread_is_the_longest_side",
    "c76_masked_spread",
    "c76_masked_spread_refuted",
    "c76_variance_of_the_first_samples",
    "c76_variance_of_the_node_refuted",
    "c76_two_samples",
    "c76_masked_two_samples",
    "c76_two_samples_refuted",
    "c76_one_sample",
    "c76_masked_variance",
    "c76_masked_variance_refuted"
   ],
   "note": "the random numbers are any that stay in the requested range"
  },
  {
   "property": "C77",
   "status": "proved",
   "theorems": [
    "c77_trees_of_the_library",
    "c77_search_through_the_trees_of_the_library",
    "c77_default_tree_on_integers",
    "c77_negative_integers_refuted"
   ],
   "note": "search exactness through C15; other tree properties through the equality with the modelled construction"
  },
  {
   "property": "C78",
   "status": "proved",
   "theorems": [
    "c78_box_search_finds_the_nearest_inside",
    "c78_box_range_search_is_exact",
    "c78_integer_box_search_refuted"
   ],
   "note": "floats as exact numbers, distances squared; the integer default capacity is the refuted part"
  },
  {
   "property": "C79",
   "status": "proved",
   "theorems": [
    "c79_one_buffer_through_several_trees",
    "c79_several_trees_without_limit",
    "c79_searching_again_refuted",
    "c79_batch_is_each_search",
    "c79_batch_of_other_components"
   ],
   "note": "all trees over the same samples; searching twice is the refuted part"
  },
  {
   "property": "C80",
   "status": "proved",
   "theorems": [
    "c80_document",
    "c80_text_is_unambiguous",
    "c80_large_depth_refuted",
    "c80_copies",
    "c80_writing_a_moved_tree_refuted",
    "c80_accessors",
    "c80_number_of_indexed_samples_refuted"
   ],
   "note": "Document as the sequence of writer calls; the second pass through rapidjson's parser and the file itself are not modelled."
  },
  {
   "property": "C81",
   "status": "proved",
   "theorems": [
    "c81_shared_indices_stay_usable",
    "c81_shared_indices_refuted",
    "c81_one_leaf_is_not_disturbed"
   ],
   "note": "The index array of the first tree is replaced by the array the second construction leaves."
  },
  {
   "property": "C82",
   "status": "proved",
   "theorems": [
    "c82_search_matches_linear_scan",
    "c82_radius_search_matches_linear_scan",
    "c82_spanning_tree_is_minimum",
    "c82_dbscan_groups_by_density",
    "c82_hdbscan_clusters_are_single_linkage_clusters",
    "c82_distinct_samples_are_apart_refuted",
    "c82_nearest_by_exact_distance_refuted",
    "c82_nearest_is_the_same_in_each_build_refuted"
   ],
   "note": "distances rounded as by Flocq's IEEE 754 model, any format, any grouping of the sum, fused or not; summed levels of condensed clusters stay rational; Reals axioms of the standard library (DESIGN.md)"
  },
  {
   "property": "C83",
   "status": "proved",
   "theorems": [
    "c83_distance_is_accurate",
    "c83_distance_is_finite",
    "c83_reported_neighbours_are_nearly_nearest",
    "c83_radius_search_is_nearly_exact",
    "c83_double_distance_is_accurate"
   ],
   "note": "exact squared distances are real numbers; Reals axioms of the standard library (DESIGN.md)"
  },
  {
   "property": "C84",
   "status": "proved",
   "theorems": [
    "c84_boruvka_never_returns_across_infinity",
    "c84_finite_doubles_have_a_spanning_tree_refuted",
    "c84_hdbscan_never_returns_across_infinity"
   ],
   "note": "for every splitting at infinite distance; the doubles by witness (this theorem uses the Reals axioms, the others none)"
  },
  {
   "property": "C85",
   "status": "proved",
   "theorems": [
    "c85_set_of_the_caller_is_respected",
    "c85_own_set_is_lost",
    "c85_no_set",
    "c85_own_set_is_respected_refuted"
   ],
   "note": "c85_own_set_is_respected_refuted is the refuted expectation; c85_own_set_is_lost says what happens instead, for any content left behind by the move."
  },
  {
   "property": "C86",
   "status": "proved",
   "theorems": [
    "c86_sorting_keeps_the_indices",
    "c86_tree_keeps_the_samples",
    "c86_search_any_values",
    "c86_unlimited_search_any_values",
    "c86_search_doubles",
    "c86_nearest_with_nan_refuted",
    "c86_radius_with_nan_refuted",
    "c86_sorted_with_nan_refuted"
   ],
   "note": "any comparisons and distances; doubles as an instance; correctness of the answers with NaN refuted by computation"
  },
  {
   "property": "C87",
   "status": "proved",
   "theorems": [
    "c87_ball_distance_iff_inside",
    "c87_box_distance_iff_inside",
    "c87_ball_diameter",
    "c87_ball_diameter_float",
    "c87_ball_empty_iff",
    "c87_ball_boundary_excluded",
    "c87_unbounded_holds_everything",
    "c87_unbounded_integer_diameter_refuted",
    "c87_box_furthest_integer",
    "c87_box_furthest_bounds_distance_refuted",
    "c87_box_diameter_integer_refuted",
    "c87_box_furthest_float",
    "c87_box_furthest_float_refuted",
    "c87_box_furthest_float_wide"
   ],
   "note": "Euclidean balls are decided on squares; floating point boxes are in exact arithmetic with the conversion to int modelled"
  },
  {
   "property": "C88",
   "status": "proved",
   "theorems": [
    "c88_first_medoid",
    "c88_first_medoid_integers",
    "c88_first_medoid_integers_refuted",
    "c88_medoids_to_centroids",
    "c88_medoids_to_centroids_outside",
    "c88_build",
    "c88_build_too_many",
    "c88_build_integers",
    "c88_build_greedy_refuted"
   ],
   "note": "distances and sums are exact; build compiles only for a user who makes the names of pam::utils visible, its overload for matrices does not compile and is not modelled"
  },
  {
   "property": "C89",
   "status": "proved",
   "theorems": [
    "c89_distance",
    "c89_distance_right_or_undefined",
    "c89_search",
    "c89_search_tight",
    "c89_build",
    "c89_k_nearest",
    "c89_build_undefined",
    "c89_build_refuted",
    "c89_search_narrow",
    "c89_search_narrow_refuted"
   ],
   "note": "signed types; axis selection policies are any function (their own arithmetic is C76)"
  },
  {
   "property": "C90",
   "status": "proved",
   "theorems": [
    "c90_mirror_images_have_the_same_clusters",
    "c90_dendrograms_are_mirror_images",
    "c90_hdbscan_depends_on_the_distances_only",
    "c90_equal_distances_refuted",
    "c90_row_order_refuted"
   ],
   "note": "Two runs quantified over separately: samples, tree options, hash map orders, sort. Metric values exact (squared distances in Z or any metric_ok); k_nearest_neighbors at most 1. The two expectations about equal distances are refuted by witnesses."
  },
  {
   "property": "C91",
   "status": "proved",
   "theorems": [
    "c91_lloyd_converges",
    "c91_fit_again",
    "c91_hamerly_converges",
    "c91_few_iterations_refuted",
    "c91_hamerly_again_refuted"
   ],
   "note": "Exact (rational) arithmetic; rounding is outside this claim."
  },
  {
   "property": "C92",
   "status": "proved",
   "theorems": [
    "c92_start_ignored",
    "c92_new_data_refuted",
    "c92_predict_before_fit",
    "c92_lengths",
    "c92_iterations_add_up",
    "c92_hamerly_iterations_refuted",
    "c92_fits_come_to_rest"
   ],
   "note": "Objects as states of a transition system over calls; coming to rest is stated for exact arithmetic."
  },
  {
   "property": "C93",
   "status": "proved",
   "theorems": [
    "c93_steps",
    "c93_settles",
    "c93_fit_given",
    "c93_fit_random",
    "c93_distinct_refuted",
    "c93_step_can_worsen_refuted",
    "c93_tie_overflow"
   ],
   "note": "Exact arithmetic over the integers; distances below numeric_max. c93_distinct_refuted, c93_step_can_worsen_refuted and c93_tie_overflow are the false expectations named in the statement."
  },
  {
   "property": "C94",
   "status": "proved",
   "theorems": [
    "c94_start_ignored",
    "c94_samples_or_matrix",
    "c94_served",
    "c94_comes_to_rest",
    "c94_iterations_add",
    "c94_one_fit_rests",
    "c94_outside_undefined",
    "c94_predict_before_fit",
    "c94_refit_refuted",
    "c94_new_data_refuted"
   ],
   "note": "Integer samples in exact arithmetic with distances below numeric_max. c94_refit_refuted and c94_new_data_refuted are the false expectations named in the statement."
  },
  {
   "property": "C95",
   "status": "proved",
   "theorems": [
    "c95_logarithmic_rounds",
    "c95_logarithmic_rounds_dual"
   ],
   "note": "Both algorithms with their printed output; the bound is the fuel of the loop. Both bounds attained in the example."
  },
  {
   "property": "C96",
   "status": "proved",
   "theorems": [
    "c96_cut_is_dbscan",
    "c96_cut_is_dbscan_two_neighbours",
    "c96_cut_refines_dbscan",
    "c96_dbscan_refines_cut_refuted"
   ],
   "note": "exact for k <= 2; for larger k one direction is proved and the other is refuted, as the statement says"
  },
  {
   "property": "C97",
   "status": "proved",
   "theorems": [
    "c97_height_is_logarithmic",
    "c97_distinct_values_balance",
    "c97_equal_samples_give_a_chain"
   ],
   "note": "for the median splitting rule, the only one in the library; NaN values are outside"
  },
  {
   "property": "C98",
   "status": "proved",
   "theorems": [
    "c98_dbscan_depends_on_near_pairs_only",
    "c98_row_order",
    "c98_noise_row_order_refuted",
    "c98_clusters_grow",
    "c98_labelled_samples_grow_refuted"
   ],
   "note": "the two expectations that fail are refuted, as the statement says"
  },
  {
   "property": "C99",
   "status": "proved",
   "theorems": [
    "c99_document",
    "c99_document_determines_predictions",
    "c99_large_level_refuted"
   ],
   "note": "the calls made on the writer; rapidjson's own text, its second parse and the file are not modelled"
  }
 ]
}