{"id": "C01", "title": "UnionFind queries answer the merge history", "statement": "After constructing UnionFind(n) and performing any sequence of find and merge calls on in-range indices, find always returns (it terminates and stays in bounds), find(i) is an element of i's class, and find(i) == find(j) exactly when i and j are linked by a chain of pairs previously passed to merge. find never changes the answer of any later find.", "quantifier": "for every n, every finite history of find/merge calls with indices < n, and every pair i, j < n", "why_tests_cant": "The number of histories is unbounded and path compression rewrites the parent array on every query; a bug shows only for particular interleavings.", "anchors": ["include/ffcl/datastruct/UnionFind.hpp: UnionFind(std::size_t), find, merge"]}
{"id": "C02", "title": "merge joins exactly the two named classes and returns their common representative", "statement": "merge(i, j) makes i and j equivalent, changes no other equivalence, returns the representative that find returns for both afterwards, and that representative was the representative of i or of j before the call.", "quantifier": "for every reachable UnionFind state and all in-range i, j", "why_tests_cant": "Needs every reachable shape of the parent forest and every rank relation.", "anchors": ["include/ffcl/datastruct/UnionFind.hpp: merge"]}
{"id": "C03", "title": "find is logarithmic", "statement": "In any state reached from UnionFind(n) by find/merge calls, a find call follows at most log2(n) parent links, and no stored rank exceeds log2(n).", "quantifier": "for every n, every history, every index", "why_tests_cant": "A worst case bound over all histories; tests measure only a few.", "anchors": ["include/ffcl/datastruct/UnionFind.hpp: find, merge"]}
{"id": "C04", "title": "UnionFind built from caller supplied labels", "statement": "With the labels constructor find returns on every array of in-range labels, cycles included, with an in-range self-parented element, and when the label chain of i ends in a self-labelled index that index is the answer. With a cyclic label array the answers are not stable: there are labels i, j such that calling find(i) changes the answer of a later find(j).", "quantifier": "for every label array with in-range labels and every index; existence of a cyclic array with unstable answers", "why_tests_cant": "Divergence cannot be observed by a terminating test and the positive half ranges over all arrays.", "anchors": ["include/ffcl/datastruct/UnionFind.hpp: UnionFind(std::size_t, std::unique_ptr<Index[]>), find"]}
{"id": "C05", "title": "partition_around_pivot_index partitions", "statement": "On a non-empty index range and an in-range pivot position the call terminates, reads no index outside the range, only permutes the index range, leaves everything outside the range alone, and returns a position holding the original pivot sample's value such that every sample to its left is strictly smaller and every sample to its right is greater or equal on the chosen feature. This holds whenever distinct feature values differ by more than the equality tolerance (always for integers); with floating-point values closer than machine epsilon it is false.", "quantifier": "for every dataset, index range, pivot position and feature", "why_tests_cant": "Depends on every pattern of duplicates and every pivot position; the tolerance failure needs values closer than 2.2e-16.", "anchors": ["include/ffcl/common/algorithms/Sorting.hpp: partition_around_pivot_index", "include/ffcl/common/Utils.hpp: equality, inequality"]}
{"id": "C06", "title": "quickselect puts the k-th smallest sample in its sorted position", "statement": "On a non-empty index range and k inside it, quickselect terminates, permutes the index range, returns position k, and every sample before position k is not greater and every sample after it is not smaller than the one at k.", "quantifier": "for every dataset, index range, k and feature (values separated by more than the tolerance)", "why_tests_cant": "Termination and correctness depend on the whole sequence of pivots.", "anchors": ["include/ffcl/common/algorithms/Sorting.hpp: quickselect, median_index_of_three, partition_around_pivot_index"]}
{"id": "C07", "title": "quicksort sorts", "statement": "quicksort terminates, permutes the index range and leaves it sorted by the chosen feature; without the separation of values it is sorted up to the equality tolerance.", "quantifier": "for every dataset, index range, initial pivot position and feature (values separated by more than the tolerance)", "why_tests_cant": "Recursion over unbounded data with duplicates.", "anchors": ["include/ffcl/common/algorithms/Sorting.hpp: quicksort"]}
{"id": "C08", "title": "median_index_of_three returns the position of a median", "statement": "For a range of at least three samples the returned position is the first, middle or last position and its value lies between the values of the other two; for fewer than three samples it is 0; always in bounds.", "quantifier": "for every dataset and index range", "why_tests_cant": "Every order type and tie pattern of the three samples at unbounded positions.", "anchors": ["include/ffcl/common/algorithms/Sorting.hpp: median_index_of_three"]}
{"id": "C09", "title": "median split separates the samples strictly", "statement": "quickselect_median permutes the index range and returns three consecutive ranges left, cut, right covering it, cut being exactly one sample, every left sample strictly smaller and every right sample greater or equal to the cut sample on the chosen feature.", "quantifier": "for every dataset, non-empty index range and feature (values separated by more than the tolerance)", "why_tests_cant": "The left shift past equal values is only right if all equal values are adjacent to the cut, for every data set.", "anchors": ["include/ffcl/datastruct/tree/kdtree/KDTreeAlgorithms.hpp: quickselect_median, shift_median_to_leftmost_equal_value"]}
{"id": "C10", "title": "KDTree construction loses and duplicates nothing", "statement": "Building a KDTree over an index range terminates for every bucket size, depth limit and axis selection policy returning a valid axis, only permutes the index array, and each index of the range belongs to exactly one node of the tree.", "quantifier": "for every dataset, index range, options and axis policy (including random ones)", "why_tests_cant": "Quantifies over all inputs and all random axis choices.", "anchors": ["include/ffcl/datastruct/tree/kdtree/KDTree.hpp: KDTree, build", "include/ffcl/datastruct/tree/kdtree/policy/AxisSelectionPolicy.hpp: CycleThroughAxesBuild::operator(), HighestVarianceBuild::operator(), MaximumSpreadBuild::operator()", "include/ffcl/datastruct/tree/kdtree/policy/SplittingRulePolicy.hpp: QuickselectMedianRange::operator()"]}
{"id": "C11", "title": "KDTree leaves respect the limits that were asked for", "statement": "Every leaf has at most bucket_size samples or sits at depth max_depth; every inner node holds exactly one sample, sits above max_depth and has more than bucket_size samples in its subtree. With default options (max_depth is never set) the tree is a single leaf whatever bucket_size is.", "quantifier": "for every dataset and options", "why_tests_cant": "Holds for all nodes of all trees; the default-option behaviour is silent because searches stay correct.", "anchors": ["include/ffcl/datastruct/tree/kdtree/KDTree.hpp: Options, build", "include/ffcl/common/Utils.hpp: infinity"]}
{"id": "C12", "title": "KDTree nodes separate and enclose their samples", "statement": "At each inner node all samples of the left subtree are strictly smaller and all samples of the right subtree greater or equal to the node's sample on its cut axis, and every node's bounding box contains every sample of its subtree, provided distinct values on an axis differ by more than the comparison tolerance (always so for integers). Without that the order still holds up to twice the tolerance but a box can miss a sample. In every case the root box is the tight bound, child boxes are the node's box cut at its sample, and the box handed to build is unchanged after it.", "quantifier": "for every dataset, index range, options and axis policy", "why_tests_cant": "Global invariant of all trees; search correctness rests on it.", "anchors": ["include/ffcl/datastruct/tree/kdtree/KDTree.hpp: build", "include/ffcl/datastruct/bounds/AABBWithCentroid.hpp: AABBWithCentroid, is_in_bounds_impl, segment_at", "include/ffcl/datastruct/bounds/segment/LowerBoundAndUpperBound.hpp: update_lower_bound_impl, update_upper_bound_impl, contains_value_impl", "include/ffcl/datastruct/Interval.hpp: make_tight_bound"]}
{"id": "C13", "title": "A search buffer of capacity k holds the k closest candidates offered", "statement": "After any sequence of update calls on a buffer of capacity k >= 1 the stored (index, distance) pairs are a sub-multiset of those offered, of size min(k, offered), no rejected candidate is strictly closer than a stored one, closest_index/closest_distance name a closest offered candidate, and furthest_index/furthest_distance name a furthest stored one.", "quantifier": "for every k >= 1 and every finite sequence of updates", "why_tests_cant": "The cached furthest slot depends on the whole history.", "anchors": ["include/ffcl/search/buffer/StaticBuffer.hpp: update_static_buffers, furthest_index, furthest_distance, closest_index, closest_distance"]}
{"id": "C14", "title": "Buffer capacity", "statement": "A buffer of capacity k >= 1 never holds more than k entries. A buffer of capacity 0, which is also the default since infinity<size_t>() is 0, keeps every offered candidate, and while empty it reports no remaining capacity.", "quantifier": "for every k and every finite sequence of updates", "why_tests_cant": "The default relies on unsigned wrap-around in remaining_capacity.", "anchors": ["include/ffcl/search/buffer/StaticBuffer.hpp: StaticBuffer, remaining_capacity, update_static_buffers", "include/ffcl/common/Utils.hpp: infinity"]}
{"id": "C15", "title": "k nearest neighbours through the KDTree equal brute force", "statement": "Searching a KDTree with a buffer of capacity k >= 1 returns min(k, n) indexed samples, no indexed sample left out being strictly closer to the query than a returned one, and the reported distances are the true ones.", "quantifier": "for every dataset, query point, k >= 1, tree options and axis policy, for integer and (exact arithmetic) floating-point data", "why_tests_cant": "Wrong pruning shows only for particular geometry and ties.", "anchors": ["include/ffcl/search/TreeTraverser.hpp: operator(), single_tree_traversal, recursive_search_to_leaf_node, get_parent_node_after_sibling_traversal", "include/ffcl/datastruct/tree/kdtree/KDNodeView.hpp: select_sibling_node, select_closest_child", "include/ffcl/search/buffer/Unsorted.hpp: partial_search_impl", "include/ffcl/search/buffer/StaticBuffer.hpp: StaticBuffer, update, partial_search"]}
{"id": "C16", "title": "Radius search", "statement": "With floating-point data a default-capacity search over a BallView returns exactly the indexed samples whose distance to the centre is strictly smaller than the radius, each once. With integer data the same search can miss samples, because the empty buffer starts with furthest distance infinity<int>() == 0; if the centre is itself an indexed sample and the radius is positive the integer search is exact too.", "quantifier": "for every dataset, centre, radius, options and axis policy", "why_tests_cant": "The miss needs an integer type, an external query and a particular tree shape.", "anchors": ["include/ffcl/search/TreeTraverser.hpp: single_tree_traversal", "include/ffcl/datastruct/tree/kdtree/KDNodeView.hpp: select_sibling_node", "include/ffcl/datastruct/bounds/Ball.hpp: BallView", "include/ffcl/search/buffer/StaticBuffer.hpp: StaticBuffer"]}
{"id": "C17", "title": "Nearest sample of another component", "statement": "Searching with a WithUnionFind buffer of capacity k >= 1 returns the min(k, m) closest of the m indexed samples outside the query's component, changes no UnionFind equivalence, and leaves the buffer empty exactly when no such sample exists (furthest_index is then undefined behaviour).", "quantifier": "for every dataset, query, reachable UnionFind state, tree options and axis policy", "why_tests_cant": "Combines arbitrary UnionFind histories with arbitrary geometry.", "anchors": ["include/ffcl/search/buffer/WithUnionFind.hpp: update_impl, partial_search_impl", "include/ffcl/search/TreeTraverser.hpp: operator(), single_tree_traversal, recursive_search_to_leaf_node, get_parent_node_after_sibling_traversal", "include/ffcl/datastruct/UnionFind.hpp: find"]}
{"id": "C18", "title": "Nearest neighbours excluding visited samples", "statement": "Searching with a WithMemory buffer of capacity k that refers to a visited set of the caller (constructor taking const VisitedIndices&) returns the k closest indexed samples among those not in the visited set. (For a set handed over to the buffer see C85.)", "quantifier": "for every dataset, query, visited set, k >= 1, tree options", "why_tests_cant": "All visited sets and all geometries.", "anchors": ["include/ffcl/search/buffer/WithMemory.hpp: update_impl, partial_search_impl", "include/ffcl/search/TreeTraverser.hpp: operator(), single_tree_traversal, recursive_search_to_leaf_node, get_parent_node_after_sibling_traversal"]}
{"id": "C19", "title": "Nearest neighbours inside a ball", "statement": "Searching with a BallView and capacity k >= 1 returns min(k, m) of the m indexed samples strictly inside the ball, the closest ones.", "quantifier": "for every dataset, centre, radius, k >= 1, options", "why_tests_cant": "All geometries and ties.", "anchors": ["include/ffcl/search/buffer/Unsorted.hpp: partial_search_impl, update_impl", "include/ffcl/datastruct/bounds/Ball.hpp: BallView::compute_distance_to_centroid_if_within_bounds_impl", "include/ffcl/search/TreeTraverser.hpp: operator(), single_tree_traversal, recursive_search_to_leaf_node, get_parent_node_after_sibling_traversal"]}
{"id": "C20", "title": "Boruvka returns a spanning tree", "statement": "For floating-point data and n >= 1 samples make_tree terminates after at most n - 1 rounds and returns n - 1 edges that connect all samples (hence acyclic), whose weights are the sample distances (k <= 1) or the mutual reachability distances for k > 1, whatever order the hash maps iterate in. On an empty dataset it throws std::length_error.", "quantifier": "for every dataset, k, and hash-map iteration order", "why_tests_cant": "unordered_map order differs between standard libraries; ties make distinct components propose conflicting edges.", "anchors": ["include/ffcl/datastruct/graph/spanning_tree/BoruvkasAlgorithm.hpp: make_tree, step_sequential, dual_component_step_sequential, Forest::merge_components"]}
{"id": "C21", "title": "Boruvka with one neighbour returns a minimum spanning tree", "statement": "For k_nearest_neighbors = 1 and floating-point data the tree returned is minimum: for every threshold t it has at least as many edges of weight <= t as any other spanning tree, so its total weight is minimal, also with tied distances and for every hash-map iteration order.", "quantifier": "for every dataset, every competing spanning tree, every iteration order", "why_tests_cant": "Minimality is a statement over all spanning trees.", "anchors": ["include/ffcl/datastruct/graph/spanning_tree/BoruvkasAlgorithm.hpp: make_tree, step_sequential, dual_component_step_sequential, Forest::merge_components"]}
{"id": "C22", "title": "The spanning tree carries exact single linkage", "statement": "For k = 1, two samples are connected by tree edges of weight <= t exactly when they are connected by a chain of samples with consecutive distances <= t.", "quantifier": "for every dataset, threshold t and pair of samples", "why_tests_cant": "All thresholds and all chains.", "anchors": ["include/ffcl/datastruct/graph/spanning_tree/BoruvkasAlgorithm.hpp: make_tree", "include/ffcl/datastruct/tree/single_linkage_cluster_tree/SingleLinkageClusterTree.hpp: build"]}
{"id": "C23", "title": "Boruvka with k > 1 is not minimal for mutual reachability", "statement": "For k_nearest_neighbors > 2 the returned spanning tree need not be a minimum spanning tree of the mutual reachability graph (five samples on a line, k = 4, give a counterexample): each sample proposes only its plain nearest neighbour.", "quantifier": "existence of a dataset", "why_tests_cant": "A single test passes unless it compares against an independent minimum spanning tree on a suitable dataset.", "anchors": ["include/ffcl/datastruct/graph/spanning_tree/BoruvkasAlgorithm.hpp: step_sequential (core distances)", "include/ffcl/datastruct/graph/spanning_tree/CoreDistances.hpp: CoreDistancesArray, make_static_core_distances"]}
{"id": "C24", "title": "Boruvka never returns on integer data", "statement": "For integer data and at least two samples make_tree makes no progress and never returns, since the initial closest edge has weight infinity<int>() == 0 and no distance is smaller.", "quantifier": "for every integer dataset with n >= 2 and every number of loop iterations", "why_tests_cant": "Divergence cannot be observed by a terminating test.", "anchors": ["include/ffcl/datastruct/graph/spanning_tree/BoruvkasAlgorithm.hpp: make_tree, step_sequential", "include/ffcl/datastruct/graph/spanning_tree/MinimumSpanningTree.hpp: make_default_edge", "include/ffcl/common/Utils.hpp: infinity"]}
{"id": "C25", "title": "The single linkage tree is a well formed dendrogram", "statement": "From the edges of a spanning tree of n samples build returns one root whose leaves are exactly the n samples, each once; each inner node's size is the number of leaves below it, its representative is one of them, and levels do not decrease from child to parent.", "quantifier": "for every spanning tree edge list and every order std::sort may leave ties in", "why_tests_cant": "Structural property of every tree and every legal result of an unstable sort.", "anchors": ["include/ffcl/datastruct/tree/single_linkage_cluster_tree/SingleLinkageClusterTree.hpp: build", "include/ffcl/datastruct/graph/spanning_tree/MinimumSpanningTree.hpp: sort", "include/ffcl/datastruct/UnionFind.hpp: find, merge"]}
{"id": "C26", "title": "Cutting the dendrogram gives the threshold components", "statement": "Two samples have a common ancestor of level <= t exactly when they are connected by input edges of weight <= t.", "quantifier": "for every spanning tree edge list, threshold, pair of samples, and tie order", "why_tests_cant": "All thresholds.", "anchors": ["include/ffcl/datastruct/tree/single_linkage_cluster_tree/SingleLinkageClusterTree.hpp: build"]}
{"id": "C27", "title": "Flat labels of the single linkage tree", "statement": "Each sample's flat label comes from the lowest dendrogram node above it whose level reaches the cut: 0 if that node is smaller than the minimum size, else its representative; with no such node it is the root's representative. So the default (infinite) cut gives every sample one label, a cut at 0 (the default for integers) gives every sample its own, and samples connected by edges below the cut share a label. But samples not connected below the cut can share one too, and label 0 is both noise and the cluster of sample 0.", "quantifier": "for every spanning tree edge list, tie order, cut level and minimum size; existence for the last two", "why_tests_cant": "The wrong labels look plausible and depend on representatives chosen by union by rank.", "anchors": ["include/ffcl/datastruct/tree/single_linkage_cluster_tree/SingleLinkageClusterTree.hpp: extract_flat_clusters, preorder_traversal_single_linkage_clustering"]}
{"id": "C28", "title": "Condensed tree flat labels are well formed", "statement": "CondensedClusterTree never dereferences a null child; predict returns one label per sample, labels are 0 (noise) or 1..K without gaps, and the samples of one label are exactly the leaves of one single linkage node, distinct labels using disjoint nodes.", "quantifier": "for every dendrogram and all options", "why_tests_cant": "Null children would crash only on particular tree shapes.", "anchors": ["include/ffcl/datastruct/tree/condensed_cluster_tree/CondensedClusterTree.hpp: build, preorder_traversal_build, extract_flat_clusters, preorder_traversal_fill_shallowest_selected_nodes"]}
{"id": "C29", "title": "Clusters are never smaller than asked", "statement": "Every labelled cluster has at least min_cluster_size samples, except that the cluster formed by all samples can be smaller.", "quantifier": "for every dendrogram and all options", "why_tests_cant": "All tree shapes.", "anchors": ["include/ffcl/datastruct/tree/condensed_cluster_tree/CondensedClusterTree.hpp: preorder_traversal_build, extract_flat_clusters"]}
{"id": "C30", "title": "Cluster selection maximises total stability", "statement": "With allow_single_cluster the chosen clusters have the largest total stability among all families of disjoint condensed clusters that cover every finest cluster, and among the best families the fewest clusters; if no stability is negative they are best among all families of disjoint clusters. Without allow_single_cluster the same holds among the families that leave out the whole dataset (when it can be split).", "quantifier": "for every dendrogram and min_cluster_size", "why_tests_cant": "Optimality over exponentially many selections.", "anchors": ["include/ffcl/datastruct/tree/condensed_cluster_tree/CondensedClusterTree.hpp: select_subtree, preorder_traversal_fill_shallowest_selected_nodes"]}
{"id": "C31", "title": "Stability is never negative when all merge levels are positive", "statement": "If all dendrogram levels exceed the float tolerance (or are positive integers) and do not decrease towards the root, every condensed cluster has non-negative stability. With a zero level (duplicate samples) the stability can be negative.", "quantifier": "for every dendrogram / existence", "why_tests_cant": "Negative stabilities silently change the selection.", "anchors": ["include/ffcl/datastruct/tree/condensed_cluster_tree/CondensedClusterNode.hpp: add_excess_of_mass, CondensedClusterNode", "include/ffcl/common/Utils.hpp: division", "include/ffcl/datastruct/tree/condensed_cluster_tree/CondensedClusterTree.hpp: preorder_traversal_build"]}
{"id": "C32", "title": "Single cluster and leaf options", "statement": "With allow_single_cluster=false the result never has exactly one cluster unless the condensed root has no children; with return_leaf_nodes=true the clusters are exactly the condensed leaves.", "quantifier": "for every dendrogram and min_cluster_size", "why_tests_cant": "All tree shapes.", "anchors": ["include/ffcl/datastruct/tree/condensed_cluster_tree/CondensedClusterTree.hpp: CondensedClusterTree, extract_flat_clusters"]}
{"id": "C33", "title": "HDBSCAN end to end", "statement": "For floating-point data with n >= 1 samples predict returns, for every hash order and tie order, a vector of n labels in {0..K} without gaps and with K >= 1, every cluster having at least min_cluster_size samples unless it contains all samples. For integer data with at least two samples predict never returns.", "quantifier": "for every dataset and options", "why_tests_cant": "Composition of all stages over all inputs.", "anchors": ["include/ffcl/hdbscan/HDBSCAN.hpp: predict"]}
{"id": "C34", "title": "DBSCAN terminates with gap-free labels", "statement": "predict terminates and returns labels 0..K in which every label 1..K is carried by at least one core sample (more than min_samples samples strictly within the radius).", "quantifier": "for every dataset, radius, min_samples", "why_tests_cant": "Work list growth and label allocation over all inputs.", "anchors": ["include/ffcl/dbscan/DBSCAN.hpp: predict, predict_inner"]}
{"id": "C35", "title": "DBSCAN clusters core samples by density connectivity", "statement": "Every core sample is labelled, and two core samples have the same label exactly when they are linked by a chain of core samples with consecutive distances below the radius.", "quantifier": "for every dataset, radius, min_samples", "why_tests_cant": "Chains of unbounded length.", "anchors": ["include/ffcl/dbscan/DBSCAN.hpp: predict, predict_inner"]}
{"id": "C36", "title": "DBSCAN border and noise samples", "statement": "A labelled non-core sample is within the radius of a core sample with that label, and noise samples are not core. The converse fails: a non-core sample within the radius of a core sample can be reported as noise, depending on sample order.", "quantifier": "for every dataset, radius, min_samples / existence", "why_tests_cant": "The lost border sample needs a particular visiting order.", "anchors": ["include/ffcl/dbscan/DBSCAN.hpp: predict, predict_inner (copy_if on unvisited)"]}
{"id": "C37", "title": "DBSCAN result length", "statement": "The prediction vector has one entry per sample of the whole dataset, also when the KDTree was built on a subset of indices; the documented length (that of the index range) is wrong in that case, and a sample outside the index range can open a cluster.", "quantifier": "for every dataset and index subset", "why_tests_cant": "Documentation promise about all subsets.", "anchors": ["include/ffcl/dbscan/DBSCAN.hpp: predict", "include/ffcl/datastruct/tree/kdtree/KDTree.hpp: n_samples", "include/ffcl/common/Utils.hpp: get_n_samples"]}
{"id": "C38", "title": "Transpose", "statement": "Transposing a matrix moves entry (i,j) to (j,i) without any out-of-bounds access, and the blocked parallel version equals the sequential one for every execution order of its iterations. Transposing twice gives the original matrix whenever there is at least one sample; for a dataset without samples the second call divides by zero.", "quantifier": "for every matrix, shape and schedule", "why_tests_cant": "Schedules and shapes (not multiples of the block size) are unbounded.", "anchors": ["include/ffcl/common/math/linear_algebra/Transpose.hpp: transpose, transpose_sequential, transpose_parallel_openmp"]}
{"id": "C39", "title": "Pairwise distance matrix", "statement": "operator() is symmetric, zero on the diagonal, reads only stored cells, and returns the distance of the two samples, exactly what the matrix that computes distances on demand returns; the parallel and the sequential construction agree for every schedule.", "quantifier": "for every dataset, pair of indices and schedule", "why_tests_cant": "Index arithmetic of a packed triangle over all n.", "anchors": ["include/ffcl/datastruct/matrix/PairwiseDistanceMatrix.hpp: compute_pairwise_distances, operator()", "include/ffcl/datastruct/matrix/PairwiseDistanceMatrixDynamic.hpp: operator()"]}
{"id": "C40", "title": "Levenshtein distance", "statement": "The computed value is the minimum number of insertions, deletions and substitutions turning one sequence into the other.", "quantifier": "for every pair of sequences", "why_tests_cant": "Minimum over unboundedly many edit scripts.", "anchors": ["include/ffcl/common/math/heuristics/Distances.hpp: levenshtein_distance"]}
{"id": "C41", "title": "Manhattan distance on integers is a metric bounding each axis", "statement": "The distance of signed integer vectors is symmetric, zero exactly on equal vectors, satisfies the triangle inequality, and is at least the difference along every single axis. On 32-bit unsigned vectors it is the same number as long as that number is below 2^32; beyond that it wraps around, and two different vectors can be at distance 0.", "quantifier": "for every triple of vectors of equal length", "why_tests_cant": "All vectors; search pruning depends on it.", "anchors": ["include/ffcl/common/math/heuristics/Distances.hpp: manhattan_distance, auto_distance"]}
{"id": "C42", "title": "Bounding boxes bound distances from below", "statement": "The minimum distance computed between two axis aligned boxes is the greatest lower bound of the Euclidean distances between a point of one and a point of the other (so overlapping boxes have distance zero); the membership test accepts exactly the points of the box; the diameter is the largest distance of two points of the box. The minimum distance of two balls on integer data never exceeds the distance of any two points inside them.", "quantifier": "for every pair of boxes (balls) and points inside", "why_tests_cant": "All geometries.", "anchors": ["include/ffcl/datastruct/bounds/distances/MinDistance.hpp: min_distance", "include/ffcl/datastruct/bounds/segment/distances/MinDistance.hpp: min_distance"]}
{"id": "C43", "title": "Tight bounds", "statement": "make_tight_bound contains every sample of the range and each of its faces touches a sample.", "quantifier": "for every dataset and non-empty index range", "why_tests_cant": "All datasets.", "anchors": ["include/ffcl/datastruct/Interval.hpp: make_tight_segment, make_tight_bound"]}
{"id": "C44", "title": "KMeans assignment and Lloyd update", "statement": "On floating-point data predict maps every sample to a nearest centroid, the first of them. The steps of Lloyd's algorithm assign every sample to a nearest centroid, report the sum of the distances as total deviation, and put each centroid of a non-empty cluster at the mean of its samples, while the centroid of an empty cluster is moved to the origin (not kept). On integer data predict answers cluster 0 for every sample, so it does not find nearest centroids.", "quantifier": "for every dataset, centroids and number of steps / existence", "why_tests_cant": "Empty clusters need particular initialisations.", "anchors": ["include/ffcl/kmeans/KMeansUtils.hpp: samples_to_nearest_centroid_indices, compute_cluster_sizes, compute_cluster_positions_sum", "include/ffcl/kmeans/Lloyd.hpp: step, update_centroids, update_clusters, update_buffers", "include/ffcl/kmeans/KMeans.hpp: predict, forward"]}
{"id": "C45", "title": "Hamerly keeps valid bounds", "statement": "If the initial distances are free of ties, after every step each sample is assigned to a nearest centroid of that step, as Lloyd would; with an initial tie the lower bound can be too large and a sample can be assigned to a centroid that is not nearest.", "quantifier": "for every dataset, centroids, number of steps / existence", "why_tests_cant": "Bounds accumulate over unboundedly many steps.", "anchors": ["include/ffcl/kmeans/Hamerly.hpp: step, update_centroids, update_bounds, swap_bounds"]}
{"id": "C46", "title": "FasterPAM swaps", "statement": "When every sample has one medoid nearer than the others, FasterPAM starts with a loss equal to the total deviation of its medoids (sum over the samples of the distance to the nearest medoid). The gain computed for a candidate is the true change of the total deviation, and no position for it is better. After any number of steps the loss is still the total deviation of the medoids, which stay distinct samples; a step that changes anything makes it smaller, and after finitely many steps nothing changes. A settled state need not be a local optimum: samples whose index equals the position of their nearest medoid are never tried. With samples equally near to two medoids the reported loss may be wrong. A single medoid throws. On unsigned data no exchange is ever made.", "quantifier": "for every number of samples, distance function, medoids, candidate and number of steps; existence for the refutations", "why_tests_cant": "Exactness must hold for all matrices and tie patterns.", "anchors": ["include/ffcl/kmedoids/FasterPAM.hpp: step, find_best_swap, swap_buffers, update_losses_with_closest_medoid_removal", "include/ffcl/kmedoids/PAMUtils.hpp: samples_to_nth_nearest_medoid_indices, samples_to_nth_nearest_medoid_distances"]}
{"id": "C47", "title": "Alias table is exact", "statement": "For non-negative weights that are not all zero, the unit square of the two random numbers used by one call of the alias method splits into equal cells on which the sampled index is constant, and the share of cells giving index i is exactly weight(i) / sum (exact arithmetic); for every two numbers in [0, 1) the result is an in-range index of positive weight. All-zero weights give every index an equal share, and no weights at all throw.", "quantifier": "for every weight vector and every pair of random numbers", "why_tests_cant": "Distribution statements cannot be settled by sampling.", "anchors": ["include/ffcl/common/math/random/VosesAliasMethod.hpp: VosesAliasMethod, init, operator()"]}
{"id": "C48", "title": "Silhouette values", "statement": "The silhouette value of a sample is 1 - a/b if a < b, b/a - 1 if b < a and 0 if they are equal, where a is its mean distance to the other samples of its cluster (0 if there is none) and b the least mean distance to a non-empty other cluster; hence it lies in [-1, 1], and so does the average. For a sample alone in its cluster the value is 1 (0 only if another cluster is at distance 0 altogether), not the documented 0; if all samples have the same label every value is 1. On integer data every value is -1 or 0.", "quantifier": "for every dataset, non-negative distance and labelling / existence", "why_tests_cant": "All labellings.", "anchors": ["include/ffcl/common/math/heuristics/SilhouetteMethod.hpp: cohesion, separation, silhouette, get_average_silhouette"]}
{"id": "C49", "title": "Dual tree shortest edge", "statement": "dual_tree_shortest_edge with one neighbour on floating-point data returns a closest pair between the query samples and the eligible reference samples (all of them, those not excluded, or those of another component of a union-find), with its distance, as comparing all pairs would; whatever the bucket sizes, axis policies and tie breaks, and although nodes are pruned. For any kind of values and number of neighbours it never misbehaves before its last step, which is undefined exactly when nothing was found, and any edge returned is a genuine eligible pair with its distance. What does not hold: on signed integers it finds nothing when the boxes of the two datasets are apart and may return a farther pair otherwise; with k > 1 neighbours the edge returned is not the k-th shortest (it can be shorter or longer).", "quantifier": "for every pair of datasets, trees, eligibility test, tie break", "why_tests_cant": "Pruning by accumulated bounds over all geometries.", "anchors": ["include/ffcl/search/TreeTraverser.hpp: dual_tree_shortest_edge, dual_tree_traversal", "include/ffcl/search/buffer/IndicesToBuffersMap.hpp: IndicesToBuffersMap"]}
{"id": "C50", "title": "Segment centroid on integers", "statement": "For an integer segment lower <= upper the centroid lies inside the segment, except when the segment is one single negative value, where it lies one below it; it is never more than one step off the exact midpoint rounded down, and the reported centroid-to-bound distance always covers the whole segment.", "quantifier": "for every segment / existence", "why_tests_cant": "Rounding of negative sums.", "anchors": ["include/ffcl/datastruct/bounds/segment/LowerBoundAndUpperBound.hpp: centroid_impl, centroid_to_bound_distance_impl", "include/ffcl/common/Utils.hpp: compute_center_with_left_rounding"]}
{"id": "C51", "title": "Reindexing helpers", "statement": "permutation_from_indices returns the element at indices[i] at position i; for a rearrangement of 0..n-1 the result is a rearrangement of the input and the inverse rearrangement leads back to it. remap_ranges_from_indices does the same row by row and leaves values behind the last full row in place. Sizes that do not match throw; an index outside the input, or zero features, is undefined.", "quantifier": "for every input, list of indices and number of features", "why_tests_cant": "All permutations.", "anchors": ["include/ffcl/common/Utils.hpp: permutation_from_indices, remap_ranges_from_indices"]}
{"id": "C52", "title": "Segments stored as lower bound and length", "statement": "A LowerBoundAndLength segment and a LowerBoundAndUpperBound segment with the same bounds keep the same bounds under update_upper_bound; under update_lower_bound(v) they keep the same bounds only if v is the current lower bound, because the upper bound moves along by the same amount; and on integers contains_value of the former rejects its own upper_bound().", "quantifier": "for every pair of segments with the same bounds and every value", "why_tests_cant": "Tests construct segments once and query them; interleavings of updates over all values are not enumerable and the two representations are never compared.", "anchors": ["include/ffcl/datastruct/bounds/segment/LowerBoundAndLength.hpp:LowerBoundAndLength", "include/ffcl/datastruct/bounds/segment/LowerBoundAndUpperBound.hpp:LowerBoundAndUpperBound"]}
{"id": "C53", "title": "Centroids stored in KDTree nodes", "statement": "Every node of a KDTree stores the centroid of the bounding box of the root; for a child node this is in general not the centroid of its own box, although its box (segments) is the correct one.", "quantifier": "for every dataset, options and axis policy / existence", "why_tests_cant": "A test compares one tree; it cannot show that no tree ever stores the centroid of a child box.", "anchors": ["include/ffcl/datastruct/tree/kdtree/KDTree.hpp: build", "include/ffcl/datastruct/bounds/AABBWithCentroid.hpp: AABBWithCentroid, segment_at"]}
{"id": "C54", "title": "Unsigned data defeats the tree search", "statement": "With 32-bit unsigned feature values a k nearest neighbour search through the KDTree is not exact: the distance from the query to a splitting value is computed as an unsigned difference, which wraps around when the query is larger, so that a half space holding a nearer sample is skipped. There are unsigned datasets whose search returns a sample although a strictly nearer one was left out.", "quantifier": "there exists a dataset, a query and tree options (a counterexample to what C15 states for signed values)", "why_tests_cant": "Tests on signed or floating-point data never exercise the wrap-around, and most unsigned inputs happen to be answered correctly.", "anchors": ["include/ffcl/datastruct/tree/kdtree/KDNodeView.hpp: select_sibling_node", "include/ffcl/common/Utils.hpp: abs"]}
{"id": "C55", "title": "Two neighbours give the same tree as one", "statement": "For floating-point data make_tree with k_nearest_neighbors = 2 returns exactly the tree it returns for k_nearest_neighbors = 1: a sample is its own first neighbour, so the core distances never exceed the length of an edge.", "quantifier": "for every dataset, bucket size, depth limit, hash-map iteration order and number of rounds", "why_tests_cant": "Equality of two runs for all datasets and iteration orders; tests compare a few datasets.", "anchors": ["include/ffcl/datastruct/graph/spanning_tree/BoruvkasAlgorithm.hpp:make_tree", "include/ffcl/datastruct/graph/spanning_tree/CoreDistances.hpp:make_static_core_distances"]}
{"id": "C56", "title": "Stability is the excess of mass", "statement": "The stability of every condensed cluster equals the sum over its samples of (1/level at which the sample leaves the cluster) minus (1/level at which the cluster appears), where a sample leaves when it falls into a part smaller than min_cluster_size or the cluster splits into two parts that are not; a single-sample cluster has stability 0.", "quantifier": "for every dendrogram, min_cluster_size and cluster", "why_tests_cant": "The sum is accumulated piecewise over the trunk of the cluster with different code in four branches; tests compare final labels on a few datasets and never the sums.", "anchors": ["include/ffcl/datastruct/tree/condensed_cluster_tree/CondensedClusterTree.hpp:preorder_traversal_build", "include/ffcl/datastruct/tree/condensed_cluster_tree/CondensedClusterNode.hpp:add_excess_of_mass"]}
{"id": "C57", "title": "HDBSCAN clusters are single linkage clusters", "statement": "With k_nearest_neighbors at most 1, if two samples are in one HDBSCAN cluster and a third is not, then whenever the first reaches the third by steps of at most t it also reaches the second by steps of at most t.", "quantifier": "for every dataset, every triple of samples, every t, min_cluster_size, hash and tie order", "why_tests_cant": "The claim quantifies over all thresholds and all chains of samples; a test only sees the labels of particular datasets.", "anchors": ["include/ffcl/hdbscan/HDBSCAN.hpp:predict", "include/ffcl/datastruct/tree/condensed_cluster_tree/CondensedClusterTree.hpp: build, preorder_traversal_build, extract_flat_clusters, predict", "include/ffcl/hdbscan/HDBSCAN.hpp:Options"]}
{"id": "C58", "title": "DBSCAN labels are determined by the data", "statement": "For a KDTree over all samples the labels are completely determined by the samples, the radius and min_samples: clusters are numbered by their core sample of lowest index (the founder), and each sample belongs to the first cluster that claims it, where a cluster claims its core samples, the border samples near its founder, and the border samples after the founder that are near any of its core samples. In particular bucket size, depth limit, axis policy and the order of the indices do not matter.", "quantifier": "for every dataset, radius, min_samples, and every two trees over all samples", "why_tests_cant": "The work list order depends on the tree; a test compares a few trees, not all bucket sizes, policies and index orders.", "anchors": ["include/ffcl/dbscan/DBSCAN.hpp:predict", "include/ffcl/dbscan/DBSCAN.hpp:predict_inner"]}
{"id": "C59", "title": "Euclidean distance is a metric bounding each axis", "statement": "In exact arithmetic the Euclidean distance is symmetric, zero exactly on equal vectors, satisfies the triangle inequality and is at least the difference along every axis. Translating one vector by the other and taking the distance from the origin gives the distance of the two vectors, for the Euclidean and the Manhattan distance.", "quantifier": "for every triple of vectors of equal length", "why_tests_cant": "The search pruning, the bounds of Hamerly's algorithm and the dual-tree bounds rely on the inequality for all vectors; tests sample a few.", "anchors": ["include/ffcl/common/math/heuristics/Distances.hpp: euclidean_distance, squared_euclidean_distance, auto_distance_from_origin", "include/ffcl/common/math/linear_algebra/Translation.hpp: translate_right_range_to_origin"]}
{"id": "C60", "title": "Cosine similarity lies between -1 and 1", "statement": "In exact arithmetic cosine_similarity is symmetric and lies between -1 and 1, reaching 1 or -1 exactly for parallel vectors, unless the product of the two lengths is not above the machine epsilon, in which case the result is infinity. Because that tolerance is absolute, scaling both vectors can change the result from infinity to a proper similarity.", "quantifier": "for every pair of vectors of equal length and every tolerance", "why_tests_cant": "The bound is the Cauchy-Schwarz inequality, for all dimensions; the infinity case depends on the magnitudes.", "anchors": ["include/ffcl/common/math/heuristics/Distances.hpp: cosine_similarity", "include/ffcl/common/Utils.hpp: division, equality"]}
{"id": "C61", "title": "KMeans fit stops and returns the candidate of least reported deviation", "statement": "fit iterates every initial set of centroids until max_iter steps are done or, with early stopping, until the last patience + 1 steps left the centroids equal to those of the step before (the first step is not compared with the initial centroids), and returns the final centroids of a candidate whose reported total deviation is least. A candidate that stopped early with an exact comparison is a fixed point: every sample is assigned to a nearest centroid and every centroid of a non-empty cluster is the mean of its samples. With n_init 0 and no centroids given the result is undefined.", "quantifier": "for every dataset, list of initial centroids, options and comparison", "why_tests_cant": "The number of iterations and of candidates is unbounded.", "anchors": ["include/ffcl/kmeans/KMeans.hpp: fit"]}
{"id": "C62", "title": "Hamerly's reported total deviation is stale", "statement": "The total deviation of a newly built Hamerly object is the sum of the distances of the samples to their nearest centroids. A step changes the reported value only for the samples it reassigns, by the distance to the new centroid minus the stored upper bound for the old one; a step that reassigns no sample leaves it unchanged, however far the centroids moved. Therefore KMeans with several initialisations and the default algorithm can return a candidate whose true total deviation is larger than that of another candidate.", "quantifier": "for every dataset, centroids and state / existence", "why_tests_cant": "Tests compare final centroids of one initialisation; the ranking error needs two candidates.", "anchors": ["include/ffcl/kmeans/Hamerly.hpp: total_deviation, step", "include/ffcl/kmeans/KMeans.hpp: fit"]}
{"id": "C63", "title": "Lloyd never increases the sum of squared distances", "statement": "In exact arithmetic, with a distance that orders points as the Euclidean one does, no step of Lloyd's algorithm increases the sum of squared distances of the samples to their centroids, even when clusters become empty. The total deviation that the algorithm reports, a sum of plain distances, can increase in the same step.", "quantifier": "for every dataset, initial centroids and number of steps / existence", "why_tests_cant": "A statement about all datasets and unboundedly many steps.", "anchors": ["include/ffcl/kmeans/Lloyd.hpp: step, total_deviation", "include/ffcl/kmeans/KMeans.hpp: fit"]}
{"id": "C64", "title": "Random selection without replacement", "statement": "Selecting k of n elements at random (k <= n) returns k distinct positions, and every order of the selected elements is produced by exactly one sequence of random draws; more than n elements is undefined behaviour. A user who expects every element to have a chance is wrong: the selection is always a rearrangement of the first k elements, so uniformly initialised centroids and randomly selected samples are always the first ones of the data set.", "quantifier": "for every sequence of elements, every k and every behaviour of the random generator within its bounds", "why_tests_cant": "The result depends on the random generator; a test sees a few seeds and cannot see that an element is never selected.", "anchors": ["include/ffcl/common/math/random/Sampling.hpp:select_n_elements", "include/ffcl/common/math/random/Sampling.hpp:make_n_elements_from_interval", "include/ffcl/common/math/random/Sampling.hpp:select_n_random_samples", "include/ffcl/common/math/random/Sampling.hpp:init_uniform"]}
{"id": "C65", "title": "Spatially uniform centroids lie in the box of the samples", "statement": "Every coordinate of a spatially uniform initial centroid lies between the least and the greatest value of that feature among the samples, provided some value of the feature is at least numeric_limits::min() of the type (always so on integers). On floating-point data with negative values only it is false: the upper bound is then the least positive normal number. Without samples the call is undefined.", "quantifier": "for every data set, number of centroids and generator within its bounds", "why_tests_cant": "The failing data sets have a feature that is negative for all samples; the bound involves all samples and the generator.", "anchors": ["include/ffcl/common/math/random/Sampling.hpp:init_spatial_uniform"]}
{"id": "C66", "title": "k-means++ centroids", "statement": "k-means++ returns k samples, each at positive distance from all earlier ones unless every sample is at distance zero from one of those; with at least k distinct samples the centroids are pairwise distinct. Given the earlier centroids, the chance of a sample to be next is proportional to its distance (not squared) to the nearest of them. The variant weighting by the previous centroid only keeps a centroid apart from its predecessor and may repeat an older one. On integer data the choice is uniform over all samples and centroids may repeat.", "quantifier": "for every data set, non-negative distance, number of centroids and random numbers", "why_tests_cant": "The claims are about all outcomes of the random numbers and about exact chances.", "anchors": ["include/ffcl/kmeans/KMeansPlusPlus.hpp:make_centroids", "include/ffcl/kmeans/KMeansPlusPlus.hpp:make_centroids_from_previous_centroid"]}
{"id": "C67", "title": "KMedoids prediction", "statement": "predict returns for every sample the position of the first of its nearest medoids, forward the distance to it, and both give the same on samples and on their distance matrix. Without medoids they throw. The medoids are indices into the samples given to the call: an index that is not there is undefined behaviour, and on samples other than those of fit the labels do not refer to the medoids found by fit.", "quantifier": "for every integer data set, number of features and list of medoids; existence for the last part", "why_tests_cant": "Tests compare labels on the fitted data only; they cannot cover all data sets, and use of other samples silently gives plausible labels.", "anchors": ["include/ffcl/kmedoids/KMedoids.hpp:KMedoids::predict", "include/ffcl/kmedoids/KMedoids.hpp:KMedoids::forward", "include/ffcl/kmedoids/PAMUtils.hpp:samples_to_nearest_medoid_indices", "include/ffcl/kmedoids/PAMUtils.hpp:samples_to_nearest_medoid_distances"]}
{"id": "C68", "title": "KMedoids fit", "statement": "When every sample has one start medoid nearer than the others, fit returns as many distinct samples as there are medoids, with a total deviation that is not larger than that of the start, and not larger than that reached from any other start. Each start is followed until its medoids did not change for patience + 1 iterations, or for max_iter iterations; a start that stops early has reached a state that no further step changes. Without given medoids all starts are rearrangements of the first k samples, whatever is drawn. With no initialisations the result is undefined; a single medoid throws.", "quantifier": "for every distance function, options, number of medoids, given medoids and random numbers", "why_tests_cant": "Random starts and the stopping rule give too many executions to test; that only the first k samples are ever drawn does not show in a single run.", "anchors": ["include/ffcl/kmedoids/KMedoids.hpp:KMedoids::fit", "include/ffcl/kmedoids/FasterPAM.hpp:FasterPAM::step", "include/ffcl/common/math/random/Sampling.hpp:make_n_elements_from_interval"]}
{"id": "C69", "title": "Comparison and counting helpers", "statement": "are_containers_equal on containers holds exactly when the sizes agree and no two elements at the same place differ by more than the tolerance; without tolerance exactly when they are the same. It is reflexive and symmetric but not transitive. On ranges, further elements of the second are ignored and missing ones are undefined. count_matches counts the positions with the same element, count_matches_for_value those with a given one; is_element_in is membership and is_element_not_in its negation.", "quantifier": "for every tolerance and pair of containers; existence for the failure of transitivity", "why_tests_cant": "The early stopping of KMeans and KMedoids rests on the comparison; a sequence of unequal states with small steps counts as settled, which single comparisons do not show.", "anchors": ["include/ffcl/common/Utils.hpp:are_containers_equal", "include/ffcl/common/Utils.hpp:count_matches", "include/ffcl/common/Utils.hpp:count_matches_for_value", "include/ffcl/common/Utils.hpp:is_element_in"]}
{"id": "C70", "title": "Closest pair of two sets of samples", "statement": "For two sets of samples with floating-point features. simple_dual_set_shortest_edge returns the first pair, in loop order, that is shortest among the pairs of distinct samples; so it is the closest pair when the sets share no sample, and when they do the common sample is passed over although its distance is 0 (refuted). dual_set_shortest_edge with buffers of k samples returns the k-th shortest of all pairs whenever at least k references are accepted, and dual_set_shortest_distance its length; with fewer references than k it does not (refuted). sequential_dual_set_shortest_edge returns the closest pair between the queries and the references of another component, the one of the first such query; without such a reference it reads an empty buffer. On signed integers: the first returns the initial edge it was given unless a pair is shorter, hence never finds anything from its default one; the second returns the k-th shortest pair (Manhattan) when the bounding boxes of the sets meet and otherwise reads an empty queue; the third always returns the default edge.", "quantifier": "for all datasets, index lists, axis policies, priority queue ties, numbers of neighbours, union-find histories", "why_tests_cant": "The result depends on every pair of samples; the failures need sets that share a sample, fewer references than neighbours, or disjoint boxes.", "anchors": ["include/ffcl/search/ClosestPairOfSamples.hpp: simple_dual_set_shortest_edge", "include/ffcl/search/ClosestPairOfSamples.hpp: dual_set_shortest_edge, dual_set_shortest_distance", "include/ffcl/search/ClosestPairOfSamples.hpp: sequential_dual_set_shortest_edge"]}
{"id": "C71", "title": "Borůvka on top of the dual tree search: a spanning tree, minimum only with one neighbour", "statement": "Let the dataset be the whole set indexed by the reference tree and let the samples be separable on every axis. Then make_tree_2 on floating point features with k >= 1 neighbours terminates and returns a spanning tree of the n samples (n - 1 edges that connect everything) whose weights are the plain distances of the end points, whatever the bucket size and depth of the reference tree and whatever the iteration orders of the hash maps and ties of the queues; core distances never enter. With k = 1 the tree is a minimum spanning tree: no other spanning tree has more edges up to any threshold or a smaller total. With the default k = 3 it is in general neither minimum nor weighted by mutual reachability distances. On signed integers with k = 1 and a reference tree of the default depth it is a minimum spanning tree for the Manhattan distance (make_tree never returns on integers); with a deeper reference tree it need not be minimum. An empty dataset throws.", "quantifier": "for all datasets, reference trees (bucket size, depth, axis policy, bounds), numbers of neighbours k, hash map iteration orders and queue ties", "why_tests_cant": "Minimality is a claim against all other spanning trees, and the result depends on iteration orders and tie breaking that a test runs only one way; the default k silently gives a plausible but non-minimum tree.", "anchors": ["include/ffcl/datastruct/graph/spanning_tree/BoruvkasAlgorithm.hpp:BoruvkasAlgorithm::make_tree_2", "include/ffcl/datastruct/graph/spanning_tree/BoruvkasAlgorithm.hpp:step_dual_tree_sequential", "include/ffcl/search/TreeTraverser.hpp:dual_tree_shortest_edge_with_core_distances"]}
{"id": "C72", "title": "FasterMSC exchanges medoids by their silhouette loss", "statement": "With three medoids or more: construction from samples that have no two medoids at the same distance gives a state that holds, for each sample, its three nearest medoids and, for each medoid, what its removal gains in medoid silhouette loss (the sum over the samples of the distance to the nearest medoid over the distance to the second nearest one). For such a state and any candidate sample, the best exchange is found exactly: the first position with the smallest silhouette loss after the exchange; the state is left as it is when that is no improvement; otherwise the candidate replaces that medoid, and the new state is again correct with the new silhouette loss as reported loss, provided no sample has its third nearest medoid at position 0 and not farther than the candidate. A state that no exchange improves is left as it is. Any number of steps, from any start with two medoids or more, stays inside the buffers and keeps the number of medoids. Fewer than two medoids throw. What a user may expect but does not get: the loss reported after construction is the sum of distances; a sample with two equally near medoids is given a wrong second one; without the proviso the reported loss is wrong and the true loss can grow in a step; a medoid can be chosen twice; a better exchange can be passed over because the candidate index equals a position.", "quantifier": "for all numbers of samples and medoids, all non-negative distances with zero self distances, all states and all candidates", "why_tests_cant": "the relation of reported and true loss depends on every distance and on the order of the medoids; the failures need particular distances and positions", "anchors": ["include/ffcl/kmedoids/FasterMSC.hpp:step, find_best_swap, swap_buffers, total_deviation, Buffers", "include/ffcl/kmedoids/PAMUtils.hpp:samples_to_third_nearest_medoid_indices, samples_to_third_nearest_medoid_distances, compute_losses_with_silhouette_medoid_removal"]}
{"id": "C73", "title": "FasterMSC with two medoids", "statement": "With two medoids, a candidate sample is skipped when its index equals the position of its nearest medoid; otherwise the position whose exchange gives the smaller loss, computed from the stored distances, is chosen (position 0 when equal), and the exchange is made exactly when that loss is smaller than the reported loss, which it then becomes. The distance of the candidate is stored for the new position and the stored distance of the other position is kept (both are 0 for the candidate itself). Where the kept distance is the distance to the remaining medoid, the sample counts exactly its share of the medoid silhouette loss. A step that changes anything lowers the reported loss. What a user may expect but does not get: the reported loss can be 0 though the true loss is positive; the true loss can grow in a step; the two medoids can become the same sample.", "quantifier": "for all numbers of samples, all non-negative distances with zero self distances that differ by more than the tolerance when they differ, and all states", "why_tests_cant": "it depends on every distance whether the stored distances are those of the right medoid; tests compare few data sets", "anchors": ["include/ffcl/kmedoids/FasterMSC.hpp:step, find_best_swap_k2, swap_buffers_k2, total_deviation, Buffers"]}
{"id": "C74", "title": "Means and variances of a dataset", "statement": "For floating-point values in exact arithmetic, the mean per feature over the whole dataset, over an index range, and over an index range and a feature mask is the mean of the selected values; the variance per feature over the dataset and over an index range is the sample variance (Bessel corrected), and not a number for a single sample; the feature of greatest variance is the first one that attains the maximum; the variance of a list is its sample variance. For non-negative integers whose sums fit in the type the mean is the quotient rounded down, and the variance of a list is the formula with both quotients rounded down. What a user may expect but does not get: the variance over an index range and a feature mask counts the first sample of the range once for every sample, so it and the masked feature of greatest variance are wrong; negative integers go through a division by an unsigned number, so that the mean is out of the range of the values and the variance is undefined behaviour; rounding of integer means can select a feature that does not have the greatest variance; the integer variance of one sample is a division by zero.", "quantifier": "for all datasets, numbers of features, index ranges and masks", "why_tests_cant": "wrong samples in the masked form and unsigned divisions give plausible numbers on data with equal or positive entries", "anchors": ["include/ffcl/common/math/statistics/Statistics.hpp:compute_mean_per_feature, compute_variance_per_feature, argmax_variance_per_feature, compute_variance"]}
{"id": "C75", "title": "Order statistics and normalization", "statement": "argmax and argmin of floating-point values return the first position of the greatest and least value. The minimum of two containers is elementwise (undefined if the right one is shorter). Min-max normalization maps each value v to (max - v) / (max - min), so that the greatest value becomes 0 and the least 1, and every value to 1 / n when all n are equal. Normalization divides by the sum, so that the results sum to 1 when the sum is not 0, and gives not-a-number for each element otherwise. The n-th smallest element (n from 1) is returned with its first position: fewer than n elements are less and at least n are not greater; n = 0 or too large throws. What a user may expect but does not get: positions of small integer types are returned through the value type and are wrong from 128 on for 8 bits; the integer min-max normalization gives 0 for the greatest value and 1 for all others.", "quantifier": "for all lists of values", "why_tests_cant": "the failing lists are long, or the values integers; tests use short lists of floats", "anchors": ["include/ffcl/common/math/statistics/Statistics.hpp:argmax, argmin, min_container_inplace_left, normalize_min_max, normalize, find_nth_smallest_index_and_element"]}
{"id": "C76", "title": "Which axis a kd-tree policy chooses", "statement": "CycleThroughAxesBuild uses the allowed axes (all, or the mask) in order, each exactly once in any run of as many levels. MaximumSpreadBuild chooses the first of the longest sides of the box, or of the masked sides when one is positive. HighestVarianceBuild chooses, for three samples or more and without a mask, the first axis of greatest variance among the first max(3, rate * n) samples of the node; for two samples the first longest side of the box of the whole dataset; for one sample any axis. What a user may expect but does not get: with a mask whose sides are all 0 MaximumSpreadBuild returns axis 0 even outside the mask; HighestVarianceBuild samples the same first samples of the node whatever the random numbers are, so that the axis may have a variance hundreds of times less than another; for two samples the axis can be one on which both are equal; for one sample the mask is ignored; with a mask the spread of the samples is not what is compared.", "quantifier": "for all datasets, nodes, masks, sampling rates up to 1 and random numbers", "why_tests_cant": "the tree is correct with any axis, so no search result shows which axis was chosen", "anchors": ["include/ffcl/datastruct/tree/kdtree/policy/AxisSelectionPolicy.hpp:CycleThroughAxesBuild, HighestVarianceBuild, MaximumSpreadBuild", "include/ffcl/datastruct/tree/kdtree/KDTreeAlgorithms.hpp:select_longest_axis, select_largest_variance_axis"]}
{"id": "C77", "title": "Trees built with the library's own axis policies", "statement": "With each of the three policies, any mask of valid features, any sampling rate up to 1 and any random numbers, floating-point values: the construction terminates without undefined behaviour and gives a tree of the kind for which the partition, balance and search properties hold; in particular the k nearest neighbours found through it are the k nearest neighbours. With the default policy the same holds for 32-bit integers that are not negative and whose squares summed fit in the type. What a user may expect but does not get: with three negative integers the construction with the default policy is undefined behaviour, whatever the bucket size, the depth and the random numbers.", "quantifier": "for all datasets, masks, rates, random numbers, bucket sizes, depths and queries", "why_tests_cant": "the axes depend on data and random numbers at each node; undefined behaviour shows only for integer data with negative values", "anchors": ["include/ffcl/datastruct/tree/kdtree/KDTree.hpp:KDTree, build", "include/ffcl/datastruct/tree/kdtree/policy/AxisSelectionPolicy.hpp:CycleThroughAxesBuild, HighestVarianceBuild, MaximumSpreadBuild", "include/ffcl/search/Search.hpp:Searcher"]}
{"id": "C78", "title": "Box range search", "statement": "A buffer whose bound is an axis-aligned box with a centroid, searched in a kd-tree with a capacity k of at least 1, holds the min(k, c) of the c indexed samples inside the box (borders included) that are nearest to the centroid, whether the centroid is the computed one or the caller's. With the default capacity and floating-point data it holds exactly the samples inside the box, each once. With integer data the default capacity search is exact if a sample of the box lies on the centroid, and can otherwise miss samples of the box.", "quantifier": "for every dataset, box, centroid, capacity, tree options and axis policy", "why_tests_cant": "the pruning compares the distance to the centroid with a furthest distance that knows nothing of the box, and samples outside the box do not fill the buffer; a miss depends on where the centroid lies with respect to every split", "anchors": ["include/ffcl/datastruct/bounds/AABBWithCentroid.hpp:AABBWithCentroid", "include/ffcl/search/buffer/Unsorted.hpp:Unsorted", "include/ffcl/search/Search.hpp:Searcher"]}
{"id": "C79", "title": "Batches of buffers, and one buffer searched in several trees", "statement": "A batch search gives every buffer of the batch exactly what searching it alone gives, in the order of the batch; this also holds when the buffers share a union-find that the searches compress, and the components are the same after the batch. A buffer of capacity k at least 1 handed from one tree to the next over parts of the same samples ends with the k nearest among the admitted samples of all parts together; without a limit (floating-point data) with all of them. What a user may expect but does not get: searching the same tree again with the buffer of the first search reports samples twice.", "quantifier": "for every dataset, list of trees, bounds, queries, capacities, batch and union-find history", "why_tests_cant": "the pruning of a later search uses the distances of earlier ones; every interleaving of trees and buffers is another case", "anchors": ["include/ffcl/search/Search.hpp:Searcher", "include/ffcl/search/TreeTraverser.hpp:TreeTraverser", "include/ffcl/search/buffer/StaticBuffer.hpp:StaticBuffer", "include/ffcl/search/buffer/WithUnionFind.hpp:WithUnionFind"]}
{"id": "C80", "title": "The document written for a tree, and copies and moves of the tree object", "statement": "Serializing a tree writes one JSON value that can be read back in only one way: the number of indexed samples, the number of features, the options, the exact extent of the samples in every feature, and a nested tree whose points are exactly the indexed samples (each with its feature values, integers as integers and floating-point values as doubles), inner nodes splitting strictly below / at or above their point and leaves respecting bucket size and depth. A copy writes the same and finds the same nearest neighbors; so does the result of a move as far as searching goes. The accessors give the i-th sample of the dataset and its sizes. What a user may expect but does not get: writing a moved-to tree (its sample count was never set), a depth limit of 2^63 or more written as such (it is negative), n_samples() counting the indexed samples (it counts the dataset).", "quantifier": "for every dataset, index range, options, axis policy, query and k", "why_tests_cant": "the document is nested to any depth; a test reads back a few trees only, and an uninitialized member often holds a plausible value", "anchors": ["include/ffcl/datastruct/tree/kdtree/KDTree.hpp:KDTree::serialize", "include/ffcl/datastruct/tree/kdtree/KDNodeView.hpp:KDNodeView::serialize", "include/ffcl/datastruct/tree/kdtree/KDTree.hpp:KDTree::KDTree"]}
{"id": "C81", "title": "Two trees built over one index range", "statement": "A tree refers to the index range it was built from, and building a second tree over that range (over the same or another dataset) rearranges it. Searching the first tree afterwards still stays inside the arrays and reports min(k, n) samples of the range, none twice, with their true distances. If the first tree is a single leaf (default depth limit, or no more samples than the bucket) they are the k nearest. What a user may expect but does not get: the k nearest from a first tree with splits; a sample can even fail to find itself.", "quantifier": "for every pair of datasets, range of distinct indices, options and policies of both trees, query and k", "why_tests_cant": "the answers are plausible and depend on how the second construction permutes the range", "anchors": ["include/ffcl/datastruct/tree/kdtree/KDTree.hpp:KDTree::build", "include/ffcl/datastruct/tree/kdtree/KDNodeView.hpp:KDNodeView", "include/ffcl/search/Search.hpp:Searcher"]}
{"id": "C82", "title": "Rounded distances: tree searches and clusterings match brute force in floating point", "statement": "On float or double data (any IEEE 754 binary format of at least two bits of precision) every distance the library computes carries rounding errors: features are subtracted, squared, added in an order the standard leaves open, possibly with fused multiply-adds, and the square root is taken, each step rounded and possibly overflowing or underflowing, while the pruning of the tree compares with one rounded feature difference. Nevertheless, for finite features that are either equal or further apart than the tolerance: the k nearest neighbours found through the tree are exactly those of a linear scan that computes the same rounded distances; a radius search returns exactly the samples whose rounded distance is below the radius (no overflowing difference); the minimum spanning tree is minimum for the rounded distances; DBSCAN groups core samples by density connectivity of the rounded distances; HDBSCAN without core distances returns single linkage clusters of the rounded distances. What a user may not expect: distinct samples can be at distance 0, so that the pruning distance of one feature exceeds the full distance; the sample reported as nearest need not be nearest in exact arithmetic; and two builds of the same program (with and without fused multiply-add) may report different neighbours.", "quantifier": "for all IEEE 754 binary formats with at least two bits of precision, all orders of summation that add each square once, with any subset of additions fused, all finite datasets and queries, all axis policies, bucket sizes and depths, all k and radii; the last three by witness in double precision", "why_tests_cant": "the claim is about every rounding, overflow and underflow pattern of every dataset and every order of summation a compiler may choose; a test compares on one build and a handful of datasets, where a pruning error of one unit in the last place is not met", "anchors": ["include/ffcl/common/math/heuristics/Distances.hpp: auto_distance, euclidean_distance", "include/ffcl/datastruct/tree/kdtree/KDNodeView.hpp: select_sibling_node", "include/ffcl/search/TreeTraverser.hpp: operator()", "include/ffcl/datastruct/graph/spanning_tree/BoruvkasAlgorithm.hpp: make_tree", "include/ffcl/dbscan/DBSCAN.hpp: predict", "include/ffcl/hdbscan/HDBSCAN.hpp: predict", "CMakeLists.txt: compile options"]}
{"id": "C83", "title": "Accuracy of computed distances and of the answers of searches", "statement": "A Euclidean distance computed in floating point differs from the exact one by a relative error of one rounding per nested operation (the square of the result lies between (1-u)^h s - n t and (1+u)^h (s + n t), where s is the exact squared distance, n the number of features, u the unit roundoff, t the smallest positive number and h four more than the depth of the sum), and it is finite unless the exact one is close to the square root of the largest number. Hence a neighbour reported by a tree search is nearly as close, in exact arithmetic, as every sample that is not reported, and a radius search reports no sample much further than the radius and misses none much nearer. For doubles with up to 2^20 features the relative error of the squared distance is below 2^-33.", "quantifier": "for all IEEE 754 binary formats with at least two bits of precision, all orders of summation that add each square once, fused or not, all finite points, datasets and queries", "why_tests_cant": "error bounds are about all roundings of all inputs; a test sees the error of single inputs", "anchors": ["include/ffcl/common/math/heuristics/Distances.hpp: auto_distance, euclidean_distance", "include/ffcl/search/TreeTraverser.hpp: operator()"]}
{"id": "C84", "title": "Distances that are not below infinity: Borůvka's algorithm and HDBSCAN do not return", "statement": "If the samples can be split into two non-empty groups such that no distance across the groups is below the infinity of the distance type, the minimum spanning tree is never completed: the call does not return, whatever the tree, the order of the hash maps and the number of neighbours, and neither does HDBSCAN. Two finite doubles suffice (2^600 and -2^600, whose squared difference overflows), and on integer data, where the infinity is 0, any two samples do.", "quantifier": "for all distances of a metric in the sense of the search theorems, all datasets, all splittings into two groups at infinite distance, all trees, hash map orders and numbers of neighbours; the doubles by witness", "why_tests_cant": "a test can only observe that a call has not returned yet; the claim is that no number of rounds is enough", "anchors": ["include/ffcl/datastruct/graph/spanning_tree/BoruvkasAlgorithm.hpp: make_tree, step_sequential, dual_component_step_sequential", "include/ffcl/hdbscan/HDBSCAN.hpp: predict", "include/ffcl/common/math/heuristics/Distances.hpp: auto_distance, euclidean_distance"]}
{"id": "C85", "title": "Which visited set a WithMemory buffer reads", "statement": "searcher(WithMemory(first, last, set, k)) with a set of the caller passed by const reference reports the k closest samples outside the set, leaves the set as it is, and the returned buffer keeps rejecting the members of the set as long as the caller keeps the set. The expectation that the same holds for a set handed over to the buffer (rvalue set or iterator pair) is false: the search only excludes what the move constructor of the buffer leaves behind in the argument (nothing, with common standard libraries), so visited samples are reported; and the returned buffer refers to the set of the destroyed argument, so that any further update has undefined behaviour. A buffer built without a set reports the k closest samples.", "quantifier": "for every dataset, tree options, query, k >= 1, visited set, content left behind in a moved-from set, with or without elision of the returned object", "why_tests_cant": "what a moved-from set holds and the use of a set after its end of life depend on the implementation; a test that passes on one standard library does not settle the others", "anchors": ["include/ffcl/search/buffer/WithMemory.hpp: WithMemory constructors, update_impl, visited_indices_const_reference_", "include/ffcl/search/TreeTraverser.hpp: TreeTraverser::operator()", "include/ffcl/search/Search.hpp: Searcher::operator()"]}
{"id": "C86", "title": "Trees and searches on data with NaN and infinities", "statement": "Whatever the values are (NaN and infinities included), quickselect, quicksort, building a KDTree and searching it end, never read outside the data, and lose or repeat no sample: sorting returns a permutation of the indices, the tree holds every index once and keeps its bucket size and depth limits, and a search for k samples returns min(k, number of samples in the bound) different samples, each with the distance computed for it. An unlimited search returns samples of the bound only, each at most once. The expectation that the answers are also the right ones when some unrelated sample holds a NaN is false: with one NaN among five samples the NaN is reported as the nearest of every other sample, a search in a radius around a sample does not report it, and quicksort leaves the numbers out of order.", "quantifier": "for every value type with an irreflexive operator< and an equality that is false for a value not equal to itself (doubles of IEEE 754 in particular), every dataset, axis choice, bucket size, depth, bound, query and k", "why_tests_cant": "a partition loop without an order is the standard way to run past an array or loop forever; the inputs that do so are few among all bit patterns", "anchors": ["include/ffcl/common/algorithms/Sorting.hpp: partition_around_pivot_index, quickselect, quicksort", "include/ffcl/datastruct/tree/kdtree/KDTree.hpp: KDTree, build", "include/ffcl/search/TreeTraverser.hpp: single_tree_traversal", "include/ffcl/search/buffer/StaticBuffer.hpp: update_static_buffers", "include/ffcl/common/Utils.hpp: equality"]}
{"id": "C87", "title": "What a ball or a box tells about the points inside it", "statement": "Asking a ball or box for the distance of a point returns one exactly when the point is inside, and then the distance from the centre. The points of a ball are strictly within its radius, so the surface is outside, a ball of radius 0 is empty and any two points inside are closer than the diameter, for Manhattan and for Euclidean distances. A ball without bound holds every point. The distance from the centre of an integer box to its furthest side is the largest over the sides and exceeds how far any coordinate of a point inside is from the centre. On floating point boxes the same query returns that distance rounded down to an int (undefined from 2^31 on), so less than one below it. Four expectations are false: that the furthest distance bounds the distance of the points of the box, that the rounded one covers the coordinates, that the diameter of an integer box bounds the Manhattan distances inside, and that a ball of integers without bound has a diameter above the distances inside (it is 0).", "quantifier": "for every ball, box, number of features and point", "why_tests_cant": "a bound on all pairs of points in a region is a statement about infinitely many points; the rounding shows only on boxes with fractional sizes", "anchors": ["include/ffcl/datastruct/bounds/Ball.hpp: Ball, BallView", "include/ffcl/datastruct/bounds/UnboundedBall.hpp: UnboundedBall, UnboundedBallView", "include/ffcl/datastruct/bounds/AABBWithCentroid.hpp: diameter, centroid_to_furthest_bound_distance, compute_distance_to_centroid_if_within_bounds"]}
{"id": "C88", "title": "Choosing initial medoids", "statement": "With floating point distances the first medoid is the sample with the least sum of distances to all samples, the lowest index among equals, returned with that sum. Building k medoids, k at most the number of samples, returns k different samples and the distance of every sample to the nearest of them; with more medoids than samples the rest are sample 0 repeated and the deviation is infinite. Medoids are copied to centroids row by row, and a medoid that is not a sample is read outside the data. Three expectations are false: on integers, where infinity is 0, every medoid is sample 0 and the deviation 0; a medoid added is not the one that decreases the total deviation the most (it is the one with the greatest total deviation after adding it plus its own distance to the medoids before); and the number returned is not the total deviation of the medoids, the decreases are added instead of subtracted, so it is never below that of the first medoid alone.", "quantifier": "for every dataset or distance matrix, number of medoids and choice of medoids", "why_tests_cant": "which of all samples is optimal is a statement over all candidates; a test with one expected list of medoids does not tell the criterion", "anchors": ["include/ffcl/kmedoids/PAMUtils.hpp: first_medoid_td_index_pair, medoids_to_centroids", "include/ffcl/kmedoids/PAMBuild.hpp: build"]}
{"id": "C89", "title": "Integers of bounded width", "statement": "For samples and queries of a signed integer type of w bits whose values lie in [lo, hi]: if (hi - lo) times the number of features is below 2^(w-1), distances and every search on any tree (any bound, any buffer, any capacity, any order of the additions) behave exactly as on unbounded integers, without overflow; for types narrower than int, whose distances are narrowed when stored, the same condition suffices. No larger range will do: otherwise some one-sample dataset and query make the search undefined; on signed char a search can return the furthest sample as the nearest, at a negative distance. A computed distance is always right: the only alternative is undefined behaviour. Construction agrees with construction on unbounded integers when twice each value fits in w bits, and then construction and search return the k nearest samples with exact distances; when on some feature all values are at least 2^(w-2), the construction is undefined, even when all distances are small.", "quantifier": "all widths, all ranges, all datasets, trees, queries, bounds, buffers, orders of addition", "why_tests_cant": "The condition on the range holds over all datasets and all orders in which std::transform_reduce may add; overflow is undefined, so a test that passes says nothing.", "anchors": ["include/ffcl/common/math/heuristics/Distances.hpp: manhattan_distance", "include/ffcl/common/Utils.hpp: abs, compute_center_with_left_rounding", "include/ffcl/datastruct/tree/kdtree/KDTree.hpp: KDTree", "include/ffcl/search/TreeTraverser.hpp: operator(), single_tree_traversal, recursive_search_to_leaf_node, get_parent_node_after_sibling_traversal", "include/ffcl/search/buffer/Unsorted.hpp: DistanceType"]}
{"id": "C90", "title": "HDBSCAN depends on the distances only", "statement": "When no two pairs of samples are at equal distances and core distances are not used (k_nearest_neighbors at most 1), two runs of HDBSCAN on datasets with the same distances up to a renaming of the rows return the same clusters and the same noise up to that renaming and to the numbering of the clusters. The order of the rows, translations, reflections and permutations of the features, the k-d tree and its options, the order in which hash maps are iterated and in which sorting leaves equal elements change nothing else: the dendrograms are the same up to exchanging the children of nodes. With equal distances the expectation is false: on equally spaced samples the clusters depend on the order of the rows, and for one order of the rows on how sorting leaves edges of equal weight.", "quantifier": "for all datasets, renamings, metrics accepted by the search, options of the algorithm with k at most 1, trees, iteration orders and sorts", "why_tests_cant": "tests fix one standard library, one tree and one order of the rows, and cannot quantify over pairs of datasets with the same distances", "anchors": ["include/ffcl/hdbscan/HDBSCAN.hpp: predict", "include/ffcl/datastruct/tree/single_linkage_cluster_tree/SingleLinkageClusterTree.hpp: SingleLinkageClusterTree", "include/ffcl/datastruct/tree/condensed_cluster_tree/CondensedClusterTree.hpp: extract_flat_cluster", "include/ffcl/datastruct/graph/spanning_tree/BoruvkasAlgorithm.hpp: make_tree"]}
{"id": "C91", "title": "k-means comes to rest", "statement": "In exact arithmetic, for a distance that orders points as the Euclidean distance does, Lloyd's algorithm on n samples and k centroids reaches a state that further steps do not change after at most k^n + 1 steps: every sample is with a nearest centroid and every centroid is the mean of its samples. So fit with max_iter at least k^n + 1 and an exact comparison returns such centroids, and fitting the same samples again from them, with any options and tolerance, returns them unchanged. Hamerly's algorithm stops changing its centroids and its assignment after at most k^n steps, also with ties, for which its bounds can be wrong. Two expectations are false: with few iterations a second fit can move the centroids, and centroids at which Hamerly's algorithm rests can move when it is fitted again, because a new object computes its bounds afresh.", "quantifier": "for every dataset, initial centroids, number of clusters, distance ordered as the Euclidean one, options, tolerance of the second fit", "why_tests_cant": "termination of an iteration on all datasets is not settled by runs on some; the bound depends on the number of assignments", "anchors": ["include/ffcl/kmeans/Lloyd.hpp: step", "include/ffcl/kmeans/Hamerly.hpp: step", "include/ffcl/kmeans/KMeans.hpp: fit"]}
{"id": "C92", "title": "A KMeans object used for several calls", "statement": "Once a KMeans object has centroids, the number of centroids it was built for, n_init and the initializers have no effect on anything later calls return. All matrices of centroids it returns have the length of the first one: fitted on data with another number of features, the same numbers are read as fewer or more centroids, and every call succeeds when the number of features divides the length. With Lloyd's algorithm and no early stopping, fitting for m and then for m' iterations is fitting once for m + m' iterations; fitting again and again, each time for at least one iteration and whatever the other options, comes to rest, in exact arithmetic after at most k^n + 1 fits, and then the centroids are the means of the clusters that predict gives. Before the first fit predict says 0 for every sample and forward infinity. Two expectations are false: a fitted object that is fitted on other data need not return what a new object would, and with Hamerly's algorithm one iteration and one more need not be two.", "quantifier": "for every sequence of calls, dataset, number of features, options, tolerance, initializer, arithmetic with the stated laws", "why_tests_cant": "the effects of a call depend on all calls before it; tests make a few calls on one object", "anchors": ["include/ffcl/kmeans/KMeans.hpp: fit", "include/ffcl/kmeans/KMeans.hpp: predict", "include/ffcl/kmeans/KMeans.hpp: forward", "include/ffcl/kmeans/KMeans.hpp: set_options"]}
{"id": "C93", "title": "k-medoids from any start, ties included", "statement": "Whatever two or more samples the medoids start from, whether or not samples are equally near to several medoids or medoids coincide, KMedoids::fit returns as many medoids, all of them samples, and their total deviation is never above that of the start; without given medoids it is never above that of the first k samples. The loss that FasterPAM reports starts as the total deviation, only falls, and is at least the total deviation; after finitely many steps nothing changes any more. Three expectations are false when samples are equally near to several medoids: distinct medoids need not stay distinct, a single exchange can raise the total deviation, and with two medoids and two samples equally near to both the loss of removing the first medoid exceeds the largest number of the type, so that with int the computation is undefined.", "quantifier": "for every dataset or distance matrix with nonnegative distances and zero self-distance (symmetry is not needed beyond what the matrix gives), every list of two or more samples as medoids, every number of steps, every option value, every random draw", "why_tests_cant": "Ties make the bookkeeping of the second nearest medoid wrong in ways that accumulate over exchanges; a test sees single datasets on which the wrong numbers happen not to matter, and no test shows that the final deviation is bounded by the first for all of them.", "anchors": ["include/ffcl/kmedoids/FasterPAM.hpp: step", "include/ffcl/kmedoids/FasterPAM.hpp: find_best_swap", "include/ffcl/kmedoids/PAMUtils.hpp: samples_to_second_nearest_medoid_distances", "include/ffcl/kmedoids/KMedoids.hpp: fit"]}
{"id": "C94", "title": "A KMedoids object used for several calls", "statement": "Once a KMedoids object has medoids, the number it was built for, n_init and the numbers drawn have no effect on anything later calls return. Fitting, predicting and forwarding on samples, with or without the precomputed matrix, and on the matrix of the samples give the same answers and the same exceptions in any sequence of calls. In any sequence of calls on the same data an object with two or more medoids never fails, each fit returns the same medoids or better ones, and predict and forward are about the medoids held; after more fits than the total deviation of the first medoids, each of at least one iteration and with whatever options, the medoids stay the same. When no two samples are equally far from a third, fitting for m and then m' iterations without early stopping is fitting once for m + m', and one fit allowed as many iterations as the deviation is final. A held index that the samples of a later call do not have makes fit, predict and forward read out of bounds; before the first fit predict and forward throw. Two expectations are false: with ties a fit that stopped early need not be final, and an object fitted on other samples need not return what a new object would.", "quantifier": "for every sequence of calls, dataset or matrix of integer data, number of features, options, random draws; ties and repeated medoids included except where stated", "why_tests_cant": "Tests make one or two calls on one object; which state carries over and whether repeated fits end is a statement over all sequences of calls and all data.", "anchors": ["include/ffcl/kmedoids/KMedoids.hpp: KMedoids", "include/ffcl/kmedoids/KMedoids.hpp: fit", "include/ffcl/kmedoids/KMedoids.hpp: predict", "include/ffcl/kmedoids/KMedoids.hpp: forward", "include/ffcl/kmedoids/KMedoids.hpp: set_options"]}
{"id": "C95", "title": "Borůvka takes at most log2(n) rounds", "statement": "On n >= 1 samples at finite distances make_tree (any k) and make_tree_2 (any k >= 1, floating point features) end after at most floor(log2 n) rounds. The numbers of components they print start with n, each is at most half of the one before, and all are at least 2. The printed counter is their sum and at most 2 (n - 1). Both bounds are attained.", "quantifier": "for all datasets, trees, numbers of neighbours k, hash map iteration orders, ties", "why_tests_cant": "the bound concerns every dataset, every order in which the hash maps are walked and every tie; a test sees the rounds of a few datasets", "anchors": ["include/ffcl/datastruct/graph/spanning_tree/BoruvkasAlgorithm.hpp: make_tree, make_tree_2, step_sequential, dual_component_step_sequential, step_dual_tree_sequential"]}
{"id": "C96", "title": "Cutting the single linkage tree at the DBSCAN radius gives the DBSCAN clusters", "statement": "On the same whole dataset with a symmetric metric and a radius larger than 0: with k <= 1 neighbours and min_samples <= 1, two samples get the same nonzero label of DBSCAN::predict iff they have a common ancestor of level below the radius in the SingleLinkageClusterTree built from make_tree; a sample is noise iff min_samples = 1 and it has no such ancestor with any other sample. With k = 2 and min_samples = 1 the same holds. For any k with min_samples < k <= n, samples joined below the radius are core samples with the same DBSCAN label, but the converse fails for k > 2: core samples of one DBSCAN cluster may only be joined above the radius.", "quantifier": "for all datasets, metrics, radii, tree parameters, iteration orders of the hash maps, sorts and ties", "why_tests_cant": "it compares two algorithms that share no code after the k-d tree on every dataset and every radius; a test compares them at a few radii", "anchors": ["include/ffcl/dbscan/DBSCAN.hpp: predict", "include/ffcl/datastruct/graph/spanning_tree/BoruvkasAlgorithm.hpp: make_tree", "include/ffcl/datastruct/tree/single_linkage_cluster_tree/SingleLinkageClusterTree.hpp: build"]}
{"id": "C97", "title": "The k-d tree is balanced unless many samples share a value", "statement": "If on every axis at most c samples lie within the comparison tolerance of any one sample, a subtree d levels below the root of a KDTree over n samples holds at most n / 2^d + 2 (c - 1) samples, and with bucket_size >= 2 (c - 1) the height is at most 1 + log2 n. With distinct values (c = 1) all subtrees at one depth have floor(n / 2^d) samples or one less and the depths of all leaves differ by at most one. If all samples are equal the tree is a chain: its height, and so the depth of the recursion, is min(max_depth, n - bucket_size).", "quantifier": "for all datasets, index ranges, options, axis policies and tolerances", "why_tests_cant": "balance concerns every dataset and every choice of axes at every node; a test sees a few trees", "anchors": ["include/ffcl/datastruct/tree/kdtree/KDTree.hpp: KDTree, build", "include/ffcl/datastruct/tree/kdtree/KDTreeAlgorithms.hpp: quickselect_median, shift_median_to_leftmost_equal_value", "include/ffcl/datastruct/tree/kdtree/policy/SplittingRulePolicy.hpp: QuickselectMedianRange"]}
{"id": "C98", "title": "DBSCAN on changed data and with changed parameters", "statement": "Two runs of DBSCAN::predict, on datasets with any values, numbers of features and metrics, return the same labels if the same pairs of samples are within the radius and min_samples is the same: so translations, rotations, scaling together with the radius and the choice between a metric and an increasing function of it do not matter. Reordering the rows keeps the partition of the core samples (only the numbers of the clusters change) and samples near no core sample stay noise, but a sample that is not core can be noise in one order and labelled in another. With a larger radius or a smaller min_samples core samples stay core, core samples that share a cluster go on sharing one, and noise far from all core samples was noise before; but a labelled sample can become noise when the radius grows.", "quantifier": "for all datasets, metrics, radii, numbers of samples, permutations of the rows, trees", "why_tests_cant": "relates two runs on every dataset and every pair of parameters; a test compares a few runs", "anchors": ["include/ffcl/dbscan/DBSCAN.hpp: predict"]}
{"id": "C99", "title": "The document written for a single linkage tree", "statement": "Serializing a single linkage tree writes one JSON value, readable in only one way, from which the clusters at every threshold can be recovered: under \"root\" a nested tree whose leaves are the samples, each once, alone and at level 0; every merge carries the number of its samples, the index of one of them and a level at least that of all merges below it; the levels are the weights of the spanning tree; two samples are below a merge of level at most t exactly when edges of weight at most t connect them. Two trees with the same document predict the same labels for every cut level and minimum cluster size. What a user may expect but does not get: unsigned 64-bit levels of 2^63 or more (they are written as negative numbers, so a merge can appear below the merges it contains).", "quantifier": "for every spanning tree with at least one sample, every order std::sort may give to equal weights, every iteration order of the hash map, integral and floating-point weights", "why_tests_cant": "tests compare files for a few trees; that the document of every tree can be read back and answers every threshold query is a statement about all trees and thresholds", "anchors": ["include/ffcl/datastruct/tree/single_linkage_cluster_tree/SingleLinkageClusterTree.hpp: serialize", "include/ffcl/datastruct/tree/single_linkage_cluster_tree/SingleLinkageClusterNode.hpp: serialize"]}
{"id": "C100", "title": "HDBSCAN and the unit of the data", "statement": "When no two pairs of samples are at equal distances and core distances are not used, replacing every distance by a larger or smaller one without changing their order (for instance by expressing the data in another unit) gives the same dendrogram up to the levels and up to exchanging the children of nodes; the finest clusters (return_leaf_nodes) are the same, and all clusters and the noise are the same when the inverse of every distance is multiplied by one constant. That last condition fails when distances come near machine epsilon, because the inverse of a distance up to epsilon is taken for 0: if no distance exceeds epsilon, all samples are put in one cluster (with allow_single_cluster), whatever they look like. So the expectation that the unit of the data does not matter is false: samples that form two clusters and noise form a single cluster in a unit in which their distances are below epsilon.", "quantifier": "for all datasets, renamings of the rows, order preserving changes of the distances, metrics accepted by the search, trees, iteration orders, sorts and options with k_nearest_neighbors at most 1", "why_tests_cant": "a test can rescale one dataset; invariance for all datasets and units, and the exact condition under which it fails, need a proof about every comparison made by the pipeline", "anchors": ["include/ffcl/hdbscan/HDBSCAN.hpp: HDBSCAN::predict", "include/ffcl/datastruct/tree/condensed_cluster_tree/CondensedClusterTree.hpp: CondensedClusterTree::preorder_traversal_build", "include/ffcl/common/Utils.hpp: division"]}
{"id": "C101", "title": "K-means and changes of coordinates", "statement": "In exact arithmetic, let T be a map of the points that keeps parallelograms (translation, rotation or reflection, renaming of the features, another unit, added constant features) and multiplies all distances by one positive constant. KMeans predict on the images of the samples and of the centroids gives the same labels, and forward the distances times the constant. Hamerly's algorithm started at the image of the centroids gives after every number of steps the image of the centroids, the same labels and the loss times the constant, with empty clusters as well; KMeans fit with it, with any number of initial candidates, returns the image of what it returns for the original data, provided early stopping is off or its test does not tell the two apart (with the default tolerance zero: T one to one). Lloyd's algorithm and fit with it do the same if T keeps the origin or if no cluster loses all its samples. Otherwise not: as Lloyd gives a cluster without samples the origin as centroid, translating data and start can change the clusters; with a tolerance above zero, and with the absolute epsilon by which Hamerly recognises ties, a change of the unit can change the clusters with the same options.", "quantifier": "all dimensions, distances, maps T, constants, samples, initial centroids, candidates, options and numbers of steps", "why_tests_cant": "there are infinitely many maps and data sets; a test compares one pair of runs, and the failures need clusters that become empty or differences below the epsilon", "anchors": ["include/ffcl/kmeans/KMeans.hpp: fit", "include/ffcl/kmeans/KMeans.hpp: predict", "include/ffcl/kmeans/Lloyd.hpp: step", "include/ffcl/kmeans/Hamerly.hpp: step", "include/ffcl/kmeans/KMeansUtils.hpp: samples_to_second_nearest_centroid_distances", "include/ffcl/common/Utils.hpp: are_containers_equal"]}
{"id": "C102", "title": "k-medoids and the unit of the distances", "statement": "With signed whole number distances below the largest number of the type, multiplying every distance by a positive factor changes nothing that KMedoids::fit returns, whatever the start, the options and the numbers drawn, samples equally near to several medoids included: the medoids are the same, or both calls fail in the same way. The steps of FasterPAM hold the same medoids and assignments and report a loss multiplied by the factor, predict is the same and forward is multiplied. Scaling all features by a number other than 0, mirroring and moving the samples are such changes for the Manhattan distance. FasterMSC with three medoids or more, started where no sample has two medoids at the same distance, takes the same medoids in any unit; the loss reported by the construction is in the unit of the distances, after the first exchange the loss no longer depends on it. With two medoids that is false: the loss reported by the construction is a sum of distances but is compared with a sum of quotients, so in a small unit no exchange is made that is made in a larger one.", "quantifier": "All distance sources with integer distances and all positive factors, all starts, options, draws and numbers of steps; all data sets and all scales and shifts; for FasterMSC all rational distances, factors, tolerances, starts and numbers of steps.", "why_tests_cant": "A test compares two units on one data set; that the unstored second distances (the largest number of the type) cancel in every gain, for every data set with ties, needs an argument over all states of the algorithm.", "anchors": ["include/ffcl/kmedoids/KMedoids.hpp: KMedoids::fit", "include/ffcl/kmedoids/FasterPAM.hpp: FasterPAM::step", "include/ffcl/kmedoids/FasterMSC.hpp: FasterMSC::step", "include/ffcl/kmedoids/PAMUtils.hpp: samples_to_nth_nearest_medoid_distances"]}
{"id": "C103", "title": "Hamerly's algorithm computes what Lloyd's computes", "statement": "Started from the same centroids, with distances that satisfy the triangle inequality and no tie at the start, Hamerly's and Lloyd's algorithm hold the same centroids after every step, as long as each sample has one centroid nearer than all others and each centroid is nearest to some sample; fit with one candidate (given or drawn) then returns the same centroids with either algorithm, for any options. What a user may expect but does not get: the same result when a cluster becomes empty (Lloyd's algorithm moves its centroid to the origin, Hamerly's leaves it), when a tie arises in a later step (Lloyd's algorithm takes the first of the nearest centroids, Hamerly's leaves the sample where it was), or when fit chooses among several candidates (the losses Hamerly's algorithm reports are those of one step earlier, so another candidate can win).", "quantifier": "for every dataset, number of features, number of clusters, start centroids, metric, options, tolerance and number of steps; existence of datasets for the differences", "why_tests_cant": "Hamerly's bounds skip distance computations depending on the whole history of the run; a test compares two runs on one dataset, while the claim is that no sample is ever skipped wrongly on any dataset and that the two programs are interchangeable as long as nothing is tied or empty.", "anchors": ["include/ffcl/kmeans/Hamerly.hpp: step, update_centroids, update_bounds, swap_bounds", "include/ffcl/kmeans/Lloyd.hpp: step, update_centroids, update_clusters", "include/ffcl/kmeans/KMeans.hpp: fit"]}
{"id": "C104", "title": "Candidates worked on by several threads", "statement": "When KMeans::fit or KMedoids::fit (FasterPAM) is compiled with OpenMP, the result does not depend on how the threads interleave: in every order in which the iterations of the parallel loop read and write the shared vectors, fit returns the candidate it returns when it runs the candidates one after the other, once every iteration had three turns per step and three more; an iteration never writes an element another one reads or writes. What a user may expect but does not get: an exception thrown while a candidate is worked on (a single medoid) leaves fit when it is compiled without OpenMP; with OpenMP it may not leave the parallel loop, so no caller can catch it.", "quantifier": "for every algorithm used as template argument, candidates, options, number of threads and interleaving; existence for the exception", "why_tests_cant": "A test sees the few interleavings the scheduler happens to choose on one machine; a race shows up rarely and a test without OpenMP never runs the loop concurrently.", "anchors": ["include/ffcl/kmeans/KMeans.hpp: fit", "include/ffcl/kmedoids/KMedoids.hpp: fit", "include/ffcl/kmedoids/PAMUtils.hpp: samples_to_nth_nearest_medoid_indices"]}
{"id": "C105", "title": "One union-find used by several threads", "statement": "A UnionFind that some calls have built is then used by several threads at once, with every read and write of an array element as one action and the actions in any order. As long as all threads call find, every find comes back with the representative the object had, within 4*log2(n)+2 actions of its own whatever the others do, and the representatives stay what they were. When one of the threads calls merge, every find comes back with the representative before or after the merge, the merge returns what it returns when nothing else runs and leaves the same classes, representatives and ranks; the answers respect time: a find that is back before the merge has begun answers as before, a find that begins when the merge is back (or when another find has given a new answer) answers as after. What a user may expect but does not get: find is declared const, yet two finds at once may access one element with one of them writing it, which is a data race in C++; and two merges at once may come back with one of the pairs not joined.", "quantifier": "for every number of elements, earlier call sequence, number of threads, indices and interleaving; existence for the race and the lost merge", "why_tests_cant": "Interleavings cannot be enumerated and a test that passes shows one of them; a race shows up rarely or not at all.", "anchors": ["include/ffcl/datastruct/UnionFind.hpp: find", "include/ffcl/datastruct/UnionFind.hpp: merge", "include/ffcl/datastruct/graph/spanning_tree/BoruvkasAlgorithm.hpp: step_dual_tree_parallel"]}
{"id": "C106", "title": "fit with FasterMSC", "statement": "KMedoids::fit with FasterMSC, from medoids set before or found by an earlier call (at least two), returns as many medoids, all of them samples: those at which the steps from the given ones stop according to the options. Without medoids it draws n_init starts, each a rearrangement of the first k samples, and returns the medoids reached from one whose reported loss is least. A single medoid throws; n_init = 0 without medoids is undefined. Compiled with OpenMP the result is the same in every interleaving. With two medoids the steps come to rest from every start, after a number of steps that depends on the samples only; so they do with three, when different samples are farther apart than the tolerance and no sample has two of the starting medoids at the same distance, and then at least two different medoids remain. What a user may expect but does not get: the medoids returned need not have the least silhouette loss of those reached; a second call of fit may move away from the result of the first, to a smaller loss; the result depends on the unit of the samples and may hold one sample twice.", "quantifier": "for every table or source of exact distances, tolerance, options, number of medoids, starting medoids, generator and interleaving; settling for every start with two or three medoids; existence for the refuted expectations", "why_tests_cant": "tests run few data sets with one start and only look at the label count; that the steps always come to rest, that the comparison uses a reported loss that mixes distances and quotients, and that the unit decides between starts shows on no single run", "anchors": ["include/ffcl/kmedoids/KMedoids.hpp: fit", "include/ffcl/kmedoids/FasterMSC.hpp: step", "include/ffcl/kmedoids/FasterMSC.hpp: total_deviation", "include/ffcl/common/math/statistics/Statistics.hpp: get_min_index_value_pair"]}
{"id": "C107", "title": "Silhouette values in floating point", "statement": "For float or double samples that are all finite, silhouette with the Euclidean distance returns for every sample a finite value in [-1, 1], whatever the labels, even if distances or their sums overflow, and get_average_silhouette of such values is finite and in [-1, 1] (without values it is not a number). A sample alone in its cluster gets exactly 1, or exactly 0 if it lies on all samples of another cluster (up to 2n times the smallest positive number). With one cluster all values are exactly 1 as long as the sum of distances does not overflow. Every value differs from the exact expression (b-a)/max(a,b) on the computed distances by at most 3((1+u)^(n+1)-1)+4u, u half a unit in the last place of 1; for up to 2^20 doubles with distances below 2^1000 and max(a,b) at least 2^-1000 by at most 2^-30. The value of a sample is not independent of the order of the others.", "quantifier": "all binary formats with at least 2 bits, all finite samples, all labels, all orders of summation inside a distance, n up to 2^(emax-1) (2^prec for the error)", "why_tests_cant": "Rounding and overflow depend on the values of all samples; tests compare a few values with a tolerance.", "anchors": ["include/ffcl/common/math/heuristics/SilhouetteMethod.hpp: silhouette", "include/ffcl/common/math/heuristics/SilhouetteMethod.hpp: cohesion", "include/ffcl/common/math/heuristics/SilhouetteMethod.hpp: separation", "include/ffcl/common/math/heuristics/SilhouetteMethod.hpp: get_average_silhouette", "include/ffcl/common/math/heuristics/Distances.hpp: euclidean_distance"]}
{"id": "C108", "title": "Lloyd's k-means in floating point", "statement": "For float or double samples and any initial centroids, also infinite ones or NaN, predict and any number of Lloyd steps are defined and every label is the index of a centroid. With finite samples and centroids each sample gets the first centroid whose computed Euclidean distance is least, even if distances overflow, and no other centroid is closer in exact arithmetic by more than the rounding errors of the distance. After a step each coordinate of a centroid differs from the exact mean of its m members by at most ((1+u)^(m+1)-1) times the mean of their absolute values plus half the smallest positive number (u half a unit in the last place of 1); an empty cluster goes to the origin. If all samples are at most M in absolute value and n*M is below the overflow threshold by the rounding errors, all centroids after a step are finite and at most M up to rounding, whatever they were before. With whole-number coordinates adding up to at most 2^prec a centroid is the mean rounded once and lies between the members of its cluster. It is false that equal samples keep a centroid that lies on them, that the centroid of finite samples is finite, and that the centroids do not depend on the order of the samples.", "quantifier": "all binary formats with at least 2 bits, all samples and centroids of matching size, all orders of summation inside a distance, all numbers of steps", "why_tests_cant": "The claims are about every rounding and every overflow of every input; tests use a few data sets, compare with a tolerance and never contain NaN or sums that overflow.", "anchors": ["include/ffcl/kmeans/Lloyd.hpp: Lloyd::step, update_centroids, update_buffers, update_clusters", "include/ffcl/kmeans/KMeansUtils.hpp: samples_to_nearest_centroid_indices, samples_to_nearest_centroid_distances, compute_cluster_sizes, compute_cluster_positions_sum", "include/ffcl/kmeans/KMeans.hpp: KMeans::predict, KMeans::forward"]}
{"id": "C109", "title": "Hamerly's k-means in floating point", "statement": "For float or double samples and any initial centroids, also infinite ones or NaN, building a Hamerly object and any number of steps are defined: no index leaves its buffer and no cluster size is decremented below zero, and k centroids are returned. If the coordinates of the samples are whole numbers whose absolute values add up to at most 2^prec for each feature, then after one or more steps there is a distribution of the samples to the k clusters such that every centroid with samples is their mean rounded once and lies between them: the sums that the algorithm updates by adding and subtracting single samples stay exact. What a user may expect but does not get: that a centroid is near the mean of its samples for all finite data (the centroid of the sample 1 is 0 after the sample 2^60 has left its cluster, and stays 0), and that the result does not depend on the unit (multiplied by 2^-60, which is exact, the same samples give other centroids, because distances that differ by less than epsilon count as equal); Lloyd's algorithm gives the expected result in both cases.", "quantifier": "all binary formats with at least 2 bits, all samples and centroids of matching size, all orders of summation inside a distance, all numbers of steps / existence", "why_tests_cant": "The sums and bounds are carried over unboundedly many steps and reassignments; the tests check a few data sets of one scale against labels with a tolerance.", "anchors": ["include/ffcl/kmeans/Hamerly.hpp: Hamerly::step, swap_bounds, update_centroids, update_centroids_velocities, update_bounds", "include/ffcl/kmeans/KMeansUtils.hpp: samples_to_second_nearest_centroid_distances, nearest_neighbor_distances", "include/ffcl/common/Utils.hpp: equality", "include/ffcl/common/math/statistics/Statistics.hpp: get_second_max_index_value_pair"]}
{"id": "C110", "title": "Weighted sampling in floating point", "statement": "On float or double, the alias method built from any non-empty list of weights (zero, negative, infinite and not-a-number weights included) is always built and every draw returns the index of a weight, whatever the number of weights. For finite non-negative weights whose sum neither overflows nor is so small that n / sum overflows, a draw picks one of n cells with its first random number and then the cell or another index by comparing the second with a threshold; the resulting probabilities of all indices are together within 8 (n + 2) roundoffs of weight / sum. An item of weight 0 is never drawn as long as 4 n (n + 2) roundoffs are below 1 (2046 float weights, 47 million double weights). If some of the weights are infinite, only items of infinite weight are drawn, for any number of them. One might expect items of weight 0 never to be drawn from any number of weights of any size: it is false for 4500 float weights, and for two weights whose sum is too small or three whose sum overflows.", "quantifier": "for every binary format with at least two bits, every list of weights and every two random numbers in [0, 1)", "why_tests_cant": "a test checks frequencies up to sampling noise, so cannot see an error of a few roundoffs nor that an item of weight zero gets a cell of its own for particular weights", "anchors": ["include/ffcl/common/math/random/VosesAliasMethod.hpp: init", "include/ffcl/common/math/random/VosesAliasMethod.hpp: sample", "include/ffcl/common/math/random/Distributions.hpp: uniform_distribution"]}
{"id": "C111", "title": "k-means++ in floating point", "statement": "On float or double samples, both k-means++ seedings return exactly max(1, k) rows of the dataset, whatever the samples contain (infinities and NaN included). For finite samples, as long as 4 n (n + 2) roundoffs are below 1 (2046 float samples, 47 million double samples), each centroid has a computed distance above 0 from all centroids before it (for the second seeding: from the one just before it), unless every sample has the computed distance 0 from one of those, even if computed distances overflow. Hence, if the computed distance is 0 only between equal samples and there are at least k different samples, the k centroids are different. One might expect this without these conditions: it is false for 4500 float samples with three values, and for the samples 0 and 2^-80.", "quantifier": "for every binary format with 3 prec + 6 <= emax (float and double), every dataset, number of features and of centroids, order of summation, generator and sequence of random numbers in [0, 1)", "why_tests_cant": "The outcome depends on rounding inside the alias table for every dataset and on the random numbers; tests use a few seeds and small well-scaled data, where a repeated seed shows up only as a poor clustering.", "anchors": ["include/ffcl/kmeans/KMeansPlusPlus.hpp: make_centroids, make_centroids_from_previous_centroid", "include/ffcl/common/math/random/VosesAliasMethod.hpp: VosesAliasMethod", "include/ffcl/kmeans/KMeansUtils.hpp: samples_to_nearest_centroid_distances"]}
{"id": "C112", "title": "HDBSCAN's flat clusters are well formed in any arithmetic, and in floating point nearly as stable as possible", "statement": "Whatever the arithmetic of the stabilities does (rounding, overflow, NaN), extracting flat clusters from a dendrogram gives every sample a label, and the labels show disjoint clusters of the dendrogram such that every cluster without smaller ones inside lies in one of them; the whole dendrogram is one of them only if a single cluster is allowed or there are no others. With float or double levels above the epsilon of the type and at most 2^(emax-2), and n + 6 at most 2^(prec-1) samples, with or without fused multiply-add: the stability stored for each cluster is finite, at least 0 and differs from the exact excess of mass by at most ((1+u)^(4+m) - 1) * m * L, where m is the number of samples of the cluster, u the unit roundoff and L a bound of the inverse levels; and the chosen clusters have a total exact excess of mass at least that of any other disjoint clusters, less 2 * ((1+u)^(4+n) - 1) * n * L. They need not be exactly the best: for two pairs of float samples, one cluster is chosen although the two pairs have the greater excess of mass.", "quantifier": "all dendrograms, options, operations on stabilities (first part); all binary formats with prec >= 2 and emax >= 2 prec + 2, dendrograms with ordinary levels, fused or separate multiply-add (second part); the counterexample is for float", "why_tests_cant": "tests compare labels of a few data sets where clusters are well apart; they cannot bound the rounding for all dendrograms or show that no rounding, overflow or NaN breaks the labelling", "anchors": ["include/ffcl/datastruct/tree/condensed_cluster_tree/CondensedClusterTree.hpp: CondensedClusterTree, preorder_traversal_build, select_subtree, extract_flat_clusters", "include/ffcl/datastruct/tree/condensed_cluster_tree/CondensedClusterNode.hpp: add_excess_of_mass", "include/ffcl/common/Utils.hpp: division"]}
{"id": "C113", "title": "HDBSCAN on floating-point samples, from samples to labels", "statement": "Running HDBSCAN on float or double samples whose distances are finite always gives one label per sample; the labels used have no gaps and include 1; every cluster has at least the configured minimum number of samples unless all samples form one cluster; when a single cluster is not allowed (or leaf clusters are asked for), all samples form one cluster only if the single linkage tree never splits into two parts of at least that size; and without core distances (at most one neighbour) a sample reaches, at any threshold at which it reaches some sample outside its cluster, all samples of its own cluster. This does not depend on how the stabilities are computed or compared: it holds for any arithmetic used for them, rounded or not, fused or not. If moreover the computed distances of different samples are neither tiny nor near overflow, the clusters returned have the greatest exact total excess of mass among all flat clusterings of the single linkage tree, up to an explicit number of roundings that grows with the number of samples.", "quantifier": "all formats with at least 2 bits of precision and enough exponents, all samples with finite distances, all neighbour counts, minimum cluster sizes and other options, all iteration orders and summation groupings, fused or separate multiply-add", "why_tests_cant": "tests run a few data sets with one compiler; stabilities are sums of rounded differences of reciprocals and depend on contraction, iteration orders and the data, and no test can compare the result with every flat clustering", "anchors": ["include/ffcl/hdbscan/HDBSCAN.hpp: predict", "include/ffcl/datastruct/graph/spanning_tree/BoruvkasAlgorithm.hpp: make_tree", "include/ffcl/datastruct/tree/single_linkage_cluster_tree/SingleLinkageClusterTree.hpp: SingleLinkageClusterTree", "include/ffcl/datastruct/tree/condensed_cluster_tree/CondensedClusterTree.hpp: CondensedClusterTree, extract_flat_clusters"]}
{"id": "C114", "title": "K-medoids in floating point, and in any arithmetic of distances", "statement": "Whatever the arithmetic of the distances does (rounding, overflow, infinities, NaN), fitting k-medoids with at least 2 and at most n medoids ends, returns as many medoids as asked, all of them samples, and gives every sample the label of one of them; integer distances, signed or wrapping, are one such arithmetic. On float or double samples with finite distances below the largest number, started from given medoids such that every sample is nearer to one of them than to the others by at least twice the machine epsilon: after any number of steps the medoids are different samples, every sample is assigned to a medoid such that none is nearer by the computed distances, and the reported total deviation is exactly the sum, rounded in the order of the samples, of those distances, which unless it overflows is within n roundings of the least exact sum of distances to those medoids; fit returns such medoids after at most max_iter steps. The total deviation may however grow: for four float samples it grows from 1 to 3/2 (c114_improves_refuted); but with distances of at most B, t steps make the exact total deviation grow by no more than t * n * ((1+u)^(4n) - 1) * 3 n B, where u is the unit roundoff, if those sums cannot overflow. And when a sample of the start is as near to two medoids, the same sample may be returned twice (c114_distinct_refuted).", "quantifier": "all distance types with any operations and sources (first part); all binary formats with the usual exponents, all finite samples with distances below the largest number, options, clearly separated starts, groupings of sums and numbers of steps (second part); the counterexamples are for float", "why_tests_cant": "tests run few data sets and look at the result; buffers are updated incrementally with rounded sums, so drift, NaN and ties appear only for particular data, and no test covers all of them", "anchors": ["include/ffcl/kmedoids/FasterPAM.hpp: step, find_best_swap, swap_buffers", "include/ffcl/kmedoids/KMedoids.hpp: fit, predict", "include/ffcl/kmedoids/PAMUtils.hpp: samples_to_nth_nearest_medoid_indices, compute_losses_with_closest_medoid_removal"]}
{"id": "C115", "title": "Cosine similarity in floating point", "statement": "On float or double features cosine_similarity of two vectors of the same size does not change by a bit when the vectors are exchanged, also with infinities and NaN among the features and whichever of the sums the compiler fuses (a second vector that is too short is read past its end). For finite vectors of n features such that no product of two coordinates underflows, the squared lengths are below half the overflow threshold and (n+3) u <= 1/16, where u is the unit roundoff: either the product of the exact lengths is at most 4u and the result is +infinity, or it is above u and the result is finite and within 4 (n+3) u of the exact cosine; so it exceeds 1 or -1 by no more than that, and has the sign of the exact cosine whenever the latter is further from 0 than that. It can however exceed 1: (1, 1) compared with itself as floats gives 1 + 2^-23 (c115_at_most_one_refuted); and the lengths matter: non-zero vectors that are short are infinitely similar to themselves and to their opposites, and finite long ones give NaN (c115_lengths_do_not_matter_refuted).", "quantifier": "all IEEE binary formats with prec >= 2 and emax >= prec + 3, all vectors of any size with the stated bounds, any choice of fused sums", "why_tests_cant": "Rounding errors depend on every bit of the features and on the number of features; tests compare a few vectors with a tolerance chosen by hand, on one compiler.", "anchors": ["include/ffcl/common/math/heuristics/Distances.hpp: cosine_similarity", "include/ffcl/common/Utils.hpp: division", "include/ffcl/common/Utils.hpp: equality"]}
{"id": "C116", "title": "Manhattan distance in floating point", "statement": "manhattan_distance of two finite float or double points of the same size is a number from 0 to infinity, the same to a bit in both directions; it is zero exactly for points with equal coordinates (differences do not underflow, whatever their size), it is never below the computed difference of any coordinate, it never decreases when every coordinate moves further away, and unless it overflows its relative error is at most one rounding for each nested operation: between (1-u)^h and (1+u)^h times the exact distance, where h is the depth of the order in which the differences are added. A second point that is too short is read past its end. The Manhattan and Euclidean distances from the origin are, to a bit and for any features, the distances to the point with all coordinates zero when added up in the same order. The triangle inequality however fails: for three float points the distance is larger than the sum of two legs as computed (c116_triangle_refuted).", "quantifier": "all IEEE binary formats with prec >= 2 and emax >= prec + 3, all pairs of finite points of any size, any order of adding up that takes each coordinate once", "why_tests_cant": "Tests compare a few points with a tolerance and one standard library's order of summation; they cannot cover all roundings, subnormal differences and sizes.", "anchors": ["include/ffcl/common/math/heuristics/Distances.hpp: manhattan_distance", "include/ffcl/common/math/heuristics/Distances.hpp: manhattan_distance_from_origin", "include/ffcl/common/math/heuristics/Distances.hpp: euclidean_distance_from_origin"]}
{"id": "C117", "title": "Min-max scores in floating point", "statement": "normalize_min_max on finite float or double values, none of whose differences overflows, returns a finite score for each value, never outside 0 to 1 in spite of the rounding. A larger value never gets a larger score. The smallest values get exactly 1 and the largest exactly 0 unless all values are equal; then all get the nearest number to one over their count. Each score is within five units of roundoff of the exact one. Different values can get the same score, and if the largest difference overflows finite values give NaN.", "quantifier": "All non-empty lists of values of any length up to two to the precision, in any IEEE 754 binary format with round to nearest even, for all positions.", "why_tests_cant": "Whether rounding ever pushes a score out of range or swaps two scores depends on every bit of three values at a time; tests sample a few.", "anchors": ["include/ffcl/common/math/statistics/Statistics.hpp: normalize_min_max"]}
