# Formal model of FFCL (Palinody/FFCL) in Rocq

All sources: `rocq/theories/*.v` (logical name `Verif`).  Build:
`cd rocq && coq_makefile -f _CoqProject -o Makefile && make -j4`.

Per area there are up to four files:

* `*Model.v`  - Gallina transcription of the C++ functions, each definition citing file and lines in /repo;
* `*Spec.v`   - the specification vocabulary, written without using the model;
* `*Proofs.v` - lemmas;
* `*Props.v`  - the theorems that `MANIFEST.json` names, an `Example` beside each, and `Print Assumptions`.

## Modelling conventions

* Arrays and vectors are lists, indices `nat`; every array access goes through a checked read/write.
  An out-of-range access, `front()`/`top()` of an empty container, or a null dereference is the distinct
  outcome `UB`; an exception is `Throw`; running out of loop fuel is `Fuel`.  A theorem that says `= Ok ..`
  therefore also says: no undefined behaviour, no exception, terminates.
* `while` loops are structural recursion on explicit fuel, and theorems show that the fuel stated suffices.
* `std::size_t` is unbounded `nat`, except where wrap-around is observable (`remaining_capacity`), which is
  computed modulo 2^64.
* Feature values are integers `Z`.  This covers integer types without overflow, and finite floating-point
  values written as multiples of a common quantum (every finite float is a multiple of 2^-1074); comparisons,
  minima, maxima and the `equality` tolerance are then exact.  `equality` (Utils.hpp:411) is modelled as
  `|b-a| <= tol` with `tol = 0` for integers.
* Distances are a parameter: an ordered type with the laws that the proofs use.  Two instances are given:
  integer data with Manhattan distance, where `infinity<int>()` is 0 as in the code; and floating-point
  data in exact arithmetic, where a Euclidean distance is represented by its square (squaring is monotone on
  non-negative values and only comparisons matter) and infinity is a separate top element.
  These two have no rounding; rounded floating-point numbers are modelled in the `Float*.v` and `Accuracy*.v` files (C82-C84, C107-C117).
* Unknowns are universally quantified parameters: hash-map iteration order (any permutation), the result of
  `std::sort` among ties (any sorted permutation), random numbers and axis policies (any value in range),
  OpenMP schedules (any order of the iterations).
* Where a property is false of the code the theorem is called `..._refuted` and exhibits a concrete witness
  computed with the model.

## Trusted base

* the Coq 8.16.1 kernel (including `vm_compute`, used in the concrete witnesses and examples);
* `Print Assumptions` output for each theorem: all theorems are closed under the global context, except those
  of `FloatProps.v`, `AccuracyProps.v`, `FloatSilhouetteProps.v`, `FloatKMeansProps.v`, `FloatHamerlyProps.v`, `FloatAliasProps.v`, `FloatPlusPlusProps.v`, `FloatCondensedProps.v`, `FloatHdbscanProps.v`, `FloatMedoidsProps.v`, `FloatCosineProps.v`, `FloatManhattanProps.v` and `FloatMinMaxProps.v`, which are about rounded real numbers and use the axioms of the real numbers of the standard
  library (`ClassicalDedekindReals.sig_not_dec`, `ClassicalDedekindReals.sig_forall_dec`,
  `FunctionalExtensionality.functional_extensionality_dep`, `Classical_Prop.classic`); Flocq adds none of its own;
* the transcription from C++ to Gallina, as documented by the line citations.

Not modelled: the text that the JSON library prints (the calls made on its writer are, C80), printing, timers,
SFINAE/type traits, iterators as such (a range is a list
or a pair of positions), move semantics other than where a property mentions them, memory deallocation,
floating-point rounding outside the properties that mention it (C82-C84, C86, C107-C117), machine-integer overflow outside the properties that mention it, data races other than the schedules mentioned above.

## Plan per property

| id | model | proof |
|----|-------|-------|
| C01-C03 | parent and rank arrays, `find` with path halving as a fuelled loop, `merge` by rank | invariant: rank strictly increases along parent links, the rank-r root has at least 2^r members; the partition equals the equivalence closure of the merge history, by induction on the history |
| C04 | same `find` on arbitrary parents | every walk of parents is a tail plus a cycle; path splitting shortens the cycle by one every two steps, so `find` returns even on cyclic labels (a non-terminating witness was expected at first and does not exist); unstable answers by witness |
| C05-C08 | index array + flat sample array, loops as in the code | loop invariant of the partition; permutation; strict decrease; refutation for tolerance > 0 |
| C09 | median + left shift | quickselect invariant: values equal to the cut and left of it are adjacent to it |
| C10-C12 | `build` on positions of the shared index array, axis policy a parameter, box threaded as in the code | induction on the range size |
| C13-C14 | buffer record with cached closest and furthest | invariant by induction on the update sequence |
| C15-C19 | traversal over the built tree, generic in the buffer | induction on the tree; pruned subtrees only contain candidates not closer than the furthest stored one |
| C20-C24 | forest map, closest-edge map, both with arbitrary iteration order, merging through the union-find model | invariants: components = union-find classes; every merged edge is a lightest edge leaving the current component of one end; exchange argument against an arbitrary spanning tree |
| C25-C27 | agglomeration over the sorted edges | map keys = union-find roots; induction on the edge list |
| C28-C32 | condensed tree as an inductive tree built by the recursive traversal | induction on the dendrogram |
| C33 | composition | combination of the theorems above |
| C34-C37 | visited/label arrays and growing work list | invariants on the work list; refutation of border completeness |
| C38-C39 | flat arrays, loops as folds, schedule = any permutation of the iterations | write-once argument |
| C40 | the row-wise dynamic programme | equality with the minimum over edit scripts |
| C41-C43, C50-C51 | direct | arithmetic / list induction |
| C44-C45 | rational arithmetic | bounds invariant with the triangle inequality |
| C46 | integer distances | exact gain lemma; refutations |
| C47 | rational arithmetic, not-a-number for a zero sum | work-list invariant on remaining mass, then counting of cells of the unit square |
| C48 | rationals with infinity and not-a-number; integers | generic loop invariants, then the two number types |
| C49 | two trees, buffers map, limits of nodes, queue of edges; squared distances | induction on the fuel with the visited pairs of nodes on a stack: every pair is covered by the edge kept; witnesses |
| C52 | box functions used by the tree build | arithmetic |
| C53 | KD-tree build | induction on the range size |
| C54 | traversal with the unsigned metric | witness |
| C55 | Boruvka with k = 2 | mutual reachability of two nearest neighbours does not change the lightest leaving edges |
| C56 | condensed tree | induction on the dendrogram against the excess of mass written per sample |
| C57 | composition | nodes of a dendrogram that share a sample are nested; cuts are threshold components (C22, C26) |
| C61 | `fit` over an abstract algorithm (construct, step, centroids, loss) | loop invariant against the sequence of states |
| C62 | Hamerly as C45 | a step without reassignment writes no loss; witness with two candidates |
| C63 | Lloyd as C44 over rationals | the mean minimises the squared distances of a cluster, then regrouping of the sum over samples into clusters |
| C64 | selection with an arbitrary generator within bounds | the loop permutes the first k; first draw determines the first element (induction) |
| C65 | integers as units of a quantum | invariant on the running bounds |
| C66 | k-means++ over the alias table of C47 | invariant on the chosen indices; pigeonhole for distinctness |
| C67 | as C46 | first minimum by loop invariant; witness for other samples |
| C68 | `fit` over the FasterPAM states | the loop of C61; least loss of the candidates |
| C69 | direct | list induction |
| C70 | loops over two index lists, one-leaf trees | loop invariants; the queue of the best k edges as a prefix of the sorted pairs; witnesses |
| C71 | as C20, on the dual tree search of C49 | the forest invariant of C20; a search of a component as hypothesis, met by C49 (k = 1), by every search that returns a genuine pair (k > 1) and by the one-leaf search of C70 (integers); witnesses |
| C72 | FasterMSC with three medoids or more: state record, exact rational distances, the tolerance and the largest number as parameters | per sample ranking of three medoids; the gain of an exchange equals the difference of two silhouette losses; invariants of the buffers; witnesses |
| C73 | FasterMSC with two medoids | the loss that the stored distances give, computed against the specification; witnesses |
| C74-C75 | Statistics.hpp over an abstract arithmetic of the value type, instantiated with exact rationals (with not-a-number) and with signed integers of w bits | an accumulation lemma for the loops over rows and features; first greatest position through a key; witnesses |
| C76 | the axis selection functions and the three policies; random numbers universally quantified | the random selection is a permutation of the first samples, under which the variance does not change; witnesses |
| C77 | the construction of the tree with a policy that reads the dataset and can fail | on valid datasets each policy returns an axis, so the construction equals the one of C10-C12 with some policy; searches through C15; integers with a bound on the sum of squares |
| C78 | a box as third kind of bound of a buffer | the lemmas of C15/C16 with the candidates restricted to the box; witness for integers |
| C79 | the search started from any buffer, batches, several trees | invariant of the buffer carried from one search to the next: stored, displaced and skipped candidates together are the candidates offered so far |
| C80 | the members of the tree object, constructors, accessors, the calls made on the JSON writer | the calls are the text of a JSON value (induction over the tree), texts are prefix-free, the value read back satisfies a specification on documents; copies through C15 |
| C81 | the first tree with the index array as the second construction leaves it | the ranges of the nodes tile any array of that length; the search invariant without the order of the nodes; witness by computation |
| C82 | numbers of any IEEE 754 binary format (Flocq `BinarySingleNaN`), distances with a rounding after each operation, the sum grouped and fused in any way; features as integers in units of the smallest positive number, so that the tree model is unchanged | the rounded distances satisfy the conditions of the search theorems: the key fact is that the rounded root of the rounded square of a number is at least the number unless the square underflows, and that roots and sums are monotone; witnesses in double precision by computation |
| C83 | the same | relative and absolute error of each operation (Flocq), induction on the grouping of the sum; then the theorems of C82 |
| C84 | Boruvka's algorithm | invariant: no edge across the two groups is ever found, so every round ends with two components or more |
| C85 | objects of [WithMemory]: the set a buffer owns, the reference it reads, the implicit move, the call of the searcher on a temporary | the search reads the set at the address of the reference (as C18); effect of moves and destruction on the addresses |
| C86 | the sorting, construction and search functions once more over any value type (`values`, `any_metric`): comparisons, `common::equality` and distances are parameters; doubles of IEEE 754 (`SpecFloat`) are an instance | invariants of the partition loop without an order: either the pivot equals itself and is followed, or it equals nothing and the samples exchanged last stop both scans; buffers whose size and entries do not depend on the order; on integers the functions are those of SortingModel.v by computation |
| C87 | optional distances, diameters and furthest sides of balls, unbounded balls and boxes on integers, on squares and on rationals with the conversion to `int` | triangle inequality, the parallelogram bound for squares, and an invariant of the maximum kept in an `int` |
| C88 | `first_medoid_td_index_pair`, `medoids_to_centroids` and `pam::build` over any source of distances, infinity a parameter (0 on integers) | invariant "least so far" of the candidate loops; the accumulator of a candidate is the decrease of the total deviation without its own part; induction on the medoids added |
| C89 | distances, construction and searches on signed integers of w bits: every operation whose result is out of range is undefined, the sums in any order; narrowing for types below `int` | the operations agree with those on Z when (hi - lo) * n_features fits, hence the whole traversal by congruence; a one-sample tree for tightness |
| C90 | HDBSCAN as C33, two runs with their own samples, trees, iteration orders and sorts | strictly growing levels determine a dendrogram up to exchanging children from its threshold components (C22, C26); condensing, stabilities and labels respect the exchange; witnesses on equally spaced samples |
| C91 | Lloyd, Hamerly and `fit` as C44, C45, C61, in exact arithmetic | the pair (sum of squares, sum of indices) decreases while the assignment changes; two of k^n + 1 assignments are equal; for Hamerly only the sum of squares, and bounds that leave a sample alone keep doing so while centroids rest; witnesses for few iterations and for ties |
| C92 | KMeans.hpp 72-283: the object, its constructors and calls (`KMeansObjectModel.v`) | induction over sequences of calls: a relation between objects, an invariant on the length, a Lloyd object that restarts where it stopped; C91 for the rest; witnesses for other data and for Hamerly |
| C93 | the model of C46/C68, without the assumption that no sample is equally near to two medoids | an invariant weaker than C68's: the second distances kept are upper bounds, so are the losses of a removal, and the reported loss is at least the deviation (`KMedoidsTies.v`); witnesses for what ties break |
| C94 | KMedoids.hpp 66-370: the object, its constructors and calls (`KMedoidsObjectModel.v`) | induction over sequences of calls: a relation between objects, equality of everything that two sources of the same distances lead to, C93 for each fit; a fit either finds its medoids at rest or lowers the deviation; where no two samples are equally far from a third the state is a function of the medoids |
| C95 | both algorithms with what they print (`RoundsModel.v`) | every component proposes an edge that leaves it, so a new component consists of two or more old ones (fibres of the map from old to new representatives); induction over the rounds |
| C96 | DBSCAN, make_tree and the single linkage tree as they are, run on one k-d tree | density connectivity of the near pairs equals connectivity by tree edges below the radius (C22, C26, C35, C36); a core distance below the radius puts k samples in the ball |
| C97 | the construction of the k-d tree (C10) | the median moves left only past samples within the tolerance of it, so each side is at most half of the node plus c - 1; induction over the depth |
| C98 | DBSCAN as it is, run twice | the labels are determined by the pairs within the radius (C58); density connectivity under a renaming of the samples and under a larger relation |
| C99 | the calls `SingleLinkageClusterTree::serialize` makes on the JSON writer | the text equals that of a JSON value (unambiguous, C80); a reader gets a tree isomorphic to the one in memory, to which C25 and C26 apply |
| C100 | HDBSCAN as it is, run twice | the condensed tree of a dendrogram with replaced levels is simulated step by step; the dendrogram of the second run is a mirror image (C90) of the first one with replaced levels, since paths have a largest step |
| C101 | k-means as it is, run twice: on data and on its image under an affine similarity (`AffineSpec.v`) | `AffineProofs.v`: loops mapped by a function, forward simulation of the steps of Lloyd and Hamerly and of `fit`; numbers are canonical rationals, the distance is any function the map scales. |
| C102 | FasterPAM, KMedoids and FasterMSC as before; MedoidUnitSpec (a source in another unit) | simulation of the two runs step by step (MedoidUnitProofs): distances are multiples or both the largest number, the losses are a multiple plus as many largest numbers as samples without a second distance, which cancel in each gain; for FasterMSC (MscUnitProofs) quotients are equal; two medoids by a refutation |
| C103 | Lloyd, Hamerly and KMeans::fit as before; FollowSpec (decisive centroids) | induction on the steps from C44 and C45: a decisive assignment is unique and leaves no cluster empty, so both updates give the same means; the loop of fit only looks at the centroids; three refutations by vm_compute |
| C104 | ThreadsModel: the OpenMP loops of KMeans::fit and KMedoids::fit as transition systems, one action per access to a shared vector, any schedule; an exception that leaves the loop body is UB | every action of an iteration keeps what the iteration will leave behind (outcome) and touches its own elements only; a decreasing measure bounds the turns; the exception by a witness for every schedule |
| C105 | SharedFindModel: find and merge as transition systems with one action per access to parents_ or ranks_, any number of threads and any schedule | invariant: the parents always describe the classes before the merge or those after it, ordered by the ranks the merge leaves; every find's position names an element of its own class of higher and higher rank, which bounds its actions; a find that starts after the link can only end at the new representative; the race and the lost merge are computed |
| C106 | MscFitModel: fit with FasterMSC, one candidate after the other and concurrently | the loop is the one of C67/C68 over the steps of C72/C73; two medoids: the reported loss falls strictly within a finite set of sums; three medoids: the stored loss does; hence the steps come to rest after a number of steps that only depends on the samples. For four and more medoids the stored loss may grow; whether the steps then come to rest is not claimed. What fit selects, a second call and the unit are refuted by computed cases |
| C107 | FloatSilhouetteModel: the element type of SilhouetteModel instantiated with Flocq's binary formats | sums and means stay non-negative numbers or infinity (C82), quotients of the smaller by the larger mean round into [0,1]; the error of a sum as in C83 by induction, then of the quotient; partial sums of the average by the fact that 2^prec + 1 rounds to 2^prec |
| C108 | FloatKMeansModel: KMeansModel instantiated with Flocq's binary formats | the scan for the nearest centroid with an order that is total only on non-negative numbers and infinity; the update step for any arithmetic, no laws needed, as a left-to-right sum; the error of that sum by induction, then of the quotient |
| C109 | FloatHamerlyModel: Hamerly.hpp once more on one number type with its own infinity, max() and lowest(), instantiated with Flocq's binary formats and common::equality | an invariant without any law of arithmetic: lengths, labels in range, sizes are counts, and a relation kept by adding and by subtracting a sample holds of every stored sum; instantiated with "equals the exact sum" for whole numbers; witnesses by vm_compute |
| C110 | FloatAliasModel: VosesAliasMethod.hpp once more on Flocq's binary formats (sum from the left, factor, products, transfers, truncated product) | the cell by round-to-nearest against the midpoint below n; the loops by induction on the pairs, the other arrays framed; each transfer loses at most (2n + 1) roundoffs, the leftovers all lie on one side of 1 so that they are off by what was lost in total; normalization by relative errors; witnesses by vm_compute |
| C111 | FloatPlusPlusModel: KMeansPlusPlus.hpp on Flocq's binary formats, from the distances of FloatKMeansModel and the table of FloatAliasModel | the loops by induction with the list of chosen indices; positive weights by c110_zero_never, whose range conditions follow from the exponent range of square roots, or by c110_infinite_only if a distance overflows; distinctness by pigeonhole; witnesses by vm_compute |
| C112 | The condensed tree over any type of stabilities, walked together with the exact condensed tree of the same dendrogram; labels need only that the two have the same nodes | the same clusters are disjoint and cover whatever is compared; each addition to a stability and each sum of two chosen totals adds one rounding, bounded relative to samples times the greatest inverse level |
| C113 | `predict` with the condensed tree of C112 in place of the exact one, on the rounded distances of C82 | C20, C25 and C26 give spanning tree, dendrogram and its cuts; C112 gives the labels; the edges of a spanning tree join different samples, so every level is a distance of different samples, also with core distances |
| C114 | FasterPAM and `KMedoids::fit` over a type of distances with any `+`, `-`, `<`, equality; its instance with the rounded distances of C82 and rounded sums | lengths and ranges of the buffers are invariant in any arithmetic; non-negative finite numbers are ordered like integers, so the buffers stay right as in C46 whichever swaps the rounded sums choose; the losses of removals stay non-negative, so a sample that is a medoid is not swapped in; the sum of C84 bounds the reported loss; the exact gains of C46 are the rounded ones up to the roundings of their sums, which bounds the growth |
| C115 | `cosine_similarity` on numbers of any IEEE 754 binary format, each product either rounded or fused with its sum | symmetry: rounded and fused products commute, bit by bit; accuracy: the error of a sum of h products is at most ((1+u)^(h+1) - 1) times the sum of their absolute values, by induction over the features, then roots, product and quotient, with the inequality of Cauchy and Schwarz over the reals; refutations by computation |
| C116 | `manhattan_distance` on numbers of any IEEE 754 binary format, added up in any order | differences of finite numbers have a relative error even when tiny; induction over the order of adding up: sums are at least each term and gain one relative error for each level; refutation by computation |
| C117 | `normalize_min_max` on numbers of any IEEE 754 binary format, values and scores of the same type | each score as a composition of roundings, all monotone, with 0 and 1 exact; the error from the relative error of the differences; refutations by computation |
| C59-C60 | direct, exact arithmetic | Cauchy-Schwarz by induction on the vectors; square roots through rational upper bounds |
| C58 | DBSCAN as C34 | invariant of the entry loop against the list of founders; uniqueness of the labels from the specification |

## What is modelled

| files in /repo/include/ffcl | model |
|---|---|
| datastruct/UnionFind.hpp | UnionFindModel.v |
| datastruct/UnionFind.hpp used by several threads | SharedFindModel.v |
| common/algorithms/Sorting.hpp | SortingModel.v |
| datastruct/bounds/*.hpp, segment and vector helpers they use | BoundsModel.v |
| datastruct/tree/kdtree (KDTree.hpp, KDNodeView.hpp, KDTreeAlgorithms.hpp, SplittingRulePolicy.hpp; axis policies as parameters) | KDTreeModel.v |
| search/buffer (Unsorted, Sorted, StaticUnsorted, WithMemory), Base.hpp capacity arithmetic | BufferModel.v |
| search/Search.hpp, TreeTraverser.hpp single-tree traversal, Distances.hpp of one or two points | SearchModel.v |
| search/Search.hpp and TreeTraverser.hpp on batches of buffers and on non-empty buffers; AABBWithCentroid.hpp as bound of a buffer | BatchModel.v, BufferModel.v |
| tree/kdtree/KDTree.hpp members, constructors, accessors, serialization; KDNodeView.hpp serialization (not: reparsing the text, the file) | DocumentModel.v |
| common/math/heuristics/Distances.hpp (auto, Euclidean) in rounded binary floating point | FloatModel.v |
| search/buffer/WithMemory.hpp (object layout), search/TreeTraverser.hpp operator() (moves) | MemoryModel.v |
| common/algorithms/Sorting.hpp, datastruct/tree/kdtree/KDTree.hpp, KDTreeAlgorithms.hpp, KDNodeView.hpp, search/TreeTraverser.hpp, search/buffer/StaticBuffer.hpp over any values | AnyModel.v |
| datastruct/bounds/Ball.hpp, UnboundedBall.hpp, AABBWithCentroid.hpp (distance, diameter and furthest side queries) | BallModel.v |
| kmedoids/PAMBuild.hpp (the overload for samples; the one for matrices does not compile), PAMUtils.hpp (first medoid, copies of medoids) | BuildModel.v |
| Distances.hpp (`manhattan_distance`), Utils.hpp (`abs`, `compute_center_with_left_rounding`), KDTree.hpp, TreeTraverser.hpp, KDNodeView.hpp (again, on w bits) | WidthModel.v |
| search/TreeTraverser.hpp dual-tree traversal, search/buffer/IndicesToBuffersMap.hpp | DualTreeModel.v |
| search/ClosestPairOfSamples.hpp | PairsModel.v |
| graph BoruvkasAlgorithm.hpp `make_tree` | BoruvkaModel.v |
| graph BoruvkasAlgorithm.hpp, the output of both to the terminal | RoundsModel.v |
| graph BoruvkasAlgorithm.hpp `make_tree_2` (not `step_dual_tree_parallel`, which nothing calls) | DualBoruvkaModel.v |
| SingleLinkageClusterTree.hpp | SlinkModel.v |
| CondensedClusterTree.hpp | CondensedModel.v |
| hdbscan/HDBSCAN.hpp | HdbscanModel.v |
| dbscan/DBSCAN.hpp | DbscanModel.v |
| common/math/linear_algebra/Transpose.hpp, datastruct/matrix/PairwiseDistanceMatrix(Dynamic).hpp | MatrixModel.v |
| common/math/heuristics/Distances.hpp (all functions), linear_algebra/Translation.hpp | BoundsModel.v, BufferModel.v, DistancesModel.v |
| kmeans/KMeansUtils.hpp, Lloyd.hpp, Hamerly.hpp, KMeans.hpp (`fit`, `predict`, `forward`) | KMeansModel.v |
| kmeans/KMeans.hpp (the object over several calls) | KMeansObjectModel.v |
| kmeans/KMeans.hpp and kmedoids/KMedoids.hpp `fit` compiled with OpenMP | ThreadsModel.v |
| common/math/random/Sampling.hpp, VosesAliasMethod.hpp, kmeans/KMeansPlusPlus.hpp (random numbers as parameters; not `select_n_random_samples_from_indices`, which does not compile) | RandomModel.v |
| common/math/heuristics/SilhouetteMethod.hpp | SilhouetteModel.v |
| the same in rounded binary floating point | FloatSilhouetteModel.v |
| kmeans/Lloyd.hpp in rounded binary floating point | FloatKMeansModel.v |
| kmeans/Hamerly.hpp in rounded binary floating point, without the loss | FloatHamerlyModel.v |
| common/math/random/VosesAliasMethod.hpp in rounded binary floating point | FloatAliasModel.v |
| kmeans/KMeansPlusPlus.hpp in rounded binary floating point | FloatPlusPlusModel.v |
| condensed_cluster_tree/CondensedClusterTree.hpp, CondensedClusterNode.hpp over any arithmetic and in rounded binary floating point | FloatCondensedModel.v |
| hdbscan/HDBSCAN.hpp predict over any arithmetic of stabilities and in rounded binary floating point | FloatHdbscanModel.v |
| kmedoids/FasterPAM.hpp, KMedoids.hpp fit and predict over any arithmetic of distances and in rounded binary floating point | FloatMedoidsModel.v |
| Distances.hpp `cosine_similarity`, Utils.hpp `division` in rounded binary floating point (both vectors of one type) | FloatCosineModel.v |
| Distances.hpp `manhattan_distance`, `manhattan_distance_from_origin`, `euclidean_distance_from_origin` in rounded binary floating point (both points of one type) | FloatManhattanModel.v |
| kmedoids/PAMUtils.hpp (up to the losses of a removal), FasterPAM.hpp, KMedoids.hpp (`fit`, `predict`, `forward`) | KMedoidsModel.v |
| kmedoids/KMedoids.hpp (the object: constructors, options, sequences of calls on samples and on matrices) | KMedoidsObjectModel.v |
| kmedoids/FasterMSC.hpp, third nearest medoid and silhouette losses in PAMUtils.hpp | MscModel.v |
| kmedoids/KMedoids.hpp fit with FasterMSC | MscFitModel.v |
| common/math/statistics/Statistics.hpp | BufferModel.v (`get_max_index_value_pair`), KMedoidsModel.v, StatsModel.v; `normalize_min_max` in rounded binary floating point: FloatMinMaxModel.v |
| datastruct/tree/kdtree/policy/AxisSelectionPolicy.hpp, axis selection in KDTreeAlgorithms.hpp, the constructor of KDTree with a policy | AxisModel.v |
| common/Utils.hpp: reindexing, comparison and counting helpers (other helpers where they are used) | UtilsModel.v |

The exact functions and lines are in the comment of each definition.

## User expectations that the code does not meet

Each is stated inside the property it belongs to and proved with a witness or for all inputs.

* `c15_close_values_refuted` - nearest neighbour search misses a sample when two feature values differ by less than the
  tolerance of `equality`.
* `c16_integer_radius_search_refuted` - radius search on integer data.
* `c54_unsigned_search_refuted` - search on unsigned data.
* `c23_*_refuted` - minimality of the Boruvka tree with core distances.
* `c24_boruvka_never_returns_on_integers`, `c33_hdbscan_never_returns_on_integers`.
* `c27_labels_separate_components_refuted`, `c27_noise_label_is_unambiguous_refuted`.
* `c31_zero_levels_refuted` - with duplicates (level 0) stability does not behave as excess of mass.
* `c36_border_samples_are_labelled_refuted` - a border sample before its cluster, not near the founder, stays noise.
* `c37_documented_length_refuted` - length of the DBSCAN result for a tree on a subset.
* `c38_transposing_an_empty_matrix_back_refuted` - a matrix without samples cannot be transposed back.
* `c41_unsigned_manhattan_separates_refuted` - the unsigned distance wraps around to 0.
* `c60_cosine_is_scale_free_refuted` - the cosine similarity of short vectors is infinity.
* `c44_integer_nearest_refuted` - predict on integer data always answers cluster 0.
* `c45_tie_refuted` - Hamerly's algorithm comes to rest with a sample assigned to a centroid that is not nearest.
* `c62_fit_choice_refuted` - KMeans with several initialisations returns the worse candidate.
* `c63_deviation_refuted` - the reported total deviation of Lloyd's algorithm increases.
* `c64_every_sample_may_be_selected_refuted` - random selection never selects a sample after the first k.
* `c65_box_refuted` - spatially uniform centroids of negative floating-point data lie outside the box of the samples.
* `c66_previous_version_distinct_refuted` - the cheaper k-means++ returns a centroid twice.
* `c66_integer_distinct_refuted` - on integers k-means++ returns a centroid twice.
* `c46_local_optimum_refuted`, `c46_tie_refuted`, `c46_unsigned_never_swaps` - FasterPAM comes to rest where an exchange still
  improves; with ties it reports a wrong loss; on unsigned data it never exchanges anything.
* `c67_other_samples_refuted` - KMedoids `predict` on other samples compares with the wrong medoids.
* `c69_transitive_refuted` - `are_containers_equal` with a tolerance is not transitive.
* `c49_integer_*_refuted` - the dual tree search on integers; `c49_two_neighbours_refuted`,
  `c49_three_neighbours_refuted` - with several neighbours it does not return the k-th shortest edge.
* `c70_simple_passes_over_common_samples_refuted`, `c70_fewer_references_than_neighbours_refuted`,
  `c70_simple_integers_never_find_a_pair`, `c70_sequential_integers_never_find_a_pair` - closest pair of two sets.
* `c71_default_neighbours_not_minimum_refuted`, `c71_integers_deeper_tree_not_minimum_refuted` - `make_tree_2`.
* `c72_initial_loss_refuted`, `c72_tie_refuted`, `c72_loss_refuted`, `c72_worse_refuted`, `c72_distinct_refuted`, `c72_stuck_refuted`,
  `c73_loss_refuted`, `c73_worse_refuted`, `c73_distinct_refuted` - FasterMSC: the reported loss is not the silhouette loss of the
  medoids, which can grow in a step; a sample can become a medoid twice; a better exchange can be passed over.
* `c74_masked_variance_refuted`, `c74_argmax_variance_masked_refuted` - the variance with a feature mask reads the first sample each time;
  `c74_negative_mean_refuted` - negative integers are divided as unsigned numbers; `c74_integer_argmax_variance_refuted` - rounding.
* `c75_argmax_of_small_integers_refuted` - positions pass through the value type; `c75_integer_normalize_min_max_refuted` - only 0 and 1.
* `c76_masked_spread_refuted` - an axis outside the mask; `c76_variance_of_the_node_refuted` - the sampled part of a node is always its
  first samples; `c76_two_samples_refuted` - the box of the whole dataset; `c76_masked_variance_refuted`.
* `c78_integer_box_search_refuted` - range search in a box on integer data; `c79_searching_again_refuted` - a second search of
  the same tree with the same buffer reports samples twice.
* `c77_negative_integers_refuted` - the default tree on three negative integers is undefined behaviour.
* `c80_writing_a_moved_tree_refuted`, `c80_large_depth_refuted`, `c80_number_of_indexed_samples_refuted` - the tree object;
  `c81_shared_indices_refuted` - a first tree after a second one was built over the same range.
* `c82_distinct_samples_are_apart_refuted`, `c82_nearest_by_exact_distance_refuted`, `c82_nearest_is_the_same_in_each_build_refuted` -
  rounding; `c84_finite_doubles_have_a_spanning_tree_refuted` - an overflowing distance makes Boruvka's algorithm run forever.
* `c85_own_set_is_respected_refuted` - a visited set handed over to the buffer is ignored by the search.
* `c86_nearest_with_nan_refuted`, `c86_radius_with_nan_refuted`, `c86_sorted_with_nan_refuted` - with one NaN among the samples the nearest sample, the samples in a radius and the sorted order of the others are wrong.
* `c87_box_furthest_bounds_distance_refuted`, `c87_box_furthest_float_refuted`, `c87_box_diameter_integer_refuted`, `c87_unbounded_integer_diameter_refuted` - the furthest side is nearer than the corners and is rounded to an int, the Euclidean diameter of an integer box is below Manhattan distances inside, and an unbounded ball of integers has diameter 0.
* `c88_first_medoid_integers_refuted`, `c88_build_greedy_refuted` - on integers sample 0 is always the first medoid; a built medoid is not the best one to add and the number returned is not the total deviation.
* `c89_build_refuted`, `c89_search_narrow_refuted` - in 32 bits one sample of value 2^30 makes the construction undefined (the centre of the box adds the bounds); on `signed char` a search can return the furthest sample as the nearest at a negative distance.
* `c90_equal_distances_refuted`, `c90_row_order_refuted` - on six equally spaced samples the clusters of HDBSCAN depend on how sorting leaves edges of equal weight, and on the order of the rows.
* `c91_few_iterations_refuted`, `c91_hamerly_again_refuted` - centroids returned by `fit` can move when fitted again, if the iterations ran out or, for Hamerly's algorithm, after a tie.
* `c92_new_data_refuted`, `c92_hamerly_iterations_refuted` - a fitted object starts a further fit from its centroids, also on other data; Hamerly's algorithm restarted after one iteration can differ from two iterations.
* `c93_distinct_refuted`, `c93_step_can_worsen_refuted`, `c93_tie_overflow` - where samples are equally near to two medoids FasterPAM can choose a sample twice, a step can raise the total deviation (never above the start), and with two medoids and two such samples the loss of a removal exceeds the largest number of the type.
* `c94_refit_refuted`, `c94_new_data_refuted` - with ties a fit that stopped early is not final; a fitted object fitted on other samples starts from the indices it holds.
* `c96_dbscan_refines_cut_refuted` - for k > 2, core samples of one DBSCAN cluster can be joined only above the radius, because the tree does not have minimal mutual reachability (C23).
* `c98_noise_row_order_refuted`, `c98_labelled_samples_grow_refuted` - whether a border sample is noise depends on the order of the rows; a labelled sample can become noise when the radius grows (both because a border sample that comes before the first core sample of its cluster is only labelled when it is near that one).
* `c99_large_level_refuted` - `Int64` of an unsigned 64-bit level of 2^63 or more is negative in the document.
* `c100_unit_of_the_data_refuted` - `common::division` gives 0 for distances up to machine epsilon, so data in a large unit become one cluster.
* `c101_translation_refuted`, `c101_unit_refuted`, `c101_tolerance_refuted`: translation with Lloyd when a cluster becomes empty; another unit with Hamerly and the epsilon of `common::equality`; another unit with a tolerance above zero.
* `c102_two_medoids_refuted`: FasterMSC with two medoids exchanges or not depending on the unit of the distances.
* `c103_empty_cluster_refuted`, `c103_tie_refuted`, `c103_candidates_refuted`: Hamerly's and Lloyd's algorithm return different centroids when a cluster is empty, a tie arises on the way, or fit chooses among two candidates.
* `c104_exception_refuted`: with OpenMP the exception for a single medoid cannot be caught by the caller of fit.
* `c105_find_race_refuted`: two finds on one (const) union-find reach a data race.
* `c105_two_merges_refuted`: merge(0,1) and merge(2,1) at once may both come back with 0 and 1 not joined.
* `c106_best_refuted`: fit with FasterMSC returns the start with the least reported loss although another one reached a smaller silhouette loss.
* `c106_again_refuted`: a second call of fit leaves the medoids the first call ended at, to a smaller loss.
* `c106_unit_refuted`: the same samples in another unit give another result; in one of them a sample is medoid twice.
* `c107_order_refuted`: the silhouette value of a double sample changes with the order of the other samples.
* `c108_identical_refuted`: three equal double samples 0.1 with the centroid on them; a step moves the centroid off them.
* `c108_overflow_refuted`: the centroid of two equal finite samples is infinite and stays so.
* `c108_order_refuted`: the centroid changes with the order of the samples.
* `c109_mean_refuted`: Hamerly's centroid of the single double sample 1 is 0 for good after the sample 2^60 has left its cluster.
* `c109_unit_refuted`: Hamerly's result changes when all coordinates are multiplied by 2^-60; distances that differ by less than epsilon count as equal.
* `c110_many_refuted`: among the 4500 float weights 2^27, 4498 times 9, and 0, the item of weight 0 may be drawn.
* `c110_range_refuted`: so may the item of weight 0 when the other weight is the smallest positive number, or when the sum of the weights overflows.
* `c111_distinct_refuted`: k-means++ may choose the same value twice among 4500 float samples with three values, and among 0 and 2^-80.
* `c112_exact_selection_refuted`: in floating point the chosen clusters need not have the greatest excess of mass (two pairs of float samples, slightly better than all four together, are not chosen).
* `c114_improves_refuted`: in floating point a step of k-medoids can make the total deviation grow, although every sample has a clearly nearest medoid at the start (2, 8388610, 1.5, 1 with medoids 1.5 and 8388610: from 1 to 1.5).
* `c114_distinct_refuted`: with a sample as near to two of the medoids of the start, k-medoids on floats can return the same sample twice (1, 2, 0, 3 with medoids 1 and 3).
* `c115_at_most_one_refuted`: the float vector (1, 1) has the cosine similarity 1 + 2^-23 with itself, so `acos` of it is NaN.
* `c115_lengths_do_not_matter_refuted`: the float vector (2^-12) has the cosine similarity +infinity with itself and with its opposite, because the denominator is compared with the machine epsilon; (2^64) has NaN with itself.
* `c116_triangle_refuted`: the float points 16777218, 1 and -1 are at distances 16777216, 2 and 16777220, so the triangle inequality fails.
* `c117_strict_refuted`: among the floats 0, 2^-60 and 1 the first two both get score 1. `c117_overflow_refuted`: among -2^127, 0 and 2^127 the last gets NaN.
* `c48_alone_is_zero_refuted` - the silhouette of a sample alone in its cluster is 1, documented as 0.
