(** The kd-tree and its searches over any value type: the same functions as in SortingModel.v, BoundsModel.v, KDTreeModel.v
    and SearchModel.v, with every comparison and every arithmetic operation of the C++ value type left as a parameter.
    Floating point numbers with infinities, NaN and rounding are one instance ([double_values], [double_metric]). *)
From Coq Require Import List Arith ZArith Bool SpecFloat.
From Verif Require Import Base SortingModel BufferModel SearchModel.
Import ListNotations.

(** What building a tree uses of the value type: [operator<], [common::equality], [std::numeric_limits::lowest()] and
    [max()].  /repo/include/ffcl/common/Utils.hpp:411-423, /repo/include/ffcl/datastruct/Interval.hpp:118-122. *)
Record values := mk_values {
  vt : Type;
  vt_lt : vt -> vt -> bool;
  vt_equal : vt -> vt -> bool;
  vt_lowest : vt;
  vt_max : vt }.

(** [samples_range_first[index * n_features + feature_index]].
    E.g. /repo/include/ffcl/common/algorithms/Sorting.hpp:32. *)
Definition any_feature {V} (samples : list V) (n_features index feature_index : nat) : res V :=
  rd samples (index * n_features + feature_index).

Section Sorting.
Context (T : values) (samples : list (vt T)) (n_features feature_index : nat).
Notation lt := (vt_lt T).
Notation equal := (vt_equal T).

(** [samples_range_first[indices_range_first[pos] * n_features + feature_index]]. Sorting.hpp:32 and others. *)
Definition any_value_at (a : list nat) (pos : nat) : res (vt T) :=
  index <- rd a pos ;; any_feature samples n_features index feature_index.

(** [median_index_of_three]. /repo/include/ffcl/common/algorithms/Sorting.hpp:13-45. *)
Definition any_median_index_of_three (a : list nat) : res nat :=
  let n := length a in
  if n <? 3 then Ok 0
  else
    let left_index := 0 in
    let right_index := n - 1 in
    let median_index := right_index / 2 in
    vm <- any_value_at a median_index ;;
    vl <- any_value_at a left_index ;;
    let '(median_index, left_index) :=
      if lt vm vl then (left_index, median_index) else (median_index, left_index) in
    vr <- any_value_at a right_index ;;
    vl <- any_value_at a left_index ;;
    let '(right_index, left_index) :=
      if lt vr vl then (left_index, right_index) else (right_index, left_index) in
    vm <- any_value_at a median_index ;;
    vr <- any_value_at a right_index ;;
    let '(median_index, right_index) :=
      if lt vm vr then (right_index, median_index) else (median_index, right_index) in
    Ok right_index.

(** [do { ++left_index; } while (value[left_index] < pivot_value)]; [next] is [left_index + 1]. Sorting.hpp:75-77. *)
Fixpoint any_scan_left (fuel : nat) (pivot_value : vt T) (a : list nat) (next : nat) : res nat :=
  match fuel with
  | 0 => Fuel
  | S fuel' =>
      v <- any_value_at a next ;;
      if lt v pivot_value then any_scan_left fuel' pivot_value a (S next) else Ok next
  end.

(** [do { --right_index; } while (pivot_value < value[right_index])]; decrementing below 0 is [UB].
    Sorting.hpp:79-81. *)
Fixpoint any_scan_right (pivot_value : vt T) (a : list nat) (right_index : nat) : res nat :=
  match right_index with
  | 0 => UB
  | S right' =>
      v <- any_value_at a right' ;;
      if lt pivot_value v then any_scan_right pivot_value a right' else Ok right'
  end.

(** The [while (true)] loop. [next] is [left_index + 1], so [left_index = -1] is [next = 0]. Sorting.hpp:74-149. *)
Fixpoint any_partition_loop (fuel : nat) (pivot_value : vt T) (a : list nat) (next right_index pivot_index : nat)
  : res (list nat * nat) :=
  match fuel with
  | 0 => Fuel
  | S fuel' =>
      left_index <- any_scan_left (S (length a)) pivot_value a next ;;
      right_index <- any_scan_right pivot_value a right_index ;;
      if right_index <=? left_index then Ok (a, pivot_index)
      else
        vr <- any_value_at a right_index ;;
        if negb (equal pivot_value vr) then
          a' <- swap a left_index right_index ;;
          if pivot_index =? left_index
          then any_partition_loop fuel' pivot_value a' (S left_index) (S right_index) right_index
          else any_partition_loop fuel' pivot_value a' (S left_index) right_index pivot_index
        else
          vl <- any_value_at a left_index ;;
          '(a', pivot_index') <-
            (if equal vl pivot_value then
               if negb (left_index =? pivot_index)
               then a' <- swap a left_index pivot_index ;; Ok (a', left_index)
               else Ok (a, pivot_index)
             else a' <- swap a left_index pivot_index ;; Ok (a', left_index)) ;;
          any_partition_loop fuel' pivot_value a' left_index right_index pivot_index'
  end.

(** [partition_around_pivot_index]. /repo/include/ffcl/common/algorithms/Sorting.hpp:47-151.
    The [assert(n_samples)] is not modelled (release build). *)
Definition any_partition_around_pivot_index (a : list nat) (pivot_index : nat) : res (list nat * nat) :=
  let n_samples := length a in
  if n_samples =? 1 then Ok (a, pivot_index)
  else
    pivot_value <- any_value_at a pivot_index ;;
    any_partition_loop (S n_samples) pivot_value a 0 n_samples pivot_index.

(** The loop of [quickselect]. Sorting.hpp:164-194. *)
Fixpoint any_quickselect_loop (fuel : nat) (a : list nat) (left_index right_index kth_smallest : nat)
  : res (list nat * (nat * nat)) :=
  match fuel with
  | 0 => Fuel
  | S fuel' =>
      if left_index =? right_index then Ok (a, (left_index, S right_index))
      else
        s <- slice a left_index (S right_index) ;;
        pivot_index <- any_median_index_of_three s ;;
        '(s', p) <- any_partition_around_pivot_index s pivot_index ;;
        let a' := splice a left_index (S right_index) s' in
        let pivot_index := left_index + p in
        if kth_smallest =? pivot_index then Ok (a', (pivot_index, S pivot_index))
        else if kth_smallest <? pivot_index
        then any_quickselect_loop fuel' a' left_index (pivot_index - 1) kth_smallest
        else any_quickselect_loop fuel' a' (S pivot_index) right_index kth_smallest
  end.

(** [quickselect]. Sorting.hpp:153-195.
    On an empty range [size - 1] wraps around and the first access is out of range. *)
Definition any_quickselect (a : list nat) (kth_smallest : nat) : res (list nat * (nat * nat)) :=
  match length a with
  | 0 => UB
  | S m => any_quickselect_loop (S (length a)) a 0 m kth_smallest
  end.

(** [quicksort]. Sorting.hpp:197-255. *)
Fixpoint any_quicksort_fuel (fuel : nat) (a : list nat) (initial_pivot_index : nat) : res (list nat * nat) :=
  match fuel with
  | 0 => Fuel
  | S fuel' =>
      if length a <? 2 then Ok (a, initial_pivot_index)
      else
        '(a1, new_pivot_index) <- any_partition_around_pivot_index a initial_pivot_index ;;
        left <- slice a1 0 new_pivot_index ;;
        right <- slice a1 (S new_pivot_index) (length a1) ;;
        pivot_left <- any_median_index_of_three left ;;
        pivot_right <- any_median_index_of_three right ;;
        '(left', _) <- any_quicksort_fuel fuel' left pivot_left ;;
        '(right', _) <- any_quicksort_fuel fuel' right pivot_right ;;
        Ok (splice (splice a1 0 new_pivot_index left') (S new_pivot_index) (length a1) right', new_pivot_index)
  end.

Definition any_quicksort (a : list nat) (initial_pivot_index : nat) : res (list nat * nat) :=
  any_quicksort_fuel (S (length a)) a initial_pivot_index.

(** The loop of [shift_median_to_leftmost_equal_value]; [m] is [std::next(left_neighbor_it)].
    /repo/include/ffcl/datastruct/tree/kdtree/KDTreeAlgorithms.hpp:208-211.
    Simplified: forming the iterator before [begin()] is not reported as undefined behaviour. *)
Fixpoint any_shift_loop (cut_value : vt T) (a : list nat) (m : nat) : res nat :=
  match m with
  | 0 => Ok 0
  | S neighbor =>
      v <- any_value_at a neighbor ;;
      if equal v cut_value then any_shift_loop cut_value a neighbor else Ok m
  end.

(** [shift_median_to_leftmost_equal_value]. KDTreeAlgorithms.hpp:157-223. *)
Definition any_shift_median (a : list nat) (median_index : nat)
  (left median right : nat * nat) : res (nat * (nat * nat) * (nat * nat) * (nat * nat)) :=
  if fst left =? snd left then Ok (median_index, left, median, right)
  else
    cut_value <- any_value_at a (fst median) ;;
    m <- any_shift_loop cut_value a (snd left) ;;
    Ok (m - fst left, (fst left, m), (m, S m), (S m, snd right)).

(** [quickselect_median]. /repo/include/ffcl/datastruct/tree/kdtree/KDTreeAlgorithms.hpp:225-274. *)
Definition any_quickselect_median (a : list nat)
  : res (list nat * (nat * (nat * nat) * (nat * nat) * (nat * nat))) :=
  let n := length a in
  let median_index := (n - 1) / 2 in
  '(a', median_range) <- any_quickselect a median_index ;;
  r <- any_shift_median a' median_index (0, median_index) median_range (S median_index, n) ;;
  Ok (a', r).
End Sorting.

(** A box: the lower and the upper bound on every feature.
    /repo/include/ffcl/datastruct/bounds/AABBWithCentroid.hpp:63-66.
    Simplified: the centroid stored next to the segments is left out, nothing in the construction reads it. *)
Definition any_box (V : Type) := list (V * V).

(** [KDNodeView]. /repo/include/ffcl/datastruct/tree/kdtree/KDNodeView.hpp:87-101, constructors 125-151.
    Simplified: the parent pointer is not stored; positions in the tree are paths from the root. *)
Inductive any_kd (V : Type) :=
| ALeaf (first last : nat) (bound : any_box V)
| ANode (first last : nat) (axis : nat) (bound : any_box V) (left right : any_kd V).
Arguments ALeaf {V}.
Arguments ANode {V}.

(** [KDTree]: the members used below. /repo/include/ffcl/datastruct/tree/kdtree/KDTree.hpp:203-233. *)
Record any_kdtree (V : Type) := mk_any_kdtree { akt_indices : list nat; akt_root : any_kd V }.
Arguments mk_any_kdtree {V}.
Arguments akt_indices {V}.
Arguments akt_root {V}.

(** [bound.segment_at(i).update_upper_bound(v)].
    AABBWithCentroid.hpp:216-219, /repo/include/ffcl/datastruct/bounds/segment/LowerBoundAndUpperBound.hpp:59-62. *)
Definition any_update_upper {V} (b : any_box V) (i : nat) (v : V) : res (any_box V) :=
  s <- rd b i ;; wr b i (fst s, v).
(** [bound.segment_at(i).update_lower_bound(v)]. LowerBoundAndUpperBound.hpp:49-52. *)
Definition any_update_lower {V} (b : any_box V) (i : nat) (v : V) : res (any_box V) :=
  s <- rd b i ;; wr b i (v, snd s).

Section Build.
Context (T : values) (samples : list (vt T)) (n_features : nat) (bucket_size max_depth : nat).
(** Any function of what the axis policy is passed; the path makes every call distinct.
    /repo/include/ffcl/datastruct/tree/kdtree/policy/AxisSelectionPolicy.hpp:33-39. *)
Context (policy : list bool -> list nat -> nat -> any_box (vt T) -> nat).

(** The two [if]s applied to one segment. /repo/include/ffcl/datastruct/Interval.hpp:132-137. *)
Definition any_tighten (s : vt T * vt T) (v : vt T) : vt T * vt T :=
  let s := if vt_lt T v (fst s) then (v, snd s) else s in
  if vt_lt T (snd s) v then (fst s, v) else s.

(** Loop body over the features of one sample. Interval.hpp:127-138. *)
Definition any_tight_step (index : nat) (feature_index : nat) (b : any_box (vt T)) : res (any_box (vt T)) :=
  v <- any_feature samples n_features index feature_index ;;
  s <- rd b feature_index ;;
  wr b feature_index (any_tighten s v).

(** [make_tight_bound]. /repo/include/ffcl/datastruct/Interval.hpp:109-142. *)
Definition any_tight_box (indices : list nat) : res (any_box (vt T)) :=
  for_each indices (fun index => for_loop n_features 0 (any_tight_step index))
    (repeat (vt_max T, vt_lowest T) n_features).

(** [KDTree::build]. /repo/include/ffcl/datastruct/tree/kdtree/KDTree.hpp:305-382,
    /repo/include/ffcl/datastruct/tree/kdtree/policy/SplittingRulePolicy.hpp:52-70. *)
Fixpoint any_build (fuel : nat) (path : list bool) (indices : list nat) (first last depth : nat) (bound : any_box (vt T))
  : res (list nat * any_kd (vt T) * any_box (vt T)) :=
  match fuel with
  | 0 => Fuel
  | S fuel' =>
      if (depth <? max_depth) && (bucket_size <? last - first) then
        range <- slice indices first last ;;
        let axis := policy path range depth bound in
        '(range', (_, left_range, cut_range, right_range)) <- any_quickselect_median T samples n_features axis range ;;
        let indices1 := splice indices first last range' in
        cut_value <- any_value_at T samples n_features axis indices1 (first + fst cut_range) ;;
        (* left child *)
        bound1 <- any_update_upper bound axis cut_value ;;
        '(indices2, left_node, bound2) <-
          any_build fuel' (path ++ [false]) indices1 (first + fst left_range) (first + snd left_range) (S depth) bound1 ;;
        node_segment <- rd bound axis ;;
        bound3 <- any_update_upper bound2 axis (snd node_segment) ;;
        (* right child *)
        bound4 <- any_update_lower bound3 axis cut_value ;;
        '(indices3, right_node, bound5) <-
          any_build fuel' (path ++ [true]) indices2 (first + fst right_range) (first + snd right_range) (S depth) bound4 ;;
        bound6 <- any_update_lower bound5 axis (fst node_segment) ;;
        Ok (indices3, ANode (first + fst cut_range) (first + snd cut_range) axis bound left_node right_node, bound6)
      else Ok (indices, ALeaf first last bound, bound)
  end.

(** The constructor of [KDTree]. /repo/include/ffcl/datastruct/tree/kdtree/KDTree.hpp:203-233. *)
Definition any_make_kdtree (indices : list nat) : res (any_kdtree (vt T)) :=
  bound <- any_tight_box indices ;;
  '(indices', root, _) <- any_build (S (length indices)) [] indices 0 (length indices) 0 bound ;;
  Ok (mk_any_kdtree indices' root).
End Build.

(** What a search uses besides: the distance type with [operator<] and infinity, [common::abs(a - b)] and [auto_distance].
    /repo/include/ffcl/common/Utils.hpp:393-409, /repo/include/ffcl/common/math/heuristics/Distances.hpp:261-300. *)
Record any_metric (V : Type) := mk_any_metric {
  am_dist : Type;
  am_lt : am_dist -> am_dist -> bool;
  am_inf : am_dist;
  am_gap : V -> V -> am_dist;
  am_auto : list V -> list V -> res am_dist }.
Arguments mk_any_metric {V}.
Arguments am_dist {V}.
Arguments am_lt {V}.
Arguments am_inf {V}.
Arguments am_gap {V}.
Arguments am_auto {V}.

(** The bound of a buffer. /repo/include/ffcl/datastruct/bounds/UnboundedBall.hpp:117-119, Ball.hpp:122-124,
    AABBWithCentroid.hpp:63-65. *)
Inductive any_bound (V D : Type) := AUnbounded | ARadius (r : D) | ABox (segments : any_box V).
Arguments AUnbounded {V D}.
Arguments ARadius {V D}.
Arguments ABox {V D}.

(** [node_at]: the node at a position. *)
Fixpoint any_node_at {V} (root : any_kd V) (p : position) : res (any_kd V) :=
  match p with
  | [] => Ok root
  | side :: parent =>
      t <- any_node_at root parent ;;
      match t with
      | ALeaf _ _ _ => UB
      | ANode _ _ _ _ l r => Ok (if side then r else l)
      end
  end.

Section Search.
Context (T : values) (m : any_metric (vt T)) (samples : list (vt T)) (n_features : nat) (indices : list nat).
Context (root : any_kd (vt T)) (bound : any_bound (vt T) (am_dist m)) (query : list (vt T)).
Context {S : Type} (accept : nat -> S -> res (bool * S)).

(** [is_in_bounds_impl]. /repo/include/ffcl/datastruct/bounds/AABBWithCentroid.hpp:126-138 with
    LowerBoundAndUpperBound.hpp:76-78. *)
Fixpoint any_in_box_from (segs : any_box (vt T)) (i : nat) (p : list (vt T)) : res bool :=
  match p with
  | [] => Ok true
  | v :: p' =>
      s <- rd segs i ;;
      if vt_lt T v (fst s) || vt_lt T (snd s) v then Ok false else any_in_box_from segs (Datatypes.S i) p'
  end.

(** [compute_distance_to_centroid_if_within_bounds]. UnboundedBall.hpp:190-197, Ball.hpp:208-216,
    AABBWithCentroid.hpp:140-166. *)
Definition any_distance_if_within_bounds (p : list (vt T)) : res (option (am_dist m)) :=
  match bound with
  | AUnbounded => d <- am_auto m p query ;; Ok (Some d)
  | ARadius r => d <- am_auto m p query ;; if am_lt m d r then Ok (Some d) else Ok None
  | ABox segments =>
      inside <- any_in_box_from segments 0 p ;;
      if inside : bool then d <- am_auto m p query ;; Ok (Some d) else Ok None
  end.

(** Loop body of [partial_search_impl].
    /repo/include/ffcl/search/buffer/Unsorted.hpp:51-61, WithMemory.hpp:110-120, WithUnionFind.hpp:67-77. *)
Definition any_offer (index : nat) (state : buffer (am_dist m) * S) : res (buffer (am_dist m) * S) :=
  let '(b, s) := state in
  features <- sample_at samples n_features index ;;
  optional_distance <- any_distance_if_within_bounds features ;;
  match optional_distance with
  | None => Ok (b, s)
  | Some d =>
      '(accepted, s') <- accept index s ;;
      if accepted : bool then b' <- update_static_buffers (am_lt m) b index d ;; Ok (b', s')
      else Ok (b, s')
  end.

(** [partial_search]. Unsorted.hpp:41-62. *)
Definition any_partial_search (first last : nat) (state : buffer (am_dist m) * S) : res (buffer (am_dist m) * S) :=
  range <- slice indices first last ;;
  for_each range any_offer state.

(** The split value of a node. /repo/include/ffcl/datastruct/tree/kdtree/KDNodeView.hpp:223-227 and 261-264. *)
Definition any_split_value (first axis : nat) : res (vt T) :=
  pivot_index <- rd indices first ;; any_feature samples n_features pivot_index axis.

(** [select_closest_child]; [true] is the right child. KDNodeView.hpp:248-272. *)
Definition any_select_closest_child (first axis : nat) : res bool :=
  pivot_split_value <- any_split_value first axis ;;
  query_split_value <- rd query axis ;;
  Ok (negb (vt_lt T query_split_value pivot_split_value)).

(** [select_sibling_node]. KDNodeView.hpp:207-246. The right child asks [gap < furthest], the left child
    [gap <= furthest], here [at_most]: with NaN it is not the negation of the reverse [<]. *)
Context (at_most : am_dist m -> am_dist m -> bool).
Definition any_visit_sibling (first axis : nat) (is_right : bool) (b : buffer (am_dist m)) : res bool :=
  pivot_split_value <- any_split_value first axis ;;
  query_split_value <- rd query axis ;;
  let gap := am_gap m pivot_split_value query_split_value in
  Ok (negb (remaining_capacity b =? 0)%Z ||
      (if is_right then am_lt m gap (buf_furthest_distance b) else at_most gap (buf_furthest_distance b))).

(** [recursive_search_to_leaf_node]. /repo/include/ffcl/search/TreeTraverser.hpp:232-252. *)
Fixpoint any_search_to_leaf (t : any_kd (vt T)) (p : position) (state : buffer (am_dist m) * S)
  : res (position * (buffer (am_dist m) * S)) :=
  match t with
  | ALeaf first last _ => state' <- any_partial_search first last state ;; Ok (p, state')
  | ANode first last axis _ l r =>
      state' <- any_partial_search first last state ;;
      right_child <- any_select_closest_child first axis ;;
      if right_child : bool then any_search_to_leaf r (true :: p) state'
      else any_search_to_leaf l (false :: p) state'
  end.

(** [single_tree_traversal] and its loop with [get_parent_node_after_sibling_traversal].
    TreeTraverser.hpp:218-230 and 254-269. *)
Fixpoint any_traversal (fuel : nat) (node : position) (state : buffer (am_dist m) * S) : res (buffer (am_dist m) * S) :=
  match fuel with
  | 0 => Fuel
  | Datatypes.S fuel' =>
      t <- any_node_at root node ;;
      '(current, state') <- any_search_to_leaf t node state ;;
      any_climb fuel' node current state'
  end
with any_climb (fuel : nat) (node current : position) (state : buffer (am_dist m) * S) : res (buffer (am_dist m) * S) :=
  match fuel with
  | 0 => Fuel
  | Datatypes.S fuel' =>
      if list_eq_dec bool_dec current node then Ok state
      else
        match current with
        | [] => UB
        | side :: parent =>
            parent_node <- any_node_at root parent ;;
            match parent_node with
            | ALeaf _ _ _ => UB
            | ANode first _ axis _ _ _ =>
                visit <- any_visit_sibling first axis side (fst state) ;;
                state' <- (if visit : bool then any_traversal fuel' (negb side :: parent) state else Ok state) ;;
                any_climb fuel' node parent state'
            end
        end
  end.
End Search.

Fixpoint any_nodes {V} (t : any_kd V) : nat :=
  match t with
  | ALeaf _ _ _ => 1
  | ANode _ _ _ _ l r => Datatypes.S (any_nodes l + any_nodes r)
  end.

(** [Searcher::operator()] on one buffer. TreeTraverser.hpp:192-203, /repo/include/ffcl/search/Search.hpp:145-151. *)
Definition any_search (T : values) (m : any_metric (vt T)) (at_most : am_dist m -> am_dist m -> bool)
  (samples : list (vt T)) (n_features : nat) (tree : any_kdtree (vt T))
  (bound : any_bound (vt T) (am_dist m)) (query : list (vt T)) {S} (accept : nat -> S -> res (bool * S))
  (capacity : nat) (s : S) : res (buffer (am_dist m) * S) :=
  any_traversal T m samples n_features (akt_indices tree) (akt_root tree) bound query accept at_most
    (any_nodes (akt_root tree) * any_nodes (akt_root tree) + any_nodes (akt_root tree) + 2) []
    (make_buffer (am_inf m) capacity, s).

(** ** Doubles: IEEE 754 binary64 with round to nearest even, infinities and one NaN *)
Definition double := spec_float.
Definition double_lt : double -> double -> bool := SFltb.
Definition double_at_most : double -> double -> bool := SFleb.
Definition double_sub : double -> double -> double := SFsub 53 1024.
Definition double_add : double -> double -> double := SFadd 53 1024.
Definition double_mul : double -> double -> double := SFmul 53 1024.
Definition double_sqrt : double -> double := SFsqrt 53 1024.
(** [std::numeric_limits<double>::epsilon()], 2^-52. Utils.hpp:417. *)
Definition double_epsilon : double := S754_finite false 4503599627370496 (-104).

(** [common::equality] on doubles. /repo/include/ffcl/common/Utils.hpp:411-423. *)
Definition double_equal (a b : double) : bool := SFleb (SFabs (double_sub b a)) double_epsilon.

(** /repo/include/ffcl/datastruct/Interval.hpp:118-122. *)
Definition double_values : values :=
  mk_values double double_lt double_equal
    (S754_finite true 9007199254740991 971) (S754_finite false 9007199254740991 971).

(** [squared_euclidean_distance], summed from the left.
    /repo/include/ffcl/common/math/heuristics/Distances.hpp:33-60. The grouping of [std::transform_reduce] is not
    specified; the theorems hold for any [auto_distance]. *)
Fixpoint double_squared_distance (acc : double) (l r : list double) : res double :=
  match l, r with
  | [], _ => Ok acc
  | _ :: _, [] => UB
  | x :: l', y :: r' =>
      let tmp := double_sub x y in double_squared_distance (double_add acc (double_mul tmp tmp)) l' r'
  end.

(** Distances.hpp:67-77 and 273-278, Utils.hpp:393-405. *)
Definition double_metric : any_metric double :=
  mk_any_metric double double_lt (S754_infinity false) (fun a b => SFabs (double_sub a b))
    (fun l r => d <- double_squared_distance (S754_zero false) l r ;; Ok (double_sqrt d)).
