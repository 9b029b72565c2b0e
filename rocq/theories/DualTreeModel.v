(** Model of the dual tree search: include/ffcl/search/buffer/IndicesToBuffersMap.hpp and the dual traversal of
    include/ffcl/search/TreeTraverser.hpp. *)
From Coq Require Import List Arith ZArith Bool.
From Verif Require Import Base SortingModel BoundsModel UnionFindModel BufferModel KDTreeModel SearchModel.
Import ListNotations.

(** ** Containers *)

(** [find] on an unordered map. /repo/include/ffcl/search/buffer/IndicesToBuffersMap.hpp:314, 346, 373.
    The map is a list of pairs with distinct keys; the maps are never iterated over. *)
Fixpoint map_find {K V} (eqb : K -> K -> bool) (k : K) (l : list (K * V)) : option V :=
  match l with
  | [] => None
  | (k', v) :: l' => if eqb k k' then Some v else map_find eqb k l'
  end.

(** Assignment through the iterator of a key, or [emplace] of a key not found.
    IndicesToBuffersMap.hpp:326, 335, 350, 370. *)
Fixpoint map_put {K V} (eqb : K -> K -> bool) (k : K) (v : V) (l : list (K * V)) : list (K * V) :=
  match l with
  | [] => [(k, v)]
  | (k', v') :: l' => if eqb k k' then (k, v) :: l' else (k', v') :: map_put eqb k v l'
  end.

(** [std::min] and [std::max]. E.g. IndicesToBuffersMap.hpp:141, 145. *)
Definition std_min {D} (lt : D -> D -> bool) (a b : D) : D := if lt b a then b else a.
Definition std_max {D} (lt : D -> D -> bool) (a b : D) : D := if lt a b then b else a.

(** Equality of node pointers: a node is its position in the tree. IndicesToBuffersMap.hpp:20-22. *)
Definition position_eqb (a b : position) : bool := if list_eq_dec bool_dec a b then true else false.
Definition positions_eqb (a b : position * position) : bool :=
  position_eqb (fst a) (fst b) && position_eqb (snd a) (snd b).
(** Equality of pairs of indices. IndicesToBuffersMap.hpp:57-59. *)
Definition pair_eqb (a b : nat * nat) : bool := (fst a =? fst b) && (snd a =? snd b).

(** ** Limits of the distances in a query node *)

(** [BoundsLimits]. IndicesToBuffersMap.hpp:139-161. *)
Record limits (D : Type) := mk_limits { closest_limit : D; furthest_limit : D }.
Arguments mk_limits {D}.
Arguments closest_limit {D}.
Arguments furthest_limit {D}.

(** What the pruning test uses of a value type.  Box distances and diameters are represented by their squares, as in
    [BoundsModel]: [p_zero] is the distance 0, [p_store] is what storing a box distance in a variable of the distance
    type does to its square, [p_adjusted_below closest furthest diameter cost] is
    [compute_adjusted_bound(diameter) < cost].
    IndicesToBuffersMap.hpp:153-157, 160, 274-289. *)
Record pruning (D : Type) := mk_pruning {
  p_zero : D;
  p_store : Z -> Z;
  p_adjusted_below : D -> D -> Z -> Z -> bool }.
Arguments mk_pruning {D}.
Arguments p_zero {D}.
Arguments p_store {D}.
Arguments p_adjusted_below {D}.

(** [sqrt a + sqrt b < sqrt c], on non-negative numbers. IndicesToBuffersMap.hpp:155 with
    /repo/include/ffcl/datastruct/bounds/distances/MinDistance.hpp:32,
    /repo/include/ffcl/datastruct/bounds/AABBWithCentroid.hpp:118. *)
Definition sqrt_sum_lt (a b c : Z) : bool := ((0 <? c - a - b) && (4 * a * b <? (c - a - b) * (c - a - b)))%Z.

(** Floating point numbers in exact arithmetic, distances by their squares and infinity as [None] like
    [float_metric].  IndicesToBuffersMap.hpp:153-157: a finite [closest_limit] is below [infinity - diameter]. *)
Definition float_pruning : pruning (option Z) :=
  mk_pruning (Some 0%Z) (fun c => c)
    (fun closest furthest diameter cost =>
       match closest with
       | None => false
       | Some c => opt_lt furthest (Some cost) || sqrt_sum_lt c diameter cost
       end).

(** Signed integers: infinity is 0, square roots are truncated when stored, and a box distance just computed is
    still a [double].  IndicesToBuffersMap.hpp:153-157, 274-289, MinDistance.hpp:32, AABBWithCentroid.hpp:118. *)
Definition int_pruning : pruning Z :=
  mk_pruning 0%Z (fun c => Z.sqrt c * Z.sqrt c)%Z
    (fun closest furthest diameter cost =>
       let diameter := Z.sqrt diameter in
       let adjusted := (if closest <? 0 - diameter then std_min Z.ltb furthest (closest + diameter) else 0)%Z in
       ((adjusted <? 0) || (adjusted * adjusted <? cost))%Z).

(** ** The map *)

Definition edge (D : Type) : Type := (nat * nat * D)%type.

(** Members of [IndicesToBuffersMap], with the state of the accept test of the buffers.
    IndicesToBuffersMap.hpp:200-216. *)
Record dual (D S : Type) := mk_dual {
  du_buffers : list (nat * buffer D);
  du_visited : list (position * position);
  du_limits : list (position * limits D);
  du_edges : list (edge D);
  du_combinations : list (nat * nat);
  du_state : S }.
Arguments mk_dual {D S}.
Arguments du_buffers {D S}.
Arguments du_visited {D S}.
Arguments du_limits {D S}.
Arguments du_edges {D S}.
Arguments du_combinations {D S}.
Arguments du_state {D S}.

Section Queue.
Context {D : Type} (lt : D -> D -> bool) (inf : D).

(** The priority queue of edges and the set of its pairs. IndicesToBuffersMap.hpp:214-216. *)
Notation queue := (list (edge D) * list (nat * nat))%type.

(** [top] of the priority queue: an edge of largest distance, with its place.
    IndicesToBuffersMap.hpp:178-187, 241-243.
    Simplified: among several edges of largest distance, the one emplaced first. *)
Definition top_edge (edges : list (edge D)) : res (nat * edge D) :=
  '(i, _) <- get_max_index_value_pair lt (map snd edges) ;;
  e <- rd edges i ;;
  Ok (i, e).

(** Distance of the top, infinity when the queue is empty. IndicesToBuffersMap.hpp:431-433, 439-441. *)
Definition pq_furthest_distance (edges : list (edge D)) : res D :=
  match edges with
  | [] => Ok inf
  | _ => '(_, e) <- top_edge edges ;; Ok (snd e)
  end.

(** The top is erased from the set and popped. IndicesToBuffersMap.hpp:400-402, 450-453. *)
Definition pop_edge (q : queue) : res queue :=
  let '(edges, combinations) := q in
  '(i, e) <- top_edge edges ;;
  Ok (firstn i edges ++ skipn (S i) edges, filter (fun c => negb (pair_eqb (fst e) c)) combinations).

(** [insert] in the set, then [emplace] in the queue when the pair is new. IndicesToBuffersMap.hpp:415-419, 445-446. *)
Definition insert_edge (q : queue) (e : edge D) : bool * queue :=
  let '(edges, combinations) := q in
  if existsb (pair_eqb (fst e)) combinations then (false, q)
  else (true, (edges ++ [e], combinations ++ [fst e])).

(** The [while] loop. IndicesToBuffersMap.hpp:399-403. *)
Fixpoint shrink (fuel max_capacity : nat) (q : queue) : res queue :=
  if length (fst q) <=? max_capacity then Ok q
  else match fuel with
       | 0 => Fuel
       | S fuel' => q' <- pop_edge q ;; shrink fuel' max_capacity q'
       end.

(** The edge of position [i] of the buffer. IndicesToBuffersMap.hpp:417-418, 436-437. *)
Definition buffer_edge (query_index : nat) (b : buffer D) (i : nat) : res (edge D) :=
  index <- rd (buf_indices b) i ;;
  distance <- rd (buf_distances b) i ;;
  Ok (query_index, index, distance).

(** [update_priority_queue]. IndicesToBuffersMap.hpp:393-459. *)
Definition update_priority_queue (query_index : nat) (b : buffer D) (q : queue) : res queue :=
  q0 <- shrink (length (fst q)) (buf_max_capacity b) q ;;
  q1 <- (if length (fst q0) + buf_size b <=? buf_max_capacity b then
           for_loop (buf_size b) 0
             (fun i q => e <- buffer_edge query_index b i ;; Ok (snd (insert_edge q e))) q0
         else Ok q0) ;;
  limit <- pq_furthest_distance (fst q1) ;;
  if lt (buf_closest_distance b) limit then
    for_loop (buf_size b) 0
      (fun i q =>
         e <- buffer_edge query_index b i ;;
         limit' <- pq_furthest_distance (fst q) ;;
         if lt (snd e) limit' then
           let '(inserted, q') := insert_edge q e in
           if inserted && (buf_max_capacity b <? length (fst q')) then pop_edge q' else Ok q'
         else Ok q) q1
  else Ok q1.
End Queue.

(** The members of a node. /repo/include/ffcl/datastruct/tree/kdtree/KDNodeView.hpp:87-101. *)
Definition node_first (t : kd) : nat := match t with KLeaf f _ _ => f | KNode f _ _ _ _ _ => f end.
Definition node_last (t : kd) : nat := match t with KLeaf _ l _ => l | KNode _ l _ _ _ _ => l end.
Definition node_bound (t : kd) : list segment :=
  aabb_segments (match t with KLeaf _ _ b => b | KNode _ _ _ b _ _ => b end).
(** The children; none for a leaf. KDNodeView.hpp:178-181. *)
Definition node_children (t : kd) : list (bool * kd) :=
  match t with KLeaf _ _ _ => [] | KNode _ _ _ _ l r => [(false, l); (true, r)] end.

Section Dual.
Context (m : metric) (p : pruning (m_dist m)).
(** The query and the reference samples and trees; the accept test of the buffers and their capacity. *)
Context (query_samples : list Z) (query_n_features : nat) (query_indices : list nat).
Context (reference_samples : list Z) (reference_n_features : nat) (reference_indices : list nat).
Context {S : Type} (accept : nat -> S -> res (bool * S)) (capacity : nat).
(** Does the right child come out of the priority queue first when both costs are equal? *)
Context (right_first : position -> position -> bool).

Notation D := (m_dist m).
Notation lt := (m_lt m).
Notation state := (dual D S).

(** [try_update_closest_limit], [try_update_furthest_limit], [try_update_limits]. IndicesToBuffersMap.hpp:140-151. *)
Definition try_update_closest_limit (l : limits D) (d : D) : limits D :=
  mk_limits (std_min lt (closest_limit l) d) (furthest_limit l).
Definition try_update_furthest_limit (l : limits D) (d : D) : limits D :=
  mk_limits (closest_limit l) (std_max lt (furthest_limit l) d).
Definition try_update_limits (l : limits D) (d : D) : limits D :=
  try_update_furthest_limit (try_update_closest_limit l d) d.

(** Default member values. IndicesToBuffersMap.hpp:159-160. *)
Definition default_limits : limits D := mk_limits (m_inf m) (p_zero p).

(** Loop body of [update_bounds_limits]. IndicesToBuffersMap.hpp:372-389. *)
Definition query_limits (buffers : list (nat * buffer D)) (l : limits D) (query_index : nat) : limits D :=
  match map_find Nat.eqb query_index buffers with
  | None => mk_limits (closest_limit l) (m_inf m)
  | Some b =>
      if negb (remaining_capacity b =? 0)%Z then mk_limits (closest_limit l) (m_inf m)
      else try_update_limits l (buf_furthest_distance b)
  end.

(** [update_bounds_limits]. IndicesToBuffersMap.hpp:364-391. *)
Definition update_bounds_limits (position : position) (node : kd) (st : state) : res (limits D * state) :=
  range <- slice query_indices (node_first node) (node_last node) ;;
  let l0 := match map_find position_eqb position (du_limits st) with Some l => l | None => default_limits end in
  let l := fold_left (query_limits (du_buffers st)) range l0 in
  Ok (l, mk_dual (du_buffers st) (du_visited st) (map_put position_eqb position l (du_limits st))
           (du_edges st) (du_combinations st) (du_state st)).

(** Loop body over the children. IndicesToBuffersMap.hpp:345-359. *)
Definition child_limits (position : position) (ls : limits D * list (SearchModel.position * limits D))
  (child : bool * kd) : limits D * list (SearchModel.position * limits D) :=
  let '(l, map) := ls in
  let child_position := fst child :: position in
  match map_find position_eqb child_position map with
  | None => (l, map_put position_eqb child_position default_limits map)
  | Some c =>
      (try_update_furthest_limit (try_update_closest_limit l (closest_limit c)) (furthest_limit c), map)
  end.

(** [query_node_furthest_bound], up to the call of [compute_adjusted_bound]. IndicesToBuffersMap.hpp:338-361.
    Simplified: the iterator to the limits of the node goes on designating them although the children are emplaced
    meanwhile (a rehash invalidates iterators; those of libstdc++ point to the element). *)
Definition query_node_limits (position : position) (node : kd) (st : state) : res (limits D * state) :=
  '(l0, st0) <- update_bounds_limits position node st ;;
  let '(l, map) := fold_left (child_limits position) (node_children node) (l0, du_limits st0) in
  Ok (l, mk_dual (du_buffers st0) (du_visited st0) (map_put position_eqb position l map)
           (du_edges st0) (du_combinations st0) (du_state st0)).

(** [update_cost]; the cost is represented by its square. IndicesToBuffersMap.hpp:283-289. *)
Definition update_cost (position : position) (node : kd) (cost : Z) (st : state) : res (option Z * state) :=
  '(l, st') <- query_node_limits position node st ;;
  Ok (if p_adjusted_below p (closest_limit l) (furthest_limit l) (aabb_diameter_sq (node_bound node)) cost then None
      else Some (p_store p cost), st').

(** [cost]: the same test on the distance of the boxes. IndicesToBuffersMap.hpp:274-281. *)
Definition cost (position : position) (query_node reference_node : kd) (st : state) : res (option Z * state) :=
  min_distance <- aabb_min_distance_sq (node_bound query_node) (node_bound reference_node) ;;
  update_cost position query_node min_distance st.

(** [emplace_nodes_combination_if_not_found]. IndicesToBuffersMap.hpp:291-304. *)
Definition emplace_nodes_combination_if_not_found (key : position * position) (st : state) : bool * state :=
  if existsb (positions_eqb key) (du_visited st) then (false, st)
  else (true, mk_dual (du_buffers st) (key :: du_visited st) (du_limits st) (du_edges st) (du_combinations st)
                (du_state st)).

(** Loop body of [partial_search_for_each_query], with [find_or_emplace_buffer].
    IndicesToBuffersMap.hpp:254-271, 306-336. *)
Definition search_for_query (reference_node : kd) (query_index : nat) (st : state) : res state :=
  query <- sample_at query_samples query_n_features query_index ;;
  let b := match map_find Nat.eqb query_index (du_buffers st) with
           | Some b => b
           | None => make_buffer (m_inf m) capacity
           end in
  '(b', s) <- partial_search m reference_samples reference_n_features reference_indices Unbounded query accept
               (node_first reference_node) (node_last reference_node) (b, du_state st) ;;
  '(edges, combinations) <- update_priority_queue lt (m_inf m) query_index b' (du_edges st, du_combinations st) ;;
  Ok (mk_dual (map_put Nat.eqb query_index b' (du_buffers st)) (du_visited st) (du_limits st) edges combinations s).

(** [partial_search_for_each_query] on the range of the query node. IndicesToBuffersMap.hpp:245-272. *)
Definition partial_search_for_each_query (query_node reference_node : kd) (st : state) : res state :=
  range <- slice query_indices (node_first query_node) (node_last query_node) ;;
  for_each range (search_for_query reference_node) st.

(** The content of [children_priority_queue] in the order it comes out: smallest cost first.
    /repo/include/ffcl/search/TreeTraverser.hpp:99-110 and 357-366. *)
Definition push_child (right_first : bool) (queue : list (bool * kd * Z)) (e : bool * kd * Z) : list (bool * kd * Z) :=
  match queue with
  | [] => [e]
  | f :: queue' =>
      if (snd e <? snd f)%Z || ((snd e =? snd f)%Z && right_first) then e :: queue else f :: e :: queue'
  end.

(** [dual_tree_traversal]; [dual_tree_traversal_with_core_distances] is the same text.
    /repo/include/ffcl/search/TreeTraverser.hpp:311-398 and 442-530. *)
Fixpoint dual_tree_traversal (fuel : nat) (qp : position) (q : kd) (rp : position) (r : kd)
  (optional_cost : option Z) (bypass_cost_calculation : bool) (st : state) : res state :=
  match fuel with
  | 0 => Fuel
  | Datatypes.S fuel' =>
      let '(emplaced, st) := emplace_nodes_combination_if_not_found (qp, rp) st in
      if negb emplaced then Ok st
      else
        '(go_on, st) <-
          (if bypass_cost_calculation then Ok (true, st)
           else '(c, st) <- (match optional_cost with
                             | Some c => update_cost qp q c st
                             | None => cost qp q r st
                             end) ;;
                Ok (match c with Some _ => true | None => false end, st)) ;;
        if negb go_on then Ok st
        else
          st <- partial_search_for_each_query q r st ;;
          st <- for_each (node_children q)
                  (fun child st => dual_tree_traversal fuel' (fst child :: qp) (snd child) rp r None false st) st ;;
          '(children, st) <-
            for_each (node_children r)
              (fun child qs =>
                 '(c, st) <- cost qp q (snd child) (snd qs) ;;
                 Ok (match c with
                     | Some c => (push_child (right_first qp rp) (fst qs) (child, c), st)
                     | None => (fst qs, st)
                     end)) ([], st) ;;
          match children with
          | [] => Ok st
          | (side, child, _) :: rest =>
              st <- dual_tree_traversal fuel' qp q (side :: rp) child None true st ;;
              for_each rest
                (fun e st => let '(side, child, c) := e in
                             dual_tree_traversal fuel' qp q (side :: rp) child (Some c) false st) st
          end
  end.
End Dual.

(** Length of the longest branch: bounds the recursion. /repo/include/ffcl/search/TreeTraverser.hpp:345-397. *)
Fixpoint kd_height (t : kd) : nat :=
  match t with KLeaf _ _ _ => 0 | KNode _ _ _ _ l r => S (Nat.max (kd_height l) (kd_height r)) end.

(** [dual_tree_shortest_edge] and [tightest_edge], with the state of the accept test.
    /repo/include/ffcl/search/TreeTraverser.hpp:271-300 (and 400-429), IndicesToBuffersMap.hpp:223-243.
    The fuel suffices (theorem C49). *)
Definition dual_tree_search (m : metric) (p : pruning (m_dist m))
  (query_samples : list Z) (query_n_features : nat) (query_tree : kdtree)
  (reference_samples : list Z) (reference_n_features : nat) (reference_tree : kdtree)
  {S} (accept : nat -> S -> res (bool * S)) (capacity : nat) (right_first : position -> position -> bool) (s : S)
  : res (edge (m_dist m) * S) :=
  st <- dual_tree_traversal m p query_samples query_n_features (kt_indices query_tree)
          reference_samples reference_n_features (kt_indices reference_tree) accept capacity right_first
          (Datatypes.S (kd_height (kt_root query_tree) + kd_height (kt_root reference_tree)))
          [] (kt_root query_tree) [] (kt_root reference_tree) None false
          (mk_dual [] [] [] [] [] s) ;;
  '(_, e) <- top_edge (m_lt m) (du_edges st) ;;
  Ok (e, du_state st).

(** What the caller gets. TreeTraverser.hpp:271-300. *)
Definition dual_tree_shortest_edge (m : metric) (p : pruning (m_dist m))
  (query_samples : list Z) (query_n_features : nat) (query_tree : kdtree)
  (reference_samples : list Z) (reference_n_features : nat) (reference_tree : kdtree)
  {S} (accept : nat -> S -> res (bool * S)) (capacity : nat) (right_first : position -> position -> bool) (s : S)
  : res (edge (m_dist m)) :=
  '(e, _) <- dual_tree_search m p query_samples query_n_features query_tree
               reference_samples reference_n_features reference_tree accept capacity right_first s ;;
  Ok e.
