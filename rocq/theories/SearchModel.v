(** Model of the single tree search: include/ffcl/search/TreeTraverser.hpp, Search.hpp and the node selection of
    include/ffcl/datastruct/tree/kdtree/KDNodeView.hpp. *)
From Coq Require Import List Arith ZArith Bool.
From Verif Require Import Base SortingModel BoundsModel BufferModel KDTreeModel.
Import ListNotations.

(** Features of a sample. E.g. /repo/include/ffcl/search/buffer/Unsorted.hpp:53-56. *)
Definition sample_at {A} (samples : list A) (n_features index : nat) : res (list A) :=
  slice samples (index * n_features) (index * n_features + n_features).

(** A position in the tree: the turns from the root, last turn first ([true] is right).  The parent pointer of a node
    is the tail of its position. *)
Definition position := list bool.

Fixpoint node_at (root : kd) (p : position) : res kd :=
  match p with
  | [] => Ok root
  | side :: parent =>
      t <- node_at root parent ;;
      match t with
      | KLeaf _ _ _ => UB
      | KNode _ _ _ _ l r => Ok (if side then r else l)
      end
  end.

Section Search.
Context (m : metric) (samples : list Z) (n_features : nat) (indices : list nat) (root : kd).
Context (bound : search_bound (m_dist m)) (query : list Z).
Context {S : Type} (accept : nat -> S -> res (bool * S)).

(** Loop body of [partial_search_impl].
    /repo/include/ffcl/search/buffer/Unsorted.hpp:51-61, WithMemory.hpp:110-120, WithUnionFind.hpp:67-77. *)
Definition offer (index : nat) (state : buffer (m_dist m) * S) : res (buffer (m_dist m) * S) :=
  let '(b, s) := state in
  features <- sample_at samples n_features index ;;
  optional_distance <- distance_if_within_bounds m bound query features ;;
  match optional_distance with
  | None => Ok (b, s)
  | Some d =>
      '(accepted, s') <- accept index s ;;
      if accepted : bool then b' <- update_static_buffers (m_lt m) b index d ;; Ok (b', s')
      else Ok (b, s')
  end.

(** [partial_search] on a range of the index array. Unsorted.hpp:41-62. *)
Definition partial_search (first last : nat) (state : buffer (m_dist m) * S) : res (buffer (m_dist m) * S) :=
  range <- slice indices first last ;;
  for_each range offer state.

(** The split value of a node: the feature of its first sample on its axis.
    /repo/include/ffcl/datastruct/tree/kdtree/KDNodeView.hpp:223-227 and 261-264. *)
Definition split_value (first axis : nat) : res Z :=
  pivot_index <- rd indices first ;; feature samples n_features pivot_index axis.

(** [select_closest_child]; [true] is the right child. KDNodeView.hpp:248-272. *)
Definition select_closest_child (first axis : nat) : res bool :=
  pivot_split_value <- split_value first axis ;;
  query_split_value <- rd query axis ;;
  Ok (negb (query_split_value <? pivot_split_value)%Z).

(** [select_sibling_node] called on the child [is_right] of the node: is the other child to be visited?
    KDNodeView.hpp:207-246. [a <= b] on distances is [!(b < a)]. *)
Definition visit_sibling (first axis : nat) (is_right : bool) (b : buffer (m_dist m)) : res bool :=
  pivot_split_value <- split_value first axis ;;
  query_split_value <- rd query axis ;;
  let gap := m_gap m pivot_split_value query_split_value in
  Ok (negb (remaining_capacity b =? 0)%Z ||
      (if is_right then m_lt m gap (buf_furthest_distance b)
       else negb (m_lt m (buf_furthest_distance b) gap))).

(** [recursive_search_to_leaf_node].
    /repo/include/ffcl/search/TreeTraverser.hpp:232-252. *)
Fixpoint recursive_search_to_leaf_node (t : kd) (p : position) (state : buffer (m_dist m) * S)
  : res (position * (buffer (m_dist m) * S)) :=
  match t with
  | KLeaf first last _ => state' <- partial_search first last state ;; Ok (p, state')
  | KNode first last axis _ l r =>
      state' <- partial_search first last state ;;
      right_child <- select_closest_child first axis ;;
      if right_child : bool then recursive_search_to_leaf_node r (true :: p) state'
      else recursive_search_to_leaf_node l (false :: p) state'
  end.

(** [single_tree_traversal] and its loop with [get_parent_node_after_sibling_traversal].
    TreeTraverser.hpp:218-230 and 254-269. *)
Fixpoint single_tree_traversal (fuel : nat) (node : position) (state : buffer (m_dist m) * S)
  : res (buffer (m_dist m) * S) :=
  match fuel with
  | 0 => Fuel
  | Datatypes.S fuel' =>
      t <- node_at root node ;;
      '(current, state') <- recursive_search_to_leaf_node t node state ;;
      climb fuel' node current state'
  end
with climb (fuel : nat) (node current : position) (state : buffer (m_dist m) * S) : res (buffer (m_dist m) * S) :=
  match fuel with
  | 0 => Fuel
  | Datatypes.S fuel' =>
      if list_eq_dec bool_dec current node then Ok state
      else
        match current with
        | [] => UB (* no parent: the loop would go on with a null pointer *)
        | side :: parent =>
            parent_node <- node_at root parent ;;
            match parent_node with
            | KLeaf _ _ _ => UB
            | KNode first _ axis _ _ _ =>
                visit <- visit_sibling first axis side (fst state) ;;
                state' <- (if visit : bool then single_tree_traversal fuel' (negb side :: parent) state
                           else Ok state) ;;
                climb fuel' node parent state'
            end
        end
  end.
End Search.

Fixpoint kd_nodes (t : kd) : nat :=
  match t with
  | KLeaf _ _ _ => 1
  | KNode _ _ _ _ l r => Datatypes.S (kd_nodes l + kd_nodes r)
  end.

(** [Searcher::operator()] on one buffer.
    /repo/include/ffcl/search/TreeTraverser.hpp:192-203, Search.hpp:145-151.  Returns the buffer and the state of the
    accept test.  The fuel suffices (theorems C15 to C19). *)
Definition search (m : metric) (samples : list Z) (n_features : nat) (tree : kdtree)
  (bound : search_bound (m_dist m)) (query : list Z) {S} (accept : nat -> S -> res (bool * S))
  (capacity : nat) (s : S) : res (buffer (m_dist m) * S) :=
  single_tree_traversal m samples n_features (kt_indices tree) (kt_root tree) bound query accept
    (kd_nodes (kt_root tree) * kd_nodes (kt_root tree) + kd_nodes (kt_root tree) + 2) []
    (make_buffer (m_inf m) capacity, s).
