(** Model of [make_tree_2] of include/ffcl/datastruct/graph/spanning_tree/BoruvkasAlgorithm.hpp: Boruvka's algorithm on top of
    the dual tree search. *)
From Coq Require Import List Arith ZArith Bool.
From Verif Require Import Base SortingModel BoundsModel UnionFindModel BufferModel KDTreeModel SearchModel DualTreeModel
  BoruvkaModel.
Import ListNotations.

Section DualBoruvka.
Context (m : metric) (p : pruning (m_dist m)) (samples : list Z) (n_features : nat) (tree : kdtree).
(** Iteration orders of the two hash maps in the [i]-th round. *)
Context (order_components : nat -> list (nat * list nat) -> list (nat * list nat)).
Context (order_edges : nat -> list (nat * BoruvkaModel.edge m) -> list (nat * BoruvkaModel.edge m)).
(** What the trees of the components are given besides the dataset (the axis policy is any), see [make_kdtree]; ties of the
    priority queues in the search of a component.
    /repo/include/ffcl/datastruct/graph/spanning_tree/BoruvkasAlgorithm.hpp:474-477. *)
Context (tol : Z) (policy : list bool -> list nat -> nat -> aabb -> nat) (lowest max : Z) (center : segment -> Z).
Context (right_first : nat -> nat -> position -> position -> bool).

(** Loop body of [step_dual_tree_sequential]: the tree of a component permutes the component in place, the depth is the
    default one; [dual_tree_shortest_edge_with_core_distances] is [dual_tree_shortest_edge].
    BoruvkasAlgorithm.hpp:483-501, /repo/include/ffcl/search/TreeTraverser.hpp:400-530. *)
Definition dual_tree_component (k_nearest_neighbors i : nat) (rc : nat * list nat)
  (state : list (nat * BoruvkaModel.edge m) * list (nat * list nat) * uf)
  : res (list (nat * BoruvkaModel.edge m) * list (nat * list nat) * uf) :=
  let '(components_closest_edge, components, u) := state in
  let '(component_representative, component) := rc in
  query_indexer <- make_kdtree tol samples n_features (Nat.max 40 (Nat.sqrt (length component))) default_max_depth policy
                     lowest max center component ;;
  '(e, u') <- dual_tree_search m p samples n_features query_indexer samples n_features tree
                (accept_other_component component_representative) k_nearest_neighbors
                (right_first i component_representative) u ;;
  Ok (components_closest_edge ++ [(component_representative, e)],
      map_set components component_representative (kt_indices query_indexer), u').

(** [step_dual_tree_sequential]; the core distances are ignored. BoruvkasAlgorithm.hpp:464-508. *)
Definition step_dual_tree_sequential (k_nearest_neighbors i : nat) (f : forest m) : res (forest m) :=
  '(components_closest_edge, components, u) <-
    for_each (order_components i (f_components m f)) (dual_tree_component k_nearest_neighbors i)
      ([], f_components m f, f_union_find m f) ;;
  for_each (order_edges i components_closest_edge) (fun re f => merge_components m (snd re) f)
    (mk_forest m (f_mst m f) components u).

(** The [while] loop of [make_tree_2]; [fuel] bounds the number of rounds. BoruvkasAlgorithm.hpp:577-582. *)
Fixpoint make_tree_2_loop (k_nearest_neighbors fuel i : nat) (f : forest m) : res (forest m) :=
  if 1 <? n_components m f then
    match fuel with
    | 0 => Fuel
    | S fuel' => f' <- step_dual_tree_sequential k_nearest_neighbors i f ;; make_tree_2_loop k_nearest_neighbors fuel' (S i) f'
    end
  else Ok f.

(** [make_tree_2] on a tree over the whole dataset, as [make_tree]. BoruvkasAlgorithm.hpp:566-585.  The core distances are
    computed and not used; the progress output is left out. *)
Definition make_tree_2 (fuel k_nearest_neighbors : nat) : res (list (BoruvkaModel.edge m)) :=
  let n_samples := length samples / n_features in
  f <- make_forest m n_samples ;;
  _ <- make_static_core_distances m samples n_features tree n_samples k_nearest_neighbors ;;
  f' <- make_tree_2_loop k_nearest_neighbors fuel 0 f ;;
  Ok (f_mst m f').

(** Default of the options. BoruvkasAlgorithm.hpp:64. *)
Definition default_k_nearest_neighbors : nat := 3.
End DualBoruvka.
