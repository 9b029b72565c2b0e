(** Model of include/ffcl/search/ClosestPairOfSamples.hpp. *)
From Coq Require Import List Arith ZArith Bool.
From Verif Require Import Base SortingModel BoundsModel UnionFindModel BufferModel KDTreeModel SearchModel DualTreeModel.
From Verif Require BoruvkaModel.
Import ListNotations.

Section Pairs.
Context (m : metric) (p : pruning (m_dist m)).
(** Two datasets with their indices. *)
Context (samples : list Z) (n_features : nat) (indices : list nat).
Context (other_samples : list Z) (other_n_features : nat) (other_indices : list nat).

Notation edge := (edge (m_dist m)).

(** Default argument of [simple_dual_set_shortest_edge]; [infinity] of an unsigned index is 0.
    /repo/include/ffcl/search/ClosestPairOfSamples.hpp:34-38, /repo/include/ffcl/common/Utils.hpp:393-396. *)
Definition initial_shortest_edge : edge := (0, 0, m_inf m).

(** Body of the two loops. ClosestPairOfSamples.hpp:48-56. *)
Definition simple_step (index other_index : nat) (shortest_edge : edge) : res edge :=
  sample <- sample_at samples n_features index ;;
  other_sample <- sample_at other_samples other_n_features other_index ;;
  samples_distance <- m_auto m sample other_sample ;;
  Ok (if m_lt m (p_zero p) samples_distance && m_lt m samples_distance (snd shortest_edge)
      then (index, other_index, samples_distance) else shortest_edge).

(** [simple_dual_set_shortest_edge]. ClosestPairOfSamples.hpp:19-60. *)
Definition simple_dual_set_shortest_edge (initial : edge) : res edge :=
  for_each indices (fun index => for_each other_indices (simple_step index)) initial.

(** What a KDTree is given besides the dataset: tolerance of the comparisons, axis policy, limits of the value type and
    centroid of a segment, see [make_kdtree].
    /repo/include/ffcl/datastruct/tree/kdtree/KDTree.hpp:203-233. *)
Context (tol : Z) (policy : list bool -> list nat -> nat -> aabb -> nat) (lowest max : Z) (center : segment -> Z).
Context (right_first : position -> position -> bool).

(** [dual_set_shortest_edge]: two trees, each with room for all the samples in one leaf.
    ClosestPairOfSamples.hpp:62-109. The axis policy is any. *)
Definition dual_set_shortest_edge {S} (accept : nat -> S -> res (bool * S)) (capacity : nat) (s : S) : res edge :=
  query_indexer <- make_kdtree tol samples n_features (length indices) default_max_depth policy lowest max center indices ;;
  reference_indexer <- make_kdtree tol other_samples other_n_features (length other_indices) default_max_depth policy
                         lowest max center other_indices ;;
  dual_tree_shortest_edge m p samples n_features query_indexer other_samples other_n_features reference_indexer
    accept capacity right_first s.

(** [dual_set_shortest_distance]. ClosestPairOfSamples.hpp:111-141. *)
Definition dual_set_shortest_distance {S} (accept : nat -> S -> res (bool * S)) (capacity : nat) (s : S)
  : res (m_dist m) :=
  brute_force_shortest_edge <- dual_set_shortest_edge accept capacity s ;;
  Ok (snd brute_force_shortest_edge).

(** Loop body of [sequential_dual_set_shortest_edge]. ClosestPairOfSamples.hpp:192-213. *)
Definition sequential_step (tree : kdtree) (queries_representative query_index : nat) (state : edge * uf)
  : res (edge * uf) :=
  let '(shortest_edge, u) := state in
  query <- sample_at samples n_features query_index ;;
  '(b, u') <- search m other_samples other_n_features tree Unbounded query
               (accept_other_component queries_representative) 1 u ;;
  nearest_neighbor_index <- buf_furthest_index b ;;
  let nearest_neighbor_distance := buf_furthest_distance b in
  Ok (if m_lt m nearest_neighbor_distance (snd shortest_edge)
      then (query_index, nearest_neighbor_index, nearest_neighbor_distance) else shortest_edge, u').

(** [sequential_dual_set_shortest_edge]. ClosestPairOfSamples.hpp:143-215. *)
Definition sequential_dual_set_shortest_edge (u : uf) (queries_representative : nat) : res edge :=
  reference_indexer <- make_kdtree tol other_samples other_n_features
                         (Nat.max 40 (Nat.sqrt (length other_indices))) default_max_depth policy lowest max center
                         other_indices ;;
  '(shortest_edge, _) <- for_each indices (sequential_step reference_indexer queries_representative)
                           (BoruvkaModel.make_default_edge m, u) ;;
  Ok shortest_edge.
End Pairs.
