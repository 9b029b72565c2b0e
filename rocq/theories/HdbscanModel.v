(** Model of include/ffcl/hdbscan/HDBSCAN.hpp. *)
From Coq Require Import List Arith ZArith QArith Bool.
From Verif Require Import Base SortingModel BoundsModel UnionFindModel BufferModel KDTreeModel SearchModel BoruvkaModel
  SlinkModel CondensedModel.
Import ListNotations.
Local Open Scope nat_scope.

(** [Options]. /repo/include/ffcl/hdbscan/HDBSCAN.hpp:26-63. *)
Record hdbscan_options := {
  h_k_nearest_neighbors : nat; h_min_cluster_size : nat; h_return_leaf_nodes : bool; h_allow_single_cluster : bool }.
Definition default_hdbscan_options : hdbscan_options :=
  {| h_k_nearest_neighbors := 1; h_min_cluster_size := 5; h_return_leaf_nodes := false; h_allow_single_cluster := true |}.

(** [predict]. HDBSCAN.hpp:90-116. [inverse] is [common::division(1, level)] on the distance type, [oc] and [oe] are the
    hash map orders in Boruvka's algorithm, [sort] is [std::sort] on edges and [order] the hash map order at the end of
    the single linkage build; [fuel] bounds the rounds of Boruvka's algorithm. *)
Definition hdbscan_predict (m : metric) (inverse : m_dist m -> Q) (samples : list Z) (n_features : nat) (tree : kdtree)
  oc oe (fuel : nat) sort order (o : hdbscan_options) : res (list nat) :=
  minimum_spanning_tree <- make_tree m samples n_features tree oc oe fuel (h_k_nearest_neighbors o) ;;
  single_linkage_cluster_tree_root <- make_slink sort order minimum_spanning_tree ;;
  extract_flat_condensed (make_condensed inverse
    {| min_cluster_size := h_min_cluster_size o; return_leaf_nodes := h_return_leaf_nodes o;
       allow_single_cluster := h_allow_single_cluster o |} single_linkage_cluster_tree_root).
