(** Model of include/ffcl/datastruct/tree/single_linkage_cluster_tree. *)
From Coq Require Import List Arith Bool.
From Verif Require Import Base UnionFindModel.
Import ListNotations.

Section Slink.
(** [ValueType] with [operator<], the value 0 and [common::infinity<ValueType>()]. *)
Context {D : Type} (lt : D -> D -> bool) (zero inf : D).

(** [SingleLinkageClusterNode]: a leaf ([level = 0], [cluster_size = 1] by default) or a node with two children.
    /repo/include/ffcl/datastruct/tree/single_linkage_cluster_tree/SingleLinkageClusterNode.hpp:32-47.
    Simplified: the parent pointer is left out; where the code reads it the parent is passed along. *)
Inductive slink :=
| SLeaf (representative : nat)
| SNode (representative : nat) (level : D) (cluster_size : nat) (left_ right_ : slink).

(** SingleLinkageClusterNode.hpp:32-35. *)
Definition sl_representative (s : slink) : nat :=
  match s with SLeaf r => r | SNode r _ _ _ _ => r end.
Definition sl_level (s : slink) : D :=
  match s with SLeaf _ => zero | SNode _ l _ _ _ => l end.

(** [size]. SingleLinkageClusterNode.hpp:56-59. *)
Definition sl_size (s : slink) : nat :=
  match s with SLeaf _ => 1 | SNode _ _ n _ _ => n end.

(** [std::unordered_map] as an association list with distinct keys; reading a missing key would insert a null pointer
    that is then dereferenced.
    /repo/include/ffcl/datastruct/tree/single_linkage_cluster_tree/SingleLinkageClusterTree.hpp:185. *)
Fixpoint nodes_at (nodes : list (nat * slink)) (key : nat) : res slink :=
  match nodes with
  | [] => UB
  | (k, s) :: t => if k =? key then Ok s else nodes_at t key
  end.
Definition nodes_erase (nodes : list (nat * slink)) (key : nat) : list (nat * slink) :=
  filter (fun ks => negb (fst ks =? key)) nodes.
Definition nodes_assign (nodes : list (nat * slink)) (key : nat) (s : slink) : list (nat * slink) :=
  (key, s) :: nodes_erase nodes key.

(** Loop body of [build]. SingleLinkageClusterTree.hpp:191-219. *)
Definition build_step (e : nat * nat * D) (state : list (nat * slink) * uf) : res (list (nat * slink) * uf) :=
  let '(sample_index_1, sample_index_2, samples_edge_weight) := e in
  let '(nodes, u) := state in
  '(u, representative_1) <- uf_find u sample_index_1 ;;
  '(u, representative_2) <- uf_find u sample_index_2 ;;
  '(u, common_representative) <- uf_merge u sample_index_1 sample_index_2 ;;
  if negb (common_representative =? representative_1) || negb (common_representative =? representative_2) then
    n1 <- nodes_at nodes representative_1 ;;
    n2 <- nodes_at nodes representative_2 ;;
    let cluster_node := SNode common_representative samples_edge_weight (sl_size n1 + sl_size n2) n1 n2 in
    Ok (nodes_assign (nodes_erase (nodes_erase nodes representative_1) representative_2) common_representative
          cluster_node, u)
  else Ok (nodes, u).

(** [build]; [order] is the iteration order of the hash map, used by [nodes.begin()].
    SingleLinkageClusterTree.hpp:177-222. *)
Definition build_slink (order : list (nat * slink) -> list (nat * slink)) (sorted_mst : list (nat * nat * D))
  : res slink :=
  let n_samples := length sorted_mst + 1 in
  '(nodes, _) <- for_each sorted_mst build_step (map (fun i => (i, SLeaf i)) (seq 0 n_samples), uf_make n_samples) ;;
  match order nodes with
  | [] => UB
  | (_, s) :: _ => Ok s
  end.

(** Constructors; [sort] stands for [std::sort] by weight, which leaves ties in an unspecified order.
    SingleLinkageClusterTree.hpp:101-123, /repo/include/ffcl/datastruct/graph/spanning_tree/MinimumSpanningTree.hpp:29-51. *)
Definition make_slink (sort : list (nat * nat * D) -> list (nat * nat * D)) order (mst : list (nat * nat * D)) : res slink :=
  build_slink order (sort mst).

(** [Options]. SingleLinkageClusterTree.hpp:38-61. *)
Definition default_cut_level : D := inf.
Definition default_min_cluster_size : nat := 1.

(** [preorder_traversal_single_linkage_clustering]; [a >= b] is [!(a < b)].
    SingleLinkageClusterTree.hpp:151-175. *)
Fixpoint flat_traversal (cut_level : D) (min_cluster_size : nat) (cluster_label : nat) (s : slink)
  (flat_cluster : list nat) : res (list nat) :=
  let cluster_label :=
    if negb (lt (sl_level s) cut_level)
    then (if sl_size s <? min_cluster_size then 0 else sl_representative s) else cluster_label in
  match s with
  | SNode _ _ _ l r =>
      flat_cluster <- flat_traversal cut_level min_cluster_size cluster_label l flat_cluster ;;
      flat_traversal cut_level min_cluster_size cluster_label r flat_cluster
  | SLeaf representative => wr flat_cluster representative cluster_label
  end.

(** [extract_flat_clusters], [predict]. SingleLinkageClusterTree.hpp:137-149. *)
Definition extract_flat_slink (cut_level : D) (min_cluster_size : nat) (root : slink) : res (list nat) :=
  flat_traversal cut_level min_cluster_size (sl_representative root) root (repeat 0 (sl_size root)).
End Slink.
Arguments SLeaf {D}.
Arguments SNode {D}.
Arguments slink : clear implicits.
