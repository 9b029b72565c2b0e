(** The document a single linkage tree is serialized to.
    include/ffcl/datastruct/tree/single_linkage_cluster_tree/SingleLinkageClusterTree.hpp and SingleLinkageClusterNode.hpp. *)
From Coq Require Import String List Arith ZArith Bool.
From Verif Require Import Base SlinkModel DocumentModel.
Import ListNotations.
Local Open Scope string_scope.
Local Open Scope list_scope.

(** [SingleLinkageClusterNode::serialize]; levels are integers or floating-point values in exact arithmetic.
    /repo/include/ffcl/datastruct/tree/single_linkage_cluster_tree/SingleLinkageClusterNode.hpp:68-86. *)
Definition serialize_slink_fields (integral : bool) (s : slink Z) : list token :=
  [Str "representative"; Int64 (to_int64 (Z.of_nat (sl_representative s)));
   Str "level"; write_value integral (sl_level 0%Z s);
   Str "cluster_size"; Int64 (to_int64 (Z.of_nat (sl_size s)))].

(** [serialize] of a node: the fields, then the children unless it is a leaf.
    /repo/include/ffcl/datastruct/tree/single_linkage_cluster_tree/SingleLinkageClusterTree.hpp:239-257. *)
Fixpoint serialize_slink_node (integral : bool) (s : slink Z) : list token :=
  [StartObject] ++ serialize_slink_fields integral s ++
  match s with
  | SLeaf _ => []
  | SNode _ _ _ l r =>
      [Str "left"] ++ serialize_slink_node integral l ++ [Str "right"] ++ serialize_slink_node integral r
  end ++ [EndObject].

(** [serialize] to a file: what is written. SingleLinkageClusterTree.hpp:259-285.
    Left out: that the text is parsed and written a second time (274-282), and the file itself. *)
Definition serialize_slink (integral : bool) (root : slink Z) : list token :=
  [StartObject; Str "root"] ++ serialize_slink_node integral root ++ [EndObject].
