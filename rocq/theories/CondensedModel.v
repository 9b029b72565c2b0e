(** Model of include/ffcl/datastruct/tree/condensed_cluster_tree. *)
From Coq Require Import List Arith ZArith QArith Qabs Bool.
From Verif Require Import Base SlinkModel.
Import ListNotations.
Local Open Scope nat_scope.

(** [common::division(1, level)] for floating-point levels; [eps] is [numeric_limits::epsilon()].
    /repo/include/ffcl/common/Utils.hpp:412-423 and 431-440. Simplified: exact rationals instead of floats. *)
Definition inverse_float (eps level : Q) : Q := if Qle_bool (Qabs (0 - level)) eps then 0%Q else (1 / level)%Q.

(** [common::division(1, level)] for integers, which truncates. Utils.hpp:412-414 and 431-440. *)
Definition inverse_int (level : Z) : Q := if (level =? 0)%Z then 0%Q else inject_Z (Z.quot 1 level).

Section Condensed.
(** [ValueType]; [inverse level] is the value of [common::division(1, level)] (Utils.hpp:431-440). *)
Context {D : Type} (inverse : D -> Q).
Notation slink := (slink D).

(** [CondensedClusterNode]: a node without children or with two.
    /repo/include/ffcl/datastruct/tree/condensed_cluster_tree/CondensedClusterNode.hpp:24-50.
    Simplified: stabilities are exact rationals, the unused parent pointer is left out. *)
Inductive cnode :=
| CLeaf (root : slink) (lambda_min stability : Q) (selected : bool)
| CSplit (root : slink) (lambda_min stability : Q) (selected : bool) (left_ right_ : cnode).

(** CondensedClusterNode.hpp:38-47. *)
Definition cn_root (c : cnode) : slink := match c with CLeaf s _ _ _ => s | CSplit s _ _ _ _ _ => s end.
Definition cn_lambda_min (c : cnode) : Q := match c with CLeaf _ m _ _ => m | CSplit _ m _ _ _ _ => m end.
Definition cn_stability (c : cnode) : Q := match c with CLeaf _ _ q _ => q | CSplit _ _ q _ _ _ => q end.

(** [is_selected]. CondensedClusterNode.hpp:66-74. *)
Definition cn_selected (c : cnode) : bool := match c with CLeaf _ _ _ b => b | CSplit _ _ _ b _ _ => b end.
Definition cn_set_selected (b : bool) (c : cnode) : cnode :=
  match c with CLeaf s m q _ => CLeaf s m q b | CSplit s m q _ l r => CSplit s m q b l r end.

(** [is_leaf]. CondensedClusterNode.hpp:61-64. *)
Definition cn_is_leaf (c : cnode) : bool := match c with CLeaf _ _ _ _ => true | CSplit _ _ _ _ _ _ => false end.

(** [add_excess_of_mass]. CondensedClusterNode.hpp:83-88. *)
Definition add_excess_of_mass (stability : Q) (size : nat) (lambda_value lambda_min : Q) : Q :=
  (stability + inject_Z (Z.of_nat size) * (lambda_value - lambda_min))%Q.

(** [Options]. /repo/include/ffcl/datastruct/tree/condensed_cluster_tree/CondensedClusterTree.hpp:34-63. *)
Record condensed_options := { min_cluster_size : nat; allow_single_cluster : bool; return_leaf_nodes : bool }.
Definition default_condensed_options : condensed_options :=
  {| min_cluster_size := 1; allow_single_cluster := false; return_leaf_nodes := false |}.

(** [preorder_traversal_build]: [root], [lambda_min] and [stability] are those of the condensed node under
    construction. A new condensed node takes its [lambda_min] from the level of the single linkage parent, which is the
    node being visited. CondensedClusterTree.hpp:142-220, CondensedClusterNode.hpp:52-59. *)
Fixpoint condense (min_size : nat) (root : slink) (lambda_min stability : Q) (s : slink) : cnode :=
  match s with
  | SNode _ level size l r =>
      let is_left_child_split_candidate := min_size <=? sl_size l in
      let is_right_child_split_candidate := min_size <=? sl_size r in
      let lambda_value := inverse level in
      if is_left_child_split_candidate && is_right_child_split_candidate then
        CSplit root lambda_min (add_excess_of_mass stability size lambda_value lambda_min) false
          (condense min_size l lambda_value 0 l) (condense min_size r lambda_value 0 r)
      else if is_left_child_split_candidate then
        condense min_size root lambda_min (add_excess_of_mass stability (sl_size r) lambda_value lambda_min) l
      else if is_right_child_split_candidate then
        condense min_size root lambda_min (add_excess_of_mass stability (sl_size l) lambda_value lambda_min) r
      else CLeaf root lambda_min (add_excess_of_mass stability size lambda_value lambda_min) true
  | SLeaf _ => CLeaf root lambda_min stability true
  end.

(** [build] on a node without parent. CondensedClusterTree.hpp:132-140, CondensedClusterNode.hpp:52-59. *)
Definition build_condensed (min_size : nat) (root : slink) : cnode := condense min_size root 0 0 root.

(** [select_subtree] returns the stability and the tree with updated marks. CondensedClusterTree.hpp:264-287. *)
Fixpoint select_subtree (c : cnode) : Q * cnode :=
  match c with
  | CLeaf _ _ stability _ => (stability, c)
  | CSplit root lambda_min stability selected l r =>
      let '(stability_left, l) := select_subtree l in
      let '(stability_right, r) := select_subtree r in
      let children_stability := (stability_left + stability_right)%Q in
      if negb (Qle_bool children_stability stability)
      then (children_stability, CSplit root lambda_min stability selected l r)
      else (stability, CSplit root lambda_min stability true l r)
  end.

(** Constructor. CondensedClusterTree.hpp:111-130. *)
Definition make_condensed (o : condensed_options) (root : slink) : cnode :=
  let c := build_condensed (min_cluster_size o) root in
  if return_leaf_nodes o then c
  else
    let '(_, c) := select_subtree c in
    if negb (allow_single_cluster o) && negb (cn_is_leaf c) then cn_set_selected false c else c.

(** [preorder_traversal_fill_shallowest_selected_nodes]; going below a node without children dereferences a null
    pointer. CondensedClusterTree.hpp:289-317. *)
Fixpoint shallowest_selected (c : cnode) : res (list cnode) :=
  if cn_selected c then Ok [c]
  else match c with
       | CLeaf _ _ _ _ => UB
       | CSplit _ _ _ _ l r => a <- shallowest_selected l ;; b <- shallowest_selected r ;; Ok (a ++ b)
       end.

(** [preorder_traversal_single_linkage_clustering]. CondensedClusterTree.hpp:244-262. Simplified: the assertion that a
    leaf has level 0 always holds. *)
Fixpoint fill_label (label : nat) (s : slink) (flat_cluster : list nat) : res (list nat) :=
  match s with
  | SNode _ _ _ l r => flat_cluster <- fill_label label l flat_cluster ;; fill_label label r flat_cluster
  | SLeaf representative => wr flat_cluster representative label
  end.

(** [extract_flat_clusters], [predict]. CondensedClusterTree.hpp:222-242. *)
Definition extract_flat_condensed (root : cnode) : res (list nat) :=
  chosen <- shallowest_selected root ;;
  ' (_, flat_cluster) <- for_each chosen (fun c (st : nat * list nat) =>
      let '(cluster_label, flat_cluster) := st in
      flat_cluster <- fill_label cluster_label (cn_root c) flat_cluster ;;
      Ok (S cluster_label, flat_cluster)) (1, repeat 0 (sl_size (cn_root root))) ;;
  Ok flat_cluster.
End Condensed.
Arguments CLeaf {D}.
Arguments CSplit {D}.
Arguments cnode : clear implicits.
