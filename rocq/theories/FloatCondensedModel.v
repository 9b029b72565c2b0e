(** Condensed trees with stabilities of any type, and of [float] or [double] with their rounding. *)
From Coq Require Import List Arith ZArith Bool.
From Flocq Require Import Core BinarySingleNaN.
From Verif Require Import Base SlinkModel CondensedModel FloatModel FloatSilhouetteModel.
Import ListNotations.
Local Open Scope nat_scope.

Section Tree.
(** [ValueType] for levels and stabilities; [inverse] is [common::division(1, level)]
    (/repo/include/ffcl/common/Utils.hpp:431-440), [excess stability size lambda lambda_min] is the value that
    [add_excess_of_mass] stores
    (/repo/include/ffcl/datastruct/tree/condensed_cluster_tree/CondensedClusterNode.hpp:83-88), [plus] and [greater] are
    those of /repo/include/ffcl/datastruct/tree/condensed_cluster_tree/CondensedClusterTree.hpp:272-276. *)
Context {D V : Type} (zero : V) (inverse : D -> V) (excess : V -> nat -> V -> V -> V) (plus : V -> V -> V) (greater : V -> V -> bool).
Notation slink := (slink D).

(** [CondensedClusterNode]. CondensedClusterNode.hpp:24-50. Simplified: the unused parent pointer is left out. *)
Inductive fnode :=
| FLeaf (root : slink) (lambda_min stability : V) (selected : bool)
| FSplit (root : slink) (lambda_min stability : V) (selected : bool) (left_ right_ : fnode).

(** CondensedClusterNode.hpp:38-47. *)
Definition fn_root (c : fnode) : slink := match c with FLeaf s _ _ _ => s | FSplit s _ _ _ _ _ => s end.
Definition fn_stability (c : fnode) : V := match c with FLeaf _ _ q _ => q | FSplit _ _ q _ _ _ => q end.

(** [is_selected]. CondensedClusterNode.hpp:66-74. *)
Definition fn_selected (c : fnode) : bool := match c with FLeaf _ _ _ b => b | FSplit _ _ _ b _ _ => b end.
Definition fn_set_selected (b : bool) (c : fnode) : fnode :=
  match c with FLeaf s m q _ => FLeaf s m q b | FSplit s m q _ l r => FSplit s m q b l r end.

(** [is_leaf]. CondensedClusterNode.hpp:61-64. *)
Definition fn_is_leaf (c : fnode) : bool := match c with FLeaf _ _ _ _ => true | FSplit _ _ _ _ _ _ => false end.

(** [preorder_traversal_build]. CondensedClusterTree.hpp:142-220, CondensedClusterNode.hpp:52-59. *)
Fixpoint fcondense (min_size : nat) (root : slink) (lambda_min stability : V) (s : slink) : fnode :=
  match s with
  | SNode _ level size l r =>
      let is_left_child_split_candidate := min_size <=? sl_size l in
      let is_right_child_split_candidate := min_size <=? sl_size r in
      let lambda_value := inverse level in
      if is_left_child_split_candidate && is_right_child_split_candidate then
        FSplit root lambda_min (excess stability size lambda_value lambda_min) false
          (fcondense min_size l lambda_value zero l) (fcondense min_size r lambda_value zero r)
      else if is_left_child_split_candidate then
        fcondense min_size root lambda_min (excess stability (sl_size r) lambda_value lambda_min) l
      else if is_right_child_split_candidate then
        fcondense min_size root lambda_min (excess stability (sl_size l) lambda_value lambda_min) r
      else FLeaf root lambda_min (excess stability size lambda_value lambda_min) true
  | SLeaf _ => FLeaf root lambda_min stability true
  end.

(** [build] on a node without parent. CondensedClusterTree.hpp:132-140, CondensedClusterNode.hpp:52-59. *)
Definition fbuild (min_size : nat) (root : slink) : fnode := fcondense min_size root zero zero root.

(** [select_subtree]. CondensedClusterTree.hpp:264-287. *)
Fixpoint fselect (c : fnode) : V * fnode :=
  match c with
  | FLeaf _ _ stability _ => (stability, c)
  | FSplit root lambda_min stability selected l r =>
      let '(stability_left, l) := fselect l in
      let '(stability_right, r) := fselect r in
      let children_stability := plus stability_left stability_right in
      if greater children_stability stability
      then (children_stability, FSplit root lambda_min stability selected l r)
      else (stability, FSplit root lambda_min stability true l r)
  end.

(** Constructor. CondensedClusterTree.hpp:111-130. *)
Definition fmake (o : condensed_options) (root : slink) : fnode :=
  let c := fbuild (min_cluster_size o) root in
  if return_leaf_nodes o then c
  else
    let '(_, c) := fselect c in
    if negb (allow_single_cluster o) && negb (fn_is_leaf c) then fn_set_selected false c else c.

(** [preorder_traversal_fill_shallowest_selected_nodes]; going below a node without children dereferences a null
    pointer. CondensedClusterTree.hpp:289-317. *)
Fixpoint fshallowest (c : fnode) : res (list fnode) :=
  if fn_selected c then Ok [c]
  else match c with
       | FLeaf _ _ _ _ => UB
       | FSplit _ _ _ _ l r => a <- fshallowest l ;; b <- fshallowest r ;; Ok (a ++ b)
       end.

(** [extract_flat_clusters], [predict]. CondensedClusterTree.hpp:222-242. *)
Definition fextract (root : fnode) : res (list nat) :=
  chosen <- fshallowest root ;;
  ' (_, flat_cluster) <- for_each chosen (fun c (st : nat * list nat) =>
      let '(cluster_label, flat_cluster) := st in
      flat_cluster <- fill_label cluster_label (fn_root c) flat_cluster ;;
      Ok (S cluster_label, flat_cluster)) (1, repeat 0 (sl_size (fn_root root))) ;;
  Ok flat_cluster.
End Tree.
Arguments FLeaf {D V}.
Arguments FSplit {D V}.
Arguments fnode : clear implicits.

Section Binary.
Context (prec emax : Z) (Hp : Prec_gt_0 prec) (Hm : Prec_lt_emax prec emax).
Notation number := (binary_float prec emax).

(** [std::numeric_limits<T>::epsilon()]. Utils.hpp:418. *)
Definition epsilon : number := binary_normalize prec emax Hp Hm mode_NE 1 (1 - prec) false.

(** [common::division(1, level)]. Utils.hpp:412-423 and 431-440. *)
Definition float_inverse (level : number) : number :=
  if Bleb (Babs (Bminus mode_NE (B754_zero false) level)) epsilon then B754_zero false
  else Bdiv mode_NE (Bone (prec_gt_0_ := Hp) (prec_lt_emax_ := Hm)) level.

(** [add_excess_of_mass]: [fused] when the compiler contracts the product and the sum (-march=native,
    /repo/CMakeLists.txt:14-20). CondensedClusterNode.hpp:83-88. *)
Definition float_excess (fused : bool) (stability : number) (size : nat) (lambda_value lambda_min : number) : number :=
  let time := Bminus mode_NE lambda_value lambda_min in
  if fused then Bfma mode_NE (count prec emax Hp Hm size) time stability
  else Bplus mode_NE stability (Bmult mode_NE (count prec emax Hp Hm size) time).

(** The condensed tree on [float] or [double]. CondensedClusterTree.hpp:111-220 and 264-287. *)
Definition float_build (fused : bool) (min_size : nat) (root : slink number) : fnode number number :=
  fbuild (B754_zero false) float_inverse (float_excess fused) min_size root.
Definition float_make (fused : bool) (o : condensed_options) (root : slink number) : fnode number number :=
  fmake (B754_zero false) float_inverse (float_excess fused) (Bplus mode_NE) (fun a b => Bltb b a) o root.

(** [predict]. CondensedClusterTree.hpp:222-242. *)
Definition float_labels (fused : bool) (o : condensed_options) (root : slink number) : res (list nat) :=
  fextract (float_make fused o root).
End Binary.
