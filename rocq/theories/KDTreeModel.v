(** Model of include/ffcl/datastruct/tree/kdtree/KDTree.hpp (construction). *)
From Coq Require Import List Arith ZArith Bool.
From Verif Require Import Base SortingModel BoundsModel.
Import ListNotations.

(** [KDNodeView]: the range of the index array it refers to as a pair of positions, the cut axis (absent, -1, on a
    leaf), the bound and the two children (both null on a leaf).
    /repo/include/ffcl/datastruct/tree/kdtree/KDNodeView.hpp:87-101, constructors 125-151.
    Simplified: the parent pointer is not stored; positions in the tree are paths from the root. *)
Inductive kd :=
| KLeaf (first last : nat) (bound : aabb)
| KNode (first last : nat) (axis : nat) (bound : aabb) (left right : kd).

(** [KDTree]: the members used below. /repo/include/ffcl/datastruct/tree/kdtree/KDTree.hpp:203-233. *)
Record kdtree := mk_kdtree { kt_indices : list nat; kt_root : kd; kt_bound : aabb }.

Section Build.
Context (tol : Z) (samples : list Z) (n_features : nat).
(** [Options::bucket_size_], [Options::max_depth_]. KDTree.hpp:60-78. *)
Context (bucket_size max_depth : nat).
(** [Options::axis_selection_policy_ptr_]: any function of what it is passed; the path makes every call distinct
    so that random policies are covered.
    /repo/include/ffcl/datastruct/tree/kdtree/policy/AxisSelectionPolicy.hpp:33-39. *)
Context (policy : list bool -> list nat -> nat -> aabb -> nat).

(** [KDTree::build]: the index array afterwards, the node, the bound argument afterwards.
    /repo/include/ffcl/datastruct/tree/kdtree/KDTree.hpp:305-382; the splitting rule is [QuickselectMedianRange],
    /repo/include/ffcl/datastruct/tree/kdtree/policy/SplittingRulePolicy.hpp:52-70.
    The parameter [feature_cut_index] is overwritten before it is read and is left out. *)
Fixpoint build (fuel : nat) (path : list bool) (indices : list nat) (first last depth : nat) (bound : aabb)
  : res (list nat * kd * aabb) :=
  match fuel with
  | 0 => Fuel
  | S fuel' =>
      if (depth <? max_depth) && (bucket_size <? last - first) then
        range <- slice indices first last ;;
        let axis := policy path range depth bound in
        '(range', (_, left_range, cut_range, right_range)) <- quickselect_median tol samples n_features axis range ;;
        let indices1 := splice indices first last range' in
        cut_value <- value_at samples n_features axis indices1 (first + fst cut_range) ;;
        (* left child *)
        bound1 <- aabb_update_upper bound axis cut_value ;;
        '(indices2, left_node, bound2) <-
          build fuel' (path ++ [false]) indices1 (first + fst left_range) (first + snd left_range) (S depth) bound1 ;;
        node_segment <- rd (aabb_segments bound) axis ;;
        bound3 <- aabb_update_upper bound2 axis (seg_upper node_segment) ;;
        (* right child *)
        bound4 <- aabb_update_lower bound3 axis cut_value ;;
        '(indices3, right_node, bound5) <-
          build fuel' (path ++ [true]) indices2 (first + fst right_range) (first + snd right_range) (S depth) bound4 ;;
        bound6 <- aabb_update_lower bound5 axis (seg_lower node_segment) ;;
        Ok (indices3, KNode (first + fst cut_range) (first + snd cut_range) axis bound left_node right_node, bound6)
      else Ok (indices, KLeaf first last bound, bound)
  end.

(** The constructor of [KDTree]. /repo/include/ffcl/datastruct/tree/kdtree/KDTree.hpp:203-233.
    [lowest] and [max] are the limits of the value type and [center] the centroid of a segment. The call of the axis
    policy made for the initial, unused, [feature_cut_index] is left out. *)
Definition make_kdtree (lowest max : Z) (center : segment -> Z) (indices : list nat) : res kdtree :=
  segments <- make_tight_segments lowest max samples n_features indices ;;
  let bound := make_aabb center segments in
  '(indices', root, bound') <- build (S (length indices)) [] indices 0 (length indices) 0 bound ;;
  Ok (mk_kdtree indices' root bound').
End Build.

(** Default options: [bucket_size_ = 40] and [max_depth_ = common::infinity<std::size_t>()], which is
    [std::numeric_limits<std::size_t>::infinity()], that is 0.
    KDTree.hpp:61-67, /repo/include/ffcl/common/Utils.hpp:393-396. *)
Definition default_bucket_size : nat := 40.
Definition default_max_depth : nat := 0.
