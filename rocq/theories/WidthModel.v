(** Model of building and searching a tree on signed integers of [w] bits, where an overflow is undefined.  The other
    models take integers without bounds.  Types narrower than [int] are computed with as [int] and narrowed when they are
    stored: see [n_metric]. *)
From Coq Require Import List Arith ZArith Bool.
From Verif Require Import Base SortingModel BoundsModel BufferModel KDTreeModel SearchModel StatsModel.
Import ListNotations.

(** The order in which [std::transform_reduce] adds up: the initial value, a term, a sum.
    /repo/include/ffcl/common/math/heuristics/Distances.hpp:113-118. *)
Inductive sum_order := Start | Nth (i : nat) | Plus (a b : sum_order).

(** The terms that an order adds. Distances.hpp:113-118. *)
Fixpoint summands (g : sum_order) : list nat :=
  match g with
  | Start => []
  | Nth i => [i]
  | Plus a b => summands a ++ summands b
  end.

(** Four at a time, then one by one, as libstdc++ does for random access iterators; one by one. Distances.hpp:113-118. *)
Fixpoint four_by_four (fuel n first : nat) (acc : sum_order) : sum_order :=
  match fuel with
  | 0 => acc
  | S fuel' =>
      if 4 <=? n then
        four_by_four fuel' (n - 4) (4 + first)
          (Plus acc (Plus (Plus (Nth first) (Nth (1 + first))) (Plus (Nth (2 + first)) (Nth (3 + first)))))
      else if 1 <=? n then four_by_four fuel' (n - 1) (1 + first) (Plus acc (Nth first))
      else acc
  end.
Fixpoint from_the_left (n : nat) : sum_order :=
  match n with 0 => Start | S n' => Plus (from_the_left n') (Nth n') end.

Section Width.
Context (w : Z).

(** [std::abs(lhs - rhs)] and [common::abs(a - b)]; the absolute value of the least number overflows.
    Distances.hpp:118, /repo/include/ffcl/common/Utils.hpp:398-403. *)
Definition w_gap (lhs rhs : Z) : res Z :=
  d <- checked w (lhs - rhs) ;;
  if (d <? 0)%Z then checked w (- d) else Ok d.

(** The terms of the sum; the left range drives the loop. Distances.hpp:113-118. *)
Fixpoint w_terms (l r : list Z) : res (list Z) :=
  match l, r with
  | [], _ => Ok []
  | _ :: _, [] => UB
  | x :: l', y :: r' => t <- w_gap x y ;; ts <- w_terms l' r' ;; Ok (t :: ts)
  end.

(** Additions in the order given. Distances.hpp:113-118. *)
Fixpoint w_sum (g : sum_order) (ts : list Z) : res Z :=
  match g with
  | Start => Ok 0%Z
  | Nth i => rd ts i
  | Plus a b => x <- w_sum a ts ;; y <- w_sum b ts ;; checked w (x + y)
  end.

(** [manhattan_distance]. Distances.hpp:94-119. *)
Definition w_manhattan (order : nat -> sum_order) (l r : list Z) : res Z :=
  ts <- w_terms l r ;; w_sum (order (length ts)) ts.

(** The distances of samples of this type.  The gap of [metric] is not used by the functions below, which have their own.
    Distances.hpp:94-119 and 279-284. *)
Definition w_metric (order : nat -> sum_order) : metric :=
  mk_metric Z Z.ltb 0%Z (fun a b => Z.abs (a - b)) (w_manhattan order).

(** [compute_center_with_left_rounding]. /repo/include/ffcl/common/Utils.hpp:442-456. *)
Definition w_center (s : segment) : res Z :=
  lower_plus_upper <- checked w (seg_lower s + seg_upper s) ;;
  Ok (if (lower_plus_upper <? 0)%Z then Z.quot lower_plus_upper 2 - 1 else Z.quot lower_plus_upper 2)%Z.

(** The constructor of the box of the root, with its centroid.
    /repo/include/ffcl/datastruct/bounds/AABBWithCentroid.hpp:68-96. *)
Fixpoint w_centers (segments : list segment) : res (list Z) :=
  match segments with
  | [] => Ok []
  | s :: segments' => c <- w_center s ;; cs <- w_centers segments' ;; Ok (c :: cs)
  end.

(** The constructor of [KDTree]; the boxes of the other nodes are made from that of the root by setting bounds.
    /repo/include/ffcl/datastruct/tree/kdtree/KDTree.hpp:203-233. *)
Definition w_make_kdtree (tol : Z) (samples : list Z) (n_features bucket_size max_depth : nat)
  (policy : list bool -> list nat -> nat -> aabb -> nat) (lowest max : Z) (indices : list nat) : res kdtree :=
  segments <- make_tight_segments lowest max samples n_features indices ;;
  centroid <- w_centers segments ;;
  '(indices', root, bound') <-
    build tol samples n_features bucket_size max_depth policy (S (length indices)) [] indices 0 (length indices) 0
      (mk_aabb centroid segments) ;;
  Ok (mk_kdtree indices' root bound').

Section Search.
Context (order : nat -> sum_order) (samples : list Z) (n_features : nat) (indices : list nat) (root : kd).
Context (bound : search_bound Z) (query : list Z).
Context {S : Type} (accept : nat -> S -> res (bool * S)).

(** [select_sibling_node]; the distance to the cut is computed only for a full buffer.
    /repo/include/ffcl/datastruct/tree/kdtree/KDNodeView.hpp:207-246. *)
Definition w_visit_sibling (first axis : nat) (is_right : bool) (b : buffer Z) : res bool :=
  pivot_split_value <- split_value samples n_features indices first axis ;;
  query_split_value <- rd query axis ;;
  if negb (remaining_capacity b =? 0)%Z then Ok true
  else
    gap <- w_gap pivot_split_value query_split_value ;;
    Ok (if is_right then (gap <? buf_furthest_distance b)%Z else negb (buf_furthest_distance b <? gap)%Z).

(** [single_tree_traversal] and its loop.
    /repo/include/ffcl/search/TreeTraverser.hpp:218-230 and 254-269. *)
Fixpoint w_traversal (fuel : nat) (node : position) (state : buffer Z * S) : res (buffer Z * S) :=
  match fuel with
  | 0 => Fuel
  | Datatypes.S fuel' =>
      t <- node_at root node ;;
      '(current, state') <-
        recursive_search_to_leaf_node (w_metric order) samples n_features indices bound query accept t node state ;;
      w_climb fuel' node current state'
  end
with w_climb (fuel : nat) (node current : position) (state : buffer Z * S) : res (buffer Z * S) :=
  match fuel with
  | 0 => Fuel
  | Datatypes.S fuel' =>
      if list_eq_dec bool_dec current node then Ok state
      else
        match current with
        | [] => UB
        | side :: parent =>
            parent_node <- node_at root parent ;;
            match parent_node with
            | KLeaf _ _ _ => UB
            | KNode first _ axis _ _ _ =>
                visit <- w_visit_sibling first axis side (fst state) ;;
                state' <- (if visit : bool then w_traversal fuel' (negb side :: parent) state else Ok state) ;;
                w_climb fuel' node parent state'
            end
        end
  end.
End Search.

(** [Searcher::operator()] on one buffer. /repo/include/ffcl/search/TreeTraverser.hpp:192-203, Search.hpp:145-151. *)
Definition w_search (order : nat -> sum_order) (samples : list Z) (n_features : nat) (tree : kdtree)
  (bound : search_bound Z) (query : list Z) {S} (accept : nat -> S -> res (bool * S)) (capacity : nat) (s : S)
  : res (buffer Z * S) :=
  w_traversal order samples n_features (kt_indices tree) (kt_root tree) bound query accept
    (kd_nodes (kt_root tree) * kd_nodes (kt_root tree) + kd_nodes (kt_root tree) + 2) []
    (make_buffer 0%Z capacity, s).
End Width.

(** The conversion to a type of [w] bits, narrower than [int]: modulo [2^w], as every compiler does (C++20 requires it).
    The distances of [signed char] and [short] are [int] and the buffer keeps the type of the samples.
    /repo/include/ffcl/search/buffer/Unsorted.hpp:21-24 and 37. *)
Definition narrow (w : Z) (z : Z) : Z := ((z + 2 ^ (w - 1)) mod 2 ^ w - 2 ^ (w - 1))%Z.

(** The distances that a buffer of such a type keeps; the sums do not overflow an [int].
    Simplified: the comparisons with the radius of a ball are made here on the narrowed distance.
    Distances.hpp:94-119, Unsorted.hpp:37. *)
Definition n_metric (w : Z) : metric :=
  mk_metric Z Z.ltb 0%Z (fun a b => Z.abs (a - b)) (fun l r => d <- manhattan_distance l r ;; Ok (narrow w d)).
