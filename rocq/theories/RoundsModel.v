(** What [make_tree] and [make_tree_2] write to the standard output: the number of components at the start of each round and the
    sum of these numbers. Paths are relative to /repo/include/ffcl/datastruct/graph/spanning_tree. *)
From Coq Require Import List Arith ZArith.
From Verif Require Import Base SortingModel BoundsModel UnionFindModel BufferModel KDTreeModel SearchModel DualTreeModel
  BoruvkaModel DualBoruvkaModel.
Import ListNotations.

(** What is written: the numbers after "forest.n_components(): " and the one after "Counter: ".
    BoruvkasAlgorithm.hpp:435, 447, 458, 578, 583. *)
Record progress := mk_progress { component_counts : list nat; counter : nat }.

Section Rounds.
Context (m : metric) (samples : list Z) (n_features : nat) (tree : kdtree).
Context (order_components : nat -> list (nat * list nat) -> list (nat * list nat)).
Context (order_edges : nat -> list (nat * edge m) -> list (nat * edge m)).

(** The two [while] loops of [make_tree] with their output; [fuel] bounds the number of rounds.
    BoruvkasAlgorithm.hpp:434-444, 446-456. *)
Fixpoint reported_loop (core : option (list (m_dist m))) (fuel i : nat) (f : forest m) (out : progress)
  : res (forest m * progress) :=
  if 1 <? n_components m f then
    match fuel with
    | 0 => Fuel
    | S fuel' =>
        let out := mk_progress (component_counts out ++ [n_components m f]) (counter out + n_components m f) in
        f' <- (if n_components m f =? 2
               then dual_component_step_sequential m samples n_features tree order_components core i f
               else step_sequential m samples n_features tree order_components order_edges core i f) ;;
        reported_loop core fuel' (S i) f' out
    end
  else Ok (f, out).

(** [make_tree] with its output. BoruvkasAlgorithm.hpp:420-460. *)
Definition reported_make_tree (fuel k_nearest_neighbors : nat) : res (list (edge m) * progress) :=
  let n_samples := length samples / n_features in
  f <- make_forest m n_samples ;;
  core <- (if 1 <? k_nearest_neighbors
           then c <- make_static_core_distances m samples n_features tree n_samples k_nearest_neighbors ;; Ok (Some c)
           else Ok None) ;;
  '(f', out) <- reported_loop core fuel 0 f (mk_progress [] 0) ;;
  Ok (f_mst m f', out).

(** What the component trees of [make_tree_2] are given, see [step_dual_tree_sequential].
    BoruvkasAlgorithm.hpp:474-492. *)
Context (p : pruning (m_dist m)) (tol : Z) (policy : list bool -> list nat -> nat -> aabb -> nat) (lowest max : Z).
Context (center : segment -> Z) (right_first : nat -> nat -> position -> position -> bool).

(** The [while] loop of [make_tree_2] with its output. BoruvkasAlgorithm.hpp:577-582. *)
Fixpoint reported_loop_2 (k_nearest_neighbors fuel i : nat) (f : forest m) (out : progress) : res (forest m * progress) :=
  if 1 <? n_components m f then
    match fuel with
    | 0 => Fuel
    | S fuel' =>
        let out := mk_progress (component_counts out ++ [n_components m f]) (counter out + n_components m f) in
        f' <- step_dual_tree_sequential m p samples n_features tree order_components order_edges tol policy lowest max center
                right_first k_nearest_neighbors i f ;;
        reported_loop_2 k_nearest_neighbors fuel' (S i) f' out
    end
  else Ok (f, out).

(** [make_tree_2] with its output. BoruvkasAlgorithm.hpp:566-585. *)
Definition reported_make_tree_2 (fuel k_nearest_neighbors : nat) : res (list (edge m) * progress) :=
  let n_samples := length samples / n_features in
  f <- make_forest m n_samples ;;
  _ <- make_static_core_distances m samples n_features tree n_samples k_nearest_neighbors ;;
  '(f', out) <- reported_loop_2 k_nearest_neighbors fuel 0 f (mk_progress [] 0) ;;
  Ok (f_mst m f', out).
End Rounds.
