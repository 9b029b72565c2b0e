(** Model of include/ffcl/common/math/heuristics/Distances.hpp (the functions not already in BoundsModel and BufferModel)
    and of include/ffcl/common/math/linear_algebra/Translation.hpp. *)
From Coq Require Import List Arith ZArith Bool.
From Verif Require Import Base BoundsModel BufferModel.
Import ListNotations.

(** The inner loop body. /repo/include/ffcl/common/math/heuristics/Distances.hpp:223-232.
    Simplified: costs are natural numbers, the cost type does not overflow. *)
Definition levenshtein_cell (left right : list Z) (previous : list nat) (feature_index_left feature_index_right : nat)
  (current : list nat) : res (list nat) :=
  above <- rd previous (feature_index_right + 1) ;;
  let deletion_cost := above + 1 in
  before <- rd current feature_index_right ;;
  let insertion_cost := before + 1 in
  l <- rd left feature_index_left ;;
  r <- rd right feature_index_right ;;
  diagonal <- rd previous feature_index_right ;;
  let substitution_cost := if (l =? r)%Z then diagonal else diagonal + 1 in
  wr current (feature_index_right + 1) (Nat.min (Nat.min deletion_cost insertion_cost) substitution_cost).

(** The outer loop body; the buffers are swapped at its end. Distances.hpp:220-234. *)
Definition levenshtein_row (left right : list Z) (feature_index_left : nat) (buffers : list nat * list nat)
  : res (list nat * list nat) :=
  let '(previous, current) := buffers in
  current <- wr current 0 (feature_index_left + 1) ;;
  current <- for_loop (length right) 0 (levenshtein_cell left right previous feature_index_left) current ;;
  Ok (current, previous).

(** [levenshtein_distance]. Distances.hpp:195-237. *)
Definition levenshtein_distance (left right : list Z) : res nat :=
  ' (previous, _) <-
    for_loop (length left) 0 (levenshtein_row left right) (seq 0 (length right + 1), repeat 0 (length right + 1)) ;;
  rd previous (length right).

(** [std::inner_product]; the left range drives the loop. Distances.hpp:177-190. *)
Fixpoint inner_product (l r : list Z) : res Z :=
  match l, r with
  | [], _ => Ok 0%Z
  | _ :: _, [] => UB
  | x :: l', y :: r' => d <- inner_product l' r' ;; Ok (x * y + d)%Z
  end.

(** [cosine_similarity] in exact arithmetic. [None] is infinity, [Some (dot, m)] stands for [dot / sqrt m].
    Simplified: [std::sqrt] is left out; the test of [division] compares squares, [tol] being the machine epsilon.
    Distances.hpp:160-193, /repo/include/ffcl/common/Utils.hpp:411-417 and 430-440. *)
Definition cosine_similarity (tol : Z) (l r : list Z) : res (option (Z * Z)) :=
  dot_product <- inner_product l r ;;
  magnitude_1 <- inner_product l l ;;
  magnitude_2 <- inner_product r r ;;
  let m := (magnitude_1 * magnitude_2)%Z in
  Ok (if (m <=? tol * tol)%Z then None else Some (dot_product, m)).

(** [manhattan_distance_from_origin]. Distances.hpp:78-92. *)
Definition manhattan_distance_from_origin (l : list Z) : Z := fold_left (fun acc x => acc + Z.abs x)%Z l 0%Z.

(** [squared_euclidean_distance_from_origin]. Distances.hpp:17-31. *)
Definition squared_euclidean_distance_from_origin (l : list Z) : Z := fold_left (fun acc x => acc + x * x)%Z l 0%Z.

(** [translate_right_range_to_origin]: the right range drives the loop.
    /repo/include/ffcl/common/math/linear_algebra/Translation.hpp:10-30. *)
Fixpoint translate_right_range_to_origin (l r : list Z) : res (list Z) :=
  match r, l with
  | [], _ => Ok []
  | _ :: _, [] => UB
  | y :: r', x :: l' => t <- translate_right_range_to_origin l' r' ;; Ok ((y - x)%Z :: t)
  end.
