(** Model of helpers of include/ffcl/common/Utils.hpp. *)
From Coq Require Import List Arith ZArith Bool.
From Verif Require Import Base SortingModel MatrixModel.
Import ListNotations.
Local Open Scope nat_scope.

(** [permutation_from_indices]; [zero] is a default value. /repo/include/ffcl/common/Utils.hpp:573-584. *)
Definition permutation_from_indices {A} (zero : A) (indices : list nat) (input : list A) : res (list A) :=
  if negb (length input =? length indices) then Throw
  else
    for_loop (length indices) 0 (fun i swapped =>
      j <- rd indices i ;;
      v <- rd input j ;;
      wr swapped i v) (repeat zero (length input)).

(** [remap_ranges_from_indices]; dividing by zero is undefined. Utils.hpp:586-610. *)
Definition remap_ranges_from_indices {A} (indices : list nat) (flattened_matrix : list A) (n_features : nat) : res (list A) :=
  n_samples <- get_n_samples flattened_matrix n_features ;;
  if negb (n_samples =? length indices) then Throw
  else
    for_loop (length indices) 0 (fun i swapped =>
      j <- rd indices i ;;
      if negb (j =? i) then
        r <- slice flattened_matrix (j * n_features) (j * n_features + n_features) ;;
        Ok (splice swapped (i * n_features) (i * n_features + n_features) r)
      else Ok swapped) flattened_matrix.

(** [are_containers_equal] on two ranges; integers with [tol = 0], floating point numbers as units of a quantum.
    Utils.hpp:504-527. *)
Fixpoint ranges_equal (tol : Z) (left_data right_data : list Z) : res bool :=
  match left_data with
  | [] => Ok true
  | x :: left_data =>
    match right_data with
    | [] => UB
    | y :: right_data => if (tol <? Z.abs (x - y))%Z then Ok false else ranges_equal tol left_data right_data
    end
  end.

(** [are_containers_equal] on two containers. Utils.hpp:529-539. *)
Definition containers_equal (tol : Z) (left_data right_data : list Z) : res bool :=
  if negb (length left_data =? length right_data) then Ok false else ranges_equal tol left_data right_data.

(** [count_matches]. Utils.hpp:541-553. *)
Fixpoint count_matches_from (count : nat) (left_data right_data : list Z) : res nat :=
  match left_data with
  | [] => Ok count
  | x :: left_data =>
    match right_data with
    | [] => UB
    | y :: right_data => count_matches_from (if (x =? y)%Z then S count else count) left_data right_data
    end
  end.
Definition count_matches (left_data right_data : list Z) : res nat := count_matches_from 0 left_data right_data.

(** [count_matches_for_value]. Utils.hpp:555-571. *)
Fixpoint count_matches_for_value_from (value : Z) (count : nat) (left_data right_data : list Z) : res nat :=
  match left_data with
  | [] => Ok count
  | x :: left_data =>
    match right_data with
    | [] => UB
    | y :: right_data => count_matches_for_value_from value (if (y =? value)%Z && (x =? y)%Z then S count else count) left_data right_data
    end
  end.
Definition count_matches_for_value (value : Z) (left_data right_data : list Z) : res nat := count_matches_for_value_from value 0 left_data right_data.

(** [is_element_in] and [is_element_not_in]. Utils.hpp:624-640. *)
Definition find_position (data : list Z) (element : Z) : nat :=
  (fix find i data := match data with [] => i | x :: data => if (x =? element)%Z then i else find (S i) data end) 0 data.
Definition is_element_in (data : list Z) (element : Z) : bool := negb (find_position data element =? length data).
Definition is_element_not_in (data : list Z) (element : Z) : bool := find_position data element =? length data.
