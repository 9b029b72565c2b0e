(** Model of include/ffcl/common/algorithms/Sorting.hpp and of the median split in
    include/ffcl/datastruct/tree/kdtree/KDTreeAlgorithms.hpp.

    An iterator range over sample indices is a list of sample indices; a function called on a sub-range gets the
    sub-list and its result is written back ([on_range]), so reading outside of the range a function was given is
    [UB] even when the underlying array is longer.  Feature values are integers: for C++ integers literally, for
    floating point numbers as multiples of a common quantum. *)
From Coq Require Import List Arith ZArith Bool.
From Verif Require Import Base.
Import ListNotations.

(** [common::equality]: exact on integers ([tol = 0]), within machine epsilon on floating point numbers.
    /repo/include/ffcl/common/Utils.hpp:411-423.
    Simplified: the rounding of the subtraction is not modelled. *)
Definition equality (tol a b : Z) : bool := (Z.abs (b - a) <=? tol)%Z.

(** [common::inequality]. /repo/include/ffcl/common/Utils.hpp:425-428. *)
Definition inequality (tol a b : Z) : bool := negb (equality tol a b).

(** [samples_range_first[index * n_features + feature_index]], the access used throughout the library.
    E.g. /repo/include/ffcl/common/algorithms/Sorting.hpp:32. *)
Definition feature (samples : list Z) (n_features index feature_index : nat) : res Z :=
  rd samples (index * n_features + feature_index).

(** Sub-range [[first, last)] of an index array, [UB] when it does not lie inside the array. *)
Definition slice {A} (a : list A) (first last : nat) : res (list A) :=
  if (first <=? last) && (last <=? length a) then Ok (firstn (last - first) (skipn first a)) else UB.

(** Writing a range back in place. *)
Definition splice {A} (a : list A) (first last : nat) (s : list A) : list A :=
  firstn first a ++ s ++ skipn last a.

Section Sorting.
Context (tol : Z) (samples : list Z) (n_features feature_index : nat).

(** [samples_range_first[indices_range_first[pos] * n_features + feature_index]].
    /repo/include/ffcl/common/algorithms/Sorting.hpp:32 and others. *)
Definition value_at (a : list nat) (pos : nat) : res Z :=
  index <- rd a pos ;; feature samples n_features index feature_index.

(** [median_index_of_three]. /repo/include/ffcl/common/algorithms/Sorting.hpp:13-45. *)
Definition median_index_of_three (a : list nat) : res nat :=
  let n := length a in
  if n <? 3 then Ok 0
  else
    let left_index := 0 in
    let right_index := n - 1 in
    let median_index := right_index / 2 in
    vm <- value_at a median_index ;;
    vl <- value_at a left_index ;;
    let '(median_index, left_index) :=
      if (vm <? vl)%Z then (left_index, median_index) else (median_index, left_index) in
    vr <- value_at a right_index ;;
    vl <- value_at a left_index ;;
    let '(right_index, left_index) :=
      if (vr <? vl)%Z then (left_index, right_index) else (right_index, left_index) in
    vm <- value_at a median_index ;;
    vr <- value_at a right_index ;;
    let '(median_index, right_index) :=
      if (vm <? vr)%Z then (right_index, median_index) else (median_index, right_index) in
    Ok right_index.

(** [do { ++left_index; } while (value[left_index] < pivot_value)]; [next] is [left_index + 1].
    /repo/include/ffcl/common/algorithms/Sorting.hpp:75-77. *)
Fixpoint scan_left (fuel : nat) (pivot_value : Z) (a : list nat) (next : nat) : res nat :=
  match fuel with
  | 0 => Fuel
  | S fuel' =>
      v <- value_at a next ;;
      if (v <? pivot_value)%Z then scan_left fuel' pivot_value a (S next) else Ok next
  end.

(** [do { --right_index; } while (pivot_value < value[right_index])]; decrementing below 0 is [UB].
    /repo/include/ffcl/common/algorithms/Sorting.hpp:79-81. *)
Fixpoint scan_right (pivot_value : Z) (a : list nat) (right_index : nat) : res nat :=
  match right_index with
  | 0 => UB
  | S right' =>
      v <- value_at a right' ;;
      if (pivot_value <? v)%Z then scan_right pivot_value a right' else Ok right'
  end.

(** The [while (true)] loop. [next] is [left_index + 1], so [left_index = -1] is [next = 0].
    /repo/include/ffcl/common/algorithms/Sorting.hpp:74-149. *)
Fixpoint partition_loop (fuel : nat) (pivot_value : Z) (a : list nat) (next right_index pivot_index : nat)
  : res (list nat * nat) :=
  match fuel with
  | 0 => Fuel
  | S fuel' =>
      left_index <- scan_left (S (length a)) pivot_value a next ;;
      right_index <- scan_right pivot_value a right_index ;;
      if right_index <=? left_index then Ok (a, pivot_index)
      else
        vr <- value_at a right_index ;;
        if inequality tol pivot_value vr then
          a' <- swap a left_index right_index ;;
          if pivot_index =? left_index
          then partition_loop fuel' pivot_value a' (S left_index) (S right_index) right_index
          else partition_loop fuel' pivot_value a' (S left_index) right_index pivot_index
        else
          vl <- value_at a left_index ;;
          '(a', pivot_index') <-
            (if equality tol vl pivot_value then
               if negb (left_index =? pivot_index)
               then a' <- swap a left_index pivot_index ;; Ok (a', left_index)
               else Ok (a, pivot_index)
             else a' <- swap a left_index pivot_index ;; Ok (a', left_index)) ;;
          partition_loop fuel' pivot_value a' left_index right_index pivot_index'
  end.

(** [partition_around_pivot_index]: the rearranged range and the new pivot position.
    /repo/include/ffcl/common/algorithms/Sorting.hpp:47-151.
    The [assert(n_samples)] is not modelled (release build): an empty range reads out of bounds. *)
Definition partition_around_pivot_index (a : list nat) (pivot_index : nat) : res (list nat * nat) :=
  let n_samples := length a in
  if n_samples =? 1 then Ok (a, pivot_index)
  else
    pivot_value <- value_at a pivot_index ;;
    partition_loop (S n_samples) pivot_value a 0 n_samples pivot_index.

(** The loop of [quickselect].  /repo/include/ffcl/common/algorithms/Sorting.hpp:164-194. *)
Fixpoint quickselect_loop (fuel : nat) (a : list nat) (left_index right_index kth_smallest : nat)
  : res (list nat * (nat * nat)) :=
  match fuel with
  | 0 => Fuel
  | S fuel' =>
      if left_index =? right_index then Ok (a, (left_index, S right_index))
      else
        s <- slice a left_index (S right_index) ;;
        pivot_index <- median_index_of_three s ;;
        '(s', p) <- partition_around_pivot_index s pivot_index ;;
        let a' := splice a left_index (S right_index) s' in
        let pivot_index := left_index + p in
        if kth_smallest =? pivot_index then Ok (a', (pivot_index, S pivot_index))
        else if kth_smallest <? pivot_index
        then quickselect_loop fuel' a' left_index (pivot_index - 1) kth_smallest
        else quickselect_loop fuel' a' (S pivot_index) right_index kth_smallest
  end.

(** [quickselect]: the rearranged range and the returned pair of positions.
    /repo/include/ffcl/common/algorithms/Sorting.hpp:153-195.
    On an empty range [size - 1] wraps around and the first access is out of range. *)
Definition quickselect (a : list nat) (kth_smallest : nat) : res (list nat * (nat * nat)) :=
  match length a with
  | 0 => UB
  | S m => quickselect_loop (S (length a)) a 0 m kth_smallest
  end.

(** [quicksort]: the sorted range and the returned pivot position.
    /repo/include/ffcl/common/algorithms/Sorting.hpp:197-255. *)
Fixpoint quicksort_fuel (fuel : nat) (a : list nat) (initial_pivot_index : nat) : res (list nat * nat) :=
  match fuel with
  | 0 => Fuel
  | S fuel' =>
      if length a <? 2 then Ok (a, initial_pivot_index)
      else
        '(a1, new_pivot_index) <- partition_around_pivot_index a initial_pivot_index ;;
        left <- slice a1 0 new_pivot_index ;;
        right <- slice a1 (S new_pivot_index) (length a1) ;;
        pivot_left <- median_index_of_three left ;;
        pivot_right <- median_index_of_three right ;;
        '(left', _) <- quicksort_fuel fuel' left pivot_left ;;
        '(right', _) <- quicksort_fuel fuel' right pivot_right ;;
        Ok (splice (splice a1 0 new_pivot_index left') (S new_pivot_index) (length a1) right', new_pivot_index)
  end.

Definition quicksort (a : list nat) (initial_pivot_index : nat) : res (list nat * nat) :=
  quicksort_fuel (S (length a)) a initial_pivot_index.

(** The loop of [shift_median_to_leftmost_equal_value]; [m] is [std::next(left_neighbor_it)] so that stepping
    before the beginning is [m = 0].
    /repo/include/ffcl/datastruct/tree/kdtree/KDTreeAlgorithms.hpp:208-211.
    Simplified: forming the iterator before [begin()] is not reported as undefined behaviour. *)
Fixpoint shift_loop (cut_value : Z) (a : list nat) (m : nat) : res nat :=
  match m with
  | 0 => Ok 0
  | S neighbor =>
      v <- value_at a neighbor ;;
      if equality tol v cut_value then shift_loop cut_value a neighbor else Ok m
  end.

(** [shift_median_to_leftmost_equal_value] on ranges given as position pairs; all ranges share [a].
    /repo/include/ffcl/datastruct/tree/kdtree/KDTreeAlgorithms.hpp:157-223. *)
Definition shift_median_to_leftmost_equal_value (a : list nat) (median_index : nat)
  (left median right : nat * nat) : res (nat * (nat * nat) * (nat * nat) * (nat * nat)) :=
  if fst left =? snd left then Ok (median_index, left, median, right)
  else
    cut_value <- value_at a (fst median) ;;
    m <- shift_loop cut_value a (snd left) ;;
    Ok (m - fst left, (fst left, m), (m, S m), (S m, snd right)).

(** [quickselect_median]: rearranged range, median position, left, median and right ranges.
    /repo/include/ffcl/datastruct/tree/kdtree/KDTreeAlgorithms.hpp:225-274. *)
Definition quickselect_median (a : list nat)
  : res (list nat * (nat * (nat * nat) * (nat * nat) * (nat * nat))) :=
  let n := length a in
  let median_index := (n - 1) / 2 in
  '(a', median_range) <- quickselect a median_index ;;
  r <- shift_median_to_leftmost_equal_value a' median_index
         (0, median_index) median_range (S median_index, n) ;;
  Ok (a', r).

End Sorting.
