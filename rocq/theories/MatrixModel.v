(** Model of include/ffcl/common/math/linear_algebra/Transpose.hpp and include/ffcl/datastruct/matrix/*.hpp. *)
From Coq Require Import List Arith ZArith Bool.
From Verif Require Import Base SortingModel BufferModel SearchModel.
Import ListNotations.

(** [get_n_samples]; dividing by zero is undefined. The [assert] on the remainder is left out.
    /repo/include/ffcl/common/Utils.hpp:612-622. *)
Definition get_n_samples {A} (data : list A) (n_features : nat) : res nat :=
  if n_features =? 0 then UB else Ok (length data / n_features).

Section Transpose.
Context {A : Type} (zero : A).

(** One assignment [transposed[j * n_samples + i] = samples[i * n_features + j]].
    /repo/include/ffcl/common/math/linear_algebra/Transpose.hpp:30-31 and 60. *)
Definition transpose_cell (samples : list A) (n_samples n_features i j : nat) (transposed : list A) : res (list A) :=
  v <- rd samples (i * n_features + j) ;;
  wr transposed (j * n_samples + i) v.

(** [transpose_sequential]. Transpose.hpp:18-36. *)
Definition transpose_sequential (samples : list A) (n_features : nat) : res (list A * nat * nat) :=
  n_samples <- get_n_samples samples n_features ;;
  transposed <-
    for_loop n_samples 0 (fun sample_index =>
      for_loop n_features 0 (fun feature_index =>
        transpose_cell samples n_samples n_features sample_index feature_index)) (repeat zero (n_samples * n_features)) ;;
  Ok (transposed, n_features, n_samples).

(** [block_size]. Transpose.hpp:50. *)
Definition block_size : nat := 64.

(** The values of [x] in [for (x = 0; x < n; x += block_size)]. Transpose.hpp:55-56. *)
Definition block_starts (n : nat) : list nat := map (fun k => k * block_size) (seq 0 ((n + (block_size - 1)) / block_size)).

(** The values of [i] in [for (i = start; i < start + block_size && i < n; ++i)]. Transpose.hpp:58-59. *)
Definition in_block (start n : nat) : list nat := seq start (Nat.min (start + block_size) n - start).

(** All assignments, in the order of the loops. Transpose.hpp:55-64. *)
Definition block_cells (n_samples n_features : nat) : list (nat * nat) :=
  flat_map (fun sample_index =>
    flat_map (fun feature_index =>
      flat_map (fun i => map (fun j => (i, j)) (in_block feature_index n_features)) (in_block sample_index n_samples))
      (block_starts n_features)) (block_starts n_samples).

(** [transpose_parallel_openmp]: [schedule] is the order in which the assignments of all threads take effect.
    Transpose.hpp:38-67. *)
Definition transpose_parallel (schedule : list (nat * nat) -> list (nat * nat)) (samples : list A) (n_features : nat)
  : res (list A * nat * nat) :=
  n_samples <- get_n_samples samples n_features ;;
  transposed <-
    for_each (schedule (block_cells n_samples n_features)) (fun '(i, j) => transpose_cell samples n_samples n_features i j)
      (repeat zero (n_samples * n_features)) ;;
  Ok (transposed, n_features, n_samples).
End Transpose.

Section Pairwise.
(** [zero] is [static_cast<ValueType>(0)]. Simplified: distances are stored without conversion to the value type. *)
Context (m : metric) (zero : m_dist m).

(** The members of the class. /repo/include/ffcl/datastruct/matrix/PairwiseDistanceMatrix.hpp:61-64. *)
Record pairwise_matrix := mk_pairwise { pm_n_samples : nat; pm_data : list (m_dist m) }.

(** [flat_index]. /repo/include/ffcl/datastruct/matrix/PairwiseDistanceMatrix.hpp:90, 108 and 131. *)
Definition flat_index (row_index : nat) : nat := row_index * (row_index - 1) / 2.

(** One assignment. PairwiseDistanceMatrix.hpp:111-115 and 134-138. *)
Definition pairwise_cell (samples : list Z) (n_features row_index column_index : nat) (data : list (m_dist m))
  : res (list (m_dist m)) :=
  left <- sample_at samples n_features row_index ;;
  right <- sample_at samples n_features column_index ;;
  d <- m_auto m left right ;;
  wr data (flat_index row_index + column_index) d.

(** [compute_pairwise_distances_sequential] and the constructor. PairwiseDistanceMatrix.hpp:67-79 and 121-160. *)
Definition pairwise_sequential (samples : list Z) (n_features : nat) : res pairwise_matrix :=
  n_samples <- get_n_samples samples n_features ;;
  data <-
    for_loop (n_samples - 1) 1 (fun row_index =>
      for_loop row_index 0 (fun column_index => pairwise_cell samples n_features row_index column_index))
      (repeat zero (n_samples * (n_samples - 1) / 2)) ;;
  Ok (mk_pairwise n_samples data).

(** The iterations of the two loops. PairwiseDistanceMatrix.hpp:107-110. *)
Definition pairwise_cells (n_samples : nat) : list (nat * nat) :=
  flat_map (fun row_index => map (fun column_index => (row_index, column_index)) (seq 0 row_index)) (seq 1 (n_samples - 1)).

(** [compute_pairwise_distances_parallel]: [schedule] is the order in which the assignments take effect.
    PairwiseDistanceMatrix.hpp:95-119. *)
Definition pairwise_parallel (schedule : list (nat * nat) -> list (nat * nat)) (samples : list Z) (n_features : nat)
  : res pairwise_matrix :=
  n_samples <- get_n_samples samples n_features ;;
  data <-
    for_each (schedule (pairwise_cells n_samples))
      (fun '(row_index, column_index) => pairwise_cell samples n_features row_index column_index)
      (repeat zero (n_samples * (n_samples - 1) / 2)) ;;
  Ok (mk_pairwise n_samples data).

(** [operator()]. PairwiseDistanceMatrix.hpp:81-93. *)
Definition pairwise_at (p : pairwise_matrix) (row_index column_index : nat) : res (m_dist m) :=
  if row_index =? column_index then Ok zero
  else
    let '(row_index, column_index) :=
      if row_index <? column_index then (column_index, row_index) else (row_index, column_index) in
    rd (pm_data p) (flat_index row_index + column_index).

(** [n_rows], [n_columns]. PairwiseDistanceMatrix.hpp:39-45. *)
Definition pairwise_rows (p : pairwise_matrix) : nat := pm_n_samples p.

(** [PairwiseDistanceMatrixDynamic::operator()] and [n_rows].
    /repo/include/ffcl/datastruct/matrix/PairwiseDistanceMatrixDynamic.hpp:65-81. *)
Definition dynamic_at (samples : list Z) (n_features row_index column_index : nat) : res (m_dist m) :=
  left <- sample_at samples n_features row_index ;;
  right <- sample_at samples n_features column_index ;;
  m_auto m left right.
Definition dynamic_rows (samples : list Z) (n_features : nat) : res nat := get_n_samples samples n_features.
End Pairwise.
