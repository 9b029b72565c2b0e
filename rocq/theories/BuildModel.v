(** Model of include/ffcl/kmedoids/PAMBuild.hpp and of the functions of PAMUtils.hpp that choose a first medoid and copy
    medoids. *)
From Coq Require Import List Arith ZArith Bool.
From Verif Require Import Base SortingModel BufferModel SearchModel MatrixModel KMeansModel RandomModel KMedoidsModel.
Import ListNotations.
Local Open Scope nat_scope.

(** [a + b] where [None] is infinity. /repo/include/ffcl/kmedoids/PAMBuild.hpp:75. *)
Definition opt_add (a b : option Z) : option Z :=
  match a, b with Some x, Some y => Some (x + y)%Z | _, _ => None end.

Section Build.
(** [infinity] is [common::infinity<DataType>()]: [None] for floating point numbers, [Some 0] for integers
    (/repo/include/ffcl/common/Utils.hpp:393-396); [numeric_max] is [std::numeric_limits<DataType>::max()].
    Simplified: floating point sums and differences are exact. *)
Context (infinity : option Z) (numeric_max : Z) (src : source Z).

(** The sum of the distances from a candidate to all samples.
    /repo/include/ffcl/kmedoids/PAMUtils.hpp:724-733 and, from a matrix, 757-762. *)
Definition candidate_loss (medoid_candidate_idx : nat) : res Z :=
  for_loop (rows src) 0 (fun other_sample_index loss_acc =>
    d <- dist_at src medoid_candidate_idx other_sample_index ;; Ok (loss_acc + d)%Z) 0%Z.

(** [first_medoid_td_index_pair]. /repo/include/ffcl/kmedoids/PAMUtils.hpp:710-743 and 745-772. *)
Definition first_medoid_td_index_pair : res (option Z * nat) :=
  for_loop (rows src) 0 (fun medoid_candidate_idx '(total_deviation, selected_medoid) =>
    loss_acc <- candidate_loss medoid_candidate_idx ;;
    Ok (if opt_lt (Some loss_acc) total_deviation then (Some loss_acc, medoid_candidate_idx)
        else (total_deviation, selected_medoid))) (infinity, 0).

(** [is_element_not_in] on indices. /repo/include/ffcl/common/Utils.hpp:633-640. *)
Definition not_in (medoids : list nat) (index : nat) : bool := negb (existsb (Nat.eqb index) medoids).

(** What a candidate is compared with. /repo/include/ffcl/kmedoids/PAMBuild.hpp:51-67. *)
Definition candidate_gain (medoids_indices : list nat) (nearest : list Z) (medoid_candidate_idx : nat) : res Z :=
  for_loop (rows src) 0 (fun other_sample_idx loss_accumulator =>
    if negb (medoid_candidate_idx =? other_sample_idx) && not_in medoids_indices other_sample_idx then
      candidate_to_other_distance <- dist_at src medoid_candidate_idx other_sample_idx ;;
      near <- rd nearest other_sample_idx ;;
      Ok (if (candidate_to_other_distance <? near)%Z then (loss_accumulator - (candidate_to_other_distance - near))%Z
          else loss_accumulator)
    else Ok loss_accumulator) 0%Z.

(** The choice of one more medoid. /repo/include/ffcl/kmedoids/PAMBuild.hpp:43-73. *)
Definition select_medoid (medoids_indices : list nat) (nearest : list Z) : res (option Z * nat) :=
  for_loop (rows src) 0 (fun medoid_candidate_idx '(selected_deviation_candidate, selected_medoid_index) =>
    if not_in medoids_indices medoid_candidate_idx then
      loss_accumulator <- candidate_gain medoids_indices nearest medoid_candidate_idx ;;
      Ok (if opt_lt (Some loss_accumulator) selected_deviation_candidate then (Some loss_accumulator, medoid_candidate_idx)
          else (selected_deviation_candidate, selected_medoid_index))
    else Ok (selected_deviation_candidate, selected_medoid_index)) (infinity, 0).

(** [pam::build].  It names the functions of [pam::utils] without their namespace: it compiles for a user who made them
    visible.  The overload that takes a matrix (lines 84-94) does not compile, [std::get] of a matrix does not exist.
    /repo/include/ffcl/kmedoids/PAMBuild.hpp:12-82. *)
Definition pam_build (n_medoids : nat) : res (option Z * list nat * list Z) :=
  ' (total_deviation, medoid_index_first) <- first_medoid_td_index_pair ;;
  nearest <- nth_distances numeric_max src [medoid_index_first] 1 ;;
  for_loop (n_medoids - 1) 1 (fun _ '(total_deviation, medoids_indices, nearest) =>
    ' (selected_deviation_candidate, selected_medoid_index) <- select_medoid medoids_indices nearest ;;
    let medoids_indices := medoids_indices ++ [selected_medoid_index] in
    nearest <- nth_distances numeric_max src medoids_indices 1 ;;
    Ok (opt_add total_deviation selected_deviation_candidate, medoids_indices, nearest))
    (total_deviation, [medoid_index_first], nearest).
End Build.

(** [medoids_to_centroids]. /repo/include/ffcl/kmedoids/PAMUtils.hpp:774-793. *)
Definition medoids_to_centroids (samples : list Z) (n_features : nat) (medoids : list nat) : res (list Z) :=
  for_loop (length medoids) 0 (fun k clusters =>
    data_index <- rd medoids k ;;
    s <- sample_at samples n_features data_index ;;
    Ok (splice clusters (k * n_features) (k * n_features + n_features) s)) (repeat 0%Z (length medoids * n_features)).
