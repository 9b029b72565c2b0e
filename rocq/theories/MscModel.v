(** Model of include/ffcl/kmedoids/FasterMSC.hpp and of the parts of PAMUtils.hpp that only it uses.  Distances are exact
    rational numbers; [epsilon] is [std::numeric_limits<DataType>::epsilon()]. *)
From Coq Require Import List Arith QArith Qabs Bool.
From Verif Require Import Base SortingModel BufferModel KMeansModel RandomModel KMedoidsModel.
Import ListNotations.
Local Open Scope nat_scope.

Section FasterMSC.
Context (epsilon numeric_max : Q) (src : source Q).

(** [common::equality] of floating point numbers. /repo/include/ffcl/common/Utils.hpp:415-416. *)
Definition equality (a b : Q) : bool := Qle_bool (Qabs (b - a)) epsilon.

(** [common::division] with its default return value. Utils.hpp:430-440. *)
Definition division (numerator denominator : Q) : Q := if equality denominator 0 then 0%Q else (numerator / denominator)%Q.

(** [samples_to_third_nearest_medoid_indices]. /repo/include/ffcl/kmedoids/PAMUtils.hpp:184-297. *)
Definition samples_to_third_nearest_medoid_indices (medoids : list nat) : res (list nat) :=
  match medoids with
  | [] => Throw
  | _ =>
    fill 0 (rows src) (fun sample_index =>
      ' (_, _, _, _, _, third_min_index) <-
        for_loop (length medoids) 0
          (fun idx '(first_min_distance, second_min_distance, third_min_distance, first_min_index, second_min_index, third_min_index) =>
          third_nearest_candidate <- medoid_distance src medoids idx sample_index ;;
          Ok (if Qlt_bool third_nearest_candidate first_min_distance then
                (third_nearest_candidate, first_min_distance, second_min_distance, idx, first_min_index, second_min_index)
              else if Qlt_bool third_nearest_candidate second_min_distance &&
                      negb (equality third_nearest_candidate first_min_distance) then
                (first_min_distance, third_nearest_candidate, second_min_distance, first_min_index, idx, second_min_index)
              else if Qlt_bool third_nearest_candidate third_min_distance &&
                      negb (equality third_nearest_candidate first_min_distance) &&
                      negb (equality third_nearest_candidate second_min_distance) then
                (first_min_distance, second_min_distance, third_nearest_candidate, first_min_index, second_min_index, idx)
              else (first_min_distance, second_min_distance, third_min_distance, first_min_index, second_min_index, third_min_index)))
          (numeric_max, numeric_max, numeric_max, 0, 0, 0) ;;
      Ok third_min_index)
  end.

(** [samples_to_third_nearest_medoid_distances]. PAMUtils.hpp:504-600. *)
Definition samples_to_third_nearest_medoid_distances (medoids : list nat) : res (list Q) :=
  match medoids with
  | [] => Throw
  | _ =>
    fill 0%Q (rows src) (fun sample_index =>
      ' (_, _, third_min_distance) <-
        for_each medoids
          (fun medoid '(first_min_distance, second_min_distance, third_min_distance) =>
          third_nearest_candidate <- dist_at src medoid sample_index ;;
          Ok (if Qlt_bool third_nearest_candidate first_min_distance then
                (third_nearest_candidate, first_min_distance, second_min_distance)
              else if Qlt_bool third_nearest_candidate second_min_distance &&
                      negb (equality third_nearest_candidate first_min_distance) then
                (first_min_distance, third_nearest_candidate, second_min_distance)
              else if Qlt_bool third_nearest_candidate third_min_distance &&
                      negb (equality third_nearest_candidate first_min_distance) &&
                      negb (equality third_nearest_candidate second_min_distance) then
                (first_min_distance, second_min_distance, third_nearest_candidate)
              else (first_min_distance, second_min_distance, third_min_distance)))
          (numeric_max, numeric_max, numeric_max) ;;
      Ok third_min_distance)
  end.

(** [samples_to_nth_nearest_medoid_indices] and [samples_to_nth_nearest_medoid_distances]. PAMUtils.hpp:299-350 and 602-654. *)
Definition msc_indices (medoids : list nat) (nth_closest : nat) : res (list nat) :=
  match nth_nearest (samples_to_nearest_medoid_indices Qlt_bool numeric_max src)
          (samples_to_second_nearest_medoid_indices Qlt_bool equality numeric_max src) medoids nth_closest with
  | Some r => r
  | None => samples_to_third_nearest_medoid_indices medoids
  end.
Definition msc_distances (medoids : list nat) (nth_closest : nat) : res (list Q) :=
  match nth_nearest (samples_to_nearest_medoid_distances Qlt_bool numeric_max src)
          (samples_to_second_nearest_medoid_distances Qlt_bool equality numeric_max src) medoids nth_closest with
  | Some r => r
  | None => samples_to_third_nearest_medoid_distances medoids
  end.

(** [x[i] += v]. FasterMSC.hpp:217-236, 273-277, PAMUtils.hpp:707-710. *)
Definition qadd_at (x : list Q) (i : nat) (v : Q) : res (list Q) := old <- rd x i ;; wr x i (old + v)%Q.

(** [compute_losses_with_silhouette_medoid_removal]. PAMUtils.hpp:677-713. *)
Definition compute_silhouette_losses (nearest second : list nat) (distances second_distances third_distances : list Q)
  (n_medoids : nat) : res (list Q) :=
  for_loop (length nearest) 0 (fun sample_index delta_td_mi =>
    index_1 <- rd nearest sample_index ;;
    index_2 <- rd second sample_index ;;
    distance_1 <- rd distances sample_index ;;
    distance_2 <- rd second_distances sample_index ;;
    distance_3 <- rd third_distances sample_index ;;
    delta_td_mi <- qadd_at delta_td_mi index_1 (division distance_1 distance_2 - division distance_2 distance_3)%Q ;;
    qadd_at delta_td_mi index_2 (division distance_1 distance_2 - division distance_1 distance_3)%Q) (repeat 0%Q n_medoids).

(** The members of [FasterMSC] and its [Buffers]. /repo/include/ffcl/kmedoids/FasterMSC.hpp:78-84, 95-99. *)
Record msc := mk_msc {
  s_medoids : list nat;
  s_nearest : list nat;
  s_second : list nat;
  s_third : list nat;
  s_distances : list Q;
  s_second_distances : list Q;
  s_third_distances : list Q;
  s_losses : list Q;
  s_loss : Q }.

(** Not required when the number of medoids is 2. FasterMSC.hpp:518-533, 545-562. *)
Definition if_more_than_two {A} (medoids : list nat) (v : res (list A)) : res (list A) :=
  if 2 <? length medoids then v else Ok [].

(** The constructors that compute the loss. FasterMSC.hpp:102-140, 508-613. *)
Definition make_msc (medoids : list nat) : res msc :=
  nearest <- msc_indices medoids 1 ;;
  second <- if_more_than_two medoids (msc_indices medoids 2) ;;
  third <- if_more_than_two medoids (msc_indices medoids 3) ;;
  distances <- msc_distances medoids 1 ;;
  second_distances <- msc_distances medoids 2 ;;
  third_distances <- if_more_than_two medoids (msc_distances medoids 3) ;;
  losses <- if_more_than_two medoids
              (compute_silhouette_losses nearest second distances second_distances third_distances (length medoids)) ;;
  Ok (mk_msc medoids nearest second third distances second_distances third_distances losses (fold_left Qplus distances 0%Q)).

(** [total_deviation]. FasterMSC.hpp:142-145. *)
Definition total_deviation (p : msc) : Q := s_loss p.

(** [find_best_swap]. FasterMSC.hpp:180-245. *)
Definition msc_best_swap (p : msc) (medoid_candidate_index : nat) : res (Q * nat) :=
  ' (delta_td_xc, delta_td_mi) <-
    for_loop (rows src) 0 (fun other_sample_index '(delta_td_xc, delta_td_mi) =>
      distance_oc <- dist_at src medoid_candidate_index other_sample_index ;;
      index_1 <- rd (s_nearest p) other_sample_index ;;
      index_2 <- rd (s_second p) other_sample_index ;;
      distance_1 <- rd (s_distances p) other_sample_index ;;
      distance_2 <- rd (s_second_distances p) other_sample_index ;;
      distance_3 <- rd (s_third_distances p) other_sample_index ;;
      if Qlt_bool distance_oc distance_1 then
        let delta_td_xc := (delta_td_xc + (division distance_1 distance_2 - division distance_oc distance_1))%Q in
        delta_td_mi <- qadd_at delta_td_mi index_1
          (division distance_oc distance_1 + division distance_2 distance_3 - division (distance_1 + distance_oc) distance_2)%Q ;;
        delta_td_mi <- qadd_at delta_td_mi index_2 (division distance_1 distance_3 - division distance_1 distance_2)%Q ;;
        Ok (delta_td_xc, delta_td_mi)
      else if Qlt_bool distance_oc distance_2 then
        let delta_td_xc := (delta_td_xc + (division distance_1 distance_2 - division distance_1 distance_oc))%Q in
        delta_td_mi <- qadd_at delta_td_mi index_1
          (division distance_1 distance_oc + division distance_2 distance_3 - division (distance_1 + distance_oc) distance_2)%Q ;;
        delta_td_mi <- qadd_at delta_td_mi index_2 (division distance_1 distance_3 - division distance_1 distance_2)%Q ;;
        Ok (delta_td_xc, delta_td_mi)
      else if Qlt_bool distance_oc distance_3 then
        delta_td_mi <- qadd_at delta_td_mi index_1 (division distance_2 distance_3 - division distance_2 distance_oc)%Q ;;
        delta_td_mi <- qadd_at delta_td_mi index_2 (division distance_1 distance_3 - division distance_1 distance_oc)%Q ;;
        Ok (delta_td_xc, delta_td_mi)
      else Ok (delta_td_xc, delta_td_mi)) (0%Q, s_losses p) ;;
  ' (best_swap_index, best_swap_distance) <- get_max_index_value_pair Qlt_bool delta_td_mi ;;
  Ok (delta_td_xc + best_swap_distance, best_swap_index)%Q.

(** [find_best_swap_k2]; the minimum as in [find_best_swap] of FasterPAM. FasterMSC.hpp:247-284. *)
Definition msc_best_swap_k2 (p : msc) (medoid_candidate_index : nat) : res (Q * nat) :=
  delta_td_mi <-
    for_loop (rows src) 0 (fun other_sample_index delta_td_mi =>
      distance_oc <- dist_at src medoid_candidate_index other_sample_index ;;
      distance_1 <- rd (s_distances p) other_sample_index ;;
      distance_2 <- rd (s_second_distances p) other_sample_index ;;
      delta_td_mi <- qadd_at delta_td_mi 0
        (if Qlt_bool distance_oc distance_2 then division distance_oc distance_2 else division distance_2 distance_oc) ;;
      qadd_at delta_td_mi 1
        (if Qlt_bool distance_oc distance_1 then division distance_oc distance_1 else division distance_1 distance_oc))
      (repeat 0%Q 2) ;;
  ' (best_swap_index, best_swap_distance) <- get_max_index_value_pair (fun x y => Qlt_bool y x) delta_td_mi ;;
  Ok (0 + best_swap_distance, best_swap_index)%Q.

(** The search of a new third nearest medoid: the same lines three times. FasterMSC.hpp:349-368, 385-404 and 427-446. *)
Definition update_third_nearest (medoids : list nat) (best_swap_index other_sample_index : nat) (distance_oc : Q)
  (index_1 index_2 : nat) : res (nat * Q) :=
  for_loop (length medoids) 0 (fun idx '(index_tmp, distance_tmp) =>
    if negb (idx =? index_1) && negb (idx =? best_swap_index) && negb (idx =? index_2) then
      distance_om <- medoid_distance src medoids idx other_sample_index ;;
      Ok (if Qlt_bool distance_om distance_tmp then (idx, distance_om) else (index_tmp, distance_tmp))
    else Ok (index_tmp, distance_tmp)) (best_swap_index, distance_oc).

(** What is stored for a sample: the positions of its three nearest medoids and their distances. FasterMSC.hpp:300-311. *)
Record nearest_three := mk_three { t_1 : nat; t_2 : nat; t_3 : nat; e_1 : Q; e_2 : Q; e_3 : Q }.

(** What one iteration of the loop of [swap_buffers] does to it; [infinity<std::size_t>()] is 0. FasterMSC.hpp:313-448. *)
Definition msc_swap_sample (medoids : list nat) (medoid_candidate_index best_swap_index other_sample_index : nat)
  (s : nearest_three) : res nearest_three :=
  let b := best_swap_index in
  if other_sample_index =? medoid_candidate_index then
    Ok (if negb (t_1 s =? b) then
          if negb (t_2 s =? b) then mk_three b (t_1 s) (t_2 s) 0%Q (e_1 s) (e_2 s)
          else mk_three b (t_1 s) (t_3 s) 0%Q (e_1 s) (e_3 s)
        else mk_three b (t_2 s) (t_3 s) 0%Q (e_2 s) (e_3 s))
  else
    distance_oc <- dist_at src medoid_candidate_index other_sample_index ;;
    if t_1 s =? b then
      if Qlt_bool distance_oc (e_2 s) then Ok (mk_three b (t_2 s) (t_3 s) distance_oc (e_2 s) (e_3 s))
      else if Qlt_bool distance_oc (e_3 s) || (t_3 s =? 0) then Ok (mk_three (t_2 s) b (t_3 s) (e_2 s) distance_oc (e_3 s))
      else
        ' (index_tmp, distance_tmp) <- update_third_nearest medoids b other_sample_index distance_oc (t_2 s) (t_3 s) ;;
        Ok (mk_three (t_2 s) (t_3 s) index_tmp (e_2 s) (e_3 s) distance_tmp)
    else if t_2 s =? b then
      if Qlt_bool distance_oc (e_1 s) then Ok (mk_three b (t_1 s) (t_3 s) distance_oc (e_1 s) (e_3 s))
      else if Qlt_bool distance_oc (e_3 s) || (t_3 s =? 0) then Ok (mk_three (t_1 s) b (t_3 s) (e_1 s) distance_oc (e_3 s))
      else
        ' (index_tmp, distance_tmp) <- update_third_nearest medoids b other_sample_index distance_oc (t_1 s) (t_3 s) ;;
        Ok (mk_three (t_1 s) (t_3 s) index_tmp (e_1 s) (e_3 s) distance_tmp)
    else
      if Qlt_bool distance_oc (e_1 s) then Ok (mk_three b (t_1 s) (t_2 s) distance_oc (e_1 s) (e_2 s))
      else if Qlt_bool distance_oc (e_2 s) then Ok (mk_three (t_1 s) b (t_2 s) (e_1 s) distance_oc (e_2 s))
      else if Qlt_bool distance_oc (e_3 s) || (t_3 s =? 0) then Ok (mk_three (t_1 s) (t_2 s) b (e_1 s) (e_2 s) distance_oc)
      else if t_3 s =? b then
        ' (index_tmp, distance_tmp) <- update_third_nearest medoids b other_sample_index distance_oc (t_1 s) (t_2 s) ;;
        Ok (mk_three (t_1 s) (t_2 s) index_tmp (e_1 s) (e_2 s) distance_tmp)
      else Ok s.

(** [swap_buffers]: the new buffers and loss; [s_losses] is still the old one. FasterMSC.hpp:286-452. *)
Definition msc_swap_buffers (medoids : list nat) (p : msc) (medoid_candidate_index best_swap_index : nat) : res msc :=
  for_loop (rows src) 0 (fun other_sample_index q =>
    index_1 <- rd (s_nearest q) other_sample_index ;;
    index_2 <- rd (s_second q) other_sample_index ;;
    index_3 <- rd (s_third q) other_sample_index ;;
    distance_1 <- rd (s_distances q) other_sample_index ;;
    distance_2 <- rd (s_second_distances q) other_sample_index ;;
    distance_3 <- rd (s_third_distances q) other_sample_index ;;
    s <- msc_swap_sample medoids medoid_candidate_index best_swap_index other_sample_index
           (mk_three index_1 index_2 index_3 distance_1 distance_2 distance_3) ;;
    nearest <- wr (s_nearest q) other_sample_index (t_1 s) ;;
    second <- wr (s_second q) other_sample_index (t_2 s) ;;
    third <- wr (s_third q) other_sample_index (t_3 s) ;;
    distances <- wr (s_distances q) other_sample_index (e_1 s) ;;
    second_distances <- wr (s_second_distances q) other_sample_index (e_2 s) ;;
    third_distances <- wr (s_third_distances q) other_sample_index (e_3 s) ;;
    Ok (mk_msc medoids nearest second third distances second_distances third_distances (s_losses q)
          (if other_sample_index =? medoid_candidate_index then s_loss q else s_loss q + division (e_1 s) (e_2 s))%Q))
    (mk_msc medoids (s_nearest p) (s_second p) (s_third p) (s_distances p) (s_second_distances p) (s_third_distances p)
       (s_losses p) 0%Q).

(** What one iteration of the loop of [swap_buffers_k2] does to [index_1], [distance_1], [distance_2], and what it adds to the
    loss. FasterMSC.hpp:474-503. *)
Definition msc_swap_sample_k2 (medoid_candidate_index best_swap_index other_sample_index index_1 : nat)
  (distance_1 distance_2 : Q) : res (nat * Q * Q * Q) :=
  if other_sample_index =? medoid_candidate_index then Ok (best_swap_index, 0, 0, 0)%Q
  else
    distance_oc <- dist_at src medoid_candidate_index other_sample_index ;;
    Ok (if best_swap_index =? 0 then
          if Qlt_bool distance_oc distance_2 || (equality distance_oc distance_2 && (index_1 =? 0)) then
            (0, distance_oc, distance_2, division distance_oc distance_2)
          else (1, distance_oc, distance_2, division distance_2 distance_oc)
        else
          if Qlt_bool distance_oc distance_1 || (equality distance_oc distance_1 && (index_1 =? 1)) then
            (1, distance_1, distance_oc, division distance_oc distance_1)
          else (0, distance_1, distance_oc, division distance_1 distance_oc)).

(** [swap_buffers_k2]. FasterMSC.hpp:454-506. *)
Definition msc_swap_buffers_k2 (p : msc) (medoid_candidate_index best_swap_index : nat) : res msc :=
  medoids <- wr (s_medoids p) best_swap_index medoid_candidate_index ;;
  for_loop (rows src) 0 (fun other_sample_index q =>
    index_1 <- rd (s_nearest q) other_sample_index ;;
    distance_1 <- rd (s_distances q) other_sample_index ;;
    distance_2 <- rd (s_second_distances q) other_sample_index ;;
    ' (index_1, distance_1, distance_2, term) <-
      msc_swap_sample_k2 medoid_candidate_index best_swap_index other_sample_index index_1 distance_1 distance_2 ;;
    nearest <- wr (s_nearest q) other_sample_index index_1 ;;
    distances <- wr (s_distances q) other_sample_index distance_1 ;;
    second_distances <- wr (s_second_distances q) other_sample_index distance_2 ;;
    Ok (mk_msc medoids nearest (s_second q) (s_third q) distances second_distances (s_third_distances q) (s_losses q)
          (if other_sample_index =? medoid_candidate_index then s_loss q else s_loss q + term)%Q))
    (mk_msc medoids (s_nearest p) (s_second p) (s_third p) (s_distances p) (s_second_distances p) (s_third_distances p)
       (s_losses p) 0%Q).

(** The body of the loop of [step] for one candidate. FasterMSC.hpp:152-175, 615-624. *)
Definition msc_try (medoid_candidate_index : nat) (p : msc) : res msc :=
  nearest_index <- rd (s_nearest p) medoid_candidate_index ;;
  if negb (medoid_candidate_index =? nearest_index) then
    if length (s_medoids p) =? 2 then
      ' (new_loss, best_medoid_index) <- msc_best_swap_k2 p medoid_candidate_index ;;
      if Qlt_bool new_loss (s_loss p) then msc_swap_buffers_k2 p medoid_candidate_index best_medoid_index else Ok p
    else
      ' (best_swap_delta_td, best_swap_index) <- msc_best_swap p medoid_candidate_index ;;
      if Qlt_bool 0%Q best_swap_delta_td then
        medoids <- wr (s_medoids p) best_swap_index medoid_candidate_index ;;
        q <- msc_swap_buffers medoids p medoid_candidate_index best_swap_index ;;
        losses <- compute_silhouette_losses (s_nearest q) (s_second q) (s_distances q) (s_second_distances q)
                    (s_third_distances q) (length medoids) ;;
        Ok (mk_msc (s_medoids q) (s_nearest q) (s_second q) (s_third q) (s_distances q) (s_second_distances q)
              (s_third_distances q) losses (s_loss q))
      else Ok p
  else Ok p.

(** [step]; the medoids are those of the state. FasterMSC.hpp:147-178. *)
Definition msc_step (p : msc) : res msc := for_loop (rows src) 0 msc_try p.
End FasterMSC.
