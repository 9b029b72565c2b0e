(** FasterPAM and KMedoids with distances of any type and its own arithmetic, and on [float] and [double].
    KMedoidsModel.v has the same for exact integers. Paths are relative to /repo/include/ffcl/kmedoids. *)
From Coq Require Import List Arith ZArith Bool.
From Flocq Require Import Core BinarySingleNaN.
From Verif Require Import Base SortingModel BufferModel SearchModel MatrixModel KMeansModel RandomModel KMedoidsModel FloatModel FloatHamerlyModel.
Import ListNotations.

Section Medoids.
(** [DataType] with [0], [+], [-], [<], [common::equality] and [std::numeric_limits<DataType>::max()].
    FasterPAM.hpp:31, PAMUtils.hpp:44 and 131-148. *)
Context {D : Type} (zero : D) (plus minus : D -> D -> D) (lt : D -> D -> bool) (eq : D -> D -> bool) (numeric_max : D) (src : source D).

(** A call with a literal [nth_closest] of 1 or 2. FasterPAM.hpp:315-334 and 352-364. *)
Definition any_indices (medoids : list nat) (nth_closest : nat) : res (list nat) :=
  match nth_nearest (samples_to_nearest_medoid_indices lt numeric_max src)
          (samples_to_second_nearest_medoid_indices lt eq numeric_max src) medoids nth_closest with
  | Some r => r | None => UB end.
Definition any_distances (medoids : list nat) (nth_closest : nat) : res (list D) :=
  match nth_nearest (samples_to_nearest_medoid_distances lt numeric_max src)
          (samples_to_second_nearest_medoid_distances lt eq numeric_max src) medoids nth_closest with
  | Some r => r | None => UB end.

(** [x[i] += v]. PAMUtils.hpp:671-672, FasterPAM.hpp:189 and 193. *)
Definition any_add_at (x : list D) (i : nat) (v : D) : res (list D) := old <- rd x i ;; wr x i (plus old v).

(** [compute_losses_with_closest_medoid_removal]. PAMUtils.hpp:656-675. *)
Definition any_losses (nearest_medoid_indices : list nat) (nearest_medoid_distances second_nearest_medoid_distances : list D)
  (n_medoids : nat) : res (list D) :=
  for_loop (length nearest_medoid_indices) 0 (fun sample_index delta_td_mi =>
    nearest_medoid_idx <- rd nearest_medoid_indices sample_index ;;
    second <- rd second_nearest_medoid_distances sample_index ;;
    first <- rd nearest_medoid_distances sample_index ;;
    any_add_at delta_td_mi nearest_medoid_idx (minus second first)) (repeat zero n_medoids).

(** The members of [FasterPAM] and its [Buffers]. FasterPAM.hpp:74-78, 85-89. *)
Record apam := mk_apam {
  ap_medoids : list nat;
  ap_nearest : list nat;
  ap_second : list nat;
  ap_distances : list D;
  ap_second_distances : list D;
  ap_losses : list D;
  ap_loss : D }.

(** The constructors that compute the loss. FasterPAM.hpp:92-130, 310-370. *)
Definition make_apam (medoids : list nat) : res apam :=
  nearest <- any_indices medoids 1 ;;
  second <- any_indices medoids 2 ;;
  distances <- any_distances medoids 1 ;;
  second_distances <- any_distances medoids 2 ;;
  losses <- any_losses nearest distances second_distances (length medoids) ;;
  Ok (mk_apam medoids nearest second distances second_distances losses (fold_left plus distances zero)).

(** [find_best_swap]. FasterPAM.hpp:159-201, /repo/include/ffcl/common/math/statistics/Statistics.hpp:63-73. *)
Definition any_best_swap (p : apam) (medoid_candidate_index : nat) : res (D * nat) :=
  ' (delta_td_xc, delta_td_mi) <-
    for_loop (rows src) 0 (fun other_sample_index '(delta_td_xc, delta_td_mi) =>
      distance_oc <- dist_at src medoid_candidate_index other_sample_index ;;
      index_1 <- rd (ap_nearest p) other_sample_index ;;
      distance_1 <- rd (ap_distances p) other_sample_index ;;
      distance_2 <- rd (ap_second_distances p) other_sample_index ;;
      if lt distance_oc distance_1 then
        delta_td_mi <- any_add_at delta_td_mi index_1 (minus distance_1 distance_2) ;;
        Ok (plus delta_td_xc (minus distance_oc distance_1), delta_td_mi)
      else if lt distance_oc distance_2 then
        delta_td_mi <- any_add_at delta_td_mi index_1 (minus distance_oc distance_2) ;;
        Ok (delta_td_xc, delta_td_mi)
      else Ok (delta_td_xc, delta_td_mi)) (zero, ap_losses p) ;;
  ' (best_swap_index, best_swap_distance) <- get_max_index_value_pair (fun x y => lt y x) delta_td_mi ;;
  Ok (plus delta_td_xc best_swap_distance, best_swap_index).

(** The search of a new second nearest medoid: the same lines twice. FasterPAM.hpp:246-266 and 282-302. *)
Definition any_update_second (medoids : list nat) (best_swap_index other_sample_index : nat) (distance_oc : D) (index_1 : nat)
  : res (nat * D) :=
  for_loop (length medoids) 0 (fun medoid_index '(index_tmp, distance_tmp) =>
    if negb (medoid_index =? index_1) && negb (medoid_index =? best_swap_index) then
      distance_om <- medoid_distance src medoids medoid_index other_sample_index ;;
      Ok (if lt distance_om distance_tmp then (medoid_index, distance_om) else (index_tmp, distance_tmp))
    else Ok (index_tmp, distance_tmp)) (best_swap_index, distance_oc).

(** What one iteration of the loop of [swap_buffers] does to [index_1], [index_2], [distance_1] and [distance_2].
    FasterPAM.hpp:222-304. *)
Definition any_swap_sample (medoids : list nat) (medoid_candidate_index best_swap_index other_sample_index : nat)
  (index_1 index_2 : nat) (distance_1 distance_2 : D) : res (nat * nat * D * D) :=
  if other_sample_index =? medoid_candidate_index then
    Ok (if negb (index_1 =? best_swap_index) then (best_swap_index, index_1, zero, distance_1)
        else (best_swap_index, index_2, zero, distance_2))
  else
    distance_oc <- dist_at src medoid_candidate_index other_sample_index ;;
    if index_1 =? best_swap_index then
      if lt distance_oc distance_2 then Ok (best_swap_index, index_2, distance_oc, distance_2)
      else
        ' (index_tmp, distance_tmp) <- any_update_second medoids best_swap_index other_sample_index distance_oc index_2 ;;
        Ok (index_2, index_tmp, distance_2, distance_tmp)
    else if lt distance_oc distance_1 then Ok (best_swap_index, index_1, distance_oc, distance_1)
    else if lt distance_oc distance_2 then Ok (index_1, best_swap_index, distance_1, distance_oc)
    else if index_2 =? best_swap_index then
      ' (index_tmp, distance_tmp) <- any_update_second medoids best_swap_index other_sample_index distance_oc index_1 ;;
      Ok (index_1, index_tmp, distance_1, distance_tmp)
    else Ok (index_1, index_2, distance_1, distance_2).

(** [swap_buffers]; the four vectors of buffers and the loss. FasterPAM.hpp:203-308. *)
Definition any_swap_buffers (medoids : list nat) (p : apam) (medoid_candidate_index best_swap_index : nat)
  : res (list nat * list nat * list D * list D * D) :=
  for_loop (rows src) 0 (fun other_sample_index '(nearest, second, distances, second_distances, loss) =>
    index_1 <- rd nearest other_sample_index ;;
    index_2 <- rd second other_sample_index ;;
    distance_1 <- rd distances other_sample_index ;;
    distance_2 <- rd second_distances other_sample_index ;;
    ' (index_1, index_2, distance_1, distance_2) <-
      any_swap_sample medoids medoid_candidate_index best_swap_index other_sample_index index_1 index_2 distance_1 distance_2 ;;
    nearest <- wr nearest other_sample_index index_1 ;;
    second <- wr second other_sample_index index_2 ;;
    distances <- wr distances other_sample_index distance_1 ;;
    second_distances <- wr second_distances other_sample_index distance_2 ;;
    Ok (nearest, second, distances, second_distances,
        if other_sample_index =? medoid_candidate_index then loss else plus loss distance_1))
    (ap_nearest p, ap_second p, ap_distances p, ap_second_distances p, zero).

(** The body of the loop of [step] for one candidate. FasterPAM.hpp:141-155. *)
Definition any_candidate (medoid_candidate_index : nat) (p : apam) : res apam :=
  nearest_index <- rd (ap_nearest p) medoid_candidate_index ;;
  if negb (medoid_candidate_index =? nearest_index) then
    ' (best_swap_delta_td, best_swap_index) <- any_best_swap p medoid_candidate_index ;;
    if lt best_swap_delta_td zero then
      medoids <- wr (ap_medoids p) best_swap_index medoid_candidate_index ;;
      ' (nearest, second, distances, second_distances, loss) <- any_swap_buffers medoids p medoid_candidate_index best_swap_index ;;
      losses <- any_losses nearest distances second_distances (length medoids) ;;
      Ok (mk_apam medoids nearest second distances second_distances losses loss)
    else Ok p
  else Ok p.

(** [step]. FasterPAM.hpp:137-157. *)
Definition apam_step (p : apam) : res apam := for_loop (rows src) 0 any_candidate p.

(** The loop over the iterations of [fit]. KMedoids.hpp:204-225 and 291-312. *)
Fixpoint any_medoids_loop (o : medoids_options) (iterations patience_iteration : nat) (previous candidate : list nat) (p : apam)
  : res (list nat * apam) :=
  match iterations with
  | 0 => Ok (candidate, p)
  | S iterations =>
    p <- apam_step p ;;
    let candidate := ap_medoids p in
    if mo_early_stopping o && same_indices candidate previous then
      if patience_iteration =? mo_patience o then Ok (candidate, p)
      else any_medoids_loop o iterations (S patience_iteration) candidate candidate p
    else any_medoids_loop o iterations 0 candidate candidate p
  end.

(** The body of the loop over the candidates. KMedoids.hpp:196-233 and 286-320. *)
Definition any_medoids_candidate (o : medoids_options) (candidate : list nat) : res (list nat * D) :=
  p <- make_apam candidate ;;
  ' (medoids, p) <- any_medoids_loop o (mo_max_iter o) 0 [] candidate p ;;
  Ok (medoids, ap_loss p).

(** The medoids to start from. KMedoids.hpp:162-176 and 259-273. *)
Definition any_starts (o : medoids_options) (n_medoids : nat) (medoids : list nat) (draw : nat -> generator) : res (list (list nat)) :=
  match medoids with
  | [] =>
    for_each (seq 0 (mo_n_init o)) (fun i candidates =>
      random_medoids <- make_n_elements_from_interval (draw i) n_medoids (rows src) ;;
      Ok (candidates ++ [random_medoids])) []
  | _ => Ok [medoids]
  end.

(** [fit] with FasterPAM; simplified as [medoids_fit].
    KMedoids.hpp:151-251 and 253-336, /repo/include/ffcl/common/math/statistics/Statistics.hpp:52-56. *)
Definition any_medoids_fit (o : medoids_options) (n_medoids : nat) (medoids : list nat) (draw : nat -> generator) : res (list nat) :=
  candidates <- any_starts o n_medoids medoids draw ;;
  results <- for_each candidates (fun candidate results =>
    r <- any_medoids_candidate o candidate ;; Ok (results ++ [r])) [] ;;
  ' (min_loss_index, _) <- get_max_index_value_pair (fun x y => lt y x) (map snd results) ;;
  ' (best, _) <- rd results min_loss_index ;;
  Ok best.
End Medoids.

Section Binary.
Context (prec emax : Z) (Hp : Prec_gt_0 prec) (Hm : Prec_lt_emax prec emax) (add : nat -> grouping).
Notation number := (binary_float prec emax).

(** Samples of [float] or [double], each distance computed when needed; distances are symmetric, so a precomputed matrix holds the
    same. FasterPAM.hpp:102-110, /repo/include/ffcl/datastruct/matrix/PairwiseDistanceMatrixDynamic.hpp:65-81. *)
Definition float_source (samples : list number) (n_features : nat) : res (source number) :=
  n_samples <- get_n_samples samples n_features ;;
  Ok (mk_source n_samples (fun row_index column_index =>
    left <- sample_at samples n_features row_index ;;
    right <- sample_at samples n_features column_index ;;
    Ok (euclidean prec emax Hp Hm add left right))).

(** The state after the constructor and [n] calls of [step]. FasterPAM.hpp:92-157. *)
Definition float_pam (n : nat) (samples : list number) (n_features : nat) (medoids : list nat) : res (@apam number) :=
  src <- float_source samples n_features ;;
  p <- make_apam (B754_zero false) (Bplus mode_NE) (Bminus mode_NE) Bltb (equality prec emax Hp Hm) Bmax_float src medoids ;;
  for_loop n 0 (fun _ => apam_step (B754_zero false) (Bplus mode_NE) (Bminus mode_NE) Bltb src) p.

(** [fit] and [predict]. KMedoids.hpp:151-251 and 355-370. *)
Definition float_medoids_fit (o : medoids_options) (n_medoids : nat) (medoids : list nat) (draw : nat -> generator)
  (samples : list number) (n_features : nat) : res (list nat) :=
  src <- float_source samples n_features ;;
  any_medoids_fit (B754_zero false) (Bplus mode_NE) (Bminus mode_NE) Bltb (equality prec emax Hp Hm) Bmax_float src o n_medoids medoids draw.
Definition float_medoids_predict (samples : list number) (n_features : nat) (medoids : list nat) : res (list nat) :=
  src <- float_source samples n_features ;;
  any_indices Bltb (equality prec emax Hp Hm) Bmax_float src medoids 1.
End Binary.
