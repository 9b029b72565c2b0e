(** Model of include/ffcl/kmedoids: PAMUtils.hpp, FasterPAM.hpp, KMedoids.hpp. *)
From Coq Require Import List Arith ZArith Bool.
From Verif Require Import Base SortingModel BufferModel SearchModel MatrixModel KMeansModel RandomModel.
Import ListNotations.
Local Open Scope nat_scope.

(** Where distances between samples come from: the number of samples and the distance of two of them.  The functions of
    PAMUtils.hpp exist once for samples and once for a matrix, FasterPAM holds a variant of the two matrices.
    /repo/include/ffcl/kmedoids/PAMUtils.hpp:30-42, 65-70, /repo/include/ffcl/kmedoids/FasterPAM.hpp:37-39, 174-177. *)
Record source (D : Type) := mk_source { rows : nat; dist_at : nat -> nat -> res D }.
Arguments mk_source {D}.
Arguments rows {D}.
Arguments dist_at {D}.

(** A precomputed distance matrix. FasterPAM.hpp:122-130. *)
Definition matrix_source (m : metric) (zero : m_dist m) (p : pairwise_matrix m) : source (m_dist m) :=
  mk_source (pairwise_rows m p) (pairwise_at m zero p).

(** Samples, each distance computed when needed. FasterPAM.hpp:102-110. *)
Definition samples_source (m : metric) (samples : list Z) (n_features : nat) : res (source (m_dist m)) :=
  n_samples <- get_n_samples samples n_features ;;
  Ok (mk_source n_samples (dynamic_at m samples n_features)).

(** ** PAMUtils.hpp *)
Section Nearest.
(** [eq] is [common::equality], [numeric_max] is [std::numeric_limits<DataType>::max()]. *)
Context {D : Type} (lt : D -> D -> bool) (eq : D -> D -> bool) (numeric_max : D) (src : source D).

(** The distance of a sample to the medoid at position [idx]. PAMUtils.hpp:48 and 80. *)
Definition medoid_distance (medoids : list nat) (idx sample_index : nat) : res D :=
  medoid <- rd medoids idx ;; dist_at src medoid sample_index.

(** [samples_to_nearest_medoid_indices], also [KMedoids::predict]. PAMUtils.hpp:21-91. *)
Definition samples_to_nearest_medoid_indices (medoids : list nat) : res (list nat) :=
  match medoids with
  | [] => Throw
  | _ =>
    fill 0 (rows src) (fun sample_index =>
      ' (_, first_min_index) <-
        for_loop (length medoids) 0 (fun idx '(first_min_distance, first_min_index) =>
          nearest_candidate <- medoid_distance medoids idx sample_index ;;
          Ok (if lt nearest_candidate first_min_distance then (nearest_candidate, idx)
              else (first_min_distance, first_min_index))) (numeric_max, 0) ;;
      Ok first_min_index)
  end.

(** [samples_to_second_nearest_medoid_indices]. PAMUtils.hpp:93-182. *)
Definition samples_to_second_nearest_medoid_indices (medoids : list nat) : res (list nat) :=
  match medoids with
  | [] => Throw
  | _ =>
    fill 0 (rows src) (fun sample_index =>
      ' (_, _, _, second_min_index) <-
        for_loop (length medoids) 0 (fun idx '(first_min_distance, second_min_distance, first_min_index, second_min_index) =>
          second_nearest_candidate <- medoid_distance medoids idx sample_index ;;
          Ok (if lt second_nearest_candidate first_min_distance then
                (second_nearest_candidate, first_min_distance, idx, first_min_index)
              else if lt second_nearest_candidate second_min_distance && negb (eq second_nearest_candidate first_min_distance) then
                (first_min_distance, second_nearest_candidate, first_min_index, idx)
              else (first_min_distance, second_min_distance, first_min_index, second_min_index)))
          (numeric_max, numeric_max, 0, 0) ;;
      Ok second_min_index)
  end.

(** [samples_to_nearest_medoid_distances], also [KMedoids::forward]. PAMUtils.hpp:352-420. *)
Definition samples_to_nearest_medoid_distances (medoids : list nat) : res (list D) :=
  match medoids with
  | [] => Throw
  | _ =>
    fill numeric_max (rows src) (fun sample_index =>
      for_each medoids (fun medoid first_min_distance =>
        nearest_candidate <- dist_at src medoid sample_index ;;
        Ok (if lt nearest_candidate first_min_distance then nearest_candidate else first_min_distance)) numeric_max)
  end.

(** [samples_to_second_nearest_medoid_distances]. PAMUtils.hpp:422-502. *)
Definition samples_to_second_nearest_medoid_distances (medoids : list nat) : res (list D) :=
  match medoids with
  | [] => Throw
  | _ =>
    fill numeric_max (rows src) (fun sample_index =>
      ' (_, second_min_distance) <-
        for_each medoids (fun medoid '(first_min_distance, second_min_distance) =>
          second_nearest_candidate <- dist_at src medoid sample_index ;;
          Ok (if lt second_nearest_candidate first_min_distance then (second_nearest_candidate, first_min_distance)
              else if lt second_nearest_candidate second_min_distance && negb (eq second_nearest_candidate first_min_distance) then
                (first_min_distance, second_nearest_candidate)
              else (first_min_distance, second_min_distance)))
          (numeric_max, numeric_max) ;;
      Ok second_min_distance)
  end.

(** The dispatch on [nth_closest] of [samples_to_nth_nearest_medoid_indices] and [..._distances]; the case 3, that only
    FasterMSC.hpp uses, is left out ([None]). PAMUtils.hpp:299-350 and 602-654. *)
Definition nth_nearest {A} (first second : list nat -> res A) (medoids : list nat) (nth_closest : nat) : option (res A) :=
  if (nth_closest =? 0) || (length medoids <? nth_closest) then Some Throw
  else if nth_closest =? 1 then Some (first medoids)
  else if nth_closest =? 2 then Some (second medoids)
  else if nth_closest =? 3 then None
  else Some Throw.
End Nearest.

(** ** FasterPAM.hpp *)
(** Arithmetic on [DataType], FasterPAM.hpp:31 and 186-194: a result is stored after reduction to the range of the type.
    Signed integers are exact here (overflow, which is undefined, is not modelled); unsigned ones have 32 bits. *)
Definition signed_wrap (x : Z) : Z := x.
Definition unsigned_wrap (x : Z) : Z := (x mod 2 ^ 32)%Z.

Section FasterPAM.
Context (wrap : Z -> Z) (numeric_max : Z) (src : source Z).

(** A call with a literal [nth_closest] of 1 or 2. FasterPAM.hpp:315-334 and 352-364. *)
Definition nth_indices (medoids : list nat) (nth_closest : nat) : res (list nat) :=
  match nth_nearest (samples_to_nearest_medoid_indices Z.ltb numeric_max src)
          (samples_to_second_nearest_medoid_indices Z.ltb Z.eqb numeric_max src) medoids nth_closest with
  | Some r => r | None => UB end.
Definition nth_distances (medoids : list nat) (nth_closest : nat) : res (list Z) :=
  match nth_nearest (samples_to_nearest_medoid_distances Z.ltb numeric_max src)
          (samples_to_second_nearest_medoid_distances Z.ltb Z.eqb numeric_max src) medoids nth_closest with
  | Some r => r | None => UB end.

(** [x[i] += v]. PAMUtils.hpp:671-672, FasterPAM.hpp:189 and 193. *)
Definition add_at (x : list Z) (i : nat) (v : Z) : res (list Z) := old <- rd x i ;; wr x i (wrap (old + v)).

(** [compute_losses_with_closest_medoid_removal]. PAMUtils.hpp:656-675. *)
Definition compute_losses (nearest_medoid_indices : list nat) (nearest_medoid_distances second_nearest_medoid_distances : list Z)
  (n_medoids : nat) : res (list Z) :=
  for_loop (length nearest_medoid_indices) 0 (fun sample_index delta_td_mi =>
    nearest_medoid_idx <- rd nearest_medoid_indices sample_index ;;
    second <- rd second_nearest_medoid_distances sample_index ;;
    first <- rd nearest_medoid_distances sample_index ;;
    add_at delta_td_mi nearest_medoid_idx (second - first)) (repeat 0%Z n_medoids).

(** The members of [FasterPAM] and its [Buffers]. FasterPAM.hpp:74-78, 85-89. *)
Record pam := mk_pam {
  p_medoids : list nat;
  p_nearest : list nat;
  p_second : list nat;
  p_distances : list Z;
  p_second_distances : list Z;
  p_losses : list Z;
  p_loss : Z }.

(** The constructors that compute the loss. FasterPAM.hpp:92-130, 310-370. *)
Definition make_pam (medoids : list nat) : res pam :=
  nearest <- nth_indices medoids 1 ;;
  second <- nth_indices medoids 2 ;;
  distances <- nth_distances medoids 1 ;;
  second_distances <- nth_distances medoids 2 ;;
  losses <- compute_losses nearest distances second_distances (length medoids) ;;
  Ok (mk_pam medoids nearest second distances second_distances losses (fold_left (fun acc d => wrap (acc + d)) distances 0%Z)).

(** [find_best_swap]. FasterPAM.hpp:159-201, /repo/include/ffcl/common/math/statistics/Statistics.hpp:63-73. *)
Definition find_best_swap (p : pam) (medoid_candidate_index : nat) : res (Z * nat) :=
  ' (delta_td_xc, delta_td_mi) <-
    for_loop (rows src) 0 (fun other_sample_index '(delta_td_xc, delta_td_mi) =>
      distance_oc <- dist_at src medoid_candidate_index other_sample_index ;;
      index_1 <- rd (p_nearest p) other_sample_index ;;
      distance_1 <- rd (p_distances p) other_sample_index ;;
      distance_2 <- rd (p_second_distances p) other_sample_index ;;
      if (distance_oc <? distance_1)%Z then
        delta_td_mi <- add_at delta_td_mi index_1 (distance_1 - distance_2) ;;
        Ok (wrap (delta_td_xc + (distance_oc - distance_1))%Z, delta_td_mi)
      else if (distance_oc <? distance_2)%Z then
        delta_td_mi <- add_at delta_td_mi index_1 (distance_oc - distance_2) ;;
        Ok (delta_td_xc, delta_td_mi)
      else Ok (delta_td_xc, delta_td_mi)) (0%Z, p_losses p) ;;
  ' (best_swap_index, best_swap_distance) <- get_max_index_value_pair (fun x y => (y <? x)%Z) delta_td_mi ;;
  Ok (wrap (delta_td_xc + best_swap_distance)%Z, best_swap_index).

(** The search of a new second nearest medoid: the same lines twice. FasterPAM.hpp:246-266 and 282-302. *)
Definition update_second_nearest (medoids : list nat) (best_swap_index other_sample_index : nat) (distance_oc : Z) (index_1 : nat)
  : res (nat * Z) :=
  for_loop (length medoids) 0 (fun medoid_index '(index_tmp, distance_tmp) =>
    if negb (medoid_index =? index_1) && negb (medoid_index =? best_swap_index) then
      distance_om <- medoid_distance src medoids medoid_index other_sample_index ;;
      Ok (if (distance_om <? distance_tmp)%Z then (medoid_index, distance_om) else (index_tmp, distance_tmp))
    else Ok (index_tmp, distance_tmp)) (best_swap_index, distance_oc).

(** What one iteration of the loop of [swap_buffers] does to [index_1], [index_2], [distance_1] and [distance_2].
    FasterPAM.hpp:222-304. *)
Definition swap_sample (medoids : list nat) (medoid_candidate_index best_swap_index other_sample_index : nat)
  (index_1 index_2 : nat) (distance_1 distance_2 : Z) : res (nat * nat * Z * Z) :=
  if other_sample_index =? medoid_candidate_index then
    Ok (if negb (index_1 =? best_swap_index) then (best_swap_index, index_1, 0%Z, distance_1)
        else (best_swap_index, index_2, 0%Z, distance_2))
  else
    distance_oc <- dist_at src medoid_candidate_index other_sample_index ;;
    if index_1 =? best_swap_index then
      if (distance_oc <? distance_2)%Z then Ok (best_swap_index, index_2, distance_oc, distance_2)
      else
        ' (index_tmp, distance_tmp) <- update_second_nearest medoids best_swap_index other_sample_index distance_oc index_2 ;;
        Ok (index_2, index_tmp, distance_2, distance_tmp)
    else if (distance_oc <? distance_1)%Z then Ok (best_swap_index, index_1, distance_oc, distance_1)
    else if (distance_oc <? distance_2)%Z then Ok (index_1, best_swap_index, distance_1, distance_oc)
    else if index_2 =? best_swap_index then
      ' (index_tmp, distance_tmp) <- update_second_nearest medoids best_swap_index other_sample_index distance_oc index_1 ;;
      Ok (index_1, index_tmp, distance_1, distance_tmp)
    else Ok (index_1, index_2, distance_1, distance_2).

(** [swap_buffers]; the four vectors of buffers and the loss. FasterPAM.hpp:203-308. *)
Definition swap_buffers (medoids : list nat) (p : pam) (medoid_candidate_index best_swap_index : nat)
  : res (list nat * list nat * list Z * list Z * Z) :=
  for_loop (rows src) 0 (fun other_sample_index '(nearest, second, distances, second_distances, loss) =>
    index_1 <- rd nearest other_sample_index ;;
    index_2 <- rd second other_sample_index ;;
    distance_1 <- rd distances other_sample_index ;;
    distance_2 <- rd second_distances other_sample_index ;;
    ' (index_1, index_2, distance_1, distance_2) <-
      swap_sample medoids medoid_candidate_index best_swap_index other_sample_index index_1 index_2 distance_1 distance_2 ;;
    nearest <- wr nearest other_sample_index index_1 ;;
    second <- wr second other_sample_index index_2 ;;
    distances <- wr distances other_sample_index distance_1 ;;
    second_distances <- wr second_distances other_sample_index distance_2 ;;
    Ok (nearest, second, distances, second_distances,
        if other_sample_index =? medoid_candidate_index then loss else wrap (loss + distance_1)%Z))
    (p_nearest p, p_second p, p_distances p, p_second_distances p, 0%Z).

(** The body of the loop of [step] for one candidate. FasterPAM.hpp:141-155. *)
Definition try_candidate (medoid_candidate_index : nat) (p : pam) : res pam :=
  nearest_index <- rd (p_nearest p) medoid_candidate_index ;;
  if negb (medoid_candidate_index =? nearest_index) then
    ' (best_swap_delta_td, best_swap_index) <- find_best_swap p medoid_candidate_index ;;
    if (best_swap_delta_td <? 0)%Z then
      medoids <- wr (p_medoids p) best_swap_index medoid_candidate_index ;;
      ' (nearest, second, distances, second_distances, loss) <- swap_buffers medoids p medoid_candidate_index best_swap_index ;;
      losses <- compute_losses nearest distances second_distances (length medoids) ;;
      Ok (mk_pam medoids nearest second distances second_distances losses loss)
    else Ok p
  else Ok p.

(** [step]. FasterPAM.hpp:137-157. *)
Definition pam_step (p : pam) : res pam := for_loop (rows src) 0 try_candidate p.

(** ** KMedoids.hpp *)
(** The options with their defaults. /repo/include/ffcl/kmedoids/KMedoids.hpp:31-63. *)
Record medoids_options := mk_medoids_options { mo_max_iter : nat; mo_early_stopping : bool; mo_patience : nat; mo_n_init : nat }.
Definition default_medoids_options : medoids_options := mk_medoids_options 100 true 0 1.

(** [are_containers_equal] on indices. /repo/include/ffcl/common/Utils.hpp:504-540. *)
Definition same_indices (l r : list nat) : bool :=
  (length l =? length r) && forallb (fun '(x, y) => x =? y) (combine l r).

(** The loop over the iterations. KMedoids.hpp:204-225 and 291-312. *)
Fixpoint medoids_loop (o : medoids_options) (iterations patience_iteration : nat) (previous candidate : list nat) (p : pam)
  : res (list nat * pam) :=
  match iterations with
  | 0 => Ok (candidate, p)
  | S iterations =>
    p <- pam_step p ;;
    let candidate := p_medoids p in
    if mo_early_stopping o && same_indices candidate previous then
      if patience_iteration =? mo_patience o then Ok (candidate, p)
      else medoids_loop o iterations (S patience_iteration) candidate candidate p
    else medoids_loop o iterations 0 candidate candidate p
  end.

(** The body of the loop over the candidates. KMedoids.hpp:196-233 and 286-320. *)
Definition medoids_candidate (o : medoids_options) (candidate : list nat) : res (list nat * Z) :=
  p <- make_pam candidate ;;
  ' (medoids, p) <- medoids_loop o (mo_max_iter o) 0 [] candidate p ;;
  Ok (medoids, p_loss p).

(** The medoids to start from: those of the object, or [n_init] random ones; [draw i] are the numbers drawn for the i-th.
    KMedoids.hpp:162-176 and 259-273. *)
Definition medoids_candidates (o : medoids_options) (n_medoids : nat) (medoids : list nat) (draw : nat -> generator)
  : res (list (list nat)) :=
  match medoids with
  | [] =>
    for_each (seq 0 (mo_n_init o)) (fun i candidates =>
      random_medoids <- make_n_elements_from_interval (draw i) n_medoids (rows src) ;;
      Ok (candidates ++ [random_medoids])) []
  | _ => Ok [medoids]
  end.

(** [fit] with FasterPAM. Each iteration of the parallel loop writes its own elements only; the loop is sequential here
    (concurrent in ThreadsModel.v).
    [std::min_element] on no candidates returns the end and the read after it is undefined.
    KMedoids.hpp:151-251 and 253-336, /repo/include/ffcl/common/math/statistics/Statistics.hpp:52-56. *)
Definition medoids_fit (o : medoids_options) (n_medoids : nat) (medoids : list nat) (draw : nat -> generator) : res (list nat) :=
  candidates <- medoids_candidates o n_medoids medoids draw ;;
  results <- for_each candidates (fun candidate results =>
    r <- medoids_candidate o candidate ;; Ok (results ++ [r])) [] ;;
  ' (min_loss_index, _) <- get_max_index_value_pair (fun x y => (y <? x)%Z) (map snd results) ;;
  ' (best, _) <- rd results min_loss_index ;;
  Ok best.
End FasterPAM.

(** [predict] and [forward] with samples and with a matrix: [medoids] are the indices the object holds.
    KMedoids.hpp:338-369, PAMUtils.hpp:299-304. *)
Section Predict.
Context (m : metric) (zero : m_dist m) (eq : m_dist m -> m_dist m -> bool) (numeric_max : m_dist m).
Definition predict_samples (samples : list Z) (n_features : nat) (medoids : list nat) : res (list nat) :=
  src <- samples_source m samples n_features ;;
  match nth_nearest (samples_to_nearest_medoid_indices (m_lt m) numeric_max src)
          (samples_to_second_nearest_medoid_indices (m_lt m) eq numeric_max src) medoids 1 with
  | Some r => r | None => UB end.
Definition predict_matrix (p : pairwise_matrix m) (medoids : list nat) : res (list nat) :=
  samples_to_nearest_medoid_indices (m_lt m) numeric_max (matrix_source m zero p) medoids.
Definition forward_samples (samples : list Z) (n_features : nat) (medoids : list nat) : res (list (m_dist m)) :=
  src <- samples_source m samples n_features ;;
  samples_to_nearest_medoid_distances (m_lt m) numeric_max src medoids.
Definition forward_matrix (p : pairwise_matrix m) (medoids : list nat) : res (list (m_dist m)) :=
  samples_to_nearest_medoid_distances (m_lt m) numeric_max (matrix_source m zero p) medoids.
End Predict.
