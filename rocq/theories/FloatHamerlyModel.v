(** Hamerly's algorithm on a number type with its own infinity, greatest and least number, and on [float] and [double]. *)
From Coq Require Import List Arith ZArith Bool.
From Flocq Require Import Core BinarySingleNaN.
From Verif Require Import Base SortingModel MatrixModel SearchModel BufferModel KMeansModel FloatModel FloatSilhouetteModel FloatKMeansModel.
Import ListNotations.

Section Numbers.
Context (a : arith) (infinity highest lowest : num a).
Notation num := (num a).

(** Members of the class and of its buffers. The loss is left out: nothing else depends on it.
    /repo/include/ffcl/kmeans/Hamerly.hpp:48-56 and 67-70. *)
Record bounds := mk_bounds {
  b_centroids : list num;
  b_indices : list nat;
  b_nearest : list num;
  b_second : list num;
  b_neighbors : list num;
  b_sizes : list nat;
  b_sums : list num;
  b_velocities : list num }.

(** Constructor. [numeric_limits::max()] is where the search for the second nearest starts.
    Hamerly.hpp:73-91 and 294-331, /repo/include/ffcl/kmeans/KMeansUtils.hpp:8-195. *)
Definition make_bounds (samples : list num) (n_features : nat) (centroids : list num) : res bounds :=
  indices <- samples_to_nearest_centroid_indices (n_lt a) infinity (n_dist a) samples n_features centroids ;;
  nearest <- samples_to_nearest_centroid_distances (n_lt a) infinity (n_dist a) samples n_features centroids ;;
  second <- samples_to_second_nearest_centroid_distances (n_lt a) (n_eq a) highest (n_dist a) samples n_features centroids ;;
  neighbors <- nearest_neighbor_distances (n_lt a) infinity (n_dist a) centroids n_features ;;
  n_centroids <- get_n_samples centroids n_features ;;
  sizes <- compute_cluster_sizes indices n_centroids ;;
  sums <- compute_cluster_positions_sum a samples n_features indices n_centroids ;;
  Ok (mk_bounds centroids indices nearest second neighbors sizes sums (repeat (n_zero a) n_centroids)).

(** [std::max(x, y)]: y if x < y, else x. Hamerly.hpp:136-138. *)
Definition larger (x y : num) : num := if n_lt a x y then y else x.

(** The loop over the other centroids: lower bound, upper bound, assigned centroid. Hamerly.hpp:155-181. *)
Definition scan_others (samples : list num) (n_features : nat) (centroids : list num) (sample_index : nat) (upper_bound : num)
  (assigned : nat) : res (num * num * nat) :=
  n_centroids <- get_n_samples centroids n_features ;;
  for_loop n_centroids 0 (fun other '(lower_bound, upper_bound, assigned) =>
    if other =? assigned then Ok (lower_bound, upper_bound, assigned)
    else
      d <- sample_to_centroid (n_dist a) samples n_features centroids sample_index other ;;
      Ok (if n_lt a d upper_bound then (upper_bound, d, other)
          else if n_lt a d lower_bound then (d, upper_bound, assigned)
          else (lower_bound, upper_bound, assigned))) (infinity, upper_bound, assigned).

(** The loop body of [swap_bounds]. [--cluster_sizes] of an empty cluster would wrap around: undefined here.
    Hamerly.hpp:133-215. *)
Definition swap_one (samples : list num) (n_features sample_index : nat) (h : bounds) : res bounds :=
  assigned <- rd (b_indices h) sample_index ;;
  neighbor <- rd (b_neighbors h) assigned ;;
  second <- rd (b_second h) sample_index ;;
  let upper_bound_comparison := larger (n_div a neighbor 2) second in
  previous_distance <- rd (b_nearest h) sample_index ;;
  if n_lt a upper_bound_comparison previous_distance then
    upper_bound <- sample_to_centroid (n_dist a) samples n_features (b_centroids h) sample_index assigned ;;
    nearest <- wr (b_nearest h) sample_index upper_bound ;;
    if n_lt a upper_bound_comparison upper_bound then
      ' (lower_bound, upper_bound, new_assigned) <-
        scan_others samples n_features (b_centroids h) sample_index upper_bound assigned ;;
      second <- wr (b_second h) sample_index lower_bound ;;
      if assigned =? new_assigned
      then Ok (mk_bounds (b_centroids h) (b_indices h) nearest second (b_neighbors h) (b_sizes h) (b_sums h) (b_velocities h))
      else
        nearest <- wr nearest sample_index upper_bound ;;
        old_size <- rd (b_sizes h) assigned ;;
        if old_size =? 0 then UB
        else
          sizes <- wr (b_sizes h) assigned (old_size - 1) ;;
          new_size <- rd sizes new_assigned ;;
          sizes <- wr sizes new_assigned (new_size + 1) ;;
          indices <- wr (b_indices h) sample_index new_assigned ;;
          sums <- accumulate_sample a (n_sub a) samples n_features sample_index assigned (b_sums h) ;;
          sums <- accumulate_sample a (n_add a) samples n_features sample_index new_assigned sums ;;
          Ok (mk_bounds (b_centroids h) indices nearest second (b_neighbors h) sizes sums (b_velocities h))
    else Ok (mk_bounds (b_centroids h) (b_indices h) nearest (b_second h) (b_neighbors h) (b_sizes h) (b_sums h) (b_velocities h))
  else Ok h.

(** [swap_bounds]. Hamerly.hpp:118-216. *)
Definition swap_all (samples : list num) (n_features : nat) (h : bounds) : res bounds :=
  n_samples <- get_n_samples samples n_features ;;
  for_loop n_samples 0 (swap_one samples n_features) h.

(** [get_second_max_index_value_pair], the value. /repo/include/ffcl/common/math/statistics/Statistics.hpp:87-112. *)
Definition second_max (l : list num) : res num :=
  ' (max_index, max_value) <- get_max_index_value_pair (n_lt a) l ;;
  if length l <? 2 then Ok max_value
  else
    masked <- wr l max_index lowest ;;
    ' (_, second_max_value) <- get_max_index_value_pair (n_lt a) masked ;;
    Ok second_max_value.

(** [update_bounds]. Hamerly.hpp:260-292. *)
Definition move_bounds (samples : list num) (n_features : nat) (h : bounds) : res bounds :=
  ' (furthest_index, furthest) <- get_max_index_value_pair (n_lt a) (b_velocities h) ;;
  second_furthest <- second_max (b_velocities h) ;;
  n_samples <- get_n_samples samples n_features ;;
  ' (nearest, second) <-
    for_loop n_samples 0 (fun sample_index '(nearest, second) =>
      assigned <- rd (b_indices h) sample_index ;;
      v <- rd (b_velocities h) assigned ;;
      u <- rd nearest sample_index ;;
      nearest <- wr nearest sample_index (n_add a u v) ;;
      l <- rd second sample_index ;;
      second <- wr second sample_index (n_sub a l (if assigned =? furthest_index then second_furthest else furthest)) ;;
      Ok (nearest, second)) (b_nearest h, b_second h) ;;
  neighbors <- nearest_neighbor_distances (n_lt a) infinity (n_dist a) (b_centroids h) n_features ;;
  Ok (mk_bounds (b_centroids h) (b_indices h) nearest second neighbors (b_sizes h) (b_sums h) (b_velocities h)).

(** [step]. Hamerly.hpp:98-116, 218-241 and 243-258. *)
Definition bounds_step (samples : list num) (n_features : nat) (h : bounds) : res bounds :=
  h <- swap_all samples n_features h ;;
  centroids <- hamerly_update_centroids a n_features (b_sizes h) (b_sums h) (b_centroids h) ;;
  velocities <- update_centroids_velocities a n_features (b_centroids h) centroids (b_velocities h) ;;
  move_bounds samples n_features
    (mk_bounds centroids (b_indices h) (b_nearest h) (b_second h) (b_neighbors h) (b_sizes h) (b_sums h) velocities).

(** [n] calls of [step]. Hamerly.hpp:98-116. *)
Fixpoint bounds_steps (n : nat) (samples : list num) (n_features : nat) (h : bounds) : res bounds :=
  match n with
  | 0 => Ok h
  | S n => h <- bounds_step samples n_features h ;; bounds_steps n samples n_features h
  end.

(** The centroids after the constructor and [n] calls of [step]. Hamerly.hpp:73-116. *)
Definition hamerly_centroids (n : nat) (samples : list num) (n_features : nat) (centroids : list num) : res (list num) :=
  h <- make_bounds samples n_features centroids ;;
  h <- bounds_steps n samples n_features h ;;
  Ok (b_centroids h).
End Numbers.

Section Binary.
Context (prec emax : Z) (Hp : Prec_gt_0 prec) (Hm : Prec_lt_emax prec emax) (order : nat -> grouping).
Notation number := (binary_float prec emax).

(** [numeric_limits::epsilon()] and [common::equality] of floating-point numbers: |b - a| <= epsilon.
    /repo/include/ffcl/common/Utils.hpp:411-423. *)
Definition epsilon : number := binary_normalize prec emax Hp Hm mode_NE 1 (1 - prec) false.
Definition equality (x y : number) : bool := Bleb (Babs (Bminus mode_NE y x)) epsilon.

(** The arithmetic of [binary_arith] with [common::equality]. KMeansUtils.hpp:77-116. *)
Definition bounds_arith : arith :=
  mk_arith number (B754_zero false) (Bplus mode_NE) (Bminus mode_NE) (fun x k => Bdiv mode_NE x (count prec emax Hp Hm k)) Bltb equality
    (euclidean prec emax Hp Hm order).

(** Hamerly's algorithm on a binary format. Hamerly.hpp:73-116, Utils.hpp:393-396. *)
Definition float_hamerly (n : nat) (samples : list number) (n_features : nat) (centroids : list number) : res (list number) :=
  hamerly_centroids bounds_arith (B754_infinity false) Bmax_float (Bopp Bmax_float) n samples n_features centroids.
End Binary.
