(** Model of include/ffcl/kmeans: KMeansUtils.hpp, Lloyd.hpp, Hamerly.hpp, KMeans.hpp. *)
From Coq Require Import List Arith Bool.
From Verif Require Import Base SortingModel BufferModel SearchModel MatrixModel.
Import ListNotations.

(** A loop filling cell after cell of a vector of [count] elements with [f 0], [f 1], ...; the values the cells have
    before are [blank].  /repo/include/ffcl/kmeans/KMeansUtils.hpp:20-41, 56-74, 89-115 and 174-194. *)
Definition fill {A} (blank : A) (count : nat) (f : nat -> res A) : res (list A) :=
  for_loop count 0 (fun i v => x <- f i ;; wr v i x) (repeat blank count).

(** [std::transform] of two ranges of the same length. *)
Definition transform2 {A} (f : A -> A -> A) (l r : list A) : list A := map (fun '(x, y) => f x y) (combine l r).

Section Utils.
(** [D] is the type of distances, [inf] the value of [common::infinity]. *)
Context {F D : Type} (lt : D -> D -> bool) (eq : D -> D -> bool) (inf : D) (dist : list F -> list F -> D).

(** The distance of a sample to a centroid. KMeansUtils.hpp:28-32, 62-66, 97-101. *)
Definition sample_to_centroid (samples : list F) (n_features : nat) (centroids : list F) (sample_index centroid_index : nat) : res D :=
  x <- sample_at samples n_features sample_index ;;
  c <- sample_at centroids n_features centroid_index ;;
  Ok (dist x c).

(** The inner loop of [samples_to_nearest_centroid_indices]. KMeansUtils.hpp:24-38. *)
Definition nearest_centroid_index (samples : list F) (n_features : nat) (centroids : list F) (n_centroids sample_index : nat)
  : res (D * nat) :=
  for_loop n_centroids 0 (fun centroid_index '(min_distance, min_index) =>
    d <- sample_to_centroid samples n_features centroids sample_index centroid_index ;;
    Ok (if lt d min_distance then (d, centroid_index) else (min_distance, min_index))) (inf, 0).

(** [samples_to_nearest_centroid_indices], also [KMeans::predict].
    KMeansUtils.hpp:8-42, /repo/include/ffcl/kmeans/KMeans.hpp:276-283. *)
Definition samples_to_nearest_centroid_indices (samples : list F) (n_features : nat) (centroids : list F) : res (list nat) :=
  n_samples <- get_n_samples samples n_features ;;
  n_centroids <- get_n_samples centroids n_features ;;
  fill 0 n_samples (fun sample_index =>
    ' (_, min_index) <- nearest_centroid_index samples n_features centroids n_centroids sample_index ;;
    Ok min_index).

(** [samples_to_nearest_centroid_distances], also [KMeans::forward]. KMeansUtils.hpp:44-75, KMeans.hpp:267-274. *)
Definition samples_to_nearest_centroid_distances (samples : list F) (n_features : nat) (centroids : list F) : res (list D) :=
  n_samples <- get_n_samples samples n_features ;;
  n_centroids <- get_n_samples centroids n_features ;;
  fill inf n_samples (fun sample_index =>
    for_loop n_centroids 0 (fun centroid_index min_distance =>
      nearest_candidate <- sample_to_centroid samples n_features centroids sample_index centroid_index ;;
      Ok (if lt nearest_candidate min_distance then nearest_candidate else min_distance)) inf).

(** [samples_to_second_nearest_centroid_distances]. Simplified: [std::numeric_limits::max()] is infinity.
    KMeansUtils.hpp:77-116. *)
Definition samples_to_second_nearest_centroid_distances (samples : list F) (n_features : nat) (centroids : list F)
  : res (list D) :=
  n_samples <- get_n_samples samples n_features ;;
  n_centroids <- get_n_samples centroids n_features ;;
  fill inf n_samples (fun sample_index =>
    ' (_, second_min_distance) <-
      for_loop n_centroids 0 (fun centroid_index '(first_min_distance, second_min_distance) =>
        candidate <- sample_to_centroid samples n_features centroids sample_index centroid_index ;;
        Ok (if lt candidate first_min_distance then (candidate, first_min_distance)
            else if lt candidate second_min_distance && negb (eq candidate first_min_distance)
                 then (first_min_distance, candidate)
                 else (first_min_distance, second_min_distance))) (inf, inf) ;;
    Ok second_min_distance).

(** [nearest_neighbor_distances]. KMeansUtils.hpp:164-195. *)
Definition nearest_neighbor_distances (data : list F) (n_features : nat) : res (list D) :=
  n_rows <- get_n_samples data n_features ;;
  fill inf n_rows (fun row_index =>
    for_loop n_rows 0 (fun other_row_index min_distance =>
      if row_index =? other_row_index then Ok min_distance
      else
        nearest_candidate <- sample_to_centroid data n_features data row_index other_row_index ;;
        Ok (if lt nearest_candidate min_distance then nearest_candidate else min_distance)) inf).
End Utils.

(** [compute_cluster_sizes]. KMeansUtils.hpp:118-134. *)
Definition compute_cluster_sizes (indices : list nat) (n_centroids : nat) : res (list nat) :=
  for_each indices (fun centroid_index sizes => s <- rd sizes centroid_index ;; wr sizes centroid_index (S s))
    (repeat 0 n_centroids).

(** What the algorithms use of the value type: its arithmetic, order, [common::equality], the distance
    [auto_distance] and half a distance. *)
Record arith := mk_arith {
  num : Type;
  n_zero : num;
  n_add : num -> num -> num;
  n_sub : num -> num -> num;
  n_div : num -> nat -> num;
  n_lt : num -> num -> bool;
  n_eq : num -> num -> bool;
  n_dist : list num -> list num -> num }.

Section Algorithms.
Context (a : arith).
Notation num := (num a).

(** Adding or subtracting one sample to the sum of a cluster.
    KMeansUtils.hpp:155-159, /repo/include/ffcl/kmeans/Hamerly.hpp:195-207. *)
Definition accumulate_sample (f : num -> num -> num) (samples : list num) (n_features sample_index cluster : nat) (sums : list num)
  : res (list num) :=
  s <- sample_at sums n_features cluster ;;
  x <- sample_at samples n_features sample_index ;;
  Ok (splice sums (cluster * n_features) (cluster * n_features + n_features) (transform2 f s x)).

(** [compute_cluster_positions_sum]. KMeansUtils.hpp:136-162. *)
Definition compute_cluster_positions_sum (samples : list num) (n_features : nat) (indices : list nat) (n_centroids : nat)
  : res (list num) :=
  n_samples <- get_n_samples samples n_features ;;
  for_loop n_samples 0 (fun sample_index sums =>
    cluster <- rd indices sample_index ;;
    accumulate_sample (n_add a) samples n_features sample_index cluster sums) (repeat (n_zero a) (n_centroids * n_features)).

(** Distances with infinity. *)
Definition ext := option num.
Definition e_lt (x y : ext) : bool :=
  match x, y with
  | Some u, Some v => n_lt a u v
  | Some _, None => true
  | None, _ => false
  end.
Definition e_eq (x y : ext) : bool := match x, y with Some u, Some v => n_eq a u v | _, _ => false end.
Definition e_dist (p q : list num) : ext := Some (n_dist a p q).
Definition e_add (x : ext) (v : num) : ext := option_map (fun u => n_add a u v) x.
Definition e_sub (x : ext) (v : num) : ext := option_map (fun u => n_sub a u v) x.
Definition e_half (x : ext) : ext := option_map (fun u => n_div a u 2) x.
(** [std::max(x, y)]: y if x < y, else x. *)
Definition e_max (x y : ext) : ext := if e_lt x y then y else x.

(** [std::reduce] with [std::plus]; a sum with infinity is infinity.
    /repo/include/ffcl/kmeans/Lloyd.hpp:70-73 and 145-148, Hamerly.hpp:78-81. *)
Definition total (l : list ext) : ext :=
  fold_left (fun acc x => match x with Some v => e_add acc v | None => None end) l (Some (n_zero a)).

(** [sum / size] on a range. Lloyd.hpp:121-126, Hamerly.hpp:233-238. *)
Definition mean_of (sums : list num) (n_features cluster size : nat) : res (list num) :=
  s <- sample_at sums n_features cluster ;;
  Ok (map (fun x => n_div a x size) s).

(** ** Lloyd *)
(** Members of the class and of its buffers. Lloyd.hpp:47-63. *)
Record lloyd := mk_lloyd {
  ll_centroids : list num;
  ll_indices : list nat;
  ll_distances : list ext;
  ll_loss : ext }.

(** Constructor. The cluster sizes and sums start as zero vectors and are recomputed by every step; they are left out.
    Lloyd.hpp:66-83 and 168-182. *)
Definition make_lloyd (samples : list num) (n_features : nat) (centroids : list num) : res lloyd :=
  indices <- samples_to_nearest_centroid_indices e_lt None e_dist samples n_features centroids ;;
  distances <- samples_to_nearest_centroid_distances e_lt None e_dist samples n_features centroids ;;
  Ok (mk_lloyd centroids indices distances (total distances)).

(** [update_centroids]: an empty cluster gets the sum itself. Lloyd.hpp:101-129. *)
Definition lloyd_update_centroids (n_features : nat) (sizes : list nat) (sums centroids : list num) : res (list num) :=
  n_centroids <- get_n_samples centroids n_features ;;
  for_loop n_centroids 0 (fun cluster centroids =>
    size <- rd sizes cluster ;;
    new_position <-
      (if size =? 0 then sample_at sums n_features cluster else mean_of sums n_features cluster size) ;;
    Ok (splice centroids (cluster * n_features) (cluster * n_features + n_features) new_position)) centroids.

(** [step]: [update_clusters], [update_centroids], [update_buffers]. Lloyd.hpp:90-99, 131-149 and 151-166. *)
Definition lloyd_step (samples : list num) (n_features : nat) (l : lloyd) : res lloyd :=
  n_centroids <- get_n_samples (ll_centroids l) n_features ;;
  sizes <- compute_cluster_sizes (ll_indices l) n_centroids ;;
  sums <- compute_cluster_positions_sum samples n_features (ll_indices l) n_centroids ;;
  centroids <- lloyd_update_centroids n_features sizes sums (ll_centroids l) ;;
  make_lloyd samples n_features centroids.

(** ** Hamerly *)
(** Members of the class and of its buffers. Hamerly.hpp:48-56 and 67-70. *)
Record hamerly := mk_hamerly {
  h_centroids : list num;
  h_indices : list nat;
  h_nearest : list ext;
  h_second : list ext;
  h_neighbors : list ext;
  h_sizes : list nat;
  h_sums : list num;
  h_velocities : list num;
  h_loss : ext }.

(** Constructor. Hamerly.hpp:73-91 and 294-331. *)
Definition make_hamerly (samples : list num) (n_features : nat) (centroids : list num) : res hamerly :=
  indices <- samples_to_nearest_centroid_indices e_lt None e_dist samples n_features centroids ;;
  nearest <- samples_to_nearest_centroid_distances e_lt None e_dist samples n_features centroids ;;
  second <- samples_to_second_nearest_centroid_distances e_lt e_eq None e_dist samples n_features centroids ;;
  neighbors <- nearest_neighbor_distances e_lt None e_dist centroids n_features ;;
  n_centroids <- get_n_samples centroids n_features ;;
  sizes <- compute_cluster_sizes indices n_centroids ;;
  sums <- compute_cluster_positions_sum samples n_features indices n_centroids ;;
  Ok (mk_hamerly centroids indices nearest second neighbors sizes sums (repeat (n_zero a) n_centroids) (total nearest)).

(** The loop over the other centroids: lower bound, upper bound, assigned centroid. Hamerly.hpp:155-181. *)
Definition other_centroids (samples : list num) (n_features : nat) (centroids : list num) (sample_index : nat)
  (upper_bound : ext) (assigned : nat) : res (ext * ext * nat) :=
  n_centroids <- get_n_samples centroids n_features ;;
  for_loop n_centroids 0 (fun other '(lower_bound, upper_bound, assigned) =>
    if other =? assigned then Ok (lower_bound, upper_bound, assigned)
    else
      d <- sample_to_centroid e_dist samples n_features centroids sample_index other ;;
      Ok (if e_lt d upper_bound then (upper_bound, d, other)
          else if e_lt d lower_bound then (d, upper_bound, assigned)
          else (lower_bound, upper_bound, assigned))) (None, upper_bound, assigned).

(** The loop body of [swap_bounds]. Hamerly.hpp:133-215.
    Simplified: [loss_ -= d] leaves the loss unchanged when d is infinity (not a number in the code); with at least one
    centroid d is finite. *)
Definition swap_bound (samples : list num) (n_features : nat) (sample_index : nat) (h : hamerly) : res hamerly :=
  assigned <- rd (h_indices h) sample_index ;;
  neighbor <- rd (h_neighbors h) assigned ;;
  second <- rd (h_second h) sample_index ;;
  let upper_bound_comparison := e_max (e_half neighbor) second in
  previous_distance <- rd (h_nearest h) sample_index ;;
  if e_lt upper_bound_comparison previous_distance then
    upper_bound <- sample_to_centroid e_dist samples n_features (h_centroids h) sample_index assigned ;;
    nearest <- wr (h_nearest h) sample_index upper_bound ;;
    let h := mk_hamerly (h_centroids h) (h_indices h) nearest (h_second h) (h_neighbors h) (h_sizes h) (h_sums h)
               (h_velocities h) (h_loss h) in
    if e_lt upper_bound_comparison upper_bound then
      ' (lower_bound, upper_bound, new_assigned) <-
        other_centroids samples n_features (h_centroids h) sample_index upper_bound assigned ;;
      second <- wr (h_second h) sample_index lower_bound ;;
      let h := mk_hamerly (h_centroids h) (h_indices h) (h_nearest h) second (h_neighbors h) (h_sizes h) (h_sums h)
                 (h_velocities h) (h_loss h) in
      if assigned =? new_assigned then Ok h
      else
        nearest <- wr (h_nearest h) sample_index upper_bound ;;
        old_size <- rd (h_sizes h) assigned ;;
        sizes <- wr (h_sizes h) assigned (old_size - 1) ;;
        new_size <- rd sizes new_assigned ;;
        sizes <- wr sizes new_assigned (new_size + 1) ;;
        indices <- wr (h_indices h) sample_index new_assigned ;;
        sums <- accumulate_sample (n_sub a) samples n_features sample_index assigned (h_sums h) ;;
        sums <- accumulate_sample (n_add a) samples n_features sample_index new_assigned sums ;;
        let loss := match previous_distance with Some d => e_sub (h_loss h) d | None => h_loss h end in
        let loss := match upper_bound with Some d => e_add loss d | None => None end in
        Ok (mk_hamerly (h_centroids h) indices nearest (h_second h) (h_neighbors h) sizes sums (h_velocities h) loss)
    else Ok h
  else Ok h.

(** [swap_bounds]. Hamerly.hpp:118-216. *)
Definition swap_bounds (samples : list num) (n_features : nat) (h : hamerly) : res hamerly :=
  n_samples <- get_n_samples samples n_features ;;
  for_loop n_samples 0 (swap_bound samples n_features) h.

(** [update_centroids]: an empty cluster keeps its centroid. Hamerly.hpp:218-241. *)
Definition hamerly_update_centroids (n_features : nat) (sizes : list nat) (sums centroids : list num) : res (list num) :=
  n_centroids <- get_n_samples centroids n_features ;;
  for_loop n_centroids 0 (fun cluster centroids =>
    size <- rd sizes cluster ;;
    if size =? 0 then Ok centroids
    else
      new_position <- mean_of sums n_features cluster size ;;
      Ok (splice centroids (cluster * n_features) (cluster * n_features + n_features) new_position)) centroids.

(** [update_centroids_velocities]. Hamerly.hpp:243-258. *)
Definition update_centroids_velocities (n_features : nat) (previous_centroids centroids velocities : list num) : res (list num) :=
  n_centroids <- get_n_samples centroids n_features ;;
  for_loop n_centroids 0 (fun cluster velocities =>
    p <- sample_at previous_centroids n_features cluster ;;
    c <- sample_at centroids n_features cluster ;;
    wr velocities cluster (n_dist a p c)) velocities.

(** [get_second_max_index_value_pair]. [numeric_limits::lowest()] is [None], below every number; the value returned is
    a number because the vector has two elements.
    /repo/include/ffcl/common/math/statistics/Statistics.hpp:87-112. *)
Definition lowest_lt (x y : option num) : bool :=
  match x, y with
  | Some u, Some v => n_lt a u v
  | None, Some _ => true
  | _, None => false
  end.
Definition get_second_max_index_value_pair (l : list num) : res (nat * option num) :=
  ' (max_index, max_value) <- get_max_index_value_pair (n_lt a) l ;;
  if length l <? 2 then Ok (max_index, Some max_value)
  else
    masked <- wr (map Some l) max_index None ;;
    get_max_index_value_pair lowest_lt masked.

(** [update_bounds]. Hamerly.hpp:260-292. *)
Definition update_bounds (samples : list num) (n_features : nat) (h : hamerly) : res hamerly :=
  ' (furthest_index, furthest) <- get_max_index_value_pair (n_lt a) (h_velocities h) ;;
  ' (_, second_furthest) <- get_second_max_index_value_pair (h_velocities h) ;;
  n_samples <- get_n_samples samples n_features ;;
  ' (nearest, second) <-
    for_loop n_samples 0 (fun sample_index '(nearest, second) =>
      assigned <- rd (h_indices h) sample_index ;;
      v <- rd (h_velocities h) assigned ;;
      u <- rd nearest sample_index ;;
      nearest <- wr nearest sample_index (e_add u v) ;;
      l <- rd second sample_index ;;
      second <- wr second sample_index
                  (if assigned =? furthest_index
                   then match second_furthest with Some v => e_sub l v | None => None end
                   else e_sub l furthest) ;;
      Ok (nearest, second)) (h_nearest h, h_second h) ;;
  neighbors <- nearest_neighbor_distances e_lt None e_dist (h_centroids h) n_features ;;
  Ok (mk_hamerly (h_centroids h) (h_indices h) nearest second neighbors (h_sizes h) (h_sums h) (h_velocities h) (h_loss h)).

(** [step]. Hamerly.hpp:98-116. *)
Definition hamerly_step (samples : list num) (n_features : nat) (h : hamerly) : res hamerly :=
  h <- swap_bounds samples n_features h ;;
  centroids <- hamerly_update_centroids n_features (h_sizes h) (h_sums h) (h_centroids h) ;;
  velocities <- update_centroids_velocities n_features (h_centroids h) centroids (h_velocities h) ;;
  update_bounds samples n_features
    (mk_hamerly centroids (h_indices h) (h_nearest h) (h_second h) (h_neighbors h) (h_sizes h) (h_sums h) velocities (h_loss h)).

(** ** KMeans::fit *)
(** A class given as [KMeansAlgorithm]: constructor, [step], centroids returned by [step], [total_deviation]. KMeans.hpp:84-88. *)
Record algorithm := mk_algorithm {
  state : Type;
  alg_make : list num -> res state;
  alg_step : state -> res state;
  alg_centroids : state -> list num;
  alg_loss : state -> ext }.

(** /repo/include/ffcl/kmeans/Lloyd.hpp:20-50. *)
Definition lloyd_algorithm (samples : list num) (n_features : nat) : algorithm :=
  mk_algorithm lloyd (make_lloyd samples n_features) (lloyd_step samples n_features) ll_centroids ll_loss.
(** Hamerly.hpp:12-71. *)
Definition hamerly_algorithm (samples : list num) (n_features : nat) : algorithm :=
  mk_algorithm hamerly (make_hamerly samples n_features) (hamerly_step samples n_features) h_centroids h_loss.

(** Options without the tolerance, with their defaults. KMeans.hpp:29-69. *)
Record options := mk_options { max_iter : nat; early_stopping : bool; patience : nat; n_init : nat }.
Definition default_options : options := mk_options 100 true 0 1.

(** [are_containers_equal]; [close x y] is |x - y| <= tolerance. /repo/include/ffcl/common/Utils.hpp:504-540. *)
Definition are_containers_equal (close : num -> num -> bool) (l r : list num) : bool :=
  (length l =? length r) && forallb (fun '(x, y) => close x y) (combine l r).

(** The loop over the iterations. KMeans.hpp:192-215. *)
Fixpoint fit_loop (alg : algorithm) (o : options) (close : num -> num -> bool) (iterations patience_iteration : nat)
  (previous candidate : list num) (s : state alg) : res (list num * state alg) :=
  match iterations with
  | 0 => Ok (candidate, s)
  | S iterations =>
    s <- alg_step alg s ;;
    let candidate := alg_centroids alg s in
    if early_stopping o && are_containers_equal close candidate previous then
      if patience_iteration =? patience o then Ok (candidate, s)
      else fit_loop alg o close iterations (S patience_iteration) candidate candidate s
    else fit_loop alg o close iterations 0 candidate candidate s
  end.

(** The body of the loop over the candidates. KMeans.hpp:185-222. *)
Definition fit_candidate (alg : algorithm) (o : options) (close : num -> num -> bool) (candidate : list num)
  : res (list num * ext) :=
  s <- alg_make alg candidate ;;
  ' (centroids, s) <- fit_loop alg o close (max_iter o) 0 [] candidate s ;;
  Ok (centroids, alg_loss alg s).

(** [fit]. [centroids] are those of the object; [initializer i] is what the i-th call of [centroids_initializer] returns.
    Each iteration of the parallel loop writes its own elements only; the loop is sequential here
    (concurrent in ThreadsModel.v).
    [std::min_element] on no candidates returns the end and the read after it is undefined.
    KMeans.hpp:153-230, /repo/include/ffcl/common/math/statistics/Statistics.hpp:52-56. *)
Definition fit (alg : algorithm) (o : options) (close : num -> num -> bool) (centroids : list num) (initializer : nat -> list num)
  : res (list num) :=
  let candidates := match centroids with [] => map initializer (seq 0 (n_init o)) | _ => [centroids] end in
  results <- for_each candidates (fun candidate results =>
    r <- fit_candidate alg o close candidate ;; Ok (results ++ [r])) [] ;;
  ' (min_loss_index, _) <- get_max_index_value_pair (fun x y => e_lt y x) (map snd results) ;;
  ' (best, _) <- rd results min_loss_index ;;
  Ok best.
End Algorithms.
