(** Model of include/ffcl/common/math/random (Sampling.hpp, VosesAliasMethod.hpp) and of include/ffcl/kmeans/KMeansPlusPlus.hpp.
    Random numbers are a parameter: the result of the calls of a generator, as a function of the number of the call
    and, for [uniform_distribution], of its bounds. *)
From Coq Require Import List Arith ZArith QArith Qround Bool.
From Verif Require Import Base SortingModel BufferModel SearchModel MatrixModel KMeansModel.
Import ListNotations.
Local Open Scope nat_scope.

(** ** Sampling.hpp *)
(** [draw call lower upper]: what [uniform_distribution{lower, upper}()] returns.
    /repo/include/ffcl/common/math/random/Distributions.hpp:41-63. *)
Definition generator := nat -> nat -> nat -> nat.

(** [select_n_elements]. /repo/include/ffcl/common/math/random/Sampling.hpp:12-26. *)
Definition select_n_elements {A} (draw : generator) (elements : list A) (n_elements : nat) : res (list A) :=
  selected <- for_loop n_elements 0 (fun element_index selected =>
    swap selected element_index (draw element_index element_index (n_elements - 1))) elements ;;
  Ok (firstn n_elements selected).

(** [make_n_elements_from_interval] with interval [{0, length}]. The assertions are left out.
    Sampling.hpp:28-43. *)
Definition make_n_elements_from_interval (draw : generator) (n_choices length : nat) : res (list nat) :=
  select_n_elements draw (seq 0 length) n_choices.

(** [select_random_sample]. Sampling.hpp:45-60. *)
Definition select_random_sample {A} (draw : generator) (samples : list A) (n_features : nat) : res (list A) :=
  n_samples <- get_n_samples samples n_features ;;
  sample_at samples n_features (draw 0 0 (n_samples - 1)).

(** [select_n_random_samples]. [zero] is the value of a new element. Sampling.hpp:62-84. *)
Definition select_n_random_samples {A} (zero : A) (draw : generator) (samples : list A) (n_features n_choices : nat) : res (list A) :=
  n_samples <- get_n_samples samples n_features ;;
  let n_choices := Nat.min n_choices n_samples in
  indices <- make_n_elements_from_interval draw n_choices n_samples ;;
  for_loop n_choices 0 (fun sample_index random_samples =>
    index <- rd indices sample_index ;;
    s <- sample_at samples n_features index ;;
    Ok (splice random_samples (sample_index * n_features) (sample_index * n_features + n_features) s))
    (repeat zero (n_choices * n_features)).

(** [init_uniform]. Sampling.hpp:152-175. *)
Definition init_uniform {A} (zero : A) (draw : generator) (samples : list A) (n_features n_centroids : nat) : res (list A) :=
  n_samples <- get_n_samples samples n_features ;;
  indices <- make_n_elements_from_interval draw n_centroids n_samples ;;
  for_loop n_centroids 0 (fun centroid_index centroids =>
    index <- rd indices centroid_index ;;
    for_loop n_features 0 (fun feature_index centroids =>
      x <- rd samples (index * n_features + feature_index) ;;
      wr centroids (centroid_index * n_features + feature_index) x) centroids)
    (repeat zero (n_centroids * n_features)).

(** [init_spatial_uniform] on values in units of a quantum. [numeric_max] and [numeric_min] are
    [std::numeric_limits<DataType>::max()] and [::min()]; for floating point the latter is the least positive normal number.
    [real call lower upper] is what [uniform_distribution{lower, upper}()] returns; it is undefined if upper < lower.
    Sampling.hpp:113-150. *)
Definition min_max_buffers (numeric_max numeric_min : Z) (samples : list Z) (n_features n_samples : nat) : res (list Z * list Z) :=
  for_loop n_samples 0 (fun sample_index buffers =>
    for_loop n_features 0 (fun feature_index '(min_buffer, max_buffer) =>
      curr_elem <- rd samples (feature_index + sample_index * n_features) ;;
      lo <- rd min_buffer feature_index ;;
      hi <- rd max_buffer feature_index ;;
      min_buffer <- wr min_buffer feature_index (if Z.ltb lo curr_elem then lo else curr_elem) ;;
      max_buffer <- wr max_buffer feature_index (if Z.ltb curr_elem hi then hi else curr_elem) ;;
      Ok (min_buffer, max_buffer)) buffers)
    (repeat numeric_max n_features, repeat numeric_min n_features).
Definition init_spatial_uniform (numeric_max numeric_min : Z) (real : nat -> Z -> Z -> Z) (samples : list Z)
  (n_features n_centroids : nat) : res (list Z) :=
  n_samples <- get_n_samples samples n_features ;;
  ' (min_buffer, max_buffer) <- min_max_buffers numeric_max numeric_min samples n_features n_samples ;;
  for_loop n_centroids 0 (fun centroid_index centroids =>
    for_loop n_features 0 (fun feature_index centroids =>
      lo <- rd min_buffer feature_index ;;
      hi <- rd max_buffer feature_index ;;
      if Z.ltb hi lo then UB
      else wr centroids (feature_index + centroid_index * n_features) (real (centroid_index * n_features + feature_index) lo hi))
      centroids)
    (repeat 0%Z (n_centroids * n_features)).

(** ** VosesAliasMethod.hpp *)
(** A floating-point value in exact arithmetic; [None] is not a number, for which every comparison is false. *)
Definition value := option Q.
Definition Qlt_bool (x y : Q) : bool := negb (Qle_bool y x).
Definition v_lt (x : value) (y : Q) : bool := match x with Some q => Qlt_bool q y | None => false end.
(** [x += y - 1]. /repo/include/ffcl/common/math/random/VosesAliasMethod.hpp:87. *)
Definition v_transfer (x y : value) : value := match x, y with Some q, Some r => Some (q + (r - 1))%Q | _, _ => None end.

(** The table. VosesAliasMethod.hpp:33-37. *)
Record alias_table := mk_table { n_weights : nat; alias : list nat; probabilities : list value }.

(** An array used as a stack, top first; its capacity is [n]. VosesAliasMethod.hpp:59-63. *)
Definition push (n : nat) (stack : list nat) (x : nat) : res (list nat) := if length stack <? n then Ok (x :: stack) else UB.

(** The weights times n / sum. If the sum is 0 then so are the (non-negative) weights, the factor is infinity and the products
    are not numbers. VosesAliasMethod.hpp:65-71. *)
Definition normalize (weights : list Q) : list value :=
  let sum := fold_left Qplus weights 0%Q in
  let norm_fact := (inject_Z (Z.of_nat (length weights)) / sum)%Q in
  map (fun w => if Qeq_bool sum 0 then None else Some (w * norm_fact)%Q) weights.

(** Distribution of the indices, last first. VosesAliasMethod.hpp:74-81. *)
Definition distribute (n : nat) (fake : list value) (index : nat) (stacks : list nat * list nat) : res (list nat * list nat) :=
  let '(small, large) := stacks in
  x <- rd fake index ;;
  if v_lt x 1 then small <- push n small index ;; Ok (small, large)
  else large <- push n large index ;; Ok (small, large).

(** The loop [while (n_small && n_large)]. VosesAliasMethod.hpp:82-96. *)
Fixpoint pair_up (fuel n : nat) (fake : list value) (small large : list nat) (alias : list nat) (probabilities : list value)
  : res (list nat * list nat * list nat * list value) :=
  match small, large with
  | small_index :: small, large_index :: large =>
    match fuel with
    | 0 => Fuel
    | S fuel =>
      x <- rd fake small_index ;;
      probabilities <- wr probabilities small_index x ;;
      alias <- wr alias small_index large_index ;;
      y <- rd fake large_index ;;
      let y := v_transfer y x in
      fake <- wr fake large_index y ;;
      ' (small, large) <- distribute n fake large_index (small, large) ;;
      pair_up fuel n fake small large alias probabilities
    end
  | _, _ => Ok (small, large, alias, probabilities)
  end.

(** Constructor and [init]. VosesAliasMethod.hpp:40-53 and 55-103. *)
Definition make_alias_table (weights : list Q) : res alias_table :=
  let n := length weights in
  if n =? 0 then Throw
  else
    let fake := normalize weights in
    ' (small, large) <- for_each (rev (seq 0 n)) (distribute n fake) ([], []) ;;
    ' (small, large, alias, probabilities) <- pair_up n n fake small large (repeat 0 n) (repeat (Some 0%Q) n) ;;
    probabilities <- for_each large (fun i p => wr p i (Some 1%Q)) probabilities ;;
    probabilities <- for_each small (fun i p => wr p i (Some 1%Q)) probabilities ;;
    Ok (mk_table n alias probabilities).

(** [sample]; [u] and [v] are the results of the two calls of [rand_].
    VosesAliasMethod.hpp:105-109. *)
Definition alias_sample (t : alias_table) (u v : Q) : res nat :=
  let random_index := Z.to_nat (Qfloor (inject_Z (Z.of_nat (n_weights t)) * u)) in
  p <- rd (probabilities t) random_index ;;
  let v_less_p := match p with Some q => Qlt_bool v q | None => false end in
  if v_less_p then Ok random_index else rd (alias t) random_index.

(** ** KMeansPlusPlus.hpp *)
Section PlusPlus.
(** Distances are rational; [None] is infinity. [inf] is [common::infinity] of the value type. *)
Context {F : Type} (inf : option Q) (dist : list F -> list F -> Q).
Definition d_lt (x y : option Q) : bool :=
  match x, y with
  | Some u, Some v => Qlt_bool u v
  | Some _, None => true
  | None, _ => false
  end.
Definition d_dist (p r : list F) : option Q := Some (dist p r).

(** The weights given to the alias method; there is a centroid, so no distance is infinite (undefined here).
    /repo/include/ffcl/kmeans/KMeansPlusPlus.hpp:53-56 and 98-101. *)
Definition weights_of (samples : list F) (n_features : nat) (centroids : list F) : res (list Q) :=
  distances <- samples_to_nearest_centroid_distances d_lt inf d_dist samples n_features centroids ;;
  for_each distances (fun d ws => match d with Some q => Ok (ws ++ [q]) | None => UB end) [].

(** Choosing the next sample from the distances to [centroids]; [unit call] is a number in [0, 1).
    KMeansPlusPlus.hpp:53-62 and 97-107. *)
Definition next_sample (samples : list F) (n_features : nat) (unit : nat -> Q) (centroid_index : nat) (centroids : list F)
  : res (list F) :=
  weights <- weights_of samples n_features centroids ;;
  table <- make_alias_table weights ;;
  random_index <- alias_sample table (unit (2 * centroid_index)) (unit (2 * centroid_index + 1)) ;;
  sample_at samples n_features random_index.

(** [make_centroids]. KMeansPlusPlus.hpp:40-65. *)
Definition make_centroids (draw : generator) (unit : nat -> Q) (samples : list F) (n_features n_centroids : nat) : res (list F) :=
  first <- select_random_sample draw samples n_features ;;
  for_loop (n_centroids - 1) 1 (fun centroid_index centroids =>
    s <- next_sample samples n_features unit centroid_index centroids ;;
    Ok (centroids ++ s)) first.

(** [make_centroids_from_previous_centroid]. KMeansPlusPlus.hpp:82-112. *)
Definition make_centroids_from_previous_centroid (draw : generator) (unit : nat -> Q) (samples : list F) (n_features n_centroids : nat)
  : res (list F) :=
  first <- select_random_sample draw samples n_features ;;
  ' (_, centroids) <- for_loop (n_centroids - 1) 1 (fun centroid_index '(previous, centroids) =>
    s <- next_sample samples n_features unit centroid_index previous ;;
    Ok (s, centroids ++ s)) (first, first) ;;
  Ok centroids.
End PlusPlus.
