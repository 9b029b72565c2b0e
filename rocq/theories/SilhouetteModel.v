(** Model of include/ffcl/common/math/heuristics/SilhouetteMethod.hpp. Labels are unsigned; their count is not limited by the
    label type. *)
From Coq Require Import List Arith ZArith QArith Bool.
From Verif Require Import Base SortingModel SearchModel MatrixModel KMeansModel RandomModel.
Import ListNotations.
Local Open Scope nat_scope.

(** What the functions use of [ElementType]: zero, one, +, -, /, <, [common::infinity] and conversion of a count.
    SilhouetteMethod.hpp:76-268. *)
Record element := mk_element {
  el : Type;
  el_zero : el;
  el_one : el;
  el_add : el -> el -> el;
  el_sub : el -> el -> el;
  el_div : el -> el -> res el;
  el_lt : el -> el -> bool;
  el_inf : el;
  el_nat : nat -> el }.

(** Floating point in exact arithmetic with infinity and not-a-number (non-negative numerators and denominators: no negative infinity).
    Common arithmetic of IEEE 754; /repo/include/ffcl/common/Utils.hpp:393-396 for infinity. *)
Inductive ext := Fin (q : Q) | Inf | NaN.
Definition ext_add (a b : ext) : ext :=
  match a, b with
  | Fin x, Fin y => Fin (x + y)
  | NaN, _ | _, NaN => NaN
  | _, _ => Inf
  end.
Definition ext_sub (a b : ext) : ext :=
  match a, b with
  | Fin x, Fin y => Fin (x - y)
  | Inf, Fin _ => Inf
  | _, _ => NaN
  end.
Definition ext_div (a b : ext) : ext :=
  match a, b with
  | Fin x, Fin y => if Qeq_bool y 0 then (if Qeq_bool x 0 then NaN else Inf) else Fin (x / y)
  | Fin _, Inf => Fin 0
  | Inf, Fin y => Inf
  | _, _ => NaN
  end.
Definition ext_lt (a b : ext) : bool :=
  match a, b with
  | Fin x, Fin y => Qlt_bool x y
  | Fin _, Inf => true
  | _, _ => false
  end.
Definition real_element : element := mk_element ext (Fin 0) (Fin 1) ext_add ext_sub (fun a b => Ok (ext_div a b)) ext_lt Inf
  (fun k => Fin (inject_Z (Z.of_nat k))).

(** Integers (no overflow): [common::infinity] is 0, division truncates and by zero is undefined.
    Utils.hpp:393-396. *)
Definition integer_element : element := mk_element Z 0%Z 1%Z Z.add Z.sub (fun a b => if Z.eqb b 0 then UB else Ok (Z.quot a b)) Z.ltb 0%Z Z.of_nat.

(** [get_cluster_sizes]: the histogram of the labels; [*std::max_element] of no labels is undefined.
    /repo/include/ffcl/common/math/heuristics/SilhouetteMethod.hpp:32-51. *)
Definition get_cluster_sizes (labels : list nat) : res (list nat) :=
  match labels with
  | [] => UB
  | _ =>
    let n_centroids := 1 + fold_left Nat.max labels 0 in
    for_each labels (fun label histogram => c <- rd histogram label ;; wr histogram label (S c)) (repeat 0 n_centroids)
  end.

Section Silhouette.
Context {F : Type} (e : element) (dist : list F -> list F -> el e).

(** [auto_distance] of two samples. SilhouetteMethod.hpp:100-103 and 169-172. *)
Definition sample_distance (samples : list F) (n_features i j : nat) : res (el e) :=
  p <- sample_at samples n_features i ;;
  q <- sample_at samples n_features j ;;
  Ok (dist p q).

(** [cohesion]. SilhouetteMethod.hpp:69-115. *)
Definition cohesion (samples : list F) (n_features : nat) (labels : list nat) : res (list (el e)) :=
  n_samples <- get_n_samples samples n_features ;;
  cluster_sizes <- get_cluster_sizes labels ;;
  fill (el_zero e) n_samples (fun sample_index =>
    centroid_index <- rd labels sample_index ;;
    score <- for_loop n_samples 0 (fun other_sample_index score =>
      other_centroid_index <- rd labels other_sample_index ;;
      if (centroid_index =? other_centroid_index) && negb (sample_index =? other_sample_index)
      then d <- sample_distance samples n_features sample_index other_sample_index ;; Ok (el_add e score d)
      else Ok score) (el_zero e) ;;
    cluster_size <- rd cluster_sizes centroid_index ;;
    if 1 <? cluster_size then el_div e score (el_nat e (cluster_size - 1)) else Ok score).

(** The [std::transform] dividing each sum by the size of its cluster. SilhouetteMethod.hpp:177-186. *)
Fixpoint normalize_sums (sums : list (el e)) (sizes : list nat) : res (list (el e)) :=
  match sums, sizes with
  | [], _ => Ok []
  | _ :: _, [] => UB
  | s :: sums, k :: sizes =>
    m <- (if k =? 0 then Ok (el_inf e) else el_div e s (el_nat e k)) ;;
    ms <- normalize_sums sums sizes ;;
    Ok (m :: ms)
  end.

(** [*std::min_element]. SilhouetteMethod.hpp:190-191. *)
Definition min_element (l : list (el e)) : res (el e) :=
  match l with
  | [] => UB
  | x :: l => Ok (fold_left (fun m y => if el_lt e y m then y else m) l x)
  end.

(** [separation]. SilhouetteMethod.hpp:136-194. *)
Definition separation (samples : list F) (n_features : nat) (labels : list nat) : res (list (el e)) :=
  n_samples <- get_n_samples samples n_features ;;
  cluster_sizes <- get_cluster_sizes labels ;;
  fill (el_zero e) n_samples (fun sample_index =>
    centroid_index <- rd labels sample_index ;;
    sums <- for_loop n_samples 0 (fun other_sample_index sums =>
      other_centroid_index <- rd labels other_sample_index ;;
      if negb (centroid_index =? other_centroid_index)
      then
        d <- sample_distance samples n_features sample_index other_sample_index ;;
        s <- rd sums other_centroid_index ;;
        wr sums other_centroid_index (el_add e s d)
      else Ok sums) (repeat (el_zero e) (length cluster_sizes)) ;;
    means <- normalize_sums sums cluster_sizes ;;
    means <- wr means centroid_index (el_inf e) ;;
    min_element means).

(** [silhouette]. SilhouetteMethod.hpp:213-258. *)
Definition silhouette (samples : list F) (n_features : nat) (labels : list nat) : res (list (el e)) :=
  n_samples <- get_n_samples samples n_features ;;
  cohesion_values <- cohesion samples n_features labels ;;
  separation_values <- separation samples n_features labels ;;
  fill (el_zero e) n_samples (fun sample_index =>
    coh <- rd cohesion_values sample_index ;;
    sep <- rd separation_values sample_index ;;
    if el_lt e coh sep then q <- el_div e coh sep ;; Ok (el_sub e (el_one e) q)
    else if el_lt e sep coh then q <- el_div e sep coh ;; Ok (el_sub e q (el_one e))
    else Ok (el_zero e)).

(** [get_average_silhouette]. SilhouetteMethod.hpp:260-268. *)
Definition get_average_silhouette (scores : list (el e)) : res (el e) :=
  el_div e (fold_left (el_add e) scores (el_zero e)) (el_nat e (length scores)).
End Silhouette.
