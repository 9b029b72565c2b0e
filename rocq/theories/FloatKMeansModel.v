(** Lloyd's algorithm on [float] and [double] with their rounding. *)
From Coq Require Import List Arith ZArith Bool.
From Flocq Require Import Core BinarySingleNaN.
From Verif Require Import Base SortingModel MatrixModel KMeansModel FloatModel FloatSilhouetteModel.
Import ListNotations.

Section Binary.
Context (prec emax : Z) (Hp : Prec_gt_0 prec) (Hm : Prec_lt_emax prec emax) (order : nat -> grouping).
Notation number := (binary_float prec emax).

(** The arithmetic of a binary format: +, -, division by a [static_cast]ed count, <, and the Euclidean distance.
    Lloyd.hpp does not call [common::equality]; == stands in its place.
    /repo/include/ffcl/kmeans/KMeansUtils.hpp:136-162, /repo/include/ffcl/kmeans/Lloyd.hpp:101-129,
    /repo/include/ffcl/common/math/heuristics/Distances.hpp:261-278. *)
Definition binary_arith : arith :=
  mk_arith number (B754_zero false) (Bplus mode_NE) (Bminus mode_NE) (fun x k => Bdiv mode_NE x (count prec emax Hp Hm k)) Bltb Beqb
    (euclidean prec emax Hp Hm order).

(** [samples_to_nearest_centroid_indices]; infinity is the infinity of the format, so that a distance that overflows is
    not below it. KMeansUtils.hpp:8-42, /repo/include/ffcl/common/Utils.hpp:393-396. *)
Definition float_predict (samples : list number) (n_features : nat) (centroids : list number) : res (list nat) :=
  samples_to_nearest_centroid_indices Bltb (B754_infinity false) (euclidean prec emax Hp Hm order) samples n_features centroids.

(** [samples_to_nearest_centroid_distances]. KMeansUtils.hpp:44-75. *)
Definition float_forward (samples : list number) (n_features : nat) (centroids : list number) : res (list number) :=
  samples_to_nearest_centroid_distances Bltb (B754_infinity false) (euclidean prec emax Hp Hm order) samples n_features centroids.

(** The centroids after [step]; the assignment used is the one computed from the centroids before, by the constructor or
    by the step before. The loss is left out. Lloyd.hpp:90-99, 101-129 and 151-166. *)
Definition float_step (samples : list number) (n_features : nat) (centroids : list number) : res (list number) :=
  indices <- float_predict samples n_features centroids ;;
  n_centroids <- get_n_samples centroids n_features ;;
  sizes <- compute_cluster_sizes indices n_centroids ;;
  sums <- compute_cluster_positions_sum binary_arith samples n_features indices n_centroids ;;
  lloyd_update_centroids binary_arith n_features sizes sums centroids.

(** [n] calls of [step]. Lloyd.hpp:90-99. *)
Fixpoint float_steps (n : nat) (samples : list number) (n_features : nat) (centroids : list number) : res (list number) :=
  match n with
  | 0 => Ok centroids
  | S n => c <- float_step samples n_features centroids ;; float_steps n samples n_features c
  end.
End Binary.
