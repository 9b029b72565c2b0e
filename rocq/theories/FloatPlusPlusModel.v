(** k-means++ on [float] and [double] with their rounding. *)
From Coq Require Import List Arith ZArith Bool.
From Flocq Require Import Core BinarySingleNaN.
From Verif Require Import Base SearchModel RandomModel FloatModel FloatKMeansModel FloatAliasModel.
Import ListNotations.

Section Binary.
Context (prec emax : Z) (Hp : Prec_gt_0 prec) (Hm : Prec_lt_emax prec emax) (order : nat -> grouping).
Notation number := (binary_float prec emax).

(** Choosing the next sample; [unit call] is what the generator of the alias table gives.
    /repo/include/ffcl/kmeans/KMeansPlusPlus.hpp:52-62 and 96-107. *)
Definition float_next (samples : list number) (n_features : nat) (unit : nat -> number) (centroid_index : nat) (centroids : list number)
  : res (list number) :=
  distances <- float_forward prec emax Hp Hm order samples n_features centroids ;;
  table <- f_make_table prec emax Hp Hm distances ;;
  random_index <- f_sample prec emax Hp Hm table (unit (2 * centroid_index)) (unit (2 * centroid_index + 1)) ;;
  sample_at samples n_features random_index.

(** [make_centroids]. KMeansPlusPlus.hpp:40-65. *)
Definition float_centroids (draw : generator) (unit : nat -> number) (samples : list number) (n_features n_centroids : nat) : res (list number) :=
  first <- select_random_sample draw samples n_features ;;
  for_loop (n_centroids - 1) 1 (fun centroid_index centroids =>
    s <- float_next samples n_features unit centroid_index centroids ;;
    Ok (centroids ++ s)) first.

(** [make_centroids_from_previous_centroid]. KMeansPlusPlus.hpp:82-112. *)
Definition float_centroids_previous (draw : generator) (unit : nat -> number) (samples : list number) (n_features n_centroids : nat)
  : res (list number) :=
  first <- select_random_sample draw samples n_features ;;
  ' (_, centroids) <- for_loop (n_centroids - 1) 1 (fun centroid_index '(previous, centroids) =>
    s <- float_next samples n_features unit centroid_index previous ;;
    Ok (s, centroids ++ s)) (first, first) ;;
  Ok centroids.
End Binary.
