(** The class KMeans as an object on which several calls are made. Paths are relative to /repo/include/ffcl/kmeans. *)
From Coq Require Import List Arith.
From Verif Require Import Base KMeansModel.
Import ListNotations.

Section Object.
Context (a : arith).

(** [Options] with the tolerance, which is given as a comparison. KMeans.hpp:29-69. *)
Record settings := mk_settings { s_options : options; s_close : num a -> num a -> bool }.

(** The members. KMeans.hpp:118-124. *)
Record kmeans := mk_kmeans { km_count : nat; km_centroids : list (num a); km_settings : settings }.

(** The constructors; a constructor without centroids leaves them empty. KMeans.hpp:127-145. *)
Definition new_kmeans (n_centroids : nat) (s : settings) : kmeans := mk_kmeans n_centroids [] s.
Definition new_kmeans_with (n_centroids : nat) (centroids : list (num a)) (s : settings) : kmeans := mk_kmeans n_centroids centroids s.

(** The public member functions. [call_fit] names the algorithm, [lloyd_algorithm] or [hamerly_algorithm] (the default of the
    overloads); [initializer n i] is what the i-th call of [centroids_initializer] returns in this fit when asked for n
    centroids. KMeans.hpp:82-113. *)
Inductive call :=
| call_set_options (s : settings)
| call_fit (alg : list (num a) -> nat -> algorithm a) (samples : list (num a)) (n_features : nat) (initializer : nat -> nat -> list (num a))
| call_predict (samples : list (num a)) (n_features : nat)
| call_forward (samples : list (num a)) (n_features : nat).

(** What the calls return. KMeans.hpp:82-113. *)
Inductive answer :=
| answer_self
| answer_centroids (centroids : list (num a))
| answer_labels (labels : list nat)
| answer_distances (distances : list (ext a)).

(** One call. [set_options]: KMeans.hpp:147-151; [fit]: 153-265; [forward]: 267-274; [predict]: 276-283. *)
Definition do_call (c : call) (x : kmeans) : res (answer * kmeans) :=
  match c with
  | call_set_options s => Ok (answer_self, mk_kmeans (km_count x) (km_centroids x) s)
  | call_fit alg samples n_features initializer =>
    centroids <- fit a (alg samples n_features) (s_options (km_settings x)) (s_close (km_settings x)) (km_centroids x)
                   (initializer (km_count x)) ;;
    Ok (answer_centroids centroids, mk_kmeans (km_count x) centroids (km_settings x))
  | call_predict samples n_features =>
    labels <- samples_to_nearest_centroid_indices (e_lt a) None (e_dist a) samples n_features (km_centroids x) ;;
    Ok (answer_labels labels, x)
  | call_forward samples n_features =>
    distances <- samples_to_nearest_centroid_distances (e_lt a) None (e_dist a) samples n_features (km_centroids x) ;;
    Ok (answer_distances distances, x)
  end.

(** A sequence of calls on one object. Not in the code: what a program using KMeans.hpp:72-261 does. *)
Fixpoint do_calls (cs : list call) (x : kmeans) : res (list answer * kmeans) :=
  match cs with
  | [] => Ok ([], x)
  | c :: cs =>
    ' (r, x) <- do_call c x ;;
    ' (rs, x) <- do_calls cs x ;;
    Ok (r :: rs, x)
  end.
End Object.
