(** The class KMedoids as an object on which several calls are made; integer samples. Paths are relative to
    /repo/include/ffcl/kmedoids. *)
From Coq Require Import List Arith ZArith.
From Verif Require Import Base SortingModel SearchModel MatrixModel RandomModel BufferModel KMedoidsModel.
Import ListNotations.

Section Object.
(** [precompute] is the template parameter [PrecomputePairwiseDistanceMatrix], [numeric_max] the largest number of the type.
    KMedoids.hpp:26-27, PAMUtils.hpp:44 and 76. *)
Context (precompute : bool) (numeric_max : Z).

(** The members. KMedoids.hpp:112-118. *)
Record kmedoids := mk_kmedoids { kd_count : nat; kd_medoids : list nat; kd_options : medoids_options }.

(** The constructors; a constructor without medoids leaves them empty. KMedoids.hpp:121-142. *)
Definition new_kmedoids (n_medoids : nat) (o : medoids_options) : kmedoids := mk_kmedoids n_medoids [] o.
Definition new_kmedoids_with (n_medoids : nat) (medoids : list nat) (o : medoids_options) : kmedoids := mk_kmedoids n_medoids medoids o.

(** The public member functions; [draw i] are the numbers drawn for the i-th start of this fit. KMedoids.hpp:76-110. *)
Inductive mcall :=
| mcall_set_options (o : medoids_options)
| mcall_fit_samples (samples : list Z) (n_features : nat) (draw : nat -> generator)
| mcall_fit_matrix (matrix : pairwise_matrix int_metric) (draw : nat -> generator)
| mcall_predict_samples (samples : list Z) (n_features : nat)
| mcall_predict_matrix (matrix : pairwise_matrix int_metric)
| mcall_forward_samples (samples : list Z) (n_features : nat)
| mcall_forward_matrix (matrix : pairwise_matrix int_metric).

(** What the calls return. KMedoids.hpp:76-110. *)
Inductive manswer :=
| manswer_self
| manswer_medoids (medoids : list nat)
| manswer_labels (labels : list nat)
| manswer_distances (distances : list Z).

(** Where [fit] on samples takes the distances from. The starts are drawn before the matrix is made; only the number of samples
    matters for them. KMedoids.hpp:158-159, 167-168, 187-193 and 197-202. *)
Definition fit_source (samples : list Z) (n_features : nat) : res (source Z) :=
  src <- samples_source int_metric samples n_features ;;
  if precompute then
    p <- pairwise_sequential int_metric 0%Z samples n_features ;;
    Ok (matrix_source int_metric 0%Z p)
  else Ok src.

(** One call. [set_options]: KMedoids.hpp:144-149; [fit]: 151-251, 253-336; [forward]: 338-353; [predict]: 355-370. *)
Definition do_mcall (c : mcall) (x : kmedoids) : res (manswer * kmedoids) :=
  match c with
  | mcall_set_options o => Ok (manswer_self, mk_kmedoids (kd_count x) (kd_medoids x) o)
  | mcall_fit_samples samples n_features draw =>
    src <- fit_source samples n_features ;;
    medoids <- medoids_fit signed_wrap numeric_max src (kd_options x) (kd_count x) (kd_medoids x) draw ;;
    Ok (manswer_medoids medoids, mk_kmedoids (kd_count x) medoids (kd_options x))
  | mcall_fit_matrix matrix draw =>
    medoids <- medoids_fit signed_wrap numeric_max (matrix_source int_metric 0%Z matrix) (kd_options x) (kd_count x) (kd_medoids x) draw ;;
    Ok (manswer_medoids medoids, mk_kmedoids (kd_count x) medoids (kd_options x))
  | mcall_predict_samples samples n_features =>
    labels <- predict_samples int_metric Z.eqb numeric_max samples n_features (kd_medoids x) ;;
    Ok (manswer_labels labels, x)
  | mcall_predict_matrix matrix =>
    labels <- predict_matrix int_metric 0%Z numeric_max matrix (kd_medoids x) ;;
    Ok (manswer_labels labels, x)
  | mcall_forward_samples samples n_features =>
    distances <- forward_samples int_metric numeric_max samples n_features (kd_medoids x) ;;
    Ok (manswer_distances distances, x)
  | mcall_forward_matrix matrix =>
    distances <- forward_matrix int_metric 0%Z numeric_max matrix (kd_medoids x) ;;
    Ok (manswer_distances distances, x)
  end.

(** A sequence of calls on one object. Not in the code: what a program using KMedoids.hpp:66-110 does. *)
Fixpoint do_mcalls (cs : list mcall) (x : kmedoids) : res (list manswer * kmedoids) :=
  match cs with
  | [] => Ok ([], x)
  | c :: cs =>
    ' (r, x) <- do_mcall c x ;;
    ' (rs, x) <- do_mcalls cs x ;;
    Ok (r :: rs, x)
  end.
End Object.
