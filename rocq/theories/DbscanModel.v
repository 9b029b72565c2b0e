(** Model of include/ffcl/dbscan/DBSCAN.hpp.  Labels are [nat]; overflow of a narrow label type is not modelled. *)
From Coq Require Import List Arith ZArith Bool.
From Verif Require Import Base SortingModel BoundsModel BufferModel KDTreeModel SearchModel.
Import ListNotations.

(** [Options]: [min_samples_] and [radius_] (the radius has the type of a distance here).
    /repo/include/ffcl/dbscan/DBSCAN.hpp:31-54.  The default radius 0.1 is not an integer multiple of a quantum in
    general and is left out. *)
Record dbscan_options (D : Type) := { d_min_samples : nat; d_radius : D }.
Arguments Build_dbscan_options {D}.
Arguments d_min_samples {D}.
Arguments d_radius {D}.
Definition default_min_samples : nat := 5.

(** [std::copy_if] with a predicate that reads an array. DBSCAN.hpp:177-182. *)
Fixpoint copy_if {A} (keep : A -> res bool) (l : list A) : res (list A) :=
  match l with
  | [] => Ok []
  | x :: l' => k <- keep x ;; rest <- copy_if keep l' ;; Ok (if k : bool then x :: rest else rest)
  end.

Section Predict.
Context {D : Type} (min_samples : nat) (query : nat -> res (buffer D)).

(** [predict_inner]: the work list grows while it is scanned. DBSCAN.hpp:148-190. Returns [visited_indices] and
    [predictions]. *)
Fixpoint predict_inner (fuel cluster_sample_index : nat) (neighbors_indices : list nat) (visited_indices : list bool)
  (predictions : list nat) (cluster_label : nat) : res (list bool * list nat) :=
  match fuel with
  | 0 => Fuel
  | S fuel' =>
      if cluster_sample_index <? length neighbors_indices then
        neighbor_index <- rd neighbors_indices cluster_sample_index ;;
        visited <- rd visited_indices neighbor_index ;;
        '(neighbors', visited') <-
          (if visited : bool then Ok (neighbors_indices, visited_indices)
           else
             visited' <- wr visited_indices neighbor_index true ;;
             inner_neighbors_buffer <- query neighbor_index ;;
             if min_samples <? buf_size inner_neighbors_buffer then
               kept <- copy_if (fun i => v <- rd visited' i ;; Ok (negb v)) (buf_indices inner_neighbors_buffer) ;;
               Ok (neighbors_indices ++ kept, visited')
             else Ok (neighbors_indices, visited')) ;;
        prediction <- rd predictions neighbor_index ;;
        predictions' <- (if prediction =? 0 then wr predictions neighbor_index cluster_label else Ok predictions) ;;
        predict_inner fuel' (S cluster_sample_index) neighbors' visited' predictions' cluster_label
      else Ok (visited_indices, predictions)
  end.

(** Body of the loop over the entry points. DBSCAN.hpp:117-143. The state is the last label, the visited flags and the
    predictions. *)
Definition entry_point (n_samples entry_point_candidate_index : nat) (state : nat * list bool * list nat)
  : res (nat * list bool * list nat) :=
  let '(cluster_label, visited_indices, predictions) := state in
  visited <- rd visited_indices entry_point_candidate_index ;;
  if visited : bool then Ok state
  else
    visited' <- wr visited_indices entry_point_candidate_index true ;;
    nn_buffer_query <- query entry_point_candidate_index ;;
    if min_samples <? buf_size nn_buffer_query then
      let cluster_label' := S cluster_label in
      predictions' <- wr predictions entry_point_candidate_index cluster_label' ;;
      '(visited'', predictions'') <-
        predict_inner (n_samples * n_samples + n_samples + 1) 0 (buf_indices nn_buffer_query) visited' predictions'
          cluster_label' ;;
      Ok (cluster_label', visited'', predictions'')
    else
      predictions' <- wr predictions entry_point_candidate_index 0 ;;
      Ok (cluster_label, visited', predictions').

(** The body of [predict] after the searcher has been made. DBSCAN.hpp:104-146. *)
Definition predict_all (n_samples : nat) : res (list nat) :=
  '(_, _, predictions) <-
    for_loop n_samples 0 (entry_point n_samples) (0, repeat false n_samples, repeat 0 n_samples) ;;
  Ok predictions.
End Predict.

(** [predict]: the queries are radius searches around the features of a sample. DBSCAN.hpp:101-146; the number of
    samples is that of the whole dataset, /repo/include/ffcl/search/Search.hpp:105-108,
    /repo/include/ffcl/datastruct/tree/kdtree/KDTree.hpp:251-254. *)
Definition dbscan_predict (m : metric) (samples : list Z) (n_features : nat) (tree : kdtree)
  (o : dbscan_options (m_dist m)) : res (list nat) :=
  predict_all (d_min_samples o)
    (fun i =>
       centroid <- sample_at samples n_features i ;;
       '(b, _) <- search m samples n_features tree (Radius (d_radius o)) centroid accept_all default_capacity tt ;;
       Ok b)
    (length samples / n_features).
