(** Specification vocabulary for comparing two k-means algorithms. *)
From Coq Require Import List Arith Bool.
From Verif Require Import Base BufferSpec KMeansModel KMeansSpec.
Import ListNotations.

(** Each sample has one centroid nearer than all others, and each centroid is nearest to some sample. *)
Definition decisive (a : arith) (samples : list (num a)) (nf n k : nat) (centroids : list (num a)) : Prop :=
  (forall i, i < n -> exists j, j < k /\ forall j', j' < k -> j' <> j ->
     n_lt a (n_dist a (row samples nf i) (row centroids nf j)) (n_dist a (row samples nf i) (row centroids nf j')) = true) /\
  (forall c, c < k -> exists i, i < n /\ nearest_to (n_lt a) (n_dist a) centroids nf k (row samples nf i) c).
