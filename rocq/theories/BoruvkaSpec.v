(** Specification vocabulary for spanning trees of a dataset. *)
From Coq Require Import List Arith ZArith Permutation.
From Verif Require Import Base BufferModel BufferSpec SearchSpec GraphSpec.
Import ListNotations.

(** The order in which a hash map is iterated may depend on the round. *)
Definition permuting {A} (order : nat -> list A -> list A) : Prop := forall i l, Permutation (order i l) l.

(** Distance of two samples. *)
Definition between {D} (dist : list Z -> list Z -> D) (samples : list Z) (nf i j : nat) : D :=
  dist (row samples nf i) (row samples nf j).

(** Distances are symmetric, and those between the first [n] samples are smaller than infinity. *)
Definition finite_metric (m : metric) (dist : list Z -> list Z -> m_dist m) (samples : list Z) (nf n : nat) : Prop :=
  (forall p q, dist p q = dist q p) /\
  (forall i j, i < n -> j < n -> m_lt m (between dist samples nf i j) (m_inf m) = true).

(** [d] is the distance from sample [i] to the furthest of its [k] nearest samples, itself included. *)
Definition core_distance {D} (lt : D -> D -> bool) (dist : list Z -> list Z -> D) (samples : list Z) (nf n k i : nat)
  (d : D) : Prop :=
  exists stored j,
    k_nearest lt k (with_distances dist samples nf (row samples nf i) (seq 0 n)) stored /\ is_furthest lt stored (j, d).

Definition largest {D} (lt : D -> D -> bool) (w : D) (l : list D) : Prop :=
  In w l /\ forall x, In x l -> lt w x = false.

(** [w] is the mutual reachability distance of samples [i] and [j]. *)
Definition mutual_reachability {D} (lt : D -> D -> bool) (dist : list Z -> list Z -> D) (samples : list Z)
  (nf n k i j : nat) (w : D) : Prop :=
  exists ci cj, core_distance lt dist samples nf n k i ci /\ core_distance lt dist samples nf n k j cj /\
    largest lt w [ci; cj; between dist samples nf i j].

(** Sum of a value of the weights. *)
Definition total {D} (value : D -> Z) (edges : list (nat * nat * D)) : Z :=
  fold_right (fun e s => (value (snd e) + s)%Z) 0%Z edges.
