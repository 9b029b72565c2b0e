(** Specification vocabulary for searches. *)
From Coq Require Import List Arith ZArith.
From Verif Require Import Base BoundsSpec BufferModel BufferSpec.
Import ListNotations.

(** [dist] is the distance computed by the value type; it orders.  A point beyond a value on one axis is not closer than
    another point that the distance along that axis reaches: this is what pruning needs, it follows when distances are
    never smaller than the distance along one axis, and it also holds when both are rounded. *)
Record metric_ok (m : metric) (dist : list Z -> list Z -> m_dist m) : Prop := {
  mo_order : order_ok (m_lt m);
  mo_auto : forall p q, length p = length q -> m_auto m p q = Ok (dist p q);
  mo_gap : forall p other q a v, a < length p -> length p = length q -> length other = length q ->
    (nth a q 0 <= v <= nth a p 0 \/ nth a p 0 <= v <= nth a q 0)%Z ->
    m_lt m (m_gap m v (nth a q 0%Z)) (dist other q) = false ->
    m_lt m (dist p q) (dist other q) = false }.

(** Infinity really is larger than every distance along an axis between two lists of features. *)
Definition infinity_ok (m : metric) (samples query : list Z) : Prop :=
  forall a b, In a samples -> In b query -> m_lt m (m_gap m a b) (m_inf m) = true.

(** The samples of a list with their distance to the query. *)
Definition with_distances {D} (dist : list Z -> list Z -> D) (samples : list Z) (nf : nat) (query : list Z)
  (ys : list nat) : list (nat * D) :=
  map (fun i => (i, dist (row samples nf i) query)) ys.
