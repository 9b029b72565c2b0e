(** Model of include/ffcl/datastruct/bounds (segments, boxes, their minimum distance) and of
    include/ffcl/datastruct/Interval.hpp. *)
From Coq Require Import List Arith ZArith Bool.
From Verif Require Import Base SortingModel.
Import ListNotations.
Local Open Scope Z_scope.

(** [LowerBoundAndUpperBound]: the pair of bounds.
    /repo/include/ffcl/datastruct/bounds/segment/LowerBoundAndUpperBound.hpp:10-29 (accessors 44-62). *)
Record segment := mk_segment { seg_lower : Z; seg_upper : Z }.

(** [update_lower_bound_impl]. LowerBoundAndUpperBound.hpp:49-52. *)
Definition seg_update_lower (s : segment) (v : Z) : segment := mk_segment v (seg_upper s).
(** [update_upper_bound_impl]. LowerBoundAndUpperBound.hpp:59-62. *)
Definition seg_update_upper (s : segment) (v : Z) : segment := mk_segment (seg_lower s) v.
(** [contains_value_impl]. LowerBoundAndUpperBound.hpp:76-78. *)
Definition seg_contains (s : segment) (v : Z) : bool := negb ((v <? seg_lower s) || (seg_upper s <? v)).

(** [compute_center_with_left_rounding] on integers; C++ division truncates.
    /repo/include/ffcl/common/Utils.hpp:442-456. *)
Definition compute_center_int (lower upper : Z) : Z :=
  let s := lower + upper in
  if s <? 0 then Z.quot s 2 - 1 else Z.quot s 2.

(** [compute_size_from_center_with_left_rounding] on integers. /repo/include/ffcl/common/Utils.hpp:458-472. *)
Definition compute_size_int (lower upper : Z) : Z := 1 + upper - compute_center_int lower upper.

(** [centroid_impl] for an integer segment. LowerBoundAndUpperBound.hpp:64-67. *)
Definition seg_centroid_int (s : segment) : Z := compute_center_int (seg_lower s) (seg_upper s).
(** [centroid_to_bound_distance_impl] for an integer segment. LowerBoundAndUpperBound.hpp:69-73. *)
Definition seg_centroid_to_bound_int (s : segment) : Z := compute_size_int (seg_lower s) (seg_upper s).

(** [LowerBoundAndLength].
    /repo/include/ffcl/datastruct/bounds/segment/LowerBoundAndLength.hpp:8-27. *)
Record segment_len := mk_segment_len { sl_lower : Z; sl_length : Z }.
(** [upper_bound_impl]. LowerBoundAndLength.hpp:51-54. *)
Definition sl_upper (s : segment_len) : Z := sl_lower s + sl_length s.
(** [update_lower_bound_impl]. LowerBoundAndLength.hpp:46-49. *)
Definition sl_update_lower (s : segment_len) (v : Z) : segment_len := mk_segment_len v (sl_length s).
(** [update_upper_bound_impl]. LowerBoundAndLength.hpp:56-59. *)
Definition sl_update_upper (s : segment_len) (v : Z) : segment_len := mk_segment_len (sl_lower s) (v - sl_lower s).
(** [contains_value_impl] for integers. LowerBoundAndLength.hpp:84-88. *)
Definition sl_contains_int (s : segment_len) (v : Z) : bool :=
  negb ((v <? sl_lower s) || (sl_lower s + sl_length s - 1 <? v)).

(** [min_distance] of two segments.
    /repo/include/ffcl/datastruct/bounds/segment/distances/MinDistance.hpp:12-30. *)
Definition seg_min_distance (a b : segment) : Z :=
  if seg_upper a <? seg_lower b then seg_lower b - seg_upper a
  else if seg_upper b <? seg_lower a then seg_lower a - seg_upper b
  else 0.

(** [AABBWithCentroid]: the centroid is stored next to the segments.
    /repo/include/ffcl/datastruct/bounds/AABBWithCentroid.hpp:63-66. *)
Record aabb := mk_aabb { aabb_centroid : list Z; aabb_segments : list segment }.

(** Constructor from segments. AABBWithCentroid.hpp:68-96. *)
Definition make_aabb (center : segment -> Z) (segments : list segment) : aabb :=
  mk_aabb (map center segments) segments.

(** [bound.segment_at(i).update_upper_bound(v)]: only the segment changes, the stored centroid does not.
    AABBWithCentroid.hpp:216-219 with LowerBoundAndUpperBound.hpp:59-62. *)
Definition aabb_update_upper (b : aabb) (i : nat) (v : Z) : res aabb :=
  s <- rd (aabb_segments b) i ;;
  segs <- wr (aabb_segments b) i (seg_update_upper s v) ;;
  Ok (mk_aabb (aabb_centroid b) segs).

(** [bound.segment_at(i).update_lower_bound(v)]. AABBWithCentroid.hpp:216-219 with LowerBoundAndUpperBound.hpp:49-52. *)
Definition aabb_update_lower (b : aabb) (i : nat) (v : Z) : res aabb :=
  s <- rd (aabb_segments b) i ;;
  segs <- wr (aabb_segments b) i (seg_update_lower s v) ;;
  Ok (mk_aabb (aabb_centroid b) segs).

(** [is_in_bounds_impl]: [segments_[i]] is read for every feature of the argument.
    /repo/include/ffcl/datastruct/bounds/AABBWithCentroid.hpp:126-138, AABB.hpp:69-81. *)
Fixpoint is_in_bounds_from (segs : list segment) (i : nat) (p : list Z) : res bool :=
  match p with
  | [] => Ok true
  | v :: p' =>
      s <- rd segs i ;;
      if negb (seg_contains s v) then Ok false else is_in_bounds_from segs (S i) p'
  end.
Definition is_in_bounds (segs : list segment) (p : list Z) : res bool := is_in_bounds_from segs 0 p.

(** [min_distance] of two boxes, squared: the final [std::sqrt] is left out.
    /repo/include/ffcl/datastruct/bounds/distances/MinDistance.hpp:15-33 and 35-53. *)
Definition aabb_min_distance_sq (a b : list segment) : res Z :=
  for_loop (length b) 0%nat
    (fun i acc => s1 <- rd a i ;; s2 <- rd b i ;;
                  let d := seg_min_distance s1 s2 in Ok (acc + d * d)) 0.

(** [diameter_impl], squared. /repo/include/ffcl/datastruct/bounds/AABB.hpp:51-60,
    AABBWithCentroid.hpp:110-119. *)
Definition aabb_diameter_sq (a : list segment) : Z :=
  fold_left (fun acc s => let l := seg_upper s - seg_lower s in acc + l * l) a 0.

(** [manhattan_distance]; the left range drives the loop, the end of the right range is not looked at.
    /repo/include/ffcl/common/math/heuristics/Distances.hpp:94-119. *)
Fixpoint manhattan_distance (l r : list Z) : res Z :=
  match l, r with
  | [], _ => Ok 0
  | _ :: _, [] => UB
  | x :: l', y :: r' => d <- manhattan_distance l' r' ;; Ok (Z.abs (x - y) + d)
  end.

(** [Ball]: a centroid and a radius. /repo/include/ffcl/datastruct/bounds/Ball.hpp:46-48. *)
Record ball := mk_ball { ball_centroid : list Z; ball_radius : Z }.

(** [Ball::is_in_bounds] on signed integers. Ball.hpp:73-79 and 187-194 ([BallView]). *)
Definition ball_is_in_bounds_int (b : ball) (p : list Z) : res bool :=
  d <- manhattan_distance p (ball_centroid b) ;; Ok (d <? ball_radius b).

(** [min_distance] of two balls on signed integers ([BallView] is the same).
    /repo/include/ffcl/datastruct/bounds/distances/MinDistance.hpp:53-66 and 68-82. *)
Definition ball_min_distance_int (a b : ball) : res Z :=
  d <- manhattan_distance (ball_centroid a) (ball_centroid b) ;;
  Ok (Z.max 0 (d - (ball_radius a + ball_radius b))).

Section Tight.
(** [std::numeric_limits<DataType>::lowest()] and [max()]. *)
Context (lowest max : Z) (samples : list Z) (n_features : nat).

(** The two [if]s applied to one segment. /repo/include/ffcl/datastruct/Interval.hpp:132-137. *)
Definition tighten (s : segment) (v : Z) : segment :=
  let s := if v <? seg_lower s then seg_update_lower s v else s in
  if seg_upper s <? v then seg_update_upper s v else s.

(** Loop body over the features of one sample. Interval.hpp:127-138. *)
Definition tight_step (index : nat) (feature_index : nat) (segs : list segment) : res (list segment) :=
  v <- feature samples n_features index feature_index ;;
  s <- rd segs feature_index ;;
  wr segs feature_index (tighten s v).

(** [make_tight_bound] over an index range, segments only.
    /repo/include/ffcl/datastruct/Interval.hpp:109-142. *)
Definition make_tight_segments (indices : list nat) : res (list segment) :=
  for_each indices (fun index => for_loop n_features 0%nat (tight_step index))
    (repeat (mk_segment max lowest) n_features).

(** [make_tight_segment] over an index range. Interval.hpp:43-75. *)
Definition make_tight_segment (indices : list nat) (feature_index : nat) : res segment :=
  for_each indices
    (fun index s => v <- feature samples n_features index feature_index ;; Ok (tighten s v))
    (mk_segment max lowest).

(** [make_tight_bound] over the whole dataset. /repo/include/ffcl/datastruct/Interval.hpp:77-107,
    number of samples /repo/include/ffcl/common/Utils.hpp:612-622. *)
Definition make_tight_segments_all : res (list segment) :=
  make_tight_segments (seq 0 (length samples / n_features)%nat).
End Tight.
