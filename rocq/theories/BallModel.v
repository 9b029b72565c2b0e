(** Model of the queries of include/ffcl/datastruct/bounds/{Ball,UnboundedBall,AABBWithCentroid}.hpp not in BoundsModel.v:
    optional distances, diameters and the distance from the centre to the furthest side. *)
From Coq Require Import List Arith ZArith QArith Qround Bool.
From Verif Require Import Base BoundsModel BufferModel.
Import ListNotations.

(** [Ball::compute_distance_to_centroid_if_within_bounds_impl] on signed integers.
    /repo/include/ffcl/datastruct/bounds/Ball.hpp:89-97 and, for [BallView], 208-216. *)
Definition ball_distance_if_within (b : ball) (p : list Z) : res (option Z) :=
  d <- manhattan_distance p (ball_centroid b) ;;
  Ok (if (d <? ball_radius b)%Z then Some d else None).

(** [Ball::diameter_impl], [BallView::diameter_impl]. Ball.hpp:61-64 and 177-180. *)
Definition ball_diameter (b : ball) : Z := 2 * ball_radius b.

(** [Ball::centroid_to_furthest_bound_distance_impl] and [centroid_to_bound_distance_impl]. Ball.hpp:99-108 and 218-227. *)
Definition ball_to_bound (b : ball) : Z := ball_radius b.

(** [Ball::is_in_bounds] on floating point numbers in exact arithmetic. Ball.hpp:71-77 and 187-194, Distances.hpp:33-77.
    Simplified: [std::sqrt(d) < r] is decided on the squares. *)
Definition ball_is_in_bounds_float (b : ball) (p : list Z) : res bool :=
  d <- squared_euclidean_distance p (ball_centroid b) ;;
  Ok ((0 <? ball_radius b) && (d <? ball_radius b * ball_radius b))%Z.

(** [UnboundedBall::is_in_bounds_impl] and [UnboundedBallView::is_in_bounds_impl]: the arguments are not looked at.
    /repo/include/ffcl/datastruct/bounds/UnboundedBall.hpp:66-73 and 169-176. *)
Definition unbounded_is_in_bounds (p : list Z) : bool := true.

(** [UnboundedBall::diameter_impl] and [centroid_to_furthest_bound_distance_impl]. UnboundedBall.hpp:56-59, 94-103 and 199-208. *)
Definition unbounded_diameter (m : metric) : m_dist m := m_inf m.

(** [UnboundedBall::compute_distance_to_centroid_if_within_bounds_impl]. UnboundedBall.hpp:85-92 and 190-197. *)
Definition unbounded_distance_if_within (m : metric) (centroid p : list Z) : res (option (m_dist m)) :=
  d <- m_auto m p centroid ;; Ok (Some d).

(** [AABBWithCentroid::compute_distance_to_centroid_if_within_bounds_impl] on signed integers.
    /repo/include/ffcl/datastruct/bounds/AABBWithCentroid.hpp:152-160. *)
Definition box_distance_if_within (b : aabb) (p : list Z) : res (option Z) :=
  inside <- is_in_bounds (aabb_segments b) p ;;
  if inside then d <- manhattan_distance p (aabb_centroid b) ;; Ok (Some d) else Ok None.

(** [AABBWithCentroid::centroid_to_furthest_bound_distance_impl] on integers.
    /repo/include/ffcl/datastruct/bounds/AABBWithCentroid.hpp:162-174, LowerBoundAndUpperBound.hpp:69-73. *)
Definition box_to_furthest_int (segs : list segment) : Z :=
  fold_left (fun furthest s => let d := seg_centroid_to_bound_int s in if (furthest <? d)%Z then d else furthest) segs 0%Z.

(** [compute_size_from_center_with_left_rounding] on floating point numbers. /repo/include/ffcl/common/Utils.hpp:458-472. *)
Definition seg_centroid_to_bound_float (s : Q * Q) : Q := (snd s - fst s) / 2.
(** [compute_center_with_left_rounding] on floating point numbers. /repo/include/ffcl/common/Utils.hpp:442-456. *)
Definition seg_centroid_float (s : Q * Q) : Q := (fst s + snd s) / 2.

(** The conversion of a floating point number to [int]; undefined outside its range.
    AABBWithCentroid.hpp:170. *)
Definition to_int (x : Q) : res Z :=
  let z := if Qle_bool 0 x then Qfloor x else Qceiling x in
  if ((- 2 ^ 31 <=? z) && (z <? 2 ^ 31))%Z then Ok z else UB.

(** [AABBWithCentroid::centroid_to_furthest_bound_distance_impl] on floating point numbers in exact arithmetic:
    [auto furthest_distance = 0] is an [int]. AABBWithCentroid.hpp:162-174. *)
Definition box_to_furthest_float (segs : list (Q * Q)) : res Z :=
  for_each segs
    (fun s furthest =>
       if negb (Qle_bool (seg_centroid_to_bound_float s) (inject_Z furthest)) then to_int (seg_centroid_to_bound_float s)
       else Ok furthest) 0%Z.
