(** Model of include/ffcl/search/buffer (StaticBuffer, Unsorted, WithMemory, WithUnionFind) and of the distances and
    bounds they use. *)
From Coq Require Import List Arith ZArith Bool.
From Verif Require Import Base SortingModel BoundsModel UnionFindModel.
Import ListNotations.

(** What the search code uses of a value type: its distance type with [operator<], [common::infinity<T>()],
    [common::abs(a - b)] and [auto_distance].
    /repo/include/ffcl/common/Utils.hpp:393-409,
    /repo/include/ffcl/common/math/heuristics/Distances.hpp:261-300. *)
Record metric := mk_metric {
  m_dist : Type;
  m_lt : m_dist -> m_dist -> bool;
  m_inf : m_dist;
  m_gap : Z -> Z -> m_dist;
  m_auto : list Z -> list Z -> res m_dist }.

(** Signed integers: Manhattan distance, and [std::numeric_limits<int>::infinity()] is 0.
    Distances.hpp:94-118 and 279-284, Utils.hpp:393-403. *)
Definition int_metric : metric := mk_metric Z Z.ltb 0%Z (fun a b => Z.abs (a - b)) manhattan_distance.

(** [squared_euclidean_distance]; the left range drives the loop.
    /repo/include/ffcl/common/math/heuristics/Distances.hpp:33-60. *)
Fixpoint squared_euclidean_distance (l r : list Z) : res Z :=
  match l, r with
  | [], _ => Ok 0%Z
  | _ :: _, [] => UB
  | x :: l', y :: r' =>
      d <- squared_euclidean_distance l' r' ;;
      let tmp := (x - y)%Z in Ok (tmp * tmp + d)%Z
  end.

(** Order of squared distances with infinity on top. *)
Definition opt_lt (a b : option Z) : bool :=
  match a, b with
  | Some x, Some y => (x <? y)%Z
  | Some _, None => true
  | None, _ => false
  end.

(** Floating point numbers in exact arithmetic.  Distances.hpp:67-77 and 273-278, Utils.hpp:404-405.
    Simplified: a distance is represented by its square ([std::sqrt] is left out and [|a - b|] is squared), infinity
    by [None]. *)
Definition float_metric : metric :=
  mk_metric (option Z) opt_lt None (fun a b => Some ((a - b) * (a - b))%Z)
    (fun l r => d <- squared_euclidean_distance l r ;; Ok (Some d)).

(** [unsigned_manhattan_distance] on 32-bit values, with wrapping addition. Distances.hpp:135-158. *)
Fixpoint unsigned_manhattan_distance (l r : list Z) : res Z :=
  match l, r with
  | [], _ => Ok 0%Z
  | _ :: _, [] => UB
  | lhs :: l', rhs :: r' =>
      d <- unsigned_manhattan_distance l' r' ;;
      Ok (((if (lhs >? rhs)%Z then lhs - rhs else rhs - lhs) + d) mod 2 ^ 32)%Z
  end.

(** Unsigned integers of 32 bits: [unsigned_manhattan_distance], and [abs(a - b)] is the wrapped difference.
    Distances.hpp:135-159 and 285-290, Utils.hpp:398-403. *)
Definition uint_metric : metric :=
  mk_metric Z Z.ltb 0%Z (fun a b => (a - b) mod 2 ^ 32)%Z unsigned_manhattan_distance.

(** [get_max_index_value_pair]: [std::max_element] returns the first of the largest elements.
    /repo/include/ffcl/common/math/statistics/Statistics.hpp:75-85. *)
Fixpoint max_element_from {D} (lt : D -> D -> bool) (best_index : nat) (best : D) (i : nat) (l : list D) : nat * D :=
  match l with
  | [] => (best_index, best)
  | x :: l' => if lt best x then max_element_from lt i x (S i) l' else max_element_from lt best_index best (S i) l'
  end.
Definition get_max_index_value_pair {D} (lt : D -> D -> bool) (l : list D) : res (nat * D) :=
  match l with
  | [] => UB
  | x :: l' => Ok (max_element_from lt 0 x 1 l')
  end.

(** The members of [StaticBuffer] other than the bound.
    /repo/include/ffcl/search/buffer/StaticBuffer.hpp:184-196. *)
Record buffer (D : Type) := mk_buffer {
  buf_indices : list nat;
  buf_distances : list D;
  buf_closest_index : nat;
  buf_closest_distance : D;
  buf_furthest_pos : nat;
  buf_furthest_distance : D;
  buf_max_capacity : nat }.
Arguments mk_buffer {D}.
Arguments buf_indices {D}.
Arguments buf_distances {D}.
Arguments buf_closest_index {D}.
Arguments buf_closest_distance {D}.
Arguments buf_furthest_pos {D}.
Arguments buf_furthest_distance {D}.
Arguments buf_max_capacity {D}.

(** [common::infinity<std::size_t>()], the default capacity. StaticBuffer.hpp:43, Utils.hpp:393-396. *)
Definition default_capacity : nat := 0.

(** Constructor. StaticBuffer.hpp:43-51. *)
Definition make_buffer {D} (inf : D) (max_capacity : nat) : buffer D :=
  mk_buffer [] [] 0 inf 0 inf max_capacity.

(** [size]. StaticBuffer.hpp:85-87. *)
Definition buf_size {D} (b : buffer D) : nat := length (buf_indices b).

(** [remaining_capacity], an unsigned subtraction. StaticBuffer.hpp:93-95. *)
Definition remaining_capacity {D} (b : buffer D) : Z :=
  ((Z.of_nat (buf_max_capacity b) - Z.of_nat (buf_size b)) mod 2 ^ 64)%Z.

(** [furthest_index]. StaticBuffer.hpp:109-111. *)
Definition buf_furthest_index {D} (b : buffer D) : res nat := rd (buf_indices b) (buf_furthest_pos b).

(** [update_static_buffers]. StaticBuffer.hpp:143-182. *)
Definition update_static_buffers {D} (lt : D -> D -> bool) (b : buffer D) (index : nat) (distance : D)
  : res (buffer D) :=
  if buf_size b =? 0 then
    Ok (mk_buffer (buf_indices b ++ [index]) (buf_distances b ++ [distance])
          index distance (buf_furthest_pos b) distance (buf_max_capacity b))
  else
    let '(closest_index, closest_distance) :=
      if lt distance (buf_closest_distance b) then (index, distance)
      else (buf_closest_index b, buf_closest_distance b) in
    if negb (remaining_capacity b =? 0)%Z then
      let '(furthest_pos, furthest_distance) :=
        if lt (buf_furthest_distance b) distance then (length (buf_indices b), distance)
        else (buf_furthest_pos b, buf_furthest_distance b) in
      Ok (mk_buffer (buf_indices b ++ [index]) (buf_distances b ++ [distance])
            closest_index closest_distance furthest_pos furthest_distance (buf_max_capacity b))
    else if lt distance (buf_furthest_distance b) then
      indices <- wr (buf_indices b) (buf_furthest_pos b) index ;;
      distances <- wr (buf_distances b) (buf_furthest_pos b) distance ;;
      '(furthest_pos, furthest_distance) <- get_max_index_value_pair lt distances ;;
      Ok (mk_buffer indices distances closest_index closest_distance furthest_pos furthest_distance
            (buf_max_capacity b))
    else Ok b.

(** A client's sequence of [update] calls on an [Unsorted] buffer.
    /repo/include/ffcl/search/buffer/Unsorted.hpp:37-39. *)
Fixpoint update_all {D} (lt : D -> D -> bool) (b : buffer D) (offers : list (nat * D)) : res (buffer D) :=
  match offers with
  | [] => Ok b
  | (i, d) :: offers' => b' <- update_static_buffers lt b i d ;; update_all lt b' offers'
  end.

(** The bound of a buffer: unbounded, a ball or a box; its centroid is kept next to it.
    /repo/include/ffcl/datastruct/bounds/UnboundedBall.hpp:117-119 ([UnboundedBallView]),
    /repo/include/ffcl/datastruct/bounds/Ball.hpp:122-124 ([BallView]),
    /repo/include/ffcl/datastruct/bounds/AABBWithCentroid.hpp:63-65. *)
Inductive search_bound (D : Type) := Unbounded | Radius (r : D) | Box (segments : list segment).
Arguments Unbounded {D}.
Arguments Radius {D} r.
Arguments Box {D} segments.

(** [compute_distance_to_centroid_if_within_bounds]: a ball compares the distance, a box first asks whether the
    point is inside.
    /repo/include/ffcl/datastruct/bounds/UnboundedBall.hpp:190-197 ([UnboundedBallView]),
    /repo/include/ffcl/datastruct/bounds/Ball.hpp:208-216 ([BallView]; [Ball] 89-97),
    /repo/include/ffcl/datastruct/bounds/AABBWithCentroid.hpp:140-166. *)
Definition distance_if_within_bounds (m : metric) (bound : search_bound (m_dist m)) (centroid p : list Z)
  : res (option (m_dist m)) :=
  match bound with
  | Unbounded => d <- m_auto m p centroid ;; Ok (Some d)
  | Radius r => d <- m_auto m p centroid ;; if m_lt m d r then Ok (Some d) else Ok None
  | Box segments =>
      inside <- is_in_bounds segments p ;;
      if inside : bool then d <- m_auto m p centroid ;; Ok (Some d) else Ok None
  end.

(** The three [update_impl]: which candidates are passed on to [update_static_buffers], and the state they use. *)

(** [Unsorted::update_impl]: all of them. /repo/include/ffcl/search/buffer/Unsorted.hpp:37-39. *)
Definition accept_all (index : nat) (s : unit) : res (bool * unit) := Ok (true, s).

(** [WithMemory::update_impl]: those not in the visited set.
    /repo/include/ffcl/search/buffer/WithMemory.hpp:90-98. *)
Definition accept_unvisited (visited : list nat) (index : nat) (s : unit) : res (bool * unit) :=
  Ok (negb (existsb (Nat.eqb index) visited), s).

(** [WithUnionFind::update_impl]: those of another component; [find] rewrites the parents.
    /repo/include/ffcl/search/buffer/WithUnionFind.hpp:47-55.
    The two calls of [find] are modelled from left to right. *)
Definition accept_other_component (query_representative : nat) (index : nat) (u : uf) : res (bool * uf) :=
  '(u1, r1) <- uf_find u query_representative ;;
  '(u2, r2) <- uf_find u1 index ;;
  Ok (negb (r1 =? r2), u2).
