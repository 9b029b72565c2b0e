(** Model of include/ffcl/common/math/statistics/Statistics.hpp (means, variances, normalization, order statistics). *)
From Coq Require Import List Arith ZArith QArith Bool.
From Verif Require Import Base BufferModel MatrixModel KMeansModel RandomModel.
Import ListNotations.
Local Open Scope nat_scope.

(** The arithmetic of the value type [DataType]. Not in the library: what the operators of Statistics.hpp mean for it.
    [a_over x n] is [x / n] with [n] a [std::size_t], stored as a [DataType] (Statistics.hpp:157, 183, 212, 249, 293, 326);
    [a_over_diff x n] is [x / n] with [n] a [std::ptrdiff_t] (Statistics.hpp:443);
    [a_plus] stores its result as a [DataType] (Statistics.hpp:152, 177, 204, 244, 288, 320);
    [a_index] is an index returned as a [DataType] and converted back (Statistics.hpp:52, 58, 361, 397, 426). *)
Record arith (V : Type) := mk_arith {
  a_zero : V;
  a_plus : V -> V -> res V;
  a_minus : V -> V -> res V;
  a_times : V -> V -> res V;
  a_over : V -> Z -> res V;
  a_over_diff : V -> Z -> res V;
  a_store : V -> V;
  a_lt : V -> V -> bool;
  a_index : nat -> nat }.
Arguments a_zero {V}. Arguments a_plus {V}. Arguments a_minus {V}. Arguments a_times {V}. Arguments a_over {V}.
Arguments a_over_diff {V}. Arguments a_store {V}. Arguments a_lt {V}. Arguments a_index {V}.

(** Floating point in exact arithmetic; [None] is not a number (0 / 0), for which every comparison is false.
    Simplified: no rounding. Indices are exact up to the precision of the type.
    Statistics.hpp:52-61, 146-157, 228-249 and 434-443 with [DataType] float or double. *)
Definition lift2 (f : Q -> Q -> Q) (x y : option Q) : option Q :=
  match x, y with Some p, Some q => Some (f p q) | _, _ => None end.
Definition f_over (x : option Q) (n : Z) : option Q :=
  match x with Some p => if (n =? 0)%Z then None else Some (p / inject_Z n)%Q | None => None end.
Definition f_lt (x y : option Q) : bool := match x, y with Some p, Some q => Qlt_bool p q | _, _ => false end.
Definition float_arith : arith (option Q) :=
  mk_arith (option Q) (Some 0%Q) (fun x y => Ok (lift2 Qplus x y)) (fun x y => Ok (lift2 Qminus x y))
    (fun x y => Ok (lift2 Qmult x y)) (fun x n => Ok (f_over x n)) (fun x n => Ok (f_over x n)) (fun x => x) f_lt (fun i => i).

(** Signed integers of [w] bits. The operators work on at least 32 bits and overflow is undefined; a [std::size_t] operand
    converts the other one to 64 unsigned bits; storing keeps the low [w] bits; division by zero is undefined.
    Statistics.hpp:52-61, 146-157, 228-249 and 434-443 with [DataType] a signed integer type. *)
Definition to_signed (w z : Z) : Z := ((z + 2 ^ (w - 1)) mod 2 ^ w - 2 ^ (w - 1))%Z.
Definition in_signed (w z : Z) : bool := ((- 2 ^ (w - 1) <=? z) && (z <? 2 ^ (w - 1)))%Z.
Definition checked (w z : Z) : res Z := if in_signed w z then Ok z else UB.
Definition i_over (w x n : Z) : res Z :=
  if (n =? 0)%Z then UB else Ok (to_signed w ((x mod 2 ^ 64) / n)%Z).
Definition i_over_diff (x n : Z) : res Z := if (n =? 0)%Z then UB else Ok (Z.quot x n).
Definition int_arith (w : Z) : arith Z :=
  let c := Z.max 32 w in
  mk_arith Z 0%Z (fun x y => s <- checked c (x + y)%Z ;; Ok (to_signed w s)) (fun x y => checked c (x - y)%Z)
    (fun x y => checked c (x * y)%Z) (i_over w) i_over_diff (to_signed w) Z.ltb
    (fun i => Z.to_nat (to_signed w (Z.of_nat i) mod 2 ^ 64)).

Section Stats.
Context {V : Type} (a : arith V).

(** [n_samples - 1] as a [std::size_t]. Statistics.hpp:249, 293 and 326. *)
Definition size_pred (n : nat) : Z := ((Z.of_nat n - 1) mod 2 ^ 64)%Z.

(** [accumulator[j] += x]. Statistics.hpp:152, 177, 204, 244, 288, 320, 359, 395 and 422. *)
Definition add_to (accumulator : list V) (j : nat) (x : V) : res (list V) :=
  m <- rd accumulator j ;;
  s <- a_plus a m x ;;
  wr accumulator j s.

(** [temp * temp] with [temp = x - mean]. Statistics.hpp:236-237, 280-281, 318-320, 351-352, 387-388 and 420-422. *)
Definition squared_deviation (x mean : V) : res V :=
  temp <- a_minus a x mean ;;
  a_times a temp temp.

(** Every element divided by [n]. Statistics.hpp:154-157, 180-183, 208-212, 246-249, 290-293 and 323-326. *)
Definition div_all (l : list V) (n : Z) : res (list V) :=
  fill (a_zero a) (length l) (fun j => x <- rd l j ;; a_over a x n).

(** [compute_mean_per_feature] over the whole dataset. The loop steps over the end if the length of the dataset is not a
    multiple of the number of features. Statistics.hpp:136-159. *)
Definition compute_mean_all (samples : list V) (n_features : nat) : res (list V) :=
  n_samples <- get_n_samples samples n_features ;;
  if length samples mod n_features =? 0 then
    sums <- for_loop n_samples 0 (fun i mean => for_loop n_features 0 (fun j mean =>
      x <- rd samples (i * n_features + j) ;; add_to mean j x) mean) (repeat (a_zero a) n_features) ;;
    div_all sums (Z.of_nat n_samples)
  else UB.

(** [compute_mean_per_feature] over an index range. Statistics.hpp:161-185. *)
Definition compute_mean (samples : list V) (n_features : nat) (indices : list nat) : res (list V) :=
  sums <- for_each indices (fun index mean => for_loop n_features 0 (fun j mean =>
    x <- rd samples (index * n_features + j) ;; add_to mean j x) mean) (repeat (a_zero a) n_features) ;;
  div_all sums (Z.of_nat (length indices)).

(** [compute_mean_per_feature] over an index range and a feature mask. Statistics.hpp:187-214. *)
Definition compute_mean_masked (samples : list V) (n_features : nat) (mask : list nat) (indices : list nat) : res (list V) :=
  sums <- for_each indices (fun index mean => for_loop (length mask) 0 (fun j mean =>
    f <- rd mask j ;;
    x <- rd samples (index * n_features + f) ;; add_to mean j x) mean) (repeat (a_zero a) (length mask)) ;;
  div_all sums (Z.of_nat (length indices)).

(** The sums of the squared deviations over the whole dataset; the two transformations through [features_accumulator] are
    merged. Statistics.hpp:222-245 and 337-360. *)
Definition squares_all (samples : list V) (n_features : nat) : res (list V) :=
  n_samples <- get_n_samples samples n_features ;;
  mean <- compute_mean_all samples n_features ;;
  for_loop n_samples 0 (fun i variance => for_loop n_features 0 (fun j variance =>
    x <- rd samples (i * n_features + j) ;; m <- rd mean j ;;
    d <- squared_deviation x m ;; add_to variance j d) variance) (repeat (a_zero a) n_features).

(** The same over an index range. Statistics.hpp:262-289 and 372-396. *)
Definition squares (samples : list V) (n_features : nat) (indices : list nat) : res (list V) :=
  mean <- compute_mean samples n_features indices ;;
  for_each indices (fun index variance => for_loop n_features 0 (fun j variance =>
    x <- rd samples (index * n_features + j) ;; m <- rd mean j ;;
    d <- squared_deviation x m ;; add_to variance j d) variance) (repeat (a_zero a) n_features).

(** The same over an index range and a feature mask: the sample read is the first of the range at each step.
    Statistics.hpp:307-322 and 409-424. *)
Definition squares_masked (samples : list V) (n_features : nat) (mask : list nat) (indices : list nat) : res (list V) :=
  mean <- compute_mean_masked samples n_features mask indices ;;
  for_each indices (fun _ variance => for_loop (length mask) 0 (fun j variance =>
    f <- rd mask j ;;
    first <- rd indices 0 ;;
    x <- rd samples (first * n_features + f) ;; m <- rd mean j ;;
    d <- squared_deviation x m ;; add_to variance j d) variance) (repeat (a_zero a) (length mask)).

(** [compute_variance_per_feature] over the whole dataset. Statistics.hpp:216-252. *)
Definition compute_variance_all (samples : list V) (n_features : nat) : res (list V) :=
  n_samples <- get_n_samples samples n_features ;;
  s <- squares_all samples n_features ;; div_all s (size_pred n_samples).
(** [compute_variance_per_feature] over an index range. Statistics.hpp:254-296. *)
Definition compute_variance_per_feature (samples : list V) (n_features : nat) (indices : list nat) : res (list V) :=
  s <- squares samples n_features indices ;; div_all s (size_pred (length indices)).
(** [compute_variance_per_feature] over an index range and a feature mask. Statistics.hpp:298-329. *)
Definition compute_variance_masked (samples : list V) (n_features : nat) (mask : list nat) (indices : list nat) : res (list V) :=
  s <- squares_masked samples n_features mask indices ;; div_all s (size_pred (length indices)).

(** [argmax]: the first of the greatest elements, 0 for an empty range; the index goes through the value type.
    Statistics.hpp:57-61. *)
Definition argmax (l : list V) : nat :=
  a_index a match l with [] => 0 | x :: l' => fst (max_element_from (a_lt a) 0 x 1 l') end.
(** [argmin]. Statistics.hpp:51-55. *)
Definition argmin (l : list V) : nat :=
  a_index a match l with [] => 0 | x :: l' => fst (max_element_from (fun x y => a_lt a y x) 0 x 1 l') end.

(** [argmax_variance_per_feature] over the whole dataset. Statistics.hpp:331-362. *)
Definition argmax_variance_all (samples : list V) (n_features : nat) : res nat :=
  s <- squares_all samples n_features ;; Ok (argmax s).
(** [argmax_variance_per_feature] over an index range. Statistics.hpp:364-398. *)
Definition argmax_variance (samples : list V) (n_features : nat) (indices : list nat) : res nat :=
  s <- squares samples n_features indices ;; Ok (argmax s).
(** [argmax_variance_per_feature] over an index range and a feature mask. Statistics.hpp:400-427. *)
Definition argmax_variance_masked (samples : list V) (n_features : nat) (mask : list nat) (indices : list nat) : res nat :=
  s <- squares_masked samples n_features mask indices ;; rd mask (argmax s).

(** [compute_variance]. Statistics.hpp:429-444. *)
Definition compute_variance (samples : list V) : res V :=
  let n_elements := Z.of_nat (length samples) in
  sum <- for_each samples (fun x sum => a_plus a sum x) (a_zero a) ;;
  sum_of_squares <- for_each samples (fun x sum => p <- a_times a x x ;; a_plus a sum p) (a_zero a) ;;
  p <- a_times a sum sum ;;
  q <- a_over_diff a p n_elements ;;
  d <- a_minus a sum_of_squares q ;;
  v <- a_over_diff a d (n_elements - 1)%Z ;;
  Ok (a_store a v).
End Stats.

(** [min_container_inplace_left]; a right container that is too short is read past its end. Statistics.hpp:41-49. *)
Fixpoint min_container {V} (lt : V -> V -> bool) (left right : list V) : res (list V) :=
  match left, right with
  | [], _ => Ok []
  | _ :: _, [] => UB
  | x :: left', y :: right' => r <- min_container lt left' right' ;; Ok ((if lt y x then y else x) :: r)
  end.

(** [std::minmax_element], the two values. Statistics.hpp:14. *)
Definition minmax {V} (lt : V -> V -> bool) (l : list V) : res (V * V) :=
  match l with
  | [] => UB
  | x :: l' => Ok (fold_left (fun m y => if lt y m then y else m) l' x, fold_left (fun m y => if lt y m then m else y) l' x)
  end.

(** [normalize_min_max] on floating point values in exact arithmetic. Statistics.hpp:12-27. *)
Definition normalize_min_max (l : list Q) : res (list Q) :=
  ' (lo, hi) <- minmax Qlt_bool l ;;
  if Qeq_bool lo hi then Ok (repeat (1 / inject_Z (Z.of_nat (length l)))%Q (length l))
  else Ok (map (fun d => 1 - (d - lo) / (hi - lo))%Q l).
(** [normalize_min_max] on integers: the quotient is an integer quotient. Statistics.hpp:12-27. *)
Definition normalize_min_max_int (l : list Z) : res (list Q) :=
  ' (lo, hi) <- minmax Z.ltb l ;;
  if (lo =? hi)%Z then Ok (repeat (1 / inject_Z (Z.of_nat (length l)))%Q (length l))
  else Ok (map (fun d => 1 - inject_Z (Z.quot (d - lo) (hi - lo)))%Q l).

(** [normalize] in exact arithmetic; [None] is not a finite number. Statistics.hpp:29-39. *)
Definition normalize_sum (l : list Q) : list (option Q) :=
  let sum := fold_left Qplus l 0%Q in
  map (fun v => if Qeq_bool sum 0 then None else Some (v / sum)%Q) l.

(** [find_nth_smallest_index_and_element] on integers. [sorted] is the result of [std::sort]; [at] throws out of range, and
    so does [n = 0] because [n - 1] wraps. [std::find] cannot fail. Statistics.hpp:114-134. *)
Fixpoint find_index (l : list Z) (x : Z) : nat := match l with [] => 0 | y :: l' => if (y =? x)%Z then 0 else S (find_index l' x) end.
Definition find_nth_smallest (sort : list Z -> list Z) (l : list Z) (n : nat) : res (nat * Z) :=
  match n with
  | 0 => Throw
  | S p => match nth_error (sort l) p with Some x => Ok (find_index l x, x) | None => Throw end
  end.
