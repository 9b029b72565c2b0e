(** Model of the distances on [float] and [double] with their rounding: IEEE 754 binary numbers of [prec] bits with
    exponents below [emax], rounded to the nearest (ties to even), as formalised by Flocq. *)
From Coq Require Import List Arith ZArith Bool.
From Flocq Require Import Core BinarySingleNaN.
From Verif Require Import Base BufferModel.
Import ListNotations.

(** The order in which [std::transform_reduce] may add up: the initial value, the square of a difference, a sum, or a
    square and a sum in one rounding (compilers contract them with [-march=native], /repo/CMakeLists.txt:14-20).
    /repo/include/ffcl/common/math/heuristics/Distances.hpp:50-59. *)
Inductive grouping :=
| Initial
| Term (i : nat)
| Sum (a b : grouping)
| Fused (i : nat) (b : grouping).

(** The terms that a grouping adds. Distances.hpp:50-59. *)
Fixpoint terms (g : grouping) : list nat :=
  match g with
  | Initial => []
  | Term i => [i]
  | Sum a b => terms a ++ terms b
  | Fused i b => i :: terms b
  end.

(** One by one from the left. Distances.hpp:50-59. *)
Fixpoint one_by_one (n : nat) : grouping :=
  match n with
  | 0 => Initial
  | S n' => Sum (one_by_one n') (Term n')
  end.

(** One by one from the left, each square fused with its addition. Distances.hpp:50-59, /repo/CMakeLists.txt:14-20. *)
Fixpoint all_fused (n : nat) : grouping :=
  match n with
  | 0 => Initial
  | S n' => Fused n' (all_fused n')
  end.

(** Four at a time, then one by one, as libstdc++ does for random access iterators. Distances.hpp:50-59. *)
Fixpoint four_by_four (blocks : nat) : grouping :=
  match blocks with
  | 0 => Initial
  | S b => Sum (four_by_four b)
      (Sum (Sum (Term (4 * b)) (Term (4 * b + 1))) (Sum (Term (4 * b + 2)) (Term (4 * b + 3))))
  end.
Fixpoint and_the_rest (g : grouping) (first count : nat) : grouping :=
  match count with
  | 0 => g
  | S c => and_the_rest (Sum g (Term first)) (S first) c
  end.
Definition libstdcxx (n : nat) : grouping := and_the_rest (four_by_four (n / 4)) (4 * (n / 4)) (n mod 4).

Section Binary.
Context (prec emax : Z) (Hp : Prec_gt_0 prec) (Hm : Prec_lt_emax prec emax).
Notation number := (binary_float prec emax).

(** The exponent of the smallest positive number. [std::numeric_limits<T>::denorm_min()]. Utils.hpp:393-396. *)
Definition smallest : Z := 3 - emax - prec.

(** The largest finite number, in units of the smallest positive one. Utils.hpp:393-396. *)
Definition largest : Z := (2 ^ prec - 1) * 2 ^ (emax - prec - smallest).

(** A feature: the number [z] times the smallest positive number.  All finite numbers but minus zero are of this form;
    other integers stand for the number nearest to them. Distances.hpp:33-48. *)
Definition feature (z : Z) : number :=
  binary_normalize prec emax _ _ mode_NE (Z.max (- largest) (Z.min largest z)) smallest false.

(** The integer that stands for a finite number. Distances.hpp:33-48. *)
Definition encode (x : number) : Z :=
  match x with
  | B754_finite s m e _ => (cond_Zopp s (Zpos m) * 2 ^ (e - smallest))%Z
  | _ => 0%Z
  end.

(** [const auto tmp = lhs - rhs]. Distances.hpp:56. *)
Definition difference (lhs rhs : number) : number := Bminus mode_NE lhs rhs.

(** [tmp * tmp] added up in the order of a grouping, from the initial value 0. Distances.hpp:50-59. *)
Fixpoint reduce (g : grouping) (tmps : list number) : number :=
  match g with
  | Initial => B754_zero false
  | Term i => let tmp := nth i tmps (B754_zero false) in Bmult mode_NE tmp tmp
  | Sum a b => Bplus mode_NE (reduce a tmps) (reduce b tmps)
  | Fused i b => let tmp := nth i tmps (B754_zero false) in Bfma mode_NE tmp tmp (reduce b tmps)
  end.

(** [euclidean_distance] of two ranges of the same length. Distances.hpp:33-60 and 67-77. *)
Definition euclidean (order : nat -> grouping) (l r : list number) : number :=
  let tmps := map (fun xy => difference (fst xy) (snd xy)) (combine l r) in
  Bsqrt mode_NE (reduce (order (length tmps)) tmps).

(** [common::abs(pivot_split_value - query_split_value)].
    /repo/include/ffcl/datastruct/tree/kdtree/KDNodeView.hpp:236-239, /repo/include/ffcl/common/Utils.hpp:398-405. *)
Definition axis_distance (pivot query : number) : number := Babs (Bminus mode_NE pivot query).

(** A distance: a number from 0 to infinity.  Simplified: NaN, minus zero and negative numbers are left out of the type
    of distances; with finite features the code never computes them, see [euclidean_is_distance] and
    [axis_is_distance]. Distances.hpp:67-77, Utils.hpp:393-405. *)
Definition is_distance (x : number) : bool := negb (is_nan x) && negb (Bsign x).
Definition distance_type : Type := { x : number | is_distance x = true }.
Definition infinite : distance_type := exist _ (B754_infinity false) eq_refl.
Definition as_distance (x : number) : distance_type :=
  match bool_dec (is_distance x) true with
  | left H => exist _ x H
  | right _ => infinite
  end.

(** [operator<]. /repo/include/ffcl/search/buffer/StaticBuffer.hpp:143-182, KDNodeView.hpp:236-239. *)
Definition closer (a b : distance_type) : bool := Bltb (proj1_sig a) (proj1_sig b).

(** [auto_distance]: the left range drives the loop. Distances.hpp:261-278. *)
Definition computed (order : nat -> grouping) (l r : list Z) : distance_type :=
  as_distance (euclidean order (map feature l) (map feature r)).
Definition auto_euclidean (order : nat -> grouping) (l r : list Z) : res distance_type :=
  if length r <? length l then UB else Ok (computed order l r).

(** What the searches use of [float] or [double]. Utils.hpp:393-409, Distances.hpp:261-278, KDNodeView.hpp:236-239. *)
Definition binary_metric (order : nat -> grouping) : metric :=
  mk_metric distance_type closer infinite (fun a b => as_distance (axis_distance (feature a) (feature b)))
    (auto_euclidean order).
End Binary.

(** [float] and [double]: IEEE 754 binary32 and binary64. Distances.hpp:273-278. *)
Definition prec_float : Prec_gt_0 24 := eq_refl.
Definition emax_float : Prec_lt_emax 24 128 := eq_refl.
Definition prec_double : Prec_gt_0 53 := eq_refl.
Definition emax_double : Prec_lt_emax 53 1024 := eq_refl.
Definition binary32_metric : (nat -> grouping) -> metric := binary_metric 24 128 prec_float emax_float.
Definition binary64_metric : (nat -> grouping) -> metric := binary_metric 53 1024 prec_double emax_double.
