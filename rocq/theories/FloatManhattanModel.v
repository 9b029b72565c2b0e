(** [manhattan_distance] and the distances from the origin on [float] and [double]. BoundsModel.v has the same on integers. *)
From Coq Require Import List Arith ZArith Bool.
From Flocq Require Import Core BinarySingleNaN.
From Verif Require Import Base FloatModel.
Import ListNotations.

Section Binary.
Context (prec emax : Z) (Hp : Prec_gt_0 prec) (Hm : Prec_lt_emax prec emax).
Notation number := (binary_float prec emax).

(** [std::abs(lhs - rhs)]. /repo/include/ffcl/common/math/heuristics/Distances.hpp:116. *)
Definition float_gap (lhs rhs : number) : number := Babs (Bminus mode_NE lhs rhs).

(** [std::transform_reduce] with [std::plus<>]; there is no product to be fused with a sum, so [Fused] is an ordinary sum here.
    Distances.hpp:111-116. *)
Fixpoint add_up (g : grouping) (gaps : list number) : number :=
  match g with
  | Initial => B754_zero false
  | Term i => nth i gaps (B754_zero false)
  | Sum a b => Bplus mode_NE (add_up a gaps) (add_up b gaps)
  | Fused i b => Bplus mode_NE (nth i gaps (B754_zero false)) (add_up b gaps)
  end.

(** [manhattan_distance]; the left range drives the loop, the end of the right range is not looked at. Both ranges have the same
    type here. Distances.hpp:94-117. *)
Definition float_manhattan (order : nat -> grouping) (l r : list number) : res number :=
  if length r <? length l then UB
  else Ok (add_up (order (length l)) (map (fun xy => float_gap (fst xy) (snd xy)) (combine l r))).

(** [manhattan_distance_from_origin]. Distances.hpp:78-92. *)
Definition float_manhattan_from_origin (order : nat -> grouping) (l : list number) : number :=
  add_up (order (length l)) (map Babs l).

(** [squared_euclidean_distance_from_origin] and its root, [euclidean_distance_from_origin]. Distances.hpp:15-31 and 61-65. *)
Definition float_euclidean_from_origin (order : nat -> grouping) (l : list number) : number :=
  Bsqrt mode_NE (reduce prec emax Hp Hm (order (length l)) l).
End Binary.
