(** [normalize_min_max] on [float] and [double]. *)
From Coq Require Import List Arith ZArith Bool.
From Flocq Require Import Core BinarySingleNaN.
From Verif Require Import Base FloatModel FloatSilhouetteModel.
Import ListNotations.

Section Binary.
Context (prec emax : Z) (Hp : Prec_gt_0 prec) (Hm : Prec_lt_emax prec emax).
Notation number := (binary_float prec emax).

(** The values found by [std::minmax_element]: the first of the smallest and the last of the largest ones. Simplified: compared one by
    one, which for numbers other than NaN finds the same elements as the comparisons in pairs of the standard library.
    /repo/include/ffcl/common/math/statistics/Statistics.hpp:14. *)
Definition float_minmax (first : number) (rest : list number) : number * number :=
  fold_left (fun '(min, max) x => (if Bltb x min then x else min, if Bltb x max then max else x)) rest (first, first).

(** [static_cast<DataType>(1) - (dist - min) / (max - min)]. Statistics.hpp:24. *)
Definition float_score (min max dist : number) : number :=
  Bminus mode_NE Bone (Bdiv mode_NE (Bminus mode_NE dist min) (Bminus mode_NE max min)).

(** [normalize_min_max] with values and weights of the same type; an empty range is read past its end.
    Simplified: [1.0 / n_elements] is computed in that type, which is what happens for [double]. Statistics.hpp:12-27. *)
Definition float_normalize_min_max (values : list number) : res (list number) :=
  match values with
  | [] => UB
  | first :: rest =>
      let '(min, max) := float_minmax first rest in
      if Beqb min max then
        Ok (repeat (Bdiv mode_NE Bone (count prec emax Hp Hm (length values))) (length values))
      else Ok (map (float_score min max) values)
  end.
End Binary.
