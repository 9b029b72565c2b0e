(** The silhouette functions on [float] and [double] with their rounding: what they use of these types. *)
From Coq Require Import List Arith ZArith Bool.
From Flocq Require Import Core BinarySingleNaN.
From Verif Require Import Base SilhouetteModel FloatModel.
Import ListNotations.

Section Binary.
Context (prec emax : Z) (Hp : Prec_gt_0 prec) (Hm : Prec_lt_emax prec emax).

(** [static_cast<ElementType>] of a count: the nearest number.
    /repo/include/ffcl/common/math/heuristics/SilhouetteMethod.hpp:110-112, 183 and 265-267. *)
Definition count (k : nat) : binary_float prec emax := binary_normalize prec emax Hp Hm mode_NE (Z.of_nat k) 0 false.

(** Zero, one, +, -, / and < of a binary format, its infinity and the conversion of counts. SilhouetteMethod.hpp:69-268,
    /repo/include/ffcl/common/Utils.hpp:393-396 for infinity. *)
Definition binary_element : element :=
  mk_element (binary_float prec emax) (B754_zero false) (Bone (prec_gt_0_ := Hp) (prec_lt_emax_ := Hm))
    (Bplus mode_NE) (Bminus mode_NE) (fun a b => Ok (Bdiv mode_NE a b)) Bltb (B754_infinity false) count.

(** [silhouette] of samples of a binary format with the Euclidean distance.
    SilhouetteMethod.hpp:213-258, /repo/include/ffcl/common/math/heuristics/Distances.hpp:261-278. *)
Definition float_silhouette (order : nat -> grouping) (samples : list (binary_float prec emax)) (n_features : nat) (labels : list nat)
  : res (list (binary_float prec emax)) :=
  silhouette binary_element (euclidean prec emax Hp Hm order) samples n_features labels.

(** [get_average_silhouette]. SilhouetteMethod.hpp:260-268. *)
Definition float_average (scores : list (binary_float prec emax)) : res (binary_float prec emax) :=
  get_average_silhouette binary_element scores.
End Binary.
