(** [cosine_similarity] on [float] and [double]. DistancesModel.v has the same in exact arithmetic. *)
From Coq Require Import List Arith ZArith Bool.
From Flocq Require Import Core BinarySingleNaN.
From Verif Require Import Base FloatModel FloatHamerlyModel.
Import ListNotations.

Section Binary.
Context (prec emax : Z) (Hp : Prec_gt_0 prec) (Hm : Prec_lt_emax prec emax).
Notation number := (binary_float prec emax).

(** The step [init + x * y] of [std::inner_product]: [fused] when the compiler contracts the product and the sum
    (-march=native, /repo/CMakeLists.txt:14-20). /repo/include/ffcl/common/math/heuristics/Distances.hpp:177-190. *)
Definition multiply_add (fused : bool) (init x y : number) : number :=
  if fused then Bfma mode_NE x y init else Bplus mode_NE init (Bmult mode_NE x y).

(** [std::inner_product]; the left range drives the loop, reading past the end of the right one is undefined.
    Distances.hpp:177-190. *)
Fixpoint float_inner (fused : bool) (init : number) (l r : list number) : res number :=
  match l, r with
  | [], _ => Ok init
  | _ :: _, [] => UB
  | x :: l', y :: r' => float_inner fused (multiply_add fused init x y) l' r'
  end.

(** [division] with its default value. /repo/include/ffcl/common/Utils.hpp:430-440. *)
Definition float_division (numerator denominator default_return_value : number) : number :=
  if equality prec emax Hp Hm denominator (B754_zero false) then default_return_value else Bdiv mode_NE numerator denominator.

(** [cosine_similarity]; each of the three sums may be contracted or not. Both vectors have the same type here, the code also takes one of [float] and one of
    [double]. Distances.hpp:160-194. *)
Definition float_cosine (fused fused_1 fused_2 : bool) (l r : list number) : res number :=
  dot_product <- float_inner fused (B754_zero false) l r ;;
  square_1 <- float_inner fused_1 (B754_zero false) l l ;;
  square_2 <- float_inner fused_2 (B754_zero false) r r ;;
  Ok (float_division dot_product (Bmult mode_NE (Bsqrt mode_NE square_1) (Bsqrt mode_NE square_2)) (B754_infinity false)).
End Binary.
