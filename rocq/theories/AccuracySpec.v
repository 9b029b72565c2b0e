(** Specification vocabulary for the accuracy of rounded distances. *)
From Coq Require Import Reals List Arith ZArith.
From Flocq Require Import Core BinarySingleNaN.
From Verif Require Import FloatModel.
Import ListNotations.
Open Scope R_scope.

(** Half a unit in the last place of 1, and the smallest positive number. *)
Definition roundoff (prec : Z) : R := bpow radix2 (- prec).
Definition tiny (prec emax : Z) : R := bpow radix2 (3 - emax - prec).

(** The square of the Euclidean distance of two points, in exact arithmetic. *)
Fixpoint true_square {prec emax : Z} (l r : list (binary_float prec emax)) : R :=
  match l, r with
  | x :: l', y :: r' => (B2R x - B2R y) ^ 2 + true_square l' r'
  | _, _ => 0
  end.

(** How many roundings are nested in a sum of rounded squares. *)
Fixpoint height (g : grouping) : nat :=
  match g with
  | Initial => 0
  | Term _ => 1
  | Sum a b => S (max (height a) (height b))
  | Fused _ b => S (height b)
  end.

(** The square of a distance of two points with [n] features, computed with [h] nested roundings, [d], against the exact
    one, [s]: a relative error for each rounding, an absolute one for squares that underflow. *)
Definition accurate (prec emax : Z) (h n : nat) (s d : R) : Prop :=
  (1 - roundoff prec) ^ h * s - INR n * tiny prec emax <= d ^ 2 <=
  (1 + roundoff prec) ^ h * (s + INR n * tiny prec emax).
