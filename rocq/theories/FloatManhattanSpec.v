(** Specification vocabulary for the rounded Manhattan distance. *)
From Coq Require Import Reals List Arith ZArith.
From Flocq Require Import Core BinarySingleNaN.
From Verif Require Import FloatModel.
Import ListNotations.
Open Scope R_scope.

(** The Manhattan distance of two points in exact arithmetic. *)
Fixpoint true_manhattan {prec emax : Z} (l r : list (binary_float prec emax)) : R :=
  match l, r with
  | x :: l', y :: r' => Rabs (B2R x - B2R y) + true_manhattan l' r'
  | _, _ => 0
  end.

(** How many roundings are nested in a sum of rounded differences. *)
Fixpoint depth (g : grouping) : nat :=
  match g with
  | Initial => 0
  | Term _ => 1
  | Sum a b => S (max (depth a) (depth b))
  | Fused _ b => S (max 1 (depth b))
  end.
