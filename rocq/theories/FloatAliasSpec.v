(** Specification vocabulary for the alias method in floating point. *)
From Coq Require Import Reals List Arith ZArith.
From Flocq Require Import Core BinarySingleNaN.
Import ListNotations.
Open Scope R_scope.

(** Sums over the indices below [n]. *)
Definition over (n : nat) (f : nat -> R) : R := fold_right Rplus 0 (map f (seq 0 n)).

(** What the two random numbers may be: numbers of the type from 0 to below 1. *)
Definition canonical {prec emax} (r : binary_float prec emax) : Prop := is_finite r = true /\ 0 <= B2R r < 1.

(** Weights: finite, and neither negative nor minus zero. *)
Definition proper_weights {prec emax} (weights : list (binary_float prec emax)) : Prop :=
  Forall (fun w => is_finite w = true /\ Bsign w = false) weights.

Definition weight {prec emax} (weights : list (binary_float prec emax)) (i : nat) : R :=
  match nth_error weights i with Some w => B2R w | None => 0 end.

(** A sampler that picks a cell among [n] with its first number and then takes the cell itself if its second number is
    below the threshold of the cell, and otherwise the other index of the cell. *)
Definition two_step (threshold : nat -> R) (other : nat -> nat) (cell : nat) (second : R) : nat :=
  if Rlt_bool second (threshold cell) then cell else other cell.

(** The probability that such a sampler gives [i], for a uniform choice of the cell and a uniform second number. *)
Definition share (n : nat) (threshold : nat -> R) (other : nat -> nat) (i : nat) : R :=
  over n (fun j => (if j =? i then threshold j else 0) + (if other j =? i then 1 - threshold j else 0)) / INR n.
