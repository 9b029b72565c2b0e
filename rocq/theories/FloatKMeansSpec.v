(** Specification vocabulary for k-means in floating point. *)
From Coq Require Import Reals List Arith ZArith.
From Flocq Require Import Core BinarySingleNaN.
Import ListNotations.
Open Scope R_scope.

(** Coordinate [f] of sample [i]. *)
Definition coordinate {prec emax} (samples : list (binary_float prec emax)) (nf f i : nat) : R :=
  match nth_error samples (i * nf + f) with Some x => B2R x | None => 0 end.

(** The sum of the coordinates of some samples in exact arithmetic, and the sum of their absolute values. *)
Definition exact_sum {prec emax} (samples : list (binary_float prec emax)) (nf f : nat) (l : list nat) : R :=
  fold_right Rplus 0 (map (coordinate samples nf f) l).
Definition absolute_sum {prec emax} (samples : list (binary_float prec emax)) (nf f : nat) (l : list nat) : R :=
  fold_right Rplus 0 (map (fun i => Rabs (coordinate samples nf f i)) l).
