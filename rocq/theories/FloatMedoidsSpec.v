(** Independent vocabulary for k-medoids in floating point. *)
From Coq Require Import Reals List Arith ZArith Bool.
From Flocq Require Import Core BinarySingleNaN.
Import ListNotations.
Local Open Scope nat_scope.

(** [near o] is the position of a medoid such that no other one is nearer to sample [o]. *)
Definition nearest_by {D} (lt : D -> D -> bool) (dist : nat -> nat -> D) (n : nat) (medoids : list nat) (near : nat -> nat) : Prop :=
  forall o, o < n -> near o < length medoids /\
    forall j, j < length medoids -> lt (dist (nth j medoids 0) o) (dist (nth (near o) medoids 0) o) = false.

(** The distances of all samples to the medoids at positions [near], added up one after the other. *)
Definition running_total {D} (zero : D) (plus : D -> D -> D) (dist : nat -> nat -> D) (n : nat) (medoids : list nat) (near : nat -> nat) : D :=
  fold_left plus (map (fun o => dist (nth (near o) medoids 0) o) (seq 0 n)) zero.

(** Each sample has one medoid that is nearer than the others by twice the machine epsilon or more. *)
Definition clearly_nearest {prec emax : Z} (dist : nat -> nat -> binary_float prec emax) (n : nat) (medoids : list nat) : Prop :=
  forall o, o < n -> exists j, j < length medoids /\
    forall j', j' < length medoids -> j' <> j ->
    (B2R (dist (nth j medoids 0%nat) o) + bpow radix2 (2 - prec) <= B2R (dist (nth j' medoids 0%nat) o))%R.

(** The same distances added up exactly. *)
Definition exact_total {prec emax : Z} (dist : nat -> nat -> binary_float prec emax) (n : nat) (medoids : list nat) (near : nat -> nat) : R :=
  fold_right Rplus 0%R (map (fun o => B2R (dist (nth (near o) medoids 0) o)) (seq 0 n)).
