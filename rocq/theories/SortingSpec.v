(** Specification vocabulary for the index sorting routines. *)
From Coq Require Import List Arith ZArith Permutation Sorted.
Import ListNotations.

(** Value of sample [i] on feature [j] in a row-major array. *)
Definition val (samples : list Z) (nf j i : nat) : Z := nth (i * nf + j) samples 0%Z.

(** Every listed sample lies inside the dataset. *)
Definition in_dataset (samples : list Z) (nf j : nat) (a : list nat) : Prop :=
  forall i, In i a -> i * nf + j < length samples.

(** Distinct values on the feature differ by more than the tolerance (always so when [tol = 0]). *)
Definition separated (tol : Z) (samples : list Z) (nf j : nat) (a : list nat) : Prop :=
  forall x y, In x a -> In y a ->
    (Z.abs (val samples nf j x - val samples nf j y) <= tol)%Z ->
    val samples nf j x = val samples nf j y.

(** Sorted by the feature. *)
Definition sorted_by (samples : list Z) (nf j : nat) (a : list nat) : Prop :=
  StronglySorted (fun x y => (val samples nf j x <= val samples nf j y)%Z) a.

(** Same, up to the tolerance. *)
Definition sorted_within (tol : Z) (samples : list Z) (nf j : nat) (a : list nat) : Prop :=
  StronglySorted (fun x y => (val samples nf j x <= val samples nf j y + tol)%Z) a.
