(** Specification vocabulary for changes of coordinates of the data of k-means. *)
From Coq Require Import List Arith QArith Qcanon Bool.
From Verif Require Import Base BufferSpec.
Import ListNotations.
Local Open Scope Qc_scope.

(** Sum and difference of vectors of the same length. *)
Definition vplus (p r : list Qc) : list Qc := map (fun '(x, y) => x + y) (combine p r).
Definition vminus (p r : list Qc) : list Qc := map (fun '(x, y) => x - y) (combine p r).

(** [T] maps points with [nf] features to points with [nf'] features; it keeps parallelograms (an affine map: translation,
    rotation, renaming of the features, another unit, ...) and multiplies all distances by [c]. *)
Record change_of_coordinates (nf nf' : nat) (d d' : list Qc -> list Qc -> Qc) (c : Qc) (T : list Qc -> list Qc) : Prop := {
  cc_length : forall p, length p = nf -> length (T p) = nf';
  cc_affine : forall p r s, length p = nf -> length r = nf -> length s = nf ->
    T (vminus (vplus p r) s) = vminus (vplus (T p) (T r)) (T s);
  cc_positive : 0 < c;
  cc_dist : forall p r, length p = nf -> length r = nf -> d' (T p) (T r) = c * d p r }.

(** Each of the [n] rows of [m'] is the image of the row of [m]. *)
Definition image (nf nf' : nat) (T : list Qc -> list Qc) (n : nat) (m m' : list Qc) : Prop :=
  length m = (n * nf)%nat /\ length m' = (n * nf')%nat /\ forall i, (i < n)%nat -> row m' nf' i = T (row m nf i).

(** The origin is mapped to the origin. *)
Definition keeps_origin (nf nf' : nat) (T : list Qc -> list Qc) : Prop := T (repeat 0 nf) = repeat 0 nf'.
