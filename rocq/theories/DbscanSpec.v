(** Specification vocabulary for density clustering. *)
From Coq Require Import List Arith Bool Sorted.
Import ListNotations.

Section Density.
(** [n] samples; [near i j] when sample [j] is within the radius of sample [i]. *)
Context (n : nat) (near : nat -> nat -> bool) (min_samples : nat).

(** More than [min_samples] samples are within the radius. *)
Definition core (i : nat) : bool := min_samples <? length (filter (near i) (seq 0 n)).

(** A chain of core samples, each within the radius of the one before. *)
Inductive dense : nat -> nat -> Prop :=
| dense_here i : i < n -> core i = true -> dense i i
| dense_step i j k : i < n -> core i = true -> near i j = true -> dense j k -> dense i k.

(** The core sample of lowest index in its cluster. *)
Definition founder (e : nat) : Prop := e < n /\ core e = true /\ forall j, dense e j -> e <= j.

(** The cluster founded by [e] may hold [x]: a core sample of it, or a border sample that is near the founder, or a
    border sample after the founder that is near any core sample of the cluster. *)
Definition claims (e x : nat) : Prop :=
  (core x = true /\ dense e x) \/
  (core x = false /\ (near e x = true \/ (e < x /\ exists y, dense e y /\ near y x = true))).

(** Clusters are numbered by their founders, every sample is in the first cluster that claims it. *)
Definition density_labels (labels : list nat) : Prop :=
  length labels = n /\
  exists founders, StronglySorted lt founders /\ (forall e, In e founders <-> founder e) /\
  forall x, x < n ->
    (nth_error labels x = Some 0 /\ forall e, In e founders -> ~ claims e x) \/
    (exists c e, nth_error founders c = Some e /\ nth_error labels x = Some (S c) /\ claims e x /\
       forall c' e', c' < c -> nth_error founders c' = Some e' -> ~ claims e' x).
End Density.
