(** Specification vocabulary for C90: results that depend on the distances only. *)
From Coq Require Import List Arith.
From Verif Require Import Base SlinkModel.
Import ListNotations.

(** The same merges at the same levels of the samples renamed by [f], children possibly exchanged. *)
Inductive mirror {D} (f : nat -> nat) : slink D -> slink D -> Prop :=
| mirror_leaf i : mirror f (SLeaf i) (SLeaf (f i))
| mirror_same i i' v n n' l r l' r' : mirror f l l' -> mirror f r r' -> mirror f (SNode i v n l r) (SNode i' v n' l' r')
| mirror_swap i i' v n n' l r l' r' : mirror f l r' -> mirror f r l' -> mirror f (SNode i v n l r) (SNode i' v n' l' r').

(** The same samples are labelled 0, and two samples have equal labels in one list when they do in the other. *)
Definition same_partition (n : nat) (f : nat -> nat) (labels labels' : list nat) : Prop :=
  (forall i, i < n -> (nth_error labels i = Some 0 <-> nth_error labels' (f i) = Some 0)) /\
  (forall i j, i < n -> j < n -> (nth_error labels i = nth_error labels j <-> nth_error labels' (f i) = nth_error labels' (f j))).

(** No two pairs of vertices have equal weights. *)
Definition no_ties {D} (lt : D -> D -> bool) (n : nat) (d : nat -> nat -> D) : Prop :=
  forall i j k l, i < n -> j < n -> k < n -> l < n -> i <> j -> k <> l ->
    lt (d i j) (d k l) = false -> lt (d k l) (d i j) = false -> (i = k /\ j = l) \/ (i = l /\ j = k).

(** [f] permutes the numbers below [n]. *)
Definition renaming (n : nat) (f : nat -> nat) : Prop :=
  (forall i, i < n -> f i < n) /\ (forall i j, i < n -> j < n -> f i = f j -> i = j).
