(** Specification vocabulary for weighted spanning trees. An edge is [(i, j, w)]; [linked] is from UnionFindSpec. *)
From Coq Require Import List Arith Bool.
From Verif Require Import Base UnionFindModel UnionFindSpec.
Import ListNotations.

Section Edges.
Context {D : Type} (lt : D -> D -> bool).

Definition ends (edges : list (nat * nat * D)) : list (nat * nat) := map fst edges.

(** Edges of weight at most [t]. *)
Definition up_to (t : D) (edges : list (nat * nat * D)) : list (nat * nat * D) :=
  filter (fun e => negb (lt t (snd e))) edges.

(** [n - 1] edges between vertices below [n] that link all of them. *)
Definition spanning_tree (n : nat) (edges : list (nat * nat * D)) : Prop :=
  length edges = n - 1 /\
  (forall a b w, In (a, b, w) edges -> a < n /\ b < n) /\
  (forall i j, i < n -> j < n -> linked (ends edges) i j).

(** A chain of vertices below [n] with consecutive distances at most [t]. *)
Inductive reach (n : nat) (weight : nat -> nat -> D) (t : D) : nat -> nat -> Prop :=
| reach_here i : i < n -> reach n weight t i i
| reach_step i j k : i < n -> j < n -> lt t (weight i j) = false -> reach n weight t j k -> reach n weight t i k.

(** The edges of the first list can be matched with those of the second, none being heavier than its partner. *)
Definition lighter (edges edges' : list (nat * nat * D)) : Prop :=
  exists l l', Permutation.Permutation l edges /\ Permutation.Permutation l' edges' /\
    Forall2 (fun e e' => lt (snd e') (snd e) = false) l l'.
End Edges.
