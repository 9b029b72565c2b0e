(** Specification vocabulary for dendrograms. *)
From Coq Require Import List Arith Bool Permutation Sorted.
From Verif Require Import Base UnionFindModel UnionFindSpec GraphSpec SlinkModel.
Import ListNotations.

Section Spec.
Context {D : Type} (lt : D -> D -> bool) (zero : D).

(** Samples below a node, from left to right. *)
Fixpoint leaves (s : slink D) : list nat :=
  match s with
  | SLeaf i => [i]
  | SNode _ _ _ l r => leaves l ++ leaves r
  end.

(** Levels of the inner nodes. *)
Fixpoint levels (s : slink D) : list D :=
  match s with
  | SLeaf _ => []
  | SNode _ v _ l r => v :: levels l ++ levels r
  end.

Inductive descendant : slink D -> slink D -> Prop :=
| desc_here s : descendant s s
| desc_left i v n l r s : descendant l s -> descendant (SNode i v n l r) s
| desc_right i v n l r s : descendant r s -> descendant (SNode i v n l r) s.

(** Sizes count the samples, representatives are samples of the cluster, levels do not decrease from child to parent. *)
Fixpoint dendrogram (s : slink D) : Prop :=
  match s with
  | SLeaf _ => True
  | SNode i v n l r =>
      n = length (leaves l ++ leaves r) /\ In i (leaves l ++ leaves r) /\
      (forall x, In x (levels l ++ levels r) -> lt v x = false) /\ dendrogram l /\ dendrogram r
  end.

(** Two samples have a common ancestor of level at most [t]. *)
Definition joined_at (root : slink D) (t : D) (i j : nat) : Prop :=
  exists k v n l r, descendant root (SNode k v n l r) /\ lt t v = false /\
    In i (leaves l ++ leaves r) /\ In j (leaves l ++ leaves r).

(** The lowest node above sample [i] whose level is at least [cut]. *)
Definition lowest_at_least (cut : D) (root : slink D) (i : nat) (s : slink D) : Prop :=
  descendant root s /\ In i (leaves s) /\ lt (sl_level zero s) cut = false /\
  forall s', descendant s s' -> In i (leaves s') -> s' = s \/ lt (sl_level zero s') cut = true.

Definition none_at_least (cut : D) (root : slink D) (i : nat) : Prop :=
  forall s, descendant root s -> In i (leaves s) -> lt (sl_level zero s) cut = true.

(** Edges of weight below [t]. *)
Definition below (t : D) (edges : list (nat * nat * D)) : list (nat * nat * D) :=
  filter (fun e => lt (snd e) t) edges.

(** What [std::sort] by weight guarantees. *)
Definition sorts (sort : list (nat * nat * D) -> list (nat * nat * D)) : Prop :=
  forall l, Permutation (sort l) l /\ StronglySorted (fun e e' => lt (snd e') (snd e) = false) (sort l).
End Spec.
