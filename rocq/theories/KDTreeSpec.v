(** Specification vocabulary for trees over an index array. *)
From Coq Require Import List Arith ZArith.
From Verif Require Import SortingSpec BoundsModel KDTreeModel.
Import ListNotations.

Definition sub {A} (arr : list A) (first last : nat) : list A := firstn (last - first) (skipn first arr).

(** The samples of a subtree, from left to right. *)
Fixpoint kd_samples (arr : list nat) (t : kd) : list nat :=
  match t with
  | KLeaf first last _ => sub arr first last
  | KNode first last _ _ l r => kd_samples arr l ++ sub arr first last ++ kd_samples arr r
  end.

Definition kd_box (t : kd) : aabb :=
  match t with KLeaf _ _ b => b | KNode _ _ _ b _ _ => b end.

(** Every range lies inside the array; the range of an inner node is one single position. *)
Fixpoint kd_ranges (arr : list nat) (t : kd) : Prop :=
  match t with
  | KLeaf first last _ => first <= last <= length arr
  | KNode first last _ _ l r => last = S first /\ first < length arr /\ kd_ranges arr l /\ kd_ranges arr r
  end.

(** Number of samples of a subtree. *)
Fixpoint kd_size (t : kd) : nat :=
  match t with
  | KLeaf first last _ => last - first
  | KNode first last _ _ l r => kd_size l + (last - first) + kd_size r
  end.

(** Limits for a subtree whose root is at depth [d]. *)
Fixpoint kd_limits (bucket_size max_depth d : nat) (t : kd) : Prop :=
  match t with
  | KLeaf first last _ => d <= max_depth /\ (last - first <= bucket_size \/ d = max_depth)
  | KNode _ _ _ _ l r =>
      d < max_depth /\ bucket_size < kd_size t /\
      kd_limits bucket_size max_depth (S d) l /\
      kd_limits bucket_size max_depth (S d) r
  end.

(** Height: the number of inner nodes on the longest path from the root. *)
Fixpoint kd_height (t : kd) : nat :=
  match t with
  | KLeaf _ _ _ => 0
  | KNode _ _ _ _ l r => S (Nat.max (kd_height l) (kd_height r))
  end.

(** [t] is met [d] levels below [root]. *)
Inductive kd_below : kd -> nat -> kd -> Prop :=
| kd_here t : kd_below t 0 t
| kd_down_left f last axis b l r d t : kd_below l d t -> kd_below (KNode f last axis b l r) (S d) t
| kd_down_right f last axis b l r d t : kd_below r d t -> kd_below (KNode f last axis b l r) (S d) t.

(** Every node has at most half of its other samples on the left, and fewer than [c] samples less than that. *)
Fixpoint kd_even (c : nat) (t : kd) : Prop :=
  match t with
  | KLeaf _ _ _ => True
  | KNode _ _ _ _ l r =>
      kd_size l <= (kd_size t - 1) / 2 /\ (kd_size t - 1) / 2 < kd_size l + c /\ kd_even c l /\ kd_even c r
  end.

(** On every axis at most [c] of the samples [a] are within the tolerance of any one of them. *)
Definition crowd (tol : Z) (samples : list Z) (nf c : nat) (a : list nat) : Prop :=
  forall j x, j < nf -> In x a ->
    length (filter (fun y => Z.leb (Z.abs (val samples nf j x - val samples nf j y)) tol) a) <= c.

Section Order.
Context (samples : list Z) (nf : nat) (arr : list nat).

(** Left subtree strictly below, right subtree not below the sample of the node on its axis. *)
Fixpoint kd_ordered (t : kd) : Prop :=
  match t with
  | KLeaf _ _ _ => True
  | KNode first _ axis _ l r =>
      axis < nf /\
      (forall y, In y (kd_samples arr l) -> (val samples nf axis y < val samples nf axis (nth first arr 0%nat))%Z) /\
      (forall y, In y (kd_samples arr r) -> (val samples nf axis (nth first arr 0%nat) <= val samples nf axis y)%Z) /\
      kd_ordered l /\ kd_ordered r
  end.

(** The same up to [d]. *)
Fixpoint kd_ordered_within (d : Z) (t : kd) : Prop :=
  match t with
  | KLeaf _ _ _ => True
  | KNode first _ axis _ l r =>
      axis < nf /\
      (forall y, In y (kd_samples arr l) -> (val samples nf axis y <= val samples nf axis (nth first arr 0%nat) + d)%Z) /\
      (forall y, In y (kd_samples arr r) -> (val samples nf axis (nth first arr 0%nat) <= val samples nf axis y + d)%Z) /\
      kd_ordered_within d l /\ kd_ordered_within d r
  end.

(** A box encloses samples. *)
Definition encloses (b : aabb) (ys : list nat) : Prop :=
  length (aabb_segments b) = nf /\
  forall y j s, In y ys -> nth_error (aabb_segments b) j = Some s ->
    (seg_lower s <= val samples nf j y <= seg_upper s)%Z.

Fixpoint kd_enclosed (t : kd) : Prop :=
  encloses (kd_box t) (kd_samples arr t) /\
  match t with
  | KLeaf _ _ _ => True
  | KNode _ _ _ _ l r => kd_enclosed l /\ kd_enclosed r
  end.

(** [c] is [b] with the bounds on one axis replaced; the stored centroid is the same. *)
Definition box_with (b c : aabb) (axis : nat) (s : segment) : Prop :=
  aabb_centroid c = aabb_centroid b /\
  length (aabb_segments c) = length (aabb_segments b) /\
  nth_error (aabb_segments c) axis = Some s /\
  forall j, j <> axis -> nth_error (aabb_segments c) j = nth_error (aabb_segments b) j.

(** The boxes of the children are the two halves of the box of the node, cut at its sample. *)
Fixpoint kd_cut_boxes (t : kd) : Prop :=
  match t with
  | KLeaf _ _ _ => True
  | KNode first _ axis b l r =>
      let x := val samples nf axis (nth first arr 0%nat) in
      (exists s, nth_error (aabb_segments b) axis = Some s /\
         box_with b (kd_box l) axis (mk_segment (seg_lower s) x) /\
         box_with b (kd_box r) axis (mk_segment x (seg_upper s))) /\
      kd_cut_boxes l /\ kd_cut_boxes r
  end.
End Order.
