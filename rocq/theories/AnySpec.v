(** Specification vocabulary for trees over any value type. *)
From Coq Require Import List Arith.
From Verif Require Import Base KDTreeSpec AnyModel.
Import ListNotations.

(** Nothing is less than itself, and a value that does not equal itself equals nothing. *)
Record sane (T : values) : Prop := mk_sane {
  sane_irreflexive : forall x, vt_lt T x x = false;
  sane_equal : forall x, vt_equal T x x = true \/ forall y, vt_equal T x y = false }.

(** The samples of a subtree, from left to right. *)
Fixpoint any_samples {V} (arr : list nat) (t : any_kd V) : list nat :=
  match t with
  | ALeaf first last _ => sub arr first last
  | ANode first last _ _ l r => any_samples arr l ++ sub arr first last ++ any_samples arr r
  end.

(** Every range lies inside the array; the range of an inner node is one single position. *)
Fixpoint any_ranges {V} (arr : list nat) (t : any_kd V) : Prop :=
  match t with
  | ALeaf first last _ => first <= last <= length arr
  | ANode first last _ _ l r => last = S first /\ first < length arr /\ any_ranges arr l /\ any_ranges arr r
  end.

(** Number of samples of a subtree. *)
Fixpoint any_size {V} (t : any_kd V) : nat :=
  match t with
  | ALeaf first last _ => last - first
  | ANode first last _ _ l r => any_size l + (last - first) + any_size r
  end.

(** Limits for a subtree whose root is at depth [d]. *)
Fixpoint any_limits {V} (bucket_size max_depth d : nat) (t : any_kd V) : Prop :=
  match t with
  | ALeaf first last _ => d <= max_depth /\ (last - first <= bucket_size \/ d = max_depth)
  | ANode _ _ _ _ l r =>
      d < max_depth /\ bucket_size < any_size t /\
      any_limits bucket_size max_depth (S d) l /\ any_limits bucket_size max_depth (S d) r
  end.

(** The cut axis of every inner node is a feature. *)
Fixpoint any_axes {V} (nf : nat) (t : any_kd V) : Prop :=
  match t with
  | ALeaf _ _ _ => True
  | ANode _ _ axis _ l r => axis < nf /\ any_axes nf l /\ any_axes nf r
  end.

(** One sample. *)
Definition any_row {V} (samples : list V) (nf i : nat) : list V := sub samples (i * nf) (i * nf + nf).

(** The bound holds a sample at distance [d]: no coordinate is outside its segment, or the distance is below the radius. *)
Definition any_within {V D} (lt : V -> V -> bool) (dlt : D -> D -> bool) (bound : any_bound V D) (p : list V) (d : D) : bool :=
  match bound with
  | AUnbounded => true
  | ARadius r => dlt d r
  | ABox segs => forallb (fun vs => negb (lt (fst vs) (fst (snd vs)) || lt (snd (snd vs)) (fst vs))) (combine p segs)
  end.

(** A box bound has a segment for every feature. *)
Definition any_covers {V D} (nf : nat) (bound : any_bound V D) : Prop :=
  match bound with ABox segs => nf <= length segs | _ => True end.

(** The samples of [ys] inside the bound, by the distance the library computes. *)
Definition any_candidates {V} (lt : V -> V -> bool) (m : any_metric V) (samples : list V) (nf : nat)
  (bound : any_bound V (am_dist m)) (query : list V) (ys : list nat) : list nat :=
  filter (fun i => match am_auto m (any_row samples nf i) query with
                   | Ok d => any_within lt (am_lt m) bound (any_row samples nf i) d
                   | _ => false end) ys.

(** Entries [(i, d)] of an answer: different candidates, each with its own distance. *)
Definition any_answer {V} (lt : V -> V -> bool) (m : any_metric V) (samples : list V) (nf : nat)
  (bound : any_bound V (am_dist m)) (query : list V) (ys : list nat) (answer : list (nat * am_dist m)) : Prop :=
  NoDup (map fst answer) /\
  forall i d, In (i, d) answer ->
    In i (any_candidates lt m samples nf bound query ys) /\ am_auto m (any_row samples nf i) query = Ok d.
