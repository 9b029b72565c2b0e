(** Specification vocabulary for buffers: candidates are (index, distance) pairs. *)
From Coq Require Import List Arith ZArith Permutation.
Import ListNotations.

(** [lt] is the strict part of a total preorder. *)
Definition order_ok {D} (lt : D -> D -> bool) : Prop :=
  (forall a b, lt a b = true -> lt b a = false) /\
  (forall a b c, lt b a = false -> lt c b = false -> lt c a = false).

(** [stored] are [k] nearest of the candidates (all of them when there are fewer than [k]). *)
Definition k_nearest {D} (lt : D -> D -> bool) (k : nat) (candidates stored : list (nat * D)) : Prop :=
  exists rest,
    Permutation (stored ++ rest) candidates /\
    length stored = min k (length candidates) /\
    forall s r, In s stored -> In r rest -> lt (snd r) (snd s) = false.

(** [c] is one of the candidates and none is strictly closer / strictly further. *)
Definition is_closest {D} (lt : D -> D -> bool) (candidates : list (nat * D)) (c : nat * D) : Prop :=
  In c candidates /\ forall x, In x candidates -> lt (snd x) (snd c) = false.
Definition is_furthest {D} (lt : D -> D -> bool) (candidates : list (nat * D)) (c : nat * D) : Prop :=
  In c candidates /\ forall x, In x candidates -> lt (snd c) (snd x) = false.

(** Features of a sample. *)
Definition row {A} (samples : list A) (nf i : nat) : list A := firstn nf (skipn (i * nf) samples).
