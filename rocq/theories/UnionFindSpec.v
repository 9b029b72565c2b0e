(** Specification vocabulary for UnionFind: the equivalence generated by a list of pairs. *)
From Coq Require Import List Relations.
From Verif Require Import Base UnionFindModel.
Import ListNotations.

(** Pairs handed to [merge] in a call sequence. *)
Fixpoint merged_pairs (ops : list uf_op) : list (nat * nat) :=
  match ops with
  | [] => []
  | OFind _ :: t => merged_pairs t
  | OMerge i j :: t => (i, j) :: merged_pairs t
  end.

(** [i] and [j] are linked by a chain of the given pairs. *)
Definition linked (pairs : list (nat * nat)) : nat -> nat -> Prop :=
  clos_refl_sym_trans nat (fun a b => In (a, b) pairs).

(** All indices used by a call are below [n]. *)
Definition op_in_range (n : nat) (o : uf_op) : Prop :=
  match o with
  | OFind i => i < n
  | OMerge i j => i < n /\ j < n
  end.

(** What a client sees when calling [find] on [i]. *)
Definition rep (u : uf) (i : nat) : option nat :=
  match uf_find u i with Ok (_, r) => Some r | _ => None end.

(** [i] and [j] are reported to be in one class. *)
Definition same (u : uf) (i j : nat) : Prop :=
  exists r, rep u i = Some r /\ rep u j = Some r.

(** The label chain of [i] ends in the self-labelled index [r]. *)
Inductive chain_ends (labels : list nat) : nat -> nat -> Prop :=
| ce_here r : nth_error labels r = Some r -> chain_ends labels r r
| ce_step i j r : nth_error labels i = Some j -> chain_ends labels j r -> chain_ends labels i r.
