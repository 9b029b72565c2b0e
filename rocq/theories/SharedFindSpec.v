(** Specification vocabulary for one UnionFind used by several threads. *)
From Coq Require Import List Arith.
From Verif Require Import Base UnionFindModel SharedFindModel.
Import ListNotations.

(** Every thread is in a call of [find] with an index below [n]. *)
Definition finds_only (n : nat) (tasks : list uf_op) : Prop := Forall (fun o => exists x, o = OFind x /\ x < n) tasks.

(** Thread [k] calls [merge] with [i] and [j], every other thread [find]; all indices are below [n]. *)
Definition one_merge (n : nat) (tasks : list uf_op) (k i j : nat) : Prop :=
  nth_error tasks k = Some (OMerge i j) /\ i < n /\ j < n /\
  forall t o, nth_error tasks t = Some o -> t <> k -> exists x, o = OFind x /\ x < n.

(** Thread [t]'s call has come back with [r]. *)
Definition returned (calls : list calling) (t r : nat) : Prop := nth_error calls t = Some (Return r).

(** How often thread [t] acts. *)
Definition turns (schedule : list nat) (t : nat) : nat := count_occ Nat.eq_dec schedule t.

(** Two threads are each about to access the same element of an array and one of them to write it: a data race in C++. *)
Definition data_race (calls : list calling) : Prop :=
  exists s t c d e ws wt, s <> t /\ nth_error calls s = Some c /\ nth_error calls t = Some d /\
    next_access c = Some (e, ws) /\ next_access d = Some (e, wt) /\ (ws = true \/ wt = true).
