(** Specification vocabulary for concurrent loops. *)
From Coq Require Import List Arith.
From Verif Require Import Base ThreadsModel.
Import ListNotations.

(** [n] iterations act in the order of [schedule]; each gets at least [turns] turns. *)
Definition runs (n : nat) (schedule : list nat) : Prop := Forall (fun i => i < n) schedule.
Definition enough (n turns : nat) (schedule : list nat) : Prop := forall i, i < n -> turns <= count_occ Nat.eq_dec schedule i.

(** Two memories that agree on the elements of iteration [i]. *)
Definition agree {C L} (i : nat) (m m' : @shared C L) : Prop :=
  nth_error (candidates m) i = nth_error (candidates m') i /\ nth_error (previous m) i = nth_error (previous m') i /\
  nth_error (losses m) i = nth_error (losses m') i.
