(** Specification vocabulary for matrices stored row after row. *)
From Coq Require Import List Arith ZArith Permutation.
From Verif Require Import Base BufferModel.
Import ListNotations.

(** Entry (i, j) of a matrix with [cols] columns. *)
Definition entry {A} (M : list A) (cols i j : nat) : option A := nth_error M (i * cols + j).

(** The order in which concurrent assignments take effect: any permutation. *)
Definition is_schedule (schedule : list (nat * nat) -> list (nat * nat)) : Prop := forall l, Permutation (schedule l) l.

(** [dist] is the function computed by the value type's distance on vectors of equal length. *)
Definition computes (m : metric) (dist : list Z -> list Z -> m_dist m) : Prop :=
  forall p q, length p = length q -> m_auto m p q = Ok (dist p q).
