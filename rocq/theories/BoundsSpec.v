(** Specification vocabulary for boxes and balls. *)
From Coq Require Import List Arith ZArith.
Import ListNotations.
Local Open Scope Z_scope.

(** A box given by its corners: [lo_i <= p_i <= hi_i] for every coordinate. *)
Definition inside (lo hi p : list Z) : Prop :=
  length p = length lo /\ length p = length hi /\
  forall i, (i < length p)%nat -> nth i lo 0 <= nth i p 0 <= nth i hi 0.

(** Squared Euclidean distance and Manhattan distance. *)
Fixpoint sq_dist (p q : list Z) : Z :=
  match p, q with
  | x :: p', y :: q' => (x - y) * (x - y) + sq_dist p' q'
  | _, _ => 0
  end.

Fixpoint l1_dist (p q : list Z) : Z :=
  match p, q with
  | x :: p', y :: q' => Z.abs (x - y) + l1_dist p' q'
  | _, _ => 0
  end.
