(** Specification vocabulary for random selection and initialisation. *)
From Coq Require Import List Arith ZArith QArith Bool.
Import ListNotations.
Local Open Scope nat_scope.

(** A generator that keeps within the bounds it is given. *)
Definition in_range (draw : nat -> nat -> nat -> nat) : Prop :=
  forall call lower upper, lower <= upper -> lower <= draw call lower upper <= upper.
Definition real_in_range (real : nat -> Z -> Z -> Z) : Prop :=
  forall call lower upper, (lower <= upper -> lower <= real call lower upper <= upper)%Z.

(** Number of the cells (c, b) of an [n] x [m] grid where [f] is [i]. *)
Definition hits (f : nat -> nat -> nat) (n m i : nat) : nat :=
  length (filter (fun cell => f (fst cell) (snd cell) =? i) (list_prod (seq 0 n) (seq 0 m))).

(** [x] lies in the [j]th of [m] equal parts of the unit interval. *)
Definition in_part (m j : nat) (x : Q) : Prop :=
  (inject_Z (Z.of_nat j) / inject_Z (Z.of_nat m) <= x < inject_Z (Z.of_nat (S j)) / inject_Z (Z.of_nat m))%Q.

(** Sum of the weights. *)
Definition total (w : list Q) : Q := fold_right Qplus 0%Q w.

(** [d] is the distance from [p] to the nearest of the [k] rows of [centroids]. *)
Definition distance_to_nearest {F} (dist : list F -> list F -> Q) (centroids : list F) (nf k : nat) (p : list F) (d : Q) : Prop :=
  (exists j, j < k /\ d = dist p (firstn nf (skipn (j * nf) centroids))) /\
  forall j, j < k -> (d <= dist p (firstn nf (skipn (j * nf) centroids)))%Q.
