(** Specification vocabulary for silhouette values. *)
From Coq Require Import List Arith ZArith QArith Bool.
From Verif Require Import BufferSpec RandomSpec.
Import ListNotations.
Local Open Scope nat_scope.

(** The samples of cluster [c], and the other samples in the cluster of sample [i]. *)
Definition cluster (labels : list nat) (c : nat) : list nat := filter (fun j => nth j labels 0 =? c) (seq 0 (length labels)).
Definition fellows (labels : list nat) (i : nat) : list nat := filter (fun j => negb (j =? i)) (cluster labels (nth i labels 0)).

(** Mean of [f] over a list of samples; 0 if there is none. *)
Definition mean (f : nat -> Q) (l : list nat) : Q := (total (map f l) / inject_Z (Z.of_nat (length l)))%Q.

(** [b] is the least of the means of [f] over the non-empty clusters other than that of sample [i]. *)
Definition least_mean (labels : list nat) (f : nat -> Q) (i : nat) (b : Q) : Prop :=
  (exists c, c <> nth i labels 0 /\ cluster labels c <> [] /\ (b == mean f (cluster labels c))%Q) /\
  forall c, c <> nth i labels 0 -> cluster labels c <> [] -> (b <= mean f (cluster labels c))%Q.

(** The value of a sample with mean distance [a] to its fellows and [b] to the nearest other cluster ([None] if there is none). *)
Definition value_ok (a : Q) (b : option Q) (q : Q) : Prop :=
  match b with
  | None => (q == 1)%Q
  | Some b => (a < b -> q == 1 - a / b)%Q /\ (b < a -> q == b / a - 1)%Q /\ (a == b -> q == 0)%Q
  end.
