(** Specification vocabulary for silhouette values in floating point. *)
From Coq Require Import Reals List Arith ZArith.
From Verif Require Import SilhouetteSpec.
Import ListNotations.
Open Scope R_scope.

(** Mean of [f] over a list of samples, in exact arithmetic; 0 if there is none. *)
Definition true_mean (f : nat -> R) (l : list nat) : R := fold_right Rplus 0 (map f l) / INR (length l).

(** [b] is the least of the means of [f] over the non-empty clusters other than that of sample [i]. *)
Definition true_least_mean (labels : list nat) (f : nat -> R) (i : nat) (b : R) : Prop :=
  (exists c, c <> nth i labels 0%nat /\ cluster labels c <> [] /\ b = true_mean f (cluster labels c)) /\
  forall c, c <> nth i labels 0%nat -> cluster labels c <> [] -> b <= true_mean f (cluster labels c).

(** The silhouette value: the difference of the two means over the larger one. *)
Definition true_value (a b : R) : R := (b - a) / Rmax a b.
