(** Specification vocabulary for distances given in another unit. *)
From Coq Require Import List Arith ZArith QArith Qabs.
From Verif Require Import Base KMedoidsModel.
Import ListNotations.
Local Open Scope nat_scope.

(** [src'] is [src] with each distance multiplied by [c]; both fail on the same pairs, and all distances are below [top]. *)
Record other_unit (c top : Z) (src src' : source Z) : Prop := {
  u_factor : (0 < c)%Z;
  u_rows : rows src' = rows src;
  u_distance : forall i j d, dist_at src i j = Ok d -> dist_at src' i j = Ok (c * d)%Z /\ (d < top)%Z /\ (c * d < top)%Z;
  u_undefined : forall i j, dist_at src i j = UB -> dist_at src' i j = UB;
  u_throws : forall i j, dist_at src i j = Throw -> dist_at src' i j = Throw;
  u_ends : forall i j, dist_at src i j <> Fuel }.

(** Distances for which the tolerance [eps] of a comparison with 0 means nothing, in both units. *)
Definition above_tolerance (eps c : Q) (dist : nat -> nat -> Q) (n : nat) : Prop :=
  forall i j, (i < n) -> (j < n) -> (Qabs (dist i j) <= eps)%Q \/ (Qabs (c * dist i j) <= eps)%Q -> (dist i j == 0)%Q.

(** The samples with each feature [x] replaced by [scale * x + shift]. *)
Definition converted (scale shift : Z) (samples : list Z) : list Z := map (fun x => scale * x + shift)%Z samples.

(** The Manhattan distances of any two rows stay below [top], in both units. *)
Definition in_range (scale top : Z) (samples : list Z) (n_features : nat) : Prop :=
  forall i j, let d := fold_right Z.add 0%Z (map (fun f => Z.abs (nth (i * n_features + f) samples 0 - nth (j * n_features + f) samples 0)%Z)
    (seq 0 n_features)) in
  S i * n_features <= length samples -> S j * n_features <= length samples -> (d < top /\ Z.abs scale * d < top)%Z.
