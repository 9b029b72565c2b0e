(** Specification vocabulary for the choice of the axis. *)
From Coq Require Import List Arith ZArith QArith.
From Verif Require Import BoundsModel StatsSpec.
Import ListNotations.
Local Open Scope nat_scope.

(** Length of the side [j] of a box. *)
Definition side (bound : aabb) (j : nat) : Z :=
  match nth_error (aabb_segments bound) j with Some s => Z.abs (seg_upper s - seg_lower s) | None => 0%Z end.

(** The variance of feature [j] over the samples [indices]. *)
Definition feature_variance (samples : list Z) (nf : nat) (indices : list nat) (j : nat) : Q :=
  variance_q (column (map inject_Z samples) nf j indices).

(** [s] is the difference of the greatest and the least value of the feature [j] over the samples [indices]. *)
Definition is_spread (samples : list Z) (nf : nat) (indices : list nat) (j : nat) (s : Z) : Prop :=
  exists lo hi, In lo (zcolumn samples nf j indices) /\ In hi (zcolumn samples nf j indices) /\
    (forall z, In z (zcolumn samples nf j indices) -> (lo <= z <= hi)%Z) /\ s = (hi - lo)%Z.

(** The axes a policy may return: all of them without a mask, those of the mask otherwise. *)
Definition allowed (nf : nat) (mask : list nat) : list nat := match mask with [] => seq 0 nf | _ => mask end.
