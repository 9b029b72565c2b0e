(** Specification vocabulary for distances between sequences and vectors. *)
From Coq Require Import List QArith Arith ZArith.
Open Scope nat_scope.
Import ListNotations.

(** One insertion, deletion or substitution anywhere in a sequence. *)
Inductive edit1 : list Z -> list Z -> Prop :=
| edit_insert u v x : edit1 (u ++ v) (u ++ x :: v)
| edit_delete u v x : edit1 (u ++ x :: v) (u ++ v)
| edit_substitute u v x y : edit1 (u ++ x :: v) (u ++ y :: v).

(** [edits k a b]: k single edits turn [a] into [b]. *)
Inductive edits : nat -> list Z -> list Z -> Prop :=
| edits_none a : edits 0 a a
| edits_more k a b c : edit1 a b -> edits k b c -> edits (S k) a c.

(** The smallest number of edits. *)
Definition fewest_edits (a b : list Z) (d : nat) : Prop := edits d a b /\ forall k, edits k a b -> d <= k.

(** A non-negative rational [s] is at least the square root of [d]. *)
Definition above_sqrt (s : Q) (d : Z) : Prop := (0 <= s /\ inject_Z d <= s * s)%Q.

(** One of the vectors is a multiple of the other. *)
Definition parallel (p q : list Z) : Prop :=
  exists a b : Z, (a <> 0%Z \/ b <> 0%Z) /\ map (Z.mul a) p = map (Z.mul b) q.

(** Scalar product. *)
Fixpoint dot (p q : list Z) : Z :=
  match p, q with x :: p', y :: q' => (x * y + dot p' q')%Z | _, _ => 0%Z end.
