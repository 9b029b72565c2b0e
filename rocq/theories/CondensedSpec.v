(** Specification vocabulary for density clusters of a dendrogram, in terms of dendrogram nodes and their samples only. *)
From Coq Require Import List Arith ZArith QArith Bool.
From Verif Require Import Base SlinkModel SlinkSpec.
Import ListNotations.
Local Open Scope nat_scope.

Definition qsum (l : list Q) : Q := fold_right Qplus 0%Q l.

Section Spec.
Context {D : Type} (inverse : D -> Q) (min : nat).
Notation slink := (slink D).

Definition big (s : slink) : Prop := min <= length (leaves s).

(** A cluster is the whole dendrogram or one side of a merge of two big parts. *)
Definition cluster_node (root s : slink) : Prop :=
  s = root \/ exists i v n l r, descendant root (SNode i v n l r) /\ big l /\ big r /\ (s = l \/ s = r).

(** A cluster without smaller clusters inside. *)
Definition finest (root s : slink) : Prop :=
  cluster_node root s /\ forall s', cluster_node root s' -> descendant s s' -> s' = s.

(** Sample [x] leaves the cluster born at [s] at level [v]: there the cluster splits into two big parts, or [x] goes
    with a part that is not big. *)
Inductive departs : slink -> nat -> D -> Prop :=
| departs_split i v n l r x : big l -> big r -> In x (leaves l ++ leaves r) -> departs (SNode i v n l r) x v
| departs_left i v n l r x : ~ big l -> In x (leaves l) -> departs (SNode i v n l r) x v
| departs_right i v n l r x : ~ big r -> In x (leaves r) -> departs (SNode i v n l r) x v
| stays_left i v n l r x w : big l -> ~ big r -> departs l x w -> departs (SNode i v n l r) x w
| stays_right i v n l r x w : big r -> ~ big l -> departs r x w -> departs (SNode i v n l r) x w.

(** Inverse of the level at which the cluster [s] appears, 0 for the whole dendrogram. *)
Definition birth (root s : slink) (b : Q) : Prop :=
  (s = root /\ b = 0%Q) \/
  exists i v n l r, descendant root (SNode i v n l r) /\ (s = l \/ s = r) /\ b = inverse v.

(** Sum over the samples of the time they spend in the cluster; a single sample never leaves. *)
Definition mass (root s : slink) (q : Q) : Prop :=
  exists b, birth root s b /\
  match s with
  | SLeaf _ => (q == 0)%Q
  | SNode _ _ _ _ _ => exists dep, (forall x, In x (leaves s) -> departs s x (dep x)) /\
      (q == qsum (map (fun x => inverse (dep x) - b) (leaves s)))%Q
  end.

Definition total_mass (root : slink) (sel : list slink) (q : Q) : Prop :=
  exists qs, Forall2 (mass root) sel qs /\ (q == qsum qs)%Q.

(** Clusters of which no two share a sample. *)
Definition flat_clustering (root : slink) (sel : list slink) : Prop :=
  Forall (cluster_node root) sel /\ NoDup (flat_map leaves sel).

(** Every finest cluster lies in one of the chosen ones. *)
Definition covers_finest (root : slink) (sel : list slink) : Prop :=
  forall s, finest root s -> exists s', In s' sel /\ descendant s' s.

(** [labels] gives the samples of the k-th cluster the label k + 1 and all others 0. *)
Definition shows (labels : list nat) (clusters : list slink) : Prop :=
  (forall k s x, nth_error clusters k = Some s -> In x (leaves s) -> nth_error labels x = Some (S k)) /\
  (forall x, x < length labels -> (forall s, In s clusters -> ~ In x (leaves s)) -> nth_error labels x = Some 0).
End Spec.
