(** Specification vocabulary for the document of a single linkage tree: the tree a reader finds in it. *)
From Coq Require Import String List Arith ZArith.
From Verif Require Import DocumentModel DocumentSpec.
Import ListNotations.
Local Open Scope string_scope.
Local Open Scope list_scope.

(** A node with or without children; representative, level and size are the numbers that were written. *)
Inductive linkage :=
| Sample (representative level size : Z)
| Merge (representative level size : Z) (left right : linkage).

Fixpoint read_linkage (j : json) : option linkage :=
  match j with
  | JObject [("representative", JInt i); ("level", v); ("cluster_size", JInt n)] =>
      match number v with Some v => Some (Sample i v n) | None => None end
  | JObject [("representative", JInt i); ("level", v); ("cluster_size", JInt n); ("left", l); ("right", r)] =>
      match number v, read_linkage l, read_linkage r with
      | Some v, Some l, Some r => Some (Merge i v n l r)
      | _, _, _ => None
      end
  | _ => None
  end.

Fixpoint linkage_samples (d : linkage) : list Z :=
  match d with
  | Sample i _ _ => [i]
  | Merge _ _ _ l r => linkage_samples l ++ linkage_samples r
  end.

(** The nodes of the tree. *)
Fixpoint linkage_nodes (d : linkage) : list linkage :=
  match d with
  | Sample _ _ _ => [d]
  | Merge _ _ _ l r => d :: linkage_nodes l ++ linkage_nodes r
  end.

Definition linkage_level (d : linkage) : Z := match d with Sample _ v _ | Merge _ v _ _ _ => v end.

(** Levels of the merges. *)
Fixpoint linkage_levels (d : linkage) : list Z :=
  match d with
  | Sample _ _ _ => []
  | Merge _ v _ l r => v :: linkage_levels l ++ linkage_levels r
  end.

(** What a reader relies on: samples are alone at level 0, sizes count samples, a cluster is named by one of its samples,
    no merge below lies above. *)
Definition linkage_node_ok (d : linkage) : Prop :=
  match d with
  | Sample _ v n => v = 0%Z /\ n = 1%Z
  | Merge i v n l r =>
      n = Z.of_nat (length (linkage_samples d)) /\ In i (linkage_samples d) /\
      forall x, In x (linkage_levels l ++ linkage_levels r) -> (x <= v)%Z
  end.

(** Two samples are below a merge of level at most [t]. *)
Definition linkage_joined (d : linkage) (t i j : Z) : Prop :=
  exists k v n l r, In (Merge k v n l r) (linkage_nodes d) /\ (v <= t)%Z /\
    In i (linkage_samples (Merge k v n l r)) /\ In j (linkage_samples (Merge k v n l r)).
