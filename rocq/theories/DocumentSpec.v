(** Specification vocabulary for the serialized tree: JSON values and what a reader takes from them. *)
From Coq Require Import String List Arith ZArith.
From Verif Require Import DocumentModel.
Import ListNotations.
Local Open Scope string_scope.
Local Open Scope list_scope.

(** A JSON value without booleans and null. *)
Inductive json :=
| JInt (z : Z) | JDouble (z : Z) | JArray (l : list json) | JObject (l : list (string * json)).

(** The text of a value, as the calls that write it. *)
Fixpoint text (j : json) : list token :=
  match j with
  | JInt z => [Int64 z]
  | JDouble z => [Double z]
  | JArray l => [StartArray] ++ flat_map text l ++ [EndArray]
  | JObject l => [StartObject] ++ flat_map (fun kv => Str (fst kv) :: text (snd kv)) l ++ [EndObject]
  end.

(** Reading. *)
Definition number (j : json) : option Z := match j with JInt z | JDouble z => Some z | _ => None end.

Fixpoint all_some {A} (l : list (option A)) : option (list A) :=
  match l with
  | [] => Some []
  | Some x :: l' => match all_some l' with Some r => Some (x :: r) | None => None end
  | None :: _ => None
  end.

Definition numbers (j : json) : option (list Z) := match j with JArray l => all_some (map number l) | _ => None end.
Definition points (j : json) : option (list (list Z)) := match j with JArray l => all_some (map numbers l) | _ => None end.

Fixpoint lookup (k : string) (l : list (string * json)) : option json :=
  match l with
  | [] => None
  | (k', v) :: l' => if String.eqb k k' then Some v else lookup k l'
  end.
Definition field (k : string) (j : json) : option json := match j with JObject l => lookup k l | _ => None end.

(** The tree a reader finds under "root": a leaf has axis -1 and no children. *)
Inductive doc_tree :=
| DLeaf (ps : list (list Z))
| DNode (axis : Z) (ps : list (list Z)) (left right : doc_tree).

Fixpoint read_tree (j : json) : option doc_tree :=
  match j with
  | JObject [("axis", JInt a); ("points", ps)] =>
      if (a =? -1)%Z then match points ps with Some p => Some (DLeaf p) | None => None end else None
  | JObject [("axis", JInt a); ("points", ps); ("left", l); ("right", r)] =>
      if (a =? -1)%Z then None
      else match points ps, read_tree l, read_tree r with
           | Some p, Some l', Some r' => Some (DNode a p l' r')
           | _, _, _ => None
           end
  | _ => None
  end.

Fixpoint doc_points (d : doc_tree) : list (list Z) :=
  match d with
  | DLeaf ps => ps
  | DNode _ ps l r => doc_points l ++ ps ++ doc_points r
  end.

(** A search tree: one point per inner node, smaller values on its axis to the left, the others to the right. *)
Fixpoint doc_search_tree (nf : nat) (d : doc_tree) : Prop :=
  match d with
  | DLeaf _ => True
  | DNode a ps l r =>
      (0 <= a < Z.of_nat nf)%Z /\
      exists p, ps = [p] /\
        (forall q, In q (doc_points l) -> (nth (Z.to_nat a) q 0 < nth (Z.to_nat a) p 0)%Z) /\
        (forall q, In q (doc_points r) -> (nth (Z.to_nat a) p 0 <= nth (Z.to_nat a) q 0)%Z) /\
        doc_search_tree nf l /\ doc_search_tree nf r
  end.

(** A leaf has at most [bucket] points unless it is as deep as allowed. *)
Fixpoint doc_limits (bucket max_depth depth : nat) (d : doc_tree) : Prop :=
  match d with
  | DLeaf ps => depth <= max_depth /\ (length ps <= bucket \/ depth = max_depth)
  | DNode _ _ l r => doc_limits bucket max_depth (S depth) l /\ doc_limits bucket max_depth (S depth) r
  end.
