(** The [KDTree] as an object: accessors, copies, moves, and the document it is serialized to.
    include/ffcl/datastruct/tree/kdtree/KDTree.hpp and KDNodeView.hpp. *)
From Coq Require Import String List Arith ZArith Bool.
From Verif Require Import Base SortingModel BoundsModel BufferModel KDTreeModel SearchModel MatrixModel.
Import ListNotations.
Local Open Scope string_scope.
Local Open Scope list_scope.

(** The calls made on [rapidjson::Writer], in order. *)
Inductive token := StartObject | EndObject | StartArray | EndArray | Str (s : string) | Int64 (z : Z) | Double (z : Z).

(** The conversion of the argument of [Writer::Int64] to a signed 64-bit integer. *)
Definition to_int64 (z : Z) : Z := ((z + 2 ^ 63) mod 2 ^ 64 - 2 ^ 63)%Z.

(** How a feature is written: [Int64] for integral types, [Double] for floating-point types.
    /repo/include/ffcl/datastruct/tree/kdtree/KDNodeView.hpp:290-295, KDTree.hpp:436-443. *)
Definition write_value (integral : bool) (v : Z) : token := if integral then Int64 (to_int64 v) else Double v.

(** [KDTree]: the members. [None] for [n_samples_] is a member that was never written; [None] for the root a null
    pointer. The index array belongs to the caller, the nodes refer to it.
    /repo/include/ffcl/datastruct/tree/kdtree/KDTree.hpp:177-191. *)
Record tree_object := mk_object {
  o_bucket_size : nat; o_max_depth : nat; o_samples : list Z; o_n_samples : option nat; o_n_features : nat;
  o_bound : aabb; o_indices : list nat; o_root : option kd }.

(** Constructor. KDTree.hpp:203-230. *)
Definition construct (tol : Z) (samples : list Z) (n_features bucket_size max_depth : nat)
  (policy : list bool -> list nat -> nat -> aabb -> nat) (lowest max : Z) (center : segment -> Z) (indices : list nat)
  : res tree_object :=
  tree <- make_kdtree tol samples n_features bucket_size max_depth policy lowest max center indices ;;
  Ok (mk_object bucket_size max_depth samples (Some (length indices)) n_features (kt_bound tree) (kt_indices tree)
        (Some (kt_root tree))).

(** Copy constructor: the nodes are shared. KDTree.hpp:232-240. *)
Definition copy_object (o : tree_object) : tree_object :=
  mk_object (o_bucket_size o) (o_max_depth o) (o_samples o) (o_n_samples o) (o_n_features o) (o_bound o) (o_indices o)
    (o_root o).

(** Move constructor: the new object, which does not mention [n_samples_], and what is left of the other one (the
    iterators and numbers keep their value, the vectors of the bound are empty, the root is null). KDTree.hpp:242-249. *)
Definition move_object (o : tree_object) : tree_object * tree_object :=
  (mk_object (o_bucket_size o) (o_max_depth o) (o_samples o) None (o_n_features o) (o_bound o) (o_indices o) (o_root o),
   mk_object (o_bucket_size o) (o_max_depth o) (o_samples o) (o_n_samples o) (o_n_features o) (mk_aabb [] []) (o_indices o)
     None).

(** [n_samples]. KDTree.hpp:251-254. *)
Definition object_n_samples (o : tree_object) : res nat := get_n_samples (o_samples o) (o_n_features o).
(** [n_features]. KDTree.hpp:256-259. *)
Definition object_n_features (o : tree_object) : nat := o_n_features o.
(** The range [features_range_first(i), features_range_last(i)). KDTree.hpp:286-299. *)
Definition object_features (o : tree_object) (index : nat) : res (list Z) :=
  slice (o_samples o) (index * o_n_features o) (index * o_n_features o + o_n_features o).

(** [Searcher::operator()] over this tree. TreeTraverser.hpp:192-203 (a null root is dereferenced). *)
Definition object_search (m : metric) (o : tree_object) (bound : search_bound (m_dist m)) (query : list Z) {S}
  (accept : nat -> S -> res (bool * S)) (capacity : nat) (s : S) : res (buffer (m_dist m) * S) :=
  match o_root o with
  | None => UB
  | Some root => search m (o_samples o) (o_n_features o) (mk_kdtree (o_indices o) root (o_bound o)) bound query accept capacity s
  end.

(** [KDNodeView::serialize]. KDNodeView.hpp:274-302. *)
Definition serialize_points (integral : bool) (samples : list Z) (n_features : nat) (range : list nat) : res (list token) :=
  points <- for_each range
    (fun index out =>
       values <- for_loop n_features 0 (fun j row =>
                   v <- rd samples (index * n_features + j) ;; Ok (row ++ [write_value integral v])) [] ;;
       Ok (out ++ [StartArray] ++ values ++ [EndArray])) [] ;;
  Ok ([StartArray] ++ points ++ [EndArray]).

(** [KDTree::serialize] of a node; the axis of a leaf is -1. KDTree.hpp:384-407, KDNodeView.hpp:125-128. *)
Fixpoint serialize_node (integral : bool) (samples : list Z) (n_features : nat) (indices : list nat) (t : kd)
  : res (list token) :=
  match t with
  | KLeaf first last _ =>
      range <- slice indices first last ;;
      points <- serialize_points integral samples n_features range ;;
      Ok ([StartObject; Str "axis"; Int64 (-1); Str "points"] ++ points ++ [EndObject])
  | KNode first last axis _ l r =>
      range <- slice indices first last ;;
      points <- serialize_points integral samples n_features range ;;
      left <- serialize_node integral samples n_features indices l ;;
      right <- serialize_node integral samples n_features indices r ;;
      Ok ([StartObject; Str "axis"; Int64 (to_int64 (Z.of_nat axis)); Str "points"] ++ points ++
          [Str "left"] ++ left ++ [Str "right"] ++ right ++ [EndObject])
  end.

(** [Options::serialize]. KDTree.hpp:107-119. *)
Definition serialize_options (o : tree_object) : list token :=
  [Str "options"; StartObject;
   Str "bucket_size"; Int64 (to_int64 (Z.of_nat (o_bucket_size o)));
   Str "max_depth"; Int64 (to_int64 (Z.of_nat (o_max_depth o)));
   EndObject].

(** [KDTree::serialize] to a file: what is written. KDTree.hpp:409-451.
    Left out: that the text is parsed and written a second time (453-463), and the file itself. *)
Definition serialize_object (integral : bool) (o : tree_object) : res (list token) :=
  match o_n_samples o with
  | None => UB
  | Some n_samples =>
      box <- for_loop (o_n_features o) 0
        (fun j out =>
           s <- rd (aabb_segments (o_bound o)) j ;;
           Ok (out ++ [StartArray; write_value integral (seg_lower s); write_value integral (seg_upper s); EndArray])) [] ;;
      match o_root o with
      | None => UB
      | Some root =>
          tree <- serialize_node integral (o_samples o) (o_n_features o) (o_indices o) root ;;
          Ok ([StartObject; Str "n_samples"; Int64 (to_int64 (Z.of_nat n_samples));
               Str "n_features"; Int64 (to_int64 (Z.of_nat (o_n_features o)))] ++
              serialize_options o ++
              [Str "bounding_box"; StartArray] ++ box ++ [EndArray; Str "root"] ++ tree ++ [EndObject])
      end
  end.

(** What a tree is once another tree has been built over the same index range: the nodes are the same, the array they
    refer to is as the second construction left it.
    KDTree.hpp:305-382 (the ranges of the nodes are pairs of iterators, KDNodeView.hpp:87-89). *)
Definition after_building (o other : tree_object) : tree_object :=
  mk_object (o_bucket_size o) (o_max_depth o) (o_samples o) (o_n_samples o) (o_n_features o) (o_bound o) (o_indices other)
    (o_root o).
