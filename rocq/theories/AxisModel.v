(** Model of include/ffcl/datastruct/tree/kdtree/policy/AxisSelectionPolicy.hpp, of the axis selection of
    include/ffcl/datastruct/tree/kdtree/KDTreeAlgorithms.hpp, and of the construction of the tree with such a policy. *)
From Coq Require Import List Arith ZArith QArith Qround Bool.
From Verif Require Import Base SortingModel BoundsModel BufferModel KDTreeModel RandomModel StatsModel.
Import ListNotations.
Local Open Scope nat_scope.

(** [abs(lower_bound - upper_bound)] of a segment. /repo/include/ffcl/datastruct/tree/kdtree/KDTreeAlgorithms.hpp:20 and 38-39,
    /repo/include/ffcl/common/Utils.hpp:398-409. Simplified: no overflow. *)
Definition segment_range (s : segment) : Z := Z.abs (seg_lower s - seg_upper s).

(** [select_longest_axis]: the first of the longest segments. KDTreeAlgorithms.hpp:17-24. *)
Definition select_longest_axis (bound : aabb) : nat :=
  match aabb_segments bound with
  | [] => 0
  | s :: l => fst (max_element_from (fun lhs rhs => Z.ltb (segment_range lhs) (segment_range rhs)) 0 s 1 l)
  end.

(** [select_longest_axis] with a feature mask. KDTreeAlgorithms.hpp:26-47. *)
Definition select_longest_axis_masked (bound : aabb) (mask : list nat) : res nat :=
  ' (axis, _) <- for_each mask (fun feature_index '(current_axis, current_range) =>
    s <- rd (aabb_segments bound) feature_index ;;
    if Z.ltb current_range (segment_range s) then Ok (feature_index, segment_range s) else Ok (current_axis, current_range)) (0, 0%Z) ;;
  Ok axis.

Section Policies.
(** The arithmetic of the value type and the value of a feature in it; the limits of the value type, the centroid of a
    segment; the dataset. *)
Context {V : Type} (a : arith V) (inj : Z -> V) (lowest max : Z) (center : segment -> Z).
Context (samples : list Z) (n_features : nat).

(** [n_choices = n_samples_rate * n_samples], truncated. KDTreeAlgorithms.hpp:70 and 121.
    Simplified: the product is exact. *)
Definition n_choices (rate : Q) (n_samples : nat) : nat := Z.to_nat (Qfloor (rate * inject_Z (Z.of_nat n_samples))).

(** [select_largest_variance_axis]. The bound made for two samples is that of the whole dataset. [draw] are the random
    numbers of this call. KDTreeAlgorithms.hpp:49-97. *)
Definition select_largest_variance_axis (draw : generator) (rate : Q) (indices : list nat) : res nat :=
  let n_samples := length indices in
  let n_choices := n_choices rate n_samples in
  if 2 <? n_choices then
    random_indices <- select_n_elements draw indices n_choices ;;
    argmax_variance a (map inj samples) n_features random_indices
  else if 2 <? n_samples then
    random_indices <- select_n_elements draw indices 3 ;;
    argmax_variance a (map inj samples) n_features random_indices
  else if n_samples =? 2 then
    segments <- make_tight_segments_all lowest max samples n_features ;;
    Ok (select_longest_axis (make_aabb center segments))
  else Ok (draw 0 0 (n_features - 1)).

(** The same with a feature mask. KDTreeAlgorithms.hpp:99-156. *)
Definition select_largest_variance_axis_masked (draw : generator) (rate : Q) (mask indices : list nat) : res nat :=
  let n_samples := length indices in
  let n_choices := n_choices rate n_samples in
  if 2 <? n_choices then
    random_indices <- select_n_elements draw indices n_choices ;;
    argmax_variance_masked a (map inj samples) n_features mask random_indices
  else if 2 <? n_samples then
    random_indices <- select_n_elements draw indices 3 ;;
    argmax_variance_masked a (map inj samples) n_features mask random_indices
  else if n_samples =? 2 then
    segments <- make_tight_segments_all lowest max samples n_features ;;
    select_longest_axis_masked (make_aabb center segments) mask
  else Ok (draw 0 0 (n_features - 1)).

(** [CycleThroughAxesBuild::operator()]; the remainder by zero is undefined.
    /repo/include/ffcl/datastruct/tree/kdtree/policy/AxisSelectionPolicy.hpp:142-160. *)
Definition cycle_through_axes (mask : list nat) (depth : nat) : res nat :=
  match mask with
  | [] => if n_features =? 0 then UB else Ok (depth mod n_features)
  | _ => rd mask (depth mod length mask)
  end.

(** [HighestVarianceBuild::operator()]. AxisSelectionPolicy.hpp:162-191. *)
Definition highest_variance (draw : generator) (rate : Q) (mask indices : list nat) : res nat :=
  match mask with
  | [] => select_largest_variance_axis draw rate indices
  | _ => select_largest_variance_axis_masked draw rate mask indices
  end.

(** [MaximumSpreadBuild::operator()]. AxisSelectionPolicy.hpp:193-210. *)
Definition maximum_spread (mask : list nat) (bound : aabb) : res nat :=
  match mask with
  | [] => Ok (select_longest_axis bound)
  | _ => select_longest_axis_masked bound mask
  end.
End Policies.

(** A feature value as a floating-point number in units of a quantum. Not in the library: the datasets of the tree are modelled
    by integers (SortingModel.v). AxisSelectionPolicy.hpp:42-46. *)
Definition float_value (z : Z) : option Q := Some (inject_Z z).

(** Default [sampling_rate_]. AxisSelectionPolicy.hpp:108. *)
Definition default_sampling_rate : Q := (1#10)%Q.

(** ** The tree with a policy that reads the dataset *)
Section Build.
Context (tol : Z) (samples : list Z) (n_features bucket_size max_depth : nat).
(** What the policy returns at the node reached by a path, given its index range, its depth and its bound.
    AxisSelectionPolicy.hpp:33-39. *)
Context (policy : list bool -> list nat -> nat -> aabb -> res nat).

(** [KDTree::build]. /repo/include/ffcl/datastruct/tree/kdtree/KDTree.hpp:301-382. *)
Fixpoint build_with (fuel : nat) (path : list bool) (indices : list nat) (first last depth : nat) (bound : aabb)
  : res (list nat * kd * aabb) :=
  match fuel with
  | 0 => Fuel
  | S fuel' =>
      if (depth <? max_depth) && (bucket_size <? last - first) then
        range <- slice indices first last ;;
        axis <- policy path range depth bound ;;
        '(range', (_, left_range, cut_range, right_range)) <- quickselect_median tol samples n_features axis range ;;
        let indices1 := splice indices first last range' in
        cut_value <- value_at samples n_features axis indices1 (first + fst cut_range) ;;
        bound1 <- aabb_update_upper bound axis cut_value ;;
        '(indices2, left_node, bound2) <-
          build_with fuel' (path ++ [false]) indices1 (first + fst left_range) (first + snd left_range) (S depth) bound1 ;;
        node_segment <- rd (aabb_segments bound) axis ;;
        bound3 <- aabb_update_upper bound2 axis (seg_upper node_segment) ;;
        bound4 <- aabb_update_lower bound3 axis cut_value ;;
        '(indices3, right_node, bound5) <-
          build_with fuel' (path ++ [true]) indices2 (first + fst right_range) (first + snd right_range) (S depth) bound4 ;;
        bound6 <- aabb_update_lower bound5 axis (seg_lower node_segment) ;;
        Ok (indices3, KNode (first + fst cut_range) (first + snd cut_range) axis bound left_node right_node, bound6)
      else Ok (indices, KLeaf first last bound, bound)
  end.

(** The constructor of [KDTree]; [initial] is the call of the policy made before the construction, whose result is passed to
    [build] and not used. KDTree.hpp:203-230. *)
Definition make_kdtree_with (initial : list nat -> nat -> aabb -> res nat) (lowest max : Z) (center : segment -> Z) (indices : list nat)
  : res kdtree :=
  segments <- make_tight_segments lowest max samples n_features indices ;;
  let bound := make_aabb center segments in
  _ <- initial indices 0 bound ;;
  '(indices', root, bound') <- build_with (S (length indices)) [] indices 0 (length indices) 0 bound ;;
  Ok (mk_kdtree indices' root bound').
End Build.

(** The three policies as arguments of the constructor: the policy at the nodes and the first call of it. [draws] are the random
    numbers of the call at each node, [draw] those of the first call. Defaults: no mask, [default_sampling_rate];
    [HighestVarianceBuild] is the default policy of the tree. KDTree.hpp:61-77 and 203-230, AxisSelectionPolicy.hpp:46-140. *)
Section Trees.
Context {V : Type} (a : arith V) (inj : Z -> V).
Context (tol : Z) (samples : list Z) (n_features bucket_size max_depth : nat) (lowest max : Z) (center : segment -> Z).
Definition kdtree_cycle (mask indices : list nat) : res kdtree :=
  make_kdtree_with tol samples n_features bucket_size max_depth (fun _ _ depth _ => cycle_through_axes n_features mask depth)
    (fun _ depth _ => cycle_through_axes n_features mask depth) lowest max center indices.
Definition kdtree_spread (mask indices : list nat) : res kdtree :=
  make_kdtree_with tol samples n_features bucket_size max_depth (fun _ _ _ bound => maximum_spread mask bound)
    (fun _ _ bound => maximum_spread mask bound) lowest max center indices.
Definition kdtree_variance (draws : list bool -> generator) (draw : generator) (rate : Q) (mask indices : list nat) : res kdtree :=
  make_kdtree_with tol samples n_features bucket_size max_depth
    (fun path range _ _ => highest_variance a inj lowest max center samples n_features (draws path) rate mask range)
    (fun range _ _ => highest_variance a inj lowest max center samples n_features draw rate mask range) lowest max center indices.
End Trees.
