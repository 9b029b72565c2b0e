(** Model of include/ffcl/datastruct/graph/spanning_tree: BoruvkasAlgorithm.hpp, CoreDistances.hpp and MinimumSpanningTree.hpp, on top
    of the modelled tree search. *)
From Coq Require Import List Arith ZArith Bool.
From Verif Require Import Base SortingModel BoundsModel UnionFindModel BufferModel KDTreeModel SearchModel.
Import ListNotations.

(** [std::max] of an initializer list: the first of the largest.  Used at BoruvkasAlgorithm.hpp:307-308, 407-408. *)
Definition max3 {D} (lt : D -> D -> bool) (a b c : D) : D :=
  let ab := if lt a b then b else a in if lt ab c then c else ab.

(** [std::unordered_map] as an association list with distinct keys; its iteration order is a parameter below.
    [operator[]] on a missing key inserts an empty component. BoruvkasAlgorithm.hpp:166-172. *)
Fixpoint map_get (components : list (nat * list nat)) (key : nat) : list nat :=
  match components with
  | [] => []
  | (k, c) :: t => if k =? key then c else map_get t key
  end.
Fixpoint map_set (components : list (nat * list nat)) (key : nat) (c : list nat) : list (nat * list nat) :=
  match components with
  | [] => [(key, c)]
  | (k, c') :: t => if k =? key then (k, c) :: t else (k, c') :: map_set t key c
  end.
Definition map_erase (components : list (nat * list nat)) (key : nat) : list (nat * list nat) :=
  filter (fun kc => negb (fst kc =? key)) components.

Section Boruvka.
Context (m : metric) (samples : list Z) (n_features : nat) (tree : kdtree).

(** /repo/include/ffcl/datastruct/graph/spanning_tree/MinimumSpanningTree.hpp:13-22. *)
Definition edge : Type := nat * nat * m_dist m.

(** [make_default_edge]; [infinity<std::size_t>()] is 0. MinimumSpanningTree.hpp:24-27. *)
Definition make_default_edge : edge := (0, 0, m_inf m).

(** [Forest]. /repo/include/ffcl/datastruct/graph/spanning_tree/BoruvkasAlgorithm.hpp:81-204. *)
Record forest := mk_forest {
  f_mst : list edge;
  f_components : list (nat * list nat);
  f_union_find : uf }.

(** Its constructor; [reserve(n_samples - 1)] throws [std::length_error] for an empty dataset.
    BoruvkasAlgorithm.hpp:93-102. *)
Definition make_forest (n_samples : nat) : res forest :=
  if n_samples =? 0 then Throw
  else Ok (mk_forest [] (map (fun i => (i, [i])) (seq 0 n_samples)) (uf_make n_samples)).

(** BoruvkasAlgorithm.hpp:104-106. *)
Definition n_components (f : forest) : nat := length (f_components f).

(** BoruvkasAlgorithm.hpp:140-176. *)
Definition merge_components (e : edge) (f : forest) : res forest :=
  let '(sample_index_1, sample_index_2, _) := e in
  '(u, representative_1) <- uf_find (f_union_find f) sample_index_1 ;;
  '(u, representative_2) <- uf_find u sample_index_2 ;;
  if representative_1 =? representative_2 then Ok (mk_forest (f_mst f) (f_components f) u)
  else
    '(u, common_representative) <- uf_merge u sample_index_1 sample_index_2 ;;
    let '(retained, discarded) :=
      if representative_1 =? common_representative then (representative_1, representative_2)
      else (representative_2, representative_1) in
    let components := f_components f in
    Ok (mk_forest (f_mst f ++ [e])
          (map_erase (map_set components retained (map_get components retained ++ map_get components discarded))
             discarded) u).

(** The search made for each sample of a component. BoruvkasAlgorithm.hpp:250-260, 293-303, 347-357, 393-403. *)
Definition nearest_of_other_component (query_index component_representative : nat) (u : uf)
  : res (nat * m_dist m * uf) :=
  query <- sample_at samples n_features query_index ;;
  '(b, u') <- search m samples n_features tree Unbounded query (accept_other_component component_representative) 1 u ;;
  index <- buf_furthest_index b ;;
  Ok (index, buf_furthest_distance b, u').

(** The weight of an edge: the distance, or with core distances the mutual reachability distance.
    BoruvkasAlgorithm.hpp:260, 307-308, 407-408. *)
Definition edge_weight (core : option (list (m_dist m))) (query_index index : nat) (distance : m_dist m)
  : res (m_dist m) :=
  match core with
  | None => Ok distance
  | Some core_distances =>
      cq <- rd core_distances query_index ;;
      ci <- rd core_distances index ;;
      Ok (max3 (m_lt m) cq ci distance)
  end.

(** The loop over one component. BoruvkasAlgorithm.hpp:246-270, 289-316, 343-366, 389-415. *)
Definition closest_edge (core : option (list (m_dist m))) (component_representative : nat) (component : list nat)
  (u : uf) : res (edge * uf) :=
  for_each component
    (fun query_index '(current, u) =>
       '(index, distance, u') <- nearest_of_other_component query_index component_representative u ;;
       w <- edge_weight core query_index index distance ;;
       Ok (if m_lt m w (snd current) then ((query_index, index, w), u') else (current, u')))
    (make_default_edge, u).

(** Iteration orders of the two hash maps in the [i]-th round. *)
Context (order_components : nat -> list (nat * list nat) -> list (nat * list nat)).
Context (order_edges : nat -> list (nat * edge) -> list (nat * edge)).

(** [step_sequential], both versions. BoruvkasAlgorithm.hpp:239-324. *)
Definition step_sequential (core : option (list (m_dist m))) (i : nat) (f : forest) : res forest :=
  '(components_closest_edge, u) <-
    for_each (order_components i (f_components f))
      (fun rc '(edges, u) =>
         '(e, u') <- closest_edge core (fst rc) (snd rc) u ;;
         Ok (edges ++ [(fst rc, e)], u'))
      ([], f_union_find f) ;;
  for_each (order_edges i components_closest_edge) (fun re f => merge_components (snd re) f)
    (mk_forest (f_mst f) (f_components f) u).

(** [find_pair_at_smallest_component]. BoruvkasAlgorithm.hpp:330-340, 376-386. *)
Definition smallest_component (components : list (nat * list nat)) : res (nat * list nat) :=
  match components with
  | [] => UB
  | first :: _ =>
      for_each components
        (fun it found => Ok (if length (snd it) <? length (snd found) then it else found)) first
  end.

(** [dual_component_step_sequential], both versions. BoruvkasAlgorithm.hpp:326-418. *)
Definition dual_component_step_sequential (core : option (list (m_dist m))) (i : nat) (f : forest) : res forest :=
  '(representative, component) <- smallest_component (order_components i (f_components f)) ;;
  '(e, u) <- closest_edge core representative component (f_union_find f) ;;
  merge_components e (mk_forest (f_mst f) (f_components f) u).

(** The two [while] loops of [make_tree]; [fuel] bounds the number of rounds.
    BoruvkasAlgorithm.hpp:434-444, 446-456. *)
Fixpoint make_tree_loop (core : option (list (m_dist m))) (fuel i : nat) (f : forest) : res forest :=
  if 1 <? n_components f then
    match fuel with
    | 0 => Fuel
    | S fuel' =>
        f' <- (if n_components f =? 2 then dual_component_step_sequential core i f else step_sequential core i f) ;;
        make_tree_loop core fuel' (S i) f'
    end
  else Ok f.

(** [make_static_core_distances]. /repo/include/ffcl/datastruct/graph/spanning_tree/CoreDistances.hpp:39-54. *)
Definition make_static_core_distances (n_samples k_nearest_neighbors : nat) : res (list (m_dist m)) :=
  for_each (seq 0 n_samples)
    (fun sample_index core =>
       query <- sample_at samples n_features sample_index ;;
       '(b, _) <- search m samples n_features tree Unbounded query accept_all k_nearest_neighbors tt ;;
       Ok (core ++ [buf_furthest_distance b]))
    [].

(** [make_tree] on a tree over the whole dataset. BoruvkasAlgorithm.hpp:420-460; [n_samples] is
    [common::get_n_samples], KDTree.hpp:252-254.  The progress output is left out. *)
Definition make_tree (fuel k_nearest_neighbors : nat) : res (list edge) :=
  let n_samples := length samples / n_features in
  f <- make_forest n_samples ;;
  core <- (if 1 <? k_nearest_neighbors
           then c <- make_static_core_distances n_samples k_nearest_neighbors ;; Ok (Some c) else Ok None) ;;
  f' <- make_tree_loop core fuel 0 f ;;
  Ok (f_mst f').
End Boruvka.
