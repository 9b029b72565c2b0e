(** Property C71: Boruvka's algorithm on top of the dual tree search. *)
From Coq Require Import List Arith ZArith Lia Bool Permutation.
From Verif Require Import Base SortingModel SortingSpec BoundsModel BoundsSpec BoundsProofs UnionFindModel UnionFindSpec
  UnionFindProofs BufferModel BufferSpec BufferProofs KDTreeModel KDTreeSpec KDTreeProofs KDTreeProps SearchModel SearchSpec
  SearchProofs SearchProps GraphSpec GraphProofs DualTreeModel DualTreeProofs DualTreeProps PairsModel PairsProofs PairsProps
  BoruvkaModel BoruvkaSpec BoruvkaProofs BoruvkaProps DualBoruvkaModel DualBoruvkaProofs.
Import ListNotations.

Notation fdist := (fun p q => Some (sq_dist p q)).

(** The run, given the searches of components. *)
Section Run.
Context (m : metric) (dist : list Z -> list Z -> m_dist m) (Hm : metric_ok m dist) (p : pruning (m_dist m)).
Context (Hsym : forall a b, dist a b = dist b a).
Context (rtol : Z) (samples : list Z) (nf n bucket max_depth : nat) (rpolicy : list bool -> list nat -> nat -> aabb -> nat).
Context (rlowest rmax : Z) (rcenter : segment -> Z) (tree : kdtree).
Context (Hr : whole_input rtol samples nf n rpolicy rlowest rmax).
Context (Ht : make_kdtree rtol samples nf bucket max_depth rpolicy rlowest rmax rcenter (seq 0 n) = Ok tree).
Context (core : option (list (m_dist m))).
Context (Hmw : forall i j, i < n -> j < n -> mw m dist samples nf core i j = W m dist samples nf i j).
Context (oc : nat -> list (nat * list nat) -> list (nat * list nat)).
Context (oe : nat -> list (nat * BoruvkaModel.edge m) -> list (nat * BoruvkaModel.edge m)).
Context (Hoc : permuting oc) (Hoe : permuting oe).
Context (tol : Z) (policy : list bool -> list nat -> nat -> aabb -> nat) (lowest max : Z) (center : segment -> Z).
Context (right_first : nat -> nat -> position -> position -> bool) (k : nat).
Context (Hsearch : forall i u r c, uinv n u -> r < n -> rootf u r = r -> c <> [] -> NoDup c ->
  (forall x, In x c <-> x < n /\ rootf u x = r) -> (exists x, x < n /\ rootf u x <> r) ->
  exists qtree e u',
    make_kdtree tol samples nf (Nat.max 40 (Nat.sqrt (length c))) default_max_depth policy lowest max center c = Ok qtree /\
    Permutation c (kt_indices qtree) /\
    dual_tree_search m p samples nf qtree samples nf tree (accept_other_component r) k (right_first i r) u = Ok (e, u') /\
    uinv n u' /\ same_roots (parents u) (parents u') /\ edge_from m dist samples nf n core u r c e).

Lemma run_tree_2 fuel : 1 <= n -> 1 <= k -> fits k -> n <= S fuel ->
  exists mst,
    make_tree_2 m p samples nf tree oc oe tol policy lowest max center right_first fuel k = Ok mst /\
    spanning_tree n mst /\ (forall a b w, In (a, b, w) mst -> w = between dist samples nf a b) /\
    (core = None -> lightest_cuts (m_lt m) n (W m dist samples nf) mst).
Proof.
  intros Hn H1 Hk Hf. pose proof (whole_nf _ _ _ _ _ _ _ Hr) as Hdiv. destruct Hr as (Hin & HL).
  destruct (built_tree rtol samples nf bucket max_depth rpolicy rlowest rmax rcenter (seq 0 n) Hin)
    as (tree' & E & P & R & S1 & O & _). assert (tree' = tree) by congruence. subst tree'.
  destruct (core_ok m dist Hm samples nf tree n P R S1 O HL k) as (cs & Ecs & _); auto.
  destruct (dual_run m dist Hm p samples nf tree n HL core) with (oc := oc) (oe := oe) (tol := tol) (policy := policy)
    (lowest := lowest) (max := max) (center := center) (right_first := right_first) (k := k) (fuel := fuel)
    as (f0 & f & E0 & E1 & I & C & T); auto.
  { intros i j _ _. apply Hsym. }
  exists (f_mst m f). unfold make_tree_2. rewrite Hdiv, E0. cbn [bind]. rewrite Ecs. cbn [bind]. rewrite E1. cbn [bind].
  split; auto. split; auto. split; auto. intros a b w H. apply (fi_edges _ _ _ _ _ _ _ I) in H as (Ha & Hb & ->).
  rewrite Hmw by auto. apply Hsym.
Qed.
End Run.

Lemma nth_repeat' {A} (a d : A) : forall n i, i < n -> nth i (repeat a n) d = a.
Proof. induction n as [|n IH]; intros i Hi; [lia|]. destruct i; simpl; auto. apply IH. lia. Qed.

(** ** A spanning tree with plain distances *)
Theorem c71_dual_boruvka_returns_a_spanning_tree :
  forall rtol samples nf n bucket max_depth rpolicy rlowest rmax rcenter
    tol policy lowest max center right_first oc oe k fuel,
  whole_input rtol samples nf n rpolicy rlowest rmax -> whole_input tol samples nf n policy lowest max ->
  permuting oc -> permuting oe -> 1 <= n -> 1 <= k -> fits k -> n <= S fuel ->
  exists tree mst,
    make_kdtree rtol samples nf bucket max_depth rpolicy rlowest rmax rcenter (seq 0 n) = Ok tree /\
    make_tree_2 float_metric float_pruning samples nf tree oc oe tol policy lowest max center right_first fuel k = Ok mst /\
    spanning_tree n mst /\ forall a b w, In (a, b, w) mst -> w = between fdist samples nf a b.
Proof.
  intros rtol samples nf n bucket max_depth rpolicy rlowest rmax rcenter tol policy lowest max center right_first oc oe k fuel
    Hr Hi Hoc Hoe Hn H1 Hk Hf.
  destruct (built_tree rtol samples nf bucket max_depth rpolicy rlowest rmax rcenter (seq 0 n) (proj1 Hr)) as (tree & E & _).

  assert (Hmw : forall i j, i < n -> j < n ->
    mw float_metric fdist samples nf (Some (repeat (Some 0%Z) n)) i j = W float_metric fdist samples nf i j).
  { intros i j Hin Hj. unfold mw. rewrite !nth_repeat' by auto. unfold max3, W. cbn.
    pose proof (sq_nonneg (row samples nf j) (row samples nf i)). destruct (Z.ltb_spec 0 (sq_dist (row samples nf j) (row samples nf i))); auto.
    f_equal. lia. }
  destruct (run_tree_2 float_metric fdist float_metric_ok float_pruning (fun a b => f_equal Some (sq_sym a b)) rtol samples nf n
    bucket max_depth rpolicy rlowest rmax rcenter tree Hr E (Some (repeat (Some 0%Z) n)) Hmw oc oe Hoc Hoe tol policy lowest max
    center right_first k) with (fuel := fuel) as (mst & E1 & T & Hw & _); auto.
  { intros i u r c U Hrn Hrr Nc Dc Hc Hx.
    apply (float_component tol policy lowest max center samples nf n Hi Hn rtol rpolicy rcenter rlowest rmax Hr bucket max_depth
      tree E k (Some (repeat (Some 0%Z) n))); auto. discriminate. }
  exists tree, mst. auto.
Qed.

Definition pts_tree_2 (m : metric) (p : pruning (m_dist m)) oc oe (k : nat) (t : kdtree) : res (list (BoruvkaModel.edge m)) :=
  make_tree_2 m p pts 2 t oc oe 0 cycle (-100) 100 half (fun _ _ _ _ => false) 6 k.

Example c71_spanning_case :
  whole_input 0 pts 2 7 cycle (-100) 100 /\ permuting (@flip (nat * list nat)) /\
  permuting (@flip (nat * BoruvkaModel.edge float_metric)) /\ fits default_k_nearest_neighbors /\
  with_tree (pts_tree 1 10) (pts_tree_2 float_metric float_pruning keep keep default_k_nearest_neighbors) = Ok
    [(0, 2, Some 20%Z); (1, 5, Some 16%Z); (2, 1, Some 50%Z); (3, 6, Some 13%Z); (4, 3, Some 26%Z); (5, 6, Some 5%Z)] /\
  with_tree (pts_tree 1 10) (pts_tree_2 float_metric float_pruning keep flip default_k_nearest_neighbors) = Ok
    [(6, 1, Some 29%Z); (5, 6, Some 5%Z); (4, 3, Some 26%Z); (3, 6, Some 13%Z); (2, 1, Some 50%Z); (0, 2, Some 20%Z)] /\
  with_tree (pts_tree 1 10) (pts_tree_2 float_metric float_pruning keep keep 2) = Ok
    [(0, 3, Some 18%Z); (1, 3, Some 4%Z); (2, 0, Some 20%Z); (3, 5, Some 4%Z); (4, 0, Some 20%Z); (6, 3, Some 13%Z)].
Proof.
  split; [exact pts_whole|]. split; [apply flip_ok|]. split; [apply flip_ok|]. split; [reflexivity|].
  splits; vm_compute; reflexivity.
Qed.

(** ** Minimum with one neighbour *)
Theorem c71_dual_boruvka_one_neighbour_is_minimum :
  forall rtol samples nf n bucket max_depth rpolicy rlowest rmax rcenter
    tol policy lowest max center right_first oc oe fuel,
  whole_input rtol samples nf n rpolicy rlowest rmax -> whole_input tol samples nf n policy lowest max ->
  permuting oc -> permuting oe -> 1 <= n -> n <= S fuel ->
  exists tree mst,
    make_kdtree rtol samples nf bucket max_depth rpolicy rlowest rmax rcenter (seq 0 n) = Ok tree /\
    make_tree_2 float_metric float_pruning samples nf tree oc oe tol policy lowest max center right_first fuel 1 = Ok mst /\
    spanning_tree n mst /\ (forall a b w, In (a, b, w) mst -> w = between fdist samples nf a b) /\
    forall other, spanning_tree n other -> (forall a b w, In (a, b, w) other -> w = between fdist samples nf a b) ->
      (forall t, length (up_to opt_lt t other) <= length (up_to opt_lt t mst)) /\
      lighter opt_lt mst other /\
      (forall value, (forall a b, opt_lt b a = false -> (value a <= value b)%Z) -> (total value mst <= total value other)%Z).
Proof.
  intros rtol samples nf n bucket max_depth rpolicy rlowest rmax rcenter tol policy lowest max center right_first oc oe fuel
    Hr Hi Hoc Hoe Hn Hf.
  destruct (built_tree rtol samples nf bucket max_depth rpolicy rlowest rmax rcenter (seq 0 n) (proj1 Hr)) as (tree & E & _).
  destruct (run_tree_2 float_metric fdist float_metric_ok float_pruning (fun a b => f_equal Some (sq_sym a b)) rtol samples nf n
    bucket max_depth rpolicy rlowest rmax rcenter tree Hr E None (fun _ _ _ _ => eq_refl) oc oe Hoc Hoe tol policy lowest max
    center right_first 1) with (fuel := fuel) as (mst & E1 & T & Hw & C); auto.
  { intros i u r c U Hrn Hrr Nc Dc Hc Hx.
    apply (float_component tol policy lowest max center samples nf n Hi Hn rtol rpolicy rcenter rlowest rmax Hr bucket max_depth
      tree E 1 None); auto. reflexivity. }
  { reflexivity. }
  exists tree, mst. split; [auto|]. split; [auto|]. split; [auto|]. split; [auto|].
  apply (cuts_minimum float_metric fdist samples nf n mst float_metric_ok (fun a b => f_equal Some (sq_sym a b))); auto.
Qed.

Example c71_minimum_case :
  whole_input 0 pts 2 7 cycle (-100) 100 /\
  with_tree (pts_tree 1 10) (pts_tree_2 float_metric float_pruning keep keep 1) = Ok
    [(0, 1, Some 10%Z); (1, 3, Some 4%Z); (2, 4, Some 8%Z); (3, 5, Some 4%Z); (6, 5, Some 5%Z); (0, 2, Some 20%Z)] /\
  with_tree (pts_tree 2 10) (pts_tree_2 float_metric float_pruning flip flip 1) = Ok
    [(0, 1, Some 10%Z); (1, 3, Some 4%Z); (2, 4, Some 8%Z); (3, 5, Some 4%Z); (6, 5, Some 5%Z); (0, 2, Some 20%Z)] /\
  total square pts_mst = 51%Z.
Proof. split; [exact pts_whole|]. splits; vm_compute; reflexivity. Qed.

(** Every edge of a tree over the sample dataset above is between its samples. *)
Lemma pts_mst_spans : spanning_tree 7 pts_mst /\ forall a b w, In (a, b, w) pts_mst -> w = between fdist pts 2 a b.
Proof.
  destruct (c20_boruvka_returns_a_spanning_tree float_metric fdist 0 pts 2 7 1 10 cycle (-100) 100 half keep keep 1 6)
    as (t & mst & E & E1 & T & Hw); auto using float_metric_ok, float_finite, pts_whole, (@keep_ok); try lia.
  assert (Hmst : mst = pts_mst).
  { pose proof E1 as E2. change (make_kdtree 0 pts 2 1 10 cycle (-100) 100 half (seq 0 7)) with (pts_tree 1 10) in E.
    assert (E3 : with_tree (pts_tree 1 10) (fun t => make_tree float_metric pts 2 t keep keep 6 1) = Ok mst).
    { unfold with_tree. rewrite E. exact E2. }
    assert (E4 : with_tree (pts_tree 1 10) (fun t => make_tree float_metric pts 2 t keep keep 6 1) = Ok pts_mst)
      by (vm_compute; reflexivity).
    congruence. }
  subst mst. split; auto. intros a b w H. apply (Hw a b w H). lia.
Qed.

(** With the default of three neighbours it is neither minimum nor made of mutual reachability distances. *)
Theorem c71_default_neighbours_not_minimum_refuted :
  exists samples nf n bucket max_depth policy lowest max center right_first oc oe fuel tree mst other,
    whole_input 0 samples nf n policy lowest max /\ permuting oc /\ permuting oe /\ n <= S fuel /\
    make_kdtree 0 samples nf bucket max_depth policy lowest max center (seq 0 n) = Ok tree /\
    make_tree_2 float_metric float_pruning samples nf tree oc oe 0 policy lowest max center right_first fuel
      default_k_nearest_neighbors = Ok mst /\
    spanning_tree n other /\ (forall a b w, In (a, b, w) other -> w = between fdist samples nf a b) /\
    (total square other < total square mst)%Z /\
    exists a b w, In (a, b, w) mst /\
      ~ mutual_reachability opt_lt fdist samples nf n default_k_nearest_neighbors a b w.
Proof.
  exists pts, 2, 7, 1, 10, cycle, (-100)%Z, 100%Z, half, (fun _ _ _ _ => false), keep, keep, 6.
  destruct (built_tree 0 pts 2 1 10 cycle (-100) 100 half (seq 0 7) (proj1 pts_whole)) as (tree & E & _).
  exists tree. eexists. exists pts_mst.
  split; [exact pts_whole|]. split; [apply keep_ok|]. split; [apply keep_ok|]. split; [lia|]. split; [exact E|].
  split; [|split; [apply pts_mst_spans|split; [apply pts_mst_spans|split]]].
  - assert (E1 : with_tree (pts_tree 1 10) (pts_tree_2 float_metric float_pruning keep keep default_k_nearest_neighbors)
      = pts_tree_2 float_metric float_pruning keep keep default_k_nearest_neighbors tree).
    { unfold with_tree. change (make_kdtree 0 pts 2 1 10 cycle (-100) 100 half (seq 0 7)) with (pts_tree 1 10) in E.
      rewrite E. reflexivity. }
    unfold pts_tree_2 in E1 at 2. rewrite <- E1. vm_compute. reflexivity.
  - vm_compute. reflexivity.
  - exists 5, 6, (Some 5%Z). split; [simpl; tauto|].
    intros (ci & cj & _ & (stored & j & (K & Hfur)) & (_ & Hmax)).
    assert (Hcj : opt_lt (Some 5%Z) cj = false) by (apply Hmax; simpl; tauto).
    destruct K as (rest & P & L & _). unfold with_distances in L. rewrite map_length, seq_length in L.
    change (min default_k_nearest_neighbors 7) with 3 in L.
    set (near := fun c : nat * option Z => negb (opt_lt (Some 5%Z) (snd c))).
    assert (Hall : filter near stored = stored).
    { apply filter_all. intros c Hc. unfold near. apply negb_true_iff.
      apply (le_trans opt_lt (mo_order float_metric _ float_metric_ok) _ cj); auto. apply (proj2 Hfur c Hc). }
    pose proof (filter_length_perm near _ _ P) as Hl. rewrite filter_app, app_length, Hall, L in Hl.
    assert (H2 : length (filter near (with_distances fdist pts 2 (row pts 2 6) (seq 0 7))) = 2) by (vm_compute; reflexivity).
    lia.
Qed.

(** ** Signed integers *)
Theorem c71_dual_boruvka_integers_minimum :
  forall rtol samples nf n bucket rpolicy rlowest rmax rcenter
    tol policy lowest max center right_first oc oe fuel,
  whole_input rtol samples nf n rpolicy rlowest rmax -> whole_input tol samples nf n policy lowest max ->
  permuting oc -> permuting oe -> 1 <= n -> n <= S fuel ->
  exists tree mst,
    make_kdtree rtol samples nf bucket default_max_depth rpolicy rlowest rmax rcenter (seq 0 n) = Ok tree /\
    make_tree_2 int_metric int_pruning samples nf tree oc oe tol policy lowest max center right_first fuel 1 = Ok mst /\
    spanning_tree n mst /\ (forall a b w, In (a, b, w) mst -> w = between l1_dist samples nf a b) /\
    forall other, spanning_tree n other -> (forall a b w, In (a, b, w) other -> w = between l1_dist samples nf a b) ->
      (forall t, length (up_to Z.ltb t other) <= length (up_to Z.ltb t mst)) /\
      lighter Z.ltb mst other /\ (total (fun d => d) mst <= total (fun d => d) other)%Z.
Proof.
  intros rtol samples nf n bucket rpolicy rlowest rmax rcenter tol policy lowest max center right_first oc oe fuel
    Hr Hi Hoc Hoe Hn Hf.
  destruct (built_tree rtol samples nf bucket default_max_depth rpolicy rlowest rmax rcenter (seq 0 n) (proj1 Hr))
    as (tree & E & _).
  destruct (run_tree_2 int_metric l1_dist int_metric_ok int_pruning l1_sym rtol samples nf n
    bucket default_max_depth rpolicy rlowest rmax rcenter tree Hr E None (fun _ _ _ _ => eq_refl) oc oe Hoc Hoe tol policy
    lowest max center right_first 1) with (fuel := fuel) as (mst & E1 & T & Hw & C); auto.
  { intros i u r c U Hrn Hrr Nc Dc Hc Hx.
    apply (int_component tol policy lowest max center samples nf n Hi Hn rtol rpolicy rcenter rlowest rmax Hr bucket
      default_max_depth tree E eq_refl); auto. }
  { reflexivity. }
  exists tree, mst. split; [auto|]. split; [auto|]. split; [auto|]. split; [auto|]. intros other To Ho.
  destruct (cuts_minimum int_metric l1_dist samples nf n mst int_metric_ok l1_sym T Hw (C eq_refl) other To Ho) as (H1 & H2 & H3).
  split; [exact H1|]. split; [exact H2|]. apply H3. intros a b H. now apply Z.ltb_ge.
Qed.

Definition pts_int_mst : list (nat * nat * Z) :=
  [(0, 1, 4%Z); (1, 3, 2%Z); (2, 4, 4%Z); (5, 3, 2%Z); (6, 5, 3%Z); (0, 2, 6%Z)].

Example c71_integers_case :
  whole_input 0 pts 2 7 cycle (-100) 100 /\
  with_tree (pts_tree 40 default_max_depth) (pts_tree_2 int_metric int_pruning keep keep 1) = Ok pts_int_mst /\
  total (fun d => d) pts_int_mst = 21%Z /\
  (forall fuel, fuel <= 20 ->
     with_tree (pts_tree 40 default_max_depth) (fun t => make_tree int_metric pts 2 t keep keep fuel 1) = Fuel).
Proof.
  split; [exact pts_whole|]. split; [vm_compute; reflexivity|]. split; [reflexivity|].
  intros fuel Hf. do 21 (destruct fuel as [|fuel]; [vm_compute; reflexivity|]). lia.
Qed.

(** With a deeper tree of the dataset the tree on integers is not minimum. *)
Theorem c71_integers_deeper_tree_not_minimum_refuted :
  exists samples nf n bucket max_depth policy lowest max center right_first oc oe fuel tree mst other,
    whole_input 0 samples nf n policy lowest max /\ permuting oc /\ permuting oe /\ n <= S fuel /\
    make_kdtree 0 samples nf bucket max_depth policy lowest max center (seq 0 n) = Ok tree /\
    make_tree_2 int_metric int_pruning samples nf tree oc oe 0 policy lowest max center right_first fuel 1 = Ok mst /\
    spanning_tree n other /\ (forall a b w, In (a, b, w) other -> w = between l1_dist samples nf a b) /\
    (total (fun d => d) other < total (fun d => d) mst)%Z.
Proof.
  exists pts, 2, 7, 1, 10, cycle, (-100)%Z, 100%Z, half, (fun _ _ _ _ => false), keep, keep, 6.
  destruct (built_tree 0 pts 2 1 10 cycle (-100) 100 half (seq 0 7) (proj1 pts_whole)) as (tree & E & _).
  exists tree. eexists. exists pts_int_mst.
  split; [exact pts_whole|]. split; [apply keep_ok|]. split; [apply keep_ok|]. split; [lia|]. split; [exact E|].
  assert (H : spanning_tree 7 pts_int_mst /\ forall a b w, In (a, b, w) pts_int_mst -> w = between l1_dist pts 2 a b).
  { destruct (c71_dual_boruvka_integers_minimum 0 pts 2 7 40 cycle (-100) 100 half 0 cycle (-100) 100 half
      (fun _ _ _ _ => false) keep keep 6) as (t & mst & E1 & E2 & T & Hw & _); auto using pts_whole, (@keep_ok); try lia.
    assert (mst = pts_int_mst).
    { assert (E3 : with_tree (pts_tree 40 default_max_depth) (pts_tree_2 int_metric int_pruning keep keep 1) = Ok mst).
      { unfold with_tree, pts_tree. rewrite E1. exact E2. }
      assert (E4 : with_tree (pts_tree 40 default_max_depth) (pts_tree_2 int_metric int_pruning keep keep 1) = Ok pts_int_mst)
        by (vm_compute; reflexivity). congruence. }
    subst mst. auto. }
  split; [|split; [apply H|split; [apply H|]]].
  - assert (E1 : with_tree (pts_tree 1 10) (pts_tree_2 int_metric int_pruning keep keep 1)
      = pts_tree_2 int_metric int_pruning keep keep 1 tree).
    { unfold with_tree, pts_tree. rewrite E. reflexivity. }
    unfold pts_tree_2 in E1 at 2. rewrite <- E1. vm_compute. reflexivity.
  - vm_compute. reflexivity.
Qed.

(** An empty dataset, as with [make_tree]. *)
Theorem c71_empty_dataset_throws :
  forall m p nf tree oc oe tol policy lowest max center right_first fuel k,
  make_tree_2 m p [] nf tree oc oe tol policy lowest max center right_first fuel k = Throw.
Proof. intros. unfold make_tree_2. destruct nf; reflexivity. Qed.

Example c71_one_sample_case :
  (t <- make_kdtree 0 [4%Z] 1 1 10 (fun _ _ _ _ => 0) (-100) 100 half [0] ;;
   make_tree_2 float_metric float_pruning [4%Z] 1 t keep keep 0 (fun _ _ _ _ => 0) (-100) 100 half (fun _ _ _ _ => false) 0 3)
    = Ok [].
Proof. vm_compute. reflexivity. Qed.

Print Assumptions c71_dual_boruvka_returns_a_spanning_tree.
Print Assumptions c71_dual_boruvka_one_neighbour_is_minimum.
Print Assumptions c71_default_neighbours_not_minimum_refuted.
Print Assumptions c71_dual_boruvka_integers_minimum.
Print Assumptions c71_integers_deeper_tree_not_minimum_refuted.
Print Assumptions c71_empty_dataset_throws.
