(** Theorems on HDBSCAN (C33, C57). *)
From Coq Require Import List Arith ZArith QArith Lia Bool Permutation Sorted.
From Verif Require Import Base SortingModel SortingSpec BoundsModel BoundsSpec BoundsProofs
  UnionFindModel UnionFindSpec UnionFindProofs BufferModel BufferSpec BufferProofs
  BufferProps KDTreeModel KDTreeSpec KDTreeProofs KDTreeProps SearchModel SearchSpec SearchProofs SearchProps
  GraphSpec GraphProofs BoruvkaSpec BoruvkaModel BoruvkaProofs BoruvkaProps
  SlinkModel SlinkSpec SlinkProofs SlinkProps CondensedModel CondensedSpec CondensedProofs CondensedProps HdbscanModel.
Import ListNotations.
Local Open Scope nat_scope.

(** Labels 1 to [K] all occur and nothing above. *)
Definition gap_free (labels : list nat) : Prop :=
  exists K, (forall label, In label labels -> label <= K) /\ (forall k, 1 <= k <= K -> In k labels).

Section Run.
Context (m : metric) (dist : list Z -> list Z -> m_dist m) (Hm : metric_ok m dist).
Context (inverse : m_dist m -> Q).
Context (tol : Z) (samples : list Z) (nf n bucket max_depth : nat) (policy : list bool -> list nat -> nat -> aabb -> nat)
  (lowest max : Z) (center : segment -> Z).
Context (Hf : finite_metric m dist samples nf n).
Context (Hi : whole_input tol samples nf n policy lowest max).
Context (oc : nat -> list (nat * list nat) -> list (nat * list nat)) (oe : nat -> list (nat * edge m) -> list (nat * edge m)).
Context (Hoc : permuting oc) (Hoe : permuting oe).
Context (sort : list (nat * nat * m_dist m) -> list (nat * nat * m_dist m)) (Hsort : sorts (m_lt m) sort).
Context (order : list (nat * slink (m_dist m)) -> list (nat * slink (m_dist m))) (Horder : forall l, Permutation (order l) l).

Lemma hdbscan_run o fuel : 1 <= n -> fits (h_k_nearest_neighbors o) -> n <= S fuel ->
  exists tree mst root labels clusters,
    make_kdtree tol samples nf bucket max_depth policy lowest max center (seq 0 n) = Ok tree /\
    make_tree m samples nf tree oc oe fuel (h_k_nearest_neighbors o) = Ok mst /\ spanning_tree n mst /\
    make_slink sort order mst = Ok root /\ dendrogram (m_lt m) root /\ Permutation (leaves root) (seq 0 n) /\
    hdbscan_predict m inverse samples nf tree oc oe fuel sort order o = Ok labels /\ length labels = n /\
    shows labels clusters /\ flat_clustering (h_min_cluster_size o) root clusters /\ clusters <> [] /\
    (h_k_nearest_neighbors o <= 1 -> forall t i j, i < n -> j < n ->
      (linked (ends (up_to (m_lt m) t mst)) i j <-> reach (m_lt m) n (between dist samples nf) t i j)) /\
    (forall label, In label labels -> label <> 0 ->
       h_min_cluster_size o <= count_occ Nat.eq_dec labels label \/ labels = repeat 1 n).
Proof.
  intros Hn Hk Hfuel.
  destruct (c20_boruvka_returns_a_spanning_tree m dist tol samples nf n bucket max_depth policy lowest max center oc oe
    (h_k_nearest_neighbors o) fuel) as (tree & mst & E1 & E2 & T & _); auto.
  destruct (c25_slink_is_a_dendrogram (m_lt m) (mo_order m dist Hm) sort Hsort order Horder n mst Hn T)
    as (root & E3 & HL & Hsz & HD & _).
  set (co := {| min_cluster_size := h_min_cluster_size o; allow_single_cluster := h_allow_single_cluster o;
                return_leaf_nodes := h_return_leaf_nodes o |}).
  destruct (c28_condensed_labels_are_well_formed (m_lt m) inverse root n HD HL co) as (labels & clusters & E4 & L & S1 & F & N).
  destruct (c29_clusters_are_not_too_small (m_lt m) inverse root n HD HL co) as (labels' & E4' & Hsmall).
  rewrite E4 in E4'. inversion E4'; subst labels'.
  exists tree, mst, root, labels, clusters. splits; auto.
  - unfold hdbscan_predict. rewrite E2. cbn [bind]. rewrite E3. cbn [bind]. exact E4.
  - intros Hk1. destruct (c22_tree_carries_single_linkage m dist tol samples nf n bucket max_depth policy lowest max center oc oe
      (h_k_nearest_neighbors o) fuel) as (tree' & mst' & E1' & E2' & H); auto.
    rewrite E1 in E1'. inversion E1'; subst tree'. rewrite E2 in E2'. inversion E2'; subst mst'. exact H.
Qed.
End Run.

(** ** C33 *)
Theorem c33_hdbscan_returns_labels :
  forall m dist inverse tol samples nf n bucket max_depth policy lowest max center oc oe sort order o fuel,
  metric_ok m dist -> finite_metric m dist samples nf n -> whole_input tol samples nf n policy lowest max ->
  permuting oc -> permuting oe -> sorts (m_lt m) sort -> (forall l, Permutation (order l) l) ->
  1 <= n -> (Z.of_nat (h_k_nearest_neighbors o) < 2 ^ 64)%Z -> n <= S fuel ->
  exists tree labels,
    make_kdtree tol samples nf bucket max_depth policy lowest max center (seq 0 n) = Ok tree /\
    hdbscan_predict m inverse samples nf tree oc oe fuel sort order o = Ok labels /\
    length labels = n /\ gap_free labels /\ In 1 labels /\
    forall label, In label labels -> label <> 0 ->
      h_min_cluster_size o <= count_occ Nat.eq_dec labels label \/ labels = repeat 1 n.
Proof.
  intros m dist inverse tol samples nf n bucket max_depth policy lowest max center oc oe sort order o fuel Hm Hf Hi Hoc Hoe Hsort Horder Hn Hk Hfuel.
  destruct (hdbscan_run m dist Hm inverse tol samples nf n bucket max_depth policy lowest max center Hf Hi oc oe Hoc Hoe sort Hsort order Horder o fuel)
    as (tree & mst & root & labels & clusters & E1 & _ & _ & _ & HD & HL & E2 & L & S1 & F & N & _ & Hsmall); auto.
  exists tree, labels.
  assert (Hall : forall k, 1 <= k <= length clusters -> In k labels).
  { intros k Hk'. destruct k as [|k]; [lia|]. destruct (nth_error clusters k) as [s|] eqn:E.
    - destruct (leaves_some s) as [x Hx]. eapply nth_error_In. exact (proj1 S1 k s x E Hx).
    - apply nth_error_None in E. lia. }
  splits; auto.
  - exists (length clusters). split; auto. intros label Hin. destruct label as [|k]; [lia|].
    apply In_nth_error in Hin as [x Hx].
    destruct (shows_label root n labels clusters x k L S1) with (2 := Hx) as (s & Hs & _).
    { intros s Hs. destruct F as [F _]. rewrite Forall_forall in F. eapply cluster_descendant; eauto. }
    apply nth_error_lt in Hs. lia.
  - apply Hall. destruct clusters; [congruence|simpl; lia].
Qed.

(** On integers the spanning tree is never finished. *)
Theorem c33_hdbscan_never_returns_on_integers :
  forall inverse tol samples nf n bucket max_depth policy lowest max center oc oe sort order o,
  whole_input tol samples nf n policy lowest max -> permuting oc -> permuting oe ->
  2 <= n -> (Z.of_nat (h_k_nearest_neighbors o) < 2 ^ 64)%Z ->
  exists tree,
    make_kdtree tol samples nf bucket max_depth policy lowest max center (seq 0 n) = Ok tree /\
    forall fuel, hdbscan_predict int_metric inverse samples nf tree oc oe fuel sort order o = Fuel.
Proof.
  intros inverse tol samples nf n bucket max_depth policy lowest max center oc oe sort order o Hi Hoc Hoe Hn Hk.
  destruct (c24_boruvka_never_returns_on_integers tol samples nf n bucket max_depth policy lowest max center oc oe
    (h_k_nearest_neighbors o)) as (tree & E & H); auto.
  exists tree. split; auto. intros fuel. unfold hdbscan_predict. rewrite H. reflexivity.
Qed.

(** Nor when no distance between two groups of samples is below infinity. *)
Theorem c84_hdbscan_never_returns_across_infinity :
  forall m dist inverse tol samples nf n bucket max_depth policy lowest max center oc oe sort order o side a b,
  metric_ok m dist -> whole_input tol samples nf n policy lowest max -> permuting oc -> permuting oe ->
  (Z.of_nat (h_k_nearest_neighbors o) < 2 ^ 64)%Z ->
  a < n -> b < n -> side a <> side b ->
  (forall i j, i < n -> j < n -> side i <> side j :> bool -> m_lt m (between dist samples nf i j) (m_inf m) = false) ->
  exists tree,
    make_kdtree tol samples nf bucket max_depth policy lowest max center (seq 0 n) = Ok tree /\
    forall fuel, hdbscan_predict m inverse samples nf tree oc oe fuel sort order o = Fuel.
Proof.
  intros m dist inverse tol samples nf n bucket max_depth policy lowest max center oc oe sort order o side a b
    Hm Hi Hoc Hoe Hk Ha Hb Hne Hinf.
  destruct (c84_boruvka_never_returns_across_infinity m dist tol samples nf n bucket max_depth policy lowest max center oc oe
    (h_k_nearest_neighbors o) side a b) as (tree & E & H); auto.
  exists tree. split; auto. intros fuel. unfold hdbscan_predict. rewrite H. reflexivity.
Qed.

(** ** C57 *)

(** With core distances off, two samples of a cluster are at least as well connected as one of them is to any sample
    outside. *)
Theorem c57_hdbscan_clusters_are_single_linkage_clusters :
  forall m dist inverse tol samples nf n bucket max_depth policy lowest max center oc oe sort order o fuel,
  metric_ok m dist -> finite_metric m dist samples nf n -> whole_input tol samples nf n policy lowest max ->
  permuting oc -> permuting oe -> sorts (m_lt m) sort -> (forall l, Permutation (order l) l) ->
  1 <= n -> h_k_nearest_neighbors o <= 1 -> n <= S fuel ->
  exists tree labels,
    make_kdtree tol samples nf bucket max_depth policy lowest max center (seq 0 n) = Ok tree /\
    hdbscan_predict m inverse samples nf tree oc oe fuel sort order o = Ok labels /\
    forall t i j k label other, nth_error labels i = Some label -> nth_error labels j = Some label ->
      nth_error labels k = Some other -> label <> 0 -> other <> label ->
      reach (m_lt m) n (between dist samples nf) t i k -> reach (m_lt m) n (between dist samples nf) t i j.
Proof.
  intros m dist inverse tol samples nf n bucket max_depth policy lowest max center oc oe sort order o fuel Hm Hf Hi Hoc Hoe Hsort Horder Hn Hk Hfuel.
  destruct (hdbscan_run m dist Hm inverse tol samples nf n bucket max_depth policy lowest max center Hf Hi oc oe Hoc Hoe sort Hsort order Horder o fuel)
    as (tree & mst & root & labels & clusters & E1 & E2 & T & E3 & HD & HL & E4 & L & S1 & F & N & HR & _); auto. { unfold fits. lia. }
  exists tree, labels. splits; auto. intros t i j k label other Hli Hlj Hlk Hne Hother Hreach. specialize (HR Hk).
  assert (Hin : i < n /\ j < n /\ k < n) by (apply nth_error_lt in Hli, Hlj, Hlk; lia). destruct Hin as (Hin & Hjn & Hkn).
  destruct (Nat.eq_dec i j) as [->|Hij]; [constructor; auto|].
  destruct label as [|c]; [congruence|].
  assert (Hdesc : forall s, In s clusters -> descendant root s).
  { intros s Hs. destruct F as [F _]. rewrite Forall_forall in F. eapply cluster_descendant; eauto. }
  destruct (shows_label root n labels clusters i c L S1 Hdesc Hli) as (s & Hs & His).
  destruct (shows_label root n labels clusters j c L S1 Hdesc Hlj) as (s' & Hs' & Hjs).
  assert (s' = s) by congruence. subst s'.
  assert (Hks : ~ In k (leaves s)).
  { intros Hks. pose proof (proj1 S1 c s k Hs Hks). congruence. }
  assert (Hik : i <> k) by (intros ->; auto).
  pose proof (c26_cut_gives_threshold_components (m_lt m) (mo_order m dist Hm) sort Hsort order Horder n mst Hn T root) as J.
  apply HR; auto. apply (J t i j); auto. apply HR in Hreach; auto. apply (J t i k) in Hreach; auto.
  destruct Hreach as (p & v & q & l & r & Hd & Ht & Hil & Hkl).
  exists p, v, q, l, r. splits; auto.
  destruct (chain root s (SNode p v q l r) i) as [H|H]; auto.
  - eapply Permutation_NoDup; [symmetry; exact HL|apply seq_NoDup].
  - apply Hdesc. eapply nth_error_In; eauto.
  - exfalso. apply Hks. eapply descendant_leaves; [exact H|]. exact Hkl.
  - eapply descendant_leaves in Hjs; [|exact H]. exact Hjs.
Qed.

(** Two groups on a line and an outlier. *)
Definition sites : list Z := [0; 2; 3; 50; 52; 53; 200; 55]%Z.
Definition sites_tree : res kdtree := make_kdtree 0 sites 1 2 10 (fun _ _ _ _ => 0) (-100) 300 half (seq 0 8).
Lemma sites_whole : whole_input 0 sites 1 8 (fun _ _ _ _ => 0) (-100) 300.
Proof. split; [|reflexivity]. apply (line_input sites). repeat constructor; lia. Qed.

(** The inverse of a squared distance, which orders clusters in the same direction. *)
Definition inverse_square (d : option Z) : Q := match d with Some z => inverse_float (1#1000) (inject_Z z) | None => 0%Q end.

Lemma isort_float_sorts : sorts opt_lt (isort opt_lt).
Proof.
  intros l. split; [apply isort_perm|]. pose proof (isort_asc opt_lt opt_order_ok l) as H.
  induction H as [|e l' H1 H2 IH]; constructor; auto. apply Forall_forall. intros x Hx. now apply H1.
Qed.

Definition sites_labels (o : hdbscan_options) : res (list nat) :=
  with_tree sites_tree (fun t => hdbscan_predict float_metric inverse_square sites 1 t flip keep 8 (isort opt_lt) (@rev _) o).

Example c33_case :
  metric_ok float_metric (fun p q => Some (sq_dist p q)) /\ finite_metric float_metric (fun p q => Some (sq_dist p q)) sites 1 8 /\
  whole_input 0 sites 1 8 (fun _ _ _ _ => 0) (-100) 300 /\ sorts opt_lt (isort opt_lt) /\
  sites_labels (Build_hdbscan_options 1 3 false true) = Ok [1; 1; 1; 2; 2; 2; 0; 2] /\
  sites_labels (Build_hdbscan_options 2 2 true true) = Ok [1; 1; 1; 2; 2; 2; 0; 2] /\
  sites_labels default_hdbscan_options = Ok (repeat 1 8).
Proof.
  split; [exact float_metric_ok|]. split; [apply float_finite|]. split; [exact sites_whole|]. split; [exact isort_float_sorts|].
  splits; vm_compute; reflexivity.
Qed.

(** A sample of the first group reaches the second group only at a distance at which it reaches all of its own. *)
Example c57_case :
  h_k_nearest_neighbors (Build_hdbscan_options 1 3 false true) <= 1 /\
  sites_labels (Build_hdbscan_options 1 3 false true) = Ok [1; 1; 1; 2; 2; 2; 0; 2] /\
  reach opt_lt 8 (between (fun p q => Some (sq_dist p q)) sites 1) (Some 2209%Z) 0 3 /\
  ~ reach opt_lt 8 (between (fun p q => Some (sq_dist p q)) sites 1) (Some 3%Z) 0 1.
Proof.
  split; [simpl; lia|]. split; [vm_compute; reflexivity|]. split.
  - apply reach_step with 2; [lia|lia|vm_compute; reflexivity|].
    apply reach_step with 3; [lia|lia|vm_compute; reflexivity|]. constructor; lia.
  - intros H. inversion H as [|a b c Ha Hb Hab Hr]; subst. clear H.
    assert (b = 0) as ->. { do 8 (destruct b as [|b]; [vm_compute in Hab; try discriminate; reflexivity|]); lia. }
    assert (Hc : forall a b, reach opt_lt 8 (between (fun p q => Some (sq_dist p q)) sites 1) (Some 3%Z) a b -> a = 0 -> b = 0).
    { intros a b H. induction H as [|a b c Ha' Hb' Hab' _ IH]; auto. intros ->. apply IH.
      do 8 (destruct b as [|b]; [vm_compute in Hab'; try discriminate; reflexivity|]); lia. }
    now specialize (Hc _ _ Hr eq_refl).
Qed.

Print Assumptions c33_hdbscan_returns_labels.
Print Assumptions c33_hdbscan_never_returns_on_integers.
Print Assumptions c57_hdbscan_clusters_are_single_linkage_clusters.

(** The default options on two groups: a group of four samples is not a cluster, one of five is. *)
Definition default_labels (s : list Z) : res (list nat) :=
  with_tree (make_kdtree 0 s 1 2 10 (fun _ _ _ _ => 0) (-100) 300 half (seq 0 (length s)))
    (fun t => hdbscan_predict float_metric inverse_square s 1 t flip keep 12 (isort opt_lt) (@rev _) default_hdbscan_options).
Example c33_default_options_case :
  default_labels [0; 1; 2; 3; 90; 91; 92; 93; 94; 95]%Z = Ok (repeat 1 10) /\
  default_labels [0; 1; 2; 3; 4; 90; 91; 92; 93; 94]%Z = Ok [2; 2; 2; 2; 2; 1; 1; 1; 1; 1] /\
  default_labels [0; 10; 20; 30; 40; 51; 61; 71; 81; 91]%Z = Ok (repeat 1 10) /\
  default_labels [0; 10; 20; 30; 40; 51; 61; 71; 81; 91; 200; 201; 202; 203; 204]%Z = Ok (repeat 2 10 ++ repeat 1 5).
Proof. vm_compute. auto. Qed.
Print Assumptions c84_hdbscan_never_returns_across_infinity.
