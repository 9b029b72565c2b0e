(** Theorems on the construction of the tree (C10-C12, C53). *)
From Coq Require Import List Arith ZArith Lia Bool Permutation.
From Verif Require Import Base SortingModel SortingSpec BoundsModel BoundsSpec BoundsProofs
  KDTreeModel KDTreeSpec KDTreeProofs.
Import ListNotations.

(** Hypotheses shared below: the samples exist, their values are values of the type, the axis policy returns an
    axis of the dataset. *)
Definition dataset_ok (samples : list Z) (nf : nat) (lowest max : Z) (indices : list nat) : Prop :=
  (forall j, j < nf -> in_dataset samples nf j indices) /\
  (forall i j, In i indices -> j < nf -> (lowest <= val samples nf j i <= max)%Z).

Definition policy_ok (nf : nat) (policy : list bool -> list nat -> nat -> aabb -> nat) : Prop :=
  forall path range depth bound, policy path range depth bound < nf.

(** A dataset with 7 samples in two dimensions, used in the examples. *)
Definition pts : list Z := [5; 1;  2; 2;  9; 3;  2; 4;  7; 5;  2; 6;  0; 7]%Z.
Definition half (s : segment) : Z := ((seg_lower s + seg_upper s) / 2)%Z.
Definition cycle : list bool -> list nat -> nat -> aabb -> nat := fun _ _ depth _ => depth mod 2.
Lemma cycle_ok : policy_ok 2 cycle.
Proof. intros p r d b. apply Nat.mod_upper_bound. lia. Qed.
Lemma pts_ok : dataset_ok pts 2 (-100) 100 (seq 0 7).
Proof.
  split.
  - intros j Hj i Hi. apply in_seq in Hi. simpl length. lia.
  - intros i j Hi Hj. apply in_seq in Hi.
    do 7 (destruct i as [|i]; [do 2 (destruct j as [|j]; [vm_compute; split; discriminate|]); lia|]). lia.
Qed.
Definition pts_tree (bucket max_depth : nat) : res kdtree :=
  make_kdtree 0 pts 2 bucket max_depth cycle (-100) 100 half (seq 0 7).

Section Build.
Context (tol : Z) (samples : list Z) (nf bucket max_depth : nat).
Context (policy : list bool -> list nat -> nat -> aabb -> nat).
Context (lowest max : Z) (center : segment -> Z) (indices : list nat).

Lemma make_kdtree_ok :
  (0 <= tol)%Z -> policy_ok nf policy -> dataset_ok samples nf lowest max indices ->
  exists tree segs,
    make_kdtree tol samples nf bucket max_depth policy lowest max center indices = Ok tree /\
    make_tight_segments lowest max samples nf indices = Ok segs /\ length segs = nf /\
    (forall j, j < nf -> tight_for lowest max samples nf j indices (nth j segs (mk_segment 0 0))) /\
    kt_bound tree = make_aabb center segs /\ kd_box (kt_root tree) = make_aabb center segs /\
    Permutation indices (kt_indices tree) /\
    subtree_ok tol samples nf bucket max_depth 0 (kt_indices tree) (kt_indices tree) (kt_root tree).
Proof.
  intros Htol Hp [Hd Hl]. unfold make_kdtree.
  destruct (make_tight_segments_ok lowest max samples nf indices Hd Hl) as (segs & E & L & H).
  rewrite E. cbn [bind].
  destruct (build_ok tol samples nf bucket max_depth policy Htol Hp (S (length indices)) [] [] indices [] 0
              (make_aabb center segs)) as (M' & t & Eb & P & Bx & S); auto.
  cbn [app length Nat.add] in Eb. rewrite !app_nil_r in Eb. rewrite Eb. cbn [bind].
  exists (mk_kdtree M' t (make_aabb center segs)), segs. simpl. splits; auto.
  specialize (S [] [] eq_refl). simpl in S. now rewrite app_nil_r in S.
Qed.
End Build.

(** C10: construction returns, only permutes the index array, and the nodes of the tree, read from left to right,
    cover every position of it exactly once. *)
Theorem c10_construction_partitions_the_indices :
  forall tol samples nf bucket max_depth policy lowest max center indices,
  (0 <= tol)%Z -> policy_ok nf policy -> dataset_ok samples nf lowest max indices ->
  exists tree,
    make_kdtree tol samples nf bucket max_depth policy lowest max center indices = Ok tree /\
    Permutation indices (kt_indices tree) /\
    kd_ranges (kt_indices tree) (kt_root tree) /\
    kd_samples (kt_indices tree) (kt_root tree) = kt_indices tree.
Proof.
  intros tol samples nf bucket max_depth policy lowest max center indices Ht Hp Hd.
  destruct (make_kdtree_ok tol samples nf bucket max_depth policy lowest max center indices Ht Hp Hd)
    as (tree & segs & E & _ & _ & _ & _ & _ & P & S1 & S2 & _).
  exists tree. splits; auto.
Qed.

Example c10_case :
  policy_ok 2 cycle /\ dataset_ok pts 2 (-100) 100 (seq 0 7) /\
  exists tree, pts_tree 1 10 = Ok tree /\ kt_indices tree = [6; 3; 1; 0; 2; 5; 4] /\
    kd_samples [6; 3; 1; 0; 2; 5; 4] (kt_root tree) = [6; 3; 1; 0; 2; 5; 4].
Proof.
  split; [exact cycle_ok|]. split; [exact pts_ok|].
  eexists. split; [vm_compute; reflexivity|]. vm_compute. auto.
Qed.

(** C11: size and depth limits; with default options there is one single leaf. *)
Theorem c11_nodes_respect_limits :
  forall tol samples nf bucket max_depth policy lowest max center indices,
  (0 <= tol)%Z -> policy_ok nf policy -> dataset_ok samples nf lowest max indices ->
  exists tree,
    make_kdtree tol samples nf bucket max_depth policy lowest max center indices = Ok tree /\
    kd_limits bucket max_depth 0 (kt_root tree).
Proof.
  intros tol samples nf bucket max_depth policy lowest max center indices Ht Hp Hd.
  destruct (make_kdtree_ok tol samples nf bucket max_depth policy lowest max center indices Ht Hp Hd)
    as (tree & segs & E & _ & _ & _ & _ & _ & P & S1 & S2 & S3 & _).
  exists tree. split; auto. apply S3. lia.
Qed.

Theorem c11_default_depth_gives_one_leaf :
  forall tol samples nf bucket policy lowest max center indices,
  (0 <= tol)%Z -> policy_ok nf policy -> dataset_ok samples nf lowest max indices ->
  exists tree b,
    make_kdtree tol samples nf bucket default_max_depth policy lowest max center indices = Ok tree /\
    kt_root tree = KLeaf 0 (length indices) b.
Proof.
  intros tol samples nf bucket policy lowest max center indices Ht Hp [Hd Hl].
  unfold make_kdtree.
  destruct (make_tight_segments_ok lowest max samples nf indices Hd Hl) as (segs & E & L & H).
  rewrite E. cbn [bind]. unfold default_max_depth. cbn [build]. cbn [Nat.ltb Nat.leb andb bind].
  eexists; eexists; split; reflexivity.
Qed.

Example c11_case :
  exists tree, pts_tree 1 2 = Ok tree /\ kd_limits 1 2 0 (kt_root tree) /\
    exists f l ax b tl tr, kt_root tree = KNode f l ax b tl tr.
Proof.
  eexists. split; [vm_compute; reflexivity|]. split; [vm_compute; intuition lia|].
  simpl. do 6 eexists. reflexivity.
Qed.

Example c11_default_case : exists tree b, pts_tree 3 0 = Ok tree /\ kt_root tree = KLeaf 0 7 b.
Proof. do 2 eexists. split; vm_compute; reflexivity. Qed.

(** C12: order and boxes, when distinct values on an axis are told apart by the comparison. *)
Theorem c12_nodes_separate_and_enclose :
  forall tol samples nf bucket max_depth policy lowest max center indices,
  (0 <= tol)%Z -> policy_ok nf policy -> dataset_ok samples nf lowest max indices -> indices <> [] ->
  (forall j, j < nf -> separated tol samples nf j indices) ->
  exists tree,
    make_kdtree tol samples nf bucket max_depth policy lowest max center indices = Ok tree /\
    kd_ordered samples nf (kt_indices tree) (kt_root tree) /\
    kd_enclosed samples nf (kt_indices tree) (kt_root tree).
Proof.
  intros tol samples nf bucket max_depth policy lowest max center indices Ht Hp Hd Hne Hs.
  destruct (make_kdtree_ok tol samples nf bucket max_depth policy lowest max center indices Ht Hp Hd)
    as (tree & segs & E & _ & L & T & Bt & Bx & P & S1 & S2 & S3 & S4 & S5 & S6 & S7).
  exists tree. split; auto.
  assert (O : kd_ordered samples nf (kt_indices tree) (kt_root tree)).
  { apply S6. intros j Hj x y Hx Hy. apply (Hs j Hj); eapply Permutation_in; try (symmetry; exact P); auto. }
  split; auto. apply enclosed_of_cuts; auto.
  rewrite Bx, S2. split; [exact L|]. intros y j s Hy Hj. simpl in Hj.
  assert (Hjn : j < nf) by (rewrite <- L; eapply nth_error_lt; eauto).
  destruct (T j Hjn) as (T1 & _). rewrite (nth_error_nth _ _ _ Hj) in T1. apply T1.
  eapply Permutation_in; [symmetry; exact P|auto].
Qed.

(** C12, for any tolerance: the boxes of the children are those of the node cut at its sample, the box of the root
    is the tight bound, the box passed to the construction comes back unchanged, and the order holds up to twice the
    tolerance. *)
Theorem c12_boxes_are_cut_at_the_samples :
  forall tol samples nf bucket max_depth policy lowest max center indices,
  (0 <= tol)%Z -> policy_ok nf policy -> dataset_ok samples nf lowest max indices ->
  exists tree segs,
    make_kdtree tol samples nf bucket max_depth policy lowest max center indices = Ok tree /\
    make_tight_segments lowest max samples nf indices = Ok segs /\
    kt_bound tree = mk_aabb (map center segs) segs /\
    kd_box (kt_root tree) = mk_aabb (map center segs) segs /\
    kd_cut_boxes samples nf (kt_indices tree) (kt_root tree) /\
    kd_ordered_within samples nf (kt_indices tree) (2 * tol) (kt_root tree).
Proof.
  intros tol samples nf bucket max_depth policy lowest max center indices Ht Hp Hd.
  destruct (make_kdtree_ok tol samples nf bucket max_depth policy lowest max center indices Ht Hp Hd)
    as (tree & segs & E & E2 & L & T & Bt & Bx & P & S1 & S2 & S3 & S4 & S5 & S6 & S7).
  exists tree, segs. splits; auto.
Qed.

Lemma pts_separated : forall j, j < 2 -> separated 0 pts 2 j (seq 0 7).
Proof. intros j Hj x y Hx Hy H. lia. Qed.

Example c12_case :
  policy_ok 2 cycle /\ dataset_ok pts 2 (-100) 100 (seq 0 7) /\ seq 0 7 <> [] /\
  (forall j, j < 2 -> separated 0 pts 2 j (seq 0 7)) /\
  exists tree f l ax b tl tr, pts_tree 1 10 = Ok tree /\ kt_root tree = KNode f l ax b tl tr /\
    aabb_segments b = [mk_segment 0 9; mk_segment 1 7] /\
    aabb_segments (kd_box tl) = [mk_segment 0 2; mk_segment 1 7] /\
    aabb_segments (kd_box tr) = [mk_segment 2 9; mk_segment 1 7].
Proof.
  split; [exact cycle_ok|]. split; [exact pts_ok|]. split; [discriminate|]. split; [exact pts_separated|].
  do 7 eexists. split; [vm_compute; reflexivity|]. simpl. splits; reflexivity.
Qed.

(** Without separation a box can miss a sample of its subtree: two values within the tolerance. *)
Theorem c12_close_values_enclosure_refuted :
  exists tol samples nf bucket max_depth policy lowest max center indices tree,
    (0 <= tol)%Z /\ policy_ok nf policy /\ dataset_ok samples nf lowest max indices /\
    make_kdtree tol samples nf bucket max_depth policy lowest max center indices = Ok tree /\
    ~ kd_enclosed samples nf (kt_indices tree) (kt_root tree).
Proof.
  exists 1%Z, [1; 0]%Z, 1, 1, 5, (fun _ _ _ _ => 0), (-9)%Z, 9%Z, half, [0; 1].
  eexists. split; [lia|]. split; [intros ? ? ? ?; lia|]. split.
  { split.
    - intros j Hj i Hi. simpl in Hi. simpl length. lia.
    - intros i j Hi Hj. simpl in Hi. assert (j = 0) by lia. subst.
      destruct Hi as [<-|[<-|[]]]; vm_compute; split; discriminate. }
  split; [vm_compute; reflexivity|].
  cbn. intros (_ & _ & ((_ & H) & _)).
  specialize (H 1 0 (mk_segment 1 1)). cbn in H.
  specialize (H (or_introl eq_refl) eq_refl). vm_compute in H. destruct H as [H _]. now apply H.
Qed.

(** C53: the centroid stored in a node is not the centroid of its box: every node stores the one of the root. *)
Theorem c53_nodes_store_the_root_centroid :
  forall tol samples nf bucket max_depth policy lowest max center indices,
  (0 <= tol)%Z -> policy_ok nf policy -> dataset_ok samples nf lowest max indices ->
  exists tree segs,
    make_kdtree tol samples nf bucket max_depth policy lowest max center indices = Ok tree /\
    make_tight_segments lowest max samples nf indices = Ok segs /\
    kd_centroids (map center segs) (kt_root tree).
Proof.
  intros tol samples nf bucket max_depth policy lowest max center indices Ht Hp Hd.
  destruct (make_kdtree_ok tol samples nf bucket max_depth policy lowest max center indices Ht Hp Hd)
    as (tree & segs & E & E2 & L & T & Bt & Bx & P & S1 & S2 & S3 & S4 & S5 & S6 & S7).
  exists tree, segs. splits; auto. eapply centroids_of_cuts; eauto. now rewrite Bx.
Qed.

Theorem c53_node_centroid_refuted :
  exists tree f l ax b tl tr, pts_tree 1 10 = Ok tree /\ kt_root tree = KNode f l ax b tl tr /\
    aabb_centroid (kd_box tl) <> map half (aabb_segments (kd_box tl)).
Proof.
  do 7 eexists. split; [vm_compute; reflexivity|]. simpl. split; [reflexivity|]. vm_compute. discriminate.
Qed.

Print Assumptions c10_construction_partitions_the_indices.
Print Assumptions c11_nodes_respect_limits.
Print Assumptions c11_default_depth_gives_one_leaf.
Print Assumptions c12_nodes_separate_and_enclose.
Print Assumptions c12_boxes_are_cut_at_the_samples.
Print Assumptions c12_close_values_enclosure_refuted.
Print Assumptions c53_nodes_store_the_root_centroid.
Print Assumptions c53_node_centroid_refuted.
