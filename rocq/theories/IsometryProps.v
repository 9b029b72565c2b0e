(** Theorems on results that depend on the distances only (C90). *)
From Coq Require Import List Arith ZArith QArith Lia Bool Permutation Sorted FinFun Relations.
From Verif Require Import Base SortingModel SortingSpec BoundsModel BoundsSpec BoundsProofs
  UnionFindModel UnionFindSpec UnionFindProofs BufferModel BufferSpec BufferProofs
  BufferProps KDTreeModel KDTreeSpec KDTreeProofs KDTreeProps SearchModel SearchSpec SearchProofs SearchProps
  GraphSpec GraphProofs BoruvkaSpec BoruvkaModel BoruvkaProofs BoruvkaProps
  SlinkModel SlinkSpec SlinkProofs SlinkProps CondensedModel CondensedSpec CondensedProofs CondensedProps HdbscanModel HdbscanProps
  IsometrySpec IsometryProofs.
Import ListNotations.
Local Open Scope nat_scope.

(** Mirror images of a dendrogram give the same clusters. *)
Theorem c90_mirror_images_have_the_same_clusters :
  forall D (lt : D -> D -> bool) inverse n f root root' o,
  renaming n f -> dendrogram lt root -> dendrogram lt root' ->
  Permutation (leaves root) (seq 0 n) -> Permutation (leaves root') (seq 0 n) -> mirror f root root' ->
  exists labels labels',
    extract_flat_condensed (make_condensed inverse o root) = Ok labels /\
    extract_flat_condensed (make_condensed inverse o root') = Ok labels' /\
    length labels = n /\ length labels' = n /\ same_partition n f labels labels'.
Proof.
  intros D lt inverse n f root root' o (Hf & Inj) HD HD' HL HL' M.
  destruct (labels_ok lt inverse root n HD HL o) as (labels & E & L & S1 & F).
  destruct (labels_ok lt inverse root' n HD' HL' o) as (labels' & E' & L' & S1' & F').
  exists labels, labels'. split; [auto|]. split; [auto|]. split; [auto|]. split; [auto|].
  apply (matched_labels n f labels labels' (map cn_root (picked inverse root o)) (map cn_root (picked inverse root' o))); auto.
  - intros s x Hs Hx. destruct F as (F & _). rewrite Forall_forall in F. pose proof (cluster_descendant root _ s (F s Hs)) as Hd.
    eapply descendant_leaves in Hx; [|exact Hd]. apply (Permutation_in _ HL), in_seq in Hx. lia.
  - apply picked_mirror; auto; eapply dendrogram_sized; eauto.
Qed.

Lemma renaming_onto n f : renaming n f -> forall y, y < n -> exists x, x < n /\ y = f x.
Proof.
  intros (Hf & Inj) y Hy. assert (B : bFun n f) by exact Hf.
  apply (bInjective_bSurjective B) in Inj. destruct (Inj y Hy) as (x & Hx & E). eauto.
Qed.

Lemma reach_renamed {D} (lt : D -> D -> bool) n f d d' t : renaming n f ->
  (forall i j, i < n -> j < n -> d' (f i) (f j) = d i j) ->
  forall i j, i < n -> j < n -> (reach lt n d t i j <-> reach lt n d' t (f i) (f j)).
Proof.
  intros Hr Hd i j Hi Hj. split.
  - intros H. clear Hi Hj. induction H as [i Hi|i j k Hi Hj Ht H IH]; [constructor; now apply Hr|].
    apply reach_step with (f j); auto; try (now apply Hr). now rewrite Hd.
  - assert (G : forall x y, reach lt n d' t x y -> forall i j, i < n -> j < n -> x = f i -> y = f j -> reach lt n d t i j).
    { clear i j Hi Hj. induction 1 as [x Hx|x z y Hx Hz Ht H IH]; intros i j Hi Hj E1 E2.
      - assert (i = j) by (apply Hr; congruence). subst j. constructor. auto.
      - destruct (renaming_onto n f Hr z Hz) as (m & Hm & ->). apply reach_step with m; auto. subst x. rewrite Hd in Ht; auto. }
    intros H. eapply G; eauto.
Qed.

Section Run.
Context (m : metric) (dist : list Z -> list Z -> m_dist m) (Hm : metric_ok m dist) (inverse : m_dist m -> Q).

(** All that one run is given, apart from the samples. *)
Record surroundings := {
  s_tol : Z; s_bucket : nat; s_depth : nat; s_policy : list bool -> list nat -> nat -> aabb -> nat; s_lowest : Z; s_max : Z;
  s_center : segment -> Z; s_oc : nat -> list (nat * list nat) -> list (nat * list nat);
  s_oe : nat -> list (nat * edge m) -> list (nat * edge m); s_fuel : nat;
  s_sort : list (nat * nat * m_dist m) -> list (nat * nat * m_dist m);
  s_order : list (nat * slink (m_dist m)) -> list (nat * slink (m_dist m)) }.

(** The tree, and a hash map iterated and edges sorted, in whatever way the implementation chooses. *)
Definition surroundings_ok (e : surroundings) (samples : list Z) (nf n : nat) : Prop :=
  whole_input (s_tol e) samples nf n (s_policy e) (s_lowest e) (s_max e) /\ permuting (s_oc e) /\ permuting (s_oe e) /\
  sorts (m_lt m) (s_sort e) /\ (forall l, Permutation (s_order e l) l) /\ n <= S (s_fuel e).

Definition surroundings_tree (e : surroundings) (samples : list Z) (nf n : nat) : res kdtree :=
  make_kdtree (s_tol e) samples nf (s_bucket e) (s_depth e) (s_policy e) (s_lowest e) (s_max e) (s_center e) (seq 0 n).

Definition dendrogram_of (e : surroundings) (samples : list Z) (nf n k : nat) : res (slink (m_dist m)) :=
  tree <- surroundings_tree e samples nf n ;;
  mst <- make_tree m samples nf tree (s_oc e) (s_oe e) (s_fuel e) k ;;
  make_slink (s_sort e) (s_order e) mst.

Definition clusters_of (e : surroundings) (samples : list Z) (nf n : nat) (o : hdbscan_options) : res (list nat) :=
  tree <- surroundings_tree e samples nf n ;;
  hdbscan_predict m inverse samples nf tree (s_oc e) (s_oe e) (s_fuel e) (s_sort e) (s_order e) o.

Lemma clusters_dendrogram e samples nf n o : clusters_of e samples nf n o =
  root <- dendrogram_of e samples nf n (h_k_nearest_neighbors o) ;;
  extract_flat_condensed (make_condensed inverse
    {| min_cluster_size := h_min_cluster_size o; return_leaf_nodes := h_return_leaf_nodes o;
       allow_single_cluster := h_allow_single_cluster o |} root).
Proof.
  unfold clusters_of, dendrogram_of, hdbscan_predict. destruct (surroundings_tree e samples nf n) as [tree| | |]; cbn [bind]; auto.
  destruct (make_tree m samples nf tree (s_oc e) (s_oe e) (s_fuel e) (h_k_nearest_neighbors o)); cbn [bind]; auto.
Qed.

Lemma run_facts e samples nf n k : finite_metric m dist samples nf n -> surroundings_ok e samples nf n -> 1 <= n -> k <= 1 ->
  exists root, dendrogram_of e samples nf n k = Ok root /\ dendrogram (m_lt m) root /\ Permutation (leaves root) (seq 0 n) /\
    (no_ties (m_lt m) n (between dist samples nf) -> strict (m_lt m) root) /\
    (forall v, In v (levels root) -> exists a b, a < n /\ b < n /\ a <> b /\ v = between dist samples nf a b) /\
    (forall t i j, i < n -> j < n -> i <> j -> (joined_at (m_lt m) root t i j <-> reach (m_lt m) n (between dist samples nf) t i j)).
Proof.
  intros Hf (Hi & Hoc & Hoe & Hs & Ho & Hfu) Hn Hk. destruct e as [tol bucket depth policy lowest max center oc oe fuel sort order].
  cbn [s_tol s_bucket s_depth s_policy s_lowest s_max s_center s_oc s_oe s_fuel s_sort s_order] in *.
  destruct (c20_boruvka_returns_a_spanning_tree m dist tol samples nf n bucket depth policy lowest max center oc oe k fuel)
    as (tree & mst & E1 & E2 & T & W); auto. { lia. }
  destruct (c22_tree_carries_single_linkage m dist tol samples nf n bucket depth policy lowest max center oc oe k fuel)
    as (tree' & mst' & E1' & E2' & R); auto.
  rewrite E1 in E1'. injection E1' as <-. rewrite E2 in E2'. injection E2' as <-.
  destruct (c25_slink_is_a_dendrogram (m_lt m) (mo_order m dist Hm) sort Hs order Ho n mst Hn T) as (root & E3 & HL & Hsz & HD & Hlev).
  exists root. unfold dendrogram_of, surroundings_tree. cbn [s_tol s_bucket s_depth s_policy s_lowest s_max s_center s_oc s_oe s_fuel s_sort s_order].
  rewrite E1. cbn [bind]. rewrite E2. cbn [bind]. split; [exact E3|]. split; [auto|]. split; [auto|].
  assert (HE : forall a b w, In (a, b, w) mst -> a < n /\ b < n /\ w = between dist samples nf a b).
  { intros a b w H. destruct T as (_ & TI & _). destruct (TI a b w H). splits; auto. apply (W a b w H). auto. }
  assert (Hind : indep [] (ends mst)).
  { destruct T as (TL & _ & TS). apply (spanning_indep n); auto. unfold ends. now rewrite map_length. }
  split; [|split].
  - intros NT. apply untied_strict; auto. apply (untied_perm _ (map snd mst)); [now symmetry|].
    apply (edges_untied (m_lt m) n (between dist samples nf) mst NT HE [] Hind).
  - intros v Hv. apply (Permutation_in _ Hlev) in Hv. apply in_map_iff in Hv as ([[a b] w] & <- & Hin). destruct (HE a b w Hin) as (A & B & ->).
    exists a, b. splits; auto. apply in_split in Hin as (X & Y & ->). rewrite ends_app in Hind.
    change (ends ((a, b, between dist samples nf a b) :: Y)) with ((a, b) :: ends Y) in Hind. apply indep_snoc in Hind.
    intros ->. apply Hind. apply rst_refl.
  - intros t i j Hi' Hj Hne. rewrite <- R by auto. apply (c26_cut_gives_threshold_components (m_lt m) (mo_order m dist Hm) sort Hs order Ho n mst Hn T root t i j); auto.
Qed.
End Run.
Arguments surroundings_ok {m}. Arguments dendrogram_of {m}. Arguments clusters_of {m}.

(** Without equal distances, the dendrograms of two runs on datasets with the same distances are mirror images. *)
Theorem c90_dendrograms_are_mirror_images :
  forall m dist samples nf e samples' nf' e' n k k' f,
  metric_ok m dist -> finite_metric m dist samples nf n -> finite_metric m dist samples' nf' n ->
  surroundings_ok e samples nf n -> surroundings_ok e' samples' nf' n -> 1 <= n -> k <= 1 -> k' <= 1 -> renaming n f ->
  (forall i j, i < n -> j < n -> between dist samples' nf' (f i) (f j) = between dist samples nf i j) ->
  no_ties (m_lt m) n (between dist samples nf) ->
  exists root root',
    dendrogram_of e samples nf n k = Ok root /\ dendrogram_of e' samples' nf' n k' = Ok root' /\
    dendrogram (m_lt m) root /\ dendrogram (m_lt m) root' /\
    Permutation (leaves root) (seq 0 n) /\ Permutation (leaves root') (seq 0 n) /\ mirror f root root'.
Proof.
  intros m dist samples nf e samples' nf' e' n k k' f Hm Hf Hf' He He' Hn Hk Hk' Hr Hd NT.
  destruct (run_facts m dist Hm e samples nf n k Hf He Hn Hk) as (root & E & HD & HL & Hst & Hlev & HJ).
  destruct (run_facts m dist Hm e' samples' nf' n k' Hf' He' Hn Hk') as (root' & E' & HD' & HL' & Hst' & Hlev' & HJ').
  exists root, root'. splits; auto.
  assert (NT' : no_ties (m_lt m) n (between dist samples' nf')).
  { intros i j a b Hi Hj Ha Hb Hij Hab L1 L2.
    destruct (renaming_onto n f Hr i Hi) as (i0 & Hi0 & ->). destruct (renaming_onto n f Hr j Hj) as (j0 & Hj0 & ->).
    destruct (renaming_onto n f Hr a Ha) as (a0 & Ha0 & ->). destruct (renaming_onto n f Hr b Hb) as (b0 & Hb0 & ->).
    rewrite !Hd in * by auto. destruct (NT i0 j0 a0 b0) as [(-> & ->)|(-> & ->)]; auto; congruence. }
  assert (In1 : forall x, In x (leaves root) <-> x < n).
  { intros x. split; intros H; [apply (Permutation_in _ HL), in_seq in H; lia|]. apply (Permutation_in _ (Permutation_sym HL)), in_seq. lia. }
  assert (In2 : forall x, In x (leaves root') <-> x < n).
  { intros x. split; intros H; [apply (Permutation_in _ HL'), in_seq in H; lia|]. apply (Permutation_in _ (Permutation_sym HL')), in_seq. lia. }
  apply (same_merges_mirror (m_lt m) (mo_order m dist Hm)); auto.
  - eapply Permutation_NoDup; [symmetry; exact HL|apply seq_NoDup].
  - eapply Permutation_NoDup; [symmetry; exact HL'|apply seq_NoDup].
  - intros a b Ha Hb. apply In1 in Ha, Hb. now apply Hr.
  - intros v v' Hv Hv' L1 L2. destruct (Hlev v Hv) as (a & b & Ha & Hb & Hab & ->). destruct (Hlev' v' Hv') as (c & d & Hc & Hd' & Hcd & ->).
    destruct (renaming_onto n f Hr c Hc) as (c0 & Hc0 & ->). destruct (renaming_onto n f Hr d Hd') as (d0 & Hd0 & ->).
    rewrite Hd in * by auto. destruct (NT a b c0 d0) as [(-> & ->)|(-> & ->)]; auto; try congruence. unfold between. apply (proj1 Hf).
  - split; [|split].
    + intros x Hx. apply In2, Hr, In1, Hx.
    + intros y Hy. apply In2 in Hy. destruct (renaming_onto n f Hr y Hy) as (x & Hx & ->). exists x. split; auto. now apply In1.
    + intros t a b Ha Hb Hab. apply In1 in Ha, Hb. rewrite HJ by auto. rewrite HJ'; try (now apply Hr).
      * now apply reach_renamed.
      * intros E0. apply Hab, Hr; auto.
Qed.

(** The clusters and the noise are the same too. *)
Theorem c90_hdbscan_depends_on_the_distances_only :
  forall m dist (inverse : m_dist m -> Q) samples nf e samples' nf' e' n o f,
  metric_ok m dist -> finite_metric m dist samples nf n -> finite_metric m dist samples' nf' n ->
  surroundings_ok e samples nf n -> surroundings_ok e' samples' nf' n -> 1 <= n -> h_k_nearest_neighbors o <= 1 -> renaming n f ->
  (forall i j, i < n -> j < n -> between dist samples' nf' (f i) (f j) = between dist samples nf i j) ->
  no_ties (m_lt m) n (between dist samples nf) ->
  exists labels labels',
    clusters_of inverse e samples nf n o = Ok labels /\ clusters_of inverse e' samples' nf' n o = Ok labels' /\
    length labels = n /\ length labels' = n /\ same_partition n f labels labels'.
Proof.
  intros m dist inverse samples nf e samples' nf' e' n o f Hm Hf Hf' He He' Hn Hk Hr Hd NT.
  destruct (c90_dendrograms_are_mirror_images m dist samples nf e samples' nf' e' n (h_k_nearest_neighbors o) (h_k_nearest_neighbors o) f)
    as (root & root' & E & E' & HD & HD' & HL & HL' & M); auto.
  destruct (c90_mirror_images_have_the_same_clusters (m_dist m) (m_lt m) inverse n f root root'
    {| min_cluster_size := h_min_cluster_size o; return_leaf_nodes := h_return_leaf_nodes o;
       allow_single_cluster := h_allow_single_cluster o |}) as (labels & labels' & L1 & L2 & L3); auto.
  exists labels, labels'. rewrite !clusters_dendrogram, E, E'. cbn [bind]. auto.
Qed.

Definition line_env (bucket : nat) oc oe sort order : surroundings float_metric :=
  {| s_tol := 0; s_bucket := bucket; s_depth := 9; s_policy := fun _ _ _ _ => 0; s_lowest := (-100); s_max := 300; s_center := half;
     s_oc := oc; s_oe := oe; s_fuel := 20; s_sort := sort; s_order := order |}.

Definition line_run (bucket : nat) (sort : list (nat * nat * option Z) -> list (nat * nat * option Z)) (s : list Z) (o : hdbscan_options) : res (list nat) :=
  clusters_of (m := float_metric) inverse_square (line_env bucket flip keep sort (@rev _)) s 1 (length s) o.
Definition isort_rev (l : list (nat * nat * option Z)) := isort opt_lt (rev l).

Lemma isort_rev_sorts : sorts opt_lt isort_rev.
Proof.
  intros l. destruct (isort_float_sorts (rev l)) as (P & S). split; auto. unfold isort_rev. rewrite P. symmetry. apply Permutation_rev.
Qed.

Definition isort_only (sort : list (nat * nat * option Z) -> list (nat * nat * option Z)) : Prop :=
  sort = isort opt_lt \/ sort = isort_rev.

Lemma line_env_ok bucket sort s : isort_only sort -> Forall (fun z => (-100 <= z <= 300)%Z) s -> 1 <= length s -> length s <= 21 ->
  surroundings_ok (m := float_metric) (line_env bucket flip keep sort (@rev _)) s 1 (length s).
Proof.
  intros Hs F L1 L2. unfold surroundings_ok. cbn [s_tol s_bucket s_depth s_policy s_lowest s_max s_center s_oc s_oe s_fuel s_sort s_order line_env].
  split; [split; [now apply line_input|lia]|]. split; [apply flip_ok|]. split; [apply keep_ok|].
  split; [destruct Hs as [->| ->]; [apply isort_float_sorts|apply isort_rev_sorts]|]. split; [intros l; symmetry; apply Permutation_rev|lia].
Qed.

Definition uneven : list Z := [0; 10; 31; 100; 105; 122; 250]%Z.
Definition uneven' : list Z := (map (fun x => 260 - x) (rev uneven))%Z.
Notation fdist := (fun p q => Some (sq_dist p q)).

Definition tie_free (n : nat) (d : nat -> nat -> option Z) : bool :=
  forallb (fun i => forallb (fun j => forallb (fun k => forallb (fun l =>
    (i =? j) || (k =? l) || opt_lt (d i j) (d k l) || opt_lt (d k l) (d i j) || ((i =? k) && (j =? l)) || ((i =? l) && (j =? k)))
    (seq 0 n)) (seq 0 n)) (seq 0 n)) (seq 0 n).

Lemma tie_free_ok n d : tie_free n d = true -> no_ties opt_lt n d.
Proof.
  unfold tie_free. intros H i j k l Hi Hj Hk Hl Hij Hkl L1 L2.
  rewrite forallb_forall in H. specialize (H i ltac:(apply in_seq; lia)). rewrite forallb_forall in H. specialize (H j ltac:(apply in_seq; lia)).
  rewrite forallb_forall in H. specialize (H k ltac:(apply in_seq; lia)). rewrite forallb_forall in H. specialize (H l ltac:(apply in_seq; lia)).
  rewrite L1, L2 in H. apply Nat.eqb_neq in Hij, Hkl. rewrite Hij, Hkl in H. cbn in H.
  rewrite !orb_true_iff, !andb_true_iff, !Nat.eqb_eq in H. tauto.
Qed.

(** Seven samples, and their reflection in reverse order, in trees of different shapes and with edges sorted differently. *)
Example c90_case :
  metric_ok float_metric fdist /\ finite_metric float_metric fdist uneven 1 7 /\ finite_metric float_metric fdist uneven' 1 7 /\
  surroundings_ok (m := float_metric) (line_env 2 flip keep (isort opt_lt) (@rev _)) uneven 1 7 /\
  surroundings_ok (m := float_metric) (line_env 40 flip keep isort_rev (@rev _)) uneven' 1 7 /\
  renaming 7 (fun i => 6 - i) /\
  (forall i j, i < 7 -> j < 7 -> between fdist uneven' 1 (6 - i) (6 - j) = between fdist uneven 1 i j) /\
  no_ties opt_lt 7 (between fdist uneven 1) /\
  line_run 2 (isort opt_lt) uneven (Build_hdbscan_options 1 2 false false) = Ok [1; 1; 1; 2; 2; 2; 0] /\
  line_run 40 isort_rev uneven' (Build_hdbscan_options 1 2 false false) = Ok [0; 2; 2; 2; 1; 1; 1].
Proof.
  split; [exact float_metric_ok|]. split; [apply float_finite|]. split; [apply float_finite|].
  split; [apply (line_env_ok 2 (isort opt_lt) uneven); [now left|repeat constructor; lia|simpl; lia|simpl; lia]|].
  split; [apply (line_env_ok 40 isort_rev uneven'); [now right|repeat constructor; lia|simpl; lia|simpl; lia]|].
  split; [split; intros; lia|]. split.
  { intros i j Hi Hj. do 7 (destruct i as [|i]; [do 7 (destruct j as [|j]; [vm_compute; reflexivity|]); lia|]); lia. }
  split; [apply tie_free_ok; vm_compute; reflexivity|]. split; vm_compute; reflexivity.
Qed.

(** The dendrogram of the first run. *)
Example c90_mirror_case :
  exists root root' : slink (option Z),
    dendrogram_of (m := float_metric) (line_env 2 flip keep (isort opt_lt) (@rev _)) uneven 1 7 1 = Ok root /\
    dendrogram_of (m := float_metric) (line_env 40 flip keep isort_rev (@rev _)) uneven' 1 7 1 = Ok root' /\
    leaves root <> map (fun i => 6 - i) (leaves root') /\ mirror (fun i => 6 - i) root root'.
Proof.
  destruct c90_case as (A & B & C & D & E & F & G & H & _).
  destruct (c90_dendrograms_are_mirror_images float_metric fdist uneven 1 _ uneven' 1 _ 7 1 1 (fun i => 6 - i) A B C D E ltac:(lia) ltac:(lia) ltac:(lia) F G H)
    as (root & root' & E1 & E2 & _ & _ & _ & _ & M).
  exists root, root'. split; [exact E1|]. split; [exact E2|]. split; [|exact M].
  vm_compute in E1, E2. injection E1 as <-. injection E2 as <-. vm_compute. discriminate.
Qed.

(** With equal distances, the clusters depend on how the edges of equal weight are sorted... *)
Theorem c90_equal_distances_refuted : exists samples n e e' o labels labels',
  finite_metric float_metric fdist samples 1 n /\ surroundings_ok (m := float_metric) e samples 1 n /\
  surroundings_ok (m := float_metric) e' samples 1 n /\ h_k_nearest_neighbors o <= 1 /\
  clusters_of (m := float_metric) inverse_square e samples 1 n o = Ok labels /\
  clusters_of (m := float_metric) inverse_square e' samples 1 n o = Ok labels' /\ ~ same_partition n (fun i => i) labels labels'.
Proof.
  exists [0; 1; 2; 3; 4; 5]%Z, 6, (line_env 2 flip keep (isort opt_lt) (@rev _)), (line_env 2 flip keep isort_rev (@rev _)),
    (Build_hdbscan_options 1 2 false false), [2; 2; 2; 2; 1; 1], [2; 2; 2; 1; 1; 0].
  split; [apply float_finite|].
  split; [apply (line_env_ok 2 (isort opt_lt) [0; 1; 2; 3; 4; 5]%Z); [now left|repeat constructor; lia|simpl; lia|simpl; lia]|].
  split; [apply (line_env_ok 2 isort_rev [0; 1; 2; 3; 4; 5]%Z); [now right|repeat constructor; lia|simpl; lia|simpl; lia]|].
  split; [simpl; lia|]. split; [vm_compute; reflexivity|]. split; [vm_compute; reflexivity|].
  intros (_ & H). destruct (H 0 3) as (H1 & _); [lia|lia|]. specialize (H1 eq_refl). discriminate.
Qed.

(** ...and on the order of the rows. *)
Theorem c90_row_order_refuted : exists samples n e o labels labels',
  finite_metric float_metric fdist samples 1 n /\ surroundings_ok (m := float_metric) e samples 1 n /\
  surroundings_ok (m := float_metric) e (rev samples) 1 n /\ h_k_nearest_neighbors o <= 1 /\
  clusters_of (m := float_metric) inverse_square e samples 1 n o = Ok labels /\
  clusters_of (m := float_metric) inverse_square e (rev samples) 1 n o = Ok labels' /\ ~ same_partition n (fun i => n - 1 - i) labels labels'.
Proof.
  exists [0; 1; 2; 3; 4; 5]%Z, 6, (line_env 2 flip keep isort_rev (@rev _)),
    (Build_hdbscan_options 1 2 false false), [2; 2; 2; 1; 1; 0], [1; 1; 1; 1; 1; 1].
  split; [apply float_finite|].
  split; [apply (line_env_ok 2 isort_rev [0; 1; 2; 3; 4; 5]%Z); [now right|repeat constructor; lia|simpl; lia|simpl; lia]|].
  split; [apply (line_env_ok 2 isort_rev (rev [0; 1; 2; 3; 4; 5]%Z)); [now right|repeat constructor; lia|simpl; lia|simpl; lia]|].
  split; [simpl; lia|]. split; [vm_compute; reflexivity|]. split; [vm_compute; reflexivity|].
  intros (_ & H). destruct (H 0 3) as (_ & H1); [lia|lia|]. specialize (H1 eq_refl). discriminate.
Qed.

Print Assumptions c90_mirror_images_have_the_same_clusters.
Print Assumptions c90_dendrograms_are_mirror_images.
Print Assumptions c90_hdbscan_depends_on_the_distances_only.
Print Assumptions c90_equal_distances_refuted.
Print Assumptions c90_row_order_refuted.
