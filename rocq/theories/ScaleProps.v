(** Theorems on HDBSCAN and the unit of the data (C100). *)
From Coq Require Import List Arith ZArith QArith Lia Bool Permutation Sorted FinFun Relations Lqa.
From Verif Require Import Base SortingModel SortingSpec BoundsModel BoundsSpec BoundsProofs
  UnionFindModel UnionFindSpec UnionFindProofs BufferModel BufferSpec BufferProofs
  BufferProps KDTreeModel KDTreeSpec KDTreeProofs KDTreeProps SearchModel SearchSpec SearchProofs SearchProps
  GraphSpec GraphProofs BoruvkaSpec BoruvkaModel BoruvkaProofs BoruvkaProps
  SlinkModel SlinkSpec SlinkProofs SlinkProps CondensedModel CondensedSpec CondensedProofs CondensedProps HdbscanModel HdbscanProps
  IsometrySpec IsometryProofs IsometryProps ScaleProofs.
Import ListNotations.
Local Open Scope nat_scope.

(** ** Dendrograms *)

(** When all densities are multiplied by a constant, the labels are the same. *)
Theorem c100_levels_times_a_constant :
  forall D D' (phi : D -> D') (inverse : D -> Q) (inverse' : D' -> Q) a root o,
  (0 < a)%Q -> (forall v, In v (levels root) -> (inverse' (phi v) == a * inverse v)%Q) ->
  extract_flat_condensed (make_condensed inverse' o (map_levels phi root)) = extract_flat_condensed (make_condensed inverse o root).
Proof.
  intros D D' phi inverse inverse' a root o Ha Hv.
  assert (C : calike phi (times a) (build_condensed inverse (min_cluster_size o) root)
                                   (build_condensed inverse' (min_cluster_size o) (map_levels phi root))).
  { apply condense_alike; auto; try (unfold times; ring). intros. now apply times_add. }
  unfold make_condensed. destruct (return_leaf_nodes o); [eapply extract_alike; eauto|].
  destruct (select_alike phi a Ha _ _ C) as [_ S].
  destruct (select_subtree (build_condensed inverse (min_cluster_size o) root)) as [q c].
  destruct (select_subtree (build_condensed inverse' (min_cluster_size o) (map_levels phi root))) as [q' c']. cbn [snd] in S.
  rewrite (calike_is_leaf phi (times a) _ _ S). destruct (negb (allow_single_cluster o) && negb (cn_is_leaf c)).
  - eapply extract_alike. apply calike_set. exact S.
  - eapply extract_alike. exact S.
Qed.

(** The finest clusters do not look at the levels at all. *)
Theorem c100_finest_clusters_ignore_levels :
  forall D D' (phi : D -> D') (inverse : D -> Q) (inverse' : D' -> Q) root o, return_leaf_nodes o = true ->
  extract_flat_condensed (make_condensed inverse' o (map_levels phi root)) = extract_flat_condensed (make_condensed inverse o root).
Proof.
  intros D D' phi inverse inverse' root o Ho. unfold make_condensed. rewrite Ho.
  apply (extract_alike phi (fun _ _ => True)). apply condense_alike; auto.
Qed.

(** When all densities are 0 everything is one cluster. *)
Lemma flat_dendrogram {D} (inverse : D -> Q) min : forall s root lm st,
  (forall v, In v (levels s) -> (inverse v == 0)%Q) -> (lm == 0)%Q -> (st == 0)%Q ->
  let c := condense inverse min root lm st s in
  (cn_is_leaf c = true -> cn_selected c = true) /\ (fst (select_subtree c) == 0)%Q /\ cn_selected (snd (select_subtree c)) = true /\
  cn_root (snd (select_subtree c)) = root.
Proof.
  induction s as [i|i v n l IHl r IHr]; intros root lm st Hv Hm Hs; cbn [condense].
  - cbn. auto.
  - assert (V : (inverse v == 0)%Q) by (apply Hv; left; auto).
    assert (Vl : forall x, In x (levels l) -> (inverse x == 0)%Q) by (intros; apply Hv; right; apply in_or_app; auto).
    assert (Vr : forall x, In x (levels r) -> (inverse x == 0)%Q) by (intros; apply Hv; right; apply in_or_app; auto).
    assert (A : forall k, (add_excess_of_mass st k (inverse v) lm == 0)%Q) by (intros; unfold add_excess_of_mass; rewrite V, Hm, Hs; ring).
    destruct (min <=? sl_size l), (min <=? sl_size r); cbn [andb]; auto.
    + destruct (IHl l (inverse v) 0%Q Vl V (Qeq_refl _)) as (_ & L & _).
      destruct (IHr r (inverse v) 0%Q Vr V (Qeq_refl _)) as (_ & R & _). cbn [select_subtree].
      destruct (select_subtree (condense inverse min l (inverse v) 0 l)) as [ql cl].
      destruct (select_subtree (condense inverse min r (inverse v) 0 r)) as [qr cr]. cbn [fst snd] in *.
      assert (E : Qle_bool (ql + qr) (add_excess_of_mass st n (inverse v) lm) = true) by (apply Qle_bool_iff; rewrite L, R, A; lra).
      rewrite E. cbn. split; [discriminate|]. split; auto.
    + cbn. auto.
Qed.

Theorem c100_densities_zero :
  forall D (lt : D -> D -> bool) (inverse : D -> Q) n root min, dendrogram lt root -> Permutation (leaves root) (seq 0 n) ->
  (forall v, In v (levels root) -> (inverse v == 0)%Q) ->
  extract_flat_condensed (make_condensed inverse (Build_condensed_options min true false) root) = Ok (repeat 1 n).
Proof.
  intros D lt inverse n root min HD HL Hv.
  destruct (labels_ok lt inverse root n HD HL (Build_condensed_options min true false)) as (labels & E & L & _).
  rewrite E. f_equal. revert E.
  destruct (flat_dendrogram inverse min root root 0%Q 0%Q Hv (Qeq_refl _) (Qeq_refl _)) as (_ & _ & S1 & S2).
  unfold make_condensed. cbn [min_cluster_size return_leaf_nodes allow_single_cluster]. unfold build_condensed in *.
  destruct (select_subtree (condense inverse min root 0 0 root)) as [q c]. cbn [snd negb andb] in *.
  unfold extract_flat_condensed. assert (E : shallowest_selected c = Ok [c]) by (destruct c; cbn in *; rewrite S1; auto).
  rewrite E. cbn [bind for_each]. rewrite S2.
  assert (Hsz : sl_size root = n).
  { rewrite (sized_size root (dendrogram_sized lt root HD)), (Permutation_length HL). apply seq_length. }
  rewrite Hsz.
  destruct (fill_ok 1 root (repeat 0 n)) as (fc & F & Fl & Fo & Fi).
  { intros x Hx. rewrite repeat_length. apply (Permutation_in _ HL), in_seq in Hx. lia. }
  rewrite F. cbn [bind]. intros X. injection X as <-.
  apply nth_error_ext. intros i. destruct (Nat.lt_ge_cases i n) as [Hi|Hi].
  - rewrite (nth_error_repeat _ Hi). apply Fi. apply (Permutation_in _ (Permutation_sym HL)), in_seq. lia.
  - rewrite (proj2 (nth_error_None _ _)), (proj2 (nth_error_None _ _)); auto; rewrite ?repeat_length; lia.
Qed.

(** Levels 5, 5, 7, 9 and the same times 10; and all densities taken for 0. *)
Example c100_dendrogram_case :
  (forall v, In v (levels path5_tree) -> (inverse_float (1#2) (inject_Z (10 * v)) == (1#10) * inverse_float (1#2) (inject_Z v))%Q) /\
  extract_flat_condensed (make_condensed (fun v => inverse_float (1#2) (inject_Z v)) (Build_condensed_options 2 false false) path5_tree) =
    Ok [1; 1; 2; 2; 0] /\
  extract_flat_condensed (make_condensed (fun v => inverse_float (1#2) (inject_Z v)) (Build_condensed_options 2 false false)
    (map_levels (Z.mul 10) path5_tree)) = Ok [1; 1; 2; 2; 0] /\
  dendrogram Z.ltb path5_tree /\ leaves path5_tree = seq 0 5 /\
  (forall v, In v (levels path5_tree) -> (inverse_float (9#1) (inject_Z v) == 0)%Q) /\
  extract_flat_condensed (make_condensed (fun v => inverse_float (9#1) (inject_Z v)) (Build_condensed_options 2 true false) path5_tree) =
    Ok [1; 1; 1; 1; 1].
Proof.
  split. { intros v Hv. cbn in Hv. repeat (destruct Hv as [<-|Hv]; [vm_compute; reflexivity|]). destruct Hv. }
  split; [vm_compute; reflexivity|]. split; [vm_compute; reflexivity|]. split.
  { destruct (c25_slink_is_a_dendrogram Z.ltb z_order_ok (isort Z.ltb) isort_sorts (@rev _)
      (fun l => Permutation_sym (Permutation_rev l)) 5 path5 ltac:(lia) path5_spanning) as (root & E & _ & _ & H & _).
    vm_compute in E. injection E as <-. exact H. }
  split; [reflexivity|]. split; [|vm_compute; reflexivity].
  intros v Hv. cbn in Hv. repeat (destruct Hv as [<-|Hv]; [vm_compute; reflexivity|]). destruct Hv.
Qed.

(** ** Runs of HDBSCAN *)

(** The distances of two datasets are in the same order, up to a renaming of the rows: [phi] turns those of the first into
    those of the second. *)
Definition same_order {D} (lt : D -> D -> bool) (n : nat) (f : nat -> nat) (phi : D -> D) (d d' : nat -> nat -> D) : Prop :=
  (forall i j, i < n -> j < n -> d' (f i) (f j) = phi (d i j)) /\
  (forall i j k l, i < n -> j < n -> k < n -> l < n -> lt (phi (d i j)) (phi (d k l)) = lt (d i j) (d k l)).

Lemma reach_order {D} (lt : D -> D -> bool) n f phi d d' : renaming n f -> same_order lt n f phi d d' ->
  forall p q, p < n -> q < n -> forall i j, i < n -> j < n -> (reach lt n d (d p q) i j <-> reach lt n d' (phi (d p q)) (f i) (f j)).
Proof.
  intros Hr (Hd & Ho) p q Hp Hq i j Hi Hj. split.
  - intros H. clear Hi Hj. induction H as [i Hi|i j k Hi Hj Ht H IH]; [constructor; now apply Hr|].
    apply reach_step with (f j); auto; try (now apply Hr). rewrite Hd, Ho; auto.
  - assert (G : forall x y, reach lt n d' (phi (d p q)) x y -> forall i j, i < n -> j < n -> x = f i -> y = f j -> reach lt n d (d p q) i j).
    { clear i j Hi Hj. induction 1 as [x Hx|x z y Hx Hz Ht H IH]; intros i j Hi Hj E1 E2.
      - assert (i = j) by (apply Hr; congruence). subst j. constructor. auto.
      - destruct (renaming_onto n f Hr z Hz) as (m & Hm & ->). apply reach_step with m; auto. subst x. rewrite Hd, Ho in Ht; auto. }
    intros H. eapply G; eauto.
Qed.

(** The dendrogram of the second run is a mirror image of that of the first one with its levels replaced. *)
Theorem c100_dendrograms_keep_their_shape :
  forall m dist samples nf e samples' nf' e' n k k' f phi,
  metric_ok m dist -> finite_metric m dist samples nf n -> finite_metric m dist samples' nf' n ->
  surroundings_ok e samples nf n -> surroundings_ok e' samples' nf' n -> 1 <= n -> k <= 1 -> k' <= 1 -> renaming n f ->
  same_order (m_lt m) n f phi (between dist samples nf) (between dist samples' nf') ->
  no_ties (m_lt m) n (between dist samples nf) ->
  exists root root',
    dendrogram_of e samples nf n k = Ok root /\ dendrogram_of e' samples' nf' n k' = Ok root' /\
    (forall v, In v (levels root) -> exists i j, i < n /\ j < n /\ i <> j /\ v = between dist samples nf i j) /\
    dendrogram (m_lt m) (map_levels phi root) /\ dendrogram (m_lt m) root' /\
    Permutation (leaves root) (seq 0 n) /\ Permutation (leaves root') (seq 0 n) /\ mirror f (map_levels phi root) root'.
Proof.
  intros m dist samples nf e samples' nf' e' n k k' f phi Hm Hf Hf' He He' Hn Hk Hk' Hr Hs NT. pose proof Hs as (Hd & Ho).
  destruct (run_facts m dist Hm e samples nf n k Hf He Hn Hk) as (root & E & HD & HL & Hst & Hlev & HJ).
  destruct (run_facts m dist Hm e' samples' nf' n k' Hf' He' Hn Hk') as (root' & E' & HD' & HL' & Hst' & Hlev' & HJ').
  pose proof (mo_order m dist Hm) as Hlt.
  assert (K : keeps (m_lt m) phi (levels root)).
  { intros u v Hu Hv. destruct (Hlev u Hu) as (a & b & A & B & _ & ->). destruct (Hlev v Hv) as (a' & b' & A' & B' & _ & ->). auto. }
  exists root, root'. splits; auto. { now apply up_dendrogram. }
  assert (NT' : no_ties (m_lt m) n (between dist samples' nf')).
  { intros i j a b Hi Hj Ha Hb Hij Hab L1 L2.
    destruct (renaming_onto n f Hr i Hi) as (i0 & Hi0 & ->). destruct (renaming_onto n f Hr j Hj) as (j0 & Hj0 & ->).
    destruct (renaming_onto n f Hr a Ha) as (a0 & Ha0 & ->). destruct (renaming_onto n f Hr b Hb) as (b0 & Hb0 & ->).
    rewrite !Hd in * by auto. rewrite Ho in L1, L2 by auto. destruct (NT i0 j0 a0 b0) as [(-> & ->)|(-> & ->)]; auto; congruence. }
  assert (In1 : forall x, In x (leaves root) <-> x < n).
  { intros x. split; intros H; [apply (Permutation_in _ HL), in_seq in H; lia|]. apply (Permutation_in _ (Permutation_sym HL)), in_seq. lia. }
  assert (In2 : forall x, In x (leaves root') <-> x < n).
  { intros x. split; intros H; [apply (Permutation_in _ HL'), in_seq in H; lia|]. apply (Permutation_in _ (Permutation_sym HL')), in_seq. lia. }
  apply (same_merges_mirror (m_lt m) Hlt).
  - apply up_strict; auto.
  - auto.
  - rewrite up_leaves. eapply Permutation_NoDup; [symmetry; exact HL|apply seq_NoDup].
  - eapply Permutation_NoDup; [symmetry; exact HL'|apply seq_NoDup].
  - intros a b. rewrite up_leaves. intros Ha Hb. apply In1 in Ha, Hb. now apply Hr.
  - intros v v'. rewrite up_levels. intros Hv Hv' L1 L2. apply in_map_iff in Hv as (u & <- & Hu).
    destruct (Hlev u Hu) as (a & b & Ha & Hb & Hab & ->). destruct (Hlev' v' Hv') as (c & d & Hc & Hd' & Hcd & ->).
    destruct (renaming_onto n f Hr c Hc) as (c0 & Hc0 & ->). destruct (renaming_onto n f Hr d Hd') as (d0 & Hd0 & ->).
    rewrite Hd in * by auto. rewrite Ho in L1, L2 by auto.
    destruct (NT a b c0 d0) as [(-> & ->)|(-> & ->)]; auto; try congruence. f_equal. unfold between. apply (proj1 Hf).
  - split; [|split].
    + intros x. rewrite up_leaves. intros Hx. apply In2, Hr, In1, Hx.
    + intros y Hy. apply In2 in Hy. destruct (renaming_onto n f Hr y Hy) as (x & Hx & ->). exists x. rewrite up_leaves. split; auto. now apply In1.
    + intros t a b. rewrite up_leaves. intros Ha Hb Hab. apply In1 in Ha, Hb.
      assert (Hne : f a <> f b) by (intros E0; apply Hab, Hr; auto).
      rewrite (joined_up (m_lt m) Hlt phi root t a b K). rewrite HJ' by (auto; now apply Hr). split.
      * intros (v & Hv & Ht & J). destruct (Hlev v Hv) as (p & q & Hp & Hq & _ & ->). apply HJ in J; auto.
        apply (reach_order (m_lt m) n f phi _ _ Hr Hs p q Hp Hq) in J; auto.
        apply (reach_weaker (m_lt m) Hlt) with (phi (between dist samples nf p q)); auto.
      * intros H. destruct (reach_bottleneck (m_lt m) Hlt _ _ _ _ _ H Hne) as (x & y & Hx & Hy & Ht & J).
        destruct (renaming_onto n f Hr x Hx) as (p & Hp & ->). destruct (renaming_onto n f Hr y Hy) as (q & Hq & ->).
        rewrite Hd in * by auto. apply (reach_order (m_lt m) n f phi _ _ Hr Hs p q Hp Hq) in J; auto.
        apply HJ in J; auto. destruct (joined_level (m_lt m) Hlt root _ a b J) as (v & Hv & Hle & J').
        exists v. split; [auto|]. split; [|auto].
        destruct (Hlev v Hv) as (p' & q' & Hp' & Hq' & _ & ->).
        apply (proj2 Hlt _ (phi (between dist samples nf p q)) _); auto. rewrite Ho by auto. exact Hle.
Qed.

(** A change of unit that multiplies all densities by a constant changes nothing. *)
Theorem c100_hdbscan_change_of_unit :
  forall m dist (inverse : m_dist m -> Q) samples nf e samples' nf' e' n o f phi a,
  metric_ok m dist -> finite_metric m dist samples nf n -> finite_metric m dist samples' nf' n ->
  surroundings_ok e samples nf n -> surroundings_ok e' samples' nf' n -> 1 <= n -> h_k_nearest_neighbors o <= 1 -> renaming n f ->
  same_order (m_lt m) n f phi (between dist samples nf) (between dist samples' nf') ->
  no_ties (m_lt m) n (between dist samples nf) ->
  (0 < a)%Q ->
  (forall i j, i < n -> j < n -> i <> j ->
     (inverse (phi (between dist samples nf i j)) == a * inverse (between dist samples nf i j))%Q) ->
  exists labels labels',
    clusters_of inverse e samples nf n o = Ok labels /\ clusters_of inverse e' samples' nf' n o = Ok labels' /\
    length labels = n /\ length labels' = n /\ same_partition n f labels labels'.
Proof.
  intros m dist inverse samples nf e samples' nf' e' n o f phi a Hm Hf Hf' He He' Hn Hk Hr Hs NT Ha Hinv.
  destruct (c100_dendrograms_keep_their_shape m dist samples nf e samples' nf' e' n (h_k_nearest_neighbors o) (h_k_nearest_neighbors o) f phi)
    as (root & root' & E & E' & Hlev & HD & HD' & HL & HL' & M); auto.
  destruct (c90_mirror_images_have_the_same_clusters (m_dist m) (m_lt m) inverse n f (map_levels phi root) root'
    {| min_cluster_size := h_min_cluster_size o; return_leaf_nodes := h_return_leaf_nodes o;
       allow_single_cluster := h_allow_single_cluster o |}) as (labels & labels' & L1 & L2 & L3); auto.
  { now rewrite up_leaves. }
  exists labels, labels'. rewrite !clusters_dendrogram, E, E'. cbn [bind]. split; [|auto].
  rewrite <- L1. symmetry. apply c100_levels_times_a_constant with a; auto.
  intros v Hv. destruct (Hlev v Hv) as (i & j & Hi & Hj & Hij & ->). auto.
Qed.

(** The finest clusters (return_leaf_nodes) only depend on the order of the distances. *)
Theorem c100_hdbscan_finest_clusters :
  forall m dist (inverse : m_dist m -> Q) samples nf e samples' nf' e' n o f phi,
  metric_ok m dist -> finite_metric m dist samples nf n -> finite_metric m dist samples' nf' n ->
  surroundings_ok e samples nf n -> surroundings_ok e' samples' nf' n -> 1 <= n -> h_k_nearest_neighbors o <= 1 -> renaming n f ->
  same_order (m_lt m) n f phi (between dist samples nf) (between dist samples' nf') ->
  no_ties (m_lt m) n (between dist samples nf) -> h_return_leaf_nodes o = true ->
  exists labels labels',
    clusters_of inverse e samples nf n o = Ok labels /\ clusters_of inverse e' samples' nf' n o = Ok labels' /\
    length labels = n /\ length labels' = n /\ same_partition n f labels labels'.
Proof.
  intros m dist inverse samples nf e samples' nf' e' n o f phi Hm Hf Hf' He He' Hn Hk Hr Hs NT Hleaf.
  destruct (c100_dendrograms_keep_their_shape m dist samples nf e samples' nf' e' n (h_k_nearest_neighbors o) (h_k_nearest_neighbors o) f phi)
    as (root & root' & E & E' & Hlev & HD & HD' & HL & HL' & M); auto.
  destruct (c90_mirror_images_have_the_same_clusters (m_dist m) (m_lt m) inverse n f (map_levels phi root) root'
    {| min_cluster_size := h_min_cluster_size o; return_leaf_nodes := h_return_leaf_nodes o;
       allow_single_cluster := h_allow_single_cluster o |}) as (labels & labels' & L1 & L2 & L3); auto.
  { now rewrite up_leaves. }
  exists labels, labels'. rewrite !clusters_dendrogram, E, E'. cbn [bind]. split; [|auto].
  rewrite <- L1. symmetry. now apply c100_finest_clusters_ignore_levels.
Qed.

(** When no distance exceeds epsilon, so that every density is taken for 0, all samples form one cluster. *)
Theorem c100_distances_below_epsilon :
  forall m dist (inverse : m_dist m -> Q) samples nf e n o,
  metric_ok m dist -> finite_metric m dist samples nf n -> surroundings_ok e samples nf n -> 1 <= n -> h_k_nearest_neighbors o <= 1 ->
  (forall i j, i < n -> j < n -> i <> j -> (inverse (between dist samples nf i j) == 0)%Q) ->
  h_allow_single_cluster o = true -> h_return_leaf_nodes o = false ->
  clusters_of inverse e samples nf n o = Ok (repeat 1 n).
Proof.
  intros m dist inverse samples nf e n o Hm Hf He Hn Hk Hz H1 H2.
  destruct (run_facts m dist Hm e samples nf n _ Hf He Hn Hk) as (root & E & HD & HL & _ & Hlev & _).
  rewrite clusters_dendrogram, E. cbn [bind]. rewrite H1, H2. apply (c100_densities_zero _ (m_lt m)); auto.
  intros v Hv. destruct (Hlev v Hv) as (i & j & Hi & Hj & Hij & ->). auto.
Qed.

(** ** Cases *)

(** Distances on a line are represented by perfect squares; the inverse of the distance, 0 up to epsilon. *)
Definition inverse_line (eps : Q) (d : option Z) : Q :=
  match d with Some z => inverse_float eps (inject_Z (Z.sqrt z)) | None => 0%Q end.

Definition wide_env (bucket : nat) sort : surroundings float_metric :=
  {| s_tol := 0; s_bucket := bucket; s_depth := 9; s_policy := fun _ _ _ _ => 0; s_lowest := (-1000000); s_max := 1000000; s_center := half;
     s_oc := flip; s_oe := keep; s_fuel := 20; s_sort := sort; s_order := @rev _ |}.

Lemma wide_env_ok bucket sort s : isort_only sort -> Forall (fun z => (-1000000 <= z <= 1000000)%Z) s -> 1 <= length s -> length s <= 21 ->
  surroundings_ok (m := float_metric) (wide_env bucket sort) s 1 (length s).
Proof.
  intros Hs F L1 L2. unfold surroundings_ok. cbn [s_tol s_bucket s_depth s_policy s_lowest s_max s_center s_oc s_oe s_fuel s_sort s_order wide_env].
  split; [split; [now apply line_input|lia]|]. split; [apply flip_ok|]. split; [apply keep_ok|].
  split; [destruct Hs as [->| ->]; [apply isort_float_sorts|apply isort_rev_sorts]|]. split; [intros l; symmetry; apply Permutation_rev|lia].
Qed.

Definition wide_run (eps : Q) (s : list Z) (o : hdbscan_options) : res (list nat) :=
  clusters_of (m := float_metric) (inverse_line eps) (wide_env 2 (isort opt_lt)) s 1 (length s) o.
Notation fdist := (fun p q => Some (sq_dist p q)).

(** The samples of C90 and the same samples in a unit a thousand times smaller. *)
Definition finer : list Z := map (Z.mul 1000) uneven.
Definition million (d : option Z) : option Z := match d with Some z => Some (1000000 * z)%Z | None => None end.

Lemma finer_order : same_order opt_lt 7 (fun i => i) million (between fdist uneven 1) (between fdist finer 1).
Proof.
  split.
  - intros i j Hi Hj. do 7 (destruct i as [|i]; [do 7 (destruct j as [|j]; [vm_compute; reflexivity|]); lia|]); lia.
  - intros i j k l _ _ _ _. unfold between. cbn [million opt_lt].
    destruct (Z.ltb_spec (sq_dist (row uneven 1 i) (row uneven 1 j)) (sq_dist (row uneven 1 k) (row uneven 1 l)));
    destruct (Z.ltb_spec (1000000 * sq_dist (row uneven 1 i) (row uneven 1 j)) (1000000 * sq_dist (row uneven 1 k) (row uneven 1 l))); auto; lia.
Qed.

Example c100_case :
  metric_ok float_metric fdist /\ finite_metric float_metric fdist uneven 1 7 /\ finite_metric float_metric fdist finer 1 7 /\
  surroundings_ok (m := float_metric) (wide_env 2 (isort opt_lt)) uneven 1 7 /\
  surroundings_ok (m := float_metric) (wide_env 2 (isort opt_lt)) finer 1 7 /\
  renaming 7 (fun i => i) /\ same_order opt_lt 7 (fun i => i) million (between fdist uneven 1) (between fdist finer 1) /\
  no_ties opt_lt 7 (between fdist uneven 1) /\
  (forall i j, i < 7 -> j < 7 -> i <> j ->
     (inverse_line (1#2) (million (between fdist uneven 1 i j)) == (1#1000) * inverse_line (1#2) (between fdist uneven 1 i j))%Q) /\
  wide_run (1#2) uneven (Build_hdbscan_options 1 2 false true) = Ok [1; 1; 1; 2; 2; 2; 0] /\
  wide_run (1#2) finer (Build_hdbscan_options 1 2 false true) = Ok [1; 1; 1; 2; 2; 2; 0] /\
  wide_run (1000#1) finer (Build_hdbscan_options 1 2 true true) = wide_run (1000#1) uneven (Build_hdbscan_options 1 2 true true) /\
  (forall i j, i < 7 -> j < 7 -> i <> j -> (inverse_line (1000#1) (between fdist uneven 1 i j) == 0)%Q).
Proof.
  split; [exact float_metric_ok|]. split; [apply float_finite|]. split; [apply float_finite|].
  split; [apply (wide_env_ok 2 (isort opt_lt) uneven); [now left|repeat constructor; lia|simpl; lia|simpl; lia]|].
  split; [apply (wide_env_ok 2 (isort opt_lt) finer); [now left|repeat constructor; lia|simpl; lia|simpl; lia]|].
  split; [split; intros; auto|]. split; [apply finer_order|].
  split; [apply tie_free_ok; vm_compute; reflexivity|]. split.
  { intros i j Hi Hj Hij. do 7 (destruct i as [|i]; [do 7 (destruct j as [|j]; [try congruence; vm_compute; reflexivity|]); lia|]); lia. }
  split; [vm_compute; reflexivity|]. split; [vm_compute; reflexivity|]. split; [vm_compute; reflexivity|].
  intros i j Hi Hj Hij. do 7 (destruct i as [|i]; [do 7 (destruct j as [|j]; [try congruence; vm_compute; reflexivity|]); lia|]); lia.
Qed.

(** The unit matters when distances come near machine epsilon: the same samples in a larger unit, so that their distances
    are below epsilon, are one cluster. *)
Theorem c100_unit_of_the_data_refuted : exists samples c eps n e o labels labels',
  (1 < c)%Z /\ (0 < eps)%Q /\ no_ties opt_lt n (between fdist samples 1) /\
  finite_metric float_metric fdist samples 1 n /\ surroundings_ok (m := float_metric) e samples 1 n /\
  surroundings_ok (m := float_metric) e (map (Z.mul c) samples) 1 n /\ h_k_nearest_neighbors o <= 1 /\
  clusters_of (m := float_metric) (inverse_line eps) e samples 1 n o = Ok labels /\
  clusters_of (m := float_metric) (inverse_line eps) e (map (Z.mul c) samples) 1 n o = Ok labels' /\
  ~ same_partition n (fun i => i) labels labels'.
Proof.
  exists uneven, 1000%Z, (1000#1)%Q, 7, (wide_env 2 (isort opt_lt)), (Build_hdbscan_options 1 2 false true),
    [1; 1; 1; 1; 1; 1; 1], [1; 1; 1; 2; 2; 2; 0].
  split; [lia|]. split; [reflexivity|]. split; [apply tie_free_ok; vm_compute; reflexivity|]. split; [apply float_finite|].
  split; [apply (wide_env_ok 2 (isort opt_lt) uneven); [now left|repeat constructor; lia|simpl; lia|simpl; lia]|].
  split; [apply (wide_env_ok 2 (isort opt_lt) finer); [now left|repeat constructor; lia|simpl; lia|simpl; lia]|].
  split; [simpl; lia|]. split; [vm_compute; reflexivity|]. split; [vm_compute; reflexivity|].
  intros (_ & H). destruct (H 0 3) as (H1 & _); [lia|lia|]. specialize (H1 eq_refl). discriminate.
Qed.

Print Assumptions c100_levels_times_a_constant.
Print Assumptions c100_finest_clusters_ignore_levels.
Print Assumptions c100_densities_zero.
Print Assumptions c100_dendrograms_keep_their_shape.
Print Assumptions c100_hdbscan_change_of_unit.
Print Assumptions c100_hdbscan_finest_clusters.
Print Assumptions c100_distances_below_epsilon.
Print Assumptions c100_unit_of_the_data_refuted.
