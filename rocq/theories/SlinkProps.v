(** Theorems on single linkage trees (C25-C27). *)
From Coq Require Import List Arith ZArith Lia Bool Permutation Relations Sorted.
From Verif Require Import Base UnionFindModel UnionFindSpec UnionFindProofs BufferSpec BufferProofs
  GraphSpec GraphProofs SlinkModel SlinkSpec SlinkProofs.
Import ListNotations.

Section Perm.
Context {D : Type} (lt : D -> D -> bool).

Lemma linked_perm_up_to t (E E' : list (nat * nat * D)) i j : Permutation E E' ->
  linked (ends (up_to lt t E)) i j -> linked (ends (up_to lt t E')) i j.
Proof.
  intros HP. apply linked_mono. intros a b H. unfold ends, up_to in *. apply in_map_iff in H as (e & <- & H).
  apply in_map. apply filter_In in H as [H H']. apply filter_In. split; auto. eapply Permutation_in; eauto.
Qed.

Lemma spanning_perm n (E E' : list (nat * nat * D)) : Permutation E E' -> spanning_tree n E -> spanning_tree n E'.
Proof.
  intros HP (HL & HI & HC). repeat split.
  - now rewrite <- (Permutation_length HP).
  - intros. apply (HI a b w). eapply Permutation_in; [symmetry|]; eauto.
  - intros. apply (HI a b w). eapply Permutation_in; [symmetry|]; eauto.
  - intros i j Hi Hj. generalize (HC i j Hi Hj). apply linked_mono. intros a b H.
    unfold ends in *. eapply Permutation_in; [|exact H]. now apply Permutation_map.
Qed.
End Perm.

Section Slink.
Context {D : Type} (lt : D -> D -> bool) (zero inf : D) (Hlt : order_ok lt).
Context (sort : list (nat * nat * D) -> list (nat * nat * D)) (Hsort : sorts lt sort).
Context (order : list (nat * slink D) -> list (nat * slink D)) (Horder : forall l, Permutation (order l) l).
Context (n : nat) (edges : list (nat * nat * D)) (Hn : 1 <= n) (Hspan : spanning_tree n edges).

Lemma make_ok : exists root, make_slink sort order edges = Ok root /\ dendrogram lt root /\
    Permutation (leaves root) (seq 0 n) /\ sl_size root = length (leaves root) /\ In (sl_representative root) (leaves root) /\
    Permutation (levels root) (map snd edges) /\
    forall t i j, i < n -> j < n -> i <> j -> (joined_at lt root t i j <-> linked (ends (up_to lt t edges)) i j).
Proof.
  destruct (Hsort edges) as [HP HS].
  destruct (build_ok lt Hlt n order (sort edges) Horder Hn) as (root & F & HD & HL & Hsz & Hrep & Hlev & HJ); auto.
  { eapply spanning_perm; [symmetry; exact HP|auto]. }
  exists root. splits; auto.
  - rewrite Hlev. now apply Permutation_map.
  - intros t i j Hi Hj Hij. rewrite (HJ t i j Hi Hj Hij). split; apply linked_perm_up_to; auto. now symmetry.
Qed.

Theorem c25_slink_is_a_dendrogram : exists root, make_slink sort order edges = Ok root /\
  Permutation (leaves root) (seq 0 n) /\ sl_size root = n /\ dendrogram lt root /\ Permutation (levels root) (map snd edges).
Proof.
  destruct make_ok as (root & F & HD & HL & Hsz & Hrep & Hlev & _). exists root. splits; auto.
  rewrite Hsz, (Permutation_length HL). apply seq_length.
Qed.

Theorem c26_cut_gives_threshold_components root t i j : make_slink sort order edges = Ok root ->
  i < n -> j < n -> i <> j -> (joined_at lt root t i j <-> linked (ends (up_to lt t edges)) i j).
Proof. destruct make_ok as (root' & F & _ & _ & _ & _ & _ & H). rewrite F. intros E. inversion E; subst. apply H. Qed.

(** The label of a sample is that of the lowest node above it whose level reaches the cut. *)
Theorem c27_flat_labels_of_a_tree cut min : exists root labels,
  make_slink sort order edges = Ok root /\ extract_flat_slink lt zero cut min root = Ok labels /\ length labels = n /\
  forall i, i < n -> exists label, nth_error labels i = Some label /\
    ((exists s, lowest_at_least lt zero cut root i s /\
        label = (if sl_size s <? min then 0 else sl_representative s)) \/
     (none_at_least lt zero cut root i /\ label = sl_representative root)).
Proof.
  destruct make_ok as (root & F & HD & HL & Hsz & _). exists root. unfold extract_flat_slink.
  assert (Hlen : length (leaves root) = n) by (rewrite (Permutation_length HL); apply seq_length).
  destruct (flat_ok lt zero cut min root (sl_representative root) (repeat 0 (sl_size root))) as (fc & E & L & _ & V).
  - eapply Permutation_NoDup; [symmetry; exact HL|apply seq_NoDup].
  - intros x Hx. rewrite repeat_length, Hsz, Hlen. apply (Permutation_in _ HL), in_seq in Hx. lia.
  - exists fc. splits; auto.
    + rewrite L, repeat_length. congruence.
    + intros i Hi. destruct (V i) as (v & Hv & Hlab).
      { apply (Permutation_in _ (Permutation_sym HL)), in_seq. lia. }
      exists v. split; [exact Hv|exact Hlab].
Qed.

Theorem c27_default_cut_gives_one_label : lt zero inf = true -> (forall e, In e edges -> lt (snd e) inf = true) ->
  exists label labels, label < n /\
    (root <- make_slink sort order edges ;; extract_flat_slink lt zero (default_cut_level inf) default_min_cluster_size root)
      = Ok labels /\ labels = repeat label n.
Proof.
  intros Hz Hinf. destruct (c27_flat_labels_of_a_tree inf 1) as (root & labels & F & X & L & V).
  destruct make_ok as (root' & F' & HD & HL & Hsz & Hrep & Hlev & _). rewrite F in F'. inversion F'; subst root'.
  exists (sl_representative root), labels. unfold default_cut_level, default_min_cluster_size. rewrite F. cbn [bind]. splits; auto.
  { apply (Permutation_in _ HL), in_seq in Hrep. lia. }
  apply nth_error_ext. intros i. destruct (Nat.lt_ge_cases i n) as [Hi|Hi].
  - rewrite (nth_error_repeat _ Hi). destruct (V i Hi) as (v & -> & [(s & (Hd & _ & Hge & _) & _)|(_ & ->)]); auto.
    exfalso. destruct (descendant_level zero _ _ Hd) as [[k ->]|Hin].
    + simpl in Hge. congruence.
    + apply (Permutation_in _ Hlev), in_map_iff in Hin as (e & E & He). rewrite <- E, (Hinf e He) in Hge. discriminate.
  - rewrite (proj2 (nth_error_None _ _)), (proj2 (nth_error_None _ _)); auto; rewrite ?repeat_length; lia.
Qed.

(** [infinity<int>()] is 0, so for integers the default cut separates every sample. *)
Theorem c27_cut_at_zero_separates_all min : exists labels,
    (root <- make_slink sort order edges ;; extract_flat_slink lt zero zero min root) = Ok labels /\
    labels = if 1 <? min then repeat 0 n else seq 0 n.
Proof.
  destruct (c27_flat_labels_of_a_tree zero min) as (root & labels & F & X & L & V).
  destruct make_ok as (root' & F' & HD & HL & Hsz & Hrep & Hlev & _). rewrite F in F'. inversion F'; subst root'.
  rewrite F. cbn [bind]. exists labels. split; auto.
  assert (Hnd : NoDup (leaves root)) by (eapply Permutation_NoDup; [symmetry; exact HL|apply seq_NoDup]).
  assert (Leaf : forall i s, In i (leaves s) -> descendant s (@SLeaf D i)).
  { intros i. induction s as [k|k v m l IHl r IHr]; simpl; intros H.
    - destruct H as [->|[]]. constructor.
    - apply in_app_or in H as [H|H]; [apply desc_left|apply desc_right]; auto. }
  apply nth_error_ext. intros i. destruct (Nat.lt_ge_cases i n) as [Hi|Hi].
  - assert (Hir : In i (leaves root)) by (apply (Permutation_in _ (Permutation_sym HL)), in_seq; lia).
    assert (Low : lowest_at_least lt zero zero root i (SLeaf i)).
    { unfold lowest_at_least. splits; auto.
      - simpl; auto.
      - simpl. apply (lt_irrefl lt Hlt).
      - intros s' Hd _. inversion Hd; auto. }
    destruct (V i Hi) as (v & -> & [(s & Hs & ->)|(Hnone & _)]).
    + rewrite (lowest_unique lt zero zero root i s (SLeaf i) Hnd Hs Low). simpl. destruct min as [|[|min]]; simpl.
      * rewrite nth_error_nth' with (d := 0) by (rewrite seq_length; lia). rewrite seq_nth; auto.
      * rewrite nth_error_nth' with (d := 0) by (rewrite seq_length; lia). rewrite seq_nth; auto.
      * now rewrite nth_error_repeat.
    + exfalso. specialize (Hnone (SLeaf i) (Leaf i root Hir) (or_introl eq_refl)). simpl in Hnone.
      rewrite (lt_irrefl lt Hlt) in Hnone. discriminate.
  - rewrite (proj2 (nth_error_None _ _)), (proj2 (nth_error_None _ _)); auto; try lia.
    destruct (1 <? min); rewrite ?repeat_length, ?seq_length; lia.
Qed.

(** Samples connected by edges below the cut always share their label. *)
Theorem c27_connected_samples_share_labels cut min i j : lt zero cut = true -> i < n -> j < n ->
  linked (ends (below lt cut edges)) i j ->
  exists labels label,
    (root <- make_slink sort order edges ;; extract_flat_slink lt zero cut min root) = Ok labels /\
    nth_error labels i = Some label /\ nth_error labels j = Some label.
Proof.
  intros Hz Hi Hj HL0. destruct (c27_flat_labels_of_a_tree cut min) as (root & labels & F & X & L & V).
  destruct make_ok as (root' & F' & HD & HL & Hsz & Hrep & Hlev & HJ). rewrite F in F'. inversion F'; subst root'.
  rewrite F. cbn [bind]. exists labels.
  assert (Hnd : NoDup (leaves root)) by (eapply Permutation_NoDup; [symmetry; exact HL|apply seq_NoDup]).
  assert (One : forall a b, a < n -> b < n -> In (a, b) (ends (below lt cut edges)) -> nth_error labels a = nth_error labels b).
  { intros a b Ha Hb H. destruct (Nat.eq_dec a b) as [->|Hab]; auto.
    unfold ends, below in H. apply in_map_iff in H as ([[a' b'] w] & E & H). simpl in E. inversion E; subst a' b'.
    apply filter_In in H as [H Hw]. simpl in Hw.
    assert (J : joined_at lt root w a b).
    { apply HJ; auto. apply linked_in. unfold ends, up_to. apply in_map_iff. exists (a, b, w). split; auto.
      apply filter_In. split; auto. simpl. now rewrite (lt_irrefl lt Hlt). }
    destruct J as (k & v & m & l & r & Hd & Hwv & Hal & Hbl).
    destruct (V a Ha) as (va & -> & Hva). destruct (V b Hb) as (vb & -> & Hvb). f_equal.
    apply (labelled_same lt zero cut min (sl_representative root) root (SNode k v m l r) a b); auto.
    intros s Hs. destruct (descendant_level zero _ _ Hs) as [[x ->]|Hin]; [auto|].
    pose proof (dendrogram_descendant lt _ _ Hd HD) as (_ & _ & Hmono & _). simpl in Hin.
    destruct (lt (sl_level zero s) cut) eqn:Ecut; auto. exfalso.
    assert (Hwc : lt w cut = false); [|congruence].
    apply (le_trans _ Hlt) with v; [|exact Hwv]. apply (le_trans _ Hlt) with (sl_level zero s); auto.
    destruct Hin as [<-|Hin]; [apply (lt_irrefl lt Hlt)|auto]. }
  assert (All : nth_error labels i = nth_error labels j /\ j < n).
  { clear Hj. revert Hi. induction HL0 as [x y Hxy|x|x y Hxy IH|x y z H1 IH1 H2 IH2]; intros Hi.
    - assert (Hin : x < n /\ y < n).
      { unfold ends, below in Hxy. apply in_map_iff in Hxy as ([[a' b'] w] & E & H). simpl in E. inversion E; subst a' b'.
        apply filter_In in H as [H _]. destruct Hspan as (_ & HI & _). eauto. }
      destruct Hin. split; auto.
    - auto.
    - destruct (Nat.lt_ge_cases x n) as [Hy|Hy].
      + destruct (IH Hy) as [-> _]. auto.
      + exfalso. assert (G : forall a b, linked (ends (below lt cut edges)) a b -> b < n <-> a < n).
        { clear - Hspan. intros a b H. induction H as [x y Hxy|x|x y Hxy IH|x y z H1 IH1 H2 IH2]; try tauto.
          unfold ends, below in Hxy. apply in_map_iff in Hxy as ([[a' b'] w] & E & H). simpl in E. inversion E; subst a' b'.
          apply filter_In in H as [H _]. destruct Hspan as (_ & HI & _). destruct (HI _ _ _ H). tauto. }
        apply G in Hxy. lia.
    - destruct (IH1 Hi) as [-> Hy]. apply IH2. auto. }
  destruct All as [E _]. destruct (V j Hj) as (v & Hv & _). exists v. splits; auto. congruence.
Qed.
End Slink.

(** Concrete trees over Z; [isort] is a sort that keeps ties in order. *)
Theorem z_order_ok : order_ok Z.ltb.
Proof.
  split.
  - intros a b. rewrite Z.ltb_lt, Z.ltb_ge. lia.
  - intros a b c. rewrite !Z.ltb_ge. lia.
Qed.

Theorem isort_sorts : sorts Z.ltb (isort Z.ltb).
Proof.
  intros l. split; [apply isort_perm|]. pose proof (isort_asc Z.ltb z_order_ok l) as H.
  induction H as [|e l' H1 H2 IH]; constructor; auto. apply Forall_forall. intros x Hx. now apply H1.
Qed.

(** A path 0 - 1 - 2 - 3 - 4 with weights 5, 7, 5, 9, given out of order. *)
Definition path5 : list (nat * nat * Z) := [(1, 2, 7%Z); (0, 1, 5%Z); (3, 4, 9%Z); (2, 3, 5%Z)].

Lemma path5_spanning : spanning_tree 5 path5.
Proof.
  unfold spanning_tree; splits; auto.
  { intros a b w H; simpl in H; repeat (destruct H as [H|H]; [inversion H; subst; lia|]); destruct H. }
  assert (L : forall i, i < 5 -> linked (ends path5) 0 i).
  { assert (L1 : linked (ends path5) 0 1) by (apply linked_in; simpl; auto).
    assert (L2 : linked (ends path5) 0 2) by (eapply linked_trans; [exact L1|apply linked_in; simpl; auto]).
    assert (L3 : linked (ends path5) 0 3) by (eapply linked_trans; [exact L2|apply linked_in; simpl; auto]).
    assert (L4 : linked (ends path5) 0 4) by (eapply linked_trans; [exact L3|apply linked_in; simpl; auto]).
    intros [|[|[|[|[|i]]]]] Hi; auto; try lia. apply rst_refl. }
  intros i j Hi Hj. eapply linked_trans; [apply linked_sym; apply L; auto|apply L; auto].
Qed.


Definition path5_tree : slink Z :=
  SNode 0 9%Z 5 (SNode 0 7%Z 4 (SNode 0 5%Z 2 (SLeaf 0) (SLeaf 1)) (SNode 2 5%Z 2 (SLeaf 2) (SLeaf 3))) (SLeaf 4).

Example c25_case : 1 <= 5 /\ spanning_tree 5 path5 /\ sorts Z.ltb (isort Z.ltb) /\
  make_slink (isort Z.ltb) (@rev _) path5 = Ok path5_tree /\ leaves path5_tree = seq 0 5.
Proof. splits; [lia|apply path5_spanning|apply isort_sorts|vm_compute; reflexivity|reflexivity]. Qed.

Lemma path5_apart : ~ linked (ends (up_to Z.ltb 6%Z path5)) 0 2.
Proof.
  intros H. assert (G : forall x y, linked (ends (up_to Z.ltb 6%Z path5)) x y -> (x <? 2) = (y <? 2)).
  { induction 1 as [x y Hxy| | |]; try congruence. vm_compute in Hxy.
    repeat (destruct Hxy as [Hxy|Hxy]; [inversion Hxy; subst; reflexivity|]); destruct Hxy. }
  specialize (G _ _ H). discriminate.
Qed.

Example c26_case : make_slink (isort Z.ltb) (@rev _) path5 = Ok path5_tree /\
  joined_at Z.ltb path5_tree 6%Z 2 3 /\ ~ joined_at Z.ltb path5_tree 6%Z 0 2.
Proof.
  assert (E : make_slink (isort Z.ltb) (@rev _) path5 = Ok path5_tree) by (vm_compute; reflexivity).
  pose proof (fun t i j => c26_cut_gives_threshold_components Z.ltb z_order_ok (isort Z.ltb) isort_sorts (@rev _)
    (fun l => Permutation_sym (Permutation_rev l)) 5 path5 ltac:(lia) path5_spanning path5_tree t i j E) as H.
  splits; [exact E| |].
  - apply H; try lia. apply linked_in. vm_compute. auto.
  - rewrite H by lia. apply path5_apart.
Qed.

Definition path5_labels (cut : Z) (min : nat) : res (list nat) :=
  root <- make_slink (isort Z.ltb) (@rev _) path5 ;; extract_flat_slink Z.ltb 0%Z cut min root.

Example c27_case : path5_labels 4 1 = Ok [0; 0; 2; 2; 0] /\ path5_labels 4 3 = Ok [0; 0; 0; 0; 0] /\
  path5_labels 0 1 = Ok [0; 1; 2; 3; 4] /\ path5_labels 10 1 = Ok [0; 0; 0; 0; 0] /\
  lowest_at_least Z.ltb 0%Z 4%Z path5_tree 2 (SNode 2 5%Z 2 (SLeaf 2) (SLeaf 3)) /\
  linked (ends (below Z.ltb 6%Z path5)) 3 2.
Proof.
  splits; try (vm_compute; reflexivity).
  - unfold lowest_at_least. splits; try reflexivity.
    + apply desc_left, desc_right, desc_here.
    + simpl; auto.
    + intros s' H Hi. inversion H as [|? ? ? ? ? ? H'|? ? ? ? ? ? H']; subst; auto; right; inversion H'; subst; reflexivity.
  - apply linked_sym, linked_in. vm_compute. auto.
Qed.

(** Samples that no edges below the cut connect can share a label. *)
Theorem c27_labels_separate_components_refuted : exists n edges cut i j labels label,
  spanning_tree n edges /\ i < n /\ j < n /\ (0 < cut)%Z /\ ~ linked (ends (up_to Z.ltb cut edges)) i j /\
  (root <- make_slink (isort Z.ltb) (@rev _) edges ;; extract_flat_slink Z.ltb 0%Z cut default_min_cluster_size root) = Ok labels /\
  nth_error labels i = Some label /\ nth_error labels j = Some label.
Proof.
  exists 5, path5, 6%Z, 0, 2. eexists. exists 0. splits; try lia; [apply path5_spanning|apply path5_apart|vm_compute; reflexivity|reflexivity|reflexivity].
Qed.

(** Noise and the cluster represented by sample 0 are both labelled 0. *)
Theorem c27_noise_label_is_unambiguous_refuted : exists n edges cut min root labels i j s s',
  spanning_tree n edges /\ make_slink (isort Z.ltb) (@rev _) edges = Ok root /\
  extract_flat_slink Z.ltb 0%Z cut min root = Ok labels /\
  lowest_at_least Z.ltb 0%Z cut root i s /\ sl_size s < min /\
  lowest_at_least Z.ltb 0%Z cut root j s' /\ min <= sl_size s' /\
  nth_error labels i = Some 0 /\ nth_error labels j = Some 0.
Proof.
  exists 5, path5, 4%Z, 3, path5_tree, [0; 0; 0; 0; 0], 2, 4, (SNode 2 5%Z 2 (SLeaf 2) (SLeaf 3)), path5_tree.
  splits; try reflexivity; try apply path5_spanning; try (vm_compute; lia); try (vm_compute; reflexivity).
  - apply c27_case.
  - unfold lowest_at_least. splits; try reflexivity; [apply desc_here|simpl; tauto|].
    intros s' H Hi. inversion H as [|? ? ? ? ? ? H'|? ? ? ? ? ? H']; subst; auto.
    + exfalso. apply (descendant_leaves _ _ 4) in H'; auto. simpl in H'. lia.
    + right. inversion H'; subst; reflexivity.
Qed.

Print Assumptions c25_slink_is_a_dendrogram.
Print Assumptions c26_cut_gives_threshold_components.
Print Assumptions c27_flat_labels_of_a_tree.
Print Assumptions c27_default_cut_gives_one_label.
Print Assumptions c27_cut_at_zero_separates_all.
Print Assumptions c27_connected_samples_share_labels.
Print Assumptions c27_labels_separate_components_refuted.
Print Assumptions c27_noise_label_is_unambiguous_refuted.
