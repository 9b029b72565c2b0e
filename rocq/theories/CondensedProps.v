(** Theorems on condensed trees (C28-C32, C56). *)
From Coq Require Import List Arith ZArith QArith Lia Bool Permutation Lqa.
From Verif Require Import Base SlinkModel SlinkSpec SlinkProofs CondensedModel CondensedSpec CondensedProofs.
Import ListNotations.
Local Open Scope nat_scope.

Lemma count_at_least (labels : list nat) v (xs : list nat) : NoDup xs -> (forall x, In x xs -> nth_error labels x = Some v) ->
  length xs <= count_occ Nat.eq_dec labels v.
Proof.
  intros Hn H.
  assert (G : forall l off, length (filter (fun x => match nth_error l (x - off) with Some w => if Nat.eq_dec w v then true else false | None => false end) (seq off (length l))) = count_occ Nat.eq_dec l v).
  { induction l as [|w l IH]; intros off; [reflexivity|]. cbn [length seq filter count_occ]. rewrite Nat.sub_diag. cbn [nth_error].
    assert (E : filter (fun x => match nth_error (w :: l) (x - off) with Some w => if Nat.eq_dec w v then true else false | None => false end) (seq (S off) (length l)) =
                filter (fun x => match nth_error l (x - S off) with Some w => if Nat.eq_dec w v then true else false | None => false end) (seq (S off) (length l))).
    { apply filter_ext_in. intros x Hx. apply in_seq in Hx. replace (x - off) with (S (x - S off)) by lia. reflexivity. }
    rewrite E. destruct (Nat.eq_dec w v); simpl; rewrite IH; reflexivity. }
  rewrite <- (G labels 0). apply NoDup_incl_length; auto. intros x Hx. apply filter_In. specialize (H x Hx). split.
  - apply in_seq. pose proof (nth_error_lt _ _ _ H). lia.
  - rewrite Nat.sub_0_r, H. destruct (Nat.eq_dec v v); auto.
Qed.

Section Condensed.
Context {D : Type} (lt : D -> D -> bool) (inverse : D -> Q).
Context (root : slink D) (n : nat) (Hdend : dendrogram lt root) (Hleaves : Permutation (leaves root) (seq 0 n)).
Notation slink := (slink D).
Notation cnode := (cnode D).

Lemma root_sized : sized root.
Proof. eapply dendrogram_sized; eauto. Qed.

Lemma root_nodup : NoDup (leaves root).
Proof. eapply Permutation_NoDup; [symmetry; exact Hleaves|apply seq_NoDup]. Qed.

Lemma root_length : length (leaves root) = n.
Proof. rewrite (Permutation_length Hleaves). apply seq_length. Qed.

Lemma in_root x : In x (leaves root) <-> x < n.
Proof.
  split; intros H.
  - apply (Permutation_in _ Hleaves), in_seq in H. lia.
  - apply (Permutation_in _ (Permutation_sym Hleaves)), in_seq. lia.
Qed.

Notation tree min := (build_condensed inverse min root).

Lemma tree_root min : cn_root (tree min) = root.
Proof. apply condense_root. Qed.

Lemma tree_tree_ok min : tree_ok (tree min).
Proof. apply condense_ok. constructor. Qed.

Lemma tree_nodup min : NoDup (cleaves (tree min)).
Proof. unfold cleaves. rewrite tree_root. apply root_nodup. Qed.

(** The chosen nodes, by option. *)
Definition picked (o : condensed_options) : list cnode :=
  if return_leaf_nodes o then finals (tree (min_cluster_size o))
  else match tree (min_cluster_size o) with
       | CSplit _ _ _ _ l r => if allow_single_cluster o then snd (best (tree (min_cluster_size o))) else snd (best l) ++ snd (best r)
       | CLeaf _ _ _ _ => [tree (min_cluster_size o)]
       end.

Lemma make_picked o : exists cs, shallowest_selected (make_condensed inverse o root) = Ok cs /\
  map key cs = map key (picked o) /\ cn_root (make_condensed inverse o root) = root.
Proof.
  unfold make_condensed, picked. pose proof (condense_fresh inverse (min_cluster_size o) root root 0%Q 0%Q) as F.
  pose proof (tree_root (min_cluster_size o)) as R.
  unfold build_condensed in *. set (T := condense _ _ _ _ _ _) in *.
  destruct (return_leaf_nodes o).
  - rewrite (fresh_finals T F). eauto.
  - destruct (select_best T F) as (cs & E & K & _ & Hr & Hl).
    destruct T as [s m q b|s m q b l r] eqn:ET.
    + simpl. rewrite andb_false_r. simpl in *. subst b. eauto.
    + destruct (allow_single_cluster o).
      * destruct (select_subtree (CSplit s m q b l r)) as [x c] eqn:ES. cbn [negb andb]. cbn [fst snd] in *. exists cs. splits; auto. congruence.
      * destruct (select_children s m q b l r F) as (cs' & E' & K').
        destruct (select_subtree (CSplit s m q b l r)) as [x c] eqn:ES. cbn [fst snd] in *. rewrite Hl. cbn [negb andb cn_is_leaf].
        exists cs'. splits; auto. destruct c; simpl in *; congruence.
Qed.

Lemma picked_facts o : (forall c, In c (picked o) -> inside (tree (min_cluster_size o)) c) /\
  NoDup (flat_map cleaves (picked o)) /\ picked o <> [].
Proof.
  pose proof (tree_tree_ok (min_cluster_size o)) as H. pose proof (tree_nodup (min_cluster_size o)) as Hn.
  assert (Hex : forall T : cnode, exists f, inside T f /\ cn_is_leaf f = true).
  { induction T as [s m q b|s m q b l1 [f [H1 H2]] l2 _].
    - eexists. split; [constructor|reflexivity].
    - exists f. split; auto. now apply inside_left. }
  assert (Cov : forall (T : cnode) sel, covering T sel -> sel <> []).
  { intros T sel Hc ->. destruct (Hex T) as (f & Hf & Hl). destruct (Hc f Hf Hl) as (y & [] & _). }
  unfold picked. destruct (return_leaf_nodes o).
  - destruct (finals_facts _ H Hn) as [P Q]. splits; auto.
    + intros c Hc. now apply P.
    + destruct (Hex (tree (min_cluster_size o))) as (f & Hf & Hl). intros E. assert (In f []) by (rewrite <- E; apply P; auto). auto.
  - destruct (best_facts _ H Hn) as (B1 & B2 & B3 & _).
    destruct (tree (min_cluster_size o)) as [s m q b|s m q b l r] eqn:ET.
    + splits; [intros c [<-|[]]; constructor|simpl; rewrite app_nil_r; exact Hn|discriminate].
    + destruct (allow_single_cluster o); [splits; eauto|].
      pose proof H as (Hl & Hr & _). destruct (split_nodup _ _ _ _ _ _ H Hn) as (Nl & Nr & _).
      destruct (best_facts l Hl Nl) as (L1 & L2 & L3 & _). destruct (best_facts r Hr Nr) as (R1 & R2 & R3 & _). splits.
      * intros c Hc. apply in_app_or in Hc as [Hc|Hc]; [apply inside_left|apply inside_right]; auto.
      * eapply join_disjoint; eauto.
      * intros E. apply (Cov l (snd (best l)) L3). destruct (snd (best l)); auto. discriminate.
Qed.

Lemma flat_roots (cs : list cnode) : flat_map leaves (map cn_root cs) = flat_map cleaves cs.
Proof. induction cs as [|c cs IH]; simpl; [auto|]. unfold cleaves at 1. now rewrite IH. Qed.

Lemma roots_key (a b : list cnode) : map key a = map key b -> map cn_root a = map cn_root b.
Proof. intros H. apply (f_equal (map fst)) in H. rewrite !map_map in H. exact H. Qed.

Lemma labels_ok o : exists labels, extract_flat_condensed (make_condensed inverse o root) = Ok labels /\
  length labels = n /\ shows labels (map cn_root (picked o)) /\ flat_clustering (min_cluster_size o) root (map cn_root (picked o)).
Proof.
  destruct (make_picked o) as (cs & E & K & R). destruct (picked_facts o) as (P1 & P2 & P3).
  apply roots_key in K. unfold extract_flat_condensed. rewrite E. cbn [bind]. rewrite R.
  assert (F : flat_map cleaves cs = flat_map cleaves (picked o)) by (rewrite <- !flat_roots; congruence).
  assert (Hlt : forall x, In x (flat_map cleaves cs) -> x < n).
  { intros x Hx. rewrite F in Hx. apply in_root. rewrite <- (tree_root (min_cluster_size o)).
    apply (flat_inside (tree (min_cluster_size o)) (picked o)); auto. apply tree_tree_ok. }
  assert (Hsz : sl_size root = n) by (rewrite (sized_size root root_sized); apply root_length).
  destruct (fill_all cs 1 (repeat 0 (sl_size root))) as (fc & E1 & L1 & O1 & V1).
  { intros x Hx. rewrite repeat_length, Hsz. auto. }
  { rewrite F. auto. }
  rewrite E1. cbn [bind]. exists fc. splits; auto.
  - rewrite L1, repeat_length. auto.
  - rewrite <- K. split.
    + intros k s x Hk Hx. rewrite nth_error_map in Hk. destruct (nth_error cs k) as [c|] eqn:Ec; [|discriminate].
      simpl in Hk. inversion Hk; subst s. exact (V1 x k c Ec Hx).
    + intros x Hx Hno. rewrite O1.
      * rewrite L1, repeat_length in Hx. rewrite nth_error_repeat; auto.
      * intros Hin. apply in_flat_map in Hin as (c & Hc & Hxc). apply (Hno (cn_root c)); auto. now apply in_map.
  - split.
    + apply Forall_forall. intros s Hs. apply in_map_iff in Hs as (c & <- & Hc). apply (clusters_inside inverse); [apply root_sized|]. eauto.
    + rewrite flat_roots. auto.
Qed.

Theorem c28_condensed_labels_are_well_formed o : exists labels clusters,
  extract_flat_condensed (make_condensed inverse o root) = Ok labels /\ length labels = n /\
  shows labels clusters /\ flat_clustering (min_cluster_size o) root clusters /\ clusters <> [].
Proof.
  destruct (labels_ok o) as (labels & E & L & S & F). exists labels, (map cn_root (picked o)). splits; auto.
  destruct (picked_facts o) as (_ & _ & N). destruct (picked o); simpl; congruence.
Qed.

Lemma shows_label labels clusters x k : length labels = n -> shows labels clusters -> (forall s, In s clusters -> descendant root s) ->
  nth_error labels x = Some (S k) -> exists s, nth_error clusters k = Some s /\ In x (leaves s).
Proof.
  intros L (S1 & S2) Hd Hx. destruct (in_dec Nat.eq_dec x (flat_map leaves clusters)) as [Hi|Hi].
  - apply in_flat_map in Hi as (s & Hs & Hxs). apply In_nth_error in Hs as [j Hj].
    pose proof (S1 j s x Hj Hxs) as E. assert (j = k) by congruence. subst j. eauto.
  - rewrite S2 in Hx; [discriminate|apply nth_error_lt in Hx; lia|]. intros s Hs Hxs. apply Hi. apply in_flat_map. eauto.
Qed.

Lemma cluster_descendant min s : cluster_node min root s -> descendant root s.
Proof.
  intros [->|(i & v & m & l & r & Hd & _ & _ & [->| ->])]; [constructor| |]; eapply descendant_trans; try exact Hd;
    [apply desc_left|apply desc_right]; constructor.
Qed.

Theorem c29_clusters_are_not_too_small o : exists labels,
  extract_flat_condensed (make_condensed inverse o root) = Ok labels /\
  forall label, In label labels -> label <> 0 ->
    min_cluster_size o <= count_occ Nat.eq_dec labels label \/ labels = repeat 1 n.
Proof.
  destruct (labels_ok o) as (labels & E & L & S & F). exists labels. split; auto. intros label Hin Hne.
  destruct label as [|k]; [congruence|]. apply In_nth_error in Hin as [x Hx].
  destruct (shows_label labels _ x k L S) with (2 := Hx) as (s & Hs & Hxs).
  { intros s Hs. destruct F as [F _]. rewrite Forall_forall in F. eapply cluster_descendant; eauto. }
  assert (Hc : cluster_node (min_cluster_size o) root s).
  { destruct F as [F _]. rewrite Forall_forall in F. apply F. eapply nth_error_In; eauto. }
  destruct Hc as [->|(i & v & m & l & r & Hd & Hl & Hr & Es)].
  - right. destruct F as [_ F]. assert (Ek : nth_error (map cn_root (picked o)) 0 = Some root).
    { assert (In root (map cn_root (picked o))) as Hin by (eapply nth_error_In; eauto).
      destruct (map cn_root (picked o)) as [|s0 rest] eqn:EM; [destruct Hin|]. simpl. f_equal.
      destruct Hin as [->|Hin]; auto. exfalso. simpl in F. apply NoDup_app' in F as (_ & _ & Dis).
      destruct (leaves_some s0) as [y Hy]. apply (Dis y Hy). apply in_flat_map. exists root. split; auto. apply in_root.
      assert (Hy' : nth_error labels y = Some 1) by (apply (proj1 S 0 s0 y); auto). apply nth_error_lt in Hy'. lia. }
    apply nth_error_ext. intros y. destruct (Nat.lt_ge_cases y n) as [Hy|Hy].
    + rewrite nth_error_repeat by auto. apply (proj1 S 0 root y Ek). now apply in_root.
    + rewrite (proj2 (nth_error_None _ _)), (proj2 (nth_error_None _ _)); auto; rewrite ?repeat_length; lia.
  - left. assert (Hb : big (min_cluster_size o) s) by (destruct Es as [->| ->]; auto). eapply Nat.le_trans; [exact Hb|].
    apply count_at_least.
    + assert (descendant root s) by (eapply cluster_descendant; right; exists i, v, m, l, r; splits; eauto).
      eapply descendant_nodup; eauto. apply root_nodup.
    + intros y Hy. exact (proj1 S k s y Hs Hy).
Qed.

(** Total stability. *)
Lemma masses min (cs : list cnode) : (forall c, In c cs -> inside (tree min) c) ->
  Forall2 (mass inverse min root) (map cn_root cs) (map cn_stability cs).
Proof.
  induction cs as [|c cs IH]; intros H; simpl; constructor.
  - apply inside_mass; [apply root_sized|apply root_nodup|]. apply H. left. auto.
  - apply IH. intros; apply H; right; auto.
Qed.

Lemma back min (sel : list slink) q : Forall (cluster_node min root) sel -> total_mass inverse min root sel q ->
  exists cs, sel = map cn_root cs /\ (forall c, In c cs -> inside (tree min) c) /\ (q == total cs)%Q.
Proof.
  intros F (qs & M & Eq). revert q Eq. induction M as [|s q0 sel qs Hm M IH]; intros q Eq.
  - exists []. splits; auto. intros ? [].
  - inversion F as [|? ? Hs F']; subst. destruct (IH F' (qsum qs) (Qeq_refl _)) as (cs & E1 & E2 & E3).
    pose proof Hs as Hs'. apply (clusters_inside inverse) in Hs' as (c & Hc & Ec); [|apply root_sized].
    exists (c :: cs). splits.
    + simpl. congruence.
    + intros y [<-|Hy]; auto.
    + unfold total in *. simpl. rewrite Eq. simpl. rewrite E3.
      rewrite (mass_fun inverse min root s q0 (cn_stability c)); [reflexivity|apply root_nodup|eapply cluster_descendant; eauto|auto|].
      rewrite <- Ec. apply inside_mass; auto; [apply root_sized|apply root_nodup].
Qed.

Lemma finest_leaf min f : inside (tree min) f -> (cn_is_leaf f = true <-> finest min root (cn_root f)).
Proof.
  intros Hf. split.
  - intros Hl. split; [apply (clusters_inside inverse); [apply root_sized|eauto]|].
    intros s' Hs' Hd. apply (clusters_inside inverse) in Hs' as (c & Hc & <-); [|apply root_sized].
    destruct (leaves_some (cn_root c)) as [x Hx].
    destruct (inside_nested (tree min) f c x (tree_tree_ok min) (tree_nodup min) Hf Hc) as [H|H]; auto.
    + unfold cleaves. eapply descendant_leaves; eauto.
    + destruct f; [|discriminate]. inversion H; subst. auto.
    + apply descendant_antisym; auto. apply inside_descendant; auto. eapply inside_ok; [apply tree_tree_ok|eauto].
  - intros (_ & Hmin). destruct f as [|s m q b l r]; auto. exfalso.
    assert (Hl : inside (tree min) l) by (eapply inside_trans; [exact Hf|]; apply inside_left; constructor).
    assert (Hd : descendant s (cn_root l)).
    { apply (inside_descendant (CSplit s m q b l r) l); [eapply inside_ok; [apply tree_tree_ok|eauto]|]. apply inside_left; constructor. }
    assert (E : cn_root l = s). { apply Hmin; auto. apply (clusters_inside inverse); [apply root_sized|eauto]. }
    pose proof (inside_ok _ _ (tree_tree_ok min) Hf) as (_ & _ & i & v & k & Hd').
    assert (Len : forall a b : slink, descendant a b -> length (leaves b) <= length (leaves a)) by (induction 1; simpl; rewrite ?app_length; lia).
    apply Len in Hd'. simpl in Hd'. rewrite app_length in Hd'. pose proof (leaves_pos (cn_root r)). rewrite E in Hd'. lia.
Qed.

Lemma covers_covering min cs : (forall c, In c cs -> inside (tree min) c) -> covers_finest min root (map cn_root cs) -> covering (tree min) cs.
Proof.
  intros Hin Hc f Hf Hl. destruct (Hc (cn_root f)) as (s' & Hs' & Hd). { now apply (finest_leaf min). }
  apply in_map_iff in Hs' as (c & <- & Hcs). destruct (leaves_some (cn_root f)) as [x Hx].
  destruct (inside_nested (tree min) c f x (tree_tree_ok min) (tree_nodup min) (Hin c Hcs) Hf) as [H|H]; auto.
  - unfold cleaves. eapply descendant_leaves; eauto.
  - eauto.
  - destruct f; [|discriminate]. inversion H; subst. eauto.
Qed.

Theorem c30_selection_maximises_stability min : exists labels clusters q,
  extract_flat_condensed (make_condensed inverse
    {| min_cluster_size := min; allow_single_cluster := true; return_leaf_nodes := false |} root) = Ok labels /\
  shows labels clusters /\ flat_clustering min root clusters /\ covers_finest min root clusters /\
  total_mass inverse min root clusters q /\
  forall sel q', flat_clustering min root sel -> covers_finest min root sel -> total_mass inverse min root sel q' ->
    (q' <= q)%Q /\ ((q' == q)%Q -> length clusters <= length sel).
Proof.
  set (o := Build_condensed_options _ _ _). destruct (labels_ok o) as (labels & E & L & S & F).
  destruct (best_facts _ (tree_tree_ok min) (tree_nodup min)) as (B1 & B2 & B3 & B4).
  assert (EP : picked o = snd (best (tree min))).
  { unfold picked, o. cbn [return_leaf_nodes min_cluster_size allow_single_cluster]. destruct (tree min); reflexivity. }
  rewrite EP in *. exists labels, (map cn_root (snd (best (tree min)))), (fst (best (tree min))). splits; auto.
  - intros s Hs. pose proof (proj1 Hs) as Hs'. apply (clusters_inside inverse) in Hs' as (f & Hf & <-); [|apply root_sized].
    destruct (B3 f Hf) as (y & Hy & Hyf). { now apply (finest_leaf min). }
    exists (cn_root y). split; [now apply in_map|]. apply inside_descendant; auto. eapply inside_ok; [apply tree_tree_ok|auto].
  - exists (map cn_stability (snd (best (tree min)))). split; [apply masses; auto|]. rewrite <- B4. reflexivity.
  - intros sel q' (HF & HN) HC HM. destruct (back min sel q' HF HM) as (cs & -> & Hin & Eq).
    rewrite flat_roots in HN. destruct (best_is_best _ (tree_tree_ok min) (tree_nodup min) cs Hin HN) as [T1 T2].
    + now apply covers_covering.
    + rewrite !map_length. split; [lra|]. intros X. apply T2. lra.
Qed.

Theorem c30_best_of_all_disjoint_clusters min : (forall s q, cluster_node min root s -> mass inverse min root s q -> (0 <= q)%Q) ->
  exists labels clusters q,
  extract_flat_condensed (make_condensed inverse
    {| min_cluster_size := min; allow_single_cluster := true; return_leaf_nodes := false |} root) = Ok labels /\
  shows labels clusters /\ flat_clustering min root clusters /\ total_mass inverse min root clusters q /\
  forall sel q', flat_clustering min root sel -> total_mass inverse min root sel q' -> (q' <= q)%Q.
Proof.
  intros Hpos. set (o := Build_condensed_options _ _ _). destruct (labels_ok o) as (labels & E & L & S & F).
  destruct (best_facts _ (tree_tree_ok min) (tree_nodup min)) as (B1 & B2 & B3 & B4).
  assert (EP : picked o = snd (best (tree min))).
  { unfold picked, o. cbn [return_leaf_nodes min_cluster_size allow_single_cluster]. destruct (tree min); reflexivity. }
  rewrite EP in *. exists labels, (map cn_root (snd (best (tree min)))), (fst (best (tree min))). splits; auto.
  - exists (map cn_stability (snd (best (tree min)))). split; [apply masses; auto|]. rewrite <- B4. reflexivity.
  - intros sel q' (HF & HN) HM. destruct (back min sel q' HF HM) as (cs & -> & Hin & Eq). rewrite flat_roots in HN. rewrite Eq.
    apply best_any; auto; [apply tree_tree_ok|apply tree_nodup|]. intros y Hy. apply (Hpos (cn_root y)).
    + apply (clusters_inside inverse); [apply root_sized|eauto].
    + apply inside_mass; auto; [apply root_sized|apply root_nodup].
Qed.

Lemma tree_split_or_finest min : finest min root root \/ exists s m q b l r, tree min = CSplit s m q b l r.
Proof.
  destruct (tree min) as [s m q b|s m q b l r] eqn:E; [left|right; repeat eexists].
  rewrite <- (tree_root min) at 2. apply finest_leaf; [constructor|]. rewrite E. reflexivity.
Qed.

Theorem c30_best_without_the_whole_dendrogram min : ~ finest min root root -> exists labels clusters q,
  extract_flat_condensed (make_condensed inverse
    {| min_cluster_size := min; allow_single_cluster := false; return_leaf_nodes := false |} root) = Ok labels /\
  shows labels clusters /\ flat_clustering min root clusters /\ covers_finest min root clusters /\ ~ In root clusters /\
  total_mass inverse min root clusters q /\
  forall sel q', flat_clustering min root sel -> covers_finest min root sel -> ~ In root sel -> total_mass inverse min root sel q' ->
    (q' <= q)%Q /\ ((q' == q)%Q -> length clusters <= length sel).
Proof.
  intros Hnf. destruct (tree_split_or_finest min) as [?|(s & m & q & b & l & r & ET)]; [contradiction|].
  set (o := Build_condensed_options _ _ _). destruct (labels_ok o) as (labels & E & L & S & F).
  pose proof (tree_tree_ok min) as HT. pose proof (tree_nodup min) as HN. pose proof (tree_root min) as HR.
  destruct (picked_facts o) as (P1 & P2 & P3).
  assert (EP : picked o = snd (best l) ++ snd (best r)).
  { unfold picked, o. cbn [return_leaf_nodes min_cluster_size allow_single_cluster]. rewrite ET. reflexivity. }
  rewrite EP in *. assert (HT' : tree_ok (CSplit s m q b l r)) by (rewrite <- ET; auto).
  assert (HN' : NoDup (leaves s)) by (rewrite ET in HN; exact HN).
  pose proof HT' as (Hl & Hr & _). destruct (split_nodup _ _ _ _ _ _ HT' HN') as (Nl & Nr & Dis).
  destruct (best_facts l Hl Nl) as (L1 & L2 & L3 & L4). destruct (best_facts r Hr Nr) as (R1 & R2 & R3 & R4).
  assert (Small : forall y, inside l y \/ inside r y -> cn_root y <> root).
  { intros y Hy Ey. rewrite ET in HR. simpl in HR. pose proof HT' as (_ & _ & i & v & k & Hd).
    assert (Len : forall a b : slink, descendant a b -> length (leaves b) <= length (leaves a)) by (induction 1; simpl; rewrite ?app_length; lia).
    apply Len in Hd. simpl in Hd. rewrite app_length in Hd. pose proof (leaves_pos (cn_root r)). pose proof (leaves_pos (cn_root l)).
    destruct Hy as [Hy|Hy]; apply inside_descendant in Hy; auto; apply Len in Hy; rewrite Ey, <- HR in Hy; lia. }
  exists labels, (map cn_root (snd (best l) ++ snd (best r))), (fst (best l) + fst (best r))%Q. splits; auto.
  - intros t Ht. pose proof (proj1 Ht) as Ht'. apply (clusters_inside inverse) in Ht' as (f & Hf & <-); [|apply root_sized].
    pose proof (cover_join s m q b l r _ _ L3 R3) as Cov. rewrite <- ET in Cov.
    destruct (Cov f Hf) as (y & Hy & Hyf). { now apply (finest_leaf min). }
    exists (cn_root y). split; [now apply in_map|]. apply inside_descendant; auto. eapply inside_ok; [exact HT|auto].
  - intros Hin. apply in_map_iff in Hin as (y & Ey & Hy). apply (Small y); auto. apply in_app_or in Hy as [Hy|Hy]; auto.
  - exists (map cn_stability (snd (best l) ++ snd (best r))). split; [apply masses; auto|].
    rewrite <- L4, <- R4. rewrite map_app, qsum_app. reflexivity.
  - intros sel q' (HF & HND) HC Hno HM. destruct (back min sel q' HF HM) as (cs & -> & Hin & Eq).
    rewrite flat_roots in HND. apply covers_covering in HC; auto. rewrite ET in Hin, HC.
    destruct (sel_split s m q b l r cs HT' Hin HND) as [->|(a & a' & HP & Ha & Ha')].
    + exfalso. apply Hno. simpl. left. rewrite <- HR, ET. reflexivity.
    + destruct (sel_parts _ _ _ _ _ _ _ _ _ HT' HN' HND HC HP Ha Ha') as [Ca Ca']. destruct (perm_nodup_parts _ _ _ HND HP) as [Fa Fa'].
      destruct (best_is_best l Hl Nl a Ha Fa Ca) as [Tl Ll]. destruct (best_is_best r Hr Nr a' Ha' Fa' Ca') as [Tr Lr].
      assert (T : (total cs == total a + total a')%Q) by (rewrite (total_perm _ _ HP); apply total_app).
      split; [lra|]. intros X. rewrite !map_length, (Permutation_length HP), !app_length.
      assert (total a == fst (best l))%Q by lra. assert (total a' == fst (best r))%Q by lra.
      specialize (Ll ltac:(auto)). specialize (Lr ltac:(auto)). lia.
Qed.

Theorem c56_stability_is_excess_of_mass min s : cluster_node min root s ->
  exists c, inside (build_condensed inverse min root) c /\ cn_root c = s /\ mass inverse min root s (cn_stability c).
Proof.
  intros Hs. apply (clusters_inside inverse) in Hs as (c & Hc & <-); [|apply root_sized]. exists c. splits; auto.
  apply inside_mass; auto; [apply root_sized|apply root_nodup].
Qed.

(** C31. *)
Lemma departs_level min (s : slink) x v : departs min s x v -> In v (levels s).
Proof. induction 1; simpl; auto; right; apply in_or_app; auto. Qed.

Lemma desc_levels (s s' : slink) v : descendant s s' -> In v (levels s') -> In v (levels s).
Proof. induction 1; simpl; auto; intros; right; apply in_or_app; auto. Qed.

Theorem c31_stability_is_not_negative min s q :
  (forall a, In a (levels root) -> (0 <= inverse a)%Q) ->
  (forall a b, In a (levels root) -> In b (levels root) -> lt b a = false -> (inverse b <= inverse a)%Q) ->
  cluster_node min root s -> mass inverse min root s q -> (0 <= q)%Q.
Proof.
  intros Hpos Hanti Hc (b & Hb & H). destruct s as [i|i v m l r]; [lra|]. destruct H as (dep & Hdep & ->).
  set (s := SNode i v m l r) in *. pose proof (cluster_descendant min s Hc) as Hd.
  assert (G : forall xs, (forall x, In x xs -> In x (leaves s)) -> (0 <= qsum (map (fun x => inverse (dep x) - b) xs))%Q).
  { induction xs as [|x xs IH]; intros Hxs; [simpl; lra|]. cbn [map qsum fold_right]. change (fold_right Qplus 0%Q) with qsum.
    specialize (IH (fun y Hy => Hxs y (or_intror Hy))). assert (Hx : In x (leaves s)) by (apply Hxs; left; auto).
    pose proof (departs_level _ _ _ _ (Hdep x Hx)) as Hlev.
    assert (b <= inverse (dep x))%Q; [|lra].
    destruct Hb as [[_ ->]|(i' & v' & m' & l' & r' & Hd' & Es & ->)].
    - apply Hpos. eapply desc_levels; eauto.
    - pose proof (dendrogram_descendant lt _ _ Hd' Hdend) as (_ & _ & Hmono & _).
      apply Hanti.
      + eapply desc_levels; eauto.
      + eapply desc_levels; [exact Hd'|]. simpl. auto.
      + apply Hmono. apply in_or_app. destruct Es as [<-|<-]; auto. }
  apply G. auto.
Qed.

(** C32. *)
Theorem c32_single_cluster_option min : exists labels clusters,
  extract_flat_condensed (make_condensed inverse
    {| min_cluster_size := min; allow_single_cluster := false; return_leaf_nodes := false |} root) = Ok labels /\
  shows labels clusters /\
  (finest min root root -> clusters = [root] /\ labels = repeat 1 n) /\
  (~ finest min root root -> 2 <= length clusters).
Proof.
  set (o := Build_condensed_options _ _ _). destruct (labels_ok o) as (labels & E & L & S & F). exists labels, (map cn_root (picked o)).
  splits; auto.
  - intros Hf. assert (EP : map cn_root (picked o) = [root]).
    { unfold picked, o. cbn [return_leaf_nodes min_cluster_size allow_single_cluster].
      rewrite <- (tree_root min) in Hf at 2. apply finest_leaf in Hf; [|constructor].
      pose proof (tree_root min). destruct (tree min); [|discriminate]. simpl in *. congruence. }
    split; auto. rewrite EP in S. apply nth_error_ext. intros y. destruct (Nat.lt_ge_cases y n) as [Hy|Hy].
    + rewrite nth_error_repeat by auto. apply (proj1 S 0 root y eq_refl). now apply in_root.
    + rewrite (proj2 (nth_error_None _ _)), (proj2 (nth_error_None _ _)); auto; rewrite ?repeat_length; lia.
  - intros Hnf. rewrite map_length. destruct (tree_split_or_finest min) as [?|(s & m & q & b & l & r & ET)]; [contradiction|].
    unfold picked, o. cbn [return_leaf_nodes min_cluster_size allow_single_cluster]. rewrite ET, app_length.
    assert (P : forall c : cnode, 1 <= length (snd (best c))).
    { induction c; simpl; auto. destruct (negb _); simpl; rewrite ?app_length; lia. }
    pose proof (P l). pose proof (P r). lia.
Qed.

Theorem c32_leaf_option min allow : exists labels clusters,
  extract_flat_condensed (make_condensed inverse
    {| min_cluster_size := min; allow_single_cluster := allow; return_leaf_nodes := true |} root) = Ok labels /\
  shows labels clusters /\ NoDup clusters /\ forall s, In s clusters <-> finest min root s.
Proof.
  set (o := Build_condensed_options _ _ _). destruct (labels_ok o) as (labels & E & L & S & F). exists labels, (map cn_root (picked o)).
  destruct (finals_facts _ (tree_tree_ok min) (tree_nodup min)) as [P Q].
  assert (EP : picked o = finals (tree min)) by reflexivity. rewrite EP in *. splits; auto.
  - destruct F as [_ F]. revert F. generalize (map cn_root (finals (tree min))). intros cl. induction cl as [|s cl IH]; simpl; intros F; constructor.
    + intros Hin. apply NoDup_app' in F as (_ & _ & Dis). destruct (leaves_some s) as [x Hx]. apply (Dis x Hx). apply in_flat_map. eauto.
    + apply IH. apply NoDup_app' in F. tauto.
  - intros s. rewrite in_map_iff. split.
    + intros (c & <- & Hc). apply P in Hc as [H1 H2]. now apply (finest_leaf min).
    + intros Hf. pose proof (proj1 Hf) as Hs. apply (clusters_inside inverse) in Hs as (c & Hc & <-); [|apply root_sized].
      exists c. split; auto. apply P. split; auto. now apply (finest_leaf min).
Qed.
End Condensed.

(** Floating-point and integer levels. *)
Definition qlt (a b : Q) : bool := negb (Qle_bool b a).

Lemma inverse_float_large eps v : (0 <= eps)%Q -> (eps < v)%Q -> (inverse_float eps v == 1 / v)%Q.
Proof.
  intros He Hv. unfold inverse_float. destruct (Qle_bool (Qabs.Qabs (0 - v)) eps) eqn:E; [|reflexivity]. exfalso.
  apply Qle_bool_iff in E. assert (Qabs.Qabs (0 - v) == v)%Q as X.
  { rewrite Qabs.Qabs_neg by lra. ring. }
  rewrite X in E. lra.
Qed.

Theorem c31_float_levels eps root n min s q : dendrogram qlt root -> Permutation (leaves root) (seq 0 n) ->
  (0 <= eps)%Q -> (forall v, In v (levels root) -> (eps < v)%Q) ->
  cluster_node min root s -> mass (inverse_float eps) min root s q -> (0 <= q)%Q.
Proof.
  intros Hd Hl He Hv. apply (c31_stability_is_not_negative qlt); auto.
  - intros a Ha. rewrite (inverse_float_large eps a He (Hv a Ha)). specialize (Hv a Ha).
    apply Qle_shift_div_l; lra.
  - intros a b Ha Hb Hab. rewrite (inverse_float_large eps a He (Hv a Ha)), (inverse_float_large eps b He (Hv b Hb)).
    pose proof (Hv a Ha). pose proof (Hv b Hb). unfold qlt in Hab. apply negb_false_iff, Qle_bool_iff in Hab.
    apply Qle_shift_div_l; [lra|]. assert (1 / b * a == a / b)%Q as -> by (field; lra). apply Qle_shift_div_r; lra.
Qed.

Theorem c31_integer_levels root n min s q : dendrogram Z.ltb root -> Permutation (leaves root) (seq 0 n) ->
  (forall v, In v (levels root) -> (0 < v)%Z) ->
  cluster_node min root s -> mass inverse_int min root s q -> (0 <= q)%Q.
Proof.
  assert (I : forall v, (0 < v)%Z -> inverse_int v = if (v =? 1)%Z then 1%Q else 0%Q).
  { intros v Hv. unfold inverse_int. destruct (Z.eqb_spec v 0) as [->|]; [lia|]. destruct (Z.eqb_spec v 1) as [->|]; [reflexivity|].
    rewrite Z.quot_small by lia. reflexivity. }
  intros Hd Hl Hv. apply (c31_stability_is_not_negative Z.ltb); auto.
  - intros a Ha. rewrite (I a (Hv a Ha)). destruct (a =? 1)%Z; lra.
  - intros a b Ha Hb Hab. rewrite (I a (Hv a Ha)), (I b (Hv b Hb)). apply Z.ltb_ge in Hab. specialize (Hv a Ha).
    destruct (Z.eqb_spec a 1), (Z.eqb_spec b 1); try lra. exfalso. lia.
Qed.

(** Two groups of three and two samples and an outlier. *)
Definition groups : slink Q :=
  SNode 0 10%Q 6 (SNode 0 4%Q 5 (SNode 0 1%Q 3 (SNode 0 (1#2)%Q 2 (SLeaf 0) (SLeaf 1)) (SLeaf 2))
                                (SNode 3 1%Q 2 (SLeaf 3) (SLeaf 4))) (SLeaf 5).

Lemma groups_dendrogram : dendrogram qlt groups.
Proof.
  simpl. splits; auto; try (intros x H; repeat (destruct H as [<-|H]; [reflexivity|]); destruct H); tauto.
Qed.

Definition group_labels (min : nat) (allow leaf : bool) : res (list nat) :=
  extract_flat_condensed (make_condensed (inverse_float (1#1000)) (Build_condensed_options min allow leaf) groups).

Example c28_case : dendrogram qlt groups /\ Permutation (leaves groups) (seq 0 6) /\
  group_labels 2 false false = Ok [1; 1; 1; 2; 2; 0] /\ group_labels 2 true false = Ok [1; 1; 1; 2; 2; 0] /\
  group_labels 1 false true = Ok [1; 2; 3; 4; 5; 6] /\ group_labels 4 false false = Ok [1; 1; 1; 1; 1; 1].
Proof. splits; [apply groups_dendrogram|reflexivity|vm_compute; reflexivity..]. Qed.

Example c29_case : group_labels 2 false false = Ok [1; 1; 1; 2; 2; 0] /\ count_occ Nat.eq_dec [1; 1; 1; 2; 2; 0] 2 = 2 /\
  group_labels 9 false false = Ok (repeat 1 6).
Proof. splits; vm_compute; reflexivity. Qed.

Lemma groups_departs : forall x, In x [0; 1; 2] ->
  departs 2 (SNode 0 1%Q 3 (SNode 0 (1#2)%Q 2 (SLeaf 0) (SLeaf 1)) (SLeaf 2)) x (if x =? 2 then 1%Q else (1#2)%Q).
Proof.
  intros x Hx. simpl in Hx. destruct Hx as [<-|[<-|[<-|[]]]]; cbn [Nat.eqb].
  - apply stays_left; [unfold big; simpl; lia|unfold big; simpl; lia|]. apply departs_left; [unfold big; simpl; lia|simpl; auto].
  - apply stays_left; [unfold big; simpl; lia|unfold big; simpl; lia|]. apply departs_right; [unfold big; simpl; lia|simpl; auto].
  - apply departs_right; [unfold big; simpl; lia|simpl; auto].
Qed.

(** The left group: its samples leave at 2, 2 and 1, it appears at 1/4. *)
Example c56_case : cluster_node 2 groups (SNode 0 1%Q 3 (SNode 0 (1#2)%Q 2 (SLeaf 0) (SLeaf 1)) (SLeaf 2)) /\
  mass (inverse_float (1#1000)) 2 groups (SNode 0 1%Q 3 (SNode 0 (1#2)%Q 2 (SLeaf 0) (SLeaf 1)) (SLeaf 2)) (17#4)%Q.
Proof.
  assert (Hd : descendant groups (SNode 0 4%Q 5 (SNode 0 1%Q 3 (SNode 0 (1#2)%Q 2 (SLeaf 0) (SLeaf 1)) (SLeaf 2))
                                (SNode 3 1%Q 2 (SLeaf 3) (SLeaf 4)))) by (apply desc_left, desc_here).
  split.
  - right. repeat eexists; [exact Hd| | |left; reflexivity]; unfold big; simpl; lia.
  - exists (1#4)%Q. split.
    + right. do 5 eexists. split; [exact Hd|]. split; [left; reflexivity|]. reflexivity.
    + exists (fun x => if x =? 2 then 1%Q else (1#2)%Q). split; [apply groups_departs|]. vm_compute. reflexivity.
Qed.

(** Both groups together weigh more than the whole. *)
Example c30_case : group_labels 2 true false = Ok [1; 1; 1; 2; 2; 0] /\
  ~ finest 2 groups groups /\ (forall v, In v (levels groups) -> ((1#1000) < v)%Q) /\
  (fst (select_subtree (build_condensed (inverse_float (1#1000)) 2 groups)) == 23#4)%Q /\
  (cn_stability (build_condensed (inverse_float (1#1000)) 2 groups) == 27#20)%Q.
Proof.
  splits; try (vm_compute; reflexivity).
  - intros (_ & H). destruct c56_case as [Hc _]. specialize (H _ Hc ltac:(apply desc_left, desc_left, desc_here)). discriminate.
  - intros v H. simpl in H. repeat (destruct H as [<-|H]; [reflexivity|]). destruct H.
Qed.

Example c31_case : (0 <= 1#1000)%Q /\ (forall v, In v (levels groups) -> ((1#1000) < v)%Q) /\
  mass (inverse_float (1#1000)) 2 groups (SNode 0 1%Q 3 (SNode 0 (1#2)%Q 2 (SLeaf 0) (SLeaf 1)) (SLeaf 2)) (17#4)%Q.
Proof. splits; [discriminate|apply c30_case|apply c56_case]. Qed.

Example c32_case : group_labels 2 false false = Ok [1; 1; 1; 2; 2; 0] /\ group_labels 3 false false = Ok [1; 1; 1; 1; 1; 1] /\
  group_labels 2 false true = Ok [1; 1; 1; 2; 2; 0] /\ finest 2 groups (SNode 3 1%Q 2 (SLeaf 3) (SLeaf 4)).
Proof.
  splits; try (vm_compute; reflexivity).
  assert (E : inside (build_condensed (inverse_float (1#1000)) 2 groups) (CLeaf (SNode 3 1%Q 2 (SLeaf 3) (SLeaf 4)) (1#4)%Q
            (cn_stability (condense (inverse_float (1#1000)) 2 (SNode 3 1%Q 2 (SLeaf 3) (SLeaf 4)) (1#4)%Q 0 (SNode 3 1%Q 2 (SLeaf 3) (SLeaf 4)))) true)).
  { apply inside_right. vm_compute. apply inside_here. }
  pose proof (proj1 (finest_leaf qlt (inverse_float (1#1000)) groups 6 groups_dendrogram (Permutation_refl _) 2 _ E) eq_refl) as H. exact H.
Qed.

(** With duplicate samples (level 0) a cluster can have negative stability. *)
Definition duplicates : slink Q := SNode 0 1%Q 4 (SNode 0 0%Q 2 (SLeaf 0) (SLeaf 1)) (SNode 2 0%Q 2 (SLeaf 2) (SLeaf 3)).

Theorem c31_zero_levels_refuted : exists eps root n min s q,
  (0 <= eps)%Q /\ dendrogram qlt root /\ Permutation (leaves root) (seq 0 n) /\ (forall v, In v (levels root) -> (0 <= v)%Q) /\
  cluster_node min root s /\ mass (inverse_float eps) min root s q /\ (q < 0)%Q.
Proof.
  assert (Hd : dendrogram qlt duplicates).
  { simpl. splits; auto; try (intros x H; repeat (destruct H as [<-|H]; [reflexivity|]); destruct H); tauto. }
  assert (Hc : cluster_node 2 duplicates (SNode 0 0%Q 2 (SLeaf 0) (SLeaf 1))).
  { right. repeat eexists; [apply desc_here| | |left; reflexivity]; unfold big; simpl; lia. }
  exists (1#1000)%Q, duplicates, 4, 2, (SNode 0 0%Q 2 (SLeaf 0) (SLeaf 1)), (-2)%Q. splits; auto.
  - discriminate.
  - intros v H. simpl in H. repeat (destruct H as [<-|H]; [discriminate|]). destruct H.
  - exists 1%Q. split.
    + right. do 5 eexists. split; [apply desc_here|]. split; [left; reflexivity|]. reflexivity.
    + exists (fun _ => 0%Q). split; [|vm_compute; reflexivity]. intros x Hx. simpl in Hx. destruct Hx as [<-|[<-|[]]].
      * apply departs_left; [unfold big; simpl; lia|simpl; auto].
      * apply departs_right; [unfold big; simpl; lia|simpl; auto].
  - reflexivity.
Qed.

Print Assumptions c28_condensed_labels_are_well_formed.
Print Assumptions c29_clusters_are_not_too_small.
Print Assumptions c30_selection_maximises_stability.
Print Assumptions c30_best_of_all_disjoint_clusters.
Print Assumptions c30_best_without_the_whole_dendrogram.
Print Assumptions c31_stability_is_not_negative.
Print Assumptions c31_float_levels.
Print Assumptions c31_integer_levels.
Print Assumptions c31_zero_levels_refuted.
Print Assumptions c32_single_cluster_option.
Print Assumptions c32_leaf_option.
Print Assumptions c56_stability_is_excess_of_mass.
