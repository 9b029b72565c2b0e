(** Property C96: DBSCAN and the cut of the dendrogram at its radius. *)
From Coq Require Import List Arith ZArith Lia Bool Permutation Relations.
From Verif Require Import Base SortingModel SortingSpec BoundsModel BoundsSpec BoundsProofs
  UnionFindModel UnionFindSpec UnionFindProofs BufferModel BufferSpec BufferProofs
  BufferProps KDTreeModel KDTreeSpec KDTreeProofs KDTreeProps SearchModel SearchSpec SearchProofs SearchProps
  GraphSpec GraphProofs BoruvkaSpec BoruvkaModel BoruvkaProofs BoruvkaProps SlinkModel SlinkSpec SlinkProofs SlinkProps
  DbscanModel DbscanSpec DbscanProofs DbscanProps CutProofs.
Import ListNotations.

Notation fdist := (fun p q => Some (sq_dist p q)).

(** The run of both algorithms on one dataset. *)
Section Run.
Context (m : metric) (dist : list Z -> list Z -> m_dist m) (Hm : metric_ok m dist).
Context (tol : Z) (samples : list Z) (nf n bucket max_depth : nat) (policy : list bool -> list nat -> nat -> aabb -> nat).
Context (lowest max : Z) (center : segment -> Z) (o : dbscan_options (m_dist m)).
Context (Hf : finite_metric m dist samples nf n) (Hi : whole_input tol samples nf n policy lowest max).
Context (Hfit : (Z.of_nat n < 2 ^ 64)%Z) (Hself : forall p, m_lt m (dist p p) (d_radius o) = true).
Notation near := (in_ball (m_lt m) dist samples nf (d_radius o)).
Notation core := (core n near (d_min_samples o)).

Lemma near_sym i j : near i j = near j i.
Proof using Hf. unfold in_ball. f_equal. apply Hf. Qed.

Lemma near_self i : near i i = true.
Proof using Hself. apply Hself. Qed.

Lemma dbscan_run tree : make_kdtree tol samples nf bucket max_depth policy lowest max center (seq 0 n) = Ok tree ->
  exists labels, dbscan_predict m samples nf tree o = Ok labels /\ length labels = n /\
    (forall i j, i < n -> j < n -> core i = true -> core j = true ->
      exists a b, nth_error labels i = Some a /\ nth_error labels j = Some b /\ a <> 0 /\
        (a = b <-> dense n near (d_min_samples o) i j)) /\
    (forall x label, x < n -> nth_error labels x = Some label -> label <> 0 -> core x = false ->
      exists y, y < n /\ core y = true /\ near y x = true).
Proof using Hm Hf Hi Hfit Hself.
  intros E. pose proof (whole_nf _ _ _ _ _ _ _ Hi) as Hdiv. destruct Hi as (Ht & HL).
  assert (Hw : whole_index samples nf (seq 0 n)) by (unfold whole_index; rewrite Hdiv; apply Permutation_refl).
  assert (Hb : balls_complete m dist samples (length samples / nf) (seq 0 n) (d_radius o)).
  { right. split; auto. intros i Hin. apply in_seq. lia. }
  assert (Hlen : (Z.of_nat (length (seq 0 n)) < 2 ^ 64)%Z) by (rewrite seq_length; exact Hfit).
  destruct (c35_core_samples_by_density_connectivity m dist tol samples nf bucket max_depth policy lowest max center (seq 0 n) o
    Hm (proj1 Hf) Ht Hw Hlen Hb) as (t1 & labels & E1 & P1 & H35).
  destruct (c36_border_and_noise m dist tol samples nf bucket max_depth policy lowest max center (seq 0 n) o
    Hm Ht (seq_NoDup n 0) Hlen Hb) as (t2 & labels2 & E2 & P2 & H36).
  destruct (c37_result_covers_the_whole_dataset m dist tol samples nf bucket max_depth policy lowest max center (seq 0 n) o
    Hm Ht (seq_NoDup n 0) Hlen Hb) as (t3 & labels3 & E3 & P3 & H37).
  assert (t1 = tree) by congruence. assert (t2 = tree) by congruence. assert (t3 = tree) by congruence. subst t1 t2 t3.
  assert (labels2 = labels) by congruence. assert (labels3 = labels) by congruence. subst labels2 labels3.
  rewrite Hdiv in *. exists labels. splits; auto.
  assert (Hnear : forall i j, j < n -> indexed (seq 0 n) near i j = near i j).
  { intros i j Hj. unfold indexed. rewrite (proj2 (existsb_in j (seq 0 n))); auto. apply in_seq. lia. }
  assert (Hcore : forall i, DbscanSpec.core n (indexed (seq 0 n) near) (d_min_samples o) i = core i).
  { intros i. unfold DbscanSpec.core. do 2 f_equal. apply filter_ext_in. intros j Hj. apply in_seq in Hj. apply Hnear. lia. }
  intros x label Hx Hl Hne Hc. destruct (H36 x label Hl) as (_ & H). destruct H as (y & Hy & Hyc & Hyn); auto.
  { now rewrite Hcore. }
  assert (Hyl : y < n). { rewrite <- H37. apply nth_error_Some. congruence. }
  rewrite Hcore in Hyc. rewrite Hnear in Hyn by auto. exists y. auto.
Qed.

Context (oc : nat -> list (nat * list nat) -> list (nat * list nat)) (oe : nat -> list (nat * edge m) -> list (nat * edge m)).
Hypothesis Hoc : permuting oc.
Hypothesis Hoe : permuting oe.
Context (sort : list (nat * nat * m_dist m) -> list (nat * nat * m_dist m)) (Hsort : sorts (m_lt m) sort).
Context (order : list (nat * slink (m_dist m)) -> list (nat * slink (m_dist m))) (Horder : forall l, Permutation (order l) l).

Lemma same_label labels i j : i < n -> j < n -> core i = true -> core j = true ->
  (forall i j, i < n -> j < n -> core i = true -> core j = true ->
      exists a b, nth_error labels i = Some a /\ nth_error labels j = Some b /\ a <> 0 /\
        (a = b <-> dense n near (d_min_samples o) i j)) ->
  ((exists label, label <> 0 /\ nth_error labels i = Some label /\ nth_error labels j = Some label) <->
   dense n near (d_min_samples o) i j).
Proof.
  intros Hin Hj Ci Cj H. destruct (H i j Hin Hj Ci Cj) as (a & b & Ha & Hb & Ha0 & Hab). split.
  - intros (l & Hl & H1 & H2). apply Hab. congruence.
  - intros Hd. apply Hab in Hd. subst b. exists a. auto.
Qed.

(** One neighbour. *)
Lemma exact_run fuel k : 1 <= n -> k <= 1 -> n <= S fuel -> d_min_samples o <= 1 ->
  exists tree mst root labels,
    make_kdtree tol samples nf bucket max_depth policy lowest max center (seq 0 n) = Ok tree /\
    make_tree m samples nf tree oc oe fuel k = Ok mst /\ make_slink sort order mst = Ok root /\
    dbscan_predict m samples nf tree o = Ok labels /\ length labels = n /\
    (forall i j, i < n -> j < n -> i <> j ->
      ((exists label, label <> 0 /\ nth_error labels i = Some label /\ nth_error labels j = Some label) <->
       joined_below (m_lt m) (d_radius o) root i j)) /\
    (forall i, i < n -> (nth_error labels i = Some 0 <->
       d_min_samples o = 1 /\ forall j, j < n -> j <> i -> ~ joined_below (m_lt m) (d_radius o) root i j)).
Proof using Hm Hf Hi Hfit Hself Hoc Hoe Hsort Horder.
  intros Hn Hk Hfuel Hmin. pose proof (mo_order m dist Hm) as Ho.
  destruct (c20_boruvka_returns_a_spanning_tree m dist tol samples nf n bucket max_depth policy lowest max center oc oe k fuel)
    as (tree & mst & E & Em & T & Hw); auto; try lia.
  destruct (c22_tree_carries_single_linkage m dist tol samples nf n bucket max_depth policy lowest max center oc oe k fuel)
    as (tree' & mst' & E' & Em' & H22); auto; try lia.
  assert (tree' = tree) by congruence. subst tree'. assert (mst' = mst) by congruence. subst mst'.
  destruct (make_ok (m_lt m) Ho sort Hsort order Horder n mst Hn T) as (root & Es & HD & HL & _ & _ & _ & HJ).
  destruct (dbscan_run tree E) as (labels & El & Ll & H35 & H36).
  exists tree, mst, root, labels.
  assert (Hjoin : forall i j, i < n -> j < n -> i <> j ->
    (joined_below (m_lt m) (d_radius o) root i j <-> linked (ends (below (m_lt m) (d_radius o) mst)) i j)).
  { intros i j Hin Hj Hij. apply (below_joined (m_lt m) Ho (d_radius o) n); auto. }
  assert (Hnear : forall i j, i < n -> j < n -> near i j = true -> linked (ends (below (m_lt m) (d_radius o) mst)) i j).
  { intros i j Hin Hj Hij. apply (below_up_to (m_lt m) Ho (d_radius o) (between dist samples nf i j)).
    - unfold between. rewrite (proj1 Hf). exact Hij.
    - apply H22; auto. apply reach_step with j; auto; [now apply (lt_irrefl _ Ho)|now constructor]. }
  assert (Hcorep : forall i j, i < n -> j < n -> i <> j -> near i j = true -> core i = true).
  { intros i j Hin Hj Hij Hnr. apply (two_near n near (d_min_samples o) i j); auto. apply near_self. }
  assert (Hedge : forall a b, In (a, b) (ends (below (m_lt m) (d_radius o) mst)) ->
     a <> b -> a < n /\ b < n /\ core a = true /\ core b = true /\ near a b = true).
  { intros a b Hab Hne. unfold ends, below in Hab. apply in_map_iff in Hab as ([[a' b'] w] & Ee & Hin).
    cbn [fst] in Ee. inversion Ee; subst a' b'. apply filter_In in Hin as (Hin & Hwr). cbn [snd] in Hwr.
    destruct T as (_ & TI & _). destruct (TI a b w Hin) as (Ha & Hb).
    assert (near a b = true). { unfold in_ball. rewrite (proj1 Hf). rewrite (proj1 (Hw a b w Hin) Hk) in Hwr. exact Hwr. }
    splits; auto; [apply (Hcorep a b)|apply (Hcorep b a)]; auto. now rewrite near_sym. }
  assert (Hdense : forall i j, linked (ends (below (m_lt m) (d_radius o) mst)) i j -> i = j \/ dense n near (d_min_samples o) i j).
  { intros i j H.
    apply (links_dense n near (d_min_samples o) (fun i j _ _ => near_sym i j)
      (filter (fun e => negb (fst e =? snd e)) (ends (below (m_lt m) (d_radius o) mst)))).
    - intros a b Hab. apply filter_In in Hab as (Hab & Hne). cbn [fst snd] in Hne. apply negb_true_iff, Nat.eqb_neq in Hne.
      apply Hedge; auto.
    - apply (linked_sub _ _ _ _ H). intros a b Hab. destruct (Nat.eq_dec a b) as [->|Hne]; [apply rst_refl|].
      apply linked_in. apply filter_In. split; auto. cbn [fst snd]. now apply negb_true_iff, Nat.eqb_neq. }
  assert (Hback : forall i j, dense n near (d_min_samples o) i j -> linked (ends (below (m_lt m) (d_radius o) mst)) i j).
  { induction 1 as [i Hin Hc|i j k' Hin Hc Hnr Hd IH]; [apply rst_refl|].
    eapply linked_trans; [|exact IH]. apply Hnear; auto. apply (dense_core_l n near (d_min_samples o) _ _ Hd). }
  assert (Hlab : forall i label, i < n -> nth_error labels i = Some label -> label <> 0 -> core i = true).
  { intros i label Hin Hl Hne. destruct (core i) eqn:Hc; auto. exfalso.
    destruct (H36 i label Hin Hl Hne Hc) as (y & Hy & Hyc & Hyn).
    assert (y <> i) by congruence. rewrite near_sym in Hyn.
    rewrite (Hcorep i y) in Hc; auto. discriminate. }
  split; auto. split; auto. split; auto. split; auto. split; auto.
  assert (Hpair : forall i j, i < n -> j < n -> i <> j ->
      ((exists label, label <> 0 /\ nth_error labels i = Some label /\ nth_error labels j = Some label) <->
       joined_below (m_lt m) (d_radius o) root i j)).
  { intros i j Hin Hj Hij. rewrite Hjoin by auto. split.
    - intros (l & Hl & H1 & H2). apply Hback. apply (same_label labels); eauto.
    - intros H. destruct (Hdense i j H) as [|Hd]; [contradiction|].
      apply (same_label labels); auto; [apply (dense_core_l n near _ _ _ Hd)|apply (dense_core_r n near _ _ _ Hd)]. }
  split; auto. intros i Hin.
  assert (Hsome : exists label, nth_error labels i = Some label).
  { destruct (nth_error labels i) eqn:X; eauto. apply nth_error_None in X. lia. }
  destruct Hsome as (label & Hl). split.
  - intros H0. assert (Hc : core i = false).
    { destruct (core i) eqn:Hc; auto. destruct (H35 i i Hin Hin Hc Hc) as (a & b & Ha & _ & Ha0 & _). congruence. }
    split.
    + destruct (d_min_samples o) as [|[|x]] eqn:X; auto; [|lia].
      rewrite (one_near n near 0 i Hin (near_self i) eq_refl) in Hc. discriminate.
    + intros j Hj Hji HB. apply Hpair in HB; auto. destruct HB as (l & Hl0 & H1 & _). congruence.
  - intros (H1 & Hno). destruct (Nat.eq_dec label 0) as [->|Hne]; auto. exfalso.
    destruct (core_has_other n near (d_min_samples o) i Hin) as (j & Hj & Hji & Hnr); [lia|eapply Hlab; eauto|].
    apply (Hno j Hj Hji). apply Hjoin; auto.
Qed.

(** Several neighbours. *)
Lemma refine_run fuel k : 1 <= n -> 1 < k -> k <= n -> n <= S fuel -> d_min_samples o < k ->
  exists tree mst root labels,
    make_kdtree tol samples nf bucket max_depth policy lowest max center (seq 0 n) = Ok tree /\
    make_tree m samples nf tree oc oe fuel k = Ok mst /\ make_slink sort order mst = Ok root /\
    dbscan_predict m samples nf tree o = Ok labels /\ length labels = n /\
    (forall i j, i < n -> j < n -> i <> j -> joined_below (m_lt m) (d_radius o) root i j ->
       core i = true /\ core j = true /\
       exists label, label <> 0 /\ nth_error labels i = Some label /\ nth_error labels j = Some label).
Proof using Hm Hf Hi Hfit Hself Hoc Hoe Hsort Horder.
  intros Hn Hk Hkn Hfuel Hmin. pose proof (mo_order m dist Hm) as Ho.
  destruct (c20_boruvka_returns_a_spanning_tree m dist tol samples nf n bucket max_depth policy lowest max center oc oe k fuel)
    as (tree & mst & E & Em & T & Hw); auto; try lia.
  destruct (make_ok (m_lt m) Ho sort Hsort order Horder n mst Hn T) as (root & Es & HD & HL & _ & _ & _ & HJ).
  destruct (dbscan_run tree E) as (labels & El & Ll & H35 & H36).
  exists tree, mst, root, labels. split; auto. split; auto. split; auto. split; auto. split; auto.
  intros i j Hin Hj Hij HB. apply (below_joined (m_lt m) Ho (d_radius o) n mst) in HB; auto.
  assert (Hall : forall a b, In (a, b) (ends (below (m_lt m) (d_radius o) mst)) ->
    a < n /\ b < n /\ core a = true /\ core b = true /\ near a b = true).
  { intros a b Hab. unfold ends, below in Hab. apply in_map_iff in Hab as ([[a' b'] w] & Ee & Hab).
    cbn [fst] in Ee. inversion Ee; subst a' b'. apply filter_In in Hab as (Hab & Hwr). cbn [snd] in Hwr.
    destruct T as (_ & TI & _). destruct (TI a b w Hab) as (Ha & Hb).
    destruct (proj2 (Hw a b w Hab) Hk) as (ca & cb & Ca & Cb & (_ & Hmax)).
    assert (Hlow : forall x, In x [ca; cb; between dist samples nf a b] -> m_lt m x (d_radius o) = true).
    { intros x Hx. destruct (m_lt m x (d_radius o)) eqn:X; auto.
      pose proof (le_trans (m_lt m) Ho (d_radius o) x w X (Hmax x Hx)). congruence. }
    pose proof (core_count (m_lt m) Ho dist samples nf n k a ca (d_radius o) Ca (Hlow ca (or_introl eq_refl)) Hkn) as Na.
    pose proof (core_count (m_lt m) Ho dist samples nf n k b cb (d_radius o) Cb (Hlow cb (or_intror (or_introl eq_refl))) Hkn) as Nb.
    split; auto. split; auto. split; [unfold DbscanSpec.core; apply Nat.ltb_lt; lia|].
    split; [unfold DbscanSpec.core; apply Nat.ltb_lt; lia|]. unfold in_ball. rewrite (proj1 Hf). apply Hlow. right; right; now left. }
  destruct (links_dense n near (d_min_samples o) (fun i j _ _ => near_sym i j) (ends (below (m_lt m) (d_radius o) mst)) i j Hall HB) as [|Hd]; [contradiction|].
  destruct (dense_core_l n near _ _ _ Hd) as (_ & Ci). destruct (dense_core_r n near _ _ _ Hd) as (_ & Cj).
    split; auto. split; auto. apply (same_label labels); auto.
Qed.
End Run.

(** ** Exactly the same clusters with one neighbour *)
Theorem c96_cut_is_dbscan :
  forall m dist tol samples nf n bucket max_depth policy lowest max center oc oe k fuel sort order o,
  metric_ok m dist -> finite_metric m dist samples nf n -> whole_input tol samples nf n policy lowest max ->
  permuting oc -> permuting oe -> sorts (m_lt m) sort -> (forall l, Permutation (order l) l) ->
  1 <= n -> (Z.of_nat n < 2 ^ 64)%Z -> k <= 1 -> n <= S fuel ->
  d_min_samples o <= 1 -> (forall p, m_lt m (dist p p) (d_radius o) = true) ->
  exists tree mst root labels,
    make_kdtree tol samples nf bucket max_depth policy lowest max center (seq 0 n) = Ok tree /\
    make_tree m samples nf tree oc oe fuel k = Ok mst /\ make_slink sort order mst = Ok root /\
    dbscan_predict m samples nf tree o = Ok labels /\ length labels = n /\
    (forall i j, i < n -> j < n -> i <> j ->
      ((exists label, label <> 0 /\ nth_error labels i = Some label /\ nth_error labels j = Some label) <->
       joined_below (m_lt m) (d_radius o) root i j)) /\
    (forall i, i < n -> (nth_error labels i = Some 0 <->
       d_min_samples o = 1 /\ forall j, j < n -> j <> i -> ~ joined_below (m_lt m) (d_radius o) root i j)).
Proof. intros. eapply exact_run; eauto. Qed.

(** Two neighbours give the same tree. *)
Theorem c96_cut_is_dbscan_two_neighbours :
  forall m dist tol samples nf n bucket max_depth policy lowest max center oc oe fuel sort order o,
  metric_ok m dist -> finite_metric m dist samples nf n -> proper_metric m dist ->
  whole_input tol samples nf n policy lowest max ->
  permuting oc -> permuting oe -> sorts (m_lt m) sort -> (forall l, Permutation (order l) l) ->
  1 <= n -> (Z.of_nat n < 2 ^ 64)%Z -> n <= S fuel ->
  d_min_samples o = 1 -> (forall p, m_lt m (dist p p) (d_radius o) = true) ->
  exists tree mst root labels,
    make_kdtree tol samples nf bucket max_depth policy lowest max center (seq 0 n) = Ok tree /\
    make_tree m samples nf tree oc oe fuel 2 = Ok mst /\ make_slink sort order mst = Ok root /\
    dbscan_predict m samples nf tree o = Ok labels /\
    (forall i j, i < n -> j < n -> i <> j ->
      ((exists label, label <> 0 /\ nth_error labels i = Some label /\ nth_error labels j = Some label) <->
       joined_below (m_lt m) (d_radius o) root i j)) /\
    (forall i, i < n -> (nth_error labels i = Some 0 <->
       forall j, j < n -> j <> i -> ~ joined_below (m_lt m) (d_radius o) root i j)).
Proof.
  intros m dist tol samples nf n bucket max_depth policy lowest max center oc oe fuel sort order o Hm Hf Hp Hi Hoc Hoe Hsort Horder
    Hn Hfit Hfuel Ho Hself.
  destruct (c55_two_neighbours_give_the_plain_tree m dist tol samples nf n bucket max_depth policy lowest max center oc oe fuel)
    as (tree & E & E2); auto.
  destruct (exact_run m dist Hm tol samples nf n bucket max_depth policy lowest max center o Hf Hi Hfit Hself oc oe Hoc Hoe sort Hsort
    order Horder fuel 1) as (tree' & mst & root & labels & E' & Em & Es & El & _ & H1 & H2); auto; try lia.
  assert (tree' = tree) by congruence. subst tree'. exists tree, mst, root, labels. rewrite E2.
  split; auto. split; auto. split; auto. split; auto. split; auto. intros i Hin. rewrite H2 by auto. tauto.
Qed.

(** ** Several neighbours: the cut is finer than DBSCAN *)
Theorem c96_cut_refines_dbscan :
  forall m dist tol samples nf n bucket max_depth policy lowest max center oc oe k fuel sort order o,
  metric_ok m dist -> finite_metric m dist samples nf n -> whole_input tol samples nf n policy lowest max ->
  permuting oc -> permuting oe -> sorts (m_lt m) sort -> (forall l, Permutation (order l) l) ->
  (Z.of_nat n < 2 ^ 64)%Z -> 1 < k -> k <= n -> n <= S fuel ->
  d_min_samples o < k -> (forall p, m_lt m (dist p p) (d_radius o) = true) ->
  exists tree mst root labels,
    make_kdtree tol samples nf bucket max_depth policy lowest max center (seq 0 n) = Ok tree /\
    make_tree m samples nf tree oc oe fuel k = Ok mst /\ make_slink sort order mst = Ok root /\
    dbscan_predict m samples nf tree o = Ok labels /\ length labels = n /\
    (forall i j, i < n -> j < n -> i <> j -> joined_below (m_lt m) (d_radius o) root i j ->
       core n (in_ball (m_lt m) dist samples nf (d_radius o)) (d_min_samples o) i = true /\
       core n (in_ball (m_lt m) dist samples nf (d_radius o)) (d_min_samples o) j = true /\
       exists label, label <> 0 /\ nth_error labels i = Some label /\ nth_error labels j = Some label).
Proof. intros. eapply refine_run; eauto. lia. Qed.

(** ** Cases *)
Lemma isort_opt_sorts : sorts opt_lt (isort opt_lt).
Proof.
  intros l. split; [apply isort_perm|]. pose proof (isort_asc opt_lt opt_order_ok l) as H.
  induction H as [|e l' H1 H2 IH]; constructor; auto. apply Forall_forall. intros x Hx. now apply H1.
Qed.

Definition row_tree : slink (option Z) :=
  SNode 3 (Some 1444%Z) 12
    (SNode 3 (Some 100%Z) 6 (SLeaf 0)
      (SNode 3 (Some 64%Z) 5 (SNode 3 (Some 4%Z) 2 (SLeaf 3) (SLeaf 2))
        (SNode 5 (Some 1%Z) 3 (SLeaf 1) (SNode 5 (Some 1%Z) 2 (SLeaf 5) (SLeaf 4)))))
    (SNode 10 (Some 729%Z) 6
      (SNode 10 (Some 1%Z) 4 (SLeaf 7) (SNode 10 (Some 1%Z) 3 (SLeaf 8) (SNode 10 (Some 1%Z) 2 (SLeaf 10) (SLeaf 9))))
      (SNode 11 (Some 81%Z) 2 (SLeaf 11) (SLeaf 6))).

(** Twelve samples on a line. The dendrogram cut below squared distance 5 has the groups 3-2, 1-5-4 and 7-8-10-9, which
    are the clusters of DBSCAN; samples 0, 6 and 11 are alone. *)
Example c96_cut_is_dbscan_case :
  metric_ok float_metric fdist /\ finite_metric float_metric fdist row_of_points 1 12 /\
  whole_input 0 row_of_points 1 12 (fun _ _ _ _ => 0) (-100) 100 /\ permuting (@keep (list nat)) /\ permuting (@flip (edge float_metric)) /\
  sorts opt_lt (isort opt_lt) /\ (forall p, opt_lt (fdist p p) (Some 5%Z) = true) /\
  with_tree (line_tree row_of_points 2 (seq 0 12))
    (fun t => mst <- make_tree float_metric row_of_points 1 t keep flip 11 1 ;; make_slink (isort opt_lt) (@rev _) mst) = Ok row_tree /\
  dbscan_case 2 (seq 0 12) (Build_dbscan_options 1 (Some 5%Z)) = Ok [0; 1; 2; 2; 1; 1; 0; 3; 3; 3; 3; 0] /\
  dbscan_case 2 (seq 0 12) (Build_dbscan_options 0 (Some 5%Z)) = Ok [1; 2; 3; 3; 2; 2; 4; 5; 5; 5; 5; 6] /\
  joined_below opt_lt (Some 5%Z) row_tree 1 4.
Proof.
  split; [exact float_metric_ok|]. split; [apply float_finite|]. split; [split; [exact points_input|reflexivity]|].
  split; [apply keep_ok|]. split; [apply flip_ok|]. split; [exact isort_opt_sorts|].
  split. { intros p. rewrite sq_dist_refl. reflexivity. }
  split; [vm_compute; reflexivity|]. split; [vm_compute; reflexivity|]. split; [vm_compute; reflexivity|].
  exists 5, (Some 1%Z), 3, (SLeaf 1), (SNode 5 (Some 1%Z) 2 (SLeaf 5) (SLeaf 4)).
  split; [apply desc_left, desc_right, desc_right, desc_here|]. split; [reflexivity|]. cbn. tauto.
Qed.

Example c96_cut_is_dbscan_two_neighbours_case :
  proper_metric float_metric fdist /\
  with_tree (line_tree row_of_points 2 (seq 0 12))
    (fun t => mst <- make_tree float_metric row_of_points 1 t keep flip 11 2 ;; make_slink (isort opt_lt) (@rev _) mst) = Ok row_tree.
Proof. split; [exact float_proper|]. vm_compute. reflexivity. Qed.

Definition ln_dendrogram : slink (option Z) :=
  SNode 0 (Some 225%Z) 5 (SLeaf 1)
    (SNode 0 (Some 169%Z) 4 (SLeaf 3) (SNode 0 (Some 81%Z) 3 (SLeaf 4) (SNode 0 (Some 81%Z) 2 (SLeaf 0) (SLeaf 2)))).

(** The samples 0, 2 and 4 are joined below 100; DBSCAN puts samples 1 and 3 in their cluster too. *)
Example c96_cut_refines_dbscan_case :
  1 < 4 /\ 4 <= 5 /\ 3 < 4 /\ whole_input 0 ln 1 5 (fun _ _ _ _ => 0) (-100) 100 /\
  (forall p, opt_lt (fdist p p) (Some 100%Z) = true) /\
  with_tree ln_tree (fun t => mst <- make_tree float_metric ln 1 t keep keep 4 4 ;; make_slink (isort opt_lt) (@rev _) mst) = Ok ln_dendrogram /\
  with_tree ln_tree (fun t => dbscan_predict float_metric ln 1 t (Build_dbscan_options 3 (Some 100%Z))) = Ok [1; 1; 1; 1; 1] /\
  joined_below opt_lt (Some 100%Z) ln_dendrogram 2 4.
Proof.
  split; [lia|]. split; [lia|]. split; [lia|]. split; [exact ln_whole|]. split. { intros p. rewrite sq_dist_refl. reflexivity. }
  split; [vm_compute; reflexivity|]. split; [vm_compute; reflexivity|].
  exists 0, (Some 81%Z), 3, (SLeaf 4), (SNode 0 (Some 81%Z) 2 (SLeaf 0) (SLeaf 2)).
  split; [apply desc_right, desc_right, desc_here|]. split; [reflexivity|]. cbn. tauto.
Qed.

(** ** The converse is false for several neighbours: two core samples of one DBSCAN cluster are not joined below the radius. *)
Theorem c96_dbscan_refines_cut_refuted :
  exists samples nf n bucket max_depth policy lowest max center k fuel o tree mst root labels i j label,
    whole_input 0 samples nf n policy lowest max /\ 1 < k /\ k <= n /\ n <= S fuel /\ S (d_min_samples o) = k /\
    make_kdtree 0 samples nf bucket max_depth policy lowest max center (seq 0 n) = Ok tree /\
    make_tree float_metric samples nf tree keep keep fuel k = Ok mst /\ make_slink (isort opt_lt) (@rev _) mst = Ok root /\
    dbscan_predict float_metric samples nf tree o = Ok labels /\ i < n /\ j < n /\ i <> j /\
    core n (in_ball opt_lt fdist samples nf (d_radius o)) (d_min_samples o) i = true /\
    core n (in_ball opt_lt fdist samples nf (d_radius o)) (d_min_samples o) j = true /\
    label <> 0 /\ nth_error labels i = Some label /\ nth_error labels j = Some label /\
    ~ joined_below opt_lt (d_radius o) root i j.
Proof.
  exists ln, 1, 5, 1, 10, (fun _ _ _ _ => 0), (-100)%Z, 100%Z, half, 4, 4, (Build_dbscan_options 3 (Some 65%Z)).
  pose proof ln_whole as (Hi & HL).
  destruct (built_tree 0 ln 1 1 10 (fun _ _ _ _ => 0) (-100) 100 half (seq 0 5) Hi) as (tree & E & _).
  assert (Et : Ok tree = ln_tree) by (symmetry; exact E). vm_compute in Et. inversion Et as [Et']. clear Et.
  exists tree, [(0, 2, Some 81%Z); (1, 4, Some 225%Z); (3, 2, Some 169%Z); (4, 0, Some 81%Z)], ln_dendrogram, [1; 0; 1; 1; 1], 2, 4, 1.
  cbn [d_radius d_min_samples].
  split; [exact ln_whole|]. split; [lia|]. split; [lia|]. split; [lia|]. split; [reflexivity|]. split; [exact E|].
  split; [rewrite Et'; vm_compute; reflexivity|]. split; [vm_compute; reflexivity|]. split; [rewrite Et'; vm_compute; reflexivity|].
  split; [lia|]. split; [lia|]. split; [lia|]. split; [vm_compute; reflexivity|]. split; [vm_compute; reflexivity|].
  split; [discriminate|]. split; [reflexivity|]. split; [reflexivity|].
  intros (k & v & s & a & b & Hd & Hv & _ & _). unfold ln_dendrogram in Hd.
  repeat match goal with H : descendant _ _ |- _ => inversion H; subst; clear H end; discriminate.
Qed.

Print Assumptions c96_cut_is_dbscan.
Print Assumptions c96_cut_is_dbscan_two_neighbours.
Print Assumptions c96_cut_refines_dbscan.
Print Assumptions c96_dbscan_refines_cut_refuted.
