(** HDBSCAN in other arithmetics, and on [float] and [double], from samples to labels (C113). *)
From Coq Require Import Reals List Arith ZArith QArith Qreals Bool Lia Lra Psatz Permutation.
From Flocq Require Import Core BinarySingleNaN.
From Verif Require Import Base BoundsModel BoundsSpec SortingSpec BufferModel BufferSpec KDTreeModel KDTreeProps SearchModel SearchSpec
  SearchProps GraphSpec BoruvkaModel BoruvkaSpec GraphProofs BoruvkaProps SlinkModel SlinkSpec SlinkProofs SlinkProps
  CondensedModel CondensedSpec CondensedProofs CondensedProps HdbscanModel HdbscanProps
  FloatModel FloatSpec FloatProofs FloatProps AccuracySpec AccuracyProofs FloatSilhouetteModel FloatSilhouetteProofs FloatKMeansProofs FloatKMeansProps FloatAliasProofs FloatAliasProps
  PlusPlusProofs FloatPlusPlusProofs FloatCondensedModel FloatCondensedSpec FloatCondensedProofs FloatCondensedProps FloatHdbscanModel FloatHdbscanProofs.
Import ListNotations.
Local Open Scope nat_scope.

Definition condensed (o : hdbscan_options) : condensed_options :=
  {| min_cluster_size := h_min_cluster_size o; return_leaf_nodes := h_return_leaf_nodes o; allow_single_cluster := h_allow_single_cluster o |}.

Lemma same_or_smaller {D} (root s : slink D) : descendant root s -> s = root \/ length (leaves s) < length (leaves root).
Proof.
  induction 1 as [|i v m l r s H IH|i v m l r s H IH]; [now left|right..]; cbn [leaves]; rewrite app_length.
  - pose proof (leaves_pos r). destruct IH as [->|]; lia.
  - pose proof (leaves_pos l). destruct IH as [->|]; lia.
Qed.

(** Whatever the arithmetic of the stabilities does, the labels have no gaps, label 1 occurs, clusters are not smaller
    than asked unless all samples form one, and without core distances they are single linkage clusters. *)
Theorem c113_labels_in_any_arithmetic :
  forall m dist {V : Type} (zero : V) inverse excess plus greater tol samples nf n bucket max_depth policy lowest max center oc oe sort order o fuel,
  metric_ok m dist -> finite_metric m dist samples nf n -> whole_input tol samples nf n policy lowest max ->
  permuting oc -> permuting oe -> sorts (m_lt m) sort -> (forall l, Permutation (order l) l) ->
  1 <= n -> (Z.of_nat (h_k_nearest_neighbors o) < 2 ^ 64)%Z -> n <= S fuel ->
  exists tree labels,
    make_kdtree tol samples nf bucket max_depth policy lowest max center (seq 0 n) = Ok tree /\
    hdbscan_any m zero inverse excess plus greater samples nf tree oc oe fuel sort order o = Ok labels /\
    length labels = n /\ gap_free labels /\ In 1 labels /\
    (forall label, In label labels -> label <> 0 -> h_min_cluster_size o <= count_occ Nat.eq_dec labels label \/ labels = repeat 1 n) /\
    (h_return_leaf_nodes o = true \/ h_allow_single_cluster o = false -> labels = repeat 1 n -> exists mst root,
      make_tree m samples nf tree oc oe fuel (h_k_nearest_neighbors o) = Ok mst /\ make_slink sort order mst = Ok root /\
      finest (h_min_cluster_size o) root root) /\
    (h_k_nearest_neighbors o <= 1 -> forall t i j k label other,
      nth_error labels i = Some label -> nth_error labels j = Some label ->
      nth_error labels k = Some other -> label <> 0 -> other <> label ->
      reach (m_lt m) n (between dist samples nf) t i k -> reach (m_lt m) n (between dist samples nf) t i j).
Proof.
  intros m dist V zero inverse excess plus greater tol samples nf n bucket max_depth policy lowest max center oc oe sort order o fuel
    Hm Hf Hi Hoc Hoe Hsort Horder Hn Hk Hfuel.
  destruct (hdbscan_run m dist Hm (fun _ => 0%Q) tol samples nf n bucket max_depth policy lowest max center Hf Hi oc oe Hoc Hoe sort Hsort order Horder o fuel)
    as (tree & mst & root & _ & _ & E1 & E2 & T & E3 & HD & HL & _ & _ & _ & _ & _ & HR & _); auto.
  destruct (c112_labels_in_any_arithmetic zero inverse excess plus greater (m_lt m) (condensed o) root n HD HL) as (labels & clusters & E4 & L & S1 & F & C & HF).
  pose proof (covered_nonempty (m_lt m) root n HD HL _ _ C) as N. pose proof (shown_sizes root n HL _ labels clusters L S1 F) as Hsz.
  assert (Hdesc : forall s, In s clusters -> descendant root s).
  { intros s Hs. destruct F as [F _]. rewrite Forall_forall in F. eapply cluster_descendant; eauto. }
  assert (Hall : forall k, 1 <= k <= length clusters -> In k labels).
  { intros k Hk'. destruct k as [|k]; [lia|]. destruct (nth_error clusters k) as [s|] eqn:E.
    - destruct (leaves_some s) as [x Hx]. eapply nth_error_In. exact (proj1 S1 k s x E Hx).
    - apply nth_error_None in E. lia. }
  exists tree, labels. splits; auto.
  - unfold hdbscan_any. rewrite E2. cbn [bind]. rewrite E3. cbn [bind]. exact E4.
  - exists (length clusters). split; auto. intros label Hin. destruct label as [|k]; [lia|].
    apply In_nth_error in Hin as [x Hx].
    destruct (shows_label root n labels clusters x k L S1 Hdesc Hx) as (s & Hs & _). apply nth_error_lt in Hs. lia.
  - apply Hall. destruct clusters; [congruence|simpl; lia].
  - intros HO ->. exists mst, root. splits; auto. apply HF; auto. destruct clusters as [|s rest]; [congruence|]. left.
    destruct (same_or_smaller root s (Hdesc s (or_introl eq_refl))) as [E|E]; auto. exfalso.
    pose proof (Permutation_length HL) as EL. rewrite seq_length in EL.
    assert (n <= length (leaves s)); [|lia]. rewrite <- (seq_length n 0) at 1. apply NoDup_incl_length; [apply seq_NoDup|]. intros x Hx. apply in_seq in Hx.
    destruct (shows_label root n (repeat 1 n) (s :: rest) x 0 L S1 Hdesc) as (s' & Es & Hs').
    { apply nth_error_repeat. lia. }
    cbn in Es. congruence.
  - intros Hk1 t i j k label other Hli Hlj Hlk Hne Hother Hreach. specialize (HR Hk1).
    assert (Hin : i < n /\ j < n /\ k < n) by (apply nth_error_lt in Hli, Hlj, Hlk; lia). destruct Hin as (Hin & Hjn & Hkn).
    destruct (Nat.eq_dec i j) as [->|Hij]; [constructor; auto|].
    destruct label as [|c]; [congruence|].
    destruct (shows_label root n labels clusters i c L S1 Hdesc Hli) as (s & Hs & His).
    destruct (shows_label root n labels clusters j c L S1 Hdesc Hlj) as (s' & Hs' & Hjs).
    assert (s' = s) by congruence. subst s'.
    assert (Hks : ~ In k (leaves s)) by (intros Hks; pose proof (proj1 S1 c s k Hs Hks); congruence).
    assert (Hik : i <> k) by (intros ->; auto).
    pose proof (c26_cut_gives_threshold_components (m_lt m) (mo_order m dist Hm) sort Hsort order Horder n mst Hn T root) as J.
    apply HR; auto. apply (J t i j); auto. apply HR in Hreach; auto. apply (J t i k) in Hreach; auto.
    destruct Hreach as (p & v & q & l & r & Hd & Ht & Hil & Hkl).
    exists p, v, q, l, r. splits; auto.
    destruct (SlinkProofs.chain root s (SNode p v q l r) i) as [H|H]; auto.
    + eapply Permutation_NoDup; [symmetry; exact HL|apply seq_NoDup].
    + apply Hdesc. eapply nth_error_In; eauto.
    + exfalso. apply Hks. eapply descendant_leaves; [exact H|]. exact Hkl.
    + eapply descendant_leaves in Hjs; [|exact H]. exact Hjs.
Qed.

Lemma indep_no_loop : forall E R a b, indep R E -> In (a, b) E -> a <> b.
Proof.
  induction E as [|[c d] E IH]; intros R a b H Hin; [destruct Hin|]. destruct H as (H1 & H2). destruct Hin as [Hin|Hin]; [|eapply IH; eauto].
  inversion Hin; subst. intros ->. apply H1. apply Relation_Operators.rst_refl.
Qed.

Lemma tree_no_loop {D} n (mst : list (nat * nat * D)) a b w : spanning_tree n mst -> In (a, b, w) mst -> a < n /\ b < n /\ a <> b.
Proof.
  intros (TL & TI & TS) H. destruct (TI a b w H). splits; auto. apply (indep_no_loop (ends mst) []).
  - apply (spanning_indep n); auto. unfold ends. now rewrite map_length.
  - unfold ends. apply in_map_iff. exists (a, b, w). split; auto.
Qed.

Section Formats.
Context {prec emax : Z} (Hp : Prec_gt_0 prec) (Hm : Prec_lt_emax prec emax) (Hprec : (2 <= prec)%Z) (Hemax : (2 * prec + 2 <= emax)%Z).
Notation number := (binary_float prec emax).
Notation enc := (encode prec emax).
Notation M := (binary_metric prec emax Hp Hm).
Notation euclid := (euclidean prec emax Hp Hm).
Notation predict := (float_hdbscan prec emax Hp Hm).

Lemma fmt : format_ok prec emax.
Proof using Hprec Hemax. split; lia. Qed.

(** The same on [float] and [double]: with the rounded distances and the rounded stabilities. *)
Theorem c113_labels :
  forall fused add tol samples nf n bucket max_depth policy center oc oe sort order o fuel,
  adds_each_once add -> float_input tol samples nf policy (seq 0 n) -> length samples = n * nf ->
  (forall i j, i < n -> j < n -> is_finite (euclid add (row samples nf i) (row samples nf j)) = true) ->
  permuting oc -> permuting oe -> sorts (closer prec emax) sort -> (forall l, Permutation (order l) l) ->
  1 <= n -> (Z.of_nat (h_k_nearest_neighbors o) < 2 ^ 64)%Z -> n <= S fuel ->
  exists tree labels,
    make_kdtree tol (map enc samples) nf bucket max_depth policy (- largest prec emax) (largest prec emax) center (seq 0 n) = Ok tree /\
    predict fused add samples nf tree oc oe fuel sort order o = Ok labels /\
    length labels = n /\ gap_free labels /\ In 1 labels /\
    (forall label, In label labels -> label <> 0 -> h_min_cluster_size o <= count_occ Nat.eq_dec labels label \/ labels = repeat 1 n) /\
    (h_return_leaf_nodes o = true \/ h_allow_single_cluster o = false -> labels = repeat 1 n -> exists mst root,
      make_tree (M add) (map enc samples) nf tree oc oe fuel (h_k_nearest_neighbors o) = Ok mst /\ make_slink sort order mst = Ok root /\
      finest (h_min_cluster_size o) root root) /\
    (h_k_nearest_neighbors o <= 1 -> forall (t : distance_type prec emax) i j k label other,
      nth_error labels i = Some label -> nth_error labels j = Some label ->
      nth_error labels k = Some other -> label <> 0 -> other <> label ->
      reach Bltb n (fun a b => euclid add (row samples nf a) (row samples nf b)) (proj1_sig t) i k ->
      reach Bltb n (fun a b => euclid add (row samples nf a) (row samples nf b)) (proj1_sig t) i j).
Proof using Hprec Hemax.
  intros fused add tol samples nf n bucket max_depth policy center oc oe sort order o fuel Ho Hi HL Hf Hoc Hoe Hsort Horder Hn Hk Hfuel.
  assert (Hs : finite_numbers samples) by apply Hi.
  assert (Hw : whole_input tol (map enc samples) nf n policy (- largest prec emax) (largest prec emax)).
  { split; [apply (encoded_input Hp Hm fmt); auto|]. now rewrite map_length. }
  pose proof (finite_encoded Hp Hm fmt add samples nf n Hs Hf) as Hfin.
  destruct (c113_labels_in_any_arithmetic (M add) _ (B754_zero false) (fun d => float_inverse prec emax Hp Hm (proj1_sig d))
    (float_excess prec emax Hp Hm fused) (Bplus mode_NE) (fun a b => Bltb b a) tol (map enc samples) nf n bucket max_depth policy
    (- largest prec emax)%Z (largest prec emax) center oc oe sort order o fuel (rounded_ok Hp Hm fmt add Ho) Hfin Hw)
    as (tree & labels & E & E1 & L & G & I1 & Sz & H1c & H); auto.
  exists tree, labels. splits; auto. intros Hk1 t i j k label other H1 H2 H3 H4 H5 H6.
  apply (reach_encoded Hp Hm fmt add samples nf n t i j Hs). apply (H Hk1 t i j k label other); auto.
  now apply (reach_encoded Hp Hm fmt add samples nf n t i k Hs).
Qed.

Local Open Scope R_scope.

(** The weights of the spanning tree are distances between different samples. *)
Lemma weight_distance add samples nf n k mst a b w : finite_numbers samples ->
  (forall i j, (i < n)%nat -> (j < n)%nat -> i <> j -> ordinary_level prec emax (euclid add (row samples nf i) (row samples nf j))) ->
  spanning_tree n mst -> In (a, b, w) mst ->
  ((k <= 1)%nat -> w = between (computed prec emax Hp Hm add) (map enc samples) nf a b) ->
  ((1 < k)%nat -> mutual_reachability (closer prec emax) (computed prec emax Hp Hm add) (map enc samples) nf n k a b w) ->
  exists i j, (i < n)%nat /\ (j < n)%nat /\ i <> j /\ proj1_sig w = euclid add (row samples nf i) (row samples nf j).
Proof using Hprec Hemax.
  intros Hs HO T Hin H1 Hk. destruct (tree_no_loop n mst a b w T Hin) as (Ha & Hb & Hab).
  destruct (le_lt_dec k 1) as [Hk1|Hk1].
  { exists a, b. splits; auto. rewrite (H1 Hk1). apply (between_encoded Hp Hm fmt); auto. }
  destruct (Hk Hk1) as (ca & cb & Ca & Cb & Hw & Hlarge). clear H1 Hk.
  assert (Core : forall i c, (i < n)%nat -> core_distance (closer prec emax) (computed prec emax Hp Hm add) (map enc samples) nf n k i c -> w = c ->
    exists i j, (i < n)%nat /\ (j < n)%nat /\ i <> j /\ proj1_sig w = euclid add (row samples nf i) (row samples nf j)).
  { intros i c Hi (stored & j & (rest & HP & _ & _) & (Hst & _)) ->.
    assert (Hj : In (j, c) (with_distances (computed prec emax Hp Hm add) (map enc samples) nf (row (map enc samples) nf i) (seq 0 n))).
    { eapply Permutation_in; [exact HP|]. apply in_or_app. auto. }
    unfold with_distances in Hj. apply in_map_iff in Hj as (j' & Ej & Hj'). injection Ej as -> Ec. apply in_seq in Hj'.
    assert (Ev : proj1_sig c = euclid add (row samples nf j) (row samples nf i)).
    { rewrite <- Ec. apply (between_encoded Hp Hm fmt add samples nf j i); auto. }
    destruct (Nat.eq_dec j i) as [->|Hne]; [|exists j, i; splits; auto; lia].
    exfalso. specialize (Hlarge (between (computed prec emax Hp Hm add) (map enc samples) nf a b) ltac:(right; right; left; auto)).
    unfold closer in Hlarge. rewrite (between_encoded Hp Hm fmt) in Hlarge by auto. rewrite Ev in Hlarge.
    rewrite (self_distance prec emax Hp Hm Hprec ltac:(lia) add) in Hlarge by (now apply FloatKMeansProps.row_finite).
    destruct (HO a b Ha Hb Hab) as (F & P & _). rewrite Bltb_correct in Hlarge by auto. revert Hlarge.
    pose proof (bpow_gt_0 radix2 (1 - prec)). case Rlt_bool_spec; [discriminate|]. cbn [B2R]. intros. lra. }
  destruct Hw as [Hw|[Hw|[Hw|[]]]].
  - apply (Core a ca); auto.
  - apply (Core b cb); auto.
  - exists a, b. splits; auto. rewrite <- Hw. apply (between_encoded Hp Hm fmt); auto.
Qed.

(** From samples to labels: the clusters chosen from the single linkage tree have the greatest total excess of mass, but
    for rounding. *)
Theorem c113_selection :
  forall fused add tol samples nf n bucket max_depth policy center oc oe sort order o fuel L,
  adds_each_once add -> float_input tol samples nf policy (seq 0 n) -> (length samples = n * nf)%nat ->
  (forall i j, (i < n)%nat -> (j < n)%nat -> is_finite (euclid add (row samples nf i) (row samples nf j)) = true) ->
  permuting oc -> permuting oe -> sorts (closer prec emax) sort -> (forall l, Permutation (order l) l) ->
  (1 <= n)%nat -> (Z.of_nat (h_k_nearest_neighbors o) < 2 ^ 64)%Z -> (n <= S fuel)%nat ->
  (forall i j, (i < n)%nat -> (j < n)%nat -> i <> j -> ordinary_level prec emax (euclid add (row samples nf i) (row samples nf j)) /\
    / B2R (euclid add (row samples nf i) (row samples nf j)) <= L) ->
  0 <= L -> (Z.of_nat n + 6 <= 2 ^ (prec - 1))%Z -> h_return_leaf_nodes o = false ->
  exists tree mst root labels clusters q,
    make_kdtree tol (map enc samples) nf bucket max_depth policy (- largest prec emax) (largest prec emax) center (seq 0 n) = Ok tree /\
    make_tree (M add) (map enc samples) nf tree oc oe fuel (h_k_nearest_neighbors o) = Ok mst /\ make_slink sort order mst = Ok root /\
    predict fused add samples nf tree oc oe fuel sort order o = Ok labels /\
    let linkage := smap (@proj1_sig _ _) root in
    shows labels clusters /\ flat_clustering (h_min_cluster_size o) linkage clusters /\ covers_finest (h_min_cluster_size o) linkage clusters /\
    (h_allow_single_cluster o = false -> In linkage clusters -> finest (h_min_cluster_size o) linkage linkage) /\
    total_mass exact_inverse (h_min_cluster_size o) linkage clusters q /\
    forall sel q', flat_clustering (h_min_cluster_size o) linkage sel -> h_allow_single_cluster o = true \/ ~ In linkage sel ->
      total_mass exact_inverse (h_min_cluster_size o) linkage sel q' -> Q2R q' <= Q2R q + 2 * rounding prec (4 + n) (INR n * L).
Proof using Hprec Hemax.
  intros fused add tol samples nf n bucket max_depth policy center oc oe sort order o fuel L Ho Hi HL Hf Hoc Hoe Hsort Horder Hn Hk Hfuel HO L0 Hsize Hleaf.
  assert (Hs : finite_numbers samples) by apply Hi.
  assert (Hw : whole_input tol (map enc samples) nf n policy (- largest prec emax) (largest prec emax)).
  { split; [apply (encoded_input Hp Hm fmt); auto|]. now rewrite map_length. }
  pose proof (finite_encoded Hp Hm fmt add samples nf n Hs Hf) as Hfin. pose proof (rounded_ok Hp Hm fmt add Ho) as Hmet.
  destruct (c20_boruvka_returns_a_spanning_tree (M add) _ tol (map enc samples) nf n bucket max_depth policy (- largest prec emax)%Z (largest prec emax) center oc oe
    (h_k_nearest_neighbors o) fuel Hmet Hfin Hw) as (tree & mst & E1 & E2 & T & Wt); auto.
  destruct (c25_slink_is_a_dendrogram (m_lt (M add)) (mo_order _ _ Hmet) sort Hsort order Horder n mst Hn T) as (root & E3 & HLv & Hsz & HD & HP).
  set (linkage := smap (@proj1_sig _ _) root).
  assert (HD' : dendrogram Bltb linkage) by (apply (smap_dendrogram _ (m_lt (M add))); auto).
  assert (HLv' : Permutation (leaves linkage) (seq 0 n)) by (unfold linkage; rewrite smap_leaves; auto).
  assert (Lev : forall v, In v (levels linkage) -> ordinary_level prec emax v /\ / B2R v <= L).
  { intros v Hv. unfold linkage in Hv. rewrite smap_levels in Hv. apply in_map_iff in Hv as (d & <- & Hd).
    apply (Permutation_in _ HP) in Hd. apply in_map_iff in Hd as ([[a b] w] & <- & Hin). cbn [snd]. destruct (Wt a b w Hin) as (W1 & W2).
    destruct (weight_distance add samples nf n (h_k_nearest_neighbors o) mst a b w Hs) as (i & j & Hi' & Hj' & Hne & E); auto.
    { intros i j Hi' Hj' Hne. apply HO; auto. }
    rewrite E. apply HO; auto. }
  destruct (c112_selection Hp Hm Hprec Hemax fused (condensed o) linkage n L HD' HLv' Lev L0 Hsize Hleaf) as (labels & clusters & q & El & Len & S & F & C & HA & Mq & Best).
  exists tree, mst, root, labels, clusters, q. splits; auto.
  - unfold float_hdbscan, hdbscan_any. rewrite E2. cbn [bind]. rewrite E3. cbn [bind]. rewrite <- El. unfold float_labels, float_make, linkage.
    rewrite fmap_make, fmap_extract. reflexivity.
  - cbn zeta. fold linkage. splits; auto.
Qed.
End Formats.

(** Labels of seven points with one decimal. *)
Definition decimal_labels (fused : bool) (o : hdbscan_options) : res (list nat) :=
  with_tree (double_tree decimals 2 1 cycle) (fun t =>
    float_hdbscan 53 1024 prec_double emax_double fused libstdcxx decimals 2 t flip keep 6 (isort (closer 53 1024)) (@rev _) o).

Notation apart_by i j := (euclidean 53 1024 prec_double emax_double libstdcxx (row decimals 2 i) (row decimals 2 j)).

Lemma decimals_ordinary : forall i j, i < 7 -> j < 7 -> i <> j ->
  ordinary_level 53 1024 (apart_by i j) /\ (/ B2R (apart_by i j) <= 2)%R.
Proof.
  assert (H : forallb (fun i => forallb (fun j => (i =? j) ||
    (is_finite (apart_by i j) && Bleb (double_of 1 (-1)) (apart_by i j) && Bleb (apart_by i j) (double_of 1 4))) (seq 0 7)) (seq 0 7) = true)
    by (vm_compute; reflexivity).
  intros i j Hi Hj Hne. rewrite forallb_forall in H. specialize (H i ltac:(apply in_seq; lia)).
  rewrite forallb_forall in H. specialize (H j ltac:(apply in_seq; lia)). apply Nat.eqb_neq in Hne. rewrite Hne in H. cbn [orb] in H.
  revert H. generalize (apart_by i j). clear. intros d H.
  apply andb_prop in H as (H & H2). apply andb_prop in H as (F & H1).
  rewrite Bleb_correct in H1, H2 by (auto; vm_compute; reflexivity).
  assert (P : forall (x : double) e, B2SF x = SpecFloat.S754_finite false 4503599627370496 e -> B2R x = bpow radix2 (52 + e)).
  { intros x e E. rewrite <- SF2R_B2SF, E. cbn [SF2R cond_Zopp]. unfold F2R. cbn [Fnum Fexp].
    change 4503599627370496%Z with (Zpower radix2 52). rewrite (IZR_Zpower radix2 52) by lia. now rewrite <- bpow_plus. }
  assert (E1 : (B2R (double_of 1 (-1)) = / 2)%R) by (rewrite (P _ (-53)%Z); [simpl; lra|vm_compute; reflexivity]).
  assert (E2 : (B2R (double_of 1 4) = 16)%R) by (rewrite (P _ (-48)%Z); [simpl; lra|vm_compute; reflexivity]).
  rewrite E1 in H1. rewrite E2 in H2. revert H1 H2. case Rle_bool_spec; [intros H1 _|discriminate]. case Rle_bool_spec; [intros H2 _|discriminate].
  split; [split; [auto|]|].
  - change (1 - 53)%Z with (-52)%Z. change (1024 - 2)%Z with 1022%Z. split.
    + apply Rlt_le_trans with (bpow radix2 (-1)); [apply bpow_lt; lia|]. simpl. lra.
    + apply Rle_trans with (bpow radix2 4); [simpl; lra|apply bpow_le; lia].
  - rewrite <- (Rinv_inv 2). apply Rinv_le; lra.
Qed.

(** With stabilities all alike, one cluster of everything when that is allowed and the two below otherwise. *)
Example c113_labels_in_any_arithmetic_case :
  metric_ok float_metric (fun p q => Some (sq_dist p q)) /\ finite_metric float_metric (fun p q => Some (sq_dist p q)) sites 1 8 /\
  whole_input 0 sites 1 8 (fun _ _ _ _ => 0) (-100) 300 /\ sorts opt_lt (isort opt_lt) /\
  (let labels := fun o => with_tree sites_tree (fun t =>
     hdbscan_any float_metric tt (fun _ => tt) (fun _ _ _ _ => tt) (fun _ _ => tt) (fun _ _ => false) sites 1 t flip keep 8 (isort opt_lt) (@rev _) o) in
   labels (Build_hdbscan_options 1 3 false false) = Ok [1; 1; 1; 2; 2; 2; 0; 2] /\ labels (Build_hdbscan_options 1 3 false true) = Ok (repeat 1 8)).
Proof.
  split; [exact float_metric_ok|]. split; [apply float_finite|]. split; [exact sites_whole|]. split; [exact isort_float_sorts|].
  split; vm_compute; reflexivity.
Qed.

Example c113_labels_case :
  float_input 0 decimals 2 cycle (seq 0 7) /\
  (forall i j, i < 7 -> j < 7 -> is_finite (apart_by i j) = true) /\ sorts (closer 53 1024) (isort (closer 53 1024)) /\
  decimal_labels true (Build_hdbscan_options 1 2 false false) = Ok [2; 2; 1; 2; 1; 2; 2].
Proof.
  split; [exact decimals_input|]. split; [apply all_distances_finite; vm_compute; reflexivity|]. split; [exact isort_doubles_sort|].
  vm_compute. reflexivity.
Qed.

Example c113_selection_case :
  (forall i j, i < 7 -> j < 7 -> i <> j -> ordinary_level 53 1024 (apart_by i j) /\ (/ B2R (apart_by i j) <= 2)%R) /\
  (Z.of_nat 7 + 6 <= 2 ^ (53 - 1))%Z /\ decimal_labels false (Build_hdbscan_options 2 2 false false) = Ok [2; 2; 1; 2; 1; 2; 2].
Proof.
  split; [exact decimals_ordinary|]. split; [vm_compute; discriminate|]. vm_compute. reflexivity.
Qed.

Print Assumptions c113_labels_in_any_arithmetic.
Print Assumptions c113_labels.
Print Assumptions c113_selection.
