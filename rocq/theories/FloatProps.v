(** Searches and clusterings with rounded distances. *)
From Coq Require Import Reals List Arith ZArith Bool Lia Permutation.
From Flocq Require Import Core BinarySingleNaN.
From Verif Require Import Base BoundsModel BoundsSpec SortingSpec BufferModel BufferSpec KDTreeModel KDTreeProps SearchModel SearchSpec
  SearchProps GraphSpec BoruvkaModel BoruvkaSpec GraphProofs BoruvkaProps SlinkModel SlinkSpec HdbscanModel HdbscanProps DbscanModel DbscanSpec DbscanProps FloatModel FloatSpec FloatProofs.
Import ListNotations.

Section Formats.
Context {prec emax : Z} (Hp : Prec_gt_0 prec) (Hm : Prec_lt_emax prec emax) (Hfmt : format_ok prec emax).
Notation number := (binary_float prec emax).
Notation enc := (encode prec emax).
Notation ft := (feature prec emax Hp Hm).
Notation M := (binary_metric prec emax Hp Hm).
Notation euclid := (euclidean prec emax Hp Hm).

Lemma each_term order : adds_each_once order -> forall n i, i < n -> In i (terms (order n)).
Proof. intros H n i Hi. eapply Permutation_in; [symmetry; apply H|]. apply in_seq. lia. Qed.

Lemma rounded_ok order : adds_each_once order -> metric_ok (M order) (computed prec emax Hp Hm order).
Proof using Hfmt. intros Ho. destruct Hfmt. apply binary_ok; auto. now apply each_term. Qed.

Lemma finite_in (l : list number) : finite_numbers l -> forall x, In x l -> is_finite x = true.
Proof. unfold finite_numbers. rewrite Forall_forall. auto. Qed.

Lemma feature_value x : is_finite x = true -> B2R (ft (enc x)) = B2R x.
Proof using Hfmt.
  intros F. destruct Hfmt. destruct (feature_ok prec emax Hp Hm) with (z := enc x) as (_ & E & _); auto.
  rewrite encode_clamp in E by auto. rewrite encode_value in E by auto. rewrite E. apply rnd_id. apply generic_format_B2R.
Qed.

Lemma euclid_encoded order (l r : list number) : finite_numbers l -> finite_numbers r ->
  euclid order (map ft (map enc l)) (map ft (map enc r)) = euclid order l r.
Proof using Hfmt.
  intros Hl Hr. pose proof (finite_in l Hl) as Fl. pose proof (finite_in r Hr) as Fr. clear Hl Hr. destruct Hfmt as [H1 H2].
  unfold euclidean. f_equal. rewrite !map_length, !combine_length, !map_length.
  apply reduce_abs; auto; try (apply diffs_numbers; auto; apply finite_features; auto).
  rewrite !map_map. revert r Fr. induction l as [|a l IH]; intros [|b r] Fr; auto. cbn [combine map fst snd]. f_equal.
  - unfold difference.
    destruct (feature_ok prec emax Hp Hm H1 H2 (enc a)) as (Fa & _), (feature_ok prec emax Hp Hm H1 H2 (enc b)) as (Fb & _).
    assert (Ga : is_finite a = true) by (apply Fl; now left). assert (Gb : is_finite b = true) by (apply Fr; now left).
    destruct (minus_ok prec emax Hp Hm H1 _ _ Fa Fb) as [_ ->], (minus_ok prec emax Hp Hm H1 _ _ Ga Gb) as [_ ->].
    now rewrite !feature_value.
  - apply IH; intros x Hx; [apply Fl|apply Fr]; now right.
Qed.

Lemma row_map {A B} (f : A -> B) (samples : list A) nf i : row (map f samples) nf i = map f (row samples nf i).
Proof. unfold row. now rewrite skipn_map, firstn_map. Qed.

Lemma finite_row (samples : list number) nf i : finite_numbers samples -> finite_numbers (row samples nf i).
Proof.
  intros H. unfold finite_numbers in *. rewrite Forall_forall in *. intros x Hx. apply H. unfold row in Hx.
  rewrite <- (firstn_skipn (i * nf) samples). apply in_or_app. right.
  rewrite <- (firstn_skipn nf (skipn (i * nf) samples)). apply in_or_app. now left.
Qed.

Lemma computed_encoded order (l r : list number) : finite_numbers l -> finite_numbers r ->
  proj1_sig (computed prec emax Hp Hm order (map enc l) (map enc r)) = euclid order l r.
Proof using Hfmt.
  intros Hl Hr. destruct Hfmt as [H1 H2]. rewrite computed_value by auto. now apply euclid_encoded.
Qed.

Lemma encoded_input tol samples nf policy indices : float_input tol samples nf policy indices ->
  tree_input tol (map enc samples) nf policy (- largest prec emax) (largest prec emax) indices.
Proof using Hp Hm Hfmt.
  intros (H1 & H2 & H3 & H4 & H5). split; [auto|]. split; [auto|]. split; [|auto]. split.
  - intros j Hj i Hi. rewrite map_length. specialize (H4 i Hi). lia.
  - intros i j Hi Hj. unfold val. specialize (H4 i Hi).
    assert (H : In (nth (i * nf + j) (map enc samples) 0%Z) (map enc samples)) by (apply nth_In; rewrite map_length; lia).
    apply in_map_iff in H as (x & E & Hx). rewrite <- E. destruct Hfmt.
    assert (C : clamp prec emax (enc x) = enc x) by (apply encode_clamp; auto; now apply (finite_in samples)).
    unfold clamp in C. pose proof (largest_nonneg prec emax ltac:(auto)). lia.
Qed.

Lemma axis_encoded x y : is_finite x = true -> is_finite y = true ->
  axis_distance prec emax Hp Hm (ft (enc x)) (ft (enc y)) = axis_distance prec emax Hp Hm x y.
Proof using Hfmt.
  intros Fx Fy. destruct Hfmt as [H1 H2].
  destruct (feature_ok prec emax Hp Hm H1 H2 (enc x)) as (Ga & _), (feature_ok prec emax Hp Hm H1 H2 (enc y)) as (Gb & _).
  apply level_inj; try (apply axis_is_distance; auto). unfold axis_distance.
  destruct (minus_ok prec emax Hp Hm H1 _ _ Ga Gb) as [_ ->], (minus_ok prec emax Hp Hm H1 _ _ Fx Fy) as [_ ->].
  now rewrite !feature_value.
Qed.

Lemma below_infinity (d : distance_type prec emax) : is_finite (proj1_sig d) = true -> closer prec emax d (infinite prec emax) = true.
Proof.
  intros F. rewrite closer_level. apply Rlt_bool_true. unfold level. rewrite F. cbn [proj1_sig infinite is_finite].
  eapply Rle_lt_trans; [apply Rle_abs|]. now apply finite_below.
Qed.

Lemma gap_finite order x y : is_finite x = true -> is_finite y = true -> is_finite (difference prec emax Hp Hm x y) = true ->
  m_lt (M order) (m_gap (M order) (enc x) (enc y)) (m_inf (M order)) = true.
Proof using Hfmt.
  intros Fx Fy F. cbn [m_lt m_gap m_inf binary_metric]. apply below_infinity.
  rewrite axis_encoded by auto. destruct Hfmt as [H1 H2]. rewrite as_distance_good by now apply axis_is_distance.
  unfold axis_distance. rewrite is_finite_Babs. exact F.
Qed.

(** Results of a search, with distances as numbers. *)
Notation shown e := (fst e, proj1_sig (snd e)).
Notation reported b := (combine (buf_indices b) (map (@proj1_sig _ _) (buf_distances b))).

Lemma combine_shown (l : list nat) (d : list (distance_type prec emax)) :
  map (fun e => shown e) (combine l d) = combine l (map (@proj1_sig _ _) d).
Proof. revert d. induction l as [|x l IH]; intros [|y d]; simpl; auto. now rewrite IH. Qed.

Lemma scan_encoded order samples nf query indices : finite_numbers samples -> finite_numbers query ->
  map (fun e => shown e) (with_distances (computed prec emax Hp Hm order) (map enc samples) nf (map enc query) indices)
  = scan order samples nf query indices.
Proof using Hfmt.
  intros Hs Hq. unfold with_distances, scan. rewrite map_map. apply map_ext. intros i. cbn [fst snd].
  rewrite row_map, computed_encoded; auto. now apply finite_row.
Qed.

Lemma nearest_shown k (c s : list (nat * distance_type prec emax)) :
  k_nearest (closer prec emax) k c s -> k_nearest Bltb k (map (fun e => shown e) c) (map (fun e => shown e) s).
Proof.
  intros (rest & P & L & H). exists (map (fun e => shown e) rest). rewrite <- map_app, !map_length. splits; auto.
  - now apply Permutation_map.
  - intros x y Hx Hy. apply in_map_iff in Hx as (x' & <- & Hx), Hy as (y' & <- & Hy). exact (H x' y' Hx Hy).
Qed.

Lemma closest_shown (c : list (nat * distance_type prec emax)) i d :
  is_closest (closer prec emax) c (i, d) -> is_closest Bltb (map (fun e => shown e) c) (i, proj1_sig d).
Proof.
  intros [H1 H2]. split.
  - apply in_map_iff. exists (i, d). auto.
  - intros x Hx. apply in_map_iff in Hx as (x' & <- & Hx). exact (H2 x' Hx).
Qed.

(** ** C82 *)

(** The search through a tree returns what a linear scan with the same rounded distances returns. *)
Theorem c82_search_matches_linear_scan :
  forall order tol samples nf bucket max_depth policy center indices query k,
  adds_each_once order -> float_input tol samples nf policy indices ->
  finite_numbers query -> length query = nf -> 1 <= k -> (Z.of_nat k < 2 ^ 64)%Z ->
  exists tree b,
    make_kdtree tol (map enc samples) nf bucket max_depth policy (- largest prec emax) (largest prec emax) center indices
      = Ok tree /\
    search (M order) (map enc samples) nf tree Unbounded (map enc query) accept_all k tt = Ok (b, tt) /\
    length (buf_indices b) = length (buf_distances b) /\
    k_nearest Bltb k (scan order samples nf query indices) (reported b) /\
    (indices <> [] ->
       is_closest Bltb (scan order samples nf query indices) (buf_closest_index b, proj1_sig (buf_closest_distance b))).
Proof using Hfmt.
  intros order tol samples nf bucket max_depth policy center indices query k Ho Hi Hq Hl H1 Hk.
  destruct (c15_tree_search_finds_the_k_nearest (M order) _ tol (map enc samples) nf bucket max_depth policy
    (- largest prec emax) (largest prec emax) center indices (map enc query) k (rounded_ok order Ho)
    (encoded_input _ _ _ _ _ Hi)) as (tree & b & E & Es & (L & K & C)); auto.
  { now rewrite map_length. }
  destruct Hi as (_ & _ & Hs & _).
  exists tree, b. splits; auto.
  - rewrite <- combine_shown, <- (scan_encoded order samples) by auto. now apply nearest_shown.
  - intros Hne. rewrite <- (scan_encoded order samples) by auto. apply closest_shown. apply C.
    unfold with_distances. destruct indices; [congruence|discriminate].
Qed.

(** So does the search of a ball, when no difference of features overflows. *)
Theorem c82_radius_search_matches_linear_scan :
  forall order tol samples nf bucket max_depth policy center indices query (radius : distance_type prec emax),
  adds_each_once order -> float_input tol samples nf policy indices ->
  finite_numbers query -> length query = nf -> (Z.of_nat (length indices) < 2 ^ 64)%Z ->
  (forall x y, In x samples -> In y query -> is_finite (difference prec emax Hp Hm x y) = true) ->
  exists tree b,
    make_kdtree tol (map enc samples) nf bucket max_depth policy (- largest prec emax) (largest prec emax) center indices
      = Ok tree /\
    search (M order) (map enc samples) nf tree (Radius (D := m_dist (M order)) radius) (map enc query) accept_all default_capacity tt
      = Ok (b, tt) /\
    length (buf_indices b) = length (buf_distances b) /\
    Permutation (reported b)
      (filter (fun e => Bltb (snd e) (proj1_sig radius)) (scan order samples nf query indices)).
Proof using Hfmt.
  intros order tol samples nf bucket max_depth policy center indices query radius Ho Hi Hq Hl Hk Hd.
  destruct (c16_radius_search_is_exact (M order) _ tol (map enc samples) nf bucket max_depth policy
    (- largest prec emax) (largest prec emax) center indices (map enc query) radius (rounded_ok order Ho)
    (encoded_input _ _ _ _ _ Hi)) as (tree & b & E & Es & L & P); auto.
  { now rewrite map_length. }
  { left. destruct Hi as (_ & _ & Hs & _). intros a b Ha Hb. apply in_map_iff in Ha as (x & <- & Hx), Hb as (y & <- & Hy). apply gap_finite; auto; [now apply (finite_in samples)|now apply (finite_in query)]. }
  destruct Hi as (_ & _ & Hs & _).
  exists tree, b. splits; auto.
  rewrite <- combine_shown, P, <- (scan_encoded order samples) by auto.
  clear. induction (with_distances _ _ _ _ _) as [|e l IH]; auto. cbn [filter map fst snd].
  change (m_lt (M order) (snd e) radius) with (Bltb (proj1_sig (snd e)) (proj1_sig radius)).
  destruct (Bltb _ _); cbn [map]; rewrite IH; auto.
Qed.

Lemma between_encoded order samples nf i j : finite_numbers samples ->
  proj1_sig (between (computed prec emax Hp Hm order) (map enc samples) nf i j)
  = euclid order (row samples nf i) (row samples nf j).
Proof using Hfmt. intros Hs. unfold between. rewrite !row_map. apply computed_encoded; now apply finite_row. Qed.

Lemma finite_encoded order samples nf n : finite_numbers samples ->
  (forall i j, i < n -> j < n -> is_finite (euclid order (row samples nf i) (row samples nf j)) = true) ->
  finite_metric (M order) (computed prec emax Hp Hm order) (map enc samples) nf n.
Proof using Hfmt.
  intros Hs H. split.
  - intros p q. destruct Hfmt. now apply computed_sym.
  - intros i j Hi Hj. apply below_infinity. rewrite between_encoded by auto. now apply H.
Qed.

(** The spanning tree is a minimum one for the rounded distances, when none of them is infinite. *)
Theorem c82_spanning_tree_is_minimum :
  forall order tol samples nf n bucket max_depth policy center oc oe k fuel,
  adds_each_once order -> float_input tol samples nf policy (seq 0 n) -> length samples = n * nf ->
  (forall i j, i < n -> j < n -> is_finite (euclid order (row samples nf i) (row samples nf j)) = true) ->
  permuting oc -> permuting oe -> 1 <= n -> k <= 1 -> n <= S fuel ->
  exists tree mst,
    make_kdtree tol (map enc samples) nf bucket max_depth policy (- largest prec emax) (largest prec emax) center (seq 0 n)
      = Ok tree /\
    make_tree (M order) (map enc samples) nf tree oc oe fuel k = Ok mst /\
    spanning_tree n mst /\
    (forall a b (w : distance_type prec emax), In (a, b, w) mst ->
       proj1_sig w = euclid order (row samples nf a) (row samples nf b)) /\
    forall other, spanning_tree n other ->
      (forall a b (w : distance_type prec emax), In (a, b, w) other ->
         proj1_sig w = euclid order (row samples nf a) (row samples nf b)) ->
      lighter (closer prec emax) mst other.
Proof using Hfmt.
  intros order tol samples nf n bucket max_depth policy center oc oe k fuel Ho Hi HL Hf Hoc Hoe Hn Hk Hfuel.
  assert (Hs : finite_numbers samples) by apply Hi.
  assert (Hw : whole_input tol (map enc samples) nf n policy (- largest prec emax) (largest prec emax)).
  { split; [now apply encoded_input|]. now rewrite map_length. }
  pose proof (finite_encoded order samples nf n Hs Hf) as Hfin.
  destruct (c20_boruvka_returns_a_spanning_tree (M order) _ tol (map enc samples) nf n bucket max_depth policy
    (- largest prec emax) (largest prec emax) center oc oe k fuel (rounded_ok order Ho) Hfin Hw)
    as (tree & mst & E & E1 & T & Wt); auto. { lia. }
  destruct (c21_boruvka_tree_is_minimum (M order) _ tol (map enc samples) nf n bucket max_depth policy
    (- largest prec emax) (largest prec emax) center oc oe k fuel (rounded_ok order Ho) Hfin Hw)
    as (tree' & mst' & E' & E1' & Hmin); auto.
  rewrite E in E'. inversion E'; subst tree'. rewrite E1 in E1'. inversion E1'; subst mst'.
  exists tree, mst. splits; auto.
  - intros a b w H. rewrite (proj1 (Wt a b w H) Hk). now apply between_encoded.
  - intros other To Hother. apply Hmin; auto. intros a b w H. apply dist_inj.
    rewrite (Hother a b w H). symmetry. now apply between_encoded.
Qed.

(** DBSCAN groups the core samples by the rounded distances. *)
Theorem c82_dbscan_groups_by_density :
  forall order tol samples nf bucket max_depth policy center indices (o : dbscan_options (distance_type prec emax)),
  adds_each_once order -> float_input tol samples nf policy indices -> whole_index samples nf indices ->
  (Z.of_nat (length indices) < 2 ^ 64)%Z ->
  (forall x y, In x samples -> In y samples -> is_finite (difference prec emax Hp Hm x y) = true) ->
  let n := length samples / nf in
  let near i j := Bltb (euclid order (row samples nf j) (row samples nf i)) (proj1_sig (d_radius o)) in
  exists tree labels,
    make_kdtree tol (map enc samples) nf bucket max_depth policy (- largest prec emax) (largest prec emax) center indices
      = Ok tree /\
    dbscan_predict (M order) (map enc samples) nf tree o = Ok labels /\
    forall i j, i < n -> j < n -> core n near (d_min_samples o) i = true -> core n near (d_min_samples o) j = true ->
      exists a b, nth_error labels i = Some a /\ nth_error labels j = Some b /\ a <> 0 /\
        (a = b <-> dense n near (d_min_samples o) i j).
Proof using Hfmt.
  intros order tol samples nf bucket max_depth policy center indices o Ho Hi Hw Hk Hd n near.
  assert (Hs : finite_numbers samples) by apply Hi.
  destruct (c35_core_samples_by_density_connectivity (M order) _ tol (map enc samples) nf bucket max_depth policy
    (- largest prec emax) (largest prec emax) center indices o (rounded_ok order Ho)) as (tree & labels & E & E1 & H); auto.
  - intros p q. destruct Hfmt. now apply computed_sym.
  - now apply encoded_input.
  - unfold whole_index. rewrite map_length. exact Hw.
  - left. intros a b Ha Hb. apply in_map_iff in Ha as (x & <- & Hx), Hb as (y & <- & Hy).
    apply gap_finite; auto; now apply (finite_in samples).
  - exists tree, labels. splits; auto. cbv zeta in H. rewrite map_length in H. fold n in H.
    set (near' := in_ball (m_lt (M order)) (computed prec emax Hp Hm order) (map enc samples) nf (d_radius o)) in H.
    assert (En : forall i j, near' i j = near i j).
    { intros i j. unfold near', near, in_ball. change (m_lt (M order)) with (closer prec emax). unfold closer.
      f_equal. exact (between_encoded order samples nf j i Hs). }
    assert (Ec : forall i, core n near' (d_min_samples o) i = core n near (d_min_samples o) i).
    { intros i. unfold core. do 2 f_equal. apply filter_ext. intros j. apply En. }
    assert (Ed : forall i j, dense n near' (d_min_samples o) i j <-> dense n near (d_min_samples o) i j).
    { clear -En Ec. clearbody near near'. intros i j. split; intros D; induction D as [i Hn Hc|i j l Hn Hc Hj D IH].
      - constructor; auto. now rewrite <- Ec.
      - apply dense_step with j; auto; [now rewrite <- Ec|now rewrite <- En].
      - constructor; auto. now rewrite Ec.
      - apply dense_step with j; auto; [now rewrite Ec|now rewrite En]. }
    intros i j Hin Hjn Hci Hcj. destruct (H i j) as (a & b & Ha & Hb & Hne & Hab); auto; try now rewrite Ec.
    exists a, b. splits; auto. rewrite Hab. apply Ed.
Qed.

Lemma reach_encoded order samples nf n t i j : finite_numbers samples ->
  reach (closer prec emax) n (between (computed prec emax Hp Hm order) (map enc samples) nf) t i j <->
  reach Bltb n (fun a b => euclid order (row samples nf a) (row samples nf b)) (proj1_sig t) i j.
Proof using Hfmt.
  intros Hs. split; intros R; induction R as [i Hi|i j k Hi Hj Ht R IH]; try (constructor; auto; fail).
  - apply reach_step with j; auto. unfold closer in Ht. now rewrite between_encoded in Ht.
  - apply reach_step with j; auto. unfold closer. now rewrite between_encoded.
Qed.

(** The clusters of HDBSCAN without core distances are single linkage clusters of the rounded distances. *)
Theorem c82_hdbscan_clusters_are_single_linkage_clusters :
  forall add inverse tol samples nf n bucket max_depth policy center oc oe sort order o fuel,
  adds_each_once add -> float_input tol samples nf policy (seq 0 n) -> length samples = n * nf ->
  (forall i j, i < n -> j < n -> is_finite (euclid add (row samples nf i) (row samples nf j)) = true) ->
  permuting oc -> permuting oe -> sorts (closer prec emax) sort -> (forall l, Permutation (order l) l) ->
  1 <= n -> h_k_nearest_neighbors o <= 1 -> n <= S fuel ->
  exists tree labels,
    make_kdtree tol (map enc samples) nf bucket max_depth policy (- largest prec emax) (largest prec emax) center (seq 0 n)
      = Ok tree /\
    hdbscan_predict (M add) inverse (map enc samples) nf tree oc oe fuel sort order o = Ok labels /\
    length labels = n /\
    forall (t : distance_type prec emax) i j k label other,
      nth_error labels i = Some label -> nth_error labels j = Some label ->
      nth_error labels k = Some other -> label <> 0 -> other <> label ->
      reach Bltb n (fun a b => euclid add (row samples nf a) (row samples nf b)) (proj1_sig t) i k ->
      reach Bltb n (fun a b => euclid add (row samples nf a) (row samples nf b)) (proj1_sig t) i j.
Proof using Hfmt.
  intros add inverse tol samples nf n bucket max_depth policy center oc oe sort order o fuel Ho Hi HL Hf Hoc Hoe Hsort Horder Hn Hk Hfuel.
  assert (Hs : finite_numbers samples) by apply Hi.
  assert (Hw : whole_input tol (map enc samples) nf n policy (- largest prec emax) (largest prec emax)).
  { split; [now apply encoded_input|]. now rewrite map_length. }
  pose proof (finite_encoded add samples nf n Hs Hf) as Hfin.
  destruct (c57_hdbscan_clusters_are_single_linkage_clusters (M add) _ inverse tol (map enc samples) nf n bucket max_depth policy
    (- largest prec emax) (largest prec emax) center oc oe sort order o fuel (rounded_ok add Ho) Hfin Hw)
    as (tree & labels & E & E1 & H); auto.
  destruct (c33_hdbscan_returns_labels (M add) _ inverse tol (map enc samples) nf n bucket max_depth policy
    (- largest prec emax) (largest prec emax) center oc oe sort order o fuel (rounded_ok add Ho) Hfin Hw)
    as (tree' & labels' & E' & E1' & L & _); auto. { lia. }
  rewrite E in E'. inversion E'; subst tree'. rewrite E1 in E1'. inversion E1'; subst labels'.
  exists tree, labels. splits; auto. intros t i j k label other H1 H2 H3 H4 H5 H6.
  apply (reach_encoded add samples nf n t i j Hs). apply (H t i j k label other); auto.
  now apply (reach_encoded add samples nf n t i k Hs).
Qed.
End Formats.

(** ** Cases *)

Lemma terms_one_by_one n : terms (one_by_one n) = seq 0 n.
Proof. induction n as [|n IH]; auto. cbn [one_by_one terms]. rewrite IH, seq_S. reflexivity. Qed.

Lemma one_by_one_ok : adds_each_once one_by_one.
Proof. intros n. now rewrite terms_one_by_one. Qed.

Lemma all_fused_ok : adds_each_once all_fused.
Proof.
  intros n. induction n as [|n IH]; [constructor|]. cbn [all_fused terms]. rewrite IH, seq_S. apply Permutation_cons_append.
Qed.

Lemma terms_four b : terms (four_by_four b) = seq 0 (4 * b).
Proof.
  induction b as [|b IH]; auto. cbn [four_by_four terms]. rewrite IH.
  replace (4 * S b) with (4 * b + 4) by lia. rewrite seq_app. f_equal.
  rewrite Nat.add_0_l. generalize (4 * b). intros k. cbn [seq app].
  now rewrite !Nat.add_succ_r, Nat.add_0_r.
Qed.

Lemma terms_rest count : forall g first, terms g = seq 0 first -> terms (and_the_rest g first count) = seq 0 (first + count).
Proof.
  induction count as [|c IH]; intros g first H; cbn [and_the_rest].
  - now rewrite Nat.add_0_r.
  - rewrite (IH _ (S first)); [f_equal; lia|]. cbn [terms]. rewrite H, seq_S. reflexivity.
Qed.

Lemma libstdcxx_ok : adds_each_once libstdcxx.
Proof.
  intros n. unfold libstdcxx. rewrite (terms_rest _ _ _ (terms_four (n / 4))).
  rewrite <- Nat.div_mod by lia. reflexivity.
Qed.

Notation double := (binary_float 53 1024).
Definition double_of (m e : Z) : double := binary_normalize 53 1024 prec_double emax_double mode_NE m e false.
(** The double nearest to n/10. *)
Definition tenths (n : Z) : double :=
  @Bdiv 53 1024 prec_double emax_double mode_NE (double_of n 0) (double_of 10 0).
Definition decimals : list double := map tenths [51; 12; 23; 27; 93; 31; 22; 48; 74; 58; 25; 66; 3; 79]%Z.
Definition double_tree (samples : list double) (nf bucket : nat) policy : res kdtree :=
  make_kdtree 0 (map (encode 53 1024) samples) nf bucket 10 policy (- largest 53 1024) (largest 53 1024) half
    (seq 0 (length samples / nf)).
Definition numbers_of {A} (r : res (buffer (distance_type 53 1024) * A)) : option (list nat * list SpecFloat.spec_float) :=
  match r with Ok (b, _) => Some (buf_indices b, map (fun d => B2SF (proj1_sig d)) (buf_distances b)) | _ => None end.

Lemma double_format : format_ok 53 1024.
Proof. split; lia. Qed.
Lemma float_format : format_ok 24 128.
Proof. split; lia. Qed.

Lemma exact_separated (samples : list double) nf j indices : separated 0 (map (encode 53 1024) samples) nf j indices.
Proof. intros x y _ _ H. lia. Qed.

Lemma double_input (samples : list double) nf n policy : policy_ok nf policy -> length samples = n * nf ->
  forallb is_finite samples = true -> float_input 0 samples nf policy (seq 0 n).
Proof.
  intros Hp HL HF. unfold float_input. splits; auto; try lia.
  - apply Forall_forall. apply forallb_forall. exact HF.
  - intros i Hi. apply in_seq in Hi. rewrite HL. nia.
  - intros j _. apply exact_separated.
Qed.

Lemma decimals_input : float_input 0 decimals 2 cycle (seq 0 7).
Proof. apply double_input; [exact cycle_ok|reflexivity|vm_compute; reflexivity]. Qed.

Definition shown_edges (r : res (list (nat * nat * distance_type 53 1024))) : option (list (nat * nat * SpecFloat.spec_float)) :=
  match r with Ok l => Some (map (fun e => (fst e, B2SF (proj1_sig (snd e)))) l) | _ => None end.
Notation dfinite m e := (SpecFloat.S754_finite false m e).

Example c82_case :
  format_ok 53 1024 /\ format_ok 24 128 /\ adds_each_once libstdcxx /\ adds_each_once all_fused /\ adds_each_once one_by_one /\
  float_input 0 decimals 2 cycle (seq 0 7) /\ finite_numbers [tenths 33; tenths 33] /\
  numbers_of (with_tree (double_tree decimals 2 1 cycle) (fun t =>
    search (binary64_metric libstdcxx) (map (encode 53 1024) decimals) 2 t Unbounded
      (map (encode 53 1024) [tenths 33; tenths 33]) accept_all 3 tt))
    = Some ([1; 0; 3], [dfinite 5252054556168116 (-52); dfinite 6228170547358494 (-51); dfinite 8377179550936864 (-52)]) /\
  map (fun e => (fst e, B2SF (snd e)))
      (scan (Hp := prec_double) (Hm := emax_double) libstdcxx decimals 2 [tenths 33; tenths 33] (seq 0 7))
    = [(0, dfinite 6228170547358494 (-51)); (1, dfinite 5252054556168116 (-52)); (2, dfinite 6759151398824072 (-50));
       (3, dfinite 8377179550936864 (-52)); (4, dfinite 5406664668838172 (-50)); (5, dfinite 7646178501874379 (-51));
       (6, dfinite 6183230717261277 (-50))].
Proof.
  split; [exact double_format|]. split; [exact float_format|]. split; [exact libstdcxx_ok|]. split; [exact all_fused_ok|].
  split; [exact one_by_one_ok|]. split; [exact decimals_input|]. split; [repeat constructor|].
  split; vm_compute; reflexivity.
Qed.

Lemma all_differences_finite (l r : list double) :
  forallb (fun x => forallb (fun y => is_finite (difference 53 1024 prec_double emax_double x y)) r) l = true ->
  forall x y, In x l -> In y r -> is_finite (difference 53 1024 prec_double emax_double x y) = true.
Proof.
  intros H x y Hx Hy. rewrite forallb_forall in H. specialize (H x Hx). rewrite forallb_forall in H. now apply H.
Qed.

Example c82_radius_case :
  float_input 0 decimals 2 cycle (seq 0 7) /\
  (forall x y, In x decimals -> In y [tenths 33; tenths 33] -> is_finite (difference 53 1024 prec_double emax_double x y) = true) /\
  numbers_of (with_tree (double_tree decimals 2 1 cycle) (fun t =>
    search (binary64_metric all_fused) (map (encode 53 1024) decimals) 2 t (Radius (as_distance 53 1024 (tenths 25)))
      (map (encode 53 1024) [tenths 33; tenths 33]) accept_all default_capacity tt))
    = Some ([3; 1], [dfinite 8377179550936864 (-52); dfinite 5252054556168116 (-52)]).
Proof.
  split; [exact decimals_input|]. split; [apply all_differences_finite; vm_compute; reflexivity|]. vm_compute. reflexivity.
Qed.

Lemma all_distances_finite order (samples : list double) nf n :
  forallb (fun i => forallb (fun j => is_finite (euclidean 53 1024 prec_double emax_double order (row samples nf i) (row samples nf j)))
    (seq 0 n)) (seq 0 n) = true ->
  forall i j, i < n -> j < n -> is_finite (euclidean 53 1024 prec_double emax_double order (row samples nf i) (row samples nf j)) = true.
Proof.
  intros H i j Hi Hj. rewrite forallb_forall in H. specialize (H i ltac:(apply in_seq; lia)).
  rewrite forallb_forall in H. apply H. apply in_seq. lia.
Qed.

Example c82_tree_case :
  (forall i j, i < 7 -> j < 7 ->
     is_finite (euclidean 53 1024 prec_double emax_double libstdcxx (row decimals 2 i) (row decimals 2 j)) = true) /\
  shown_edges (with_tree (double_tree decimals 2 1 cycle) (fun t =>
    make_tree (binary64_metric libstdcxx) (map (encode 53 1024) decimals) 2 t keep keep 6 1))
    = Some [(0, 1, dfinite 7152788143459258 (-51)); (1, 3, dfinite 4734138000949601 (-51));
            (2, 4, dfinite 7434350420174637 (-51)); (3, 5, dfinite 8218298119450282 (-52));
            (6, 5, dfinite 5754218772167197 (-51)); (2, 0, dfinite 5190142122798747 (-50))].
Proof.
  split; [apply all_distances_finite; vm_compute; reflexivity|]. vm_compute. reflexivity.
Qed.

Example c82_dbscan_case :
  whole_index decimals 2 (seq 0 7) /\
  with_tree (double_tree decimals 2 1 cycle) (fun t =>
    dbscan_predict (binary64_metric libstdcxx) (map (encode 53 1024) decimals) 2 t
      (Build_dbscan_options 1 (as_distance 53 1024 (tenths 34)))) = Ok [1; 1; 2; 1; 2; 1; 1].
Proof.
  split; [apply Permutation_refl|]. vm_compute. reflexivity.
Qed.

Lemma isort_doubles_sort : sorts (closer 53 1024) (isort (closer 53 1024)).
Proof.
  pose proof (closer_order 53 1024) as Ho.
  intros l. split; [apply isort_perm|]. pose proof (isort_asc _ Ho l) as H.
  induction H as [|e l' H1 H2 IH]; constructor; auto. apply Forall_forall. intros x Hx. now apply H1.
Qed.

(** The inverse of a distance, 1000 instead of an infinite one. *)
Definition inverse_number (d : distance_type 53 1024) : QArith_base.Q :=
  match encode 53 1024 (proj1_sig d) with
  | Zpos p => QArith_base.Qmake (2 ^ 1074) p
  | _ => QArith_base.Qmake 1000 1
  end.

Example c82_hdbscan_case :
  sorts (closer 53 1024) (isort (closer 53 1024)) /\
  with_tree (double_tree decimals 2 1 cycle) (fun t =>
    hdbscan_predict (binary64_metric libstdcxx) inverse_number (map (encode 53 1024) decimals) 2 t flip keep 6
      (isort (closer 53 1024)) (@rev _) (Build_hdbscan_options 1 2 false false)) = Ok [2; 2; 1; 2; 1; 2; 2].
Proof.
  split; [exact isort_doubles_sort|]. vm_compute. reflexivity.
Qed.

(** Distinct samples can be at distance 0, and nearer than their difference in one feature: squares underflow. *)
Theorem c82_distinct_samples_are_apart_refuted :
  exists l r : list double, finite_numbers l /\ finite_numbers r /\ length l = length r /\
    exact_square l r <> 0%Z /\
    euclidean 53 1024 prec_double emax_double libstdcxx l r = B754_zero false /\
    exists x y, In (x, y) (combine l r) /\
      Bltb (B754_zero false) (axis_distance 53 1024 prec_double emax_double x y) = true.
Proof.
  exists [double_of 1 (-600); double_of 1 0], [double_of 0 0; double_of 1 0].
  split; [repeat constructor|]. split; [repeat constructor|]. split; [reflexivity|]. split; [vm_compute; discriminate|].
  split; [vm_compute; reflexivity|]. exists (double_of 1 (-600)), (double_of 0 0). split; [now left|vm_compute; reflexivity].
Qed.

Lemma answer_indices {D} (r : res (buffer D * unit)) l :
  match r with Ok (b, _) => Some (buf_indices b) | _ => None end = Some l -> exists b, r = Ok (b, tt) /\ buf_indices b = l.
Proof. destruct r as [[b []]| | |]; intros H; inversion H. now exists b. Qed.

(** The sample reported as the nearest need not be the nearest one in exact arithmetic. *)
Theorem c82_nearest_by_exact_distance_refuted :
  exists (samples : list double) query i j tree b,
    float_input 0 samples 2 cycle (seq 0 2) /\ finite_numbers query /\ length query = 2 /\
    double_tree samples 2 4 cycle = Ok tree /\
    search (binary64_metric libstdcxx) (map (encode 53 1024) samples) 2 tree Unbounded (map (encode 53 1024) query) accept_all 1 tt
      = Ok (b, tt) /\
    buf_indices b = [i] /\ j < 2 /\ (exact_square (row samples 2 j) query < exact_square (row samples 2 i) query)%Z.
Proof.
  exists [double_of 1 0; double_of 1 (-40); double_of 1 0; double_of 0 0], [double_of 0 0; double_of 0 0], 0, 1.
  destruct (double_tree _ 2 4 cycle) as [tree| | |] eqn:E; [|vm_compute in E; discriminate..].
  destruct (answer_indices (search (binary64_metric libstdcxx)
    (map (encode 53 1024) [double_of 1 0; double_of 1 (-40); double_of 1 0; double_of 0 0]) 2 tree Unbounded
    (map (encode 53 1024) [double_of 0 0; double_of 0 0]) accept_all 1 tt) [0]) as (b & Eb & Ib).
  { vm_compute in E. inversion E; subst tree. vm_compute. reflexivity. }
  exists tree, b. split; [apply double_input; [exact cycle_ok|reflexivity|vm_compute; reflexivity]|].
  split; [repeat constructor|]. splits; auto. vm_compute. reflexivity.
Qed.

(** Whether the compiler fuses multiplications with additions can decide which sample is reported. *)
Theorem c82_nearest_is_the_same_in_each_build_refuted :
  exists (samples : list double) query tree b b',
    float_input 0 samples 2 cycle (seq 0 2) /\ finite_numbers query /\ length query = 2 /\
    double_tree samples 2 4 cycle = Ok tree /\
    search (binary64_metric one_by_one) (map (encode 53 1024) samples) 2 tree Unbounded (map (encode 53 1024) query) accept_all 1 tt
      = Ok (b, tt) /\
    search (binary64_metric all_fused) (map (encode 53 1024) samples) 2 tree Unbounded (map (encode 53 1024) query) accept_all 1 tt
      = Ok (b', tt) /\
    buf_indices b = [0] /\ buf_indices b' = [1].
Proof.
  exists (map tenths [106; 46; 55; 97]%Z), (map tenths [29; 20]%Z).
  destruct (double_tree _ 2 4 cycle) as [tree| | |] eqn:E; [|vm_compute in E; discriminate..].
  destruct (answer_indices (search (binary64_metric one_by_one) (map (encode 53 1024) (map tenths [106; 46; 55; 97]%Z)) 2 tree
    Unbounded (map (encode 53 1024) (map tenths [29; 20]%Z)) accept_all 1 tt) [0]) as (b & Eb & Ib).
  { vm_compute in E. inversion E; subst tree. vm_compute. reflexivity. }
  destruct (answer_indices (search (binary64_metric all_fused) (map (encode 53 1024) (map tenths [106; 46; 55; 97]%Z)) 2 tree
    Unbounded (map (encode 53 1024) (map tenths [29; 20]%Z)) accept_all 1 tt) [1]) as (b' & Eb' & Ib').
  { vm_compute in E. inversion E; subst tree. vm_compute. reflexivity. }
  exists tree, b, b'. split; [apply double_input; [exact cycle_ok|reflexivity|vm_compute; reflexivity]|].
  split; [repeat constructor|]. splits; auto.
Qed.

(** ** C84 *)

Lemma two_far_apart (a b : double) : is_finite a = true -> is_finite b = true ->
  euclidean 53 1024 prec_double emax_double libstdcxx [a] [b] = B754_infinity false ->
  euclidean 53 1024 prec_double emax_double libstdcxx [b] [a] = B754_infinity false ->
  let samples := [a; b] in
  exists tree,
    float_input 0 samples 1 (fun _ _ _ _ => 0) (seq 0 2) /\ double_tree samples 1 4 (fun _ _ _ _ => 0) = Ok tree /\
    forall fuel, make_tree (binary64_metric libstdcxx) (map (encode 53 1024) samples) 1 tree keep keep fuel 1 = Fuel.
Proof.
  intros Fa Fb Eab Eba samples.
  assert (Hi : float_input 0 samples 1 (fun _ _ _ _ => 0) (seq 0 2)).
  { apply double_input; [intros ? ? ? ?; lia|reflexivity|]. unfold samples. cbn [forallb]. now rewrite Fa, Fb. }
  assert (Hw : forall i j, i < 2 -> j < 2 -> Nat.eqb 0 i <> Nat.eqb 0 j ->
    closer 53 1024 (between (computed 53 1024 prec_double emax_double libstdcxx) (map (encode 53 1024) samples) 1 i j)
      (infinite 53 1024) = false).
  { intros i j Hi' Hj Hs. unfold closer. rewrite (between_encoded _ _ double_format) by apply Hi.
    destruct i as [|[|i]], j as [|[|j]]; try lia; try (exfalso; apply Hs; reflexivity).
    - change (row samples 1 0) with [a]. change (row samples 1 1) with [b]. rewrite ?Eab, ?Eba. reflexivity.
    - change (row samples 1 0) with [a]. change (row samples 1 1) with [b]. rewrite ?Eab, ?Eba. reflexivity. }
  destruct (c84_boruvka_never_returns_across_infinity (binary64_metric libstdcxx)
    (computed 53 1024 prec_double emax_double libstdcxx) 0 (map (encode 53 1024) samples) 1 2 4 10 (fun _ _ _ _ => 0)
    (- largest 53 1024) (largest 53 1024) half keep keep 1 (Nat.eqb 0) 0 1) as (tree & E & H).
  - exact (rounded_ok prec_double emax_double double_format _ libstdcxx_ok).
  - split; [|reflexivity]. apply (encoded_input prec_double emax_double double_format). exact Hi.
  - intros l. apply Permutation_refl.
  - intros l. apply Permutation_refl.
  - reflexivity.
  - lia.
  - lia.
  - discriminate.
  - exact Hw.
  - exists tree. split; [exact Hi|]. split; [exact E|exact H].
Qed.

(** Finite doubles, no spanning tree: the distance of the two samples overflows and Boruvka's algorithm runs forever. *)
Theorem c84_finite_doubles_have_a_spanning_tree_refuted :
  exists (samples : list double) tree,
    float_input 0 samples 1 (fun _ _ _ _ => 0) (seq 0 2) /\ length samples = 2 /\
    double_tree samples 1 4 (fun _ _ _ _ => 0) = Ok tree /\
    forall fuel, make_tree (binary64_metric libstdcxx) (map (encode 53 1024) samples) 1 tree keep keep fuel 1 = Fuel.
Proof.
  destruct (two_far_apart (double_of 1 600) (double_of (-1) 600)) as (tree & H1 & H2 & H3);
    [vm_compute; reflexivity..|].
  exists [double_of 1 600; double_of (-1) 600], tree. split; [exact H1|]. split; [reflexivity|]. split; [exact H2|exact H3].
Qed.

Print Assumptions c82_search_matches_linear_scan.
Print Assumptions c82_radius_search_matches_linear_scan.
Print Assumptions c82_spanning_tree_is_minimum.
Print Assumptions c82_dbscan_groups_by_density.
Print Assumptions c82_hdbscan_clusters_are_single_linkage_clusters.
Print Assumptions c82_distinct_samples_are_apart_refuted.
Print Assumptions c82_nearest_by_exact_distance_refuted.
Print Assumptions c82_nearest_is_the_same_in_each_build_refuted.
Print Assumptions c84_finite_doubles_have_a_spanning_tree_refuted.
