(** Property C98: DBSCAN on changed data and with changed parameters. *)
From Coq Require Import List Arith ZArith Lia Bool Permutation Sorted.
From Verif Require Import Base SortingModel SortingSpec BoundsModel BoundsSpec BoundsProofs BufferModel BufferSpec BufferProofs
  BufferProps KDTreeModel KDTreeSpec KDTreeProofs KDTreeProps SearchModel SearchSpec SearchProofs SearchProps
  DbscanModel DbscanSpec DbscanProofs DbscanProps.
Import ListNotations.

(** ** Lemmas on density connectivity *)
Lemma core_ext n near near' min i : i < n -> (forall j, j < n -> near i j = near' i j) -> core n near min i = core n near' min i.
Proof. intros Hi H. unfold core. do 2 f_equal. apply filter_ext_in. intros j Hj. apply in_seq in Hj. apply H. lia. Qed.

Lemma dense_lt n near min i j : dense n near min i j -> i < n /\ j < n.
Proof. intros H. split; [destruct (dense_core_l _ _ _ _ _ H)|destruct (dense_core_r _ _ _ _ _ H)]; auto. Qed.

Lemma dense_grow n near near' min min' i j :
  (forall i, i < n -> core n near min i = true -> core n near' min' i = true) ->
  (forall i j, i < n -> j < n -> near i j = true -> near' i j = true) ->
  dense n near min i j -> dense n near' min' i j.
Proof.
  intros Hc Hn H. induction H as [i Hi Hci|i j k Hi Hci Hij Hd IH]; [constructor; auto|].
  eapply dense_step; eauto. apply Hn; auto. now apply dense_lt in Hd.
Qed.

Lemma dense_ext n near near' min i j : (forall i j, i < n -> j < n -> near i j = near' i j) ->
  dense n near min i j -> dense n near' min i j.
Proof.
  intros H. apply dense_grow.
  - intros x Hx. rewrite (core_ext n near near'); auto.
  - intros x y Hx Hy. now rewrite H.
Qed.

Lemma claims_ext n near near' min e x : e < n -> x < n -> (forall i j, i < n -> j < n -> near i j = near' i j) ->
  claims n near min e x -> claims n near' min e x.
Proof.
  intros He Hx H C. unfold claims in *. rewrite <- (core_ext n near near' min x) by auto. rewrite <- (H e x) by auto.
  destruct C as [[C1 C2]|[C1 [C2|(C2 & y & C3 & C4)]]]; [left|right|right]; split; auto.
  - now apply (dense_ext n near near').
  - right. split; auto. exists y. split; [now apply (dense_ext n near near')|]. rewrite <- H; auto. now apply dense_lt in C3.
Qed.

Lemma density_labels_ext n near near' min labels : (forall i j, i < n -> j < n -> near i j = near' i j) ->
  density_labels n near min labels -> density_labels n near' min labels.
Proof.
  intros H (L & F & S1 & HF & A).
  assert (H' : forall i j, i < n -> j < n -> near' i j = near i j) by (intros; symmetry; auto).
  assert (Ff : forall e, founder n near min e <-> founder n near' min e).
  { intros e. unfold founder. split; intros (E1 & E2 & E3); split; auto; split.
    - rewrite <- (core_ext n near near'); auto.
    - intros j Hj. apply E3. now apply (dense_ext n near' near).
    - rewrite (core_ext n near near'); auto.
    - intros j Hj. apply E3. now apply (dense_ext n near near'). }
  assert (Flt : forall e, In e F -> e < n) by (intros e He; now apply HF in He as (He & _)).
  split; auto. exists F. split; auto. split; [intros e; rewrite HF; apply Ff|].
  intros x Hx. destruct (A x Hx) as [[A1 A2]|(c & e & A1 & A2 & A3 & A4)]; [left|right].
  - split; auto. intros e He HC. apply (A2 e He). apply (claims_ext n near' near); auto.
  - exists c, e. split; auto. split; auto. pose proof (Flt e (nth_error_In _ _ A1)).
    split; [apply (claims_ext n near near'); auto|]. intros c' e' Hc' He' HC. apply (A4 c' e' Hc' He').
    apply (claims_ext n near' near); auto. apply Flt. eapply nth_error_In; eauto.
Qed.

(** ** Only the pairs within the radius matter *)
Theorem c98_dbscan_depends_on_near_pairs_only :
  forall n m dist tol samples nf bucket max_depth policy lowest max center indices o
    m' dist' tol' samples' nf' bucket' max_depth' policy' lowest' max' center' indices' o',
  metric_ok m dist -> (forall p q, dist p q = dist q p) -> tree_input tol samples nf policy lowest max indices ->
  whole_index samples nf indices -> balls_complete m dist samples n indices (d_radius o) ->
  metric_ok m' dist' -> (forall p q, dist' p q = dist' q p) -> tree_input tol' samples' nf' policy' lowest' max' indices' ->
  whole_index samples' nf' indices' -> balls_complete m' dist' samples' n indices' (d_radius o') ->
  length samples / nf = n -> length samples' / nf' = n -> (Z.of_nat n < 2 ^ 64)%Z -> d_min_samples o = d_min_samples o' ->
  (forall i j, i < n -> j < n -> in_ball (m_lt m) dist samples nf (d_radius o) i j =
                                 in_ball (m_lt m') dist' samples' nf' (d_radius o') i j) ->
  exists tree tree' labels,
    make_kdtree tol samples nf bucket max_depth policy lowest max center indices = Ok tree /\
    make_kdtree tol' samples' nf' bucket' max_depth' policy' lowest' max' center' indices' = Ok tree' /\
    dbscan_predict m samples nf tree o = Ok labels /\ dbscan_predict m' samples' nf' tree' o' = Ok labels.
Proof.
  intros n m dist tol samples nf bucket max_depth policy lowest max center indices o
    m' dist' tol' samples' nf' bucket' max_depth' policy' lowest' max' center' indices' o'
    Hm Hs Hi Hw Hb Hm' Hs' Hi' Hw' Hb' Hn Hn' Hfit Hmin Hnear.
  pose proof (Permutation_length Hw) as L. pose proof (Permutation_length Hw') as L'. rewrite seq_length in L, L'.
  destruct (c58_dbscan_labels_are_determined m dist tol samples nf bucket max_depth policy lowest max center indices o)
    as (tree & labels & E1 & E2 & D); auto; [lia|now rewrite Hn|].
  destruct (c58_dbscan_labels_are_determined m' dist' tol' samples' nf' bucket' max_depth' policy' lowest' max' center' indices' o')
    as (tree' & labels' & E1' & E2' & D'); auto; [lia|now rewrite Hn'|].
  exists tree, tree', labels. splits; auto. rewrite E2'. f_equal. rewrite Hn in D. rewrite Hn', <- Hmin in D'.
  apply (density_labels_unique n (in_ball (m_lt m') dist' samples' nf' (d_radius o')) (d_min_samples o)); auto.
  now apply (density_labels_ext n (in_ball (m_lt m) dist samples nf (d_radius o))).
Qed.

(** The same samples mirrored, doubled and moved, with the radius doubled; the other metric of the library. *)
Definition mirrored : list Z := map (fun z => 7 - 2 * z)%Z row_of_points.
Lemma mirrored_input : tree_input 0 mirrored 1 (fun _ _ _ _ => 0) (-300) 300 (seq 0 12).
Proof. apply (line_input mirrored). repeat constructor; lia. Qed.
Example c98_dbscan_depends_on_near_pairs_only_case :
  tree_input 0 row_of_points 1 (fun _ _ _ _ => 0) (-100) 100 (seq 0 12) /\
  tree_input 0 mirrored 1 (fun _ _ _ _ => 0) (-300) 300 (seq 0 12) /\
  infinity_ok float_metric row_of_points row_of_points /\ balls_complete int_metric l1_dist mirrored 12 (seq 0 12) 22%Z /\
  (forall i j, i < 12 -> j < 12 -> in_ball opt_lt (fun p q => Some (sq_dist p q)) row_of_points 1 (Some 121%Z) i j =
     in_ball Z.ltb l1_dist mirrored 1 22%Z i j) /\
  dbscan_case 2 (seq 0 12) pt_options = Ok [0; 1; 1; 1; 1; 1; 0; 2; 2; 2; 2; 0] /\
  with_tree (make_kdtree 0 mirrored 1 3 10 (fun _ _ _ _ => 0) (-300) 300 half (seq 0 12))
    (fun t => dbscan_predict int_metric mirrored 1 t (Build_dbscan_options 3 22%Z)) = Ok [0; 1; 1; 1; 1; 1; 0; 2; 2; 2; 2; 0].
Proof.
  split; [exact points_input|]. split; [exact mirrored_input|]. split; [apply float_infinity_ok|]. split.
  { right. split; [intros i Hi; apply in_seq; lia|]. intros p. apply Z.ltb_lt.
    assert (l1_dist p p = 0%Z) as ->; [|lia]. induction p as [|x p IH]; simpl; auto. rewrite IH. lia. }
  split.
  { intros i j Hi Hj. do 12 (destruct i as [|i]; [do 12 (destruct j as [|j]; [vm_compute; reflexivity|]); lia|]). lia. }
  split; vm_compute; reflexivity.
Qed.

(** ** The order of the rows *)
Lemma renamed_count n (s : nat -> nat) near : (forall i, i < n -> s i < n) -> (forall i j, i < n -> j < n -> s i = s j -> i = j) ->
  forall i, length (filter (fun j => near (s i) (s j)) (seq 0 n)) = length (filter (near (s i)) (seq 0 n)).
Proof.
  intros Hlt Hinj i.
  assert (P : Permutation (map s (seq 0 n)) (seq 0 n)).
  { apply NoDup_Permutation_bis.
    - clear - Hinj. assert (G : forall l, NoDup l -> (forall x, In x l -> x < n) -> NoDup (map s l)).
      { induction 1 as [|x l Hx Hl IH]; intros Hl'; simpl; constructor.
        - intros Hm. apply in_map_iff in Hm as (y & Ey & Hy). apply Hinj in Ey; [subst; auto|apply Hl'; now right|apply Hl'; now left].
        - apply IH. intros y Hy. apply Hl'. now right. }
      apply G; [apply seq_NoDup|]. intros x Hx. apply in_seq in Hx. lia.
    - rewrite map_length. lia.
    - intros x Hx. apply in_map_iff in Hx as (y & <- & Hy). apply in_seq in Hy. apply in_seq. assert (s y < n) by (apply Hlt; lia). lia. }
  transitivity (length (filter (near (s i)) (map s (seq 0 n)))).
  - generalize (seq 0 n). induction l as [|x l IH]; simpl; auto. destruct (near (s i) (s x)); simpl; congruence.
  - apply filter_len_perm. exact P.
Qed.

Lemma renamed_onto n (s : nat -> nat) : (forall i, i < n -> s i < n) -> (forall i j, i < n -> j < n -> s i = s j -> i = j) ->
  forall k, k < n -> exists i, i < n /\ s i = k.
Proof.
  intros Hlt Hinj k Hk.
  assert (L : length (filter (fun j => Nat.eqb k j) (map s (seq 0 n))) = 1).
  { pose proof (renamed_count n s (fun _ => Nat.eqb k) Hlt Hinj 0) as E.
    assert (length (filter (fun j => Nat.eqb k (s j)) (seq 0 n)) = length (filter (fun j => Nat.eqb k j) (map s (seq 0 n)))).
    { generalize (seq 0 n). induction l as [|x l IH]; simpl; auto. destruct (k =? s x); simpl; congruence. }
    rewrite <- H, E. clear - Hk. assert (G : forall m a, a <= k < a + m -> length (filter (Nat.eqb k) (seq a m)) = 1).
    { induction m as [|m IH]; intros a Ha; [lia|]. cbn [seq filter]. destruct (Nat.eqb_spec k a) as [->|Hne].
      - cbn [length]. f_equal. clear. assert (G : forall q b, a < b -> length (filter (Nat.eqb a) (seq b q)) = 0).
        { induction q as [|q IH]; intros b Hb; auto. cbn [seq filter]. destruct (Nat.eqb_spec a b); [lia|]. apply IH. lia. }
        apply G. lia.
      - apply IH. lia. }
    apply G. lia. }
  destruct (filter (fun j => Nat.eqb k j) (map s (seq 0 n))) as [|y l] eqn:E; [discriminate|].
  assert (Hy : In y (filter (fun j => Nat.eqb k j) (map s (seq 0 n)))) by (rewrite E; now left).
  apply filter_In in Hy as (Hy & Ey). apply Nat.eqb_eq in Ey. subst y. apply in_map_iff in Hy as (i & Ei & Hi).
  apply in_seq in Hi. exists i. split; auto. lia.
Qed.

Section Renamed.
Context (n : nat) (s : nat -> nat) (near near' : nat -> nat -> bool) (min : nat).
Context (Hlt : forall i, i < n -> s i < n) (Hinj : forall i j, i < n -> j < n -> s i = s j -> i = j).
Context (Hnear : forall i j, i < n -> j < n -> near' i j = near (s i) (s j)).

Lemma renamed_core i : i < n -> core n near' min i = core n near min (s i).
Proof using Hlt Hinj Hnear.
  intros Hi. rewrite (core_ext n near' (fun i j => near (s i) (s j))) by auto. unfold core. now rewrite renamed_count.
Qed.

Lemma renamed_dense i j : dense n near' min i j -> dense n near min (s i) (s j).
Proof using Hlt Hinj Hnear.
  induction 1 as [i Hi Hc|i j k Hi Hc Hij Hd IH].
  - constructor; auto. now rewrite <- renamed_core.
  - apply dense_step with (s j); auto; [now rewrite <- renamed_core|]. rewrite <- Hnear; auto. now apply dense_lt in Hd.
Qed.

Lemma renamed_dense_back a b : dense n near min a b -> forall i j, i < n -> j < n -> s i = a -> s j = b -> dense n near' min i j.
Proof using Hlt Hinj Hnear.
  induction 1 as [a Ha Hc|a c b Ha Hc Hac Hd IH]; intros i j Hi Hj Ei Ej.
  - assert (i = j) by (apply Hinj; congruence). subst j. constructor; auto. rewrite renamed_core, Ei; auto.
  - destruct (renamed_onto n s Hlt Hinj c) as (k & Hk & Ek); [now apply dense_lt in Hd|].
    apply dense_step with k; auto; [rewrite renamed_core, Ei; auto|]. rewrite Hnear, Ei, Ek; auto.
Qed.
End Renamed.

Theorem c98_row_order :
  forall n (s : nat -> nat) m dist o tol samples nf bucket max_depth policy lowest max center indices
    tol' samples' bucket' max_depth' policy' lowest' max' center' indices',
  metric_ok m dist -> (forall p q, dist p q = dist q p) -> (Z.of_nat n < 2 ^ 64)%Z ->
  tree_input tol samples nf policy lowest max indices -> whole_index samples nf indices ->
  balls_complete m dist samples n indices (d_radius o) ->
  tree_input tol' samples' nf policy' lowest' max' indices' -> whole_index samples' nf indices' ->
  balls_complete m dist samples' n indices' (d_radius o) ->
  length samples / nf = n -> length samples' / nf = n ->
  (forall i, i < n -> s i < n) -> (forall i j, i < n -> j < n -> s i = s j -> i = j) ->
  (forall i, i < n -> row samples' nf i = row samples nf (s i)) ->
  let near := in_ball (m_lt m) dist samples nf (d_radius o) in
  exists tree tree' labels labels',
    make_kdtree tol samples nf bucket max_depth policy lowest max center indices = Ok tree /\
    make_kdtree tol' samples' nf bucket' max_depth' policy' lowest' max' center' indices' = Ok tree' /\
    dbscan_predict m samples nf tree o = Ok labels /\ dbscan_predict m samples' nf tree' o = Ok labels' /\
    (forall i, i < n -> core n near (d_min_samples o) (s i) = true ->
      exists a a', nth_error labels (s i) = Some a /\ nth_error labels' i = Some a' /\ a <> 0 /\ a' <> 0 /\
      forall j, j < n -> core n near (d_min_samples o) (s j) = true ->
        (nth_error labels (s j) = Some a <-> nth_error labels' j = Some a')) /\
    (forall i, i < n -> (forall y, y < n -> core n near (d_min_samples o) y = true -> near y (s i) = false) ->
      core n near (d_min_samples o) (s i) = false ->
      nth_error labels (s i) = Some 0 /\ nth_error labels' i = Some 0).
Proof.
  intros n s m dist o tol samples nf bucket max_depth policy lowest max center indices
    tol' samples' bucket' max_depth' policy' lowest' max' center' indices'
    Hm Hs Hfit Hi Hw Hb Hi' Hw' Hb' Hn Hn' Hlt Hinj Hrow near.
  pose proof (Permutation_length Hw) as L. pose proof (Permutation_length Hw') as L'. rewrite seq_length in L, L'.
  assert (Hnd : NoDup indices) by (eapply Permutation_NoDup; [symmetry; exact Hw|apply seq_NoDup]).
  assert (Hnd' : NoDup indices') by (eapply Permutation_NoDup; [symmetry; exact Hw'|apply seq_NoDup]).
  assert (Hf : (Z.of_nat (length indices) < 2 ^ 64)%Z) by lia. assert (Hf' : (Z.of_nat (length indices') < 2 ^ 64)%Z) by lia.
  rewrite <- Hn in Hb. rewrite <- Hn' in Hb'.
  destruct (c35_core_samples_by_density_connectivity m dist tol samples nf bucket max_depth policy lowest max center indices o
    Hm Hs Hi Hw Hf Hb) as (tree & labels & E1 & E2 & A).
  destruct (c35_core_samples_by_density_connectivity m dist tol' samples' nf bucket' max_depth' policy' lowest' max' center' indices' o
    Hm Hs Hi' Hw' Hf' Hb') as (tree' & labels' & E1' & E2' & A').
  destruct (c36_border_and_noise m dist tol samples nf bucket max_depth policy lowest max center indices o
    Hm Hi Hnd Hf Hb) as (t2 & l2 & F1 & F2 & B).
  destruct (c36_border_and_noise m dist tol' samples' nf bucket' max_depth' policy' lowest' max' center' indices' o
    Hm Hi' Hnd' Hf' Hb') as (t2' & l2' & F1' & F2' & B').
  destruct (c37_result_covers_the_whole_dataset m dist tol samples nf bucket max_depth policy lowest max center indices o
    Hm Hi Hnd Hf Hb) as (t3 & l3 & G1 & G2 & C).
  destruct (c37_result_covers_the_whole_dataset m dist tol' samples' nf bucket' max_depth' policy' lowest' max' center' indices' o
    Hm Hi' Hnd' Hf' Hb') as (t3' & l3' & G1' & G2' & C').
  assert (t2 = tree) by congruence. assert (t3 = tree) by congruence. subst t2 t3.
  assert (t2' = tree') by congruence. assert (t3' = tree') by congruence. subst t2' t3'.
  assert (l2 = labels) by congruence. assert (l3 = labels) by congruence. subst l2 l3.
  assert (l2' = labels') by congruence. assert (l3' = labels') by congruence. subst l2' l3'.
  rewrite Hn in A, B, C. rewrite Hn' in A', B', C'. fold near in A.
  set (near' := in_ball (m_lt m) dist samples' nf (d_radius o)) in *.
  assert (Hnear : forall i j, i < n -> j < n -> near' i j = near (s i) (s j)).
  { intros i j H1 H2. unfold near', near, in_ball. now rewrite !Hrow. }
  assert (Hix : forall idx sm, Permutation idx (seq 0 n) -> forall i j, j < n -> indexed idx sm i j = sm i j).
  { intros idx sm P i j Hj. unfold indexed. rewrite (proj2 (existsb_in j idx)); auto.
    eapply Permutation_in; [symmetry; exact P|]. apply in_seq. lia. }
  unfold whole_index in Hw, Hw'. rewrite Hn in Hw. rewrite Hn' in Hw'.
  assert (Hci : forall i, core n (indexed indices near) (d_min_samples o) i = core n near (d_min_samples o) i).
  { intros i. unfold core. do 2 f_equal. apply filter_ext_in. intros j Hj. apply in_seq in Hj. apply Hix; auto. lia. }
  assert (Hci' : forall i, core n (indexed indices' near') (d_min_samples o) i = core n near' (d_min_samples o) i).
  { intros i. unfold core. do 2 f_equal. apply filter_ext_in. intros j Hj. apply in_seq in Hj. apply Hix; auto. lia. }
  exists tree, tree', labels, labels'. split; auto. split; auto. split; auto. split; auto. split.
  - intros i Hin Hc. destruct (A (s i) (s i)) as (a & a1 & Ha & _ & Ha0 & _); auto.
    assert (Hc' : core n near' (d_min_samples o) i = true) by (rewrite (renamed_core n s near near'); auto).
    destruct (A' i i) as (a' & a1' & Ha' & _ & Ha0' & _); auto.
    exists a, a'. split; auto. split; auto. split; auto. split; auto. intros j Hj Hcj.
    assert (Hcj' : core n near' (d_min_samples o) j = true) by (rewrite (renamed_core n s near near'); auto).
    destruct (A (s i) (s j)) as (x & y & X1 & X2 & _ & X3); auto.
    destruct (A' i j) as (x' & y' & X1' & X2' & _ & X3'); auto.
    assert (x = a) by congruence. assert (x' = a') by congruence. subst x x'. rewrite X2, X2'.
    assert (dense n near (d_min_samples o) (s i) (s j) <-> dense n near' (d_min_samples o) i j).
    { split; [intros H; eapply renamed_dense_back; eauto|now apply renamed_dense]. }
    split; intros H1; inversion H1; subst; f_equal; symmetry; tauto.
  - intros i Hin Hno Hc.
    destruct (nth_error labels (s i)) as [a|] eqn:Ea; [|apply nth_error_None in Ea; specialize (Hlt i Hin); lia].
    destruct (nth_error labels' i) as [a'|] eqn:Ea'; [|apply nth_error_None in Ea'; lia].
    assert (Hc' : core n near' (d_min_samples o) i = false) by (rewrite (renamed_core n s near near'); auto).
    split; f_equal.
    + destruct (Nat.eq_dec a 0) as [|Hne]; auto. exfalso. destruct (B (s i) a Ea) as (_ & H).
      destruct H as (y & Hy & Hyc & Hyn); auto; [now rewrite Hci|]. rewrite Hci in Hyc. rewrite Hix in Hyn by auto.
      rewrite Hno in Hyn; auto; [discriminate|]. rewrite <- C. apply nth_error_Some. congruence.
    + destruct (Nat.eq_dec a' 0) as [|Hne]; auto. exfalso. destruct (B' i a' Ea') as (_ & H).
      destruct H as (y & Hy & Hyc & Hyn); auto; [now rewrite Hci'|]. rewrite Hci' in Hyc. rewrite Hix in Hyn by auto.
      assert (Hyl : y < n) by (rewrite <- C'; apply nth_error_Some; congruence).
      rewrite (renamed_core n s near near') in Hyc by auto. rewrite Hnear in Hyn by auto. rewrite Hno in Hyn; auto. discriminate.
Qed.

(** The rows in reverse order: the clusters are numbered the other way round. *)
Lemma rev_points_input : tree_input 0 (rev row_of_points) 1 (fun _ _ _ _ => 0) (-100) 100 (seq 0 12).
Proof. apply (line_input (rev row_of_points)). repeat constructor; lia. Qed.
Definition rev_case (bucket : nat) (o : dbscan_options (option Z)) : res (list nat) :=
  with_tree (line_tree (rev row_of_points) bucket (seq 0 12)) (fun t => dbscan_predict float_metric (rev row_of_points) 1 t o).
Example c98_row_order_case :
  tree_input 0 (rev row_of_points) 1 (fun _ _ _ _ => 0) (-100) 100 (seq 0 12) /\
  (forall i, i < 12 -> row (rev row_of_points) 1 i = row row_of_points 1 (11 - i)) /\
  dbscan_case 2 (seq 0 12) pt_options = Ok [0; 1; 1; 1; 1; 1; 0; 2; 2; 2; 2; 0] /\
  rev_case 2 pt_options = Ok [0; 1; 1; 1; 1; 0; 2; 2; 2; 2; 2; 2].
Proof.
  split; [exact rev_points_input|]. split.
  { intros i Hi. do 12 (destruct i as [|i]; [reflexivity|]). lia. }
  split; vm_compute; reflexivity.
Qed.

(** Whether a sample that is not core is noise depends on the order. *)
Theorem c98_noise_row_order_refuted :
  exists n (s : nat -> nat) samples samples' nf policy lowest max center o tree tree' labels labels' i,
    tree_input 0 samples nf policy lowest max (seq 0 n) /\ tree_input 0 samples' nf policy lowest max (seq 0 n) /\
    (forall i, i < n -> s i < n) /\ (forall i j, i < n -> j < n -> s i = s j -> i = j) /\
    (forall i, i < n -> row samples' nf i = row samples nf (s i)) /\
    make_kdtree 0 samples nf 2 10 policy lowest max center (seq 0 n) = Ok tree /\
    make_kdtree 0 samples' nf 2 10 policy lowest max center (seq 0 n) = Ok tree' /\
    dbscan_predict float_metric samples nf tree o = Ok labels /\ dbscan_predict float_metric samples' nf tree' o = Ok labels' /\
    i < n /\ nth_error labels (s i) = Some 0 /\ nth_error labels' i = Some 2.
Proof.
  exists 12, (fun i => 11 - i), row_of_points, (rev row_of_points), 1, (fun _ _ _ _ => 0), (-100)%Z, 100%Z, half, pt_options.
  eexists. eexists. exists [0; 1; 1; 1; 1; 1; 0; 2; 2; 2; 2; 0], [0; 1; 1; 1; 1; 0; 2; 2; 2; 2; 2; 2], 11.
  split; [exact points_input|]. split; [exact rev_points_input|]. split; [intros; lia|]. split; [intros; lia|].
  split. { intros i Hi. do 12 (destruct i as [|i]; [reflexivity|]). lia. }
  split; [vm_compute; reflexivity|]. split; [vm_compute; reflexivity|]. split; [vm_compute; reflexivity|].
  split; [vm_compute; reflexivity|]. split; [lia|]. split; reflexivity.
Qed.

(** ** A larger radius or fewer required samples *)
Theorem c98_clusters_grow :
  forall m dist tol samples nf bucket max_depth policy lowest max center indices o o',
  metric_ok m dist -> (forall p q, dist p q = dist q p) -> tree_input tol samples nf policy lowest max indices ->
  whole_index samples nf indices -> (Z.of_nat (length indices) < 2 ^ 64)%Z ->
  balls_complete m dist samples (length samples / nf) indices (d_radius o) ->
  m_lt m (d_radius o') (d_radius o) = false -> d_min_samples o' <= d_min_samples o ->
  let n := length samples / nf in
  let near := in_ball (m_lt m) dist samples nf (d_radius o) in
  let near' := in_ball (m_lt m) dist samples nf (d_radius o') in
  exists tree labels labels',
    make_kdtree tol samples nf bucket max_depth policy lowest max center indices = Ok tree /\
    dbscan_predict m samples nf tree o = Ok labels /\ dbscan_predict m samples nf tree o' = Ok labels' /\
    (forall i, i < n -> core n near (d_min_samples o) i = true ->
      core n near' (d_min_samples o') i = true /\
      exists a a', nth_error labels i = Some a /\ nth_error labels' i = Some a' /\ a <> 0 /\ a' <> 0 /\
      forall j, j < n -> core n near (d_min_samples o) j = true -> nth_error labels j = Some a -> nth_error labels' j = Some a') /\
    (forall i, i < n -> core n near' (d_min_samples o') i = false ->
      (forall y, y < n -> core n near' (d_min_samples o') y = true -> near' y i = false) ->
      nth_error labels i = Some 0 /\ nth_error labels' i = Some 0).
Proof.
  intros m dist tol samples nf bucket max_depth policy lowest max center indices o o' Hm Hs Hi Hw Hf Hb Hr Hmin n near near'.
  pose proof (mo_order m dist Hm) as Ho.
  assert (Hlt : forall d, m_lt m d (d_radius o) = true -> m_lt m d (d_radius o') = true).
  { intros d Hd. destruct (m_lt m d (d_radius o')) eqn:X; auto.
    pose proof (le_trans (m_lt m) Ho (d_radius o) (d_radius o') d Hr X). congruence. }
  assert (Hb' : balls_complete m dist samples (length samples / nf) indices (d_radius o')).
  { destruct Hb as [H|[H1 H2]]; [now left|right]. split; auto. }
  assert (Hnd : NoDup indices) by (eapply Permutation_NoDup; [symmetry; exact Hw|apply seq_NoDup]).
  destruct (c35_core_samples_by_density_connectivity m dist tol samples nf bucket max_depth policy lowest max center indices o
    Hm Hs Hi Hw Hf Hb) as (tree & labels & E1 & E2 & A).
  destruct (c35_core_samples_by_density_connectivity m dist tol samples nf bucket max_depth policy lowest max center indices o'
    Hm Hs Hi Hw Hf Hb') as (tree' & labels' & E1' & E2' & A').
  assert (tree' = tree) by congruence. subst tree'.
  destruct (c36_border_and_noise m dist tol samples nf bucket max_depth policy lowest max center indices o
    Hm Hi Hnd Hf Hb) as (t2 & l2 & F1 & F2 & B).
  destruct (c36_border_and_noise m dist tol samples nf bucket max_depth policy lowest max center indices o'
    Hm Hi Hnd Hf Hb') as (t2' & l2' & F1' & F2' & B').
  destruct (c37_result_covers_the_whole_dataset m dist tol samples nf bucket max_depth policy lowest max center indices o
    Hm Hi Hnd Hf Hb) as (t3 & l3 & G1 & G2 & C).
  destruct (c37_result_covers_the_whole_dataset m dist tol samples nf bucket max_depth policy lowest max center indices o'
    Hm Hi Hnd Hf Hb') as (t3' & l3' & G1' & G2' & C').
  assert (t2 = tree) by congruence. assert (t3 = tree) by congruence. subst t2 t3.
  assert (t2' = tree) by congruence. assert (t3' = tree) by congruence. subst t2' t3'.
  assert (l2 = labels) by congruence. assert (l3 = labels) by congruence. subst l2 l3.
  assert (l2' = labels') by congruence. assert (l3' = labels') by congruence. subst l2' l3'.
  fold n in A, B, C, A', B', C'. fold near in A. fold near' in A'.
  assert (Hix : forall sm i j, j < n -> indexed indices sm i j = sm i j).
  { intros sm i j Hj. unfold indexed. rewrite (proj2 (existsb_in j indices)); auto.
    eapply Permutation_in; [symmetry; exact Hw|]. apply in_seq. unfold n in Hj. lia. }
  assert (Hci : forall sm k i, core n (indexed indices sm) k i = core n sm k i).
  { intros sm k i. unfold core. do 2 f_equal. apply filter_ext_in. intros j Hj. apply in_seq in Hj. apply Hix. lia. }
  assert (Hnn : forall i j, near i j = true -> near' i j = true) by (intros i j; apply Hlt).
  assert (Hcc : forall i, core n near (d_min_samples o) i = true -> core n near' (d_min_samples o') i = true).
  { intros i. unfold core. intros H. apply Nat.ltb_lt in H. apply Nat.ltb_lt.
    assert (length (filter (near i) (seq 0 n)) <= length (filter (near' i) (seq 0 n))); [|lia].
    clear - Hnn. induction (seq 0 n) as [|x l IH]; simpl; auto. destruct (near i x) eqn:X.
    - rewrite (Hnn i x X). simpl. lia.
    - destruct (near' i x); simpl; lia. }
  exists tree, labels, labels'. split; auto. split; auto. split; auto. split.
  - intros i Hin Hc. split; [now apply Hcc|].
    destruct (A i i) as (a & a1 & Ha & _ & Ha0 & _); auto. destruct (A' i i) as (a' & a1' & Ha' & _ & Ha0' & _); auto.
    exists a, a'. split; auto. split; auto. split; auto. split; auto. intros j Hj Hcj Hl.
    destruct (A i j) as (x & y & X1 & X2 & _ & X3); auto. destruct (A' i j) as (x' & y' & X1' & X2' & _ & X3'); auto.
    assert (x = a) by congruence. assert (y = a) by congruence. assert (x' = a') by congruence. subst x y x'.
    rewrite X2'. f_equal. symmetry. apply X3'. apply (dense_grow n near near' (d_min_samples o) (d_min_samples o')); auto. tauto.
  - intros i Hin Hc Hno.
    destruct (nth_error labels i) as [a|] eqn:Ea; [|apply nth_error_None in Ea; lia].
    destruct (nth_error labels' i) as [a'|] eqn:Ea'; [|apply nth_error_None in Ea'; lia].
    split; f_equal.
    + destruct (Nat.eq_dec a 0) as [|Hne]; auto. exfalso. destruct (B i a Ea) as (_ & H).
      destruct H as (y & Hy & Hyc & Hyn); auto.
      { rewrite Hci. destruct (core n (in_ball (m_lt m) dist samples nf (d_radius o)) (d_min_samples o) i) eqn:X; auto.
        apply Hcc in X. congruence. }
      rewrite Hci in Hyc. rewrite Hix in Hyn by auto. apply Hcc in Hyc. apply Hnn in Hyn.
      rewrite Hno in Hyn; auto; [discriminate|]. rewrite <- C. apply nth_error_Some. congruence.
    + destruct (Nat.eq_dec a' 0) as [|Hne]; auto. exfalso. destruct (B' i a' Ea') as (_ & H).
      destruct H as (y & Hy & Hyc & Hyn); auto; [now rewrite Hci|]. rewrite Hci in Hyc. rewrite Hix in Hyn by auto.
      unfold near' in Hno. rewrite Hno in Hyn; auto; [discriminate|]. rewrite <- C'. apply nth_error_Some. congruence.
Qed.

(** A larger radius joins the clusters; fewer required samples give samples 0, 6 and 11 clusters. *)
Example c98_clusters_grow_case :
  tree_input 0 row_of_points 1 (fun _ _ _ _ => 0) (-100) 100 (seq 0 12) /\ opt_lt (Some 1600%Z) (Some 121%Z) = false /\
  dbscan_case 2 (seq 0 12) pt_options = Ok [0; 1; 1; 1; 1; 1; 0; 2; 2; 2; 2; 0] /\
  dbscan_case 2 (seq 0 12) (Build_dbscan_options 3 (Some 1600%Z)) = Ok [1; 1; 1; 1; 1; 1; 1; 1; 1; 1; 1; 1] /\
  dbscan_case 2 (seq 0 12) (Build_dbscan_options 1 (Some 121%Z)) = Ok [1; 1; 1; 1; 1; 1; 2; 3; 3; 3; 3; 2].
Proof. split; [exact points_input|]. split; [reflexivity|]. splits; vm_compute; reflexivity. Qed.

(** A sample that has a cluster can become noise when the radius grows. *)
Definition shrinking : list Z := [0; 30; 10; 19; 20; 42; 43]%Z.
Theorem c98_labelled_samples_grow_refuted :
  exists samples nf n policy lowest max center o o' tree labels labels' i,
    tree_input 0 samples nf policy lowest max (seq 0 n) /\ n = length samples / nf /\
    d_min_samples o = d_min_samples o' /\ opt_lt (d_radius o) (d_radius o') = true /\
    make_kdtree 0 samples nf 2 10 policy lowest max center (seq 0 n) = Ok tree /\
    dbscan_predict float_metric samples nf tree o = Ok labels /\ dbscan_predict float_metric samples nf tree o' = Ok labels' /\
    nth_error labels i = Some 1 /\ nth_error labels' i = Some 0.
Proof.
  exists shrinking, 1, 7, (fun _ _ _ _ => 0), (-100)%Z, 100%Z, half, (Build_dbscan_options 3 (Some 121%Z)), (Build_dbscan_options 3 (Some 196%Z)).
  eexists. exists [1; 0; 1; 1; 1; 0; 0], [0; 1; 1; 1; 1; 1; 1], 0.
  split; [apply (line_input shrinking); repeat constructor; lia|]. split; [reflexivity|]. split; [reflexivity|]. split; [reflexivity|].
  split; [vm_compute; reflexivity|]. split; [vm_compute; reflexivity|]. split; [vm_compute; reflexivity|]. split; reflexivity.
Qed.

Print Assumptions c98_dbscan_depends_on_near_pairs_only.
Print Assumptions c98_row_order.
Print Assumptions c98_noise_row_order_refuted.
Print Assumptions c98_clusters_grow.
Print Assumptions c98_labelled_samples_grow_refuted.
