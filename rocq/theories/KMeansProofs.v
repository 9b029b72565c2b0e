(** Lemmas on k-means. *)
From Coq Require Import List Arith Lia Bool Permutation.
From Verif Require Import Base SortingModel BufferModel BufferSpec BufferProofs SearchModel MatrixModel MatrixProofs DbscanProps
  KMeansModel KMeansSpec.
Import ListNotations.
Set Default Proof Using "Type".

(** ** Vectors filled cell by cell *)
Lemma fill_inv {A} (blank : A) count f (P : nat -> A -> Prop) :
  (forall i, i < count -> exists x, f i = Ok x /\ P i x) ->
  exists v, fill blank count f = Ok v /\ length v = count /\ forall i, i < count -> exists x, nth_error v i = Some x /\ P i x.
Proof.
  intros H. unfold fill.
  destruct (for_loop_inv (fun done v => length v = count /\ forall i, i < done -> exists x, nth_error v i = Some x /\ P i x)
    (fun i v => x <- f i ;; wr v i x) count 0 (repeat blank count)) as (v & E & Hv & Hp).
  - rewrite repeat_length. split; auto. lia.
  - intros i v Hi (Hv & Hp). destruct (H i) as (x & -> & Hx); [lia|]. simpl. rewrite wr_lt by lia.
    eexists; split; eauto. rewrite upd_length. split; auto. intros j Hj.
    destruct (Nat.eq_dec j i) as [E|E].
    + subst j. exists x. rewrite nth_error_upd_eq by lia. auto.
    + rewrite nth_error_upd_neq by auto. apply Hp. lia.
  - exists v. splits; auto.
Qed.

(** ** Rows of a matrix stored flat *)
Lemma nth_error_skipn' {A} : forall n (l : list A) i, nth_error (skipn n l) i = nth_error l (n + i).
Proof. induction n; intros l i; simpl; auto. destruct l; simpl; auto. destruct i; auto. Qed.
Lemma nth_error_firstn' {A} : forall n (l : list A) i, nth_error (firstn n l) i = if i <? n then nth_error l i else None.
Proof.
  induction n; intros l i; simpl; [destruct i; auto|]. destruct l; simpl.
  - destruct i; simpl; auto. now destruct (S i <? S n).
  - destruct i; simpl; auto. rewrite IHn. reflexivity.
Qed.

Lemma nth_row {A} (m : list A) nf c f : nth_error (row m nf c) f = if f <? nf then nth_error m (c * nf + f) else None.
Proof. unfold row. now rewrite nth_error_firstn', nth_error_skipn'. Qed.

Lemma splice_length {A} (m : list A) l r s : l <= r -> r <= length m -> length s = r - l -> length (splice m l r s) = length m.
Proof. intros. unfold splice. rewrite !app_length, firstn_length, skipn_length. lia. Qed.

Lemma nth_splice {A} (m : list A) l r s i : l <= r -> r <= length m -> length s = r - l ->
  nth_error (splice m l r s) i = if (l <=? i) && (i <? r) then nth_error s (i - l) else nth_error m i.
Proof.
  intros H1 H2 H3. unfold splice.
  assert (Hl : length (firstn l m) = l) by (rewrite firstn_length; lia).
  destruct (Nat.leb_spec l i); simpl.
  - rewrite nth_error_app2 by lia. rewrite Hl. destruct (Nat.ltb_spec i r).
    + now rewrite nth_error_app1 by lia.
    + rewrite nth_error_app2 by lia. rewrite nth_error_skipn'. f_equal. lia.
  - rewrite nth_error_app1 by lia. rewrite nth_error_firstn'. destruct (Nat.ltb_spec i l); auto; lia.
Qed.

Lemma row_length' {A} (m : list A) nf k c : length m = k * nf -> c < k -> length (row m nf c) = nf.
Proof. intros H Hc. unfold row. rewrite firstn_length, skipn_length. nia. Qed.

Lemma sample_row' {A} (m : list A) nf k c : nf <> 0 -> length m = k * nf -> c < k -> sample_at m nf c = Ok (row m nf c).
Proof. intros Hnf H Hc. apply fetch_row; auto. rewrite H, Nat.div_mul; auto. Qed.

Lemma row_splice {A} (m : list A) nf k c s : length m = k * nf -> c < k -> length s = nf ->
  length (splice m (c * nf) (c * nf + nf) s) = k * nf /\
  row (splice m (c * nf) (c * nf + nf) s) nf c = s /\
  (forall c', c' <> c -> row (splice m (c * nf) (c * nf + nf) s) nf c' = row m nf c').
Proof.
  intros H Hc Hs. splits.
  - rewrite splice_length; nia.
  - apply nth_error_ext. intros f. rewrite nth_row, nth_splice by nia.
    destruct (Nat.ltb_spec f nf).
    + destruct (Nat.leb_spec (c * nf) (c * nf + f)); [|lia]. destruct (Nat.ltb_spec (c * nf + f) (c * nf + nf)); [|lia].
      simpl. f_equal. lia.
    + symmetry. apply nth_error_None. lia.
  - intros c' Hn. apply nth_error_ext. intros f. rewrite !nth_row, nth_splice by nia.
    destruct (Nat.ltb_spec f nf); auto.
    destruct (Nat.leb_spec (c * nf) (c' * nf + f)), (Nat.ltb_spec (c' * nf + f) (c * nf + nf)); simpl; auto. nia.
Qed.

Lemma transform2_length {A} (f : A -> A -> A) l r : length l = length r -> length (transform2 f l r) = length l.
Proof. intros. unfold transform2. rewrite map_length, combine_length. lia. Qed.
Lemma nth_transform2 {A} (f : A -> A -> A) l r i x y : nth_error l i = Some x -> nth_error r i = Some y ->
  nth_error (transform2 f l r) i = Some (f x y).
Proof. intros. unfold transform2. rewrite nth_error_map. now rewrite (nth_error_combine l r i x y). Qed.

(** ** Nearest centroids *)
Section Nearest.
Context {F D : Type} (lt : D -> D -> bool) (inf : D) (dist : list F -> list F -> D).
Context (Ho : order_ok lt) (Hinf : forall p q, lt (dist p q) inf = true).
Context (samples centroids : list F) (nf n k : nat) (Hnf : nf <> 0) (Hs : length samples = n * nf) (Hc : length centroids = k * nf)
  (Hk : 0 < k).
Notation d i j := (dist (row samples nf i) (row centroids nf j)).

Lemma n_rows : get_n_samples samples nf = Ok n /\ get_n_samples centroids nf = Ok k.
Proof using Hnf Hs Hc.
  unfold get_n_samples. destruct (Nat.eqb_spec nf 0); [contradiction|]. rewrite Hs, Hc, !Nat.div_mul by auto. auto.
Qed.

Lemma one_distance i j : i < n -> j < k -> sample_to_centroid dist samples nf centroids i j = Ok (d i j).
Proof using Hnf Hs Hc.
  intros Hi Hj. unfold sample_to_centroid. rewrite (sample_row' samples nf n), (sample_row' centroids nf k) by auto. reflexivity.
Qed.

(** The first of the nearest centroids. *)
Definition first_nearest (x : list F) (j : nat) : Prop :=
  nearest_to lt dist centroids nf k x j /\
  forall j', j' < j -> lt (dist x (row centroids nf j)) (dist x (row centroids nf j')) = true.

Lemma first_nearest_unique x j j' : first_nearest x j -> first_nearest x j' -> j = j'.
Proof.
  intros ((H1 & H2) & H3) ((H4 & H5) & H6).
  destruct (lt_eq_lt_dec j j') as [[H|H]|H]; auto.
  - pose proof (H6 _ H). rewrite H2 in H0 by auto. discriminate.
  - pose proof (H3 _ H). rewrite H5 in H0 by auto. discriminate.
Qed.

Lemma nearest_index_ok i : i < n -> exists j,
  nearest_centroid_index lt inf dist samples nf centroids k i = Ok (d i j, j) /\ first_nearest (row samples nf i) j.
Proof using Ho Hinf Hnf Hs Hc Hk.
  intros Hi. unfold nearest_centroid_index.
  destruct (for_loop_inv (fun done '(m, j) =>
      (done = 0 /\ m = inf /\ j = 0) \/
      (j < done /\ m = d i j /\ (forall j', j' < done -> lt (d i j') m = false) /\ forall j', j' < j -> lt m (d i j') = true))
    (fun centroid_index '(min_distance, min_index) =>
      d <- sample_to_centroid dist samples nf centroids i centroid_index ;;
      Ok (if lt d min_distance then (d, centroid_index) else (min_distance, min_index))) k 0 (inf, 0)) as ((m, j) & E & HP).
  - left; auto.
  - intros c (m, j) Hr HP. rewrite one_distance by lia. simpl. eexists; split; eauto.
    destruct HP as [(-> & -> & ->)|(H1 & H2 & H3 & H4)].
    + rewrite Hinf. right. splits; auto; [|lia]. intros j' Hj'. replace j' with 0 by lia. apply (lt_irrefl lt Ho).
    + destruct (lt (d i c) m) eqn:Em; right.
      * assert (Hall : forall j', j' < c -> lt (d i c) (d i j') = true).
        { intros j' Hj'. apply (lt_le_trans lt Ho _ m); auto. }
        splits; auto. intros j' Hj'. destruct (Nat.eq_dec j' c) as [->|Hn]; [apply (lt_irrefl lt Ho)|].
        apply (lt_asym lt Ho). apply Hall. lia.
      * splits; auto. intros j' Hj'. destruct (Nat.eq_dec j' c) as [->|Hn]; auto. apply H3. lia.
  - simpl in HP. destruct HP as [(-> & _)|(H1 & -> & H3 & H4)]; [lia|].
    exists j. split; [exact E|]. split; [split; auto|auto].
Qed.

Lemma predict_ok : exists v, samples_to_nearest_centroid_indices lt inf dist samples nf centroids = Ok v /\
  length v = n /\ forall i, i < n -> exists j, nth_error v i = Some j /\ first_nearest (row samples nf i) j.
Proof using Ho Hinf Hnf Hs Hc Hk.
  unfold samples_to_nearest_centroid_indices. destruct n_rows as (-> & ->). simpl.
  apply fill_inv. intros i Hi. destruct (nearest_index_ok i Hi) as (j & -> & Hj). simpl. eauto.
Qed.

Lemma forward_ok : exists v, samples_to_nearest_centroid_distances lt inf dist samples nf centroids = Ok v /\
  length v = n /\ forall i, i < n -> exists x, nth_error v i = Some x /\
    exists j, first_nearest (row samples nf i) j /\ x = d i j.
Proof using Ho Hinf Hnf Hs Hc Hk.
  unfold samples_to_nearest_centroid_distances. destruct n_rows as (-> & ->). simpl.
  apply fill_inv. intros i Hi. destruct (nearest_index_ok i Hi) as (j & E & Hj).
  exists (d i j). split; eauto. unfold nearest_centroid_index in E.
  assert (Hsim : forall c first m ix, c + first <= k ->
    for_loop c first (fun centroid_index min_distance =>
      nearest_candidate <- sample_to_centroid dist samples nf centroids i centroid_index ;;
      Ok (if lt nearest_candidate min_distance then nearest_candidate else min_distance)) m =
    bind (for_loop c first (fun centroid_index '(min_distance, min_index) =>
      d <- sample_to_centroid dist samples nf centroids i centroid_index ;;
      Ok (if lt d min_distance then (d, centroid_index) else (min_distance, min_index))) (m, ix)) (fun '(m, _) => Ok m)).
  { clear - Hi Hnf Hs Hc. induction c; intros first m ix Hr; simpl; auto.
    rewrite one_distance by lia. simpl. destruct (lt (d i first) m); apply IHc; lia. }
  rewrite (Hsim k 0 inf 0) by lia. rewrite E. reflexivity.
Qed.

Lemma second_ok (eq : D -> D -> bool) (Heq : forall p q, eq (dist p q) inf = false) :
  exists v, samples_to_second_nearest_centroid_distances lt eq inf dist samples nf centroids = Ok v /\
  length v = n /\ forall i, i < n -> exists x, nth_error v i = Some x /\
    exists j, first_nearest (row samples nf i) j /\
      forall j', j' < k -> j' <> j -> lt (d i j') x = false \/ eq (d i j') (d i j) = true.
Proof using Ho Hinf Hnf Hs Hc Hk.
  unfold samples_to_second_nearest_centroid_distances. destruct n_rows as (-> & ->). simpl.
  apply fill_inv. intros i Hi.
  destruct (for_loop_inv (fun done '(m, s) =>
      (done = 0 /\ m = inf /\ s = inf) \/
      (exists j, j < done /\ m = d i j /\ (forall j', j' < done -> lt (d i j') m = false) /\
        (forall j', j' < j -> lt m (d i j') = true) /\
        forall j', j' < done -> j' <> j -> lt (d i j') s = false \/ eq (d i j') m = true))
    (fun centroid_index '(first_min_distance, second_min_distance) =>
        candidate <- sample_to_centroid dist samples nf centroids i centroid_index ;;
        Ok (if lt candidate first_min_distance then (candidate, first_min_distance)
            else if lt candidate second_min_distance && negb (eq candidate first_min_distance)
                 then (first_min_distance, candidate)
                 else (first_min_distance, second_min_distance))) k 0 (inf, inf)) as ((m, s) & E & HP).
  - left; auto.
  - intros c (m, s) Hr HP. rewrite one_distance by lia. simpl. eexists; split; eauto.
    destruct HP as [(-> & -> & ->)|(j & H1 & H2 & H3 & H4 & H5)].
    + rewrite Hinf. right. exists 0. splits; auto; try lia. intros j' Hj'. replace j' with 0 by lia. apply (lt_irrefl lt Ho).
    + destruct (lt (d i c) m) eqn:Em.
      { right. exists c.
        assert (Hall : forall j', j' < c -> lt (d i c) (d i j') = true).
        { intros j' Hj'. apply (lt_le_trans lt Ho _ m); auto. }
        splits; auto.
        - intros j' Hj'. destruct (Nat.eq_dec j' c) as [->|Hn]; [apply (lt_irrefl lt Ho)|].
          apply (lt_asym lt Ho). apply Hall. lia.
        - intros j' Hj' Hn. left. apply H3. lia. }
      assert (Hlast : forall j', j' < S c -> lt (d i j') m = false).
      { intros j' Hj'. destruct (Nat.eq_dec j' c) as [->|Hn]; auto. apply H3. lia. }
      destruct (lt (d i c) s) eqn:Es; simpl.
      * destruct (eq (d i c) m) eqn:Ee; simpl; right; exists j; splits; auto.
        -- intros j' Hj' Hn. destruct (Nat.eq_dec j' c) as [->|Hn']; auto. apply H5; lia.
        -- intros j' Hj' Hn. destruct (Nat.eq_dec j' c) as [->|Hn'].
           ++ left. apply (lt_irrefl lt Ho).
           ++ destruct (H5 j') as [H6|H6]; auto; [lia|]. left. apply (le_trans lt Ho _ s); auto. now apply (lt_asym lt Ho).
      * right; exists j; splits; auto.
        intros j' Hj' Hn. destruct (Nat.eq_dec j' c) as [->|Hn']; auto. apply H5; lia.
  - simpl in HP. destruct HP as [(-> & _)|(j & H1 & -> & H3 & H4 & H5)]; [lia|].
    rewrite E. simpl. exists s. split; auto. exists j. split; [split; [split; auto|auto]|auto].
Qed.
End Nearest.

Section Neighbors.
Context {F D : Type} (lt : D -> D -> bool) (inf : D) (dist : list F -> list F -> D).
Context (Ho : order_ok lt) (Hinf : forall p q, lt (dist p q) inf = true).

Lemma neighbors_ok (data : list F) nf k : nf <> 0 -> length data = k * nf ->
  exists v, nearest_neighbor_distances lt inf dist data nf = Ok v /\ length v = k /\
    forall c, c < k -> exists x, nth_error v c = Some x /\
      forall c', c' < k -> c' <> c -> lt (dist (row data nf c) (row data nf c')) x = false.
Proof using Ho Hinf.
  intros Hnf Hd. unfold nearest_neighbor_distances. destruct (n_rows data data nf k k Hnf Hd Hd) as (-> & _). simpl.
  apply fill_inv. intros c Hc.
  destruct (for_loop_inv (fun done x => forall c', c' < done -> c' <> c -> lt (dist (row data nf c) (row data nf c')) x = false)
    (fun other_row_index min_distance =>
      if c =? other_row_index then Ok min_distance
      else
        nearest_candidate <- sample_to_centroid dist data nf data c other_row_index ;;
        Ok (if lt nearest_candidate min_distance then nearest_candidate else min_distance)) k 0 inf) as (x & E & HP).
  - lia.
  - intros o x Ho' HP. destruct (Nat.eqb_spec c o) as [Hco|Hco].
    + eexists; split; eauto. intros c' H1 H2. apply HP; lia.
    + rewrite (one_distance dist data data nf k k) by (auto; lia). simpl. eexists; split; eauto.
      intros c' H1 H2. destruct (Nat.eq_dec c' o) as [->|Hn].
      * destruct (lt _ x) eqn:E; auto. apply (lt_irrefl lt Ho).
      * destruct (lt _ x) eqn:E; [|apply HP; lia].
        apply (le_trans lt Ho _ x); [|apply HP; lia]. now apply (lt_asym lt Ho).
  - exists x. split; auto.
Qed.
End Neighbors.

(** ** Members of clusters *)
Lemma in_members asg c i : In i (members asg c) <-> i < length asg /\ nth i asg 0 = c.
Proof. unfold members. rewrite filter_In, in_seq, Nat.eqb_eq. split; intros (H1 & H2); split; auto; lia. Qed.
Lemma members_nodup asg c : NoDup (members asg c).
Proof. apply NoDup_filter, seq_NoDup. Qed.

Lemma members_snoc asg x c : members (asg ++ [x]) c = members asg c ++ (if x =? c then [length asg] else []).
Proof.
  unfold members. rewrite app_length. simpl length. rewrite seq_app, filter_app. simpl. f_equal.
  - apply filter_ext_in. intros i Hi. apply in_seq in Hi. rewrite app_nth1 by lia. reflexivity.
  - rewrite app_nth2, Nat.sub_diag by lia. reflexivity.
Qed.

Lemma nth_upd {A} (l : list A) i j v def : i < length l -> nth j (upd l i v) def = if j =? i then v else nth j l def.
Proof.
  intros H. destruct (Nat.eqb_spec j i) as [E|E].
  - subst j. apply nth_error_nth. now apply nth_error_upd_eq.
  - destruct (nth_error l j) as [x|] eqn:Ex.
    + rewrite (nth_error_nth _ _ _ Ex). apply nth_error_nth. now rewrite nth_error_upd_neq by auto.
    + apply nth_error_None in Ex. rewrite !nth_overflow; auto. now rewrite upd_length.
Qed.

Lemma members_leave asg i c' : i < length asg -> nth i asg 0 <> c' ->
  Permutation (members asg (nth i asg 0)) (i :: members (upd asg i c') (nth i asg 0)).
Proof.
  intros Hi Hn. apply NoDup_Permutation.
  - apply members_nodup.
  - constructor; [|apply members_nodup]. rewrite in_members, nth_upd, Nat.eqb_refl by auto. intros (_ & H); congruence.
  - intros j. simpl. rewrite !in_members, upd_length, nth_upd by auto. destruct (Nat.eqb_spec j i) as [->|E]; intuition congruence.
Qed.

Lemma members_join asg i c' : i < length asg -> nth i asg 0 <> c' ->
  Permutation (members (upd asg i c') c') (i :: members asg c').
Proof.
  intros Hi Hn. apply NoDup_Permutation.
  - apply members_nodup.
  - constructor; [|apply members_nodup]. rewrite in_members. intros (_ & H); congruence.
  - intros j. simpl. rewrite !in_members, upd_length, nth_upd by auto. destruct (Nat.eqb_spec j i) as [->|E]; intuition congruence.
Qed.

Lemma members_other asg i c' c : i < length asg -> c <> nth i asg 0 -> c <> c' -> members (upd asg i c') c = members asg c.
Proof.
  intros Hi H1 H2. unfold members. rewrite upd_length. apply filter_ext_in. intros j Hj. rewrite nth_upd by auto.
  destruct (Nat.eqb_spec j i) as [->|E]; auto.
  destruct (Nat.eqb_spec c' c), (Nat.eqb_spec (nth i asg 0) c); auto; congruence.
Qed.

Lemma members_ext asg asg' c : length asg = length asg' -> (forall i, i < length asg -> nth i asg 0 = nth i asg' 0) ->
  members asg c = members asg' c.
Proof.
  intros H1 H2. unfold members. rewrite <- H1. apply filter_ext_in. intros i Hi. apply in_seq in Hi. rewrite H2 by lia. auto.
Qed.

Lemma sizes_ok asg k : (forall x, In x asg -> x < k) ->
  exists sizes, compute_cluster_sizes asg k = Ok sizes /\ length sizes = k /\
    forall c, c < k -> nth_error sizes c = Some (length (members asg c)).
Proof.
  intros H. unfold compute_cluster_sizes.
  destruct (for_each_inv (fun done sizes => length sizes = k /\ forall c, c < k -> nth_error sizes c = Some (length (members done c)))
    (fun centroid_index sizes => s <- rd sizes centroid_index ;; wr sizes centroid_index (S s)) asg [] (repeat 0 k))
    as (sizes & E & HP).
  - rewrite repeat_length. split; auto. intros c Hc. rewrite nth_error_nth' with (d := 0) by now rewrite repeat_length.
    f_equal. apply nth_repeat.
  - intros x dn t Hx (H1 & H2). rewrite (proj2 (rd_ok t x _) (H2 x (H _ Hx))). simpl. pose proof (H x Hx). rewrite wr_lt by lia.
    eexists; split; eauto. rewrite upd_length. split; auto. intros c Hc. rewrite members_snoc, app_length.
    destruct (Nat.eqb_spec x c) as [<-|En].
    + rewrite nth_error_upd_eq by lia. f_equal. simpl. lia.
    + rewrite nth_error_upd_neq by auto. rewrite H2 by auto. f_equal. simpl. lia.
  - simpl in HP. exists sizes. destruct HP. auto.
Qed.

Section Arith.
Context (a : arith) (Ha : arith_ok a).
Notation num := (num a).

Lemma add_0r x : n_add a x (n_zero a) = x.
Proof using Ha. now rewrite (ok_add_comm _ Ha), (ok_add_0 _ Ha). Qed.

Lemma sum_perm (samples : list num) nf f l l' : Permutation l l' -> feature_sum a samples nf f l = feature_sum a samples nf f l'.
Proof using Ha.
  unfold feature_sum. induction 1; simpl; auto.
  - now f_equal.
  - rewrite !(ok_add_assoc _ Ha). f_equal. apply (ok_add_comm _ Ha).
  - congruence.
Qed.

Lemma sum_snoc (samples : list num) nf f l i :
  feature_sum a samples nf f (l ++ [i]) = n_add a (feature_sum a samples nf f l) (nth (i * nf + f) samples (n_zero a)).
Proof using Ha.
  rewrite (sum_perm samples nf f (l ++ [i]) (i :: l)) by (rewrite Permutation_app_comm; auto).
  simpl. apply (ok_add_comm _ Ha).
Qed.

Definition sums_ok (samples : list num) nf k asg (sums : list num) : Prop :=
  length sums = k * nf /\
  forall c f, c < k -> f < nf -> nth_error (row sums nf c) f = Some (feature_sum a samples nf f (members asg c)).

Section Data.
Context (samples : list num) (nf n k : nat) (Hnf : nf <> 0) (Hs : length samples = n * nf).

Lemma nth_sample i f : i < n -> f < nf -> nth_error (row samples nf i) f = Some (nth (i * nf + f) samples (n_zero a)).
Proof using Hnf Hs.
  intros Hi Hf. rewrite nth_row. destruct (Nat.ltb_spec f nf); [|lia]. apply nth_error_nth'. nia.
Qed.

Lemma accumulate_ok g sums i c : length sums = k * nf -> i < n -> c < k ->
  exists sums', accumulate_sample a g samples nf i c sums = Ok sums' /\ length sums' = k * nf /\
    row sums' nf c = transform2 g (row sums nf c) (row samples nf i) /\
    forall c', c' <> c -> row sums' nf c' = row sums nf c'.
Proof using Hnf Hs.
  intros Hl Hi Hc. unfold accumulate_sample. rewrite (sample_row' sums nf k), (sample_row' samples nf n) by auto. simpl.
  eexists; split; eauto. apply row_splice; auto.
  rewrite transform2_length; rewrite ?(row_length' sums nf k), ?(row_length' samples nf n) by auto; auto.
Qed.

Lemma sums_compute asg : length asg = n -> (forall x, In x asg -> x < k) ->
  exists sums, compute_cluster_positions_sum a samples nf asg k = Ok sums /\ sums_ok samples nf k asg sums.
Proof using Ha Hnf Hs.
  intros Hl Hin. unfold compute_cluster_positions_sum. destruct (n_rows samples samples nf n n Hnf Hs Hs) as (-> & _). simpl.
  destruct (for_loop_inv (fun i sums => sums_ok samples nf k (firstn i asg) sums)
    (fun sample_index sums =>
      cluster <- rd asg sample_index ;;
      accumulate_sample a (n_add a) samples nf sample_index cluster sums) n 0 (repeat (n_zero a) (k * nf))) as (sums & E & HP).
  - split; [apply repeat_length|]. intros c f Hc Hf. rewrite nth_row. destruct (Nat.ltb_spec f nf); [|lia]. simpl.
    assert (Hlt : c * nf + f < k * nf) by nia.
    rewrite nth_error_nth' with (d := n_zero a) by now rewrite repeat_length. now rewrite nth_repeat.
  - intros i sums Hi (H1 & H2). destruct (rd_lt asg i) as (c & Ec); [lia|]. rewrite Ec. cbn [bind].
    apply rd_ok in Ec. assert (Hc : c < k) by (apply Hin; eapply nth_error_In; eauto).
    destruct (accumulate_ok (n_add a) sums i c H1 ltac:(lia) Hc) as (sums' & -> & H3 & H4 & H5).
    eexists; split; eauto. split; auto. intros c' f Hc' Hf.
    assert (Ef : firstn (S i) asg = firstn i asg ++ [c]).
    { apply nth_error_ext. intros j. rewrite nth_error_firstn'. destruct (Nat.ltb_spec j (S i)).
      - destruct (Nat.eq_dec j i) as [->|Hn].
        + rewrite nth_error_app2 by (rewrite firstn_length; lia).
          replace (i - length (firstn i asg)) with 0 by (rewrite firstn_length; lia). auto.
        + rewrite nth_error_app1 by (rewrite firstn_length; lia). rewrite nth_error_firstn'.
          destruct (Nat.ltb_spec j i); auto; lia.
      - symmetry. apply nth_error_None. rewrite app_length, firstn_length. simpl. lia. }
    rewrite Ef, members_snoc. replace (length (firstn i asg)) with i by (rewrite firstn_length; lia).
    destruct (Nat.eqb_spec c c') as [<-|Hn].
    + rewrite H4, sum_snoc. apply nth_transform2; [apply H2; auto|]. apply nth_sample; lia.
    + rewrite H5, app_nil_r by auto. apply H2; auto.
  - exists sums. split; auto. simpl in HP. now rewrite <- Hl, firstn_all in HP.
Qed.

Lemma mean_ok asg sums c : sums_ok samples nf k asg sums -> c < k ->
  exists v, mean_of a sums nf c (length (members asg c)) = Ok v /\ is_mean a samples nf (members asg c) v.
Proof using Hnf.
  intros (H1 & H2) Hc. unfold mean_of. rewrite (sample_row' sums nf k) by auto. simpl. eexists; split; eauto. split.
  - rewrite map_length. apply (row_length' sums nf k); auto.
  - intros f Hf. rewrite nth_error_map, H2 by auto. reflexivity.
Qed.

(** ** Lloyd *)
Lemma lloyd_centroids_ok asg sizes sums centroids : length asg = n -> length centroids = k * nf ->
  (forall c, c < k -> nth_error sizes c = Some (length (members asg c))) -> sums_ok samples nf k asg sums ->
  exists new, lloyd_update_centroids a nf sizes sums centroids = Ok new /\
    centroids_after a samples nf k asg (fun _ => repeat (n_zero a) nf) new.
Proof using Hnf Hs.
  intros Hl Hc Hz Hsum. unfold lloyd_update_centroids. destruct (n_rows centroids centroids nf k k Hnf Hc Hc) as (-> & _). simpl.
  destruct (for_loop_inv (fun done new => length new = k * nf /\ forall c, c < done ->
      (members asg c <> [] -> is_mean a samples nf (members asg c) (row new nf c)) /\
      (members asg c = [] -> row new nf c = repeat (n_zero a) nf))
    (fun cluster centroids =>
      size <- rd sizes cluster ;;
      new_position <-
        (if size =? 0 then sample_at sums nf cluster else mean_of a sums nf cluster size) ;;
      Ok (splice centroids (cluster * nf) (cluster * nf + nf) new_position)) k 0 centroids) as (new & E & HP).
  - split; auto. lia.
  - intros c new Hr (H1 & H2). rewrite (proj2 (rd_ok sizes c _) (Hz c ltac:(lia))). cbn [bind].
    assert (Hpos : exists v, (if length (members asg c) =? 0 then sample_at sums nf c
                              else mean_of a sums nf c (length (members asg c))) = Ok v /\ length v = nf /\
              (members asg c <> [] -> is_mean a samples nf (members asg c) v) /\
              (members asg c = [] -> v = repeat (n_zero a) nf)).
    { destruct (Nat.eqb_spec (length (members asg c)) 0) as [E0|E0].
      - destruct (members asg c) eqn:Em; [|simpl in E0; lia]. rewrite (sample_row' sums nf k) by (auto; try lia; apply Hsum).
        eexists; split; eauto. splits; [apply (row_length' sums nf k); [apply Hsum|lia]|congruence|]. intros _.
        apply nth_error_ext. intros f. destruct (Nat.lt_ge_cases f nf) as [Hf|Hf].
        + rewrite (proj2 Hsum) by lia. rewrite Em. simpl.
          rewrite nth_error_nth' with (d := n_zero a) by now rewrite repeat_length. now rewrite nth_repeat.
        + rewrite nth_row. destruct (Nat.ltb_spec f nf); [lia|]. symmetry. apply nth_error_None. rewrite repeat_length. lia.
      - destruct (mean_ok asg sums c Hsum ltac:(lia)) as (v & -> & Hv). exists v. splits; auto; [apply Hv|].
        intros Em. rewrite Em in E0. simpl in E0. lia. }
    destruct Hpos as (v & -> & Hv & Hm & He). cbn [bind]. eexists; split; eauto.
    destruct (row_splice new nf k c v H1 ltac:(lia) Hv) as (H3 & H4 & H5). split; auto.
    intros c' Hc'. destruct (Nat.eq_dec c' c) as [->|Hn].
    + rewrite H4. auto.
    + rewrite H5 by auto. apply H2. lia.
  - exists new. split; auto.
Qed.

Lemma order_ext : order_ok (e_lt a).
Proof using Ha.
  split.
  - intros [x|] [y|]; simpl; auto; try discriminate. apply (ok_order _ Ha).
  - intros [x|] [y|] [z|]; simpl; auto; try discriminate. apply (ok_order _ Ha).
Qed.

Lemma total_ok (l : list (ext a)) (g : nat -> num) : length l = n -> (forall i, i < n -> nth_error l i = Some (Some (g i))) ->
  total a l = Some (fold_right (fun i acc => n_add a (g i) acc) (n_zero a) (seq 0 n)).
Proof using Ha Hs Hnf.
  intros Hl H. assert (El : l = map (fun i => Some (g i)) (seq 0 n)).
  { apply nth_error_ext. intros i. destruct (Nat.lt_ge_cases i n) as [Hi|Hi].
    - rewrite H by auto. rewrite nth_error_map. rewrite nth_error_nth' with (d := 0) by now rewrite seq_length.
      now rewrite seq_nth.
    - rewrite !(proj2 (nth_error_None _ _)); auto; rewrite ?map_length, ?seq_length; lia. }
  subst l. unfold total. generalize (seq 0 n). intros s.
  assert (G : forall acc, fold_left (fun acc x => match x with Some v => e_add a acc v | None => None end)
      (map (fun i => Some (g i)) s) (Some acc) = Some (n_add a acc (fold_right (fun i acc => n_add a (g i) acc) (n_zero a) s))).
  { induction s as [|i s IH]; intros acc; simpl.
    - now rewrite add_0r.
    - rewrite IH. f_equal. now rewrite (ok_add_assoc _ Ha). }
  rewrite G. f_equal. apply (ok_add_0 _ Ha).
Qed.

Definition first_nearest_assignment (centroids : list num) (asg : list nat) : Prop :=
  length asg = n /\ forall i, i < n -> first_nearest (n_lt a) (n_dist a) centroids nf k (row samples nf i) (nth i asg 0).

Lemma first_nearest_is_nearest centroids asg : first_nearest_assignment centroids asg ->
  nearest_assignment a samples nf n k centroids asg.
Proof. intros (H1 & H2). split; auto. intros i Hi. apply H2; auto. Qed.

Lemma assignment_in centroids asg : nearest_assignment a samples nf n k centroids asg -> forall x, In x asg -> x < k.
Proof using Hs Hnf.
  intros (H1 & H2) x Hx. apply (In_nth _ _ 0) in Hx. destruct Hx as (i & Hi & <-). apply H2. lia.
Qed.

Definition lloyd_inv (l : lloyd a) : Prop :=
  length (ll_centroids _ l) = k * nf /\ first_nearest_assignment (ll_centroids _ l) (ll_indices _ l) /\
  ll_loss _ l = Some (total_distance a samples nf (ll_centroids _ l) (ll_indices _ l)).

Lemma assign_ok centroids : 0 < k -> length centroids = k * nf ->
  exists asg ds, samples_to_nearest_centroid_indices (e_lt a) None (e_dist a) samples nf centroids = Ok asg /\
    samples_to_nearest_centroid_distances (e_lt a) None (e_dist a) samples nf centroids = Ok ds /\
    first_nearest_assignment centroids asg /\ length ds = n /\
    forall i, i < n -> nth_error ds i = Some (Some (n_dist a (row samples nf i) (row centroids nf (nth i asg 0)))).
Proof using Ha Hnf Hs.
  intros Hk Hc.
  destruct (predict_ok (e_lt a) None (e_dist a) order_ext (fun _ _ => eq_refl) samples centroids nf n k Hnf Hs Hc Hk)
    as (asg & E1 & H1 & H2).
  destruct (forward_ok (e_lt a) None (e_dist a) order_ext (fun _ _ => eq_refl) samples centroids nf n k Hnf Hs Hc Hk)
    as (ds & E2 & H3 & H4).
  exists asg, ds. splits; auto.
  - split; auto. intros i Hi. destruct (H2 i Hi) as (j & Ej & Hj). rewrite (nth_error_nth _ _ _ Ej). exact Hj.
  - intros i Hi. destruct (H2 i Hi) as (j & Ej & Hj). destruct (H4 i Hi) as (x & Ex & j' & Hj' & ->).
    rewrite (nth_error_nth _ _ _ Ej). rewrite Ex. unfold e_dist.
    rewrite (first_nearest_unique _ _ _ _ _ _ _ _ Hj' Hj). reflexivity.
Qed.

Lemma make_lloyd_ok centroids : 0 < k -> length centroids = k * nf ->
  exists l, make_lloyd a samples nf centroids = Ok l /\ ll_centroids _ l = centroids /\ lloyd_inv l.
Proof using Ha Hnf Hs.
  intros Hk Hc. destruct (assign_ok centroids Hk Hc) as (asg & ds & E1 & E2 & H1 & H2 & H3).
  unfold make_lloyd. rewrite E1, E2. simpl. eexists; split; eauto. split; auto. split; [auto|]. split; [auto|]. simpl.
  rewrite (total_ok ds _ H2 H3). unfold total_distance. now rewrite (proj1 H1).
Qed.

Lemma lloyd_step_ok l : 0 < k -> lloyd_inv l -> exists l', lloyd_step a samples nf l = Ok l' /\ lloyd_inv l' /\
  centroids_after a samples nf k (ll_indices _ l) (fun _ => repeat (n_zero a) nf) (ll_centroids _ l').
Proof using Ha Hnf Hs.
  intros Hk (H1 & H2 & H3). unfold lloyd_step.
  destruct (n_rows (ll_centroids _ l) (ll_centroids _ l) nf k k Hnf H1 H1) as (-> & _). simpl.
  pose proof (assignment_in _ _ (first_nearest_is_nearest _ _ H2)) as Hin.
  destruct (sizes_ok (ll_indices _ l) k Hin) as (sizes & -> & _ & Hz). simpl.
  destruct (sums_compute (ll_indices _ l) (proj1 H2) Hin) as (sums & -> & Hsum). simpl.
  destruct (lloyd_centroids_ok (ll_indices _ l) sizes sums (ll_centroids _ l) (proj1 H2) H1 Hz Hsum) as (new & -> & Hnew). simpl.
  destruct (make_lloyd_ok new Hk (proj1 Hnew)) as (l' & -> & E & Hl'). exists l'. rewrite E. auto.
Qed.

(** ** Hamerly *)
Context (Hm : metric_laws a).
Notation le x y := (n_lt a y x = false).
Notation dc i centroids j := (n_dist a (row samples nf i) (row centroids nf j)).

Lemma le_cancel x y z : le (n_add a x z) (n_add a y z) -> le x y.
Proof using Ha Hm.
  intros H. apply (ok_add_le _ Hm) with (z := n_sub a (n_zero a) z) in H.
  assert (E : forall w, n_add a (n_add a w z) (n_sub a (n_zero a) z) = w).
  { intros w. rewrite <- (ok_add_assoc _ Ha), (ok_add_comm _ Ha z), (ok_add_sub _ Hm). apply add_0r. }
  now rewrite !E in H.
Qed.

Lemma le_sub x y z : le x (n_add a y z) -> le (n_sub a x z) y.
Proof using Ha Hm. intros H. apply le_cancel with (z := z). now rewrite (ok_add_sub _ Hm). Qed.

Lemma le_tr x y z : le x y -> le y z -> le x z.
Proof using Ha Hm. intros H1 H2. exact (le_trans _ (ok_order _ Ha) x y z H1 H2). Qed.

Lemma le_add_mono x y x' y' : le x y -> le x' y' -> le (n_add a x x') (n_add a y y').
Proof using Ha Hm.
  intros H1 H2. apply le_tr with (n_add a y x').
  - now apply (ok_add_le _ Hm).
  - rewrite !(ok_add_comm _ Ha y). now apply (ok_add_le _ Hm).
Qed.

(** The two bounds tests. *)
Lemma bound_test (s l : ext a) u (p ca cj : list num) : length p = nf -> length ca = nf -> length cj = nf ->
  e_lt a (e_max a (e_half a s) l) (Some u) = false -> le (n_dist a p ca) u ->
  e_lt a (Some (n_dist a ca cj)) s = false -> e_lt a (Some (n_dist a p cj)) l = false ->
  le (n_dist a p ca) (n_dist a p cj).
Proof using Ha Hm.
  intros Lp La Lj H Hu Hneigh Hl.
  assert (Hc : e_lt a l (Some u) = false \/ e_lt a (e_half a s) (Some u) = false).
  { unfold e_max in H. destruct (e_lt a (e_half a s) l); auto. }
  destruct Hc as [Hc|Hc].
  - destruct l as [l|]; simpl in *; [|discriminate]. apply le_tr with u; auto. apply le_tr with l; auto.
  - destruct s as [s|]; simpl in *; [|discriminate]. apply (ok_half _ Hm) in Hc.
    apply le_tr with u; auto. apply le_cancel with (z := u). apply le_tr with s; auto.
    apply le_tr with (n_dist a ca cj); auto.
    apply le_tr with (n_add a (n_dist a ca p) (n_dist a p cj)).
    + apply (ok_triangle _ Hm); congruence.
    + rewrite (ok_add_comm _ Ha (n_dist a ca p)). apply le_add_mono; [apply (lt_irrefl _ (ok_order _ Ha))|].
      rewrite (ok_dist_sym _ Hm) by congruence. auto.
Qed.

(** The loop over the other centroids. *)
Lemma other_ok centroids i assigned u : length centroids = k * nf -> i < n -> assigned < k -> u = dc i centroids assigned ->
  exists lb na, other_centroids a samples nf centroids i (Some u) assigned = Ok (lb, Some (dc i centroids na), na) /\ na < k /\
    (forall j, j < k -> j <> na -> e_lt a (Some (dc i centroids j)) lb = false) /\
    (forall j, j < k -> le (dc i centroids na) (dc i centroids j)).
Proof using Ha Hm Hnf Hs.
  intros Hc Hi Has Hu. unfold other_centroids. destruct (n_rows centroids centroids nf k k Hnf Hc Hc) as (-> & _). cbn [bind].
  set (P := fun done (st : ext a * ext a * nat) => let '(lb, ub, na) := st in
      na < k /\ ub = Some (dc i centroids na) /\
      forall j, j < k -> (j < done \/ j = assigned) -> j <> na ->
        le (dc i centroids na) (dc i centroids j) /\ e_lt a (Some (dc i centroids j)) lb = false).
  match goal with |- context [for_loop k 0 ?b ?s] => destruct (for_loop_inv P b k 0 s) as (((lb, ub), na) & E & HP) end.
  - unfold P. splits; auto; [congruence|]. intros j Hj Hor Hn. lia.
  - intros o ((lb, ub), na) Ho (H1 & H2 & H3). subst ub. destruct (Nat.eqb_spec o na) as [Eo|Eo].
    + eexists; split; eauto. unfold P. splits; auto. intros j Hj Hor Hn. apply H3; auto. lia.
    + rewrite (one_distance (e_dist a) samples centroids nf n k) by (auto; lia). cbn [bind]. unfold e_dist at 1.
      cbn [e_lt]. destruct (n_lt a (dc i centroids o) (dc i centroids na)) eqn:El.
      * eexists; split; eauto. unfold P. splits; auto; [lia|]. intros j Hj Hor Hn.
        assert (Hle : le (dc i centroids na) (dc i centroids j)).
        { destruct (Nat.eq_dec j na) as [->|Hjn]; [apply (lt_irrefl _ (ok_order _ Ha))|]. apply H3; auto. lia. }
        split; [|exact Hle]. apply le_tr with (dc i centroids na); auto. now apply (lt_asym _ (ok_order _ Ha)).
      * destruct (e_lt a (e_dist a (row samples nf i) (row centroids nf o)) lb) eqn:El2.
        -- eexists; split; eauto. unfold P. splits; auto. intros j Hj Hor Hn.
           destruct (Nat.eq_dec j o) as [->|Hjo].
           ++ split; auto. apply (lt_irrefl _ order_ext).
           ++ destruct (H3 j) as (H4 & H5); auto; [lia|]. split; auto.
              apply (le_trans _ order_ext _ lb); auto. now apply (lt_asym _ order_ext).
        -- eexists; split; eauto. unfold P. splits; auto. intros j Hj Hor Hn.
           destruct (Nat.eq_dec j o) as [->|Hjo].
           ++ split; auto.
           ++ apply H3; auto. lia.
  - unfold P in HP. destruct HP as (H1 & -> & H3). exists lb, na. splits; auto.
    + intros j Hj Hn. apply H3; auto.
    + intros j Hj. destruct (Nat.eq_dec j na) as [->|Hn]; [apply (lt_irrefl _ (ok_order _ Ha))|]. apply H3; auto.
Qed.

(** The invariant: valid bounds, exact sizes and sums. *)
Definition bounds_ok (centroids : list num) (asg : list nat) (nearest second neighbors : list (ext a)) : Prop :=
  length nearest = n /\ length second = n /\ length neighbors = k /\
  (forall i, i < n -> exists u, nth_error nearest i = Some (Some u) /\ le (dc i centroids (nth i asg 0)) u) /\
  (forall i, i < n -> exists l, nth_error second i = Some l /\
     forall j, j < k -> j <> nth i asg 0 -> e_lt a (Some (dc i centroids j)) l = false) /\
  (forall c, c < k -> exists s, nth_error neighbors c = Some s /\
     forall c', c' < k -> c' <> c -> e_lt a (Some (n_dist a (row centroids nf c) (row centroids nf c'))) s = false).

Definition clusters_ok (asg sizes : list nat) (sums : list num) : Prop :=
  length asg = n /\ (forall i, i < n -> nth i asg 0 < k) /\
  length sizes = k /\ (forall c, c < k -> nth_error sizes c = Some (length (members asg c))) /\ sums_ok samples nf k asg sums.

Definition hamerly_inv (h : hamerly a) : Prop :=
  length (h_centroids _ h) = k * nf /\ length (h_velocities _ h) = k /\
  clusters_ok (h_indices _ h) (h_sizes _ h) (h_sums _ h) /\
  bounds_ok (h_centroids _ h) (h_indices _ h) (h_nearest _ h) (h_second _ h) (h_neighbors _ h).

Lemma nth_all (l : list nat) i : i < length l -> rd l i = Ok (nth i l 0).
Proof. intros H. apply rd_ok. now apply nth_error_nth'. Qed.

Lemma reassign_ok asg sizes sums i c' : clusters_ok asg sizes sums -> i < n -> c' < k -> c' <> nth i asg 0 ->
  exists old new_size sums1 sums2,
    rd sizes (nth i asg 0) = Ok old /\
    rd (upd sizes (nth i asg 0) (old - 1)) c' = Ok new_size /\
    accumulate_sample a (n_sub a) samples nf i (nth i asg 0) sums = Ok sums1 /\
    accumulate_sample a (n_add a) samples nf i c' sums1 = Ok sums2 /\
    clusters_ok (upd asg i c') (upd (upd sizes (nth i asg 0) (old - 1)) c' (new_size + 1)) sums2.
Proof using Ha Hm Hnf Hs.
  intros (H1 & H2 & H3 & H4 & H5) Hi Hc' Hn. set (o := nth i asg 0) in *. assert (Ho : o < k) by (apply H2; auto).
  pose proof (members_leave asg i c' ltac:(lia) (not_eq_sym Hn)) as Pl. fold o in Pl.
  pose proof (members_join asg i c' ltac:(lia) (not_eq_sym Hn)) as Pj.
  destruct (accumulate_ok (n_sub a) sums i o (proj1 H5) Hi Ho) as (sums1 & E1 & L1 & R1 & O1).
  destruct (accumulate_ok (n_add a) sums1 i c' L1 Hi Hc') as (sums2 & E2 & L2 & R2 & O2).
  exists (length (members asg o)), (length (members asg c')), sums1, sums2. splits; auto.
  - apply rd_ok. auto.
  - apply rd_ok. rewrite nth_error_upd_neq by auto. auto.
  - split; [now rewrite upd_length|]. split.
    { intros j Hj. rewrite nth_upd by lia. destruct (j =? i); auto. }
    split; [now rewrite !upd_length|]. split; [|split; [auto|]].
    + intros c Hc. destruct (Nat.eq_dec c c') as [->|Hcc].
      * rewrite nth_error_upd_eq by (rewrite upd_length; lia). f_equal. rewrite (Permutation_length Pj). simpl. lia.
      * rewrite nth_error_upd_neq by auto. destruct (Nat.eq_dec c o) as [->|Hco].
        -- rewrite nth_error_upd_eq by lia. f_equal. rewrite (Permutation_length Pl). simpl. lia.
        -- rewrite nth_error_upd_neq by auto. rewrite members_other; auto; lia.
    + intros c f Hc Hf. destruct (Nat.eq_dec c c') as [->|Hcc].
      * rewrite R2, O1 by auto. rewrite (sum_perm _ _ _ _ _ Pj). simpl. rewrite (ok_add_comm _ Ha).
        apply nth_transform2; [apply H5; auto|apply nth_sample; auto].
      * rewrite O2 by auto. destruct (Nat.eq_dec c o) as [->|Hco].
        -- rewrite R1. erewrite nth_transform2; [|apply H5; auto|apply nth_sample; auto]. f_equal.
           rewrite (sum_perm _ _ _ _ _ Pl). simpl. rewrite (ok_add_comm _ Ha). apply (ok_sub_add _ Hm).
        -- rewrite O1 by auto. rewrite members_other by (auto; lia). apply H5; auto.
Qed.

Lemma swap_bound_ok h i : hamerly_inv h -> i < n ->
  exists h', swap_bound a samples nf i h = Ok h' /\ hamerly_inv h' /\ h_centroids _ h' = h_centroids _ h /\
    (forall j, j <> i -> nth j (h_indices _ h') 0 = nth j (h_indices _ h) 0) /\
    nearest_to (n_lt a) (n_dist a) (h_centroids _ h) nf k (row samples nf i) (nth i (h_indices _ h') 0).
Proof using Ha Hm Hnf Hs.
  intros (Hc & Hv & Hcl & Hb) Hi. destruct Hb as (B1 & B2 & B3 & B4 & B5 & B6).
  pose proof Hcl as (C1 & C2 & C3 & C4 & C5).
  destruct h as [centroids asg nearest second neighbors sizes sums vel loss]. cbn [h_centroids h_indices h_nearest h_second h_neighbors h_sizes h_sums h_velocities h_loss] in *.
  destruct (B4 i Hi) as (u & Eu & Hu). destruct (B5 i Hi) as (l & El & Hl).
  pose proof (C2 i Hi) as Has. destruct (B6 _ Has) as (s & Es & Hs').
  unfold swap_bound. cbn [h_centroids h_indices h_nearest h_second h_neighbors h_sizes h_sums h_velocities h_loss].
  rewrite nth_all by lia. cbn [bind]. set (as_ := nth i asg 0) in *.
  rewrite (proj2 (rd_ok neighbors as_ _) Es). cbn [bind]. rewrite (proj2 (rd_ok second i _) El). cbn [bind].
  rewrite (proj2 (rd_ok nearest i _) Eu). cbn [bind].
  assert (Htest : forall w, le (dc i centroids as_) w -> e_lt a (e_max a (e_half a s) l) (Some w) = false ->
    nearest_to (n_lt a) (n_dist a) centroids nf k (row samples nf i) as_).
  { intros w Hw Ht. split; auto. intros j Hj. destruct (Nat.eq_dec j as_) as [->|Hn]; [apply (lt_irrefl _ (ok_order _ Ha))|].
    apply (bound_test s l w); auto; try (apply (row_length' centroids nf k); auto).
    apply (row_length' samples nf n); auto. }
  destruct (e_lt a (e_max a (e_half a s) l) (Some u)) eqn:T1.
  2:{ eexists; split; [reflexivity|]. cbn [h_centroids h_indices]. splits; auto; [|eauto].
      unfold hamerly_inv, bounds_ok. cbn [h_centroids h_indices h_nearest h_second h_neighbors h_sizes h_sums h_velocities h_loss].
      splits; auto. }
  rewrite (one_distance (e_dist a) samples centroids nf n k) by auto. cbn [bind]. rewrite wr_lt by lia. cbn [bind].
  assert (Hb' : bounds_ok centroids asg (upd nearest i (Some (dc i centroids as_))) second neighbors).
  { unfold bounds_ok. splits; auto; [now rewrite upd_length|]. intros j Hj. destruct (Nat.eq_dec j i) as [->|Hn].
    - rewrite nth_error_upd_eq by lia. eexists; split; eauto. apply (lt_irrefl _ (ok_order _ Ha)).
    - rewrite nth_error_upd_neq by auto. auto. }
  unfold e_dist at 1.
  destruct (e_lt a (e_max a (e_half a s) l) (Some (dc i centroids as_))) eqn:T2.
  2:{ eexists; split; eauto. splits; auto.
      - split; auto.
      - apply (Htest (dc i centroids as_)); auto. apply (lt_irrefl _ (ok_order _ Ha)). }
  clear Htest.
  destruct (other_ok centroids i as_ _ Hc Hi Has eq_refl) as (lb & na & E & Hna & Hlb & Hmin).
  unfold e_dist at 1. rewrite E. cbn [bind h_second]. rewrite wr_lt by lia. cbn [bind].
  destruct Hb' as (D1 & D2 & D3 & D4 & D5 & D6).
  assert (Hb2 : forall asg', nth i asg' 0 = na -> (forall j, j <> i -> nth j asg' 0 = nth j asg 0) ->
     bounds_ok centroids asg' (upd (upd nearest i (Some (dc i centroids as_))) i (Some (dc i centroids na))) (upd second i lb) neighbors).
  { intros asg' E1 E2. unfold bounds_ok. splits; auto; try (now rewrite !upd_length).
    - intros j Hj. destruct (Nat.eq_dec j i) as [->|Hn].
      + rewrite nth_error_upd_eq by (rewrite upd_length; lia). rewrite E1. eexists; split; [reflexivity|]. apply (lt_irrefl _ (ok_order _ Ha)).
      + rewrite !nth_error_upd_neq by auto. rewrite E2 by auto. auto.
    - intros j Hj. destruct (Nat.eq_dec j i) as [->|Hn].
      + rewrite nth_error_upd_eq by lia. rewrite E1. eauto.
      + rewrite nth_error_upd_neq by auto. rewrite E2 by auto. auto. }
  cbn [h_centroids h_indices h_nearest h_second h_neighbors h_sizes h_sums h_velocities h_loss].
  destruct (Nat.eqb_spec as_ na) as [En|En].
  - eexists; split; eauto. cbn [h_centroids h_indices]. splits; auto.
    + split; auto. split; auto. split; auto.
      cbn [h_centroids h_indices h_nearest h_second h_neighbors h_sizes h_sums h_velocities h_loss].
      specialize (Hb2 asg En (fun j _ => eq_refl)). rewrite <- En in Hb2.
      replace (upd (upd nearest i (Some (dc i centroids as_))) i (Some (dc i centroids as_)))
        with (upd nearest i (Some (dc i centroids as_))) in Hb2; auto.
      symmetry. apply upd_same. apply nth_error_upd_eq. lia.
    + split; auto. intros j Hj. fold as_. rewrite En. auto.
  - rewrite wr_lt by (rewrite upd_length; lia). cbn [bind].
    destruct (reassign_ok asg sizes sums i na Hcl Hi Hna (not_eq_sym En)) as (old & ns & s1 & s2 & E1 & E2 & E3 & E4 & Hcl').
    fold as_ in E1, E2, E3, E4, Hcl'. rewrite E1. cbn [bind]. rewrite wr_lt by lia. cbn [bind]. rewrite E2. cbn [bind].
    rewrite wr_lt by (rewrite upd_length; lia). cbn [bind]. rewrite wr_lt by lia. cbn [bind].
    rewrite E3. cbn [bind]. rewrite E4. cbn [bind]. eexists; split; eauto. cbn [h_centroids h_indices].
    assert (F1 : nth i (upd asg i na) 0 = na) by (rewrite nth_upd by lia; now rewrite Nat.eqb_refl).
    assert (F2 : forall j, j <> i -> nth j (upd asg i na) 0 = nth j asg 0).
    { intros j Hn. rewrite nth_upd by lia. destruct (Nat.eqb_spec j i); congruence. }
    splits; auto.
    + unfold hamerly_inv. cbn [h_centroids h_indices h_nearest h_second h_neighbors h_sizes h_sums h_velocities h_loss].
      split; [auto|]. split; [auto|]. split; [auto|]. apply Hb2; auto.
    + rewrite F1. split; auto.
Qed.

Lemma swap_bounds_ok h : hamerly_inv h ->
  exists h', swap_bounds a samples nf h = Ok h' /\ hamerly_inv h' /\ h_centroids _ h' = h_centroids _ h /\
    nearest_assignment a samples nf n k (h_centroids _ h) (h_indices _ h').
Proof using Ha Hm Hnf Hs.
  intros Hh. unfold swap_bounds. destruct (n_rows samples samples nf n n Hnf Hs Hs) as (-> & _). cbn [bind].
  destruct (for_loop_inv (fun done h' => hamerly_inv h' /\ h_centroids _ h' = h_centroids _ h /\
      forall i, i < done -> nearest_to (n_lt a) (n_dist a) (h_centroids _ h) nf k (row samples nf i) (nth i (h_indices _ h') 0))
    (swap_bound a samples nf) n 0 h) as (h' & E & H1 & H2 & H3).
  - splits; auto. lia.
  - intros i t Hi (H1 & H2 & H3). destruct (swap_bound_ok t i H1 ltac:(lia)) as (t' & E & G1 & G2 & G3 & G4).
    exists t'. splits; auto; [congruence|]. intros j Hj. rewrite <- H2. destruct (Nat.eq_dec j i) as [->|Hn]; auto.
    rewrite G3 by auto. rewrite H2. apply H3. lia.
  - exists h'. splits; auto. split; [apply H1|auto].
Qed.

Lemma hamerly_centroids_ok asg sizes sums centroids : length centroids = k * nf -> clusters_ok asg sizes sums ->
  exists new, hamerly_update_centroids a nf sizes sums centroids = Ok new /\
    centroids_after a samples nf k asg (row centroids nf) new.
Proof using Hnf Hs.
  intros Hc (H1 & H2 & H3 & Hz & Hsum). unfold hamerly_update_centroids.
  destruct (n_rows centroids centroids nf k k Hnf Hc Hc) as (-> & _). cbn [bind].
  destruct (for_loop_inv (fun done new => length new = k * nf /\
      (forall c, c < done ->
        (members asg c <> [] -> is_mean a samples nf (members asg c) (row new nf c)) /\
        (members asg c = [] -> row new nf c = row centroids nf c)) /\
      (forall c, done <= c -> row new nf c = row centroids nf c))
    (fun cluster centroids =>
      size <- rd sizes cluster ;;
      if size =? 0 then Ok centroids
      else
        new_position <- mean_of a sums nf cluster size ;;
        Ok (splice centroids (cluster * nf) (cluster * nf + nf) new_position)) k 0 centroids) as (new & E & HP).
  - splits; auto. lia.
  - intros c new Hr (G1 & G2 & G3). rewrite (proj2 (rd_ok sizes c _) (Hz c ltac:(lia))). cbn [bind].
    destruct (Nat.eqb_spec (length (members asg c)) 0) as [E0|E0].
    + eexists; split; eauto. splits; auto.
      * intros c' Hc'. destruct (Nat.eq_dec c' c) as [->|Hn]; [|apply G2; lia]. split.
        -- intros Hmm. destruct (members asg c); [congruence|simpl in E0; lia].
        -- intros _. apply G3. lia.
      * intros c' Hc'. apply G3. lia.
    + destruct (mean_ok asg sums c Hsum ltac:(lia)) as (v & -> & Hmn). cbn [bind]. eexists; split; eauto.
      destruct (row_splice new nf k c v G1 ltac:(lia) (proj1 Hmn)) as (L1 & L2 & L3). splits; auto.
      * intros c' Hc'. destruct (Nat.eq_dec c' c) as [->|Hn].
        -- rewrite L2. split; auto. intros Em. rewrite Em in E0. simpl in E0. lia.
        -- rewrite L3 by auto. apply G2. lia.
      * intros c' Hc'. rewrite L3 by lia. apply G3. lia.
  - exists new. split; auto. destruct HP as (G1 & G2 & _). split; auto.
Qed.

Lemma velocities_ok previous centroids vel : length previous = k * nf -> length centroids = k * nf -> length vel = k ->
  exists v, update_centroids_velocities a nf previous centroids vel = Ok v /\ length v = k /\
    forall c, c < k -> nth_error v c = Some (n_dist a (row previous nf c) (row centroids nf c)).
Proof using Hnf Hs.
  intros Hp Hc Hv. unfold update_centroids_velocities.
  destruct (n_rows centroids centroids nf k k Hnf Hc Hc) as (-> & _). cbn [bind].
  destruct (for_loop_inv (fun done v => length v = k /\
      forall c, c < done -> nth_error v c = Some (n_dist a (row previous nf c) (row centroids nf c)))
    (fun cluster velocities =>
      p <- sample_at previous nf cluster ;;
      c <- sample_at centroids nf cluster ;;
      wr velocities cluster (n_dist a p c)) k 0 vel) as (v & E & HP).
  - split; auto. lia.
  - intros c v Hr (H1 & H2). rewrite (sample_row' previous nf k), (sample_row' centroids nf k) by (auto; lia). cbn [bind].
    rewrite wr_lt by lia. eexists; split; eauto. rewrite upd_length. split; auto. intros c' Hc'.
    destruct (Nat.eq_dec c' c) as [->|Hn].
    + apply nth_error_upd_eq. lia.
    + rewrite nth_error_upd_neq by auto. apply H2. lia.
  - exists v. split; auto.
Qed.

Lemma order_lowest : order_ok (lowest_lt a).
Proof using Ha Hm.
  split.
  - intros [x|] [y|]; simpl; auto; try discriminate. apply (ok_order _ Ha).
  - intros [x|] [y|] [z|]; simpl; auto; try discriminate. apply (ok_order _ Ha).
Qed.

Lemma second_max_ok vel : 0 < k -> length vel = k -> exists fi f sm,
  get_max_index_value_pair (n_lt a) vel = Ok (fi, f) /\ (exists i, get_second_max_index_value_pair a vel = Ok (i, Some sm)) /\
  (forall c v, nth_error vel c = Some v -> le v f) /\
  (forall c v, nth_error vel c = Some v -> c <> fi -> le v sm).
Proof using Ha Hm Hs Hnf.
  intros Hk Hl. destruct (get_max_spec (n_lt a) (ok_order _ Ha) vel) as (fi & f & E & Hf & Hmax).
  { destruct vel; simpl in *; [lia|congruence]. }
  assert (H1 : forall c v, nth_error vel c = Some v -> le v f).
  { intros c v Hv. apply Hmax. eapply nth_error_In; eauto. }
  unfold get_second_max_index_value_pair. rewrite E. cbn [bind].
  destruct (Nat.ltb_spec (length vel) 2) as [H2|H2].
  - exists fi, f, f. splits; eauto.
  - pose proof (nth_error_lt _ _ _ Hf) as Hfi. rewrite wr_lt by now rewrite map_length. cbn [bind].
    destruct (get_max_spec (lowest_lt a) order_lowest (upd (map Some vel) fi None)) as (si & sm & E2 & Hsm & Hmax2).
    { destruct vel; [simpl in Hl; lia|]. destruct fi; discriminate. }
    assert (Hall : forall c v, nth_error vel c = Some v -> c <> fi -> lowest_lt a sm (Some v) = false).
    { intros c v Hv Hn. apply Hmax2. apply (nth_error_In _ c). rewrite nth_error_upd_neq by auto. now rewrite nth_error_map, Hv. }
    destruct sm as [sm|].
    + exists fi, f, sm. splits; eauto.
    + exfalso. assert (Hc : exists c, c < length vel /\ c <> fi) by (destruct fi; [exists 1|exists 0]; lia).
      destruct Hc as (c & Hc & Hn). destruct (nth_error vel c) as [v|] eqn:Ev; [|apply nth_error_None in Ev; lia].
      pose proof (Hall c v Ev Hn). discriminate.
Qed.

Lemma update_bounds_ok h previous : 0 < k -> length (h_centroids _ h) = k * nf -> length previous = k * nf ->
  length (h_velocities _ h) = k ->
  (forall c, c < k -> nth_error (h_velocities _ h) c = Some (n_dist a (row previous nf c) (row (h_centroids _ h) nf c))) ->
  clusters_ok (h_indices _ h) (h_sizes _ h) (h_sums _ h) ->
  bounds_ok previous (h_indices _ h) (h_nearest _ h) (h_second _ h) (h_neighbors _ h) ->
  exists h', update_bounds a samples nf h = Ok h' /\ hamerly_inv h' /\ h_centroids _ h' = h_centroids _ h /\
    h_indices _ h' = h_indices _ h.
Proof using Ha Hm Hnf Hs.
  intros Hk Hc Hp Hv Hvel Hcl (B1 & B2 & B3 & B4 & B5 & B6).
  destruct h as [centroids asg nearest second neighbors sizes sums vel loss].
  cbn [h_centroids h_indices h_nearest h_second h_neighbors h_sizes h_sums h_velocities h_loss] in *.
  pose proof Hcl as (C1 & C2 & C3 & C4 & C5).
  destruct (second_max_ok vel Hk Hv) as (fi & f & sm & E1 & (si & E2) & Hmax & Hmax2).
  unfold update_bounds. cbn [h_centroids h_indices h_nearest h_second h_neighbors h_sizes h_sums h_velocities h_loss].
  rewrite E1. cbn [bind]. rewrite E2. cbn [bind]. destruct (n_rows samples samples nf n n Hnf Hs Hs) as (-> & _). cbn [bind].
  set (P := fun done (st : list (ext a) * list (ext a)) => let '(nr, sc) := st in
      length nr = n /\ length sc = n /\
      (forall i, done <= i -> nth_error nr i = nth_error nearest i /\ nth_error sc i = nth_error second i) /\
      forall i, i < done ->
        (exists u, nth_error nr i = Some (Some u) /\ le (dc i centroids (nth i asg 0)) u) /\
        (exists l, nth_error sc i = Some l /\
           forall j, j < k -> j <> nth i asg 0 -> e_lt a (Some (dc i centroids j)) l = false)).
  match goal with |- context [for_loop n 0 ?b ?s] => destruct (for_loop_inv P b n 0 s) as ((nr, sc) & E & HP) end.
  - unfold P. splits; auto. lia.
  - intros i (nr, sc) Hr (H1 & H2 & H3 & H4). assert (Hi : i < n) by lia. clear Hr.
    destruct (H3 i (Nat.le_refl i)) as (G1 & G2). destruct (B4 i Hi) as (u & Eu & Hu). destruct (B5 i Hi) as (l & El & Hl).
    pose proof (C2 i Hi) as Has. rewrite nth_all by lia. cbn [bind]. set (as_ := nth i asg 0) in *.
    rewrite (proj2 (rd_ok vel as_ _) (Hvel as_ Has)). cbn [bind].
    rewrite (proj2 (rd_ok nr i (Some u)) (eq_trans G1 Eu)). cbn [bind]. rewrite wr_lt by lia. cbn [bind].
    rewrite (proj2 (rd_ok sc i l) (eq_trans G2 El)). cbn [bind]. rewrite wr_lt by lia. cbn [bind].
    eexists; split; eauto. unfold P. rewrite !upd_length. splits; auto.
    + intros j Hj. rewrite !nth_error_upd_neq by lia. apply H3. lia.
    + assert (Lx : length (row samples nf i) = nf) by (apply (row_length' samples nf n); auto).
      assert (Lc : forall c, c < k -> length (row centroids nf c) = nf) by (intros; apply (row_length' centroids nf k); auto).
      assert (Lp : forall c, c < k -> length (row previous nf c) = nf) by (intros; apply (row_length' previous nf k); auto).
      intros j Hj. destruct (Nat.eq_dec j i) as [->|Hn].
      2:{ rewrite !nth_error_upd_neq by auto. apply H4. lia. }
      rewrite !nth_error_upd_eq by lia. fold as_. split.
      * eexists; split; [reflexivity|].
        eapply le_tr; [apply (ok_triangle _ Hm) with (q := row previous nf as_); rewrite ?Lx, ?Lp, ?Lc by auto; auto|].
        apply le_add_mono; auto. apply (lt_irrefl _ (ok_order _ Ha)).
      * eexists; split; [reflexivity|]. intros j Hjk Hja.
        assert (Hsub : forall w, le (n_dist a (row previous nf j) (row centroids nf j)) w ->
                  e_lt a (Some (dc i centroids j)) (e_sub a l w) = false).
        { intros w Hw. specialize (Hl j Hjk Hja). destruct l as [l|]; [|discriminate]. simpl in Hl |- *.
          apply le_sub. apply le_tr with (dc i previous j); auto.
          eapply le_tr; [apply (ok_triangle _ Hm) with (q := row centroids nf j); rewrite ?Lx, ?Lp, ?Lc by auto; auto|].
          apply le_add_mono; [apply (lt_irrefl _ (ok_order _ Ha))|].
          rewrite (ok_dist_sym _ Hm) by (rewrite ?Lp, ?Lc by auto; auto). auto. }
        destruct (Nat.eqb_spec as_ fi) as [Ef|Ef]; apply Hsub.
        -- apply (Hmax2 j); auto. congruence.
        -- apply (Hmax j); auto.
  - destruct HP as (H1 & H2 & _ & H4). rewrite E. cbn [bind].
    destruct (neighbors_ok (e_lt a) None (e_dist a) order_ext (fun _ _ => eq_refl) centroids nf k Hnf Hc) as (nb & -> & L & Hnb).
    cbn [bind]. eexists; split; eauto. splits; auto. split; auto. split; auto. split; auto.
    cbn [h_centroids h_indices h_nearest h_second h_neighbors h_sizes h_sums h_velocities h_loss].
    unfold bounds_ok. splits; auto; intros i Hi; apply H4; auto.
Qed.

Lemma hamerly_step_ok h : 0 < k -> hamerly_inv h ->
  exists h', hamerly_step a samples nf h = Ok h' /\ hamerly_inv h' /\
    nearest_assignment a samples nf n k (h_centroids _ h) (h_indices _ h') /\
    centroids_after a samples nf k (h_indices _ h') (row (h_centroids _ h) nf) (h_centroids _ h').
Proof using Ha Hm Hnf Hs.
  intros Hk Hh. destruct (swap_bounds_ok h Hh) as (h1 & E1 & (H1 & H2 & H3 & H4) & E2 & Hnear).
  unfold hamerly_step. rewrite E1. cbn [bind].
  destruct (hamerly_centroids_ok _ _ _ _ H1 H3) as (new & -> & Hnew). cbn [bind].
  destruct (velocities_ok _ new _ H1 (proj1 Hnew) H2) as (v & -> & Hv1 & Hv2). cbn [bind].
  match goal with |- context [update_bounds a samples nf ?x] => destruct (update_bounds_ok x (h_centroids _ h1)) as (h' & E & G1 & G2 & G3) end;
    cbn [h_centroids h_indices h_nearest h_second h_neighbors h_sizes h_sums h_velocities h_loss] in *; auto.
  - apply Hnew.
  - exists h'. rewrite G2, G3, <- E2. splits; auto. now rewrite E2.
Qed.

Lemma make_hamerly_ok centroids : 0 < k -> length centroids = k * nf -> no_tie a samples nf n k centroids ->
  exists h, make_hamerly a samples nf centroids = Ok h /\ hamerly_inv h /\ h_centroids _ h = centroids /\
    nearest_assignment a samples nf n k centroids (h_indices _ h).
Proof using Ha Hm Hnf Hs.
  intros Hk Hc Htie. destruct (assign_ok centroids Hk Hc) as (asg & ds & E1 & E2 & H1 & H2 & H3).
  unfold make_hamerly. rewrite E1. cbn [bind]. rewrite E2. cbn [bind].
  destruct (second_ok (e_lt a) None (e_dist a) order_ext (fun _ _ => eq_refl) samples centroids nf n k Hnf Hs Hc Hk
    (e_eq a) (fun _ _ => eq_refl)) as (sc & -> & L2 & Hsc). cbn [bind].
  destruct (neighbors_ok (e_lt a) None (e_dist a) order_ext (fun _ _ => eq_refl) centroids nf k Hnf Hc) as (nb & -> & L & Hnb).
  cbn [bind]. destruct (n_rows centroids centroids nf k k Hnf Hc Hc) as (-> & _). cbn [bind].
  pose proof (first_nearest_is_nearest _ _ H1) as Hnear. pose proof (assignment_in _ _ Hnear) as Hin.
  destruct (sizes_ok asg k Hin) as (sizes & -> & Lz & Hz). cbn [bind].
  destruct (sums_compute asg (proj1 H1) Hin) as (sums & -> & Hsum). cbn [bind].
  eexists; split; eauto. cbn [h_centroids h_indices]. splits; auto.
  split; auto. split; [apply repeat_length|].
  cbn [h_centroids h_indices h_nearest h_second h_neighbors h_sizes h_sums h_velocities h_loss].
  split; [unfold clusters_ok; splits; auto; [apply H1|intros i Hi; apply Hnear; auto]|].
  unfold bounds_ok. splits; auto.
  - intros i Hi. rewrite H3 by auto. eexists; split; eauto. apply (lt_irrefl _ (ok_order _ Ha)).
  - intros i Hi. destruct (Hsc i Hi) as (x & Ex & j & Hj & Hx). exists x. split; auto.
    pose proof (first_nearest_unique _ _ _ _ _ _ _ _ Hj (proj2 H1 i Hi)) as Ej. rewrite <- Ej. intros j' Hj' Hn.
    destruct (Hx j' Hj' Hn) as [|Hbad]; auto. exfalso.
    pose proof (Htie i j j' Hi Hj' (not_eq_sym Hn) (proj1 Hj)) as Hne. unfold e_dist, e_eq in Hbad. congruence.
Qed.
End Data.
End Arith.

(** ** fit *)
Section Fit.
Context (a : arith) (alg : algorithm a) (o : options) (close : num a -> num a -> bool).

Lemma containers_same l r : are_containers_equal a close l r = true <-> same close l r.
Proof.
  unfold are_containers_equal, same. rewrite andb_true_iff, Nat.eqb_eq. split; intros (H1 & H2); split; auto.
  - intros i x y Hx Hy. rewrite forallb_forall in H2. apply (H2 (x, y)). apply (nth_error_In _ i). now apply nth_error_combine.
  - apply forallb_forall. intros (x, y) Hin. apply In_nth_error in Hin. destruct Hin as (i & Hi).
    assert (Hc : nth_error l i = Some x /\ nth_error r i = Some y).
    { clear - Hi. revert r i Hi. induction l as [|u l IH]; intros [|v r] [|i] Hi; simpl in *; try discriminate.
      - inversion Hi; auto.
      - auto. }
    eapply H2; apply Hc.
Qed.

Section Sequence.
Context (st : nat -> state a alg) (Hst : forall i, alg_step a alg (st i) = Ok (st (S i))).
Context (Hne : forall i, alg_centroids a alg (st i) <> []).
Notation C i := (alg_centroids a alg (st i)).

Lemma fit_loop_ok cand0 : forall it i p,
  it + i = max_iter o -> p <= patience o ->
  (early_stopping o = true -> (forall r, r < p -> r + 2 <= i /\ same close (C (i - r)) (C (i - r - 1))) /\
    (i <= p + 1 \/ ~ same close (C (i - p)) (C (i - p - 1)))) ->
  (forall t', t' <= i -> ~ (early_stopping o = true /\ settled close (patience o) (fun i => C i) t')) ->
  exists t, fit_loop a alg o close it p (if i =? 0 then [] else C i) (if i =? 0 then cand0 else C i) (st i) =
      Ok (if t =? 0 then cand0 else C t, st t) /\
    stops_at (max_iter o) (early_stopping o) close (patience o) (fun i => C i) t.
Proof using Hst Hne.
  remember (early_stopping o) as early eqn:Ee. induction it as [|it IH]; intros i p Hit Hp Hcount Hno; cbn [fit_loop]; rewrite <- ?Ee.
  - exists i. split; auto. split; [lia|]. split; [left; lia|]. intros t' Ht'. apply Hno. lia.
  - rewrite Hst. cbn [bind]. destruct early; cbn [andb].
    2:{ destruct (IH (S i) 0) as (t & Et & Ht); auto; try lia; try discriminate.
        exists t. split; auto. }
    specialize (Hcount eq_refl). destruct Hcount as (Hc1 & Hc2).
    destruct (are_containers_equal a close (C (S i)) (if i =? 0 then [] else C i)) eqn:Eq.
    + apply containers_same in Eq. assert (Hi : i <> 0).
      { intros ->. simpl in Eq. destruct Eq as (El & _). apply (Hne 1). destruct (C 1); auto; discriminate. }
      destruct (Nat.eqb_spec i 0) as [|_]; [contradiction|].
      assert (Hrun : forall r, r < S p -> r + 2 <= S i /\ same close (C (S i - r)) (C (S i - r - 1))).
      { intros [|r] Hr.
        - replace (S i - 0 - 1) with i by lia. rewrite Nat.sub_0_r. split; [lia|auto].
        - destruct (Hc1 r) as (H1 & H2); [lia|]. split; [lia|]. exact H2. }
      destruct (Nat.eqb_spec p (patience o)) as [Ep|Ep].
      * exists (S i). split; auto. split; [lia|]. split.
        -- right. split; auto. intros r Hr. apply Hrun. lia.
        -- intros t' Ht'. apply Hno. lia.
      * destruct (IH (S i) (S p)) as (t & Et & Ht); try lia.
        -- intros _. split; auto. destruct Hc2 as [Hc2|Hc2]; [left; lia|right].
           replace (S i - S p) with (i - p) by lia. auto.
        -- intros t' Ht' (_ & Hset). destruct (Nat.eq_dec t' (S i)) as [->|Hn]; [|apply (Hno t'); auto; lia].
           destruct (Hset (S p)) as (H1 & H2); [lia|]. destruct Hc2 as [Hc2|Hc2]; [lia|].
           apply Hc2. replace (i - p) with (S i - S p) by lia. auto.
        -- exists t. split; auto.
    + assert (Hn : i = 0 \/ ~ same close (C (S i)) (C i)).
      { destruct (Nat.eqb_spec i 0) as [|Hi]; auto. right. intros Hs. apply containers_same in Hs. congruence. }
      destruct (IH (S i) 0) as (t & Et & Ht); try lia.
      * intros _. split; [lia|]. destruct Hn as [->|Hn]; [left; lia|right]. rewrite Nat.sub_0_r.
        replace (S i - 1) with i by lia. auto.
      * intros t' Ht' (_ & Hset). destruct (Nat.eq_dec t' (S i)) as [->|Hni]; [|apply (Hno t'); auto; lia].
        destruct (Hset 0) as (H1 & H2); [lia|]. rewrite Nat.sub_0_r in H2. replace (S i - 1) with i in H2 by lia.
        destruct Hn as [->|Hn]; [lia|auto].
      * exists t. split; auto.
Qed.
End Sequence.

(** One candidate. *)
Lemma fit_candidate_ok cand st : alg_make a alg cand = Ok (st 0) -> alg_centroids a alg (st 0) = cand ->
  (forall i, alg_step a alg (st i) = Ok (st (S i))) -> (forall i, alg_centroids a alg (st i) <> []) ->
  exists r, fit_candidate a alg o close cand = Ok r /\ candidate_result a alg o close cand r.
Proof.
  intros H0 Hc Hst Hne. unfold fit_candidate. rewrite H0. cbn [bind].
  destruct (fit_loop_ok st Hst Hne cand (max_iter o) 0 0) as (t & E & Ht); try lia.
  - intros _. split; [lia|left; lia].
  - intros t' Ht' (_ & Hs). destruct (Hs 0); lia.
  - simpl in E. rewrite E. cbn [bind]. eexists; split; eauto. exists st, t. splits; auto. simpl.
    destruct t; simpl; auto.
Qed.

Lemma fit_ok centroids initializer candidates :
  candidates = match centroids with [] => map initializer (seq 0 (n_init o)) | _ => [centroids] end ->
  candidates <> [] -> order_ok (n_lt a) ->
  (forall cand, In cand candidates -> exists r, fit_candidate a alg o close cand = Ok r /\ candidate_result a alg o close cand r) ->
  exists results i c loss, fit a alg o close centroids initializer = Ok c /\ Forall2 (candidate_result a alg o close) candidates results /\
    nth_error results i = Some (c, loss) /\
    forall r, In r results -> e_lt a (snd r) loss = false.
Proof.
  intros Hcs Hne Hord Hall. unfold fit. cbv zeta. rewrite <- Hcs. clear Hcs centroids initializer.
  destruct (for_each_inv (fun done results => Forall2 (candidate_result a alg o close) done results)
    (fun candidate results => r <- fit_candidate a alg o close candidate ;; Ok (results ++ [r])) candidates [] [])
    as (results & E & HP).
  - constructor.
  - intros x d t Hx HP. destruct (Hall x Hx) as (r & -> & Hr). cbn [bind]. eexists; split; eauto. apply Forall2_app; auto.
  - simpl in HP. rewrite E. cbn [bind].
    assert (Hr : map snd results <> []).
    { destruct HP; [congruence|discriminate]. }
    assert (Horev : order_ok (fun x y => e_lt a y x)).
    { assert (He : order_ok (e_lt a)).
      { split.
        - intros [x|] [y|]; simpl; auto; try discriminate. apply Hord.
        - intros [x|] [y|] [z|]; simpl; auto; try discriminate. apply Hord. }
      split.
      - intros x y H. apply He. auto.
      - intros x y z H1 H2. exact (proj2 He z y x H2 H1). }
    destruct (get_max_spec _ Horev (map snd results) Hr) as (i & loss & Em & Hi & Hmax).
    rewrite Em. cbn [bind]. rewrite nth_error_map in Hi. destruct (nth_error results i) as [(c, l)|] eqn:En; [|discriminate].
    simpl in Hi. assert (l = loss) by congruence. subst l. rewrite (proj2 (rd_ok results i _) En). cbn [bind].
    exists results, i, c, loss. splits; auto. intros r Hin. apply Hmax. now apply in_map.
Qed.
End Fit.
