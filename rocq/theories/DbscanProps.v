(** Theorems on DBSCAN (C34 to C37, C58). *)
From Coq Require Import List Arith ZArith Lia Bool Permutation Sorted.
From Verif Require Import Base SortingModel SortingSpec BoundsModel BoundsSpec BoundsProofs BufferModel BufferSpec BufferProofs
  BufferProps KDTreeModel KDTreeSpec KDTreeProofs KDTreeProps SearchModel SearchSpec SearchProofs SearchProps
  DbscanModel DbscanSpec DbscanProofs.
Import ListNotations.

(** Sample [j] is strictly within the radius of sample [i]. *)
Definition in_ball {D} (lt : D -> D -> bool) (dist : list Z -> list Z -> D) (samples : list Z) (nf : nat) (radius : D)
  (i j : nat) : bool := lt (dist (row samples nf j) (row samples nf i)) radius.

(** Only the samples that were given to the tree are found. *)
Definition indexed (indices : list nat) (near : nat -> nat -> bool) (i j : nat) : bool :=
  existsb (Nat.eqb j) indices && near i j.

(** The radius search sees the whole ball: infinity is larger than all distances, or all queries are samples of the
    tree and every sample is in its own ball. *)
Definition balls_complete (m : metric) (dist : list Z -> list Z -> m_dist m) (samples : list Z) (n : nat) (indices : list nat)
  (radius : m_dist m) : Prop :=
  infinity_ok m samples samples \/ ((forall i, i < n -> In i indices) /\ forall p, m_lt m (dist p p) radius = true).

(** ** Lemmas *)
Lemma existsb_in x (l : list nat) : existsb (Nat.eqb x) l = true <-> In x l.
Proof.
  rewrite existsb_exists. split.
  - intros (y & Hy & E). apply Nat.eqb_eq in E. now subst.
  - intros H. exists x. split; auto. apply Nat.eqb_refl.
Qed.

Lemma fetch_row {A} (samples : list A) nf i : nf <> 0 -> i < length samples / nf ->
  sample_at samples nf i = Ok (row samples nf i) /\ length (row samples nf i) = nf.
Proof.
  intros Hnf Hi. assert (H : i * nf + nf <= length samples).
  { pose proof (Nat.mul_div_le (length samples) nf Hnf). nia. }
  split; [|unfold row; rewrite firstn_length, skipn_length; lia].
  unfold sample_at, slice, row.
  destruct (Nat.leb_spec (i * nf) (i * nf + nf)); [|lia]. destruct (Nat.leb_spec (i * nf + nf) (length samples)); [|lia].
  simpl. do 2 f_equal. lia.
Qed.

Section Queries.
Context (m : metric) (dist : list Z -> list Z -> m_dist m) (Hm : metric_ok m dist).
Context (tol : Z) (samples : list Z) (nf bucket max_depth : nat) (policy : list bool -> list nat -> nat -> aabb -> nat)
  (lowest max : Z) (center : segment -> Z) (indices : list nat) (o : dbscan_options (m_dist m)).
Context (Hi : tree_input tol samples nf policy lowest max indices).
Context (Hnd : NoDup indices) (Hfit : (Z.of_nat (length indices) < 2 ^ 64)%Z).
Notation n := (length samples / nf).
Notation near := (in_ball (m_lt m) dist samples nf (d_radius o)).
Context (Hb : balls_complete m dist samples n indices (d_radius o)).

Lemma input_nf : nf <> 0.
Proof using Hi. destruct Hi as (_ & Hp & _). specialize (Hp [] [] 0 (mk_aabb [] [])). lia. Qed.

Lemma input_below i : In i indices -> i < n.
Proof using Hi.
  intros H. pose proof input_nf as Hnf. destruct Hi as (_ & _ & (Hd & _) & _).
  specialize (Hd (nf - 1) ltac:(lia) i H). apply Nat.div_le_lower_bound; auto. nia.
Qed.

Lemma queries_ok : exists tree,
  make_kdtree tol samples nf bucket max_depth policy lowest max center indices = Ok tree /\
  forall i, i < n -> exists b,
    (centroid <- sample_at samples nf i ;;
     '(b, _) <- search m samples nf tree (Radius (d_radius o)) centroid accept_all default_capacity tt ;; Ok b) = Ok b /\
    Permutation (buf_indices b) (filter (indexed indices near i) (seq 0 n)).
Proof using Hm Hi Hnd Hfit Hb.
  destruct (built_tree tol samples nf bucket max_depth policy lowest max center indices Hi) as (tree & E & P & R & S1 & O & D).
  exists tree. split; auto. intros i Hin. destruct (fetch_row samples nf i input_nf Hin) as [-> L]. cbn [bind].
  destruct (search_unlimited m dist Hm samples nf tree indices (Radius (d_radius o)) (row samples nf i) accept_all
    (fun _ => true) (fun _ => True)) with (s := tt) as (b & s' & Es & _ & Lb & A); auto.
  - intros k s _ _. exists s. auto.
  - destruct Hb as [H|[H1 H2]].
    + left. intros a b Ha Hb'. apply H; auto. unfold row in Hb'.
      rewrite <- (firstn_skipn (i * nf) samples). apply in_or_app. right.
      rewrite <- (firstn_skipn nf (skipn (i * nf) samples)). apply in_or_app. now left.
    + right. exists i. splits; auto. unfold elig, within. now rewrite H2.
  - rewrite Es. cbn [bind]. exists b. split; auto.
    assert (E2 : buf_indices b = map fst (combine (buf_indices b) (buf_distances b))).
    { clear -Lb. revert Lb. generalize (buf_distances b). induction (buf_indices b) as [|x l IH]; intros [|y d] H; simpl in *; auto; try discriminate.
      f_equal. apply IH. lia. }
    rewrite E2, A. unfold cands, with_distances. rewrite map_map. simpl. rewrite map_id.
    apply NoDup_Permutation.
    + apply NoDup_filter. auto.
    + apply NoDup_filter, seq_NoDup.
    + intros x. unfold indexed, elig, within, in_ball. rewrite !filter_In, andb_true_r, in_seq, andb_true_iff, existsb_in. split.
      * intros [H1 H2]. splits; auto; try lia. apply input_below in H1. lia.
      * tauto.
Qed.

Lemma dbscan_weak : exists tree c V p,
  make_kdtree tol samples nf bucket max_depth policy lowest max center indices = Ok tree /\
  dbscan_predict m samples nf tree o = Ok p /\ weak n (indexed indices near) (d_min_samples o) n c V p.
Proof using Hm Hi Hnd Hfit Hb.
  destruct queries_ok as (tree & E & Hq).
  destruct (predict_weak n (indexed indices near) (d_min_samples o) _ Hq) as (c & V & p & Ep & W).
  exists tree, c, V, p. auto.
Qed.

Lemma dbscan_strong : (forall p q, dist p q = dist q p) -> Permutation indices (seq 0 n) -> exists tree p,
  make_kdtree tol samples nf bucket max_depth policy lowest max center indices = Ok tree /\
  dbscan_predict m samples nf tree o = Ok p /\ density_labels n near (d_min_samples o) p /\
  forall x, x < n -> core n near (d_min_samples o) x = true -> nth x p 0 <> 0.
Proof using Hm Hi Hnd Hfit Hb.
  intros Hsym Hp. destruct queries_ok as (tree & E & Hq).
  assert (Hq' : forall i, i < n -> exists b, (centroid <- sample_at samples nf i ;;
     '(b, _) <- search m samples nf tree (Radius (d_radius o)) centroid accept_all default_capacity tt ;; Ok b) = Ok b /\
     Permutation (buf_indices b) (filter (near i) (seq 0 n))).
  { intros i Hin. destruct (Hq i Hin) as (b & Eb & Pb). exists b. split; auto. rewrite Pb.
    rewrite (filter_ext_in (indexed indices near i) (near i)); auto.
    intros j Hj. unfold indexed. replace (existsb _ indices) with true; auto. symmetry. apply existsb_in.
    eapply Permutation_in; [symmetry; exact Hp|auto]. }
  destruct (predict_strong n near (d_min_samples o) _ Hq') as (p & Ep & S1).
  { intros i j _ _. unfold in_ball. now rewrite Hsym. }
  destruct (predict_weak n near (d_min_samples o) _ Hq') as (c & V & p' & Ep' & W).
  exists tree, p. splits; auto. intros x Hx Hc.
  assert (p' = p) as -> by congruence. apply (wk_core _ _ _ _ _ _ _ W); auto. now apply (wk_seen _ _ _ _ _ _ _ W).
Qed.
End Queries.

Lemma labels_nth (p : list nat) x l : nth_error p x = Some l -> nth x p 0 = l.
Proof. apply nth_error_nth. Qed.

Lemma nth_labels (p : list nat) x : x < length p -> nth_error p x = Some (nth x p 0).
Proof. apply nth_error_nth'. Qed.

(** ** C34 *)
Theorem c34_dbscan_labels_are_gap_free :
  forall m dist tol samples nf bucket max_depth policy lowest max center indices o,
  metric_ok m dist -> tree_input tol samples nf policy lowest max indices ->
  NoDup indices -> (Z.of_nat (length indices) < 2 ^ 64)%Z ->
  balls_complete m dist samples (length samples / nf) indices (d_radius o) ->
  exists tree labels K,
    make_kdtree tol samples nf bucket max_depth policy lowest max center indices = Ok tree /\
    dbscan_predict m samples nf tree o = Ok labels /\
    (forall label, In label labels -> label <= K) /\
    forall k, 1 <= k <= K -> exists x, nth_error labels x = Some k /\
      core (length samples / nf) (indexed indices (in_ball (m_lt m) dist samples nf (d_radius o))) (d_min_samples o) x = true.
Proof.
  intros m dist tol samples nf bucket max_depth policy lowest max center indices o Hm Hi Hnd Hfit Hb.
  destruct (dbscan_weak m dist Hm tol samples nf bucket max_depth policy lowest max center indices o Hi Hnd Hfit Hb)
    as (tree & c & V & p & E1 & E2 & W).
  exists tree, p, c. splits; auto.
  - intros label Hl. apply In_nth_error in Hl as [x Hx]. apply labels_nth in Hx. subst label. apply W.
  - intros k Hk. destruct (wk_all _ _ _ _ _ _ _ W k Hk) as (x & Hx & Hc & Ex). exists x. split; auto.
    rewrite nth_labels; [congruence|]. now rewrite (wk_p _ _ _ _ _ _ _ W).
Qed.

(** ** C37 *)
Theorem c37_result_covers_the_whole_dataset :
  forall m dist tol samples nf bucket max_depth policy lowest max center indices o,
  metric_ok m dist -> tree_input tol samples nf policy lowest max indices ->
  NoDup indices -> (Z.of_nat (length indices) < 2 ^ 64)%Z ->
  balls_complete m dist samples (length samples / nf) indices (d_radius o) ->
  exists tree labels,
    make_kdtree tol samples nf bucket max_depth policy lowest max center indices = Ok tree /\
    dbscan_predict m samples nf tree o = Ok labels /\ length labels = length samples / nf.
Proof.
  intros m dist tol samples nf bucket max_depth policy lowest max center indices o Hm Hi Hnd Hfit Hb.
  destruct (dbscan_weak m dist Hm tol samples nf bucket max_depth policy lowest max center indices o Hi Hnd Hfit Hb)
    as (tree & c & V & p & E1 & E2 & W).
  exists tree, p. splits; auto. apply W.
Qed.

(** ** C36 *)
Theorem c36_border_and_noise :
  forall m dist tol samples nf bucket max_depth policy lowest max center indices o,
  metric_ok m dist -> tree_input tol samples nf policy lowest max indices ->
  NoDup indices -> (Z.of_nat (length indices) < 2 ^ 64)%Z ->
  balls_complete m dist samples (length samples / nf) indices (d_radius o) ->
  let near := indexed indices (in_ball (m_lt m) dist samples nf (d_radius o)) in
  let core := core (length samples / nf) near (d_min_samples o) in
  exists tree labels,
    make_kdtree tol samples nf bucket max_depth policy lowest max center indices = Ok tree /\
    dbscan_predict m samples nf tree o = Ok labels /\
    forall x label, nth_error labels x = Some label ->
      (label = 0 -> core x = false) /\
      (label <> 0 -> core x = false -> exists y, nth_error labels y = Some label /\ core y = true /\ near y x = true).
Proof.
  intros m dist tol samples nf bucket max_depth policy lowest max center indices o Hm Hi Hnd Hfit Hb near core.
  destruct (dbscan_weak m dist Hm tol samples nf bucket max_depth policy lowest max center indices o Hi Hnd Hfit Hb)
    as (tree & c & V & p & E1 & E2 & W).
  exists tree, p. splits; auto. intros x label Hx. pose proof (nth_error_lt _ _ _ Hx) as Hlt.
  pose proof (wk_p _ _ _ _ _ _ _ W) as Lp. apply labels_nth in Hx. split.
  - intros ->. destruct (core x) eqn:Hc; auto. exfalso. apply (wk_core _ _ _ _ _ _ _ W x); auto. apply W. lia.
  - intros Hl Hc. destruct (wk_border _ _ _ _ _ _ _ W x) as (y & Hy & Hyc & Ey & Hn); auto; [congruence|].
    exists y. splits; auto. rewrite nth_labels by lia. congruence.
Qed.

(** ** C58 *)
Definition whole_index {A} (samples : list A) (nf : nat) (indices : list nat) : Prop :=
  Permutation indices (seq 0 (length samples / nf)).

Theorem c58_dbscan_labels_are_determined :
  forall m dist tol samples nf bucket max_depth policy lowest max center indices o,
  metric_ok m dist -> (forall p q, dist p q = dist q p) -> tree_input tol samples nf policy lowest max indices ->
  whole_index samples nf indices -> (Z.of_nat (length indices) < 2 ^ 64)%Z ->
  balls_complete m dist samples (length samples / nf) indices (d_radius o) ->
  exists tree labels,
    make_kdtree tol samples nf bucket max_depth policy lowest max center indices = Ok tree /\
    dbscan_predict m samples nf tree o = Ok labels /\
    density_labels (length samples / nf) (in_ball (m_lt m) dist samples nf (d_radius o)) (d_min_samples o) labels.
Proof.
  intros m dist tol samples nf bucket max_depth policy lowest max center indices o Hm Hs Hi Hw Hfit Hb.
  assert (Hnd : NoDup indices) by (eapply Permutation_NoDup; [symmetry; exact Hw|apply seq_NoDup]).
  destruct (dbscan_strong m dist Hm tol samples nf bucket max_depth policy lowest max center indices o)
    as (tree & p & E1 & E2 & D & _); auto. exists tree, p. auto.
Qed.

Lemma sorted_unique (l l' : list nat) : StronglySorted lt l -> StronglySorted lt l' -> (forall x, In x l <-> In x l') -> l = l'.
Proof.
  intros H. revert l'. induction H as [|a l H IH Ha]; intros l' H' Hx.
  - destruct l' as [|b l']; auto. destruct (proj2 (Hx b)); simpl; auto.
  - destruct H' as [|b l' H' Hb]; [destruct (proj1 (Hx a)); simpl; auto|].
    rewrite Forall_forall in Ha, Hb.
    assert (a = b) as ->.
    { destruct (proj1 (Hx a)) as [E|E]; simpl; auto. destruct (proj2 (Hx b)) as [E'|E']; simpl; auto.
      specialize (Ha b E'). specialize (Hb a E). lia. }
    f_equal. apply IH; auto. intros x. split; intros Hin.
    + destruct (proj1 (Hx x)) as [E|E]; simpl; auto. subst x. specialize (Ha b Hin). lia.
    + destruct (proj2 (Hx x)) as [E|E]; simpl; auto. subst x. specialize (Hb b Hin). lia.
Qed.

Lemma density_labels_unique n near min l l' : density_labels n near min l -> density_labels n near min l' -> l = l'.
Proof.
  intros (L & F & S1 & H1 & A) (L' & F' & S1' & H1' & A').
  assert (F' = F) as ->. { apply sorted_unique; auto. intros x. rewrite H1, H1'. tauto. }
  apply nth_error_ext. intros x. destruct (le_lt_dec n x) as [Hx|Hx].
  { rewrite (proj2 (nth_error_None l x)), (proj2 (nth_error_None l' x)) by lia. auto. }
  destruct (A x Hx) as [[-> N]|(c & e & He & -> & Hc & N)], (A' x Hx) as [[-> N']|(c' & e' & He' & -> & Hc' & N')]; auto.
  - exfalso. apply (N e'); auto. eapply nth_error_In; eauto.
  - exfalso. apply (N' e); auto. eapply nth_error_In; eauto.
  - destruct (lt_eq_lt_dec c c') as [[H| ->]|H]; auto; exfalso; [eapply N'|eapply N]; eauto.
Qed.

(** The labels do not depend on how the tree was built. *)
Theorem c58_dbscan_does_not_depend_on_the_index :
  forall m dist tol samples nf o
    bucket max_depth policy lowest max center indices bucket' max_depth' policy' lowest' max' center' indices',
  metric_ok m dist -> (forall p q, dist p q = dist q p) -> (Z.of_nat (length samples / nf) < 2 ^ 64)%Z ->
  tree_input tol samples nf policy lowest max indices -> whole_index samples nf indices ->
  tree_input tol samples nf policy' lowest' max' indices' -> whole_index samples nf indices' ->
  balls_complete m dist samples (length samples / nf) indices (d_radius o) ->
  exists tree tree' labels,
    make_kdtree tol samples nf bucket max_depth policy lowest max center indices = Ok tree /\
    make_kdtree tol samples nf bucket' max_depth' policy' lowest' max' center' indices' = Ok tree' /\
    dbscan_predict m samples nf tree o = Ok labels /\ dbscan_predict m samples nf tree' o = Ok labels.
Proof.
  intros m dist tol samples nf o bucket max_depth policy lowest max center indices
    bucket' max_depth' policy' lowest' max' center' indices' Hm Hs Hfit Hi Hw Hi' Hw' Hb.
  pose proof (Permutation_length Hw) as L. pose proof (Permutation_length Hw') as L'. rewrite seq_length in L, L'.
  destruct (c58_dbscan_labels_are_determined m dist tol samples nf bucket max_depth policy lowest max center indices o)
    as (tree & labels & E1 & E2 & D); auto; [lia|].
  destruct (c58_dbscan_labels_are_determined m dist tol samples nf bucket' max_depth' policy' lowest' max' center' indices' o)
    as (tree' & labels' & E1' & E2' & D'); auto; [lia| |].
  { destruct Hb as [H|[H1 H2]]; [left; auto|right]. split; auto. intros i Hin.
    eapply Permutation_in; [symmetry; exact Hw'|]. apply in_seq. lia. }
  exists tree, tree', labels. splits; auto. rewrite E2'. f_equal. eapply density_labels_unique; eauto.
Qed.

(** ** C35 *)
Theorem c35_core_samples_by_density_connectivity :
  forall m dist tol samples nf bucket max_depth policy lowest max center indices o,
  metric_ok m dist -> (forall p q, dist p q = dist q p) -> tree_input tol samples nf policy lowest max indices ->
  whole_index samples nf indices -> (Z.of_nat (length indices) < 2 ^ 64)%Z ->
  balls_complete m dist samples (length samples / nf) indices (d_radius o) ->
  let n := length samples / nf in
  let near := in_ball (m_lt m) dist samples nf (d_radius o) in
  exists tree labels,
    make_kdtree tol samples nf bucket max_depth policy lowest max center indices = Ok tree /\
    dbscan_predict m samples nf tree o = Ok labels /\
    forall i j, i < n -> j < n -> core n near (d_min_samples o) i = true -> core n near (d_min_samples o) j = true ->
      exists a b, nth_error labels i = Some a /\ nth_error labels j = Some b /\ a <> 0 /\
        (a = b <-> dense n near (d_min_samples o) i j).
Proof.
  intros m dist tol samples nf bucket max_depth policy lowest max center indices o Hm Hs Hi Hw Hfit Hb n near.
  assert (Hnd : NoDup indices) by (eapply Permutation_NoDup; [symmetry; exact Hw|apply seq_NoDup]).
  destruct (dbscan_strong m dist Hm tol samples nf bucket max_depth policy lowest max center indices o)
    as (tree & labels & E1 & E2 & (L & F & S1 & HF & A) & N); auto.
  exists tree, labels. splits; auto. fold n near in L, HF, A, N.
  assert (Hsym : forall a b, dense n near (d_min_samples o) a b -> dense n near (d_min_samples o) b a).
  { apply dense_sym. intros a b _ _. unfold near, in_ball. now rewrite Hs. }
  assert (G : forall i, i < n -> core n near (d_min_samples o) i = true -> exists c e,
    nth_error F c = Some e /\ nth_error labels i = Some (S c) /\ dense n near (d_min_samples o) e i /\
    forall c' e', c' < c -> nth_error F c' = Some e' -> ~ dense n near (d_min_samples o) e' i).
  { intros i Hin Hc. destruct (A i Hin) as [[E _]|(c & e & He & El & [[_ Hd]|[Hf _]] & Hb')]; [|exists c, e; splits; auto|congruence].
    - exfalso. apply (N i Hin Hc). now apply labels_nth.
    - intros c' e' Hlt He' Hd'. apply (Hb' c' e' Hlt He'). left. auto. }
  intros i j Hin Hjn Hci Hcj. destruct (G i Hin Hci) as (c & e & He & Ei & Hd & Hfirst).
  destruct (G j Hjn Hcj) as (c' & e' & He' & Ej & Hd' & Hfirst').
  exists (S c), (S c'). splits; auto. split.
  - intros E. assert (e' = e) by congruence. subst e'. apply (dense_trans n near (d_min_samples o) i e j); auto.
  - intros Hij. f_equal. destruct (lt_eq_lt_dec c c') as [[H|H]|H]; auto; exfalso.
    + apply (Hfirst' c e H He). eapply dense_trans; eauto.
    + apply (Hfirst c' e' H He'). eapply dense_trans; eauto.
Qed.

(** ** Cases and refutations *)
Definition line_tree (s : list Z) bucket indices : res kdtree :=
  make_kdtree 0 s 1 bucket 10 (fun _ _ _ _ => 0) (-100) 100 half indices.
Lemma sq_dist_sym p q : sq_dist p q = sq_dist q p.
Proof. revert q. induction p as [|x p IH]; intros [|y q]; cbn [sq_dist]; auto. rewrite (IH q). lia. Qed.

(** Sample 0 is a border sample of the cluster found later, sample 6 is far away. *)
Definition row_of_points : list Z := [0; 20; 10; 12; 22; 21; 90; 60; 61; 62; 63; 99]%Z.
Lemma points_input : tree_input 0 row_of_points 1 (fun _ _ _ _ => 0) (-100) 100 (seq 0 12).
Proof. apply (line_input row_of_points). repeat constructor; lia. Qed.

Definition dbscan_case (bucket : nat) (indices : list nat) (o : dbscan_options (option Z)) : res (list nat) :=
  with_tree (line_tree row_of_points bucket indices) (fun t => dbscan_predict float_metric row_of_points 1 t o).

Definition pt_options : dbscan_options (option Z) := Build_dbscan_options 3 (Some 121%Z).

Example c34_case :
  metric_ok float_metric (fun p q => Some (sq_dist p q)) /\ infinity_ok float_metric row_of_points row_of_points /\
  tree_input 0 row_of_points 1 (fun _ _ _ _ => 0) (-100) 100 (seq 0 12) /\
  dbscan_case 2 (seq 0 12) pt_options = Ok [0; 1; 1; 1; 1; 1; 0; 2; 2; 2; 2; 0].
Proof.
  split; [exact float_metric_ok|]. split; [apply float_infinity_ok|]. split; [exact points_input|]. vm_compute. reflexivity.
Qed.

(** The default number of samples: five samples in the ball are not enough, six are. *)
Example c34_default_min_samples_case :
  with_tree (line_tree [0; 1; 2; 3; 4]%Z 2 (seq 0 5))
    (fun t => dbscan_predict int_metric [0; 1; 2; 3; 4]%Z 1 t (Build_dbscan_options default_min_samples 9%Z)) = Ok [0; 0; 0; 0; 0] /\
  with_tree (line_tree [0; 1; 2; 3; 4; 5]%Z 2 (seq 0 6))
    (fun t => dbscan_predict int_metric [0; 1; 2; 3; 4; 5]%Z 1 t (Build_dbscan_options default_min_samples 9%Z))
    = Ok [1; 1; 1; 1; 1; 1].
Proof. vm_compute. auto. Qed.

(** Integer data: every sample is in its own ball, so the pruning of the search is harmless. *)
Example c35_case :
  balls_complete int_metric l1_dist row_of_points 12 (seq 0 12) 11%Z /\ (forall p q, l1_dist p q = l1_dist q p) /\
  whole_index row_of_points 1 (seq 0 12) /\
  with_tree (line_tree row_of_points 2 (seq 0 12))
    (fun t => dbscan_predict int_metric row_of_points 1 t (Build_dbscan_options 3 11%Z))
    = Ok [0; 1; 1; 1; 1; 1; 0; 2; 2; 2; 2; 0] /\
  core 12 (in_ball Z.ltb l1_dist row_of_points 1 11%Z) 3 1 = true /\
  dense 12 (in_ball Z.ltb l1_dist row_of_points 1 11%Z) 3 1 4 /\
  core 12 (in_ball Z.ltb l1_dist row_of_points 1 11%Z) 3 7 = true.
Proof.
  splits.
  - right. split; [intros i Hi; apply in_seq; lia|]. intros p. apply Z.ltb_lt.
    assert (l1_dist p p = 0%Z) as ->; [|lia]. induction p as [|x p IH]; simpl; auto. rewrite IH. lia.
  - exact l1_sym.
  - apply Permutation_refl.
  - vm_compute. reflexivity.
  - vm_compute. reflexivity.
  - apply (dense_step _ _ _ 1 4 4); [lia|vm_compute; reflexivity|vm_compute; reflexivity|].
    constructor; [lia|vm_compute; reflexivity].
  - vm_compute. reflexivity.
Qed.

(** A border sample that comes before its cluster and is not near the founder is reported as noise. *)
Theorem c36_border_samples_are_labelled_refuted :
  exists samples nf bucket max_depth policy lowest max center o tree labels x y,
    let n := length samples / nf in
    let near := in_ball opt_lt (fun p q => Some (sq_dist p q)) samples nf (d_radius o) in
    tree_input 0 samples nf policy lowest max (seq 0 n) /\
    make_kdtree 0 samples nf bucket max_depth policy lowest max center (seq 0 n) = Ok tree /\
    dbscan_predict float_metric samples nf tree o = Ok labels /\
    core n near (d_min_samples o) y = true /\ near y x = true /\ nth_error labels x = Some 0.
Proof.
  exists row_of_points, 1, 2, 10, (fun _ _ _ _ => 0), (-100)%Z, 100%Z, half, pt_options. eexists. eexists. exists 0, 2.
  intros n near. splits.
  - exact points_input.
  - vm_compute. reflexivity.
  - vm_compute. reflexivity.
  - vm_compute. reflexivity.
  - vm_compute. reflexivity.
  - vm_compute. reflexivity.
Qed.

Example c36_case :
  dbscan_case 2 (seq 0 12) (Build_dbscan_options 3 (Some 121%Z)) = Ok [0; 1; 1; 1; 1; 1; 0; 2; 2; 2; 2; 0] /\
  core 12 (in_ball opt_lt (fun p q => Some (sq_dist p q)) row_of_points 1 (Some 121%Z)) 4 3 = true /\
  core 12 (in_ball opt_lt (fun p q => Some (sq_dist p q)) row_of_points 1 (Some 121%Z)) 4 2 = false /\
  in_ball opt_lt (fun p q => Some (sq_dist p q)) row_of_points 1 (Some 121%Z) 3 2 = true /\
  dbscan_case 2 (seq 0 12) (Build_dbscan_options 4 (Some 121%Z)) = Ok [0; 1; 1; 1; 1; 1; 0; 0; 0; 0; 0; 0].
Proof. vm_compute. auto. Qed.

(** With a tree over four of the samples the result still has an entry for all twelve, and a sample that was not given
    to the tree opens a cluster. *)
Theorem c37_documented_length_refuted :
  exists samples nf bucket max_depth policy lowest max center indices o tree labels x,
    tree_input 0 samples nf policy lowest max indices /\ NoDup indices /\
    make_kdtree 0 samples nf bucket max_depth policy lowest max center indices = Ok tree /\
    dbscan_predict float_metric samples nf tree o = Ok labels /\
    length labels <> length indices /\ ~ In x indices /\ nth_error labels x = Some 1.
Proof.
  exists row_of_points, 1, 2, 10, (fun _ _ _ _ => 0), (-100)%Z, 100%Z, half, [2; 3; 4; 5], (Build_dbscan_options 2 (Some 121%Z)).
  eexists. eexists. exists 1. splits.
  - unfold tree_input. splits; [lia|intros h p d bx; lia| |intros j Hj a b Ha Hb Heq; lia].
    split.
    + intros j Hj i Hi. cbn [length row_of_points]. destruct Hi as [<-|[<-|[<-|[<-|[]]]]]; simpl; lia.
    + intros i j Hi Hj. assert (j = 0) as -> by lia. destruct Hi as [<-|[<-|[<-|[<-|[]]]]]; vm_compute; split; discriminate.
  - repeat constructor; simpl; lia.
  - vm_compute. reflexivity.
  - vm_compute. reflexivity.
  - vm_compute. lia.
  - simpl. lia.
  - vm_compute. reflexivity.
Qed.

Example c37_case : dbscan_case 2 [2; 3; 4; 5] (Build_dbscan_options 2 (Some 121%Z)) = Ok [0; 1; 1; 1; 1; 1; 0; 0; 0; 0; 0; 0].
Proof. vm_compute. reflexivity. Qed.

(** Other bucket size and index order, same labels. *)
Example c58_case :
  whole_index row_of_points 1 (rev (seq 0 12)) /\
  dbscan_case 1 (rev (seq 0 12)) pt_options = dbscan_case 5 (seq 0 12) pt_options /\
  founder 12 (in_ball opt_lt (fun p q => Some (sq_dist p q)) row_of_points 1 (Some 121%Z)) 3 1 /\
  claims 12 (in_ball opt_lt (fun p q => Some (sq_dist p q)) row_of_points 1 (Some 121%Z)) 3 1 2 /\
  dbscan_case 5 (seq 0 12) pt_options = Ok [0; 1; 1; 1; 1; 1; 0; 2; 2; 2; 2; 0].
Proof.
  splits.
  - unfold whole_index. symmetry. apply Permutation_rev.
  - vm_compute. reflexivity.
  - split; [lia|]. split; [vm_compute; reflexivity|]. intros j Hj.
    destruct j as [|j]; [|lia]. exfalso. apply dense_core_r in Hj as [_ Hj]. vm_compute in Hj. discriminate.
  - left. split; [vm_compute; reflexivity|]. apply (dense_step _ _ _ 1 2 2); [lia|vm_compute; reflexivity|vm_compute; reflexivity|].
    constructor; [lia|vm_compute; reflexivity].
  - vm_compute. reflexivity.
Qed.

Print Assumptions c34_dbscan_labels_are_gap_free.
Print Assumptions c35_core_samples_by_density_connectivity.
Print Assumptions c36_border_and_noise.
Print Assumptions c36_border_samples_are_labelled_refuted.
Print Assumptions c37_result_covers_the_whole_dataset.
Print Assumptions c37_documented_length_refuted.
Print Assumptions c58_dbscan_labels_are_determined.
Print Assumptions c58_dbscan_does_not_depend_on_the_index.
