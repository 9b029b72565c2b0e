(** Theorems on the single tree search (C15-C19, C54). *)
From Coq Require Import List Arith ZArith Lia Bool Permutation Relations.
From Verif Require Import Base SortingModel SortingSpec BoundsModel BoundsSpec BoundsProofs
  UnionFindModel UnionFindSpec UnionFindProofs BufferModel BufferSpec BufferProofs BufferProps
  KDTreeModel KDTreeSpec KDTreeProofs KDTreeProps SearchModel SearchSpec SearchProofs.
Import ListNotations.

(** ** The two kinds of values *)

Lemma l1_axis : forall p q a, a < length p -> length p = length q ->
  (Z.abs (nth a p 0 - nth a q 0) <= l1_dist p q)%Z.
Proof.
  induction p as [|x p IH]; intros [|y q] a Ha Hl; simpl in *; try lia.
  destruct a.
  - pose proof (l1_nonneg p q). lia.
  - assert (a < length p) by lia. assert (length p = length q) by lia. specialize (IH q a H H0). lia.
Qed.

Theorem int_metric_ok : metric_ok int_metric l1_dist.
Proof.
  constructor.
  - exact Z_order_ok.
  - intros p q H. simpl. now apply manhattan_ok.
  - intros p p' q a v Ha Hl _ H. simpl. rewrite !Z.ltb_ge. pose proof (l1_axis p q a Ha Hl). lia.
Qed.

Lemma sqe_ok : forall p q, length p = length q -> squared_euclidean_distance p q = Ok (sq_dist p q).
Proof.
  induction p as [|x p IH]; intros [|y q] H; simpl in *; try lia; auto.
  rewrite IH by lia. reflexivity.
Qed.

Lemma sq_nonneg : forall p q, (0 <= sq_dist p q)%Z.
Proof. induction p as [|x p IH]; intros [|y q]; cbn [sq_dist]; try lia. specialize (IH q).
  pose proof (Z.square_nonneg (x - y)). lia. Qed.

Lemma sq_axis : forall p q a, a < length p -> length p = length q ->
  ((nth a p 0 - nth a q 0) * (nth a p 0 - nth a q 0) <= sq_dist p q)%Z.
Proof.
  induction p as [|x p IH]; intros [|y q] a Ha Hl; simpl in *; try lia.
  destruct a.
  - pose proof (sq_nonneg p q). lia.
  - assert (a < length p) by lia. assert (length p = length q) by lia. specialize (IH q a H H0).
    pose proof (Z.square_nonneg (x - y)). lia.
Qed.

Theorem float_metric_ok : metric_ok float_metric (fun p q => Some (sq_dist p q)).
Proof.
  constructor.
  - exact opt_order_ok.
  - intros p q H. simpl. rewrite sqe_ok by auto. reflexivity.
  - intros p p' q a v Ha Hl _ H. simpl. rewrite !Z.ltb_ge. pose proof (sq_axis p q a Ha Hl). nia.
Qed.

Theorem float_infinity_ok samples query : infinity_ok float_metric samples query.
Proof. intros a b _ _. reflexivity. Qed.

(** ** Statements *)

(** Everything the construction of the tree is given. *)
Definition tree_input (tol : Z) (samples : list Z) (nf : nat) (policy : list bool -> list nat -> nat -> aabb -> nat)
  (lowest max : Z) (indices : list nat) : Prop :=
  (0 <= tol)%Z /\ policy_ok nf policy /\ dataset_ok samples nf lowest max indices /\
  (forall j, j < nf -> separated tol samples nf j indices).

(** What a buffer of capacity [k] says after a search whose eligible samples are [candidates]. *)
Definition answers {D} (lt : D -> D -> bool) (k : nat) (candidates : list (nat * D)) (b : buffer D) : Prop :=
  length (buf_indices b) = length (buf_distances b) /\
  k_nearest lt k candidates (combine (buf_indices b) (buf_distances b)) /\
  (candidates <> [] ->
     is_closest lt candidates (buf_closest_index b, buf_closest_distance b) /\
     exists i, buf_furthest_index b = Ok i /\
       is_furthest lt (combine (buf_indices b) (buf_distances b)) (i, buf_furthest_distance b)).

(** ** Lemmas *)

Lemma built_tree tol samples nf bucket max_depth policy lowest max center indices :
  tree_input tol samples nf policy lowest max indices ->
  exists tree, make_kdtree tol samples nf bucket max_depth policy lowest max center indices = Ok tree /\
    Permutation indices (kt_indices tree) /\ kd_ranges (kt_indices tree) (kt_root tree) /\
    kd_samples (kt_indices tree) (kt_root tree) = kt_indices tree /\
    kd_ordered samples nf (kt_indices tree) (kt_root tree) /\
    (forall i, In i (kt_indices tree) -> i * nf + nf <= length samples).
Proof.
  intros (Ht & Hp & Hd & Hs).
  destruct (make_kdtree_ok tol samples nf bucket max_depth policy lowest max center indices Ht Hp Hd)
    as (tree & segs & E & _ & L & T & Bt & Bx & P & S1 & S2 & S3 & S4 & S5 & S6 & S7).
  exists tree. splits; auto.
  - apply S6. intros j Hj x y Hx Hy. apply (Hs j Hj); eapply Permutation_in; try (symmetry; exact P); auto.
  - intros i Hi. apply (Permutation_in i (Permutation_sym P)) in Hi. destruct Hd as [Hd _].
    destruct nf as [|nf']; [lia|]. specialize (Hd nf' ltac:(lia) i Hi). lia.
Qed.

Lemma filter_perm {A} (f : A -> bool) l l' : Permutation l l' -> Permutation (filter f l) (filter f l').
Proof.
  induction 1; simpl; auto.
  - destruct (f x); auto.
  - destruct (f y), (f x); auto using perm_swap.
  - etransitivity; eauto.
Qed.

Section Found.
Context (m : metric) (dist : list Z -> list Z -> m_dist m) (Hm : metric_ok m dist).
Context (samples : list Z) (nf : nat) (tree : kdtree) (indices : list nat).
Context (bound : search_bound (m_dist m)) (query : list Z).
Context {S : Type} (accept : nat -> S -> res (bool * S)).
Context (P : nat -> bool) (Q : S -> Prop).
Hypothesis Hperm : Permutation indices (kt_indices tree).
Hypothesis Hranges : kd_ranges (kt_indices tree) (kt_root tree).
Hypothesis Hsamples : kd_samples (kt_indices tree) (kt_root tree) = kt_indices tree.
Hypothesis Hordered : kd_ordered samples nf (kt_indices tree) (kt_root tree).
Hypothesis Hdata : forall i, In i (kt_indices tree) -> i * nf + nf <= length samples.
Hypothesis Hquery : length query = nf.
Hypothesis Hacc : forall i s, In i indices -> Q s -> exists s', accept i s = Ok (P i, s') /\ Q s'.
Hypothesis Hbox : covers nf bound.

Notation lt := (m_lt m).
Notation cs := (cands m dist samples nf bound query P).

Lemma cands_perm l l' : Permutation l l' -> Permutation (cs l) (cs l').
Proof. intros H. unfold cands, with_distances. apply Permutation_map. now apply filter_perm. Qed.

Lemma search_bounded k s : 1 <= k -> fits k -> Q s ->
  exists b s', search m samples nf tree bound query accept k s = Ok (b, s') /\ Q s' /\ answers lt k (cs indices) b.
Proof.
  intros H1 Hk Hs.
  pose proof (mo_order m dist Hm) as Ho.
  destruct (visit_bounded m dist Hm samples nf (kt_indices tree) bound query accept P Q Hdata Hquery) with
    (t := kt_root tree) (b := make_buffer (m_inf m) k) (s := s) (pre := @nil (nat * m_dist m)) (rest := @nil (nat * m_dist m))
    as (b & s' & rest & off & skip & E & Hs' & I & M & Pm & K); auto.
  - intros i s0 Hi. apply Hacc. eapply Permutation_in; [symmetry; exact Hperm|auto].
  - constructor.
  - apply buf_inv_make.
  - exists b, s'. split; [|split; auto].
    { unfold search. apply search_is_visit. exact E. }
    simpl in I. destruct M as (C & _ & _). simpl in C.
    rewrite Hsamples in Pm.
    assert (Pc : Permutation (off ++ skip) (cs indices)).
    { rewrite Pm. symmetry. now apply cands_perm. }
    assert (KN : k_nearest lt k (cs indices) (entries b)).
    { exists (rest ++ skip). splits.
      - rewrite app_assoc. rewrite (bi_perm _ _ _ _ _ I). exact Pc.
      - destruct (inv_k_nearest lt (m_inf m) b off rest k I C H1) as (_ & _ & L & _). rewrite L.
        pose proof (Permutation_length Pc) as Lc. rewrite app_length in Lc.
        destruct skip as [|e skip]; [simpl in Lc; f_equal; lia|].
        destruct K as (K & _); [discriminate|].
        rewrite entries_length in L by apply I. lia.
      - intros x r Hx Hr. apply in_app_or in Hr as [Hr|Hr]; [apply (bi_rest _ _ _ _ _ I); auto|].
        assert (Hne : skip <> []) by (intros ->; destruct Hr).
        destruct (K Hne) as (K1 & K2).
        apply (le_trans _ Ho _ (buf_furthest_distance b)); auto.
        apply (bi_furthest _ _ _ _ _ I); auto.
        intros Eb. unfold entries in Hx. rewrite Eb in Hx. destruct Hx. }
    split; [apply I|]. split; [exact KN|]. intros Hne.
    assert (Hb : buf_indices b <> []).
    { intros Eb. destruct KN as (rst & Pk & Lk & _). unfold entries in Lk. rewrite Eb in Lk. simpl in Lk.
      destruct (cs indices); [congruence|]. simpl in Lk. lia. }
    split.
    + destruct (bi_closest _ _ _ _ _ I Hb) as (I1 & I2). split.
      * eapply Permutation_in; [exact Pc|]. apply in_or_app; auto.
      * intros x Hx. apply (Permutation_in x (Permutation_sym Pc)) in Hx. apply in_app_or in Hx as [Hx|Hx]; auto.
        assert (Hsk : skip <> []) by (intros ->; destruct Hx).
        destruct (K Hsk) as (K1 & K2).
        apply (le_trans _ Ho _ (buf_furthest_distance b)); auto.
        destruct (bi_furthest _ _ _ _ _ I Hb) as ((fi & Hf) & _).
        apply (I2 (fi, buf_furthest_distance b)). eapply Permutation_in; [apply I|].
        apply in_or_app; left. eapply nth_error_In; eauto.
    + destruct (bi_furthest _ _ _ _ _ I Hb) as ((i & Hi) & Hf).
      exists i. split; [|split; auto; eapply nth_error_In; eauto].
      unfold buf_furthest_index. apply rd_ok.
      pose proof (nth_error_lt _ _ _ Hi) as Hl. rewrite entries_length in Hl by apply I.
      pose proof (bi_len _ _ _ _ _ I) as L. unfold buf_size in Hl.
      destruct (nth_error (buf_indices b) (buf_furthest_pos b)) as [j|] eqn:Ej.
      * f_equal. destruct (nth_error (buf_distances b) (buf_furthest_pos b)) as [x|] eqn:Ex.
        -- pose proof (nth_error_combine _ _ _ _ _ Ej Ex) as Hc. fold (entries b) in Hc. congruence.
        -- apply nth_error_None in Ex. lia.
      * apply nth_error_None in Ej. lia.
Qed.

Lemma search_unlimited s : fits (length indices) -> Q s ->
  (infinity_ok m samples query \/ exists y, In y indices /\ elig m dist samples nf bound query P y = true /\ row samples nf y = query) ->
  exists b s', search m samples nf tree bound query accept default_capacity s = Ok (b, s') /\ Q s' /\
    length (buf_indices b) = length (buf_distances b) /\
    Permutation (combine (buf_indices b) (buf_distances b)) (cs indices).
Proof.
  intros Hk Hs HV.
  pose proof (mo_order m dist Hm) as Ho.
  destruct (visit_unlimited m dist Hm samples nf (kt_indices tree) bound query accept P Q Hdata Hquery) with
    (t := kt_root tree) (b := make_buffer (m_inf m) default_capacity) (s := s) (pre := @nil (nat * m_dist m))
    as (b & s' & off & E & Hs' & I & C & Pm); auto.
  - intros i s0 Hi. apply Hacc. eapply Permutation_in; [symmetry; exact Hperm|auto].
  - apply buf_inv_make.
  - simpl. rewrite Hsamples, <- (Permutation_length Hperm). exact Hk.
  - destruct HV as [HV|(y & Hy & He & Hr)]; auto. right; right. exists y. splits; auto.
    + rewrite Hsamples. eapply Permutation_in; eauto.
    + intros a Ha. rewrite <- Hr. symmetry. now apply (row_nth samples nf query Hquery).
  - exists b, s'. split; [|split; auto].
    { unfold search. apply search_is_visit. exact E. }
    split; [apply I|]. pose proof (bi_perm _ _ _ _ _ I) as Pb. rewrite app_nil_r in Pb. simpl in Pb.
    fold (entries b). rewrite Pb, Pm, Hsamples. symmetry. now apply cands_perm.
Qed.
End Found.

Lemma filter_true {A} (l : list A) : filter (fun _ => true) l = l.
Proof. induction l; simpl; congruence. Qed.

Lemma filter_map_snd {A D} (f : A -> D) (g : D -> bool) (l : list A) :
  map (fun i => (i, f i)) (filter (fun i => g (f i)) l) = filter (fun e => g (snd e)) (map (fun i => (i, f i)) l).
Proof. induction l as [|x l IH]; simpl; auto. destruct (g (f x)); simpl; congruence. Qed.

(** ** C15 *)
Theorem c15_tree_search_finds_the_k_nearest :
  forall m dist tol samples nf bucket max_depth policy lowest max center indices query k,
  metric_ok m dist -> tree_input tol samples nf policy lowest max indices ->
  length query = nf -> 1 <= k -> (Z.of_nat k < 2 ^ 64)%Z ->
  exists tree b,
    make_kdtree tol samples nf bucket max_depth policy lowest max center indices = Ok tree /\
    search m samples nf tree Unbounded query accept_all k tt = Ok (b, tt) /\
    answers (m_lt m) k (with_distances dist samples nf query indices) b.
Proof.
  intros m dist tol samples nf bucket max_depth policy lowest max center indices query k Hm Hi Hq H1 Hk.
  destruct (built_tree tol samples nf bucket max_depth policy lowest max center indices Hi)
    as (tree & E & P & R & S1 & O & D).
  destruct (search_bounded m dist Hm samples nf tree indices Unbounded query accept_all (fun _ => true) (fun _ => True))
    with (k := k) (s := tt) as (b & s' & Es & _ & A); auto.
  - intros i s _ _. exists s. auto.
  - exists tree, b. splits; auto. { destruct s'. exact Es. }
    unfold cands, elig, within in A. cbn [andb] in A. now rewrite filter_true in A.
Qed.

Lemma pts_input : tree_input 0 pts 2 cycle (-100) 100 (seq 0 7).
Proof. split; [lia|]. split; [exact cycle_ok|]. split; [exact pts_ok|]. exact pts_separated. Qed.

Definition found {D S} (r : res (buffer D * S)) : option (list nat * list D) :=
  match r with Ok (b, _) => Some (buf_indices b, buf_distances b) | _ => None end.
Definition with_tree {A} (t : res kdtree) (f : kdtree -> res A) : res A := t0 <- t ;; f t0.

Example c15_case :
  tree_input 0 pts 2 cycle (-100) 100 (seq 0 7) /\ metric_ok int_metric l1_dist /\
  found (with_tree (pts_tree 1 10) (fun t => search int_metric pts 2 t Unbounded [3; 3]%Z accept_all 3 tt))
    = Some ([3; 1; 5], [2; 2; 4]%Z) /\
  found (with_tree (pts_tree 1 10) (fun t => search float_metric pts 2 t Unbounded [3; 3]%Z accept_all 3 tt))
    = Some ([3; 1; 0], [Some 2; Some 2; Some 8]%Z).
Proof. split; [exact pts_input|]. split; [exact int_metric_ok|]. split; vm_compute; reflexivity. Qed.

Lemma line_ok (samples : list Z) lowest max :
  Forall (fun x => lowest <= x <= max)%Z samples -> dataset_ok samples 1 lowest max (seq 0 (length samples)).
Proof.
  intros H. split.
  - intros j Hj i Hi. apply in_seq in Hi. lia.
  - intros i j Hi Hj. apply in_seq in Hi. unfold val. rewrite Forall_forall in H. apply H. apply nth_In. lia.
Qed.

Lemma line_input (samples : list Z) lowest max :
  Forall (fun x => lowest <= x <= max)%Z samples ->
  tree_input 0 samples 1 (fun _ _ _ _ => 0) lowest max (seq 0 (length samples)).
Proof.
  intros H. unfold tree_input. splits; try lia.
  - intros h p d b. lia.
  - now apply line_ok.
  - intros j Hj x y Hx Hy Heq. lia.
Qed.

(** Without separation (float values of one feature within machine epsilon of each other) the answer can be wrong. *)
Theorem c15_close_values_refuted :
  exists tol samples nf bucket max_depth policy lowest max center indices query tree b,
    (0 <= tol)%Z /\ policy_ok nf policy /\ dataset_ok samples nf lowest max indices /\ length query = nf /\
    make_kdtree tol samples nf bucket max_depth policy lowest max center indices = Ok tree /\
    search float_metric samples nf tree Unbounded query accept_all 1 tt = Ok (b, tt) /\
    ~ k_nearest opt_lt 1 (with_distances (fun p q => Some (sq_dist p q)) samples nf query indices)
        (combine (buf_indices b) (buf_distances b)).
Proof.
  exists 2%Z, [5; 8; 10; 0]%Z, 1, 1, 10, (fun _ _ _ _ => 0), (-100)%Z, 100%Z, half, (seq 0 4), [7%Z].
  eexists. eexists. splits.
  - lia.
  - intros h p d bx. lia.
  - apply (line_ok [5; 8; 10; 0]%Z). repeat constructor; lia.
  - reflexivity.
  - vm_compute. reflexivity.
  - vm_compute. reflexivity.
  - intros (rest & P & _ & H). vm_compute in P.
    assert (In (1, Some 1%Z) ([(0, Some 4%Z)] ++ rest)) as Hin.
    { eapply Permutation_in; [symmetry; exact P|]. simpl. auto. }
    destruct Hin as [E|Hin]; [discriminate|].
    specialize (H (0, Some 4%Z) (1, Some 1%Z) (or_introl eq_refl) Hin). vm_compute in H. discriminate.
Qed.

(** ** C16 *)
Theorem c16_radius_search_is_exact :
  forall m dist tol samples nf bucket max_depth policy lowest max center indices query radius,
  metric_ok m dist -> tree_input tol samples nf policy lowest max indices ->
  length query = nf -> (Z.of_nat (length indices) < 2 ^ 64)%Z ->
  infinity_ok m samples query \/
    (exists y, In y indices /\ row samples nf y = query /\ m_lt m (dist query query) radius = true) ->
  exists tree b,
    make_kdtree tol samples nf bucket max_depth policy lowest max center indices = Ok tree /\
    search m samples nf tree (Radius radius) query accept_all default_capacity tt = Ok (b, tt) /\
    length (buf_indices b) = length (buf_distances b) /\
    Permutation (combine (buf_indices b) (buf_distances b))
      (filter (fun e => m_lt m (snd e) radius) (with_distances dist samples nf query indices)).
Proof.
  intros m dist tol samples nf bucket max_depth policy lowest max center indices query radius Hm Hi Hq Hk HV.
  destruct (built_tree tol samples nf bucket max_depth policy lowest max center indices Hi)
    as (tree & E & P & R & S1 & O & D).
  destruct (search_unlimited m dist Hm samples nf tree indices (Radius radius) query accept_all (fun _ => true) (fun _ => True))
    with (s := tt) as (b & s' & Es & _ & L & A); auto.
  - intros i s _ _. exists s. auto.
  - destruct HV as [HV|(y & Hy & Hr & Hd)]; auto. right. exists y. splits; auto.
    unfold elig, within. now rewrite Hr, Hd.
  - exists tree, b. splits; auto. { destruct s'. exact Es. }
    rewrite A. unfold cands, with_distances, elig, within.
    rewrite (filter_ext _ (fun i => m_lt m (dist (row samples nf i) query) radius)) by (intros; apply andb_true_r).
    rewrite (filter_map_snd (fun i => dist (row samples nf i) query) (fun d => m_lt m d radius)). reflexivity.
Qed.

Example c16_case :
  tree_input 0 pts 2 cycle (-100) 100 (seq 0 7) /\ infinity_ok float_metric pts [2; 4]%Z /\
  (exists y, In y (seq 0 7) /\ row pts 2 y = [2; 4]%Z /\ m_lt int_metric (l1_dist [2; 4]%Z [2; 4]%Z) 4%Z = true) /\
  found (with_tree (pts_tree 1 10)
           (fun t => search float_metric pts 2 t (Radius (Some 9%Z)) [3; 3]%Z accept_all default_capacity tt))
    = Some ([3; 1; 0], [Some 2; Some 2; Some 8]%Z) /\
  found (with_tree (pts_tree 1 10)
           (fun t => search int_metric pts 2 t (Radius 4%Z) [2; 4]%Z accept_all default_capacity tt))
    = Some ([3; 5; 1], [0; 2; 2]%Z).
Proof.
  split; [exact pts_input|]. split; [apply float_infinity_ok|]. split.
  { exists 3. vm_compute. auto 10. }
  split; vm_compute; reflexivity.
Qed.

(** Integer data: the search around a point that is not a sample misses a sample of the ball. *)
Theorem c16_integer_radius_search_refuted :
  exists samples nf bucket max_depth policy lowest max center indices query radius tree b,
    tree_input 0 samples nf policy lowest max indices /\ length query = nf /\
    make_kdtree 0 samples nf bucket max_depth policy lowest max center indices = Ok tree /\
    search int_metric samples nf tree (Radius radius) query accept_all default_capacity tt = Ok (b, tt) /\
    exists y, In y indices /\ (l1_dist (row samples nf y) query < radius)%Z /\ ~ In y (buf_indices b).
Proof.
  exists [0; 0;  1; 100;  9; 0]%Z, 2, 1, 10, cycle, (-100)%Z, 100%Z, half, (seq 0 3), [2; 0]%Z, 3%Z.
  eexists. eexists. splits.
  - unfold tree_input. splits; [lia|exact cycle_ok| |intros j Hj x y Hx Hy Heq; lia]. split.
    + intros j Hj i Hi. apply in_seq in Hi. simpl length. lia.
    + intros i j Hi Hj. apply in_seq in Hi.
      do 3 (destruct i as [|i]; [do 2 (destruct j as [|j]; [vm_compute; split; discriminate|]); lia|]). lia.
  - reflexivity.
  - vm_compute. reflexivity.
  - vm_compute. reflexivity.
  - exists 0. vm_compute. auto.
Qed.

(** ** C17 *)
Lemma filter_split {A} (f : A -> bool) l yes no :
  Permutation l (yes ++ no) -> (forall x, In x yes -> f x = true) -> (forall x, In x no -> f x = false) ->
  Permutation (filter f l) yes.
Proof.
  intros P Hy Hn. rewrite (filter_perm f _ _ P), filter_app.
  assert (forall l', (forall x, In x l' -> f x = true) -> filter f l' = l') as F1.
  { induction l' as [|x l' IH]; intros H; simpl; auto. rewrite H by (left; auto). f_equal. apply IH. intros; apply H; right; auto. }
  assert (forall l', (forall x, In x l' -> f x = false) -> filter f l' = []) as F2.
  { induction l' as [|x l' IH]; intros H; simpl; auto. rewrite H by (left; auto). apply IH. intros; apply H; right; auto. }
  rewrite F1, F2, app_nil_r by auto. reflexivity.
Qed.

Lemma answers_perm {D} (lt : D -> D -> bool) k cs cs' b : Permutation cs cs' -> answers lt k cs b -> answers lt k cs' b.
Proof.
  intros P (L & (rest & P1 & L1 & H1) & H2). unfold answers, k_nearest. splits; auto.
  - exists rest. splits; auto.
    + now rewrite P1.
    + rewrite L1. f_equal. now apply Permutation_length.
  - intros Hne. assert (Hc : cs <> []). { intros ->. apply Permutation_nil in P. auto. } destruct (H2 Hc) as ((C1 & C2) & F).
    split; auto. split.
    + eapply Permutation_in; eauto.
    + intros x Hx. apply C2. eapply Permutation_in; [symmetry; exact P|auto].
Qed.

Theorem c17_nearest_sample_of_another_component :
  forall m dist tol samples nf bucket max_depth policy lowest max center indices query k n ops u q others own,
  metric_ok m dist -> tree_input tol samples nf policy lowest max indices ->
  length query = nf -> 1 <= k -> (Z.of_nat k < 2 ^ 64)%Z ->
  Forall (op_in_range n) ops -> uf_run (uf_make n) ops = Ok u -> q < n -> (forall i, In i indices -> i < n) ->
  Permutation indices (others ++ own) ->
  (forall i, In i others -> ~ linked (merged_pairs ops) q i) -> (forall i, In i own -> linked (merged_pairs ops) q i) ->
  exists tree b u',
    make_kdtree tol samples nf bucket max_depth policy lowest max center indices = Ok tree /\
    search m samples nf tree Unbounded query (accept_other_component q) k u = Ok (b, u') /\
    answers (m_lt m) k (with_distances dist samples nf query others) b /\
    (forall x, x < n -> rep u' x = rep u x) /\
    (buf_indices b = [] <-> others = []) /\
    (others = [] -> buf_furthest_index b = UB).
Proof.
  intros m dist tol samples nf bucket max_depth policy lowest max center indices query k n ops u q others own
    Hm Hi Hq H1 Hk Hops Hrun Hqn Hin Hp Hoth Hown.
  destruct (built_tree tol samples nf bucket max_depth policy lowest max center indices Hi)
    as (tree & E & P & R & S1 & O & D).
  destruct (run_make_correct n ops Hops) as (u0 & E0 & U & T).
  assert (u0 = u) by congruence. subst u0.
  destruct (search_bounded m dist Hm samples nf tree indices Unbounded query (accept_other_component q)
              (fun i => negb (rootf u q =? rootf u i))
              (fun u' => uinv n u' /\ same_roots (parents u) (parents u')))
    with (k := k) (s := u) as (b & u' & Es & (U' & SR) & A); auto.
  - intros i u1 Hi' (U1 & SR1). unfold accept_other_component.
    destruct (uf_find_correct n u1 q U1 Hqn) as (u2 & r1 & E2 & R1 & U2 & SR2 & _). rewrite E2. cbn [bind].
    destruct (uf_find_correct n u2 i U2 (Hin i Hi')) as (u3 & r2 & E3 & R2 & U3 & SR3 & _). rewrite E3. cbn [bind].
    exists u3. split.
    + f_equal. f_equal. f_equal.
      assert (r1 = rootf u q).
      { eapply root_fun; [|apply (rootf_root n u q U Hqn)]. now apply SR1. }
      assert (r2 = rootf u i).
      { eapply root_fun; [|apply (rootf_root n u i U (Hin i Hi'))]. apply SR1. now apply SR2. }
      congruence.
    + split; auto. eapply same_roots_trans; [eapply same_roots_trans|]; eauto.
  - split; auto. apply same_roots_refl.
  - assert (Pc : Permutation (cands m dist samples nf Unbounded query (fun i => negb (rootf u q =? rootf u i)) indices)
                   (with_distances dist samples nf query others)).
    { unfold cands, with_distances. apply Permutation_map.
      rewrite (filter_ext _ (fun i => negb (rootf u q =? rootf u i))) by reflexivity.
      apply (filter_split _ _ _ own Hp).
      - intros x Hx. assert (x < n) by (apply Hin; eapply Permutation_in; [symmetry; exact Hp|apply in_or_app; auto]).
        apply negb_true_iff. apply Nat.eqb_neq. intros Er. apply (Hoth x Hx).
        apply (T q x (rootf u q) (rootf u x)); auto; eapply rootf_root; eauto.
      - intros x Hx. assert (x < n) by (apply Hin; eapply Permutation_in; [symmetry; exact Hp|apply in_or_app; auto]).
        apply negb_false_iff. apply Nat.eqb_eq.
        apply (T q x (rootf u q) (rootf u x)); auto; eapply rootf_root; eauto. }
    apply (answers_perm _ _ _ _ _ Pc) in A.
    exists tree, b, u'. splits; auto.
    + intros x Hx. symmetry. eapply same_roots_rep; eauto.
    + destruct A as (L & (rest & P1 & L1 & _) & _).
      unfold with_distances in L1. rewrite combine_length, map_length, L, Nat.min_id in L1. split.
      * intros Eb. rewrite Eb in L. simpl in L. destruct others; auto. simpl in L1. lia.
      * intros ->. simpl in L1. rewrite Nat.min_0_r in L1. rewrite <- L in L1. now destruct (buf_indices b).
    + intros ->. destruct A as (L & (rest & P1 & L1 & _) & _). simpl in P1, L1.
      rewrite Nat.min_0_r, combine_length, L, Nat.min_id in L1. rewrite <- L in L1.
      unfold buf_furthest_index, rd. destruct (buf_indices b); [|discriminate]. now destruct (buf_furthest_pos b).
Qed.

Definition pts_ops : list uf_op := [OMerge 1 3; OFind 0; OMerge 3 5].
Example c17_case :
  tree_input 0 pts 2 cycle (-100) 100 (seq 0 7) /\ Forall (op_in_range 7) pts_ops /\
  Permutation (seq 0 7) ([0; 2; 4; 6] ++ [1; 3; 5]) /\ ~ linked (merged_pairs pts_ops) 1 0 /\
  linked (merged_pairs pts_ops) 1 5 /\
  match uf_run (uf_make 7) pts_ops with
  | Ok u => found (with_tree (pts_tree 1 10)
              (fun t => search int_metric pts 2 t Unbounded [2; 2]%Z (accept_other_component 1) 1 u))
            = Some ([0], [4]%Z)
  | _ => False
  end.
Proof.
  split; [exact pts_input|]. split; [repeat constructor; simpl; lia|]. split.
  { apply NoDup_Permutation; try (repeat constructor; simpl; intuition lia).
    intros x. rewrite in_seq. simpl. intuition lia. }
  split.
  { intros H. apply (linked_invariant (fun i => existsb (Nat.eqb i) [1; 3; 5])) in H; [discriminate|].
    intros a b. simpl. intuition (try congruence); match goal with H : _ = (_, _) |- _ => inversion H; reflexivity end. }
  split.
  { apply rst_trans with 3; apply rst_step; simpl; auto. }
  vm_compute. reflexivity.
Qed.

(** ** C18 *)
Theorem c18_nearest_unvisited_samples :
  forall m dist tol samples nf bucket max_depth policy lowest max center indices query k visited,
  metric_ok m dist -> tree_input tol samples nf policy lowest max indices ->
  length query = nf -> 1 <= k -> (Z.of_nat k < 2 ^ 64)%Z ->
  exists tree b,
    make_kdtree tol samples nf bucket max_depth policy lowest max center indices = Ok tree /\
    search m samples nf tree Unbounded query (accept_unvisited visited) k tt = Ok (b, tt) /\
    answers (m_lt m) k
      (with_distances dist samples nf query
         (filter (fun i => if in_dec Nat.eq_dec i visited then false else true) indices)) b.
Proof.
  intros m dist tol samples nf bucket max_depth policy lowest max center indices query k visited Hm Hi Hq H1 Hk.
  destruct (built_tree tol samples nf bucket max_depth policy lowest max center indices Hi)
    as (tree & E & P & R & S1 & O & D).
  destruct (search_bounded m dist Hm samples nf tree indices Unbounded query (accept_unvisited visited)
              (fun i => if in_dec Nat.eq_dec i visited then false else true) (fun _ => True))
    with (k := k) (s := tt) as (b & s' & Es & _ & A); auto.
  - intros i s _ _. exists s. split; auto. unfold accept_unvisited. f_equal. f_equal.
    destruct (in_dec Nat.eq_dec i visited) as [Hv|Hv].
    + apply negb_false_iff. apply existsb_exists. exists i. split; auto. apply Nat.eqb_refl.
    + apply negb_true_iff. apply Bool.not_true_iff_false. intros He. apply existsb_exists in He as (x & Hx & Ex).
      apply Nat.eqb_eq in Ex. congruence.
  - exists tree, b. splits; auto. destruct s'. exact Es.
Qed.

Example c18_case :
  tree_input 0 pts 2 cycle (-100) 100 (seq 0 7) /\ metric_ok int_metric l1_dist /\
  found (with_tree (pts_tree 1 10)
           (fun t => search int_metric pts 2 t Unbounded [3; 3]%Z (accept_unvisited [3; 5]) 3 tt))
    = Some ([0; 4; 1], [4; 6; 2]%Z).
Proof. split; [exact pts_input|]. split; [exact int_metric_ok|]. vm_compute; reflexivity. Qed.

(** ** C19 *)
Theorem c19_nearest_neighbours_inside_a_ball :
  forall m dist tol samples nf bucket max_depth policy lowest max center indices query k radius,
  metric_ok m dist -> tree_input tol samples nf policy lowest max indices ->
  length query = nf -> 1 <= k -> (Z.of_nat k < 2 ^ 64)%Z ->
  exists tree b,
    make_kdtree tol samples nf bucket max_depth policy lowest max center indices = Ok tree /\
    search m samples nf tree (Radius radius) query accept_all k tt = Ok (b, tt) /\
    answers (m_lt m) k
      (filter (fun e => m_lt m (snd e) radius) (with_distances dist samples nf query indices)) b.
Proof.
  intros m dist tol samples nf bucket max_depth policy lowest max center indices query k radius Hm Hi Hq H1 Hk.
  destruct (built_tree tol samples nf bucket max_depth policy lowest max center indices Hi)
    as (tree & E & P & R & S1 & O & D).
  destruct (search_bounded m dist Hm samples nf tree indices (Radius radius) query accept_all (fun _ => true) (fun _ => True))
    with (k := k) (s := tt) as (b & s' & Es & _ & A); auto.
  - intros i s _ _. exists s. auto.
  - exists tree, b. splits; auto. { destruct s'. exact Es. }
    unfold cands, with_distances, elig, within in A.
    rewrite (filter_ext _ (fun i => m_lt m (dist (row samples nf i) query) radius)) in A by (intros; apply andb_true_r).
    rewrite (filter_map_snd (fun i => dist (row samples nf i) query) (fun d => m_lt m d radius)) in A. exact A.
Qed.

Example c19_case :
  tree_input 0 pts 2 cycle (-100) 100 (seq 0 7) /\ metric_ok int_metric l1_dist /\
  found (with_tree (pts_tree 1 10)
           (fun t => search int_metric pts 2 t (Radius 5%Z) [3; 3]%Z accept_all 3 tt))
    = Some ([3; 5; 1], [2; 4; 2]%Z).
Proof. split; [exact pts_input|]. split; [exact int_metric_ok|]. vm_compute; reflexivity. Qed.

(** ** C54 *)
Theorem c54_unsigned_search_refuted :
  exists samples nf bucket max_depth policy lowest max center indices query tree b,
    tree_input 0 samples nf policy lowest max indices /\ length query = nf /\
    (forall x, In x (samples ++ query) -> 0 <= x < 2 ^ 32)%Z /\
    make_kdtree 0 samples nf bucket max_depth policy lowest max center indices = Ok tree /\
    search uint_metric samples nf tree Unbounded query accept_all 2 tt = Ok (b, tt) /\
    ~ k_nearest Z.ltb 2 (with_distances l1_dist samples nf query indices)
        (combine (buf_indices b) (buf_distances b)).
Proof.
  exists [4; 5; 100]%Z, 1, 1, 10, (fun _ _ _ _ => 0), 0%Z, (2 ^ 32 - 1)%Z, half, (seq 0 3), [6%Z].
  eexists. eexists. splits.
  - apply (line_input [4; 5; 100]%Z). repeat constructor; lia.
  - reflexivity.
  - intros x Hx. simpl in Hx. lia.
  - vm_compute. reflexivity.
  - vm_compute. reflexivity.
  - intros (rest & P & _ & H). vm_compute in P.
    assert (In (0, 2%Z) ([(1, 1%Z); (2, 94%Z)] ++ rest)) as Hin.
    { eapply Permutation_in; [symmetry; exact P|]. simpl. auto. }
    destruct Hin as [E|[E|Hin]]; try discriminate.
    specialize (H (2, 94%Z) (0, 2%Z) (or_intror (or_introl eq_refl)) Hin). vm_compute in H. discriminate.
Qed.

Print Assumptions c15_tree_search_finds_the_k_nearest.
Print Assumptions c15_close_values_refuted.
Print Assumptions c16_radius_search_is_exact.
Print Assumptions c16_integer_radius_search_refuted.
Print Assumptions c17_nearest_sample_of_another_component.
Print Assumptions c18_nearest_unvisited_samples.
Print Assumptions c19_nearest_neighbours_inside_a_ball.
Print Assumptions c54_unsigned_search_refuted.
