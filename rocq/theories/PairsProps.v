(** Theorems on the closest pair of two sets of samples (C70). *)
From Coq Require Import List Arith ZArith Lia Bool Permutation Relations.
From Verif Require Import Base SortingModel SortingSpec BoundsModel BoundsSpec BoundsProofs MatrixProofs
  UnionFindModel UnionFindSpec UnionFindProofs BufferModel BufferSpec BufferProofs BufferProps
  KDTreeModel KDTreeSpec KDTreeProofs KDTreeProps SearchModel SearchSpec SearchProofs SearchProps
  DualTreeModel DualTreeProofs DualTreeProps PairsModel PairsProofs.
Import ListNotations.

(** ** Statements *)

(** The samples lie in the dataset. *)
Definition in_data (samples : list Z) (nf : nat) (indices : list nat) : Prop :=
  forall i, In i indices -> i * nf + nf <= length samples.

(** [e] is the first pair, in the order of the two loops, that is shortest among those at a positive distance below
    the one of [init]; it is [init] when there is none.  [enc] turns a distance into a value of the distance type. *)
Definition first_shortest {D} (enc : Z -> D) (below : Z -> bool) (dist : list Z -> list Z -> Z) (qs rs : list Z) (nf : nat)
  (init : nat * nat * D) (pairs : list (nat * nat)) (e : nat * nat * D) : Prop :=
  let d x y := dist (row qs nf x) (row rs nf y) in
  (e = init /\ forall x y, In (x, y) pairs -> d x y = 0%Z \/ below (d x y) = false) \/
  exists before x y after, pairs = before ++ (x, y) :: after /\ e = (x, y, enc (d x y)) /\
    (0 < d x y)%Z /\ below (d x y) = true /\
    (forall x' y', In (x', y') before -> d x' y' = 0%Z \/ (d x y < d x' y')%Z) /\
    (forall x' y', In (x', y') after -> d x' y' = 0%Z \/ (d x y <= d x' y')%Z).

(** [x], [y] are at the [k]-th shortest distance [d] of all the pairs. *)
Definition kth_pair (dist : list Z -> list Z -> Z) (qs rs : list Z) (nf : nat) (xs ys : list nat) (k x y : nat) (d : Z)
  : Prop :=
  In x xs /\ In y ys /\ d = dist (row qs nf x) (row rs nf y) /\
  length (filter (fun xy => (dist (row qs nf (fst xy)) (row rs nf (snd xy)) <? d)%Z) (list_prod xs ys)) < k /\
  k <= length (filter (fun xy => (dist (row qs nf (fst xy)) (row rs nf (snd xy)) <=? d)%Z) (list_prod xs ys)).

(** On every axis, neither set lies entirely below the other. *)
Definition boxes_meet (qs rs : list Z) (nf : nat) (xs ys : list nat) : Prop :=
  forall j, j < nf ->
    (exists x y, In x xs /\ In y ys /\ (val qs nf j x <= val rs nf j y)%Z) /\
    (exists x y, In x xs /\ In y ys /\ (val rs nf j y <= val qs nf j x)%Z).

(** ** Lemmas *)

Lemma sample_row' samples nf indices i : in_data samples nf indices -> In i indices ->
  sample_at samples nf i = Ok (row samples nf i) /\ length (row samples nf i) = nf.
Proof.
  intros H Hi. split.
  - apply (sample_at_row samples nf indices (repeat 0%Z nf) H (repeat_length _ _) i Hi).
  - apply (row_length samples nf (repeat 0%Z nf) (repeat_length _ _) i (H i Hi)).
Qed.

Section Simple.
Context (m : metric) (dist : list Z -> list Z -> m_dist m) (Hm : metric_ok m dist) (p : pruning (m_dist m)).
Context (enc : Z -> m_dist m) (zd : list Z -> list Z -> Z).
Hypothesis Henc : forall a b, dist a b = enc (zd a b).
Hypothesis Hlt : forall a b, m_lt m (enc a) (enc b) = (a <? b)%Z.
Hypothesis Hzero : p_zero p = enc 0.
Hypothesis Hnn : forall a b, (0 <= zd a b)%Z.

Lemma simple_shortest qs rs nf xs ys init : in_data qs nf xs -> in_data rs nf ys ->
  exists e, simple_dual_set_shortest_edge m p qs nf xs rs nf ys init = Ok e /\
    first_shortest enc (fun d => m_lt m (enc d) (snd init)) zd qs rs nf init (list_prod xs ys) e.
Proof using Hm Henc Hlt Hzero Hnn.
  intros Hx Hy.
  destruct (simple_ok m (mo_order m dist Hm) p qs nf rs nf (fun x y => enc (zd (row qs nf x) (row rs nf y))) xs ys) with
    (init := init) as (e & E & H).
  - intros x y e Hix Hiy. unfold simple_step.
    destruct (sample_row' qs nf xs x Hx Hix) as (-> & L1). destruct (sample_row' rs nf ys y Hy Hiy) as (-> & L2).
    cbn [bind]. rewrite (mo_auto m dist Hm) by congruence. cbn [bind]. now rewrite Henc.
  - exists e. split; auto.
    assert (Z0 : forall x y, m_lt m (p_zero p) (enc (zd (row qs nf x) (row rs nf y))) = false ->
              zd (row qs nf x) (row rs nf y) = 0%Z).
    { intros x y. rewrite Hzero, Hlt, Z.ltb_ge. specialize (Hnn (row qs nf x) (row rs nf y)). lia. }
    destruct H as [(-> & H)|(l1 & x & y & l2 & Ep & -> & A1 & A2 & A3 & A4)].
    + left. split; auto. intros x y Hi. destruct (H x y Hi) as [Hd|Hd]; auto.
    + right. exists l1, x, y, l2. rewrite Hzero, Hlt, Z.ltb_lt in A1. splits; auto.
      * intros x' y' Hi. destruct (A3 x' y' Hi) as [Hd|Hd]; auto. right. rewrite Hlt, Z.ltb_lt in Hd. exact Hd.
      * intros x' y' Hi. destruct (A4 x' y' Hi) as [Hd|Hd]; auto. right. rewrite Hlt, Z.ltb_ge in Hd. exact Hd.
Qed.
End Simple.

(** ** The double loop *)

Theorem c70_simple_shortest_pair_of_distinct_samples :
  forall qs rs nf xs ys, in_data qs nf xs -> in_data rs nf ys ->
  exists e, simple_dual_set_shortest_edge float_metric float_pruning qs nf xs rs nf ys
              (initial_shortest_edge float_metric) = Ok e /\
    first_shortest Some (fun _ => true) sq_dist qs rs nf (0, 0, None) (list_prod xs ys) e.
Proof.
  intros qs rs nf xs ys Hx Hy.
  exact (simple_shortest float_metric _ float_metric_ok float_pruning Some sq_dist (fun _ _ => eq_refl) (fun _ _ => eq_refl)
           eq_refl sq_nonneg qs rs nf xs ys (0, 0, None) Hx Hy).
Qed.

(** When no sample is in both sets, that is the closest pair. *)
Theorem c70_simple_closest_pair :
  forall qs rs nf xs ys, in_data qs nf xs -> in_data rs nf ys -> xs <> [] -> ys <> [] ->
  (forall x y, In x xs -> In y ys -> sq_dist (row qs nf x) (row rs nf y) <> 0%Z) ->
  exists x y d, simple_dual_set_shortest_edge float_metric float_pruning qs nf xs rs nf ys
                  (initial_shortest_edge float_metric) = Ok (x, y, Some d) /\
    closest_pair qs rs nf xs ys x y d.
Proof.
  intros qs rs nf xs ys Hx Hy Nx Ny Hd.
  destruct (c70_simple_shortest_pair_of_distinct_samples qs rs nf xs ys Hx Hy) as (e & E & H).
  destruct H as [(-> & H)|(l1 & x & y & l2 & Ep & -> & A1 & A2 & A3 & A4)].
  - destruct xs as [|x xs]; [congruence|]. destruct ys as [|y ys]; [congruence|]. exfalso.
    destruct (H x y) as [H0|H0]; [simpl; auto| |discriminate]. apply (Hd x y); simpl; auto.
  - exists x, y, (sq_dist (row qs nf x) (row rs nf y)). split; auto.
    assert (Hin : forall a b, In (a, b) (l1 ++ (x, y) :: l2) <-> In a xs /\ In b ys).
    { intros a b. rewrite <- Ep. apply in_prod_iff. }
    destruct (proj1 (Hin x y)) as (Ix & Iy); [apply in_or_app; simpl; auto|].
    unfold closest_pair. splits; auto. intros x' y' Hx' Hy'.
    specialize (Hd x' y' Hx' Hy'). pose proof (proj2 (Hin x' y') (conj Hx' Hy')) as Hi.
    apply in_app_or in Hi as [Hi|[Hi|Hi]].
    + destruct (A3 x' y' Hi); lia.
    + inversion Hi; subst. lia.
    + destruct (A4 x' y' Hi); lia.
Qed.

Example c70_simple_case :
  in_data pts 2 (seq 0 7) /\ in_data others 2 (seq 0 6) /\
  simple_dual_set_shortest_edge float_metric float_pruning pts 2 (seq 0 7) others 2 (seq 0 6)
    (initial_shortest_edge float_metric) = Ok (2, 1, Some 13%Z) /\
  simple_dual_set_shortest_edge float_metric float_pruning pts 2 [4; 3; 2] others 2 [5; 3; 1]
    (initial_shortest_edge float_metric) = Ok (4, 3, Some 13%Z).
Proof.
  split; [intros i Hi; apply in_seq in Hi; simpl; lia|]. split; [intros i Hi; apply in_seq in Hi; simpl; lia|].
  split; vm_compute; reflexivity.
Qed.

(** Samples found in both sets are passed over: the pair is not a closest one. *)
Theorem c70_simple_passes_over_common_samples_refuted :
  exists qs rs xs ys x y d x' y',
    in_data qs 2 xs /\ in_data rs 2 ys /\ In x' xs /\ In y' ys /\
    simple_dual_set_shortest_edge float_metric float_pruning qs 2 xs rs 2 ys (initial_shortest_edge float_metric)
      = Ok (x, y, Some d) /\
    (sq_dist (row qs 2 x') (row rs 2 y') < d)%Z.
Proof.
  exists pts, [2; 2; 9; 9]%Z, (seq 0 7), (seq 0 2). do 3 eexists. exists 1, 0. splits.
  - intros i Hi; apply in_seq in Hi; simpl; lia.
  - intros i Hi; apply in_seq in Hi; simpl; lia.
  - simpl; auto.
  - simpl; auto.
  - vm_compute. reflexivity.
  - vm_compute. reflexivity.
Qed.

(** Signed integers with an initial edge given by the caller, *)
Theorem c70_simple_integers :
  forall qs rs nf xs ys i j D, in_data qs nf xs -> in_data rs nf ys ->
  exists e, simple_dual_set_shortest_edge int_metric int_pruning qs nf xs rs nf ys (i, j, D) = Ok e /\
    first_shortest (fun d => d) (fun d => (d <? D)%Z) l1_dist qs rs nf (i, j, D) (list_prod xs ys) e.
Proof.
  intros qs rs nf xs ys i j D Hx Hy.
  exact (simple_shortest int_metric l1_dist int_metric_ok int_pruning (fun d => d) l1_dist (fun _ _ => eq_refl)
           (fun _ _ => eq_refl) eq_refl l1_nonneg qs rs nf xs ys (i, j, D) Hx Hy).
Qed.

(** and with the default one: it comes back, whatever the samples. *)
Theorem c70_simple_integers_never_find_a_pair :
  forall qs rs nf xs ys, in_data qs nf xs -> in_data rs nf ys ->
  simple_dual_set_shortest_edge int_metric int_pruning qs nf xs rs nf ys (initial_shortest_edge int_metric)
    = Ok (0, 0, 0%Z).
Proof.
  intros qs rs nf xs ys Hx Hy.
  destruct (c70_simple_integers qs rs nf xs ys 0 0 0%Z Hx Hy) as (e & E & H).
  change (initial_shortest_edge int_metric) with ((0, 0, 0%Z) : edge (m_dist int_metric)). 
  match goal with |- ?l = _ => replace l with (Ok e : res (edge (m_dist int_metric))) by (symmetry; exact E) end.
  destruct H as [(-> & _)|(l1 & x & y & l2 & _ & _ & A1 & A2 & _)]; auto.
  apply Z.ltb_lt in A2. lia.
Qed.

Example c70_simple_integers_case :
  simple_dual_set_shortest_edge int_metric int_pruning pts 2 (seq 0 7) others 2 (seq 0 6) (9, 9, 100%Z)
    = Ok (2, 1, 5%Z) /\
  simple_dual_set_shortest_edge int_metric int_pruning pts 2 (seq 0 7) others 2 (seq 0 6) (9, 9, 5%Z)
    = Ok (9, 9, 5%Z) /\
  l1_dist (row pts 2 2) (row others 2 1) = 5%Z.
Proof. split; [|split]; vm_compute; reflexivity. Qed.

(** ** Two trees *)

Section Kth.
Context (m : metric) (dist : list Z -> list Z -> m_dist m).
Context (enc : Z -> m_dist m) (zd : list Z -> list Z -> Z).
Hypothesis Henc : forall a b, dist a b = enc (zd a b).
Hypothesis Hsym : forall a b, zd a b = zd b a.
Hypothesis Hlt : forall a b, m_lt m (enc a) (enc b) = (a <? b)%Z.

Lemma filter_map_length {A B} (f : B -> bool) (g : A -> B) l :
  length (filter f (map g l)) = length (filter (fun a => f (g a)) l).
Proof. induction l as [|a l IH]; simpl; auto. destruct (f (g a)); simpl; auto. Qed.

Lemma filter_same {A} (f g : A -> bool) l : (forall a, f a = g a) -> filter f l = filter g l.
Proof. intros H. induction l as [|a l IH]; simpl; auto. rewrite H, IH. reflexivity. Qed.

Lemma all_edges_prod qs nf rs references (P : nat -> bool) xs :
  all_edges m dist qs nf rs references P xs =
  map (fun xy => (fst xy, snd xy, enc (zd (row qs nf (fst xy)) (row rs nf (snd xy)))))
    (list_prod xs (filter P references)).
Proof using Henc Hsym.
  unfold all_edges. induction xs as [|x xs IH]; simpl; auto. rewrite map_app, IH. f_equal.
  unfold edges_of. rewrite map_map. apply map_ext. intros y. cbn [fst snd]. rewrite Henc, Hsym. reflexivity.
Qed.

Lemma kth_is_kth qs nf rs references (P : nat -> bool) k xs e :
  kth_edge m k (all_edges m dist qs nf rs references P xs) e ->
  exists x y d, e = (x, y, enc d) /\ kth_pair zd qs rs nf xs (filter P references) k x y d.
Proof using Henc Hsym Hlt.
  rewrite all_edges_prod. intros (Hin & H1 & H2). apply in_map_iff in Hin as ((x & y) & <- & Hin).
  cbn [fst snd] in *. exists x, y, (zd (row qs nf x) (row rs nf y)). split; auto.
  apply in_prod_iff in Hin as (Hx & Hy). rewrite filter_map_length in H1, H2. cbn [fst snd] in *.
  unfold kth_pair. splits; auto.
  - erewrite filter_same; [exact H1|]. intros a. cbn beta. now rewrite Hlt.
  - erewrite filter_same; [exact H2|]. intros a. cbn beta. rewrite Hlt. now rewrite Z.leb_antisym.
Qed.
End Kth.

Lemma leaf_tree tol samples nf bucket policy lowest max center indices :
  tree_input tol samples nf policy lowest max indices ->
  exists tree box, make_kdtree tol samples nf bucket default_max_depth policy lowest max center indices = Ok tree /\
    kt_indices tree = indices /\ kt_root tree = KLeaf 0 (length indices) box /\ length (aabb_segments box) = nf /\
    (forall j, j < nf -> tight_for lowest max samples nf j indices (nth j (aabb_segments box) (mk_segment 0 0))) /\
    in_data samples nf indices.
Proof.
  intros Hi. destruct Hi as (Ht & Hp & (Hd & Hl) & Hs).
  unfold make_kdtree. destruct (make_tight_segments_ok lowest max samples nf indices Hd Hl) as (segs & E & L & H).
  rewrite E. cbn [bind]. unfold default_max_depth. cbn [build]. cbn [Nat.ltb Nat.leb andb bind].
  eexists; eexists; split; [reflexivity|]. cbn [kt_indices kt_root]. splits; auto.
  intros i Hi. destruct nf as [|nf']; [lia|]. specialize (Hd nf' ltac:(lia) i Hi). lia.
Qed.

(** Everything about [dual_set_shortest_edge]. *)
Lemma dual_set_kth m dist (Hm : metric_ok m dist) p tol policy lowest max center right_first qs rs nf queries references
  {S} (accept : nat -> S -> res (bool * S)) P (Q : S -> Prop) k s :
  tree_input tol qs nf policy lowest max queries -> tree_input tol rs nf policy lowest max references ->
  queries <> [] -> NoDup queries -> NoDup references -> 1 <= k -> fits k ->
  (forall i s, In i references -> Q s -> exists s', accept i s = Ok (P i, s') /\ Q s') -> Q s ->
  k <= length (filter P references) ->
  exists a b,
    length a = nf /\ length b = nf /\
    (forall j, j < nf -> tight_for lowest max qs nf j queries (nth j a (mk_segment 0 0))) /\
    (forall j, j < nf -> tight_for lowest max rs nf j references (nth j b (mk_segment 0 0))) /\
    let result := dual_set_shortest_edge m p qs nf queries rs nf references tol policy lowest max center right_first
                    accept k s in
    if p_adjusted_below p (m_inf m) (m_inf m) (aabb_diameter_sq a) (msq a b) then result = UB
    else exists e, result = Ok e /\ kth_edge m k (all_edges m dist qs nf rs references P queries) e.
Proof.
  intros Hq Hr Nq Dq Dr H1 Hk Ha Hs Hfew.
  destruct (leaf_tree tol qs nf (length queries) policy lowest max center queries Hq)
    as (qtree & qbox & Eq & Iq & Rq & Lq & Tq & Bq).
  destruct (leaf_tree tol rs nf (length references) policy lowest max center references Hr)
    as (rtree & rbox & Er & Ir & Rr & Lr & Tr & Br).
  exists (aabb_segments qbox), (aabb_segments rbox). splits; auto. cbv zeta.
  unfold dual_set_shortest_edge. rewrite Eq. cbn [bind]. rewrite Er. cbn [bind].
  apply (leaf_shortest_edge m dist Hm p qs nf rs queries references qbox rbox accept P Q k right_first); auto.
  apply aabb_min_distance_ok. congruence.
Qed.

(** A buffer of [k] samples that accepts the references [P]: on floating point numbers the edge is the [k]-th
    shortest of all eligible pairs, provided that there are [k] eligible references. *)
Theorem c70_dual_set_kth_shortest_pair :
  forall tol policy lowest max center right_first qs rs nf queries references
    {S} (accept : nat -> S -> res (bool * S)) P (Q : S -> Prop) k s,
  tree_input tol qs nf policy lowest max queries -> tree_input tol rs nf policy lowest max references ->
  queries <> [] -> NoDup queries -> NoDup references -> 1 <= k -> fits k ->
  (forall i s, In i references -> Q s -> exists s', accept i s = Ok (P i, s') /\ Q s') -> Q s ->
  k <= length (filter P references) ->
  exists x y d,
    dual_set_shortest_edge float_metric float_pruning qs nf queries rs nf references tol policy lowest max center
      right_first accept k s = Ok (x, y, Some d) /\
    dual_set_shortest_distance float_metric float_pruning qs nf queries rs nf references tol policy lowest max center
      right_first accept k s = Ok (Some d) /\
    kth_pair sq_dist qs rs nf queries (filter P references) k x y d.
Proof.
  intros tol policy lowest max center right_first qs rs nf queries references S accept P Q k s Hq Hr Nq Dq Dr H1 Hk Ha Hs Hf.
  destruct (dual_set_kth float_metric _ float_metric_ok float_pruning tol policy lowest max center right_first qs rs nf
              queries references accept P Q k s Hq Hr Nq Dq Dr H1 Hk Ha Hs Hf) as (a & b & _ & _ & _ & _ & H).
  cbv zeta in H. cbn [p_adjusted_below float_pruning m_inf float_metric] in H. destruct H as (e & E & He).
  destruct (kth_is_kth float_metric _ Some sq_dist (fun _ _ => eq_refl) sq_sym (fun _ _ => eq_refl) qs nf rs references P k
              queries e He) as (x & y & d & -> & Hd).
  exists x, y, d. splits; auto. unfold dual_set_shortest_distance.
  match goal with |- (' e <- ?l ;; _) = _ => replace l with (Ok ((x, y, Some d) : edge (m_dist float_metric))) by
    (symmetry; exact E) end. reflexivity.
Qed.

Example c70_dual_set_case :
  tree_input 0 pts 2 cycle (-100) 100 (seq 0 7) /\ tree_input 0 others 2 cycle (-100) 100 (seq 0 6) /\
  4 <= length (filter (fun i => negb (existsb (Nat.eqb i) [3])) (seq 0 6)) /\
  map (fun k => dual_set_shortest_edge float_metric float_pruning pts 2 (seq 0 7) others 2 (seq 0 6)
                  0 cycle (-100) 100 half (fun _ _ => false) accept_all k tt) [1; 2; 3; 4; 5; 6]
    = [Ok (2, 1, Some 13%Z); Ok (2, 1, Some 13%Z); Ok (4, 1, Some 17%Z); Ok (4, 0, Some 17%Z); Ok (2, 2, Some 18%Z);
       Ok (2, 4, Some 25%Z)] /\
  dual_set_shortest_edge float_metric float_pruning pts 2 (seq 0 7) others 2 (seq 0 6)
    0 cycle (-100) 100 half (fun _ _ => false) (accept_unvisited [3]) 4 tt = Ok (2, 2, Some 18%Z).
Proof.
  split; [exact pts_input|]. split; [exact others_input|]. split; [vm_compute; lia|].
  split; vm_compute; reflexivity.
Qed.

(** With fewer references than the buffers have room for, it is not. *)
Theorem c70_fewer_references_than_neighbours_refuted :
  exists samples queries references k x y d x' y' d', let first_axis := fun _ _ _ _ => 0 in
    tree_input 0 samples 1 first_axis (-100) 100 queries /\ tree_input 0 samples 1 first_axis (-100) 100 references /\
    NoDup queries /\ NoDup references /\ 1 <= k /\ length references < k /\
    dual_set_shortest_edge float_metric float_pruning samples 1 queries samples 1 references 0 first_axis (-100) 100 half
      (fun _ _ => false) accept_all k tt = Ok (x, y, Some d) /\
    kth_pair sq_dist samples samples 1 queries references k x' y' d' /\ d <> d'.
Proof.
  exists [0; 11; 1; 3]%Z, [0; 1], [2; 3], 3. do 3 eexists. exists 1, 3, 64%Z. cbv zeta. splits.
  - apply data_input; [intros h q dp b; lia| |repeat constructor; lia]. simpl. intros i Hi. lia.
  - apply data_input; [intros h q dp b; lia| |repeat constructor; lia]. simpl. intros i Hi. lia.
  - repeat constructor; simpl; lia.
  - repeat constructor; simpl; lia.
  - lia.
  - simpl; lia.
  - vm_compute. reflexivity.
  - unfold kth_pair. splits; try (simpl; auto; fail); vm_compute; auto.
  - lia.
Qed.

Lemma zero_sqrt_diameter segs : (0 <? 0 - Z.sqrt (aabb_diameter_sq segs))%Z = false.
Proof. apply Z.ltb_ge. pose proof (Z.sqrt_nonneg (aabb_diameter_sq segs)). lia. Qed.

Lemma msq_zero : forall a b, length a = length b ->
  ((msq a b <= 0)%Z <-> forall j, j < length a ->
     (seg_lower (nth j a (mk_segment 0 0)) <= seg_upper (nth j b (mk_segment 0 0)) /\
      seg_lower (nth j b (mk_segment 0 0)) <= seg_upper (nth j a (mk_segment 0 0)))%Z).
Proof.
  induction a as [|s a IH]; intros [|t b] L; simpl in L; try lia.
  - simpl. split; [intros; lia|intros; lia].
  - cbn [msq]. specialize (IH b ltac:(lia)). pose proof (msq_nonneg a b) as Hn.
    set (g := seg_min_distance s t) in *.
    assert (Hg : (0 <= g * g)%Z) by nia.
    assert (H0 : (g * g = 0 <-> seg_lower s <= seg_upper t /\ seg_lower t <= seg_upper s)%Z \/
                 (g * g = 0 -> seg_lower s <= seg_upper t /\ seg_lower t <= seg_upper s)%Z /\
                 (seg_lower s <= seg_upper t -> seg_lower t <= seg_upper s -> g * g = 0)%Z).
    { right. unfold g, seg_min_distance.
      destruct (Z.ltb_spec (seg_upper s) (seg_lower t)); [split; [intros; nia|intros; lia]|].
      destruct (Z.ltb_spec (seg_upper t) (seg_lower s)); [split; [intros; nia|intros; lia]|]. split; intros; lia. }
    split.
    + intros H j Hj. destruct j as [|j]; cbn [nth].
      * assert (g * g = 0)%Z by lia. tauto.
      * apply IH; [lia|]. simpl in Hj. lia.
    + intros H. pose proof (H 0 ltac:(simpl; lia)) as Hh. cbn [nth] in Hh.
      assert (msq a b <= 0)%Z. { apply IH. intros j Hj. apply (H (S j)). simpl. lia. }
      assert (g * g = 0)%Z by tauto. lia.
Qed.

(** Signed integers: the boxes of the two sets have to meet; otherwise nothing is ever compared and an empty queue is
    read. *)
Theorem c70_dual_set_integers :
  forall tol policy lowest max center right_first qs rs nf queries references
    {S} (accept : nat -> S -> res (bool * S)) P (Q : S -> Prop) k s,
  tree_input tol qs nf policy lowest max queries -> tree_input tol rs nf policy lowest max references ->
  queries <> [] -> NoDup queries -> NoDup references -> 1 <= k -> fits k ->
  (forall i s, In i references -> Q s -> exists s', accept i s = Ok (P i, s') /\ Q s') -> Q s ->
  k <= length (filter P references) ->
  let result := dual_set_shortest_edge int_metric int_pruning qs nf queries rs nf references tol policy lowest max center
                  right_first accept k s in
  (boxes_meet qs rs nf queries references ->
     exists x y d, result = Ok (x, y, d) /\ kth_pair l1_dist qs rs nf queries (filter P references) k x y d) /\
  (~ boxes_meet qs rs nf queries references -> result = UB).
Proof.
  intros tol policy lowest max center right_first qs rs nf queries references S accept P Q k s Hq Hr Nq Dq Dr H1 Hk Ha Hs Hf.
  assert (Nr : references <> []) by (intros ->; simpl in Hf; lia).
  destruct (dual_set_kth int_metric l1_dist int_metric_ok int_pruning tol policy lowest max center right_first qs rs nf
              queries references accept P Q k s Hq Hr Nq Dq Dr H1 Hk Ha Hs Hf) as (a & b & La & Lb & Ta & Tb & H).
  cbv zeta in *. set (result := dual_set_shortest_edge _ _ _ _ _ _ _ _ _ _ _ _ _ _ _ _ _) in *.
  cbn [p_adjusted_below int_pruning m_inf int_metric] in H. rewrite zero_sqrt_diameter in H.
  assert (Hb : boxes_meet qs rs nf queries references <-> (msq a b <= 0)%Z).
  { rewrite msq_zero by congruence. rewrite La. split; intros Hb j Hj; specialize (Hb j Hj);
      destruct (Ta j Hj) as (A1 & _ & A3); destruct (A3 Nq) as ((x1 & I1 & E1) & x2 & I2 & E2);
      destruct (Tb j Hj) as (B1 & _ & B3); destruct (B3 Nr) as ((y1 & J1 & F1) & y2 & J2 & F2).
    - destruct Hb as ((x & y & Hx & Hy & Hl) & x' & y' & Hx' & Hy' & Hl').
      pose proof (A1 x Hx). pose proof (A1 x' Hx'). pose proof (B1 y Hy). pose proof (B1 y' Hy'). lia.
    - split; [exists x1, y2|exists x2, y1]; splits; auto; lia. }
  change (0 <? 0)%Z with false in H. cbn [orb] in H. change (0 * 0)%Z with 0%Z in H.
  destruct (Z.ltb_spec 0 (msq a b)) as [Hp|Hp].
  - split; [intros Hm; apply Hb in Hm; lia|auto].
  - split; [|intros Hm; exfalso; apply Hm, Hb; lia]. intros _. destruct H as (e & E & He).
    destruct (kth_is_kth int_metric l1_dist (fun d => d) l1_dist (fun _ _ => eq_refl) l1_sym (fun _ _ => eq_refl) qs nf rs
                references P k queries e He) as (x & y & d & -> & Hd).
    exists x, y, d. auto.
Qed.

Example c70_dual_set_integers_case :
  map (fun k => dual_set_shortest_edge int_metric int_pruning pts 2 (seq 0 7) others 2 (seq 0 6)
                  0 cycle (-100) 100 half (fun _ _ => false) accept_all k tt) [1; 3; 6]
    = [Ok (2, 1, 5%Z); Ok (2, 3, 5%Z); Ok (2, 1, 5%Z)] /\
  dual_set_shortest_edge int_metric int_pruning pts 2 [0; 2; 4] others 2 [1; 2; 4]
    0 cycle (-100) 100 half (fun _ _ => false) accept_all 1 tt = UB.
Proof. split; vm_compute; reflexivity. Qed.

(** ** One search per query *)


Section Nearest.
Context (m : metric) (dist : list Z -> list Z -> m_dist m) (Hm : metric_ok m dist).
Context (samples : list Z) (nf : nat) (tree : kdtree) (indices : list nat) (query : list Z).
Context {S : Type} (accept : nat -> S -> res (bool * S)) (P : nat -> bool) (Q : S -> Prop).
Hypothesis Hperm : Permutation indices (kt_indices tree).
Hypothesis Hranges : kd_ranges (kt_indices tree) (kt_root tree).
Hypothesis Hsamples : kd_samples (kt_indices tree) (kt_root tree) = kt_indices tree.
Hypothesis Hordered : kd_ordered samples nf (kt_indices tree) (kt_root tree).
Hypothesis Hdata : forall i, In i (kt_indices tree) -> i * nf + nf <= length samples.
Hypothesis Hquery : length query = nf.
Hypothesis Hacc : forall i s, In i indices -> Q s -> exists s', accept i s = Ok (P i, s') /\ Q s'.
Notation lt := (m_lt m).

(** A search for one neighbour. *)
Lemma nearest_one s : Q s ->
  exists b s', search m samples nf tree Unbounded query accept 1 s = Ok (b, s') /\ Q s' /\
    (filter P indices = [] -> buf_furthest_index b = UB) /\
    (filter P indices <> [] -> exists j, buf_furthest_index b = Ok j /\ In j (filter P indices) /\
       buf_furthest_distance b = dist (row samples nf j) query /\
       forall i, In i (filter P indices) ->
         lt (dist (row samples nf i) query) (dist (row samples nf j) query) = false).
Proof using Hm Hperm Hranges Hsamples Hordered Hdata Hquery Hacc.
  intros Hs.
  destruct (search_bounded m dist Hm samples nf tree indices Unbounded query accept P Q) with (k := 1) (s := s)
    as (b & s' & Es & Hs' & A); auto.
  { unfold fits. lia. }
  exists b, s'. split; auto. split; auto.
  set (cs := cands m dist samples nf Unbounded query P indices) in *.
  assert (Hcs : cs = map (fun i => (i, dist (row samples nf i) query)) (filter P indices)).
  { unfold cs, cands, with_distances. f_equal. }
  rewrite Hcs in A. destruct A as (L & (rest & Pm & LK & KN) & A). split.
  - intros E. rewrite E in *. simpl in LK. rewrite combine_length in LK.
    unfold buf_furthest_index. destruct (buf_indices b); [now destruct (buf_furthest_pos b)|]. simpl in L. destruct (buf_distances b); simpl in *; lia.
  - intros E. destruct A as (_ & j & Ej & Hj & Hf).
    { destruct (filter P indices); simpl; congruence. }
    exists j. split; auto.
    assert (Hjc : In (j, buf_furthest_distance b) (map (fun i => (i, dist (row samples nf i) query)) (filter P indices))).
    { eapply Permutation_in; [exact Pm|]. apply in_or_app; auto. }
    apply in_map_iff in Hjc as (j' & E' & Hjc). inversion E'; subst j'. rewrite <- H1 in *. splits; auto.
    intros i Hi.
    assert (Hic : In (i, dist (row samples nf i) query) (map (fun i => (i, dist (row samples nf i) query)) (filter P indices))).
    { apply in_map_iff. eauto. }
    apply (Permutation_in _ (Permutation_sym Pm)) in Hic.
    assert (L1 : length (combine (buf_indices b) (buf_distances b)) = 1).
    { rewrite LK, map_length. destruct (filter P indices); [congruence|]. simpl. lia. }
    destruct (combine (buf_indices b) (buf_distances b)) as [|e [|? ?]]; simpl in L1; try lia.
    destruct Hj as [->|[]]. destruct Hic as [Ey|Hic].
    + inversion Ey; subst. apply (lt_irrefl lt (mo_order m dist Hm)).
    + apply (KN (j, dist (row samples nf j) query) (i, dist (row samples nf i) query)); simpl; auto.
Qed.
End Nearest.

(** Union-find acceptance. *)
Lemma accept_other_ok n u q references :
  uinv n u -> q < n -> (forall i, In i references -> i < n) ->
  forall i u1, In i references -> uinv n u1 /\ same_roots (parents u) (parents u1) ->
  exists u', accept_other_component q i u1 = Ok (negb (rootf u q =? rootf u i), u') /\
    uinv n u' /\ same_roots (parents u) (parents u').
Proof.
  intros U Hqn Hin i u1 Hi' (U1 & SR1). unfold accept_other_component.
  destruct (uf_find_correct n u1 q U1 Hqn) as (u2 & r1 & E3 & R1 & U2 & SR2 & _). rewrite E3. cbn [bind].
  destruct (uf_find_correct n u2 i U2 (Hin i Hi')) as (u3 & r2 & E4 & R2 & U3 & SR3 & _). rewrite E4. cbn [bind].
  exists u3. split.
  + f_equal. f_equal. f_equal.
    assert (r1 = rootf u q).
    { eapply root_fun; [|apply (rootf_root n u q U Hqn)]. now apply SR1. }
    assert (r2 = rootf u i).
    { eapply root_fun; [|apply (rootf_root n u i U (Hin i Hi'))]. apply SR1. now apply SR2. }
    congruence.
  + split; auto. eapply same_roots_trans; [eapply same_roots_trans|]; eauto.
Qed.

(** Loop over the queries. *)
Section Sequential.
Context (m : metric) (dist : list Z -> list Z -> m_dist m) (Hm : metric_ok m dist).
Context (tol : Z) (policy : list bool -> list nat -> nat -> aabb -> nat) (lowest max : Z) (center : segment -> Z).
Context (qs rs : list Z) (nf : nat) (queries references : list nat) (n : nat) (u : uf) (q : nat).
Hypothesis Hq : in_data qs nf queries.
Hypothesis Hr : tree_input tol rs nf policy lowest max references.
Hypothesis U : uinv n u.
Hypothesis Hqn : q < n.
Hypothesis Hin : forall i, In i references -> i < n.
Notation lt := (m_lt m).
Notation d x y := (dist (row rs nf y) (row qs nf x)).

Let P := fun i => negb (rootf u q =? rootf u i).
Let others := filter P references.

(** What the loop holds after the queries of [seen]. *)
Definition seq_inv (seen : list nat) (e : nat * nat * m_dist m) : Prop :=
  (e = (0, 0, m_inf m) /\ forall x y, In x seen -> In y others -> lt (d x y) (m_inf m) = false) \/
  exists before x after y, seen = before ++ x :: after /\ In y others /\ e = (x, y, d x y) /\ lt (d x y) (m_inf m) = true /\
    (forall y', In y' others -> lt (d x y') (d x y) = false) /\
    (forall x' y', In x' before -> In y' others -> lt (d x y) (d x' y') = true) /\
    (forall x' y', In x' after -> In y' others -> lt (d x' y') (d x y) = false).

Lemma sequential_ok : others <> [] ->
  exists e, sequential_dual_set_shortest_edge m qs nf queries rs nf references tol policy lowest max center u q = Ok e /\
    seq_inv queries e.
Proof using Hm Hq Hr U Hqn Hin.
  intros Ho. pose proof (mo_order m dist Hm) as Or.
  unfold sequential_dual_set_shortest_edge.
  destruct (built_tree tol rs nf (Nat.max 40 (Nat.sqrt (length references))) default_max_depth policy lowest max center
              references Hr) as (tree & E & T1 & T2 & T3 & T4 & T5).
  rewrite E. cbn [bind].
  destruct (for_each_inv (fun seen st => seq_inv seen (fst st) /\ uinv n (snd st) /\
                            same_roots (parents u) (parents (snd st)))
              (sequential_step m qs nf rs nf tree q) queries [] (BoruvkaModel.make_default_edge m, u)) as (st & Es & I).
  - splits; auto using same_roots_refl. left. split; [reflexivity|]. intros x y [].
  - intros x seen st Hx (I & U1 & SR). destruct st as [e u1]. cbn [fst snd] in *. unfold sequential_step.
    destruct (sample_row' qs nf queries x Hq Hx) as (-> & Lx). cbn [bind].
    destruct (nearest_one m dist Hm rs nf tree references (row qs nf x) (accept_other_component q) P
                (fun u' => uinv n u' /\ same_roots (parents u) (parents u'))) with (s := u1)
      as (b & u' & Eb & (U' & SR') & _ & Hb); auto.
    { intros i u2 Hi Hu2. destruct (accept_other_ok n u q references U Hqn Hin i u2 Hi Hu2) as (u3 & E3 & U3).
      exists u3. auto. }
    rewrite Eb. cbn [bind]. destruct (Hb Ho) as (j & Ej & Hj & Ed & Hmin). rewrite Ej, Ed. cbn [bind].
    eexists. split; [reflexivity|]. cbn [fst snd]. split; auto.
    destruct I as [(-> & I)|(l1 & x0 & l2 & y0 & El & Hy0 & -> & F & I1 & I2 & I3)]; cbn [snd].
    + destruct (lt (d x j) (m_inf m)) eqn:Hlt.
      * right. exists seen, x, [], j. splits; auto.
        -- intros x' y' Hx' Hy'. apply (lt_le_trans lt Or _ (m_inf m)); auto.
        -- intros x' y' [].
      * left. split; auto. intros x' y' Hx' Hy'. apply in_app_or in Hx' as [Hx'|[<-|[]]]; auto.
        apply (le_trans lt Or _ (d x j)); auto.
    + destruct (lt (d x j) (d x0 y0)) eqn:Hlt.
      * right. exists seen, x, [], j. splits; auto.
        -- apply (lt_trans lt Or _ (d x0 y0)); auto.
        -- intros x' y' Hx' Hy'. apply (lt_le_trans lt Or _ (d x0 y0)); auto. subst seen.
           apply in_app_or in Hx' as [Hx'|[<-|Hx']]; auto.
           apply (lt_asym lt Or). auto.
        -- intros x' y' [].
      * right. exists l1, x0, (l2 ++ [x]), y0. splits; auto.
        -- rewrite El, <- app_assoc. reflexivity.
        -- intros x' y' Hx' Hy'. apply in_app_or in Hx' as [Hx'|[<-|[]]]; auto.
           apply (le_trans lt Or _ (d x j)); auto.
  - destruct st as [e u'].
    match goal with |- context [for_each ?l ?f ?st] =>
      replace (for_each l f st) with (Ok ((e, u') : edge (m_dist m) * uf)) by (symmetry; exact Es) end.
    cbn [bind]. exists e. split; auto. apply I.
Qed.

Lemma sequential_none : others = [] -> queries <> [] ->
  sequential_dual_set_shortest_edge m qs nf queries rs nf references tol policy lowest max center u q = UB.
Proof using Hm Hq Hr U Hqn Hin.
  intros Ho Nq. unfold sequential_dual_set_shortest_edge.
  destruct (built_tree tol rs nf (Nat.max 40 (Nat.sqrt (length references))) default_max_depth policy lowest max center
              references Hr) as (tree & E & T1 & T2 & T3 & T4 & T5).
  rewrite E. cbn [bind]. destruct queries as [|x l]; [congruence|]. cbn [for_each]. unfold sequential_step at 1.
  destruct (sample_row' qs nf (x :: l) x Hq (or_introl eq_refl)) as (-> & Lx). cbn [bind].
  destruct (nearest_one m dist Hm rs nf tree references (row qs nf x) (accept_other_component q) P
              (fun u' => uinv n u' /\ same_roots (parents u) (parents u'))) with (s := u)
    as (b & u' & Eb & _ & Hb & _); auto using same_roots_refl.
  { intros i u2 Hi Hu2. destruct (accept_other_ok n u q references U Hqn Hin i u2 Hi Hu2) as (u3 & E3 & U3).
    exists u3. auto. }
  rewrite Eb. cbn [bind]. rewrite (Hb Ho). reflexivity.
Qed.
End Sequential.

Theorem c70_sequential_closest_pair :
  forall tol policy lowest max center qs rs nf queries references n ops u q others,
  in_data qs nf queries -> tree_input tol rs nf policy lowest max references ->
  Forall (op_in_range n) ops -> uf_run (uf_make n) ops = Ok u -> q < n -> (forall i, In i references -> i < n) ->
  (forall i, In i others <-> In i references /\ ~ linked (merged_pairs ops) q i) ->
  let result := sequential_dual_set_shortest_edge float_metric qs nf queries rs nf references tol policy lowest max center
                  u q in
  (queries <> [] -> others <> [] ->
     exists x y d before after, result = Ok (x, y, Some d) /\ closest_pair qs rs nf queries others x y d /\
       queries = before ++ x :: after /\
       forall x' y', In x' before -> In y' others -> (d < sq_dist (row qs nf x') (row rs nf y'))%Z) /\
  (queries <> [] -> others = [] -> result = UB) /\
  (queries = [] -> result = Ok (0, 0, None)).
Proof.
  intros tol policy lowest max center qs rs nf queries references n ops u q others Hq Hr Hops Hrun Hqn Hin Hoth.
  destruct (run_make_correct n ops Hops) as (u0 & E0 & U & T).
  assert (u0 = u) by congruence. subst u0.
  set (P := fun i => negb (rootf u q =? rootf u i)).
  assert (HP : forall i, In i (filter P references) <-> In i others).
  { intros i. rewrite filter_In, Hoth. split; intros (Hi & H); split; auto; specialize (Hin i Hi);
      pose proof (T q i (rootf u q) (rootf u i) Hqn Hin (rootf_root n u q U Hqn) (rootf_root n u i U Hin)) as HT;
      unfold P in *; rewrite negb_true_iff, Nat.eqb_neq in *; tauto. }
  cbv zeta. split; [|split].
  - intros Nq No.
    destruct (sequential_ok float_metric _ float_metric_ok tol policy lowest max center qs rs nf queries references n u q
                Hq Hr U Hqn Hin) as (e & E & I).
    { fold P. destruct others as [|o l]; [congruence|]. intros H.
      pose proof (proj2 (HP o) (or_introl eq_refl)) as Ho. rewrite H in Ho. destruct Ho. }
    unfold seq_inv in I. fold P in I.
    destruct I as [(-> & I)|(l1 & x & l2 & y & El & Hy & -> & _ & I1 & I2 & I3)].
    + exfalso. destruct queries as [|x l]; [congruence|]. destruct others as [|o l']; [congruence|].
      specialize (I x o (or_introl eq_refl) (proj2 (HP o) (or_introl eq_refl))). discriminate.
    + exists x, y, (sq_dist (row rs nf y) (row qs nf x)), l1, l2. split; [exact E|]. split; [|split; auto].
      * assert (Hx : In x queries) by (rewrite El; apply in_or_app; simpl; auto).
        unfold closest_pair. splits; auto.
        -- now apply HP.
        -- apply sq_sym.
        -- intros x' y' Hx' Hy'. apply HP in Hy'. rewrite (sq_sym (row qs nf x')). rewrite El in Hx'.
           apply in_app_or in Hx' as [Hx'|[<-|Hx']].
           ++ specialize (I2 x' y' Hx' Hy'). cbn in I2. apply Z.ltb_lt in I2. lia.
           ++ specialize (I1 y' Hy'). cbn in I1. apply Z.ltb_ge in I1. lia.
           ++ specialize (I3 x' y' Hx' Hy'). cbn in I3. apply Z.ltb_ge in I3. lia.
      * intros x' y' Hx' Hy'. apply HP in Hy'. rewrite (sq_sym (row qs nf x')).
        specialize (I2 x' y' Hx' Hy'). cbn in I2. apply Z.ltb_lt in I2. lia.
  - intros Nq No. apply (sequential_none float_metric _ float_metric_ok tol policy lowest max center qs rs nf queries
      references n u q Hq Hr U Hqn Hin); auto. fold P. destruct (filter P references) as [|o l]; auto.
    exfalso. specialize (proj1 (HP o) (or_introl eq_refl)). rewrite No. auto.
  - intros ->. unfold sequential_dual_set_shortest_edge.
    destruct (built_tree tol rs nf (Nat.max 40 (Nat.sqrt (length references))) default_max_depth policy lowest max center
                references Hr) as (tree & E & _).
    rewrite E. reflexivity.
Qed.

Example c70_sequential_case :
  in_data pts 2 [5; 3; 1] /\ tree_input 0 pts 2 cycle (-100) 100 (seq 0 7) /\ Forall (op_in_range 7) pts_ops /\
  (u <- uf_run (uf_make 7) pts_ops ;;
   sequential_dual_set_shortest_edge float_metric pts 2 [5; 3; 1] pts 2 (seq 0 7) 0 cycle (-100) 100 half u 1)
    = Ok (5, 6, Some 5%Z) /\
  (u <- uf_run (uf_make 7) pts_ops ;;
   sequential_dual_set_shortest_edge float_metric pts 2 [5; 3; 1] pts 2 [3; 5] 0 cycle (-100) 100 half u 1) = UB.
Proof.
  split; [intros i Hi; simpl in *; lia|]. split; [exact pts_input|]. split; [repeat constructor; simpl; lia|].
  split; vm_compute; reflexivity.
Qed.

(** Signed integers: no distance is below the infinity of the type, so the default edge comes back. *)
Theorem c70_sequential_integers_never_find_a_pair :
  forall tol policy lowest max center qs rs nf queries references n ops u q,
  in_data qs nf queries -> tree_input tol rs nf policy lowest max references ->
  Forall (op_in_range n) ops -> uf_run (uf_make n) ops = Ok u -> q < n -> (forall i, In i references -> i < n) ->
  (exists i, In i references /\ ~ linked (merged_pairs ops) q i) ->
  sequential_dual_set_shortest_edge int_metric qs nf queries rs nf references tol policy lowest max center u q
    = Ok (0, 0, 0%Z).
Proof.
  intros tol policy lowest max center qs rs nf queries references n ops u q Hq Hr Hops Hrun Hqn Hin (o & Ho & Hl).
  destruct (run_make_correct n ops Hops) as (u0 & E0 & U & T).
  assert (u0 = u) by congruence. subst u0.
  destruct (sequential_ok int_metric l1_dist int_metric_ok tol policy lowest max center qs rs nf queries references n u q
              Hq Hr U Hqn Hin) as (e & E & I).
  { intros H. assert (Hi : In o (filter (fun i => negb (rootf u q =? rootf u i)) references)).
    { apply filter_In. split; auto. specialize (Hin o Ho).
      pose proof (T q o (rootf u q) (rootf u o) Hqn Hin (rootf_root n u q U Hqn) (rootf_root n u o U Hin)) as HT.
      rewrite negb_true_iff, Nat.eqb_neq. tauto. }
    rewrite H in Hi. destruct Hi. }
  rewrite E. unfold seq_inv in I. destruct I as [(-> & I)|(l1 & x & l2 & y & El & Hy & -> & F & _)]; auto.
  cbn in F. apply Z.ltb_lt in F. pose proof (l1_nonneg (row rs nf y) (row qs nf x)). lia.
Qed.

Example c70_sequential_integers_case :
  (u <- uf_run (uf_make 7) pts_ops ;;
   sequential_dual_set_shortest_edge int_metric pts 2 [5; 3; 1] pts 2 (seq 0 7) 0 cycle (-100) 100 half u 1)
    = Ok (0, 0, 0%Z) /\
  l1_dist (row pts 2 5) (row pts 2 6) = 3%Z.
Proof. split; vm_compute; reflexivity. Qed.

Print Assumptions c70_simple_shortest_pair_of_distinct_samples.
Print Assumptions c70_simple_closest_pair.
Print Assumptions c70_simple_passes_over_common_samples_refuted.
Print Assumptions c70_simple_integers.
Print Assumptions c70_simple_integers_never_find_a_pair.
Print Assumptions c70_dual_set_kth_shortest_pair.
Print Assumptions c70_fewer_references_than_neighbours_refuted.
Print Assumptions c70_dual_set_integers.
Print Assumptions c70_sequential_closest_pair.
Print Assumptions c70_sequential_integers_never_find_a_pair.
