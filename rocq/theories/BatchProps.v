(** Theorems on box searches (C78), batches of buffers and one buffer through several trees (C79). *)
From Coq Require Import List Arith ZArith Lia Bool Permutation Relations.
From Verif Require Import Base SortingModel SortingSpec BoundsModel BoundsSpec BoundsProofs BoundsProps
  UnionFindModel UnionFindSpec UnionFindProofs BufferModel BufferSpec BufferProofs BufferProps
  KDTreeModel KDTreeSpec KDTreeProofs KDTreeProps SearchModel SearchSpec SearchProofs SearchProps BatchModel.
Import ListNotations.

(** ** Statements *)

(** What the bound of a buffer lets through. *)
Definition admits {D} (lt : D -> D -> bool) (dist : list Z -> list Z -> D) (bound : search_bound D) (query p : list Z) : Prop :=
  match bound with
  | Unbounded => True
  | Radius r => lt (dist p query) r = true
  | Box segs => box_has segs p
  end.

(** The samples of [ys] the bound lets through are [ins]. *)
Definition admitted {D} (lt : D -> D -> bool) (dist : list Z -> list Z -> D) (bound : search_bound D) (query : list Z)
  (samples : list Z) (nf : nat) (ys ins : list nat) : Prop :=
  exists outs, Permutation ys (ins ++ outs) /\
    (forall i, In i ins -> admits lt dist bound query (row samples nf i)) /\
    (forall i, In i outs -> ~ admits lt dist bound query (row samples nf i)).

(** A box has one segment per feature. *)
Definition bound_fits {D} (nf : nat) (bound : search_bound D) : Prop :=
  match bound with Box segs => length segs = nf | _ => True end.

(** [tree] was built over [indices]. *)
Definition tree_over (samples : list Z) (nf : nat) (tree : kdtree) (indices : list nat) : Prop :=
  exists tol bucket max_depth policy lowest max center,
    tree_input tol samples nf policy lowest max indices /\
    make_kdtree tol samples nf bucket max_depth policy lowest max center indices = Ok tree.

(** ** Lemmas *)

Lemma in_segments_box : forall segs p, length segs = length p -> (in_segments segs p = true <-> box_has segs p).
Proof.
  induction segs as [|s segs IH]; intros [|v p] H; simpl in H; try lia.
  - unfold box_has. simpl. split; auto. intros _. apply inside_nil.
  - unfold box_has in *. cbn [in_segments map]. rewrite inside_cons, <- IH by lia.
    rewrite !andb_true_iff, !Z.leb_le. tauto.
Qed.

Lemma fits_covers {D} nf (bound : search_bound D) : bound_fits nf bound -> covers nf bound.
Proof. destruct bound; simpl; lia. Qed.

(** The buffer holds the best of [cs]. *)
Definition holds (m : metric) (k : nat) (cs : list (nat * m_dist m)) (b : buffer (m_dist m)) : Prop :=
  exists off rest skip, buf_inv (m_lt m) (m_inf m) b off rest /\ Permutation (off ++ skip) cs /\
    skipped_ok m b skip /\ buf_max_capacity b = k.

Lemma holds_make m k : holds m k [] (make_buffer (m_inf m) k).
Proof. exists [], [], []. splits; auto. apply buf_inv_make. intros H; congruence. Qed.

Lemma holds_perm m k cs cs' b : Permutation cs cs' -> holds m k cs b -> holds m k cs' b.
Proof. intros P (off & rest & skip & I & Pc & K & C). exists off, rest, skip. splits; auto. now rewrite Pc. Qed.

Lemma holds_answers m dist k cs b : metric_ok m dist -> 1 <= k -> holds m k cs b -> answers (m_lt m) k cs b.
Proof.
  intros Hm H1 (off & rest & skip & I & Pc & K & C).
  pose proof (mo_order m dist Hm) as Ho.
  assert (KN : k_nearest (m_lt m) k cs (entries b)).
  { exists (rest ++ skip). splits.
    - rewrite app_assoc. rewrite (bi_perm _ _ _ _ _ I). exact Pc.
    - destruct (inv_k_nearest (m_lt m) (m_inf m) b off rest k I C H1) as (_ & _ & L & _). rewrite L.
      pose proof (Permutation_length Pc) as Lc. rewrite app_length in Lc.
      destruct skip as [|e skip]; [simpl in Lc; f_equal; lia|].
      destruct K as (K & _); [discriminate|].
      rewrite entries_length in L by apply I. lia.
    - intros x r Hx Hr. apply in_app_or in Hr as [Hr|Hr]; [apply (bi_rest _ _ _ _ _ I); auto|].
      assert (Hne : skip <> []) by (intros ->; destruct Hr).
      destruct (K Hne) as (K1 & K2).
      apply (le_trans _ Ho _ (buf_furthest_distance b)); auto.
      apply (bi_furthest _ _ _ _ _ I); auto.
      intros Eb. unfold entries in Hx. rewrite Eb in Hx. destruct Hx. }
  split; [apply I|]. split; [exact KN|]. intros Hne.
  assert (Hb : buf_indices b <> []).
  { intros Eb. destruct KN as (rst & Pk & Lk & _). unfold entries in Lk. rewrite Eb in Lk. simpl in Lk.
    destruct cs; [congruence|]. simpl in Lk. lia. }
  split.
  + destruct (bi_closest _ _ _ _ _ I Hb) as (I1 & I2). split.
    * eapply Permutation_in; [exact Pc|]. apply in_or_app; auto.
    * intros x Hx. apply (Permutation_in x (Permutation_sym Pc)) in Hx. apply in_app_or in Hx as [Hx|Hx]; auto.
      assert (Hsk : skip <> []) by (intros ->; destruct Hx).
      destruct (K Hsk) as (K1 & K2).
      apply (le_trans _ Ho _ (buf_furthest_distance b)); auto.
      destruct (bi_furthest _ _ _ _ _ I Hb) as ((fi & Hf) & _).
      apply (I2 (fi, buf_furthest_distance b)). eapply Permutation_in; [apply I|].
      apply in_or_app; left. eapply nth_error_In; eauto.
  + destruct (bi_furthest _ _ _ _ _ I Hb) as ((i & Hi) & Hf).
    exists i. split; [|split; auto; eapply nth_error_In; eauto].
    unfold buf_furthest_index. apply rd_ok.
    pose proof (nth_error_lt _ _ _ Hi) as Hl. rewrite entries_length in Hl by apply I.
    pose proof (bi_len _ _ _ _ _ I) as L. unfold buf_size in Hl.
    destruct (nth_error (buf_indices b) (buf_furthest_pos b)) as [j|] eqn:Ej.
    * f_equal. destruct (nth_error (buf_distances b) (buf_furthest_pos b)) as [x|] eqn:Ex.
      -- pose proof (nth_error_combine _ _ _ _ _ Ej Ex) as Hc. fold (entries b) in Hc. congruence.
      -- apply nth_error_None in Ex. lia.
    * apply nth_error_None in Ej. lia.
Qed.

Section Into.
Context (m : metric) (dist : list Z -> list Z -> m_dist m) (Hm : metric_ok m dist).
Context (samples : list Z) (nf : nat) (tree : kdtree) (indices : list nat).
Context (bound : search_bound (m_dist m)) (query : list Z).
Context {S : Type} (accept : nat -> S -> res (bool * S)).
Context (P : nat -> bool) (Q : S -> Prop).
Hypothesis Htree : tree_over samples nf tree indices.
Hypothesis Hquery : length query = nf.
Hypothesis Hacc : forall i s, In i indices -> Q s -> exists s', accept i s = Ok (P i, s') /\ Q s'.
Hypothesis Hbox : bound_fits nf bound.

Notation cs := (cands m dist samples nf bound query P).

Lemma tree_facts : Permutation indices (kt_indices tree) /\ kd_ranges (kt_indices tree) (kt_root tree) /\
    kd_samples (kt_indices tree) (kt_root tree) = kt_indices tree /\
    kd_ordered samples nf (kt_indices tree) (kt_root tree) /\
    (forall i, In i (kt_indices tree) -> i * nf + nf <= length samples).
Proof using Htree.
  destruct Htree as (tol & bucket & max_depth & policy & lowest & max & center & Hi & E).
  destruct (built_tree tol samples nf bucket max_depth policy lowest max center indices Hi)
    as (tree' & E' & R). rewrite E in E'. injection E' as <-. exact R.
Qed.

Lemma into_bounded k cs0 b s : 1 <= k -> fits k -> Q s -> holds m k cs0 b -> measured m dist nf query cs0 ->
  exists b' s', search_into m samples nf tree bound query accept (b, s) = Ok (b', s') /\ Q s' /\
    holds m k (cs0 ++ cs indices) b' /\ measured m dist nf query (cs0 ++ cs indices).
Proof using Hm Htree Hquery Hacc Hbox.
  intros H1 Hk Hs (off & rest & skip & I & Pc & K & C) Hms.
  destruct tree_facts as (Pm & R & S1 & O & D).
  destruct (visit_bounded m dist Hm samples nf (kt_indices tree) bound query accept P Q D Hquery) with
    (t := kt_root tree) (b := b) (s := s) (pre := off) (rest := rest)
    as (b' & s' & rest' & off' & skip' & E & Hs' & I' & M & Pn & K'); auto.
  - intros i s0 Hi. apply Hacc. eapply Permutation_in; [symmetry; exact Pm|auto].
  - now apply fits_covers.
  - eapply measured_part; eauto.
  - now rewrite C.
  - now rewrite C.
  - exists b', s'. split; [|split; [auto|split]].
    { unfold search_into. apply search_is_visit. exact E. }
    2: { apply Forall_app. split; auto. apply (cands_measured m dist samples nf (kt_indices tree) bound query P D Hquery).
         intros y Hy. eapply Permutation_in; eauto. }
    exists (off ++ off'), rest', (skip ++ skip'). splits; auto.
    + rewrite S1 in Pn.
      transitivity ((off ++ skip) ++ (off' ++ skip')).
      { rewrite <- !app_assoc. apply Permutation_app_head. rewrite !app_assoc. apply Permutation_app_tail.
        apply Permutation_app_comm. }
      rewrite Pc, Pn. apply Permutation_app_head. symmetry.
      unfold cands, with_distances. apply Permutation_map. now apply filter_perm.
    + apply skipped_app; auto. apply (skipped_mono m dist Hm b); auto. now rewrite C.
    + destruct M as (C' & _). congruence.
Qed.

Lemma into_unlimited cs0 b s :
  fits (length cs0 + length indices) -> Q s -> buf_inv (m_lt m) (m_inf m) b cs0 [] -> buf_max_capacity b = 0 ->
  (infinity_ok m samples query \/ cs0 <> [] \/
   exists y, In y indices /\ elig m dist samples nf bound query P y = true /\ row samples nf y = query) ->
  exists b' s' off, search_into m samples nf tree bound query accept (b, s) = Ok (b', s') /\ Q s' /\
    buf_inv (m_lt m) (m_inf m) b' (cs0 ++ off) [] /\ buf_max_capacity b' = 0 /\ Permutation off (cs indices).
Proof using Hm Htree Hquery Hacc Hbox.
  intros Hk Hs I C HV.
  destruct tree_facts as (Pm & R & S1 & O & D).
  destruct (visit_unlimited m dist Hm samples nf (kt_indices tree) bound query accept P Q D Hquery) with
    (t := kt_root tree) (b := b) (s := s) (pre := cs0)
    as (b' & s' & off' & E & Hs' & I' & C' & Pn); auto.
  - intros i s0 Hi. apply Hacc. eapply Permutation_in; [symmetry; exact Pm|auto].
  - now apply fits_covers.
  - rewrite S1, <- (Permutation_length Pm). exact Hk.
  - destruct HV as [HV|[HV|(y & Hy & He & Hr)]]; auto. right; right. exists y. splits; auto.
    + rewrite S1. eapply Permutation_in; eauto.
    + intros a Ha. rewrite <- Hr. symmetry. now apply (row_nth samples nf query Hquery).
  - exists b', s', off'. splits; auto.
    + unfold search_into. apply search_is_visit. exact E.
    + rewrite Pn, S1. symmetry. unfold cands, with_distances. apply Permutation_map. now apply filter_perm.
Qed.
End Into.

(** The candidates are the admitted samples. *)
Lemma cands_admitted m dist samples nf bound query ys ins :
  bound_fits nf bound -> (forall i, In i ys -> i * nf + nf <= length samples) ->
  admitted (m_lt m) dist bound query samples nf ys ins ->
  Permutation (cands m dist samples nf bound query (fun _ => true) ys) (with_distances dist samples nf query ins).
Proof.
  intros Hb Hd (outs & Pm & Hin & Hout). unfold cands, with_distances. apply Permutation_map.
  assert (G : forall i, In i ys -> (elig m dist samples nf bound query (fun _ => true) i = true <->
                                    admits (m_lt m) dist bound query (row samples nf i))).
  { intros i Hi. unfold elig, within, admits. rewrite andb_true_r. destruct bound as [|r|segs]; [tauto|tauto|].
    apply in_segments_box. simpl in Hb. unfold row. rewrite firstn_length, skipn_length. specialize (Hd i Hi). lia. }
  apply (filter_split _ _ _ outs Pm).
  - intros x Hx. apply G; auto. eapply Permutation_in; [symmetry; exact Pm|apply in_or_app; auto].
  - intros x Hx. apply not_true_iff_false. rewrite G; auto. eapply Permutation_in; [symmetry; exact Pm|apply in_or_app; auto].
Qed.

Lemma tree_over_rows samples nf tree indices : tree_over samples nf tree indices ->
  forall i, In i indices -> i * nf + nf <= length samples.
Proof.
  intros H i Hi. destruct (tree_facts samples nf tree indices H) as (Pm & _ & _ & _ & D). apply D.
  eapply Permutation_in; eauto.
Qed.

Lemma accept_all_ok (indices : list nat) : forall i s, In i indices -> True -> exists s', accept_all i s = Ok (true, s') /\ True.
Proof. intros i s _ _. exists s. auto. Qed.

(** ** C78 *)
Lemma search_is_into m samples nf tree bound query S (accept : nat -> S -> res (bool * S)) k s :
  search m samples nf tree bound query accept k s =
  search_into m samples nf tree bound query accept (make_buffer (m_inf m) k, s).
Proof. reflexivity. Qed.

Theorem c78_box_search_finds_the_nearest_inside :
  forall m dist tol samples nf bucket max_depth policy lowest max center indices segments centroid k ins outs,
  metric_ok m dist -> tree_input tol samples nf policy lowest max indices ->
  length centroid = nf -> length segments = nf -> 1 <= k -> (Z.of_nat k < 2 ^ 64)%Z ->
  Permutation indices (ins ++ outs) ->
  (forall i, In i ins -> box_has segments (row samples nf i)) ->
  (forall i, In i outs -> ~ box_has segments (row samples nf i)) ->
  exists tree b,
    make_kdtree tol samples nf bucket max_depth policy lowest max center indices = Ok tree /\
    search m samples nf tree (Box segments) centroid accept_all k tt = Ok (b, tt) /\
    answers (m_lt m) k (with_distances dist samples nf centroid ins) b.
Proof.
  intros m dist tol samples nf bucket max_depth policy lowest max center indices segments centroid k ins outs
    Hm Hi Hq Hs H1 Hk Hp Hin Hout.
  destruct (built_tree tol samples nf bucket max_depth policy lowest max center indices Hi) as (tree & E & _).
  assert (Ht : tree_over samples nf tree indices) by (exists tol, bucket, max_depth, policy, lowest, max, center; auto).
  destruct (into_bounded m dist Hm samples nf tree indices (Box segments) centroid accept_all (fun _ => true) (fun _ => True)
              Ht Hq (accept_all_ok indices) Hs k [] (make_buffer (m_inf m) k) tt H1 Hk I (holds_make m k) (Forall_nil _))
    as (b & s' & Es & _ & Hh & _).
  exists tree, b. splits; auto.
  - rewrite search_is_into, Es. now destruct s'.
  - apply (holds_answers m dist); auto. eapply holds_perm; [|exact Hh]. simpl.
    apply (cands_admitted m dist samples nf (Box segments)); auto.
    + now apply (tree_over_rows samples nf tree).
    + exists outs. auto.
Qed.

Theorem c78_box_range_search_is_exact :
  forall m dist tol samples nf bucket max_depth policy lowest max center indices segments centroid ins outs,
  metric_ok m dist -> tree_input tol samples nf policy lowest max indices ->
  length centroid = nf -> length segments = nf -> (Z.of_nat (length indices) < 2 ^ 64)%Z ->
  Permutation indices (ins ++ outs) ->
  (forall i, In i ins -> box_has segments (row samples nf i)) ->
  (forall i, In i outs -> ~ box_has segments (row samples nf i)) ->
  infinity_ok m samples centroid \/ (exists y, In y ins /\ row samples nf y = centroid) ->
  exists tree b,
    make_kdtree tol samples nf bucket max_depth policy lowest max center indices = Ok tree /\
    search m samples nf tree (Box segments) centroid accept_all default_capacity tt = Ok (b, tt) /\
    length (buf_indices b) = length (buf_distances b) /\
    Permutation (combine (buf_indices b) (buf_distances b)) (with_distances dist samples nf centroid ins).
Proof.
  intros m dist tol samples nf bucket max_depth policy lowest max center indices segments centroid ins outs
    Hm Hi Hq Hs Hk Hp Hin Hout HV.
  destruct (built_tree tol samples nf bucket max_depth policy lowest max center indices Hi) as (tree & E & _).
  assert (Ht : tree_over samples nf tree indices) by (exists tol, bucket, max_depth, policy, lowest, max, center; auto).
  destruct (into_unlimited m dist Hm samples nf tree indices (Box segments) centroid accept_all (fun _ => true) (fun _ => True)
              Ht Hq (accept_all_ok indices) Hs [] (make_buffer (m_inf m) default_capacity) tt Hk I
              (buf_inv_make _ _ _) eq_refl)
    as (b & s' & off & Es & _ & Ib & _ & Po).
  - destruct HV as [HV|(y & Hy & Hr)]; auto. right; right.
    assert (Hyi : In y indices) by (eapply Permutation_in; [symmetry; exact Hp|apply in_or_app; auto]).
    exists y. splits; auto. unfold elig, within. rewrite andb_true_r. apply in_segments_box.
    + rewrite Hr. congruence.
    + apply Hin; auto.
  - exists tree, b. splits; auto.
    + rewrite search_is_into, Es. now destruct s'.
    + apply Ib.
    + pose proof (bi_perm _ _ _ _ _ Ib) as Pb. rewrite app_nil_r in Pb. simpl in Pb.
      fold (entries b). rewrite Pb, Po. apply (cands_admitted m dist samples nf (Box segments)); auto.
      * now apply (tree_over_rows samples nf tree).
      * exists outs. auto.
Qed.

(** The box [2,7] x [2,5] over the seven points; samples on its border are inside. *)
Definition some_box : list segment := [mk_segment 2 7; mk_segment 2 5].

Lemma some_box_split :
  Permutation (seq 0 7) ([1; 3; 4] ++ [0; 2; 5; 6]) /\
  (forall i, In i [1; 3; 4] -> box_has some_box (row pts 2 i)) /\
  (forall i, In i [0; 2; 5; 6] -> ~ box_has some_box (row pts 2 i)).
Proof.
  splits.
  - apply NoDup_Permutation; try (repeat constructor; simpl; lia). intros x. simpl. lia.
  - intros i Hi. apply in_segments_box; simpl in Hi;
    repeat (destruct Hi as [<-|Hi]; [vm_compute; reflexivity|]); destruct Hi.
  - intros i Hi H. apply in_segments_box in H; simpl in Hi;
    repeat (destruct Hi as [<-|Hi]; [vm_compute in H; first [discriminate|reflexivity]|]); destruct Hi.
Qed.

Example c78_case :
  tree_input 0 pts 2 cycle (-100) 100 (seq 0 7) /\ metric_ok int_metric l1_dist /\ infinity_ok float_metric pts [2; 4]%Z /\
  aabb_centroid (make_aabb seg_centroid_int some_box) = [4; 3]%Z /\
  found (with_tree (pts_tree 1 10)
           (fun t => search int_metric pts 2 t (Box some_box) [4; 3]%Z accept_all 2 tt))
    = Some ([3; 1], [3; 3]%Z) /\
  found (with_tree (pts_tree 1 10)
           (fun t => search float_metric pts 2 t (Box some_box) [4; 3]%Z accept_all default_capacity tt))
    = Some ([3; 4; 1], [Some 5; Some 13; Some 5]%Z) /\
  found (with_tree (pts_tree 1 10)
           (fun t => search int_metric pts 2 t (Box some_box) [2; 4]%Z accept_all default_capacity tt))
    = Some ([3; 4; 1], [0; 6; 2]%Z).
Proof.
  split; [exact pts_input|]. split; [exact int_metric_ok|]. split; [apply float_infinity_ok|].
  splits; vm_compute; reflexivity.
Qed.

(** Integer data, no limit on the number of answers: a sample of the box is missed although the box is given without
    a centroid of the caller's. *)
Theorem c78_integer_box_search_refuted :
  exists samples nf bucket max_depth policy lowest max center indices segments tree b,
    tree_input 0 samples nf policy lowest max indices /\ length segments = nf /\
    make_kdtree 0 samples nf bucket max_depth policy lowest max center indices = Ok tree /\
    search int_metric samples nf tree (Box segments) (aabb_centroid (make_aabb seg_centroid_int segments))
      accept_all default_capacity tt = Ok (b, tt) /\
    exists y, In y indices /\ box_has segments (row samples nf y) /\ ~ In y (buf_indices b).
Proof.
  exists [0; 0;  1; 100;  9; 0]%Z, 2, 1, 10, cycle, (-100)%Z, 100%Z, half, (seq 0 3),
    [mk_segment 0 4; mk_segment (-2) 2].
  eexists. eexists. splits.
  - unfold tree_input. splits; [lia|exact cycle_ok| |intros j Hj x y Hx Hy Heq; lia]. split.
    + intros j Hj i Hi. apply in_seq in Hi. simpl length. lia.
    + intros i j Hi Hj. apply in_seq in Hi.
      do 3 (destruct i as [|i]; [do 2 (destruct j as [|j]; [vm_compute; split; discriminate|]); lia|]). lia.
  - reflexivity.
  - vm_compute. reflexivity.
  - vm_compute. reflexivity.
  - exists 0. splits; [simpl; auto| |vm_compute; auto].
    apply in_segments_box; vm_compute; reflexivity.
Qed.

(** ** C79 *)
Lemma several_bounded m dist samples nf bound query k :
  metric_ok m dist -> length query = nf -> bound_fits nf bound -> 1 <= k -> fits k ->
  forall trees parts, Forall2 (tree_over samples nf) trees parts ->
  forall cs0 b, holds m k cs0 b -> measured m dist nf query cs0 ->
  exists b', search_trees m samples nf trees bound query accept_all (b, tt) = Ok (b', tt) /\
    holds m k (cs0 ++ cands m dist samples nf bound query (fun _ => true) (concat parts)) b'.
Proof.
  intros Hm Hq Hb H1 Hk. induction 1 as [|tree part trees parts Ht Hts IH]; intros cs0 b Hh Hms.
  - exists b. split; [reflexivity|]. unfold cands, with_distances. simpl. now rewrite app_nil_r.
  - unfold search_trees. cbn [for_each concat].
    destruct (into_bounded m dist Hm samples nf tree part bound query accept_all (fun _ => true) (fun _ => True)
                Ht Hq (accept_all_ok part) Hb k cs0 b tt H1 Hk I Hh Hms) as (b1 & [] & E1 & _ & Hh1 & Hms1).
    rewrite E1. cbn [bind].
    destruct (IH _ _ Hh1 Hms1) as (b2 & E2 & Hh2). exists b2. split; [exact E2|].
    rewrite cands_app, app_assoc. exact Hh2.
Qed.

Theorem c79_one_buffer_through_several_trees :
  forall m dist samples nf trees parts bound query k ins,
  metric_ok m dist -> Forall2 (tree_over samples nf) trees parts ->
  length query = nf -> bound_fits nf bound -> 1 <= k -> (Z.of_nat k < 2 ^ 64)%Z ->
  admitted (m_lt m) dist bound query samples nf (concat parts) ins ->
  exists b,
    search_trees m samples nf trees bound query accept_all (make_buffer (m_inf m) k, tt) = Ok (b, tt) /\
    answers (m_lt m) k (with_distances dist samples nf query ins) b.
Proof.
  intros m dist samples nf trees parts bound query k ins Hm Ht Hq Hb H1 Hk Ha.
  destruct (several_bounded m dist samples nf bound query k Hm Hq Hb H1 Hk trees parts Ht [] _ (holds_make m k) (Forall_nil _))
    as (b & E & Hh).
  exists b. split; auto. apply (holds_answers m dist); auto. eapply holds_perm; [|exact Hh]. simpl.
  apply cands_admitted; auto.
  intros i Hi. apply in_concat in Hi as (part & Hp & Hi).
  clear - Ht Hp Hi. induction Ht as [|t p ts ps H Hts IH]; [destruct Hp|].
  destruct Hp as [->|Hp]; auto. now apply (tree_over_rows samples nf t part).
Qed.

(** Without a limit nothing is lost either. *)
Theorem c79_several_trees_without_limit :
  forall m dist samples nf trees parts bound query ins,
  metric_ok m dist -> infinity_ok m samples query -> Forall2 (tree_over samples nf) trees parts ->
  length query = nf -> bound_fits nf bound -> (Z.of_nat (length (concat parts)) < 2 ^ 64)%Z ->
  admitted (m_lt m) dist bound query samples nf (concat parts) ins ->
  exists b,
    search_trees m samples nf trees bound query accept_all (make_buffer (m_inf m) default_capacity, tt) = Ok (b, tt) /\
    length (buf_indices b) = length (buf_distances b) /\
    Permutation (combine (buf_indices b) (buf_distances b)) (with_distances dist samples nf query ins).
Proof.
  intros m dist samples nf trees parts bound query ins Hm Hinf Ht Hq Hb Hk Ha.
  assert (G : forall cs0 b, fits (length cs0 + length (concat parts)) ->
    buf_inv (m_lt m) (m_inf m) b cs0 [] -> buf_max_capacity b = 0 ->
    exists b' off, search_trees m samples nf trees bound query accept_all (b, tt) = Ok (b', tt) /\
      buf_inv (m_lt m) (m_inf m) b' (cs0 ++ off) [] /\
      Permutation off (cands m dist samples nf bound query (fun _ => true) (concat parts))).
  { clear Hk Ha. induction Ht as [|tree part trees parts H Hts IH]; intros cs0 b Hk Ib C.
    - exists b, []. rewrite app_nil_r. splits; auto.
    - unfold search_trees. cbn [for_each concat]. cbn [concat] in Hk. rewrite app_length in Hk.
      destruct (into_unlimited m dist Hm samples nf tree part bound query accept_all (fun _ => true) (fun _ => True)
                  H Hq (accept_all_ok part) Hb cs0 b tt) as (b1 & [] & off1 & E1 & _ & I1 & C1 & P1); auto; try (unfold fits in *; lia).
      rewrite E1. cbn [bind].
      assert (L1 : length off1 <= length part) by (rewrite (Permutation_length P1); apply (cands_length m dist samples nf bound query (fun _ => true) Hq)).
      destruct (IH (cs0 ++ off1) b1) as (b2 & off2 & E2 & I2 & P2); auto.
      { rewrite app_length. unfold fits in *. lia. }
      exists b2, (off1 ++ off2). splits.
      + exact E2.
      + now rewrite app_assoc.
      + rewrite cands_app. now rewrite P1, P2. }
  destruct (G [] (make_buffer (m_inf m) default_capacity) Hk (buf_inv_make _ _ _) eq_refl) as (b & off & E & Ib & Po).
  exists b. splits; auto.
  - apply Ib.
  - pose proof (bi_perm _ _ _ _ _ Ib) as Pb. rewrite app_nil_r in Pb. simpl in Pb.
    fold (entries b). rewrite Pb, Po. apply cands_admitted; auto.
    intros i Hi. apply in_concat in Hi as (part & Hp & Hi).
    clear - Ht Hp Hi. induction Ht as [|t p ts ps H Hts IH]; [destruct Hp|].
    destruct Hp as [->|Hp]; auto. now apply (tree_over_rows samples nf t part).
Qed.

(** Two trees, over the even and over the odd points. *)
Definition part_tree (indices : list nat) : res kdtree := make_kdtree 0 pts 2 1 10 cycle (-100) 100 half indices.

Lemma part_input indices : (forall i, In i indices -> i < 7) -> tree_input 0 pts 2 cycle (-100) 100 indices.
Proof.
  intros H. destruct pts_input as (A & B & (C1 & C2) & D). unfold tree_input. splits; auto.
  - split; [intros j Hj i Hi; apply C1; auto; apply in_seq; specialize (H i Hi); lia|].
    intros i j Hi Hj. apply C2; auto. apply in_seq; specialize (H i Hi); lia.
  - intros j Hj x y Hx Hy. apply D; auto; apply in_seq; [specialize (H x Hx)|specialize (H y Hy)]; lia.
Qed.

Example c79_case :
  (exists trees, Forall2 (tree_over pts 2) trees [[0; 2; 4; 6]; [1; 3; 5]] /\
     found (search_trees int_metric pts 2 trees Unbounded [3; 3]%Z accept_all (make_buffer 0%Z 3, tt))
       = Some ([3; 5; 1], [2; 4; 2]%Z) /\
     found (search_trees float_metric pts 2 trees (Radius (Some 9%Z)) [3; 3]%Z accept_all (make_buffer None default_capacity, tt))
       = Some ([0; 1; 3], [Some 8; Some 2; Some 2]%Z)) /\
  admitted Z.ltb l1_dist Unbounded [3; 3]%Z pts 2 (concat [[0; 2; 4; 6]; [1; 3; 5]]) [0; 2; 4; 6; 1; 3; 5].
Proof.
  split.
  - destruct (part_tree [0; 2; 4; 6]) as [t1| | |] eqn:E1; try (vm_compute in E1; discriminate).
    destruct (part_tree [1; 3; 5]) as [t2| | |] eqn:E2; try (vm_compute in E2; discriminate).
    exists [t1; t2]. split.
    + repeat constructor.
      * exists 0%Z, 1, 10, cycle, (-100)%Z, 100%Z, half. split; [|exact E1].
        apply part_input. intros i Hi. simpl in Hi. lia.
      * exists 0%Z, 1, 10, cycle, (-100)%Z, 100%Z, half. split; [|exact E2].
        apply part_input. intros i Hi. simpl in Hi. lia.
    + vm_compute in E1, E2. injection E1 as <-. injection E2 as <-. split; vm_compute; reflexivity.
  - exists []. rewrite app_nil_r. splits; simpl; auto.
Qed.

(** A buffer that already holds the answer is not left alone by a second search of the same tree: a sample is then
    reported twice and a nearer one than the second nearest is missing. *)
Theorem c79_searching_again_refuted :
  exists samples nf tree query b b',
    tree_over samples nf tree (seq 0 3) /\ length query = nf /\
    search int_metric samples nf tree Unbounded query accept_all 2 tt = Ok (b, tt) /\
    search_into int_metric samples nf tree Unbounded query accept_all (b, tt) = Ok (b', tt) /\
    NoDup (buf_indices b) /\ ~ NoDup (buf_indices b').
Proof.
  exists [1; 2; 9]%Z, 1.
  destruct (make_kdtree 0 [1; 2; 9]%Z 1 1 10 (fun _ _ _ _ => 0) (-100) 100 half (seq 0 3)) as [t| | |] eqn:E;
    try (vm_compute in E; discriminate).
  exists t, [0%Z].
  assert (Ht : tree_over [1; 2; 9]%Z 1 t (seq 0 3)).
  { exists 0%Z, 1, 10, (fun _ _ _ _ => 0), (-100)%Z, 100%Z, half. split; auto.
    apply (line_input [1; 2; 9]%Z). repeat constructor; lia. }
  vm_compute in E. injection E as <-. eexists. eexists. splits.
  - exact Ht.
  - reflexivity.
  - vm_compute. reflexivity.
  - vm_compute. reflexivity.
  - repeat constructor; simpl; lia.
  - intros H. inversion H as [|x l Hx Hl]; subst. apply Hx. simpl. auto.
Qed.

(** A batch gives every buffer what it would get alone. *)
Theorem c79_batch_is_each_search :
  forall m samples nf tree (requests : list (search_bound (m_dist m) * list Z * nat)) bs,
  Forall2 (fun rq b => let '(bound, query, k) := rq in
             search m samples nf tree bound query accept_all k tt = Ok (b, tt)) requests bs <->
  search_batch m samples nf tree
    (map (fun rq => let '(bound, query, k) := rq in
            (mk_request bound query accept_all, make_buffer (m_inf m) k)) requests) tt = Ok (bs, tt).
Proof.
  intros m samples nf tree. induction requests as [|((bound & query) & k) requests IH]; intros bs.
  - simpl. split; intros H.
    + inversion H. reflexivity.
    + injection H as <-. constructor.
  - cbn [map search_batch rq_bound rq_query rq_accept]. rewrite <- search_is_into. split; intros H.
    + inversion H as [|x b l bs' H1 H2 Ex Eb]; subst. rewrite H1. cbn [bind].
      apply IH in H2. rewrite H2. reflexivity.
    + destruct (search m samples nf tree bound query accept_all k tt) as [(b & [])| | |] eqn:E1; try discriminate.
      cbn [bind] in H.
      destruct (search_batch m samples nf tree (map (fun rq => let '(bound0, query0, k0) := rq in
            (mk_request bound0 query0 accept_all, make_buffer (m_inf m) k0)) requests) tt) as [(bs' & [])| | |] eqn:E2;
        try discriminate.
      cbn [bind] in H. injection H as <-. constructor; auto. now apply IH.
Qed.

(** A batch that shares a union-find: every buffer gets the nearest samples of the components other than its own, whatever
    the earlier searches of the batch did to the union-find. *)
Theorem c79_batch_of_other_components :
  forall m dist samples nf tree indices n ops u (requests : list (nat * list Z * nat)),
  metric_ok m dist -> tree_over samples nf tree indices ->
  Forall (op_in_range n) ops -> uf_run (uf_make n) ops = Ok u -> (forall i, In i indices -> i < n) ->
  Forall (fun rq => let '(q, query, k) := rq in q < n /\ length query = nf /\ 1 <= k /\ (Z.of_nat k < 2 ^ 64)%Z) requests ->
  exists bs u',
    search_batch m samples nf tree
      (map (fun rq => let '(q, query, k) := rq in
              (mk_request Unbounded query (accept_other_component q), make_buffer (m_inf m) k)) requests) u = Ok (bs, u') /\
    Forall2 (fun rq b => let '(q, query, k) := rq in
      forall others own, Permutation indices (others ++ own) ->
        (forall i, In i others -> ~ linked (merged_pairs ops) q i) ->
        (forall i, In i own -> linked (merged_pairs ops) q i) ->
        answers (m_lt m) k (with_distances dist samples nf query others) b) requests bs /\
    (forall x, x < n -> rep u' x = rep u x).
Proof.
  intros m dist samples nf tree indices n ops u requests Hm Ht Hops Hrun Hin Hrq.
  destruct (run_make_correct n ops Hops) as (u0 & E0 & U & T).
  assert (u0 = u) by congruence. subst u0. clear E0.
  set (Q := fun u' => uinv n u' /\ same_roots (parents u) (parents u')).
  assert (Hacc : forall q, q < n -> forall i s, In i indices -> Q s ->
            exists s', accept_other_component q i s = Ok (negb (rootf u q =? rootf u i), s') /\ Q s').
  { intros q Hqn i u1 Hi' (U1 & SR1). unfold accept_other_component.
    destruct (uf_find_correct n u1 q U1 Hqn) as (u2 & r1 & E2 & R1 & U2 & SR2 & _). rewrite E2. cbn [bind].
    destruct (uf_find_correct n u2 i U2 (Hin i Hi')) as (u3 & r2 & E3 & R2 & U3 & SR3 & _). rewrite E3. cbn [bind].
    exists u3. split.
    + f_equal. f_equal. f_equal.
      assert (r1 = rootf u q).
      { eapply root_fun; [|apply (rootf_root n u q U Hqn)]. now apply SR1. }
      assert (r2 = rootf u i).
      { eapply root_fun; [|apply (rootf_root n u i U (Hin i Hi'))]. apply SR1. now apply SR2. }
      congruence.
    + split; auto. eapply same_roots_trans; [eapply same_roots_trans|]; eauto. }
  assert (G : forall s, Q s -> exists bs u',
    search_batch m samples nf tree
      (map (fun rq => let '(q, query, k) := rq in
              (mk_request Unbounded query (accept_other_component q), make_buffer (m_inf m) k)) requests) s = Ok (bs, u') /\
    Forall2 (fun rq b => let '(q, query, k) := rq in
      forall others own, Permutation indices (others ++ own) ->
        (forall i, In i others -> ~ linked (merged_pairs ops) q i) ->
        (forall i, In i own -> linked (merged_pairs ops) q i) ->
        answers (m_lt m) k (with_distances dist samples nf query others) b) requests bs /\ Q u').
  { induction Hrq as [|((q & query) & k) requests (Hq & Hl & H1 & Hk) Hrq IH]; intros s Hs.
    - exists [], s. splits; auto.
    - cbn [map search_batch rq_bound rq_query rq_accept].
      destruct (into_bounded m dist Hm samples nf tree indices Unbounded query (accept_other_component q)
                  (fun i => negb (rootf u q =? rootf u i)) Q Ht Hl (Hacc q Hq) I k [] (make_buffer (m_inf m) k) s
                  H1 Hk Hs (holds_make m k) (Forall_nil _)) as (b & s1 & E1 & Hs1 & Hh & _).
      rewrite E1. cbn [bind].
      destruct (IH s1 Hs1) as (bs & u' & E2 & F2 & Hu'). rewrite E2. cbn [bind].
      exists (b :: bs), u'. splits; auto. constructor; auto.
      intros others own Hp Hoth Hown. apply (holds_answers m dist); auto. eapply holds_perm; [|exact Hh]. simpl.
      unfold cands, with_distances. apply Permutation_map.
      rewrite (filter_ext _ (fun i => negb (rootf u q =? rootf u i))) by reflexivity.
      apply (filter_split _ _ _ own Hp).
      + intros x Hx. assert (x < n) by (apply Hin; eapply Permutation_in; [symmetry; exact Hp|apply in_or_app; auto]).
        apply negb_true_iff. apply Nat.eqb_neq. intros Er. apply (Hoth x Hx).
        apply (T q x (rootf u q) (rootf u x)); auto; eapply rootf_root; eauto.
      + intros x Hx. assert (x < n) by (apply Hin; eapply Permutation_in; [symmetry; exact Hp|apply in_or_app; auto]).
        apply negb_false_iff. apply Nat.eqb_eq.
        apply (T q x (rootf u q) (rootf u x)); auto; eapply rootf_root; eauto. }
  destruct (G u) as (bs & u' & E & F & (U' & SR)).
  { split; auto. apply same_roots_refl. }
  exists bs, u'. splits; auto. intros x Hx. symmetry. eapply same_roots_rep; eauto.
Qed.

(** What the batch reports: the buffers of the components of 1 (with 3 and 5) and of 0. *)
Definition batch_found {D S} (r : res (list (buffer D) * S)) : option (list (list nat * list D)) :=
  match r with Ok (bs, _) => Some (map (fun b => (buf_indices b, buf_distances b)) bs) | _ => None end.

Example c79_batch_case :
  exists tree u, tree_over pts 2 tree (seq 0 7) /\ Forall (op_in_range 7) pts_ops /\ uf_run (uf_make 7) pts_ops = Ok u /\
    batch_found (search_batch int_metric pts 2 tree
      [(mk_request Unbounded [2; 2]%Z (accept_other_component 1), make_buffer 0%Z 2);
       (mk_request Unbounded [5; 1]%Z (accept_other_component 0), make_buffer 0%Z 1)] u)
      = Some [([6; 0], [7; 4]%Z); ([1], [4]%Z)] /\
    batch_found (search_batch float_metric pts 2 tree
      [(mk_request (Radius (Some 9%Z)) [3; 3]%Z accept_all, make_buffer None 2);
       (mk_request (Box some_box) [4; 3]%Z accept_all, make_buffer None default_capacity)] tt)
      = Some [([3; 1], [Some 2; Some 2]%Z); ([3; 4; 1], [Some 5; Some 13; Some 5]%Z)].
Proof.
  destruct (pts_tree 1 10) as [t| | |] eqn:E; try (vm_compute in E; discriminate).
  exists t. eexists. splits.
  - exists 0%Z, 1, 10, cycle, (-100)%Z, 100%Z, half. split; [exact pts_input|exact E].
  - repeat constructor.
  - vm_compute. reflexivity.
  - vm_compute in E. injection E as <-. vm_compute. reflexivity.
  - vm_compute in E. injection E as <-. vm_compute. reflexivity.
Qed.

Print Assumptions c78_box_search_finds_the_nearest_inside.
Print Assumptions c78_box_range_search_is_exact.
Print Assumptions c78_integer_box_search_refuted.
Print Assumptions c79_one_buffer_through_several_trees.
Print Assumptions c79_several_trees_without_limit.
Print Assumptions c79_searching_again_refuted.
Print Assumptions c79_batch_is_each_search.
Print Assumptions c79_batch_of_other_components.
