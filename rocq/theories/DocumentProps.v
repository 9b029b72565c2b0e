(** Theorems on the tree as an object: document, copies, moves (C80), and index ranges shared by two trees (C81). *)
From Coq Require Import String List Arith ZArith Lia Bool Permutation.
From Verif Require Import Base SortingModel SortingSpec SortingProofs BoundsModel BoundsSpec BoundsProofs BufferModel BufferSpec
  BufferProofs BufferProps MatrixModel KDTreeModel KDTreeSpec KDTreeProofs KDTreeProps SearchModel SearchSpec SearchProofs
  SearchProps DocumentModel DocumentSpec DocumentProofs.
Import ListNotations.
Local Open Scope string_scope.
Local Open Scope list_scope.

(** ** C80 *)

(** The numbers a 64-bit integer can print. *)
Definition small (n : nat) : Prop := (Z.of_nat n < 2 ^ 63)%Z.

Lemma row_in_range samples nf i : i * nf + nf <= length samples -> forall x, In x (row samples nf i) ->
  exists j, j < nf /\ x = val samples nf j i.
Proof.
  intros Hl x Hx. apply (In_nth _ _ 0%Z) in Hx as (j & Hj & <-).
  assert (Lr : length (row samples nf i) = nf) by (unfold row; rewrite firstn_length, skipn_length; lia).
  exists j. split; [lia|]. apply nth_row. lia.
Qed.

Theorem c80_document :
  forall integral tol samples nf bucket max_depth policy lowest max center indices,
  tree_input tol samples nf policy lowest max indices ->
  (integral = true -> (- 2 ^ 63 <= lowest < 2 ^ 63)%Z /\ (- 2 ^ 63 <= max < 2 ^ 63)%Z) ->
  small (length indices) -> small nf -> small bucket -> small max_depth ->
  exists o doc options box intervals root tree,
    construct tol samples nf bucket max_depth policy lowest max center indices = Ok o /\
    serialize_object integral o = Ok (text doc) /\
    field "n_samples" doc = Some (JInt (Z.of_nat (length indices))) /\
    field "n_features" doc = Some (JInt (Z.of_nat nf)) /\
    field "options" doc = Some options /\
      field "bucket_size" options = Some (JInt (Z.of_nat bucket)) /\
      field "max_depth" options = Some (JInt (Z.of_nat max_depth)) /\
    field "bounding_box" doc = Some box /\ points box = Some intervals /\ length intervals = nf /\
      (indices <> [] -> forall j, j < nf -> exists lo hi, nth_error intervals j = Some [lo; hi] /\
         (forall i, In i indices -> (lo <= val samples nf j i <= hi)%Z) /\
         (exists i, In i indices /\ val samples nf j i = lo) /\ (exists i, In i indices /\ val samples nf j i = hi)) /\
    field "root" doc = Some root /\ read_tree root = Some tree /\
      Permutation (doc_points tree) (map (row samples nf) indices) /\
      doc_search_tree nf tree /\ doc_limits bucket max_depth 0 tree.
Proof.
  intros integral tol samples nf bucket max_depth policy lowest max center indices Hi Hv Hn Hf Hb Hd.
  pose proof Hi as (Ht & Hp & Hds & Hs).
  destruct (make_kdtree_ok tol samples nf bucket max_depth policy lowest max center indices Ht Hp Hds)
    as (kt & segs & E & E2 & L & T & Bt & Bx & P & R & S2 & S3 & S4 & S5 & S6 & S7).
  assert (O : kd_ordered samples nf (kt_indices kt) (kt_root kt)).
  { apply S6. intros j Hj x y Hx Hy. apply (Hs j Hj); eapply Permutation_in; try (symmetry; exact P); auto. }
  destruct Hds as (Hd1 & Hd2).
  assert (Hrow : forall i, In i indices -> i * nf + nf <= length samples).
  { intros i Hi'. destruct nf as [|nf']; [lia|]. specialize (Hd1 nf' ltac:(lia) i Hi'). lia. }
  assert (W : writable integral samples nf (kt_indices kt)).
  { intros i Hi'. apply (Permutation_in i (Permutation_sym P)) in Hi'. split; auto.
    rewrite Forall_forall. intros x Hx Hint. destruct (row_in_range samples nf i (Hrow i Hi') x Hx) as (j & Hj & ->).
    specialize (Hd2 i j Hi' Hj). specialize (Hv Hint). unfold fits64. lia. }
  assert (Hseg : forall j, j < nf -> printable integral (seg_lower (nth j segs (mk_segment 0 0))) /\
                                     printable integral (seg_upper (nth j segs (mk_segment 0 0)))).
  { intros j Hj. destruct (T j Hj) as (_ & T2 & T3). destruct indices as [|i0 l0].
    - rewrite (T2 eq_refl). unfold printable, fits64. cbn. split; intros Hint; specialize (Hv Hint); lia.
    - destruct T3 as ((i1 & Hi1 & <-) & (i2 & Hi2 & <-)); [discriminate|].
      pose proof (Hd2 i1 j Hi1 Hj). pose proof (Hd2 i2 j Hi2 Hj).
      unfold printable, fits64. split; intros Hint; specialize (Hv Hint); lia. }
  set (seg_json := fun s => JArray [value_json integral (seg_lower s); value_json integral (seg_upper s)]).
  set (box := JArray (map seg_json segs)).
  set (opts := JObject [("bucket_size", JInt (Z.of_nat bucket)); ("max_depth", JInt (Z.of_nat max_depth))]).
  set (root := node_json integral samples nf (kt_indices kt) (kt_root kt)).
  exists (mk_object bucket max_depth samples (Some (length indices)) nf (kt_bound kt) (kt_indices kt) (Some (kt_root kt))).
  exists (JObject [("n_samples", JInt (Z.of_nat (length indices))); ("n_features", JInt (Z.of_nat nf));
                   ("options", opts); ("bounding_box", box); ("root", root)]).
  exists opts, box, (map (fun s => [seg_lower s; seg_upper s]) segs), root, (doc_of samples nf (kt_indices kt) (kt_root kt)).
  assert (Ebox : for_loop nf 0 (fun j out => s <- rd (aabb_segments (kt_bound kt)) j ;;
           Ok (out ++ [StartArray; write_value integral (seg_lower s); write_value integral (seg_upper s); EndArray])) []
         = Ok (flat_map text (map seg_json segs))).
  { rewrite Bt. cbn [make_aabb aabb_segments].
    assert (G : forall count first acc, first + count = nf ->
      for_loop count first (fun j out => s <- rd segs j ;;
           Ok (out ++ [StartArray; write_value integral (seg_lower s); write_value integral (seg_upper s); EndArray])) acc
      = Ok (acc ++ flat_map text (map seg_json (skipn first segs)))).
    { induction count as [|count IH]; intros first acc Hfc.
      - cbn [for_loop]. rewrite skipn_all2 by lia. cbn. now rewrite app_nil_r.
      - cbn [for_loop].
        assert (Ev : nth_error segs first = Some (nth first segs (mk_segment 0 0))) by (apply nth_error_nth'; lia).
        rewrite (proj2 (rd_ok segs first _) Ev). cbn [bind]. rewrite IH by lia. rewrite <- app_assoc. f_equal. f_equal.
        assert (Es : skipn first segs = nth first segs (mk_segment 0 0) :: skipn (S first) segs).
        { clear - Ev. revert first Ev. induction segs as [|x l IH]; intros [|n] H; simpl in *; try discriminate; auto. }
        rewrite Es. cbn [map flat_map]. destruct (Hseg first) as (H1 & H2); [lia|].
        change [StartArray; write_value integral (seg_lower (nth first segs (mk_segment 0 0)));
                write_value integral (seg_upper (nth first segs (mk_segment 0 0))); EndArray]
          with ([StartArray] ++ [write_value integral (seg_lower (nth first segs (mk_segment 0 0)))] ++
                [write_value integral (seg_upper (nth first segs (mk_segment 0 0)))] ++ [EndArray]).
        rewrite !write_value_text by auto.
        change (text (seg_json (nth first segs (mk_segment 0 0)))) with
          ([StartArray] ++ (text (value_json integral (seg_lower (nth first segs (mk_segment 0 0)))) ++
             text (value_json integral (seg_upper (nth first segs (mk_segment 0 0)))) ++ []) ++ [EndArray]).
        rewrite <- !app_assoc. reflexivity. }
    rewrite (G nf 0 []) by lia. reflexivity. }
  splits; try reflexivity.
  - unfold construct. rewrite E. reflexivity.
  - unfold serialize_object. cbn [o_n_samples o_n_features o_bound o_root o_samples o_indices].
    rewrite Ebox. cbn [bind]. rewrite (node_text integral samples nf (kt_indices kt) W Hf (kt_root kt) R O). cbn [bind].
    unfold serialize_options. cbn [o_bucket_size o_max_depth].
    rewrite !to_int64_id by (unfold small, fits64 in *; lia).
    cbn [text flat_map fst snd]. unfold opts, box, root. cbn [text flat_map fst snd].
    repeat (cbn [app]; rewrite <- ?app_assoc). reflexivity.
  - unfold box, points. rewrite map_map. apply all_some_map. intros s _. cbn. rewrite !value_number. reflexivity.
  - now rewrite map_length.
  - intros Hne j Hj. destruct (T j Hj) as (T1 & _ & T3). destruct (T3 Hne) as (T4 & T5).
    exists (seg_lower (nth j segs (mk_segment 0 0))), (seg_upper (nth j segs (mk_segment 0 0))). splits; auto.
    rewrite nth_error_map, (nth_error_nth' segs j (mk_segment 0 0)) by lia. reflexivity.
  - apply node_read.
  - rewrite doc_of_points, S2. apply Permutation_map. now symmetry.
  - now apply doc_of_ordered.
  - apply doc_of_limits; auto. apply S3. lia.
Qed.

(** Two values with the same text are the same value: the document can be read back in one way only. *)
Theorem c80_text_is_unambiguous : forall d e, text d = text e -> d = e.
Proof.
  intros d e H. apply (text_prefix d e [] []). now rewrite H.
Qed.

(** A depth limit of 2^63 or more is written as a negative number. *)
Theorem c80_large_depth_refuted :
  forall tol samples nf bucket max_depth policy lowest max center indices o,
  (2 ^ 63 <= Z.of_nat max_depth < 2 ^ 64)%Z ->
  construct tol samples nf bucket max_depth policy lowest max center indices = Ok o ->
  exists z, (z < 0)%Z /\
    serialize_options o = Str "options" :: text (JObject [("bucket_size", JInt (to_int64 (Z.of_nat bucket))); ("max_depth", JInt z)]).
Proof.
  intros tol samples nf bucket max_depth policy lowest max center indices o Hd Hc.
  unfold construct in Hc.
  destruct (make_kdtree tol samples nf bucket max_depth policy lowest max center indices) as [t| | |]; try discriminate.
  injection Hc as <-. exists (Z.of_nat max_depth - 2 ^ 64)%Z. split; [lia|].
  unfold serialize_options. cbn [o_bucket_size o_max_depth].
  assert (to_int64 (Z.of_nat max_depth) = Z.of_nat max_depth - 2 ^ 64)%Z as ->; [|reflexivity].
  unfold to_int64. replace (Z.of_nat max_depth + 2 ^ 63)%Z with ((Z.of_nat max_depth - 2 ^ 63) + 1 * 2 ^ 64)%Z by lia.
  rewrite Z.mod_add by lia. rewrite Z.mod_small by lia. lia.
Qed.

Definition pts_object (bucket depth : nat) : res tree_object :=
  construct 0 pts 2 bucket depth cycle (-100) 100 half (seq 0 7).

Example c80_case :
  tree_input 0 pts 2 cycle (-100) 100 (seq 0 7) /\
  (forall integral, exists o, pts_object 3 10 = Ok o /\
   let v := fun z => if integral : bool then JInt z else JDouble z in
   serialize_object integral o = Ok (text
    (JObject [("n_samples", JInt 7); ("n_features", JInt 2);
       ("options", JObject [("bucket_size", JInt 3); ("max_depth", JInt 10)]);
       ("bounding_box", JArray [JArray [v 0; v 9]; JArray [v 1; v 7]]);
       ("root", JObject [("axis", JInt 0); ("points", JArray [JArray [v 2; v 4]]);
          ("left", JObject [("axis", JInt (-1)); ("points", JArray [JArray [v 0; v 7]])]);
          ("right", JObject [("axis", JInt 1); ("points", JArray [JArray [v 9; v 3]]);
             ("left", JObject [("axis", JInt (-1)); ("points", JArray [JArray [v 5; v 1]; JArray [v 2; v 2]])]);
             ("right", JObject [("axis", JInt (-1)); ("points", JArray [JArray [v 7; v 5]; JArray [v 2; v 6]])])])])])))%Z.
Proof. split; [exact pts_input|]. intros [|]; eexists; (split; [vm_compute; reflexivity|]); vm_compute; reflexivity. Qed.

Example c80_text_is_unambiguous_case :
  text (JArray [JArray [JInt 1]; JInt 2]) <> text (JArray [JArray [JInt 1; JInt 2]]).
Proof. intros H. apply c80_text_is_unambiguous in H. discriminate. Qed.

(** A copy writes the document of the original and finds the same neighbors; so does a tree moved from it, but the object
    left behind cannot be searched. *)
Theorem c80_copies :
  forall m dist integral tol samples nf bucket max_depth policy lowest max center indices query k,
  metric_ok m dist -> tree_input tol samples nf policy lowest max indices ->
  length query = nf -> 1 <= k -> (Z.of_nat k < 2 ^ 64)%Z ->
  exists o b, construct tol samples nf bucket max_depth policy lowest max center indices = Ok o /\
    answers (m_lt m) k (with_distances dist samples nf query indices) b /\
    object_search m o Unbounded query accept_all k tt = Ok (b, tt) /\
    object_search m (copy_object o) Unbounded query accept_all k tt = Ok (b, tt) /\
    object_search m (fst (move_object o)) Unbounded query accept_all k tt = Ok (b, tt) /\
    object_search m (snd (move_object o)) Unbounded query accept_all k tt = UB /\
    object_n_samples (fst (move_object o)) = object_n_samples o /\
    serialize_object integral (copy_object o) = serialize_object integral o.
Proof.
  intros m dist integral tol samples nf bucket max_depth policy lowest max center indices query k Hm Hi Hq H1 Hk.
  destruct (c15_tree_search_finds_the_k_nearest m dist tol samples nf bucket max_depth policy lowest max center indices
    query k Hm Hi Hq H1 Hk) as (tree & b & E & Es & A).
  unfold construct. rewrite E. cbn [bind]. eexists. exists b. split; [reflexivity|].
  assert (Et : tree = mk_kdtree (kt_indices tree) (kt_root tree) (kt_bound tree)) by (destruct tree; reflexivity).
  rewrite Et in Es. splits; auto.
Qed.

Example c80_copies_case :
  tree_input 0 pts 2 cycle (-100) 100 (seq 0 7) /\ metric_ok int_metric l1_dist /\
  found (o <- pts_object 1 10 ;; object_search int_metric (fst (move_object o)) Unbounded [3; 3]%Z accept_all 3 tt)
    = Some ([3; 1; 5], [2; 2; 4]%Z).
Proof. split; [exact pts_input|]. split; [exact int_metric_ok|]. vm_compute; reflexivity. Qed.

(** Writing the moved-to tree reads a member that was never set. *)
Theorem c80_writing_a_moved_tree_refuted :
  exists tol samples nf bucket max_depth policy lowest max center indices o,
    tree_input tol samples nf policy lowest max indices /\
    construct tol samples nf bucket max_depth policy lowest max center indices = Ok o /\
    (forall integral, exists doc, serialize_object integral o = Ok (text doc)) /\
    (forall integral, serialize_object integral (fst (move_object o)) = UB).
Proof.
  exists 0%Z, pts, 2, 1, 10, cycle, (-100)%Z, 100%Z, half, (seq 0 7).
  assert (D : forall integral, exists o doc, pts_object 1 10 = Ok o /\ serialize_object integral o = Ok (text doc)).
  { intros integral.
    destruct (c80_document integral 0 pts 2 1 10 cycle (-100) 100 half (seq 0 7) pts_input)
      as (o & doc & op & bx & iv & rt & tr & E & Es & _); try (unfold small; simpl; lia). exists o, doc. auto. }
  destruct (D true) as (o & _ & E & _). exists o. splits; auto using pts_input.
  intros integral. destruct (D integral) as (o' & doc & E' & Es). rewrite E in E'. injection E' as <-. eauto.
Qed.

(** The tree is a view: sample [i] is the [i]-th sample of the dataset, and [n_samples] counts the dataset. *)
Theorem c80_accessors :
  forall tol samples nf bucket max_depth policy lowest max center indices n,
  tree_input tol samples nf policy lowest max indices -> 1 <= nf -> length samples = n * nf ->
  exists o, construct tol samples nf bucket max_depth policy lowest max center indices = Ok o /\
    object_n_samples o = Ok n /\ object_n_features o = nf /\
    (forall i, i < n -> object_features o i = Ok (row samples nf i)).
Proof.
  intros tol samples nf bucket max_depth policy lowest max center indices n Hi Hf Hl.
  destruct (built_tree tol samples nf bucket max_depth policy lowest max center indices Hi) as (kt & E & _).
  unfold construct. rewrite E. cbn [bind]. eexists. split; [reflexivity|].
  unfold object_n_samples, object_n_features, object_features, get_n_samples. cbn [o_samples o_n_features]. splits.
  - destruct (Nat.eqb_spec nf 0); [lia|]. rewrite Hl, Nat.div_mul; auto.
  - reflexivity.
  - intros i Hi'. assert (i * nf + nf <= length samples) by nia.
    apply (sample_at_row samples nf [i] (repeat 0%Z nf)); [|apply repeat_length|left; auto].
    intros j [<-|[]]. auto.
Qed.

Theorem c80_number_of_indexed_samples_refuted :
  exists tol samples nf bucket max_depth policy lowest max center indices o n,
    tree_input tol samples nf policy lowest max indices /\
    construct tol samples nf bucket max_depth policy lowest max center indices = Ok o /\
    object_n_samples o = Ok n /\ n <> length indices.
Proof.
  exists 0%Z, [1; 2; 9]%Z, 1, 1, 10, (fun _ _ _ _ => 0), (-100)%Z, 100%Z, half, [0; 2].
  eexists. eexists. splits.
  - unfold tree_input. splits; [lia|intros h p d b; lia| |].
    + split.
      * intros j Hj i Hi. simpl in Hi. simpl length. lia.
      * intros i j Hi Hj. simpl in Hi. assert (j = 0) by lia. subst.
        destruct Hi as [<-|[<-|[]]]; vm_compute; split; discriminate.
    + intros j Hj x y Hx Hy Heq. lia.
  - vm_compute. reflexivity.
  - vm_compute. reflexivity.
  - simpl. lia.
Qed.

Example c80_accessors_case :
  tree_input 0 pts 2 cycle (-100) 100 (seq 0 7) /\ length pts = 7 * 2 /\
  (o <- pts_object 1 10 ;; object_features o 2) = Ok [9; 3]%Z.
Proof. split; [exact pts_input|]. split; vm_compute; reflexivity. Qed.

(** ** C81 *)

Section Shared.
Context (tol tol' : Z) (samples samples' : list Z) (nf nf' bucket bucket' max_depth max_depth' : nat).
Context (policy policy' : list bool -> list nat -> nat -> aabb -> nat) (lowest lowest' max max' : Z).
Context (center center' : segment -> Z) (indices : list nat).

(** Both trees are built over the same range, the second one possibly over another dataset. *)
Definition built_twice (o o' : tree_object) : Prop :=
  construct tol samples nf bucket max_depth policy lowest max center indices = Ok o /\
  construct tol' samples' nf' bucket' max_depth' policy' lowest' max' center' (o_indices o) = Ok o'.

Hypothesis Hi : tree_input tol samples nf policy lowest max indices.
Hypothesis Hi' : tree_input tol' samples' nf' policy' lowest' max' indices.
Hypothesis Hn : NoDup indices.

Lemma tree_input_perm tl sm n pl lo mx xs ys : Permutation xs ys ->
  tree_input tl sm n pl lo mx xs -> tree_input tl sm n pl lo mx ys.
Proof.
  intros P (A & B & (C1 & C2) & D). unfold tree_input, dataset_ok. splits; auto.
  - intros j Hj i Hi0. apply (C1 j Hj). now apply (Permutation_in i (Permutation_sym P)).
  - intros i j Hi0 Hj. apply C2; auto. now apply (Permutation_in i (Permutation_sym P)).
  - intros j Hj x y Hx Hy. apply (D j Hj); eapply Permutation_in; try (symmetry; exact P); auto.
Qed.

Lemma built_twice_facts : exists tree tree',
  let arr := kt_indices tree in let arr' := kt_indices tree' in
  let o := mk_object bucket max_depth samples (Some (length indices)) nf (kt_bound tree) arr (Some (kt_root tree)) in
  make_kdtree tol samples nf bucket max_depth policy lowest max center indices = Ok tree /\
  (exists o', built_twice o o' /\ o_indices o' = arr') /\
  Permutation indices arr' /\ kd_ranges arr' (kt_root tree) /\ kd_samples arr' (kt_root tree) = arr' /\
  kd_axes nf (kt_root tree) /\ kd_limits bucket max_depth 0 (kt_root tree) /\
  kd_size (kt_root tree) = length indices /\
  (forall i, In i arr' -> i * nf + nf <= length samples).
Proof.
  destruct (built_tree tol samples nf bucket max_depth policy lowest max center indices Hi)
    as (tree & E & P & R & S1 & O & D).
  pose proof (tree_input_perm _ _ _ _ _ _ _ _ P Hi') as Hp.
  destruct (built_tree tol' samples' nf' bucket' max_depth' policy' lowest' max' center' (kt_indices tree) Hp)
    as (tree' & E' & P' & _).
  exists tree, tree'. cbv zeta.
  assert (L : length (kt_indices tree) = length (kt_indices tree')) by now apply Permutation_length.
  assert (N : NoDup (kt_indices tree)) by (eapply Permutation_NoDup; eauto).
  splits; auto.
  - eexists. split; [split|].
    + unfold construct. rewrite E. reflexivity.
    + unfold construct. cbn [o_indices]. rewrite E'. reflexivity.
    + reflexivity.
  - etransitivity; eauto.
  - eapply ranges_length; eauto.
  - eapply samples_rearranged; eauto.
  - eapply ordered_axes; eauto.
  - destruct Hi as (Ht & Hpo & Hds & Hs).
    destruct (make_kdtree_ok tol samples nf bucket max_depth policy lowest max center indices Ht Hpo Hds)
      as (kt & segs & Ek & _ & _ & _ & _ & _ & _ & _ & _ & S3 & _).
    rewrite E in Ek. injection Ek as <-. apply S3. lia.
  - rewrite <- (kd_size_samples _ _ R), S1. symmetry. now apply Permutation_length.
  - intros i Hin. apply D. eapply Permutation_in; [symmetry; exact P'|auto].
Qed.
End Shared.

Lemma unbounded_cands m dist samples nf query xs :
  cands m dist samples nf Unbounded query (fun _ => true) xs = with_distances dist samples nf query xs.
Proof.
  unfold cands, elig, within. f_equal. cbn [andb]. induction xs as [|x xs IH]; simpl; congruence.
Qed.

(** After the second construction a search in the first tree still reads inside the arrays, and still reports as many
    distinct samples of the range as asked for, with their distances. *)
Theorem c81_shared_indices_stay_usable :
  forall m dist tol tol' samples samples' nf nf' bucket bucket' max_depth max_depth' policy policy' lowest lowest' max max'
    center center' indices query k,
  metric_ok m dist ->
  tree_input tol samples nf policy lowest max indices -> tree_input tol' samples' nf' policy' lowest' max' indices ->
  NoDup indices -> length query = nf -> 1 <= k -> (Z.of_nat k < 2 ^ 64)%Z ->
  exists o o' b rest,
    construct tol samples nf bucket max_depth policy lowest max center indices = Ok o /\
    construct tol' samples' nf' bucket' max_depth' policy' lowest' max' center' (o_indices o) = Ok o' /\
    object_search m (after_building o o') Unbounded query accept_all k tt = Ok (b, tt) /\
    Permutation (combine (buf_indices b) (buf_distances b) ++ rest) (with_distances dist samples nf query indices) /\
    length (buf_indices b) = min k (length indices) /\ length (buf_distances b) = min k (length indices).
Proof.
  intros m dist tol tol' samples samples' nf nf' bucket bucket' max_depth max_depth' policy policy' lowest lowest' max max'
    center center' indices query k Hm Hi Hi' Hn Hq H1 Hk.
  destruct (built_twice_facts tol tol' samples samples' nf nf' bucket bucket' max_depth max_depth' policy policy' lowest
    lowest' max max' center center' indices Hi Hi' Hn)
    as (tree & tree' & E & (o' & (B1 & B2) & B3) & P & R & S1 & A & _ & _ & D).
  destruct (visit_unordered m dist Hm samples nf (kt_indices tree') query D Hq (kt_root tree) (make_buffer (m_inf m) k) tt [] [])
    as (b & [] & rest & off & skip & Ev & I & M & Pm & K); auto.
  - apply buf_inv_make.
  - rewrite S1, unbounded_cands in Pm.
    assert (Pc : Permutation (off ++ skip) (with_distances dist samples nf query indices)).
    { rewrite Pm. unfold with_distances. apply Permutation_map. now symmetry. }
    pose proof (bi_perm _ _ _ _ _ I) as Pe. simpl in Pe.
    assert (Pall : Permutation (entries b ++ (rest ++ skip)) (with_distances dist samples nf query indices)).
    { rewrite app_assoc, Pe. exact Pc. }
    eexists. exists o', b, (rest ++ skip). split; [exact B1|]. split; [exact B2|].
    assert (Ln : buf_size b = min k (length indices)).
    { pose proof (Permutation_length Pall) as L. rewrite app_length, (entries_length b (bi_len _ _ _ _ _ I)) in L.
      unfold with_distances in L. rewrite map_length, app_length in L.
      destruct M as (C & _). simpl in C. pose proof (bi_cap _ _ _ _ _ I) as Hc. rewrite C in Hc.
      destruct rest as [|x rest].
      - destruct skip as [|y skip]; [simpl in L; lia|]. specialize (K ltac:(discriminate)). lia.
      - destruct (bi_room _ _ _ _ _ I ltac:(discriminate)) as (_ & Hr). lia. }
    splits; auto.
    + unfold object_search, after_building. cbn [o_root o_samples o_n_features o_indices o_bound]. rewrite B3.
      unfold search. apply search_is_visit. exact Ev.
    + rewrite <- (bi_len _ _ _ _ _ I). exact Ln.
Qed.

Definition second (_ : list bool) (_ : list nat) (_ : nat) (_ : aabb) : nat := 1.

Lemma second_input : tree_input 0 pts 2 second (-100) 100 (seq 0 7).
Proof.
  destruct pts_input as (A & _ & C & D). unfold tree_input. splits; auto. intros h p d b. unfold second. lia.
Qed.

(** But not the nearest ones. *)
Theorem c81_shared_indices_refuted :
  exists tol samples nf bucket max_depth policy policy' lowest max center indices query o o' b,
    tree_input tol samples nf policy lowest max indices /\ tree_input tol samples nf policy' lowest max indices /\
    NoDup indices /\ length query = nf /\
    construct tol samples nf bucket max_depth policy lowest max center indices = Ok o /\
    construct tol samples nf bucket max_depth policy' lowest max center (o_indices o) = Ok o' /\
    object_search int_metric (after_building o o') Unbounded query accept_all 1 tt = Ok (b, tt) /\
    ~ k_nearest Z.ltb 1 (with_distances l1_dist samples nf query indices) (combine (buf_indices b) (buf_distances b)) /\
    In query (map (row samples nf) indices) /\ buf_distances b = [2%Z].
Proof.
  exists 0%Z, pts, 2, 1, 10, cycle, second, (-100)%Z, 100%Z, half, (seq 0 7), [2; 4]%Z.
  eexists. eexists. eexists. splits.
  - exact pts_input.
  - exact second_input.
  - apply seq_NoDup.
  - reflexivity.
  - vm_compute. reflexivity.
  - vm_compute. reflexivity.
  - vm_compute. reflexivity.
  - cbn [buf_indices buf_distances combine]. intros (rest & P & L & H).
    assert (In (3, 0%Z) ([(1, 2%Z)] ++ rest)).
    { eapply Permutation_in; [symmetry; exact P|]. vm_compute. tauto. }
    destruct H0 as [H0|H0]; [discriminate|].
    specialize (H (1, 2%Z) (3, 0%Z) (or_introl eq_refl) H0). discriminate.
  - vm_compute. tauto.
  - reflexivity.
Qed.

Example c81_shared_indices_stay_usable_case :
  tree_input 0 pts 2 cycle (-100) 100 (seq 0 7) /\ tree_input 0 pts 2 second (-100) 100 (seq 0 7) /\
  metric_ok int_metric l1_dist /\ NoDup (seq 0 7) /\
  found (o <- pts_object 1 10 ;; o' <- construct 0 pts 2 1 10 second (-100) 100 half (o_indices o) ;;
         object_search int_metric (after_building o o') Unbounded [2; 4]%Z accept_all 2 tt) = Some ([1; 5], [2; 2]%Z).
Proof.
  split; [exact pts_input|]. split; [exact second_input|]. split; [exact int_metric_ok|]. split; [apply seq_NoDup|].
  vm_compute. reflexivity.
Qed.

(** A first tree that is one leaf (the default, or few samples) is not disturbed: it looks at every sample. *)
Theorem c81_one_leaf_is_not_disturbed :
  forall m dist tol tol' samples samples' nf nf' bucket bucket' max_depth max_depth' policy policy' lowest lowest' max max'
    center center' indices query k,
  metric_ok m dist ->
  tree_input tol samples nf policy lowest max indices -> tree_input tol' samples' nf' policy' lowest' max' indices ->
  NoDup indices -> length query = nf -> 1 <= k -> (Z.of_nat k < 2 ^ 64)%Z ->
  max_depth = 0 \/ length indices <= bucket ->
  exists o o' b,
    construct tol samples nf bucket max_depth policy lowest max center indices = Ok o /\
    construct tol' samples' nf' bucket' max_depth' policy' lowest' max' center' (o_indices o) = Ok o' /\
    object_search m (after_building o o') Unbounded query accept_all k tt = Ok (b, tt) /\
    answers (m_lt m) k (with_distances dist samples nf query indices) b.
Proof.
  intros m dist tol tol' samples samples' nf nf' bucket bucket' max_depth max_depth' policy policy' lowest lowest' max max'
    center center' indices query k Hm Hi Hi' Hn Hq H1 Hk Hleaf.
  destruct (built_twice_facts tol tol' samples samples' nf nf' bucket bucket' max_depth max_depth' policy policy' lowest
    lowest' max max' center center' indices Hi Hi' Hn)
    as (tree & tree' & E & (o' & (B1 & B2) & B3) & P & R & S1 & A & Lm & Sz & D).
  assert (O : kd_ordered samples nf (kt_indices tree') (kt_root tree)).
  { destruct (kt_root tree) as [f l bx|f l ax bx tl tr]; [exact I|]. exfalso. cbn [kd_limits] in Lm. lia. }
  destruct (search_bounded m dist Hm samples nf (mk_kdtree (kt_indices tree') (kt_root tree) (kt_bound tree)) indices
    Unbounded query accept_all (fun _ => true) (fun _ => True)) with (k := k) (s := tt) as (b & [] & Es & _ & An); auto.
  - intros i s _ _. exists s. auto.
  - rewrite unbounded_cands in An.
    eexists. exists o', b. split; [exact B1|]. split; [exact B2|]. split; [|exact An].
    unfold object_search, after_building. cbn [o_root o_samples o_n_features o_indices o_bound]. rewrite B3. exact Es.
Qed.

Example c81_one_leaf_is_not_disturbed_case :
  tree_input 0 pts 2 cycle (-100) 100 (seq 0 7) /\
  metric_ok int_metric l1_dist /\ NoDup (seq 0 7) /\ length (seq 0 7) <= 7 /\
  found (o <- pts_object 7 10 ;; o' <- construct 0 pts 2 1 10 cycle (-100) 100 half (o_indices o) ;;
         object_search int_metric (after_building o o') Unbounded [2; 4]%Z accept_all 3 tt) = Some ([5; 3; 1], [2; 0; 2]%Z) /\
  exists o o', pts_object 7 10 = Ok o /\ construct 0 pts 2 1 10 cycle (-100) 100 half (o_indices o) = Ok o' /\
    o_indices o = seq 0 7 /\ o_indices o' <> seq 0 7.
Proof.
  split; [exact pts_input|]. split; [exact int_metric_ok|]. split; [apply seq_NoDup|].
  split; [apply le_n|]. split.
  - vm_compute. reflexivity.
  - eexists. eexists. splits; [vm_compute; reflexivity|vm_compute; reflexivity|reflexivity|vm_compute; discriminate].
Qed.

Print Assumptions c80_document.
Print Assumptions c80_text_is_unambiguous.
Print Assumptions c80_large_depth_refuted.
Print Assumptions c80_copies.
Print Assumptions c80_writing_a_moved_tree_refuted.
Print Assumptions c80_accessors.
Print Assumptions c80_number_of_indexed_samples_refuted.
Print Assumptions c81_shared_indices_stay_usable.
Print Assumptions c81_shared_indices_refuted.
Print Assumptions c81_one_leaf_is_not_disturbed.
