(** Lemmas on the choice of the axis and on the construction of the tree with a policy. *)
From Coq Require Import List Arith ZArith QArith Qround Lqa Lia Bool Permutation.
From Verif Require Import Base SortingModel SortingSpec SortingProofs BoundsModel BoundsProofs BufferModel KDTreeModel KDTreeSpec KDTreeProofs
  RandomModel RandomSpec RandomProofs AliasProofs StatsModel StatsSpec StatsProofs AxisModel AxisSpec.
Import ListNotations.
Local Open Scope nat_scope.

(** ** The longest side *)
Lemma Zltb_Q x y : (x <? y)%Z = Qlt_bool (inject_Z x) (inject_Z y).
Proof.
  destruct (Z.ltb_spec x y), (Qlt_bool (inject_Z x) (inject_Z y)) eqn:E; auto.
  - apply Qlt_bool_false in E. rewrite <- Zle_Qle in E. lia.
  - apply Qlt_bool_iff in E. rewrite <- Zlt_Qlt in E. lia.
Qed.

Lemma longest_axis_ok bound : aabb_segments bound <> [] ->
  first_greatest (length (aabb_segments bound)) (fun j => inject_Z (side bound j)) (select_longest_axis bound).
Proof.
  intros Hne. unfold select_longest_axis.
  pose proof (max_first (fun lhs rhs => Z.ltb (segment_range lhs) (segment_range rhs)) (fun s => inject_Z (segment_range s)) (mk_segment 0 0)
    (aabb_segments bound)) as M.
  eapply first_greatest_ext; [|apply M; auto].
  - intros j Hj. unfold side. rewrite (nth_error_nth' _ _ (mk_segment 0 0) Hj). unfold segment_range.
    replace (Z.abs (seg_lower (nth j (aabb_segments bound) (mk_segment 0 0)) - seg_upper (nth j (aabb_segments bound) (mk_segment 0 0))))%Z
      with (Z.abs (seg_upper (nth j (aabb_segments bound) (mk_segment 0 0)) - seg_lower (nth j (aabb_segments bound) (mk_segment 0 0))))%Z by lia. reflexivity.
  - intros x y _ _. apply Zltb_Q.
Qed.

Lemma longest_masked_ok bound mask : Forall (fun f => f < length (aabb_segments bound)) mask ->
  exists axis, select_longest_axis_masked bound mask = Ok axis /\
    ((forall f, In f mask -> side bound f = 0%Z) -> axis = 0) /\
    (forall f, In f mask -> (0 < side bound f)%Z -> exists k, nth_error mask k = Some axis /\
       (forall g, In g mask -> (side bound g <= side bound axis)%Z) /\ (forall i g, i < k -> nth_error mask i = Some g -> (side bound g < side bound axis)%Z)).
Proof.
  intros Hm. rewrite Forall_forall in Hm. unfold select_longest_axis_masked.
  destruct (for_each_inv (fun d '(axis, range) => (0 <= range)%Z /\ (forall g, In g d -> (side bound g <= range)%Z) /\
      ((axis = 0 /\ range = 0%Z) \/ (0 < range)%Z /\ range = side bound axis /\ exists k, nth_error d k = Some axis /\
         forall i g, i < k -> nth_error d i = Some g -> (side bound g < range)%Z))
    (fun feature_index '(current_axis, current_range) =>
      s <- rd (aabb_segments bound) feature_index ;;
      if Z.ltb current_range (segment_range s) then Ok (feature_index, segment_range s) else Ok (current_axis, current_range)) mask [] (0, 0%Z))
    as ((axis, range) & E & H0 & H1 & H2).
  - splits; auto; [lia|intros g []].
  - intros f d (axis, range) Hf (H0 & H1 & H2). specialize (Hm f Hf).
    destruct (nth_error (aabb_segments bound) f) as [s|] eqn:Es; [|apply nth_error_None in Es; lia].
    rewrite (proj2 (rd_ok _ _ _) Es). cbn [bind].
    assert (Hs : side bound f = segment_range s). { unfold side, segment_range. rewrite Es. lia. }
    assert (Hp : (0 <= segment_range s)%Z) by (unfold segment_range; lia).
    destruct (Z.ltb_spec range (segment_range s)).
    + eexists. split; [reflexivity|]. cbn beta iota. splits; [lia| |right; splits; [lia|auto|]].
      * intros g Hg. apply in_app_iff in Hg. destruct Hg as [Hg|[<-|[]]]; [specialize (H1 g Hg); lia|lia].
      * exists (length d). split; [rewrite nth_error_app2, Nat.sub_diag by lia; reflexivity|]. intros i g Hi Eg.
        rewrite nth_error_app1 in Eg by lia. specialize (H1 g (nth_error_In _ _ Eg)). lia.
    + eexists. split; [reflexivity|]. cbn beta iota. splits; auto.
      * intros g Hg. apply in_app_iff in Hg. destruct Hg as [Hg|[<-|[]]]; [auto|lia].
      * destruct H2 as [H2|(A & B & k & Ek & Hk)]; auto. right. splits; auto. exists k.
        assert (k < length d) by (apply nth_error_lt in Ek; auto). split; [rewrite nth_error_app1; auto|].
        intros i g Hi Eg. rewrite nth_error_app1 in Eg by lia. eauto.
  - rewrite E. cbn [bind app] in *. exists axis. split; auto. split.
    + intros Hz. destruct H2 as [(-> & _)|(A & B & k & Ek & _)]; auto. specialize (Hz axis (nth_error_In _ _ Ek)). lia.
    + intros f Hf Hpos. destruct H2 as [(_ & ->)|(A & B & k & Ek & Hk)]; [specialize (H1 f Hf); lia|].
      exists k. split; auto. split; [intros g Hg; specialize (H1 g Hg); lia|]. intros i g Hi Eg. rewrite <- B. eauto.
Qed.

(** ** Permutations do not change the variance *)
Lemma sum_q_perm l l' : Permutation l l' -> (sum_q l == sum_q l')%Q.
Proof. induction 1; simpl; try lra. Qed.
Lemma variance_perm l l' : Permutation l l' -> (variance_q l == variance_q l')%Q.
Proof.
  intros P. unfold variance_q, scatter. assert (C : (count_q l == count_q l')%Q) by (unfold count_q; rewrite (Permutation_length P); reflexivity).
  assert (M : (mean_q l == mean_q l')%Q) by (unfold mean_q; rewrite C, (sum_q_perm _ _ P); reflexivity).
  rewrite C. assert (S : (sum_q (map (fun x => (x - mean_q l) * (x - mean_q l)) l) == sum_q (map (fun x => (x - mean_q l') * (x - mean_q l')) l'))%Q).
  { rewrite (sum_q_perm _ _ (Permutation_map _ P)). apply sum_q_ext. intros x _. rewrite M. reflexivity. }
  rewrite S. reflexivity.
Qed.

(** ** The tree *)
Section Build.
Context (tol : Z) (samples : list Z) (nf bucket max_depth : nat).
Context (policy : list bool -> list nat -> nat -> aabb -> res nat).
Hypothesis Htol : (0 <= tol)%Z.
Hypothesis Hnf : 0 < nf.
Context (all : list nat).
Hypothesis Hall : forall j, j < nf -> in_dataset samples nf j all.
Hypothesis Hpolicy : forall path range depth bound, range <> [] -> incl range all -> length range <= length all -> length (aabb_segments bound) = nf ->
  exists axis, policy path range depth bound = Ok axis /\ axis < nf.

(** The policy made total. *)
Definition total_policy (path : list bool) (range : list nat) (depth : nat) (bound : aabb) : nat :=
  match policy path range depth bound with Ok axis => if axis <? nf then axis else 0 | _ => 0 end.
Lemma total_policy_ok path range depth bound : total_policy path range depth bound < nf.
Proof using Hnf. unfold total_policy. destruct (policy path range depth bound) as [axis| | |]; auto. destruct (Nat.ltb_spec axis nf); auto. Qed.

Notation build := (build tol samples nf bucket max_depth total_policy).
Notation build_with := (build_with tol samples nf bucket max_depth policy).

Lemma build_with_eq : forall fuel path A M B depth bound,
  length M < fuel -> incl M all -> length M <= length all -> length (aabb_segments bound) = nf ->
  build_with fuel path (A ++ M ++ B) (length A) (length A + length M) depth bound =
  build fuel path (A ++ M ++ B) (length A) (length A + length M) depth bound.
Proof using Htol Hnf Hall Hpolicy.
  induction fuel as [|fuel IH]; intros path A M B depth bound Hf Hincl Hle Hb; [lia|].
  cbn [KDTreeModel.build AxisModel.build_with].
  replace (length A + length M - length A) with (length M) by lia.
  destruct ((depth <? max_depth) && (bucket <? length M)) eqn:Ec; [|reflexivity].
  apply andb_true_iff in Ec as [Ed Ebk]. apply Nat.ltb_lt in Ed, Ebk.
  assert (Hne : M <> []) by (destruct M; simpl in *; [lia|discriminate]).
  rewrite (slice_mid A M B) by lia. cbn [bind].
  destruct (Hpolicy path M depth bound Hne Hincl Hle Hb) as (axis & Ep & Hax).
  assert (Et : total_policy path M depth bound = axis).
  { unfold total_policy. rewrite Ep. destruct (Nat.ltb_spec axis nf); [auto|lia]. }
  rewrite Ep, Et. cbn [bind].
  assert (Hok : ok_indices samples nf M). { intros j Hj i Hi. apply Hall; auto. }
  destruct (quickselect_median_within tol samples nf axis Htol M (Hok axis Hax) Hne) as (L & x & R & Eq & P & _).
  rewrite Eq. cbn [bind fst snd]. rewrite (splice_mid A M (L ++ x :: R) B) by lia.
  assert (LM : length M = length L + S (length R)). { rewrite (Permutation_length P), app_length. simpl. lia. }
  assert (Hin : forall i, In i (L ++ x :: R) -> In i all). { intros i Hi. apply Hincl. eapply Permutation_in; [symmetry; exact P|auto]. }
  destruct (value_at samples nf axis (A ++ (L ++ x :: R) ++ B) (length A + length L)) as [cut| | |]; cbn [bind]; auto.
  destruct (nth_error (aabb_segments bound) axis) as [sg|] eqn:Esg; [|apply nth_error_None in Esg; lia].
  unfold aabb_update_upper at 1 3. rewrite (proj2 (rd_ok _ _ _) Esg). cbn [bind]. rewrite wr_lt by lia. cbn [bind].
  rewrite Nat.add_0_r. replace (A ++ (L ++ x :: R) ++ B) with (A ++ L ++ (x :: R ++ B)) by (rewrite <- app_assoc; reflexivity).
  set (b1 := mk_aabb (aabb_centroid bound) (upd (aabb_segments bound) axis (seg_update_upper sg cut))).
  assert (HincL : incl L all) by (intros i Hi; apply Hin; rewrite in_app_iff; auto).
  assert (HincR : incl R all) by (intros i Hi; apply Hin; rewrite in_app_iff; simpl; auto).
  assert (Hb1 : length (aabb_segments b1) = nf) by (unfold b1; simpl; now rewrite upd_length).
  rewrite (IH (path ++ [false]) A L (x :: R ++ B) (S depth) b1) by (auto; lia).
  destruct (build_ok tol samples nf bucket max_depth total_policy Htol total_policy_ok fuel (path ++ [false]) A L (x :: R ++ B) (S depth) b1)
    as (L' & tl & El & Pl & _).
  { lia. }
  { intros j Hj i Hi. apply Hall; auto. }
  { exact Hb1. }
  rewrite El. cbn [bind]. assert (LL : length L' = length L) by (symmetry; apply Permutation_length; auto).
  unfold aabb_update_upper. rewrite (proj2 (rd_ok (aabb_segments b1) axis (seg_update_upper sg cut))) by (apply nth_error_upd_eq; lia).
  cbn [bind]. rewrite wr_lt by lia. cbn [bind].
  set (b3 := mk_aabb (aabb_centroid b1) (upd (aabb_segments b1) axis (seg_update_upper (seg_update_upper sg cut) (seg_upper sg)))).
  assert (Hb3 : length (aabb_segments b3) = nf) by (unfold b3; simpl; now rewrite !upd_length).
  unfold aabb_update_lower at 1 3. destruct (nth_error (aabb_segments b3) axis) as [sg3|] eqn:Es3; [|apply nth_error_None in Es3; lia].
  rewrite (proj2 (rd_ok _ _ _) Es3). cbn [bind]. rewrite wr_lt by lia. cbn [bind].
  set (b4 := mk_aabb (aabb_centroid b3) (upd (aabb_segments b3) axis (seg_update_lower sg3 cut))).
  replace (A ++ L' ++ x :: R ++ B) with ((A ++ L' ++ [x]) ++ R ++ B) by (rewrite <- !app_assoc; reflexivity).
  assert (LA : length (A ++ L' ++ [x]) = length A + S (length L)) by (rewrite !app_length; simpl; lia).
  replace (length A + S (length L)) with (length (A ++ L' ++ [x])) by lia.
  replace (length A + length M) with (length (A ++ L' ++ [x]) + length R) by lia.
  rewrite (IH (path ++ [true]) (A ++ L' ++ [x]) R B (S depth) b4); auto; [lia|lia|].
  unfold b4. simpl. now rewrite upd_length.
Qed.

Lemma make_kdtree_with_eq initial lowest max center indices :
  incl indices all -> length indices <= length all -> (forall i j, In i indices -> j < nf -> (lowest <= val samples nf j i <= max)%Z) ->
  (forall bound, length (aabb_segments bound) = nf -> exists axis, initial indices 0 bound = Ok axis) ->
  make_kdtree_with tol samples nf bucket max_depth policy initial lowest max center indices =
  make_kdtree tol samples nf bucket max_depth total_policy lowest max center indices.
Proof using Htol Hnf Hall Hpolicy.
  intros Hincl Hle Hlim Hinit. unfold make_kdtree_with, make_kdtree.
  destruct (make_tight_segments_ok lowest max samples nf indices) as (segs & E & L & _); auto.
  { intros j Hj i Hi. apply Hall; auto. }
  rewrite E. cbn [bind]. destruct (Hinit (make_aabb center segs)) as (axis & Ei); [exact L|]. rewrite Ei. cbn [bind].
  pose proof (build_with_eq (S (length indices)) [] [] indices [] 0 (make_aabb center segs)) as Eb.
  cbn [app length Nat.add] in Eb. rewrite app_nil_r in Eb. rewrite Eb; auto.
Qed.
End Build.
