(** Lemmas on k-means++ (KMeansPlusPlus.hpp). *)
From Coq Require Import List Arith ZArith QArith Qround Lia Bool Permutation Lqa.
From Verif Require Import Base SortingModel BufferModel BufferSpec SearchModel MatrixModel MatrixProofs KMeansModel KMeansSpec KMeansProofs
  RandomModel RandomSpec RandomProofs AliasProofs.
Import ListNotations.
Local Open Scope nat_scope.
Set Default Proof Using "Type".

Lemma d_lt_order : order_ok d_lt.
Proof.
  split.
  - intros [a|] [b|]; simpl; auto; try discriminate. intros H. apply Qlt_bool_iff in H. apply Qlt_bool_false. lra.
  - intros [a|] [b|] [c|]; simpl; auto; try discriminate. rewrite !Qlt_bool_false. lra.
Qed.

Section PlusPlus.
Context {F : Type} (dist : list F -> list F -> Q) (Hd0 : forall p q, (0 <= dist p q)%Q).
Context (samples : list F) (nf n : nat) (Hnf : nf <> 0) (Hs : length samples = n * nf) (Hn : 0 < n).
Context (unit : nat -> Q) (Hu : forall c, (0 <= unit c < 1)%Q).
Notation x i := (row samples nf i).

(** [d] is the distance of sample [i] to the nearest of the centroids. *)
Definition nearest_distance (centroids : list F) (k i : nat) (d : Q) : Prop :=
  (exists j, j < k /\ d = dist (x i) (row centroids nf j)) /\ forall j, j < k -> (d <= dist (x i) (row centroids nf j))%Q.

Lemma collect_ok (ds : list (option Q)) (g : nat -> Q) : (forall i, i < length ds -> nth_error ds i = Some (Some (g i))) ->
  for_each ds (fun d ws => match d with Some q => Ok (ws ++ [q]) | None => UB end) [] = Ok (map g (seq 0 (length ds))).
Proof.
  assert (G : forall ds a acc, (forall i, i < length ds -> nth_error ds i = Some (Some (g (a + i)))) ->
    for_each ds (fun d ws => match d with Some q => Ok (ws ++ [q]) | None => UB end) acc = Ok (acc ++ map g (seq a (length ds)))).
  { clear. induction ds as [|d ds IH]; intros a acc H; cbn [for_each length seq map]; [now rewrite app_nil_r|].
    pose proof (H 0 ltac:(simpl; lia)) as E. simpl in E. injection E as ->. cbn [bind]. rewrite (IH (S a)).
    - rewrite <- app_assoc. simpl. now rewrite Nat.add_0_r.
    - intros i Hi. specialize (H (S i) ltac:(simpl; lia)). simpl in H. rewrite H. do 3 f_equal. lia. }
  intros H. rewrite (G ds 0 []); auto.
Qed.

Lemma weights_ok centroids k : length centroids = k * nf -> 0 < k ->
  exists ws, weights_of None dist samples nf centroids = Ok ws /\ length ws = n /\
    forall i, i < n -> nearest_distance centroids k i (nth i ws 0%Q).
Proof using Hnf Hs Hn.
  intros Hc Hk. unfold weights_of.
  destruct (forward_ok d_lt None (d_dist dist) d_lt_order (fun _ _ => eq_refl) samples centroids nf n k Hnf Hs Hc Hk) as (ds & -> & Hl & Hv).
  cbn [bind]. set (g := fun i => match nth i ds None with Some q => q | None => 0%Q end).
  rewrite (collect_ok ds g).
  - eexists; splits; [reflexivity|now rewrite map_length, seq_length|]. intros i Hi.
    rewrite (nth_indep _ 0%Q (g 0)), map_nth, seq_nth by (rewrite ?map_length, ?seq_length; lia). simpl.
    destruct (Hv i Hi) as (d & Ed & j & ((Hj & Hmin) & _) & Ej). unfold g. rewrite (nth_error_nth _ _ _ Ed), Ej. unfold d_dist in *. split; eauto.
    intros j' Hj'. specialize (Hmin j' Hj'). simpl in Hmin. now apply Qlt_bool_false in Hmin.
  - intros i Hi. destruct (Hv i ltac:(lia)) as (d & Ed & j & _ & Ej). unfold g. rewrite Ed, (nth_error_nth _ _ _ Ed), Ej. reflexivity.
Qed.

Lemma next_ok c centroids k : length centroids = k * nf -> 0 < k ->
  exists i, i < n /\ next_sample None dist samples nf unit c centroids = Ok (x i) /\
    ((forall j, j < k -> (0 < dist (x i) (row centroids nf j))%Q) \/
     forall i, i < n -> exists j, j < k /\ (dist (x i) (row centroids nf j) == 0)%Q).
Proof using Hd0 Hnf Hs Hn Hu.
  intros Hc Hk. unfold next_sample. destruct (weights_ok centroids k Hc Hk) as (ws & -> & Hl & Hw). cbn [bind].
  assert (Hne : ws <> []) by (intros ->; simpl in Hl; lia).
  assert (Hpos : forall q, In q ws -> (0 <= q)%Q).
  { intros q Hq. apply In_nth with (d := 0%Q) in Hq. destruct Hq as (i & Hi & <-). destruct (Hw i ltac:(lia)) as ((j & _ & ->) & _). auto. }
  destruct (Qeq_dec (fold_left Qplus ws 0%Q) 0) as [Hz|Hz].
  - destruct (make_table_zero ws Hne Hz) as (t & Et & _). rewrite Et. cbn [bind].
    destruct (unit_part (length ws) (unit (2 * c)) ltac:(lia) (Hu _)) as (i & Hi & Hp).
    rewrite (sample_zero ws t _ _ i Hne Hz Et Hi Hp (Hu _)). cbn [bind]. exists i. splits; [lia|apply (sample_row' samples nf n); auto; lia|].
    right. intros i' Hi'. destruct (Hw i' Hi') as ((j & Hj & Ej) & _). exists j. split; auto. rewrite <- Ej.
    rewrite fold_qsum in Hz.
    assert (Hi'' : In i' (seq 0 (length ws))) by (apply in_seq; lia). apply in_split in Hi''. destruct Hi'' as (a & b & Eab).
    rewrite Eab, qsum_app in Hz. cbn [qsum] in Hz.
    assert (Hin : forall i, In i (a ++ i' :: b) -> (0 <= nth i ws 0)%Q).
    { intros i0 H0. rewrite <- Eab in H0. apply in_seq in H0. apply Hpos, nth_In. lia. }
    assert (Ha : (qsum (fun _ => 0) a <= qsum (fun i => nth i ws 0) a)%Q) by (apply qsum_le; intros; apply Hin; apply in_or_app; auto).
    assert (Hb : (qsum (fun _ => 0) b <= qsum (fun i => nth i ws 0) b)%Q) by (apply qsum_le; intros; apply Hin; apply in_or_app; simpl; auto).
    rewrite qsum_const in Ha, Hb. specialize (Hin i' ltac:(apply in_or_app; simpl; auto)). lra.
  - destruct (make_table_ok ws Hne Hpos Hz) as (t & p & al & Et & _). rewrite Et. cbn [bind].
    destruct (sample_positive ws t (unit (2 * c)) (unit (2 * c + 1)) Hne Hpos Hz Et (Hu _) (Hu _)) as (i & -> & Hi & Hwi).
    cbn [bind]. exists i. splits; [lia|apply (sample_row' samples nf n); auto; lia|]. left. intros j Hj.
    destruct (Hw i ltac:(lia)) as (_ & Hm). specialize (Hm j Hj). lra.
Qed.

(** Which samples may follow [chosen]. *)
Definition may_follow (chosen : list nat) (i : nat) : Prop :=
  (forall j, In j chosen -> (0 < dist (x i) (x j))%Q) \/ forall i, i < n -> exists j, In j chosen /\ (dist (x i) (x j) == 0)%Q.

Lemma first_ok draw : in_range draw -> exists i, i < n /\ select_random_sample draw samples nf = Ok (x i) /\ i = draw 0 0 (n - 1).
Proof using Hnf Hs Hn.
  intros Hd. specialize (Hd 0 0 (n - 1) ltac:(lia)). unfold select_random_sample, get_n_samples.
  destruct (Nat.eqb_spec nf 0); [contradiction|]. rewrite Hs, Nat.div_mul by auto. cbn [bind].
  exists (draw 0 0 (n - 1)). splits; [lia| |auto]. apply (sample_row' samples nf n); auto. lia.
Qed.

Lemma flat_row idx j i : (forall i, In i idx -> i < n) -> nth_error idx j = Some i -> row (flat_map (row samples nf) idx) nf j = x i.
Proof using Hs. intros H E. apply (row_flat samples nf n); auto. Qed.

Lemma next_index c idx : (forall i, In i idx -> i < n) -> idx <> [] ->
  exists i, i < n /\ next_sample None dist samples nf unit c (flat_map (row samples nf) idx) = Ok (x i) /\ may_follow idx i.
Proof using Hd0 Hnf Hs Hn Hu.
  intros Hi Hne. destruct (next_ok c (flat_map (row samples nf) idx) (length idx)) as (i & H1 & H2 & H3).
  - apply (flat_rows_length samples nf n); auto.
  - destruct idx; [congruence|simpl; lia].
  - exists i. splits; auto. destruct H3 as [H3|H3]; [left|right].
    + intros j Hj. apply In_nth_error in Hj. destruct Hj as (a & Ea). rewrite <- (flat_row idx a j Hi Ea). apply H3. now apply nth_error_lt in Ea.
    + intros i' Hi'. destruct (H3 i' Hi') as (a & Ha & E). destruct (nth_error idx a) as [j|] eqn:Ej; [|apply nth_error_None in Ej; lia].
      exists j. split; [now apply nth_error_In in Ej|]. now rewrite <- (flat_row idx a j Hi Ej).
Qed.

Definition chain (follow : list nat -> nat -> Prop) (idx : list nat) : Prop :=
  forall c i, 0 < c -> nth_error idx c = Some i -> follow (firstn c idx) i.

Lemma chain_snoc follow idx i : idx <> [] -> chain follow idx -> follow idx i -> chain follow (idx ++ [i]).
Proof using Hs Hnf Hn.
  intros Hne Hc Hi c j H0 E. destruct (Nat.lt_ge_cases c (length idx)) as [Hl|Hl].
  - rewrite nth_error_app1 in E by auto. rewrite firstn_app. replace (c - length idx) with 0 by lia. simpl. rewrite app_nil_r. auto.
  - pose proof (nth_error_lt _ _ _ E) as Hlt. rewrite app_length in Hlt. simpl in Hlt. assert (c = length idx) as -> by lia.
    rewrite nth_error_app2, Nat.sub_diag in E by lia. simpl in E. injection E as <-. now rewrite firstn_app_exact.
Qed.

Lemma make_ok draw k : in_range draw -> exists idx, make_centroids None dist draw unit samples nf k = Ok (flat_map (row samples nf) idx) /\
  length idx = 1 + (k - 1) /\ (forall i, In i idx -> i < n) /\ chain may_follow idx.
Proof using Hd0 Hnf Hs Hn Hu.
  intros Hd. unfold make_centroids. destruct (first_ok draw Hd) as (i0 & Hi0 & -> & _). cbn [bind].
  destruct (for_loop_inv (fun done v => exists idx, v = flat_map (row samples nf) idx /\ length idx = done /\
      (forall i, In i idx -> i < n) /\ chain may_follow idx)
    (fun c v => s <- next_sample None dist samples nf unit c v ;; Ok (v ++ s)) (k - 1) 1 (x i0)) as (v & -> & idx & -> & H).
  - exists [i0]. splits; auto.
    + simpl. now rewrite app_nil_r.
    + intros i [<-|[]]; auto.
    + intros c i Hc E. destruct c as [|[|c]]; [lia|discriminate|discriminate].
  - intros c v Hc (idx & -> & H1 & H2 & H3).
    assert (Hne : idx <> []) by (intros ->; simpl in H1; lia).
    destruct (next_index c idx H2 Hne) as (i & Hi & -> & Hf). cbn [bind]. eexists; split; [reflexivity|]. exists (idx ++ [i]). splits.
    + rewrite flat_map_app. simpl. now rewrite app_nil_r.
    + rewrite app_length. simpl. lia.
    + intros j Hj. apply in_app_or in Hj. destruct Hj as [Hj|[<-|[]]]; auto.
    + apply chain_snoc; auto.
  - exists idx. splits; try apply H. auto.
Qed.

Definition may_follow_last (chosen : list nat) (i : nat) : Prop := may_follow [last chosen 0] i.

Lemma previous_ok draw k : in_range draw ->
  exists idx, make_centroids_from_previous_centroid None dist draw unit samples nf k = Ok (flat_map (row samples nf) idx) /\
  length idx = 1 + (k - 1) /\ (forall i, In i idx -> i < n) /\ chain may_follow_last idx.
Proof using Hd0 Hnf Hs Hn Hu.
  intros Hd. unfold make_centroids_from_previous_centroid. destruct (first_ok draw Hd) as (i0 & Hi0 & -> & _). cbn [bind].
  destruct (for_loop_inv (fun done st => exists idx, st = (x (last idx 0), flat_map (row samples nf) idx) /\ length idx = done /\
      (forall i, In i idx -> i < n) /\ chain may_follow_last idx)
    (fun c '(previous, v) => s <- next_sample None dist samples nf unit c previous ;; Ok (s, v ++ s)) (k - 1) 1 (x i0, x i0))
    as (v & -> & idx & -> & H).
  - exists [i0]. splits; auto.
    + simpl. now rewrite app_nil_r.
    + intros i [<-|[]]; auto.
    + intros c i Hc E. destruct c as [|[|c]]; [lia|discriminate|discriminate].
  - intros c v Hc (idx & -> & H1 & H2 & H3).
    assert (Hne : idx <> []) by (intros ->; simpl in H1; lia).
    assert (Hlast : last idx 0 < n).
    { apply H2. rewrite (app_removelast_last 0 Hne) at 2. apply in_or_app. simpl. auto. }
    destruct (next_index c [last idx 0]) as (i & Hi & E & Hf); [intros i [<-|[]]; auto|congruence|].
    simpl in E. rewrite app_nil_r in E. rewrite E. cbn [bind]. eexists; split; [reflexivity|]. exists (idx ++ [i]). splits.
    + rewrite flat_map_app, last_last. simpl. now rewrite app_nil_r.
    + rewrite app_length. simpl. lia.
    + intros j Hj. apply in_app_or in Hj. destruct Hj as [Hj|[<-|[]]]; auto.
    + apply chain_snoc; auto.
  - cbn [bind]. exists idx. splits; try apply H. auto.
Qed.

(** With enough distinct samples the centroids are distinct. *)
Lemma distinct_ok idx k : (forall i j, i < n -> j < n -> (dist (x i) (x j) == 0)%Q <-> x i = x j) ->
  (exists l, NoDup (map (row samples nf) l) /\ (forall i, In i l -> i < n) /\ length l = k) ->
  (forall i, In i idx -> i < n) -> length idx <= k -> chain may_follow idx ->
  NoDup (map (row samples nf) idx).
Proof using Hd0 Hs Hnf Hn.
  intros Hsep (l & Hl1 & Hl2 & Hl3) Hin Hk Hc.
  assert (G : forall c, c <= length idx -> NoDup (map (row samples nf) (firstn c idx))).
  { induction c as [|c IH]; intros Hle; [constructor|].
    destruct (nth_error idx c) as [i|] eqn:E; [|apply nth_error_None in E; lia].
    assert (Ef : firstn (S c) idx = firstn c idx ++ [i]).
    { clear - E. revert c E. induction idx as [|a idx IH]; intros [|c] E; cbn [nth_error] in E; try discriminate; [injection E as ->; auto|].
      change (a :: firstn (S c) idx = a :: firstn c idx ++ [i]). f_equal. auto. }
    rewrite Ef, map_app. simpl. apply (Permutation_NoDup (Permutation_cons_append _ _)). constructor; [|apply IH; lia].
    assert (Hpre : forall j, In j (firstn c idx) -> j < n).
    { intros j Hj. apply Hin. rewrite <- (firstn_skipn c idx). apply in_or_app. auto. }
    intros Hi. apply in_map_iff in Hi. destruct Hi as (j & Ej & Hj).
    destruct (Nat.eq_dec c 0) as [->|H0]; [destruct Hj|].
    destruct (Hc c i ltac:(lia) E) as [H|H].
    - specialize (H j Hj). assert (Hz : (dist (x i) (x j) == 0)%Q) by (apply Hsep; auto; apply Hin; eapply nth_error_In; eauto). lra.
    - assert (Hincl : incl (map (row samples nf) l) (map (row samples nf) (firstn c idx))).
      { intros y Hy. apply in_map_iff in Hy. destruct Hy as (a & <- & Ha). destruct (H a (Hl2 a Ha)) as (b & Hb & Ez).
        apply Hsep in Ez; auto. rewrite Ez. now apply in_map. }
      pose proof (NoDup_incl_length Hl1 Hincl) as HL. rewrite !map_length, firstn_length in HL. lia. }
  rewrite <- (firstn_all idx). apply G. lia.
Qed.
End PlusPlus.

(** On integer data the weights are all zero: [infinity] is 0. *)
Lemma next_integer {F : Type} (dist : list F -> list F -> Q) (Hd0 : forall p q, (0 <= dist p q)%Q) samples nf n unit c centroids k i :
  nf <> 0 -> length samples = n * nf -> length centroids = k * nf -> 0 < k -> i < n -> in_part n i (unit (2 * c)) ->
  (0 <= unit (2 * c + 1)%nat < 1)%Q ->
  next_sample (Some 0%Q) dist samples nf unit c centroids = Ok (row samples nf i).
Proof.
  intros Hnf Hs Hc Hk Hi Hu Hv. unfold next_sample, weights_of, samples_to_nearest_centroid_distances.
  destruct (n_rows samples centroids nf n k Hnf Hs Hc) as (-> & ->). cbn [bind].
  assert (G : forall i first count, i < n -> first + count <= k -> for_loop count first (fun centroid_index min_distance =>
      nearest_candidate <- sample_to_centroid (d_dist dist) samples nf centroids i centroid_index ;;
      Ok (if d_lt nearest_candidate min_distance then nearest_candidate else min_distance)) (Some 0%Q) = Ok (Some 0%Q)).
  { intros i' first count Hi'. revert first. induction count; intros first Hr; cbn [for_loop]; auto.
    rewrite (one_distance (d_dist dist) samples centroids nf n k) by (auto; lia). cbn [bind]. unfold d_dist at 1 2. cbn [d_lt].
    rewrite (proj2 (Qlt_bool_false _ _) (Hd0 _ _)). apply IHcount. lia. }
  match goal with |- bind (bind ?e _) _ = _ => assert (E : exists v, e = Ok v /\ length v = n /\ forall i, i < n -> nth_error v i = Some (Some 0%Q)) end.
  { match goal with |- exists v, fill ?blank ?cnt ?f = _ /\ _ => destruct (fill_inv blank cnt f (fun _ y => y = Some 0%Q)) as (v & E & Hl & H) end.
    - intros i' Hi'. exists (Some 0%Q). split; [apply G; auto; lia|auto].
    - exists v. splits; auto. intros i' Hi'. destruct (H i' Hi') as (y & -> & ->). reflexivity. }
  destruct E as (v & -> & Hl & Hv0). cbn [bind]. rewrite (collect_ok v (fun _ => 0%Q)) by (intros; apply Hv0; lia). cbn [bind]. rewrite Hl.
  set (ws := map (fun _ : nat => 0%Q) (seq 0 n)).
  assert (Hlw : length ws = n) by (unfold ws; now rewrite map_length, seq_length).
  assert (Hne : ws <> []) by (intros E; rewrite E in Hlw; simpl in Hlw; lia).
  assert (Hz : (fold_left Qplus ws 0 == 0)%Q).
  { unfold ws. clear. assert (G : forall l (a : Q), (a == 0)%Q -> (fold_left Qplus (map (fun _ : nat => 0%Q) l) a == 0)%Q).
    { induction l; simpl; intros; auto. apply IHl. lra. }
    apply G. reflexivity. }
  destruct (make_table_zero ws Hne Hz) as (t & Et & _). rewrite Et. cbn [bind].
  rewrite (sample_zero ws t _ _ i Hne Hz Et) by (rewrite ?Hlw; auto). cbn [bind]. apply (sample_row' samples nf n); auto.
Qed.
