(** The single tree search: the pointer walk equals a recursion over the tree, and the recursion finds the nearest. *)
From Coq Require Import List Arith ZArith Lia Bool Permutation.
From Verif Require Import Base SortingModel SortingSpec SortingProofs BoundsModel BoundsSpec BoundsProofs
  BufferModel BufferSpec BufferProofs KDTreeModel KDTreeSpec KDTreeProofs SearchModel SearchSpec.
Import ListNotations.

Section Walk.
Context (m : metric) (samples : list Z) (nf : nat) (arr : list nat) (root : kd).
Context (bound : search_bound (m_dist m)) (query : list Z).
Context {S : Type} (accept : nat -> S -> res (bool * S)).

Notation state := (buffer (m_dist m) * S)%type.
Notation psearch := (partial_search m samples nf arr bound query accept).
Notation descend := (recursive_search_to_leaf_node m samples nf arr bound query accept).
Notation traverse := (single_tree_traversal m samples nf arr root bound query accept).
Notation climb := (climb m samples nf arr root bound query accept).

(** The recursion. *)
Fixpoint visit (t : kd) (st : state) : res state :=
  match t with
  | KLeaf first last _ => psearch first last st
  | KNode first last axis _ l r =>
      st1 <- psearch first last st ;;
      right_child <- select_closest_child samples nf arr query first axis ;;
      if right_child : bool then
        st2 <- visit r st1 ;;
        v <- visit_sibling m samples nf arr query first axis true (fst st2) ;;
        if v : bool then visit l st2 else Ok st2
      else
        st2 <- visit l st1 ;;
        v <- visit_sibling m samples nf arr query first axis false (fst st2) ;;
        if v : bool then visit r st2 else Ok st2
  end.

Fixpoint height (t : kd) : nat :=
  match t with KLeaf _ _ _ => 0 | KNode _ _ _ _ l r => Datatypes.S (max (height l) (height r)) end.

Lemma height_nodes t : height t < kd_nodes t.
Proof. induction t; simpl; lia. Qed.

Definition budget (t : kd) : nat := kd_nodes t * kd_nodes t.

Lemma climb_done f p st : climb (Datatypes.S f) p p st = Ok st.
Proof. cbn [SearchModel.climb]. destruct (list_eq_dec bool_dec p p); congruence. Qed.

Lemma node_at_child p f l ax b tl tr side :
  node_at root p = Ok (KNode f l ax b tl tr) -> node_at root (side :: p) = Ok (if side then tr else tl).
Proof. intros H. simpl. rewrite H. reflexivity. Qed.

Lemma climb_step f start side p first last ax b tl tr st :
  (exists q, p = q ++ start) ->
  node_at root p = Ok (KNode first last ax b tl tr) ->
  climb (Datatypes.S f) start (side :: p) st =
  (v <- visit_sibling m samples nf arr query first ax side (fst st) ;;
   st' <- (if v : bool then traverse f (negb side :: p) st else Ok st) ;;
   climb f start p st').
Proof.
  intros (q & ->) H. cbn [SearchModel.climb].
  destruct (list_eq_dec bool_dec (side :: q ++ start) start) as [E|_].
  - exfalso. apply (f_equal (@length bool)) in E. simpl in E. rewrite app_length in E. lia.
  - rewrite H. reflexivity.
Qed.

Lemma walk_is_visit : forall t p st st',
  node_at root p = Ok t -> visit t st = Ok st' ->
  (exists lp st1 n, descend t p st = Ok (lp, st1) /\ n <= height t /\
     forall start fuel, (exists q, p = q ++ start) -> budget t <= fuel ->
       climb (n + fuel) start lp st1 = climb fuel start p st') /\
  (forall fuel, budget t + height t + 2 <= fuel -> traverse fuel p st = Ok st').
Proof.
  assert (Fin : forall t p st st',
    node_at root p = Ok t ->
    (exists lp st1 n, descend t p st = Ok (lp, st1) /\ n <= height t /\
       forall start fuel, (exists q, p = q ++ start) -> budget t <= fuel ->
         climb (n + fuel) start lp st1 = climb fuel start p st') ->
    (forall fuel, budget t + height t + 2 <= fuel -> traverse fuel p st = Ok st')).
  { intros t p st st' Hn (lp & st1 & n & E & Hh & Hc) fuel Hf.
    destruct fuel as [|fuel]; [lia|]. cbn [single_tree_traversal]. rewrite Hn. cbn [bind].
    rewrite E. cbn [bind]. replace fuel with (n + Datatypes.S (fuel - n - 1)) by lia.
    rewrite Hc; [apply climb_done| |lia]. exists []. reflexivity. }
  induction t as [first last b|first last ax b tl IHl tr IHr]; intros p st st' Hn Hv.
  - assert (H : exists lp st1 n, descend (KLeaf first last b) p st = Ok (lp, st1) /\ n <= height (KLeaf first last b) /\
       forall start fuel, (exists q, p = q ++ start) -> budget (KLeaf first last b) <= fuel ->
         climb (n + fuel) start lp st1 = climb fuel start p st').
    { exists p, st', 0. simpl in Hv |- *. rewrite Hv. splits; auto. }
    split; auto. eapply Fin; eauto.
  - assert (H : exists lp st1 n, descend (KNode first last ax b tl tr) p st = Ok (lp, st1) /\
       n <= height (KNode first last ax b tl tr) /\
       forall start fuel, (exists q, p = q ++ start) -> budget (KNode first last ax b tl tr) <= fuel ->
         climb (n + fuel) start lp st1 = climb fuel start p st'); [|split; auto; eapply Fin; eauto].
    cbn [visit] in Hv.
    apply bind_ok in Hv as (st0 & E0 & Hv). apply bind_ok in Hv as (rc & E1 & Hv).
    cbn [recursive_search_to_leaf_node]. rewrite E0. cbn [bind]. rewrite E1. cbn [bind].
    assert (B : budget (KNode first last ax b tl tr) >= budget tl + height tl + 2 /\
                budget (KNode first last ax b tl tr) >= budget tr + height tr + 2).
    { unfold budget. cbn [kd_nodes]. pose proof (height_nodes tl). pose proof (height_nodes tr). nia. }
    destruct rc.
    + apply bind_ok in Hv as (st2 & E2 & Hv). apply bind_ok in Hv as (v & E3 & Hv).
      destruct (IHr (true :: p) st0 st2) as ((lp & st1 & n & Ed & Hh & Hc) & _); auto.
      { rewrite (node_at_child _ _ _ _ _ _ _ _ Hn). reflexivity. }
      exists lp, st1, (Datatypes.S n). splits; auto.
      * simpl. lia.
      * intros start fuel Hs Hf. replace (Datatypes.S n + fuel) with (n + Datatypes.S fuel) by lia.
        rewrite Hc; [| |lia].
        -- rewrite (climb_step _ _ _ _ _ _ _ _ _ _ _ Hs Hn), E3. cbn [bind].
           destruct v.
           ++ destruct (IHl (negb true :: p) st2 st') as (_ & Ht); auto.
              { rewrite (node_at_child _ _ _ _ _ _ _ _ Hn). reflexivity. }
              rewrite Ht by lia. reflexivity.
           ++ inversion Hv; subst. reflexivity.
        -- destruct Hs as (q & ->). exists (true :: q). reflexivity.
    + apply bind_ok in Hv as (st2 & E2 & Hv). apply bind_ok in Hv as (v & E3 & Hv).
      destruct (IHl (false :: p) st0 st2) as ((lp & st1 & n & Ed & Hh & Hc) & _); auto.
      { rewrite (node_at_child _ _ _ _ _ _ _ _ Hn). reflexivity. }
      exists lp, st1, (Datatypes.S n). splits; auto.
      * simpl. lia.
      * intros start fuel Hs Hf. replace (Datatypes.S n + fuel) with (n + Datatypes.S fuel) by lia.
        rewrite Hc; [| |lia].
        -- rewrite (climb_step _ _ _ _ _ _ _ _ _ _ _ Hs Hn), E3. cbn [bind].
           destruct v.
           ++ destruct (IHr (negb false :: p) st2 st') as (_ & Ht); auto.
              { rewrite (node_at_child _ _ _ _ _ _ _ _ Hn). reflexivity. }
              rewrite Ht by lia. reflexivity.
           ++ inversion Hv; subst. reflexivity.
        -- destruct Hs as (q & ->). exists (false :: q). reflexivity.
Qed.

Lemma search_is_visit st st' : visit root st = Ok st' ->
  traverse (kd_nodes root * kd_nodes root + kd_nodes root + 2) [] st = Ok st'.
Proof.
  intros H. destruct (walk_is_visit root [] st st' eq_refl H) as (_ & Ht).
  apply Ht. unfold budget. pose proof (height_nodes root). lia.
Qed.
End Walk.

(** A box has a segment for every feature. *)
Definition covers {D} (nf : nat) (bound : search_bound D) : Prop :=
  match bound with Box segs => nf <= length segs | _ => True end.

Lemma covers_unbounded {D} nf : covers nf (@Unbounded D).
Proof. exact I. Qed.
Lemma covers_radius {D} nf (r : D) : covers nf (Radius r).
Proof. exact I. Qed.
Global Hint Resolve covers_unbounded covers_radius : core.

(** Every feature lies in its segment. *)
Fixpoint in_segments (segs : list segment) (p : list Z) : bool :=
  match segs, p with
  | s :: segs', v :: p' => ((seg_lower s <=? v) && (v <=? seg_upper s))%Z && in_segments segs' p'
  | _, _ => true
  end.

Lemma is_in_bounds_segments segs p : length p <= length segs -> is_in_bounds segs p = Ok (in_segments segs p).
Proof.
  unfold is_in_bounds. intros H.
  assert (G : forall p pre segs, length p <= length segs ->
            is_in_bounds_from (pre ++ segs) (length pre) p = Ok (in_segments segs p)).
  { clear. induction p as [|v p IH]; intros pre segs H; [destruct segs; reflexivity|].
    destruct segs as [|s segs]; [simpl in H; lia|]. cbn [is_in_bounds_from in_segments].
    rewrite (proj2 (rd_ok (pre ++ s :: segs) (length pre) s)) by (rewrite nth_error_app2, Nat.sub_diag by lia; reflexivity).
    cbn [bind]. specialize (IH (pre ++ [s]) segs). rewrite <- app_assoc, app_length in IH. simpl in IH.
    rewrite Nat.add_1_r in IH. rewrite IH by (simpl in H; lia).
    unfold seg_contains.
    destruct (Z.ltb_spec v (seg_lower s)), (Z.ltb_spec (seg_upper s) v),
      (Z.leb_spec (seg_lower s) v), (Z.leb_spec v (seg_upper s)); try lia; reflexivity. }
  exact (G p [] segs H).
Qed.

Section Answer.
Context (m : metric) (dist : list Z -> list Z -> m_dist m) (Hm : metric_ok m dist).
Context (samples : list Z) (nf : nat) (arr : list nat).
Context (bound : search_bound (m_dist m)) (query : list Z).
Context {S : Type} (accept : nat -> S -> res (bool * S)).
(** What the accept test computes and the invariant of its state. *)
Context (P : nat -> bool) (Q : S -> Prop).
Hypothesis Hdata : forall i, In i arr -> i * nf + nf <= length samples.
Hypothesis Hquery : length query = nf.
Hypothesis Hacc : forall i s, In i arr -> Q s -> exists s', accept i s = Ok (P i, s') /\ Q s'.
Hypothesis Hbox : covers nf bound.

Notation lt := (m_lt m).
Notation inf := (m_inf m).
Notation offer := (offer m samples nf bound query accept).
Notation psearch := (partial_search m samples nf arr bound query accept).
Notation visit := (visit m samples nf arr bound query accept).
Notation inv := (buf_inv lt inf).

Let Hord : order_ok lt := mo_order m dist Hm.

Definition within (p : list Z) : bool :=
  match bound with Unbounded => true | Radius r => lt (dist p query) r | Box segs => in_segments segs p end.
Definition elig (i : nat) : bool := within (row samples nf i) && P i.
Definition cands (ys : list nat) : list (nat * m_dist m) :=
  with_distances dist samples nf query (filter elig ys).

Lemma cands_app a b : cands (a ++ b) = cands a ++ cands b.
Proof. unfold cands, with_distances. rewrite filter_app, map_app. reflexivity. Qed.

Lemma cands_length ys : length (cands ys) <= length ys.
Proof. unfold cands, with_distances. rewrite map_length. induction ys as [|y ys IH]; simpl; auto. destruct (elig y); simpl; lia. Qed.

Lemma row_length i : i * nf + nf <= length samples -> length (row samples nf i) = nf.
Proof. intros H. unfold row. rewrite firstn_length, skipn_length. lia. Qed.

Lemma row_nth i a : a < nf -> nth a (row samples nf i) 0%Z = val samples nf a i.
Proof.
  intros H. unfold row, val.
  assert (G : forall (l : list Z) n k, k < n -> nth k (firstn n l) 0%Z = nth k l 0%Z).
  { induction l as [|x l IH]; intros n k Hk; destruct n; simpl; try lia; destruct k; auto. apply IH. lia. }
  rewrite G by auto.
  assert (G2 : forall n (l : list Z) k, nth k (skipn n l) 0%Z = nth (n + k) l 0%Z).
  { induction n; intros l k; simpl; auto. destruct l; simpl; auto. now destruct k. }
  apply G2.
Qed.

Lemma sample_at_row i : In i arr -> sample_at samples nf i = Ok (row samples nf i).
Proof.
  intros Hi. unfold sample_at, slice. specialize (Hdata i Hi).
  assert ((i * nf <=? i * nf + nf) = true) as -> by (apply Nat.leb_le; lia).
  assert ((i * nf + nf <=? length samples) = true) as -> by (apply Nat.leb_le; lia).
  simpl. unfold row. repeat f_equal. lia.
Qed.

Lemma offer_ok i b s : In i arr -> Q s ->
  exists s', Q s' /\
    offer i (b, s) = if elig i then b' <- update_static_buffers lt b i (dist (row samples nf i) query) ;; Ok (b', s')
                     else Ok (b, s').
Proof.
  intros Hi Hs. unfold SearchModel.offer. rewrite sample_at_row by auto. cbn [bind].
  unfold distance_if_within_bounds.
  unfold elig, within.
  destruct (Hacc i s Hi Hs) as (s' & Ea & Hs').
  pose proof (row_length i (Hdata i Hi)) as Lr.
  destruct bound as [|r|segs]; cbn [bind].
  - exists s'. split; auto. rewrite (mo_auto m dist Hm) by congruence. cbn [bind].
    rewrite Ea. cbn [bind andb]. reflexivity.
  - rewrite (mo_auto m dist Hm) by congruence. cbn [bind].
    destruct (lt (dist (row samples nf i) query) r); cbn [bind andb].
    + exists s'. split; auto. rewrite Ea. cbn [bind]. reflexivity.
    + exists s. auto.
  - simpl in Hbox. rewrite is_in_bounds_segments by lia. cbn [bind].
    destruct (in_segments segs (row samples nf i)); cbn [bind andb].
    + exists s'. split; auto. rewrite (mo_auto m dist Hm) by congruence. cbn [bind].
      rewrite Ea. cbn [bind]. reflexivity.
    + exists s. auto.
Qed.

(** The furthest distance of a full buffer only shrinks. *)
Definition mono (b b' : buffer (m_dist m)) : Prop :=
  buf_max_capacity b' = buf_max_capacity b /\ buf_size b <= buf_size b' /\
  (1 <= buf_max_capacity b -> buf_size b = buf_max_capacity b ->
   buf_size b' = buf_max_capacity b /\ lt (buf_furthest_distance b) (buf_furthest_distance b') = false).

Lemma mono_refl b : mono b b.
Proof. unfold mono. splits; auto. intros. split; auto. now apply lt_irrefl. Qed.

Lemma mono_trans a b c : mono a b -> mono b c -> mono a c.
Proof.
  intros (A1 & A2 & A3) (B1 & B2 & B3). unfold mono. splits; [congruence|lia|].
  intros H1 H2. destruct (A3 H1 H2) as (H3 & H4). rewrite A1 in B3. destruct (B3 H1 H3) as (H5 & H6).
  split; auto. eapply le_trans; eauto.
Qed.

Lemma offers_ok : forall ys b s pre rest,
  (forall y, In y ys -> In y arr) -> Q s -> inv b pre rest ->
  fits (buf_max_capacity b) -> (buf_max_capacity b = 0 -> fits (length pre + length ys)) ->
  exists b' s' rest', for_each ys offer (b, s) = Ok (b', s') /\ Q s' /\ inv b' (pre ++ cands ys) rest' /\ mono b b' /\
    (buf_max_capacity b = 0 -> rest = [] -> rest' = []).
Proof.
  induction ys as [|y ys IH]; intros b s pre rest Hin Hs I F1 F2.
  - exists b, s, rest. simpl. rewrite app_nil_r. splits; auto using mono_refl.
  - cbn [for_each]. destruct (offer_ok y b s) as (s1 & Hs1 & E); [apply Hin; simpl; auto|auto|].
    rewrite E. unfold cands. cbn [filter].
    assert (Hsz : buf_size b <= length pre).
    { rewrite <- entries_length by apply I. rewrite <- (Permutation_length (bi_perm _ _ _ _ _ I)), app_length. lia. }
    destruct (elig y) eqn:Ey.
    + destruct (update_inv lt inf Hord b pre rest y (dist (row samples nf y) query)) as (b1 & rest1 & Eu & I1 & C1 & H1); auto.
      { split; auto. intros Hc. specialize (F2 Hc). unfold fits in *. simpl in F2. lia. }
      rewrite Eu. cbn [bind].
      destruct (IH b1 s1 (pre ++ [(y, dist (row samples nf y) query)]) rest1) as (b2 & s2 & rest2 & E2 & Hs2 & I2 & M2 & Z2); auto.
      { intros z Hz. apply Hin. simpl; auto. }
      { now rewrite C1. }
      { rewrite C1. intros Hc. specialize (F2 Hc). rewrite app_length. simpl in *. unfold fits in *. lia. }
      exists b2, s2, rest2. splits; auto.
      * cbn [with_distances map]. rewrite <- app_assoc in I2. exact I2.
      * apply mono_trans with b1; auto. split; auto.
        destruct ((buf_max_capacity b =? 0) || (buf_size b <? buf_max_capacity b)) eqn:Er.
        -- destruct H1 as (_ & H1 & _). split; [lia|]. intros H2 H3. exfalso.
           destruct (Nat.eqb_spec (buf_max_capacity b) 0); [lia|]. simpl in Er. apply Nat.ltb_lt in Er. lia.
        -- destruct H1 as (H1 & H2). split; [lia|]. intros H3 H4. split; auto. lia.
      * intros Hc Hr. apply Z2; [congruence|]. rewrite Hc in H1. simpl in H1. destruct H1 as (-> & _). auto.
    + cbn [bind]. apply IH; auto.
      { intros z Hz. apply Hin. simpl; auto. }
      { intros Hc. specialize (F2 Hc). simpl in F2. unfold fits in *. lia. }
Qed.

Lemma psearch_ok first last b s pre rest :
  first <= last <= length arr -> Q s -> inv b pre rest ->
  fits (buf_max_capacity b) -> (buf_max_capacity b = 0 -> fits (length pre + (last - first))) ->
  exists b' s' rest', psearch first last (b, s) = Ok (b', s') /\ Q s' /\ inv b' (pre ++ cands (sub arr first last)) rest' /\
    mono b b' /\ (buf_max_capacity b = 0 -> rest = [] -> rest' = []).
Proof.
  intros Hr Hs I F1 F2. unfold partial_search, slice.
  assert ((first <=? last) = true) as -> by (apply Nat.leb_le; lia).
  assert ((last <=? length arr) = true) as -> by (apply Nat.leb_le; lia).
  cbn [andb bind]. fold (sub arr first last). apply offers_ok; auto.
  - intros y Hy. unfold sub in Hy.
    assert (H : In y (skipn first arr)).
    { rewrite <- (firstn_skipn (last - first) (skipn first arr)). apply in_or_app; auto. }
    rewrite <- (firstn_skipn first arr). apply in_or_app; auto.
  - intros Hc. specialize (F2 Hc). unfold sub. rewrite firstn_length, skipn_length. unfold fits in *. lia.
Qed.

Lemma kd_samples_in : forall t y, In y (kd_samples arr t) -> In y arr.
Proof.
  assert (G : forall f l y, In y (sub arr f l) -> In y arr).
  { intros f l y Hy. unfold sub in Hy.
    assert (H : In y (skipn f arr)).
    { rewrite <- (firstn_skipn (l - f) (skipn f arr)). apply in_or_app; auto. }
    rewrite <- (firstn_skipn f arr). apply in_or_app; auto. }
  induction t; simpl; intros y Hy; eauto.
  apply in_app_or in Hy as [Hy|Hy]; auto. apply in_app_or in Hy as [Hy|Hy]; eauto.
Qed.

Lemma nth_sub_one f : f < length arr -> sub arr f (Datatypes.S f) = [nth f arr 0].
Proof.
  intros H. unfold sub. replace (Datatypes.S f - f) with 1 by lia.
  destruct (skipn f arr) as [|x l] eqn:E.
  - apply (f_equal (@length nat)) in E. rewrite skipn_length in E. simpl in E. lia.
  - simpl. f_equal. rewrite <- (firstn_skipn f arr) at 1. rewrite E.
    rewrite app_nth2; rewrite firstn_length; [|lia]. replace (f - min f (length arr)) with 0 by lia. reflexivity.
Qed.

(** Value of the pivot and of the query at an inner node. *)
Lemma split_value_ok f ax : f < length arr -> ax < nf ->
  split_value samples nf arr f ax = Ok (val samples nf ax (nth f arr 0)) /\ In (nth f arr 0) arr.
Proof.
  intros Hf Ha. assert (Hi : In (nth f arr 0) arr) by (apply nth_In; auto). split; auto.
  unfold split_value. assert (rd arr f = Ok (nth f arr 0)) as ->.
  { apply rd_ok. now apply nth_error_nth'. }
  cbn [bind]. apply feature_val. specialize (Hdata _ Hi). lia.
Qed.

Lemma query_value_ok ax : ax < nf -> rd query ax = Ok (nth ax query 0%Z).
Proof. intros H. apply rd_ok. apply nth_error_nth'. lia. Qed.

(** The distances of a list come from points. *)
Definition measured (es : list (nat * m_dist m)) : Prop :=
  Forall (fun e => exists p, length p = nf /\ snd e = dist p query) es.

(** A sample beyond the split value is not closer than a stored one that the split value is beyond. *)
Lemma gap_ok y ax v f : In y arr -> ax < nf ->
  (nth ax query 0 <= v <= val samples nf ax y \/ val samples nf ax y <= v <= nth ax query 0)%Z ->
  (exists p, length p = nf /\ f = dist p query) ->
  lt (m_gap m v (nth ax query 0%Z)) f = false ->
  lt (dist (row samples nf y) query) f = false.
Proof.
  intros Hy Ha H (p & Hp & ->) Hg. specialize (Hdata _ Hy). apply (mo_gap m dist Hm) with (a := ax) (v := v); auto.
  - rewrite row_length; auto.
  - rewrite row_length; auto.
  - congruence.
  - rewrite row_nth; auto.
Qed.

(** Bounded buffers: what is skipped is not closer than the furthest stored candidate. *)
Definition skipped_ok (b : buffer (m_dist m)) (skip : list (nat * m_dist m)) : Prop :=
  skip <> [] ->
  buf_size b = buf_max_capacity b /\ forall e, In e skip -> lt (snd e) (buf_furthest_distance b) = false.

Lemma skipped_mono b b' skip : 1 <= buf_max_capacity b -> mono b b' -> skipped_ok b skip -> skipped_ok b' skip.
Proof.
  intros H1 (A1 & A2 & A3) Hs Hne. destruct (Hs Hne) as (B1 & B2). destruct (A3 H1 B1) as (C1 & C2).
  split; [congruence|]. intros e He. eapply le_trans; eauto.
Qed.

Lemma skipped_app b s1 s2 : skipped_ok b s1 -> skipped_ok b s2 -> skipped_ok b (s1 ++ s2).
Proof.
  intros H1 H2 Hne. destruct s1 as [|x s1].
  - apply H2. exact Hne.
  - destruct (H1 ltac:(discriminate)) as (A & B). split; auto.
    intros e He. apply in_app_or in He as [He|He]; auto.
    destruct s2 as [|z s2]; [destruct He|]. apply H2; auto. discriminate.
Qed.

Lemma in_cands e ys : In e (cands ys) -> In (fst e) ys /\ snd e = dist (row samples nf (fst e)) query.
Proof.
  unfold cands, with_distances. rewrite in_map_iff. intros (i & <- & Hi). apply filter_In in Hi as [Hi _]. auto.
Qed.

Lemma cands_measured ys : (forall y, In y ys -> In y arr) -> measured (cands ys).
Proof.
  intros H. apply Forall_forall. intros e He. destruct (in_cands _ _ He) as (H1 & H2).
  exists (row samples nf (fst e)). split; auto. apply row_length. auto.
Qed.

Lemma measured_part a b c : Permutation (a ++ b) c -> measured c -> measured a.
Proof.
  intros Hp H. apply Forall_forall. intros e He. unfold measured in H. rewrite Forall_forall in H. apply H.
  eapply Permutation_in; [exact Hp|]. apply in_or_app. auto.
Qed.

Lemma furthest_measured b offers rest : inv b offers rest -> measured offers ->
  1 <= buf_max_capacity b -> buf_size b = buf_max_capacity b ->
  exists p, length p = nf /\ buf_furthest_distance b = dist p query.
Proof.
  intros I M H1 H2. destruct (bi_furthest _ _ _ _ _ I) as ((i & Hi) & _).
  { intros E. unfold buf_size in H2. rewrite E in H2. simpl in H2. lia. }
  apply nth_error_In in Hi. pose proof (measured_part _ _ _ (bi_perm _ _ _ _ _ I) M) as Me.
  unfold measured in Me. rewrite Forall_forall in Me. exact (Me _ Hi).
Qed.

Lemma visit_bounded : forall t b s pre rest,
  kd_ranges arr t -> kd_ordered samples nf arr t -> measured pre ->
  Q s -> inv b pre rest -> fits (buf_max_capacity b) -> 1 <= buf_max_capacity b ->
  exists b' s' rest' off skip, visit t (b, s) = Ok (b', s') /\ Q s' /\ inv b' (pre ++ off) rest' /\ mono b b' /\
    Permutation (off ++ skip) (cands (kd_samples arr t)) /\ skipped_ok b' skip.
Proof.
  induction t as [f l bx|f l ax bx tl IHl tr IHr]; intros b s pre rest Hr Ho Hpre Hs I F1 F2.
  - simpl in Hr. cbn [SearchProofs.visit].
    destruct (psearch_ok f l b s pre rest) as (b' & s' & rest' & E & Hs' & I' & M & _); auto; try lia.
    exists b', s', rest', (cands (sub arr f l)), []. splits; auto.
    + rewrite app_nil_r. reflexivity.
    + intros H; congruence.
  - simpl in Hr, Ho. destruct Hr as (-> & Hf & Rl & Rr). destruct Ho as (Ha & OL & OR & Ol & Or).
    cbn [SearchProofs.visit].
    destruct (psearch_ok f (Datatypes.S f) b s pre rest) as (b1 & s1 & rest1 & E1 & Hs1 & I1 & M1 & _); auto; try lia.
    rewrite E1. cbn [bind].
    destruct (split_value_ok f ax Hf Ha) as (Ep & Hpin).
    unfold select_closest_child. rewrite Ep. cbn [bind]. rewrite query_value_ok by auto. cbn [bind].
    assert (C1 : buf_max_capacity b1 = buf_max_capacity b) by apply M1.
    assert (Hpre1 : measured (pre ++ cands (sub arr f (Datatypes.S f)))).
    { apply Forall_app. split; auto. apply cands_measured. intros y Hy. rewrite nth_sub_one in Hy by auto.
      destruct Hy as [<-|[]]. now apply nth_In. }
    assert (Hoff : forall off skip t, Permutation (off ++ skip) (cands (kd_samples arr t)) ->
      measured ((pre ++ cands (sub arr f (Datatypes.S f))) ++ off)).
    { intros off skip t Hp. apply Forall_app. split; auto. eapply measured_part; [exact Hp|].
      apply cands_measured. intros y. apply kd_samples_in. }
    set (pv := val samples nf ax (nth f arr 0)) in *. set (qv := nth ax query 0%Z) in *.
    destruct (Z.ltb_spec qv pv) as [Hq|Hq]; cbn [negb].
    + (* left first *)
      destruct (IHl b1 s1 (pre ++ cands (sub arr f (Datatypes.S f))) rest1) as (b2 & s2 & rest2 & off2 & skip2 & E2 & Hs2 & I2 & M2 & P2 & K2); auto;
        try (rewrite C1; auto).
      pose proof (Hoff _ _ _ P2) as Hpre2. rewrite E2. cbn [bind fst]. unfold visit_sibling. rewrite Ep. cbn [bind]. rewrite query_value_ok by auto. cbn [bind]. fold qv.
      assert (C2 : buf_max_capacity b2 = buf_max_capacity b) by (destruct M2; congruence).
      destruct (negb (remaining_capacity b2 =? 0)%Z || negb (lt (buf_furthest_distance b2) (m_gap m pv qv))) eqn:Ev.
      * destruct (IHr b2 s2 ((pre ++ cands (sub arr f (Datatypes.S f))) ++ off2) rest2) as (b3 & s3 & rest3 & off3 & skip3 & E3 & Hs3 & I3 & M3 & P3 & K3); auto;
          try (rewrite C2; auto).
        exists b3, s3, rest3, (cands (sub arr f (Datatypes.S f)) ++ off2 ++ off3), (skip2 ++ skip3). splits; auto.
        -- rewrite <- !app_assoc in I3. exact I3.
        -- eauto using mono_trans.
        -- cbn [kd_samples]. rewrite !cands_app.
           transitivity (cands (sub arr f (Datatypes.S f)) ++ (off2 ++ skip2) ++ (off3 ++ skip3)).
           { rewrite <- !app_assoc. apply Permutation_app_head. apply Permutation_app_head.
             rewrite !app_assoc. apply Permutation_app_tail. apply Permutation_app_comm. }
           rewrite P2, P3. rewrite !app_assoc. apply Permutation_app_tail. apply Permutation_app_comm.
        -- apply skipped_app; auto. apply (skipped_mono b2); auto. rewrite C2. auto.
      * apply orb_false_iff in Ev as [Ev1 Ev2]. apply negb_false_iff in Ev1, Ev2.
        exists b2, s2, rest2, (cands (sub arr f (Datatypes.S f)) ++ off2), (skip2 ++ cands (kd_samples arr tr)).
        splits; auto.
        -- rewrite <- !app_assoc in I2. exact I2.
        -- eauto using mono_trans.
        -- cbn [kd_samples]. rewrite !cands_app.
           transitivity (cands (sub arr f (Datatypes.S f)) ++ (off2 ++ skip2) ++ cands (kd_samples arr tr)).
           { rewrite <- !app_assoc. reflexivity. }
           rewrite P2. rewrite !app_assoc. apply Permutation_app_tail. apply Permutation_app_comm.
        -- apply skipped_app; auto. intros _.
           pose proof (bi_cap _ _ _ _ _ I2) as Hcap.
           rewrite remaining_zero in Ev1 by (rewrite ?C2; auto; rewrite <- C2; apply Hcap; rewrite C2; auto).
           apply Nat.eqb_eq in Ev1. split; auto.
           intros e He. destruct (in_cands _ _ He) as (He1 & ->).
           apply gap_ok with (ax := ax) (v := pv); auto.
           { eapply kd_samples_in; eauto. }
           2: { apply (furthest_measured b2 _ _ I2); eauto. rewrite C2. auto. }
           2: { now apply lt_asym. }
           left. specialize (OR _ He1). fold pv in OR. fold qv. lia.
    + (* right first *)
      destruct (IHr b1 s1 (pre ++ cands (sub arr f (Datatypes.S f))) rest1) as (b2 & s2 & rest2 & off2 & skip2 & E2 & Hs2 & I2 & M2 & P2 & K2); auto;
        try (rewrite C1; auto).
      pose proof (Hoff _ _ _ P2) as Hpre2. rewrite E2. cbn [bind fst]. unfold visit_sibling. rewrite Ep. cbn [bind]. rewrite query_value_ok by auto. cbn [bind]. fold qv.
      assert (C2 : buf_max_capacity b2 = buf_max_capacity b) by (destruct M2; congruence).
      destruct (negb (remaining_capacity b2 =? 0)%Z || lt (m_gap m pv qv) (buf_furthest_distance b2)) eqn:Ev.
      * destruct (IHl b2 s2 ((pre ++ cands (sub arr f (Datatypes.S f))) ++ off2) rest2) as (b3 & s3 & rest3 & off3 & skip3 & E3 & Hs3 & I3 & M3 & P3 & K3); auto;
          try (rewrite C2; auto).
        exists b3, s3, rest3, (cands (sub arr f (Datatypes.S f)) ++ off2 ++ off3), (skip2 ++ skip3). splits; auto.
        -- rewrite <- !app_assoc in I3. exact I3.
        -- eauto using mono_trans.
        -- cbn [kd_samples]. rewrite !cands_app.
           transitivity (cands (sub arr f (Datatypes.S f)) ++ (off2 ++ skip2) ++ (off3 ++ skip3)).
           { rewrite <- !app_assoc. apply Permutation_app_head. apply Permutation_app_head.
             rewrite !app_assoc. apply Permutation_app_tail. apply Permutation_app_comm. }
           rewrite P2, P3. rewrite app_assoc. apply Permutation_app_comm.
        -- apply skipped_app; auto. apply (skipped_mono b2); auto. rewrite C2. auto.
      * apply orb_false_iff in Ev as [Ev1 Ev2]. apply negb_false_iff in Ev1.
        exists b2, s2, rest2, (cands (sub arr f (Datatypes.S f)) ++ off2), (skip2 ++ cands (kd_samples arr tl)).
        splits; auto.
        -- rewrite <- !app_assoc in I2. exact I2.
        -- eauto using mono_trans.
        -- cbn [kd_samples]. rewrite !cands_app.
           transitivity (cands (sub arr f (Datatypes.S f)) ++ (off2 ++ skip2) ++ cands (kd_samples arr tl)).
           { rewrite <- !app_assoc. reflexivity. }
           rewrite P2. rewrite app_assoc. apply Permutation_app_comm.
        -- apply skipped_app; auto. intros _.
           pose proof (bi_cap _ _ _ _ _ I2) as Hcap.
           rewrite remaining_zero in Ev1 by (rewrite ?C2; auto; rewrite <- C2; apply Hcap; rewrite C2; auto).
           apply Nat.eqb_eq in Ev1. split; auto.
           intros e He. destruct (in_cands _ _ He) as (He1 & ->).
           apply gap_ok with (ax := ax) (v := pv); auto.
           { eapply kd_samples_in; eauto. }
           2: { apply (furthest_measured b2 _ _ I2); eauto. rewrite C2. auto. }
           right. specialize (OL _ He1). fold pv in OL. fold qv. lia.
Qed.

(** Unlimited buffers: nothing is skipped, provided an empty buffer visits everything or becomes non-empty before the
    first decision. *)
Definition centre_in (ys : list nat) : Prop :=
  exists y, In y ys /\ elig y = true /\ forall a, a < nf -> val samples nf a y = nth a query 0%Z.

Lemma cands_none ys : cands ys = [] -> ~ centre_in ys.
Proof.
  intros H (y & Hy & He & _). assert (In (y, dist (row samples nf y) query) (cands ys)).
  { unfold cands, with_distances. apply in_map_iff. exists y. split; auto. apply filter_In. auto. }
  rewrite H in H0. destruct H0.
Qed.

Lemma inv_size b pre : inv b pre [] -> buf_size b = length pre.
Proof.
  intros I. rewrite <- entries_length by apply I.
  pose proof (Permutation_length (bi_perm _ _ _ _ _ I)) as H. rewrite app_length in H. simpl in H. lia.
Qed.

Lemma visit_unlimited : forall t b s pre,
  kd_ranges arr t -> kd_ordered samples nf arr t ->
  Q s -> inv b pre [] -> buf_max_capacity b = 0 -> fits (length pre + length (kd_samples arr t)) ->
  (infinity_ok m samples query \/ pre <> [] \/ centre_in (kd_samples arr t)) ->
  exists b' s' off, visit t (b, s) = Ok (b', s') /\ Q s' /\ inv b' (pre ++ off) [] /\ buf_max_capacity b' = 0 /\
    Permutation off (cands (kd_samples arr t)).
Proof.
  induction t as [f l bx|f l ax bx tl IHl tr IHr]; intros b s pre Hr Ho Hs I F1 F2 HV.
  - simpl in Hr. cbn [SearchProofs.visit].
    destruct (psearch_ok f l b s pre []) as (b' & s' & rest' & E & Hs' & I' & M & Z); auto.
    { rewrite F1. reflexivity. }
    { intros _. simpl in F2. unfold sub in F2. rewrite firstn_length, skipn_length in F2. unfold fits in *. lia. }
    rewrite Z in I' by auto.
    exists b', s', (cands (sub arr f l)). splits; auto. destruct M; congruence.
  - pose proof (kd_size_samples arr _ Hr) as Hsz.
    simpl in Hr, Ho. destruct Hr as (-> & Hf & Rl & Rr). destruct Ho as (Ha & OL & OR & Ol & Or).
    cbn [SearchProofs.visit].
    cbn [kd_samples] in F2. rewrite !app_length in F2.
    assert (L1 : length (sub arr f (Datatypes.S f)) = 1) by (rewrite nth_sub_one by auto; reflexivity).
    destruct (psearch_ok f (Datatypes.S f) b s pre []) as (b1 & s1 & rest1 & E1 & Hs1 & I1 & M1 & Z1); auto; try lia.
    { rewrite F1. reflexivity. }
    { intros _. unfold fits in *. lia. }
    rewrite Z1 in I1 by auto. clear Z1 rest1.
    rewrite E1. cbn [bind].
    destruct (split_value_ok f ax Hf Ha) as (Ep & Hpin).
    unfold select_closest_child. rewrite Ep. cbn [bind]. rewrite query_value_ok by auto. cbn [bind].
    assert (C1 : buf_max_capacity b1 = 0) by (destruct M1; congruence).
    set (pv := val samples nf ax (nth f arr 0)) in *. set (qv := nth ax query 0%Z) in *.
    set (cs := cands (sub arr f (Datatypes.S f))) in *.
    assert (Lc : length cs <= 1) by (rewrite <- L1; apply cands_length).
    (* where a sample at the centre is *)
    assert (HV1 : infinity_ok m samples query \/ pre ++ cs <> [] \/
                  (if (qv <? pv)%Z then centre_in (kd_samples arr tl) else centre_in (kd_samples arr tr))).
    { destruct HV as [HV|[HV|(y & Hy & He & Hyq)]]; auto.
      - right; left. destruct pre; [congruence|discriminate].
      - cbn [kd_samples] in Hy. apply in_app_or in Hy as [Hy|Hy].
        + right; right. specialize (OL y Hy). rewrite (Hyq ax Ha) in OL. fold pv qv in OL.
          destruct (Z.ltb_spec qv pv); [|lia]. exists y. auto.
        + apply in_app_or in Hy as [Hy|Hy].
          * right; left. intros E. apply app_eq_nil in E as [_ E]. apply (cands_none _ E). exists y. auto.
          * right; right. specialize (OR y Hy). rewrite (Hyq ax Ha) in OR. fold pv qv in OR.
            destruct (Z.ltb_spec qv pv); [lia|]. exists y. auto. }
    assert (G : forall b2 pre2 side, buf_max_capacity b2 = 0 -> inv b2 pre2 [] -> fits (length pre2) ->
       infinity_ok m samples query \/ pre2 <> [] ->
       negb (remaining_capacity b2 =? 0)%Z ||
       (if side : bool then lt (m_gap m pv qv) (buf_furthest_distance b2)
        else negb (lt (buf_furthest_distance b2) (m_gap m pv qv))) = true).
    { intros b2 pre2 side C2 I2 Fp H. pose proof (inv_size _ _ I2) as Hz.
      rewrite remaining_unlimited by (auto; now rewrite Hz). rewrite Hz.
      destruct pre2 as [|x pre2]; [|reflexivity].
      destruct H as [H|H]; [|congruence]. simpl.
      assert (Eb : buf_indices b2 = []) by (apply length_zero_iff_nil; exact Hz).
      destruct (bi_empty _ _ _ _ _ I2 Eb) as (_ & _ & -> & _).
      assert (Hg : lt (m_gap m pv qv) inf = true).
      { apply H; [|unfold qv; apply nth_In; lia]. unfold pv, val. apply nth_In. specialize (Hdata _ Hpin). lia. }
      destruct side; auto. apply negb_true_iff. apply lt_asym; auto. }
    destruct (Z.ltb_spec qv pv) as [Hq|Hq]; cbn [negb].
    + destruct (IHl b1 s1 (pre ++ cs)) as (b2 & s2 & off2 & E2 & Hs2 & I2 & C2 & P2); auto.
      { rewrite app_length. unfold fits in *. lia. }
      rewrite E2. cbn [bind fst]. unfold visit_sibling. rewrite Ep. cbn [bind]. rewrite query_value_ok by auto. cbn [bind].
      fold pv qv.
      assert (L2 : length off2 <= length (kd_samples arr tl)).
      { rewrite (Permutation_length P2). apply cands_length. }
      assert (HV2 : infinity_ok m samples query \/ (pre ++ cs) ++ off2 <> []).
      { destruct HV1 as [H|[H|H]]; auto.
        - right. intros E. apply app_eq_nil in E as [E _]. auto.
        - right. intros E. apply app_eq_nil in E as [_ ->]. apply Permutation_nil in P2.
          now apply (cands_none _ P2). }
      pose proof (G b2 ((pre ++ cs) ++ off2) false) as HG. cbn [negb] in HG. rewrite HG; auto.
      2:{ rewrite !app_length. unfold fits in *. lia. }
      destruct (IHr b2 s2 ((pre ++ cs) ++ off2)) as (b3 & s3 & off3 & E3 & Hs3 & I3 & C3 & P3); auto.
      { rewrite !app_length. unfold fits in *. lia. }
      { tauto. }
      exists b3, s3, (cs ++ off2 ++ off3). splits; auto.
      * rewrite <- !app_assoc in I3. exact I3.
      * cbn [kd_samples]. rewrite !cands_app. rewrite P2, P3. fold cs.
        rewrite !app_assoc. apply Permutation_app_tail. apply Permutation_app_comm.
    + destruct (IHr b1 s1 (pre ++ cs)) as (b2 & s2 & off2 & E2 & Hs2 & I2 & C2 & P2); auto.
      { rewrite app_length. unfold fits in *. lia. }
      rewrite E2. cbn [bind fst]. unfold visit_sibling. rewrite Ep. cbn [bind]. rewrite query_value_ok by auto. cbn [bind].
      fold pv qv.
      assert (L2 : length off2 <= length (kd_samples arr tr)).
      { rewrite (Permutation_length P2). apply cands_length. }
      assert (HV2 : infinity_ok m samples query \/ (pre ++ cs) ++ off2 <> []).
      { destruct HV1 as [H|[H|H]]; auto.
        - right. intros E. apply app_eq_nil in E as [E _]. auto.
        - right. intros E. apply app_eq_nil in E as [_ ->]. apply Permutation_nil in P2.
          now apply (cands_none _ P2). }
      pose proof (G b2 ((pre ++ cs) ++ off2) true) as HG. cbn [negb] in HG. rewrite HG; auto.
      2:{ rewrite !app_length. unfold fits in *. lia. }
      destruct (IHl b2 s2 ((pre ++ cs) ++ off2)) as (b3 & s3 & off3 & E3 & Hs3 & I3 & C3 & P3); auto.
      { rewrite !app_length. unfold fits in *. lia. }
      { tauto. }
      exists b3, s3, (cs ++ off2 ++ off3). splits; auto.
      * rewrite <- !app_assoc in I3. exact I3.
      * cbn [kd_samples]. rewrite !cands_app. rewrite P2, P3. fold cs.
        rewrite app_assoc. apply Permutation_app_comm.
Qed.
End Answer.
