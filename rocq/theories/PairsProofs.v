(** Lemmas on the closest pair of two sets of samples. *)
From Coq Require Import List Arith ZArith Lia Bool Permutation.
From Verif Require Import Base SortingModel SortingSpec BoundsModel BoundsSpec BoundsProofs MatrixProofs
  UnionFindModel UnionFindSpec UnionFindProofs BufferModel BufferSpec BufferProofs BufferProps
  KDTreeModel KDTreeSpec KDTreeProofs KDTreeProps SearchModel SearchSpec SearchProofs SearchProps
  DualTreeModel DualTreeProofs PairsModel.
Import ListNotations.
Set Default Proof Using "Type".

(** ** The double loop *)

Section Simple.
Context (m : metric) (Ho : order_ok (m_lt m)) (p : pruning (m_dist m)).
Context (qs : list Z) (nf : nat) (rs : list Z) (onf : nat) (dst : nat -> nat -> m_dist m) (xs ys : list nat).
Hypothesis Hstep : forall x y e, In x xs -> In y ys ->
  simple_step m p qs nf rs onf x y e =
  Ok (if m_lt m (p_zero p) (dst x y) && m_lt m (dst x y) (snd e) then (x, y, dst x y) else e).

Notation lt := (m_lt m).
Notation zero := (p_zero p).

(** [e] is the first of the shortest pairs, among those with a positive distance below the one of [init]. *)
Definition shortest_so_far (init : edge (m_dist m)) (pairs : list (nat * nat)) (e : edge (m_dist m)) : Prop :=
  (e = init /\ forall x y, In (x, y) pairs -> lt zero (dst x y) = false \/ lt (dst x y) (snd init) = false) \/
  exists l1 x y l2, pairs = l1 ++ (x, y) :: l2 /\ e = (x, y, dst x y) /\
    lt zero (dst x y) = true /\ lt (dst x y) (snd init) = true /\
    (forall x' y', In (x', y') l1 -> lt zero (dst x' y') = false \/ lt (dst x y) (dst x' y') = true) /\
    (forall x' y', In (x', y') l2 -> lt zero (dst x' y') = false \/ lt (dst x' y') (dst x y) = false).

Lemma list_prod_flat {A B} (l : list A) (l' : list B) : list_prod l l' = flat_map (fun x => map (pair x) l') l.
Proof. induction l as [|a l IH]; simpl; auto. now rewrite IH. Qed.

Lemma simple_ok init : exists e, simple_dual_set_shortest_edge m p qs nf xs rs onf ys init = Ok e /\
  shortest_so_far init (list_prod xs ys) e.
Proof using Ho Hstep.
  unfold simple_dual_set_shortest_edge.
  assert (E : for_each xs (fun index => for_each ys (simple_step m p qs nf rs onf index)) init =
              for_each (list_prod xs ys) (fun xy => simple_step m p qs nf rs onf (fst xy) (snd xy)) init).
  { rewrite list_prod_flat, for_each_flat_map. apply for_each_ext. intros x e _. rewrite for_each_map. reflexivity. }
  rewrite E. clear E.
  destruct (for_each_inv (shortest_so_far init) (fun xy => simple_step m p qs nf rs onf (fst xy) (snd xy))
              (list_prod xs ys) [] init) as (e & E & H).
  - left. split; auto. intros x y [].
  - intros (x, y) done e Hin H. apply in_prod_iff in Hin as (Hx & Hy). cbn [fst snd]. rewrite Hstep by auto.
    eexists. split; [reflexivity|]. destruct (lt zero (dst x y)) eqn:Hz; cbn [andb].
    2:{ destruct H as [(-> & H)|(l1 & a & b & l2 & -> & -> & A1 & A2 & A3 & A4)].
        - left. split; auto. intros x' y' Hi. apply in_app_iff in Hi as [Hi|[Hi|[]]]; auto. inversion Hi; subst. auto.
        - right. exists l1, a, b, (l2 ++ [(x, y)]). splits; auto.
          + now rewrite <- app_assoc.
          + intros x' y' Hi. apply in_app_iff in Hi as [Hi|[Hi|[]]]; auto. inversion Hi; subst. auto. }
    destruct H as [(-> & H)|(l1 & a & b & l2 & -> & -> & A1 & A2 & A3 & A4)].
    + destruct (lt (dst x y) (snd init)) eqn:Hl.
      * right. exists done, x, y, []. splits; auto; try (intros ? ? []).
        intros x' y' Hi. destruct (H x' y' Hi) as [Hd|Hd]; auto. right. now apply (lt_le_trans _ Ho _ (snd init)).
      * left. split; auto. intros x' y' Hi. apply in_app_iff in Hi as [Hi|[Hi|[]]]; auto. inversion Hi; subst. auto.
    + cbn [snd]. destruct (lt (dst x y) (dst a b)) eqn:Hl.
      * right. exists (l1 ++ (a, b) :: l2), x, y, []. splits; auto; try (intros ? ? []).
        { now apply (lt_trans _ Ho _ (dst a b)). }
        intros x' y' Hi. apply in_app_iff in Hi as [Hi|[Hi|Hi]].
        -- destruct (A3 x' y' Hi) as [Hd|Hd]; auto. right. now apply (lt_trans _ Ho _ (dst a b)).
        -- inversion Hi; subst. auto.
        -- destruct (A4 x' y' Hi) as [Hd|Hd]; auto. right. now apply (lt_le_trans _ Ho _ (dst a b)).
      * right. exists l1, a, b, (l2 ++ [(x, y)]). splits; auto.
        { now rewrite <- app_assoc. }
        intros x' y' Hi. apply in_app_iff in Hi as [Hi|[Hi|[]]]; auto. inversion Hi; subst. auto.
  - exists e. auto.
Qed.
End Simple.

(** ** The priority queue on full buffers *)

Section Queue.
Context {D : Type} (lt : D -> D -> bool) (Ho : order_ok lt) (inf : D) (k : nat) (H1 : 1 <= k).
Notation queue := (list (edge D) * list (nat * nat))%type.

Definition keys (E : list (edge D)) : list (nat * nat) := map fst E.
Definition qok (q : queue) : Prop := snd q = keys (fst q) /\ NoDup (keys (fst q)).
Definition ordered (E out : list (edge D)) : Prop := forall e o, In e E -> In o out -> lt (snd o) (snd e) = false.

Lemma top_max (E : list (edge D)) : E <> [] ->
  exists i e, top_edge lt E = Ok (i, e) /\ nth_error E i = Some e /\ forall e', In e' E -> lt (snd e) (snd e') = false.
Proof using Ho H1.
  unfold edge in *. intros H. unfold top_edge.
  destruct (get_max_spec lt Ho (map snd E)) as (j & v & Ej & Hj & Hv).
  { destruct E; simpl; congruence. }
  rewrite Ej. cbn [bind]. pose proof Hj as Hj0. apply nth_error_lt in Hj. rewrite map_length in Hj.
  destruct (nth_error E j) as [e|] eqn:Ee; [|apply nth_error_None in Ee; lia].
  exists j, e. unfold edge. rewrite (proj2 (rd_ok _ _ _) Ee). splits; auto.
  intros e' He'. rewrite (map_nth_error snd _ _ Ee) in Hj0. inversion Hj0; subst v. apply Hv. now apply in_map.
Qed.

Lemma pop_max (q : queue) : qok q -> fst q <> [] ->
  exists e E', pop_edge lt q = Ok (E', keys E') /\ Permutation (fst q) (e :: E') /\ qok (E', keys E') /\
    forall e', In e' (fst q) -> lt (snd e) (snd e') = false.
Proof using Ho H1.
  destruct q as (E, C). intros (Hc & Hn) Hne. cbn [fst snd] in *. subst C. unfold pop_edge.
  destruct (top_max E Hne) as (i & e & Et & He & Hm). rewrite Et. cbn [bind].
  destruct (nth_error_split E i He) as (l1 & l2 & -> & L). subst i.
  rewrite firstn_app, firstn_all, Nat.sub_diag, firstn_O, app_nil_r.
  replace (skipn (S (length l1)) (l1 ++ e :: l2)) with l2.
  2:{ symmetry. rewrite skipn_app, skipn_all2 by lia. replace (S (length l1) - length l1) with 1 by lia. reflexivity. }
  unfold keys in *. rewrite map_app in *. cbn [map] in *.
  exists e, (l1 ++ l2).
  assert (Hf : forall l : list (edge D), ~ In (fst e) (map fst l) ->
             filter (fun c => negb (pair_eqb (fst e) c)) (map fst l) = map fst l).
  { induction l as [|a l IH]; simpl; intros Hi; auto.
    destruct (pair_eqb (fst e) (fst a)) eqn:Ep; [apply pair_eqb_eq in Ep; exfalso; apply Hi; auto|]. simpl. f_equal. auto. }
  apply NoDup_remove in Hn as (Hn & Hni).
  splits; auto.
  - rewrite filter_app. cbn [filter].
    rewrite (proj2 (pair_eqb_eq (fst e) (fst e)) eq_refl). cbn [negb].
    rewrite in_app_iff in Hni. rewrite !Hf by tauto. now rewrite map_app.
  - symmetry. apply Permutation_middle.
  - split; cbn [fst snd]; unfold keys; auto. now rewrite map_app.
Qed.

Lemma insert_new (q : queue) e : qok q -> ~ In (fst e) (keys (fst q)) ->
  insert_edge q e = (true, (fst q ++ [e], keys (fst q ++ [e]))) /\ qok (fst q ++ [e], keys (fst q ++ [e])).
Proof.
  destruct q as (E, C). intros (Hc & Hn) Hi. cbn [fst snd] in *. subst C. unfold insert_edge.
  assert (existsb (pair_eqb (fst e)) (keys E) = false) as ->.
  { apply not_true_is_false. intros He. apply existsb_exists in He as (c & Hin & Ec). apply pair_eqb_eq in Ec. congruence. }
  unfold keys. rewrite map_app. split; auto. split; cbn [fst snd]; unfold keys; rewrite map_app; auto.
  cbn [map]. eapply Permutation_NoDup; [apply Permutation_cons_append|]. constructor; auto.
Qed.

Lemma insert_old (q : queue) e : qok q -> In (fst e) (keys (fst q)) -> insert_edge q e = (false, q).
Proof.
  destruct q as (E, C). intros (Hc & _) Hi. cbn [fst snd] in *. subst C. unfold insert_edge.
  assert (existsb (pair_eqb (fst e)) (keys E) = true) as ->; auto.
  apply existsb_exists. exists (fst e). split; auto. now apply pair_eqb_eq.
Qed.

Lemma furthest_max (E : list (edge D)) : E <> [] ->
  exists e, pq_furthest_distance lt inf E = Ok (snd e) /\ In e E /\ forall e', In e' E -> lt (snd e) (snd e') = false.
Proof using Ho H1.
  intros H. destruct (top_max E H) as (i & e & Et & He & Hm). exists e. splits; auto.
  - unfold pq_furthest_distance. destruct E; [congruence|]. rewrite Et. reflexivity.
  - eapply nth_error_In; eauto.
Qed.

(** An edge offered to a full queue. *)
Definition offer_edge (e : edge D) (q : queue) : res queue :=
  limit <- pq_furthest_distance lt inf (fst q) ;;
  if lt (snd e) limit then
    let '(inserted, q') := insert_edge q e in
    if inserted && (k <? length (fst q')) then pop_edge lt q' else Ok q'
  else Ok q.

Lemma offer_full q e : qok q -> length (fst q) = k -> ~ In (fst e) (keys (fst q)) ->
  exists E' out, offer_edge e q = Ok (E', keys E') /\ qok (E', keys E') /\ length E' = k /\
    Permutation (E' ++ [out]) (fst q ++ [e]) /\ ordered E' [out].
Proof using Ho H1.
  intros Hq Hl Hi. unfold offer_edge.
  assert (Hne : fst q <> []) by (intros E; rewrite E in Hl; simpl in Hl; lia).
  destruct (furthest_max (fst q) Hne) as (f & Ef & Hf & Mf). rewrite Ef. cbn [bind].
  destruct (lt (snd e) (snd f)) eqn:Hlt.
  - destruct (insert_new q e Hq Hi) as (Ei & Qi). rewrite Ei. cbn [fst].
    rewrite app_length, Hl. cbn [length]. rewrite (proj2 (Nat.ltb_lt k (k + 1)) ltac:(lia)). cbn [andb].
    destruct (pop_max _ Qi) as (o & E' & Ep & Pm & Qe & Mo).
    { cbn [fst]. destruct (fst q); discriminate. }
    rewrite Ep. exists E', o. cbn [fst] in *. splits; auto.
    + apply Permutation_length in Pm. rewrite app_length in Pm. simpl in Pm. lia.
    + rewrite Pm. symmetry. apply Permutation_cons_append.
    + intros a o' Ha [<-|[]]. apply Mo. eapply Permutation_in; [symmetry; exact Pm|simpl; auto].
  - destruct q as (E, C). destruct Hq as (Hc & Hn). cbn [fst snd] in *. subst C.
    exists E, e. splits; auto.
    + split; auto.
    + intros a o' Ha [<-|[]]. eapply (le_trans _ Ho); [|exact Hlt]. now apply Mf.
Qed.

Context (x : nat).
Definition edge_to (o : nat * D) : edge D := (x, fst o, snd o).

Lemma buffer_edge_entry b i : length (buf_indices b) = length (buf_distances b) -> i < buf_size b ->
  exists en, nth_error (entries b) i = Some en /\ buffer_edge x b i = Ok (edge_to en).
Proof using H1.
  intros L Hi. unfold buffer_edge, buf_size, entries in *.
  destruct (nth_error (buf_indices b) i) as [y|] eqn:Ey; [|apply nth_error_None in Ey; lia].
  destruct (nth_error (buf_distances b) i) as [d|] eqn:Ed; [|apply nth_error_None in Ed; lia].
  rewrite (proj2 (rd_ok _ _ _) Ey). cbn [bind]. rewrite (proj2 (rd_ok _ _ _) Ed). cbn [bind].
  exists (y, d). split; auto.
  revert i Hi Ey Ed. generalize (buf_indices b) (buf_distances b).
  induction l as [|a l IH]; intros [|c l'] [|i] Hi Ha Hc; simpl in *; try discriminate; auto; try lia.
  - congruence.
  - apply IH; auto. lia.
Qed.

Lemma firstn_next {A} (l : list A) i a : nth_error l i = Some a -> firstn (S i) l = firstn i l ++ [a].
Proof.
  revert i. induction l as [|b l IH]; intros [|i] H; simpl in *; try discriminate; [congruence|]. f_equal. auto.
Qed.

Lemma nth_not_in_firstn {A} (l : list A) i a : NoDup l -> nth_error l i = Some a -> ~ In a (firstn i l).
Proof.
  revert i. induction l as [|b l IH]; intros [|i] Hn Ha; simpl in *; try discriminate; auto.
  inversion Hn as [|? ? Hb Hl]; subst. intros [->|H]; [apply Hb; eapply nth_error_In; eauto|]. eapply IH; eauto.
Qed.

Lemma NoDup_prefix {A} (l l' : list A) : NoDup (l ++ l') -> NoDup l.
Proof.
  induction l as [|a l IH]; simpl; intros H; constructor; inversion H; subst; auto. rewrite in_app_iff in *. tauto.
Qed.

Lemma keys_edges_to l : keys (map edge_to l) = map (pair x) (map fst l).
Proof. unfold keys. rewrite !map_map. reflexivity. Qed.

Lemma NoDup_pair {A B} (a : A) (l : list B) : NoDup l -> NoDup (map (pair a) l).
Proof.
  induction 1 as [|b l Hb Hl IH]; simpl; constructor; auto. intros Hi. apply in_map_iff in Hi as (c & E & Hc). congruence.
Qed.

(** A full buffer of a query that is not in the queue. *)
Lemma queue_full b offers rest q :
  buf_inv lt inf b offers rest -> buf_max_capacity b = k -> buf_size b = k -> NoDup (map fst (entries b)) ->
  qok q -> (forall y, ~ In (x, y) (keys (fst q))) -> fst q = [] \/ length (fst q) = k ->
  exists E' out, update_priority_queue lt inf x b q = Ok (E', keys E') /\ qok (E', keys E') /\ length E' = k /\
    Permutation (E' ++ out) (fst q ++ map edge_to offers) /\
    (forall all, (forall e o, In e (fst q) -> In o all -> lt (snd o) (snd e) = false) -> ordered E' (out ++ all) \/ fst q = []) /\
    ordered E' out.
Proof using Ho H1.
  intros I Hc Hs Hn Hq Hx Hcase.
  pose proof (bi_len _ _ _ _ _ I) as Lb.
  assert (Le : length (entries b) = k) by (rewrite entries_length by auto; auto).
  assert (Hkn : NoDup (keys (map edge_to (entries b)))) by (rewrite keys_edges_to; now apply NoDup_pair).
  unfold update_priority_queue. rewrite Hc, Hs.
  assert (shrink lt (length (fst q)) k q = Ok q) as ->.
  { assert (Hle : (length (fst q) <=? k) = true).
    { apply Nat.leb_le. destruct Hcase as [H|H]; rewrite H; simpl; lia. }
    destruct (length (fst q)) eqn:El; cbn [shrink]; rewrite El, Hle; reflexivity. }
  cbn [bind].
  destruct Hcase as [Hempty|Hfull].
  - destruct q as (E0, C0). destruct Hq as (Hq1 & _). cbn [fst snd] in *. subst E0. cbn in Hq1. subst C0.
    cbn [length Nat.add]. rewrite Nat.leb_refl.
    destruct (for_loop_inv (fun i q' => q' = (map edge_to (firstn i (entries b)), keys (map edge_to (firstn i (entries b)))))
      (fun i q => e <- buffer_edge x b i ;; Ok (snd (insert_edge q e))) k 0 ([], [])) as (q1 & E1 & Q1).
    + reflexivity.
    + intros i q' Hi ->. destruct (buffer_edge_entry b i Lb) as (en & Hen & Een); [lia|]. rewrite Een. cbn [bind].
      eexists. split; [reflexivity|]. rewrite (firstn_next _ _ _ Hen), map_app. cbn [map].
      match goal with |- snd (insert_edge ?q' ?e) = _ => destruct (insert_new q' e) as (-> & _) end; auto.
      * split; cbn [fst snd]; auto. rewrite keys_edges_to in *. apply NoDup_pair.
        clear -Hn. rewrite <- (firstn_skipn i (entries b)), map_app in Hn. now apply NoDup_prefix in Hn.
      * cbn [fst]. rewrite keys_edges_to. intros Hin. apply in_map_iff in Hin as (y & Ey & Hy). inversion Ey; subst y.
        rewrite <- firstn_map in Hy. eapply nth_not_in_firstn; [exact Hn| |exact Hy]. now apply map_nth_error.
    + change (0 + k) with k in Q1. rewrite E1. cbn [bind]. rewrite firstn_all2 in Q1 by lia. subst q1. cbn [fst].
      assert (Qok : qok (map edge_to (entries b), keys (map edge_to (entries b)))) by (split; auto).
      destruct (furthest_max (map edge_to (entries b))) as (f & Ef & _).
      { intros E. apply (f_equal (@length _)) in E. rewrite map_length in E. simpl in E. lia. }
      rewrite Ef. cbn [bind].
      assert (Hout : exists E' out : list (edge D),
        (Ok (map edge_to (entries b), keys (map edge_to (entries b))) : res queue) = Ok (E', keys E') /\ qok (E', keys E') /\
        length E' = k /\ Permutation (E' ++ out) ([] ++ map edge_to offers) /\
        (forall all : list (edge D), (forall e o : edge D, In e [] -> In o all -> lt (snd o) (snd e) = false) ->
           ordered E' (out ++ all) \/ @nil (edge D) = []) /\ ordered E' out).
      { exists (map edge_to (entries b)), (map edge_to rest). splits; auto.
        - now rewrite map_length.
        - cbn [app]. rewrite <- map_app. apply Permutation_map. apply I.
        - intros e o He Hoo. apply in_map_iff in He as (en & <- & He). apply in_map_iff in Hoo as (ro & <- & Hoo).
          cbn [edge_to snd]. now apply (bi_rest _ _ _ _ _ I). }
      destruct (lt (buf_closest_distance b) (snd f)); [|exact Hout].
      match goal with |- context [for_loop ?c ?f0 ?body ?q0] => destruct (for_loop_inv
        (fun i q' => q' = q0) body c f0 q0) as (q2 & E2 & Q2) end.
      * reflexivity.
      * intros i q' Hi ->. destruct (buffer_edge_entry b i Lb) as (en & Hen & Een); [lia|]. rewrite Een. cbn [bind fst].
        rewrite Ef. cbn [bind]. eexists. split; [|reflexivity].
        destruct (lt (snd (edge_to en)) (snd f)); auto.
        rewrite insert_old; auto. cbn [fst]. unfold keys. apply in_map. apply in_map.
        eapply nth_error_In; eauto.
      * rewrite E2. subst q2. exact Hout.
  - assert ((length (fst q) + k <=? k) = false) as -> by (apply Nat.leb_gt; lia). cbn [bind].
    assert (Hne : fst q <> []) by (intros E; rewrite E in Hfull; simpl in Hfull; lia).
    destruct (furthest_max (fst q) Hne) as (f & Ef & Hf & Mf). rewrite Ef. cbn [bind].
    assert (Hbn : buf_indices b <> []) by (intros E; unfold buf_size in Hs; rewrite E in Hs; simpl in Hs; lia).
    destruct (lt (buf_closest_distance b) (snd f)) eqn:Hlt.
    + destruct (for_loop_inv
        (fun i q' => qok q' /\ length (fst q') = k /\ exists out,
           Permutation (fst q' ++ out) (fst q ++ map edge_to (firstn i (entries b))) /\ ordered (fst q') out)
        (fun i q => e <- buffer_edge x b i ;; offer_edge e q) k 0 q) as (q2 & E2 & Q2 & L2 & out & P2 & O2).
      * splits; auto. exists []. cbn [firstn map]. rewrite !app_nil_r. split; auto. intros e o _ [].
      * intros i q' Hi (Q' & L' & out & P' & O').
        destruct (buffer_edge_entry b i Lb) as (en & Hen & Een); [lia|]. rewrite Een. cbn [bind].
        destruct (offer_full q' (edge_to en) Q' L') as (E' & o & Eo & Qo & Lo & Po & Oo).
        { intros Hin. assert (Hin' : In (fst (edge_to en)) (keys (fst q ++ map edge_to (firstn i (entries b))))).
          { unfold keys. eapply Permutation_in; [apply Permutation_map; exact P'|]. rewrite map_app. apply in_or_app; auto. }
          unfold keys in Hin'. rewrite map_app in Hin'. apply in_app_or in Hin' as [Hi2|Hi2].
          - cbn [edge_to fst] in Hi2. exact (Hx _ Hi2).
          - fold (keys (map edge_to (firstn i (entries b)))) in Hi2. rewrite keys_edges_to in Hi2.
            apply in_map_iff in Hi2 as (y & Ey & Hy). inversion Ey; subst y.
            rewrite <- firstn_map in Hy. eapply nth_not_in_firstn; [exact Hn| |exact Hy]. now apply map_nth_error. }
        exists (E', keys E'). split; auto. cbn [fst]. splits; auto.
        exists (o :: out). split.
        -- rewrite (firstn_next _ _ _ Hen), map_app. cbn [map]. rewrite app_assoc.
           transitivity ((E' ++ [o]) ++ out); [now rewrite <- app_assoc|]. rewrite Po.
           rewrite <- app_assoc. etransitivity; [apply Permutation_app_head; apply Permutation_app_comm|].
           rewrite app_assoc. now apply Permutation_app_tail.
        -- intros e o' He [<-|Ho']; [apply Oo; simpl; auto|].
           (* either kept from before or the offered edge *)
           assert (Hee : In e (fst q') \/ e = edge_to en).
           { assert (In e (fst q' ++ [edge_to en])).
             { eapply Permutation_in; [exact Po|]. apply in_or_app; auto. }
             apply in_app_or in H as [H|[H|[]]]; auto. }
           destruct Hee as [Hee|Hee]; [now apply O'|]. subst e.
           (* the offered edge was below the largest of the queue, or is the one rejected *)
           destruct (furthest_max (fst q')) as (f' & Ef' & Hf' & Mf').
           { intros E. rewrite E in L'. simpl in L'. lia. }
           unfold offer_edge in Eo. rewrite Ef' in Eo. cbn [bind] in Eo.
           destruct (lt (snd (edge_to en)) (snd f')) eqn:Hl'.
           ++ eapply (le_trans _ Ho); [|apply (O' f' o' Hf' Ho')]. now apply (lt_asym _ Ho).
           ++ inversion Eo; subst q'. cbn [fst] in *. exfalso.
              assert (Hin2 : In (fst (edge_to en)) (keys (fst q ++ map edge_to (firstn i (entries b))))).
              { unfold keys. eapply Permutation_in; [apply Permutation_map; exact P'|]. rewrite map_app. apply in_or_app; left.
                now apply in_map. }
              unfold keys in Hin2. rewrite map_app in Hin2. apply in_app_or in Hin2 as [Hi2|Hi2].
              ** cbn [edge_to fst] in Hi2. exact (Hx _ Hi2).
              ** fold (keys (map edge_to (firstn i (entries b)))) in Hi2. rewrite keys_edges_to in Hi2.
                 apply in_map_iff in Hi2 as (y & Ey & Hy). inversion Ey; subst y.
                 rewrite <- firstn_map in Hy. eapply nth_not_in_firstn; [exact Hn| |exact Hy]. now apply map_nth_error.
      * change (0 + k) with k in P2. rewrite firstn_all2 in P2 by lia.
        exists (fst q2), (out ++ map edge_to rest).
        assert (Hq2 : q2 = (fst q2, keys (fst q2))) by (destruct q2; destruct Q2 as (Q2 & _); cbn in *; congruence).
        assert (Omax : ordered (fst q2) (map edge_to rest)).
        { intros e o He Hoo. apply in_map_iff in Hoo as (r & <- & Hr). cbn [edge_to snd].
          destruct (lt (snd r) (snd e)) eqn:Hre; auto. exfalso.
          assert (Hall : forall en, In en (entries b) -> lt (snd en) (snd e) = true).
          { intros en Hen. destruct (lt (snd en) (snd e)) eqn:Hc2; auto.
            assert (lt (snd r) (snd e) = false); [|congruence].
            eapply (le_trans _ Ho); [exact Hc2|]. now apply (bi_rest _ _ _ _ _ I). }
          assert (Hin : incl (e :: map edge_to (entries b)) (fst q2)).
          { intros a [<-|Ha]; auto. apply in_map_iff in Ha as (en & <- & Hen).
            assert (Hi : In (edge_to en) (fst q2 ++ out)).
            { eapply Permutation_in; [symmetry; exact P2|]. apply in_or_app. right. now apply in_map. }
            apply in_app_or in Hi as [Hi|Hi]; auto. exfalso.
            pose proof (O2 e (edge_to en) He Hi) as H. cbn [edge_to snd] in H. rewrite Hall in H by auto. discriminate. }
          assert (Hnd : NoDup (e :: map edge_to (entries b))).
          { constructor.
            - intros Hi. apply in_map_iff in Hi as (en & <- & Hen). specialize (Hall en Hen). cbn [edge_to snd] in Hall.
              rewrite (lt_irrefl _ Ho) in Hall. discriminate.
            - unfold keys in Hkn. now apply NoDup_map_inv in Hkn. }
          pose proof (NoDup_incl_length Hnd Hin) as HL. cbn [length] in HL. rewrite map_length in HL. lia. }
        splits; auto.
        -- unfold offer_edge in E2. rewrite E2. f_equal. exact Hq2.
        -- now rewrite <- Hq2.
        -- rewrite app_assoc. rewrite P2. rewrite <- app_assoc. apply Permutation_app_head. rewrite <- map_app.
           apply Permutation_map. apply I.
        -- intros all Hall. left. intros e o He Hoo. apply in_app_or in Hoo as [Hoo|Hoo].
           ++ apply in_app_or in Hoo as [Hoo|Hoo]; auto.
           ++ assert (Hee : In e (fst q ++ map edge_to (entries b))).
              { eapply Permutation_in; [exact P2|]. apply in_or_app; auto. }
              apply in_app_or in Hee as [Hee|Hee]; [now apply Hall|].
              (* not further than the largest of the old queue *)
              destruct (lt (snd o) (snd e)) eqn:Hoe; auto. exfalso.
              assert (Hlt2 : forall g, In g (fst q) -> lt (snd g) (snd e) = true).
              { intros g Hg. destruct (lt (snd g) (snd e)) eqn:Hc2; auto.
                assert (lt (snd o) (snd e) = false); [|congruence].
                eapply (le_trans _ Ho); [exact Hc2|]. now apply Hall. }
              assert (Hin : incl (e :: fst q) (fst q2)).
              { intros a [<-|Ha]; auto.
                assert (Hi : In a (fst q2 ++ out)).
                { eapply Permutation_in; [symmetry; exact P2|]. apply in_or_app. auto. }
                apply in_app_or in Hi as [Hi|Hi]; auto. exfalso.
                pose proof (O2 e a He Hi) as H. rewrite Hlt2 in H by auto. discriminate. }
              assert (Hnd : NoDup (e :: fst q)).
              { constructor.
                - intros Hi. specialize (Hlt2 e Hi). rewrite (lt_irrefl _ Ho) in Hlt2. discriminate.
                - destruct Hq as (_ & Hq). unfold keys in Hq. now apply NoDup_map_inv in Hq. }
              pose proof (NoDup_incl_length Hnd Hin) as HL. cbn [length] in HL. lia.
        -- intros e o He Hoo. apply in_app_or in Hoo as [Hoo|Hoo]; auto.
    + assert (Hq2 : q = (fst q, keys (fst q))) by (destruct q; destruct Hq as (Hq & _); cbn in *; congruence).
      assert (Oo : ordered (fst q) (map edge_to offers)).
      { intros e o He Hoo. apply in_map_iff in Hoo as (r & <- & Hr). cbn [edge_to snd].
        destruct (bi_closest _ _ _ _ _ I Hbn) as (_ & Hcl). specialize (Hcl r Hr). cbn [snd] in Hcl.
        eapply (le_trans _ Ho); [|exact Hcl]. eapply (le_trans _ Ho); [|exact Hlt]. now apply Mf. }
      exists (fst q), (map edge_to offers). splits; auto.
      * now f_equal.
      * now rewrite <- Hq2.
      * intros all Hall. left. intros e o He Hoo. apply in_app_or in Hoo as [Hoo|Hoo]; auto.
Qed.
End Queue.

(** ** Two trees of one leaf *)

Section Leaf.
Context (m : metric) (dist : list Z -> list Z -> m_dist m) (Hm : metric_ok m dist) (p : pruning (m_dist m)).
Context (qs : list Z) (nf : nat) (rs : list Z) (queries references : list nat) (qbox rbox : aabb).
Context {S : Type} (accept : nat -> S -> res (bool * S)) (P : nat -> bool) (Q : S -> Prop) (k : nat).
Context (right_first : position -> position -> bool).
Hypothesis HdataQ : forall i, In i queries -> i * nf + nf <= length qs.
Hypothesis HdataR : forall i, In i references -> i * nf + nf <= length rs.
Hypothesis Hacc : forall i s, In i references -> Q s -> exists s', accept i s = Ok (P i, s') /\ Q s'.
Hypothesis H1 : 1 <= k.
Hypothesis Hk : fits k.
Hypothesis Hnq : NoDup queries.
Hypothesis Hnr : NoDup references.
Hypothesis Hfew : k <= length (filter P references).

Notation D := (m_dist m).
Notation lt := (m_lt m).
Notation inf := (m_inf m).
Notation state := (dual D S).
Let Ho : order_ok lt := mo_order m dist Hm.

Definition q_leaf : kd := KLeaf 0 (length queries) qbox.
Definition r_leaf : kd := KLeaf 0 (length references) rbox.

(** The eligible pairs with their distances. *)
Definition edges_of (x : nat) : list (edge D) :=
  map (fun y => (x, y, dist (row rs nf y) (row qs nf x))) (filter P references).
Definition all_edges (xs : list nat) : list (edge D) := flat_map edges_of xs.

Lemma sub_all {A} (l : list A) : sub l 0 (length l) = l.
Proof. unfold sub. rewrite Nat.sub_0_r. simpl. apply firstn_all. Qed.

Lemma slice_all {A} (l : list A) : slice l 0 (length l) = Ok l.
Proof. unfold slice. rewrite Nat.leb_refl. simpl. rewrite Nat.sub_0_r. f_equal. apply firstn_all. Qed.

(** The limits of the query leaf before any search. *)
Lemma no_limits l : fold_left (query_limits m (@nil (nat * buffer D))) l (default_limits m p) =
  match l with [] => default_limits m p | _ => mk_limits inf inf end.
Proof.
  assert (G : forall l0 c f, fold_left (query_limits m (@nil (nat * buffer D))) l0 (mk_limits c f) =
    match l0 with [] => mk_limits c f | _ => mk_limits c inf end).
  { induction l0 as [|x l0 IH]; intros c f; auto. cbn [fold_left]. unfold query_limits at 2. cbn [map_find closest_limit].
    rewrite IH. destruct l0; auto. }
  unfold default_limits. rewrite G. reflexivity.
Qed.

Record leaf_inv (done : list nat) (st : state) : Prop := {
  li_state : Q (du_state st);
  li_queue : qok (du_edges st, du_combinations st);
  li_keys : forall x y, In (x, y) (keys (du_edges st)) -> In x done;
  li_buffers : forall x, ~ In x done -> map_find Nat.eqb x (du_buffers st) = None;
  li_size : (done = [] /\ du_edges st = []) \/ length (du_edges st) = k;
  li_best : exists out, Permutation (du_edges st ++ out) (all_edges done) /\ ordered lt (du_edges st) out }.

Lemma leaf_query done st x : leaf_inv done st -> In x queries -> ~ In x done ->
  exists st', search_for_query m qs nf rs nf references accept k r_leaf x st = Ok st' /\ leaf_inv (done ++ [x]) st'.
Proof using Hm HdataQ HdataR Hacc H1 Hk Hnr Hfew.
  intros I Hx Hn. unfold search_for_query.
  rewrite (sample_at_row qs nf queries (repeat 0%Z nf) HdataQ (repeat_length _ _) x Hx). cbn [bind].
  rewrite (li_buffers _ _ I x Hn). cbn [node_first node_last r_leaf].
  destruct (psearch_ok m dist Hm rs nf references Unbounded (row qs nf x) accept P Q HdataR
    (row_length qs nf (repeat 0%Z nf) (repeat_length _ _) x (HdataQ x Hx)) Hacc (covers_unbounded nf) 0 (length references)
    (make_buffer inf k) (du_state st) [] []) as (b & s' & rest & Es & Qs & Ib & M & _); auto.
  { lia. } { apply (li_state _ _ I). } { apply buf_inv_make. } { cbn. intros. lia. }
  rewrite Es. cbn [bind]. cbn [app] in Ib. rewrite sub_all in Ib.
  set (cs := cands m dist rs nf Unbounded (row qs nf x) P references) in *.
  assert (Hcs : cs = map (fun y => (y, dist (row rs nf y) (row qs nf x))) (filter P references)) by reflexivity.
  destruct M as (Hcap & _ & _). cbn [make_buffer buf_max_capacity] in Hcap.
  assert (Hsz : buf_size b = k).
  { destruct (inv_k_nearest lt inf b cs rest k Ib Hcap H1) as (_ & _ & L & _).
    rewrite entries_length in L by apply Ib. rewrite L, Hcs, map_length. lia. }
  assert (Hnd : NoDup (map fst (entries b))).
  { assert (Hnc : NoDup (map fst cs)).
    { rewrite Hcs, map_map. cbn [fst]. rewrite map_id. now apply NoDup_filter. }
    pose proof (Permutation_NoDup (Permutation_map fst (Permutation_sym (bi_perm _ _ _ _ _ Ib))) Hnc) as Hne.
    rewrite map_app in Hne. now apply NoDup_prefix in Hne. }
  destruct (queue_full lt Ho inf k H1 x b cs rest (du_edges st, du_combinations st)) as
    (E' & out' & Eq & Qq & Lq & Pq & Oall & Oq); auto.
  { apply (li_queue _ _ I). }
  { intros y Hy. apply Hn. apply (li_keys _ _ I) with y. exact Hy. }
  { cbn [fst]. destruct (li_size _ _ I) as [(_ & E)|E]; auto. }
  rewrite Eq. cbn [bind]. eexists. split; [reflexivity|].
  assert (Hedges : edges_of x = map (edge_to x) cs).
  { rewrite Hcs. unfold edges_of. rewrite map_map. reflexivity. }
  constructor; cbn [du_state du_edges du_combinations du_buffers]; auto.
  - intros x' y Hy. apply in_or_app.
    assert (Hi : In (x', y) (keys (du_edges st ++ map (edge_to x) cs))).
    { unfold keys. eapply Permutation_in; [apply Permutation_map; exact Pq|]. rewrite map_app. apply in_or_app; auto. }
    unfold keys in Hi. rewrite map_app in Hi. apply in_app_or in Hi as [Hi|Hi].
    + left. apply (li_keys _ _ I) with y. exact Hi.
    + rewrite map_map in Hi. apply in_map_iff in Hi as (o & E & _). inversion E; subst. simpl; auto.
  - intros x' Hx'. rewrite find_put by apply Nat.eqb_eq. rewrite in_app_iff in Hx'.
    destruct (Nat.eqb_spec x' x) as [->|Hne]; [exfalso; apply Hx'; simpl; auto|]. apply (li_buffers _ _ I). tauto.
  - destruct (li_best _ _ I) as (out & Po & Oo). cbn [fst] in *.
    unfold all_edges in *. rewrite flat_map_app. cbn [flat_map]. rewrite app_nil_r, Hedges.
    destruct (Oall out) as [Oa|Oa].
    + intros e o He Hoo. now apply Oo.
    + exists (out' ++ out). split; auto. rewrite app_assoc, Pq. rewrite <- app_assoc.
      etransitivity; [apply Permutation_app_head; apply Permutation_app_comm|]. rewrite app_assoc.
      now apply Permutation_app_tail.
    + rewrite Oa in *. cbn [app] in *. destruct (li_size _ _ I) as [(Ed & _)|El].
      * subst done. cbn in *. exists out'. split; auto.
      * rewrite Oa in El. simpl in El. lia.
Qed.

Lemma leaf_queries s visited limits : Q s ->
  exists st', partial_search_for_each_query m qs nf queries rs nf references accept k q_leaf r_leaf
      (mk_dual [] visited limits [] [] s) = Ok st' /\ leaf_inv queries st'.
Proof using Hm HdataQ HdataR Hacc H1 Hk Hnr Hfew Hnq.
  intros Hs. unfold partial_search_for_each_query. cbn [node_first node_last q_leaf]. rewrite slice_all. cbn [bind].
  assert (G : forall todo done st, queries = done ++ todo -> leaf_inv done st ->
    exists st', for_each todo (search_for_query m qs nf rs nf references accept k r_leaf) st = Ok st' /\ leaf_inv queries st').
  { induction todo as [|x todo IH]; intros done st Eq I.
    - rewrite app_nil_r in Eq. subst done. exists st. auto.
    - cbn [for_each]. destruct (leaf_query done st x I) as (st1 & E1 & I1).
      + rewrite Eq. apply in_or_app. simpl; auto.
      + rewrite Eq in Hnq. apply NoDup_remove_2 in Hnq. intros H. apply Hnq. apply in_or_app; auto.
      + rewrite E1. cbn [bind]. apply IH with (done ++ [x]); auto. rewrite <- app_assoc. exact Eq. }
  apply G with []; auto. constructor; cbn; auto.
  - split; cbn; auto. constructor.
  - exists []. split; auto. intros e o [].
Qed.

(** [e] is a [k]-th shortest of the edges. *)
Definition kth_edge (all : list (edge D)) (e : edge D) : Prop :=
  In e all /\ length (filter (fun a => lt (snd a) (snd e)) all) < k /\
  k <= length (filter (fun a => negb (lt (snd e) (snd a))) all).

Lemma filter_length_perm {A} (f : A -> bool) l l' : Permutation l l' -> length (filter f l) = length (filter f l').
Proof. intros H. apply Permutation_length. now apply filter_perm. Qed.

Lemma filter_all {A} (f : A -> bool) l : (forall a, In a l -> f a = true) -> filter f l = l.
Proof. induction l as [|a l IH]; simpl; intros H; auto. rewrite H by auto. f_equal. auto. Qed.
Lemma filter_none {A} (f : A -> bool) l : (forall a, In a l -> f a = false) -> filter f l = [].
Proof. induction l as [|a l IH]; simpl; intros H; auto. rewrite H by auto. auto. Qed.

Lemma best_kth E out all i e : Permutation (E ++ out) all -> ordered lt E out -> length E = k ->
  nth_error E i = Some e -> (forall e', In e' E -> lt (snd e) (snd e') = false) -> kth_edge all e.
Proof using Hm Hfew H1.
  intros Hp Hor Hl He Hmax. pose proof (nth_error_In _ _ He) as Hin. unfold kth_edge. splits.
  - eapply Permutation_in; [exact Hp|]. apply in_or_app; auto.
  - rewrite <- (filter_length_perm _ _ _ Hp), filter_app, app_length.
    rewrite (filter_none _ out) by (intros o Hoo; now apply Hor).
    destruct (nth_error_split E i He) as (l1 & l2 & -> & _). rewrite filter_app, app_length. cbn [filter].
    rewrite (lt_irrefl _ Ho).
    assert (G : forall (f : edge D -> bool) l, length (filter f l) <= length l).
    { induction l as [|a l IH]; simpl; auto. destruct (f a); simpl; lia. }
    pose proof (G (fun a => lt (snd a) (snd e)) l1). pose proof (G (fun a => lt (snd a) (snd e)) l2).
    rewrite app_length in Hl. cbn [length] in *.
    match goal with |- ?a + ?b + 0 < _ => set (u := a) in *; set (v := b) in * end.
    match goal with H : ?a <= length l1 |- _ => change a with u in H end.
    match goal with H : ?a <= length l2 |- _ => change a with v in H end. lia.
  - rewrite <- (filter_length_perm _ _ _ Hp), filter_app, app_length.
    rewrite (filter_all _ E); [lia|]. intros a Ha. now rewrite Hmax.
Qed.

Context (qtree rtree : kdtree) (c : Z).
Hypothesis Hqi : kt_indices qtree = queries.
Hypothesis Hri : kt_indices rtree = references.
Hypothesis Hqr : kt_root qtree = q_leaf.
Hypothesis Hrr : kt_root rtree = r_leaf.
Hypothesis Hc : aabb_min_distance_sq (aabb_segments qbox) (aabb_segments rbox) = Ok c.
Hypothesis Hne : queries <> [].

Notation pruned := (p_adjusted_below p inf inf (aabb_diameter_sq (aabb_segments qbox)) c).

Lemma leaf_cost s visited : exists limits,
  cost m p queries [] q_leaf r_leaf (@mk_dual D S [] visited [] [] [] s) =
  Ok (if pruned then None else Some (p_store p c), mk_dual [] visited limits [] [] s).
Proof using Hc Hne Hqi Hnq HdataQ.
  unfold cost. change (node_bound q_leaf) with (aabb_segments qbox). change (node_bound r_leaf) with (aabb_segments rbox).
  rewrite Hc. cbn [bind].
  unfold update_cost, query_node_limits, update_bounds_limits. cbn [node_first node_last q_leaf]. rewrite slice_all.
  cbn [bind du_limits du_buffers map_find du_visited du_edges du_combinations du_state node_children fold_left].
  rewrite no_limits. destruct queries as [|q0 l]; [congruence|].
  cbn [closest_limit furthest_limit].
  change (node_bound q_leaf) with (aabb_segments qbox). eexists. reflexivity.
Qed.

Lemma leaf_search s : Q s ->
  if pruned then dual_tree_search m p qs nf qtree rs nf rtree accept k right_first s = UB
  else exists e s', dual_tree_search m p qs nf qtree rs nf rtree accept k right_first s = Ok (e, s') /\ Q s' /\
    kth_edge (all_edges queries) e.
Proof using Hm HdataQ HdataR Hacc H1 Hk Hnr Hfew Hnq Hqi Hri Hqr Hrr Hc Hne.
  intros Hs. unfold dual_tree_search. rewrite Hqi, Hri, Hqr, Hrr.
  change (Datatypes.S (kd_height q_leaf + kd_height r_leaf)) with 1. cbn [dual_tree_traversal]. unfold emplace_nodes_combination_if_not_found.
  cbn [existsb du_visited du_buffers du_limits du_edges du_combinations du_state negb].
  destruct (leaf_cost s [([], [])]) as (limits & Ec).
  match type of Ec with _ = ?rhs => match goal with |- context [cost ?a1 ?a2 ?a3 ?a4 ?a5 ?a6 ?a7] =>
    replace (cost a1 a2 a3 a4 a5 a6 a7) with rhs by (symmetry; exact Ec) end end. cbn [bind].
  destruct pruned; cbn [bind negb].
  - reflexivity.
  - destruct (leaf_queries s [([], [])] limits Hs) as (st & Es & I). rewrite Es. cbn [bind].
    cbn [node_children q_leaf r_leaf for_each bind].
    destruct (li_best _ _ I) as (out & Po & Oo).
    destruct (li_size _ _ I) as [(E & _)|El]; [congruence|].
    destruct (top_max lt Ho k H1 (du_edges st)) as (i & e & Et & He & Hmax).
    { intros E. rewrite E in El. simpl in El. lia. }
    rewrite Et. cbn [bind]. exists e, (du_state st). split; auto. split; [apply (li_state _ _ I)|]. eapply best_kth; eauto.
Qed.

Lemma leaf_shortest_edge s : Q s ->
  if pruned then dual_tree_shortest_edge m p qs nf qtree rs nf rtree accept k right_first s = UB
  else exists e, dual_tree_shortest_edge m p qs nf qtree rs nf rtree accept k right_first s = Ok e /\
    kth_edge (all_edges queries) e.
Proof using Hm HdataQ HdataR Hacc H1 Hk Hnr Hfew Hnq Hqi Hri Hqr Hrr Hc Hne.
  intros Hs. unfold dual_tree_shortest_edge. pose proof (leaf_search s Hs) as H. destruct pruned.
  - rewrite H. reflexivity.
  - destruct H as (e & s' & E & _ & He). exists e. rewrite E. auto.
Qed.
End Leaf.
