(** Lemmas on [make_tree_2]. *)
From Coq Require Import List Arith ZArith Lia Bool Permutation.
From Verif Require Import Base SortingModel SortingSpec BoundsModel BoundsSpec BoundsProofs UnionFindModel UnionFindSpec
  UnionFindProofs BufferModel BufferSpec BufferProofs KDTreeModel KDTreeSpec KDTreeProofs KDTreeProps SearchModel SearchSpec
  SearchProofs SearchProps GraphSpec GraphProofs DualTreeModel DualTreeProofs DualTreeProps PairsModel PairsProofs PairsProps
  BoruvkaModel BoruvkaSpec BoruvkaProofs BoruvkaProps DualBoruvkaModel.
Import ListNotations.
Set Default Proof Using "Type".

(** A tree of part of the samples. *)
Lemma tree_input_incl tol samples nf policy lowest max indices sub :
  tree_input tol samples nf policy lowest max indices -> incl sub indices ->
  tree_input tol samples nf policy lowest max sub.
Proof.
  intros (H1 & H2 & (H3 & H4) & H5) Hs. unfold tree_input, dataset_ok. splits; auto.
  - intros j Hj i Hi. apply H3; auto.
  - intros j Hj x y Hx Hy. apply (H5 j Hj); auto.
Qed.

Section Steps.
Context (m : metric) (dist : list Z -> list Z -> m_dist m) (Hm : metric_ok m dist) (p : pruning (m_dist m)).
Context (samples : list Z) (nf : nat) (tree : kdtree) (n : nat).
Hypothesis Hlen : length samples = n * nf.
Context (core : option (list (m_dist m))).
Hypothesis Hsym : forall i j, i < n -> j < n -> W m dist samples nf i j = W m dist samples nf j i.
Context (oc : nat -> list (nat * list nat) -> list (nat * list nat)).
Context (oe : nat -> list (nat * BoruvkaModel.edge m) -> list (nat * BoruvkaModel.edge m)).
Hypothesis Hoc : permuting oc.
Hypothesis Hoe : permuting oe.
Context (tol : Z) (policy : list bool -> list nat -> nat -> aabb -> nat) (lowest max : Z) (center : segment -> Z).
Context (right_first : nat -> nat -> position -> position -> bool) (k : nat).
Notation lt := (m_lt m).
Notation inv := (forest_inv m dist samples nf n core).

(** What is needed of the search of a component. *)
Hypothesis Hsearch : forall i u r c, uinv n u -> r < n -> rootf u r = r -> c <> [] -> NoDup c ->
  (forall x, In x c <-> x < n /\ rootf u x = r) -> (exists x, x < n /\ rootf u x <> r) ->
  exists qtree e u',
    make_kdtree tol samples nf (Nat.max 40 (Nat.sqrt (length c))) default_max_depth policy lowest max center c = Ok qtree /\
    Permutation c (kt_indices qtree) /\
    dual_tree_search m p samples nf qtree samples nf tree (accept_other_component r) k (right_first i r) u = Ok (e, u') /\
    uinv n u' /\ same_roots (parents u) (parents u') /\ edge_from m dist samples nf n core u r c e.

Lemma forest_inv_comps f comps : inv f -> map fst comps = map fst (f_components m f) ->
  (forall r c', In (r, c') comps -> exists c, In (r, c) (f_components m f) /\ Permutation c c') ->
  inv (mk_forest m (f_mst m f) comps (f_union_find m f)).
Proof.
  intros I Hk Hp. constructor; cbn [f_union_find f_mst f_components]; try apply I.
  - rewrite Hk. apply I.
  - intros r c' Hc. destruct (Hp r c' Hc) as (c & Hin & P). destruct (fi_comp _ _ _ _ _ _ f I r c Hin) as (A1 & A2 & A3).
    splits; auto. intros x. rewrite <- A3. split; apply Permutation_in; auto using Permutation_sym.
  - intros r c' Hc. destruct (Hp r c' Hc) as (c & Hin & P). eapply Permutation_NoDup; [exact P|].
    apply (fi_distinct _ _ _ _ _ _ f I r c Hin).
  - intros x Hx. rewrite Hk. now apply (fi_cover _ _ _ _ _ _ f I).
  - pose proof (fi_count _ _ _ _ _ _ f I) as H. rewrite <- (map_length fst comps), Hk, map_length. exact H.
Qed.

Lemma dual_step i f : inv f -> 1 < n_components m f ->
  (core = None -> lightest_cuts lt n (W m dist samples nf) (f_mst m f)) ->
  exists f', step_dual_tree_sequential m p samples nf tree oc oe tol policy lowest max center right_first k i f = Ok f' /\
    inv f' /\ (core = None -> lightest_cuts lt n (W m dist samples nf) (f_mst m f')) /\ 2 * n_components m f' <= n_components m f.
Proof using Hm Hlen Hsym Hoc Hoe Hsearch.
  intros I H1 HC. unfold step_dual_tree_sequential. set (u := f_union_find m f).
  pose proof (Hoc i (f_components m f)) as Pc.
  assert (UI : uinv n u) by apply I.
  destruct (for_each_inv
    (fun (done : list (nat * list nat)) (st : list (nat * BoruvkaModel.edge m) * list (nat * list nat) * uf) =>
       uinv n (snd st) /\ same_roots (parents u) (parents (snd st)) /\
       map fst (fst (fst st)) = map fst done /\
       (forall r e, In (r, e) (fst (fst st)) -> proposed m dist samples nf n core (rootf u) r e) /\
       map fst (snd (fst st)) = map fst (f_components m f) /\
       (forall r c', In (r, c') (snd (fst st)) -> exists c, In (r, c) (f_components m f) /\ Permutation c c'))
    (dual_tree_component m p samples nf tree tol policy lowest max center right_first k i)
    (oc i (f_components m f)) [] ([], f_components m f, u)) as ([[edges comps] u'] & E & U' & SR & Hk & Hp & Hck & Hcp).
  - cbn [fst snd]. splits; auto using same_roots_refl. { intros r e []. } { intros r c Hc. eauto. }
  - intros [r c] done [[edges comps] u0] Hin (U0 & SR0 & Hk & Hp & Hck & Hcp). cbn [fst snd] in *.
    apply (Permutation_in _ Pc) in Hin. unfold dual_tree_component.
    destruct (fi_comp _ _ _ _ _ _ f I r c Hin) as (Hr & Hrr & Hcx). fold u in Hrr, Hcx.
    destruct (component_ok _ _ _ _ _ _ f r c I Hin) as (_ & _ & Hc & _).
    assert (R0 : forall x, x < n -> rootf u0 x = rootf u x) by (intros; eapply rootf_same; eauto).
    assert (Hkr : In r (map fst (f_components m f))) by (apply in_map_iff; exists (r, c); auto).
    destruct (Hsearch i u0 r c) as (qtree & e & u1 & Eq & Pq & Es & U1 & SR1 & He); auto.
    { rewrite R0; auto. }
    { apply (fi_distinct _ _ _ _ _ _ f I r c Hin). }
    { intros x. rewrite Hcx. split; intros (Hx & Hxr); split; auto; rewrite R0 in *; auto. }
    { destruct (other_component _ _ _ _ _ Hlen _ f r I H1 Hkr) as (x & Hx & Hxr). exists x. rewrite R0; auto. }
    rewrite Eq. cbn [bind]. 
    match goal with |- context [dual_tree_search ?a1 ?a2 ?a3 ?a4 ?a5 ?a6 ?a7 ?a8 ?a9 ?b1 ?b2 ?b3] =>
      replace (dual_tree_search a1 a2 a3 a4 a5 a6 a7 a8 a9 b1 b2 b3) with (Ok (e, u1)) by (symmetry; exact Es) end.
    cbn [bind]. eexists. split; [reflexivity|]. cbn [fst snd]. splits; auto.
    + eapply same_roots_trans; eauto.
    + rewrite !map_app. simpl. congruence.
    + intros s e' Hs. apply in_app_or in Hs as [Hs|[Hs|[]]]; auto. inversion Hs; subst.
      apply (edge_from_proposed _ _ _ _ _ _ f s c e'); auto. fold u.
      destruct e' as [[a b] w]. unfold edge_from in *. destruct He as (E1 & E2 & E3 & E4 & E5 & E6).
      rewrite R0 in E3, E4 by auto. splits; auto.
      intros Hnone x y Hx Hy Hyr. apply E6; auto. rewrite R0; auto.
    + rewrite map_set_keys; [exact Hck|]. now rewrite Hck.
    + intros s c' Hs. apply map_set_in in Hs as [(-> & ->)|(_ & Hs)].
      * exists c. auto.
      * auto.
      * rewrite Hck. apply I.
      * now rewrite Hck.
  - match goal with |- context [for_each (oc i _) ?g ?s] =>
      replace (for_each (oc i (f_components m f)) g s) with (Ok (edges, comps, u')) by (symmetry; exact E) end.
    cbn [bind]. cbn [fst snd app] in U', SR, Hk, Hp, Hck, Hcp.
    pose proof (forest_inv_comps f comps I Hck Hcp) as I'.
    assert (N' : n_components m (mk_forest m (f_mst m f) comps (f_union_find m f)) = n_components m f).
    { unfold n_components. cbn [f_components]. now rewrite <- (map_length fst comps), Hck, map_length. }
    destruct (merge_proposals m dist Hm samples nf n Hlen core Hsym oe Hoe i
                (mk_forest m (f_mst m f) comps (f_union_find m f)) edges u') as (f' & Ef & If & Cf & Nf); auto.
    + now rewrite N'.
    + cbn [f_components]. rewrite Hck, Hk. now apply Permutation_map.
    + exists f'. rewrite N' in Nf. cbn [f_mst f_components] in Ef. auto.
Qed.

Lemma dual_loop : forall fuel i f, inv f -> (core = None -> lightest_cuts lt n (W m dist samples nf) (f_mst m f)) ->
  n_components m f <= S fuel ->
  exists f', make_tree_2_loop m p samples nf tree oc oe tol policy lowest max center right_first k fuel i f = Ok f' /\ inv f' /\
    (core = None -> lightest_cuts lt n (W m dist samples nf) (f_mst m f')) /\ n_components m f' <= 1.
Proof using Hm Hlen Hsym Hoc Hoe Hsearch.
  induction fuel as [|fuel IH]; intros i f I HC Hn; cbn [make_tree_2_loop].
  - destruct (Nat.ltb_spec 1 (n_components m f)); [lia|]. exists f. splits; auto.
  - destruct (Nat.ltb_spec 1 (n_components m f)); [|exists f; splits; auto].
    destruct (dual_step i f I) as (f1 & E1 & I1 & C1 & L1); auto. rewrite E1. cbn [bind]. apply IH; auto. lia.
Qed.

Lemma one_component f : inv f -> 0 < n -> n_components m f <= 1 -> spanning_tree n (f_mst m f).
Proof using Hlen.
  intros I Hn L. unfold spanning_tree, n_components in *. splits.
  - pose proof (fi_count _ _ _ _ _ _ f I) as Hc.
    destruct (f_components m f) as [|x l] eqn:Ec.
    { pose proof (fi_cover _ _ _ _ _ _ f I 0 Hn) as H. rewrite Ec in H. destruct H. }
    destruct l; simpl in *; [|lia]. match goal with |- ?a = _ => enough (a + 1 = n) by lia end. exact Hc.
  - intros a b w H. apply (fi_edges _ _ _ _ _ _ f I) in H. tauto.
  - intros i j Hi Hj. apply (tracks_rootf n (f_union_find m f)); auto; try apply I.
    pose proof (fi_cover _ _ _ _ _ _ f I i Hi) as H1. pose proof (fi_cover _ _ _ _ _ _ f I j Hj) as H2.
    destruct (f_components m f) as [|x [|y l]]; simpl in *; try lia; intuition congruence.
Qed.

Lemma dual_run fuel : 0 < n -> n <= S fuel ->
  exists f0 f, make_forest m n = Ok f0 /\
    make_tree_2_loop m p samples nf tree oc oe tol policy lowest max center right_first k fuel 0 f0 = Ok f /\
    inv f /\ (core = None -> lightest_cuts lt n (W m dist samples nf) (f_mst m f)) /\ spanning_tree n (f_mst m f).
Proof using Hm Hlen Hsym Hoc Hoe Hsearch.
  intros Hn Hf. destruct (make_forest_inv m dist samples nf n Hlen core Hn) as (f0 & E0 & I0 & M0 & N0).
  destruct (dual_loop fuel 0 f0 I0) as (f & E & I & C & L); try lia.
  { intros _. rewrite M0. intros E1 a b w E2 Heq. destruct E1; discriminate. }
  exists f0, f. splits; auto. now apply one_component.
Qed.
End Steps.

(** The dual tree search with any number of neighbours when nothing is pruned at the start. *)
Lemma dual_search_any m dist (Hm : metric_ok m dist) p qs nf qtree queries rs rtree references
  {S} (accept : nat -> S -> res (bool * S)) P (Q : S -> Prop) k right_first s :
  Permutation queries (kt_indices qtree) -> kd_ranges (kt_indices qtree) (kt_root qtree) ->
  kd_samples (kt_indices qtree) (kt_root qtree) = kt_indices qtree ->
  kd_enclosed qs nf (kt_indices qtree) (kt_root qtree) ->
  (forall i, In i (kt_indices qtree) -> i * nf + nf <= length qs) ->
  Permutation references (kt_indices rtree) -> kd_ranges (kt_indices rtree) (kt_root rtree) ->
  kd_samples (kt_indices rtree) (kt_root rtree) = kt_indices rtree ->
  kd_enclosed rs nf (kt_indices rtree) (kt_root rtree) ->
  (forall i, In i (kt_indices rtree) -> i * nf + nf <= length rs) ->
  (forall i s, In i references -> Q s -> exists s', accept i s = Ok (P i, s') /\ Q s') -> Q s -> queries <> [] ->
  1 <= k -> fits k -> (exists y, In y references /\ P y = true) ->
  (forall furthest diameter cost, p_adjusted_below p (m_inf m) furthest diameter cost = false) ->
  exists x y s',
    dual_tree_search m p qs nf qtree rs nf rtree accept k right_first s
      = Ok ((x, y, dist (row rs nf y) (row qs nf x)), s') /\ Q s' /\
    In x queries /\ In y references /\ P y = true.
Proof.
  intros A1 A2 A3 A4 A5 B1 B2 B3 B4 B5 Ha Hs Nq H1 Hk (y0 & Hy0 & Py0) F.
  destruct (traversal_any m dist Hm p qs nf (kt_indices qtree) (kt_root qtree) rs (kt_indices rtree) (kt_root rtree)
    accept P Q k right_first A5 B5) with
    (F := forall furthest diameter cost, p_adjusted_below p (m_inf m) furthest diameter cost = false)
    (fuel := Datatypes.S (kd_height (kt_root qtree) + kd_height (kt_root rtree))) (s := s) as (st & E & I & C); auto.
  { intros i s0 Hi. apply Ha. eapply Permutation_in; [symmetry; exact B1|auto]. }
  unfold dual_tree_search. rewrite E. cbn [bind].
  pose proof (ai_queue _ _ _ _ _ _ _ _ _ _ st I) as (G & _). cbn [fst] in G.
  destruct (du_edges st) as [|e edges] eqn:Ee.
  - exfalso. rewrite A3, B3 in C. destruct queries as [|x0 queries]; [congruence|].
    apply (C x0 y0) with (4 := Py0); auto.
    + eapply Permutation_in; [exact A1|simpl; auto].
    + eapply Permutation_in; eauto.
  - destruct (top_edge_ok m dist Hm k H1 (e :: edges)) as (i & e' & Et & He'); [discriminate|].
    rewrite Et. cbn [bind]. apply nth_error_In in He'. specialize (G e' He'). destruct e' as ((x, y), d).
    destruct G as (Gx & Gy & Gp & ->). exists x, y, (du_state st). splits; auto.
    + apply I.
    + eapply Permutation_in; [symmetry; exact A1|auto].
    + eapply Permutation_in; [symmetry; exact B1|auto].
Qed.

(** ** Searches of a component *)
Section Searches.
Context (tol : Z) (policy : list bool -> list nat -> nat -> aabb -> nat) (lowest max : Z) (center : segment -> Z).
Context (samples : list Z) (nf n : nat).
Hypothesis Hi : whole_input tol samples nf n policy lowest max.
Hypothesis Hn : 1 <= n.
Context (rtol : Z) (rpolicy : list bool -> list nat -> nat -> aabb -> nat) (rcenter : segment -> Z) (rlowest rmax : Z).
Hypothesis Hr : whole_input rtol samples nf n rpolicy rlowest rmax.
Context (bucket max_depth : nat) (tree : kdtree).
Hypothesis Ht : make_kdtree rtol samples nf bucket max_depth rpolicy rlowest rmax rcenter (seq 0 n) = Ok tree.
Notation fdist := (fun p q => Some (sq_dist p q)).

Lemma component_input u r c : (forall x, In x c <-> x < n /\ rootf u x = r) -> tree_input tol samples nf policy lowest max c.
Proof using Hi Hn.
  intros Hc. eapply tree_input_incl; [apply Hi|]. intros x Hx. apply in_seq. apply Hc in Hx. lia.
Qed.

Lemma seq_others u r y : r < n -> rootf u r = r ->
  In y (filter (fun i => negb (rootf u r =? rootf u i)) (seq 0 n)) <-> y < n /\ rootf u y <> r.
Proof using Hn.
  intros Hrn Hrr. rewrite filter_In, in_seq, negb_true_iff, Nat.eqb_neq, Hrr. split; intros (H1 & H2); split; try lia; auto.
Qed.

Lemma float_component k core rf u r c : 1 <= k -> fits k ->
  (core = None -> k = 1) ->
  (forall i j, i < n -> j < n -> mw float_metric fdist samples nf core i j = W float_metric fdist samples nf i j) ->
  uinv n u -> r < n -> rootf u r = r -> c <> [] ->
  (forall x, In x c <-> x < n /\ rootf u x = r) -> (exists x, x < n /\ rootf u x <> r) ->
  exists qtree e u',
    make_kdtree tol samples nf (Nat.max 40 (Nat.sqrt (length c))) default_max_depth policy lowest max center c = Ok qtree /\
    Permutation c (kt_indices qtree) /\
    dual_tree_search float_metric float_pruning samples nf qtree samples nf tree (accept_other_component r) k rf u = Ok (e, u') /\
    uinv n u' /\ same_roots (parents u) (parents u') /\ edge_from float_metric fdist samples nf n core u r c e.
Proof using Hi Hn Hr Ht.
  intros H1 Hk Hk1 Hmw U Hrn Hrr Nc Hc (x0 & Hx0 & Hx0r).
  pose proof (component_input u r c Hc) as Hin.
  destruct (built_boxes tol samples nf (Nat.max 40 (Nat.sqrt (length c))) default_max_depth policy lowest max center c Hin Nc)
    as (qtree & E1 & A1 & A2 & A3 & A4 & A5).
  destruct (built_boxes rtol samples nf bucket max_depth rpolicy rlowest rmax rcenter (seq 0 n) (proj1 Hr))
    as (tree' & E2 & B1 & B2 & B3 & B4 & B5). { destruct n; [lia|discriminate]. }
  assert (tree' = tree) by congruence. subst tree'.
  set (P := fun i => negb (rootf u r =? rootf u i)).
  assert (Hacc : forall i s, In i (seq 0 n) -> uinv n s /\ same_roots (parents u) (parents s) ->
    exists s', accept_other_component r i s = Ok (P i, s') /\ uinv n s' /\ same_roots (parents u) (parents s')).
  { intros i s. apply (accept_other_ok n u r (seq 0 n) U Hrn). intros j Hj. apply in_seq in Hj. lia. }
  assert (Hex : exists y, In y (seq 0 n) /\ P y = true).
  { exists x0. apply (filter_In P). now apply seq_others. }
  destruct core as [cs|] eqn:Ecore.
  - destruct (dual_search_any float_metric fdist float_metric_ok float_pruning samples nf qtree c samples tree (seq 0 n)
                (accept_other_component r) P (fun u' => uinv n u' /\ same_roots (parents u) (parents u')) k rf u)
      as (x & y & u' & E & (U' & SR) & Hx & Hy & Py); auto using same_roots_refl.
    exists qtree. exists (x, y, Some (sq_dist (row samples nf y) (row samples nf x))), u'. splits; auto.
    unfold edge_from. apply Hc in Hx as (Hxn & Hxr).
    pose proof (proj1 (seq_others u r y Hrn Hrr) (proj2 (filter_In P y (seq 0 n)) (conj Hy Py))) as (Hyn & Hyr).
    splits; auto; [|discriminate]. rewrite Hmw by auto. reflexivity.
  - rewrite (Hk1 eq_refl) in *.
    destruct (dual_search_one samples nf qtree c samples tree (seq 0 n)
                (accept_other_component r) P (fun u' => uinv n u' /\ same_roots (parents u) (parents u')) rf u)
      as (x & y & d & u' & E & (U' & SR) & (Hx & Hy & Hd & Hmin)); auto using same_roots_refl.
    exists qtree. exists (x, y, Some d), u'. splits; auto.
    unfold edge_from. apply Hc in Hx as (Hxn & Hxr). pose proof (proj1 (seq_others u r y Hrn Hrr) Hy) as (Hyn & Hyr).
    splits; auto.
    + rewrite Hmw by auto. unfold W. rewrite Hd, sq_sym. reflexivity.
    + intros _ x' y' Hx' Hy' Hyr'. cbn. apply Z.ltb_ge. rewrite sq_sym. apply Hmin; auto. now apply seq_others.
Qed.

(** Signed integers: the box of a component lies in that of the dataset. *)
Hypothesis Hdepth : max_depth = default_max_depth.

Lemma int_component rf u r c :
  uinv n u -> r < n -> rootf u r = r -> c <> [] -> NoDup c ->
  (forall x, In x c <-> x < n /\ rootf u x = r) -> (exists x, x < n /\ rootf u x <> r) ->
  exists qtree e u',
    make_kdtree tol samples nf (Nat.max 40 (Nat.sqrt (length c))) default_max_depth policy lowest max center c = Ok qtree /\
    Permutation c (kt_indices qtree) /\
    dual_tree_search int_metric int_pruning samples nf qtree samples nf tree (accept_other_component r) 1 rf u = Ok (e, u') /\
    uinv n u' /\ same_roots (parents u) (parents u') /\ edge_from int_metric l1_dist samples nf n None u r c e.
Proof using Hi Hn Hr Ht Hdepth.
  intros U Hrn Hrr Nc Dc Hc (x0 & Hx0 & Hx0r).
  pose proof (component_input u r c Hc) as Hin.
  destruct (leaf_tree tol samples nf (Nat.max 40 (Nat.sqrt (length c))) policy lowest max center c Hin)
    as (qtree & qbox & Eq & Iq & Rq & Lq & Tq & Bq).
  destruct (leaf_tree rtol samples nf bucket rpolicy rlowest rmax rcenter (seq 0 n) (proj1 Hr))
    as (rtree & rbox & Er & Ir & Rr & Lr & Tr & Br).
  rewrite Hdepth in Ht. assert (rtree = tree) by congruence. subst rtree.
  set (P := fun i => negb (rootf u r =? rootf u i)).
  assert (Hacc : forall i s, In i (seq 0 n) -> uinv n s /\ same_roots (parents u) (parents s) ->
    exists s', accept_other_component r i s = Ok (P i, s') /\ uinv n s' /\ same_roots (parents u) (parents s')).
  { intros i s. apply (accept_other_ok n u r (seq 0 n) U Hrn). intros j Hj. apply in_seq in Hj. lia. }
  assert (Hsome : 1 <= length (filter P (seq 0 n))).
  { assert (H : In x0 (filter P (seq 0 n))) by now apply seq_others. destruct (filter P (seq 0 n)); [destruct H|simpl; lia]. }
  assert (Hmeet : msq (aabb_segments qbox) (aabb_segments rbox) = 0%Z).
  { enough (msq (aabb_segments qbox) (aabb_segments rbox) <= 0)%Z
      by (pose proof (msq_nonneg (aabb_segments qbox) (aabb_segments rbox)); lia).
    apply msq_zero; [congruence|]. rewrite Lq. intros j Hj. destruct c as [|x c]; [congruence|].
    assert (Hx : In x (seq 0 n)). { apply in_seq. destruct (proj1 (Hc x)); [simpl; auto|lia]. }
    pose proof (proj1 (Tq j Hj) x (or_introl eq_refl)). pose proof (proj1 (Tr j Hj) x Hx). lia. }
  pose proof (leaf_search int_metric l1_dist int_metric_ok int_pruning samples nf samples c (seq 0 n) qbox rbox
    (accept_other_component r) P (fun u' => uinv n u' /\ same_roots (parents u) (parents u')) 1 rf Bq Br Hacc (le_n 1)
    ltac:(unfold fits; lia) Dc (seq_NoDup n 0) Hsome qtree tree 0%Z Iq Ir Rq) as L.
  specialize (L Rr). rewrite aabb_min_distance_ok, Hmeet in L by congruence.
  specialize (L eq_refl Nc u (conj U (same_roots_refl _))).
  cbn [p_adjusted_below int_pruning m_inf int_metric] in L. rewrite zero_sqrt_diameter in L. cbn in L.
  destruct L as (e & u' & E & (U' & SR) & He). exists qtree, e, u'. splits; auto.
  - rewrite Iq. reflexivity.
  - destruct He as (Hine & Hless & _). destruct e as ((x, y), w).
    unfold all_edges, edges_of in Hine. apply in_flat_map in Hine as (x1 & Hx1 & Hy1).
    apply in_map_iff in Hy1 as (y1 & Heq & Hy1). inversion Heq; subst x1 y1 w. clear Heq.
    pose proof (proj1 (seq_others u r y Hrn Hrr) Hy1) as (Hyn & Hyr). apply Hc in Hx1 as (Hxn & Hxr).
    unfold edge_from. splits; auto. intros _ x' y' Hx' Hyn' Hyr'.
    destruct (m_lt int_metric (W int_metric l1_dist samples nf x' y') (l1_dist (row samples nf y) (row samples nf x))) eqn:El; auto.
    exfalso. match type of Hless with length ?l < 1 =>
      assert (Hf : In (x', y', l1_dist (row samples nf y') (row samples nf x')) l) end.
    { apply filter_In. split; auto. unfold all_edges, edges_of. apply in_flat_map. exists x'. split; auto.
      apply in_map_iff. exists y'. split; auto. now apply seq_others. }
    match type of Hless with length ?l < 1 => destruct l; [destruct Hf|simpl in Hless; lia] end.
Qed.
End Searches.
