(** Invariants of the agglomeration. *)
From Coq Require Import List Arith Lia Bool Permutation Relations Sorted.
From Verif Require Import Base UnionFindModel UnionFindSpec UnionFindProofs BufferSpec BufferProofs
  GraphSpec GraphProofs SlinkModel SlinkSpec.
Import ListNotations.

Lemma rootf_same n u u' x : uinv n u -> uinv n u' -> same_roots (parents u) (parents u') -> x < n -> rootf u' x = rootf u x.
Proof. intros U U' S Hx. unfold rootf. rewrite (same_roots_rep n u u' x U U' Hx S). reflexivity. Qed.

Lemma tracks_rootf n u pairs i j : uinv n u -> tracks n u pairs -> i < n -> j < n ->
  (rootf u i = rootf u j <-> linked pairs i j).
Proof. intros U T Hi Hj. apply T; auto; apply (rootf_root n); auto. Qed.

Section Nodes.
Context {D : Type}.
Notation slink := (slink D).

Lemma nodes_at_in (nodes : list (nat * slink)) k s : NoDup (map fst nodes) -> In (k, s) nodes -> nodes_at nodes k = Ok s.
Proof.
  induction nodes as [|[k' s'] t IH]; simpl; intros Hn Hi; [contradiction|]. inversion Hn as [|? ? H1 H2]; subst.
  destruct Hi as [E|Hi].
  - inversion E; subst. now rewrite Nat.eqb_refl.
  - destruct (Nat.eqb_spec k' k) as [->|]; auto. exfalso. apply H1. apply in_map_iff. exists (k, s). auto.
Qed.

Lemma nodes_erase_in (nodes : list (nat * slink)) k k' s : In (k', s) (nodes_erase nodes k) <-> k' <> k /\ In (k', s) nodes.
Proof. unfold nodes_erase. rewrite filter_In. simpl. rewrite negb_true_iff, Nat.eqb_neq. tauto. Qed.

Lemma nodes_erase_nodup (nodes : list (nat * slink)) k : NoDup (map fst nodes) -> NoDup (map fst (nodes_erase nodes k)).
Proof.
  unfold nodes_erase. induction nodes as [|[k' v'] c IH]; simpl; intros H; auto. inversion H as [|? ? H1 H2]; subst.
  destruct (negb (k' =? k)); simpl; auto. constructor; auto. intros Hi. apply H1.
  apply in_map_iff in Hi as (y & E & Hy). apply filter_In in Hy as [Hy _]. apply in_map_iff. eauto.
Qed.

Lemma nodes_erase_notin (nodes : list (nat * slink)) k : ~ In k (map fst nodes) -> nodes_erase nodes k = nodes.
Proof.
  unfold nodes_erase. induction nodes as [|[k' s'] t IH]; simpl; intros H; auto.
  destruct (Nat.eqb_spec k' k); [tauto|]. simpl. f_equal. apply IH. tauto.
Qed.

Lemma nodes_erase_perm (nodes : list (nat * slink)) k s : NoDup (map fst nodes) -> In (k, s) nodes ->
  Permutation nodes ((k, s) :: nodes_erase nodes k).
Proof.
  induction nodes as [|[k' s'] t IH]; simpl; intros Hn Hi; [contradiction|]. inversion Hn as [|? ? H1 H2]; subst.
  destruct Hi as [E|Hi].
  - inversion E; subst. rewrite Nat.eqb_refl. simpl. constructor. rewrite nodes_erase_notin; auto.
  - destruct (Nat.eqb_spec k' k) as [->|Hne].
    + exfalso. apply H1. apply in_map_iff. exists (k, s). auto.
    + simpl. rewrite (IH H2 Hi) at 1. apply perm_swap.
Qed.

Lemma nodes_key_erase (nodes : list (nat * slink)) k : ~ In k (map fst (nodes_erase nodes k)).
Proof. intros H. apply in_map_iff in H as ([k' s] & E & H). simpl in E. subst k'. apply nodes_erase_in in H. tauto. Qed.
End Nodes.

Section Build.
Context {D : Type} (lt : D -> D -> bool) (Hlt : order_ok lt) (n : nat).
Notation slink := (slink D).
Notation edge := (nat * nat * D)%type.

(** What is known of the node of root [r] after the edges [E1]. *)
Record node_ok (u : uf) (E1 : list edge) (r : nat) (s : slink) : Prop := {
  no_lt : r < n;
  no_root : rootf u r = r;
  no_rep : sl_representative s = r;
  no_dend : dendrogram lt s;
  no_size : sl_size s = length (leaves s);
  no_leaves : forall x, In x (leaves s) <-> x < n /\ rootf u x = r;
  no_nodup : NoDup (leaves s);
  no_levels : forall v, In v (levels s) -> In v (map snd E1);
  no_joined : forall t i j, i <> j -> In i (leaves s) -> In j (leaves s) ->
    (joined_at lt s t i j <-> linked (ends (up_to lt t E1)) i j) }.

Record binv (E1 : list edge) (st : list (nat * slink) * uf) : Prop := {
  bi_uf : uinv n (snd st);
  bi_tracks : tracks n (snd st) (ends E1);
  bi_nodup : NoDup (map fst (fst st));
  bi_node : forall r s, In (r, s) (fst st) -> node_ok (snd st) E1 r s;
  bi_cover : forall x, x < n -> In (rootf (snd st) x) (map fst (fst st));
  bi_count : length (fst st) + length E1 = n;
  bi_levels : Permutation (flat_map (fun ks => levels (snd ks)) (fst st)) (map snd E1) }.

Lemma ends_app (E1 E2 : list edge) : ends (E1 ++ E2) = ends E1 ++ ends E2.
Proof. apply map_app. Qed.

Lemma up_to_app t (E1 E2 : list edge) : up_to lt t (E1 ++ E2) = up_to lt t E1 ++ up_to lt t E2.
Proof. apply filter_app. Qed.

Lemma up_to_all t (E1 : list edge) : (forall e, In e E1 -> lt t (snd e) = false) -> up_to lt t E1 = E1.
Proof.
  unfold up_to. induction E1 as [|e E1 IH]; intros H; simpl; auto. rewrite H by (left; auto). simpl. f_equal.
  apply IH. intros; apply H; right; auto.
Qed.

Lemma linked_up_to t (E1 : list edge) i j : linked (ends (up_to lt t E1)) i j -> linked (ends E1) i j.
Proof.
  apply linked_mono. intros a b H. unfold ends, up_to in *. apply in_map_iff in H as (e & E & H).
  apply filter_In in H as [H _]. apply in_map_iff. eauto.
Qed.

Lemma joined_in s t i j : joined_at lt s t i j -> In i (leaves s) /\ In j (leaves s).
Proof.
  intros (k & v & m & l & r & Hd & _ & Hi & Hj).
  assert (G : forall s s' : slink, descendant s s' -> forall x, In x (leaves s') -> In x (leaves s)).
  { induction 1; intros x Hx; simpl; auto; apply in_or_app; auto. }
  split; apply (G _ _ Hd); auto.
Qed.

Lemma joined_node k v m l r t i j :
  joined_at lt (SNode k v m l r) t i j <->
  (lt t v = false /\ In i (leaves l ++ leaves r) /\ In j (leaves l ++ leaves r)) \/ joined_at lt l t i j \/ joined_at lt r t i j.
Proof.
  split.
  - intros (k' & v' & m' & l' & r' & Hd & Ht & Hi & Hj). inversion Hd; subst.
    + left. auto.
    + right. left. exists k', v', m', l', r'. auto.
    + right. right. exists k', v', m', l', r'. auto.
  - intros [(Ht & Hi & Hj)|[H|H]].
    + exists k, v, m, l, r. splits; auto. constructor.
    + destruct H as (k' & v' & m' & l' & r' & Hd & H). exists k', v', m', l', r'. split; auto. now constructor.
    + destruct H as (k' & v' & m' & l' & r' & Hd & H). exists k', v', m', l', r'. split; auto. now constructor.
Qed.

Lemma step_ok E1 st a b w : binv E1 st -> a < n -> b < n -> ~ linked (ends E1) a b ->
  (forall x y v, In (x, y, v) E1 -> x < n /\ y < n) ->
  (forall e, In e E1 -> lt w (snd e) = false) ->
  exists st', build_step (a, b, w) st = Ok st' /\ binv (E1 ++ [(a, b, w)]) st'.
Proof.
  intros I Ha Hb Hnl HE Hw. destruct st as [nodes u]. unfold build_step.
  pose proof (bi_uf _ _ I) as U. cbn [fst snd] in U.
  destruct (uf_find_correct n u a U Ha) as (u1 & r1 & F1 & R1 & U1 & S1 & _). rewrite F1. cbn [bind].
  destruct (uf_find_correct n u1 b U1 Hb) as (u2 & r2 & F2 & R2 & U2 & S2 & _). rewrite F2. cbn [bind].
  assert (S12 : same_roots (parents u) (parents u2)) by (eapply same_roots_trans; eauto).
  assert (Er1 : r1 = rootf u a) by (eapply root_fun; [exact R1|apply (rootf_root n); auto]).
  assert (Er2 : r2 = rootf u b) by (eapply root_fun; [apply S1; exact R2|apply (rootf_root n); auto]).
  pose proof (tracks_rootf n u _ a b U (bi_tracks _ _ I) Ha Hb) as Tab. rewrite <- Er1, <- Er2 in Tab.
  assert (Hne : r1 <> r2) by tauto.
  destruct (uf_merge_correct n u2 a b U2 Ha Hb) as (u3 & ri & rj & r & F3 & U3 & Ri & Rj & Hr & Hmap).
  rewrite F3. cbn [bind].
  assert (ri = r1) by (eapply root_fun; [apply S12; exact Ri|auto]). subst ri.
  assert (rj = r2) by (eapply root_fun; [apply S12; exact Rj|apply S1; auto]). subst rj.
  assert (R3 : forall x, x < n -> rootf u3 x = if rootf u x =? r1 then r else if rootf u x =? r2 then r else rootf u x).
  { intros x Hx. eapply root_fun; [apply (rootf_root n); auto|]. apply Hmap. apply S12. apply (rootf_root n); auto. }
  assert (Hcond : negb (r =? r1) || negb (r =? r2) = true).
  { destruct (Nat.eqb_spec r r1), (Nat.eqb_spec r r2); simpl; auto; congruence. }
  rewrite Hcond.
  assert (Hkey : forall x, x < n -> exists c, In (rootf u x, c) nodes).
  { intros x Hx. pose proof (bi_cover _ _ I x Hx) as H. cbn [fst snd] in H. apply in_map_iff in H as ([k c] & E & H). simpl in E. subst k. eauto. }
  destruct (Hkey a Ha) as (c1 & Hc1). destruct (Hkey b Hb) as (c2 & Hc2). rewrite <- Er1 in Hc1. rewrite <- Er2 in Hc2.
  pose proof (bi_nodup _ _ I) as ND. cbn [fst] in ND.
  rewrite (nodes_at_in nodes r1 c1 ND Hc1). cbn [bind]. rewrite (nodes_at_in nodes r2 c2 ND Hc2). cbn [bind].
  pose proof (bi_node _ _ I _ _ Hc1) as N1. pose proof (bi_node _ _ I _ _ Hc2) as N2. cbn [snd] in N1, N2.
  set (rest := nodes_erase (nodes_erase nodes r1) r2).
  set (new := SNode r w (sl_size c1 + sl_size c2) c1 c2).
  eexists. split; [reflexivity|].
  assert (Hperm : Permutation nodes ((r1, c1) :: (r2, c2) :: rest)).
  { rewrite (nodes_erase_perm nodes r1 c1 ND Hc1) at 1. constructor. apply nodes_erase_perm.
    - now apply nodes_erase_nodup.
    - apply nodes_erase_in. auto. }
  assert (Hrest : forall k s, In (k, s) rest <-> k <> r1 /\ k <> r2 /\ In (k, s) nodes).
  { intros k s. unfold rest. rewrite !nodes_erase_in. tauto. }
  assert (Erest : nodes_erase rest r = rest).
  { apply nodes_erase_notin. intros H. apply in_map_iff in H as ([k s] & E & H). simpl in E. subst k.
    apply Hrest in H. destruct Hr as [->| ->]; tauto. }
  unfold nodes_assign. rewrite Erest.
  assert (T' : tracks n u3 (ends (E1 ++ [(a, b, w)]))).
  { assert (T : tracks n u3 ((a, b) :: ends E1)).
    { apply (tracks_merge n u u3 a b r1 r2 r); auto.
      - intros x y Hxy. unfold ends in Hxy. apply in_map_iff in Hxy as ([[x' y'] w'] & E & Hxy).
        simpl in E. inversion E; subst. eauto.
      - now apply S1.
      - intros x rx Hx. apply Hmap. now apply S12.
      - apply I. }
    eapply tracks_iff; [|exact T]. intros x y. rewrite ends_app, in_app_iff. simpl. tauto. }
  (* old pairs keep their status *)
  assert (Old : forall t i j, rootf u i = rootf u j -> i < n -> j < n ->
            (linked (ends (up_to lt t (E1 ++ [(a, b, w)]))) i j <-> linked (ends (up_to lt t E1)) i j)).
  { intros t i j Hij Hi Hj. rewrite up_to_app. unfold up_to at 2. simpl. destruct (lt t w) eqn:Ht; simpl.
    - rewrite app_nil_r. tauto.
    - assert (Hall : up_to lt t E1 = E1).
      { apply up_to_all. intros e He. apply (le_trans _ Hlt) with w; auto. }
      rewrite Hall. apply (tracks_rootf n u _ i j U (bi_tracks _ _ I) Hi Hj) in Hij. split; auto. intros _.
      revert Hij. apply linked_mono. intros x y H. rewrite ends_app, in_app_iff. auto. }
  assert (Nrest : forall k s, In (k, s) rest -> node_ok u3 (E1 ++ [(a, b, w)]) k s).
  { intros k s Hk. apply Hrest in Hk as (Hk1 & Hk2 & Hk). pose proof (bi_node _ _ I _ _ Hk) as N. cbn [snd] in N.
    assert (Rk : forall x, x < n -> (rootf u3 x = k <-> rootf u x = k)).
    { intros x Hx. rewrite R3 by auto. destruct (Nat.eqb_spec (rootf u x) r1) as [E|]; [|destruct (Nat.eqb_spec (rootf u x) r2) as [E|]]; try tauto.
      - rewrite E. destruct Hr as [->| ->]; split; congruence.
      - rewrite E. destruct Hr as [->| ->]; split; congruence. }
    constructor; try apply N.
    - apply Rk; apply N.
    - intros x. rewrite (no_leaves _ _ _ _ N). split; intros [Hx Hxr]; split; auto; now apply (Rk x Hx).
    - intros v Hv. rewrite map_app, in_app_iff. left. now apply (no_levels _ _ _ _ N).
    - intros t i j Hij Hi Hj. rewrite (no_joined _ _ _ _ N t i j Hij Hi Hj).
      apply (no_leaves _ _ _ _ N) in Hi as [Hi Hi']. apply (no_leaves _ _ _ _ N) in Hj as [Hj Hj'].
      symmetry. apply Old; auto. congruence. }
  assert (Lnew : forall x, In x (leaves c1 ++ leaves c2) <-> x < n /\ rootf u3 x = r).
  { intros x. rewrite in_app_iff, (no_leaves _ _ _ _ N1), (no_leaves _ _ _ _ N2). split.
    - intros [[Hx Hxr]|[Hx Hxr]]; split; auto; rewrite R3, Hxr by auto.
      + now rewrite Nat.eqb_refl.
      + rewrite Nat.eqb_refl. destruct (r2 =? r1); auto.
    - intros [Hx Hxr]. rewrite R3 in Hxr by auto.
      destruct (Nat.eqb_spec (rootf u x) r1); auto. destruct (Nat.eqb_spec (rootf u x) r2); auto.
      destruct Hr; congruence. }
  assert (Hrn : r < n) by (destruct Hr as [->| ->]; [apply N1|apply N2]).
  assert (Hrr : rootf u r = r) by (destruct Hr as [->| ->]; [apply N1|apply N2]).
  assert (Hrr3 : rootf u3 r = r).
  { rewrite R3 by auto. rewrite Hrr. destruct (r =? r1); auto. destruct (r =? r2); auto. }
  assert (Nnew : node_ok u3 (E1 ++ [(a, b, w)]) r new).
  { constructor; auto.
    - simpl. splits.
      + rewrite app_length, (no_size _ _ _ _ N1), (no_size _ _ _ _ N2). auto.
      + apply Lnew. auto.
      + intros x Hx. apply in_app_or in Hx as [Hx|Hx]; [apply (no_levels _ _ _ _ N1) in Hx|apply (no_levels _ _ _ _ N2) in Hx];
          apply in_map_iff in Hx as (e & <- & He); auto.
      + apply N1.
      + apply N2.
    - simpl. rewrite app_length, (no_size _ _ _ _ N1), (no_size _ _ _ _ N2). auto.
    - simpl. assert (G : forall l1 l2 : list nat, NoDup l1 -> NoDup l2 -> (forall x, In x l1 -> ~ In x l2) -> NoDup (l1 ++ l2)).
      { induction l1 as [|y l1 IH]; simpl; intros l2 H1 H2 H; auto. inversion H1; subst. constructor.
        - rewrite in_app_iff. intros [?|?]; auto. apply (H y); auto.
        - apply IH; auto. }
      apply G; [apply N1|apply N2|]. intros x H1 H2. apply (no_leaves _ _ _ _ N1) in H1. apply (no_leaves _ _ _ _ N2) in H2.
      destruct H1, H2. congruence.
    - intros v [<-|Hv]; rewrite map_app, in_app_iff.
      + right. simpl. auto.
      + left. apply in_app_or in Hv as [Hv|Hv]; [now apply (no_levels _ _ _ _ N1)|now apply (no_levels _ _ _ _ N2)].
    - intros t i j Hij Hi Hj. cbn [leaves new] in Hi, Hj. unfold new. rewrite joined_node.
      pose proof (proj1 (Lnew i) Hi) as [Hin Hir]. pose proof (proj1 (Lnew j) Hj) as [Hjn Hjr].
      assert (Sides : forall c k, node_ok u E1 k c -> In i (leaves c) -> In j (leaves c) ->
                (joined_at lt c t i j <-> linked (ends (up_to lt t (E1 ++ [(a, b, w)]))) i j)).
      { intros c k N Hic Hjc. rewrite (no_joined _ _ _ _ N t i j Hij Hic Hjc).
        apply (no_leaves _ _ _ _ N) in Hic as [_ Hic]. apply (no_leaves _ _ _ _ N) in Hjc as [_ Hjc].
        symmetry. apply Old; auto. congruence. }
      destruct (lt t w) eqn:Ht.
      + (* below the new level *)
        assert (Eup : up_to lt t (E1 ++ [(a, b, w)]) = up_to lt t E1).
        { rewrite up_to_app. unfold up_to at 2. simpl. rewrite Ht. simpl. now rewrite app_nil_r. }
        split.
        * intros [(Habs & _)|[H|H]]; [discriminate| |].
          -- destruct (joined_in _ _ _ _ H). apply (Sides c1 r1); auto.
          -- destruct (joined_in _ _ _ _ H). apply (Sides c2 r2); auto.
        * intros H. assert (HL : linked (ends E1) i j) by (rewrite Eup in H; now apply linked_up_to in H).
          apply (tracks_rootf n u _ i j U (bi_tracks _ _ I) Hin Hjn) in HL. right.
          apply in_app_or in Hi as [Hi|Hi].
          -- left. assert (In j (leaves c1)).
             { apply (no_leaves _ _ _ _ N1). split; auto. rewrite <- HL. now apply (no_leaves _ _ _ _ N1). }
             apply (Sides c1 r1); auto.
          -- right. assert (In j (leaves c2)).
             { apply (no_leaves _ _ _ _ N2). split; auto. rewrite <- HL. now apply (no_leaves _ _ _ _ N2). }
             apply (Sides c2 r2); auto.
      + assert (Hall : up_to lt t (E1 ++ [(a, b, w)]) = E1 ++ [(a, b, w)]).
        { apply up_to_all. intros e He. apply in_app_or in He as [He|[<-|[]]]; auto. apply (le_trans _ Hlt) with w; auto. }
        split; [|auto]. intros _. rewrite Hall. apply (tracks_rootf n u3 _ i j U3 T' Hin Hjn). congruence. }
  constructor; cbn [fst snd]; auto.
  - simpl. constructor.
    + intros H. apply in_map_iff in H as ([k s] & E & H). simpl in E. subst k. apply Hrest in H. destruct Hr as [->| ->]; tauto.
    + unfold rest. now apply nodes_erase_nodup, nodes_erase_nodup.
  - intros k s [E|Hk]; auto. inversion E; subst. exact Nnew.
  - intros x Hx. pose proof (bi_cover _ _ I x Hx) as Hc. cbn [fst snd] in Hc. simpl. rewrite R3 by auto.
    destruct (Nat.eqb_spec (rootf u x) r1); auto. destruct (Nat.eqb_spec (rootf u x) r2); auto.
    right. apply in_map_iff in Hc as ([k s] & E & H). simpl in E. subst k. apply in_map_iff. exists (rootf u x, s). split; auto.
    apply Hrest. auto.
  - pose proof (bi_count _ _ I) as HC. cbn [fst] in HC. rewrite (Permutation_length Hperm) in HC.
    rewrite app_length. simpl in *. lia.
  - pose proof (bi_levels _ _ I) as HP. cbn [fst] in HP. rewrite map_app. simpl.
    rewrite <- HP. rewrite (Permutation_flat_map _ Hperm). simpl. rewrite <- Permutation_cons_append.
    constructor. now rewrite app_assoc.
Qed.

Lemma init_ok : binv [] (map (fun i => (i, SLeaf i)) (seq 0 n), uf_make n).
Proof.
  assert (U : uinv n (uf_make n)) by apply uinv_make.
  assert (R : forall x, x < n -> rootf (uf_make n) x = x).
  { intros x Hx. pose proof (rootf_root n _ x U Hx) as H. now apply root_make in H. }
  constructor; cbn [fst snd]; auto.
  - apply tracks_make.
  - rewrite map_map. simpl. rewrite map_id. apply seq_NoDup.
  - intros r s H. apply in_map_iff in H as (x & E & Hx). inversion E; subst. apply in_seq in Hx.
    assert (r < n) by lia. constructor; simpl; auto.
    + intros x. split.
      * intros [<-|[]]. auto.
      * intros [Hxn Hxr]. rewrite R in Hxr by auto. auto.
    + constructor; [intros []|constructor].
    + intros t i j Hij Hi Hj. destruct Hi as [<-|[]], Hj as [<-|[]]. congruence.
  - intros x Hx. rewrite R by auto. rewrite map_map. simpl. rewrite map_id. apply in_seq. lia.
  - rewrite map_length, seq_length. simpl. lia.
  - assert (E : forall l, flat_map (fun ks : nat * slink => levels (snd ks)) (map (fun i => (i, SLeaf i)) l) = []).
    { induction l; simpl; auto. }
    rewrite E. constructor.
Qed.

Lemma indep_snoc : forall E1 R a b E2, indep R (E1 ++ (a, b) :: E2) -> ~ linked (E1 ++ R) a b.
Proof.
  induction E1 as [|[c d] E1 IH]; intros R a b E2 H; simpl in *.
  - tauto.
  - destruct H as [_ H]. apply IH in H. intros HL. apply H. revert HL. apply linked_mono.
    intros x y [E|Hxy]; [inversion E; subst; apply in_or_app; right; left; auto|].
    apply in_app_or in Hxy as [?|?]; apply in_or_app; auto. right. right. auto.
Qed.

Lemma build_ok (order : list (nat * slink) -> list (nat * slink)) E :
  (forall l, Permutation (order l) l) -> 1 <= n -> spanning_tree n E ->
  StronglySorted (fun e e' => lt (snd e') (snd e) = false) E ->
  exists root, build_slink order E = Ok root /\ dendrogram lt root /\ Permutation (leaves root) (seq 0 n) /\
    sl_size root = length (leaves root) /\ In (sl_representative root) (leaves root) /\
    Permutation (levels root) (map snd E) /\
    forall t i j, i < n -> j < n -> i <> j -> (joined_at lt root t i j <-> linked (ends (up_to lt t E)) i j).
Proof.
  intros Ho Hn (HL & HI & HS) Hsorted. unfold build_slink.
  assert (En : length E + 1 = n) by lia. rewrite En.
  assert (Hind : indep [] (ends E)).
  { apply (spanning_indep n); auto. unfold ends. now rewrite map_length. }
  assert (G : forall E2 E1 st, E = E1 ++ E2 -> binv E1 st -> exists st', for_each E2 build_step st = Ok st' /\ binv E st').
  { induction E2 as [|[[a b] w] E2 IH]; intros E1 st HE I.
    - rewrite app_nil_r in HE. subst E1. simpl. exists st. auto.
    - cbn [for_each]. assert (Hab : In (a, b, w) E) by (rewrite HE; apply in_or_app; right; left; auto).
      destruct (HI _ _ _ Hab) as [Ha Hb].
      destruct (step_ok E1 st a b w I Ha Hb) as (st1 & F & I1).
      + rewrite HE, ends_app in Hind. simpl in Hind. apply indep_snoc in Hind. now rewrite app_nil_r in Hind.
      + intros x y v Hx. apply (HI x y v). rewrite HE. apply in_or_app. auto.
      + intros e He. rewrite HE in Hsorted. clear - He Hsorted. induction E1 as [|e1 E1 IH1]; [contradiction|].
        inversion Hsorted as [|? ? H1 H2]; subst. destruct He as [->|He]; [|apply IH1; auto].
        rewrite Forall_forall in H2. apply (H2 (a, b, w)). apply in_or_app. right. left. auto.
      + rewrite F. cbn [bind]. apply (IH (E1 ++ [(a, b, w)])); auto. rewrite <- app_assoc. exact HE. }
  destruct (G E [] _ eq_refl init_ok) as ([nodes u] & F & I). rewrite F. cbn [bind].
  pose proof (bi_count _ _ I) as HC. cbn [fst] in HC. assert (Hlen : length nodes = 1) by lia.
  destruct nodes as [|[r s] [|? ?]]; try (simpl in Hlen; lia).
  specialize (Ho [(r, s)]). apply Permutation_sym, Permutation_length_1_inv in Ho. rewrite Ho.
  exists s. split; auto. pose proof (bi_node _ _ I r s (or_introl eq_refl)) as N. cbn [snd] in N.
  assert (Hall : forall x, x < n -> rootf u x = r).
  { intros x Hx. pose proof (bi_cover _ _ I x Hx) as H. cbn [fst snd] in H. simpl in H. destruct H as [H|[]]. auto. }
  splits.
  - apply N.
  - apply NoDup_Permutation; [apply N|apply seq_NoDup|]. intros x. rewrite (no_leaves _ _ _ _ N), in_seq. split; [lia|].
    intros H. split; [lia|]. apply Hall. lia.
  - apply N.
  - apply (no_leaves _ _ _ _ N). rewrite (no_rep _ _ _ _ N). split; apply N.
  - pose proof (bi_levels _ _ I) as HP. cbn [fst] in HP. simpl in HP. now rewrite app_nil_r in HP.
  - intros t i j Hi Hj Hij. apply (no_joined _ _ _ _ N); auto; apply (no_leaves _ _ _ _ N); auto.
Qed.
End Build.

(** Flat labels. *)
Section Flat.
Context {D : Type} (lt : D -> D -> bool) (zero : D).
Notation slink := (slink D).

Definition own_label (min : nat) (s : slink) : nat := if sl_size s <? min then 0 else sl_representative s.

Lemma descendant_leaves (s s' : slink) x : descendant s s' -> In x (leaves s') -> In x (leaves s).
Proof. induction 1; intros Hx; simpl; auto; apply in_or_app; auto. Qed.

Lemma descendant_trans (a b c : slink) : descendant a b -> descendant b c -> descendant a c.
Proof. induction 1; intros Hc; [auto|apply desc_left; auto|apply desc_right; auto]. Qed.

Definition labelled (cut : D) (min lab : nat) (s : slink) (x v : nat) : Prop :=
  (exists src, lowest_at_least lt zero cut s x src /\ v = own_label min src) \/
  (none_at_least lt zero cut s x /\ v = lab).

Lemma NoDup_app' (l1 l2 : list nat) : NoDup (l1 ++ l2) -> NoDup l1 /\ NoDup l2 /\ (forall x, In x l1 -> ~ In x l2).
Proof.
  induction l1 as [|y l1 IH]; simpl; intros H.
  - splits; auto. constructor.
  - inversion H as [|? ? H1 H2]; subst. destruct (IH H2) as (A & B & C). rewrite in_app_iff in H1. splits; auto.
    + constructor; auto.
    + intros x [<-|Hx]; auto.
Qed.

Lemma flat_ok cut min : forall s lab fc, NoDup (leaves s) -> (forall x, In x (leaves s) -> x < length fc) ->
  exists fc', flat_traversal lt zero cut min lab s fc = Ok fc' /\ length fc' = length fc /\
    (forall x, ~ In x (leaves s) -> nth_error fc' x = nth_error fc x) /\
    (forall x, In x (leaves s) -> exists v, nth_error fc' x = Some v /\ labelled cut min lab s x v).
Proof.
  induction s as [i|i v k l IHl r IHr]; intros lab fc Hn Hx; cbn [flat_traversal].
  - set (lab' := if negb (lt _ _) then _ else _). rewrite wr_lt by (apply Hx; left; auto).
    eexists. split; [reflexivity|]. splits.
    + apply upd_length.
    + intros x Hnx. apply nth_error_upd_neq. intros ->. apply Hnx. left. auto.
    + intros x [<-|[]]. exists lab'. split.
      * apply nth_error_upd_eq. apply Hx; left; auto.
      * unfold lab', labelled. destruct (lt (sl_level zero (SLeaf i)) cut) eqn:E; cbn [negb].
        -- right. split; auto. intros s Hd _. inversion Hd; subst. auto.
        -- left. exists (SLeaf i). split; [|auto]. unfold lowest_at_least. splits; [constructor|simpl; auto|exact E|].
           intros s' Hd _. inversion Hd; auto.
  - set (lab' := if negb (lt _ _) then _ else _). simpl in Hn, Hx. destruct (NoDup_app' _ _ Hn) as (Nl & Nr & Dis).
    destruct (IHl lab' fc Nl) as (fc1 & F1 & L1 & O1 & V1). { intros x H. apply Hx, in_or_app. auto. }
    rewrite F1. cbn [bind].
    destruct (IHr lab' fc1 Nr) as (fc2 & F2 & L2 & O2 & V2). { intros x H. rewrite L1. apply Hx, in_or_app. auto. }
    rewrite F2. exists fc2. split; auto. splits.
    + congruence.
    + intros x Hnx. simpl in Hnx. rewrite in_app_iff in Hnx. rewrite O2, O1; tauto.
    + assert (Lift : forall c w x y, (c = l \/ c = r) -> (forall s', descendant (SNode i w k l r) s' -> In x (leaves s') -> s' = SNode i w k l r \/ descendant c s') ->
                w = v -> In x (leaves c) -> labelled cut min lab' c x y -> labelled cut min lab (SNode i v k l r) x y).
      { intros c w x y Hc Only -> Hxc Hlab. destruct Hlab as [(src & (Hd & Hin & Hge & Hlow) & Hy)|(Hnone & Hy)].
        - left. exists src. split; [|auto]. unfold lowest_at_least. splits; auto. destruct Hc; subst c; [apply desc_left|apply desc_right]; auto.
        - subst y. unfold lab', labelled. destruct (lt (sl_level zero (SNode i v k l r)) cut) eqn:E; cbn [negb].
          + right. split; auto. intros s Hd Hs. destruct (Only s Hd Hs) as [->|Hcs]; auto.
          + left. exists (SNode i v k l r). split; [|auto]. unfold lowest_at_least. splits; [constructor| |exact E|].
            * simpl. apply in_or_app. destruct Hc; subst; auto.
            * intros s' Hd Hs. destruct (Only s' Hd Hs) as [->|Hcs]; auto. }
      intros x Hxin. simpl in Hxin. apply in_app_or in Hxin as [Hxl|Hxr].
      * destruct (V1 x Hxl) as (y & Hy & Hlab). exists y. split; [rewrite O2; auto|].
        apply (Lift l v); auto. intros s' Hd Hs. inversion Hd; subst; auto. exfalso. apply (Dis x Hxl). eapply descendant_leaves; eauto.
      * destruct (V2 x Hxr) as (y & Hy & Hlab). exists y. split; auto.
        apply (Lift r v); auto. intros s' Hd Hs. inversion Hd; subst; auto. exfalso. apply (Dis x); auto. eapply descendant_leaves; eauto.
Qed.

(** Nodes above one sample form a chain. *)
Lemma chain (root s s' : slink) x : NoDup (leaves root) -> descendant root s -> descendant root s' ->
  In x (leaves s) -> In x (leaves s') -> descendant s s' \/ descendant s' s.
Proof.
  intros Hn Hd. revert s'. induction Hd as [s|i v k l r s Hd IH|i v k l r s Hd IH]; intros s' Hd' Hx Hx'; auto;
    simpl in Hn; destruct (NoDup_app' _ _ Hn) as (Nl & Nr & Dis).
  - inversion Hd'; subst.
    + right. now apply desc_left.
    + apply IH; auto.
    + exfalso. apply (Dis x); eapply descendant_leaves; eauto.
  - inversion Hd'; subst.
    + right. now apply desc_right.
    + exfalso. apply (Dis x); eapply descendant_leaves; eauto.
    + apply IH; auto.
Qed.

Lemma descendant_antisym (a b : slink) : descendant a b -> descendant b a -> a = b.
Proof.
  assert (G : forall a b : slink, descendant a b -> a = b \/ length (leaves b) < length (leaves a)).
  { assert (P : forall s : slink, 1 <= length (leaves s)) by (induction s; simpl; rewrite ?app_length; lia).
    induction 1 as [s|i v k l r s Hd IH|i v k l r s Hd IH]; auto; right; simpl; rewrite app_length;
      pose proof (P l); pose proof (P r); destruct IH as [->|IH]; lia. }
  intros H1 H2. destruct (G _ _ H1) as [|L1]; auto. destruct (G _ _ H2) as [|L2]; auto. lia.
Qed.

Lemma lowest_unique cut root x s s' : NoDup (leaves root) -> lowest_at_least lt zero cut root x s ->
  lowest_at_least lt zero cut root x s' -> s = s'.
Proof.
  intros Hn (Hd & Hx & Hge & Hlow) (Hd' & Hx' & Hge' & Hlow'). destruct (chain root s s' x Hn Hd Hd' Hx Hx') as [H|H].
  - destruct (Hlow s' H Hx'); auto. congruence.
  - destruct (Hlow' s H Hx); auto. congruence.
Qed.

(** Two samples under a common node of level below the cut get the same label. *)
Lemma labelled_same cut min lab root m i j vi vj : NoDup (leaves root) -> descendant root m ->
  In i (leaves m) -> In j (leaves m) -> (forall s, descendant m s -> lt (sl_level zero s) cut = true) ->
  labelled cut min lab root i vi -> labelled cut min lab root j vj -> vi = vj.
Proof.
  intros Hn Hm Hi Hj Hlow.
  assert (Swap : forall i j src, In i (leaves m) -> In j (leaves m) -> lowest_at_least lt zero cut root i src -> lowest_at_least lt zero cut root j src).
  { clear i j Hi Hj. intros i j src Hi Hj (Hd & Hs & Hge & Hl). destruct (chain root src m i Hn Hd Hm Hs Hi) as [H|H].
    - unfold lowest_at_least. splits; auto; [eapply descendant_leaves; eauto|]. intros s' Hd' Hs'.
      assert (Hrs' : descendant root s') by (eapply descendant_trans; eauto).
      destruct (chain root m s' j Hn Hm Hrs' Hj Hs') as [Hms|Hsm]; auto.
      apply (Hl s' Hd'). eapply descendant_leaves; eauto.
    - rewrite (Hlow src H) in Hge. discriminate. }
  assert (Some_none : forall i j src, In i (leaves m) -> In j (leaves m) -> lowest_at_least lt zero cut root i src -> none_at_least lt zero cut root j -> False).
  { intros i' j' src Hi' Hj' HL HN. pose proof (Swap i' j' src Hi' Hj' HL) as (Hd & Hs & Hge & _).
    rewrite (HN src Hd Hs) in Hge. discriminate. }
  intros [(si & Hsi & ->)|(Hni & ->)] [(sj & Hsj & ->)|(Hnj & ->)]; auto.
  - f_equal. eapply lowest_unique; eauto.
  - exfalso. eapply (Some_none i j); eauto.
  - exfalso. eapply (Some_none j i); eauto.
Qed.

Lemma descendant_level (s s' : slink) : descendant s s' -> (exists i, s' = SLeaf i) \/ In (sl_level zero s') (levels s).
Proof.
  induction 1 as [s|i v k l r s Hd IH|i v k l r s Hd IH].
  - destruct s; simpl; eauto.
  - destruct IH as [IH|IH]; auto. right. simpl. right. apply in_or_app. auto.
  - destruct IH as [IH|IH]; auto. right. simpl. right. apply in_or_app. auto.
Qed.

Lemma dendrogram_descendant (s s' : slink) : descendant s s' -> dendrogram lt s -> dendrogram lt s'.
Proof. induction 1; simpl; intros; tauto. Qed.
End Flat.
