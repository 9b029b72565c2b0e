(** Invariants of Boruvka's algorithm. *)
From Coq Require Import List Arith ZArith Lia Bool Permutation Relations.
From Verif Require Import Base SortingModel SortingSpec BoundsModel BoundsSpec
  UnionFindModel UnionFindSpec UnionFindProofs BufferModel BufferSpec BufferProofs
  KDTreeModel KDTreeSpec KDTreeProofs SearchModel SearchSpec SearchProofs SearchProps
  GraphSpec GraphProofs BoruvkaSpec BoruvkaModel.
Import ListNotations.

(** ** Association lists *)
Lemma map_get_in c k v : NoDup (map fst c) -> In (k, v) c -> map_get c k = v.
Proof.
  induction c as [|[k' v'] c IH]; simpl; intros Hn Hi; [contradiction|]. inversion Hn as [|? ? H1 H2]; subst.
  destruct Hi as [E|Hi].
  - inversion E; subst. now rewrite Nat.eqb_refl.
  - destruct (Nat.eqb_spec k' k) as [->|]; auto. exfalso. apply H1. apply in_map_iff. exists (k, v). auto.
Qed.

Lemma map_set_keys c k v : In k (map fst c) -> map fst (map_set c k v) = map fst c.
Proof.
  induction c as [|[k' v'] c IH]; simpl; intros Hi; [contradiction|].
  destruct (Nat.eqb_spec k' k) as [->|Hne]; simpl; auto. f_equal. apply IH. destruct Hi; congruence.
Qed.

Lemma map_set_in c k v k' v' : NoDup (map fst c) -> In k (map fst c) ->
  (In (k', v') (map_set c k v) <-> (k' = k /\ v' = v) \/ (k' <> k /\ In (k', v') c)).
Proof.
  induction c as [|[k0 v0] c IH]; simpl; intros Hn Hi; [contradiction|]. inversion Hn as [|? ? H1 H2]; subst.
  destruct (Nat.eqb_spec k0 k) as [->|Hne]; simpl.
  - split.
    + intros [E|H]; [inversion E; auto|]. right. split; auto. intros ->. apply H1. apply in_map_iff. exists (k, v'). auto.
    + intros [[-> ->]|[Hk [E|H]]]; auto. inversion E; congruence.
  - rewrite IH; auto; [|destruct Hi; congruence]. split.
    + intros [E|[H|[H H']]]; auto. inversion E; subst. auto.
    + intros [H|[H [E|H']]]; auto.
Qed.

Lemma map_set_length c k v : In k (map fst c) -> length (map_set c k v) = length c.
Proof. intros H. rewrite <- (map_length fst), map_set_keys, map_length; auto. Qed.

Lemma map_erase_in c k k' v' : In (k', v') (map_erase c k) <-> k' <> k /\ In (k', v') c.
Proof.
  unfold map_erase. rewrite filter_In. simpl. rewrite negb_true_iff, Nat.eqb_neq. tauto.
Qed.

Lemma map_erase_keys c k x : In x (map fst (map_erase c k)) <-> x <> k /\ In x (map fst c).
Proof.
  rewrite !in_map_iff. split.
  - intros ([k' v'] & <- & H). apply map_erase_in in H as [H1 H2]. split; auto. exists (k', v'). auto.
  - intros (H & [k' v'] & <- & H'). exists (k', v'). split; auto. apply map_erase_in. auto.
Qed.

Lemma map_erase_nodup c k : NoDup (map fst c) -> NoDup (map fst (map_erase c k)).
Proof.
  unfold map_erase. induction c as [|[k' v'] c IH]; simpl; intros H; auto. inversion H as [|? ? H1 H2]; subst.
  destruct (negb (k' =? k)); simpl; auto. constructor; auto. intros Hi. apply H1.
  apply in_map_iff in Hi as (y & E & Hy). apply filter_In in Hy as [Hy _]. apply in_map_iff. eauto.
Qed.

Lemma map_erase_length c k : NoDup (map fst c) -> In k (map fst c) -> S (length (map_erase c k)) = length c.
Proof.
  unfold map_erase. induction c as [|[k' v'] c IH]; simpl; intros H Hi; [contradiction|]. inversion H as [|? ? H1 H2]; subst.
  destruct (Nat.eqb_spec k' k) as [->|Hne]; simpl.
  - f_equal. clear -H1. induction c as [|[k' v'] c IH]; simpl in *; auto.
    destruct (Nat.eqb_spec k' k) as [->|]; simpl; [exfalso; auto|]. f_equal. apply IH. auto.
  - f_equal. apply IH; auto. destruct Hi; congruence.
Qed.

Lemma rootf_same n u u' x : uinv n u -> uinv n u' -> same_roots (parents u) (parents u') -> x < n -> rootf u' x = rootf u x.
Proof. intros U U' S Hx. unfold rootf. rewrite (same_roots_rep n u u' x U U' Hx S). reflexivity. Qed.

Lemma rootf_lt n u x : uinv n u -> x < n -> rootf u x < n.
Proof. intros U Hx. pose proof (rootf_root n u x U Hx) as H. apply (root_lt _ _ _ _ _ _ (ui_p _ _ U)) in H. tauto. Qed.

Lemma rootf_idem n u x : uinv n u -> x < n -> rootf u (rootf u x) = rootf u x.
Proof.
  intros U Hx. eapply root_fun.
  - apply (rootf_root n); auto. now apply rootf_lt.
  - eapply root_idem. apply (rootf_root n); auto.
Qed.

Lemma NoDup_app_disjoint {A} (l l' : list A) : NoDup l -> NoDup l' -> (forall x, In x l -> In x l' -> False) ->
  NoDup (l ++ l').
Proof.
  induction 1 as [|x l Hx Hl IH]; simpl; auto. intros H' Hd. constructor.
  - rewrite in_app_iff. intros [H|H]; [auto|]. apply (Hd x); auto.
  - apply IH; auto. intros y Hy. apply Hd. auto.
Qed.

Section Boruvka.
Context (m : metric) (dist : list Z -> list Z -> m_dist m) (Hm : metric_ok m dist).
Context (samples : list Z) (nf : nat) (tree : kdtree) (n : nat).
Hypothesis Hperm : Permutation (seq 0 n) (kt_indices tree).
Hypothesis Hranges : kd_ranges (kt_indices tree) (kt_root tree).
Hypothesis Hsamples : kd_samples (kt_indices tree) (kt_root tree) = kt_indices tree.
Hypothesis Hordered : kd_ordered samples nf (kt_indices tree) (kt_root tree).
Hypothesis Hlen : length samples = n * nf.
Notation lt := (m_lt m).
Notation D := (m_dist m).

Definition W (i j : nat) : D := dist (row samples nf j) (row samples nf i).

Lemma data_ok i : In i (kt_indices tree) -> i * nf + nf <= length samples.
Proof. intros Hi. apply (Permutation_in i (Permutation_sym Hperm)) in Hi. apply in_seq in Hi. rewrite Hlen. nia. Qed.

Lemma sample_row i : i < n -> sample_at samples nf i = Ok (row samples nf i).
Proof.
  intros Hi. unfold sample_at, slice, row.
  assert (i * nf + nf <= length samples) by (rewrite Hlen; nia).
  destruct (Nat.leb_spec (i * nf) (i * nf + nf)); [|lia].
  destruct (Nat.leb_spec (i * nf + nf) (length samples)); [|lia].
  simpl. do 2 f_equal. lia.
Qed.

Lemma row_len i : i < n -> length (row samples nf i) = nf.
Proof. intros Hi. unfold row. rewrite firstn_length, skipn_length, Hlen. nia. Qed.

(** The search finds a nearest sample of another component. *)
Lemma nearest_ok u q r : uinv n u -> q < n -> r < n -> (exists x, x < n /\ rootf u x <> rootf u r) ->
  exists j u', nearest_of_other_component m samples nf tree q r u = Ok (j, W q j, u') /\
    uinv n u' /\ same_roots (parents u) (parents u') /\ j < n /\ rootf u j <> rootf u r /\
    forall y, y < n -> rootf u y <> rootf u r -> lt (W q y) (W q j) = false.
Proof.
  intros U Hq Hr (x & Hx & Hxr). unfold nearest_of_other_component. rewrite sample_row by auto. cbn [bind].
  destruct (search_bounded m dist Hm samples nf tree (seq 0 n) Unbounded (row samples nf q) (accept_other_component r)
              (fun i => negb (rootf u r =? rootf u i))
              (fun u' => uinv n u' /\ same_roots (parents u) (parents u')))
    with (k := 1) (s := u) as (b & u' & Es & (U' & SR) & A); auto using data_ok, row_len.
  - intros i u1 Hi' (U1 & SR1). apply in_seq in Hi'. assert (Hin : i < n) by lia. unfold accept_other_component.
    destruct (uf_find_correct n u1 r U1 Hr) as (u2 & r1 & E2 & R1 & U2 & SR2 & _). rewrite E2. cbn [bind].
    destruct (uf_find_correct n u2 i U2 Hin) as (u3 & r2 & E3 & R2 & U3 & SR3 & _). rewrite E3. cbn [bind].
    exists u3. split.
    + f_equal. f_equal. f_equal.
      assert (r1 = rootf u r).
      { eapply root_fun; [|apply (rootf_root n u r U Hr)]. now apply SR1. }
      assert (r2 = rootf u i).
      { eapply root_fun; [|apply (rootf_root n u i U Hin)]. apply SR1. now apply SR2. }
      congruence.
    + split; auto. eapply same_roots_trans; [eapply same_roots_trans|]; eauto.
  - unfold fits. lia.
  - split; auto. apply same_roots_refl.
  - rewrite Es. cbn [bind].
    set (cs := cands m dist samples nf Unbounded (row samples nf q) (fun i => negb (rootf u r =? rootf u i)) (seq 0 n)) in *.
    assert (Hcs : forall e, In e cs <-> fst e < n /\ rootf u (fst e) <> rootf u r /\ snd e = W q (fst e)).
    { intros [i d]. unfold cs, cands, with_distances. rewrite in_map_iff. simpl. split.
      - intros (i' & E & Hi'). inversion E; subst. apply filter_In in Hi' as [Hi' He].
        apply in_seq in Hi'. unfold elig in He. simpl in He. apply negb_true_iff, Nat.eqb_neq in He.
        splits; auto; lia.
      - intros (Hi' & He & ->). exists i. split; auto. apply filter_In. split; [apply in_seq; lia|].
        unfold elig. simpl. apply negb_true_iff, Nat.eqb_neq. auto. }
    destruct A as (L & (rest & P & LK & KN) & A).
    assert (Hne : cs <> []).
    { intros Ec. assert (In (x, W q x) cs) by (apply Hcs; auto). rewrite Ec in H. destruct H. }
    destruct (A Hne) as (_ & j & Ej & (Hj & Hf)). rewrite Ej. cbn [bind].
    assert (Hjc : In (j, buf_furthest_distance b) cs).
    { eapply Permutation_in; [exact P|]. apply in_or_app; auto. }
    apply Hcs in Hjc as Hjc'. simpl in Hjc'. destruct Hjc' as (Hjn & Hjr & Hd). rewrite Hd in *.
    exists j, u'. splits; auto. intros y Hy Hyr.
    assert (Hyc : In (y, W q y) cs) by (apply Hcs; auto).
    apply (Permutation_in _ (Permutation_sym P)) in Hyc.
    assert (L1 : length (combine (buf_indices b) (buf_distances b)) = 1).
    { rewrite LK. destruct cs; [congruence|]. simpl. lia. }
    destruct (combine (buf_indices b) (buf_distances b)) as [|e [|? ?]]; simpl in L1; try lia.
    destruct Hj as [->|[]]. destruct Hyc as [Ey|Hyc].
    + inversion Ey; subst. apply (lt_irrefl _ (mo_order m dist Hm)).
    + apply (KN (j, W q j) (y, W q y)); simpl; auto.
Qed.

(** ** One component's closest edge *)
Context (core : option (list D)).
Hypothesis Hcore : forall cs, core = Some cs -> length cs = n.

(** The weight an edge gets. *)
Definition mw (i j : nat) : D :=
  match core with
  | None => W i j
  | Some cs => max3 lt (nth i cs (m_inf m)) (nth j cs (m_inf m)) (W i j)
  end.

Lemma edge_weight_ok q j : q < n -> j < n -> edge_weight m core q j (W q j) = Ok (mw q j).
Proof.
  intros Hq Hj. unfold edge_weight, mw. destruct core as [cs|] eqn:E; auto.
  pose proof (Hcore cs eq_refl) as L.
  assert (R : forall i, i < n -> rd cs i = Ok (nth i cs (m_inf m))).
  { intros i Hi. apply rd_ok. apply nth_error_nth'. lia. }
  rewrite !R by auto. reflexivity.
Qed.

Definition edge_from (u : uf) (r : nat) (component : list nat) (e : edge m) : Prop :=
  let '(a, b, w) := e in
  a < n /\ b < n /\ rootf u a = r /\ rootf u b <> r /\ w = mw a b /\
  (core = None -> forall x y, In x component -> y < n -> rootf u y <> r -> lt (W x y) w = false).

Hypothesis Hfin : forall i j, i < n -> j < n -> lt (mw i j) (m_inf m) = true.

Lemma closest_edge_ok u r c : uinv n u -> r < n -> rootf u r = r -> c <> [] ->
  (forall x, In x c -> x < n /\ rootf u x = r) -> (exists x, x < n /\ rootf u x <> r) ->
  exists e u', closest_edge m samples nf tree core r c u = Ok (e, u') /\
    uinv n u' /\ same_roots (parents u) (parents u') /\ edge_from u r c e.
Proof.
  intros U Hr Hrr Hc Hcr Hx. unfold closest_edge.
  destruct (for_each_inv
    (fun done (st : edge m * uf) =>
       uinv n (snd st) /\ same_roots (parents u) (parents (snd st)) /\
       (done = [] /\ fst st = make_default_edge m \/ done <> [] /\ edge_from u r done (fst st)))
    (fun query_index '(current, u0) =>
       '(index, distance, u') <- nearest_of_other_component m samples nf tree query_index r u0 ;;
       w <- edge_weight m core query_index index distance ;;
       Ok (if m_lt m w (snd current) then ((query_index, index, w), u') else (current, u')))
    c [] (make_default_edge m, u)) as (st & E & U' & SR & HE).
  - simpl. splits; auto using same_roots_refl.
  - intros q d [cur u0] Hq (U0 & SR0 & HE). simpl in *.
    destruct (Hcr q Hq) as [Hqn Hqr].
    assert (R0 : forall x, x < n -> rootf u0 x = rootf u x) by (intros; eapply rootf_same; eauto).
    destruct (nearest_ok u0 q r U0 Hqn Hr) as (j & u1 & En & U1 & SR1 & Hj & Hjr & Hmin).
    { destruct Hx as (x & Hx & Hxr). exists x. rewrite !R0, Hrr by auto. auto. }
    rewrite En. cbn [bind]. rewrite edge_weight_ok by auto. cbn [bind].
    rewrite !R0, Hrr in Hjr by auto.
    assert (SR' : same_roots (parents u) (parents u1)) by (eapply same_roots_trans; eauto).
    assert (Hnew : lt (mw q j) (snd cur) = true -> edge_from u r (d ++ [q]) (q, j, mw q j)).
    { intros Hlt. unfold edge_from. splits; auto. intros Hnone x y Hxd Hy Hyr.
      assert (Hyq : lt (W q y) (W q j) = false) by (apply Hmin; rewrite ?R0, ?Hrr; auto).
      assert (Hmw : mw q j = W q j) by (unfold mw; now rewrite Hnone).
      apply in_app_or in Hxd as [Hxd|[<-|[]]]; [|now rewrite Hmw].
      destruct HE as [[-> _]|[Hd He]]; [destruct Hxd|].
      destruct cur as [[a b] w]. unfold edge_from in He. destruct He as (_ & _ & _ & _ & _ & He).
      apply (le_trans _ (mo_order m dist Hm) _ w); [|apply He; auto]. simpl in Hlt. now apply (lt_asym _ (mo_order m dist Hm)). }
    destruct (lt (mw q j) (snd cur)) eqn:Hlt.
    + eexists. split; [reflexivity|]. simpl. splits; auto. right. split; [destruct d; discriminate|exact (Hnew eq_refl)].
    + eexists. split; [reflexivity|]. simpl. splits; auto. right. split; [destruct d; discriminate|].
      destruct HE as [[-> ->]|[Hd He]].
      { simpl in Hlt. rewrite Hfin in Hlt by auto. discriminate. }
      destruct cur as [[a b] w]. unfold edge_from in *. destruct He as (H1 & H2 & H3 & H4 & H5 & He).
      splits; auto. intros Hnone x y Hxd Hy Hyr. apply in_app_or in Hxd as [Hxd|[<-|[]]]; auto.
      assert (Hyq : lt (W q y) (W q j) = false) by (apply Hmin; rewrite ?R0, ?Hrr; auto).
      assert (Hmw : mw q j = W q j) by (unfold mw; now rewrite Hnone).
      rewrite Hmw in Hlt. simpl in Hlt. apply (le_trans _ (mo_order m dist Hm) _ (W q j)); auto.
  - simpl in HE. destruct st as [e u']. simpl in *. exists e, u'. splits; auto.
    destruct HE as [[? _]|[_ He]]; [contradiction|auto].
Qed.

(** ** Forest invariant *)
Record forest_inv (f : forest m) : Prop := {
  fi_uf : uinv n (f_union_find m f);
  fi_tracks : tracks n (f_union_find m f) (ends (f_mst m f));
  fi_edges : forall a b w, In (a, b, w) (f_mst m f) -> a < n /\ b < n /\ w = mw a b;
  fi_nodup : NoDup (map fst (f_components m f));
  fi_comp : forall r c, In (r, c) (f_components m f) ->
    r < n /\ rootf (f_union_find m f) r = r /\ forall x, In x c <-> x < n /\ rootf (f_union_find m f) x = r;
  fi_distinct : forall r c, In (r, c) (f_components m f) -> NoDup c;
  fi_cover : forall x, x < n -> In (rootf (f_union_find m f) x) (map fst (f_components m f));
  fi_count : length (f_mst m f) + length (f_components m f) = n }.

Lemma tracks_rootf u pairs i j : uinv n u -> tracks n u pairs -> i < n -> j < n ->
  (rootf u i = rootf u j <-> linked pairs i j).
Proof. intros U T Hi Hj. apply T; auto; apply (rootf_root n); auto. Qed.

Lemma forest_inv_uf f u' : forest_inv f -> uinv n u' -> same_roots (parents (f_union_find m f)) (parents u') ->
  forest_inv (mk_forest m (f_mst m f) (f_components m f) u').
Proof.
  intros I U' SR.
  assert (R : forall x, x < n -> rootf u' x = rootf (f_union_find m f) x).
  { intros x Hx. eapply rootf_same; eauto. apply I. }
  constructor; simpl; try apply I; auto.
  - eapply tracks_same; eauto. apply I.
  - intros r c Hrc. destruct (fi_comp f I r c Hrc) as (H1 & H2 & H3). splits; auto.
    + now rewrite R.
    + intros x. rewrite H3. split; intros [Hx Hr]; split; auto; rewrite R in *; auto.
  - intros x Hx. rewrite R by auto. now apply I.
Qed.

Lemma merge_ok f a b w : forest_inv f -> a < n -> b < n -> w = mw a b ->
  exists f', merge_components m (a, b, w) f = Ok f' /\ forest_inv f' /\
    ((linked (ends (f_mst m f)) a b /\ f_mst m f' = f_mst m f /\ length (f_components m f') = length (f_components m f)) \/
     (~ linked (ends (f_mst m f)) a b /\ f_mst m f' = f_mst m f ++ [(a, b, w)] /\
      S (length (f_components m f')) = length (f_components m f))).
Proof.
  intros I Ha Hb Hw. set (u := f_union_find m f).
  pose proof (fi_uf f I) as U. fold u in U.
  unfold merge_components. fold u.
  destruct (uf_find_correct n u a U Ha) as (u1 & r1 & E1 & R1 & U1 & S1 & _). rewrite E1. cbn [bind].
  destruct (uf_find_correct n u1 b U1 Hb) as (u2 & r2 & E2 & R2 & U2 & S2 & _). rewrite E2. cbn [bind].
  assert (S12 : same_roots (parents u) (parents u2)) by (eapply same_roots_trans; eauto).
  assert (Er1 : r1 = rootf u a) by (eapply root_fun; [exact R1|apply (rootf_root n); auto]).
  assert (Er2 : r2 = rootf u b) by (eapply root_fun; [apply S1; exact R2|apply (rootf_root n); auto]).
  pose proof (tracks_rootf u _ a b U (fi_tracks f I) Ha Hb) as Tab. rewrite <- Er1, <- Er2 in Tab.
  destruct (Nat.eqb_spec r1 r2) as [Heq|Hne].
  { eexists. split; [reflexivity|]. split; [now apply forest_inv_uf|]. left. simpl. tauto. }
  destruct (uf_merge_correct n u2 a b U2 Ha Hb) as (u3 & ri & rj & r & E3 & U3 & Ri & Rj & Hr & Hmap).
  rewrite E3. cbn [bind].
  assert (ri = r1) by (eapply root_fun; [apply S12; exact Ri|auto]). subst ri.
  assert (rj = r2) by (eapply root_fun; [apply S12; exact Rj|apply S1; auto]). subst rj.
  assert (R3 : forall x, x < n -> rootf u3 x = if rootf u x =? r1 then r else if rootf u x =? r2 then r else rootf u x).
  { intros x Hx. eapply root_fun; [apply (rootf_root n); auto|]. apply Hmap. apply S12. apply (rootf_root n); auto. }
  assert (Hkey : forall x, x < n -> exists c, In (rootf u x, c) (f_components m f)).
  { intros x Hx. pose proof (fi_cover f I x Hx) as H. fold u in H. apply in_map_iff in H as ([k c] & E & H). simpl in E. subst k. eauto. }
  destruct (Hkey a Ha) as (c1 & Hc1). destruct (Hkey b Hb) as (c2 & Hc2). rewrite <- Er1 in Hc1. rewrite <- Er2 in Hc2.
  destruct (fi_comp f I _ _ Hc1) as (Hr1n & Hr1r & Hin1). destruct (fi_comp f I _ _ Hc2) as (Hr2n & Hr2r & Hin2).
  fold u in Hr1r, Hr2r, Hin1, Hin2.
  (* the two symmetric cases *)
  assert (G : forall ret disc cr cd,
    (ret = r1 /\ disc = r2 /\ cr = c1 /\ cd = c2) \/ (ret = r2 /\ disc = r1 /\ cr = c2 /\ cd = c1) -> r = ret ->
    forest_inv (mk_forest m (f_mst m f ++ [(a, b, w)])
          (map_erase (map_set (f_components m f) ret (map_get (f_components m f) ret ++ map_get (f_components m f) disc)) disc) u3) /\
    S (length (map_erase (map_set (f_components m f) ret (map_get (f_components m f) ret ++ map_get (f_components m f) disc)) disc))
      = length (f_components m f)).
  { intros ret disc cr cd HC Hret. subst r.
    pose proof (fi_nodup f I) as ND.
    assert (Kr : In (ret, cr) (f_components m f)) by (destruct HC as [(-> & -> & -> & ->)|(-> & -> & -> & ->)]; auto).
    assert (Kd : In (disc, cd) (f_components m f)) by (destruct HC as [(-> & -> & -> & ->)|(-> & -> & -> & ->)]; auto).
    assert (Hrd : ret <> disc) by (destruct HC as [(-> & -> & _)|(-> & -> & _)]; auto).
    assert (Kr' : In ret (map fst (f_components m f))) by (apply in_map_iff; exists (ret, cr); auto).
    assert (Kd' : In disc (map fst (f_components m f))) by (apply in_map_iff; exists (disc, cd); auto).
    rewrite (map_get_in _ _ _ ND Kr), (map_get_in _ _ _ ND Kd).
    assert (HR3 : forall x, x < n -> rootf u3 x = if rootf u x =? disc then ret else rootf u x).
    { intros x Hx. rewrite R3 by auto. destruct HC as [(-> & -> & _)|(-> & -> & _)].
      - destruct (Nat.eqb_spec (rootf u x) r1), (Nat.eqb_spec (rootf u x) r2); congruence.
      - destruct (Nat.eqb_spec (rootf u x) r1), (Nat.eqb_spec (rootf u x) r2); congruence. }
    assert (Hcr : forall x, In x cr <-> x < n /\ rootf u x = ret) by (apply (fi_comp f I _ _ Kr)).
    assert (Hcd : forall x, In x cd <-> x < n /\ rootf u x = disc) by (apply (fi_comp f I _ _ Kd)).
    assert (ND' : NoDup (map fst (map_set (f_components m f) ret (cr ++ cd)))) by (rewrite map_set_keys; auto).
    assert (Lk : S (length (map_erase (map_set (f_components m f) ret (cr ++ cd)) disc)) = length (f_components m f)).
    { rewrite map_erase_length; auto; rewrite ?map_set_length, ?map_set_keys; auto. }
    split; [|exact Lk]. constructor; simpl; auto.
    - (* tracks *)
      assert (T : tracks n u3 ((a, b) :: ends (f_mst m f))).
      { apply (tracks_merge n u u3 a b r1 r2 ret); auto.
        - intros x y Hxy. unfold ends in Hxy. apply in_map_iff in Hxy as ([[x' y'] w'] & E & Hxy).
          simpl in E. inversion E; subst. apply (fi_edges f I) in Hxy. tauto.
        - now apply S1.
        - intros x rx Hx. apply Hmap. now apply S12.
        - apply I. }
      eapply tracks_iff; [|exact T]. intros x y. unfold ends. rewrite map_app, in_app_iff. simpl. tauto.
    - intros x y w' Hxy. apply in_app_or in Hxy as [Hxy|[E|[]]]; [now apply (fi_edges f I)|]. inversion E; subst; auto.
    - now apply map_erase_nodup.
    - intros k c Hk. apply map_erase_in in Hk as [Hkd Hk]. apply map_set_in in Hk as [[-> ->]|[Hkr Hk]]; auto.
      + assert (Hretn : ret < n) by (destruct (fi_comp f I _ _ Kr); auto).
        splits; auto.
        * rewrite HR3 by auto. destruct (fi_comp f I _ _ Kr) as (_ & Err & _). fold u in Err. rewrite Err.
          destruct (Nat.eqb_spec ret disc); auto.
        * intros x. rewrite in_app_iff, Hcr, Hcd. split.
          -- intros [[Hx Ex]|[Hx Ex]]; split; auto; rewrite HR3, Ex by auto; destruct (Nat.eqb_spec ret disc), (Nat.eqb_spec disc disc); congruence.
          -- intros [Hx Ex]. rewrite HR3 in Ex by auto. destruct (Nat.eqb_spec (rootf u x) disc); auto.
      + destruct (fi_comp f I _ _ Hk) as (Hkn & Hkk & Hin). fold u in Hkk, Hin. splits; auto.
        * rewrite HR3, Hkk by auto. destruct (Nat.eqb_spec k disc); congruence.
        * intros x. rewrite Hin. split; intros [Hx Ex]; split; auto; rewrite HR3 in * by auto;
            destruct (Nat.eqb_spec (rootf u x) disc); congruence.
    - intros k c Hk. apply map_erase_in in Hk as [Hkd Hk]. apply map_set_in in Hk as [[-> ->]|[Hkr Hk]]; auto.
      + apply NoDup_app_disjoint; try (eapply (fi_distinct f I); eauto). intros x Hx Hx'. apply Hcr in Hx. apply Hcd in Hx'.
        destruct Hx, Hx'. congruence.
      + apply (fi_distinct f I k c Hk).
    - intros x Hx. apply map_erase_keys. rewrite map_set_keys by auto. rewrite HR3 by auto.
      destruct (Nat.eqb_spec (rootf u x) disc); split; auto. now apply (fi_cover f I).
    - rewrite app_length. simpl. pose proof (fi_count f I). lia. }
  destruct (Nat.eqb_spec r1 r) as [Hc|Hc].
  - destruct (G r1 r2 c1 c2) as [G1 G2]; auto 10. eexists. split; [reflexivity|]. split; [exact G1|]. right. simpl. splits; auto. tauto.
  - destruct (G r2 r1 c2 c1) as [G1 G2]; auto 10. { destruct Hr; congruence. }
    eexists. split; [reflexivity|]. split; [exact G1|]. right. simpl. splits; auto. tauto.
Qed.

(** ** Merging the edges proposed by all components *)
Hypothesis Hsym : forall i j, i < n -> j < n -> W i j = W j i.

(** [e] is what component [r] of the partition [c0] proposes. *)
Definition proposed (c0 : nat -> nat) (r : nat) (e : edge m) : Prop :=
  let '(a, b, w) := e in
  r < n /\ c0 r = r /\ a < n /\ b < n /\ c0 a = r /\ c0 b <> r /\ w = mw a b /\
  (core = None -> forall x y, x < n -> y < n -> c0 x = r -> c0 y <> r -> lt (W x y) w = false).

Lemma cut_of_class f a : forest_inv f -> a < n ->
  exists S : nat -> bool, S a = true /\
    (forall x, x < n -> (S x = true <-> linked (ends (f_mst m f)) a x)) /\
    (forall x y w, In (x, y, w) (f_mst m f) -> S x = S y).
Proof.
  intros I Ha. set (u := f_union_find m f).
  assert (U : uinv n u) by apply I.
  exists (fun x => rootf u a =? rootf u x). splits.
  - apply Nat.eqb_refl.
  - intros x Hx. rewrite Nat.eqb_eq. apply tracks_rootf; auto. apply I.
  - intros x y w Hxy. assert (rootf u x = rootf u y) as ->; auto.
    destruct (fi_edges f I _ _ _ Hxy) as (Hx & Hy & _).
    apply (tracks_rootf u (ends (f_mst m f))); auto; [apply I|].
    apply linked_in. unfold ends. apply in_map_iff. exists (x, y, w). auto.
Qed.

Lemma merges_ok (c0 : nat -> nat) (L : list (nat * edge m)) :
  (forall r e, In (r, e) L -> proposed c0 r e) ->
  (forall x, x < n -> c0 x < n /\ c0 (c0 x) = c0 x /\ exists e, In (c0 x, e) L) ->
  forall pending f, (forall x, In x pending -> In x L) -> NoDup (map fst pending) ->
  forest_inv f ->
  (forall x y, x < n -> y < n -> c0 x = c0 y -> linked (ends (f_mst m f)) x y) ->
  (core = None -> lightest_cuts lt n W (f_mst m f) /\
     (forall r e r' e', In (r, e) pending -> In (r', e') pending -> linked (ends (f_mst m f)) r r' -> r = r') /\
     (forall r e s e', In (r, e) pending -> In (s, e') L -> linked (ends (f_mst m f)) r s -> lt (snd e') (snd e) = false)) ->
  exists f', for_each pending (fun re f => merge_components m (snd re) f) f = Ok f' /\ forest_inv f' /\
    (core = None -> lightest_cuts lt n W (f_mst m f')) /\
    (forall x y, linked (ends (f_mst m f)) x y -> linked (ends (f_mst m f')) x y) /\
    (forall r a b w, In (r, (a, b, w)) pending -> linked (ends (f_mst m f')) a b).
Proof.
  intros HL Hall. induction pending as [|[r [[a b] w]] pending IH]; intros f Hsub Hnd I H0 HN.
  - simpl. exists f. splits; auto. { intros Hc. apply (HN Hc). } { intros ? ? ? ? []. }
  - cbn [for_each fst snd].
    inversion Hnd as [|? ? Hnr Hnd']; subst.
    pose proof (HL r (a, b, w) (Hsub _ (or_introl eq_refl))) as (Hr & Hrr & Ha & Hb & Har & Hbr & Hw & Hlight).
    destruct (merge_ok f a b w I Ha Hb Hw) as (f1 & E1 & I1 & HC). rewrite E1. cbn [bind].
    assert (Mono : forall x y, linked (ends (f_mst m f)) x y -> linked (ends (f_mst m f1)) x y).
    { intros x y. apply linked_mono. intros c d. destruct HC as [(_ & -> & _)|(_ & -> & _)]; auto.
      unfold ends. rewrite map_app, in_app_iff. auto. }
    assert (Hnone : core = None -> lightest_cuts lt n W (f_mst m f1) /\
     (forall r e r' e', In (r, e) pending -> In (r', e') pending -> linked (ends (f_mst m f1)) r r' -> r = r') /\
     (forall r e s e', In (r, e) pending -> In (s, e') L -> linked (ends (f_mst m f1)) r s -> lt (snd e') (snd e) = false)).
    { intros Hc. destruct (HN Hc) as (C & K & J). destruct HC as [(Hlk & Em & _)|(Hlk & Em & _)]; rewrite Em.
      - splits; auto.
        + intros s e s' e' H1 H2. apply (K s e s' e'); right; auto.
        + intros s e s' e' H1. apply (J s e s' e'); right; auto.
      - (* a new edge *)
        assert (Hra : linked (ends (f_mst m f)) r a) by (apply H0; auto; congruence).
        assert (Hin' : forall x y, linked (ends (f_mst m f ++ [(a, b, w)])) x y ->
                  linked (ends (f_mst m f)) x y \/
                  (linked (ends (f_mst m f)) x a /\ linked (ends (f_mst m f)) b y) \/
                  (linked (ends (f_mst m f)) x b /\ linked (ends (f_mst m f)) a y)).
        { intros x y Hxy. apply linked_cons. revert Hxy. apply linked_mono. intros c d.
          unfold ends. rewrite map_app, in_app_iff. simpl. tauto. }
        assert (Knew : forall s e, In (s, e) pending -> ~ linked (ends (f_mst m f)) s a).
        { intros s e Hs Hsa. assert (s = r).
          { apply (K s e r (a, b, w)); [right; auto|left; auto|]. eapply linked_trans; [exact Hsa|]. now apply linked_sym. }
          subst s. apply Hnr. apply in_map_iff. exists (r, e). auto. }
        splits.
        + apply lightest_cuts_snoc; auto.
          destruct (cut_of_class f a I Ha) as (S & Sa & Sx & Se). exists S. splits; auto.
          * rewrite Sa. intros Sb. symmetry in Sb. apply (Sx b Hb) in Sb. contradiction.
          * assert (G : forall x y, x < n -> y < n -> S x = true -> S y = false -> lt (W x y) w = false).
            { intros x y Hx Hy Tx Ty. apply (Sx x Hx) in Tx.
              destruct (Hall x Hx) as (Hsn & Hss & e & He).
              destruct e as [[a' b'] w'].
              pose proof (HL _ _ He) as (_ & _ & _ & _ & _ & _ & _ & Hl').
              assert (Hxs : linked (ends (f_mst m f)) x (c0 x)) by (apply H0; auto).
              assert (Hrs : linked (ends (f_mst m f)) r (c0 x)).
              { eapply linked_trans; [exact Hra|]. eapply linked_trans; [exact Tx|exact Hxs]. }
              specialize (J r (a, b, w) (c0 x) (a', b', w') (or_introl eq_refl) He Hrs). simpl in J.
              apply (le_trans _ (mo_order m dist Hm) _ w'); auto.
              apply (Hl' Hc x y Hx Hy eq_refl). intros Exy.
              assert (S y = true); [|congruence]. apply (Sx y Hy).
              eapply linked_trans; [exact Tx|]. apply H0; auto. }
            intros x y Hx Hy Hne. destruct (S x) eqn:Tx, (S y) eqn:Ty; try congruence; auto.
            rewrite Hsym by auto. auto.
        + intros s e s' e' H1 H2 Hss'. apply Hin' in Hss' as [Hss'|[[H3 H4]|[H3 H4]]].
          * apply (K s e s' e'); auto; right; auto.
          * exfalso. eapply Knew; [exact H1|exact H3].
          * exfalso. eapply Knew; [exact H2|]. now apply linked_sym.
        + intros s e t e' H1 H2 Hst. apply Hin' in Hst as [Hst|[[H3 H4]|[H3 H4]]].
          * apply (J s e t e'); auto; right; auto.
          * exfalso. eapply Knew; [exact H1|exact H3].
          * (* s ~ b, a ~ t *)
            assert (J1 : lt (snd e') w = false).
            { apply (J r (a, b, w) t e' (or_introl eq_refl) H2). eapply linked_trans; eauto. }
            destruct (Hall b Hb) as (Hsn & Hss & [[a' b'] w'] & He).
            assert (J2 : lt w' (snd e) = false).
            { apply (J s e (c0 b) (a', b', w')); [right; auto|auto|]. eapply linked_trans; [exact H3|]. apply H0; auto. }
            pose proof (HL _ _ He) as (_ & _ & _ & _ & _ & _ & _ & Hl').
            assert (J3 : lt w w' = false).
            { assert (Ew : w = W b a). { rewrite Hw. unfold mw. rewrite Hc. now apply Hsym. }
              rewrite Ew. apply (Hl' Hc b a Hb Ha eq_refl). congruence. }
            apply (le_trans _ (mo_order m dist Hm) _ w'); auto.
            apply (le_trans _ (mo_order m dist Hm) _ w); auto. }
    destruct (IH f1) as (f2 & E2 & I2 & C2 & L2 & L3); auto.
    { intros x Hx. apply Hsub. right; auto. }
    exists f2. splits; auto.
    intros r' a' b' w'' [Heq|Hin]; [|eapply L3; eauto]. inversion Heq; subst r' a' b' w''. apply L2.
    destruct HC as [(Hl & _)|(_ & -> & _)]; [now apply Mono|]. apply linked_in. unfold ends. apply in_map_iff.
    exists (a, b, w). split; auto. apply in_or_app. right. now left.
Qed.

(** Every new component consists of two or more old ones. *)
Lemma fibers_halve (g : nat -> nat) : forall N O : list nat, NoDup N -> NoDup O ->
  (forall y, In y N -> exists x1 x2, In x1 O /\ In x2 O /\ x1 <> x2 /\ g x1 = y /\ g x2 = y) -> 2 * length N <= length O.
Proof.
  induction N as [|y N IH]; intros O HN HO H; [simpl; lia|].
  inversion HN as [|? ? Hy HN']; subst.
  destruct (H y (or_introl eq_refl)) as (x1 & x2 & H1 & H2 & Hne & G1 & G2).
  assert (L1 : 2 * length N <= length (filter (fun x => negb (g x =? y)) O)).
  { apply IH; auto. { now apply NoDup_filter. }
    intros z Hz. destruct (H z (or_intror Hz)) as (z1 & z2 & Z1 & Z2 & Zne & F1 & F2).
    assert (z <> y) by (intros ->; contradiction).
    exists z1, z2. rewrite !filter_In. splits; auto; apply negb_true_iff, Nat.eqb_neq; congruence. }
  assert (L2 : 2 <= length (filter (fun x => g x =? y) O)).
  { change 2 with (length [x1; x2]). apply NoDup_incl_length.
    - repeat constructor; simpl; intuition congruence.
    - intros x [<-|[<-|[]]]; apply filter_In; split; auto; now apply Nat.eqb_eq. }
  assert (L3 : length (filter (fun x => g x =? y) O) + length (filter (fun x => negb (g x =? y)) O) = length O).
  { clear. induction O as [|x O IH]; simpl; auto. destruct (g x =? y); simpl; lia. }
  simpl. lia.
Qed.

Lemma classes_halve f f' : forest_inv f -> forest_inv f' ->
  (forall x y, linked (ends (f_mst m f)) x y -> linked (ends (f_mst m f')) x y) ->
  (forall x, x < n -> exists a b, a < n /\ b < n /\ rootf (f_union_find m f) a = rootf (f_union_find m f) x /\
     rootf (f_union_find m f) b <> rootf (f_union_find m f) x /\ linked (ends (f_mst m f')) a b) ->
  2 * n_components m f' <= n_components m f.
Proof.
  intros I I' Mono Hedge. set (u := f_union_find m f) in *. set (u' := f_union_find m f').
  assert (U : uinv n u) by apply I. assert (U' : uinv n u') by apply I'.
  assert (Hl : forall x y, x < n -> y < n -> (rootf u x = rootf u y <-> linked (ends (f_mst m f)) x y)).
  { intros x y Hx Hy. apply tracks_rootf; auto. apply I. }
  assert (Hl' : forall x y, x < n -> y < n -> (rootf u' x = rootf u' y <-> linked (ends (f_mst m f')) x y)).
  { intros x y Hx Hy. apply tracks_rootf; auto. apply I'. }
  assert (G : forall x, x < n -> rootf u' (rootf u x) = rootf u' x).
  { intros x Hx. assert (rootf u x < n) by now apply (rootf_lt n). apply Hl'; auto. apply Mono. apply Hl; auto.
    now apply (rootf_idem n). }
  unfold n_components. rewrite <- !(map_length fst). apply (fibers_halve (rootf u')); [apply I'|apply I|].
  intros y Hy. apply in_map_iff in Hy as ([y' c] & Ey & Hy). simpl in Ey. subst y'.
  destruct (fi_comp f' I' y c Hy) as (Hyn & Hyy & _). fold u' in Hyy.
  destruct (Hedge y Hyn) as (a & b & Ha & Hb & Ea & Eb & Hab).
  exists (rootf u y), (rootf u b). splits; auto.
  - now apply (fi_cover f I).
  - now apply (fi_cover f I).
  - now rewrite G.
  - rewrite G by auto. apply Hl' in Hab; auto. rewrite <- Hab, <- (G a Ha), Ea, G; auto.
Qed.

(** ** One round *)
Context (order_components : nat -> list (nat * list nat) -> list (nat * list nat)).
Context (order_edges : nat -> list (nat * edge m) -> list (nat * edge m)).
Hypothesis Hoc : forall i l, Permutation (order_components i l) l.
Hypothesis Hoe : forall i l, Permutation (order_edges i l) l.

Lemma other_component f r : forest_inv f -> 1 < n_components m f -> In r (map fst (f_components m f)) ->
  exists x, x < n /\ rootf (f_union_find m f) x <> r.
Proof.
  intros I H1 Hr. unfold n_components in H1. pose proof (fi_nodup f I) as ND.
  assert (G : exists s, In s (map fst (f_components m f)) /\ s <> r).
  { rewrite <- (map_length fst) in H1. destruct (map fst (f_components m f)) as [|a [|b l]]; simpl in H1; try lia.
    inversion ND as [|? ? Hn _]; subst. destruct (Nat.eq_dec a r) as [->|]; [|exists a; simpl; auto].
    exists b. split; [right; left; auto|]. intros ->. apply Hn. left; auto. }
  destruct G as (s & Hs & Hne). apply in_map_iff in Hs as ([s' c] & E & Hs). simpl in E. subst s'.
  destruct (fi_comp f I s c Hs) as (Hsn & Hss & _). exists s. rewrite Hss. auto.
Qed.

Lemma component_ok f r c : forest_inv f -> In (r, c) (f_components m f) ->
  r < n /\ rootf (f_union_find m f) r = r /\ c <> [] /\
  (forall x, In x c -> x < n /\ rootf (f_union_find m f) x = r).
Proof.
  intros I H. destruct (fi_comp f I r c H) as (H1 & H2 & H3). splits; auto.
  - intros ->. assert (In r []) by (apply H3; auto). destruct H0.
  - intros x. apply H3.
Qed.

Lemma edge_from_proposed f r c e : forest_inv f -> In (r, c) (f_components m f) ->
  edge_from (f_union_find m f) r c e -> proposed (rootf (f_union_find m f)) r e.
Proof.
  intros I H. destruct (fi_comp f I r c H) as (H1 & H2 & H3).
  destruct e as [[a b] w]. intros (E1 & E2 & E3 & E4 & E5 & E6). unfold proposed. splits; auto.
  intros Hc x y Hx Hy Hxr Hyr. apply E6; auto. apply H3. auto.
Qed.

Lemma merge_proposals i f edges u' : let u := f_union_find m f in
  forest_inv f -> 1 < n_components m f -> (core = None -> lightest_cuts lt n W (f_mst m f)) ->
  uinv n u' -> same_roots (parents u) (parents u') ->
  Permutation (map fst edges) (map fst (f_components m f)) ->
  (forall r e, In (r, e) edges -> proposed (rootf u) r e) ->
  exists f', for_each (order_edges i edges) (fun re f => merge_components m (snd re) f)
      (mk_forest m (f_mst m f) (f_components m f) u') = Ok f' /\ forest_inv f' /\
    (core = None -> lightest_cuts lt n W (f_mst m f')) /\ 2 * n_components m f' <= n_components m f.
Proof.
  intros u I H1 HC U' SR Hk Hp.
  pose proof (Hoe i edges) as Pe.
  assert (Pk : Permutation (map fst (order_edges i edges)) (map fst (f_components m f))).
  { rewrite (Permutation_map fst Pe). exact Hk. }
  pose proof (forest_inv_uf f u' I U' SR) as I'.
  assert (UI : uinv n u) by apply I.
  assert (Hp' : forall r e, In (r, e) (order_edges i edges) -> proposed (rootf u) r e).
  { intros r e Hr. apply Hp. eapply Permutation_in; eauto. }
  assert (Hlink : forall x y, x < n -> y < n -> (rootf u x = rootf u y <-> linked (ends (f_mst m f)) x y)).
  { intros x y Hx Hy. apply tracks_rootf; auto. apply I. }
  destruct (merges_ok (rootf u) (order_edges i edges) Hp') with
    (pending := order_edges i edges) (f := mk_forest m (f_mst m f) (f_components m f) u')
    as (f2 & E2 & I2 & C2 & L2 & D2); auto.
  + intros x Hx. splits.
    * apply (rootf_lt n); auto.
    * apply (rootf_idem n); auto.
    * pose proof (fi_cover f I x Hx) as Hcov. fold u in Hcov.
      apply (Permutation_in _ (Permutation_sym Pk)) in Hcov. apply in_map_iff in Hcov as ([r e] & Er & Hre).
      simpl in Er. subst r. eauto.
  + rewrite Pk. apply I.
  + simpl. intros x y Hx Hy. apply Hlink; auto.
  + simpl. intros Hnone. splits; auto.
    * intros r e r' e' Hr Hr' Hl. apply Hp' in Hr, Hr'. destruct e as [[? ?] ?], e' as [[? ?] ?].
      destruct Hr as (R1 & R2 & _), Hr' as (R3 & R4 & _). apply Hlink in Hl; auto. congruence.
    * intros r e r' e' Hr Hr' Hl.
      assert (Hr0 := Hr). assert (Hr0' := Hr').
      apply Hp' in Hr, Hr'. destruct e as [[a b] w], e' as [[a' b'] w'].
      destruct Hr as (R1 & R2 & R3 & R4 & R5 & R6 & R7 & R8), Hr' as (S1 & S2 & S3 & S4 & S5 & S6 & S7 & S8).
      apply Hlink in Hl; auto. simpl. assert (r = r') by congruence. subst r'.
      assert (Ew : w' = W a' b') by (rewrite S7; unfold mw; now rewrite Hnone).
      rewrite Ew. apply R8; auto; congruence.
  + exists f2. splits; auto. simpl in L2. apply classes_halve; auto. fold u. intros x Hx.
    pose proof (fi_cover f I x Hx) as Hcov. fold u in Hcov.
    apply (Permutation_in _ (Permutation_sym Pk)) in Hcov. apply in_map_iff in Hcov as ([r [[a b] w]] & Er & Hre).
    simpl in Er. subst r. destruct (Hp' _ _ Hre) as (_ & _ & Ha & Hb & Har & Hbr & _).
    exists a, b. splits; auto. eapply D2; eauto.
Qed.

Lemma step_ok i f : forest_inv f -> 1 < n_components m f -> (core = None -> lightest_cuts lt n W (f_mst m f)) ->
  exists f', step_sequential m samples nf tree order_components order_edges core i f = Ok f' /\ forest_inv f' /\
    (core = None -> lightest_cuts lt n W (f_mst m f')) /\ 2 * n_components m f' <= n_components m f.
Proof.
  intros I H1 HC. unfold step_sequential. set (u := f_union_find m f).
  pose proof (Hoc i (f_components m f)) as Pc.
  destruct (for_each_inv
    (fun (done : list (nat * list nat)) (st : list (nat * edge m) * uf) =>
       uinv n (snd st) /\ same_roots (parents u) (parents (snd st)) /\
       map fst (fst st) = map fst done /\
       (forall r e, In (r, e) (fst st) -> proposed (rootf u) r e))
    (fun rc '(edges, u) =>
         '(e, u') <- closest_edge m samples nf tree core (fst rc) (snd rc) u ;;
         Ok (edges ++ [(fst rc, e)], u'))
    (order_components i (f_components m f)) [] ([], u)) as ([edges u'] & E & U' & SR & Hk & Hp).
  - simpl. splits; auto using same_roots_refl; try apply I. intros r e [].
  - intros [r c] done [edges u0] Hin (U0 & SR0 & Hk & Hp). simpl in *.
    apply (Permutation_in _ Pc) in Hin.
    destruct (component_ok f r c I Hin) as (Hr & Hrr & Hc & Hcx). fold u in Hrr, Hcx.
    assert (R0 : forall x, x < n -> rootf u0 x = rootf u x) by (intros; eapply rootf_same; eauto; apply I).
    destruct (closest_edge_ok u0 r c U0 Hr) as (e & u1 & Ee & U1 & SR1 & He); auto.
    { rewrite R0; auto. }
    { intros x Hx. destruct (Hcx x Hx). split; auto. rewrite R0; auto. }
    { destruct (other_component f r I H1) as (x & Hx & Hxr). { apply in_map_iff. exists (r, c). auto. }
      exists x. rewrite R0; auto. }
    rewrite Ee. cbn [bind]. eexists. split; [reflexivity|]. simpl. splits; auto.
    + eapply same_roots_trans; eauto.
    + rewrite !map_app. simpl. congruence.
    + intros s e' Hs. apply in_app_or in Hs as [Hs|[Hs|[]]]; auto. inversion Hs; subst.
      apply (edge_from_proposed f s c e'); auto. fold u.
      destruct e' as [[a b] w]. unfold edge_from in *. destruct He as (E1 & E2 & E3 & E4 & E5 & E6).
      rewrite R0 in E3, E4 by auto. splits; auto.
      intros Hnone x y Hx Hy Hyr. apply E6; auto. rewrite R0; auto.
  - rewrite E. cbn [bind]. simpl in U', SR, Hk, Hp.
    apply merge_proposals; auto. rewrite Hk. now apply Permutation_map.
Qed.

Lemma smallest_ok l : l <> [] -> exists rc, smallest_component l = Ok rc /\ In rc l /\
  forall rc', In rc' l -> length (snd rc) <= length (snd rc').
Proof.
  intros Hl. destruct l as [|x l]; [congruence|]. unfold smallest_component.
  destruct (for_each_inv (fun done (found : nat * list nat) =>
      In found (x :: l) /\ forall y, In y done -> length (snd found) <= length (snd y))
    (fun it found => Ok (if length (snd it) <? length (snd found) then it else found)) (x :: l) [] x)
    as (rc & E & H1 & H2).
  - split; [left; auto|]. intros y [].
  - intros y d t Hy (H1 & H2). eexists. split; [reflexivity|].
    destruct (Nat.ltb_spec (length (snd y)) (length (snd t))).
    + split; auto. intros z Hz. apply in_app_or in Hz as [Hz|[<-|[]]]; auto. specialize (H2 z Hz). lia.
    + split; auto. intros z Hz. apply in_app_or in Hz as [Hz|[<-|[]]]; auto.
  - exists rc. auto.
Qed.

Lemma dual_step_ok i f : forest_inv f -> n_components m f = 2 -> (core = None -> lightest_cuts lt n W (f_mst m f)) ->
  exists f', dual_component_step_sequential m samples nf tree order_components core i f = Ok f' /\ forest_inv f' /\
    (core = None -> lightest_cuts lt n W (f_mst m f')) /\ 2 * n_components m f' <= n_components m f.
Proof.
  intros I H2 HC. assert (H1 : 1 < n_components m f) by lia. unfold dual_component_step_sequential. set (u := f_union_find m f).
  pose proof (Hoc i (f_components m f)) as Pc.
  destruct (smallest_ok (order_components i (f_components m f))) as ([r c] & Es & Hin & _).
  { intros E. rewrite E in Pc. apply Permutation_length in Pc. unfold n_components in H1. simpl in Pc. lia. }
  rewrite Es. cbn [bind]. apply (Permutation_in _ Pc) in Hin.
  destruct (component_ok f r c I Hin) as (Hr & Hrr & Hc & Hcx). fold u in Hrr, Hcx.
  assert (UI : uinv n u) by apply I.
  destruct (closest_edge_ok u r c UI Hr) as (e & u1 & Ee & U1 & SR1 & He); auto.
  { apply (other_component f r I H1). apply in_map_iff. exists (r, c). auto. }
  rewrite Ee. cbn [bind].
  pose proof (forest_inv_uf f u1 I U1 SR1) as I'.
  destruct e as [[a b] w].
  pose proof (edge_from_proposed f r c _ I Hin He) as (_ & _ & Ha & Hb & Har & Hbr & Hw & Hl). fold u in Har, Hbr, Hl.
  destruct (merge_ok _ a b w I' Ha Hb Hw) as (f' & Em & If & HCases). exists f'. rewrite Em. simpl in HCases.
  assert (Hlink : forall x y, x < n -> y < n -> (rootf u x = rootf u y <-> linked (ends (f_mst m f)) x y)).
  { intros x y Hx Hy. apply tracks_rootf; auto. apply I. }
  destruct HCases as [(Hlk & _)|(Hlk & Emst & Hlen')].
  { apply Hlink in Hlk; auto. congruence. }
  splits; auto.
  - intros Hnone. rewrite Emst. apply lightest_cuts_snoc; auto.
    destruct (cut_of_class f a I Ha) as (S & Sa & Sx & Se). exists S. splits; auto.
    + rewrite Sa. intros Sb. symmetry in Sb. apply (Sx b Hb) in Sb. contradiction.
    + assert (G : forall x y, x < n -> y < n -> S x = true -> S y = false -> lt (W x y) w = false).
      { intros x y Hx Hy Tx Ty. apply (Sx x Hx) in Tx. apply Hlink in Tx; auto. apply Hl; auto; [congruence|].
        intros Ey. assert (S y = true); [|congruence]. apply (Sx y Hy). apply Hlink; auto. congruence. }
      intros x y Hx Hy Hne. destruct (S x) eqn:Tx, (S y) eqn:Ty; try congruence; auto.
      rewrite Hsym by auto. auto.
  - unfold n_components in *. lia.
Qed.

Lemma any_step_ok i f : forest_inv f -> 1 < n_components m f -> (core = None -> lightest_cuts lt n W (f_mst m f)) ->
  exists f', (if n_components m f =? 2 then dual_component_step_sequential m samples nf tree order_components core i f
                 else step_sequential m samples nf tree order_components order_edges core i f) = Ok f' /\ forest_inv f' /\
    (core = None -> lightest_cuts lt n W (f_mst m f')) /\ 2 * n_components m f' <= n_components m f.
Proof. intros I H HC. destruct (Nat.eqb_spec (n_components m f) 2); [now apply dual_step_ok|now apply step_ok]. Qed.

Lemma loop_ok : forall fuel i f, forest_inv f -> (core = None -> lightest_cuts lt n W (f_mst m f)) ->
  n_components m f <= S fuel ->
  exists f', make_tree_loop m samples nf tree order_components order_edges core fuel i f = Ok f' /\ forest_inv f' /\
    (core = None -> lightest_cuts lt n W (f_mst m f')) /\ n_components m f' <= 1.
Proof.
  induction fuel as [|fuel IH]; intros i f I HC Hn; cbn [make_tree_loop].
  - destruct (Nat.ltb_spec 1 (n_components m f)); [lia|]. exists f. splits; auto.
  - destruct (Nat.ltb_spec 1 (n_components m f)); [|exists f; splits; auto].
    destruct (any_step_ok i f I) as (f1 & E1 & I1 & C1 & L1); auto. rewrite E1. cbn [bind]. apply IH; auto. lia.
Qed.

Lemma make_forest_inv : 0 < n -> exists f, make_forest m n = Ok f /\ forest_inv f /\ f_mst m f = [] /\ n_components m f = n.
Proof.
  intros Hn. unfold make_forest. destruct (Nat.eqb_spec n 0); [lia|]. eexists. split; [reflexivity|].
  assert (U : uinv n (uf_make n)) by apply uinv_make.
  assert (R : forall x, x < n -> rootf (uf_make n) x = x).
  { intros x Hx. pose proof (rootf_root n _ x U Hx) as H. now apply root_make in H. }
  split; [|split; [auto|]].
  - constructor; simpl; auto.
    + apply tracks_make.
    + intros a b w [].
    + rewrite map_map. simpl. rewrite map_id. apply seq_NoDup.
    + intros r c H. apply in_map_iff in H as (x & E & Hx). inversion E; subst. apply in_seq in Hx.
      assert (r < n) by lia. splits; auto. intros x. simpl. split.
      * intros [<-|[]]. auto.
      * intros [Hxn Hxr]. rewrite R in Hxr by auto. auto.
    + intros r c H. apply in_map_iff in H as (x & E & Hx). inversion E; subst. repeat constructor. intros [].
    + intros x Hx. rewrite R by auto. rewrite map_map. simpl. rewrite map_id. apply in_seq. lia.
    + rewrite map_length, seq_length. reflexivity.
  - unfold n_components. simpl. now rewrite map_length, seq_length.
Qed.

Lemma run_ok fuel : 0 < n -> n <= S fuel ->
  exists f0 f, make_forest m n = Ok f0 /\
    make_tree_loop m samples nf tree order_components order_edges core fuel 0 f0 = Ok f /\
    forest_inv f /\ (core = None -> lightest_cuts lt n W (f_mst m f)) /\ spanning_tree n (f_mst m f).
Proof.
  intros Hn Hf. destruct (make_forest_inv Hn) as (f0 & E0 & I0 & M0 & N0).
  destruct (loop_ok fuel 0 f0 I0) as (f & E & I & C & L); try lia.
  { intros _. rewrite M0. intros E1 a b w E2 Heq. destruct E1; discriminate. }
  exists f0, f. splits; auto. unfold spanning_tree. splits.
  - pose proof (fi_count f I) as Hc. unfold n_components in L.
    destruct (f_components m f) as [|x l] eqn:Ec.
    { pose proof (fi_cover f I 0 Hn) as H. rewrite Ec in H. destruct H. }
    destruct l; simpl in *; [|lia]. match goal with |- ?a = _ => enough (a + 1 = n) by lia end. exact Hc.
  - intros a b w H. apply (fi_edges f I) in H. tauto.
  - intros i j Hi Hj. apply (tracks_rootf (f_union_find m f)); auto; try apply I.
    pose proof (fi_cover f I i Hi) as H1. pose proof (fi_cover f I j Hj) as H2. unfold n_components in L.
    destruct (f_components m f) as [|x [|y l]]; simpl in *; try lia; intuition congruence.
Qed.
End Boruvka.

Lemma max3_in {D} (lt : D -> D -> bool) a b c : In (max3 lt a b c) [a; b; c].
Proof. unfold max3. simpl. destruct (lt a b); [destruct (lt b c)|destruct (lt a c)]; auto. Qed.

Lemma max3_largest {D} (lt : D -> D -> bool) a b c : order_ok lt -> largest lt (max3 lt a b c) [a; b; c].
Proof.
  intros Ho. split; [apply max3_in|].
  assert (R : forall x, lt x x = false) by (intros; now apply lt_irrefl).
  unfold max3. intros x Hx. simpl in Hx.
  destruct (lt a b) eqn:E1.
  - pose proof (lt_asym _ Ho _ _ E1) as E1'. destruct (lt b c) eqn:E2.
    + pose proof (lt_asym _ Ho _ _ E2) as E2'. destruct Hx as [<-|[<-|[<-|[]]]]; auto. eapply (le_trans _ Ho); eauto.
    + destruct Hx as [<-|[<-|[<-|[]]]]; auto.
  - destruct (lt a c) eqn:E2.
    + pose proof (lt_asym _ Ho _ _ E2) as E2'. destruct Hx as [<-|[<-|[<-|[]]]]; auto. eapply (le_trans _ Ho); eauto.
    + destruct Hx as [<-|[<-|[<-|[]]]]; auto.
Qed.

Section Core.
Context (m : metric) (dist : list Z -> list Z -> m_dist m) (Hm : metric_ok m dist).
Context (samples : list Z) (nf : nat) (tree : kdtree) (n : nat).
Hypothesis Hperm : Permutation (seq 0 n) (kt_indices tree).
Hypothesis Hranges : kd_ranges (kt_indices tree) (kt_root tree).
Hypothesis Hsamples : kd_samples (kt_indices tree) (kt_root tree) = kt_indices tree.
Hypothesis Hordered : kd_ordered samples nf (kt_indices tree) (kt_root tree).
Hypothesis Hlen : length samples = n * nf.
Notation lt := (m_lt m).
Notation D := (m_dist m).


Lemma Forall2_nth {A B} (R : A -> B -> Prop) l l' i a b :
  Forall2 R l l' -> i < length l -> R (nth i l a) (nth i l' b).
Proof.
  intros H. revert i. induction H; intros i Hi; simpl in *; [lia|]. destruct i; auto. apply IHForall2. lia.
Qed.

Lemma Forall2_len {A B} (R : A -> B -> Prop) l l' : Forall2 R l l' -> length l = length l'.
Proof. induction 1; simpl; auto. Qed.

Lemma core_ok k : 1 <= k -> fits k ->
  exists cs, make_static_core_distances m samples nf tree n k = Ok cs /\ length cs = n /\
    forall i, i < n -> core_distance lt dist samples nf n k i (nth i cs (m_inf m)).
Proof.
  intros H1 Hk. unfold make_static_core_distances.
  destruct (for_each_inv (fun done (cs : list D) => Forall2 (core_distance lt dist samples nf n k) done cs)
    (fun sample_index core =>
       query <- sample_at samples nf sample_index ;;
       '(b, _) <- search m samples nf tree Unbounded query accept_all k tt ;;
       Ok (core ++ [buf_furthest_distance b])) (seq 0 n) [] []) as (cs & E & HC).
  - constructor.
  - intros x done cs Hx HC. apply in_seq in Hx. assert (Hxn : x < n) by lia.
    rewrite (sample_row samples nf n Hlen) by auto. cbn [bind].
    destruct (search_bounded m dist Hm samples nf tree (seq 0 n) Unbounded (row samples nf x) accept_all (fun _ => true) (fun _ => True))
      with (k := k) (s := tt) as (b & s' & Es & _ & A); auto.
    + apply (data_ok samples nf tree n Hperm Hlen).
    + apply (row_len samples nf n Hlen). auto.
    + intros i s _ _. exists s. auto.
    + rewrite Es. cbn [bind]. eexists. split; [reflexivity|]. apply Forall2_app; auto. constructor; [|constructor].
      unfold cands, elig, within in A. cbn [andb] in A. rewrite filter_true in A.
      destruct A as (AL & AK & AF). destruct AF as (_ & j & _ & Hj).
      { intros Hnil. apply (f_equal (@length _)) in Hnil. unfold with_distances in Hnil.
        rewrite map_length, seq_length in Hnil. simpl in Hnil. lia. }
      exists (combine (buf_indices b) (buf_distances b)), j. auto.
  - exists cs. simpl in HC. splits; auto.
    + apply Forall2_len in HC. rewrite seq_length in HC. auto.
    + intros i Hi. pose proof (Forall2_nth _ _ _ i 0 (m_inf m) HC) as H. rewrite seq_length, seq_nth in H by auto.
      apply H. auto.
Qed.

Lemma core_in k i d : core_distance lt dist samples nf n k i d -> exists j, j < n /\ d = W m dist samples nf i j.
Proof.
  intros (stored & j & (rest & P & _) & (Hj & _)). exists j.
  assert (H : In (j, d) (with_distances dist samples nf (row samples nf i) (seq 0 n))).
  { eapply Permutation_in; [exact P|]. apply in_or_app. auto. }
  unfold with_distances in H. apply in_map_iff in H as (x & E & Hx). inversion E; subst. apply in_seq in Hx.
  split; [lia|reflexivity].
Qed.

(** ** No progress when no distance is below infinity *)
Section Stuck.
Context (core : option (list D)).
Hypothesis Hcore : forall cs, core = Some cs -> length cs = n.
Hypothesis Hinf : forall i j, i < n -> j < n -> lt (mw m dist samples nf core i j) (m_inf m) = false.
Context (order_components : nat -> list (nat * list nat) -> list (nat * list nat)).
Context (order_edges : nat -> list (nat * edge m) -> list (nat * edge m)).
Hypothesis Hoc : forall i l, Permutation (order_components i l) l.
Hypothesis Hoe : forall i l, Permutation (order_edges i l) l.
Notation inv := (forest_inv m dist samples nf n core).

Lemma stuck_edge u r c : uinv n u -> r < n -> (forall x, In x c -> x < n) -> (exists x, x < n /\ rootf u x <> rootf u r) ->
  exists u', closest_edge m samples nf tree core r c u = Ok (make_default_edge m, u') /\
    uinv n u' /\ same_roots (parents u) (parents u').
Proof.
  intros U Hr Hc (x & Hx & Hxr). unfold closest_edge.
  destruct (for_each_inv (fun (_ : list nat) (st : edge m * uf) =>
      fst st = make_default_edge m /\ uinv n (snd st) /\ same_roots (parents u) (parents (snd st)))
    (fun query_index '(current, u) =>
       '(index, distance, u') <- nearest_of_other_component m samples nf tree query_index r u ;;
       w <- edge_weight m core query_index index distance ;;
       Ok (if m_lt m w (snd current) then ((query_index, index, w), u') else (current, u')))
    c [] (make_default_edge m, u)) as ([e u'] & E & E1 & U' & S'); simpl in *.
  - splits; auto using same_roots_refl.
  - intros q d [cur u0] Hq (Ec & U0 & S0). simpl in *. subst cur.
    assert (R0 : forall x, x < n -> rootf u0 x = rootf u x) by (intros; eapply rootf_same; eauto).
    destruct (nearest_ok m dist Hm samples nf tree n Hperm Hranges Hsamples Hordered Hlen u0 q r U0)
      as (j & u1 & En & U1 & S1 & Hj & _ & _); auto.
    { exists x. rewrite !R0; auto. }
    rewrite En. cbn [bind]. rewrite (edge_weight_ok m dist samples nf n Hlen core Hcore) by auto. cbn [bind].
    simpl. rewrite Hinf by auto. eexists. split; [reflexivity|]. simpl. splits; auto. eapply same_roots_trans; eauto.
  - subst e. exists u'. auto.
Qed.

Lemma stuck_merge f : inv f -> 0 < n ->
  exists u', merge_components m (make_default_edge m) f = Ok (mk_forest m (f_mst m f) (f_components m f) u') /\
    uinv n u' /\ same_roots (parents (f_union_find m f)) (parents u').
Proof.
  intros I Hn. unfold merge_components, make_default_edge. cbn [fst snd].
  destruct (uf_find_correct n (f_union_find m f) 0 (fi_uf _ _ _ _ _ _ _ I) Hn) as (u1 & r1 & E1 & R1 & U1 & S1 & _).
  rewrite E1. cbn [bind].
  destruct (uf_find_correct n u1 0 U1 Hn) as (u2 & r2 & E2 & R2 & U2 & S2 & _). rewrite E2. cbn [bind].
  assert (r1 = r2) as ->.
  { apply S1 in R1. eapply root_fun; eauto. }
  rewrite Nat.eqb_refl. exists u2. splits; auto. eapply same_roots_trans; eauto.
Qed.

Lemma stuck_step i f : inv f -> 1 < n_components m f ->
  exists f', (if n_components m f =? 2 then dual_component_step_sequential m samples nf tree order_components core i f
              else step_sequential m samples nf tree order_components order_edges core i f) = Ok f' /\ inv f' /\
    n_components m f' = n_components m f.
Proof.
  intros I H1.
  assert (Hn : 0 < n). { pose proof (fi_count _ _ _ _ _ _ _ I). unfold n_components in H1. lia. }
  assert (G : forall r c, In (r, c) (f_components m f) -> r < n /\ (forall x, In x c -> x < n) /\
              exists x, x < n /\ rootf (f_union_find m f) x <> rootf (f_union_find m f) r).
  { intros r c Hin. destruct (component_ok m dist samples nf n core f r c I Hin) as (Hr & Hrr & _ & Hc). splits; auto.
    - intros x Hx. now apply Hc.
    - rewrite Hrr. apply (other_component m dist samples nf n Hlen core f r I H1). apply in_map_iff. exists (r, c). auto. }
  destruct (n_components m f =? 2).
  - unfold dual_component_step_sequential.
    pose proof (Hoc i (f_components m f)) as Pc.
    destruct (smallest_ok samples nf n Hlen (order_components i (f_components m f))) as ([r c] & Es & Hin & _).
    { intros E. rewrite E in Pc. apply Permutation_length in Pc. unfold n_components in H1. simpl in Pc. lia. }
    rewrite Es. cbn [bind]. apply (Permutation_in _ Pc) in Hin. destruct (G r c Hin) as (Hr & Hc & Hx).
    destruct (stuck_edge (f_union_find m f) r c) as (u1 & E1 & U1 & S1); auto. { apply I. }
    rewrite E1. cbn [bind].
    pose proof (forest_inv_uf m dist samples nf n core f u1 I U1 S1) as I1.
    destruct (stuck_merge _ I1 Hn) as (u2 & E2 & U2 & S2). cbn [f_mst f_components f_union_find] in E2, S2. rewrite E2.
    eexists. split; [reflexivity|]. split; auto. apply (forest_inv_uf m dist samples nf n core _ u2 I1 U2 S2).
  - unfold step_sequential. set (u := f_union_find m f).
    pose proof (Hoc i (f_components m f)) as Pc.
    destruct (for_each_inv
      (fun (done : list (nat * list nat)) (st : list (nat * edge m) * uf) =>
         uinv n (snd st) /\ same_roots (parents u) (parents (snd st)) /\
         (forall r e, In (r, e) (fst st) -> e = make_default_edge m))
      (fun rc '(edges, u) =>
           '(e, u') <- closest_edge m samples nf tree core (fst rc) (snd rc) u ;;
           Ok (edges ++ [(fst rc, e)], u'))
      (order_components i (f_components m f)) [] ([], u)) as ([edges u'] & E & U' & SR & Hp).
    + simpl. splits; auto using same_roots_refl; try apply I. intros r e [].
    + intros [r c] done [edges u0] Hin (U0 & SR0 & Hp). simpl in *.
      apply (Permutation_in _ Pc) in Hin. destruct (G r c Hin) as (Hr & Hc & x & Hx & Hxr). fold u in Hxr.
      assert (R0 : forall x, x < n -> rootf u0 x = rootf u x) by (intros; eapply rootf_same; eauto; apply I).
      destruct (stuck_edge u0 r c) as (u1 & E1 & U1 & S1); auto. { exists x. rewrite !R0; auto. }
      rewrite E1. cbn [bind]. eexists. split; [reflexivity|]. simpl. splits; auto.
      * eapply same_roots_trans; eauto.
      * intros s e Hs. apply in_app_or in Hs as [Hs|[Hs|[]]]; eauto. now inversion Hs.
    + rewrite E. cbn [bind]. simpl in U', SR, Hp.
      pose proof (forest_inv_uf m dist samples nf n core f u' I U' SR) as I'.
      destruct (for_each_inv (fun (_ : list (nat * edge m)) g => inv g /\ n_components m g = n_components m f)
        (fun re f => merge_components m (snd re) f) (order_edges i edges) [] (mk_forest m (f_mst m f) (f_components m f) u'))
        as (f' & E' & If & Hf); [auto| |exists f'; auto].
      intros [r e] d g Hre (Ig & Hg). apply (Permutation_in _ (Hoe i edges)) in Hre. apply Hp in Hre. subst e. cbn [snd].
      destruct (stuck_merge g Ig Hn) as (u2 & E2 & U2 & S2). rewrite E2. eexists. split; [reflexivity|].
      split; [apply (forest_inv_uf m dist samples nf n core _ u2 Ig U2 S2)|auto].
Qed.

Lemma stuck_loop : forall fuel i f, inv f -> 1 < n_components m f ->
  make_tree_loop m samples nf tree order_components order_edges core fuel i f = Fuel.
Proof.
  induction fuel as [|fuel IH]; intros i f I H1; cbn [make_tree_loop]; destruct (Nat.ltb_spec 1 (n_components m f)); try lia; auto.
  destruct (stuck_step i f I H1) as (f' & E & I' & N'). rewrite E. cbn [bind]. apply IH; auto. lia.
Qed.
End Stuck.

(** ** Two groups of samples with no distance below infinity between them *)
Section Split.
Context (core : option (list D)).
Hypothesis Hcore : forall cs, core = Some cs -> length cs = n.
Context (side : nat -> bool).
Hypothesis Hinf : forall i j, i < n -> j < n -> side i <> side j -> lt (mw m dist samples nf core i j) (m_inf m) = false.
Context (order_components : nat -> list (nat * list nat) -> list (nat * list nat)).
Context (order_edges : nat -> list (nat * edge m) -> list (nat * edge m)).
Hypothesis Hoc : forall i l, Permutation (order_components i l) l.
Hypothesis Hoe : forall i l, Permutation (order_edges i l) l.
Notation inv := (forest_inv m dist samples nf n core).
Definition one_sided (f : forest m) : Prop := inv f /\ forall a b w, In (a, b, w) (f_mst m f) -> side a = side b.
Definition stays (e : edge m) : Prop :=
  e = make_default_edge m \/
  exists q j, q < n /\ j < n /\ side q = side j /\ e = (q, j, mw m dist samples nf core q j).

Lemma split_edge u r c : uinv n u -> r < n -> (forall x, In x c -> x < n) -> (exists x, x < n /\ rootf u x <> rootf u r) ->
  exists e u', closest_edge m samples nf tree core r c u = Ok (e, u') /\ stays e /\
    uinv n u' /\ same_roots (parents u) (parents u').
Proof.
  intros U Hr Hc (x & Hx & Hxr). unfold closest_edge.
  destruct (for_each_inv (fun (_ : list nat) (st : edge m * uf) =>
      (stays (fst st) /\ (snd (fst st) = m_inf m \/ lt (snd (fst st)) (m_inf m) = true)) /\
      uinv n (snd st) /\ same_roots (parents u) (parents (snd st)))
    (fun query_index '(current, u) =>
       '(index, distance, u') <- nearest_of_other_component m samples nf tree query_index r u ;;
       w <- edge_weight m core query_index index distance ;;
       Ok (if m_lt m w (snd current) then ((query_index, index, w), u') else (current, u')))
    c [] (make_default_edge m, u)) as ([e u'] & E & (E1 & _) & U' & S'); simpl in *.
  - splits; auto using same_roots_refl. now left.
  - intros q d [cur u0] Hq ((Ec & Ed) & U0 & S0). simpl in *.
    assert (R0 : forall x, x < n -> rootf u0 x = rootf u x) by (intros; eapply rootf_same; eauto).
    destruct (nearest_ok m dist Hm samples nf tree n Hperm Hranges Hsamples Hordered Hlen u0 q r U0)
      as (j & u1 & En & U1 & S1 & Hj & _ & _); auto.
    { exists x. rewrite !R0; auto. }
    rewrite En. cbn [bind]. rewrite (edge_weight_ok m dist samples nf n Hlen core Hcore) by auto. cbn [bind].
    eexists. split; [reflexivity|].
    destruct (lt (mw m dist samples nf core q j) (snd cur)) eqn:Elt; simpl.
    + assert (Hlt : lt (mw m dist samples nf core q j) (m_inf m) = true).
      { destruct Ed as [Ed|Ed]; [now rewrite <- Ed|].
        destruct (lt (mw m dist samples nf core q j) (m_inf m)) eqn:E0; auto.
        rewrite <- Elt. symmetry. apply (le_trans _ (mo_order m dist Hm) _ (m_inf m)); auto. apply (lt_asym _ (mo_order m dist Hm)). auto. }
      splits; auto; [|eapply same_roots_trans; eauto]. right. exists q, j. splits; auto.
      destruct (Bool.bool_dec (side q) (side j)) as [|Hne]; auto. rewrite (Hinf q j) in Hlt; auto. discriminate.
    + splits; auto. eapply same_roots_trans; eauto.
  - exists e, u'. auto.
Qed.

Lemma split_merge f e : one_sided f -> stays e -> 0 < n ->
  exists f', merge_components m e f = Ok f' /\ one_sided f'.
Proof.
  intros (I & HS) He Hn. destruct He as [->|(q & j & Hq & Hj & Hs & ->)].
  - destruct (stuck_merge core f I Hn) as (u' & E & U' & S'). eexists. split; [exact E|]. split; [|exact HS].
    now apply forest_inv_uf.
  - destruct (merge_ok m dist samples nf n Hlen core f q j _ I Hq Hj eq_refl) as (f' & E & I' & H).
    exists f'. split; auto. split; auto. intros a b w Hin. destruct H as [(_ & E1 & _)|(_ & E1 & _)]; rewrite E1 in Hin.
    + eauto.
    + apply in_app_or in Hin as [Hin|[Hin|[]]]; eauto. inversion Hin; subst; auto.
Qed.

Lemma split_uf f u' : one_sided f -> uinv n u' -> same_roots (parents (f_union_find m f)) (parents u') ->
  one_sided (mk_forest m (f_mst m f) (f_components m f) u').
Proof. intros (I & HS) U S. split; auto. now apply forest_inv_uf. Qed.

Lemma split_components f a b : one_sided f -> a < n -> b < n -> side a <> side b -> 1 < n_components m f.
Proof.
  intros (I & HS) Ha Hb Hne.
  assert (Hr : rootf (f_union_find m f) a <> rootf (f_union_find m f) b).
  { intros E. apply Hne. apply (tracks_rootf n _ _ a b (fi_uf _ _ _ _ _ _ _ I) (fi_tracks _ _ _ _ _ _ _ I) Ha Hb) in E.
    clear -E HS. unfold linked in E.
    induction E as [x y E|x|x y E IH|x y z E1 IH1 E2 IH2]; auto; [|congruence].
    unfold ends in E. apply in_map_iff in E as ([[p q] w] & Epq & Hin). inversion Epq; subst. eauto. }
  pose proof (fi_cover _ _ _ _ _ _ _ I a Ha) as Ka. pose proof (fi_cover _ _ _ _ _ _ _ I b Hb) as Kb.
  unfold n_components. rewrite <- (map_length fst).
  destruct (map fst (f_components m f)) as [|x [|y l]]; simpl in *; [tauto| |lia].
  destruct Ka as [Ka|[]], Kb as [Kb|[]]. congruence.
Qed.

Lemma split_step i f : one_sided f -> 1 < n_components m f ->
  exists f', (if n_components m f =? 2 then dual_component_step_sequential m samples nf tree order_components core i f
              else step_sequential m samples nf tree order_components order_edges core i f) = Ok f' /\ one_sided f'.
Proof.
  intros J H1. pose proof (proj1 J) as I.
  assert (Hn : 0 < n). { pose proof (fi_count _ _ _ _ _ _ _ I). unfold n_components in H1. lia. }
  assert (G : forall r c, In (r, c) (f_components m f) -> r < n /\ (forall x, In x c -> x < n) /\
              exists x, x < n /\ rootf (f_union_find m f) x <> rootf (f_union_find m f) r).
  { intros r c Hin. destruct (component_ok m dist samples nf n core f r c I Hin) as (Hr & Hrr & _ & Hc). splits; auto.
    - intros x Hx. now apply Hc.
    - rewrite Hrr. apply (other_component m dist samples nf n Hlen core f r I H1). apply in_map_iff. exists (r, c). auto. }
  destruct (n_components m f =? 2).
  - unfold dual_component_step_sequential.
    pose proof (Hoc i (f_components m f)) as Pc.
    destruct (smallest_ok samples nf n Hlen (order_components i (f_components m f))) as ([r c] & Es & Hin & _).
    { intros E. rewrite E in Pc. apply Permutation_length in Pc. unfold n_components in H1. simpl in Pc. lia. }
    rewrite Es. cbn [bind]. apply (Permutation_in _ Pc) in Hin. destruct (G r c Hin) as (Hr & Hc & Hx).
    destruct (split_edge (f_union_find m f) r c) as (e & u1 & E1 & St & U1 & S1); auto. { apply I. }
    rewrite E1. cbn [bind]. apply split_merge; auto. now apply split_uf.
  - unfold step_sequential. set (u := f_union_find m f).
    pose proof (Hoc i (f_components m f)) as Pc.
    destruct (for_each_inv
      (fun (done : list (nat * list nat)) (st : list (nat * edge m) * uf) =>
         uinv n (snd st) /\ same_roots (parents u) (parents (snd st)) /\
         (forall r e, In (r, e) (fst st) -> stays e))
      (fun rc '(edges, u) =>
           '(e, u') <- closest_edge m samples nf tree core (fst rc) (snd rc) u ;;
           Ok (edges ++ [(fst rc, e)], u'))
      (order_components i (f_components m f)) [] ([], u)) as ([edges u'] & E & U' & SR & Hp).
    + simpl. splits; auto using same_roots_refl; try apply I. intros r e [].
    + intros [r c] done [edges u0] Hin (U0 & SR0 & Hp). simpl in *.
      apply (Permutation_in _ Pc) in Hin. destruct (G r c Hin) as (Hr & Hc & x & Hx & Hxr). fold u in Hxr.
      assert (R0 : forall x, x < n -> rootf u0 x = rootf u x) by (intros; eapply rootf_same; eauto; apply I).
      destruct (split_edge u0 r c) as (e & u1 & E1 & St & U1 & S1); auto. { exists x. rewrite !R0; auto. }
      rewrite E1. cbn [bind]. eexists. split; [reflexivity|]. simpl. splits; auto.
      * eapply same_roots_trans; eauto.
      * intros s e' Hs. apply in_app_or in Hs as [Hs|[Hs|[]]]; eauto. now inversion Hs; subst.
    + rewrite E. cbn [bind]. simpl in U', SR, Hp.
      destruct (for_each_inv (fun (_ : list (nat * edge m)) g => one_sided g)
        (fun re f => merge_components m (snd re) f) (order_edges i edges) [] (mk_forest m (f_mst m f) (f_components m f) u'))
        as (f' & E' & If); [now apply split_uf| |exists f'; auto].
      intros [r e] d g Hre Jg. apply (Permutation_in _ (Hoe i edges)) in Hre. apply Hp in Hre. cbn [snd].
      destruct (split_merge g e Jg Hre Hn) as (g' & Eg & Jg'). exists g'. auto.
Qed.

Lemma split_loop a b : a < n -> b < n -> side a <> side b -> forall fuel i f, one_sided f ->
  make_tree_loop m samples nf tree order_components order_edges core fuel i f = Fuel.
Proof.
  intros Ha Hb Hne. induction fuel as [|fuel IH]; intros i f J; cbn [make_tree_loop];
    pose proof (split_components f a b J Ha Hb Hne) as H1; destruct (Nat.ltb_spec 1 (n_components m f)); try lia; auto.
  destruct (split_step i f J H1) as (f' & E & J'). rewrite E. cbn [bind]. now apply IH.
Qed.
End Split.

(** ** Two neighbours *)
Lemma for_each_eq {A S} (P : S -> Prop) (b1 b2 : A -> S -> res S) : forall l s, P s ->
  (forall x t, In x l -> P t -> b1 x t = b2 x t /\ exists t', b2 x t = Ok t' /\ P t') ->
  for_each l b1 s = for_each l b2 s.
Proof.
  induction l as [|x l IH]; intros s Hs H; simpl; auto.
  destruct (H x s (or_introl eq_refl) Hs) as (E & t & E2 & Ht). rewrite E, E2. cbn [bind]. apply IH; auto.
  intros; apply H; auto. right; auto.
Qed.

Section Two.
Context (cs : list D).
Hypothesis Hcs : length cs = n.
Hypothesis Hsame : forall i j, i < n -> j < n -> i <> j -> max3 lt (nth i cs (m_inf m)) (nth j cs (m_inf m)) (W m dist samples nf i j) = W m dist samples nf i j.
Hypothesis Hfin : forall i j, i < n -> j < n -> lt (mw m dist samples nf None i j) (m_inf m) = true.
Hypothesis Hsym : forall i j, i < n -> j < n -> W m dist samples nf i j = W m dist samples nf j i.
Context (order_components : nat -> list (nat * list nat) -> list (nat * list nat)).
Context (order_edges : nat -> list (nat * edge m) -> list (nat * edge m)).
Hypothesis Hoc : forall i l, Permutation (order_components i l) l.
Hypothesis Hoe : forall i l, Permutation (order_edges i l) l.
Notation inv := (forest_inv m dist samples nf n None).

Lemma two_edge u r c : uinv n u -> r < n -> rootf u r = r -> c <> [] -> (forall x, In x c -> x < n /\ rootf u x = r) ->
  (exists x, x < n /\ rootf u x <> r) ->
  closest_edge m samples nf tree (Some cs) r c u = closest_edge m samples nf tree None r c u.
Proof.
  intros U Hr Hrr Hc Hcr (x & Hx & Hxr). unfold closest_edge.
  apply (for_each_eq (fun st : edge m * uf => uinv n (snd st) /\ same_roots (parents u) (parents (snd st)))).
  - split; auto using same_roots_refl.
  - intros q [cur u0] Hq (U0 & S0). cbn [fst snd] in U0, S0 |- *. destruct (Hcr q Hq) as (Hqn & Hqr).
    assert (R0 : forall x, x < n -> rootf u0 x = rootf u x) by (intros; eapply rootf_same; eauto).
    destruct (nearest_ok m dist Hm samples nf tree n Hperm Hranges Hsamples Hordered Hlen u0 q r U0)
      as (j & u1 & En & U1 & S1 & Hj & Hjr & _); auto.
    { exists x. rewrite !R0 by auto. rewrite Hrr. auto. }
    rewrite En. cbn [bind].
    rewrite (edge_weight_ok m dist samples nf n Hlen (Some cs)) by (auto; intros ? E; inversion E; subst; auto).
    rewrite !R0 in Hjr by auto. unfold mw. rewrite Hsame by (auto; congruence). cbn [bind edge_weight].
    split; auto. eexists. split; [reflexivity|].
    destruct (lt (W m dist samples nf q j) (snd cur)); simpl; split; auto; eapply same_roots_trans; eauto.
Qed.

Lemma two_step i f : inv f -> 1 < n_components m f ->
  (if n_components m f =? 2 then dual_component_step_sequential m samples nf tree order_components (Some cs) i f
   else step_sequential m samples nf tree order_components order_edges (Some cs) i f) =
  (if n_components m f =? 2 then dual_component_step_sequential m samples nf tree order_components None i f
   else step_sequential m samples nf tree order_components order_edges None i f).
Proof.
  intros I H1.
  assert (G : forall r c, In (r, c) (f_components m f) -> r < n /\ rootf (f_union_find m f) r = r /\ c <> [] /\
              (forall x, In x c -> x < n /\ rootf (f_union_find m f) x = r) /\
              exists x, x < n /\ rootf (f_union_find m f) x <> r).
  { intros r c Hin. destruct (component_ok m dist samples nf n None f r c I Hin) as (Hr & Hrr & Hc0 & Hc). splits; auto.
    apply (other_component m dist samples nf n Hlen None f r I H1). apply in_map_iff. exists (r, c). auto. }
  pose proof (Hoc i (f_components m f)) as Pc.
  destruct (n_components m f =? 2).
  - unfold dual_component_step_sequential.
    destruct (smallest_ok samples nf n Hlen (order_components i (f_components m f))) as ([r c] & Es & Hin & _).
    { intros E. rewrite E in Pc. apply Permutation_length in Pc. unfold n_components in H1. simpl in Pc. lia. }
    rewrite Es. cbn [bind]. apply (Permutation_in _ Pc) in Hin. destruct (G r c Hin) as (Hr & Hrr & Hc & Hcr & Hx).
    rewrite two_edge; auto. apply I.
  - unfold step_sequential. set (u := f_union_find m f). fold u in G.
    match goal with |- bind ?a _ = bind ?b _ => enough (E : a = b) by (rewrite E; reflexivity) end.
    apply (for_each_eq (fun st : list (nat * edge m) * uf => uinv n (snd st) /\ same_roots (parents u) (parents (snd st)))).
    + split; auto using same_roots_refl. apply I.
    + intros [r c] [edges u0] Hin (U0 & S0). simpl in *.
      apply (Permutation_in _ Pc) in Hin. destruct (G r c Hin) as (Hr & Hrr & Hc & Hcr & x & Hx & Hxr).
      assert (R0 : forall x, x < n -> rootf u0 x = rootf u x) by (intros; eapply rootf_same; eauto; apply I).
      assert (A1 : rootf u0 r = r) by (rewrite R0; auto).
      assert (A2 : forall x, In x c -> x < n /\ rootf u0 x = r).
      { intros y Hy. destruct (Hcr y Hy). split; auto. rewrite R0; auto. }
      assert (A3 : exists x, x < n /\ rootf u0 x <> r) by (exists x; rewrite R0; auto).
      rewrite (two_edge u0 r c) by auto. split; auto.
      destruct (closest_edge_ok m dist Hm samples nf tree n Hperm Hranges Hsamples Hordered Hlen None) with (u := u0) (r := r) (c := c)
        as (e & u1 & Ee & U1 & S1 & _); auto.
      { intros ? Habs; discriminate. }
      rewrite Ee. cbn [bind]. eexists. split; [reflexivity|]. simpl. split; auto. eapply same_roots_trans; eauto.
Qed.

Lemma two_loop : forall fuel i f, inv f -> lightest_cuts lt n (W m dist samples nf) (f_mst m f) ->
  make_tree_loop m samples nf tree order_components order_edges (Some cs) fuel i f =
  make_tree_loop m samples nf tree order_components order_edges None fuel i f.
Proof.
  induction fuel as [|fuel IH]; intros i f I C; cbn [make_tree_loop]; auto.
  destruct (Nat.ltb_spec 1 (n_components m f)) as [H1|]; auto.
  rewrite two_step by auto.
  assert (HN : forall c, @None (list D) = Some c -> length c = n) by (intros ? H; discriminate).
  destruct (any_step_ok m dist Hm samples nf tree n Hperm Hranges Hsamples Hordered Hlen None HN Hfin Hsym order_components
    order_edges Hoc Hoe i f I H1) as (f1 & E1 & I1 & C1 & _); auto.
  rewrite E1. cbn [bind]. apply IH; auto.
Qed.
End Two.
End Core.
