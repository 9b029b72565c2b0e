(** Theorems on Boruvka's algorithm (C20-C24, C55). *)
From Coq Require Import List Arith ZArith Lia Bool Permutation Relations.
From Verif Require Import Base SortingModel SortingSpec BoundsModel BoundsSpec BoundsProofs
  UnionFindModel UnionFindSpec UnionFindProofs BufferModel BufferSpec BufferProofs
  BufferProps KDTreeModel KDTreeSpec KDTreeProofs KDTreeProps SearchModel SearchSpec SearchProofs SearchProps
  GraphSpec GraphProofs BoruvkaSpec BoruvkaModel BoruvkaProofs.
Import ListNotations.

(** A dataset of [n] samples with everything the construction of the tree is given. *)
Definition whole_input (tol : Z) (samples : list Z) (nf n : nat) (policy : list bool -> list nat -> nat -> aabb -> nat)
  (lowest max : Z) : Prop :=
  tree_input tol samples nf policy lowest max (seq 0 n) /\ length samples = n * nf.

Lemma whole_nf tol samples nf n policy lowest max : whole_input tol samples nf n policy lowest max -> length samples / nf = n.
Proof.
  intros ((_ & Hp & _) & HL). rewrite HL. apply Nat.div_mul.
  specialize (Hp [] [] 0 (mk_aabb [] [])). lia.
Qed.

Theorem float_finite samples nf n : finite_metric float_metric (fun p q => Some (sq_dist p q)) samples nf n.
Proof.
  split; [|reflexivity]. intros p q. f_equal. revert q.
  induction p as [|x p IH]; intros [|y q]; cbn [sq_dist]; auto. rewrite IH. f_equal. ring.
Qed.

Section Runs.
Context (m : metric) (dist : list Z -> list Z -> m_dist m) (Hm : metric_ok m dist).
Context (Hs : forall p q, dist p q = dist q p).
Context (samples : list Z) (nf : nat).
Notation lt := (m_lt m).

Lemma W_between i j : W m dist samples nf i j = between dist samples nf i j.
Proof. apply Hs. Qed.

Lemma W_sym i j : W m dist samples nf i j = W m dist samples nf j i.
Proof. apply Hs. Qed.

Context (tol : Z) (n bucket max_depth : nat) (policy : list bool -> list nat -> nat -> aabb -> nat) (lowest max : Z) (center : segment -> Z).
Hypothesis Hf : finite_metric m dist samples nf n.
Hypothesis Hi : whole_input tol samples nf n policy lowest max.
Context (oc : nat -> list (nat * list nat) -> list (nat * list nat)) (oe : nat -> list (nat * edge m) -> list (nat * edge m)).
Hypothesis Hoc : permuting oc.
Hypothesis Hoe : permuting oe.

Definition weight_spec (k : nat) (e : nat * nat * m_dist m) : Prop :=
  let '(a, b, w) := e in
  (k <= 1 -> w = between dist samples nf a b) /\ (1 < k -> mutual_reachability lt dist samples nf n k a b w).

Lemma run_tree k fuel : 1 <= n -> fits k -> n <= S fuel ->
  exists tree mst,
    make_kdtree tol samples nf bucket max_depth policy lowest max center (seq 0 n) = Ok tree /\
    make_tree m samples nf tree oc oe fuel k = Ok mst /\ spanning_tree n mst /\
    (forall e, In e mst -> weight_spec k e) /\
    (k <= 1 -> lightest_cuts lt n (W m dist samples nf) mst).
Proof.
  intros Hn Hk Hfuel. pose proof (whole_nf _ _ _ _ _ _ _ Hi) as Hdiv. destruct Hi as (Ht & HL).
  destruct (built_tree tol samples nf bucket max_depth policy lowest max center (seq 0 n) Ht)
    as (tree & E & P & R & S1 & O & _).
  exists tree. unfold make_tree. rewrite Hdiv.
  destruct (Nat.ltb_spec 1 k) as [Hk1|Hk1].
  - destruct (core_ok m dist Hm samples nf tree n P R S1 O HL k) as (cs & Ecs & Hlcs & Hcs); auto; try lia.
    assert (Hcore : forall c, Some cs = Some c -> length c = n) by (intros c Hc; inversion Hc; subst; auto).
    assert (Hfin : forall i j, i < n -> j < n -> lt (mw m dist samples nf (Some cs) i j) (m_inf m) = true).
    { intros i j H1 H2. unfold mw.
      destruct (max3_in lt (nth i cs (m_inf m)) (nth j cs (m_inf m)) (W m dist samples nf i j)) as [<-|[<-|[<-|[]]]].
      - destruct (core_in m dist samples nf n HL k i _ (Hcs i H1)) as (y & Hy & ->). now apply (proj2 Hf).
      - destruct (core_in m dist samples nf n HL k j _ (Hcs j H2)) as (y & Hy & ->). now apply (proj2 Hf).
      - now apply (proj2 Hf). }
    destruct (run_ok m dist Hm samples nf tree n P R S1 O HL (Some cs) Hcore Hfin) with
      (order_components := oc) (order_edges := oe) (fuel := fuel) as (f0 & f & E0 & E1 & I & _ & T); auto using W_sym.
    exists (f_mst m f). rewrite E0. cbn [bind]. rewrite Ecs. cbn [bind]. rewrite E1. cbn [bind].
    split; [auto|]. split; [auto|]. split; [auto|]. split; [|intros; lia].
    intros [[a b] w] He. apply (fi_edges _ _ _ _ _ _ _ I) in He as (Ha & Hb & Hw). split; [lia|]. intros _.
    exists (nth a cs (m_inf m)), (nth b cs (m_inf m)). split; [auto|]. split; [auto|].
    rewrite Hw. unfold mw. rewrite <- W_between. apply max3_largest. apply (mo_order m dist Hm).
  - assert (Hcore : forall c, @None (list (m_dist m)) = Some c -> length c = n) by (intros c Hc; discriminate).
    assert (Hfin : forall i j, i < n -> j < n -> lt (mw m dist samples nf None i j) (m_inf m) = true)
      by (intros i j H1 H2; now apply (proj2 Hf)).
    destruct (run_ok m dist Hm samples nf tree n P R S1 O HL None Hcore Hfin) with
      (order_components := oc) (order_edges := oe) (fuel := fuel) as (f0 & f & E0 & E1 & I & C & T); auto using W_sym.
    exists (f_mst m f). rewrite E0. cbn [bind]. rewrite E1. cbn [bind].
    split; [auto|]. split; [auto|]. split; [auto|]. split; [|auto].
    intros [[a b] w] He. apply (fi_edges _ _ _ _ _ _ _ I) in He as (Ha & Hb & Hw). split; [|lia]. intros _.
    rewrite Hw. apply W_between.
Qed.
End Runs.

(** ** C20 *)
Theorem c20_boruvka_returns_a_spanning_tree :
  forall m dist tol samples nf n bucket max_depth policy lowest max center oc oe k fuel,
  metric_ok m dist -> finite_metric m dist samples nf n -> whole_input tol samples nf n policy lowest max ->
  permuting oc -> permuting oe -> 1 <= n -> (Z.of_nat k < 2 ^ 64)%Z -> n <= S fuel ->
  exists tree mst,
    make_kdtree tol samples nf bucket max_depth policy lowest max center (seq 0 n) = Ok tree /\
    make_tree m samples nf tree oc oe fuel k = Ok mst /\
    spanning_tree n mst /\
    (forall a b w, In (a, b, w) mst ->
       (k <= 1 -> w = between dist samples nf a b) /\
       (1 < k -> mutual_reachability (m_lt m) dist samples nf n k a b w)).
Proof.
  intros m dist tol samples nf n bucket max_depth policy lowest max center oc oe k fuel Hm Hf Hi Hoc Hoe Hn Hk Hfuel.
  destruct (run_tree m dist Hm (proj1 Hf) samples nf tol n bucket max_depth policy lowest max center Hf Hi oc oe Hoc Hoe k fuel)
    as (tree & mst & E & E1 & T & Hw & _); auto.
  exists tree, mst. splits; auto; intros; apply (Hw (a, b, w)); auto.
Qed.

Lemma pts_whole : whole_input 0 pts 2 7 cycle (-100) 100.
Proof. split; [exact pts_input|reflexivity]. Qed.

Definition keep {A} (_ : nat) (l : list A) : list A := l.
Definition flip {A} (i : nat) (l : list A) : list A := if Nat.even i then rev l else l.
Lemma keep_ok {A} : permuting (@keep A).
Proof. intros i l. reflexivity. Qed.
Lemma flip_ok {A} : permuting (@flip A).
Proof. intros i l. unfold flip. destruct (Nat.even i); auto. symmetry. apply Permutation_rev. Qed.


Definition pts_mst : list (nat * nat * option Z) :=
  [(0, 1, Some 10%Z); (1, 3, Some 4%Z); (2, 4, Some 8%Z); (3, 5, Some 4%Z); (6, 5, Some 5%Z); (2, 0, Some 20%Z)].

Example c20_case :
  metric_ok float_metric (fun p q => Some (sq_dist p q)) /\ finite_metric float_metric (fun p q => Some (sq_dist p q)) pts 2 7 /\
  whole_input 0 pts 2 7 cycle (-100) 100 /\ permuting (@flip (nat * list nat)) /\ permuting (@flip (nat * edge float_metric)) /\
  with_tree (pts_tree 1 10) (fun t => make_tree float_metric pts 2 t keep keep 6 1) = Ok pts_mst /\
  with_tree (pts_tree 1 10) (fun t => make_tree float_metric pts 2 t keep flip 6 1) = Ok
    [(6, 5, Some 5%Z); (5, 3, Some 4%Z); (4, 2, Some 8%Z); (1, 3, Some 4%Z); (0, 1, Some 10%Z); (4, 0, Some 20%Z)] /\
  with_tree (pts_tree 1 10) (fun t => make_tree float_metric pts 2 t flip keep 6 4) = Ok
    [(6, 5, Some 29%Z); (5, 3, Some 16%Z); (4, 2, Some 50%Z); (1, 3, Some 16%Z); (0, 1, Some 20%Z); (4, 0, Some 26%Z)].
Proof.
  split; [exact float_metric_ok|]. split; [apply float_finite|]. split; [exact pts_whole|]. split; [apply flip_ok|].
  split; [apply flip_ok|]. splits; vm_compute; reflexivity.
Qed.

(** An empty dataset: [reserve(n_samples - 1)] throws. *)
Theorem c20_empty_dataset_throws : forall m nf tree oc oe k fuel, make_tree m [] nf tree oc oe fuel k = Throw.
Proof. intros. unfold make_tree. destruct nf; reflexivity. Qed.

(** ** C21 *)
Lemma total_perm {D} (value : D -> Z) (l l' : list (nat * nat * D)) : Permutation l l' -> total value l = total value l'.
Proof. induction 1; simpl; try lia; congruence. Qed.

Lemma lighter_total {D} (lt : D -> D -> bool) (value : D -> Z) E E' :
  (forall a b, lt b a = false -> (value a <= value b)%Z) -> lighter lt E E' -> (total value E <= total value E')%Z.
Proof.
  intros Hv (l & l' & P & P' & H). rewrite <- (total_perm value _ _ P), <- (total_perm value _ _ P').
  clear P P'. induction H as [|e e' l l' He _ IH]; simpl; try lia. apply Hv in He. lia.
Qed.

(** A tree whose edges are lightest across cuts is minimum. *)
Lemma cuts_minimum m dist samples nf n mst : metric_ok m dist -> (forall p q, dist p q = dist q p) ->
  spanning_tree n mst -> (forall a b w, In (a, b, w) mst -> w = between dist samples nf a b) ->
  lightest_cuts (m_lt m) n (W m dist samples nf) mst ->
  forall other, spanning_tree n other -> (forall a b w, In (a, b, w) other -> w = between dist samples nf a b) ->
    (forall t, length (up_to (m_lt m) t other) <= length (up_to (m_lt m) t mst)) /\
    lighter (m_lt m) mst other /\
    (forall value, (forall a b, m_lt m b a = false -> (value a <= value b)%Z) -> (total value mst <= total value other)%Z).
Proof.
  intros Hm Hs (TL & TI & TS) Hw C other To Hother.
  assert (HW : forall i j, W m dist samples nf i j = between dist samples nf i j) by (intros; apply Hs).
  assert (HC : forall t, length (up_to (m_lt m) t other) <= length (up_to (m_lt m) t mst)).
  { intros t. apply (more_light_edges (m_lt m) n mst other t); auto. intros a b w Hin.
    unfold up_to in Hin. apply filter_In in Hin as [Hin Ht]. simpl in Ht. apply negb_true_iff in Ht.
    destruct To as (_ & OI & _). destruct (OI a b w Hin).
    apply (bottleneck (m_lt m) (mo_order m dist Hm) n (W m dist samples nf) mst C); auto.
    - intros a' b' w' Hin'. destruct (TI _ _ _ Hin'). splits; auto. rewrite HW. auto.
    - rewrite HW, <- (Hother a b w Hin). auto. }
  assert (HL : lighter (m_lt m) mst other).
  { apply lighter_of_counts; auto; [apply (mo_order m dist Hm)|]. destruct To as (OL & _). congruence. }
  splits; auto. intros value Hv. eapply lighter_total; eauto.
Qed.

Theorem c21_boruvka_tree_is_minimum :
  forall m dist tol samples nf n bucket max_depth policy lowest max center oc oe k fuel,
  metric_ok m dist -> finite_metric m dist samples nf n -> whole_input tol samples nf n policy lowest max ->
  permuting oc -> permuting oe -> 1 <= n -> k <= 1 -> n <= S fuel ->
  exists tree mst,
    make_kdtree tol samples nf bucket max_depth policy lowest max center (seq 0 n) = Ok tree /\
    make_tree m samples nf tree oc oe fuel k = Ok mst /\
    forall other, spanning_tree n other -> (forall a b w, In (a, b, w) other -> w = between dist samples nf a b) ->
      (forall t, length (up_to (m_lt m) t other) <= length (up_to (m_lt m) t mst)) /\
      lighter (m_lt m) mst other /\
      (forall value, (forall a b, m_lt m b a = false -> (value a <= value b)%Z) -> (total value mst <= total value other)%Z).
Proof.
  intros m dist tol samples nf n bucket max_depth policy lowest max center oc oe k fuel Hm Hf Hi Hoc Hoe Hn Hk Hfuel.
  destruct (run_tree m dist Hm (proj1 Hf) samples nf tol n bucket max_depth policy lowest max center Hf Hi oc oe Hoc Hoe k fuel)
    as (tree & mst & E & E1 & T & Hw & C); auto. { unfold fits. lia. }
  exists tree, mst. split; [auto|]. split; [auto|].
  apply cuts_minimum; auto; [apply (proj1 Hf)|]. intros a b w H. apply (Hw _ H). auto.
Qed.

(** Another spanning tree of the dataset: a star. *)
Definition pts_star : list (nat * nat * option Z) :=
  map (fun j => (0, j, between (fun p q => Some (sq_dist p q)) pts 2 0 j)) (seq 1 6).

Definition square (d : option Z) : Z := match d with Some z => z | None => 0%Z end.

Example c21_case :
  whole_input 0 pts 2 7 cycle (-100) 100 /\
  with_tree (pts_tree 1 10) (fun t => make_tree float_metric pts 2 t keep keep 6 1) = Ok pts_mst /\
  spanning_tree 7 pts_star /\
  (forall a b w, In (a, b, w) pts_star -> w = between (fun p q => Some (sq_dist p q)) pts 2 a b) /\
  map (fun t => (length (up_to opt_lt (Some t) pts_star), length (up_to opt_lt (Some t) pts_mst))) [5; 10; 20; 40]%Z
    = [(0, 3); (1, 5); (4, 6); (5, 6)] /\
  total square pts_star = 163%Z /\ total square pts_mst = 51%Z.
Proof.
  split; [exact pts_whole|]. split; [vm_compute; reflexivity|].
  split; [|split; [|splits; vm_compute; reflexivity]].
  - split; [reflexivity|]. split.
    + intros a b w H. unfold pts_star in H. apply in_map_iff in H as (j & E & Hj). apply in_seq in Hj. inversion E. lia.
    + assert (G : forall i, i < 7 -> linked (ends pts_star) 0 i).
      { intros i Hi. destruct i as [|i]; [apply rst_refl|]. apply linked_in. unfold ends, pts_star. rewrite map_map.
        apply in_map_iff. exists (S i). split; auto. apply in_seq. lia. }
      intros i j Hi Hj. eapply linked_trans; [apply linked_sym|]; apply G; auto.
  - intros a b w H. unfold pts_star in H. apply in_map_iff in H as (j & E & Hj). inversion E. reflexivity.
Qed.

(** ** C22 *)
Theorem c22_tree_carries_single_linkage :
  forall m dist tol samples nf n bucket max_depth policy lowest max center oc oe k fuel,
  metric_ok m dist -> finite_metric m dist samples nf n -> whole_input tol samples nf n policy lowest max ->
  permuting oc -> permuting oe -> 1 <= n -> k <= 1 -> n <= S fuel ->
  exists tree mst,
    make_kdtree tol samples nf bucket max_depth policy lowest max center (seq 0 n) = Ok tree /\
    make_tree m samples nf tree oc oe fuel k = Ok mst /\
    forall t i j, i < n -> j < n ->
      (linked (ends (up_to (m_lt m) t mst)) i j <-> reach (m_lt m) n (between dist samples nf) t i j).
Proof.
  intros m dist tol samples nf n bucket max_depth policy lowest max center oc oe k fuel Hm Hf Hi Hoc Hoe Hn Hk Hfuel.
  destruct (run_tree m dist Hm (proj1 Hf) samples nf tol n bucket max_depth policy lowest max center Hf Hi oc oe Hoc Hoe k fuel)
    as (tree & mst & E & E1 & T & Hw & C); auto. { unfold fits. lia. }
  exists tree, mst. split; [auto|]. split; [auto|]. specialize (C Hk). destruct T as (TL & TI & TS).
  assert (HB : forall a b w, In (a, b, w) mst -> a < n /\ b < n /\ w = between dist samples nf a b).
  { intros a b w H. destruct (TI _ _ _ H). splits; auto. apply (Hw _ H). auto. }
  assert (HW : forall a b w, In (a, b, w) mst -> a < n /\ b < n /\ w = W m dist samples nf a b).
  { intros a b w H. rewrite (W_between m dist (proj1 Hf)). auto. }
  intros t i j Hi' Hj. split; intros H.
  - apply (linked_up_to_reach (m_lt m) n _ mst HB); auto. intros a b _ _. apply (proj1 Hf).
  - apply (reach_linked_up_to (m_lt m) (mo_order m dist Hm) n (W m dist samples nf) mst C HW TS).
    clear Hi' Hj. induction H as [i Hi'|i j k' Hi' Hj Ht H IH]; [constructor; auto|].
    eapply reach_step; eauto. now rewrite (W_between m dist (proj1 Hf)).
Qed.

Example c22_case :
  whole_input 0 pts 2 7 cycle (-100) 100 /\
  ends (up_to opt_lt (Some 5%Z) pts_mst) = [(1, 3); (3, 5); (6, 5)] /\
  reach opt_lt 7 (between (fun p q => Some (sq_dist p q)) pts 2) (Some 5%Z) 1 6.
Proof.
  split; [exact pts_whole|]. split; [vm_compute; reflexivity|].
  apply reach_step with 3; [lia|lia|vm_compute; reflexivity|]. apply reach_step with 5; [lia|lia|vm_compute; reflexivity|].
  apply reach_step with 6; [lia|lia|vm_compute; reflexivity|]. constructor. lia.
Qed.

(** ** C23 *)
Definition ln : list Z := [10; 22; 7; 1; 14]%Z.
Definition ln_tree : res kdtree := make_kdtree 0 ln 1 1 10 (fun _ _ _ _ => 0) (-100) 100 half (seq 0 5).
Lemma ln_whole : whole_input 0 ln 1 5 (fun _ _ _ _ => 0) (-100) 100.
Proof. split; [|reflexivity]. apply (line_input ln). repeat constructor; lia. Qed.

Theorem c23_mutual_reachability_tree_not_minimal_refuted :
  exists samples nf n bucket max_depth policy lowest max center oc oe k fuel tree mst other,
    whole_input 0 samples nf n policy lowest max /\ permuting oc /\ permuting oe /\ 1 < k /\
    make_kdtree 0 samples nf bucket max_depth policy lowest max center (seq 0 n) = Ok tree /\
    make_tree float_metric samples nf tree oc oe fuel k = Ok mst /\
    spanning_tree n other /\
    (forall a b w, In (a, b, w) other -> mutual_reachability opt_lt (fun p q => Some (sq_dist p q)) samples nf n k a b w) /\
    (total square other < total square mst)%Z /\
    length (up_to opt_lt (Some 64%Z) mst) < length (up_to opt_lt (Some 64%Z) other).
Proof.
  exists ln, 1, 5, 1, 10, (fun _ _ _ _ => 0), (-100)%Z, 100%Z, half, keep, keep, 4, 5.
  pose proof ln_whole as (Hi & HL).
  destruct (built_tree 0 ln 1 1 10 (fun _ _ _ _ => 0) (-100) 100 half (seq 0 5) Hi) as (tree & E & P & R & S1 & O & _).
  destruct (core_ok float_metric _ float_metric_ok ln 1 tree 5 P R S1 O HL 4) as (cs & Ecs & Hlcs & Hcs); [lia|reflexivity|].
  assert (Et : Ok tree = ln_tree) by (symmetry; exact E).
  vm_compute in Et. inversion Et as [Et']. clear Et.
  assert (Ec : cs = [Some 81%Z; Some 225%Z; Some 49%Z; Some 169%Z; Some 64%Z]).
  { rewrite Et' in Ecs. vm_compute in Ecs. inversion Ecs. reflexivity. }
  exists tree, [(0, 2, Some 81%Z); (1, 4, Some 225%Z); (3, 2, Some 169%Z); (4, 0, Some 81%Z)].
  exists [(0, 2, Some 81%Z); (2, 4, Some 64%Z); (0, 3, Some 169%Z); (0, 1, Some 225%Z)].
  split; [exact ln_whole|]. split; [apply keep_ok|]. split; [apply keep_ok|]. split; [lia|]. split; [exact E|].
  split; [rewrite Et'; vm_compute; reflexivity|].
  split; [|split; [|split; [reflexivity|vm_compute; lia]]].
  - split; [reflexivity|]. split.
    + intros a b w H. simpl in H. repeat (destruct H as [H|H]; [inversion H; lia|]). destruct H.
    + set (l := ends _).
      assert (A : forall x y, In (x, y) l -> linked l x y) by (intros; now apply linked_in).
      assert (G : forall i, i < 5 -> linked l 0 i).
      { intros i Hi5. destruct i as [|[|[|[|[|i]]]]]; try lia; try (apply A; simpl; tauto); [apply rst_refl|].
        eapply linked_trans; apply A; simpl; [left; reflexivity|right; left; reflexivity]. }
      intros i j Hi5 Hj. eapply linked_trans; [apply linked_sym|]; apply G; auto.
  - intros a b w H.
    assert (G : a < 5 /\ b < 5 /\ w = max3 opt_lt (nth a cs None) (nth b cs None) (between (fun p q => Some (sq_dist p q)) ln 1 a b)).
    { rewrite Ec. simpl in H. repeat (destruct H as [H|H]; [inversion H; subst; split; [lia|]; split; [lia|vm_compute; reflexivity]|]). destruct H. }
    destruct G as (Ha & Hb & ->). exists (nth a cs None), (nth b cs None).
    split; [exact (Hcs a Ha)|]. split; [exact (Hcs b Hb)|]. apply max3_largest. exact opt_order_ok.
Qed.

(** ** C24 *)
Theorem c24_boruvka_never_returns_on_integers :
  forall tol samples nf n bucket max_depth policy lowest max center oc oe k,
  whole_input tol samples nf n policy lowest max ->
  permuting oc -> permuting oe -> 2 <= n -> (Z.of_nat k < 2 ^ 64)%Z ->
  exists tree,
    make_kdtree tol samples nf bucket max_depth policy lowest max center (seq 0 n) = Ok tree /\
    forall fuel, make_tree int_metric samples nf tree oc oe fuel k = Fuel.
Proof.
  intros tol samples nf n bucket max_depth policy lowest max center oc oe k Hi Hoc Hoe Hn Hk.
  pose proof (whole_nf _ _ _ _ _ _ _ Hi) as Hdiv. destruct Hi as (Ht & HL).
  destruct (built_tree tol samples nf bucket max_depth policy lowest max center (seq 0 n) Ht)
    as (tree & E & P & R & S1 & O & _).
  exists tree. split; auto. intros fuel. unfold make_tree. rewrite Hdiv.
  assert (HW : forall i j, (0 <= W int_metric l1_dist samples nf i j)%Z) by (intros; apply l1_nonneg).
  destruct (Nat.ltb_spec 1 k) as [Hk1|Hk1].
  - destruct (core_ok int_metric _ int_metric_ok samples nf tree n P R S1 O HL k) as (cs & Ecs & Hlcs & Hcs); auto; try lia.
    assert (Hpos : forall i, i < n -> (0 <= nth i cs 0)%Z).
    { intros i H. destruct (core_in int_metric l1_dist samples nf n HL k i _ (Hcs i H)) as (y & _ & Ey).
      pose proof (HW i y) as Hy. rewrite <- Ey in Hy. exact Hy. }
    destruct (make_forest_inv int_metric l1_dist samples nf n HL (Some cs)) as (f & Ef & If & _ & Hnf); [lia|].
    rewrite Ef. cbn [bind]. rewrite Ecs. cbn [bind].
    rewrite (stuck_loop int_metric l1_dist int_metric_ok samples nf tree n P R S1 O HL (Some cs)); auto.
    + intros c Hc. inversion Hc; subst; auto.
    + intros i j H1 H2. unfold mw. apply Z.ltb_ge. simpl m_inf.
      destruct (max3_in (m_lt int_metric) (nth i cs 0%Z) (nth j cs 0%Z) (W int_metric l1_dist samples nf i j)) as [<-|[<-|[<-|[]]]]; auto.
    + rewrite Hnf. lia.
  - destruct (make_forest_inv int_metric l1_dist samples nf n HL None) as (f & Ef & If & _ & Hnf); [lia|].
    rewrite Ef. cbn [bind].
    rewrite (stuck_loop int_metric l1_dist int_metric_ok samples nf tree n P R S1 O HL None); auto.
    + intros c Hc. discriminate.
    + intros i j H1 H2. unfold mw. apply Z.ltb_ge. apply HW.
    + rewrite Hnf. lia.
Qed.

Example c24_case :
  whole_input 0 pts 2 7 cycle (-100) 100 /\ permuting (@flip (nat * list nat)) /\
  with_tree (pts_tree 1 10) (fun t => make_tree int_metric pts 2 t flip keep 20 1) = Fuel /\
  with_tree (pts_tree 1 10) (fun t => make_tree int_metric pts 2 t flip keep 20 3) = Fuel.
Proof. split; [exact pts_whole|]. split; [apply flip_ok|]. split; vm_compute; reflexivity. Qed.

(** ** C84 *)
Theorem c84_boruvka_never_returns_across_infinity :
  forall m dist tol samples nf n bucket max_depth policy lowest max center oc oe k side a b,
  metric_ok m dist -> whole_input tol samples nf n policy lowest max ->
  permuting oc -> permuting oe -> (Z.of_nat k < 2 ^ 64)%Z ->
  a < n -> b < n -> side a <> side b ->
  (forall i j, i < n -> j < n -> side i <> side j :> bool -> m_lt m (between dist samples nf i j) (m_inf m) = false) ->
  exists tree,
    make_kdtree tol samples nf bucket max_depth policy lowest max center (seq 0 n) = Ok tree /\
    forall fuel, make_tree m samples nf tree oc oe fuel k = Fuel.
Proof.
  intros m dist tol samples nf n bucket max_depth policy lowest max center oc oe k side a b Hm Hi Hoc Hoe Hk Ha Hb Hne Hinf.
  pose proof (whole_nf _ _ _ _ _ _ _ Hi) as Hdiv. destruct Hi as (Ht & HL).
  destruct (built_tree tol samples nf bucket max_depth policy lowest max center (seq 0 n) Ht)
    as (tree & E & P & R & S1 & O & _).
  exists tree. split; auto. intros fuel. unfold make_tree. rewrite Hdiv.
  assert (HW : forall i j, i < n -> j < n -> side i <> side j -> m_lt m (W m dist samples nf i j) (m_inf m) = false).
  { intros i j Hi Hj Hs. apply (Hinf j i); auto. }
  destruct (Nat.ltb_spec 1 k) as [Hk1|Hk1].
  - destruct (core_ok m dist Hm samples nf tree n P R S1 O HL k) as (cs & Ecs & Hlcs & Hcs); auto; try lia.
    destruct (make_forest_inv m dist samples nf n HL (Some cs)) as (f & Ef & If & Hmst & Hnf); [lia|].
    rewrite Ef. cbn [bind]. rewrite Ecs. cbn [bind].
    rewrite (split_loop m dist Hm samples nf tree n P R S1 O HL (Some cs)) with (side := side) (a := a) (b := b); auto.
    + intros c Hc. inversion Hc; subst; auto.
    + intros i j H1 H2 H3. unfold mw.
      destruct (max3_largest (m_lt m) (nth i cs (m_inf m)) (nth j cs (m_inf m)) (W m dist samples nf i j) (mo_order m dist Hm)) as [_ Hmax].
      apply (le_trans _ (mo_order m dist Hm) _ (W m dist samples nf i j)); auto. apply Hmax. simpl. auto.
    + split; auto. rewrite Hmst. intros ? ? ? [].
  - destruct (make_forest_inv m dist samples nf n HL None) as (f & Ef & If & Hmst & Hnf); [lia|].
    rewrite Ef. cbn [bind].
    rewrite (split_loop m dist Hm samples nf tree n P R S1 O HL None) with (side := side) (a := a) (b := b); auto.
    + intros c Hc. discriminate.
    + split; auto. rewrite Hmst. intros ? ? ? [].
Qed.

(** On integers, where infinity is 0, any two groups will do; see [c84_overflow_refuted] for doubles. *)
Example c84_case :
  metric_ok int_metric l1_dist /\ whole_input 0 pts 2 7 cycle (-100) 100 /\ Nat.even 2 <> Nat.even 5 /\
  m_lt int_metric (between l1_dist pts 2 2 5) (m_inf int_metric) = false /\
  with_tree (pts_tree 1 10) (fun t => make_tree int_metric pts 2 t flip keep 20 3) = Fuel.
Proof.
  split; [exact int_metric_ok|]. split; [exact pts_whole|]. split; [discriminate|]. split; vm_compute; reflexivity.
Qed.

(** ** C55 *)

(** Distances are totally ordered and a point is at the smallest distance from itself. *)
Definition proper_metric (m : metric) (dist : list Z -> list Z -> m_dist m) : Prop :=
  (forall a b, m_lt m a b = false -> m_lt m b a = false -> a = b) /\ (forall p q, m_lt m (dist q p) (dist p p) = false).

Theorem float_proper : proper_metric float_metric (fun p q => Some (sq_dist p q)).
Proof.
  split.
  - intros [a|] [b|]; simpl; intros H1 H2; try discriminate; auto. f_equal. lia.
  - intros p q. simpl. apply Z.ltb_ge. assert (sq_dist p p = 0)%Z as ->; [|apply sq_nonneg].
    induction p as [|x p IH]; cbn [sq_dist]; auto. rewrite IH. lia.
Qed.

Lemma core_two m dist samples nf n i j d : proper_metric m dist -> order_ok (m_lt m) ->
  core_distance (m_lt m) dist samples nf n 2 i d -> i < n -> j < n -> i <> j ->
  m_lt m (W m dist samples nf i j) d = false.
Proof.
  intros (_ & Hmin) Ho (stored & x & (rest & P & L & Hr) & (Hx & _)) Hi Hj Hne.
  unfold with_distances in *. rewrite map_length, seq_length in L.
  assert (Hall : forall y, y < n -> In (y, W m dist samples nf i y) (stored ++ rest)).
  { intros y Hy. apply (Permutation_in _ (Permutation_sym P)). apply in_map_iff. exists y. split; auto. apply in_seq. lia. }
  assert (Hfun : forall y w, In (y, w) (stored ++ rest) -> w = W m dist samples nf i y).
  { intros y w H. apply (Permutation_in _ P) in H. apply in_map_iff in H as (y' & E & _). now inversion E. }
  pose proof (Hall i Hi) as Hii. pose proof (Hall j Hj) as Hij.
  assert (Hd : d = W m dist samples nf i x) by (apply Hfun; apply in_or_app; auto).
  apply in_app_or in Hij as [Hij|Hij]; [|exact (Hr _ _ Hx Hij)].
  apply in_app_or in Hii as [Hii|Hii].
  - assert (x = i \/ x = j) as [->| ->].
    { destruct stored as [|a [|b [|c l]]]; cbn [length] in L; try lia. cbn [In] in *.
      destruct Hx as [Hx|[Hx|[]]], Hii as [Hii|[Hii|[]]], Hij as [Hij|[Hij|[]]]; subst; try (inversion Hx; auto; fail);
        try (inversion Hii; auto; fail); try (inversion Hij; auto; fail); exfalso; congruence. }
    + rewrite Hd. apply Hmin.
    + rewrite Hd. now apply lt_irrefl.
  - apply (le_trans _ Ho) with (W m dist samples nf i i); [exact (Hr _ _ Hx Hii)|apply Hmin].
Qed.

Theorem c55_two_neighbours_give_the_plain_tree :
  forall m dist tol samples nf n bucket max_depth policy lowest max center oc oe fuel,
  metric_ok m dist -> finite_metric m dist samples nf n -> proper_metric m dist -> whole_input tol samples nf n policy lowest max ->
  permuting oc -> permuting oe ->
  exists tree,
    make_kdtree tol samples nf bucket max_depth policy lowest max center (seq 0 n) = Ok tree /\
    make_tree m samples nf tree oc oe fuel 2 = make_tree m samples nf tree oc oe fuel 1.
Proof.
  intros m dist tol samples nf n bucket max_depth policy lowest max center oc oe fuel Hm Hf Hp Hi Hoc Hoe.
  pose proof (whole_nf _ _ _ _ _ _ _ Hi) as Hdiv. destruct Hi as (Ht & HL).
  destruct (built_tree tol samples nf bucket max_depth policy lowest max center (seq 0 n) Ht)
    as (tree & E & P & R & S1 & O & _).
  exists tree. split; auto. unfold make_tree. rewrite Hdiv. cbn [Nat.ltb Nat.leb].
  destruct (Nat.eq_dec n 0) as [->|Hn0]; [reflexivity|].
  destruct (core_ok m dist Hm samples nf tree n P R S1 O HL 2) as (cs & Ecs & Hlcs & Hcs); [lia|reflexivity|].
  destruct (make_forest_inv m dist samples nf n HL None) as (f & Ef & If & Hmst & _); [lia|].
  rewrite Ef. cbn [bind]. rewrite Ecs. cbn [bind].
  rewrite (two_loop m dist Hm samples nf tree n P R S1 O HL cs); auto.
  - intros i j H1 H2 Hne. pose proof (mo_order m dist Hm) as Ho.
    pose proof (core_two m dist samples nf n i j _ Hp Ho (Hcs i H1) H1 H2 Hne) as A1.
    pose proof (core_two m dist samples nf n j i _ Hp Ho (Hcs j H2) H2 H1 (not_eq_sym Hne)) as A2.
    rewrite (W_sym m dist (proj1 Hf)) in A2. unfold max3.
    destruct (m_lt m (nth i cs (m_inf m)) (nth j cs (m_inf m)));
      [destruct (m_lt m (nth j cs (m_inf m)) (W m dist samples nf i j)) eqn:E2
      |destruct (m_lt m (nth i cs (m_inf m)) (W m dist samples nf i j)) eqn:E2]; auto; now apply (proj1 Hp).
  - intros i j H1 H2. now apply (proj2 Hf).
  - intros i j _ _. apply (W_sym m dist (proj1 Hf)).
  - rewrite Hmst. intros E1 a b w E2 Heq. destruct E1; discriminate.
Qed.

Example c55_case :
  proper_metric float_metric (fun p q => Some (sq_dist p q)) /\ whole_input 0 pts 2 7 cycle (-100) 100 /\
  with_tree (pts_tree 1 10) (fun t => make_tree float_metric pts 2 t keep keep 6 2) = Ok pts_mst.
Proof. split; [exact float_proper|]. split; [exact pts_whole|]. vm_compute. reflexivity. Qed.

Print Assumptions c20_boruvka_returns_a_spanning_tree.
Print Assumptions c20_empty_dataset_throws.
Print Assumptions c21_boruvka_tree_is_minimum.
Print Assumptions c22_tree_carries_single_linkage.
Print Assumptions c23_mutual_reachability_tree_not_minimal_refuted.
Print Assumptions c24_boruvka_never_returns_on_integers.
Print Assumptions c55_two_neighbours_give_the_plain_tree.
Print Assumptions c84_boruvka_never_returns_across_infinity.
