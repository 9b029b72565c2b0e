(** Property C95: the rounds of Boruvka's algorithm and what it reports about them. *)
From Coq Require Import List Arith ZArith Lia Bool Permutation.
From Verif Require Import Base SortingModel SortingSpec BoundsModel BoundsSpec BoundsProofs UnionFindModel UnionFindSpec
  UnionFindProofs BufferModel BufferSpec BufferProofs KDTreeModel KDTreeSpec KDTreeProofs KDTreeProps SearchModel SearchSpec
  SearchProofs SearchProps GraphSpec GraphProofs DualTreeModel DualTreeProofs DualTreeProps PairsModel PairsProofs PairsProps
  BoruvkaModel BoruvkaSpec BoruvkaProofs BoruvkaProps DualBoruvkaModel DualBoruvkaProofs DualBoruvkaProps RoundsModel
  RoundsProofs.
Import ListNotations.

(** What is expected of the output for [n] samples. *)
Definition logarithmic (n : nat) (out : progress) : Prop :=
  length (component_counts out) <= Nat.log2 n /\
  (2 <= n -> hd_error (component_counts out) = Some n) /\
  (forall i c c', nth_error (component_counts out) i = Some c -> nth_error (component_counts out) (S i) = Some c' -> 2 * c' <= c) /\
  (forall c, In c (component_counts out) -> 2 <= c) /\
  counter out = list_sum (component_counts out) /\ counter out <= 2 * (n - 1).

Lemma halving_logarithmic n l : halving n l -> logarithmic n (mk_progress l (list_sum l)).
Proof.
  intros H. unfold logarithmic. cbn [component_counts counter].
  split; [now apply halving_log|]. split; [inversion H; subst; simpl; auto; lia|].
  split; [|split; [|split; [reflexivity|now apply halving_sum]]].
  - induction H as [c Hc|c c' l H1 H2 H IH]; intros i a b Ha Hb; [destruct i; discriminate|].
    destruct i as [|i]; [|eapply IH; eauto]. cbn in Ha, Hb. injection Ha as <-.
    inversion H; subst; cbn in Hb; [discriminate|]. injection Hb as <-. auto.
  - induction H as [c Hc|c c' l H1 H2 H IH]; intros a []; subst; auto.
Qed.

(** ** Searches sample by sample *)
Section Plain.
Context (m : metric) (dist : list Z -> list Z -> m_dist m) (Hm : metric_ok m dist) (Hsym : forall a b, dist a b = dist b a).
Context (samples : list Z) (nf n : nat) (tree : kdtree).
Hypothesis P : Permutation (seq 0 n) (kt_indices tree).
Hypothesis R : kd_ranges (kt_indices tree) (kt_root tree).
Hypothesis S1 : kd_samples (kt_indices tree) (kt_root tree) = kt_indices tree.
Hypothesis O : kd_ordered samples nf (kt_indices tree) (kt_root tree).
Hypothesis HL : length samples = n * nf.
Context (core : option (list (m_dist m))).
Hypothesis Hcore : forall c, core = Some c -> length c = n.
Hypothesis Hfin : forall i j, i < n -> j < n -> m_lt m (mw m dist samples nf core i j) (m_inf m) = true.
Context (oc : nat -> list (nat * list nat) -> list (nat * list nat)) (oe : nat -> list (nat * edge m) -> list (nat * edge m)).
Hypothesis Hoc : permuting oc.
Hypothesis Hoe : permuting oe.

Lemma plain_rounds fuel : 0 < n -> Nat.log2 n <= fuel ->
  exists f0 f l, make_forest m n = Ok f0 /\
    make_tree_loop m samples nf tree oc oe core fuel 0 f0 = Ok f /\
    reported_loop m samples nf tree oc oe core fuel 0 f0 (mk_progress [] 0) = Ok (f, mk_progress l (list_sum l)) /\
    spanning_tree n (f_mst m f) /\ halving n l.
Proof.
  intros Hn Hf. destruct (make_forest_inv m dist samples nf n HL core Hn) as (f0 & E0 & I0 & M0 & N0).
  destruct (reported_ok m
    (fun f => forest_inv m dist samples nf n core f /\
              (core = None -> lightest_cuts (m_lt m) n (W m dist samples nf) (f_mst m f)))
    (fun i f => if n_components m f =? 2 then dual_component_step_sequential m samples nf tree oc core i f
                         else step_sequential m samples nf tree oc oe core i f)) with
    (fuel := fuel) (i := 0) (f := f0) (counts := @nil nat) (sum := 0) as (f & l & E & E' & (I & _) & L & H).
  - intros i f (I & C) H1.
    destruct (any_step_ok m dist Hm samples nf tree n P R S1 O HL core Hcore Hfin
      (fun i j _ _ => Hsym _ _) oc oe Hoc Hoe i f I H1 C) as (f' & Es & I' & C' & L'). eauto.
  - split; auto. intros _. rewrite M0. intros E1 a b w E2 Heq. destruct E1; discriminate.
  - rewrite N0. now apply log_fuel.
  - exists f0, f, l. rewrite plain_make_tree, reported_make_tree_loop. rewrite N0 in H. cbn [app Nat.add] in E.
    split; auto. split; auto. split; auto. split; auto.
    apply (one_component m dist samples nf n HL core f I Hn L).
Qed.
End Plain.

(** ** C95 *)
Theorem c95_logarithmic_rounds :
  forall m dist tol samples nf n bucket max_depth policy lowest max center oc oe k fuel,
  metric_ok m dist -> finite_metric m dist samples nf n -> whole_input tol samples nf n policy lowest max ->
  permuting oc -> permuting oe -> 1 <= n -> (Z.of_nat k < 2 ^ 64)%Z -> Nat.log2 n <= fuel ->
  exists tree mst out,
    make_kdtree tol samples nf bucket max_depth policy lowest max center (seq 0 n) = Ok tree /\
    make_tree m samples nf tree oc oe fuel k = Ok mst /\
    reported_make_tree m samples nf tree oc oe fuel k = Ok (mst, out) /\
    spanning_tree n mst /\ logarithmic n out.
Proof.
  intros m dist tol samples nf n bucket max_depth policy lowest max center oc oe k fuel Hm Hf Hi Hoc Hoe Hn Hk Hfuel.
  pose proof (whole_nf _ _ _ _ _ _ _ Hi) as Hdiv. destruct Hi as (Ht & HL).
  destruct (built_tree tol samples nf bucket max_depth policy lowest max center (seq 0 n) Ht)
    as (tree & E & P & R & S1 & O & _).
  exists tree. unfold make_tree, reported_make_tree. rewrite Hdiv.
  assert (Hs : forall a b, dist a b = dist b a) by apply Hf.
  destruct (Nat.ltb_spec 1 k) as [Hk1|Hk1].
  - destruct (core_ok m dist Hm samples nf tree n P R S1 O HL k) as (cs & Ecs & Hlcs & Hcs); auto; try lia.
    destruct (plain_rounds m dist Hm Hs samples nf n tree P R S1 O HL (Some cs)) with (oc := oc) (oe := oe) (fuel := fuel)
      as (f0 & f & l & E0 & E1 & E2 & T & H); auto.
    { intros c Hc. inversion Hc; subst; auto. }
    { intros i j H1 H2. unfold mw.
      destruct (max3_in (m_lt m) (nth i cs (m_inf m)) (nth j cs (m_inf m)) (W m dist samples nf i j)) as [<-|[<-|[<-|[]]]].
      - destruct (core_in m dist samples nf n HL k i _ (Hcs i H1)) as (y & Hy & ->). now apply (proj2 Hf).
      - destruct (core_in m dist samples nf n HL k j _ (Hcs j H2)) as (y & Hy & ->). now apply (proj2 Hf).
      - now apply (proj2 Hf). }
    exists (f_mst m f), (mk_progress l (list_sum l)). rewrite E0. cbn [bind]. rewrite Ecs. cbn [bind]. rewrite E1, E2. cbn [bind].
    split; auto. split; auto. split; auto. split; auto. now apply halving_logarithmic.
  - destruct (plain_rounds m dist Hm Hs samples nf n tree P R S1 O HL None) with (oc := oc) (oe := oe) (fuel := fuel)
      as (f0 & f & l & E0 & E1 & E2 & T & H); auto.
    { intros c Hc. discriminate. }
    { intros i j H1 H2. now apply (proj2 Hf). }
    exists (f_mst m f), (mk_progress l (list_sum l)). rewrite E0. cbn [bind]. rewrite E1, E2. cbn [bind].
    split; auto. split; auto. split; auto. split; auto. now apply halving_logarithmic.
Qed.

Definition four : list Z := [0; 1; 10; 11]%Z.
Lemma four_whole : whole_input 0 four 1 4 (fun _ _ _ _ => 0) (-100) 100.
Proof. split; [|reflexivity]. apply (line_input four). repeat constructor; lia. Qed.

Definition four_tree : res kdtree := make_kdtree 0 four 1 1 10 (fun _ _ _ _ => 0) (-100) 100 half (seq 0 4).

(** Both bounds are attained by four samples. *)
Example c95_logarithmic_rounds_case :
  metric_ok float_metric fdist /\ finite_metric float_metric fdist four 1 4 /\
  whole_input 0 four 1 4 (fun _ _ _ _ => 0) (-100) 100 /\ permuting (@flip (nat * list nat)) /\
  permuting (@flip (nat * BoruvkaModel.edge float_metric)) /\ Nat.log2 4 = 2 /\
  with_tree four_tree (fun t => reported_make_tree float_metric four 1 t keep keep 2 1) =
    Ok ([(0, 1, Some 1%Z); (2, 3, Some 1%Z); (1, 2, Some 81%Z)], mk_progress [4; 2] 6) /\
  with_tree four_tree (fun t => reported_make_tree float_metric four 1 t keep keep 1 1) = Fuel /\
  with_tree (pts_tree 1 10) (fun t => (r <- reported_make_tree float_metric pts 2 t flip flip 2 4 ;; Ok (snd r))) =
    Ok (mk_progress [7; 2] 9).
Proof.
  split; [exact float_metric_ok|]. split; [apply float_finite|]. split; [exact four_whole|]. split; [apply flip_ok|].
  split; [apply flip_ok|]. splits; vm_compute; reflexivity.
Qed.

(** ** Searches with a second tree *)
Theorem c95_logarithmic_rounds_dual :
  forall rtol samples nf n bucket max_depth rpolicy rlowest rmax rcenter
    tol policy lowest max center right_first oc oe k fuel,
  whole_input rtol samples nf n rpolicy rlowest rmax -> whole_input tol samples nf n policy lowest max ->
  permuting oc -> permuting oe -> 1 <= n -> 1 <= k -> fits k -> Nat.log2 n <= fuel ->
  exists tree mst out,
    make_kdtree rtol samples nf bucket max_depth rpolicy rlowest rmax rcenter (seq 0 n) = Ok tree /\
    make_tree_2 float_metric float_pruning samples nf tree oc oe tol policy lowest max center right_first fuel k = Ok mst /\
    reported_make_tree_2 float_metric samples nf tree oc oe float_pruning tol policy lowest max center right_first fuel k =
      Ok (mst, out) /\
    spanning_tree n mst /\ logarithmic n out.
Proof.
  intros rtol samples nf n bucket max_depth rpolicy rlowest rmax rcenter tol policy lowest max center right_first oc oe k fuel
    Hr Hi Hoc Hoe Hn H1 Hk Hfuel.
  pose proof (whole_nf _ _ _ _ _ _ _ Hr) as Hdiv.
  destruct (built_tree rtol samples nf bucket max_depth rpolicy rlowest rmax rcenter (seq 0 n) (proj1 Hr))
    as (tree & E & P & R & S1 & O & _). pose proof (proj2 Hr) as HL.
  destruct (core_ok float_metric fdist float_metric_ok samples nf tree n P R S1 O HL k) as (cs & Ecs & _); auto.
  set (core := Some (repeat (Some 0%Z) n)).
  destruct (make_forest_inv float_metric fdist samples nf n HL core Hn) as (f0 & E0 & I0 & M0 & N0).
  destruct (reported_ok float_metric
    (fun f => forest_inv float_metric fdist samples nf n core f /\
              (core = None -> lightest_cuts opt_lt n (W float_metric fdist samples nf) (f_mst float_metric f)))
    (step_dual_tree_sequential float_metric float_pruning samples nf tree oc oe tol policy lowest max center right_first k)) with
    (fuel := fuel) (i := 0) (f := f0) (counts := @nil nat) (sum := 0) as (f & l & E1 & E2 & (I & _) & L & H).
  - intros i f (I & C) Hc.
    destruct (dual_step float_metric fdist float_metric_ok float_pruning samples nf tree n HL core) with (oc := oc) (oe := oe)
      (tol := tol) (policy := policy) (lowest := lowest) (max := max) (center := center) (right_first := right_first) (k := k)
      (i := i) (f := f) as (f' & Es & I' & C' & L'); auto.
    { intros a b _ _. exact (f_equal Some (sq_sym _ _)). }
    { intros j u r c U Hrn Hrr Nc Dc Hcx Hx.
      apply (float_component tol policy lowest max center samples nf n Hi Hn rtol rpolicy rcenter rlowest rmax Hr bucket max_depth
        tree E k core); auto; [unfold core; discriminate|].
      intros a b Ha Hb. unfold mw, core. rewrite !nth_repeat' by auto. unfold max3, W. cbn.
      pose proof (sq_nonneg (row samples nf b) (row samples nf a)).
      destruct (Z.ltb_spec 0 (sq_dist (row samples nf b) (row samples nf a))); auto. f_equal. lia. }
    exists f'. auto.
  - split; auto. unfold core. discriminate.
  - rewrite N0. now apply log_fuel.
  - exists tree, (f_mst float_metric f), (mk_progress l (list_sum l)).
    unfold make_tree_2, reported_make_tree_2. rewrite Hdiv, E0. cbn [bind]. rewrite Ecs. cbn [bind].
    rewrite plain_make_tree_2, reported_make_tree_2_loop, E1, E2. cbn [bind app Nat.add].
    rewrite N0 in H. split; auto. split; auto. split; auto. split; [|now apply halving_logarithmic].
    apply (one_component float_metric fdist samples nf n HL core f I Hn L).
Qed.

Example c95_logarithmic_rounds_dual_case :
  whole_input 0 pts 2 7 cycle (-100) 100 /\ fits default_k_nearest_neighbors /\ Nat.log2 7 = 2 /\
  with_tree (pts_tree 1 10) (fun t => (r <- reported_make_tree_2 float_metric pts 2 t keep keep float_pruning 0 cycle (-100) 100 half
    (fun _ _ _ _ => false) 2 1 ;; Ok (snd r))) = Ok (mk_progress [7; 2] 9) /\
  with_tree (pts_tree 1 10) (fun t => (r <- reported_make_tree_2 float_metric pts 2 t keep keep float_pruning 0 cycle (-100) 100 half
    (fun _ _ _ _ => false) 2 default_k_nearest_neighbors ;; Ok (snd r))) = Ok (mk_progress [7] 7).
Proof. split; [exact pts_whole|]. split; [reflexivity|]. splits; vm_compute; reflexivity. Qed.

Print Assumptions c95_logarithmic_rounds.
Print Assumptions c95_logarithmic_rounds_dual.
