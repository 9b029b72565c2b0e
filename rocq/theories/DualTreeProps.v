(** Theorems on the dual tree search (C49). *)
From Coq Require Import List Arith ZArith Lia Bool Permutation Relations.
From Verif Require Import Base SortingModel SortingSpec BoundsModel BoundsSpec BoundsProofs
  UnionFindModel UnionFindSpec UnionFindProofs BufferModel BufferSpec BufferProofs BufferProps
  KDTreeModel KDTreeSpec KDTreeProofs KDTreeProps SearchModel SearchSpec SearchProofs SearchProps
  DualTreeModel DualTreeProofs.
Import ListNotations.

(** ** Statements *)

(** [x], [y] is a closest pair of the samples [xs] of [qs] and [ys] of [rs], at the squared distance [d]. *)
Definition closest_pair (qs rs : list Z) (nf : nat) (xs ys : list nat) (x y : nat) (d : Z) : Prop :=
  In x xs /\ In y ys /\ d = sq_dist (row qs nf x) (row rs nf y) /\
  forall x' y', In x' xs -> In y' ys -> (d <= sq_dist (row qs nf x') (row rs nf y'))%Z.

(** [d] is the distance of at least [k] of the pairs, or is beaten by fewer than [k] of them: the [k]-th shortest. *)
Definition pair_distances (qs rs : list Z) (nf : nat) (xs ys : list nat) : list Z :=
  flat_map (fun x => map (fun y => sq_dist (row qs nf x) (row rs nf y)) ys) xs.
Definition kth_smallest (k : nat) (l : list Z) (d : Z) : Prop :=
  In d l /\ length (filter (fun e => (e <? d)%Z) l) < k /\ k <= length (filter (fun e => (e <=? d)%Z) l).

(** ** Lemmas *)

Lemma built_boxes tol samples nf bucket max_depth policy lowest max center indices :
  tree_input tol samples nf policy lowest max indices -> indices <> [] ->
  exists tree, make_kdtree tol samples nf bucket max_depth policy lowest max center indices = Ok tree /\
    Permutation indices (kt_indices tree) /\ kd_ranges (kt_indices tree) (kt_root tree) /\
    kd_samples (kt_indices tree) (kt_root tree) = kt_indices tree /\
    kd_enclosed samples nf (kt_indices tree) (kt_root tree) /\
    (forall i, In i (kt_indices tree) -> i * nf + nf <= length samples).
Proof.
  intros Hi Hne.
  destruct (built_tree tol samples nf bucket max_depth policy lowest max center indices Hi) as (tree & E & P & R & S1 & _ & D).
  destruct Hi as (A1 & A2 & A3 & A4).
  destruct (c12_nodes_separate_and_enclose tol samples nf bucket max_depth policy lowest max center indices A1 A2 A3 Hne A4)
    as (tree' & E' & _ & En).
  assert (tree' = tree) by congruence. subst tree'. exists tree. splits; auto.
Qed.

(** Everything about the search with one neighbour on floating point numbers. *)
Lemma dual_search_one qs nf qtree queries rs rtree references {S} (accept : nat -> S -> res (bool * S)) P (Q : S -> Prop)
  right_first s :
  Permutation queries (kt_indices qtree) -> kd_ranges (kt_indices qtree) (kt_root qtree) ->
  kd_samples (kt_indices qtree) (kt_root qtree) = kt_indices qtree ->
  kd_enclosed qs nf (kt_indices qtree) (kt_root qtree) ->
  (forall i, In i (kt_indices qtree) -> i * nf + nf <= length qs) ->
  Permutation references (kt_indices rtree) -> kd_ranges (kt_indices rtree) (kt_root rtree) ->
  kd_samples (kt_indices rtree) (kt_root rtree) = kt_indices rtree ->
  kd_enclosed rs nf (kt_indices rtree) (kt_root rtree) ->
  (forall i, In i (kt_indices rtree) -> i * nf + nf <= length rs) ->
  (forall i s, In i references -> Q s -> exists s', accept i s = Ok (P i, s') /\ Q s') -> Q s -> queries <> [] ->
  (exists y, In y references /\ P y = true) ->
  exists x y d s',
    dual_tree_search float_metric float_pruning qs nf qtree rs nf rtree accept 1 right_first s
      = Ok ((x, y, Some d), s') /\ Q s' /\
    closest_pair qs rs nf queries (filter P references) x y d.
Proof.
  intros Pq Rq Sq Eq Dq Pr Rr Sr Er Dr Ha Hs Hne (y0 & Hy0 & Py0).
  destruct (traversal_one qs nf (kt_indices qtree) (kt_root qtree) rs (kt_indices rtree) (kt_root rtree) accept P Q right_first
              Dq Dr) with (fuel := Datatypes.S (kd_height (kt_root qtree) + kd_height (kt_root rtree))) (s := s)
    as (st & E & I & C); auto.
  { intros i s0 Hi. apply Ha. eapply Permutation_in; [symmetry; exact Pr|auto]. }
  change (m_dist float_metric) with (option Z) in *. rewrite Sq, Sr in C.
  destruct queries as [|x0 queries]; [congruence|].
  assert (Hx0 : In x0 (kt_indices qtree)) by (eapply Permutation_in; [exact Pq|simpl; auto]).
  assert (Hy0' : In y0 (kt_indices rtree)) by (eapply Permutation_in; eauto).
  destruct (C x0 y0 Hx0 Hy0' Py0) as (x & y & Ee & _).
  unfold queue_of in Ee. cbn [fst] in Ee.
  pose proof (iv_queue _ _ _ _ _ _ _ st I) as [Hq|(x1 & y1 & Hq & Gx & Gy & Gp)].
  { unfold queue_of in Hq. inversion Hq as [[H0 H1]]. rewrite H0 in Ee. discriminate. }
  unfold queue_of in Hq. assert (H0 : du_edges st = [(x1, y1, Some (dst qs nf rs x1 y1))]) by exact (f_equal fst Hq).
  rewrite H0 in Ee. inversion Ee; subst x y.
  exists x1, y1, (dst qs nf rs x1 y1), (du_state st). splits.
  - unfold dual_tree_search.
    match goal with |- context [dual_tree_traversal ?a1 ?a2 ?a3 ?a4 ?a5 ?a6 ?a7 ?a8 ?a9 ?b1 ?b2 ?b3 ?b4 ?b5 ?b6 ?b7 ?b8 ?b9 ?c1] =>
      replace (dual_tree_traversal a1 a2 a3 a4 a5 a6 a7 a8 a9 b1 b2 b3 b4 b5 b6 b7 b8 b9 c1) with (Ok st)
        by (symmetry; exact E) end.
    cbn [bind]. change (m_dist float_metric) with (option Z). rewrite H0. reflexivity.
  - apply (iv_state _ _ _ _ _ _ _ st I).
  - unfold closest_pair. splits.
    + eapply Permutation_in; [symmetry; exact Pq|auto].
    + apply filter_In. split; auto. eapply Permutation_in; [symmetry; exact Pr|auto].
    + apply sq_sym.
    + intros x' y' Hx' Hy'. apply filter_In in Hy' as (Hy' & Py').
      destruct (C x' y') with (1 := Permutation_in _ Pq Hx') (2 := Permutation_in _ Pr Hy') (3 := Py') as (x2 & y2 & E2 & L2).
      unfold queue_of in E2. cbn [fst] in E2. rewrite H0 in E2. inversion E2; subst x2 y2.
      rewrite sq_sym. exact L2.
Qed.

Lemma shortest_edge_one qs nf qtree queries rs rtree references {S} (accept : nat -> S -> res (bool * S)) P (Q : S -> Prop)
  right_first s :
  Permutation queries (kt_indices qtree) -> kd_ranges (kt_indices qtree) (kt_root qtree) ->
  kd_samples (kt_indices qtree) (kt_root qtree) = kt_indices qtree ->
  kd_enclosed qs nf (kt_indices qtree) (kt_root qtree) ->
  (forall i, In i (kt_indices qtree) -> i * nf + nf <= length qs) ->
  Permutation references (kt_indices rtree) -> kd_ranges (kt_indices rtree) (kt_root rtree) ->
  kd_samples (kt_indices rtree) (kt_root rtree) = kt_indices rtree ->
  kd_enclosed rs nf (kt_indices rtree) (kt_root rtree) ->
  (forall i, In i (kt_indices rtree) -> i * nf + nf <= length rs) ->
  (forall i s, In i references -> Q s -> exists s', accept i s = Ok (P i, s') /\ Q s') -> Q s -> queries <> [] ->
  (exists y, In y references /\ P y = true) ->
  exists x y d,
    dual_tree_shortest_edge float_metric float_pruning qs nf qtree rs nf rtree accept 1 right_first s
      = Ok (x, y, Some d) /\
    closest_pair qs rs nf queries (filter P references) x y d.
Proof.
  intros A1 A2 A3 A4 A5 B1 B2 B3 B4 B5 Ha Hs Hne He.
  destruct (dual_search_one qs nf qtree queries rs rtree references accept P Q right_first s A1 A2 A3 A4 A5 B1 B2 B3 B4 B5
              Ha Hs Hne He) as (x & y & d & s' & E & _ & C).
  exists x, y, d. split; auto. unfold dual_tree_shortest_edge.
  match goal with |- context [dual_tree_search ?a1 ?a2 ?a3 ?a4 ?a5 ?a6 ?a7 ?a8 ?a9 ?b1 ?b2 ?b3] =>
    replace (dual_tree_search a1 a2 a3 a4 a5 a6 a7 a8 a9 b1 b2 b3) with (Ok ((x, y, Some d) : edge (m_dist float_metric), s'))
      by (symmetry; exact E) end.
  reflexivity.
Qed.

(** ** C49 *)

(** All samples eligible: the pair of two floating point datasets. *)
Theorem c49_dual_tree_closest_pair :
  forall qtol qs qbucket qdepth qpolicy qlow qmax qcenter queries rtol rs rbucket rdepth rpolicy rlow rmax rcenter references
    nf right_first,
  tree_input qtol qs nf qpolicy qlow qmax queries -> tree_input rtol rs nf rpolicy rlow rmax references ->
  queries <> [] -> references <> [] ->
  exists qtree rtree x y d,
    make_kdtree qtol qs nf qbucket qdepth qpolicy qlow qmax qcenter queries = Ok qtree /\
    make_kdtree rtol rs nf rbucket rdepth rpolicy rlow rmax rcenter references = Ok rtree /\
    dual_tree_shortest_edge float_metric float_pruning qs nf qtree rs nf rtree accept_all 1 right_first tt
      = Ok (x, y, Some d) /\
    closest_pair qs rs nf queries references x y d.
Proof.
  intros qtol qs qbucket qdepth qpolicy qlow qmax qcenter queries rtol rs rbucket rdepth rpolicy rlow rmax rcenter references
    nf right_first Hq Hr Nq Nr.
  destruct (built_boxes qtol qs nf qbucket qdepth qpolicy qlow qmax qcenter queries Hq Nq) as (qtree & E1 & A1 & A2 & A3 & A4 & A5).
  destruct (built_boxes rtol rs nf rbucket rdepth rpolicy rlow rmax rcenter references Hr Nr)
    as (rtree & E2 & B1 & B2 & B3 & B4 & B5).
  destruct (shortest_edge_one qs nf qtree queries rs rtree references accept_all (fun _ => true) (fun _ => True) right_first tt)
    as (x & y & d & E & C); auto.
  - intros i s _ _. exists s. auto.
  - destruct references as [|y0 l]; [congruence|]. exists y0. simpl; auto.
  - exists qtree, rtree, x, y, d. splits; auto.
    replace references with (filter (fun _ : nat => true) references); auto.
    clear. induction references; simpl; congruence.
Qed.

Lemma data_input (samples : list Z) nf policy lowest max indices :
  policy_ok nf policy -> (forall i, In i indices -> i * nf + nf <= length samples) ->
  Forall (fun x => lowest <= x <= max)%Z samples -> tree_input 0 samples nf policy lowest max indices.
Proof.
  intros Hp Hd Hv. unfold tree_input. splits; auto; try lia.
  - split.
    + intros j Hj i Hi. specialize (Hd i Hi). lia.
    + intros i j Hi Hj. specialize (Hd i Hi). unfold val. rewrite Forall_forall in Hv. apply Hv. apply nth_In. lia.
  - intros j _ x y _ _ H. lia.
Qed.

(** Seven samples against six others. *)
Definition others : list Z := [6; 9;  11; 6;  12; 0;  9; 8;  14; 3;  5; 12]%Z.
Definition others_tree (bucket : nat) : res kdtree := make_kdtree 0 others 2 bucket 10 cycle (-100) 100 half (seq 0 6).
Lemma others_input : tree_input 0 others 2 cycle (-100) 100 (seq 0 6).
Proof.
  apply data_input; [exact cycle_ok| |repeat constructor; lia]. intros i Hi. apply in_seq in Hi. simpl length. lia.
Qed.

Definition edge_of {A} (q r : res kdtree) (f : kdtree -> kdtree -> res A) : res A := q0 <- q ;; r0 <- r ;; f q0 r0.

Example c49_case :
  tree_input 0 pts 2 cycle (-100) 100 (seq 0 7) /\ tree_input 0 others 2 cycle (-100) 100 (seq 0 6) /\
  edge_of (pts_tree 1 10) (others_tree 1)
    (fun q r => dual_tree_shortest_edge float_metric float_pruning pts 2 q others 2 r accept_all 1 (fun _ _ => false) tt)
    = Ok (4, 3, Some 13%Z) /\
  edge_of (others_tree 2) (pts_tree 1 10)
    (fun q r => dual_tree_shortest_edge float_metric float_pruning others 2 q pts 2 r accept_all 1 (fun _ _ => true) tt)
    = Ok (1, 2, Some 13%Z) /\
  fold_left Z.min (pair_distances pts others 2 (seq 0 7) (seq 0 6)) 1000%Z = 13%Z.
Proof. split; [exact pts_input|]. split; [exact others_input|]. repeat split; vm_compute; reflexivity. Qed.

(** References of another component than [q]: what an iteration of Boruvka's algorithm asks for a component. *)
Theorem c49_closest_pair_of_another_component :
  forall qtol qs qbucket qdepth qpolicy qlow qmax qcenter queries rtol rs rbucket rdepth rpolicy rlow rmax rcenter references
    nf right_first n ops u q others,
  tree_input qtol qs nf qpolicy qlow qmax queries -> tree_input rtol rs nf rpolicy rlow rmax references ->
  queries <> [] -> others <> [] ->
  Forall (op_in_range n) ops -> uf_run (uf_make n) ops = Ok u -> q < n -> (forall i, In i references -> i < n) ->
  (forall i, In i others <-> In i references /\ ~ linked (merged_pairs ops) q i) ->
  exists qtree rtree x y d,
    make_kdtree qtol qs nf qbucket qdepth qpolicy qlow qmax qcenter queries = Ok qtree /\
    make_kdtree rtol rs nf rbucket rdepth rpolicy rlow rmax rcenter references = Ok rtree /\
    dual_tree_shortest_edge float_metric float_pruning qs nf qtree rs nf rtree (accept_other_component q) 1 right_first u
      = Ok (x, y, Some d) /\
    closest_pair qs rs nf queries others x y d.
Proof.
  intros qtol qs qbucket qdepth qpolicy qlow qmax qcenter queries rtol rs rbucket rdepth rpolicy rlow rmax rcenter references
    nf right_first n ops u q others Hq Hr Nq No Hops Hrun Hqn Hin Hoth.
  assert (Nr : references <> []).
  { destruct others as [|o others]; [congruence|]. destruct (proj1 (Hoth o) (or_introl eq_refl)) as (H & _).
    intros ->. destruct H. }
  destruct (built_boxes qtol qs nf qbucket qdepth qpolicy qlow qmax qcenter queries Hq Nq) as (qtree & E1 & A1 & A2 & A3 & A4 & A5).
  destruct (built_boxes rtol rs nf rbucket rdepth rpolicy rlow rmax rcenter references Hr Nr)
    as (rtree & E2 & B1 & B2 & B3 & B4 & B5).
  destruct (run_make_correct n ops Hops) as (u0 & E0 & U & T).
  assert (u0 = u) by congruence. subst u0.
  set (P := fun i => negb (rootf u q =? rootf u i)).
  assert (HP : forall i, In i references -> (P i = true <-> ~ linked (merged_pairs ops) q i)).
  { intros i Hi. specialize (Hin i Hi). unfold P. rewrite negb_true_iff, Nat.eqb_neq.
    pose proof (T q i (rootf u q) (rootf u i) Hqn Hin (rootf_root n u q U Hqn) (rootf_root n u i U Hin)) as HT. tauto. }
  destruct (shortest_edge_one qs nf qtree queries rs rtree references (accept_other_component q) P
              (fun u' => uinv n u' /\ same_roots (parents u) (parents u')) right_first u)
    as (x & y & d & E & C); auto.
  - intros i u1 Hi' (U1 & SR1). unfold accept_other_component.
    destruct (uf_find_correct n u1 q U1 Hqn) as (u2 & r1 & E3 & R1 & U2 & SR2 & _). rewrite E3. cbn [bind].
    destruct (uf_find_correct n u2 i U2 (Hin i Hi')) as (u3 & r2 & E4 & R2 & U3 & SR3 & _). rewrite E4. cbn [bind].
    exists u3. split.
    + unfold P. f_equal. f_equal. f_equal.
      assert (r1 = rootf u q).
      { eapply root_fun; [|apply (rootf_root n u q U Hqn)]. now apply SR1. }
      assert (r2 = rootf u i).
      { eapply root_fun; [|apply (rootf_root n u i U (Hin i Hi'))]. apply SR1. now apply SR2. }
      congruence.
    + split; auto. eapply same_roots_trans; [eapply same_roots_trans|]; eauto.
  - split; auto. apply same_roots_refl.
  - destruct others as [|o others]; [congruence|]. destruct (proj1 (Hoth o) (or_introl eq_refl)) as (H & H').
    exists o. split; auto. now apply HP.
  - exists qtree, rtree, x, y, d. splits; auto. destruct C as (C1 & C2 & C3 & C4).
    assert (HI : forall i, In i others <-> In i (filter P references)).
    { intros i. rewrite Hoth, filter_In. split; intros (H & H'); split; auto; now apply HP. }
    unfold closest_pair. splits; auto.
    + now apply HI.
    + intros x' y' Hx' Hy'. apply C4; auto. now apply HI.
Qed.

(** The component [1; 3; 5] against the whole dataset, which contains the component itself. *)
Definition component_tree : res kdtree := make_kdtree 0 pts 2 1 10 cycle (-100) 100 half [1; 3; 5].
Example c49_component_case :
  tree_input 0 pts 2 cycle (-100) 100 [1; 3; 5] /\ tree_input 0 pts 2 cycle (-100) 100 (seq 0 7) /\
  Forall (op_in_range 7) pts_ops /\
  (forall i, In i [0; 2; 4; 6] <-> In i (seq 0 7) /\ ~ linked (merged_pairs pts_ops) 1 i) /\
  match uf_run (uf_make 7) pts_ops with
  | Ok u => edge_of component_tree (pts_tree 1 10)
      (fun q r => dual_tree_shortest_edge float_metric float_pruning pts 2 q pts 2 r (accept_other_component 1) 1
                    (fun _ _ => false) u) = Ok (5, 6, Some 5%Z)
  | _ => False
  end.
Proof.
  split.
  { apply data_input; [exact cycle_ok| |repeat constructor; lia]. simpl. intros i Hi. lia. }
  split; [exact pts_input|]. split; [repeat constructor; simpl; lia|]. split; [|vm_compute; reflexivity].
  assert (L : forall i, In i [1; 3; 5] -> linked (merged_pairs pts_ops) 1 i).
  { intros i [<-|[<-|[<-|[]]]]; [apply rst_refl|apply rst_step; simpl; auto|].
    apply rst_trans with 3; apply rst_step; simpl; auto. }
  intros i. rewrite in_seq. split.
  - intros Hi. split; [simpl in Hi; lia|]. intros H.
    apply (linked_invariant (fun i => existsb (Nat.eqb i) [1; 3; 5])) in H.
    + destruct Hi as [<-|[<-|[<-|[<-|[]]]]]; discriminate.
    + intros a b. simpl. intuition (try congruence); match goal with H : _ = (_, _) |- _ => inversion H; reflexivity end.
  - intros (Hi & Hn). destruct (in_dec Nat.eq_dec i [1; 3; 5]) as [H|H]; [destruct (Hn (L i H))|]. simpl in *. lia.
Qed.

(** References that are not excluded. *)
Theorem c49_closest_pair_of_the_unvisited :
  forall qtol qs qbucket qdepth qpolicy qlow qmax qcenter queries rtol rs rbucket rdepth rpolicy rlow rmax rcenter references
    nf right_first visited,
  tree_input qtol qs nf qpolicy qlow qmax queries -> tree_input rtol rs nf rpolicy rlow rmax references ->
  queries <> [] -> ~ incl references visited ->
  exists qtree rtree x y d,
    make_kdtree qtol qs nf qbucket qdepth qpolicy qlow qmax qcenter queries = Ok qtree /\
    make_kdtree rtol rs nf rbucket rdepth rpolicy rlow rmax rcenter references = Ok rtree /\
    dual_tree_shortest_edge float_metric float_pruning qs nf qtree rs nf rtree (accept_unvisited visited) 1 right_first tt
      = Ok (x, y, Some d) /\
    closest_pair qs rs nf queries
      (filter (fun i => if in_dec Nat.eq_dec i visited then false else true) references) x y d.
Proof.
  intros qtol qs qbucket qdepth qpolicy qlow qmax qcenter queries rtol rs rbucket rdepth rpolicy rlow rmax rcenter references
    nf right_first visited Hq Hr Nq Nv.
  assert (Nr : references <> []) by (intros ->; apply Nv; intros i []).
  destruct (built_boxes qtol qs nf qbucket qdepth qpolicy qlow qmax qcenter queries Hq Nq) as (qtree & E1 & A1 & A2 & A3 & A4 & A5).
  destruct (built_boxes rtol rs nf rbucket rdepth rpolicy rlow rmax rcenter references Hr Nr)
    as (rtree & E2 & B1 & B2 & B3 & B4 & B5).
  destruct (shortest_edge_one qs nf qtree queries rs rtree references (accept_unvisited visited)
              (fun i => if in_dec Nat.eq_dec i visited then false else true) (fun _ => True) right_first tt)
    as (x & y & d & E & C); auto.
  - intros i s _ _. exists s. split; auto. unfold accept_unvisited. f_equal. f_equal.
    destruct (in_dec Nat.eq_dec i visited) as [Hv|Hv].
    + apply negb_false_iff. apply existsb_exists. exists i. split; auto. apply Nat.eqb_refl.
    + apply negb_true_iff. apply Bool.not_true_iff_false. intros He. apply existsb_exists in He as (x & Hx & Ex).
      apply Nat.eqb_eq in Ex. congruence.
  - destruct (existsb (fun i => if in_dec Nat.eq_dec i visited then false else true) references) eqn:Ex.
    + apply existsb_exists in Ex as (y & Hy & Py). eauto.
    + exfalso. apply Nv. intros i Hi. destruct (in_dec Nat.eq_dec i visited) as [|n] eqn:Ei; auto.
      assert (true = false); [|discriminate]. rewrite <- Ex. symmetry. apply existsb_exists. exists i. split; auto.
      now rewrite Ei.
  - exists qtree, rtree, x, y, d. splits; auto.
Qed.

Example c49_unvisited_case :
  tree_input 0 pts 2 cycle (-100) 100 (seq 0 7) /\ tree_input 0 others 2 cycle (-100) 100 (seq 0 6) /\
  ~ incl (seq 0 6) [3; 1] /\
  edge_of (pts_tree 1 10) (others_tree 1)
    (fun q r => dual_tree_shortest_edge float_metric float_pruning pts 2 q others 2 r (accept_unvisited [3; 1]) 1
                  (fun _ _ => false) tt) = Ok (4, 0, Some 17%Z).
Proof.
  split; [exact pts_input|]. split; [exact others_input|].
  split; [intros H; specialize (H 0 ltac:(simpl; auto)); simpl in H; lia|]. vm_compute; reflexivity.
Qed.

(** ** Any kind of values, any number of neighbours, any pruning *)

Theorem c49_dual_tree_edge_is_genuine :
  forall m dist p qtol qs qbucket qdepth qpolicy qlow qmax qcenter queries rtol rs rbucket rdepth rpolicy rlow rmax rcenter
    references nf right_first k visited,
  metric_ok m dist -> tree_input qtol qs nf qpolicy qlow qmax queries -> tree_input rtol rs nf rpolicy rlow rmax references ->
  queries <> [] -> references <> [] -> 1 <= k -> (Z.of_nat k < 2 ^ 64)%Z ->
  exists qtree rtree,
    make_kdtree qtol qs nf qbucket qdepth qpolicy qlow qmax qcenter queries = Ok qtree /\
    make_kdtree rtol rs nf rbucket rdepth rpolicy rlow rmax rcenter references = Ok rtree /\
    let result := dual_tree_shortest_edge m p qs nf qtree rs nf rtree (accept_unvisited visited) k right_first tt in
    (result = UB \/
     exists x y, result = Ok (x, y, dist (row rs nf y) (row qs nf x)) /\
       In x queries /\ In y references /\ ~ In y visited) /\
    (** It is undefined when every reference is excluded, *)
    (incl references visited -> result = UB) /\
    (** and only then if nothing is pruned while the limits are infinite. *)
    ((forall furthest diameter cost, p_adjusted_below p (m_inf m) furthest diameter cost = false) ->
     ~ incl references visited -> result <> UB).
Proof.
  intros m dist p qtol qs qbucket qdepth qpolicy qlow qmax qcenter queries rtol rs rbucket rdepth rpolicy rlow rmax rcenter
    references nf right_first k visited Hm Hq Hr Nq Nr H1 Hk.
  destruct (built_boxes qtol qs nf qbucket qdepth qpolicy qlow qmax qcenter queries Hq Nq) as (qtree & E1 & A1 & A2 & A3 & A4 & A5).
  destruct (built_boxes rtol rs nf rbucket rdepth rpolicy rlow rmax rcenter references Hr Nr)
    as (rtree & E2 & B1 & B2 & B3 & B4 & B5).
  exists qtree, rtree. split; auto. split; auto. cbv zeta.
  set (P := fun i => negb (existsb (Nat.eqb i) visited)).
  assert (HP : forall i, P i = true <-> ~ In i visited).
  { intros i. unfold P. rewrite negb_true_iff. split.
    - intros H Hi. assert (existsb (Nat.eqb i) visited = true) by (apply existsb_exists; exists i; split; auto; apply Nat.eqb_refl).
      congruence.
    - intros H. apply not_true_is_false. intros He. apply existsb_exists in He as (x & Hx & Ex). apply Nat.eqb_eq in Ex.
      congruence. }
  destruct (traversal_any m dist Hm p qs nf (kt_indices qtree) (kt_root qtree) rs (kt_indices rtree) (kt_root rtree)
    (accept_unvisited visited) P (fun _ => True) k right_first A5 B5) with
    (F := forall furthest diameter cost, p_adjusted_below p (m_inf m) furthest diameter cost = false)
    (fuel := S (kd_height (kt_root qtree) + kd_height (kt_root rtree))) (s := tt) as (st & E & I & C); auto.
  { intros i s _ _. exists s. auto. }
  unfold dual_tree_shortest_edge, dual_tree_search. rewrite E. cbn [bind].
  pose proof (ai_queue _ _ _ _ _ _ _ _ _ _ st I) as (G & _). cbn [fst] in G.
  destruct (du_edges st) as [|e edges] eqn:Ee.
  - cbn. split; [left; auto|]. split; [auto|]. intros F Hn. exfalso. rewrite A3, B3 in C.
    destruct queries as [|x0 queries]; [congruence|].
    apply Hn. intros y Hy. destruct (in_dec Nat.eq_dec y visited) as [|Hv]; auto. exfalso.
    apply (C x0 y) with (4 := proj2 (HP y) Hv); auto.
    + eapply Permutation_in; [exact A1|simpl; auto].
    + eapply Permutation_in; eauto.
  - destruct (top_edge_ok m dist Hm k H1 (e :: edges)) as (i & e' & Et & He'); [discriminate|].
    rewrite Et. cbn [bind]. apply nth_error_In in He'. specialize (G e' He'). destruct e' as ((x, y), d).
    destruct G as (Gx & Gy & Gp & ->). split; [right|split].
    + exists x, y. splits; auto.
      * eapply Permutation_in; [symmetry; exact A1|auto].
      * eapply Permutation_in; [symmetry; exact B1|auto].
      * now apply HP.
    + intros Hi. exfalso. apply (proj1 (HP y) Gp). apply Hi. eapply Permutation_in; [symmetry; exact B1|auto].
    + discriminate.
Qed.

Theorem float_pruning_patient :
  forall furthest diameter cost, p_adjusted_below float_pruning (m_inf float_metric) furthest diameter cost = false.
Proof. reflexivity. Qed.

Example c49_genuine_case :
  metric_ok float_metric (fun p q => Some (sq_dist p q)) /\ metric_ok int_metric l1_dist /\
  ~ incl (seq 0 6) [3; 1] /\
  edge_of (pts_tree 1 10) (others_tree 1)
    (fun q r => dual_tree_shortest_edge float_metric float_pruning pts 2 q others 2 r (accept_unvisited [3; 1]) 2
                  (fun _ _ => false) tt) = Ok (2, 2, Some 18%Z) /\
  edge_of (pts_tree 1 10) (others_tree 1)
    (fun q r => dual_tree_shortest_edge float_metric float_pruning pts 2 q others 2 r (accept_unvisited (seq 0 6)) 2
                  (fun _ _ => false) tt) = UB.
Proof.
  split; [exact float_metric_ok|]. split; [exact int_metric_ok|].
  split; [intros H; specialize (H 0 ltac:(simpl; auto)); simpl in H; lia|].
  split; vm_compute; reflexivity.
Qed.

(** The comparison of the cost with the limits on floating point numbers is the one of the code on square roots. *)
Theorem c49_pruning_compares_the_sum_of_the_roots :
  forall x y z, (0 <= x)%Z -> (0 <= y)%Z -> (0 <= z)%Z ->
  sqrt_sum_lt (x * x) (y * y) (z * z) = (x + y <? z)%Z /\
  forall f, (0 <= f)%Z ->
    p_adjusted_below float_pruning (Some (x * x)%Z) (Some (f * f)%Z) (y * y) (z * z) = (Z.min f (x + y) <? z)%Z.
Proof.
  intros x y z Hx Hy Hz.
  assert (H : sqrt_sum_lt (x * x) (y * y) (z * z) = (x + y <? z)%Z).
  { unfold sqrt_sum_lt. destruct (Z.ltb_spec (x + y) z) as [H|H].
    - apply andb_true_iff. rewrite !Z.ltb_lt.
      assert (2 * (x * y) < z * z - x * x - y * y)%Z by nia. split; [nia|].
      set (w := (z * z - x * x - y * y)%Z) in *. replace (4 * (x * x) * (y * y))%Z with (2 * (x * y) * (2 * (x * y)))%Z by ring.
      apply Z.mul_lt_mono_nonneg; nia.
    - apply not_true_is_false. rewrite andb_true_iff, !Z.ltb_lt. intros (H0 & H1).
      assert (z * z - x * x - y * y <= 2 * (x * y))%Z by nia.
      set (w := (z * z - x * x - y * y)%Z) in *. replace (4 * (x * x) * (y * y))%Z with (2 * (x * y) * (2 * (x * y)))%Z in H1 by ring.
      assert (w * w <= 2 * (x * y) * (2 * (x * y)))%Z by (apply Z.mul_le_mono_nonneg; lia). lia. }
  split; auto. intros f Hf. cbn [p_adjusted_below float_pruning opt_lt]. rewrite H.
  destruct (Z.ltb_spec (f * f) (z * z)), (Z.ltb_spec (x + y) z), (Z.ltb_spec (Z.min f (x + y)) z); auto; try nia.
Qed.

(** ** What does not hold *)

(** Signed integers: the infinity of the code is 0, the limits never become positive and nodes whose boxes are apart are
    never compared.  With disjoint boxes nothing is found and the top of an empty queue is read. *)
Theorem c49_integer_disjoint_boxes_refuted :
  exists qs rs queries references qtree rtree,
    tree_input 0 qs 1 (fun _ _ _ _ => 0) (-100) 100 queries /\ tree_input 0 rs 1 (fun _ _ _ _ => 0) (-100) 100 references /\
    queries <> [] /\ references <> [] /\
    make_kdtree 0 qs 1 1 10 (fun _ _ _ _ => 0) (-100) 100 half queries = Ok qtree /\
    make_kdtree 0 rs 1 1 10 (fun _ _ _ _ => 0) (-100) 100 half references = Ok rtree /\
    dual_tree_shortest_edge int_metric int_pruning qs 1 qtree rs 1 rtree accept_all 1 (fun _ _ => false) tt = UB.
Proof.
  exists [0; 5]%Z, [7; 9]%Z, (seq 0 2), (seq 0 2). eexists. eexists. splits; try discriminate.
  - apply (line_input [0; 5]%Z). repeat constructor; lia.
  - apply (line_input [7; 9]%Z). repeat constructor; lia.
  - vm_compute. reflexivity.
  - vm_compute. reflexivity.
  - vm_compute. reflexivity.
Qed.

(** With boxes that meet, the pair returned need not be a closest one. *)
Theorem c49_integer_closest_pair_refuted :
  exists samples queries references qtree rtree x y d x' y',
    tree_input 0 samples 2 cycle (-100) 100 queries /\ tree_input 0 samples 2 cycle (-100) 100 references /\
    make_kdtree 0 samples 2 1 10 cycle (-100) 100 half queries = Ok qtree /\
    make_kdtree 0 samples 2 1 10 cycle (-100) 100 half references = Ok rtree /\
    dual_tree_shortest_edge int_metric int_pruning samples 2 qtree samples 2 rtree accept_all 1 (fun _ _ => false) tt
      = Ok (x, y, d) /\
    In x' queries /\ In y' references /\ (l1_dist (row samples 2 x') (row samples 2 y') < d)%Z.
Proof.
  exists [7; 7; 6; 11; 3; 0; 7; 4; 8; 8; 8; 9]%Z, [0; 1; 2], [3; 4; 5]. eexists. eexists.
  exists 0, 5, 3%Z, 0, 4. splits; simpl; auto.
  - apply data_input; [exact cycle_ok| |repeat constructor; lia]. simpl. intros i Hi. lia.
  - apply data_input; [exact cycle_ok| |repeat constructor; lia]. simpl. intros i Hi. lia.
  - vm_compute. reflexivity.
  - vm_compute. reflexivity.
  - vm_compute. reflexivity.
  - lia.
Qed.

(** More neighbours: the edge is neither the [k]-th shortest nor bounded by it. With one query and two neighbours
    asked for, the shortest edge comes back, *)
Theorem c49_two_neighbours_refuted :
  exists samples queries references qtree rtree x y d,
    tree_input 0 samples 1 (fun _ _ _ _ => 0) (-100) 100 queries /\
    tree_input 0 samples 1 (fun _ _ _ _ => 0) (-100) 100 references /\
    make_kdtree 0 samples 1 1 10 (fun _ _ _ _ => 0) (-100) 100 half queries = Ok qtree /\
    make_kdtree 0 samples 1 1 10 (fun _ _ _ _ => 0) (-100) 100 half references = Ok rtree /\
    dual_tree_shortest_edge float_metric float_pruning samples 1 qtree samples 1 rtree accept_all 2 (fun _ _ => false) tt
      = Ok (x, y, Some d) /\
    kth_smallest 1 (pair_distances samples samples 1 queries references) d /\
    ~ kth_smallest 2 (pair_distances samples samples 1 queries references) d.
Proof.
  exists [0; 1; 4]%Z, [0], [1; 2]. eexists. eexists. exists 0, 1, 1%Z. splits.
  - apply data_input; [intros h q dp b; lia| |repeat constructor; lia]. simpl. intros i Hi. lia.
  - apply data_input; [intros h q dp b; lia| |repeat constructor; lia]. simpl. intros i Hi. lia.
  - vm_compute. reflexivity.
  - vm_compute. reflexivity.
  - vm_compute. reflexivity.
  - unfold kth_smallest. vm_compute. splits; auto.
  - unfold kth_smallest. vm_compute. intros (_ & _ & H). lia.
Qed.

(** and with three neighbours an edge longer than the third shortest can come back. *)
Theorem c49_three_neighbours_refuted :
  exists samples queries references qtree rtree x y d,
    tree_input 0 samples 1 (fun _ _ _ _ => 0) (-100) 100 queries /\
    tree_input 0 samples 1 (fun _ _ _ _ => 0) (-100) 100 references /\
    make_kdtree 0 samples 1 1 10 (fun _ _ _ _ => 0) (-100) 100 half queries = Ok qtree /\
    make_kdtree 0 samples 1 1 10 (fun _ _ _ _ => 0) (-100) 100 half references = Ok rtree /\
    dual_tree_shortest_edge float_metric float_pruning samples 1 qtree samples 1 rtree accept_all 3 (fun _ _ => false) tt
      = Ok (x, y, Some d) /\
    3 <= length (filter (fun e => (e <? d)%Z) (pair_distances samples samples 1 queries references)).
Proof.
  exists [24; 46; 23; 19; 58; 17]%Z, [0; 1; 2], [3; 4; 5]. eexists. eexists. exists 0, 5, 49%Z. splits.
  - apply data_input; [intros h q dp b; lia| |repeat constructor; lia]. simpl. intros i Hi. lia.
  - apply data_input; [intros h q dp b; lia| |repeat constructor; lia]. simpl. intros i Hi. lia.
  - vm_compute. reflexivity.
  - vm_compute. reflexivity.
  - vm_compute. reflexivity.
  - vm_compute. auto.
Qed.

Print Assumptions c49_dual_tree_closest_pair.
Print Assumptions c49_closest_pair_of_another_component.
Print Assumptions c49_closest_pair_of_the_unvisited.
Print Assumptions c49_dual_tree_edge_is_genuine.
Print Assumptions c49_pruning_compares_the_sum_of_the_roots.
Print Assumptions c49_integer_disjoint_boxes_refuted.
Print Assumptions c49_integer_closest_pair_refuted.
Print Assumptions c49_two_neighbours_refuted.
Print Assumptions c49_three_neighbours_refuted.
