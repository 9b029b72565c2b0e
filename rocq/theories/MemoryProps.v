(** Theorems on the visited set of a buffer with memory (C85). *)
From Coq Require Import List Arith ZArith Lia Bool Permutation.
From Verif Require Import Base SortingModel SortingSpec BoundsModel BoundsSpec BoundsProofs BoundsProps
  UnionFindModel UnionFindSpec UnionFindProofs BufferModel BufferSpec BufferProofs BufferProps
  KDTreeModel KDTreeSpec KDTreeProofs KDTreeProps SearchModel SearchSpec SearchProofs SearchProps BatchModel MemoryModel.
Import ListNotations.

(** ** Statements *)

(** The set at address [a] is alive and holds [set]. *)
Definition holds (h : heap) (a : nat) (set : list nat) : Prop := nth_error h a = Some (Some set).

(** The members of [indices] that are not in [set]. *)
Definition others (set indices : list nat) : list nat :=
  filter (fun i => if in_dec Nat.eq_dec i set then false else true) indices.

(** ** Lemmas *)
Lemma deref_holds h a set : holds h a set -> deref h a = Ok set.
Proof. unfold holds, deref, rd. intros ->. reflexivity. Qed.

Lemma holds_lt h a set : holds h a set -> a < length h.
Proof. intros H. apply nth_error_Some. unfold holds in H. congruence. Qed.

Lemma holds_app h a set t : holds h a set -> holds (h ++ t) a set.
Proof. intros H. unfold holds. rewrite nth_error_app1 by now apply holds_lt in H. exact H. Qed.

Lemma holds_last h set : holds (h ++ [Some set]) (length h) set.
Proof. unfold holds. rewrite nth_error_app2 by lia. now rewrite Nat.sub_diag. Qed.

Lemma nth_error_upd_same {A} (l : list A) i v : i < length l -> nth_error (upd l i v) i = Some v.
Proof. revert i. induction l as [|x l IH]; intros [|i] H; simpl in *; try lia; auto. apply IH. lia. Qed.

Lemma nth_error_upd_other {A} (l : list A) i j v : i <> j -> nth_error (upd l i v) j = nth_error l j.
Proof. revert i j. induction l as [|x l IH]; intros [|i] [|j] H; simpl in *; try lia; auto. Qed.

Lemma length_upd_any {A} (l : list A) i v : length (upd l i v) = length l.
Proof. revert i. induction l as [|x l IH]; intros [|i]; simpl; auto. Qed.

Lemma move_ok {D} leftover (w : with_memory D) h set : holds h (wm_own w) set ->
  exists h', move_with_memory leftover w h = Ok (mk_with_memory (wm_base w) (length h) (wm_reference w), h') /\
    length h' = S (length h) /\
    holds h' (length h) set /\ holds h' (wm_own w) (leftover set) /\
    (forall a s, a <> wm_own w -> holds h a s -> holds h' a s).
Proof.
  intros H. pose proof (holds_lt _ _ _ H) as Hl.
  exists (upd h (wm_own w) (Some (leftover set)) ++ [Some set]).
  split; [|split; [|split; [|split]]].
  - unfold move_with_memory. rewrite (deref_holds _ _ _ H). cbn [bind]. unfold wr.
    apply Nat.ltb_lt in Hl. rewrite Hl. cbn [bind]. rewrite length_upd_any. reflexivity.
  - rewrite app_length, length_upd_any. cbn [length]. lia.
  - rewrite <- (length_upd_any h (wm_own w) (Some (leftover set))). apply holds_last.
  - apply holds_app. unfold holds. now apply nth_error_upd_same.
  - intros a s Ha Hh. apply holds_app. unfold holds. rewrite nth_error_upd_other by congruence. exact Hh.
Qed.

Lemma destroy_ok {D} (w : with_memory D) h : wm_own w < length h ->
  exists h', destroy_with_memory w h = Ok h' /\ length h' = length h /\ nth_error h' (wm_own w) = Some None /\
    (forall a s, a <> wm_own w -> holds h a s -> holds h' a s).
Proof.
  intros Hl. exists (upd h (wm_own w) None). splits.
  - unfold destroy_with_memory, wr. apply Nat.ltb_lt in Hl. now rewrite Hl.
  - apply length_upd_any.
  - now apply nth_error_upd_same.
  - intros a s Ha Hh. unfold holds. rewrite nth_error_upd_other by congruence. exact Hh.
Qed.

(** The search reads the set at the address of the reference. *)
Lemma search_remembered m dist tol samples nf bucket max_depth policy lowest max center indices query k h a set :
  metric_ok m dist -> tree_input tol samples nf policy lowest max indices ->
  length query = nf -> 1 <= k -> (Z.of_nat k < 2 ^ 64)%Z -> holds h a set ->
  exists tree b,
    make_kdtree tol samples nf bucket max_depth policy lowest max center indices = Ok tree /\
    search_into m samples nf tree Unbounded query (accept_remembered h a) (make_buffer (m_inf m) k, tt) = Ok (b, tt) /\
    answers (m_lt m) k (with_distances dist samples nf query (others set indices)) b.
Proof.
  intros Hm Hi Hq H1 Hk Ha.
  destruct (built_tree tol samples nf bucket max_depth policy lowest max center indices Hi)
    as (tree & E & P & R & S1 & O & D).
  destruct (search_bounded m dist Hm samples nf tree indices Unbounded query (accept_remembered h a)
              (fun i => if in_dec Nat.eq_dec i set then false else true) (fun _ => True))
    with (k := k) (s := tt) as (b & s' & Es & _ & A); auto.
  - intros i s _ _. exists s. split; auto. unfold accept_remembered. rewrite (deref_holds _ _ _ Ha). cbn [bind].
    f_equal. f_equal.
    destruct (in_dec Nat.eq_dec i set) as [Hv|Hv].
    + apply negb_false_iff. apply existsb_exists. exists i. split; auto. apply Nat.eqb_refl.
    + apply negb_true_iff. apply Bool.not_true_iff_false. intros He. apply existsb_exists in He as (x & Hx & Ex).
      apply Nat.eqb_eq in Ex. congruence.
  - exists tree, b. splits; auto. destruct s'. exact Es.
Qed.

(** What a call with a temporary buffer does, for a reference to any set that is alive. *)
Lemma search_temporary_ok m dist tol samples nf bucket max_depth policy lowest max center indices query k (h h1 : heap)
  (w : with_memory (m_dist m)) leftover elided own set :
  metric_ok m dist -> tree_input tol samples nf policy lowest max indices ->
  length query = nf -> 1 <= k -> (Z.of_nat k < 2 ^ 64)%Z ->
  wm_base w = make_buffer (m_inf m) k -> wm_own w = length h -> length h1 = S (length h) ->
  holds h1 (wm_own w) own -> wm_reference w <= length h ->
  (forall h2, holds h2 (wm_own w) (leftover own) ->
              (forall a s, a <> wm_own w -> holds h1 a s -> holds h2 a s) -> holds h2 (wm_reference w) set) ->
  exists tree result h',
    make_kdtree tol samples nf bucket max_depth policy lowest max center indices = Ok tree /\
    search_temporary m samples nf tree Unbounded query leftover elided w h1 = Ok (result, h') /\
    answers (m_lt m) k (with_distances dist samples nf query (others set indices)) (wm_base result) /\
    wm_reference result = wm_reference w /\
    nth_error h' (wm_own w) = Some None /\
    (forall a s, a < length h -> holds h1 a s -> holds h' a s).
Proof.
  intros Hm Hi Hq K1 K2 Hb Ho Hl Hown Hr Hset.
  destruct (move_ok leftover w h1 own Hown) as (h2 & E2 & L2 & N2 & O2 & F2).
  specialize (Hset h2 O2 F2).
  destruct (search_remembered m dist tol samples nf bucket max_depth policy lowest max center indices query k h2
              (wm_reference w) set Hm Hi Hq K1 K2 Hset) as (tree & b & Et & Es & A).
  assert (Hn : wm_own w <> length h1) by (apply holds_lt in Hown; lia).
  destruct elided.
  - destruct (destroy_ok w h2) as (h3 & E3 & L3 & N3 & F3). { apply holds_lt in Hown. lia. }
    exists tree, (mk_with_memory b (length h1) (wm_reference w)), h3.
    split; [exact Et|]. split; [|split; [exact A|split; [reflexivity|split; [exact N3|]]]].
    + unfold search_temporary, search_with_memory. rewrite E2. cbn [bind wm_reference wm_base wm_own]. rewrite Hb, Es.
      cbn [bind]. rewrite E3. reflexivity.
    + intros a s Ha Hh. apply F3; [lia|]. apply F2; [lia|exact Hh].
  - set (local := mk_with_memory b (length h1) (wm_reference w)).
    destruct (move_ok leftover local h2 own N2) as (h3 & E3 & L3 & N3 & O3 & F3).
    destruct (destroy_ok local h3) as (h4 & E4 & L4 & N4 & F4). { unfold local; cbn [wm_own]; lia. }
    destruct (destroy_ok w h4) as (h5 & E5 & L5 & N5 & F5). { apply holds_lt in Hown. lia. }
    exists tree, (mk_with_memory b (length h2) (wm_reference w)), h5.
    split; [exact Et|]. split; [|split; [exact A|split; [reflexivity|split; [exact N5|]]]].
    + unfold search_temporary, search_with_memory. rewrite E2. cbn [bind wm_reference wm_base wm_own]. rewrite Hb, Es.
      cbn [bind]. fold local. rewrite E3. cbn [bind]. rewrite E4. cbn [bind]. rewrite E5. reflexivity.
    + intros a s Ha Hh. apply F5; [lia|]. apply F4; [unfold local; cbn [wm_own]; lia|].
      apply F3; [unfold local; cbn [wm_own]; lia|]. apply F2; [lia|exact Hh].
Qed.

(** ** C85 *)

(** A buffer that refers to a set of the caller: the search excludes that set, and the returned buffer still does. *)
Theorem c85_set_of_the_caller_is_respected :
  forall m dist tol samples nf bucket max_depth policy lowest max center indices query k leftover elided h a visited,
  metric_ok m dist -> tree_input tol samples nf policy lowest max indices ->
  length query = nf -> 1 <= k -> (Z.of_nat k < 2 ^ 64)%Z ->
  holds h a visited ->
  let '(argument, h1) := remember_reference (m_inf m) a k h in
  exists tree result h',
    make_kdtree tol samples nf bucket max_depth policy lowest max center indices = Ok tree /\
    search_temporary m samples nf tree Unbounded query leftover elided argument h1 = Ok (result, h') /\
    answers (m_lt m) k (with_distances dist samples nf query (others visited indices)) (wm_base result) /\
    holds h' a visited /\
    forall i d, In i visited -> update_with_memory (m_lt m) result h' i d = Ok result.
Proof.
  intros m dist tol samples nf bucket max_depth policy lowest max center indices query k leftover elided h a visited
    Hm Hi Hq K1 K2 Ha.
  unfold remember_reference. set (w := mk_with_memory (make_buffer (m_inf m) k) (length h) a).
  pose proof (holds_lt _ _ _ Ha) as Hl.
  destruct (search_temporary_ok m dist tol samples nf bucket max_depth policy lowest max center indices query k h
              (h ++ [Some []]) w leftover elided [] visited) as (tree & r & h' & E1 & E2 & A & R & N & F); auto.
  - rewrite app_length. cbn [length]. lia.
  - apply holds_last.
  - unfold w; cbn [wm_reference]. lia.
  - intros h2 _ F. apply F; [unfold w; cbn [wm_reference wm_own]; lia|]. now apply holds_app.
  - assert (Hh : holds h' a visited). { apply F; [exact Hl|now apply holds_app]. }
    exists tree, r, h'. splits; auto.
    intros i d Hin. unfold update_with_memory. rewrite R. unfold w at 1; cbn [wm_reference].
    rewrite (deref_holds _ _ _ Hh). cbn [bind].
    assert (X : existsb (Nat.eqb i) visited = true). { apply existsb_exists. exists i. split; auto. apply Nat.eqb_refl. }
    now rewrite X.
Qed.

(** A buffer handed its own set: the search excludes what the move left behind in the argument, whatever that is, and not
    the set itself; the returned buffer refers to a set that is gone. *)
Theorem c85_own_set_is_lost :
  forall m dist tol samples nf bucket max_depth policy lowest max center indices query k leftover elided h visited,
  metric_ok m dist -> tree_input tol samples nf policy lowest max indices ->
  length query = nf -> 1 <= k -> (Z.of_nat k < 2 ^ 64)%Z ->
  let '(argument, h1) := remember_own (m_inf m) visited k h in
  exists tree result h',
    make_kdtree tol samples nf bucket max_depth policy lowest max center indices = Ok tree /\
    search_temporary m samples nf tree Unbounded query leftover elided argument h1 = Ok (result, h') /\
    answers (m_lt m) k (with_distances dist samples nf query (others (leftover visited) indices)) (wm_base result) /\
    forall i d, update_with_memory (m_lt m) result h' i d = UB.
Proof.
  intros m dist tol samples nf bucket max_depth policy lowest max center indices query k leftover elided h visited
    Hm Hi Hq K1 K2.
  unfold remember_own. set (w := mk_with_memory (make_buffer (m_inf m) k) (length h) (length h)).
  destruct (search_temporary_ok m dist tol samples nf bucket max_depth policy lowest max center indices query k h
              (h ++ [Some visited]) w leftover elided visited (leftover visited))
    as (tree & r & h' & E1 & E2 & A & R & N & F); auto.
  - rewrite app_length. cbn [length]. lia.
  - apply holds_last.
  - exists tree, r, h'. splits; auto.
    intros i d. unfold update_with_memory. rewrite R. unfold deref, rd.
    change (wm_reference w) with (wm_own w). rewrite N. reflexivity.
Qed.

(** The same for a buffer without a set: it finds all the samples, provided a set that was moved from while empty is
    empty, and it cannot be updated after the call. *)
Theorem c85_no_set :
  forall m dist tol samples nf bucket max_depth policy lowest max center indices query k leftover elided h,
  metric_ok m dist -> tree_input tol samples nf policy lowest max indices ->
  length query = nf -> 1 <= k -> (Z.of_nat k < 2 ^ 64)%Z -> leftover [] = [] ->
  let '(argument, h1) := remember_nothing (m_inf m) k h in
  exists tree result h',
    make_kdtree tol samples nf bucket max_depth policy lowest max center indices = Ok tree /\
    search_temporary m samples nf tree Unbounded query leftover elided argument h1 = Ok (result, h') /\
    answers (m_lt m) k (with_distances dist samples nf query indices) (wm_base result) /\
    forall i d, update_with_memory (m_lt m) result h' i d = UB.
Proof.
  intros m dist tol samples nf bucket max_depth policy lowest max center indices query k leftover elided h
    Hm Hi Hq K1 K2 Hl.
  destruct (c85_own_set_is_lost m dist tol samples nf bucket max_depth policy lowest max center indices query k leftover
              elided h [] Hm Hi Hq K1 K2) as (tree & r & h' & E1 & E2 & A & U).
  exists tree, r, h'. splits; auto.
  rewrite Hl in A. unfold others in A. cbn in A.
  rewrite filter_true in A. exact A.
Qed.

Definition reported {D} (r : res (with_memory D * heap)) : option (list nat * list D) :=
  match r with Ok (w, _) => Some (buf_indices (wm_base w), buf_distances (wm_base w)) | _ => None end.

Example c85_set_of_the_caller_is_respected_case :
  tree_input 0 pts 2 cycle (-100) 100 (seq 0 7) /\ metric_ok int_metric l1_dist /\
  holds [Some [0]; Some [3; 5]] 1 [3; 5] /\
  let '(argument, h) := remember_reference 0%Z 1 3 [Some [0]; Some [3; 5]] in
  reported (with_tree (pts_tree 1 10)
    (fun t => search_temporary int_metric pts 2 t Unbounded [3; 3]%Z (fun _ => []) true argument h))
    = Some ([0; 4; 1], [4; 6; 2]%Z).
Proof.
  split; [exact pts_input|]. split; [exact int_metric_ok|]. split; [reflexivity|]. vm_compute; reflexivity.
Qed.

(** With the standard library of GCC, where a set that was moved from is empty: the samples 3 and 5 were to be left out and
    are reported. *)
Example c85_own_set_is_lost_case :
  tree_input 0 pts 2 cycle (-100) 100 (seq 0 7) /\ metric_ok int_metric l1_dist /\
  let '(argument, h) := remember_own 0%Z [3; 5] 3 [] in
  reported (with_tree (pts_tree 1 10)
    (fun t => search_temporary int_metric pts 2 t Unbounded [3; 3]%Z (fun _ => []) false argument h))
    = Some ([3; 1; 5], [2; 2; 4]%Z).
Proof. split; [exact pts_input|]. split; [exact int_metric_ok|]. vm_compute; reflexivity. Qed.

Example c85_no_set_case :
  tree_input 0 pts 2 cycle (-100) 100 (seq 0 7) /\ metric_ok int_metric l1_dist /\
  let '(argument, h) := remember_nothing 0%Z 3 [Some [4]] in
  reported (with_tree (pts_tree 1 10)
    (fun t => search_temporary int_metric pts 2 t Unbounded [3; 3]%Z (fun _ => []) true argument h))
    = Some ([3; 1; 5], [2; 2; 4]%Z).
Proof. split; [exact pts_input|]. split; [exact int_metric_ok|]. vm_compute; reflexivity. Qed.

(** The expectation that the samples of a set handed to the buffer are not reported is false. *)
Theorem c85_own_set_is_respected_refuted :
  exists samples nf bucket max_depth policy lowest max center indices query k leftover elided visited tree result h',
    tree_input 0 samples nf policy lowest max indices /\ length query = nf /\ 1 <= k /\ leftover [] = @nil nat /\
    make_kdtree 0 samples nf bucket max_depth policy lowest max center indices = Ok tree /\
    (let '(argument, h1) := remember_own (m_inf int_metric) visited k [] in
     search_temporary int_metric samples nf tree Unbounded query leftover elided argument h1 = Ok (result, h')) /\
    exists i, In i visited /\ In i (buf_indices (wm_base result)).
Proof.
  destruct (pts_tree 1 10) as [t| | |] eqn:Et; try (vm_compute in Et; discriminate Et).
  assert (E : let '(argument, h) := remember_own 0%Z [3; 5] 3 [] in
    reported (search_temporary int_metric pts 2 t Unbounded [3; 3]%Z (fun _ => []) true argument h)
    = Some ([3; 1; 5], [2; 2; 4]%Z)).
  { vm_compute in Et. injection Et as <-. vm_compute. reflexivity. }
  cbn [remember_own] in E.
  destruct (search_temporary int_metric pts 2 t Unbounded [3; 3]%Z (fun _ => []) true
              (mk_with_memory (make_buffer 0%Z 3) (length (@nil (option (list nat)))) (length (@nil (option (list nat)))))
              ([] ++ [Some [3; 5]])) as [[w h]| | |] eqn:Es; try discriminate E.
  exists pts, 2, 1, 10, cycle, (-100)%Z, 100%Z, half, (seq 0 7), [3; 3]%Z, 3, (fun _ => []), true, [3; 5], t, w, h.
  split; [exact pts_input|]. split; [reflexivity|]. split; [lia|]. split; [reflexivity|]. split; [exact Et|].
  split; [exact Es|]. exists 3. split; [now left|].
  cbn [reported] in E. injection E as E _.
  change (In 3 (@buf_indices (m_dist int_metric) (wm_base w))). cbn [m_dist int_metric] in *. rewrite E. now left.
Qed.

Print Assumptions c85_set_of_the_caller_is_respected.
Print Assumptions c85_own_set_is_lost.
Print Assumptions c85_no_set.
Print Assumptions c85_own_set_is_respected_refuted.
