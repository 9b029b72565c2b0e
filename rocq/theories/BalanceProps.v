(** Property C97: the height of the k-d tree. *)
From Coq Require Import List Arith ZArith Lia Bool Permutation.
From Verif Require Import Base SortingModel SortingSpec BoundsModel BoundsSpec BoundsProofs
  KDTreeModel KDTreeSpec KDTreeProofs KDTreeProps BalanceProofs.
Import ListNotations.

(** ** At most [c] samples share a value *)
Theorem c97_height_is_logarithmic :
  forall tol samples nf bucket max_depth policy lowest max center indices c,
  (0 <= tol)%Z -> policy_ok nf policy -> dataset_ok samples nf lowest max indices ->
  crowd tol samples nf c indices ->
  exists tree,
    make_kdtree tol samples nf bucket max_depth policy lowest max center indices = Ok tree /\
    (forall d t, kd_below (kt_root tree) d t -> 2 ^ d * (kd_size t - 2 * (c - 1)) <= length indices) /\
    (forall h, kd_height (kt_root tree) = S h -> 2 ^ h * (S bucket - 2 * (c - 1)) <= length indices) /\
    (2 * (c - 1) <= bucket -> kd_height (kt_root tree) <= S (Nat.log2 (length indices))).
Proof.
  intros tol samples nf bucket max_depth policy lowest max center indices c Ht Hp Hd Hc.
  destruct (make_kdtree_ok tol samples nf bucket max_depth policy lowest max center indices Ht Hp Hd)
    as (tree & segs & E & _ & L & T & Bt & Bx & P & S1 & S2 & S3 & S4 & S5 & S6 & S7).
  specialize (S3 (Nat.le_0_l _)). specialize (S7 c (crowd_perm _ _ _ _ _ _ P Hc)).
  assert (Hsize : kd_size (kt_root tree) = length indices).
  { rewrite <- (kd_size_samples _ _ S1), S2. symmetry. now apply Permutation_length. }
  assert (H1 : forall d t, kd_below (kt_root tree) d t -> 2 ^ d * (kd_size t - 2 * (c - 1)) <= length indices).
  { intros d t H. pose proof (halving _ c _ _ _ H S1 S7). lia. }
  assert (H2 : forall h, kd_height (kt_root tree) = S h -> 2 ^ h * (S bucket - 2 * (c - 1)) <= length indices).
  { intros h Hh. destruct (kd_height_leaf (kt_root tree)) as (f & l & b & Hl). rewrite Hh in Hl.
    destruct (kd_below_through _ _ _ Hl h) as (f' & last & axis & b' & tl & tr & Hn); [lia|].
    pose proof (kd_below_limits bucket max_depth _ _ _ Hn 0 S3) as Hlim. cbn [kd_limits] in Hlim.
    pose proof (H1 h _ Hn) as B. destruct Hlim as (_ & Hb & _).
    etransitivity; [|exact B]. apply Nat.mul_le_mono_l. lia. }
  exists tree. split; auto. split; auto. split; auto.
  intros Hcb. destruct (kd_height (kt_root tree)) as [|h] eqn:Eh; [lia|]. specialize (H2 h eq_refl).
  apply le_n_S. apply Nat.log2_le_pow2; [|].
  - assert (2 ^ h <> 0) by (apply Nat.pow_nonzero; lia). nia.
  - nia.
Qed.

(** Seven samples; on the first axis the value 2 is shared by three of them. *)
Example c97_height_is_logarithmic_case :
  policy_ok 2 cycle /\ dataset_ok pts 2 (-100) 100 (seq 0 7) /\ crowd 0 pts 2 3 (seq 0 7) /\
  exists tree, pts_tree 1 10 = Ok tree /\ kd_height (kt_root tree) = 3 /\ Nat.log2 7 = 2.
Proof.
  split; [exact cycle_ok|]. split; [exact pts_ok|]. split.
  { intros j x Hj Hx. apply in_seq in Hx. do 2 (destruct j as [|j]; [do 7 (destruct x as [|x]; [vm_compute; lia|]); lia|]). lia. }
  destruct (c10_construction_partitions_the_indices 0 pts 2 1 10 cycle (-100) 100 half (seq 0 7) ltac:(lia) cycle_ok pts_ok)
    as (tree & E & _).
  exists tree. split; [exact E|]. change (pts_tree 1 10 = Ok tree) in E. vm_compute in E. inversion E. split; reflexivity.
Qed.

(** ** Distinct values: the tree is perfectly balanced *)
Theorem c97_distinct_values_balance :
  forall tol samples nf bucket max_depth policy lowest max center indices,
  (0 <= tol)%Z -> policy_ok nf policy -> dataset_ok samples nf lowest max indices ->
  crowd tol samples nf 1 indices ->
  exists tree,
    make_kdtree tol samples nf bucket max_depth policy lowest max center indices = Ok tree /\
    (forall d t, kd_below (kt_root tree) d t -> kd_size t <= length indices / 2 ^ d /\ length indices / 2 ^ d <= S (kd_size t)) /\
    (forall d d' f l b f' l' b', kd_below (kt_root tree) d (KLeaf f l b) -> kd_below (kt_root tree) d' (KLeaf f' l' b') ->
      d' <= S d).
Proof.
  intros tol samples nf bucket max_depth policy lowest max center indices Ht Hp Hd Hc.
  destruct (make_kdtree_ok tol samples nf bucket max_depth policy lowest max center indices Ht Hp Hd)
    as (tree & segs & E & _ & L & T & Bt & Bx & P & S1 & S2 & S3 & S4 & S5 & S6 & S7).
  specialize (S3 (Nat.le_0_l _)). specialize (S7 1 (crowd_perm _ _ _ _ _ _ P Hc)).
  assert (Hsize : kd_size (kt_root tree) = length indices).
  { rewrite <- (kd_size_samples _ _ S1), S2. symmetry. now apply Permutation_length. }
  assert (H1 : forall d t, kd_below (kt_root tree) d t -> 2 ^ d * kd_size t <= length indices).
  { intros d t H. pose proof (halving _ 1 _ _ _ H S1 S7) as B. cbn [Nat.sub Nat.mul] in B. rewrite !Nat.sub_0_r in B. lia. }
  assert (H2 : forall d t, kd_below (kt_root tree) d t -> length indices + 2 <= 2 ^ d * (kd_size t + 2)).
  { intros d t H. rewrite <- Hsize. exact (halving_low _ _ _ _ H S1 S7). }
  exists tree. split; auto. split.
  - intros d t H. assert (2 ^ d <> 0) by (apply Nat.pow_nonzero; lia). split.
    + apply Nat.div_le_lower_bound; auto.
    + apply Nat.lt_succ_r. apply Nat.div_lt_upper_bound; auto. specialize (H2 d t H). replace (S (S (kd_size t))) with (kd_size t + 2) by lia. lia.
  - intros d d' f l b f' l' b' Hl Hl'. destruct (Nat.le_gt_cases d' (S d)) as [|Hgt]; auto. exfalso.
    destruct (kd_below_through _ _ _ Hl' (S d)) as (f2 & last & axis & b2 & tl & tr & Hn); [lia|].
    pose proof (kd_below_limits bucket max_depth _ _ _ Hn 0 S3) as Hlim. cbn [kd_limits Nat.add] in Hlim. destruct Hlim as (D1 & Hb & _).
    pose proof (kd_below_limits bucket max_depth _ _ _ Hl 0 S3) as Hlim. cbn [kd_limits Nat.add] in Hlim.
    pose proof (H1 _ _ Hn) as B1. pose proof (H2 _ _ Hl) as B2. cbn [Nat.pow] in B1. cbn [kd_size] in B2.
    set (z := kd_size (KNode f2 last axis b2 tl tr)) in *. assert (2 ^ d <> 0) by (apply Nat.pow_nonzero; lia).
    set (p := 2 ^ d) in *. clearbody z p. nia.
Qed.

(** Nine distinct values on a line. *)
Definition nine : list Z := [40; 10; 90; 30; 20; 80; 60; 70; 50]%Z.
Lemma nine_ok : dataset_ok nine 1 (-100) 100 (seq 0 9).
Proof.
  split.
  - intros j Hj i Hi. apply in_seq in Hi. simpl length. lia.
  - intros i j Hi Hj. apply in_seq in Hi. destruct j; [|lia].
    do 9 (destruct i as [|i]; [vm_compute; split; discriminate|]). lia.
Qed.
Example c97_distinct_values_balance_case :
  policy_ok 1 (fun _ _ _ _ => 0) /\ dataset_ok nine 1 (-100) 100 (seq 0 9) /\ crowd 0 nine 1 1 (seq 0 9) /\
  exists tree, make_kdtree 0 nine 1 2 10 (fun _ _ _ _ => 0) (-100) 100 half (seq 0 9) = Ok tree /\
    kd_height (kt_root tree) = 2 /\ map (nth_error nine) (kt_indices tree) = map (fun z => Some z) [10; 20; 30; 40; 50; 60; 70; 80; 90]%Z.
Proof.
  assert (Hp : policy_ok 1 (fun _ _ _ _ => 0)) by (intros ? ? ? ?; lia).
  split; [exact Hp|]. split; [exact nine_ok|]. split.
  { intros j x Hj Hx. apply in_seq in Hx. destruct j as [|j]; [|lia]. do 9 (destruct x as [|x]; [vm_compute; lia|]). lia. }
  destruct (c10_construction_partitions_the_indices 0 nine 1 2 10 (fun _ _ _ _ => 0) (-100) 100 half (seq 0 9) ltac:(lia) Hp nine_ok)
    as (tree & E & _).
  exists tree. split; [exact E|]. vm_compute in E. inversion E. split; reflexivity.
Qed.

(** ** Equal samples: the tree is a chain *)
Theorem c97_equal_samples_give_a_chain :
  forall tol samples nf bucket max_depth policy lowest max center indices,
  (0 <= tol)%Z -> policy_ok nf policy -> dataset_ok samples nf lowest max indices ->
  (forall j x y, j < nf -> In x indices -> In y indices -> val samples nf j x = val samples nf j y) ->
  exists tree,
    make_kdtree tol samples nf bucket max_depth policy lowest max center indices = Ok tree /\
    kd_height (kt_root tree) = Nat.min max_depth (length indices - bucket).
Proof.
  intros tol samples nf bucket max_depth policy lowest max center indices Ht Hp Hd He.
  destruct (make_kdtree_ok tol samples nf bucket max_depth policy lowest max center indices Ht Hp Hd)
    as (tree & segs & E & _ & L & T & Bt & Bx & P & S1 & S2 & S3 & S4 & S5 & S6 & S7).
  specialize (S3 (Nat.le_0_l _)). exists tree. split; auto.
  assert (Hin : forall x, In x (kt_indices tree) -> In x indices) by (intros x; apply Permutation_in; now symmetry).
  rewrite (chain_height (kt_indices tree) bucket max_depth (kt_root tree) 0 S1 S3).
  - rewrite Nat.sub_0_r, <- (kd_size_samples _ _ S1), S2, (Permutation_length P). reflexivity.
  - apply (equal_chain (kt_indices tree) samples nf _ S1); [apply S6|]; rewrite ?S2; [|auto].
    intros j Hj x y Hx Hy _. auto.
Qed.

(** Five equal samples. *)
Example c97_equal_samples_give_a_chain_case :
  exists tree, make_kdtree 0 [7; 7; 7; 7; 7]%Z 1 1 10 (fun _ _ _ _ => 0) (-100) 100 half (seq 0 5) = Ok tree /\
    kd_height (kt_root tree) = 4.
Proof.
  assert (Hp : policy_ok 1 (fun _ _ _ _ => 0)) by (intros ? ? ? ?; lia).
  destruct (c97_equal_samples_give_a_chain 0 [7; 7; 7; 7; 7]%Z 1 1 10 (fun _ _ _ _ => 0) (-100) 100 half (seq 0 5) ltac:(lia) Hp)
    as (tree & E & H).
  - split.
    + intros j Hj i Hi. apply in_seq in Hi. simpl length. lia.
    + intros i j Hi Hj. apply in_seq in Hi. destruct j; [|lia]. do 5 (destruct i as [|i]; [vm_compute; split; discriminate|]). lia.
  - intros j x y Hj Hx Hy. apply in_seq in Hx, Hy. destruct j; [|lia].
    do 5 (destruct x as [|x]; [do 5 (destruct y as [|y]; [reflexivity|]); lia|]). lia.
  - exists tree. split; [exact E|]. rewrite H. reflexivity.
Qed.

Print Assumptions c97_height_is_logarithmic.
Print Assumptions c97_distinct_values_balance.
Print Assumptions c97_equal_samples_give_a_chain.
