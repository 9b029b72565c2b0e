(** Theorems on transposition and distance matrices: C38, C39. *)
From Coq Require Import List Arith ZArith Lia Bool Permutation.
From Verif Require Import Base SortingModel BoundsModel BoundsSpec BoundsProofs BufferModel BufferSpec BufferProofs SearchModel SearchSpec
  SearchProps MatrixModel MatrixSpec MatrixProofs.
Import ListNotations.

(** ** C38 *)
Theorem c38_transpose_moves_every_entry :
  forall (A : Type) (zero : A) samples nf n schedule,
  length samples = n * nf -> 1 <= nf -> is_schedule schedule ->
  exists T,
    transpose_sequential zero samples nf = Ok (T, nf, n) /\
    transpose_parallel zero schedule samples nf = Ok (T, nf, n) /\
    length T = nf * n /\
    forall i j, i < n -> j < nf -> entry T n j i = entry samples nf i j.
Proof.
  intros A zero samples nf n schedule Hlen Hnf Hs.
  destruct (sequential_ok zero samples nf n Hlen ltac:(lia)) as (T & E & HT).
  destruct (parallel_ok zero samples nf n Hlen ltac:(lia) schedule Hs) as (T' & E' & HT').
  assert (T' = T) as -> by (eapply transposed_unique; eauto; lia).
  exists T. destruct HT as [L H]. splits; auto. { lia. }
Qed.

Theorem c38_transposing_twice_is_the_identity :
  forall (A : Type) (zero : A) samples nf n schedule schedule',
  length samples = n * nf -> 1 <= nf -> 1 <= n -> is_schedule schedule -> is_schedule schedule' ->
  (exists T, transpose_sequential zero samples nf = Ok (T, nf, n) /\ transpose_sequential zero T n = Ok (samples, n, nf)) /\
  (exists T, transpose_parallel zero schedule samples nf = Ok (T, nf, n) /\
     transpose_parallel zero schedule' T n = Ok (samples, n, nf)).
Proof.
  intros A zero samples nf n schedule schedule' Hlen Hnf Hn Hs Hs'.
  destruct (c38_transpose_moves_every_entry A zero samples nf n schedule Hlen Hnf Hs) as (T & E1 & E2 & L & H).
  destruct (c38_transpose_moves_every_entry A zero T n nf schedule' L Hn Hs') as (U & F1 & F2 & L' & H').
  assert (U = samples) as ->.
  { apply (transposed_unique T n nf); [lia|lia| |]; split; auto; try lia.
    intros i j Hi Hj. symmetry. now apply H. }
  split; exists T; auto.
Qed.

(** With no sample there is no way back: the transposed matrix has zero columns and the second call divides by zero. *)
Theorem c38_transposing_an_empty_matrix_back_refuted :
  exists samples nf T n,
    transpose_sequential 0%Z samples nf = Ok (T, nf, n) /\ transpose_sequential 0%Z T n = UB.
Proof. exists [], 3, [], 0. split; reflexivity. Qed.

Example c38_case :
  let samples := map Z.of_nat (seq 0 (70 * 2)) in
  length samples = 70 * 2 /\ is_schedule (@rev (nat * nat)) /\
  transpose_sequential 0%Z [1; 2; 3; 4; 5; 6]%Z 2 = Ok ([1; 3; 5; 2; 4; 6]%Z, 2, 3) /\
  transpose_parallel 0%Z (@rev _) [1; 2; 3; 4; 5; 6]%Z 2 = Ok ([1; 3; 5; 2; 4; 6]%Z, 2, 3) /\
  transpose_parallel 0%Z (@rev _) samples 2 = transpose_sequential 0%Z samples 2.
Proof.
  intros samples. splits; try (vm_compute; reflexivity). intros l. symmetry. apply Permutation_rev.
Qed.

(** [block_size] is the block size of the source: the first row block of a matrix with 65 rows ends after row 63, so
    entry (63, 1) is written before entry (64, 0) and after entry (0, 0). *)
Example c38_block_case :
  nth_error (block_cells 65 2) 127 = Some (63, 1) /\ nth_error (block_cells 65 2) 128 = Some (64, 0) /\
  nth_error (block_cells 1 65) 64 = Some (0, 64) /\ nth_error (block_cells 2 65) 64 = Some (1, 0).
Proof. vm_compute. auto. Qed.

(** ** C39 *)
Theorem c39_distance_matrix :
  forall m dist zero samples nf n schedule,
  computes m dist -> (forall p q, dist p q = dist q p) -> (forall p, dist p p = zero) ->
  length samples = n * nf -> 1 <= nf -> is_schedule schedule ->
  exists p,
    pairwise_sequential m zero samples nf = Ok p /\ pairwise_parallel m zero schedule samples nf = Ok p /\
    pairwise_rows m p = n /\ dynamic_rows samples nf = Ok n /\
    (forall i, pairwise_at m zero p i i = Ok zero) /\
    (forall i j, pairwise_at m zero p i j = pairwise_at m zero p j i) /\
    (forall i j, i < n -> j < n ->
       pairwise_at m zero p i j = Ok (dist (row samples nf i) (row samples nf j)) /\
       dynamic_at m samples nf i j = Ok (dist (row samples nf i) (row samples nf j))).
Proof.
  intros m dist zero samples nf n schedule Hc Hsym Hzero Hlen Hnf Hs.
  destruct (pairwise_sequential_ok m dist zero samples nf n Hc Hlen ltac:(lia)) as (p & E & Hp).
  destruct (pairwise_parallel_ok m dist zero samples nf n Hc Hlen ltac:(lia) schedule Hs) as (p' & E' & Hp').
  assert (p' = p) as -> by (apply (lower_triangle_unique m dist samples nf n); auto; lia).
  exists p. destruct Hp as (En & L & H). splits; auto.
  - apply get_n_ok'; auto. lia.
  - intros i. unfold pairwise_at. now rewrite Nat.eqb_refl.
  - intros i j. unfold pairwise_at. rewrite (Nat.eqb_sym j i). destruct (Nat.eqb_spec i j); auto.
    destruct (Nat.ltb_spec i j), (Nat.ltb_spec j i); auto; lia.
  - intros i j Hi Hj. split.
    + unfold pairwise_at, rd. destruct (Nat.eqb_spec i j) as [->|Hij]; [now rewrite Hzero|].
      destruct (Nat.ltb_spec i j).
      * rewrite H by lia. now rewrite Hsym.
      * rewrite H by lia. reflexivity.
    + unfold dynamic_at. destruct (matrix_row samples nf n Hlen ltac:(lia) i Hi) as [-> L1].
      destruct (matrix_row samples nf n Hlen ltac:(lia) j Hj) as [-> L2]. cbn [bind]. apply Hc. congruence.
Qed.

Lemma l1_self : forall p, l1_dist p p = 0%Z.
Proof. induction p; simpl; lia. Qed.
Lemma int_metric_computes : computes int_metric l1_dist.
Proof. intros p q H. now apply manhattan_ok. Qed.

Example c39_case :
  computes int_metric l1_dist /\ is_schedule (@rev (nat * nat)) /\
  pairwise_sequential int_metric 0%Z [0; 0; 3; 1; -2; 5]%Z 2 = Ok (mk_pairwise int_metric 3 [4; 7; 9]%Z) /\
  pairwise_parallel int_metric 0%Z (@rev _) [0; 0; 3; 1; -2; 5]%Z 2 = Ok (mk_pairwise int_metric 3 [4; 7; 9]%Z) /\
  pairwise_at int_metric 0%Z (mk_pairwise int_metric 3 [4; 7; 9]%Z) 1 2 = Ok 9%Z.
Proof.
  splits; try (vm_compute; reflexivity); [exact int_metric_computes|]. intros l. symmetry. apply Permutation_rev.
Qed.

Print Assumptions c38_transpose_moves_every_entry.
Print Assumptions c38_transposing_twice_is_the_identity.
Print Assumptions c38_transposing_an_empty_matrix_back_refuted.
Print Assumptions c39_distance_matrix.
