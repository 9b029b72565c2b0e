(** Theorems on buffers (C13, C14). *)
From Coq Require Import List Arith ZArith Lia Bool Permutation.
From Verif Require Import Base BufferModel BufferSpec BufferProofs.
Import ListNotations.

Lemma Z_order_ok : order_ok Z.ltb.
Proof.
  split; intros; rewrite ?Z.ltb_lt, ?Z.ltb_ge in *; lia.
Qed.

Lemma opt_order_ok : order_ok opt_lt.
Proof.
  split.
  - intros [a|] [b|]; simpl; try discriminate; auto. rewrite Z.ltb_lt, Z.ltb_ge. lia.
  - intros [a|] [b|] [c|]; simpl; try discriminate; auto. rewrite !Z.ltb_ge. lia.
Qed.

(** C13: a buffer of capacity [k] holds [k] nearest of the candidates offered so far; its cached members name a
    closest offered candidate and a furthest stored one. *)
Theorem c13_buffer_keeps_the_k_nearest :
  forall {D} (lt : D -> D -> bool) (inf : D) k offers,
  order_ok lt -> 1 <= k -> (Z.of_nat k < 2 ^ 64)%Z ->
  exists b, update_all lt (make_buffer inf k) offers = Ok b /\
    length (buf_indices b) = length (buf_distances b) /\
    k_nearest lt k offers (combine (buf_indices b) (buf_distances b)) /\
    (offers <> [] ->
       is_closest lt offers (buf_closest_index b, buf_closest_distance b) /\
       exists i, buf_furthest_index b = Ok i /\
         is_furthest lt (combine (buf_indices b) (buf_distances b)) (i, buf_furthest_distance b)).
Proof.
  intros D lt inf k offers Ho H1 Hk.
  destruct (update_all_inv lt inf Ho offers (make_buffer inf k) [] []) as (b & rest & E & I & C & _).
  - exact Hk.
  - simpl. lia.
  - apply buf_inv_make; auto.
  - simpl in C, I. exists b. splits; auto.
    + apply I.
    + eapply inv_k_nearest; eauto.
    + intros Hne.
      assert (Hb : buf_indices b <> []).
      { intros Eb. destruct (bi_empty _ _ _ _ _ I Eb) as (-> & _).
        apply Hne. pose proof (bi_perm _ _ _ _ _ I) as P. unfold entries in P. rewrite Eb in P. simpl in P.
        now apply Permutation_nil. }
      split; [now apply (bi_closest _ _ _ _ _ I)|].
      destruct (bi_furthest _ _ _ _ _ I Hb) as ((i & Hi) & Hf).
      exists i. split; [|split; auto; eapply nth_error_In; eauto].
      unfold buf_furthest_index. apply rd_ok.
      pose proof (nth_error_lt _ _ _ Hi) as Hl. rewrite entries_length in Hl by apply I.
      destruct (nth_error (buf_indices b) (buf_furthest_pos b)) as [j|] eqn:Ej.
      * f_equal. pose proof (bi_len _ _ _ _ _ I) as L. unfold buf_size in Hl.
        destruct (nth_error (buf_distances b) (buf_furthest_pos b)) as [x|] eqn:Ex.
        -- pose proof (nth_error_combine _ _ _ _ _ Ej Ex) as Hc. fold (entries b) in Hc. congruence.
        -- apply nth_error_None in Ex. lia.
      * apply nth_error_None in Ej. unfold buf_size in Hl. lia.
Qed.

Example c13_case :
  order_ok Z.ltb /\
  exists b, update_all Z.ltb (make_buffer 0%Z 3) (combine [4; 1; 2; 8; 3; 6] [7; 9; 2; 5; 2; 8]%Z) = Ok b /\
    combine (buf_indices b) (buf_distances b) = (combine [3; 8; 2] [2; 5; 2]%Z) /\
    buf_closest_index b = 2 /\ buf_closest_distance b = 2%Z /\
    buf_furthest_index b = Ok 8 /\ buf_furthest_distance b = 5%Z.
Proof. split; [exact Z_order_ok|]. eexists. split; [vm_compute; reflexivity|]. vm_compute. splits; auto. Qed.

(** C14: capacity. *)
Theorem c14_capacity_bounds_the_size :
  forall {D} (lt : D -> D -> bool) (inf : D) k offers,
  order_ok lt -> 1 <= k -> (Z.of_nat k < 2 ^ 64)%Z ->
  exists b, update_all lt (make_buffer inf k) offers = Ok b /\
    buf_size b = min k (length offers) /\
    remaining_capacity b = Z.of_nat (k - length offers).
Proof.
  intros D lt inf k offers Ho H1 Hk.
  destruct (update_all_inv lt inf Ho offers (make_buffer inf k) [] []) as (b & rest & E & I & C & _).
  - exact Hk.
  - simpl. lia.
  - apply buf_inv_make; auto.
  - simpl in C, I. exists b. split; auto.
    destruct (inv_k_nearest lt inf b offers rest k I C H1) as (_ & _ & L & _).
    rewrite entries_length in L by apply I. split; auto.
    unfold remaining_capacity. rewrite L, C. rewrite Z.mod_small; lia.
Qed.

Theorem c14_default_capacity_keeps_everything :
  forall {D} (lt : D -> D -> bool) (inf : D) offers,
  order_ok lt -> (Z.of_nat (length offers) < 2 ^ 64)%Z ->
  exists b, update_all lt (make_buffer inf default_capacity) offers = Ok b /\
    combine (buf_indices b) (buf_distances b) = offers /\
    (remaining_capacity b = 0%Z <-> offers = []).
Proof.
  intros D lt inf offers Ho Hl.
  destruct (update_all_inv lt inf Ho offers (make_buffer inf default_capacity) [] []) as (b & rest & E & I & C & H).
  - unfold fits; simpl; lia.
  - auto.
  - apply buf_inv_make; auto.
  - simpl in C, I, H. exists b. destruct (H eq_refl eq_refl) as (-> & He). splits; auto.
    fold (entries b) in He |- *.
    assert (Hs : buf_size b = length offers) by (rewrite <- entries_length by apply I; now rewrite He).
    pose proof (remaining_unlimited b C) as R. rewrite Hs in R. specialize (R Hl).
    rewrite <- Z.eqb_eq, R, Nat.eqb_eq. apply length_zero_iff_nil.
Qed.

Example c14_case :
  (Z.of_nat 2 < 2 ^ 64)%Z /\
  (exists b, update_all Z.ltb (make_buffer 0%Z 2) (combine [4; 1; 2] [7; 9; 2]%Z) = Ok b /\
     buf_size b = 2 /\ remaining_capacity b = 0%Z) /\
  (exists b, update_all Z.ltb (make_buffer 0%Z 2) (combine [4] [7]%Z) = Ok b /\ remaining_capacity b = 1%Z) /\
  (exists b, update_all Z.ltb (make_buffer 0%Z default_capacity) (combine [4; 1; 2] [7; 9; 2]%Z) = Ok b /\
     buf_indices b = [4; 1; 2] /\ remaining_capacity b = 18446744073709551613%Z) /\
  remaining_capacity (make_buffer 0%Z default_capacity) = 0%Z.
Proof. splits; try (eexists; split; [vm_compute; reflexivity|]; vm_compute; auto); reflexivity. Qed.

Print Assumptions c13_buffer_keeps_the_k_nearest.
Print Assumptions c14_capacity_bounds_the_size.
Print Assumptions c14_default_capacity_keeps_everything.
