(** Theorems on the helpers of Utils.hpp: C51, C69. *)
From Coq Require Import List Arith ZArith Lia Bool Permutation.
From Verif Require Import Base SortingModel BufferSpec MatrixModel KMeansProofs UtilsModel.
Import ListNotations.
Set Default Proof Using "Type".

(** ** C51 *)
(** Position [i] of the result holds the element at [indices[i]]. *)
Theorem c51_permutation_from_indices :
  forall (A : Type) (zero : A) indices input, length input = length indices -> (forall j, In j indices -> j < length input) ->
  exists out, permutation_from_indices zero indices input = Ok out /\ length out = length input /\
    forall i j, nth_error indices i = Some j -> nth_error out i = nth_error input j.
Proof.
  intros A zero indices input HL Hin. unfold permutation_from_indices. rewrite HL, Nat.eqb_refl. cbn [negb].
  match goal with |- context [for_loop ?k 0 ?body ?s0] =>
    destruct (for_loop_inv (fun t out => length out = length indices /\ forall i j, i < t -> nth_error indices i = Some j -> nth_error out i = nth_error input j)
      body k 0 s0) as (out & E & Ho & H) end.
  - split; [apply repeat_length|]. lia.
  - intros i s Hi (Hs & H). destruct (rd_lt indices i) as (j & Ej); [lia|]. rewrite Ej. cbn [bind]. apply rd_ok in Ej.
    destruct (rd_lt input j) as (v & Ev); [apply Hin; eapply nth_error_In; eauto|]. rewrite Ev. cbn [bind]. apply rd_ok in Ev.
    rewrite wr_lt by lia. eexists. split; [reflexivity|]. rewrite upd_length. split; auto. intros i' j' Hi' Ej'.
    destruct (Nat.eq_dec i' i) as [->|Hne].
    + rewrite nth_error_upd_eq by lia. congruence.
    + rewrite nth_error_upd_neq by auto. apply H; auto. lia.
  - exists out. splits; auto. intros i j Ej. apply (H i j); auto. apply (nth_error_lt _ _ _ Ej).
Qed.

Lemma gathered_map {A} (d : A) indices (input out : list A) : length out = length indices -> (forall j, In j indices -> j < length input) ->
  (forall i j, nth_error indices i = Some j -> nth_error out i = nth_error input j) -> out = map (fun j => nth j input d) indices.
Proof.
  intros HL Hin H. apply nth_error_ext. intros i. rewrite nth_error_map. destruct (nth_error indices i) as [j|] eqn:E; cbn [option_map].
  - rewrite (H i j E). apply nth_error_nth'. apply Hin. eapply nth_error_In; eauto.
  - apply nth_error_None in E. apply nth_error_None. lia.
Qed.

Lemma map_nth_seq {A} (d : A) l : map (fun j => nth j l d) (seq 0 (length l)) = l.
Proof.
  apply nth_error_ext. intros i. rewrite nth_error_map. destruct (lt_dec i (length l)) as [Hi|Hi].
  - rewrite (nth_error_nth' (seq 0 (length l)) i 0), seq_nth by (rewrite ?seq_length; auto). cbn. symmetry. now apply nth_error_nth'.
  - rewrite (proj2 (nth_error_None l i)) by lia. rewrite (proj2 (nth_error_None _ i)) by (rewrite seq_length; lia). reflexivity.
Qed.

(** For a rearrangement of [0..n-1] the result is a rearrangement of the input; the inverse rearrangement leads back. *)
Theorem c51_permutation_permutes :
  forall (A : Type) (zero : A) indices input, Permutation indices (seq 0 (length input)) ->
  exists out, permutation_from_indices zero indices input = Ok out /\ Permutation out input /\
    forall inverse, length inverse = length input -> (forall i, i < length input -> nth_error indices (nth i inverse 0) = Some i) ->
    permutation_from_indices zero inverse out = Ok input.
Proof.
  intros A zero indices input HP. assert (HL : length input = length indices) by (rewrite (Permutation_length HP), seq_length; auto).
  assert (Hin : forall j, In j indices -> j < length input) by (intros j Hj; apply (Permutation_in j HP), in_seq in Hj; lia).
  destruct (c51_permutation_from_indices A zero indices input HL Hin) as (out & E & Ho & H). exists out. split; auto. split.
  - rewrite (gathered_map zero indices input out); [|congruence|auto..]. 
    apply (Permutation_trans (Permutation_map (fun j => nth j input zero) HP)). now rewrite map_nth_seq.
  - intros inverse Hi Hv.
    destruct (c51_permutation_from_indices A zero inverse out) as (back & E' & Hb & H'); [congruence| |].
    + intros j Hj. apply (In_nth _ _ 0) in Hj. destruct Hj as (i & Hi' & <-). rewrite Ho, HL. apply (nth_error_lt _ _ _ (Hv i ltac:(lia))).
    + rewrite E'. f_equal. apply nth_error_ext. intros i. destruct (lt_dec i (length input)) as [Hl|Hl].
      * rewrite (H' i (nth i inverse 0)) by (apply nth_error_nth'; lia). apply H. auto.
      * rewrite (proj2 (nth_error_None back i)), (proj2 (nth_error_None input i)) by lia. reflexivity.
Qed.

(** Row [i] of the result is row [indices[i]]; what is behind the last full row stays. *)
Theorem c51_remap_rows :
  forall (A : Type) indices (matrix : list A) nf n rest, 1 <= nf -> length indices = n -> length matrix = n * nf + rest -> rest < nf ->
  (forall j, In j indices -> j < n) ->
  exists out, remap_ranges_from_indices indices matrix nf = Ok out /\ length out = length matrix /\
    (forall i j, nth_error indices i = Some j -> row out nf i = row matrix nf j) /\
    (forall p, n * nf <= p -> nth_error out p = nth_error matrix p).
Proof.
  intros A indices matrix nf n rest Hnf Hn HL Hr Hin. unfold remap_ranges_from_indices, get_n_samples.
  destruct (Nat.eqb_spec nf 0) as [|_]; [lia|]. cbn [bind].
  replace (length matrix / nf) with n by (apply (Nat.div_unique _ _ _ rest); lia). rewrite Hn, Nat.eqb_refl. cbn [negb].
  match goal with |- context [for_loop ?k 0 ?body ?s0] =>
    destruct (for_loop_inv (fun t out => length out = length matrix /\
      (forall i j f, i < t -> f < nf -> nth_error indices i = Some j -> nth_error out (i * nf + f) = nth_error matrix (j * nf + f)) /\
      (forall p, t * nf <= p -> nth_error out p = nth_error matrix p))
      body k 0 s0) as (out & E & Ho & H1 & H2) end.
  - splits; auto. lia.
  - intros i s Hi (Hs & H1 & H2). destruct (rd_lt indices i) as (j & Ej); [lia|]. rewrite Ej. cbn [bind]. apply rd_ok in Ej.
    assert (Hj : j < n) by (apply Hin; eapply nth_error_In; eauto).
    assert (Hin' : i * nf + nf <= n * nf) by nia. assert (Hjn : j * nf + nf <= n * nf) by nia.
    destruct (Nat.eqb_spec j i) as [->|Hne]; cbn [negb].
    + exists s. splits; auto.
      * intros i' j' f Hi' Hf Ej'. destruct (Nat.eq_dec i' i) as [->|Hne]; [|apply H1; auto; lia].
        assert (j' = i) as -> by congruence. apply H2. lia.
      * intros p Hp. apply H2. lia.
    + unfold slice. rewrite (proj2 (Nat.leb_le _ _)), (proj2 (Nat.leb_le _ _)) by lia. cbn [andb bind].
      eexists. split; [reflexivity|]. set (r := firstn _ _).
      assert (Hlr : length r = nf) by (unfold r; rewrite firstn_length, skipn_length; lia).
      rewrite splice_length by lia. splits; auto.
      * intros i' j' f Hi' Hf Ej'. rewrite nth_splice by lia. destruct (Nat.eq_dec i' i) as [->|Hne'].
        -- assert (j' = j) as -> by congruence. rewrite (proj2 (Nat.leb_le _ _)), (proj2 (Nat.ltb_lt _ _)) by lia. cbn [andb].
           replace (i * nf + f - i * nf) with f by lia. unfold r. rewrite nth_error_firstn', nth_error_skipn'.
           replace (j * nf + nf - j * nf) with nf by lia. now rewrite (proj2 (Nat.ltb_lt _ _) Hf).
        -- rewrite (proj2 (Nat.leb_gt _ _)) by nia. cbn [andb]. apply H1; auto. lia.
      * intros p Hp. rewrite nth_splice by lia. rewrite (proj2 (Nat.ltb_ge p _)), andb_false_r by lia. apply H2. lia.
  - rewrite Nat.add_0_l in *. exists out. splits; auto. intros i j Ej. unfold row.
    assert (Hi : i < n) by (rewrite <- Hn; apply (nth_error_lt _ _ _ Ej)).
    apply nth_error_ext. intros f. destruct (lt_dec f nf) as [Hf|Hf].
    + rewrite !nth_error_firstn', !nth_error_skipn', (proj2 (Nat.ltb_lt _ _) Hf). apply H1; auto.
    + rewrite (proj2 (nth_error_None _ f)), (proj2 (nth_error_None _ f)) by (rewrite firstn_length; lia). reflexivity.
Qed.

(** For a rearrangement of the samples the rows are rearranged. *)
Theorem c51_remap_permutes :
  forall (A : Type) indices (matrix : list A) nf n, 1 <= nf -> length matrix = n * nf -> Permutation indices (seq 0 n) ->
  exists out, remap_ranges_from_indices indices matrix nf = Ok out /\ length out = n * nf /\
    Permutation (map (row out nf) (seq 0 n)) (map (row matrix nf) (seq 0 n)).
Proof.
  intros A indices matrix nf n Hnf HL HP. assert (Hn : length indices = n) by (rewrite (Permutation_length HP), seq_length; auto).
  destruct (c51_remap_rows A indices matrix nf n 0) as (out & E & Ho & H & _); auto; try lia.
  { intros j Hj. apply (Permutation_in j HP), in_seq in Hj. lia. }
  exists out. splits; auto; try lia.
  replace (map (row out nf) (seq 0 n)) with (map (row matrix nf) indices); [now apply Permutation_map|].
  apply nth_error_ext. intros i. rewrite !nth_error_map. destruct (lt_dec i n) as [Hi|Hi].
  - rewrite (nth_error_nth' (seq 0 n) i 0), seq_nth by (rewrite ?seq_length; auto).
    rewrite (nth_error_nth' indices i 0) by lia. cbn [option_map Nat.add]. f_equal. symmetry. apply H, nth_error_nth'. lia.
  - rewrite (proj2 (nth_error_None indices i)), (proj2 (nth_error_None (seq 0 n) i)) by (rewrite ?seq_length; lia). reflexivity.
Qed.

(** Wrong sizes throw; no features are undefined. *)
Theorem c51_wrong_size_throws :
  forall (A : Type) (zero : A) indices input nf,
  (length input <> length indices -> permutation_from_indices zero indices input = Throw) /\
  (1 <= nf -> length input / nf <> length indices -> remap_ranges_from_indices indices input nf = Throw) /\
  remap_ranges_from_indices indices input 0 = UB.
Proof.
  intros A zero indices input nf. unfold permutation_from_indices, remap_ranges_from_indices, get_n_samples. splits.
  - intros H. now rewrite (proj2 (Nat.eqb_neq _ _) H).
  - intros Hnf H. destruct (Nat.eqb_spec nf 0) as [|_]; [lia|]. cbn [bind]. now rewrite (proj2 (Nat.eqb_neq _ _) H).
  - reflexivity.
Qed.

(** An index that is not below the size is undefined. *)
Theorem c51_index_outside_undefined :
  forall (A : Type) (zero : A) indices input j, length input = length indices -> In j indices -> length input <= j ->
  permutation_from_indices zero indices input = UB.
Proof.
  intros A zero indices input j HL Hj Hout. unfold permutation_from_indices. rewrite HL, Nat.eqb_refl. cbn [negb].
  apply In_nth_error in Hj. destruct Hj as (i0 & Ei).
  assert (G : forall k i s, i + k = length indices -> i <= i0 -> length s = length indices ->
    for_loop k i (fun i swapped => j <- rd indices i ;; v <- rd input j ;; wr swapped i v) s = UB).
  { induction k as [|k IH]; intros i s Hk Hi Hs; [pose proof (nth_error_lt _ _ _ Ei); lia|]. cbn [for_loop].
    destruct (rd_lt indices i) as (x & Ex); [lia|]. rewrite Ex. apply rd_ok in Ex. cbn [bind].
    destruct (rd input x) as [v| | |] eqn:Ev.
    - cbn [bind]. rewrite wr_lt by lia. apply IH; rewrite ?upd_length; auto; try lia. apply rd_ok in Ev. apply nth_error_lt in Ev.
      destruct (Nat.eq_dec i i0) as [->|]; [|lia]. assert (x = j) by congruence. lia.
    - reflexivity.
    - unfold rd in Ev. destruct (nth_error input x); discriminate.
    - unfold rd in Ev. destruct (nth_error input x); discriminate. }
  apply G; auto; try lia. now rewrite repeat_length.
Qed.

(** Indices need not be distinct. *)
Example c51_case :
  permutation_from_indices 0 [2; 0; 3; 1] [10; 11; 12; 13] = Ok [12; 10; 13; 11] /\
  permutation_from_indices 0 [1; 3; 0; 2] [12; 10; 13; 11] = Ok [10; 11; 12; 13] /\
  permutation_from_indices 0 [2; 2; 0] [10; 11; 12] = Ok [12; 12; 10] /\
  remap_ranges_from_indices [2; 1; 0] [1; 2; 3; 4; 5; 6] 2 = Ok [5; 6; 3; 4; 1; 2] /\
  remap_ranges_from_indices [1; 0] [1; 2; 3; 4; 5] 2 = Ok [3; 4; 1; 2; 5] /\
  permutation_from_indices 0 [0; 3; 1] [10; 11; 12] = UB.
Proof. vm_compute. auto 10. Qed.

(** ** C69 *)
Definition within (tol : Z) (left_data right_data : list Z) : Prop :=
  length left_data = length right_data /\ forall i x y, nth_error left_data i = Some x -> nth_error right_data i = Some y -> (Z.abs (x - y) <= tol)%Z.
(** The positions where the two hold the same, and satisfy [p]. *)
Definition matches (p : Z -> bool) (left_data right_data : list Z) : list nat :=
  filter (fun i => (nth i left_data 0 =? nth i right_data 0)%Z && p (nth i right_data 0%Z)) (seq 0 (length left_data)).

Lemma ranges_equal_ok tol : forall l r, length l <= length r -> exists b, ranges_equal tol l r = Ok b /\
  (b = true <-> forall i x y, nth_error l i = Some x -> nth_error r i = Some y -> (Z.abs (x - y) <= tol)%Z).
Proof.
  induction l as [|x l IH]; intros r HL; cbn [ranges_equal].
  - exists true. split; auto. split; auto. intros _ [|i]; discriminate.
  - destruct r as [|y r]; [simpl in HL; lia|]. destruct (Z.ltb_spec tol (Z.abs (x - y))) as [Hx|Hx].
    + exists false. split; auto. split; [discriminate|]. intros H. specialize (H 0 x y eq_refl eq_refl). lia.
    + destruct (IH r ltac:(simpl in HL; lia)) as (b & -> & Hb). exists b. split; auto. rewrite Hb. split; intros H.
      * intros [|i] u v Hu Hv; simpl in Hu, Hv; [injection Hu as <-; injection Hv as <-; auto|eauto].
      * intros i u v Hu Hv. apply (H (S i) u v); auto.
Qed.

(** Containers are equal when they have the same size and differ nowhere by more than the tolerance; without tolerance when they
    are the same. *)
Theorem c69_containers_equal :
  forall tol l r, exists b, containers_equal tol l r = Ok b /\ (b = true <-> within tol l r) /\ (tol = 0%Z -> (b = true <-> l = r)).
Proof.
  intros tol l r. unfold containers_equal, within. destruct (Nat.eqb_spec (length l) (length r)) as [E|E]; cbn [negb].
  - destruct (ranges_equal_ok tol l r ltac:(lia)) as (b & -> & Hb). exists b. split; auto. split; [tauto|]. intros ->. rewrite Hb. split.
    + intros H. apply nth_error_ext. intros i. destruct (lt_dec i (length l)) as [Hi|Hi].
      * rewrite (nth_error_nth' l i 0%Z), (nth_error_nth' r i 0%Z) by lia. f_equal.
        specialize (H i _ _ (nth_error_nth' l i 0%Z Hi) (nth_error_nth' r i 0%Z ltac:(lia))). lia.
      * rewrite (proj2 (nth_error_None l i)), (proj2 (nth_error_None r i)) by lia. reflexivity.
    + intros <- i x y Hx Hy. assert (x = y) by congruence. lia.
  - exists false. splits; auto.
    + split; [discriminate|]. intros (H & _). contradiction.
    + intros _. split; [discriminate|]. intros ->. contradiction.
Qed.

(** It is reflexive and symmetric, but not transitive. *)
Theorem c69_containers_equal_relation :
  (forall tol l, (0 <= tol)%Z -> containers_equal tol l l = Ok true) /\
  (forall tol l r, containers_equal tol l r = containers_equal tol r l).
Proof.
  assert (HB : forall tol l r b, containers_equal tol l r = Ok b -> (b = true <-> within tol l r)).
  { intros tol l r b E. destruct (c69_containers_equal tol l r) as (b' & E' & H & _). assert (b' = b) by congruence. now subst b'. }
  split.
  - intros tol l Ht. destruct (c69_containers_equal tol l l) as (b & -> & H & _). f_equal. apply H. split; auto.
    intros i x y Hx Hy. assert (x = y) by congruence. lia.
  - intros tol l r. destruct (c69_containers_equal tol l r) as (b & -> & H & _). destruct (c69_containers_equal tol r l) as (b' & -> & H' & _).
    f_equal. assert (HS : within tol l r <-> within tol r l).
    { unfold within. split; intros (A & B); (split; [auto|]); intros i x y Hx Hy; specialize (B i y x Hy Hx); lia. }
    destruct b, b'; auto; [symmetry|]; tauto.
Qed.

Theorem c69_transitive_refuted :
  exists tol a b c, (0 < tol)%Z /\ containers_equal tol a b = Ok true /\ containers_equal tol b c = Ok true /\ containers_equal tol a c = Ok false.
Proof. exists 1%Z, [0]%Z, [1]%Z, [2]%Z. vm_compute. auto. Qed.

(** On ranges the length of the second is not compared: more elements are ignored, fewer are undefined. *)
Theorem c69_ranges :
  forall tol l r, length l <= length r -> (forall extra, ranges_equal tol l (r ++ extra) = ranges_equal tol l r) /\
  (0 <= tol -> forall x, ranges_equal tol (l ++ [x]) l = UB)%Z.
Proof.
  intros tol l r HL. split.
  - intros extra. revert r HL. induction l as [|x l IH]; intros [|y r] HL; cbn [ranges_equal app]; auto; simpl in HL; try lia.
    destruct (tol <? Z.abs (x - y))%Z; auto. apply IH. lia.
  - intros Ht x. clear r HL. induction l as [|y l IH]; cbn [ranges_equal app]; auto.
    destruct (Z.ltb_spec tol (Z.abs (y - y))); auto. lia.
Qed.

Lemma count_from_ok (p : Z -> bool) (f : nat -> list Z -> list Z -> res nat) :
  (forall c r, f c [] r = Ok c) -> (forall c x l y r, f c (x :: l) (y :: r) = f (if (x =? y)%Z && p y then S c else c) l r) ->
  forall l r c, length l <= length r -> f c l r = Ok (c + length (matches p l r)).
Proof.
  intros H0 H1. induction l as [|x l IH]; intros r c HL.
  - rewrite H0. f_equal. simpl. lia.
  - destruct r as [|y r]; [simpl in HL; lia|]. rewrite H1, IH by (simpl in HL; lia). f_equal.
    assert (E : length (matches p (x :: l) (y :: r)) = (if (x =? y)%Z && p y then 1 else 0) + length (matches p l r)).
    { unfold matches. cbn [length seq filter nth].
      assert (G : forall g m, length (filter g (seq 1 m)) = length (filter (fun i => g (S i)) (seq 0 m))).
      { intros g m. rewrite <- seq_shift. clear. induction (seq 0 m) as [|a s IH]; simpl; auto. destruct (g (S a)); simpl; auto. }
      destruct ((x =? y)%Z && p y); cbn [length Nat.add]; rewrite G; cbn [nth]; auto. }
    rewrite E. destruct ((x =? y)%Z && p y); lia.
Qed.

(** The number of positions with the same element; only those with a given one. *)
Theorem c69_count_matches :
  forall l r value, length l <= length r ->
  count_matches l r = Ok (length (matches (fun _ => true) l r)) /\
  count_matches_for_value value l r = Ok (length (matches (fun y => y =? value)%Z l r)).
Proof.
  intros l r value HL. split.
  - unfold count_matches. rewrite (count_from_ok (fun _ => true)); auto. intros. simpl. now rewrite andb_true_r.
  - unfold count_matches_for_value. rewrite (count_from_ok (fun y => y =? value)%Z); auto. intros. simpl. now rewrite andb_comm.
Qed.

(** Membership. *)
Theorem c69_element_in :
  forall data element, (is_element_in data element = true <-> In element data) /\ is_element_not_in data element = negb (is_element_in data element).
Proof.
  intros data element. unfold is_element_in, is_element_not_in. rewrite negb_involutive. split; auto.
  unfold find_position.
  assert (G : forall data i, let k := (fix find i data := match data with [] => i | x :: data => if (x =? element)%Z then i else find (S i) data end) i data in
    i <= k <= i + length data /\ (k = i + length data <-> ~ In element data)).
  { clear. induction data as [|x data IH]; intros i; cbn [length].
    - cbn. split; [lia|]. split; [tauto|lia].
    - cbn zeta. destruct (Z.eqb_spec x element) as [->|Hn].
      + split; [lia|]. split; [lia|]. intros H. exfalso. apply H. now left.
      + destruct (IH (S i)) as (A & B). split; [lia|]. rewrite <- Nat.add_succ_comm, B. simpl. intuition. }
  destruct (G data 0) as (A & B). rewrite Nat.add_0_l in B. rewrite negb_true_iff, Nat.eqb_neq. rewrite B.
  split; [|tauto]. intros H. destruct (in_dec Z.eq_dec element data); auto. contradiction.
Qed.

Example c69_case :
  containers_equal 2 [10; 20; 30]%Z [11; 18; 30]%Z = Ok true /\ containers_equal 1 [10; 20; 30]%Z [11; 18; 30]%Z = Ok false /\
  containers_equal 5 [10; 20]%Z [10; 20; 20]%Z = Ok false /\ ranges_equal 5 [10; 20]%Z [10; 20; 20]%Z = Ok true /\
  ranges_equal 5 [10; 20]%Z [10]%Z = UB /\ ranges_equal 5 [10; 20]%Z [16]%Z = Ok false /\
  count_matches [1; 2; 3; 2]%Z [1; 2; 2; 2; 9]%Z = Ok 3 /\ count_matches_for_value 2 [1; 2; 3; 2]%Z [1; 2; 2; 2; 9]%Z = Ok 2 /\
  count_matches [1; 2]%Z [1]%Z = UB /\ is_element_in [3; 5; 5]%Z 5 = true /\ is_element_in [3; 5; 5]%Z 4 = false.
Proof. vm_compute. auto 12. Qed.

Print Assumptions c51_permutation_from_indices.
Print Assumptions c51_permutation_permutes.
Print Assumptions c51_remap_rows.
Print Assumptions c51_remap_permutes.
Print Assumptions c51_wrong_size_throws.
Print Assumptions c51_index_outside_undefined.
Print Assumptions c69_containers_equal.
Print Assumptions c69_containers_equal_relation.
Print Assumptions c69_transitive_refuted.
Print Assumptions c69_ranges.
Print Assumptions c69_count_matches.
Print Assumptions c69_element_in.
