(** Lemmas on transposition and distance matrices. *)
From Coq Require Import List Arith ZArith Lia Bool Permutation.
From Verif Require Import Base SortingModel BufferModel BufferSpec SearchModel SearchSpec MatrixModel.
Import ListNotations.

(** Assignments with different targets: afterwards every target holds its value, whatever the order. *)
Lemma write_once {A C} (body : C -> list A -> res (list A)) (at_ : C -> nat) (value : C -> A) (N : nat) :
  (forall c l, length l = N -> at_ c < N -> body c l = Ok (upd l (at_ c) (value c))) ->
  forall cells l, NoDup (map at_ cells) -> (forall c, In c cells -> at_ c < N) -> length l = N ->
  exists l', for_each cells body l = Ok l' /\ length l' = N /\
    (forall c, In c cells -> nth_error l' (at_ c) = Some (value c)) /\
    (forall k, ~ In k (map at_ cells) -> nth_error l' k = nth_error l k).
Proof.
  intros Hbody cells. induction cells as [|c cells IH]; intros l Hnd Hlt Hl; simpl.
  - exists l. splits; auto. tauto.
  - simpl in Hnd. apply NoDup_cons_iff in Hnd as [Hn Hnd'].
    rewrite Hbody by (auto; apply Hlt; simpl; auto). cbn [bind].
    destruct (IH (upd l (at_ c) (value c))) as (l' & E & L & H1 & H2); auto.
    { intros c' Hc'. apply Hlt. simpl; auto. } { now rewrite upd_length. }
    exists l'. splits; auto.
    + intros c' [<-|Hc']; auto. rewrite H2 by auto. apply nth_error_upd_eq. specialize (Hlt c (or_introl eq_refl)). lia.
    + intros k Hk. rewrite H2 by tauto. apply nth_error_upd_neq. intros E'. apply Hk. simpl. auto.
Qed.

(** A nested counting loop is a loop over the list of index pairs. *)
Lemma for_loop_each {S} (body : nat -> S -> res S) count first s :
  for_loop count first body s = for_each (seq first count) body s.
Proof.
  revert first s. induction count as [|count IH]; intros first s; simpl; auto.
  destruct (body first s); simpl; auto.
Qed.

Lemma for_each_app {A S} (body : A -> S -> res S) l l' s :
  for_each (l ++ l') body s = (s' <- for_each l body s ;; for_each l' body s').
Proof. revert s. induction l as [|x l IH]; intros s; simpl; auto. destruct (body x s); simpl; auto. Qed.

Lemma for_each_map {A B S} (f : A -> B) (body : B -> S -> res S) l s :
  for_each (map f l) body s = for_each l (fun x => body (f x)) s.
Proof. revert s. induction l as [|x l IH]; intros s; simpl; auto. destruct (body (f x) s); simpl; auto. Qed.

Lemma for_each_flat_map {A B S} (f : A -> list B) (body : B -> S -> res S) l s :
  for_each (flat_map f l) body s = for_each l (fun x => for_each (f x) body) s.
Proof.
  revert s. induction l as [|x l IH]; intros s; simpl; auto. rewrite for_each_app.
  destruct (for_each (f x) body s); simpl; auto.
Qed.

Lemma for_each_ext {A S} (b b' : A -> S -> res S) l s :
  (forall x t, In x l -> b x t = b' x t) -> for_each l b s = for_each l b' s.
Proof.
  revert s. induction l as [|x l IH]; intros s H; simpl; auto. rewrite H by (simpl; auto).
  destruct (b' x s); simpl; auto. apply IH. intros; apply H; simpl; auto.
Qed.

Definition grid (n m : nat) : list (nat * nat) := flat_map (fun i => map (fun j => (i, j)) (seq 0 m)) (seq 0 n).

Lemma in_grid n m i j : In (i, j) (grid n m) <-> i < n /\ j < m.
Proof.
  unfold grid. rewrite in_flat_map. split.
  - intros (a & Ha & Hm). apply in_map_iff in Hm as (b & E & Hb). inversion E; subst. apply in_seq in Ha, Hb. lia.
  - intros [Hi Hj]. exists i. split; [apply in_seq; lia|]. apply in_map_iff. exists j. split; auto. apply in_seq; lia.
Qed.

Lemma NoDup_flat_map {A B} (f : A -> list B) l : NoDup l -> (forall x, In x l -> NoDup (f x)) ->
  (forall x y z, In x l -> In y l -> In z (f x) -> In z (f y) -> x = y) -> NoDup (flat_map f l).
Proof.
  intros H. induction H as [|x l Hx H IH]; intros H1 H2; simpl; [constructor|].
  assert (G : forall a b : list B, NoDup a -> NoDup b -> (forall z, In z a -> ~ In z b) -> NoDup (a ++ b)).
  { clear. intros a b Ha Hb Hd. induction Ha as [|z a Hz Ha IHa]; simpl; auto. constructor.
    - rewrite in_app_iff. intros [H|H]; auto. apply (Hd z); simpl; auto.
    - apply IHa. intros w Hw. apply Hd. simpl; auto. }
  apply G.
  - apply H1. simpl; auto.
  - apply IH.
    + intros y Hy. apply H1. simpl; auto.
    + intros a b z Ha Hb. apply H2; simpl; auto.
  - intros z Hz Hin. apply in_flat_map in Hin as (y & Hy & Hzy).
    assert (x = y) by (apply (H2 x y z); simpl; auto). subst. contradiction.
Qed.

Lemma NoDup_grid n m : NoDup (grid n m).
Proof.
  unfold grid. apply NoDup_flat_map.
  - apply seq_NoDup.
  - intros i _. apply FinFun.Injective_map_NoDup; [|apply seq_NoDup]. intros a b E. congruence.
  - intros i j z _ _ Hz Hz'. apply in_map_iff in Hz as (a & <- & _). apply in_map_iff in Hz' as (b & E & _). congruence.
Qed.

(** ** Transposition *)
Lemma flat_unique n i j i' j' : i < n -> i' < n -> j * n + i = j' * n + i' -> i = i' /\ j = j'.
Proof.
  intros Hi Hi' E. assert (j = j').
  { assert (D : (j * n + i) / n = j). { rewrite Nat.div_add_l by lia. rewrite Nat.div_small by lia. lia. }
    assert (D' : (j' * n + i') / n = j'). { rewrite Nat.div_add_l by lia. rewrite Nat.div_small by lia. lia. }
    rewrite <- D, <- D', E. reflexivity. }
  subst. split; auto. lia.
Qed.

Section Transposed.
Context {A : Type} (zero : A) (samples : list A) (nf n : nat).
Hypothesis Hlen : length samples = n * nf.
Hypothesis Hnf : nf <> 0.

Definition transposed (T : list A) : Prop :=
  length T = n * nf /\ forall i j, i < n -> j < nf -> nth_error T (j * n + i) = nth_error samples (i * nf + j).

Lemma cells_ok (cells : list (nat * nat)) : Permutation cells (grid n nf) ->
  exists T, for_each cells (fun '(i, j) => transpose_cell samples n nf i j) (repeat zero (n * nf)) = Ok T /\ transposed T.
Proof.
  intros P.
  assert (Hin : forall i j, In (i, j) cells <-> i < n /\ j < nf).
  { intros i j. rewrite <- in_grid. split; intros H; [exact (Permutation_in _ P H)|exact (Permutation_in _ (Permutation_sym P) H)]. }
  assert (Hb : forall i j, i < n -> j < nf -> j * n + i < n * nf) by (intros; nia).
  assert (Hb' : forall i j, i < n -> j < nf -> i * nf + j < n * nf) by (intros; nia).
  assert (Hbody : forall c l, length l = n * nf -> (let '(i, j) := c in i < n /\ j < nf) ->
     (let '(i, j) := c in transpose_cell samples n nf i j) l =
     Ok (upd l (let '(i, j) := c in j * n + i) (let '(i, j) := c in nth (i * nf + j) samples zero))).
  { intros [i j] l Hl [Hi Hj]. unfold transpose_cell. unfold rd.
    rewrite (nth_error_nth' samples (i * nf + j) zero) by (rewrite Hlen; auto). cbn [bind].
    apply wr_lt. rewrite Hl. auto. }
  destruct (write_once (fun (c : nat * nat) => let '(i, j) := c in
                 if (i <? n) && (j <? nf) then transpose_cell samples n nf i j else fun l => Ok (upd l (j * n + i) (nth (i * nf + j) samples zero)))
    (fun '(i, j) => j * n + i) (fun '(i, j) => nth (i * nf + j) samples zero) (n * nf)) with (cells := cells) (l := repeat zero (n * nf))
    as (T & E & L & H1 & _).
  - intros [i j] l Hl Hlt. destruct (Nat.ltb_spec i n), (Nat.ltb_spec j nf); simpl; auto. apply (Hbody (i, j)); auto.
  - apply (Permutation_NoDup (l := map (fun '(i, j) => j * n + i) (grid n nf))).
    { apply Permutation_map. now symmetry. }
    assert (G : forall l : list (nat * nat), NoDup l -> (forall i j, In (i, j) l -> i < n /\ j < nf) -> NoDup (map (fun '(i, j) => j * n + i) l)).
    { clear - Hnf. induction l as [|[i j] l IH]; intros Hnd Hl; simpl; constructor; inversion Hnd; subst.
      - intros Hin. apply in_map_iff in Hin as ([i' j'] & E & Hin).
        destruct (Hl i j); simpl; auto. destruct (Hl i' j'); simpl; auto.
        apply flat_unique in E as [-> ->]; auto.
      - apply IH; auto. intros; apply Hl; simpl; auto. }
    apply G; [apply NoDup_grid|]. intros i j. apply in_grid.
  - intros [i j] H. apply Hin in H as []. auto.
  - apply repeat_length.
  - exists T. split.
    + rewrite <- E. apply for_each_ext. intros [i j] l H. apply Hin in H as [Hi Hj].
      destruct (Nat.ltb_spec i n), (Nat.ltb_spec j nf); simpl; auto; lia.
    + split; auto. intros i j Hi Hj. rewrite (H1 (i, j)) by (apply Hin; auto).
      symmetry. apply nth_error_nth'. rewrite Hlen. auto.
Qed.

Lemma transposed_unique T T' : transposed T -> transposed T' -> T = T'.
Proof.
  intros [L H] [L' H']. apply nth_error_ext. intros k. destruct (le_lt_dec (n * nf) k) as [Hk|Hk].
  { rewrite (proj2 (nth_error_None T k)), (proj2 (nth_error_None T' k)) by lia. auto. }
  assert (Hn : n <> 0) by (intros ->; simpl in Hk; lia).
  replace k with (k / n * n + k mod n) by (rewrite (Nat.div_mod k n) at 3; lia).
  assert (k mod n < n) by (apply Nat.mod_upper_bound; auto).
  assert (k / n < nf). { apply Nat.div_lt_upper_bound; auto. }
  rewrite H, H'; auto.
Qed.

Lemma get_n_ok : get_n_samples samples nf = Ok n.
Proof.
  unfold get_n_samples. destruct (Nat.eqb_spec nf 0); [contradiction|]. rewrite Hlen, Nat.div_mul; auto.
Qed.

Lemma sequential_ok : exists T, transpose_sequential zero samples nf = Ok (T, nf, n) /\ transposed T.
Proof.
  destruct (cells_ok (grid n nf)) as (T & E & HT); auto. exists T. split; auto.
  unfold transpose_sequential. rewrite get_n_ok. cbn [bind].
  rewrite for_loop_each. unfold grid in E. rewrite for_each_flat_map in E.
  rewrite (for_each_ext _ (fun x => for_each (map (fun j => (x, j)) (seq 0 nf)) (fun '(i, j) => transpose_cell samples n nf i j))), E; auto.
  intros x t _. rewrite for_loop_each, for_each_map. auto.
Qed.

Lemma block_size_pos : 0 < block_size.
Proof. unfold block_size. lia. Qed.

Lemma in_block_starts k N : In k (block_starts N) <-> k < N /\ k mod block_size = 0.
Proof.
  pose proof block_size_pos as Hb. unfold block_starts. generalize dependent block_size. intros b Hb.
  rewrite in_map_iff. split.
  - intros (q & <- & Hq). apply in_seq in Hq. rewrite Nat.mod_mul by lia. split; auto.
    assert (q * b + b <= N + (b - 1)); [|lia].
    assert (b * ((N + (b - 1)) / b) <= N + (b - 1)) by (apply Nat.mul_div_le; lia). nia.
  - intros [Hk Hm]. exists (k / b). pose proof (Nat.div_mod k b ltac:(lia)) as E. split; [lia|].
    apply in_seq. split; [lia|]. simpl. apply Nat.div_le_lower_bound; [lia|]. nia.
Qed.

Lemma in_in_block i start N : In i (in_block start N) <-> start <= i /\ i < start + block_size /\ i < N.
Proof. unfold in_block. rewrite in_seq. lia. Qed.

Lemma block_cells_perm : Permutation (block_cells n nf) (grid n nf).
Proof.
  assert (Hstart : forall k k' i, k mod block_size = 0 -> k' mod block_size = 0 ->
    k <= i -> i < k + block_size -> k' <= i -> i < k' + block_size -> k = k').
  { pose proof block_size_pos as Hb. generalize dependent block_size. intros b Hb k k' i Hk Hk' H1 H2 H3 H4.
    pose proof (Nat.div_mod k b ltac:(lia)) as E. pose proof (Nat.div_mod k' b ltac:(lia)) as E'.
    rewrite Hk in E. rewrite Hk' in E'. destruct (lt_eq_lt_dec (k / b) (k' / b)) as [[Hlt|Heq]|Hlt].
    - assert (b * (k / b) + b <= b * (k' / b)) by nia. lia.
    - rewrite Heq in E. lia.
    - assert (b * (k' / b) + b <= b * (k / b)) by nia. lia. }
  apply NoDup_Permutation; [|apply NoDup_grid|].
  - unfold block_cells. apply NoDup_flat_map.
    + unfold block_starts. apply FinFun.Injective_map_NoDup; [|apply seq_NoDup].
      intros a b E. pose proof block_size_pos. nia.
    + intros si Hsi. apply NoDup_flat_map.
      * unfold block_starts. apply FinFun.Injective_map_NoDup; [|apply seq_NoDup].
        intros a b E. pose proof block_size_pos. nia.
      * intros fi Hfi. apply NoDup_flat_map.
        -- apply seq_NoDup.
        -- intros i _. apply FinFun.Injective_map_NoDup; [|apply seq_NoDup]. intros a b E. congruence.
        -- intros i j z _ _ Hz Hz'. apply in_map_iff in Hz as (a & <- & _). apply in_map_iff in Hz' as (b & E & _). congruence.
      * intros x y z Hx Hy Hz Hz'. apply in_flat_map in Hz as (i & Hi & Hz). apply in_flat_map in Hz' as (i' & Hi' & Hz').
        apply in_map_iff in Hz as (j & <- & Hj). apply in_map_iff in Hz' as (j' & E & Hj'). inversion E; subst.
        apply in_block_starts in Hx, Hy. apply in_in_block in Hj, Hj'. apply (Hstart x y j); tauto.
    + intros x y z Hx Hy Hz Hz'. apply in_flat_map in Hz as (fi & Hfi & Hz). apply in_flat_map in Hz' as (fi' & Hfi' & Hz').
      apply in_flat_map in Hz as (i & Hi & Hz). apply in_flat_map in Hz' as (i' & Hi' & Hz').
      apply in_map_iff in Hz as (j & <- & Hj). apply in_map_iff in Hz' as (j' & E & Hj'). inversion E; subst.
      apply in_block_starts in Hx, Hy. apply in_in_block in Hi, Hi'. apply (Hstart x y i); tauto.
  - intros [i j]. rewrite in_grid. unfold block_cells. rewrite in_flat_map. split.
    + intros (si & Hsi & H). apply in_flat_map in H as (fi & Hfi & H). apply in_flat_map in H as (i' & Hi & H).
      apply in_map_iff in H as (j' & E & Hj). inversion E; subst. apply in_in_block in Hi, Hj. tauto.
    + intros [Hi Hj].
      assert (G : forall k N, k < N -> exists s, In s (block_starts N) /\ In k (in_block s N)).
      { intros k N Hk. exists (k / block_size * block_size). pose proof block_size_pos as Hb.
        pose proof (Nat.div_mod k block_size ltac:(lia)) as E. pose proof (Nat.mod_upper_bound k block_size ltac:(lia)) as U. split.
        - apply in_block_starts. rewrite Nat.mod_mul by lia. split; auto. lia.
        - apply in_in_block. lia. }
      destruct (G i n Hi) as (si & H1 & H2). destruct (G j nf Hj) as (fi & H3 & H4).
      exists si. split; auto. apply in_flat_map. exists fi. split; auto. apply in_flat_map. exists i. split; auto.
      apply in_map_iff. exists j. auto.
Qed.

Lemma parallel_ok schedule : (forall l, Permutation (schedule l) l) ->
  exists T, transpose_parallel zero schedule samples nf = Ok (T, nf, n) /\ transposed T.
Proof.
  intros Hs. destruct (cells_ok (schedule (block_cells n nf))) as (T & E & HT).
  { rewrite Hs. apply block_cells_perm. }
  exists T. split; auto. unfold transpose_parallel. rewrite get_n_ok. cbn [bind]. rewrite E. reflexivity.
Qed.
End Transposed.

(** ** Distance matrices *)
Lemma triangle_step r : flat_index (S r) = flat_index r + r.
Proof.
  unfold flat_index. destruct r as [|r]; [reflexivity|].
  replace (S (S r) * (S (S r) - 1)) with (S r * (S r - 1) + S r * 2) by nia. now rewrite Nat.div_add by lia.
Qed.

Lemma triangle_mono r r' : r <= r' -> flat_index r <= flat_index r'.
Proof. induction 1; auto. rewrite triangle_step. lia. Qed.

Lemma triangle_below r c r' : c < r -> r < r' -> flat_index r + c < flat_index r'.
Proof. intros Hc Hr. pose proof (triangle_mono (S r) r' ltac:(lia)) as H. rewrite triangle_step in H. lia. Qed.

Lemma triangle_unique r c r' c' : c < r -> c' < r' -> flat_index r + c = flat_index r' + c' -> r = r' /\ c = c'.
Proof.
  intros Hc Hc' E. destruct (lt_eq_lt_dec r r') as [[H| ->]|H].
  - pose proof (triangle_below r c r' Hc H). lia.
  - lia.
  - pose proof (triangle_below r' c' r Hc' H). lia.
Qed.

Section Matrix.
Context (m : metric) (dist : list Z -> list Z -> m_dist m) (zero : m_dist m) (samples : list Z) (nf n : nat).
Hypothesis Hauto : forall p q, length p = length q -> m_auto m p q = Ok (dist p q).
Hypothesis Hlen : length samples = n * nf.
Hypothesis Hnf : nf <> 0.

Lemma matrix_row i : i < n -> sample_at samples nf i = Ok (row samples nf i) /\ length (row samples nf i) = nf.
Proof.
  intros Hi. assert (H : i * nf + nf <= length samples) by (rewrite Hlen; nia).
  split; [|unfold row; rewrite firstn_length, skipn_length; lia].
  unfold sample_at, slice, row.
  destruct (Nat.leb_spec (i * nf) (i * nf + nf)); [|lia]. destruct (Nat.leb_spec (i * nf + nf) (length samples)); [|lia].
  simpl. do 2 f_equal. lia.
Qed.

Definition lower_triangle (p : pairwise_matrix m) : Prop :=
  pm_n_samples m p = n /\ length (pm_data m p) = flat_index n /\
  forall r c, c < r -> r < n -> nth_error (pm_data m p) (flat_index r + c) = Some (dist (row samples nf r) (row samples nf c)).

Lemma in_pairwise_cells r c : In (r, c) (pairwise_cells n) <-> c < r /\ r < n.
Proof.
  unfold pairwise_cells. rewrite in_flat_map. split.
  - intros (a & Ha & H). apply in_map_iff in H as (b & E & Hb). inversion E; subst. apply in_seq in Ha, Hb. lia.
  - intros [H1 H2]. exists r. split; [apply in_seq; lia|]. apply in_map_iff. exists c. split; auto. apply in_seq; lia.
Qed.

Lemma NoDup_pairwise_cells : NoDup (pairwise_cells n).
Proof.
  unfold pairwise_cells. apply NoDup_flat_map.
  - apply seq_NoDup.
  - intros i _. apply FinFun.Injective_map_NoDup; [|apply seq_NoDup]. intros a b E. congruence.
  - intros i j z _ _ Hz Hz'. apply in_map_iff in Hz as (a & <- & _). apply in_map_iff in Hz' as (b & E & _). congruence.
Qed.

Lemma pairwise_cells_ok cells : Permutation cells (pairwise_cells n) ->
  exists d, for_each cells (fun '(r, c) => pairwise_cell m samples nf r c) (repeat zero (n * (n - 1) / 2)) = Ok d /\
    lower_triangle (mk_pairwise m n d).
Proof.
  intros P.
  assert (Hin : forall r c, In (r, c) cells <-> c < r /\ r < n).
  { intros r c. rewrite <- in_pairwise_cells. split; intros H; [exact (Permutation_in _ P H)|exact (Permutation_in _ (Permutation_sym P) H)]. }
  set (value := fun '(r, c) => dist (row samples nf r) (row samples nf c)).
  destruct (write_once (fun (c : nat * nat) => let '(i, j) := c in
      if (j <? i) && (i <? n) then pairwise_cell m samples nf i j else fun l => Ok (upd l (flat_index i + j) (value (i, j))))
    (fun '(i, j) => flat_index i + j) value (flat_index n)) with (cells := cells) (l := repeat zero (n * (n - 1) / 2))
    as (T & E & L & H1 & _).
  - intros [i j] l Hl Hlt. destruct (Nat.ltb_spec j i), (Nat.ltb_spec i n); simpl; auto. unfold pairwise_cell.
    destruct (matrix_row i) as [-> L1]; [lia|]. destruct (matrix_row j) as [-> L2]; [lia|]. cbn [bind].
    rewrite Hauto by congruence. cbn [bind]. apply wr_lt. now rewrite Hl.
  - apply (Permutation_NoDup (l := map (fun '(i, j) => flat_index i + j) (pairwise_cells n))).
    { apply Permutation_map. now symmetry. }
    assert (G : forall l : list (nat * nat), NoDup l -> (forall i j, In (i, j) l -> j < i) -> NoDup (map (fun '(i, j) => flat_index i + j) l)).
    { clear. induction l as [|[i j] l IH]; intros Hnd Hl; cbn [map]; constructor; inversion Hnd; subst.
      - intros Hin. apply in_map_iff in Hin as ([i' j'] & E & Hin).
        pose proof (Hl i j (or_introl eq_refl)). pose proof (Hl i' j' (or_intror Hin)).
        apply triangle_unique in E as [-> ->]; auto.
      - apply IH; auto. intros a b Hab; apply Hl; simpl; auto. }
    apply G; [apply NoDup_pairwise_cells|]. intros i j H. now apply in_pairwise_cells in H.
  - intros [i j] H. apply Hin in H as []. now apply triangle_below.
  - now rewrite repeat_length.
  - exists T. split.
    + rewrite <- E. apply for_each_ext. intros [i j] l H. apply Hin in H as [Hi Hj].
      destruct (Nat.ltb_spec j i), (Nat.ltb_spec i n); simpl; auto; lia.
    + unfold lower_triangle. splits; auto. intros r c Hc Hr. simpl. apply (H1 (r, c)). now apply Hin.
Qed.

Lemma lower_triangle_unique p p' : lower_triangle p -> lower_triangle p' -> p = p'.
Proof.
  destruct p as [k d], p' as [k' d']. intros (E & L & H) (E' & L' & H'). simpl in *. subst k k'. f_equal.
  apply nth_error_ext. intros i. destruct (le_lt_dec (flat_index n) i) as [Hi|Hi].
  { rewrite (proj2 (nth_error_None d i)), (proj2 (nth_error_None d' i)) by lia. auto. }
  assert (G : exists r c, c < r /\ r < n /\ i = flat_index r + c).
  { clear - Hi. revert Hi. induction n as [|k IH]; intros Hi; [unfold flat_index in Hi; simpl in Hi; lia|].
    destruct (le_lt_dec (flat_index k) i) as [Hk|Hk].
    - rewrite triangle_step in Hi. exists k, (i - flat_index k). lia.
    - destruct (IH Hk) as (r & c & H1 & H2 & H3). exists r, c. lia. }
  destruct G as (r & c & Hc & Hr & ->). rewrite H, H'; auto.
Qed.

Lemma get_n_ok' : get_n_samples samples nf = Ok n.
Proof.
  unfold get_n_samples. destruct (Nat.eqb_spec nf 0); [contradiction|]. rewrite Hlen, Nat.div_mul; auto.
Qed.

Lemma pairwise_sequential_ok : exists p, pairwise_sequential m zero samples nf = Ok p /\ lower_triangle p.
Proof.
  destruct (pairwise_cells_ok (pairwise_cells n)) as (d & E & Hd); auto. exists (mk_pairwise m n d). split; auto.
  unfold pairwise_sequential. rewrite get_n_ok'. cbn [bind].
  rewrite for_loop_each. unfold pairwise_cells in E. rewrite for_each_flat_map in E.
  rewrite (for_each_ext _ (fun x => for_each (map (fun j => (x, j)) (seq 0 x)) (fun '(r, c) => pairwise_cell m samples nf r c))), E; auto.
  intros x t _. rewrite for_loop_each, for_each_map. auto.
Qed.

Lemma pairwise_parallel_ok schedule : (forall l, Permutation (schedule l) l) ->
  exists p, pairwise_parallel m zero schedule samples nf = Ok p /\ lower_triangle p.
Proof.
  intros Hs. destruct (pairwise_cells_ok (schedule (pairwise_cells n))) as (d & E & Hd); [apply Hs|].
  exists (mk_pairwise m n d). split; auto. unfold pairwise_parallel. rewrite get_n_ok'. cbn [bind]. rewrite E. reflexivity.
Qed.
End Matrix.
