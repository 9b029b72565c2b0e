(** Theorems on random selection, the alias table and k-means++: C47, C64, C65, C66. *)
From Coq Require Import List Arith ZArith QArith Qround Lia Bool Permutation Lqa.
From Verif Require Import Base SortingModel BufferModel BufferSpec SearchModel MatrixModel MatrixProofs KMeansModel KMeansProofs
  RandomModel RandomSpec RandomProofs AliasProofs PlusPlusProofs.
Import ListNotations.
Local Open Scope nat_scope.

(** ** C47 *)
Lemma total_fold w : (fold_left Qplus w 0 == total w)%Q.
Proof.
  assert (G : forall w a, (fold_left Qplus w a == a + total w)%Q).
  { clear. induction w as [|x w IH]; intros a; simpl; [lra|]. rewrite IH. unfold total. simpl. lra. }
  rewrite G. lra.
Qed.
Lemma total_positive w : (forall x, In x w -> 0 <= x)%Q -> (exists x, In x w /\ 0 < x)%Q -> (0 < total w)%Q.
Proof.
  intros H (x & Hx & Hp). unfold total. induction w as [|y w IH]; [destruct Hx|]. simpl.
  assert (H0 : (0 <= fold_right Qplus 0 w)%Q).
  { clear - H. assert (H' : forall x, In x w -> (0 <= x)%Q) by (intros; apply H; simpl; auto). clear H.
    induction w; simpl; [lra|]. assert (0 <= a)%Q by (apply H'; simpl; auto). assert (0 <= fold_right Qplus 0 w)%Q by (apply IHw; intros; apply H'; simpl; auto). lra. }
  destruct Hx as [->|Hx].
  - lra.
  - assert (0 < fold_right Qplus 0 w)%Q by (apply IH; auto; intros; apply H; simpl; auto).
    assert (0 <= y)%Q by (apply H; simpl; auto). lra.
Qed.

(** The unit square of the two random numbers splits into n times m equal cells; on each of them the sampled index is constant,
    and the share of the cells giving [i] is its weight over the sum. *)
Theorem c47_share_is_weight :
  forall w, (forall x, In x w -> 0 <= x)%Q -> (exists x, In x w /\ 0 < x)%Q ->
  exists t m f, make_alias_table w = Ok t /\ 0 < m /\
    (forall c b u v, c < length w -> b < m -> in_part (length w) c u -> in_part m b v -> alias_sample t u v = Ok (f c b)) /\
    (forall c b, c < length w -> b < m -> f c b < length w) /\
    forall i, i < length w ->
      (inject_Z (Z.of_nat (hits f (length w) m i)) / (inject_Z (Z.of_nat (length w)) * inject_Z (Z.of_nat m)) ==
       nth i w 0 / total w)%Q.
Proof.
  intros w Hw Hex. pose proof (total_positive w Hw Hex) as Hp.
  assert (Hne : w <> []) by (intros ->; destruct Hex as (x & [] & _)).
  assert (Hz : ~ (fold_left Qplus w 0 == 0)%Q) by (rewrite total_fold; lra).
  destruct (make_table_ok w Hne Hw Hz) as (t & p & al & E & Ht).
  destruct (sample_cells w t _ p al Ht) as (m & f & Hm & Hf & Hr & Hh).
  exists t, m, f. splits; auto. intros i Hi. rewrite (Hh i Hi), total_fold.
  assert (Hn : (0 < QN (length w))%Q) by (apply QN_pos; lia). pose proof (QN_pos m Hm). field. lra.
Qed.

(** For every two numbers of the unit interval the result is an index of positive weight. *)
Theorem c47_sample_has_positive_weight :
  forall w t u v, (forall x, In x w -> 0 <= x)%Q -> (exists x, In x w /\ 0 < x)%Q -> make_alias_table w = Ok t ->
  (0 <= u < 1)%Q -> (0 <= v < 1)%Q ->
  exists i, alias_sample t u v = Ok i /\ i < length w /\ (0 < nth i w 0)%Q.
Proof.
  intros w t u v Hw Hex E Hu Hv. pose proof (total_positive w Hw Hex) as Hp. apply sample_positive; auto.
  - intros ->. destruct Hex as (x & [] & _).
  - rewrite total_fold. lra.
Qed.

(** When all weights are zero every index is returned, in equal parts; without weights the constructor throws. *)
Theorem c47_zero_weights_are_uniform :
  forall w, w <> [] -> (forall x, In x w -> x == 0)%Q ->
  exists t, make_alias_table w = Ok t /\
    forall c u v, c < length w -> in_part (length w) c u -> (0 <= v < 1)%Q -> alias_sample t u v = Ok c.
Proof.
  intros w Hne H0.
  assert (Hz : (fold_left Qplus w 0 == 0)%Q).
  { rewrite total_fold. clear Hne. unfold total. induction w as [|x w IH]; simpl; [reflexivity|].
    rewrite IH by (intros; apply H0; simpl; auto). specialize (H0 x ltac:(simpl; auto)). lra. }
  destruct (make_table_zero w Hne Hz) as (t & E & _). exists t. split; auto. intros c u v Hc Hu Hv. apply (sample_zero w t u v c); auto.
Qed.

Theorem c47_no_weights_throws : make_alias_table [] = Throw.
Proof. reflexivity. Qed.

Definition sample_all (w : list Q) (m : nat) : res (list (list nat)) :=
  t <- make_alias_table w ;;
  for_each (seq 0 (length w)) (fun c rows =>
    r <- for_each (seq 0 m) (fun b r =>
      i <- alias_sample t (inject_Z (Z.of_nat c) / inject_Z (Z.of_nat (length w))) (inject_Z (Z.of_nat b) / inject_Z (Z.of_nat m)) ;;
      Ok (r ++ [i])) [] ;;
    Ok (rows ++ [r])) [].

(** Four columns of five cells: two of the cells give 0, eight give 1, none gives 2 and ten give 3. *)
Example c47_case : sample_all [1; 4; 0; 5]%Q 5 = Ok [[0; 0; 1; 1; 1]; [3; 3; 3; 3; 3]; [1; 1; 1; 1; 1]; [3; 3; 3; 3; 3]]
  /\ sample_all [0; 0; 0]%Q 2 = Ok [[0; 0]; [1; 1]; [2; 2]].
Proof. vm_compute. auto. Qed.

(** ** C64 *)
Lemma elements_seq k n : k <= n -> firstn k (seq 0 n) = seq 0 k.
Proof.
  intros H. replace n with (k + (n - k)) by lia. rewrite seq_app. apply firstn_app_exact. apply seq_length.
Qed.

(** The selected elements are the first [k], in some order: an element after them is never selected. *)
Theorem c64_selection_permutes_the_first :
  forall (A : Type) draw (elements : list A) k, in_range draw -> k <= length elements ->
  exists selected, select_n_elements draw elements k = Ok selected /\ Permutation selected (firstn k elements).
Proof.
  intros A draw l k Hd Hk. destruct (select_is_shuffle draw l k Hd Hk) as (-> & Hr).
  destruct (shuffle_perm (fun c => draw c c (k - 1)) k 0 (firstn k l)) as (l' & -> & _ & HP).
  - intros c Hc. rewrite firstn_length. specialize (Hr c ltac:(lia)). lia.
  - exists l'. split; auto. now symmetry.
Qed.

(** Every order of them has draws that give it; for distinct elements only one sequence of draws does. *)
Theorem c64_every_order_is_reached_once :
  forall (A : Type) (elements order : list A) k, k <= length elements -> Permutation order (firstn k elements) ->
  (exists draw, in_range draw /\ select_n_elements draw elements k = Ok order) /\
  (NoDup (firstn k elements) -> forall draw draw', in_range draw -> in_range draw' ->
    select_n_elements draw elements k = Ok order -> select_n_elements draw' elements k = Ok order ->
    forall c, c < k -> draw c c (k - 1) = draw' c c (k - 1)).
Proof.
  intros A l order k Hk HP. split.
  - assert (Hl : length (firstn k l) = k) by (rewrite firstn_length; lia).
    destruct (shuffle_surjective k 0 (firstn k l) order) as (tab & Ht & E); [now symmetry|lia|lia|].
    set (draw := fun c lo hi => if (lo <=? tab c) && (tab c <=? hi) then tab c else lo).
    assert (Hd : in_range draw).
    { intros c lo hi Hle. unfold draw. destruct (Nat.leb_spec lo (tab c)), (Nat.leb_spec (tab c) hi); simpl; lia. }
    exists draw. split; auto. destruct (select_is_shuffle draw l k Hd Hk) as (-> & _). rewrite <- E. unfold shuffle.
    apply for_loop_ext. intros c s Hc. destruct (Ht c Hc) as (H1 & H2). rewrite Hl in H2. unfold draw.
    destruct (Nat.leb_spec c (tab c)), (Nat.leb_spec (tab c) (k - 1)); simpl; auto; lia.
  - intros Hnd draw draw' Hd Hd' E E' c Hc.
    destruct (select_is_shuffle draw l k Hd Hk) as (F & R). destruct (select_is_shuffle draw' l k Hd' Hk) as (F' & R').
    rewrite F in E. rewrite F' in E'.
    apply (shuffle_injective (fun c => draw c c (k - 1)) (fun c => draw' c c (k - 1)) k 0 (firstn k l) order Hnd); auto; try lia;
      intros c' Hc'; [apply R|apply R']; lia.
Qed.

(** Asking for more elements than there are is undefined. *)
Theorem c64_too_many_is_undefined :
  forall (A : Type) draw (elements : list A) k, in_range draw -> length elements < k -> select_n_elements draw elements k = UB.
Proof. intros. now apply select_too_many. Qed.

Lemma interval_ok draw k n : in_range draw -> k <= n -> exists idx, make_n_elements_from_interval draw k n = Ok idx /\
  Permutation idx (seq 0 k) /\ length idx = k /\ forall i, In i idx -> i < n.
Proof.
  intros Hd Hk. destruct (c64_selection_permutes_the_first nat draw (seq 0 n) k Hd) as (idx & E & HP); [rewrite seq_length; auto|].
  rewrite elements_seq in HP by auto. exists idx. splits; auto.
  - rewrite (Permutation_length HP). apply seq_length.
  - intros i Hi. apply (Permutation_in i HP), in_seq in Hi. lia.
Qed.

(** So the "random" samples and centroids are the first ones of the data set. *)
Theorem c64_random_samples_are_the_first :
  forall (A : Type) (zero : A) draw samples nf n k, in_range draw -> nf <> 0 -> length samples = n * nf ->
  (exists idx, select_n_random_samples zero draw samples nf k = Ok (flat_map (row samples nf) idx) /\
     Permutation idx (seq 0 (Nat.min k n))) /\
  (k <= n -> exists idx, init_uniform zero draw samples nf k = Ok (flat_map (row samples nf) idx) /\ Permutation idx (seq 0 k)) /\
  (n < k -> init_uniform zero draw samples nf k = UB).
Proof.
  intros A zero draw samples nf n k Hd Hnf Hs.
  assert (Hg : get_n_samples samples nf = Ok n).
  { unfold get_n_samples. destruct (Nat.eqb_spec nf 0); [contradiction|]. now rewrite Hs, Nat.div_mul. }
  splits.
  - unfold select_n_random_samples. rewrite Hg. cbn [bind].
    destruct (interval_ok draw (Nat.min k n) n Hd ltac:(lia)) as (idx & -> & HP & Hl & Hin). cbn [bind].
    exists idx. split; auto. rewrite <- Hl. apply (gather_rows zero samples nf n idx); auto.
  - intros Hk. unfold init_uniform. rewrite Hg. cbn [bind].
    destruct (interval_ok draw k n Hd Hk) as (idx & -> & HP & Hl & Hin). cbn [bind].
    exists idx. split; auto. rewrite <- Hl, <- (gather_rows zero samples nf n idx) by auto.
    assert (G : forall m i (v : list A), i + m <= length idx -> length v = length idx * nf ->
      for_loop m i (fun c v => index <- rd idx c ;; for_loop nf 0 (fun f v => x <- rd samples (index * nf + f) ;; wr v (c * nf + f) x) v) v =
      for_loop m i (fun c v => j <- rd idx c ;; s <- sample_at samples nf j ;; Ok (splice v (c * nf) (c * nf + nf) s)) v).
    { induction m as [|m IH]; intros i v Hr Hv; cbn [for_loop]; auto.
      destruct (rd_lt idx i) as (j & Ej); [lia|]. rewrite Ej. cbn [bind]. apply rd_ok in Ej. pose proof (Hin j (nth_error_In _ _ Ej)) as Hj.
      rewrite (copy_row samples v nf n (length idx)) by (auto; lia). rewrite (sample_row' samples nf n) by auto. cbn [bind].
      apply IH; [lia|]. destruct (row_splice v nf (length idx) i (row samples nf j)) as (G1 & _); auto; [lia|].
      apply (row_length' samples nf n); auto. }
    apply G; [lia|apply repeat_length].
  - intros Hk. unfold init_uniform, make_n_elements_from_interval. rewrite Hg. cbn [bind].
    rewrite select_too_many by (auto; now rewrite seq_length). reflexivity.
Qed.

(** A user who expects every sample to have a chance to be selected is wrong. *)
Theorem c64_every_sample_may_be_selected_refuted :
  exists (samples : list Z) k i, k <= length samples /\ i < length samples /\
  forall draw, in_range draw -> forall v, init_uniform 0%Z draw samples 1 k = Ok v -> ~ In (nth i samples 0%Z) v.
Proof.
  exists [10; 20; 30; 40]%Z, 2, 3. splits; [simpl; lia|simpl; lia|]. intros draw Hd v E Hin.
  destruct (c64_random_samples_are_the_first Z 0%Z draw [10; 20; 30; 40]%Z 1 4 2 Hd) as (_ & H & _); [lia|reflexivity|].
  destruct H as (idx & E' & HP); [lia|]. rewrite E in E'. injection E' as ->.
  apply in_flat_map in Hin. destruct Hin as (i & Hi & Hr). apply (Permutation_in i HP) in Hi. apply in_seq in Hi.
  destruct i as [|[|i]]; [| |lia]; vm_compute in Hr; destruct Hr as [Hr|[]]; discriminate.
Qed.

Example c64_case : in_range (fun _ _ hi => hi) /\
  select_n_elements (fun _ _ hi => hi) [5; 6; 7; 8; 9] 3 = Ok [7; 5; 6] /\
  select_n_elements (fun _ lo _ => lo) [5; 6; 7; 8; 9] 3 = Ok [5; 6; 7] /\
  select_n_random_samples 0 (fun _ _ hi => hi) [1; 2; 3; 4; 5; 6; 7; 8] 2 3 = Ok [5; 6; 1; 2; 3; 4] /\
  select_n_random_samples 0 (fun _ _ hi => hi) [1; 2; 3; 4; 5; 6; 7; 8] 2 9 = Ok [7; 8; 1; 2; 3; 4; 5; 6] /\
  init_uniform 0 (fun _ _ hi => hi) [1; 2; 3; 4; 5; 6; 7; 8] 2 3 = Ok [5; 6; 1; 2; 3; 4].
Proof. split; [intros c lo hi H; lia|]. vm_compute. auto 6. Qed.

(** ** C65 *)
(** Every coordinate lies between the least and the greatest value of its column, if some value of the column is at least
    [numeric_limits::min()]. *)
Theorem c65_centroids_in_the_box :
  forall numeric_max numeric_min real samples nf n k,
  nf <> 0 -> length samples = n * nf -> 0 < n -> real_in_range real -> (forall x, In x samples -> (x <= numeric_max)%Z) ->
  (forall f, f < nf -> exists i, i < n /\ (numeric_min <= nth (i * nf + f) samples 0)%Z) ->
  exists v, init_spatial_uniform numeric_max numeric_min real samples nf k = Ok v /\ length v = k * nf /\
    forall c f, c < k -> f < nf -> exists lo hi, lo < n /\ hi < n /\
      (nth (lo * nf + f) samples 0 <= nth (c * nf + f) v 0 <= nth (hi * nf + f) samples 0)%Z.
Proof.
  intros M m real samples nf n k Hnf Hs Hn Hr HM Hm.
  destruct (spatial_ok M m samples nf n k real Hnf Hs Hn Hr HM) as (v & E & Hl & H). exists v. splits; auto.
  intros c f Hc Hf. destruct (H c f Hc Hf) as (x & Ex & (lo & Hlo & H1) & H2). rewrite (nth_error_nth _ _ _ Ex). unfold cell in *.
  destruct H2 as [H2|(hi & Hhi & H2)]; [|exists lo, hi; splits; auto].
  destruct (Hm f Hf) as (hi & Hhi & H3). exists lo, hi. splits; auto. lia.
Qed.

(** Floating point: [numeric_limits<float>::min()] is the positive number 2^-126, and columns of negative numbers are not bounded
    by their greatest value. Units of 2^-149. *)
Definition float_min : Z := 2 ^ 23.
Definition float_max : Z := (2 ^ 24 - 1) * 2 ^ 253.
Theorem c65_box_refuted :
  exists samples real v, real_in_range real /\ (forall x, In x samples -> (- float_max <= x <= float_max)%Z) /\
  init_spatial_uniform float_max float_min real samples 1 1 = Ok v /\
  forall c x, In c v -> In x samples -> (x < c)%Z.
Proof.
  exists [-5 * 2 ^ 149; -3 * 2 ^ 149]%Z, (fun _ _ hi => hi), [float_min]. splits.
  - intros c lo hi H. lia.
  - assert (H : forallb (fun x => (- float_max <=? x) && (x <=? float_max))%Z [-5 * 2 ^ 149; -3 * 2 ^ 149]%Z = true) by (vm_compute; auto).
    rewrite forallb_forall in H. intros x Hx. specialize (H x Hx). lia.
  - vm_compute. reflexivity.
  - intros c x [<-|[]] Hx. assert (H : forallb (fun x => x <? float_min)%Z [-5 * 2 ^ 149; -3 * 2 ^ 149]%Z = true) by (vm_compute; auto).
    rewrite forallb_forall in H. specialize (H x Hx). lia.
Qed.

(** Without samples the bounds are the wrong way round, which is undefined. *)
Theorem c65_no_samples_is_undefined :
  forall numeric_max numeric_min real nf k, nf <> 0 -> 0 < k -> (numeric_min < numeric_max)%Z ->
  init_spatial_uniform numeric_max numeric_min real [] nf k = UB.
Proof.
  intros M m real nf k Hnf Hk Hm. unfold init_spatial_uniform, get_n_samples. destruct (Nat.eqb_spec nf 0); [contradiction|].
  cbn [length]. rewrite Nat.div_0_l by auto. cbn [bind]. unfold min_max_buffers. cbn [for_loop bind].
  destruct k as [|k]; [lia|]. destruct nf as [|nf]; [congruence|]. cbn [for_loop repeat]. unfold rd at 1 2. cbn [nth_error bind].
  rewrite (proj2 (Z.ltb_lt _ _) Hm). reflexivity.
Qed.

(** On integers, where [numeric_limits::min()] is the least number, the box holds for all data. *)
Example c65_case :
  init_spatial_uniform 127 (-128) (fun call lo hi => if Nat.even call then lo else hi) [-3; 7; -9; 2; -5; 4]%Z 2 2 = Ok [-9; 7; -9; 7]%Z /\
  init_spatial_uniform 127 (-128) (fun call lo hi => if Nat.even call then hi else lo) [-3; 7; -9; 2; -5; 4]%Z 2 2 = Ok [-3; 2; -3; 2]%Z.
Proof. vm_compute. auto. Qed.

(** ** C66 *)
(** Centroids are samples. Each is at a positive distance from all before it, unless every sample is at distance zero from one
    of those. *)
Theorem c66_centroids_are_samples_apart :
  forall (F : Type) (dist : list F -> list F -> Q) samples nf n draw unit k,
  (forall p q, 0 <= dist p q)%Q -> nf <> 0 -> length samples = n * nf -> 0 < n -> 0 < k -> in_range draw -> (forall c, 0 <= unit c < 1)%Q ->
  exists idx, make_centroids None dist draw unit samples nf k = Ok (flat_map (row samples nf) idx) /\
  length idx = k /\ (forall i, In i idx -> i < n) /\
  forall c, 0 < c -> c < k ->
    (forall c', c' < c -> (0 < dist (row samples nf (nth c idx 0%nat)) (row samples nf (nth c' idx 0%nat)))%Q) \/
    forall i, i < n -> exists c', c' < c /\ (dist (row samples nf i) (row samples nf (nth c' idx 0%nat)) == 0)%Q.
Proof.
  intros F dist samples nf n draw unit k Hd0 Hnf Hs Hn Hk Hd Hu.
  destruct (make_ok dist Hd0 samples nf n Hnf Hs Hn unit Hu draw k Hd) as (idx & E & Hl & Hin & Hc).
  exists idx. splits; auto; [lia|]. intros c H0 Hck. destruct (nth_error idx c) as [i|] eqn:Ei; [|apply nth_error_None in Ei; lia].
  rewrite (nth_error_nth _ _ _ Ei). destruct (Hc c i H0 Ei) as [H|H]; [left|right].
  - intros c' Hc'. apply H. rewrite <- (firstn_skipn c idx) at 1. rewrite app_nth1 by (rewrite firstn_length; lia).
    apply nth_In. rewrite firstn_length. lia.
  - intros i' Hi'. destruct (H i' Hi') as (j & Hj & Ej). apply In_nth with (d := 0) in Hj. destruct Hj as (c' & Hc' & <-).
    rewrite firstn_length in Hc'. exists c'. split; [lia|].
    rewrite <- (firstn_skipn c idx). rewrite app_nth1 by (rewrite firstn_length; lia). auto.
Qed.

(** With at least [k] distinct samples the [k] centroids are distinct. *)
Theorem c66_centroids_are_distinct :
  forall (F : Type) (dist : list F -> list F -> Q) samples nf n draw unit k distinct,
  (forall p q, 0 <= dist p q)%Q -> (forall i j, i < n -> j < n -> (dist (row samples nf i) (row samples nf j) == 0)%Q <-> row samples nf i = row samples nf j) ->
  nf <> 0 -> length samples = n * nf -> 0 < n -> 0 < k -> in_range draw -> (forall c, 0 <= unit c < 1)%Q ->
  NoDup (map (row samples nf) distinct) -> (forall i, In i distinct -> i < n) -> length distinct = k ->
  exists v, make_centroids None dist draw unit samples nf k = Ok v /\ length v = k * nf /\ NoDup (map (row v nf) (seq 0 k)).
Proof.
  intros F dist samples nf n draw unit k distinct Hd0 Hsep Hnf Hs Hn Hk Hd Hu HD1 HD2 HD3.
  destruct (make_ok dist Hd0 samples nf n Hnf Hs Hn unit Hu draw k Hd) as (idx & E & Hl & Hin & Hc).
  eexists. split; [exact E|]. split; [rewrite (flat_rows_length samples nf n) by auto; f_equal; lia|].
  replace (map (row (flat_map (row samples nf) idx) nf) (seq 0 k)) with (map (row samples nf) idx).
  - apply (distinct_ok dist Hd0 samples nf n Hnf Hs Hn idx k); auto; [eauto|lia].
  - apply nth_error_ext. intros c. rewrite !nth_error_map. destruct (Nat.lt_ge_cases c k) as [H|H].
    + destruct (nth_error idx c) as [i|] eqn:Ei; [|apply nth_error_None in Ei; lia].
      rewrite (nth_error_nth' (seq 0 k) c 0) by (now rewrite seq_length). rewrite seq_nth by auto. simpl. f_equal. symmetry.
      apply (row_flat samples nf n); auto.
    + rewrite (proj2 (nth_error_None idx c)) by lia. rewrite (proj2 (nth_error_None (seq 0 k) c)) by (rewrite seq_length; lia). reflexivity.
Qed.

Lemma for_loop_snoc {S} (body : nat -> S -> res S) : forall m i s, for_loop (Datatypes.S m) i body s = (t <- for_loop m i body s ;; body (i + m) t).
Proof.
  induction m as [|m IH]; intros i s.
  - cbn [for_loop]. rewrite Nat.add_0_r. cbn [bind]. destruct (body i s); reflexivity.
  - change (for_loop (Datatypes.S (Datatypes.S m)) i body s) with (t <- body i s ;; for_loop (Datatypes.S m) (Datatypes.S i) body t).
    change (for_loop (Datatypes.S m) i body s) with (t <- body i s ;; for_loop m (Datatypes.S i) body t).
    destruct (body i s) as [t| | |]; cbn [bind]; auto. rewrite IH. now rewrite Nat.add_succ_comm.
Qed.

(** The next centroid is each sample with a chance proportional to its distance to the nearest centroid so far (the distance
    itself, where k-means++ takes the square): the unit square of the two numbers used for it splits into n times m equal cells. *)
Theorem c66_chance_is_distance :
  forall (F : Type) (dist : list F -> list F -> Q) samples nf n draw unit k v,
  (forall p q, 0 <= dist p q)%Q -> nf <> 0 -> length samples = n * nf -> 0 < n -> 0 < k -> in_range draw -> (forall c, 0 <= unit c < 1)%Q ->
  make_centroids None dist draw unit samples nf k = Ok v ->
  exists ds, length ds = n /\ (forall i, i < n -> distance_to_nearest dist v nf k (row samples nf i) (nth i ds 0%Q)) /\
  ((exists d, In d ds /\ 0 < d)%Q -> exists m f, 0 < m /\
    (forall unit' c b, (forall call, call < 2 * k -> unit' call = unit call) -> c < n -> b < m ->
      in_part n c (unit' (2 * k)%nat) -> in_part m b (unit' (2 * k + 1)%nat) ->
      make_centroids None dist draw unit' samples nf (S k) = Ok (v ++ row samples nf (f c b))) /\
    (forall c b, c < n -> b < m -> f c b < n) /\
    forall i, i < n -> (inject_Z (Z.of_nat (hits f n m i)) / (inject_Z (Z.of_nat n) * inject_Z (Z.of_nat m)) == nth i ds 0 / total ds)%Q).
Proof.
  intros F dist samples nf n draw unit k v Hd0 Hnf Hs Hn Hk Hd Hu E.
  destruct (make_ok dist Hd0 samples nf n Hnf Hs Hn unit Hu draw k Hd) as (idx & E' & Hl & Hin & _).
  rewrite E in E'. injection E' as Ev.
  assert (Hv : length v = k * nf) by (rewrite Ev, (flat_rows_length samples nf n) by auto; f_equal; lia).
  destruct (weights_ok dist samples nf n Hnf Hs Hn v k Hv Hk) as (ws & Ews & Hlw & Hw).
  exists ws. split; auto. split; [exact Hw|]. intros Hex.
  assert (Hpos : forall q, In q ws -> (0 <= q)%Q).
  { intros q Hq. apply In_nth with (d := 0%Q) in Hq. destruct Hq as (i & Hi & <-). destruct (Hw i ltac:(lia)) as ((j & _ & ->) & _). auto. }
  destruct (c47_share_is_weight ws Hpos Hex) as (t & m & f & Et & Hm & Hf & Hr & Hh). rewrite Hlw in Hf, Hr, Hh.
  exists m, f. splits; auto. intros unit' c b Hsame Hc Hb Hpu Hpv. unfold make_centroids in *.
  destruct (first_ok samples nf n Hnf Hs Hn draw Hd) as (i0 & _ & E0 & _). rewrite E0 in *. cbn [bind] in *.
  replace (S k - 1) with (S (k - 1)) by lia. rewrite for_loop_snoc.
  rewrite (for_loop_ext _ (fun c v => s <- next_sample None dist samples nf unit c v ;; Ok (v ++ s))).
  - rewrite E. cbn [bind]. replace (1 + (k - 1)) with k by lia. unfold next_sample. rewrite Ews. cbn [bind]. rewrite Et. cbn [bind].
    rewrite (Hf c b) by auto. cbn [bind]. rewrite (sample_row' samples nf n) by auto. reflexivity.
  - intros c' s Hc'. unfold next_sample. rewrite !Hsame by lia. reflexivity.
Qed.

(** The version that looks at the previous centroid only keeps each centroid apart from its predecessor. *)
Theorem c66_previous_version :
  forall (F : Type) (dist : list F -> list F -> Q) samples nf n draw unit k,
  (forall p q, 0 <= dist p q)%Q -> nf <> 0 -> length samples = n * nf -> 0 < n -> 0 < k -> in_range draw -> (forall c, 0 <= unit c < 1)%Q ->
  exists idx, make_centroids_from_previous_centroid None dist draw unit samples nf k = Ok (flat_map (row samples nf) idx) /\
  length idx = k /\ (forall i, In i idx -> i < n) /\
  forall c, S c < k ->
    (0 < dist (row samples nf (nth (S c) idx 0%nat)) (row samples nf (nth c idx 0%nat)))%Q \/
    forall i, i < n -> (dist (row samples nf i) (row samples nf (nth c idx 0%nat)) == 0)%Q.
Proof.
  intros F dist samples nf n draw unit k Hd0 Hnf Hs Hn Hk Hd Hu.
  destruct (previous_ok dist Hd0 samples nf n Hnf Hs Hn unit Hu draw k Hd) as (idx & E & Hl & Hin & Hc).
  exists idx. splits; auto; [lia|]. intros c Hck. destruct (nth_error idx (S c)) as [i|] eqn:Ei; [|apply nth_error_None in Ei; lia].
  rewrite (nth_error_nth _ _ _ Ei).
  assert (El : last (firstn (S c) idx) 0 = nth c idx 0).
  { clear - Hl Hck Hk. assert (Hlt : c < length idx) by lia. clear Hl Hck Hk. revert c Hlt. induction idx as [|a idx IH]; intros c Hlt; [simpl in Hlt; lia|].
    destruct c as [|c]; [reflexivity|]. cbn [length] in Hlt. cbn [nth]. rewrite <- IH by lia.
    change (firstn (S (S c)) (a :: idx)) with (a :: firstn (S c) idx). destruct idx as [|b idx]; [simpl in Hlt; lia|]. reflexivity. }
  destruct (Hc (S c) i ltac:(lia) Ei) as [H|H]; rewrite El in H; [left|right].
  - apply H. simpl. auto.
  - intros i' Hi'. destruct (H i' Hi') as (j & [<-|[]] & Ej). auto.
Qed.

Definition z_dist (p q : list Z) : Q := inject_Z (fold_left Z.add (map (fun '(a, b) => Z.abs (a - b)) (combine p q)) 0%Z).

Lemma z_dist_nonneg p q : (0 <= z_dist p q)%Q.
Proof.
  unfold z_dist. change 0%Q with (inject_Z 0). rewrite <- Zle_Qle.
  assert (G : forall l a, (0 <= a)%Z -> (forall x, In x l -> 0 <= x)%Z -> (0 <= fold_left Z.add l a)%Z).
  { induction l; simpl; intros; auto. apply IHl; auto. specialize (H0 a ltac:(auto)). lia. }
  apply G; [lia|]. intros x Hx. apply in_map_iff in Hx. destruct Hx as ((a & b) & <- & _). lia.
Qed.

(** It may return a centroid twice, though there are enough distinct samples. *)
Theorem c66_previous_version_distinct_refuted :
  exists samples draw unit k, (forall p q, 0 <= z_dist p q)%Q /\ NoDup samples /\ k <= length samples /\ in_range draw /\
    (forall c, 0 <= unit c < 1)%Q /\
    exists v, make_centroids_from_previous_centroid None z_dist draw unit samples 1 k = Ok v /\ ~ NoDup v.
Proof.
  exists [0; 7; 100]%Z, (fun _ lo _ => lo), (fun c => if c =? 4 then 0%Q else (1 # 2)%Q), 3. splits.
  - exact z_dist_nonneg.
  - repeat constructor; simpl; intuition discriminate.
  - simpl. lia.
  - intros c lo hi H. lia.
  - intros c. destruct (c =? 4); lra.
  - eexists. split; [vm_compute; reflexivity|]. intros H. apply NoDup_cons_iff in H. apply H. simpl. auto.
Qed.

(** On integer samples [infinity] is zero, so every weight is zero: every centroid is drawn uniformly from all samples,
    whatever the others are. *)
Theorem c66_integer_samples_are_drawn_uniformly :
  forall (F : Type) (dist : list F -> list F -> Q) samples nf n draw unit k,
  (forall p q, 0 <= dist p q)%Q -> nf <> 0 -> length samples = n * nf -> 0 < n -> in_range draw -> (forall c, 0 <= unit c < 1)%Q ->
  exists idx, make_centroids (Some 0%Q) dist draw unit samples nf (S k) = Ok (flat_map (row samples nf) idx) /\ length idx = S k /\
  forall c, 0 < c -> c <= k -> nth c idx 0 < n /\ in_part n (nth c idx 0%nat) (unit (2 * c)%nat).
Proof.
  intros F dist samples nf n draw unit k Hd0 Hnf Hs Hn Hd Hu. unfold make_centroids.
  destruct (first_ok samples nf n Hnf Hs Hn draw Hd) as (i0 & Hi0 & -> & _). cbn [bind]. replace (S k - 1) with k by lia.
  destruct (for_loop_inv (fun done v => exists idx, v = flat_map (row samples nf) idx /\ length idx = done /\ (forall i, In i idx -> i < n) /\
      forall c, 0 < c -> c < done -> in_part n (nth c idx 0) (unit (2 * c)))
    (fun c v => s <- next_sample (Some 0%Q) dist samples nf unit c v ;; Ok (v ++ s)) k 1 (row samples nf i0)) as (v & -> & idx & -> & Hl & Hin & H).
  - exists [i0]. splits; auto; [simpl; now rewrite app_nil_r|intros i [<-|[]]; auto|lia].
  - intros c v Hc (idx & -> & Hl & Hin & H). destruct (unit_part n (unit (2 * c)) Hn (Hu _)) as (i & Hi & Hp).
    rewrite (next_integer dist Hd0 samples nf n unit c _ c i); auto; try lia; [|rewrite (flat_rows_length samples nf n) by auto; now f_equal].
    cbn [bind]. eexists; split; [reflexivity|]. exists (idx ++ [i]). splits.
    + rewrite flat_map_app. simpl. now rewrite app_nil_r.
    + rewrite app_length. simpl. lia.
    + intros j Hj. apply in_app_or in Hj. destruct Hj as [Hj|[<-|[]]]; auto.
    + intros c' H0 Hc'. destruct (Nat.eq_dec c' c) as [->|Hne].
      * rewrite app_nth2, Hl, Nat.sub_diag by lia. auto.
      * rewrite app_nth1 by lia. apply H; lia.
  - exists idx. splits; auto. intros c H0 Hck. split; [apply Hin, nth_In; lia|apply H; lia].
Qed.

Theorem c66_integer_distinct_refuted :
  exists samples draw unit k, NoDup samples /\ k <= length samples /\ in_range draw /\ (forall c, 0 <= unit c < 1)%Q /\
    exists v, make_centroids (Some 0%Q) z_dist draw unit samples 1 k = Ok v /\ ~ NoDup v.
Proof.
  exists [0; 7; 100]%Z, (fun _ lo _ => lo), (fun c => (1 # 4)%Q), 2. splits.
  - repeat constructor; simpl; intuition discriminate.
  - simpl. lia.
  - intros c lo hi H. lia.
  - intros c. lra.
  - eexists. split; [vm_compute; reflexivity|]. intros H. apply NoDup_cons_iff in H. apply H. simpl. auto.
Qed.

(** Samples (0,0), (0,0), (3,1), (8,0): the repeated sample is not chosen twice. *)
Example c66_case :
  make_centroids None z_dist (fun _ lo _ => lo) (fun c => (Z.of_nat c # 8)%Q) [0; 0; 0; 0; 3; 1; 8; 0]%Z 2 3 = Ok [0; 0; 8; 0; 3; 1]%Z /\
  make_centroids None z_dist (fun _ _ hi => hi) (fun _ => 0%Q) [0; 0; 0; 0; 3; 1; 8; 0]%Z 2 3 = Ok [8; 0; 0; 0; 3; 1]%Z /\
  make_centroids_from_previous_centroid None z_dist (fun _ _ hi => hi) (fun _ => 0%Q) [0; 0; 0; 0; 3; 1; 8; 0]%Z 2 3 = Ok [8; 0; 0; 0; 3; 1]%Z /\
  make_centroids (Some 0%Q) z_dist (fun _ _ hi => hi) (fun _ => 0%Q) [0; 0; 0; 0; 3; 1; 8; 0]%Z 2 3 = Ok [8; 0; 0; 0; 0; 0]%Z.
Proof. vm_compute. auto. Qed.

(** The hypotheses of [c66_centroids_are_distinct] on these samples, with the three distinct ones 0, 2 and 3. *)
Example c66_distinct_case :
  let samples := [0; 0; 0; 0; 3; 1; 8; 0]%Z in
  (forall i j, i < 4 -> j < 4 -> (z_dist (row samples 2 i) (row samples 2 j) == 0)%Q <-> row samples 2 i = row samples 2 j) /\
  NoDup (map (row samples 2) [0; 2; 3]) /\ forall i, In i [0; 2; 3] -> i < 4.
Proof.
  cbv zeta. splits.
  - intros i j Hi Hj.
    destruct i as [|[|[|[|i]]]]; [| | | |lia]; (destruct j as [|[|[|[|j]]]]; [| | | |lia]); vm_compute; split; intros H; try discriminate; auto.
  - vm_compute. repeat constructor; simpl; intuition discriminate.
  - simpl. lia.
Qed.

Print Assumptions c47_share_is_weight.
Print Assumptions c47_sample_has_positive_weight.
Print Assumptions c47_zero_weights_are_uniform.
Print Assumptions c47_no_weights_throws.
Print Assumptions c64_selection_permutes_the_first.
Print Assumptions c64_every_order_is_reached_once.
Print Assumptions c64_too_many_is_undefined.
Print Assumptions c64_random_samples_are_the_first.
Print Assumptions c64_every_sample_may_be_selected_refuted.
Print Assumptions c65_centroids_in_the_box.
Print Assumptions c65_box_refuted.
Print Assumptions c65_no_samples_is_undefined.
Print Assumptions c66_centroids_are_samples_apart.
Print Assumptions c66_centroids_are_distinct.
Print Assumptions c66_chance_is_distance.
Print Assumptions c66_previous_version.
Print Assumptions c66_previous_version_distinct_refuted.
Print Assumptions c66_integer_samples_are_drawn_uniformly.
Print Assumptions c66_integer_distinct_refuted.
