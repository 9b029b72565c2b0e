(** Theorems on statistics (C74, C75). *)
From Coq Require Import List Arith ZArith QArith Lqa Lia Bool Permutation Sorted.
From Verif Require Import Base BufferModel MatrixModel KMeansModel KMeansProofs RandomModel AliasProofs StatsModel StatsSpec StatsProofs.
Import ListNotations.
Local Open Scope nat_scope.

(** Four samples of three features, used in the examples. *)
Definition heights : list Q := [1; 5; 7;  2; 5; 1;  6; 5; 4;  (1#2); 4; 0]%Q.
Lemma heights_rows : rows_exist heights 3 [2; 0; 3].
Proof. intros i [<-|[<-|[<-|[]]]]; simpl; lia. Qed.

(** ** C74: means and variances per feature *)

(** On floating-point values, in exact arithmetic, the mean over an index range is the mean of each feature. *)
Theorem c74_mean_per_feature : forall qs nf indices,
  rows_exist qs nf indices -> indices <> [] ->
  exists l, compute_mean float_arith (map Some qs) nf indices = Ok l /\
    values_are nf (fun j => mean_q (column qs nf j indices)) l.
Proof. intros. now apply mean_ok. Qed.

Definition reduced (r : res (list (option Q))) : res (list (option Q)) :=
  match r with Ok l => Ok (map (option_map Qred) l) | UB => UB | Throw => Throw | Fuel => Fuel end.

Example c74_mean_per_feature_case :
  rows_exist heights 3 [2; 0; 3] /\
  reduced (compute_mean float_arith (map Some heights) 3 [2; 0; 3]) = Ok [Some (5#2); Some (14#3); Some (11#3)]%Q.
Proof. split; [exact heights_rows|]. vm_compute. reflexivity. Qed.

Lemma whole_rows {A} (qs : list A) nf n : length qs = n * nf -> rows_exist qs nf (seq 0 n).
Proof. intros H i Hi. apply in_seq in Hi. rewrite H. nia. Qed.
Lemma whole_count {A} (qs : list A) nf n : 0 < nf -> length qs = n * nf -> get_n_samples (map Some qs) nf = Ok n /\ length (map Some qs) mod nf = 0.
Proof.
  intros H0 H. unfold get_n_samples. rewrite map_length, H. destruct (Nat.eqb_spec nf 0); [lia|].
  rewrite Nat.div_mul, Nat.mod_mul by lia. auto.
Qed.

Lemma mean_all_indices qs nf n : 0 < nf -> length qs = n * nf ->
  compute_mean_all float_arith (map Some qs) nf = compute_mean float_arith (map Some qs) nf (seq 0 n).
Proof.
  intros H0 H. destruct (whole_count qs nf n H0 H) as (E1 & E2). unfold compute_mean_all, compute_mean. rewrite E1, E2. cbn [bind Nat.eqb].
  rewrite for_loop_seq, seq_length. reflexivity.
Qed.

Lemma squares_all_indices qs nf n : 0 < nf -> length qs = n * nf ->
  squares_all float_arith (map Some qs) nf = squares float_arith (map Some qs) nf (seq 0 n).
Proof.
  intros H0 H. destruct (whole_count qs nf n H0 H) as (E1 & E2). unfold squares_all, squares. rewrite E1. cbn [bind].
  rewrite (mean_all_indices qs nf n H0 H). destruct (compute_mean float_arith (map Some qs) nf (seq 0 n)); cbn [bind]; auto.
  now rewrite for_loop_seq.
Qed.

(** The overload without indices is the same over all the samples; a dataset that is not a whole number of samples is read
    past its end. *)
Theorem c74_mean_of_the_dataset : forall qs nf,
  0 < nf ->
  (forall n, 0 < n -> length qs = n * nf ->
     exists l, compute_mean_all float_arith (map Some qs) nf = Ok l /\ values_are nf (fun j => mean_q (column qs nf j (seq 0 n))) l) /\
  (length qs mod nf <> 0 -> compute_mean_all float_arith (map Some qs) nf = UB).
Proof.
  intros qs nf H0. split.
  - intros n Hn H. rewrite (mean_all_indices qs nf n H0 H). apply mean_ok; [now apply whole_rows|]. destruct n; [lia|discriminate].
  - intros H. unfold compute_mean_all, get_n_samples. rewrite map_length. destruct (Nat.eqb_spec nf 0); [lia|]. cbn [bind].
    destruct (Nat.eqb_spec (length qs mod nf) 0); [contradiction|reflexivity].
Qed.
Example c74_mean_of_the_dataset_case :
  length heights = 4 * 3 /\
  reduced (compute_mean_all float_arith (map Some heights) 3) = Ok [Some (19#8); Some (19#4); Some 3]%Q /\
  compute_mean_all float_arith (map Some heights) 5 = UB.
Proof. split; [reflexivity|]. split; vm_compute; reflexivity. Qed.

(** With a feature mask, the means of the features of the mask. *)
Theorem c74_masked_mean : forall qs nf mask indices,
  rows_exist qs nf indices -> indices <> [] -> Forall (fun f => f < nf) mask ->
  exists l, compute_mean_masked float_arith (map Some qs) nf mask indices = Ok l /\
    values_are (length mask) (fun k => mean_q (column qs nf (nth k mask 0) indices)) l.
Proof. intros. now apply mean_masked_ok. Qed.
Example c74_masked_mean_case :
  rows_exist heights 3 [2; 0; 3] /\ Forall (fun f => f < 3) [2; 0] /\
  reduced (compute_mean_masked float_arith (map Some heights) 3 [2; 0] [2; 0; 3]) = Ok [Some (11#3); Some (5#2)]%Q.
Proof. split; [exact heights_rows|]. split; [repeat constructor|]. vm_compute. reflexivity. Qed.

Lemma column_length qs nf j indices : length (column qs nf j indices) = length indices.
Proof. unfold column. now rewrite map_length. Qed.

Lemma inject_pred n : (inject_Z (Z.of_nat n - 1) == inject_Z (Z.of_nat n) - 1)%Q.
Proof. unfold Z.sub. rewrite inject_Z_plus. reflexivity. Qed.

(** From two samples on, [compute_variance_per_feature] is the unbiased variance of each feature, over an index range and
    over the whole dataset. *)
Theorem c74_variance_per_feature : forall qs nf indices,
  rows_exist qs nf indices -> 2 <= length indices -> (Z.of_nat (length indices) <= 2 ^ 64)%Z ->
  exists l, compute_variance_per_feature float_arith (map Some qs) nf indices = Ok l /\
    values_are nf (fun j => variance_q (column qs nf j indices)) l.
Proof.
  intros qs nf indices Hr H2 H64. unfold compute_variance_per_feature.
  destruct (squares_ok qs nf indices Hr) as (s & E & Hs). { intros ->. simpl in H2. lia. }
  rewrite E. cbn [bind]. destruct (size_pred_pos (length indices) H2 H64) as (-> & Hpos).
  destruct (div_all_float nf _ s (Z.of_nat (length indices) - 1) Hs ltac:(lia)) as (l & El & Hl).
  exists l. split; auto. eapply values_ext; [|exact Hl]. intros j Hj. unfold variance_q, count_q. rewrite column_length, inject_pred. reflexivity.
Qed.
Theorem c74_variance_of_the_dataset : forall qs nf n,
  0 < nf -> 2 <= n -> (Z.of_nat n <= 2 ^ 64)%Z -> length qs = n * nf ->
  exists l, compute_variance_all float_arith (map Some qs) nf = Ok l /\
    values_are nf (fun j => variance_q (column qs nf j (seq 0 n))) l.
Proof.
  intros qs nf n H0 H2 H64 H. destruct (c74_variance_per_feature qs nf (seq 0 n)) as (l & E & Hl).
  - now apply whole_rows.
  - now rewrite seq_length.
  - now rewrite seq_length.
  - exists l. split; auto. unfold compute_variance_all. destruct (whole_count qs nf n H0 H) as (E1 & _). rewrite E1. cbn [bind].
    rewrite (squares_all_indices qs nf n H0 H). unfold compute_variance_per_feature in E. rewrite seq_length in E. exact E.
Qed.
Example c74_variance_per_feature_case :
  rows_exist heights 3 [2; 0; 3] /\
  reduced (compute_variance_per_feature float_arith (map Some heights) 3 [2; 0; 3]) = Ok [Some (37#4); Some (1#3); Some (37#3)]%Q /\
  reduced (compute_variance_all float_arith (map Some heights) 3) = Ok [Some (299#48); Some (1#4); Some 10]%Q.
Proof. split; [exact heights_rows|]. split; vm_compute; reflexivity. Qed.

(** The variance of a single sample is not a number on each feature. *)
Theorem c74_variance_of_one_sample : forall qs nf i,
  rows_exist qs nf [i] -> compute_variance_per_feature float_arith (map Some qs) nf [i] = Ok (repeat None nf).
Proof.
  intros qs nf i Hr. unfold compute_variance_per_feature. destruct (squares_ok qs nf [i] Hr ltac:(discriminate)) as (s & E & L & Hs).
  rewrite E. cbn [bind length]. rewrite size_pred_one.
  destruct (div_all_ok float_arith s 0 (fun _ y => y = None)) as (l & El & L' & Hl).
  { intros j x _. exists None. split; auto. destruct x; reflexivity. }
  rewrite El. f_equal. apply nth_error_ext. intros j. destruct (Nat.lt_ge_cases j nf) as [Hj|Hj].
  - destruct (Hl j) as (y & Ey & ->); [lia|]. rewrite Ey. symmetry. now apply nth_error_repeat.
  - rewrite (proj2 (nth_error_None l j)) by lia. symmetry. apply nth_error_None. now rewrite repeat_length.
Qed.
Example c74_variance_of_one_sample_case :
  rows_exist heights 3 [3] /\ compute_variance_per_feature float_arith (map Some heights) 3 [3] = Ok [None; None; None].
Proof. split; [intros i [<-|[]]; simpl; lia|]. vm_compute. reflexivity. Qed.

(** With a feature mask the result is n / (n - 1) times the squared deviation of the first sample of the range from the
    mean of the feature, and not the variance. *)
Theorem c74_masked_variance : forall qs nf mask indices,
  rows_exist qs nf indices -> Forall (fun f => f < nf) mask -> 2 <= length indices -> (Z.of_nat (length indices) <= 2 ^ 64)%Z ->
  exists l, compute_variance_masked float_arith (map Some qs) nf mask indices = Ok l /\
    values_are (length mask) (fun k => let x := column qs nf (nth k mask 0) indices in (first_scatter x / (count_q x - 1))%Q) l.
Proof.
  intros qs nf mask [|first rest] Hr Hm H2 H64; [simpl in H2; lia|]. set (indices := first :: rest) in *. unfold compute_variance_masked.
  destruct (squares_masked_ok qs nf mask first rest Hr Hm) as (s & E & Hs). fold indices in E, Hs.
  rewrite E. cbn [bind]. destruct (size_pred_pos (length indices) H2 H64) as (-> & Hpos).
  destruct (div_all_float (length mask) _ s (Z.of_nat (length indices) - 1) Hs ltac:(lia)) as (l & El & Hl).
  exists l. split; auto. eapply values_ext; [|exact Hl]. intros j Hj. cbv zeta. unfold count_q. rewrite column_length, inject_pred. reflexivity.
Qed.
Theorem c74_masked_variance_refuted : exists qs nf mask indices l,
  rows_exist qs nf indices /\ Forall (fun f => f < nf) mask /\ 2 <= length indices /\
  compute_variance_masked float_arith (map Some qs) nf mask indices = Ok l /\
  ~ values_are (length mask) (fun k => variance_q (column qs nf (nth k mask 0) indices)) l.
Proof.
  exists heights, 3, [2; 0], [2; 0; 3]. eexists. split; [exact heights_rows|]. split; [repeat constructor|]. split; [simpl; lia|].
  split; [vm_compute; reflexivity|]. intros (_ & H). destruct (H 0) as (q & E & Hq); [simpl; lia|]. injection E as <-. vm_compute in Hq. discriminate.
Qed.
Example c74_masked_variance_case :
  reduced (compute_variance_masked float_arith (map Some heights) 3 [2; 0] [2; 0; 3]) = Ok [Some (1#6); Some (147#8)]%Q.
Proof. vm_compute. reflexivity. Qed.

(** [argmax_variance_per_feature]: the first of the features with the greatest variance. *)
Lemma scatter_variance qs nf indices i : 2 <= length indices ->
  first_greatest nf (fun j => scatter (column qs nf j indices)) i -> first_greatest nf (fun j => variance_q (column qs nf j indices)) i.
Proof.
  intros H2 (Hi & H1 & H3). assert (Hp : forall j, (0 < count_q (column qs nf j indices) - 1)%Q).
  { intros j. unfold count_q. rewrite column_length, <- inject_pred. change 0%Q with (inject_Z 0). rewrite <- Zlt_Qlt. lia. }
  assert (E : forall j, (count_q (column qs nf j indices) == count_q (column qs nf i indices))%Q).
  { intros j. unfold count_q. rewrite !column_length. reflexivity. }
  unfold variance_q. split; auto. split; intros j Hj.
  - rewrite E. unfold Qdiv. apply Qmult_le_compat_r; auto. apply Qinv_le_0_compat. specialize (Hp i). lra.
  - rewrite E. unfold Qdiv. apply Qmult_lt_compat_r; auto. apply Qinv_lt_0_compat. apply Hp.
Qed.
Theorem c74_argmax_variance : forall qs nf indices,
  0 < nf -> rows_exist qs nf indices -> 2 <= length indices ->
  exists i, argmax_variance float_arith (map Some qs) nf indices = Ok i /\
    first_greatest nf (fun j => variance_q (column qs nf j indices)) i.
Proof.
  intros qs nf indices H0 Hr H2. unfold argmax_variance.
  destruct (squares_ok qs nf indices Hr) as (s & E & Hs). { intros ->. simpl in H2. lia. }
  rewrite E. cbn [bind]. eexists. split; [reflexivity|]. apply scatter_variance; auto. apply argmax_float; auto.
Qed.
Theorem c74_argmax_variance_of_the_dataset : forall qs nf n,
  0 < nf -> 2 <= n -> length qs = n * nf ->
  exists i, argmax_variance_all float_arith (map Some qs) nf = Ok i /\
    first_greatest nf (fun j => variance_q (column qs nf j (seq 0 n))) i.
Proof.
  intros qs nf n H0 H2 H. destruct (c74_argmax_variance qs nf (seq 0 n)) as (i & E & Hi); auto.
  - now apply whole_rows.
  - now rewrite seq_length.
  - exists i. split; auto. unfold argmax_variance_all. rewrite (squares_all_indices qs nf n H0 H). exact E.
Qed.
Example c74_argmax_variance_case :
  rows_exist heights 3 [2; 0; 3] /\ argmax_variance float_arith (map Some heights) 3 [2; 0; 3] = Ok 2 /\
  argmax_variance float_arith (map Some heights) 3 [0; 1] = Ok 2 /\ argmax_variance float_arith (map Some heights) 3 [2; 3] = Ok 0 /\
  argmax_variance_all float_arith (map Some heights) 3 = Ok 2.
Proof. split; [exact heights_rows|]. splits; vm_compute; reflexivity. Qed.

(** With a feature mask it is the feature of the mask on which the first sample is furthest from the mean, which is not the
    one with the greatest variance. *)
Theorem c74_argmax_variance_masked : forall qs nf mask indices,
  rows_exist qs nf indices -> Forall (fun f => f < nf) mask -> mask <> [] -> indices <> [] ->
  exists k, argmax_variance_masked float_arith (map Some qs) nf mask indices = Ok (nth k mask 0) /\
    first_greatest (length mask) (fun k => first_scatter (column qs nf (nth k mask 0) indices)) k.
Proof.
  intros qs nf mask [|first rest] Hr Hm Hne Hi; [congruence|]. set (indices := first :: rest) in *. unfold argmax_variance_masked.
  destruct (squares_masked_ok qs nf mask first rest Hr Hm) as (s & E & Hs). fold indices in E, Hs.
  rewrite E. cbn [bind]. assert (Hl : 0 < length mask) by (destruct mask; [congruence|simpl; lia]).
  pose proof (argmax_float (length mask) _ s Hs Hl) as Ha. exists (argmax float_arith s). split; auto.
  apply rd_ok. apply nth_error_nth'. apply Ha.
Qed.
Theorem c74_argmax_variance_masked_refuted : exists qs nf mask indices f,
  rows_exist qs nf indices /\ Forall (fun f => f < nf) mask /\ mask <> [] /\ 2 <= length indices /\
  argmax_variance_masked float_arith (map Some qs) nf mask indices = Ok f /\
  exists g, In g mask /\ (variance_q (column qs nf f indices) < variance_q (column qs nf g indices))%Q.
Proof.
  exists heights, 3, [2; 0], [2; 0; 3]. eexists. split; [exact heights_rows|]. split; [repeat constructor|]. split; [discriminate|].
  split; [simpl; lia|]. split; [vm_compute; reflexivity|]. exists 2. split; [simpl; auto|]. vm_compute. reflexivity.
Qed.

(** [compute_variance] of a list of two numbers or more is its variance; of one number it is not a number. *)
Lemma fold_sum (f : Q -> Q) : forall l z, exists q,
  for_each (map Some l) (fun x sum => a_plus float_arith sum (option_map f x)) (Some z) = Ok (Some q) /\ (q == z + sum_q (map f l))%Q.
Proof.
  induction l as [|x l IH]; intros z; cbn [map for_each].
  - exists z. split; auto. simpl. ring.
  - cbn [option_map a_plus float_arith lift2 bind]. destruct (IH (z + f x)%Q) as (q & E & Hq).
    exists q. split; [exact E|]. rewrite Hq. simpl. ring.
Qed.
Lemma scatter_expand l : l <> [] -> (scatter l == sum_q (map (fun x => x * x) l) - sum_q l * sum_q l / count_q l)%Q.
Proof.
  intros Hne. pose proof (count_nonzero l Hne) as Hc. unfold scatter.
  assert (G : forall m r, (sum_q (map (fun x => (x - m) * (x - m)) r) == sum_q (map (fun x => x * x) r) - 2 * m * sum_q r + count_q r * (m * m))%Q).
  { intros m r. induction r as [|x r IH]; [unfold count_q; simpl; ring|]. cbn [map sum_q fold_right].
    fold (sum_q (map (fun x => (x - m) * (x - m))%Q r)) (sum_q (map (fun x => x * x)%Q r)) (sum_q r). rewrite IH. unfold count_q. cbn [length].
    rewrite Nat2Z.inj_succ. unfold Z.succ. rewrite inject_Z_plus. ring. }
  rewrite G. unfold mean_q. field. exact Hc.
Qed.
Theorem c74_variance_of_a_list : forall l,
  (2 <= length l -> exists q, compute_variance float_arith (map Some l) = Ok (Some q) /\ (q == variance_q l)%Q) /\
  (length l = 1 -> compute_variance float_arith (map Some l) = Ok None).
Proof.
  intros l.
  assert (E1 : exists q, for_each (map Some l) (fun x sum => a_plus float_arith sum x) (Some 0%Q) = Ok (Some q) /\ (q == sum_q l)%Q).
  { destruct (fold_sum (fun x => x) l 0%Q) as (q & E & Hq). exists q. split.
    - rewrite <- E. apply for_each_ext. intros x s _. destruct x; reflexivity.
    - rewrite Hq, map_id. ring. }
  assert (E2 : exists q, for_each (map Some l) (fun x sum => p <- a_times float_arith x x ;; a_plus float_arith sum p) (Some 0%Q) = Ok (Some q) /\
     (q == sum_q (map (fun x => x * x) l))%Q).
  { destruct (fold_sum (fun x => x * x)%Q l 0%Q) as (q & E & Hq). exists q. split.
    - rewrite <- E. apply for_each_ext. intros x s _. destruct x; reflexivity.
    - rewrite Hq. ring. }
  destruct E1 as (s & E1 & Hs), E2 as (ss & E2 & Hss).
  unfold compute_variance. cbn [a_zero float_arith] in *. fold float_arith. rewrite E1, E2. cbn [bind]. rewrite map_length.
  cbn [a_times a_over_diff a_minus a_store float_arith lift2 bind f_over].
  split; intros Hl.
  - destruct (Z.eqb_spec (Z.of_nat (length l)) 0); [lia|]. cbn [lift2 f_over].
    destruct (Z.eqb_spec (Z.of_nat (length l) - 1) 0); [lia|]. eexists. split; [reflexivity|].
    unfold variance_q. rewrite scatter_expand by (intros ->; simpl in Hl; lia). rewrite inject_pred, Hs, Hss. reflexivity.
  - rewrite Hl. reflexivity.
Qed.
Example c74_variance_of_a_list_case :
  match compute_variance float_arith (map Some [1; 2; 4; 7]%Q) with Ok (Some q) => Qred q = (7#1)%Q | _ => False end /\
  compute_variance float_arith [Some 5%Q] = Ok None.
Proof. split; vm_compute; reflexivity. Qed.

(** *** Integers *)
Lemma sum_z_app l r : sum_z (l ++ r) = (sum_z l + sum_z r)%Z.
Proof. induction l; simpl; auto. rewrite IHl. lia. Qed.
Lemma sum_z_nonneg l : (forall x, In x l -> 0 <= x)%Z -> (0 <= sum_z l)%Z.
Proof. induction l as [|x l IH]; intros H; simpl; [lia|]. pose proof (H x (or_introl eq_refl)). specialize (IH (fun y Hy => H y (or_intror Hy))). lia. Qed.
Lemma to_signed_id w z : (1 <= w)%Z -> (- 2 ^ (w - 1) <= z < 2 ^ (w - 1))%Z -> to_signed w z = z.
Proof.
  intros Hw Hz. unfold to_signed. assert (2 ^ w = 2 * 2 ^ (w - 1))%Z by (rewrite <- Z.pow_succ_r by lia; f_equal; lia).
  rewrite Z.mod_small by lia. lia.
Qed.

(** Non-negative values whose sums are values of the type: the mean is rounded down. *)
Theorem c74_integer_mean : forall w zs nf indices,
  (1 <= w <= 64)%Z -> rows_exist zs nf indices -> indices <> [] -> (Z.of_nat (length indices) < 2 ^ 64)%Z ->
  (forall i j, In i indices -> j < nf -> (0 <= nth (i * nf + j)%nat zs 0)%Z) ->
  (forall j, j < nf -> (sum_z (zcolumn zs nf j indices) < 2 ^ (w - 1))%Z) ->
  exists l, compute_mean (int_arith w) zs nf indices = Ok l /\ length l = nf /\
    forall j, j < nf -> nth_error l j = Some (sum_z (zcolumn zs nf j indices) / Z.of_nat (length indices))%Z.
Proof.
  intros w zs nf indices Hw Hr Hne Hn Hpos Hsum. unfold compute_mean.
  assert (Hpw : (2 ^ (w - 1) <= 2 ^ (Z.max 32 w - 1))%Z) by (apply Z.pow_le_mono_r; lia).
  assert (Hp0 : (0 < 2 ^ (w - 1))%Z) by (apply Z.pow_pos_nonneg; lia).
  assert (Hp64 : (2 ^ (w - 1) <= 2 ^ 64)%Z) by (apply Z.pow_le_mono_r; lia).
  assert (Hcol : forall j l, j < nf -> (forall i, In i l -> In i indices) -> (0 <= sum_z (zcolumn zs nf j l))%Z).
  { intros j l Hj Hl. apply sum_z_nonneg. intros x Hx. unfold zcolumn in Hx. apply in_map_iff in Hx. destruct Hx as (i & <- & Hi). auto. }
  destruct (accumulate_ok (int_arith w) (fun index j => rd zs (index * nf + j)) (fun j d v => v = sum_z (zcolumn zs nf j d)) nf indices 0%Z)
    as (acc & E & L & H).
  - reflexivity.
  - intros d i r j m Hd Hj ->. assert (Hi : In i indices) by (rewrite Hd, in_app_iff; simpl; auto).
    pose proof (Hr i Hi) as Hri. exists (nth (i * nf + j) zs 0%Z). eexists. split.
    { apply rd_ok. apply nth_error_nth'. lia. }
    assert (Es : sum_z (zcolumn zs nf j (d ++ [i])) = (sum_z (zcolumn zs nf j d) + nth (i * nf + j)%nat zs 0)%Z).
    { unfold zcolumn. rewrite map_app, sum_z_app. simpl. lia. }
    pose proof (Hsum j Hj) as Ht. rewrite Hd in Ht. unfold zcolumn in Ht. rewrite map_app, sum_z_app in Ht. cbn [map sum_z fold_right] in Ht.
    fold (sum_z (map (fun i0 => nth (i0 * nf + j) zs 0%Z) r)) in Ht. fold (zcolumn zs nf j r) in Ht. fold (zcolumn zs nf j d) in Ht.
    assert (0 <= sum_z (zcolumn zs nf j r))%Z by (apply Hcol; auto; intros; rewrite Hd, in_app_iff; simpl; auto).
    assert (0 <= sum_z (zcolumn zs nf j d))%Z by (apply Hcol; auto; intros; rewrite Hd, in_app_iff; simpl; auto).
    pose proof (Hpos i j Hi Hj) as Hx. cbn [a_plus int_arith]. unfold checked, in_signed.
    destruct (Z.leb_spec (- 2 ^ (Z.max 32 w - 1)) (sum_z (zcolumn zs nf j d) + nth (i * nf + j)%nat zs 0))%Z; [|lia].
    destruct (Z.ltb_spec (sum_z (zcolumn zs nf j d) + nth (i * nf + j)%nat zs 0) (2 ^ (Z.max 32 w - 1)))%Z; [|lia].
    cbn [andb bind]. split; [reflexivity|]. rewrite to_signed_id by lia. now rewrite Es.
  - cbn [a_zero int_arith]. fold (int_arith w). rewrite E. cbn [bind].
    destruct (div_all_ok (int_arith w) acc (Z.of_nat (length indices))
      (fun j y => y = (sum_z (zcolumn zs nf j indices) / Z.of_nat (length indices)))%Z) as (l & El & Ll & Hl).
    + intros j x Ex. assert (Hj : j < nf) by (rewrite <- L; apply nth_error_Some; congruence).
      destruct (H j Hj) as (v & Ev & ->). rewrite Ex in Ev. injection Ev as ->. cbn [a_over int_arith]. unfold i_over.
      assert (0 < Z.of_nat (length indices))%Z by (destruct indices; [congruence|simpl; lia]).
      destruct (Z.eqb_spec (Z.of_nat (length indices)) 0); [lia|]. eexists. split; [reflexivity|].
      pose proof (Hsum j Hj). assert (0 <= sum_z (zcolumn zs nf j indices))%Z by (apply Hcol; auto).
      rewrite Z.mod_small by lia. apply to_signed_id; [lia|]. split.
      * assert (0 <= sum_z (zcolumn zs nf j indices) / Z.of_nat (length indices))%Z by (apply Z.div_pos; lia). lia.
      * apply Z.le_lt_trans with (sum_z (zcolumn zs nf j indices)); auto. apply Z.div_le_upper_bound; nia.
    + exists l. splits; auto; [lia|]. intros j Hj. destruct (Hl j) as (y & Ey & ->); [lia|]. exact Ey.
Qed.
Example c74_integer_mean_case :
  rows_exist [3; 1; 5; 0; 3; 9]%Z 2 [0; 1; 2] /\
  compute_mean (int_arith 32) [3; 1; 5; 0; 3; 9]%Z 2 [0; 1; 2] = Ok [3; 3]%Z /\
  compute_mean (int_arith 8) [3; 1; 5; 0; 3; 9]%Z 2 [0; 1; 2] = Ok [3; 3]%Z.
Proof. split; [intros i [<-|[<-|[<-|[]]]]; simpl; lia|]. split; vm_compute; reflexivity. Qed.

(** With negative values the mean can be out of the range of the values, and the variance undefined. *)
Theorem c74_negative_mean_refuted : exists zs indices m,
  rows_exist zs 1 indices /\ (forall z, In z zs -> -3 <= z <= -1)%Z /\
  compute_mean (int_arith 32) zs 1 indices = Ok [m] /\ (1000000000 < m)%Z /\
  compute_variance_per_feature (int_arith 32) zs 1 indices = UB /\ argmax_variance (int_arith 32) zs 1 indices = UB.
Proof.
  exists [-1; -2; -3]%Z, [0; 1; 2]. eexists. split; [intros i [<-|[<-|[<-|[]]]]; simpl; lia|].
  split; [intros z [<-|[<-|[<-|[]]]]; lia|]. split; [vm_compute; reflexivity|]. splits; vm_compute; reflexivity.
Qed.

(** The rounding of the mean makes the feature that is found not the one with the greatest variance, and one sample divides
    by zero. *)
Theorem c74_integer_argmax_variance_refuted : exists zs indices i,
  rows_exist zs 2 indices /\ (forall z, In z zs -> 0 <= z <= 4)%Z /\
  argmax_variance (int_arith 32) zs 2 indices = Ok i /\
  ~ first_greatest 2 (fun j => variance_q (column (map inject_Z zs) 2 j indices)) i /\
  compute_variance_per_feature (int_arith 32) zs 2 [0] = UB.
Proof.
  exists [4; 0;  0; 0;  2; 0;  2; 3]%Z, [0; 1; 2; 3], 1. split; [intros i [<-|[<-|[<-|[<-|[]]]]]; simpl; lia|].
  split; [intros z Hz; simpl in Hz; intuition lia|]. split; [vm_compute; reflexivity|]. split; [|vm_compute; reflexivity].
  intros (_ & H & _). specialize (H 0 ltac:(lia)). vm_compute in H. apply H. reflexivity.
Qed.

(** [compute_variance] on integers rounds both quotients towards zero; one element, or a sum whose square is not a value of
    the type, is undefined. *)
Theorem c74_integer_variance_of_a_list : forall zs s ss,
  s = sum_z zs -> ss = sum_z (map (fun z => z * z)%Z zs) -> 2 <= length zs ->
  (forall z, In z zs -> 0 <= z)%Z -> (s * s < 2 ^ 31)%Z ->
  compute_variance (int_arith 32) zs = Ok ((ss - s * s / Z.of_nat (length zs)) / (Z.of_nat (length zs) - 1))%Z.
Proof.
  intros zs s ss Es Ess H2 Hpos Hs.
  assert (Hnn : forall r, (forall z, In z r -> 0 <= z)%Z -> (0 <= sum_z r /\ sum_z (map (fun z => z * z) r) <= sum_z r * sum_z r /\ 0 <= sum_z (map (fun z => z * z) r))%Z).
  { induction r as [|x r IH]; intros H; cbn [map sum_z fold_right]; [lia|]. fold (sum_z r). fold (sum_z (map (fun z => z * z)%Z r)).
    destruct (IH (fun y Hy => H y (or_intror Hy))) as (A & B & C). pose proof (H x (or_introl eq_refl)). nia. }
  assert (Hpart : forall f : Z -> Z, (forall z, In z zs -> 0 <= f z)%Z -> (sum_z (map f zs) < 2 ^ 31)%Z ->
    for_each zs (fun x sum => a_plus (int_arith 32) sum (f x)) 0%Z = Ok (sum_z (map f zs))).
  { intros f Hf Hlt. assert (G : forall l z, (0 <= z)%Z -> (forall z, In z l -> 0 <= f z)%Z -> (z + sum_z (map f l) < 2 ^ 31)%Z ->
      for_each l (fun x sum => a_plus (int_arith 32) sum (f x)) z = Ok (z + sum_z (map f l))%Z).
    { induction l as [|x l IH]; intros z Hz Hl Ht; cbn [for_each map sum_z fold_right] in *; [f_equal; lia|]. fold (sum_z (map f l)) in *.
      pose proof (Hl x (or_introl eq_refl)). assert (0 <= sum_z (map f l))%Z.
      { apply sum_z_nonneg. intros y Hy. apply in_map_iff in Hy. destruct Hy as (u & <- & Hu). apply Hl. simpl. auto. }
      cbn [a_plus int_arith]. unfold checked, in_signed. change (Z.max 32 32) with 32%Z.
      destruct (Z.leb_spec (- 2 ^ (32 - 1)) (z + f x)); [|lia]. destruct (Z.ltb_spec (z + f x) (2 ^ (32 - 1))); [|lia].
      cbn [andb bind]. rewrite to_signed_id by lia. fold (int_arith 32). rewrite IH; auto; try lia.
      - f_equal. lia.
      - intros u Hu. apply Hl. simpl. auto. }
    rewrite G; auto; lia. }
  destruct (Hnn zs Hpos) as (A & B & C). rewrite <- Es, <- Ess in *.
  unfold compute_variance. cbn [a_zero int_arith]. fold (int_arith 32).
  assert (E1 : for_each zs (fun x sum => a_plus (int_arith 32) sum x) 0%Z = Ok s).
  { rewrite (Hpart (fun x => x)); auto; rewrite map_id; [now rewrite Es|]. rewrite <- Es. nia. }
  assert (Hx : forall x, In x zs -> (0 <= x <= s)%Z).
  { subst s. clear - Hpos. induction zs as [|y r IH]; intros x Hx; [destruct Hx|]. cbn [sum_z fold_right]. fold (sum_z r).
    assert (0 <= sum_z r)%Z by (apply sum_z_nonneg; intros; apply Hpos; simpl; auto). pose proof (Hpos y (or_introl eq_refl)).
    destruct Hx as [-> |Hx]; [lia|]. specialize (IH (fun z Hz => Hpos z (or_intror Hz)) x Hx). lia. }
  assert (Hck : forall z, (0 <= z < 2 ^ 31)%Z -> checked (Z.max 32 32) z = Ok z).
  { intros z Hz. unfold checked, in_signed. change (Z.max 32 32) with 32%Z.
    destruct (Z.leb_spec (- 2 ^ (32 - 1)) z); [|lia]. destruct (Z.ltb_spec z (2 ^ (32 - 1))); [reflexivity|lia]. }
  assert (E2 : for_each zs (fun x sum => p <- a_times (int_arith 32) x x ;; a_plus (int_arith 32) sum p) 0%Z = Ok ss).
  { rewrite Ess, <- (Hpart (fun x => x * x)%Z).
    - apply for_each_ext. intros x t Hin. cbn [a_times int_arith]. rewrite Hck by (pose proof (Hx x Hin); nia). reflexivity.
    - intros z Hz. specialize (Hpos z Hz). nia.
    - rewrite <- Ess. lia. }
  rewrite E1. cbn [bind]. rewrite E2. cbn [bind]. cbn [a_times a_over_diff a_minus a_store int_arith]. rewrite Hck by nia. cbn [bind].
  unfold i_over_diff at 1. destruct (Z.eqb_spec (Z.of_nat (length zs)) 0); [lia|]. cbn [bind].
  rewrite Z.quot_div_nonneg by nia.
  assert (Hb : (0 <= s * s / Z.of_nat (length zs) <= ss)%Z).
  { split; [apply Z.div_pos; nia|].
    assert (G : forall r, (forall z, In z r -> 0 <= z)%Z -> (sum_z r * sum_z r <= Z.of_nat (length r) * sum_z (map (fun z => z * z) r))%Z).
    { induction r as [|x r IH]; intros H; [simpl; lia|]. cbn [map sum_z fold_right length]. fold (sum_z r). fold (sum_z (map (fun z => z * z)%Z r)).
      specialize (IH (fun y Hy => H y (or_intror Hy))). rewrite Nat2Z.inj_succ.
      assert (2 * x * sum_z r <= Z.of_nat (length r) * (x * x) + sum_z (map (fun z => z * z) r))%Z.
      { clear. induction r as [|y r IH]; [simpl; lia|]. cbn [map sum_z fold_right length]. fold (sum_z r). fold (sum_z (map (fun z => z * z)%Z r)).
        rewrite Nat2Z.inj_succ. pose proof (Z.square_nonneg (x - y)). nia. }
      nia. }
    specialize (G zs Hpos). rewrite <- Es, <- Ess in G. apply Z.div_le_upper_bound; lia. }
  rewrite Hck by lia. cbn [bind]. unfold i_over_diff. destruct (Z.eqb_spec (Z.of_nat (length zs) - 1) 0); [lia|]. cbn [bind].
  rewrite Z.quot_div_nonneg by lia.
  rewrite to_signed_id; [reflexivity|lia|]. split.
  - assert (0 <= (ss - s * s / Z.of_nat (length zs)) / (Z.of_nat (length zs) - 1))%Z by (apply Z.div_pos; lia). lia.
  - apply Z.le_lt_trans with ss; [|change (2 ^ (32 - 1))%Z with (2 ^ 31)%Z; lia]. apply Z.div_le_upper_bound; nia.
Qed.
Example c74_integer_variance_of_a_list_case :
  compute_variance (int_arith 32) [1; 2; 4; 7]%Z = Ok 7%Z /\ compute_variance (int_arith 32) [1; 2; 4]%Z = Ok 2%Z /\
  compute_variance (int_arith 32) [-1; -2; -4]%Z = Ok 2%Z /\ compute_variance (int_arith 32) [5]%Z = UB /\
  compute_variance (int_arith 32) [30000; 30000]%Z = UB /\ compute_variance (int_arith 8) [0; 20]%Z = Ok (-56)%Z.
Proof. splits; vm_compute; reflexivity. Qed.

(** ** C75: order statistics and normalization *)

(** [argmax] and [argmin] of floating-point values: the first position of the greatest (least) value. *)
Theorem c75_argmax_argmin : forall l : list Q, l <> [] ->
  first_greatest (length l) (fun k => nth k l 0%Q) (argmax float_arith (map Some l)) /\
  first_least (length l) (fun k => nth k l 0%Q) (argmin float_arith (map Some l)).
Proof.
  intros l Hne. assert (V : values_are (length l) (fun k => nth k l 0%Q) (map Some l)).
  { split; [apply map_length|]. intros j Hj. exists (nth j l 0%Q). split; [|reflexivity]. rewrite nth_error_map, (nth_error_nth' l j 0%Q) by auto. reflexivity. }
  assert (0 < length l) by (destruct l; [congruence|simpl; lia]).
  split; [apply argmax_float|apply argmin_float]; auto.
Qed.
Example c75_argmax_argmin_case :
  argmax float_arith (map Some [3; 1; (7#2); 1; (7#2)]%Q) = 2 /\ argmin float_arith (map Some [3; 1; (7#2); 1; (7#2)]%Q) = 1 /\
  argmax float_arith [None; Some 1%Q] = 0 /\ argmax float_arith [Some 1%Q; None; Some 2%Q] = 2 /\ argmin float_arith [Some 1%Q; None; Some 0%Q; None] = 2 /\
  argmax float_arith [] = 0 /\ argmin float_arith [] = 0.
Proof. splits; vm_compute; reflexivity. Qed.

(** The index is returned as a value: with integers of 8 bits it is wrong from position 128 on. *)
Theorem c75_argmax_of_small_integers_refuted : exists l : list Z,
  nth_error l 300 = Some 1%Z /\ (forall i z, nth_error l i = Some z -> i <> 300 -> z = 0%Z) /\
  argmax (int_arith 8) l = 44 /\ argmin (int_arith 8) (map Z.opp l) = 44 /\ argmax (int_arith 32) l = 300 /\ argmin (int_arith 32) (map Z.opp l) = 300.
Proof.
  exists (repeat 0%Z 300 ++ [1%Z]). split; [vm_compute; reflexivity|]. split.
  - intros i z E Hi. assert (i < 301) by (apply nth_error_lt in E; rewrite app_length, repeat_length in E; simpl in E; lia).
    rewrite nth_error_app1 in E by (rewrite repeat_length; lia). apply nth_error_In in E. now apply repeat_spec in E.
  - splits; vm_compute; reflexivity.
Qed.

(** [min_container_inplace_left] puts the lesser of the two elements at each position. *)
Theorem c75_elementwise_minimum : forall left right : list Q,
  (length left <= length right -> exists l, min_container Qlt_bool left right = Ok l /\ length l = length left /\
     forall i x y, nth_error left i = Some x -> nth_error right i = Some y ->
       exists z, nth_error l i = Some z /\ (z <= x)%Q /\ (z <= y)%Q /\ (z = x \/ z = y)) /\
  (length right < length left -> min_container Qlt_bool left right = UB).
Proof.
  induction left as [|x left IH]; intros right.
  - split; [|simpl; lia]. intros _. exists []. splits; auto. intros [|i]; discriminate.
  - destruct right as [|y right]; cbn [length min_container].
    + split; [lia|auto].
    + destruct (IH right) as (IH1 & IH2). split; intros H.
      * destruct IH1 as (l & E & L & Hl); [lia|]. rewrite E. cbn [bind]. eexists. split; [reflexivity|]. split; [simpl; lia|].
        intros [|i] u v Hu Hv; simpl in *; eauto. injection Hu as ->. injection Hv as ->. eexists. split; [reflexivity|].
        destruct (Qlt_bool v u) eqn:El; [apply Qlt_bool_iff in El|apply Qlt_bool_false in El]; splits; auto; lra.
      * rewrite IH2 by lia. reflexivity.
Qed.
Example c75_elementwise_minimum_case :
  min_container Qlt_bool [3; 1; 2]%Q [2; 5; 2; 9]%Q = Ok [2; 1; 2]%Q /\ min_container Qlt_bool [3; 1; 2]%Q [2; 5]%Q = UB.
Proof. split; reflexivity. Qed.

(** [normalize_min_max]: the least value gives 1, the greatest 0, the others in proportion; equal values give equal shares. *)
Definition least_of (l : list Q) (x : Q) : Prop := In x l /\ forall y, In y l -> (x <= y)%Q.
Definition greatest_of (l : list Q) (x : Q) : Prop := In x l /\ forall y, In y l -> (y <= x)%Q.
Lemma fold_extreme {V} (lt : V -> V -> bool) (le : V -> V -> Prop) : (forall x, le x x) -> (forall x y z, le x y -> le y z -> le x z) ->
  (forall x y, lt x y = true -> le x y) -> (forall x y, lt x y = false -> le y x) ->
  forall l x, (let m := fold_left (fun m y => if lt y m then y else m) l x in In m (x :: l) /\ forall y, In y (x :: l) -> le m y) /\
    (let m := fold_left (fun m y => if lt y m then m else y) l x in In m (x :: l) /\ forall y, In y (x :: l) -> le y m).
Proof.
  intros R T H1 H2. induction l as [|y l IH]; intros x; cbn [fold_left].
  - splits; simpl; auto; intros y [<-|[]]; auto.
  - cbv zeta in *. split.
    + destruct (lt y x) eqn:E; [destruct (IH y) as ((I & L) & _)|destruct (IH x) as ((I & L) & _)]; split.
      * simpl in *. tauto.
      * intros z [<-|Hz]; [|apply L; auto]. apply T with y; auto. apply L. simpl. auto.
      * simpl in *. tauto.
      * intros z [<-|[<-|Hz]]; [apply L; simpl; auto| |apply L; simpl; auto]. apply T with x; auto. apply L. simpl. auto.
    + destruct (lt y x) eqn:E; [destruct (IH x) as (_ & I & L)|destruct (IH y) as (_ & I & L)]; split.
      * simpl in *. tauto.
      * intros z [<-|[<-|Hz]]; [apply L; simpl; auto| |apply L; simpl; auto]. apply T with x; auto. apply L. simpl. auto.
      * simpl in *. tauto.
      * intros z [<-|Hz]; [|apply L; auto]. apply T with y; auto. apply L. simpl. auto.
Qed.
Lemma minmax_q l : l <> [] -> exists lo hi, minmax Qlt_bool l = Ok (lo, hi) /\ least_of l lo /\ greatest_of l hi.
Proof.
  destruct l as [|x l]; [congruence|]. intros _. cbn [minmax].
  destruct (fold_extreme Qlt_bool Qle) with (l := l) (x := x) as (A & B).
  - intros. lra.
  - intros. lra.
  - intros y z H. apply Qlt_bool_iff in H. lra.
  - intros y z H. apply Qlt_bool_false in H. lra.
  - cbv zeta in *. eexists. eexists. split; [reflexivity|]. split; [exact A|exact B].
Qed.
Lemma minmax_z l : l <> [] -> exists lo hi, minmax Z.ltb l = Ok (lo, hi) /\
  (In lo l /\ forall y, In y l -> (lo <= y)%Z) /\ (In hi l /\ forall y, In y l -> (y <= hi)%Z).
Proof.
  destruct l as [|x l]; [congruence|]. intros _. cbn [minmax].
  destruct (fold_extreme Z.ltb Z.le) with (l := l) (x := x) as (A & B).
  - intros. lia.
  - intros. lia.
  - intros y z H. lia.
  - intros y z H. lia.
  - cbv zeta in *. eexists. eexists. split; [reflexivity|]. split; [exact A|exact B].
Qed.
Theorem c75_normalize_min_max : forall l : list Q, l <> [] ->
  exists r, normalize_min_max l = Ok r /\ length r = length l /\
    forall lo hi i, least_of l lo -> greatest_of l hi -> i < length l ->
      (lo < hi -> nth i r 0 == (hi - nth i l 0) / (hi - lo))%Q /\ (lo == hi -> nth i r 0 == 1 / count_q l)%Q.
Proof.
  intros l Hne. destruct (minmax_q l Hne) as (lo & hi & E & (Hlo & Hlo') & (Hhi & Hhi')). unfold normalize_min_max. rewrite E. cbn [bind].
  assert (Q : forall a b, least_of l a -> greatest_of l b -> (a == lo /\ b == hi)%Q).
  { intros a b (A1 & A2) (B1 & B2). split; apply Qle_antisym; auto. }
  destruct (Qeq_bool lo hi) eqn:Eq.
  - apply Qeq_bool_iff in Eq. eexists. split; [reflexivity|]. split; [apply repeat_length|]. intros a b i Ha Hb Hi. destruct (Q a b Ha Hb) as (Ea & Eb).
    split; [lra|]. intros _. rewrite (nth_error_nth _ _ 0%Q (nth_error_repeat _ Hi)). reflexivity.
  - apply Qeq_bool_neq in Eq. eexists. split; [reflexivity|]. split; [apply map_length|]. intros a b i Ha Hb Hi. destruct (Q a b Ha Hb) as (Ea & Eb).
    split; [|intros C; exfalso; apply Eq; lra]. intros Hlt.
    rewrite (nth_indep _ 0%Q (1 - (0 - lo) / (hi - lo))%Q) by (now rewrite map_length).
    rewrite (map_nth (fun d => 1 - (d - lo) / (hi - lo))%Q l 0%Q i). rewrite Ea, Eb. field. lra.
Qed.
Definition reduced_q (r : res (list Q)) : res (list Q) := match r with Ok l => Ok (map Qred l) | UB => UB | Throw => Throw | Fuel => Fuel end.
Example c75_normalize_min_max_case :
  least_of [3; 1; 5; 1]%Q 1%Q /\ greatest_of [3; 1; 5; 1]%Q 5%Q /\
  reduced_q (normalize_min_max [3; 1; 5; 1]%Q) = Ok [(1#2); 1; 0; 1]%Q /\ reduced_q (normalize_min_max [7; 7; 7]%Q) = Ok [(1#3); (1#3); (1#3)]%Q /\
  normalize_min_max [] = UB.
Proof.
  split; [split; [simpl; auto|intros y Hy; simpl in Hy; intuition (subst; lra)]|].
  split; [split; [simpl; auto|intros y Hy; simpl in Hy; intuition (subst; lra)]|]. splits; vm_compute; reflexivity.
Qed.

(** On integers the quotient is rounded: every value gives 1 except the greatest, which gives 0. *)
Theorem c75_integer_normalize_min_max : forall l : list Z, l <> [] ->
  exists r, normalize_min_max_int l = Ok r /\ length r = length l /\
    forall lo hi i z, In lo l -> In hi l -> (forall y, In y l -> (lo <= y <= hi)%Z) -> nth_error l i = Some z ->
      ((lo < hi)%Z -> (nth i r 0 == if Z.eqb z hi then 0 else 1)%Q) /\ (lo = hi -> nth i r 0 == 1 / inject_Z (Z.of_nat (length l)))%Q.
Proof.
  intros l Hne. destruct (minmax_z l Hne) as (lo & hi & E & (Hlo & Hlo') & (Hhi & Hhi')). unfold normalize_min_max_int. rewrite E. cbn [bind].
  assert (Q : forall a b, In a l -> In b l -> (forall y, In y l -> (a <= y <= b)%Z) -> a = lo /\ b = hi).
  { intros a b A B H. pose proof (H lo Hlo). pose proof (H hi Hhi). pose proof (Hlo' a A). pose proof (Hhi' b B). lia. }
  destruct (Z.eqb_spec lo hi) as [Eq|Eq].
  - eexists. split; [reflexivity|]. split; [apply repeat_length|]. intros a b i z Ha Hb Hab Hz. destruct (Q a b Ha Hb Hab) as (-> & ->).
    split; [lia|]. intros _. rewrite (nth_error_nth _ _ 0%Q (nth_error_repeat _ (nth_error_lt _ _ _ Hz))). reflexivity.
  - eexists. split; [reflexivity|]. split; [apply map_length|]. intros a b i z Ha Hb Hab Hz. destruct (Q a b Ha Hb Hab) as (-> & ->).
    split; [|lia]. intros _. erewrite (nth_error_nth _ _ 0%Q) by (rewrite nth_error_map, Hz; reflexivity).
    pose proof (Hab z (nth_error_In _ _ Hz)). destruct (Z.eqb_spec z hi) as [-> |Hz'].
    + rewrite Z.quot_same by lia. reflexivity.
    + rewrite Z.quot_small by lia. reflexivity.
Qed.
Theorem c75_integer_normalize_min_max_refuted : exists l : list Z, exists r,
  normalize_min_max_int l = Ok r /\ In 0%Z l /\ In 10%Z l /\ (forall y, In y l -> (0 <= y <= 10)%Z) /\
  nth_error l 1 = Some 9%Z /\ ~ (nth 1 r 0 == (10 - 9) / (10 - 0))%Q.
Proof.
  exists [0; 9; 10]%Z. eexists. split; [vm_compute; reflexivity|]. splits; simpl; auto; try (intros y Hy; intuition lia).
  intros H. vm_compute in H. discriminate.
Qed.
Example c75_integer_normalize_min_max_case :
  reduced_q (normalize_min_max_int [3; 1; 5; -1]%Z) = Ok [1; 1; 0; 1]%Q /\ reduced_q (normalize_min_max_int [4; 4]%Z) = Ok [(1#2); (1#2)]%Q.
Proof. split; vm_compute; reflexivity. Qed.

(** [normalize]: if the sum is not 0 the results sum to 1 and are the shares of the elements; if it is 0 none is a number. *)
Lemma fold_left_sum : forall l z, (fold_left Qplus l z == z + sum_q l)%Q.
Proof. induction l as [|x l IH]; intros z; simpl; [ring|]. rewrite IH. ring. Qed.
Theorem c75_normalize : forall l : list Q,
  (~ (sum_q l == 0)%Q -> exists r, normalize_sum l = map Some r /\ length r = length l /\
     (forall i, i < length l -> (nth i r 0 == nth i l 0 / sum_q l)%Q) /\ (sum_q r == 1)%Q) /\
  ((sum_q l == 0)%Q -> normalize_sum l = map (fun _ => None) l).
Proof.
  intros l. unfold normalize_sum. assert (E : (fold_left Qplus l 0 == sum_q l)%Q) by (rewrite fold_left_sum; ring).
  set (s := fold_left Qplus l 0%Q) in *. clearbody s. split; intros H.
  - exists (map (fun v => v / s)%Q l). assert (Hs : ~ (s == 0)%Q) by (rewrite E; exact H).
    destruct (Qeq_bool s 0) eqn:Eq; [apply Qeq_bool_iff in Eq; contradiction|]. split; [now rewrite map_map|]. split; [apply map_length|]. split.
    + intros i Hi. rewrite (nth_indep _ 0%Q (0 / s)%Q) by (now rewrite map_length). rewrite (map_nth (fun v => v / s)%Q l 0%Q i). now rewrite E.
    + assert (G : forall r, (sum_q (map (fun v => v / s) r) == sum_q r / s)%Q).
      { induction r as [|x r IH]; simpl; [field; auto|]. rewrite IH. field. auto. }
      rewrite G, E. field. rewrite <- E. auto.
  - destruct (Qeq_bool s 0) eqn:Eq; auto. apply Qeq_bool_neq in Eq. exfalso. apply Eq. rewrite E. exact H.
Qed.
Example c75_normalize_case :
  map (option_map Qred) (normalize_sum [1; 2; 5]%Q) = [Some (1#8); Some (1#4); Some (5#8)]%Q /\ normalize_sum [1; -1]%Q = [None; None].
Proof. split; vm_compute; reflexivity. Qed.

(** [find_nth_smallest_index_and_element]: for [1 <= n <= size] an element with fewer than [n] elements below it and at
    least [n] not above it, at its first position; otherwise an exception. *)
Lemma find_index_spec l x : In x l -> nth_error l (find_index l x) = Some x /\ forall k, k < find_index l x -> nth_error l k <> Some x.
Proof.
  induction l as [|y l IH]; [intros []|]. intros H. cbn [find_index]. destruct (Z.eqb_spec y x) as [-> |Hne]; simpl.
  - split; auto. lia.
  - destruct IH as (A & B); [destruct H; [congruence|auto]|]. split; auto. intros [|k] Hk; simpl; [congruence|]. apply B. lia.
Qed.
Lemma filter_length_perm {A} (f : A -> bool) l l' : Permutation l l' -> length (filter f l) = length (filter f l').
Proof. induction 1; simpl; try (destruct (f x)); try (destruct (f y)); simpl; auto; congruence. Qed.
Lemma sorted_rank : forall l p x, StronglySorted Z.le l -> nth_error l p = Some x -> below l x <= p /\ p < not_above l x.
Proof.
  induction l as [|y l IH]; intros [|p] x S E; try discriminate; inversion S as [|? ? S' F]; subst; unfold below, not_above in *; simpl in *.
  - injection E as ->. rewrite Z.ltb_irrefl, Z.leb_refl. simpl. split; [|lia].
    assert (G : forall r, Forall (Z.le x) r -> filter (fun y => (y <? x)%Z) r = []).
    { induction r as [|z r IHr]; intros Fr; auto. inversion Fr; subst. simpl. destruct (Z.ltb_spec z x); [lia|auto]. }
    rewrite G by auto. auto.
  - destruct (IH p x S' E) as (A & B). rewrite Forall_forall in F. specialize (F x (nth_error_In _ _ E)).
    destruct (Z.leb_spec y x); [|lia]. simpl. split; [|lia]. destruct (y <? x)%Z; simpl; lia.
Qed.
Theorem c75_nth_smallest : forall sort l n,
  (forall l, Permutation l (sort l) /\ StronglySorted Z.le (sort l)) ->
  (1 <= n <= length l -> exists i x, find_nth_smallest sort l n = Ok (i, x) /\ nth_error l i = Some x /\
     (forall k, k < i -> nth_error l k <> Some x) /\ below l x < n /\ n <= not_above l x) /\
  (n = 0 \/ length l < n -> find_nth_smallest sort l n = Throw).
Proof.
  intros sort l n Hs. destruct (Hs l) as (P & S). pose proof (Permutation_length P) as L. split.
  - intros Hn. destruct n as [|p]; [lia|]. cbn [find_nth_smallest]. destruct (nth_error (sort l) p) as [x|] eqn:E.
    2:{ apply nth_error_None in E. lia. }
    exists (find_index l x), x. split; auto.
    assert (Hx : In x l) by (eapply Permutation_in; [symmetry; exact P|eapply nth_error_In; eauto]).
    destruct (find_index_spec l x Hx) as (A & B). split; auto. split; auto.
    destruct (sorted_rank (sort l) p x S E) as (C & D). unfold below, not_above in *.
    rewrite (filter_length_perm _ _ _ P), (filter_length_perm (fun y => (y <=? x)%Z) _ _ P). lia.
  - intros [-> |Hn]; [reflexivity|]. destruct n as [|p]; [lia|]. cbn [find_nth_smallest].
    rewrite (proj2 (nth_error_None (sort l) p)) by lia. reflexivity.
Qed.
Fixpoint insert_z (x : Z) (l : list Z) : list Z := match l with [] => [x] | y :: r => if (x <=? y)%Z then x :: l else y :: insert_z x r end.
Definition sort_z (l : list Z) : list Z := fold_right insert_z [] l.
Lemma insert_z_perm x : forall l, Permutation (x :: l) (insert_z x l).
Proof. induction l as [|y l IH]; simpl; auto. destruct (x <=? y)%Z; auto. rewrite perm_swap. now constructor. Qed.
Lemma sort_z_ok l : Permutation l (sort_z l) /\ StronglySorted Z.le (sort_z l).
Proof.
  induction l as [|x l (P & S)]; simpl; [repeat constructor|]. split; [rewrite <- insert_z_perm; now constructor|].
  clear P. induction (sort_z l) as [|y r IH]; simpl; [repeat constructor|]. inversion S; subst. destruct (Z.leb_spec x y).
  - constructor; auto. constructor; auto. eapply Forall_impl; [|eassumption]. intros; simpl in *; lia.
  - constructor; auto. eapply Permutation_Forall; [apply insert_z_perm|]. constructor; [lia|auto].
Qed.
Example c75_nth_smallest_case :
  (forall l, Permutation l (sort_z l) /\ StronglySorted Z.le (sort_z l)) /\
  map (find_nth_smallest sort_z [4; 1; 7; 1; 4]%Z) [0; 1; 2; 3; 4; 5; 6] =
    [Throw; Ok (1, 1%Z); Ok (1, 1%Z); Ok (0, 4%Z); Ok (0, 4%Z); Ok (2, 7%Z); Throw].
Proof. split; [exact sort_z_ok|]. vm_compute. reflexivity. Qed.

Print Assumptions c74_mean_per_feature.
Print Assumptions c74_mean_of_the_dataset.
Print Assumptions c74_masked_mean.
Print Assumptions c74_variance_per_feature.
Print Assumptions c74_variance_of_the_dataset.
Print Assumptions c74_variance_of_one_sample.
Print Assumptions c74_masked_variance.
Print Assumptions c74_masked_variance_refuted.
Print Assumptions c74_argmax_variance.
Print Assumptions c74_argmax_variance_of_the_dataset.
Print Assumptions c74_argmax_variance_masked.
Print Assumptions c74_argmax_variance_masked_refuted.
Print Assumptions c74_variance_of_a_list.
Print Assumptions c74_integer_mean.
Print Assumptions c74_integer_variance_of_a_list.
Print Assumptions c74_negative_mean_refuted.
Print Assumptions c74_integer_argmax_variance_refuted.
Print Assumptions c75_argmax_argmin.
Print Assumptions c75_argmax_of_small_integers_refuted.
Print Assumptions c75_elementwise_minimum.
Print Assumptions c75_normalize_min_max.
Print Assumptions c75_integer_normalize_min_max.
Print Assumptions c75_integer_normalize_min_max_refuted.
Print Assumptions c75_normalize.
Print Assumptions c75_nth_smallest.
