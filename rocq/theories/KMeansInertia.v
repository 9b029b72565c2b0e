(** C63: the sum of squared distances never increases under Lloyd's algorithm; the reported total deviation can. *)
From Coq Require Import List Arith ZArith QArith Qcanon Qcabs Lia Bool.
From Verif Require Import Base BufferSpec KMeansModel KMeansSpec KMeansProofs KMeansCases KMeansProps.
Import ListNotations.
Local Open Scope Qc_scope.
Set Default Proof Using "Type".

(** Sum of squared distances of the samples to their centroids. *)
Definition inertia (samples : list Qc) (nf : nat) (centroids : list Qc) (assignment : list nat) : Qc :=
  fold_right (fun i s => sq (row samples nf i) (row centroids nf (nth i assignment 0%nat)) + s) 0 (seq 0 (length assignment)).

(** Rational arithmetic with some distance that orders vectors as the Euclidean one does. *)
Definition rational (d : list Qc -> list Qc -> Qc) : arith := mk_arith Qc 0 Qcplus Qcminus qc_div qc_lt qc_eq d.
Definition euclidean_order (nf : nat) (d : list Qc -> list Qc -> Qc) : Prop :=
  forall p r s, length p = nf -> length r = nf -> length s = nf -> qc_lt (d p r) (d p s) = qc_lt (sq p r) (sq p s).

(** ** Sums *)
Definition sum {A} (g : A -> Qc) (l : list A) : Qc := fold_right (fun x s => g x + s) 0 l.

Lemma sum_app {A} (g : A -> Qc) l r : sum g (l ++ r) = sum g l + sum g r.
Proof. unfold sum. induction l; simpl; [ring|]. rewrite IHl. ring. Qed.
Lemma sum_plus {A} (g h : A -> Qc) l : sum (fun x => g x + h x) l = sum g l + sum h l.
Proof. unfold sum. induction l; simpl; [ring|]. rewrite IHl. ring. Qed.
Lemma sum_ext {A} (g h : A -> Qc) l : (forall x, In x l -> g x = h x) -> sum g l = sum h l.
Proof. unfold sum. induction l; simpl; intros H; auto. rewrite H, IHl by auto. reflexivity. Qed.
Lemma sum_le {A} (g h : A -> Qc) l : (forall x, In x l -> g x <= h x) -> sum g l <= sum h l.
Proof.
  unfold sum. induction l; simpl; intros H; [apply Qcle_refl|]. apply Qcplus_le_compat; auto.
Qed.
Lemma sum_scale {A} (y : Qc) (g : A -> Qc) l : sum (fun x => y * g x) l = y * sum g l.
Proof. unfold sum. induction l; simpl; [ring|]. rewrite IHl. ring. Qed.
Lemma sum_zero {A} (l : list A) : sum (fun _ => 0) l = 0.
Proof. unfold sum. induction l; simpl; auto. rewrite IHl. ring. Qed.
Lemma sum_single (x : nat) (v : nat -> Qc) l : NoDup l -> In x l -> sum (fun c => if x =? c then v c else 0) l = v x.
Proof.
  induction l as [|y l IH]; intros Hn Hin; [destruct Hin|]. apply NoDup_cons_iff in Hn. destruct Hn as (Hy & Hn).
  change (sum (fun c => if x =? c then v c else 0) (y :: l)) with ((if x =? y then v y else 0) + sum (fun c => if x =? c then v c else 0) l).
  destruct (Nat.eqb_spec x y) as [->|Hxy].
  - rewrite (sum_ext _ (fun _ => 0)), sum_zero; [ring|]. intros c Hc. destruct (Nat.eqb_spec y c); auto. congruence.
  - destruct Hin as [->|Hin]; [congruence|]. rewrite IH by auto. ring.
Qed.

(** Summing over the samples is summing over the clusters and their members. *)
Lemma sum_clusters (g : nat -> nat -> Qc) k : forall asg, (forall x, In x asg -> x < k)%nat ->
  sum (fun i => g i (nth i asg 0%nat)) (seq 0 (length asg)) = sum (fun c => sum (fun i => g i c) (members asg c)) (seq 0 k).
Proof.
  induction asg as [|x asg IH] using rev_ind; intros H.
  - simpl. symmetry. apply sum_zero.
  - rewrite app_length. simpl length. rewrite seq_app, sum_app. simpl.
    rewrite (sum_ext (fun i => g i (nth i (asg ++ [x]) 0%nat)) (fun i => g i (nth i asg 0%nat))).
    2:{ intros i Hi. apply in_seq in Hi. now rewrite app_nth1 by lia. }
    rewrite IH by (intros; apply H; apply in_or_app; auto).
    rewrite (sum_ext (fun c => sum (fun i => g i c) (members (asg ++ [x]) c))
      (fun c => sum (fun i => g i c) (members asg c) + (if x =? c then g (length asg) c else 0))).
    2:{ intros c Hc. rewrite members_snoc, sum_app. destruct (x =? c); simpl; ring. }
    rewrite sum_plus. rewrite (sum_single x (fun c => g (length asg) c)).
    + f_equal. unfold sum. simpl. rewrite app_nth2, Nat.sub_diag by lia. simpl. ring.
    + apply seq_NoDup.
    + apply in_seq. specialize (H x ltac:(apply in_or_app; simpl; auto)). lia.
Qed.

(** ** The mean is the best centre *)
Definition count {A} (l : list A) : Qc := Q2Qc (inject_Z (Z.of_nat (length l))).

Lemma count_sum {A} (l : list A) (x : Qc) : sum (fun _ => x) l = count l * x.
Proof.
  unfold count. induction l as [|y l IH].
  - simpl. replace (Q2Qc (inject_Z 0)) with 0 by (apply Qc_is_canon; reflexivity). ring.
  - change (sum (fun _ => x) (y :: l)) with (x + sum (fun _ => x) l). rewrite IH.
    replace (Q2Qc (inject_Z (Z.of_nat (length (y :: l))))) with (1 + Q2Qc (inject_Z (Z.of_nat (length l)))).
    + ring.
    + apply Qc_is_canon. unfold Qcplus. cbn [this Q2Qc]. rewrite !Qred_correct.
      rewrite <- (inject_Z_plus 1). replace (1 + Z.of_nat (length l))%Z with (Z.of_nat (length (y :: l))); [reflexivity|].
      cbn [length]. lia.
Qed.

Lemma count_pos {A} (l : list A) : l <> [] -> 0 < count l.
Proof.
  intros H. unfold count. destruct l as [|y l]; [congruence|]. unfold Qclt. cbn [this Q2Qc]. rewrite !Qred_correct.
  unfold Qlt. cbn [Qnum Qden inject_Z length]. lia.
Qed.

Lemma square_nonneg (x : Qc) : 0 <= x * x.
Proof.
  destruct (Qclt_le_dec x 0) as [H|H].
  - replace (x * x) with ((- x) * (- x)) by ring.
    assert (Hn : 0 <= - x). { replace 0 with (- 0) by ring. apply Qcopp_le_compat. now apply Qclt_le_weak. }
    replace 0 with (0 * - x) by ring. apply Qcmult_le_compat_r; auto.
  - replace 0 with (0 * x) by ring. apply Qcmult_le_compat_r; auto.
Qed.

(** One coordinate. *)
Lemma mean_best_1 {A} (g : A -> Qc) (l : list A) (c : Qc) : l <> [] ->
  sum (fun i => (g i - sum g l / count l) * (g i - sum g l / count l)) l <= sum (fun i => (g i - c) * (g i - c)) l.
Proof.
  intros Hne. set (m := sum g l / count l).
  assert (Hc : count l <> 0) by (pose proof (count_pos l Hne) as H; intros E; rewrite E in H; exact (Qclt_not_eq _ _ H eq_refl)).
  assert (Hm : sum g l = count l * m) by (unfold m; field; auto).
  assert (E : sum (fun i => (g i - c) * (g i - c)) l = sum (fun i => (g i - m) * (g i - m)) l + count l * ((m - c) * (m - c))).
  { rewrite (sum_ext (fun i => (g i - c) * (g i - c)) (fun i => (g i - m) * (g i - m) + (((m - c) * (1 + 1)) * g i + (c * c - m * m)))).
    2:{ intros i _. ring. }
    rewrite sum_plus, sum_plus, count_sum. f_equal.
    assert (Es : sum (fun i => (m - c) * (1 + 1) * g i) l = (m - c) * (1 + 1) * sum g l).
    { apply sum_scale. }
    rewrite Es, Hm. ring. }
  rewrite E. rewrite <- (Qcplus_0_r (sum _ l)) at 1. apply Qcplus_le_compat; [apply Qcle_refl|].
  rewrite <- (Qcmult_0_l ((m - c) * (m - c))). apply Qcmult_le_compat_r; [|apply square_nonneg].
  apply Qclt_le_weak. now apply count_pos.
Qed.

Lemma sq_coords : forall nf p r, length p = nf -> length r = nf ->
  sq p r = sum (fun f => (nth f p 0 - nth f r 0) * (nth f p 0 - nth f r 0)) (seq 0 nf).
Proof.
  unfold sq, summed. induction nf; intros [|x p] [|y r]; simpl; try lia; auto. intros H1 H2.
  rewrite (IHnf p r) by lia. rewrite <- seq_shift. unfold sum. simpl. f_equal.
  clear. induction (seq 0 nf); simpl; auto. now rewrite IHl.
Qed.

Lemma sum_swap {A B} (g : A -> B -> Qc) l r : sum (fun x => sum (g x) r) l = sum (fun y => sum (fun x => g x y) l) r.
Proof.
  induction l as [|x l IH].
  - simpl. symmetry. apply sum_zero.
  - change (sum (fun x => sum (g x) r) (x :: l)) with (sum (g x) r + sum (fun x => sum (g x) r) l). rewrite IH, <- sum_plus. reflexivity.
Qed.

Lemma feature_sum_sum d samples nf f ms :
  feature_sum (rational d) samples nf f ms = sum (fun i => nth (i * nf + f) samples 0) ms.
Proof. reflexivity. Qed.

Lemma nth_row_value (m : list Qc) nf c f : (f < nf)%nat -> nth f (row m nf c) 0 = nth (c * nf + f) m 0.
Proof.
  intros Hf. pose proof (nth_row m nf c f) as H. destruct (Nat.ltb_spec f nf); [|lia].
  destruct (nth_error m (c * nf + f)) as [x|] eqn:E.
  - rewrite (nth_error_nth _ _ _ H), (nth_error_nth _ _ _ E). reflexivity.
  - apply nth_error_None in E, H. rewrite !nth_overflow by auto. reflexivity.
Qed.

Lemma mean_best d samples nf n ms new c : length samples = (n * nf)%nat -> (forall i, In i ms -> i < n)%nat -> ms <> [] ->
  is_mean (rational d) samples nf ms new -> length c = nf ->
  sum (fun i => sq (row samples nf i) new) ms <= sum (fun i => sq (row samples nf i) c) ms.
Proof.
  intros Hs Hin Hne (Hl & Hm) Hc.
  assert (Hrow : forall i, In i ms -> length (row samples nf i) = nf) by (intros; apply (row_length' samples nf n); auto).
  rewrite (sum_ext (fun i => sq (row samples nf i) new)
    (fun i => sum (fun f => (nth f (row samples nf i) 0 - nth f new 0) * (nth f (row samples nf i) 0 - nth f new 0)) (seq 0 nf))).
  2:{ intros i Hi. apply sq_coords; auto. }
  rewrite (sum_ext (fun i => sq (row samples nf i) c)
    (fun i => sum (fun f => (nth f (row samples nf i) 0 - nth f c 0) * (nth f (row samples nf i) 0 - nth f c 0)) (seq 0 nf))).
  2:{ intros i Hi. apply sq_coords; auto. }
  rewrite 2!(sum_swap _ ms). apply sum_le. intros f Hf. apply in_seq in Hf.
  assert (Em : nth f new 0 = sum (fun i => nth (i * nf + f)%nat samples 0) ms / count ms)
    by exact (nth_error_nth _ _ 0 (Hm f ltac:(lia))).
  cbv beta. rewrite Em.
  rewrite (sum_ext (fun i => nth (i * nf + f) samples 0) (fun i => nth f (row samples nf i) 0)).
  2:{ intros i Hi. now rewrite nth_row_value by lia. }
  apply mean_best_1. auto.
Qed.

Lemma inertia_sum samples nf centroids asg :
  inertia samples nf centroids asg = sum (fun i => sq (row samples nf i) (row centroids nf (nth i asg 0%nat))) (seq 0 (length asg)).
Proof. reflexivity. Qed.

Lemma rational_ok d : arith_ok (rational d).
Proof.
  constructor; simpl.
  - exact qc_order.
  - intros. ring.
  - intros. ring.
  - intros. ring.
Qed.

(** ** C63 *)
Theorem c63_inertia_never_increases (d : list Qc -> list Qc -> Qc) (samples centroids : list Qc) nf n k :
  nf <> 0%nat -> euclidean_order nf d -> length samples = (n * nf)%nat -> length centroids = (k * nf)%nat -> (0 < k)%nat ->
  exists run, make_lloyd (rational d) samples nf centroids = Ok (run 0%nat) /\
    forall t, lloyd_step (rational d) samples nf (run t) = Ok (run (S t)) /\
      inertia samples nf (ll_centroids _ (run (S t))) (ll_indices _ (run (S t))) <=
      inertia samples nf (ll_centroids _ (run t)) (ll_indices _ (run t)).
Proof.
  intros Hnf Hd Hs Hc Hk.
  destruct (c44_lloyd_steps (rational d) (rational_ok d) samples centroids nf n k Hnf Hs Hc Hk) as (run & E0 & _ & Hrun).
  exists run. split; auto. intros t. destruct (Hrun t) as (Est & Hl1 & Ha1 & _ & Hca). destruct (Hrun (S t)) as (_ & Hl2 & Ha2 & _ & _).
  split; auto. set (c1 := ll_centroids _ (run t)) in *. set (c2 := ll_centroids _ (run (S t))) in *.
  set (a1 := ll_indices _ (run t)) in *. set (a2 := ll_indices _ (run (S t))) in *.
  assert (Hin : forall x, In x a1 -> (x < k)%nat) by (apply (assignment_in (rational d) samples nf n k Hnf Hs c1); auto).
  clearbody c1 c2 a1 a2. change (num (rational d)) with Qc in c1, c2.
  apply Qcle_trans with (inertia samples nf c2 a1); rewrite !inertia_sum.
  - destruct Ha1 as (L1 & N1), Ha2 as (L2 & N2). rewrite L1, L2. apply sum_le. intros i Hi. apply in_seq in Hi.
    destruct (N2 i ltac:(lia)) as (Hj & Hmin). destruct (N1 i ltac:(lia)) as (Hj1 & _).
    specialize (Hmin (nth i a1 0%nat) Hj1). simpl in Hmin. rewrite Hd in Hmin.
    + now apply qc_lt_false.
    + apply (row_length' samples nf n); auto. lia.
    + apply (row_length' c2 nf k); auto.
    + apply (row_length' c2 nf k); auto.
  - rewrite (sum_clusters (fun i c => sq (row samples nf i) (row c2 nf c)) k a1 Hin).
    rewrite (sum_clusters (fun i c => sq (row samples nf i) (row c1 nf c)) k a1 Hin).
    apply sum_le. intros c Hc'. apply in_seq in Hc'. destruct (proj2 Hca c ltac:(lia)) as (Hmean & _).
    destruct (members a1 c) as [|x ms] eqn:Em; [apply Qcle_refl|]. rewrite <- Em in *.
    apply (mean_best d samples nf n); auto.
    + intros i Hi. apply in_members in Hi. destruct Ha1. lia.
    + congruence.
    + apply Hmean. congruence.
    + apply (row_length' c1 nf k); auto. lia.
Qed.

(** Squared distances order as themselves; on a line so do absolute differences. *)
Lemma squared_euclidean nf : euclidean_order nf sq.
Proof. intros p r s _ _ _. reflexivity. Qed.

Lemma abs_square (x : Qc) : Qcabs x * Qcabs x = x * x.
Proof. rewrite <- Qcabs_Qcmult. apply Qcabs_pos. apply square_nonneg. Qed.

Lemma line_euclidean : euclidean_order 1 l1.
Proof.
  intros [|x [|]] [|y [|]] [|z [|]]; try discriminate. intros _ _ _. unfold l1, sq, summed. simpl.
  replace (Qcabs (x - y) + 0) with (Qcabs (x - y)) by ring. replace (Qcabs (x - z) + 0) with (Qcabs (x - z)) by ring.
  replace ((x - y) * (x - y) + 0) with (Qcabs (x - y) * Qcabs (x - y)) by (rewrite abs_square; ring).
  replace ((x - z) * (x - z) + 0) with (Qcabs (x - z) * Qcabs (x - z)) by (rewrite abs_square; ring).
  pose proof (Qcabs_nonneg (x - y)) as H1. pose proof (Qcabs_nonneg (x - z)) as H2.
  generalize dependent (Qcabs (x - y)). generalize dependent (Qcabs (x - z)). intros u Hu v Hv.
  destruct (qc_lt v u) eqn:E; symmetry.
  - apply qc_lt_true in E. apply qc_lt_true.
    apply Qcle_lt_trans with (v * u).
    + rewrite (Qcmult_comm v u). apply Qcmult_le_compat_r; auto. now apply Qclt_le_weak.
    + apply Qcmult_lt_compat_r; auto. now apply Qcle_lt_trans with v.
  - apply qc_lt_false in E. apply qc_lt_false.
    apply Qcle_trans with (v * u); [apply Qcmult_le_compat_r; auto|]. rewrite (Qcmult_comm v u). apply Qcmult_le_compat_r; auto.
Qed.

(** Samples 0, 0, 3 and one centroid at 0: the inertia goes from 9 to 6, the reported deviation from 3 up to 4. *)
Theorem c63_deviation_refuted : exists samples centroids l l' x x',
  make_lloyd line samples 1 centroids = Ok l /\ lloyd_step line samples 1 l = Ok l' /\
  ll_loss _ l = Some x /\ ll_loss _ l' = Some x' /\ qc_lt x x' = true /\
  qc_lt (inertia samples 1 (ll_centroids _ l') (ll_indices _ l')) (inertia samples 1 (ll_centroids _ l) (ll_indices _ l)) = true.
Proof.
  set (samples := qs [0; 0; 3]%Z). set (centroids := qs (0 :: nil)%Z).
  assert (G : forall r : res (lloyd line),
    match r with
    | Ok l => match lloyd_step line samples 1 l with
      | Ok l' => match ll_loss _ l, ll_loss _ l' with
        | Some x, Some x' => qc_lt x x' &&
            qc_lt (inertia samples 1 (ll_centroids _ l') (ll_indices _ l')) (inertia samples 1 (ll_centroids _ l) (ll_indices _ l))
        | _, _ => false end
      | _ => false end
    | _ => false end = true ->
    exists l l' x x', r = Ok l /\ lloyd_step line samples 1 l = Ok l' /\
      ll_loss _ l = Some x /\ ll_loss _ l' = Some x' /\ qc_lt x x' = true /\
      qc_lt (inertia samples 1 (ll_centroids _ l') (ll_indices _ l')) (inertia samples 1 (ll_centroids _ l) (ll_indices _ l)) = true).
  { intros [l| | |] H; try discriminate. destruct (lloyd_step line samples 1 l) as [l'| | |] eqn:E; try discriminate H.
    destruct (ll_loss _ l) as [x|] eqn:E1; try discriminate H. destruct (ll_loss _ l') as [x'|] eqn:E2; try discriminate H.
    apply andb_true_iff in H. destruct H. exists l, l', x, x'. splits; auto. }
  exists samples, centroids. apply G. vm_compute. reflexivity.
Qed.

Example c63_case :
  (l <- make_lloyd line (qs [0; 0; 3]%Z) 1 (qs (0 :: nil)%Z) ;; l' <- lloyd_step line (qs [0; 0; 3]%Z) 1 l ;;
   Ok (option_map this (ll_loss _ l), this (inertia (qs [0; 0; 3]%Z) 1 (ll_centroids _ l) (ll_indices _ l)),
       option_map this (ll_loss _ l'), this (inertia (qs [0; 0; 3]%Z) 1 (ll_centroids _ l') (ll_indices _ l'))))
  = Ok (Some 3, 9, Some 4, 6)%Q.
Proof. vm_compute. reflexivity. Qed.

Print Assumptions c63_inertia_never_increases.
Print Assumptions c63_deviation_refuted.
