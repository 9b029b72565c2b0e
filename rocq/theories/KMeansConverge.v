(** Lemmas for C91: Lloyd's algorithm reaches a fixed point. *)
From Coq Require Import List Arith ZArith QArith Qcanon Lia Bool.
From Verif Require Import Base BufferSpec KMeansModel KMeansSpec KMeansProofs KMeansCases KMeansProps KMeansInertia.
Import ListNotations.
Local Open Scope Qc_scope.

(** ** Finitely many assignments *)
Fixpoint tuples (n k : nat) : list (list nat) :=
  match n with
  | 0%nat => [[]]
  | S n => flat_map (fun x => map (cons x) (tuples n k)) (seq 0 k)
  end.

Lemma tuples_length n k : length (tuples n k) = (k ^ n)%nat.
Proof.
  induction n as [|n IH]; simpl; auto. rewrite <- IH. clear IH.
  assert (G : forall c st, length (flat_map (fun x => map (cons x) (tuples n k)) (seq st c)) = (c * length (tuples n k))%nat).
  { induction c as [|c IHc]; intros st; simpl; auto. rewrite app_length, map_length. now rewrite IHc. }
  apply G.
Qed.

Lemma tuples_all n k l : length l = n -> (forall x, In x l -> x < k)%nat -> In l (tuples n k).
Proof.
  revert l. induction n; intros [|x l]; simpl; intros Hl H; try lia; auto. apply in_flat_map. exists x. split.
  - apply in_seq. specialize (H x (or_introl eq_refl)). lia.
  - apply in_map. apply IHn; auto.
Qed.

(** Among [k ^ n + 1] assignments two are equal. *)
Lemma repeats n k (a : nat -> list nat) : (forall t, length (a t) = n) -> (forall t x, In x (a t) -> x < k)%nat ->
  exists s t, (s < t <= k ^ n)%nat /\ a s = a t.
Proof.
  intros Hl Hk. set (L := map a (seq 0 (S (k ^ n)))).
  assert (D : ~ NoDup L).
  { intros N. pose proof (NoDup_incl_length N (l' := tuples n k)) as H. rewrite tuples_length in H. unfold L in H at 2. rewrite map_length, seq_length in H.
    enough (incl L (tuples n k)) by (specialize (H H0); lia). intros x Hx. unfold L in Hx. apply in_map_iff in Hx as (t & <- & _). apply tuples_all; auto. eauto. }
  assert (G : forall c st, ~ NoDup (map a (seq st c)) -> exists s t, (st <= s < t)%nat /\ (t < st + c)%nat /\ a s = a t).
  { induction c as [|c IH]; intros st Hd; [exfalso; apply Hd; constructor|]. cbn [seq map] in Hd.
    destruct (in_dec (list_eq_dec Nat.eq_dec) (a st) (map a (seq (S st) c))) as [Hin|Hnin].
    - apply in_map_iff in Hin as (t & E & Ht). apply in_seq in Ht. exists st, t. splits; try lia. auto.
    - destruct (IH (S st)) as (s & t & H1 & H2 & H3). { intros N. apply Hd. constructor; auto. } exists s, t. splits; try lia. auto. }
  destruct (G _ _ D) as (s & t & H1 & H2 & H3). exists s, t. split; [lia|auto].
Qed.

(** ** Sums *)
Lemma Qc_plus_cancel (x y u v : Qc) : x <= y -> u <= v -> y + v <= x + u -> x = y /\ u = v.
Proof.
  intros H1 H2 H3. split; apply Qcle_antisym; auto.
  - assert (H : y + v <= x + v) by (apply Qcle_trans with (x + u); auto; apply Qcplus_le_compat; auto; apply Qcle_refl).
    pose proof (Qcplus_le_compat _ _ _ _ H (Qcle_refl (- v))) as H'. replace (y + v + - v) with y in H' by ring. replace (x + v + - v) with x in H' by ring. auto.
  - assert (H : y + v <= y + u) by (apply Qcle_trans with (x + u); auto; apply Qcplus_le_compat; auto; apply Qcle_refl).
    pose proof (Qcplus_le_compat _ _ _ _ H (Qcle_refl (- y))) as H'. replace (y + v + - y) with v in H' by ring. replace (y + u + - y) with u in H' by ring. auto.
Qed.

Lemma sum_tight {A} (g h : A -> Qc) l : (forall x, In x l -> g x <= h x) -> sum h l <= sum g l -> forall x, In x l -> g x = h x.
Proof.
  induction l as [|y l IH]; [intros _ _ x []|]. intros Hle Hs.
  change (sum h (y :: l)) with (h y + sum h l) in Hs. change (sum g (y :: l)) with (g y + sum g l) in Hs.
  destruct (Qc_plus_cancel (g y) (h y) (sum g l) (sum h l)) as (E1 & E2); auto.
  - apply Hle. left; auto.
  - apply sum_le. intros; apply Hle; right; auto.
  - intros x [<-|Hx]; auto. apply IH; auto; [intros; apply Hle; right; auto|]. rewrite E2. apply Qcle_refl.
Qed.

Section Steps.
Context (d : list Qc -> list Qc -> Qc) (samples : list Qc) (nf n k : nat) (Hnf : nf <> 0%nat) (Hd : euclidean_order nf d)
  (Hs : length samples = (n * nf)%nat) (Hk : (0 < k)%nat).

(** The new centroids are no worse for the old assignment. *)
Lemma means_better (c1 c2 : list Qc) a1 empty : length c1 = (k * nf)%nat -> length a1 = n -> (forall x, In x a1 -> x < k)%nat ->
  centroids_after (rational d) samples nf k a1 empty c2 -> inertia samples nf c2 a1 <= inertia samples nf c1 a1.
Proof.
  intros Hl1 L1 Hin Hca. rewrite !inertia_sum.
  rewrite (sum_clusters (fun i c => sq (row samples nf i) (row c2 nf c)) k a1 Hin).
  rewrite (sum_clusters (fun i c => sq (row samples nf i) (row c1 nf c)) k a1 Hin).
  apply sum_le. intros c Hc'. apply in_seq in Hc'. destruct (proj2 Hca c ltac:(lia)) as (Hmean & _).
  destruct (members a1 c) as [|x ms] eqn:Em; [apply Qcle_refl|]. rewrite <- Em in *.
  apply (mean_best d samples nf n); auto.
  - intros i Hi. apply in_members in Hi. lia.
  - congruence.
  - apply Hmean. congruence.
  - apply (row_length' c1 nf k); auto. lia.
Qed.

(** A nearest assignment is no worse than any other. *)
Lemma nearest_better (c : list Qc) a1 a2 : length c = (k * nf)%nat -> length a1 = n -> (forall x, In x a1 -> x < k)%nat ->
  nearest_assignment (rational d) samples nf n k c a2 ->
  length a2 = n /\ forall i, In i (seq 0 n) -> sq (row samples nf i) (row c nf (nth i a2 0%nat)) <= sq (row samples nf i) (row c nf (nth i a1 0%nat)).
Proof.
  intros Hc L1 Hin (L2 & N2). split; auto. intros i Hi. apply in_seq in Hi.
  destruct (N2 i ltac:(lia)) as (Hj & Hmin). assert (Hj1 : (nth i a1 0 < k)%nat) by (apply Hin, nth_In; lia).
  specialize (Hmin (nth i a1 0%nat) Hj1). simpl in Hmin. rewrite Hd in Hmin.
  - now apply qc_lt_false.
  - apply (row_length' samples nf n); auto. lia.
  - apply (row_length' c nf k); auto.
  - apply (row_length' c nf k); auto.
Qed.

(** If the sum of squares stays, first nearest assignments only move to lower numbers. *)
Lemma ties_go_down (c1 c2 : list Qc) a1 a2 empty : length c1 = (k * nf)%nat -> length a1 = n -> (forall x, In x a1 -> x < k)%nat ->
  centroids_after (rational d) samples nf k a1 empty c2 ->
  first_nearest_assignment (rational d) samples nf n k c2 a2 ->
  inertia samples nf c2 a2 <= inertia samples nf c1 a1 /\
  (inertia samples nf c1 a1 <= inertia samples nf c2 a2 -> forall i, (i < n)%nat -> (nth i a2 0 <= nth i a1 0)%nat).
Proof.
  intros Hl1 L1 Hin Hca Hf. pose proof (means_better c1 c2 a1 empty Hl1 L1 Hin Hca) as M.
  destruct (nearest_better c2 a1 a2 (proj1 Hca) L1 Hin (first_nearest_is_nearest _ _ _ _ _ _ _ Hf)) as (L2 & B).
  assert (B' : inertia samples nf c2 a2 <= inertia samples nf c2 a1) by (rewrite !inertia_sum, L1, L2; apply sum_le; auto).
  split; [now apply Qcle_trans with (inertia samples nf c2 a1)|]. intros Hge i Hi.
  assert (Heq : inertia samples nf c2 a1 <= inertia samples nf c2 a2) by (now apply Qcle_trans with (inertia samples nf c1 a1)).
  rewrite !inertia_sum, L1, L2 in Heq. pose proof (sum_tight _ _ _ B Heq i ltac:(apply in_seq; lia)) as E. cbv beta in E.
  destruct (le_gt_dec (nth i a2 0%nat) (nth i a1 0%nat)) as [|Hlt]; auto. exfalso.
  destruct Hf as (_ & Hf). destruct (Hf i Hi) as ((Hj & _) & Hfirst). specialize (Hfirst _ Hlt). simpl in Hfirst. rewrite Hd in Hfirst.
  - apply qc_lt_true in Hfirst. rewrite E in Hfirst. exact (Qclt_not_eq _ _ Hfirst eq_refl).
  - apply (row_length' samples nf n); auto.
  - apply (row_length' c2 nf k); auto. apply Hca.
  - apply (row_length' c2 nf k); [apply Hca|]. apply Hin, nth_In. lia.
Qed.
End Steps.

(** The centroids after a step are determined by the assignment. *)
Lemma rows_ext {A} (c c' : list A) nf k : nf <> 0%nat -> length c = (k * nf)%nat -> length c' = (k * nf)%nat ->
  (forall j, (j < k)%nat -> row c nf j = row c' nf j) -> c = c'.
Proof.
  intros Hnf H1 H2 H. apply nth_error_ext. intros i. destruct (lt_dec i (k * nf)) as [Hi|Hi].
  - pose proof (Nat.div_mod i nf Hnf) as E. pose proof (Nat.mod_upper_bound i nf Hnf) as Hm.
    assert (Hj : (i / nf < k)%nat) by (apply Nat.div_lt_upper_bound; lia).
    pose proof (nth_row c nf (i / nf) (i mod nf)) as R1. pose proof (nth_row c' nf (i / nf) (i mod nf)) as R2.
    rewrite (H _ Hj), R2 in R1. destruct (Nat.ltb_spec (i mod nf) nf); [|lia].
    replace (i / nf * nf + i mod nf)%nat with i in R1 by lia. auto.
  - rewrite (proj2 (nth_error_None c i)), (proj2 (nth_error_None c' i)) by lia. auto.
Qed.

Lemma after_unique a samples nf k asg empty c c' : nf <> 0%nat ->
  centroids_after a samples nf k asg empty c -> centroids_after a samples nf k asg empty c' -> c = c'.
Proof.
  intros Hnf (L & H) (L' & H'). apply (rows_ext c c' nf k); auto. intros j Hj.
  destruct (H j Hj) as (H1 & H2), (H' j Hj) as (H1' & H2'). destruct (members asg j) as [|x ms] eqn:Em.
  - rewrite H2, H2' by auto. auto.
  - destruct (H1 ltac:(congruence)) as (G1 & G2). destruct (H1' ltac:(congruence)) as (G1' & G2').
    apply nth_error_ext. intros f. destruct (lt_dec f nf) as [Hf|Hf].
    + rewrite G2, G2' by auto. auto.
    + rewrite (proj2 (nth_error_None _ f)), (proj2 (nth_error_None _ f)) by lia. auto.
Qed.

(** Sums of indices. *)
Lemma total_down : forall a1 a2 : list nat, length a1 = length a2 -> (forall i, i < length a1 -> nth i a2 0 <= nth i a1 0)%nat ->
  (list_sum a2 <= list_sum a1)%nat /\ (list_sum a1 <= list_sum a2 -> a1 = a2)%nat.
Proof.
  induction a1 as [|x a1 IH]; intros [|y a2]; simpl; try discriminate; auto. intros [= HL] H.
  destruct (IH a2 HL) as (I1 & I2). { intros i Hi. apply (H (S i)). lia. } specialize (H 0%nat ltac:(lia)). simpl in H. split; [lia|].
  intros Hs. rewrite I2 by lia. f_equal. lia.
Qed.
