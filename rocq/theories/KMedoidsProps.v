(** Theorems on k-medoids: C46, C67, C68. *)
From Coq Require Import List Arith ZArith Lia Bool Permutation.
From Verif Require Import Base SortingModel BufferModel BufferSpec BufferProofs BoundsSpec BoundsProofs SearchModel MatrixModel MatrixSpec MatrixProofs MatrixProps
  KMeansModel KMeansSpec KMeansProofs RandomModel RandomSpec RandomProps KMedoidsModel KMedoidsSpec KMedoidsProofs.
Import ListNotations.
Set Default Proof Using "Type".

(** ** C46 *)
(** A distance matrix and samples give the distances between the samples. *)
Theorem c46_sources :
  forall m dist zero samples nf n,
  computes m dist -> (forall p q, dist p q = dist q p) -> (forall p, dist p p = zero) -> length samples = n * nf -> 1 <= nf ->
  (exists p, pairwise_sequential m zero samples nf = Ok p /\
     provides (matrix_source m zero p) n (fun i j => dist (row samples nf i) (row samples nf j))) /\
  (exists s, samples_source m samples nf = Ok s /\ provides s n (fun i j => dist (row samples nf i) (row samples nf j))).
Proof.
  intros m dist zero samples nf n Hm Hs Hz Hl Hnf.
  destruct (c39_distance_matrix m dist zero samples nf n (fun l => l) Hm Hs Hz Hl Hnf) as (p & E & _ & Hr & Hd & _ & _ & H).
  { intros l. apply Permutation_refl. }
  split.
  - exists p. split; auto. split; [exact Hr|]. intros i j Hi Hj. apply (H i j Hi Hj).
  - unfold samples_source. unfold dynamic_rows in Hd. rewrite Hd. cbn [bind]. eexists. split; [reflexivity|].
    split; [reflexivity|]. intros i j Hi Hj. apply (H i j Hi Hj).
Qed.

Section Swaps.
Context (dist : nat -> nat -> Z) (n : nat) (src : source Z) (Hsrc : provides src n dist).
Context (Hself : forall o, o < n -> dist o o = 0%Z) (Hpos : forall i j, i < n -> j < n -> (0 <= dist i j)%Z).

(** The initial buffers describe the medoids and the initial loss is their total deviation. *)
Theorem c46_construction :
  forall top medoids, (forall m, In m medoids -> m < n) -> (forall m o, In m medoids -> o < n -> (dist m o < top)%Z) ->
  2 <= length medoids -> unique_nearest dist n medoids ->
  exists p, make_pam signed_wrap top src medoids = Ok p /\ p_medoids p = medoids /\ consistent dist n p.
Proof using Hsrc Hself Hpos.
  intros top M HM Htop Hk Hu. apply make_pam_ok; auto. intros ->. simpl in Hk. lia.
Qed.

(** The gain of the best swap of a candidate is the true change of the total deviation; no position has a better one. *)
Theorem c46_swap_gain :
  forall p c, consistent dist n p -> c < n ->
  exists delta b, find_best_swap signed_wrap src p c = Ok (delta, b) /\ b < length (p_medoids p) /\
    let change i := (deviations dist n (exchange (p_medoids p) i c) - deviations dist n (p_medoids p))%Z in
    delta = change b /\ (forall i, i < length (p_medoids p) -> (delta <= change i)%Z) /\ (forall i, i < b -> (delta < change i)%Z).
Proof using Hsrc. intros. now apply best_swap. Qed.

(** A candidate is skipped, or no exchange with it is better, or it is exchanged for the best position. *)
Theorem c46_candidate :
  forall p c, consistent dist n p -> c < n ->
  exists p', try_candidate signed_wrap src c p = Ok p' /\ consistent dist n p' /\
    ((p' = p /\ (nth c (p_nearest p) 0 = c \/
        forall i, i < length (p_medoids p) -> (deviations dist n (p_medoids p) <= deviations dist n (exchange (p_medoids p) i c))%Z)) \/
     ((p_loss p' < p_loss p)%Z /\ exists b, b < length (p_medoids p) /\ p_medoids p' = exchange (p_medoids p) b c /\
        nth c (p_nearest p) 0 <> c /\
        forall i, i < length (p_medoids p) -> (p_loss p' <= deviations dist n (exchange (p_medoids p) i c))%Z)).
Proof using Hsrc Hself Hpos. intros. apply try_candidate_ok; auto. Qed.

(** After any number of steps the buffers still describe the medoids, hence the loss is their total deviation; each step that
    changes anything makes it less. *)
Theorem c46_steps :
  forall p, consistent dist n p ->
  exists st, st 0 = p /\ forall t,
    pam_step signed_wrap src (st t) = Ok (st (S t)) /\ consistent dist n (st t) /\
    length (p_medoids (st t)) = length (p_medoids p) /\ p_loss (st t) = deviations dist n (p_medoids (st t)) /\
    (st (S t) = st t \/ (p_loss (st (S t)) < p_loss (st t))%Z).
Proof using Hsrc Hself Hpos.
  intros p Hp.
  set (st := fix st t := match t with 0 => p | S t => match pam_step signed_wrap src (st t) with Ok q => q | _ => st t end end).
  assert (H : forall t, consistent dist n (st t) /\ length (p_medoids (st t)) = length (p_medoids p)).
  { induction t as [|t (IH & IL)]; [split; auto|].
    destruct (pam_step_ok dist n src Hsrc Hself Hpos (st t) IH) as (q & E & Hq & L & _).
    change (st (S t)) with (match pam_step signed_wrap src (st t) with Ok q => q | _ => st t end). rewrite E. split; auto. congruence. }
  exists st. split; auto. intros t. destruct (H t) as (Hc & Hl).
  destruct (pam_step_ok dist n src Hsrc Hself Hpos (st t) Hc) as (q & E & Hq & L & H1 & H2).
  change (st (S t)) with (match pam_step signed_wrap src (st t) with Ok q => q | _ => st t end). rewrite E. splits; auto.
  - apply Hc.
  - destruct (list_eq_dec Z.eq_dec (p_losses q) (p_losses (st t))) as [E1|E1]; [|right; apply H1; congruence].
    destruct (list_eq_dec Nat.eq_dec (p_medoids q) (p_medoids (st t))) as [E2|E2]; [|right; apply H1; congruence].
    destruct (list_eq_dec Nat.eq_dec (p_nearest q) (p_nearest (st t))) as [E3|E3]; [|right; apply H1; congruence].
    destruct (list_eq_dec Nat.eq_dec (p_second q) (p_second (st t))) as [E4|E4]; [|right; apply H1; congruence].
    destruct (list_eq_dec Z.eq_dec (p_distances q) (p_distances (st t))) as [E5|E5]; [|right; apply H1; congruence].
    destruct (list_eq_dec Z.eq_dec (p_second_distances q) (p_second_distances (st t))) as [E6|E6]; [|right; apply H1; congruence].
    destruct (Z.eq_dec (p_loss q) (p_loss (st t))) as [E7|E7]; [|right; apply H1; congruence].
    left. destruct q, (st t); cbn in *; congruence.
Qed.

(** Where a step changes nothing only the skipped samples, whose index is the position of their nearest medoid, may still
    improve the medoids. *)
Theorem c46_fixed_point :
  forall p, consistent dist n p -> pam_step signed_wrap src p = Ok p ->
  forall c, c < n -> nth c (p_nearest p) 0 <> c -> forall i, i < length (p_medoids p) ->
  (deviations dist n (p_medoids p) <= deviations dist n (exchange (p_medoids p) i c))%Z.
Proof using Hsrc Hself Hpos.
  intros p Hp E. destruct (pam_step_ok dist n src Hsrc Hself Hpos p Hp) as (q & E' & _ & _ & _ & H).
  apply H. congruence.
Qed.

(** The steps come to such a point, after at most as many steps as the initial total deviation. *)
Theorem c46_settles :
  forall p, consistent dist n p ->
  exists t q, t <= Z.to_nat (deviations dist n (p_medoids p)) /\ steps t (pam_step signed_wrap src) p = Ok q /\
    consistent dist n q /\ pam_step signed_wrap src q = Ok q.
Proof using Hsrc Hself Hpos.
  intros p Hp. destruct (c46_steps p Hp) as (st & H0 & H).
  assert (Hnn : forall t, (0 <= p_loss (st t))%Z).
  { intros t. destruct (H t) as (_ & Hc & _ & -> & _). rewrite deviations_zsum.
    replace 0%Z with (zsum n (fun _ => 0%Z)) by (clear; induction n; simpl; lia). apply zsum_le. intros o Ho.
    pose proof (c_two _ _ _ Hc). rewrite (deviation_one _ _ _ _ _ _ _ (consistent_one dist n (st t) o Hc Ho)).
    destruct (c_nearest _ _ _ Hc o Ho) as ((Hj & _) & ->). apply Hpos; auto. apply (c_medoids _ _ _ Hc), nth_In; auto. }
  assert (G : forall m t, (p_loss (st t) <= Z.of_nat m)%Z -> exists t', t <= t' <= t + m /\ st (S t') = st t').
  { induction m as [|m IH]; intros t Hm; destruct (H t) as (_ & _ & _ & _ & [E|E]); try (exists t; split; [lia|auto]; fail).
    - specialize (Hnn (S t)). lia.
    - destruct (IH (S t)) as (t' & Ht & E'); [lia|]. exists t'. split; auto. lia. }
  destruct (G (Z.to_nat (deviations dist n (p_medoids p))) 0) as (t & Ht & E).
  { specialize (Hnn 0). rewrite H0, (c_loss _ _ _ Hp) in *. lia. }
  exists t, (st t). split; [lia|]. destruct (H t) as (E1 & Hc & _). rewrite E in E1. splits; auto.
  assert (G' : forall t i, steps t (pam_step signed_wrap src) (st i) = Ok (st (t + i))).
  { clear -H. induction t as [|t IH]; intros i; cbn [steps]; auto. destruct (H i) as (-> & _). cbn [bind]. rewrite IH.
    now replace (t + S i) with (S t + i) by lia. }
  rewrite <- H0, G'. now rewrite Nat.add_0_r.
Qed.
End Swaps.

(** Fewer than two medoids throw. *)
Theorem c46_single_medoid_throws :
  forall wrap top dist n src medoids, provides src n dist -> (forall m, In m medoids -> m < n) ->
  (forall m o, In m medoids -> o < n -> (dist m o < top)%Z) -> length medoids <= 1 -> make_pam wrap top src medoids = Throw.
Proof.
  intros wrap top dist n src medoids Hsrc HM Htop Hk. destruct medoids as [|m [|m' l]]; [reflexivity| |simpl in Hk; lia].
  unfold make_pam, nth_indices, nth_nearest. change (length [m] <? 1) with false. change (length [m] <? 2) with true. cbn [Nat.eqb orb].
  destruct (nearest_indices_ok dist n src Hsrc top [m] HM ltac:(discriminate) Htop) as (v & -> & _). reflexivity.
Qed.

(** With an unsigned type no swap is ever made. *)
Theorem c46_unsigned_never_swaps :
  forall src p p', pam_step unsigned_wrap src p = Ok p' -> p' = p.
Proof.
  intros src p p' E.
  assert (T : forall c q q', try_candidate unsigned_wrap src c q = Ok q' -> q' = q).
  { intros c q q' H. unfold try_candidate in H. apply bind_ok in H. destruct H as (i & _ & H).
    destruct (negb _); [|congruence]. apply bind_ok in H. destruct H as ((delta & b) & Hf & H).
    destruct (Z.ltb_spec delta 0) as [Hd|]; [exfalso|congruence].
    unfold find_best_swap in Hf. apply bind_ok in Hf. destruct Hf as ((xc & mi) & _ & Hf). apply bind_ok in Hf.
    destruct Hf as ((bi & bd) & _ & Hf). injection Hf as <- _. unfold unsigned_wrap in Hd.
    pose proof (Z.mod_pos_bound (xc + bd) (2 ^ 32) ltac:(reflexivity)). lia. }
  unfold pam_step in E. revert E. generalize 0 as i. generalize (rows src) as m. intros m. revert p.
  induction m as [|m IH]; intros p i E; cbn [for_loop] in E; [congruence|].
  apply bind_ok in E. destruct E as (q & E1 & E). apply T in E1. subst q. eapply IH; eauto.
Qed.

(** *** Cases on a line *)
Definition line_source (l : list Z) : source Z := mk_source (length l) (dynamic_at int_metric l 1).
Definition line_dist (l : list Z) (i j : nat) : Z := l1_dist (row l 1 i) (row l 1 j).
Definition int_max : Z := (2 ^ 31 - 1)%Z.
Lemma line_provides l : provides (line_source l) (length l) (line_dist l).
Proof.
  destruct (c46_sources int_metric l1_dist 0%Z l 1 (length l)) as (_ & s & E & H); try lia.
  - exact int_metric_computes.
  - exact l1_sym.
  - exact l1_self.
  - unfold samples_source, get_n_samples in E. cbn [Nat.eqb bind] in E. rewrite Nat.div_1_r in E. injection E as <-. exact H.
Qed.
Lemma line_self l o : line_dist l o o = 0%Z.
Proof. apply l1_self. Qed.
Lemma line_pos l i j : (0 <= line_dist l i j)%Z.
Proof. apply l1_nonneg. Qed.

(** Decides [unique_nearest]. *)
Definition unique_check (l : list Z) (medoids : list nat) : bool :=
  forallb (fun o => existsb (fun j => forallb (fun j' => (j' =? j) ||
      (line_dist l (nth j medoids 0%nat) o <? line_dist l (nth j' medoids 0%nat) o)%Z) (seq 0 (length medoids))) (seq 0 (length medoids)))
    (seq 0 (length l)).
Lemma unique_checked l medoids : unique_check l medoids = true -> unique_nearest (line_dist l) (length l) medoids.
Proof.
  intros H o Ho. unfold unique_check in H. rewrite forallb_forall in H. specialize (H o ltac:(apply in_seq; lia)).
  apply existsb_exists in H. destruct H as (j & Hj & H). apply in_seq in Hj. exists j. split; [lia|]. intros j' Hj' Hne.
  rewrite forallb_forall in H. specialize (H j' ltac:(apply in_seq; lia)). apply orb_true_iff in H.
  destruct H as [H|H]; [apply Nat.eqb_eq in H; lia|now apply Z.ltb_lt].
Qed.
Definition line_check (l : list Z) (medoids : list nat) : bool :=
  forallb (fun m => (m <? length l) && forallb (fun o => (line_dist l m o <? int_max)%Z) (seq 0 (length l))) medoids.
Lemma line_checked l medoids : line_check l medoids = true ->
  (forall m, In m medoids -> m < length l) /\ forall m o, In m medoids -> o < length l -> (line_dist l m o < int_max)%Z.
Proof.
  intros H. unfold line_check in H. rewrite forallb_forall in H. split.
  - intros m Hm. specialize (H m Hm). apply andb_true_iff in H. now apply Nat.ltb_lt.
  - intros m o Hm Ho. specialize (H m Hm). apply andb_true_iff in H. destruct H as (_ & H). rewrite forallb_forall in H.
    apply Z.ltb_lt, H, in_seq. lia.
Qed.

Definition pam_run (l : list Z) (medoids : list nat) (t : nat) : res pam :=
  p <- make_pam signed_wrap int_max (line_source l) medoids ;; steps t (pam_step signed_wrap (line_source l)) p.

Lemma pam_consistent l medoids t q : line_check l medoids = true -> unique_check l medoids = true -> 2 <= length medoids ->
  pam_run l medoids t = Ok q -> consistent (line_dist l) (length l) q.
Proof.
  intros H1 H2 H3 E. apply line_checked in H1. destruct H1 as (H1 & H4). apply unique_checked in H2. unfold pam_run in E.
  destruct (c46_construction (line_dist l) (length l) (line_source l) (line_provides l) (fun o _ => line_self l o)
    (fun i j _ _ => line_pos l i j) int_max medoids H1 H4 H3 H2) as (p & Ep & _ & Hp). rewrite Ep in E. cbn [bind] in E.
  clear Ep. revert p Hp E. induction t as [|t IH]; intros p Hp E; cbn [steps] in E; [congruence|].
  destruct (pam_step_ok (line_dist l) (length l) (line_source l) (line_provides l) (fun o _ => line_self l o)
    (fun i j _ _ => line_pos l i j) p Hp) as (p' & Es & Hp' & _). rewrite Es in E. cbn [bind] in E. eauto.
Qed.

(** A settled state from which an exchange still improves. *)
Theorem c46_local_optimum_refuted :
  exists l medoids p i c,
    pam_run l medoids 2 = Ok p /\ consistent (line_dist l) (length l) p /\ pam_step signed_wrap (line_source l) p = Ok p /\
    i < length (p_medoids p) /\ c < length l /\
    (deviations (line_dist l) (length l) (exchange (p_medoids p) i c) < deviations (line_dist l) (length l) (p_medoids p))%Z.
Proof.
  destruct (pam_run [3; 1; 11; 0]%Z [0; 3] 2) as [p| | |] eqn:E; [|vm_compute in E; discriminate E..].
  exists [3; 1; 11; 0]%Z, [0; 3], p, 1, 1. split; auto.
  split. { apply (pam_consistent _ [0; 3] 2); auto. }
  vm_compute in E. injection E as <-. repeat split; vm_compute; auto; lia.
Qed.

(** With samples at equal distance of two medoids: a state that is not left though a sample that is tried would improve it,
    and a reported loss that is not the total deviation. *)
Theorem c46_tie_refuted :
  (exists l medoids p i c,
    make_pam signed_wrap int_max (line_source l) medoids = Ok p /\ NoDup medoids /\ pam_step signed_wrap (line_source l) p = Ok p /\
    i < length medoids /\ c < length l /\ nth c (p_nearest p) 0 <> c /\
    (deviations (line_dist l) (length l) (exchange medoids i c) < deviations (line_dist l) (length l) medoids)%Z) /\
  (exists l medoids p,
    pam_run l medoids 1 = Ok p /\ NoDup medoids /\ p_loss p <> deviations (line_dist l) (length l) (p_medoids p)).
Proof.
  split.
  - exists [8; 7; 9; 2; 6]%Z, [4; 0]. eexists. exists 0, 3. split; [vm_compute; reflexivity|].
    split. { repeat constructor; simpl; lia. } repeat split; vm_compute; try lia; auto.
  - exists [5; 3; 8; 7; 1; 13; 10]%Z, [3; 1; 2]. eexists. split; [vm_compute; reflexivity|].
    split. { repeat constructor; simpl; lia. } vm_compute. discriminate.
Qed.

(** Two steps from a poor start; the second changes nothing. Samples 3 and 6 are tried but not sample 1, that is its own nearest
    medoid at position 1. *)
Example c46_case :
  line_check [0; 1; 3; 10; 12; 17; 4]%Z [0; 1] = true /\ unique_check [0; 1; 3; 10; 12; 17; 4]%Z [0; 1] = true /\
  pam_run [0; 1; 3; 10; 12; 17; 4]%Z [0; 1] 0 =
    Ok (mk_pam [0; 1] [0; 1; 1; 1; 1; 1; 1] [1; 0; 0; 0; 0; 0; 0] [0; 0; 2; 9; 11; 16; 3]%Z [1; 1; 3; 10; 12; 17; 4]%Z [1; 6]%Z 41) /\
  pam_run [0; 1; 3; 10; 12; 17; 4]%Z [0; 1] 1 =
    Ok (mk_pam [4; 1] [1; 1; 1; 0; 0; 0; 1] [0; 0; 0; 1; 1; 1; 0] [1; 0; 2; 2; 0; 5; 3]%Z [12; 11; 9; 9; 11; 16; 8]%Z [29; 34]%Z 13) /\
  pam_run [0; 1; 3; 10; 12; 17; 4]%Z [0; 1] 2 = pam_run [0; 1; 3; 10; 12; 17; 4]%Z [0; 1] 1 /\
  (p <- pam_run [0; 1; 3; 10; 12; 17; 4]%Z [0; 1] 0 ;; find_best_swap signed_wrap (line_source [0; 1; 3; 10; 12; 17; 4]%Z) p 3) = Ok ((-26)%Z, 0) /\
  (p <- make_pam unsigned_wrap (2 ^ 32 - 1) (line_source [0; 1; 3; 10; 12; 17; 4]%Z) [0; 1] ;;
   ' (delta, i) <- find_best_swap unsigned_wrap (line_source [0; 1; 3; 10; 12; 17; 4]%Z) p 3 ;; Ok (2 ^ 32 - delta, i)%Z) = Ok (26%Z, 0).
Proof. vm_compute. auto 10. Qed.

(** ** C67 *)
(** Each sample gets the position of the first of its nearest medoids, and the distance to it. *)
Theorem c67_predict :
  forall dist n src top medoids, provides src n dist -> medoids <> [] -> (forall m, In m medoids -> m < n) ->
  (forall m o, In m medoids -> o < n -> (dist m o < top)%Z) ->
  exists labels distances, samples_to_nearest_medoid_indices Z.ltb top src medoids = Ok labels /\
    samples_to_nearest_medoid_distances Z.ltb top src medoids = Ok distances /\ length labels = n /\ length distances = n /\
    forall o, o < n -> first_nearest_medoid dist medoids o (nth o labels 0) /\ nth o distances 0%Z = deviation dist medoids o /\
      nth o distances 0%Z = dist (nth (nth o labels 0) medoids 0) o.
Proof.
  intros dist n src top M Hsrc Hne HM Htop.
  destruct (nearest_indices_ok dist n src Hsrc top M HM Hne Htop) as (labels & E1 & L1 & H1).
  destruct (nearest_distances_ok dist n src Hsrc top M HM Hne Htop) as (dists & E2 & L2 & H2).
  exists labels, dists. splits; auto. intros o Ho. destruct (H1 o Ho) as (d & F1). destruct (H2 o Ho) as (i & F2).
  assert (Hk : 0 < length M) by (destruct M; [congruence|simpl; lia]).
  rewrite (first_deviation dist n top M HM Hne Htop o _ _ F2). destruct (first_unique top _ _ _ _ _ _ Hk F1 F2) as (-> & <-).
  pose proof (first_deviation dist n top M HM Hne Htop o _ _ F1) as Hd. destruct F1 as (_ & F1). destruct (F1 Hk) as (A1 & A2 & A3 & A4).
  splits; auto; try congruence. split.
  - split; auto. intros j' Hj'. rewrite <- A2. auto.
  - intros j' Hj'. rewrite <- A2. auto.
Qed.

(** The two overloads agree: on samples and on their distance matrix. *)
Theorem c67_overloads_agree :
  forall samples nf n top p medoids, length samples = n * nf -> 1 <= nf ->
  pairwise_sequential int_metric 0%Z samples nf = Ok p -> medoids <> [] -> (forall m, In m medoids -> m < n) ->
  (forall i j, i < n -> j < n -> (l1_dist (row samples nf i) (row samples nf j) < top)%Z) ->
  exists labels distances,
    predict_samples int_metric Z.eqb top samples nf medoids = Ok labels /\ predict_matrix int_metric 0%Z top p medoids = Ok labels /\
    forward_samples int_metric top samples nf medoids = Ok distances /\ forward_matrix int_metric 0%Z top p medoids = Ok distances /\
    length labels = n /\ length distances = n /\
    let dist i j := l1_dist (row samples nf i) (row samples nf j) in
    forall o, o < n -> first_nearest_medoid dist medoids o (nth o labels 0) /\ nth o distances 0%Z = deviation dist medoids o.
Proof.
  intros samples nf n top p M Hl Hnf Ep Hne HM Htop.
  destruct (c46_sources int_metric l1_dist 0%Z samples nf n int_metric_computes l1_sym l1_self Hl Hnf) as ((p' & Ep' & Hp) & s & Es & Hs).
  assert (p' = p) by congruence. subst p'. set (dist := fun i j => l1_dist (row samples nf i) (row samples nf j)) in *.
  assert (Ht : forall m o, In m M -> o < n -> (dist m o < top)%Z) by (intros; apply Htop; auto).
  destruct (c67_predict dist n _ top M Hs Hne HM Ht) as (l1 & d1 & A1 & A2 & A3 & A4 & A5).
  destruct (c67_predict dist n _ top M Hp Hne HM Ht) as (l2 & d2 & B1 & B2 & B3 & B4 & B5).
  assert (l2 = l1).
  { apply (nth_ext _ _ 0 0); [congruence|]. intros o Ho. rewrite B3 in Ho. destruct (A5 o Ho) as (((Ha & Hb) & Hc) & _).
    destruct (B5 o Ho) as (((Ga & Gb) & Gc) & _). specialize (Hb _ Ga). specialize (Gb _ Ha).
    destruct (lt_eq_lt_dec (nth o l2 0) (nth o l1 0)) as [[H|]|H]; auto.
    - specialize (Hc _ H). lia.
    - specialize (Gc _ H). lia. }
  assert (d2 = d1).
  { apply (nth_ext _ _ 0%Z 0%Z); [congruence|]. intros o Ho. rewrite B4 in Ho. destruct (A5 o Ho) as (_ & -> & _).
    destruct (B5 o Ho) as (_ & -> & _). auto. }
  subst l2 d2. exists l1, d1. unfold predict_samples, predict_matrix, forward_samples, forward_matrix. rewrite Es. cbn [bind].
  unfold nth_nearest. replace (length M <? 1) with false by (symmetry; apply Nat.ltb_ge; destruct M; [congruence|simpl; lia]).
  cbn [Nat.eqb orb]. splits; auto; cbv zeta; intros o Ho; destruct (A5 o Ho) as (H1 & H2 & _); auto.
Qed.

(** Without medoids both throw; a medoid that is not an index of the given samples is undefined. *)
Theorem c67_no_medoids_throws :
  forall samples nf top p, 1 <= nf ->
  predict_samples int_metric Z.eqb top samples nf [] = Throw /\ predict_matrix int_metric 0%Z top p [] = Throw /\
  forward_samples int_metric top samples nf [] = Throw /\ forward_matrix int_metric 0%Z top p [] = Throw.
Proof.
  intros samples nf top p Hnf. unfold predict_samples, forward_samples, samples_source, get_n_samples.
  destruct (Nat.eqb_spec nf 0) as [|_]; [lia|]. cbn [bind]. splits; reflexivity.
Qed.

Theorem c67_medoid_outside_undefined :
  forall samples nf n top medoids m, length samples = n * nf -> 1 <= nf -> 1 <= n -> In m medoids -> n <= m ->
  predict_samples int_metric Z.eqb top samples nf medoids = UB.
Proof.
  intros samples nf n top M m Hl Hnf Hn Hm Hout. unfold predict_samples, samples_source.
  destruct (n_rows samples samples nf n n) as (-> & _); auto; try lia. cbn [bind]. unfold nth_nearest.
  replace (length M <? 1) with false by (symmetry; apply Nat.ltb_ge; destruct M; [destruct Hm|simpl; lia]). cbn [Nat.eqb orb].
  unfold samples_to_nearest_medoid_indices. destruct M as [|m0 M0] eqn:EM; [destruct Hm|]. rewrite <- EM in *. clear EM m0 M0.
  cbn [rows]. unfold fill. destruct n as [|n']; [lia|]. cbn [for_loop].
  assert (Hbad : forall j, S n' <= j -> dynamic_at int_metric samples nf j 0 = UB).
  { intros j Hj. unfold dynamic_at, sample_at, slice.
    assert (S n' * nf <= j * nf) by (apply Nat.mul_le_mono_r; auto).
    destruct (_ && _) eqn:E; auto. apply andb_true_iff in E. destruct E as (_ & E). apply Nat.leb_le in E. lia. }
  assert (Hgood : forall j, j < S n' -> exists d, dynamic_at int_metric samples nf j 0 = Ok d).
  { intros j Hj. destruct (c46_sources int_metric l1_dist 0%Z samples nf (S n') int_metric_computes l1_sym l1_self Hl Hnf) as (_ & s & Es & _ & Hs).
    unfold samples_source in Es. apply bind_ok in Es. destruct Es as (k & _ & Es). injection Es as <-. eexists. apply (Hs j 0); lia. }
  assert (G : forall k i s, i + k = length M -> (exists j, i <= j /\ nth_error M j = Some m) ->
    for_loop k i (fun idx '(first_min_distance, first_min_index) =>
          nearest_candidate <- medoid_distance (mk_source (S n') (dynamic_at int_metric samples nf)) M idx 0 ;;
          Ok (if m_lt int_metric nearest_candidate first_min_distance then (nearest_candidate, idx)
              else (first_min_distance, first_min_index))) s = UB).
  { induction k as [|k IH]; intros i (d, ix) Hk (j & Hj & Ej).
    - pose proof (nth_error_lt _ _ _ Ej). lia.
    - cbn [for_loop]. unfold medoid_distance. destruct (rd_lt M i) as (x & Ex); [lia|]. rewrite Ex. apply rd_ok in Ex. cbn [bind dist_at].
      destruct (le_lt_dec (S n') x) as [Hx|Hx]; [now rewrite (Hbad x Hx)|]. destruct (Hgood x Hx) as (dd & ->). cbn [bind].
      destruct (m_lt int_metric dd d); apply IH; try lia; exists j; split; auto; destruct (Nat.eq_dec i j) as [->|]; try lia;
        (assert (x = m) by congruence; lia). }
  rewrite G; auto. apply In_nth_error in Hm. destruct Hm as (j & Ej). exists j. split; auto. lia.
Qed.

(** The medoids are indices into the samples given to [predict]: on other samples the labels say nothing of the samples the medoids
    were found in. Sample 0 of the second set equals the second medoid, at 10, and is far from the first; its label is 0. *)
Theorem c67_other_samples_refuted :
  exists fitted others medoids labels,
    medoids_fit signed_wrap int_max (line_source fitted) default_medoids_options 2 [0; 1] (fun _ _ _ _ => 0) = Ok medoids /\
    predict_samples int_metric Z.eqb int_max others 1 medoids = Ok labels /\
    nth 0 others 0%Z = nth (nth 1 medoids 0) fitted 0%Z /\ nth (nth 1 medoids 0) fitted 0%Z <> nth (nth 0 medoids 0) fitted 0%Z /\
    nth 0 labels 2 = 0.
Proof.
  exists [0; 10; 11; 1]%Z, [10; 1; 0; 11]%Z, [0; 1], [0; 1; 1; 0]. splits; vm_compute; auto. discriminate.
Qed.

(** Two features. Sample 1 is at distance 3 of both medoids. *)
Example c67_case :
  predict_samples int_metric Z.eqb int_max [0; 0; 2; 1; 4; 2; 9; 9; 8; 7]%Z 2 [2; 0] = Ok [1; 0; 0; 0; 0] /\
  forward_samples int_metric int_max [0; 0; 2; 1; 4; 2; 9; 9; 8; 7]%Z 2 [2; 0] = Ok [0; 3; 0; 12; 9]%Z /\
  (p <- pairwise_sequential int_metric 0%Z [0; 0; 2; 1; 4; 2; 9; 9; 8; 7]%Z 2 ;;
   forward_matrix int_metric 0%Z int_max p [2; 0]) = Ok [0; 3; 0; 12; 9]%Z /\
  predict_samples int_metric Z.eqb int_max [0; 0; 2; 1; 4; 2; 9; 9; 8; 7]%Z 2 [2; 5] = UB.
Proof. vm_compute. auto. Qed.

(** ** C68 *)
Section Fit.
Context (dist : nat -> nat -> Z) (n : nat) (src : source Z) (Hsrc : provides src n dist).
Context (Hself : forall o, o < n -> dist o o = 0%Z) (Hpos : forall i j, i < n -> j < n -> (0 <= dist i j)%Z).
Context (top : Z) (Htop : forall i j, i < n -> j < n -> (dist i j < top)%Z).

(** From medoids set before, or found by an earlier call: as many distinct samples, of no larger total deviation. *)
Theorem c68_fit_given :
  forall o n_medoids medoids draw, (forall m, In m medoids -> m < n) -> 2 <= length medoids -> unique_nearest dist n medoids ->
  exists best, medoids_fit signed_wrap top src o n_medoids medoids draw = Ok best /\ reached top src o medoids best /\
    (deviations dist n best <= deviations dist n medoids)%Z /\ NoDup best /\ (forall m, In m best -> m < n) /\
    length best = length medoids.
Proof using Hsrc Hself Hpos Htop.
  intros o k M draw HM Hk Hu.
  destruct (medoids_best_ok dist n src Hsrc Hself Hpos top Htop o k M draw [M]) as (results & best & E & HF & Hin & _).
  - destruct M; [simpl in Hk; lia|reflexivity].
  - discriminate.
  - intros M' [<-|[]]. splits; auto. split; auto.
  - exists best. split; auto. inversion HF as [|? R ? Rs H0 HR]; subst. inversion HR; subst. destruct Hin as [<-|[]]. exact H0.
Qed.

Lemma deviations_perm M M' : Permutation M M' -> M <> [] -> deviations dist n M = deviations dist n M'.
Proof using Type.
  intros HP Hne. assert (Hne' : M' <> []) by (intros ->; apply Permutation_sym, Permutation_nil in HP; auto).
  unfold deviations. f_equal. apply map_ext. intros o. apply deviation_is.
  destruct (deviation_min dist M' o Hne') as ((m & Hm & E) & H). split.
  - exists m. split; auto. apply (Permutation_in m (Permutation_sym HP)). auto.
  - intros m' Hm'. apply H, (Permutation_in m' HP). auto.
Qed.

Lemma unique_perm M M' : Permutation M M' -> unique_nearest dist n M -> unique_nearest dist n M'.
Proof using Type.
  intros HP Hu o Ho. destruct (Hu o Ho) as (j & Hj & H).
  apply (proj1 (Permutation_nth M M' 0)) in HP. destruct HP as (HL & f & Hf & Hinj & Hnth).
  assert (Hs : exists i, i < length M' /\ f i = j).
  { destruct (proj1 (FinFun.bInjective_bSurjective Hf) Hinj j Hj) as (i & Hi & E). exists i. split; auto. lia. }
  destruct Hs as (i & Hi & <-). exists i. split; auto. intros j' Hj' Hne. rewrite !Hnth by lia.
  apply H; [apply Hf; lia|]. intros E. apply Hne. apply Hinj; auto; lia.
Qed.

(** Without medoids: every start is a rearrangement of the first [k] samples, whatever is drawn; the result is the best of what is
    reached from them. *)
Theorem c68_fit_random :
  forall o k draw, (forall i, in_range (draw i)) -> 1 <= mo_n_init o -> 2 <= k <= n -> unique_nearest dist n (seq 0 k) ->
  exists starts results best, medoids_fit signed_wrap top src o k [] draw = Ok best /\ length starts = mo_n_init o /\
    (forall M, In M starts -> Permutation M (seq 0 k)) /\ Forall2 (reached top src o) starts results /\
    In best results /\ (forall R, In R results -> (deviations dist n best <= deviations dist n R)%Z) /\
    (deviations dist n best <= deviations dist n (seq 0 k))%Z /\ NoDup best /\ (forall m, In m best -> m < n) /\ length best = k.
Proof using Hsrc Hself Hpos Htop.
  intros o k draw Hd Hi (Hk2 & Hkn) Hu.
  assert (HS : exists starts, medoids_candidates src o k [] draw = Ok starts /\ length starts = mo_n_init o /\
    forall M, In M starts -> Permutation M (seq 0 k)).
  { unfold medoids_candidates.
    match goal with |- context [for_each ?l ?body []] =>
      destruct (for_each_inv (fun d s => length s = length d /\ forall M, In M s -> Permutation M (seq 0 k)) body l [] [])
        as (starts & E & HL & HA) end.
    - split; auto. intros M [].
    - intros x d t Hx (HL & HA). rewrite (proj1 Hsrc). destruct (interval_ok (draw x) k n (Hd x) Hkn) as (idx & -> & HP & _). cbn [bind].
      eexists. split; [reflexivity|]. rewrite !app_length, HL. split; auto. intros M HM. apply in_app_or in HM.
      destruct HM as [HM|[<-|[]]]; auto.
    - exists starts. rewrite app_nil_l, seq_length in HL. auto. }
  destruct HS as (starts & Es & HL & HP).
  assert (Hgood : forall M, In M starts -> good_start dist n M).
  { intros M HM. specialize (HP M HM). split; [|split].
    - intros m Hm. apply (Permutation_in m HP), in_seq in Hm. lia.
    - rewrite (Permutation_length HP), seq_length. auto.
    - apply (unique_perm (seq 0 k)); auto. now symmetry. }
  destruct (medoids_best_ok dist n src Hsrc Hself Hpos top Htop o k [] draw starts Es) as (results & best & E & HF & Hin & Hbest); auto.
  { intros ->. simpl in HL. lia. }
  assert (HB : exists M, In M starts /\ NoDup best /\ (forall m, In m best -> m < n) /\ length best = length M /\
    (deviations dist n best <= deviations dist n M)%Z).
  { clear -HF Hin. induction HF as [|M R Ms Rs (_ & H1 & H2 & H3 & H4) HF IH]; [destruct Hin|]. destruct Hin as [<-|Hin].
    - exists M. splits; auto. now left.
    - destruct (IH Hin) as (M' & HM' & H'). exists M'. split; auto. now right. }
  destruct HB as (M & HM & H1 & H2 & H3 & H4). specialize (HP M HM) as HPM.
  assert (HneM : M <> []) by (intros ->; apply Permutation_length in HPM; rewrite seq_length in HPM; simpl in HPM; lia).
  rewrite (deviations_perm M (seq 0 k) HPM HneM) in H4. rewrite (Permutation_length HPM), seq_length in H3.
  exists starts, results, best. splits; auto.
  clear -HF. induction HF; constructor; auto. apply H.
Qed.

(** When [fit] stops before the maximal number of iterations, a further step changes nothing. *)
Theorem c68_early_stop_is_fixed :
  forall o start st t, make_pam signed_wrap top src start = Ok (st 0) -> (forall i, pam_step signed_wrap src (st i) = Ok (st (S i))) ->
  stops_at (mo_max_iter o) (mo_early_stopping o) Nat.eqb (mo_patience o) (fun i => p_medoids (st i)) t ->
  (forall m, In m start -> m < n) -> 2 <= length start -> unique_nearest dist n start ->
  t < mo_max_iter o -> pam_step signed_wrap src (st t) = Ok (st t).
Proof using Hsrc Hself Hpos Htop.
  intros o M st t E0 Hst (_ & Hstop & _) HM Hk Hu Ht. destruct Hstop as [?|(_ & Hset)]; [lia|].
  assert (Hne : M <> []) by (intros ->; simpl in Hk; lia).
  destruct (make_pam_ok dist n src Hsrc top M HM Hne (fun m o Hm Ho => Htop m o (HM m Hm) Ho) Hk Hu Hself Hpos) as (p & Ep & _ & Hp).
  assert (Hc : forall i, consistent dist n (st i)).
  { induction i as [|i IH]; [congruence|]. destruct (pam_step_ok dist n src Hsrc Hself Hpos (st i) IH) as (q & E & Hq & _).
    rewrite Hst in E. congruence. }
  destruct (Hset 0) as (H2 & HL & HE); [lia|]. rewrite Nat.sub_0_r in *. destruct t as [|t]; [lia|].
  replace (S t - 1) with t in * by lia.
  assert (EM : p_medoids (st (S t)) = p_medoids (st t)).
  { apply (nth_ext _ _ 0 0); auto. intros i Hi. apply Nat.eqb_eq. apply (HE i); apply nth_error_nth'; auto. cbn beta in HL. lia. }
  destruct (pam_step_ok dist n src Hsrc Hself Hpos (st t) (Hc t)) as (q & E & Hq & _ & H1 & _). rewrite Hst in E.
  assert (q = st (S t)) by congruence. subst q. clear E.
  assert (ES : st (S t) = st t).
  { assert (D : forall a b : pam, {a = b} + {a <> b}) by (repeat decide equality). destruct (D (st (S t)) (st t)) as [|Hn]; auto.
    specialize (H1 Hn). rewrite (c_loss _ _ _ (Hc (S t))), (c_loss _ _ _ (Hc t)), EM in H1. lia. }
  rewrite Hst. f_equal. pose proof (Hst (S t)) as E. rewrite ES, Hst in E. congruence.
Qed.
End Fit.

(** Without medoids and without initialisations the read is undefined; a single medoid throws. *)
Theorem c68_no_init_undefined :
  forall wrap top src o k draw, mo_n_init o = 0 -> medoids_fit wrap top src o k [] draw = UB.
Proof. intros wrap top src o k draw H. unfold medoids_fit, medoids_candidates. rewrite H. reflexivity. Qed.

Theorem c68_single_medoid_throws :
  forall wrap top dist n src o m draw, provides src n dist -> m < n -> (forall i, i < n -> (dist m i < top)%Z) ->
  medoids_fit wrap top src o 1 [m] draw = Throw.
Proof.
  intros wrap top dist n src o m draw Hsrc Hm Htop. unfold medoids_fit. cbn [medoids_candidates bind for_each].
  unfold medoids_candidate. rewrite (c46_single_medoid_throws wrap top dist n src [m] Hsrc); auto.
  - intros m' [<-|[]]. auto.
  - intros m' i [<-|[]]. auto.
Qed.

(** The starts are two orders of [0; 1; 2]; the second leads to the smaller loss, and needs more than one step. *)
Definition eleven : list Z := [3; 8; 40; 10; 12; 17; 5; 30; 31; 36; 7]%Z.
Definition two_draws (i : nat) : generator := if i =? 0 then fun _ a _ => a else fun _ _ b => b.
Example c68_case :
  unique_check eleven [0; 1; 2] = true /\ line_check eleven (seq 0 11) = true /\
  medoids_candidates (line_source eleven) (mk_medoids_options 100 true 0 2) 3 [] two_draws = Ok [[0; 1; 2]; [2; 0; 1]] /\
  medoids_candidate signed_wrap int_max (line_source eleven) default_medoids_options [0; 1; 2] = Ok ([7; 10; 2], 30%Z) /\
  medoids_candidate signed_wrap int_max (line_source eleven) default_medoids_options [2; 0; 1] = Ok ([2; 7; 1], 29%Z) /\
  medoids_fit signed_wrap int_max (line_source eleven) (mk_medoids_options 100 true 0 2) 3 [] two_draws = Ok [2; 7; 1] /\
  medoids_fit signed_wrap int_max (line_source eleven) default_medoids_options 3 [] two_draws = Ok [7; 10; 2] /\
  medoids_fit signed_wrap int_max (line_source eleven) (mk_medoids_options 1 true 0 1) 3 [2; 0; 1] two_draws = Ok [2; 7; 10] /\
  default_medoids_options = mk_medoids_options 100 true 0 1.
Proof. vm_compute. auto 10. Qed.

Print Assumptions c46_sources.
Print Assumptions c46_construction.
Print Assumptions c46_swap_gain.
Print Assumptions c46_candidate.
Print Assumptions c46_steps.
Print Assumptions c46_fixed_point.
Print Assumptions c46_settles.
Print Assumptions c46_single_medoid_throws.
Print Assumptions c46_unsigned_never_swaps.
Print Assumptions c46_local_optimum_refuted.
Print Assumptions c46_tie_refuted.
Print Assumptions c67_predict.
Print Assumptions c67_overloads_agree.
Print Assumptions c67_no_medoids_throws.
Print Assumptions c67_medoid_outside_undefined.
Print Assumptions c67_other_samples_refuted.
Print Assumptions c68_fit_given.
Print Assumptions c68_fit_random.
Print Assumptions c68_early_stop_is_fixed.
Print Assumptions c68_no_init_undefined.
Print Assumptions c68_single_medoid_throws.
