(** Theorems on k-means: C44, C45, C61-C63. *)
From Coq Require Import List Arith ZArith QArith Qcanon Lia Bool.
From Verif Require Import Base BufferModel BufferSpec BufferProofs SearchModel MatrixModel KMeansModel KMeansSpec KMeansProofs KMeansCases.
Import ListNotations.
Local Open Scope nat_scope.
Set Default Proof Using "Type".

(** ** C44 *)
(** predict gives each sample a nearest centroid, forward its distance. *)
Theorem c44_predict_nearest {F D} (lt : D -> D -> bool) (inf : D) (dist : list F -> list F -> D) samples centroids nf n k :
  order_ok lt -> (forall p r, lt (dist p r) inf = true) ->
  nf <> 0 -> length samples = n * nf -> length centroids = k * nf -> 0 < k ->
  exists labels distances,
    samples_to_nearest_centroid_indices lt inf dist samples nf centroids = Ok labels /\ length labels = n /\
    samples_to_nearest_centroid_distances lt inf dist samples nf centroids = Ok distances /\ length distances = n /\
    forall i, i < n ->
      nearest_to lt dist centroids nf k (row samples nf i) (nth i labels 0) /\
      (forall j, j < nth i labels 0 -> ~ nearest_to lt dist centroids nf k (row samples nf i) j) /\
      nth_error distances i = Some (dist (row samples nf i) (row centroids nf (nth i labels 0))).
Proof.
  intros Ho Hinf Hnf Hs Hc Hk.
  destruct (predict_ok lt inf dist Ho Hinf samples centroids nf n k Hnf Hs Hc Hk) as (labels & E1 & H1 & H2).
  destruct (forward_ok lt inf dist Ho Hinf samples centroids nf n k Hnf Hs Hc Hk) as (ds & E2 & H3 & H4).
  exists labels, ds. splits; auto. intros i Hi.
  destruct (H2 i Hi) as (j & Ej & Hj). destruct (H4 i Hi) as (x & Ex & j' & Hj' & ->).
  rewrite (nth_error_nth _ _ _ Ej). splits.
  - apply Hj.
  - intros j2 Hlt (_ & Hn). pose proof (proj2 Hj j2 Hlt) as Hbad. rewrite Hn in Hbad; [discriminate|]. apply Hj.
  - rewrite (first_nearest_unique _ _ _ _ _ _ _ _ Hj Hj'). auto.
Qed.

Example c44_case :
  samples_to_nearest_centroid_indices (e_lt line) None (e_dist line) (qs [1; 0; 9; 9; 5; 4; 2; 3]%Z) 2 (qs [0; 0; 8; 8; 4; 4]%Z)
    = Ok [0; 1; 2; 2] /\
  samples_to_nearest_centroid_distances (e_lt line) None (e_dist line) (qs [1; 0; 9; 9; 5; 4; 2; 3]%Z) 2 (qs [0; 0; 8; 8; 4; 4]%Z)
    = Ok (map Some (qs [1; 2; 1; 3]%Z)).
Proof. split; vm_compute; repeat f_equal; apply Qc_is_canon; reflexivity. Qed.

(** On integer data the infinity is 0 and no distance is below it: the answer is always centroid 0 at distance 0. *)
Theorem c44_integer_predict_constant (dist : list Z -> list Z -> Z) samples centroids nf n k :
  (forall p r, (0 <= dist p r)%Z) ->
  nf <> 0 -> length samples = n * nf -> length centroids = k * nf ->
  samples_to_nearest_centroid_indices Z.ltb (m_inf int_metric) dist samples nf centroids = Ok (repeat 0 n) /\
  samples_to_nearest_centroid_distances Z.ltb (m_inf int_metric) dist samples nf centroids = Ok (repeat 0%Z n).
Proof.
  intros Hd Hnf Hs Hc.
  assert (Hfill : forall A (x : A) f, (forall i, i < n -> f i = Ok x) -> forall blank, fill blank n f = Ok (repeat x n)).
  { intros A x f Hf blank. destruct (fill_inv blank n f (fun _ y => y = x)) as (v & E & Hl & Hv).
    - intros i Hi. eauto.
    - rewrite E. f_equal. apply nth_error_ext. intros i. destruct (Nat.lt_ge_cases i n) as [Hi|Hi].
      + destruct (Hv i Hi) as (y & -> & ->). rewrite nth_error_nth' with (d := x) by now rewrite repeat_length. now rewrite nth_repeat.
      + rewrite !(proj2 (nth_error_None _ _)); auto; rewrite ?repeat_length; lia. }
  unfold samples_to_nearest_centroid_indices, samples_to_nearest_centroid_distances.
  destruct (n_rows samples centroids nf n k Hnf Hs Hc) as (-> & ->). cbn [bind]. simpl m_inf. split; apply Hfill; intros i Hi.
  - unfold nearest_centroid_index.
    destruct (for_loop_inv (fun _ st => st = (0%Z, 0)) (fun centroid_index '(min_distance, min_index) =>
      d <- sample_to_centroid dist samples nf centroids i centroid_index ;;
      Ok (if Z.ltb d min_distance then (d, centroid_index) else (min_distance, min_index))) k 0 (0%Z, 0)) as (st & E & ->); auto.
    + intros j st Hj ->. rewrite (one_distance dist samples centroids nf n k) by (auto; lia). simpl.
      match goal with |- context [Z.ltb ?u 0] => destruct (Z.ltb_spec u 0) as [Hb|Hb] end; eauto.
      exfalso. specialize (Hd (row samples nf i) (row centroids nf j)). lia.
    + rewrite E. reflexivity.
  - destruct (for_loop_inv (fun _ m => m = 0%Z) (fun centroid_index min_distance =>
      nearest_candidate <- sample_to_centroid dist samples nf centroids i centroid_index ;;
      Ok (if Z.ltb nearest_candidate min_distance then nearest_candidate else min_distance)) k 0 0%Z) as (st & E & ->); auto.
    intros j st Hj ->. rewrite (one_distance dist samples centroids nf n k) by (auto; lia). simpl.
    match goal with |- context [Z.ltb ?u 0] => destruct (Z.ltb_spec u 0) as [Hb|Hb] end; eauto.
    exfalso. specialize (Hd (row samples nf i) (row centroids nf j)). lia.
Qed.

Definition z_dist (p r : list Z) : Z := fold_right (fun '(x, y) s => Z.abs (x - y) + s)%Z 0%Z (combine p r).
Theorem c44_integer_nearest_refuted : exists samples centroids labels,
  samples_to_nearest_centroid_indices Z.ltb (m_inf int_metric) z_dist samples 1 centroids = Ok labels /\
  ~ nearest_to Z.ltb z_dist centroids 1 2 (row samples 1 1) (nth 1 labels 0).
Proof.
  exists [0; 10]%Z, [0; 10]%Z, [0; 0]. split; [reflexivity|]. intros (_ & H). specialize (H 1 ltac:(lia)). discriminate.
Qed.

(** Every number of steps of Lloyd's algorithm: the assignment of a state is a nearest one, the reported loss is the sum of the
    distances, and the next centroids are the means, or the origin for an empty cluster. *)
Theorem c44_lloyd_steps (a : arith) : arith_ok a -> forall samples centroids nf n k,
  nf <> 0 -> length samples = n * nf -> length centroids = k * nf -> 0 < k ->
  exists run, make_lloyd a samples nf centroids = Ok (run 0) /\ ll_centroids _ (run 0) = centroids /\
    forall t, lloyd_step a samples nf (run t) = Ok (run (S t)) /\
      length (ll_centroids _ (run t)) = k * nf /\
      nearest_assignment a samples nf n k (ll_centroids _ (run t)) (ll_indices _ (run t)) /\
      ll_loss _ (run t) = Some (total_distance a samples nf (ll_centroids _ (run t)) (ll_indices _ (run t))) /\
      centroids_after a samples nf k (ll_indices _ (run t)) (fun _ => repeat (n_zero a) nf) (ll_centroids _ (run (S t))).
Proof.
  intros Ha samples centroids nf n k Hnf Hs Hc Hk.
  destruct (make_lloyd_ok a Ha samples nf n k Hnf Hs centroids Hk Hc) as (l0 & E0 & Hc0 & Hi0).
  set (next := fun l => match lloyd_step a samples nf l with Ok l' => l' | _ => l end).
  set (run := fun t => Nat.iter t next l0).
  assert (Hrun : forall t, lloyd_inv a samples nf n k (run t)).
  { induction t; [exact Hi0|]. change (run (S t)) with (next (run t)). unfold next.
    destruct (lloyd_step_ok a Ha samples nf n k Hnf Hs (run t) Hk IHt) as (l' & -> & H & _). auto. }
  exists run. splits; auto. intros t. pose proof (Hrun t) as (H1 & H2 & H3).
  destruct (lloyd_step_ok a Ha samples nf n k Hnf Hs (run t) Hk (Hrun t)) as (l' & E & _ & H).
  assert (Er : run (S t) = l') by (change (run (S t)) with (next (run t)); unfold next; now rewrite E).
  rewrite Er. splits; auto. apply (first_nearest_is_nearest a); auto.
Qed.

(** Four samples on a line, three centroids; nobody is near the last one and it moves to the origin. *)
Example c44_lloyd_case :
  (l <- make_lloyd line (qs [1; 2; 9; 12]%Z) 1 (qs [3; 8; 50]%Z) ;;
   l' <- lloyd_step line (qs [1; 2; 9; 12]%Z) 1 l ;;
   Ok (ll_indices _ l, option_map this (ll_loss _ l), map this (ll_centroids _ l'), ll_indices _ l', option_map this (ll_loss _ l'),
       members (ll_indices _ l) 2))
  = Ok ([0; 0; 1; 1], Some 8%Q, [3 # 2; 21 # 2; 0]%Q, [0; 0; 1; 1], Some 4%Q, []).
Proof. vm_compute. reflexivity. Qed.

(** ** C45 *)
Theorem c45_hamerly_steps (a : arith) : arith_ok a -> metric_laws a -> forall samples centroids nf n k,
  nf <> 0 -> length samples = n * nf -> length centroids = k * nf -> 0 < k -> no_tie a samples nf n k centroids ->
  exists run, make_hamerly a samples nf centroids = Ok (run 0) /\ h_centroids _ (run 0) = centroids /\
    nearest_assignment a samples nf n k centroids (h_indices _ (run 0)) /\
    forall t, hamerly_step a samples nf (run t) = Ok (run (S t)) /\
      length (h_centroids _ (run t)) = k * nf /\
      nearest_assignment a samples nf n k (h_centroids _ (run t)) (h_indices _ (run (S t))) /\
      centroids_after a samples nf k (h_indices _ (run (S t))) (row (h_centroids _ (run t)) nf) (h_centroids _ (run (S t))).
Proof.
  intros Ha Hm samples centroids nf n k Hnf Hs Hc Hk Htie.
  destruct (make_hamerly_ok a Ha samples nf n k Hnf Hs Hm centroids Hk Hc Htie) as (h0 & E0 & Hi0 & Hc0 & Hn0).
  set (next := fun h => match hamerly_step a samples nf h with Ok h' => h' | _ => h end).
  set (run := fun t => Nat.iter t next h0).
  assert (Hrun : forall t, hamerly_inv a samples nf n k (run t)).
  { induction t; [exact Hi0|]. change (run (S t)) with (next (run t)). unfold next.
    destruct (hamerly_step_ok a Ha samples nf n k Hnf Hs Hm (run t) Hk IHt) as (l' & -> & H & _). auto. }
  exists run. splits; auto. intros t. pose proof (Hrun t) as (H1 & _).
  destruct (hamerly_step_ok a Ha samples nf n k Hnf Hs Hm (run t) Hk (Hrun t)) as (l' & E & _ & H2 & H3).
  assert (Er : run (S t) = l') by (change (run (S t)) with (next (run t)); unfold next; now rewrite E).
  rewrite Er. splits; auto.
Qed.

(** Six samples, three centroids, no ties: the second step moves a sample to another cluster. *)
Example c45_case :
  (h <- make_hamerly line (qs [0; 1; 2; 6; 9; 20]%Z) 1 (qs [0; 3; 4]%Z) ;;
   h1 <- hamerly_step line (qs [0; 1; 2; 6; 9; 20]%Z) 1 h ;;
   h2 <- hamerly_step line (qs [0; 1; 2; 6; 9; 20]%Z) 1 h1 ;;
   Ok (h_indices _ h, map this (h_centroids _ h1), h_indices _ h2, map this (h_centroids _ h2)))
  = Ok ([0; 0; 1; 2; 2; 2], [1 # 2; 2; 35 # 3]%Q, [0; 0; 1; 1; 2; 2], [1 # 2; 4; 29 # 2]%Q).
Proof. vm_compute. reflexivity. Qed.

Example c45_case_no_tie : no_tie line (qs [0; 1; 2; 6; 9; 20]%Z) 1 6 3 (qs [0; 3; 4]%Z).
Proof. apply no_tie_check. vm_compute. reflexivity. Qed.

(** With a tie at the start the clustering can come to rest although a sample is assigned to a centroid that is not nearest. *)
Definition run_hamerly (samples : list Qc) (centroids : list Qc) (t : nat) : res (hamerly line) :=
  h <- make_hamerly line samples 1 centroids ;; after t (hamerly_step line samples 1) h.

Theorem c45_tie_refuted : exists samples centroids h h' i j,
  run_hamerly samples centroids 5 = Ok h /\ hamerly_step line samples 1 h = Ok h' /\
  are_containers_equal line qc_eq (h_centroids _ h') (h_centroids _ h) = true /\
  i < length samples /\ j < length centroids /\
  n_lt line (n_dist line (row samples 1 i) (row (h_centroids _ h) 1 j))
            (n_dist line (row samples 1 i) (row (h_centroids _ h) 1 (nth i (h_indices _ h') 0))) = true.
Proof.
  set (samples := qs [0; 4; 3]%Z). set (centroids := qs [2; 4]%Z).
  assert (H : match run_hamerly samples centroids 5 with
    | Ok h => match hamerly_step line samples 1 h with
      | Ok h' => are_containers_equal line qc_eq (h_centroids _ h') (h_centroids _ h) &&
          n_lt line (n_dist line (row samples 1 2) (row (h_centroids _ h) 1 1))
            (n_dist line (row samples 1 2) (row (h_centroids _ h) 1 (nth 2 (h_indices _ h') 0)))
      | _ => false end
    | _ => false end = true) by (vm_compute; reflexivity).
  exists samples, centroids.
  destruct (run_hamerly samples centroids 5) as [h| | |]; try discriminate H. exists h.
  destruct (hamerly_step line samples 1 h) as [h'| | |]; try discriminate H. exists h'. exists 2, 1.
  apply andb_true_iff in H. destruct H. splits; auto; unfold samples, centroids, qs; rewrite map_length; simpl; lia.
Qed.

(** ** C61 *)
(** What [fit] returns, for a list of at least one candidate. *)
Definition candidates_of (a : arith) (o : options) (centroids : list (num a)) (initializer : nat -> list (num a)) : list (list (num a)) :=
  match centroids with [] => map initializer (seq 0 (n_init o)) | _ => [centroids] end.

(** With Lloyd's algorithm: every candidate is iterated until it stops, the first of least reported loss is returned. *)
Theorem c61_fit_lloyd (a : arith) : arith_ok a -> forall samples nf n k o close centroids initializer,
  nf <> 0 -> length samples = n * nf -> 0 < k ->
  candidates_of a o centroids initializer <> [] ->
  (forall c, In c (candidates_of a o centroids initializer) -> length c = k * nf) ->
  exists results i c loss,
    fit a (lloyd_algorithm a samples nf) o close centroids initializer = Ok c /\
    Forall2 (candidate_result a (lloyd_algorithm a samples nf) o close) (candidates_of a o centroids initializer) results /\
    nth_error results i = Some (c, loss) /\ (forall r, In r results -> e_lt a (snd r) loss = false).
Proof.
  intros Ha samples nf n k o close centroids initializer Hnf Hs Hk Hne Hlen.
  apply (fit_ok a (lloyd_algorithm a samples nf) o close centroids initializer _ eq_refl Hne (ok_order _ Ha)).
  intros cand Hin. specialize (Hlen cand Hin).
  destruct (c44_lloyd_steps a Ha samples cand nf n k Hnf Hs Hlen Hk) as (run & E0 & Ec & Hrun).
  apply (fit_candidate_ok a (lloyd_algorithm a samples nf) o close cand run); auto.
  - intros i. apply Hrun.
  - intros i Hnil. destruct (Hrun i) as (_ & Hl & _). simpl in Hnil. rewrite Hnil in Hl. simpl in Hl. nia.
Qed.

(** With Hamerly's algorithm, the default. *)
Theorem c61_fit_hamerly (a : arith) : arith_ok a -> metric_laws a -> forall samples nf n k o close centroids initializer,
  nf <> 0 -> length samples = n * nf -> 0 < k ->
  candidates_of a o centroids initializer <> [] ->
  (forall c, In c (candidates_of a o centroids initializer) -> length c = k * nf /\ no_tie a samples nf n k c) ->
  exists results i c loss,
    fit a (hamerly_algorithm a samples nf) o close centroids initializer = Ok c /\
    Forall2 (candidate_result a (hamerly_algorithm a samples nf) o close) (candidates_of a o centroids initializer) results /\
    nth_error results i = Some (c, loss) /\ (forall r, In r results -> e_lt a (snd r) loss = false).
Proof.
  intros Ha Hm samples nf n k o close centroids initializer Hnf Hs Hk Hne Hlen.
  apply (fit_ok a (hamerly_algorithm a samples nf) o close centroids initializer _ eq_refl Hne (ok_order _ Ha)).
  intros cand Hin. destruct (Hlen cand Hin) as (Hl & Htie).
  destruct (c45_hamerly_steps a Ha Hm samples cand nf n k Hnf Hs Hl Hk Htie) as (run & E0 & Ec & _ & Hrun).
  apply (fit_candidate_ok a (hamerly_algorithm a samples nf) o close cand run); auto.
  - intros i. apply Hrun.
  - intros i Hnil. destruct (Hrun i) as (_ & Hlen' & _). simpl in Hnil. rewrite Hnil in Hlen'. simpl in Hlen'. nia.
Qed.

Lemma same_eq {A} (close : A -> A -> bool) l r : (forall x y, close x y = true -> x = y) -> same close l r -> l = r.
Proof.
  intros Hex (H1 & H2). apply nth_error_ext. intros i. destruct (nth_error l i) as [x|] eqn:Ex.
  - destruct (nth_error r i) as [y|] eqn:Ey; [f_equal; eauto|]. apply nth_error_None in Ey. apply nth_error_lt in Ex. lia.
  - symmetry. apply nth_error_None. apply nth_error_None in Ex. lia.
Qed.

Lemma run_unique {S} (step : S -> res S) (r1 r2 : nat -> S) : r1 0 = r2 0 -> (forall i, step (r1 i) = Ok (r1 (Datatypes.S i))) ->
  (forall i, step (r2 i) = Ok (r2 (Datatypes.S i))) -> forall i, r1 i = r2 i.
Proof. intros H0 H1 H2. induction i; auto. pose proof (H1 i) as E1. rewrite IHi, H2 in E1. congruence. Qed.

(** A candidate that stops before the maximal number of iterations with tolerance 0 is a fixed point: its centroids are the
    means of the samples nearest to them. *)
Theorem c61_lloyd_fixed_point (a : arith) : arith_ok a -> forall samples nf n k o close cand c loss,
  nf <> 0 -> length samples = n * nf -> 0 < k -> length cand = k * nf ->
  (forall x y, close x y = true -> x = y) ->
  fit_candidate a (lloyd_algorithm a samples nf) o close cand = Ok (c, loss) ->
  (exists run, make_lloyd a samples nf cand = Ok (run 0) /\ (forall i, lloyd_step a samples nf (run i) = Ok (run (S i))) /\
     c = ll_centroids _ (run (max_iter o))) \/
  (exists asg, nearest_assignment a samples nf n k c asg /\ centroids_after a samples nf k asg (fun _ => repeat (n_zero a) nf) c).
Proof.
  intros Ha samples nf n k o close cand c loss Hnf Hs Hk Hl Hex E.
  destruct (c44_lloyd_steps a Ha samples cand nf n k Hnf Hs Hl Hk) as (run & E0 & Ec & Hrun).
  destruct (fit_candidate_ok a (lloyd_algorithm a samples nf) o close cand run) as (r & Er & Hr); auto.
  { intros i. apply Hrun. }
  { intros i Hnil. destruct (Hrun i) as (_ & Hlen' & _). simpl in Hnil. rewrite Hnil in Hlen'. simpl in Hlen'. nia. }
  rewrite E in Er. injection Er as <-. destruct Hr as (st & t & H0 & Hst & (Ht1 & Ht2 & _) & Hc & _). simpl in *.
  assert (Hsame : forall i, st i = run i) by (apply (run_unique (lloyd_step a samples nf)); [congruence|auto|intros; apply Hrun]).
  destruct Ht2 as [->|(_ & Hset)].
  - left. exists run. splits; [auto|intros; apply Hrun|]. rewrite <- Hsame. auto.
  - right. destruct (Hset 0) as (H2 & H3); [lia|]. apply same_eq in H3; auto. rewrite Nat.sub_0_r in H3.
    rewrite !Hsame in H3. rewrite Hsame in Hc. subst c. set (u := t - 1) in *. replace t with (S u) in * by lia.
    destruct (Hrun u) as (_ & _ & Hn & _ & Hca). exists (ll_indices _ (run u)). split; [now rewrite H3|exact Hca].
Qed.

Theorem c61_hamerly_fixed_point (a : arith) : arith_ok a -> metric_laws a -> forall samples nf n k o close cand c loss,
  nf <> 0 -> length samples = n * nf -> 0 < k -> length cand = k * nf -> no_tie a samples nf n k cand ->
  (forall x y, close x y = true -> x = y) ->
  fit_candidate a (hamerly_algorithm a samples nf) o close cand = Ok (c, loss) ->
  (exists run, make_hamerly a samples nf cand = Ok (run 0) /\ (forall i, hamerly_step a samples nf (run i) = Ok (run (S i))) /\
     c = h_centroids _ (run (max_iter o))) \/
  (exists asg, nearest_assignment a samples nf n k c asg /\ centroids_after a samples nf k asg (row c nf) c).
Proof.
  intros Ha Hm samples nf n k o close cand c loss Hnf Hs Hk Hl Htie Hex E.
  destruct (c45_hamerly_steps a Ha Hm samples cand nf n k Hnf Hs Hl Hk Htie) as (run & E0 & Ec & _ & Hrun).
  destruct (fit_candidate_ok a (hamerly_algorithm a samples nf) o close cand run) as (r & Er & Hr); auto.
  { intros i. apply Hrun. }
  { intros i Hnil. destruct (Hrun i) as (_ & Hlen' & _). simpl in Hnil. rewrite Hnil in Hlen'. simpl in Hlen'. nia. }
  rewrite E in Er. injection Er as <-. destruct Hr as (st & t & H0 & Hst & (Ht1 & Ht2 & _) & Hc & _). simpl in *.
  assert (Hsame : forall i, st i = run i) by (apply (run_unique (hamerly_step a samples nf)); [congruence|auto|intros; apply Hrun]).
  destruct Ht2 as [->|(_ & Hset)].
  - left. exists run. splits; [auto|intros; apply Hrun|]. rewrite <- Hsame. auto.
  - right. destruct (Hset 0) as (H2 & H3); [lia|]. apply same_eq in H3; auto. rewrite Nat.sub_0_r in H3.
    rewrite !Hsame in H3. rewrite Hsame in Hc. subst c. set (u := t - 1) in *. replace t with (S u) in * by lia.
    destruct (Hrun u) as (_ & _ & Hn & Hca). exists (h_indices _ (run (S u))). rewrite <- H3 in Hn, Hca. auto.
Qed.

(** Without centroids and with [n_init] 0 there is no candidate and the result is undefined. *)
Theorem c61_no_init_undefined (a : arith) alg o close initializer : n_init o = 0 -> fit a alg o close [] initializer = UB.
Proof. intros H. unfold fit. rewrite H. reflexivity. Qed.

(** Two initialisations, default options otherwise: the second candidate is the better one. *)
Definition two_inits : options := mk_options (max_iter default_options) (early_stopping default_options) (patience default_options) 2.
Definition pts7 : list Qc := qs [1; 2; 3; 10; 11; 30; 34]%Z.
Definition init7 (i : nat) : list Qc := if i =? 0 then qs [1; 2; 3]%Z else qs [1; 10; 30]%Z.
Example c61_case :
  (c <- fit line (lloyd_algorithm line pts7 1) two_inits qc_eq [] init7 ;; Ok (map this c)) = Ok [2; 21 # 2; 32]%Q /\
  (' (c, l) <- fit_candidate line (lloyd_algorithm line pts7 1) two_inits qc_eq (init7 0) ;; Ok (map this c, option_map this l))
    = Ok ([2; 21 # 2; 32]%Q, Some 7%Q).
Proof. split; vm_compute; reflexivity. Qed.

(** The first candidate ends in a worse local optimum; the second is returned. *)
Definition pts6 : list Qc := qs [0; 1; 10; 11; 20; 21]%Z.
Definition init6 (i : nat) : list Qc := if i =? 0 then qs [0; 1; 15]%Z else qs [0; 10; 20]%Z.
Example c61_choice_case :
  (' (c, l) <- fit_candidate line (lloyd_algorithm line pts6 1) two_inits qc_eq (init6 0) ;; Ok (map this c, option_map this l))
    = Ok ([0; 1; 31 # 2]%Q, Some 20%Q) /\
  (c <- fit line (lloyd_algorithm line pts6 1) two_inits qc_eq [] init6 ;; Ok (map this c)) = Ok [1 # 2; 21 # 2; 41 # 2]%Q /\
  (c <- fit line (hamerly_algorithm line pts6 1) default_options qc_eq [] init6 ;; Ok (map this c)) = Ok [0; 1; 31 # 2]%Q /\
  (c <- fit line (hamerly_algorithm line pts6 1) default_options qc_eq (init6 1) init6 ;; Ok (map this c)) = Ok [1 # 2; 21 # 2; 41 # 2]%Q.
Proof. splits; vm_compute; reflexivity. Qed.

(** The defaults, seen through an algorithm whose centroid is the number of steps done: 100 steps if the centroids keep moving, two
    steps (one comparison) if they count as equal, and one initialisation. *)
Definition counter (start : nat) : algorithm line :=
  mk_algorithm line (nat * list Qc) (fun c => Ok (start, c)) (fun '(i, c) => Ok (S i, c))
    (fun '(i, _) => qs [Z.of_nat i]) (fun '(_, c) => hd_error c).
Definition falling (i : nat) : list Qc := qs [5 - Z.of_nat i]%Z.
Example c61_defaults_case :
  (c <- fit line (counter 0) default_options qc_eq [] falling ;; Ok (map this c)) = Ok [100%Q] /\
  (c <- fit line (counter 0) default_options (fun _ _ => true) [] falling ;; Ok (map this c)) = Ok [2%Q] /\
  (c <- fit line (counter 0) (mk_options 0 true 0 2) qc_eq [] falling ;; Ok (map this c)) = Ok [4%Q].
Proof. splits; vm_compute; reflexivity. Qed.

(** ** C62 *)
(** The reported loss of a new Hamerly object is the sum of the distances to the nearest centroids. *)
Theorem c62_initial_loss (a : arith) : arith_ok a -> forall samples centroids nf n k h,
  nf <> 0 -> length samples = n * nf -> length centroids = k * nf -> 0 < k ->
  make_hamerly a samples nf centroids = Ok h ->
  nearest_assignment a samples nf n k centroids (h_indices _ h) /\
  h_loss _ h = Some (total_distance a samples nf centroids (h_indices _ h)).
Proof.
  intros Ha samples centroids nf n k h Hnf Hs Hc Hk E.
  destruct (assign_ok a Ha samples nf n k Hnf Hs centroids Hk Hc) as (asg & ds & E1 & E2 & H1 & H2 & H3).
  unfold make_hamerly in E. rewrite E1 in E. cbn [bind] in E. rewrite E2 in E. cbn [bind] in E.
  repeat (apply bind_ok in E; destruct E as (? & _ & E)). injection E as <-. cbn [h_indices h_loss]. split.
  - apply (first_nearest_is_nearest a); auto.
  - rewrite (total_ok a Ha samples nf n Hnf Hs ds _ H2 H3). unfold total_distance. now rewrite (proj1 H1).
Qed.

(** A swap leaves the other samples alone, and the loss if the sample stays. *)
Lemma swap_bound_loss (a : arith) samples nf i h h' : swap_bound a samples nf i h = Ok h' ->
  length (h_indices _ h') = length (h_indices _ h) /\
  (forall j, j <> i -> nth_error (h_indices _ h') j = nth_error (h_indices _ h) j) /\
  (nth_error (h_indices _ h') i = nth_error (h_indices _ h) i -> h_loss _ h' = h_loss _ h).
Proof.
  intros E. unfold swap_bound in E.
  apply bind_ok in E. destruct E as (as_ & Eas & E). apply bind_ok in E. destruct E as (nb & _ & E).
  apply bind_ok in E. destruct E as (sc & _ & E). cbv zeta in E. apply bind_ok in E. destruct E as (u & _ & E).
  destruct (e_lt a _ u); [|injection E as <-; auto].
  apply bind_ok in E. destruct E as (ub & _ & E). apply bind_ok in E. destruct E as (nr & _ & E).
  destruct (e_lt a _ ub); [|injection E as <-; auto].
  apply bind_ok in E. destruct E as (((lb, ub'), na) & _ & E). apply bind_ok in E. destruct E as (sc' & _ & E).
  destruct (Nat.eqb_spec as_ na) as [|Hn]; [injection E as <-; auto|].
  apply bind_ok in E. destruct E as (nr' & _ & E). apply bind_ok in E. destruct E as (os & _ & E).
  apply bind_ok in E. destruct E as (sz & _ & E). apply bind_ok in E. destruct E as (ns & _ & E).
  apply bind_ok in E. destruct E as (sz' & _ & E). apply bind_ok in E. destruct E as (ix & Eix & E).
  apply bind_ok in E. destruct E as (s1 & _ & E). apply bind_ok in E. destruct E as (s2 & _ & E).
  injection E as <-. cbn [h_indices h_loss] in *. apply wr_ok in Eix. destruct Eix as (Hi & ->). apply rd_ok in Eas.
  rewrite upd_length. splits; auto.
  - intros j Hj. now rewrite nth_error_upd_neq by auto.
  - intros Heq. rewrite nth_error_upd_eq, Eas in Heq by auto. congruence.
Qed.

(** A step that reassigns no sample leaves the reported loss as it is, however far the centroids move. *)
Theorem c62_stale_loss (a : arith) samples nf h h' : hamerly_step a samples nf h = Ok h' ->
  h_indices _ h' = h_indices _ h -> h_loss _ h' = h_loss _ h.
Proof.
  intros E Hsame. unfold hamerly_step in E.
  apply bind_ok in E. destruct E as (h1 & E1 & E). apply bind_ok in E. destruct E as (new & _ & E).
  apply bind_ok in E. destruct E as (vel & _ & E). unfold update_bounds in E. cbn [h_indices h_loss h_velocities h_centroids h_nearest h_second] in E.
  apply bind_ok in E. destruct E as ((fi & f) & _ & E). apply bind_ok in E. destruct E as ((si & sm) & _ & E).
  apply bind_ok in E. destruct E as (ns & _ & E). apply bind_ok in E. destruct E as ((nr, sc) & _ & E).
  apply bind_ok in E. destruct E as (nb & _ & E). injection E as <-. cbn [h_indices h_loss h_sizes] in *.
  unfold swap_bounds in E1. apply bind_ok in E1. destruct E1 as (n & _ & E1).
  assert (G : forall count first x y, for_loop count first (swap_bound a samples nf) x = Ok y ->
    length (h_indices _ y) = length (h_indices _ x) /\
    (forall j, j < first \/ first + count <= j -> nth_error (h_indices _ y) j = nth_error (h_indices _ x) j) /\
    (h_indices _ y = h_indices _ x -> h_loss _ y = h_loss _ x)).
  { clear. induction count as [|count IH]; intros first x y E; simpl in E.
    - injection E as <-. auto.
    - apply bind_ok in E. destruct E as (z & Ez & E). apply swap_bound_loss in Ez. apply IH in E.
      destruct Ez as (L1 & O1 & S1), E as (L2 & O2 & S2). splits; [congruence| |].
      + intros j Hj. rewrite O2 by lia. apply O1. lia.
      + intros Heq. assert (Hz : h_indices _ z = h_indices _ x).
        { apply nth_error_ext. intros j. destruct (Nat.eq_dec j first) as [->|Hn]; auto.
          rewrite <- Heq. symmetry. apply O2. lia. }
        rewrite S2 by congruence. apply S1. now rewrite Hz. }
  apply G in E1. now apply E1.
Qed.

(** In general the loss changes by the difference between the distance to the new centroid and the stored upper bound of the
    old one, for the reassigned samples only. *)
Lemma swap_bound_change (a : arith) (Ha : arith_ok a) (Hm : metric_laws a) samples nf n k : nf <> 0 -> length samples = n * nf ->
  forall h i h' u, hamerly_inv a samples nf n k h -> i < n -> nth i (h_nearest _ h) None = Some u -> swap_bound a samples nf i h = Ok h' ->
  (forall j, j <> i -> nth j (h_nearest _ h') None = nth j (h_nearest _ h) None) /\
  h_loss _ h' =
    if nth i (h_indices _ h') 0 =? nth i (h_indices _ h) 0 then h_loss _ h
    else match h_loss _ h with
         | Some x => Some (n_add a (n_sub a x u) (n_dist a (row samples nf i) (row (h_centroids _ h) nf (nth i (h_indices _ h') 0))))
         | None => None
         end.
Proof.
  intros Hnf Hs h i h' u (Hc & Hv & Hcl & Hb) Hi Hu E. destruct Hb as (B1 & B2 & B3 & B4 & B5 & B6).
  pose proof Hcl as (C1 & C2 & C3 & C4 & C5). unfold swap_bound in E. rewrite nth_all in E by lia. cbn [bind] in E.
  set (as_ := nth i (h_indices _ h) 0) in *. pose proof (C2 i Hi : as_ < k) as Has.
  apply bind_ok in E. destruct E as (nb & _ & E). apply bind_ok in E. destruct E as (sc & _ & E). cbv zeta in E.
  apply bind_ok in E. destruct E as (u' & Eu & E). apply rd_ok in Eu. rewrite (nth_error_nth _ _ _ Eu) in Hu. subst u'.
  destruct (e_lt a _ (Some u)); [|injection E as <-; fold as_; rewrite Nat.eqb_refl; auto].
  rewrite (one_distance (e_dist a) samples (h_centroids _ h) nf n k) in E by auto. cbn [bind] in E. rewrite wr_lt in E by lia. cbn [bind] in E.
  assert (Hn1 : forall x j, j <> i -> nth j (upd (h_nearest _ h) i x) None = nth j (h_nearest _ h) None)
    by (intros x j Hj; rewrite nth_upd by lia; destruct (Nat.eqb_spec j i); congruence).
  destruct (e_lt a _ (e_dist a _ _)); [|injection E as <-; cbn [h_nearest h_indices h_loss]; fold as_; rewrite Nat.eqb_refl; auto].
  cbn [h_centroids h_indices h_nearest h_second h_neighbors h_sizes h_sums h_velocities h_loss] in E.
  destruct (other_ok a Ha samples nf n k Hnf Hs Hm (h_centroids _ h) i as_ _ Hc Hi Has eq_refl) as (lb & na & Eo & Hna & _).
  unfold e_dist in E at 1. rewrite Eo in E. cbn [bind] in E. rewrite wr_lt in E by lia. cbn [bind] in E.
  cbn [h_centroids h_indices h_nearest h_second h_neighbors h_sizes h_sums h_velocities h_loss] in E.
  destruct (Nat.eqb_spec as_ na) as [|Hn].
  { injection E as <-. cbn [h_nearest h_indices h_loss]. fold as_. rewrite Nat.eqb_refl. auto. }
  rewrite wr_lt in E by (rewrite upd_length; lia). cbn [bind] in E.
  do 4 (apply bind_ok in E; destruct E as (? & _ & E)). rewrite wr_lt in E by lia. cbn [bind] in E.
  do 2 (apply bind_ok in E; destruct E as (? & _ & E)). injection E as <-. cbn [h_nearest h_indices h_loss]. split.
  - intros j Hj. rewrite nth_upd by (rewrite upd_length; lia). destruct (Nat.eqb_spec j i); [congruence|]. now apply Hn1.
  - rewrite nth_upd by lia. rewrite Nat.eqb_refl. destruct (Nat.eqb_spec na as_); [congruence|].
    destruct (h_loss _ h); reflexivity.
Qed.

Theorem c62_step_loss (a : arith) : arith_ok a -> metric_laws a -> forall samples centroids nf n k,
  nf <> 0 -> length samples = n * nf -> length centroids = k * nf -> 0 < k -> no_tie a samples nf n k centroids ->
  exists run, make_hamerly a samples nf centroids = Ok (run 0) /\
    forall t, hamerly_step a samples nf (run t) = Ok (run (S t)) /\
      h_loss _ (run (S t)) = loss_after a samples nf n (run t) (h_indices _ (run (S t))).
Proof.
  intros Ha Hm samples centroids nf n k Hnf Hs Hc Hk Htie.
  destruct (make_hamerly_ok a Ha samples nf n k Hnf Hs Hm centroids Hk Hc Htie) as (h0 & E0 & Hi0 & _).
  set (next := fun h => match hamerly_step a samples nf h with Ok h' => h' | _ => h end).
  set (run := fun t => Nat.iter t next h0).
  assert (Hrun : forall t, hamerly_inv a samples nf n k (run t)).
  { induction t; [exact Hi0|]. change (run (S t)) with (next (run t)). unfold next.
    destruct (hamerly_step_ok a Ha samples nf n k Hnf Hs Hm (run t) Hk IHt) as (l' & -> & H & _). auto. }
  exists run. split; auto. intros t. pose proof (Hrun t) as Hinv.
  destruct (hamerly_step_ok a Ha samples nf n k Hnf Hs Hm (run t) Hk (Hrun t)) as (l' & E & _).
  assert (Er : run (S t) = l') by (change (run (S t)) with (next (run t)); unfold next; now rewrite E).
  rewrite Er. split; auto. clear Er. set (h := run t) in *. clearbody h. clear run Hrun E0 Hi0 t.
  unfold hamerly_step in E. apply bind_ok in E. destruct E as (h1 & E1 & E).
  apply bind_ok in E. destruct E as (new & _ & E). apply bind_ok in E. destruct E as (vel & _ & E).
  unfold update_bounds in E. cbn [h_indices h_loss h_velocities h_centroids h_nearest h_second] in E.
  apply bind_ok in E. destruct E as ((fi & f) & _ & E). apply bind_ok in E. destruct E as ((si & sm) & _ & E).
  apply bind_ok in E. destruct E as (ns & _ & E). apply bind_ok in E. destruct E as ((nr, sc) & _ & E).
  apply bind_ok in E. destruct E as (nb & _ & E). injection E as <-. cbn [h_indices h_loss] in *.
  unfold swap_bounds in E1. destruct (n_rows samples samples nf n n Hnf Hs Hs) as (En & _). rewrite En in E1. cbn [bind] in E1.
  unfold loss_after.
  destruct (for_loop_inv (fun done x => hamerly_inv a samples nf n k x /\ h_centroids _ x = h_centroids _ h /\
     (forall j, done <= j -> nth j (h_indices _ x) 0 = nth j (h_indices _ h) 0 /\ nth j (h_nearest _ x) None = nth j (h_nearest _ h) None) /\
     forall asg', (forall j, j < done -> nth j asg' 0 = nth j (h_indices _ x) 0) ->
     h_loss _ x = fold_left (fun loss i =>
       if nth i asg' 0 =? nth i (h_indices a h) 0 then loss
       else match loss, nth i (h_nearest a h) None with
         | Some x, Some u => Some (n_add a (n_sub a x u) (n_dist a (row samples nf i) (row (h_centroids a h) nf (nth i asg' 0))))
         | _, _ => None
         end) (seq 0 done) (h_loss a h)) (swap_bound a samples nf) n 0 h) as (x & Ex & _ & _ & _ & HP).
  - splits; auto.
  - intros i x Hi (H1 & H2 & H3 & H4).
    destruct (swap_bound_ok a Ha samples nf n k Hnf Hs Hm x i H1 ltac:(lia)) as (x' & Ex & G1 & G2 & G3 & _).
    destruct (H3 i (Nat.le_refl _)) as (F1 & F2).
    assert (Hu : exists u, nth i (h_nearest _ x) None = Some u).
    { destruct H1 as (_ & _ & _ & _ & _ & _ & B4 & _). destruct (B4 i ltac:(lia)) as (u & Eu & _). exists u.
      now rewrite (nth_error_nth _ _ _ Eu). }
    destruct Hu as (u & Hu).
    destruct (swap_bound_change a Ha Hm samples nf n k Hnf Hs x i x' u H1 ltac:(lia) Hu Ex) as (G5 & G6).
    exists x'. splits; auto; [congruence| |].
    + intros j Hj. destruct (H3 j ltac:(lia)) as (K1 & K2). rewrite G3, G5 by lia. auto.
    + intros asg' Hasg. rewrite seq_S, fold_left_app. simpl. rewrite <- (H4 asg').
      2:{ intros j Hj. rewrite <- (G3 j) by lia. apply Hasg. lia. }
      rewrite G6, <- F2, Hu, F1, (Hasg i) by lia. rewrite H2. reflexivity.
  - rewrite E1 in Ex. injection Ex as <-. now apply HP.
Qed.

Definition losses (samples centroids : list Qc) (steps : nat) : res (list (option Q)) :=
  h <- make_hamerly line samples 1 centroids ;;
  ' (_, l) <- for_loop steps 0 (fun _ '(h, l) => h' <- hamerly_step line samples 1 h ;; Ok (h', l ++ [option_map this (h_loss _ h')]))
                (h, [option_map this (h_loss _ h)]) ;;
  Ok l.
(** The second and third step reassign a sample each. *)
Example c62_step_case : losses (qs [0; 3; 5; 20]%Z) (qs [0; 1]%Z) 4 = Ok [Some 25; Some 25; Some (53 # 3); Some (41 # 3); Some (41 # 3)]%Q.
Proof. vm_compute. reflexivity. Qed.
Example c62_step_case_no_tie : no_tie line (qs [0; 3; 5; 20]%Z) 1 4 2 (qs [0; 1]%Z).
Proof. apply no_tie_check. vm_compute. reflexivity. Qed.

(** Hence the loss can be wrong, and with several initialisations [fit] can return the worse candidate: no ties, and both
    candidates come to rest. *)
Definition pts4 : list Qc := qs [8; 9; 3; 6]%Z.
Definition init4 (i : nat) : list Qc := if i =? 0 then qs [3; 6]%Z else qs [6; 8]%Z.
Definition deviation (samples centroids : list Qc) : res (option Q) :=
  d <- samples_to_nearest_centroid_distances (e_lt line) None (e_dist line) samples 1 centroids ;; Ok (option_map this (total line d)).

Lemma fit_two (a : arith) alg o close init c0 l0 c1 l1 : n_init o = 2 ->
  fit_candidate a alg o close (init 0) = Ok (c0, Some l0) -> fit_candidate a alg o close (init 1) = Ok (c1, Some l1) ->
  n_lt a l1 l0 = true -> fit a alg o close [] init = Ok c1.
Proof.
  intros Hn E0 E1 Hl. unfold fit. rewrite Hn. cbn [seq map for_each]. rewrite E0. cbn [bind]. rewrite E1.
  cbn [bind app map snd get_max_index_value_pair max_element_from e_lt]. rewrite Hl. reflexivity.
Qed.

Definition worse (r r' : res (list Qc * ext line)) : bool :=
  match r, r' with
  | Ok (c, Some l), Ok (c', Some l') =>
    match deviation pts4 c, deviation pts4 c' with
    | Ok (Some d), Ok (Some d') => negb (Qle_bool d d') && n_lt line l l'
    | _, _ => false end
  | _, _ => false end.
Lemma worse_true r r' : worse r r' = true -> exists c l c' l' d d',
  r = Ok (c, Some l) /\ r' = Ok (c', Some l') /\ n_lt line l l' = true /\
  deviation pts4 c = Ok (Some d) /\ deviation pts4 c' = Ok (Some d') /\ (d' < d)%Q.
Proof.
  unfold worse. destruct r as [(c, [l|])| | |]; try discriminate. destruct r' as [(c', [l'|])| | |]; try discriminate.
  destruct (deviation pts4 c) as [[d|]| | |] eqn:D; intros H; try discriminate H.
  destruct (deviation pts4 c') as [[d'|]| | |] eqn:D'; try discriminate H. apply andb_true_iff in H. destruct H as (H1 & H2). exists c, l, c', l', d, d'. splits; auto.
  apply negb_true_iff in H1. apply Qnot_le_lt. intros Hle. apply Qle_bool_iff in Hle. congruence.
Qed.

Theorem c62_fit_choice_refuted : exists samples (init : nat -> list Qc) c c' loss loss' dev dev',
  no_tie line samples 1 4 2 (init 0) /\ no_tie line samples 1 4 2 (init 1) /\
  fit line (hamerly_algorithm line samples 1) two_inits qc_eq [] init = Ok c /\
  fit_candidate line (hamerly_algorithm line samples 1) two_inits qc_eq (init 1) = Ok (c, Some loss) /\
  fit_candidate line (hamerly_algorithm line samples 1) two_inits qc_eq (init 0) = Ok (c', Some loss') /\
  deviation samples c = Ok (Some dev) /\ deviation samples c' = Ok (Some dev') /\ (dev' < dev)%Q.
Proof.
  assert (H : worse (fit_candidate line (hamerly_algorithm line pts4 1) two_inits qc_eq (init4 1))
                    (fit_candidate line (hamerly_algorithm line pts4 1) two_inits qc_eq (init4 0)) = true) by (vm_compute; reflexivity).
  destruct (worse_true _ _ H) as (c & l & c' & l' & d & d' & E1 & E0 & Hl & D & D' & Hd).
  exists pts4, init4, c, c', l, l', d, d'.
  split; [apply no_tie_check; vm_compute; reflexivity|]. split; [apply no_tie_check; vm_compute; reflexivity|].
  split; [exact (fit_two line _ two_inits _ init4 _ _ _ _ eq_refl E0 E1 Hl)|].
  split; [exact E1|]. split; [exact E0|]. split; [exact D|]. split; [exact D'|exact Hd].
Qed.

(** The candidates of that case: reported losses 5 and 4, true deviations 10/3 and 4. *)
Example c62_case :
  (' (c, l) <- fit_candidate line (hamerly_algorithm line pts4 1) two_inits qc_eq (init4 0) ;;
   d <- deviation pts4 c ;; Ok (map this c, option_map this l, d)) = Ok ([3; 23 # 3]%Q, Some 5%Q, Some (10 # 3)%Q) /\
  (' (c, l) <- fit_candidate line (hamerly_algorithm line pts4 1) two_inits qc_eq (init4 1) ;;
   d <- deviation pts4 c ;; Ok (map this c, option_map this l, d)) = Ok ([9 # 2; 17 # 2]%Q, Some 4%Q, Some 4%Q).
Proof. split; vm_compute; reflexivity. Qed.

Print Assumptions c44_predict_nearest.
Print Assumptions c44_integer_predict_constant.
Print Assumptions c44_integer_nearest_refuted.
Print Assumptions c44_lloyd_steps.
Print Assumptions c45_hamerly_steps.
Print Assumptions c45_tie_refuted.
Print Assumptions c61_fit_lloyd.
Print Assumptions c61_fit_hamerly.
Print Assumptions c61_lloyd_fixed_point.
Print Assumptions c61_hamerly_fixed_point.
Print Assumptions c61_no_init_undefined.
Print Assumptions c62_initial_loss.
Print Assumptions c62_stale_loss.
Print Assumptions c62_step_loss.
Print Assumptions c62_fit_choice_refuted.
