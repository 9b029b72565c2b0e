(** C102: k-medoids and the unit of the distances. *)
From Coq Require Import List Arith ZArith QArith Qabs Lia Lqa Bool.
From Verif Require Import Base SortingModel BoundsModel BufferModel SearchModel MatrixModel KMeansModel RandomModel KMedoidsModel KMedoidsSpec
  KMedoidsProps MscModel MscSpec AliasProofs MscProps AffineProofs MedoidUnitSpec MedoidUnitProofs MscUnitProofs.
Import ListNotations.
Local Open Scope nat_scope.

(** ** FasterPAM, distances are integers *)
Section Pam.
Context (c top : Z) (src src' : source Z).

(** [fit] returns the same medoids, or fails in the same way. *)
Theorem c102_fit o k medoids draw : other_unit c top src src' -> (0 < top)%Z ->
  medoids_fit signed_wrap top src' o k medoids draw = medoids_fit signed_wrap top src o k medoids draw.
Proof. intros U. apply (fit_unit c top src src' U). Qed.

(** Constructing FasterPAM and calling [step]: the same medoids and assignments; the reported loss is in the other unit. *)
Theorem c102_steps medoids t p : other_unit c top src src' -> (0 < top)%Z ->
  (q <- make_pam signed_wrap top src medoids ;; steps t (pam_step signed_wrap src) q) = Ok p ->
  exists p', (q <- make_pam signed_wrap top src' medoids ;; steps t (pam_step signed_wrap src') q) = Ok p' /\
    p_medoids p' = p_medoids p /\ p_nearest p' = p_nearest p /\ p_second p' = p_second p /\ p_loss p' = (c * p_loss p)%Z.
Proof.
  intros U Ht E.
  assert (G : rsim (MedoidUnitProofs.alike c top src) (q <- make_pam signed_wrap top src medoids ;; steps t (pam_step signed_wrap src) q)
    (q <- make_pam signed_wrap top src' medoids ;; steps t (pam_step signed_wrap src') q)).
  { apply (rsim_bind (MedoidUnitProofs.alike c top src)); [apply (make_unit c top src src' U)|]. clear E. induction t as [|t IH]; intros q q' K; cbn [steps]; auto.
    apply (rsim_bind (MedoidUnitProofs.alike c top src)); auto. now apply step_unit. }
  rewrite E in G. destruct (bind _ _) as [p'| | |] in G |- *; cbn in G; try contradiction. exists p'. split; auto. destruct G. auto.
Qed.

(** [predict] and [forward]. *)
Theorem c102_predict medoids : other_unit c top src src' ->
  samples_to_nearest_medoid_indices Z.ltb top src' medoids = samples_to_nearest_medoid_indices Z.ltb top src medoids.
Proof. intros U. apply (nearest_indices_unit c top src src' U). Qed.

Theorem c102_forward medoids ds : other_unit c top src src' -> samples_to_nearest_medoid_distances Z.ltb top src medoids = Ok ds ->
  samples_to_nearest_medoid_distances Z.ltb top src' medoids = Ok (map (Z.mul c) ds).
Proof.
  intros U E. pose proof (nearest_distances_unit c top src src' U medoids) as H. rewrite E in H.
  destruct (samples_to_nearest_medoid_distances Z.ltb top src' medoids) as [ds'| | |]; cbn in H; try contradiction. f_equal.
  destruct H as (HL & H). clear E. revert ds' HL H. induction ds as [|d ds IH]; intros [|d' ds'] HL H; cbn in HL; try lia; auto.
  cbn [map]. f_equal; [apply (H 0 d d' eq_refl eq_refl)|]. apply IH; [lia|]. intros i. apply (H (S i)).
Qed.
End Pam.

(** ** Samples *)
Lemma manhattan_converted scale shift : forall l r, manhattan_distance (converted scale shift l) (converted scale shift r) =
  res_map (Z.mul (Z.abs scale)) (manhattan_distance l r).
Proof.
  induction l as [|x l IH]; intros [|y r]; cbn [converted map manhattan_distance res_map]; auto; try (f_equal; lia).
  fold (converted scale shift l) (converted scale shift r). rewrite IH. destruct (manhattan_distance l r); cbn; auto. f_equal.
  rewrite Z.mul_add_distr_l, <- Z.abs_mul. f_equal. f_equal. ring.
Qed.

Lemma manhattan_sum : forall l r d, manhattan_distance l r = Ok d ->
  d = fold_right Z.add 0%Z (map (fun f => Z.abs (nth f l 0 - nth f r 0)%Z) (seq 0 (length l))).
Proof.
  induction l as [|x l IH]; intros [|y r] d; cbn [manhattan_distance]; try discriminate.
  - intros E. now injection E as <-.
  - intros E. now injection E as <-.
  - intros E. apply bind_ok in E. destruct E as (e & He & E). injection E as <-. cbn [length seq map fold_right nth]. f_equal.
    rewrite (IH r e He). rewrite <- seq_shift, map_map. reflexivity.
Qed.

Lemma nth_row : forall (s : list Z) a w f, f < w -> nth f (firstn w (skipn a s)) 0%Z = nth (a + f) s 0%Z.
Proof.
  intros s a w f Hf. replace (nth f (firstn w (skipn a s)) 0%Z) with (nth f (skipn a s) 0%Z).
  - revert s. induction a as [|a IH]; intros s; auto. destruct s as [|x s]; [now destruct f|]. apply IH.
  - generalize (skipn a s). clear s a. revert f Hf. induction w as [|w IH]; intros f Hf l; [lia|].
    destruct l as [|x l]; [now rewrite firstn_nil|]. destruct f as [|f]; cbn [firstn nth]; auto. apply IH. lia.
Qed.

(** The same samples in another unit, or moved, or mirrored. *)
Theorem c102_samples scale shift top samples n_features src : scale <> 0%Z -> in_range scale top samples n_features ->
  samples_source int_metric samples n_features = Ok src ->
  exists src', samples_source int_metric (converted scale shift samples) n_features = Ok src' /\ other_unit (Z.abs scale) top src src'.
Proof.
  intros Hs Hr. unfold samples_source, get_n_samples. unfold converted at 1. rewrite map_length. fold (converted scale shift samples).
  destruct (n_features =? 0); [discriminate|]. cbn [bind]. intros E. injection E as <-. eexists. split; [reflexivity|].
  assert (G : forall i j, dynamic_at int_metric (converted scale shift samples) n_features i j =
    res_map (Z.mul (Z.abs scale)) (dynamic_at int_metric samples n_features i j)).
  { intros i j. unfold dynamic_at, sample_at, slice. unfold converted at 1 3. rewrite !map_length.
    destruct ((i * n_features <=? i * n_features + n_features) && (i * n_features + n_features <=? length samples)); [|reflexivity]. cbn [bind].
    destruct ((j * n_features <=? j * n_features + n_features) && (j * n_features + n_features <=? length samples)); [|reflexivity]. cbn [bind].
    cbn [m_auto int_metric]. rewrite <- (manhattan_converted scale shift). unfold converted. now rewrite !skipn_map, !firstn_map. }
  split; cbn [rows dist_at].
  - lia.
  - reflexivity.
  - intros i j d Hd. rewrite G, Hd. split; [reflexivity|].
    unfold dynamic_at, sample_at, slice in Hd. destruct (Nat.leb_spec (i * n_features + n_features) (length samples)) as [Hi|]; [|rewrite andb_false_r in Hd; discriminate].
    rewrite (proj2 (Nat.leb_le _ _)) in Hd by lia. cbn [bind andb] in Hd.
    destruct (Nat.leb_spec (j * n_features + n_features) (length samples)) as [Hj|]; [|rewrite andb_false_r in Hd; discriminate].
    rewrite (proj2 (Nat.leb_le _ _)) in Hd by lia. cbn [bind andb m_auto int_metric] in Hd. apply manhattan_sum in Hd.
    rewrite firstn_length, skipn_length in Hd.
    replace (Nat.min (i * n_features + n_features - i * n_features) (length samples - i * n_features)) with n_features in Hd by lia.
    specialize (Hr i j). cbn zeta in Hr. replace d with (fold_right Z.add 0%Z
      (map (fun f => Z.abs (nth (i * n_features + f) samples 0 - nth (j * n_features + f) samples 0)%Z) (seq 0 n_features))).
    + apply Hr; cbn; lia.
    + rewrite Hd. f_equal. apply map_ext_in. intros f Hf. apply in_seq in Hf. rewrite !nth_row by lia. reflexivity.
  - intros i j Hd. now rewrite G, Hd.
  - intros i j Hd. now rewrite G, Hd.
  - intros i j Hd. unfold dynamic_at, sample_at, slice in Hd.
    destruct ((i * n_features <=? i * n_features + n_features) && (i * n_features + n_features <=? length samples)); [|discriminate].
    destruct ((j * n_features <=? j * n_features + n_features) && (j * n_features + n_features <=? length samples)); [|discriminate].
    cbn [bind m_auto int_metric] in Hd. revert Hd. generalize (firstn (i * n_features + n_features - i * n_features) (skipn (i * n_features) samples)).
    generalize (firstn (j * n_features + n_features - j * n_features) (skipn (j * n_features) samples)). intros r l. revert r.
    induction l as [|x l IH]; intros [|y r]; cbn [manhattan_distance]; try discriminate. specialize (IH r).
    destruct (manhattan_distance l r); cbn [bind]; auto; discriminate.
Qed.

(** ** FasterMSC with three medoids or more, distances are rational numbers *)
(** Construction and any number of steps: the same medoids and assignments.  The loss reported by the construction is in the other
    unit; after the first exchange both report the same loss. *)
Theorem c102_msc eps top c dist n src src' M t : provides src n dist -> provides src' n (fun i j => c * dist i j)%Q -> (0 < c)%Q ->
  (0 <= eps)%Q -> above_tolerance eps c dist n -> (forall m, In m M -> m < n) -> 3 <= length M -> separated eps top dist n M ->
  separated eps top (fun i j => c * dist i j)%Q n M ->
  exists p p' q q', make_msc eps top src M = Ok p /\ make_msc eps top src' M = Ok p' /\
    steps t (msc_step eps src) p = Ok q /\ steps t (msc_step eps src') p' = Ok q' /\
    s_medoids q' = s_medoids q /\ s_nearest q' = s_nearest q /\ s_second q' = s_second q /\ s_third q' = s_third q /\
    (total_deviation p' == c * total_deviation p)%Q /\ ((q = p /\ q' = p') \/ (total_deviation q' == total_deviation q)%Q).
Proof.
  intros Hsrc Hsrc' Hc Heps Hg HM H3 Hs Hs'.
  destruct (make_sim eps top c dist n src src' Hsrc Hsrc' Hc Heps Hg M HM H3 Hs Hs') as (p & p' & Ep & Ep' & Em & K & Hl).
  pose proof (steps_sim eps c dist n src src' Hsrc Hsrc' Hc Heps Hg p p' K t) as G.
  destruct (c72_construction_any eps top dist n src M Hsrc Heps HM ltac:(lia)) as (p1 & Ep1 & _ & W & _). rewrite Ep in Ep1. injection Ep1 as <-.
  destruct (c72_steps_safe eps dist n src p t Hsrc W) as (q & Eq & _). rewrite Eq in G.
  destruct (steps t (msc_step eps src') p') as [q'| | |] eqn:Eq'; cbn in G; try contradiction. destruct G as (Kq & Ho).
  exists p, p', q, q'. do 4 (split; [auto|]). destruct Kq. do 4 (split; [auto|]). split; [auto|]. destruct Ho as [Ho|Ho]; [now left|right].
  unfold total_deviation. now symmetry.
Qed.

(** ** Examples *)
Definition pairs : list Z := [0; 0; 1; 3; 9; 2; 4; 4; 8; 8; 2; 6; 6; 0]%Z.
Definition pairs_source (samples : list Z) : source Z :=
  match samples_source int_metric samples 2 with Ok s => s | _ => mk_source 0 (fun _ _ => UB) end.

Definition range_check (scale top : Z) (samples : list Z) (n_features : nat) : bool :=
  forallb (fun i => forallb (fun j =>
    let d := fold_right Z.add 0%Z (map (fun f => Z.abs (nth (i * n_features + f) samples 0 - nth (j * n_features + f) samples 0)%Z)
      (seq 0 n_features)) in (d <? top)%Z && (Z.abs scale * d <? top)%Z) (seq 0 (length samples))) (seq 0 (length samples)).
Lemma range_checked scale top samples n_features : 0 < n_features -> range_check scale top samples n_features = true ->
  in_range scale top samples n_features.
Proof.
  intros Hn H i j. cbn zeta. intros Hi Hj. unfold range_check in H. rewrite forallb_forall in H. specialize (H i ltac:(apply in_seq; nia)).
  rewrite forallb_forall in H. specialize (H j ltac:(apply in_seq; nia)). cbn zeta in H. apply andb_true_iff in H.
  now rewrite !Z.ltb_lt in H.
Qed.

Example c102_samples_case : in_range (-25) int_max pairs 2 /\ (exists src, samples_source int_metric pairs 2 = Ok src) /\
  converted (-25) 7 pairs <> pairs.
Proof. split; [apply range_checked; [lia|reflexivity]|]. split; [eexists; reflexivity|discriminate]. Qed.

Lemma pairs_unit : other_unit 25 int_max (pairs_source pairs) (pairs_source (converted (-25) 7 pairs)).
Proof.
  destruct (c102_samples (-25) 7 int_max pairs 2 (pairs_source pairs)) as (s & E & U); [lia|apply range_checked; [lia|reflexivity]|reflexivity|].
  unfold pairs_source at 2. rewrite E. exact U.
Qed.

Definition no_draws : nat -> generator := fun _ _ _ _ => 0.

(** Sample 3 is equally near to both medoids of the start, and exchanges are made. *)
Example c102_fit_case : other_unit 25 int_max (pairs_source pairs) (pairs_source (converted (-25) 7 pairs)) /\ (0 < int_max)%Z /\
  dist_at (pairs_source pairs) 0 3 = dist_at (pairs_source pairs) 4 3 /\
  medoids_fit signed_wrap int_max (pairs_source pairs) default_medoids_options 2 [0; 4] no_draws = Ok [1; 2] /\
  medoids_fit signed_wrap int_max (pairs_source (converted (-25) 7 pairs)) default_medoids_options 2 [0; 4] no_draws = Ok [1; 2].
Proof. split; [exact pairs_unit|]. split; [reflexivity|]. split; [|split]; vm_compute; reflexivity. Qed.

Example c102_steps_case :
  (p <- make_pam signed_wrap int_max (pairs_source pairs) [0; 4] ;; p <- steps 2 (pam_step signed_wrap (pairs_source pairs)) p ;;
   Ok (p_medoids p, p_loss p)) = Ok ([1; 2], 24%Z) /\
  (p <- make_pam signed_wrap int_max (pairs_source (converted (-25) 7 pairs)) [0; 4] ;;
   p <- steps 2 (pam_step signed_wrap (pairs_source (converted (-25) 7 pairs))) p ;; Ok (p_medoids p, p_loss p)) = Ok ([1; 2], 600%Z).
Proof. split; vm_compute; reflexivity. Qed.

Example c102_predict_case : samples_to_nearest_medoid_indices Z.ltb int_max (pairs_source pairs) [1; 2] = Ok [0; 0; 1; 0; 1; 0; 1] /\
  samples_to_nearest_medoid_indices Z.ltb int_max (pairs_source (converted (-25) 7 pairs)) [1; 2] = Ok [0; 0; 1; 0; 1; 0; 1].
Proof. split; vm_compute; reflexivity. Qed.

Example c102_forward_case : samples_to_nearest_medoid_distances Z.ltb int_max (pairs_source pairs) [1; 2] = Ok [4; 0; 0; 4; 7; 4; 5]%Z /\
  samples_to_nearest_medoid_distances Z.ltb int_max (pairs_source (converted (-25) 7 pairs)) [1; 2] = Ok [100; 0; 0; 100; 175; 100; 125]%Z.
Proof. split; vm_compute; reflexivity. Qed.

(** Numbers on a line, in hundredths of their unit. *)
Definition scaled_line (l : list Z) (c : Q) : source Q := mk_source (length l) (fun i j => Ok (c * qdist l i j)%Q).
Definition hundredth : Q := 1 # 100.

Lemma line_above l : above_tolerance tiny hundredth (qdist l) (length l).
Proof.
  intros i j _ _ H. unfold qdist in *. set (d := (nth i l 0 - nth j l 0)%Z) in *.
  destruct (Z.eq_dec (Z.abs d) 0) as [->|Hd]; [reflexivity|]. exfalso.
  assert (H1 : (1 <= inject_Z (Z.abs d))%Q) by (change 1%Q with (inject_Z 1); rewrite <- Zle_Qle; lia).
  rewrite !Qabs_pos in H by (unfold hundredth; nra). unfold tiny, hundredth in H.
  assert (H2 : ((1 # 2 ^ 52) < 1 # 100)%Q) by reflexivity. destruct H as [H|H]; nra.
Qed.

Definition scaled_check (l : list Z) (M : list nat) (c : Q) : bool :=
  forallb (fun o => forallb (fun i => Qlt_bool (c * to_medoid (qdist l) M o i) huge &&
    forallb (fun j => (j =? i) || Qlt_bool tiny (Qabs (c * to_medoid (qdist l) M o i - c * to_medoid (qdist l) M o j)%Q)) (seq 0 (length M)))
    (seq 0 (length M))) (seq 0 (length l)).
Lemma scaled_checked l M c : scaled_check l M c = true -> separated tiny huge (fun i j => c * qdist l i j)%Q (length l) M.
Proof.
  intros H o Ho i Hi. unfold scaled_check in H. rewrite forallb_forall in H. specialize (H o ltac:(apply in_seq; lia)).
  rewrite forallb_forall in H. specialize (H i ltac:(apply in_seq; lia)). apply andb_true_iff in H. destruct H as (H1 & H2).
  split; [now apply Qlt_bool_iff|]. intros j Hj Hne. rewrite forallb_forall in H2. specialize (H2 j ltac:(apply in_seq; lia)).
  apply orb_true_iff in H2. rewrite Nat.eqb_eq in H2. destruct H2; [contradiction|]. now apply Qlt_bool_iff.
Qed.

Definition scaled_after (l : list Z) (c : Q) (t : nat) (M : list nat) : res (list nat * Q) :=
  p <- make_msc tiny huge (scaled_line l c) M ;; p <- steps t (msc_step tiny (scaled_line l c)) p ;; Ok (s_medoids p, Qred (total_deviation p)).

Example c102_msc_case : provides (qline l7) 7 (qdist l7) /\ provides (scaled_line l7 hundredth) 7 (fun i j => hundredth * qdist l7 i j)%Q /\
  above_tolerance tiny hundredth (qdist l7) 7 /\ (forall m, In m m7 -> m < 7) /\ 3 <= length m7 /\ separated tiny huge (qdist l7) 7 m7 /\
  separated tiny huge (fun i j => hundredth * qdist l7 i j)%Q 7 m7 /\
  medoids_after l7 0 m7 = Ok ([0; 1; 2], 98%Q) /\ scaled_after l7 hundredth 0 m7 = Ok ([0; 1; 2], 49 # 50) /\
  medoids_after l7 1 m7 = Ok ([0; 4; 2], 6133 # 16740) /\ scaled_after l7 hundredth 1 m7 = Ok ([0; 4; 2], 6133 # 16740).
Proof.
  split; [split; auto|]. split; [split; auto|]. split; [apply (line_above l7)|]. split; [cbn; intros m H; lia|]. split; [cbn; lia|].
  split; [apply (separated_checked l7 m7); reflexivity|]. split; [apply (scaled_checked l7 m7); reflexivity|].
  split; [|split; [|split]]; vm_compute; reflexivity.
Qed.

(** ** What a user may expect and does not hold *)
(** With two medoids FasterMSC compares quotients with a sum of distances: the unit decides whether anything is exchanged. *)
Theorem c102_two_medoids_refuted : exists l M c p p' q q', (0 < c)%Q /\ above_tolerance tiny c (qdist l) (length l) /\
  separated tiny huge (qdist l) (length l) M /\ separated tiny huge (fun i j => c * qdist l i j)%Q (length l) M /\ NoDup M /\
  make_msc tiny huge (qline l) M = Ok p /\ make_msc tiny huge (scaled_line l c) M = Ok p' /\
  msc_step tiny (qline l) p = Ok q /\ msc_step tiny (scaled_line l c) p' = Ok q' /\ s_medoids q' = M /\ s_medoids q <> s_medoids q'.
Proof.
  set (l := [0; 2; 7; 9]%Z). set (M := [1; 2]).
  exists l, M, hundredth, (get (make_msc tiny huge (qline l) M)), (get (make_msc tiny huge (scaled_line l hundredth) M)),
    (get (p <- make_msc tiny huge (qline l) M ;; msc_step tiny (qline l) p)),
    (get (p <- make_msc tiny huge (scaled_line l hundredth) M ;; msc_step tiny (scaled_line l hundredth) p)).
  split; [reflexivity|]. split; [apply line_above|]. split; [apply separated_checked; reflexivity|].
  split; [apply scaled_checked; reflexivity|]. split; [repeat constructor; cbn; lia|].
  do 4 (split; [vm_compute; reflexivity|]). split; [vm_compute; reflexivity|]. vm_compute. discriminate.
Qed.

Print Assumptions c102_fit.
Print Assumptions c102_steps.
Print Assumptions c102_predict.
Print Assumptions c102_forward.
Print Assumptions c102_samples.
Print Assumptions c102_msc.
Print Assumptions c102_two_medoids_refuted.
