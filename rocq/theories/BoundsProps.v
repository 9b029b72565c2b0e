(** Theorems on boxes, balls and tight bounds (C42, C43, C50, C52). *)
From Coq Require Import List Arith ZArith Lia Bool.
From Verif Require Import Base SortingModel SortingSpec BoundsModel BoundsSpec BoundsProofs.
Import ListNotations.
Local Open Scope Z_scope.

Definition box_has (a : list segment) (p : list Z) : Prop :=
  inside (map seg_lower a) (map seg_upper a) p.

(** C42, boxes: the (squared) minimum distance is the greatest lower bound of the (squared) Euclidean distances
    between a point of one box and a point of the other. *)
Theorem c42_box_min_distance : forall a b : list segment,
  length a = length b ->
  exists d,
    aabb_min_distance_sq a b = Ok d /\
    (forall p q, box_has a p -> box_has b q -> d <= sq_dist p q) /\
    ((exists p, box_has a p) -> (exists q, box_has b q) ->
       exists p q, box_has a p /\ box_has b q /\ sq_dist p q = d) /\
    ((exists p, box_has a p /\ box_has b p) -> d = 0).
Proof.
  intros a b Hl. exists (msq a b). splits.
  - apply aabb_min_distance_ok; auto.
  - intros. apply msq_le; auto.
  - intros. apply msq_attained; auto.
  - intros (p & Hp & Hq). pose proof (msq_le a b p p Hl Hp Hq). pose proof (msq_nonneg a b).
    rewrite sq_dist_refl in H. lia.
Qed.

Example c42_box_case :
  let a := [mk_segment 0 2; mk_segment (-1) 1] in
  let b := [mk_segment 5 6; mk_segment 3 3] in
  length a = length b /\ aabb_min_distance_sq a b = Ok 13 /\
  box_has a [2; 1] /\ box_has b [5; 3] /\ sq_dist [2; 1] [5; 3] = 13.
Proof.
  unfold box_has; simpl. splits; try reflexivity; rewrite !inside_cons; splits; try lia; apply inside_nil.
Qed.

(** C42, membership test and diameter of a box. *)
Theorem c42_box_contains : forall (a : list segment) (p : list Z),
  length p = length a ->
  exists r, is_in_bounds a p = Ok r /\ (r = true <-> box_has a p).
Proof. intros a p H. apply (is_in_bounds_from_ok p a []); auto. Qed.

Theorem c42_box_diameter : forall a : list segment,
  (forall p q, box_has a p -> box_has a q -> sq_dist p q <= aabb_diameter_sq a) /\
  ((exists p, box_has a p) ->
     exists p q, box_has a p /\ box_has a q /\ sq_dist p q = aabb_diameter_sq a).
Proof.
  intros a. split.
  - intros. apply diameter_bounds; auto.
  - intros H. destruct (corners_inside a H).
    exists (map seg_lower a), (map seg_upper a). splits; auto. apply diameter_attained.
Qed.

Example c42_box_diameter_case :
  let a := [mk_segment 0 3; mk_segment (-2) 2] in
  is_in_bounds a [3; -2] = Ok true /\ is_in_bounds a [3; -3] = Ok false /\ aabb_diameter_sq a = 25.
Proof. vm_compute. auto. Qed.

(** C42, balls on integer data: the minimum distance never exceeds the distance of two points inside the balls. *)
Theorem c42_ball_min_distance : forall (a b : ball) (p q : list Z) (d : Z),
  length (ball_centroid a) = length p -> length (ball_centroid b) = length q -> length p = length q ->
  ball_is_in_bounds_int a p = Ok true -> ball_is_in_bounds_int b q = Ok true ->
  ball_min_distance_int a b = Ok d -> d <= l1_dist p q.
Proof.
  intros a b p q d La Lb Lpq Ha Hb Hd.
  unfold ball_is_in_bounds_int, ball_min_distance_int in *.
  rewrite manhattan_ok in Ha, Hb, Hd by lia. simpl in *.
  injection Ha as Ha. injection Hb as Hb. injection Hd as <-.
  apply Z.ltb_lt in Ha, Hb.
  pose proof (l1_triangle (ball_centroid a) p (ball_centroid b) ltac:(lia) ltac:(lia)).
  pose proof (l1_triangle p q (ball_centroid b) ltac:(lia) ltac:(lia)).
  pose proof (l1_nonneg p q). rewrite (l1_sym (ball_centroid a) p) in *. lia.
Qed.

Example c42_ball_case :
  let a := mk_ball [0; 0] 3 in let b := mk_ball [6; 6] 4 in
  ball_is_in_bounds_int a [1; 1] = Ok true /\ ball_is_in_bounds_int b [4; 5] = Ok true /\
  ball_min_distance_int a b = Ok 5 /\ l1_dist [1; 1] [4; 5] = 7.
Proof. vm_compute. auto. Qed.

(** C43: the tight bound of a non-empty index range encloses every sample and every face touches one. *)
Theorem c43_tight_bound : forall (lowest max : Z) (samples : list Z) (nf : nat) (a : list nat),
  a <> [] ->
  (forall j, (j < nf)%nat -> in_dataset samples nf j a) ->
  (forall i j, In i a -> (j < nf)%nat -> lowest <= val samples nf j i <= max) ->
  exists segs, make_tight_segments lowest max samples nf a = Ok segs /\ length segs = nf /\
    forall j, (j < nf)%nat ->
      exists lo hi, nth_error segs j = Some (mk_segment lo hi) /\
        (forall i, In i a -> lo <= val samples nf j i <= hi) /\
        (exists i, In i a /\ val samples nf j i = lo) /\
        (exists i, In i a /\ val samples nf j i = hi) /\
        make_tight_segment lowest max samples nf a j = Ok (mk_segment lo hi).
Proof.
  intros lowest max samples nf a Hne Hd Hl.
  destruct (make_tight_segments_ok lowest max samples nf a Hd Hl) as (segs & E & L & H).
  exists segs. splits; auto. intros j Hj.
  destruct (H j Hj) as (H1 & _ & H3). destruct (H3 Hne) as [(ia & Ia & Ea) (ib & Ib & Eb)].
  assert (En : nth_error segs j = Some (nth j segs (mk_segment 0 0))) by (apply nth_error_nth'; lia).
  destruct (nth j segs (mk_segment 0 0)) as [lo hi]. simpl in *.
  exists lo, hi. splits; eauto.
  destruct (make_tight_segment_ok lowest max samples nf a j Hj (Hd j Hj) Hl) as ([lo' hi'] & -> & T1 & _ & T3).
  destruct (T3 Hne) as [(ja & Ja & Fa) (jb & Jb & Fb)]. simpl in *.
  pose proof (H1 ja Ja). pose proof (T1 ia Ia). pose proof (H1 jb Jb). pose proof (T1 ib Ib).
  do 2 f_equal; lia.
Qed.

Example c43_case :
  let samples := [3; -5;  0; 7;  9; 2;  4; 4] in
  [2; 0; 3]%nat <> [] /\ (forall j, (j < 2)%nat -> in_dataset samples 2 j [2; 0; 3]%nat) /\
  make_tight_segments (-128) 127 samples 2 [2; 0; 3]%nat = Ok [mk_segment 3 9; mk_segment (-5) 4].
Proof.
  cbv zeta. splits; try discriminate; try (vm_compute; reflexivity).
  intros j Hj i Hi. simpl in Hi. simpl length. lia.
Qed.

(** C50: integer segment centroid. With [lower <= upper] it lies inside the segment unless the segment is a single
    negative value; the ball around it with the reported radius always covers the segment. *)
Theorem c50_integer_centroid : forall lo hi, lo <= hi ->
  let s := mk_segment lo hi in
  let c := seg_centroid_int s in
  (lo <= c <= hi <-> ~ (lo = hi /\ lo < 0)) /\
  2 * c <= lo + hi < 2 * c + 3 /\
  (0 <= lo + hi -> lo + hi <= 2 * c + 1) /\
  (forall v, lo <= v <= hi -> Z.abs (v - c) <= seg_centroid_to_bound_int s).
Proof.
  intros lo hi H s c. subst s c. unfold seg_centroid_int, seg_centroid_to_bound_int, compute_size_int.
  cbn [seg_lower seg_upper].
  rewrite !center_floor. cbv zeta.
  pose proof (Z.div_mod (lo + hi) 2 ltac:(lia)). pose proof (Z.mod_pos_bound (lo + hi) 2 ltac:(lia)).
  destruct (Z.ltb_spec (lo + hi) 0); cbn [andb].
  - destruct (Z.even (lo + hi)) eqn:E; cbn [andb].
    + apply Z.even_spec in E as [k Ek].
      assert ((lo + hi) / 2 = k) by (rewrite Ek, Z.mul_comm; apply Z.div_mul; lia).
      splits; try (split; intros; lia); intros; lia.
    + assert (lo + hi <> 2 * lo).
      { intros Heq. rewrite Heq in E. rewrite Z.even_mul in E. discriminate. }
      splits; try (split; intros; lia); intros; lia.
  - splits; try (split; intros; lia); intros; lia.
Qed.

Example c50_case :
  -7 <= -2 /\ seg_centroid_int (mk_segment (-7) (-2)) = -5 /\
  seg_centroid_to_bound_int (mk_segment (-7) (-2)) = 4.
Proof. vm_compute. split; [discriminate|auto]. Qed.

Theorem c50_integer_centroid_inside_refuted : exists lo hi,
  lo <= hi /\ ~ (lo <= seg_centroid_int (mk_segment lo hi)).
Proof. exists (-3), (-3). vm_compute. split; [discriminate|auto]. Qed.

(** C52: a segment stored as lower bound and length follows the one stored as two bounds on
    [update_upper_bound]; [update_lower_bound] drags the upper bound along, and on integers the upper bound itself
    is not contained. *)
Definition same_bounds (s : segment_len) (t : segment) : Prop :=
  sl_lower s = seg_lower t /\ sl_upper s = seg_upper t.

Theorem c52_lower_bound_and_length : forall s t v,
  same_bounds s t ->
  same_bounds (sl_update_upper s v) (seg_update_upper t v) /\
  (same_bounds (sl_update_lower s v) (seg_update_lower t v) <-> v = seg_lower t) /\
  sl_upper (sl_update_lower s v) - seg_upper t = v - seg_lower t /\
  same_bounds (sl_update_upper (sl_update_lower s v) (seg_upper t)) (seg_update_lower t v) /\
  (sl_contains_int s v = true <-> seg_contains t v = true /\ v <> seg_upper t).
Proof.
  intros [l len] [lo hi] v [H1 H2]. unfold same_bounds, sl_upper, sl_contains_int, seg_contains in *. simpl in *.
  rewrite !negb_true_iff, !orb_false_iff, !Z.ltb_ge.
  splits; try (split; intros; lia); lia.
Qed.

Example c52_case : same_bounds (mk_segment_len 2 5) (mk_segment 2 7) /\
  sl_upper (sl_update_lower (mk_segment_len 2 5) 4) = 9 /\ sl_contains_int (mk_segment_len 2 5) 7 = false.
Proof. vm_compute. auto. Qed.

Print Assumptions c42_box_min_distance.
Print Assumptions c42_box_contains.
Print Assumptions c42_box_diameter.
Print Assumptions c42_ball_min_distance.
Print Assumptions c43_tight_bound.
Print Assumptions c50_integer_centroid.
Print Assumptions c50_integer_centroid_inside_refuted.
Print Assumptions c52_lower_bound_and_length.
