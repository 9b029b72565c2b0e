(** Theorems on the queries of balls and boxes (C87). *)
From Coq Require Import List Arith ZArith QArith Qround Lia Lqa Bool.
From Verif Require Import Base BufferModel BoundsModel BoundsSpec BoundsProofs BoundsProps DistancesProps BallModel.
Import ListNotations.
Local Open Scope Z_scope.

(** A box with rational corners. *)
Definition q_box_has (segs : list (Q * Q)) (p : list Q) : Prop :=
  Forall2 (fun s x => fst s <= x /\ x <= snd s)%Q segs p.
(** Every coordinate of [p] is within [d] of that of [c]. *)
Definition q_within (d : Q) (c p : list Q) : Prop := Forall2 (fun x y => x - d <= y /\ y <= x + d)%Q c p.

(** ** The distance is returned exactly when the point is inside *)
Theorem c87_ball_distance_iff_inside : forall (b : ball) (p : list Z),
  length p = length (ball_centroid b) ->
  exists r, ball_distance_if_within b p = Ok r /\
    (r = None <-> ball_is_in_bounds_int b p = Ok false) /\
    (forall d, r = Some d <-> ball_is_in_bounds_int b p = Ok true /\ d = l1_dist p (ball_centroid b)) /\
    (forall d, r = Some d <-> d = l1_dist p (ball_centroid b) /\ d < ball_radius b).
Proof.
  intros b p L. unfold ball_distance_if_within, ball_is_in_bounds_int. rewrite manhattan_ok by auto. cbn [bind].
  eexists. split; [reflexivity|]. destruct (Z.ltb_spec (l1_dist p (ball_centroid b)) (ball_radius b)).
  - splits; [split; discriminate| |]; intros d; (split; [intros E; injection E as <-; auto|]).
    + intros [_ ->]. auto.
    + intros [-> _]. auto.
  - splits; [split; auto| |]; intros d; (split; [discriminate|]).
    + intros [E _]. discriminate.
    + lia.
Qed.

Example c87_ball_distance_iff_inside_case :
  ball_distance_if_within (mk_ball [1; 2] 4) [3; 1] = Ok (Some 3) /\
  ball_distance_if_within (mk_ball [1; 2] 3) [3; 1] = Ok None /\
  ball_distance_if_within (mk_ball [1; 2] 0) [1; 2] = Ok None.
Proof. vm_compute. auto. Qed.

Theorem c87_box_distance_iff_inside : forall (a : aabb) (p : list Z),
  length p = length (aabb_segments a) -> length (aabb_centroid a) = length (aabb_segments a) ->
  exists r, box_distance_if_within a p = Ok r /\
    (forall d, r = Some d <-> box_has (aabb_segments a) p /\ d = l1_dist p (aabb_centroid a)) /\
    (r = None <-> ~ box_has (aabb_segments a) p).
Proof.
  intros a p L Lc. unfold box_distance_if_within.
  destruct (c42_box_contains (aabb_segments a) p L) as (r & E & Hr). rewrite E. cbn [bind].
  destruct r.
  - rewrite manhattan_ok by lia. cbn [bind]. eexists. split; [reflexivity|]. split.
    + intros d. split; [intros H; injection H as <-; tauto|intros [_ ->]; auto].
    + split; [discriminate|]. intros H. tauto.
  - exists None. split; [reflexivity|].
    assert (N : ~ box_has (aabb_segments a) p) by (intros H; apply Hr in H; discriminate).
    split; [|tauto]. intros d. split; [discriminate|tauto].
Qed.

Example c87_box_distance_iff_inside_case :
  let a := make_aabb seg_centroid_int [mk_segment 0 4; mk_segment 1 7] in
  box_distance_if_within a [4; 7] = Ok (Some 5) /\ box_distance_if_within a [5; 7] = Ok None.
Proof. vm_compute. auto. Qed.

(** ** The diameter of a ball *)
Theorem c87_ball_diameter : forall (b : ball) (p q : list Z),
  length p = length (ball_centroid b) -> length q = length (ball_centroid b) ->
  ball_is_in_bounds_int b p = Ok true -> ball_is_in_bounds_int b q = Ok true ->
  l1_dist p q < ball_diameter b.
Proof.
  intros b p q Lp Lq Hp Hq. unfold ball_is_in_bounds_int, ball_diameter in *.
  rewrite manhattan_ok in Hp, Hq by auto. cbn [bind] in *. injection Hp as Hp. injection Hq as Hq.
  apply Z.ltb_lt in Hp, Hq. pose proof (l1_triangle p (ball_centroid b) q Lp (eq_sym Lq)).
  rewrite (l1_sym (ball_centroid b) q) in H. lia.
Qed.

Lemma sq_dist_middle p q c : length p = length c -> length q = length c ->
  sq_dist p q <= 2 * sq_dist p c + 2 * sq_dist q c.
Proof.
  revert q c. induction p as [|x p IH]; intros [|y q] [|z c] Lp Lq; cbn [sq_dist length] in *; try lia.
  specialize (IH q c ltac:(lia) ltac:(lia)). pose proof (Z.square_nonneg ((x - z) + (y - z))).
  replace ((x - y) * (x - y)) with
    (2 * ((x - z) * (x - z)) + 2 * ((y - z) * (y - z)) - ((x - z) + (y - z)) * ((x - z) + (y - z))) by ring. lia.
Qed.

Theorem c87_ball_diameter_float : forall (b : ball) (p q : list Z),
  length p = length (ball_centroid b) -> length q = length (ball_centroid b) ->
  ball_is_in_bounds_float b p = Ok true -> ball_is_in_bounds_float b q = Ok true ->
  sq_dist p q < ball_diameter b * ball_diameter b.
Proof.
  intros b p q Lp Lq Hp Hq. unfold ball_is_in_bounds_float, ball_diameter in *.
  rewrite squared_ok in Hp, Hq by auto. cbn [bind] in *. injection Hp as Hp. injection Hq as Hq.
  apply andb_true_iff in Hp as [_ Hp], Hq as [_ Hq]. apply Z.ltb_lt in Hp, Hq.
  pose proof (sq_dist_middle p q _ Lp Lq). lia.
Qed.

Example c87_ball_diameter_case :
  let b := mk_ball [0; 0] 5 in
  ball_is_in_bounds_int b [4; 0] = Ok true /\ ball_is_in_bounds_int b [-4; 0] = Ok true /\
  l1_dist [4; 0] [-4; 0] = 8 /\ ball_diameter b = 10 /\
  ball_is_in_bounds_float b [3; 3] = Ok true /\ ball_is_in_bounds_float b [-3; -3] = Ok true /\
  ball_is_in_bounds_float b [3; 4] = Ok false /\ ball_is_in_bounds_float (mk_ball [0; 0] (-5)) [0; 0] = Ok false.
Proof. vm_compute. auto 10. Qed.

(** The centre is in the ball exactly when the radius is positive; no point is in a ball of radius 0 or less. *)
Theorem c87_ball_empty_iff : forall b : ball,
  (ball_is_in_bounds_int b (ball_centroid b) = Ok true <-> 0 < ball_radius b) /\
  (ball_is_in_bounds_float b (ball_centroid b) = Ok true <-> 0 < ball_radius b) /\
  (ball_radius b <= 0 -> forall p, length p = length (ball_centroid b) ->
     ball_is_in_bounds_int b p = Ok false /\ ball_is_in_bounds_float b p = Ok false).
Proof.
  intros b. assert (Z1 : forall c, l1_dist c c = 0).
  { induction c as [|x c IH]; simpl; auto. rewrite IH, Z.sub_diag. reflexivity. }
  unfold ball_is_in_bounds_int, ball_is_in_bounds_float.
  rewrite manhattan_ok, squared_ok, Z1, sq_dist_refl by auto. cbn [bind]. splits.
  - split; [intros H; injection H as H; apply Z.ltb_lt in H; auto|intros H; f_equal; apply Z.ltb_lt; auto].
  - split.
    + intros H. injection H as H. apply andb_true_iff in H as [H _]. apply Z.ltb_lt in H; auto.
    + intros H. f_equal. apply andb_true_iff. split; apply Z.ltb_lt; nia.
  - intros R p L. rewrite manhattan_ok, squared_ok by auto. cbn [bind]. split.
    + f_equal. apply Z.ltb_ge. pose proof (l1_nonneg p (ball_centroid b)). lia.
    + f_equal. apply andb_false_iff. left. apply Z.ltb_ge. auto.
Qed.

Example c87_ball_empty_iff_case :
  ball_is_in_bounds_int (mk_ball [7; 8] 0) [7; 8] = Ok false /\ ball_is_in_bounds_int (mk_ball [7; 8] 1) [7; 8] = Ok true.
Proof. vm_compute. auto. Qed.

(** Touching the surface is not being inside: the points at distance [radius] are excluded. *)
Theorem c87_ball_boundary_excluded : forall (b : ball) (p : list Z),
  length p = length (ball_centroid b) ->
  (l1_dist p (ball_centroid b) = ball_to_bound b -> ball_is_in_bounds_int b p = Ok false) /\
  (sq_dist p (ball_centroid b) = ball_to_bound b * ball_to_bound b -> ball_is_in_bounds_float b p = Ok false).
Proof.
  intros b p L. unfold ball_is_in_bounds_int, ball_is_in_bounds_float, ball_to_bound.
  rewrite manhattan_ok, squared_ok by auto. cbn [bind]. split; intros ->; rewrite Z.ltb_irrefl; auto.
  now rewrite andb_false_r.
Qed.

Example c87_ball_boundary_excluded_case :
  ball_is_in_bounds_int (mk_ball [0; 0] 7) [3; 4] = Ok false /\ ball_is_in_bounds_float (mk_ball [0; 0] 5) [3; 4] = Ok false.
Proof. vm_compute. auto. Qed.

(** ** A ball without bound *)
Theorem c87_unbounded_holds_everything : forall centroid p : list Z,
  length p = length centroid ->
  unbounded_is_in_bounds p = true /\
  unbounded_distance_if_within int_metric centroid p = Ok (Some (l1_dist p centroid)) /\
  unbounded_distance_if_within float_metric centroid p = Ok (Some (Some (sq_dist p centroid))) /\
  m_lt float_metric (Some (sq_dist p centroid)) (unbounded_diameter float_metric) = true.
Proof.
  intros c p L. unfold unbounded_distance_if_within. cbn [m_auto int_metric float_metric].
  rewrite manhattan_ok, squared_ok by auto. auto.
Qed.

Example c87_unbounded_holds_everything_case :
  unbounded_distance_if_within int_metric [1; 1] [5; -5] = Ok (Some 10).
Proof. vm_compute. auto. Qed.

(** On integers the diameter of a ball without bound is 0: it is below the distance of two points inside. *)
Theorem c87_unbounded_integer_diameter_refuted : exists p q : list Z,
  length p = length q /\ unbounded_is_in_bounds p = true /\ unbounded_is_in_bounds q = true /\
  unbounded_diameter int_metric < l1_dist p q.
Proof. exists [0; 0], [3; 4]. splits; auto. vm_compute. auto. Qed.

(** ** The distance from the centre of a box to its furthest side *)
Lemma furthest_fold segs : forall acc,
  let r := fold_left (fun f s => let d := seg_centroid_to_bound_int s in if f <? d then d else f) segs acc in
  acc <= r /\ (forall s, In s segs -> seg_centroid_to_bound_int s <= r) /\
  (r = acc \/ exists s, In s segs /\ r = seg_centroid_to_bound_int s).
Proof.
  induction segs as [|s segs IH]; intros acc; cbn [fold_left].
  - simpl. splits; auto; try lia; try (intros s []).
  - cbv zeta. specialize (IH (if acc <? seg_centroid_to_bound_int s then seg_centroid_to_bound_int s else acc)).
    cbv zeta in IH. destruct IH as (A & B & C).
    destruct (Z.ltb_spec acc (seg_centroid_to_bound_int s)).
    + splits; [lia| |].
      * intros t [<-|Ht]; auto.
      * destruct C as [->|(t & Ht & ->)]; right; eexists; split; [left; eauto|auto|right; eauto|auto].
    + splits; [lia| |].
      * intros t [<-|Ht]; auto. lia.
      * destruct C as [->|(t & Ht & ->)]; [auto|right; eexists; split; [right; eauto|auto]].
Qed.

Lemma furthest_ok segs :
  0 <= box_to_furthest_int segs /\ (forall s, In s segs -> seg_centroid_to_bound_int s <= box_to_furthest_int segs) /\
  (box_to_furthest_int segs = 0 \/ exists s, In s segs /\ box_to_furthest_int segs = seg_centroid_to_bound_int s).
Proof. exact (furthest_fold segs 0). Qed.

Lemma half_size lo hi x : lo <= x <= hi -> Z.abs (x - compute_center_int lo hi) < compute_size_int lo hi.
Proof.
  intros H. unfold compute_size_int. rewrite center_floor.
  pose proof (Z.div_mod (lo + hi) 2 ltac:(lia)). pose proof (Z.mod_pos_bound (lo + hi) 2 ltac:(lia)).
  destruct ((lo + hi <? 0) && Z.even (lo + hi)) eqn:E; [|lia].
  apply andb_true_iff in E as [_ E]. rewrite Zmod_even, E in *. lia.
Qed.

(** On integers it is the largest of the distances to the sides, each of which is above what any coordinate of a point
    of the box is away from the centre. *)
Theorem c87_box_furthest_integer : forall segs : list segment,
  (forall i s, nth_error segs i = Some s -> seg_centroid_to_bound_int s <= box_to_furthest_int segs) /\
  (segs <> [] -> (exists p, box_has segs p) ->
     exists s, In s segs /\ box_to_furthest_int segs = seg_centroid_to_bound_int s) /\
  (forall p, box_has segs p -> forall i, (i < length segs)%nat ->
     Z.abs (nth i p 0 - nth i (aabb_centroid (make_aabb seg_centroid_int segs)) 0) < box_to_furthest_int segs).
Proof.
  intros segs. destruct (furthest_ok segs) as (A & B & C).
  assert (P : forall p, box_has segs p -> forall i s, nth_error segs i = Some s ->
     Z.abs (nth i p 0 - seg_centroid_int s) < seg_centroid_to_bound_int s).
  { intros p (L1 & L2 & Hp) i s Hs.
    assert (Hi : (i < length segs)%nat) by (apply nth_error_Some; congruence).
    rewrite map_length in L1. specialize (Hp i ltac:(lia)). apply half_size.
    rewrite (nth_error_nth (map seg_lower segs) i 0 (map_nth_error seg_lower i segs Hs)) in Hp.
    rewrite (nth_error_nth (map seg_upper segs) i 0 (map_nth_error seg_upper i segs Hs)) in Hp. auto. }
  splits.
  - intros i s H. apply B. eapply nth_error_In; eauto.
  - intros N [p Hp]. destruct C as [C|C]; auto. destruct segs as [|s segs]; [contradiction|].
    specialize (P p Hp 0%nat s eq_refl). specialize (B s (or_introl eq_refl)). lia.
  - intros p Hp i Hi. cbn [make_aabb aabb_centroid].
    destruct (nth_error segs i) as [s|] eqn:E; [|apply nth_error_None in E; lia].
    rewrite (nth_error_nth (map seg_centroid_int segs) i 0 (map_nth_error seg_centroid_int i segs E)).
    specialize (P p Hp i s E). specialize (B s (nth_error_In _ _ E)). lia.
Qed.

Example c87_box_furthest_integer_case :
  let segs := [mk_segment 0 4; mk_segment (-7) 3] in
  box_to_furthest_int segs = 7 /\ aabb_centroid (make_aabb seg_centroid_int segs) = [2; -3] /\
  is_in_bounds segs [0; 3] = Ok true.
Proof. vm_compute. auto. Qed.

(** It does not bound the distance from the centre to a point of the box: the corners are further than the sides. *)
Theorem c87_box_furthest_bounds_distance_refuted : exists (segs : list segment) (p : list Z) (d : Z),
  box_has segs p /\
  box_distance_if_within (make_aabb seg_centroid_int segs) p = Ok (Some d) /\ box_to_furthest_int segs < d.
Proof.
  exists [mk_segment 0 10; mk_segment 0 10], [10; 10], 10. split; [|split; vm_compute; auto].
  split; [reflexivity|]. split; [reflexivity|]. cbn [length].
  intros [|[|i]] H; cbn; lia.
Qed.

(** The Euclidean diameter of a box does not bound the Manhattan distance used between integer samples. *)
Theorem c87_box_diameter_integer_refuted : exists (segs : list segment) (p q : list Z) (d : Z),
  box_has segs p /\ box_has segs q /\ manhattan_distance p q = Ok d /\ aabb_diameter_sq segs < d * d.
Proof.
  exists [mk_segment 0 3; mk_segment 0 4], [0; 0], [3; 4], 7.
  assert (I : forall x y, 0 <= x <= 3 -> 0 <= y <= 4 -> box_has [mk_segment 0 3; mk_segment 0 4] [x; y]).
  { intros x y Hx Hy. split; [reflexivity|]. split; [reflexivity|]. cbn [length]. intros [|[|i]] H; cbn; lia. }
  split; [apply I; lia|]. split; [apply I; lia|]. split; vm_compute; reflexivity.
Qed.

(** ** The same on floating point numbers: the maximum is kept in an [int] *)
Lemma to_int_ok x : (0 <= x)%Q -> (x < inject_Z (2 ^ 31))%Q -> to_int x = Ok (Qfloor x).
Proof.
  intros P L. unfold to_int. pose proof P as P'. apply Qle_bool_iff in P' as ->.
  pose proof (Qfloor_resp_le _ _ P) as F. change (Qfloor 0) with 0 in F.
  assert (Qfloor x < 2 ^ 31).
  { rewrite Zlt_Qlt. eapply Qle_lt_trans; [apply Qfloor_le|exact L]. }
  replace ((- 2 ^ 31 <=? Qfloor x) && (Qfloor x <? 2 ^ 31)) with true; auto. symmetry.
  apply andb_true_iff. rewrite Z.leb_le, Z.ltb_lt. lia.
Qed.

Lemma furthest_float_loop segs : forall acc, 0 <= acc ->
  Forall (fun s => seg_centroid_to_bound_float s < inject_Z (2 ^ 31))%Q segs ->
  exists r,
    for_each segs
      (fun s furthest =>
         if negb (Qle_bool (seg_centroid_to_bound_float s) (inject_Z furthest)) then to_int (seg_centroid_to_bound_float s)
         else Ok furthest) acc = Ok r /\
    acc <= r /\ (forall s, In s segs -> Qfloor (seg_centroid_to_bound_float s) <= r) /\
    (r = acc \/ exists s, In s segs /\ r = Qfloor (seg_centroid_to_bound_float s)).
Proof.
  induction segs as [|s segs IH]; intros acc P F.
  - exists acc. splits; auto; try lia; try (intros s []).
  - inversion_clear F as [|? ? Fs F']. cbn [for_each].
    destruct (Qle_bool (seg_centroid_to_bound_float s) (inject_Z acc)) eqn:E; cbn [negb].
    + cbn [bind]. destruct (IH acc P F') as (r & -> & A & B & C). exists r. splits; auto.
      * intros t [<-|Ht]; auto. apply Qle_bool_iff in E. apply Qfloor_resp_le in E. rewrite Qfloor_Z in E. lia.
      * destruct C as [C|(t & Ht & C)]; [auto|right; exists t; split; [right|]; auto].
    + assert (L : (inject_Z acc < seg_centroid_to_bound_float s)%Q).
      { apply Qnot_le_lt. intros H. apply Qle_bool_iff in H. congruence. }
      assert (P0 : (0 <= inject_Z acc)%Q) by (change 0%Q with (inject_Z 0); rewrite <- Zle_Qle; auto).
      rewrite to_int_ok; [|lra|auto]. cbn [bind].
      assert (acc <= Qfloor (seg_centroid_to_bound_float s)).
      { apply Qlt_le_weak in L. apply Qfloor_resp_le in L. rewrite Qfloor_Z in L. auto. }
      destruct (IH (Qfloor (seg_centroid_to_bound_float s)) ltac:(lia) F') as (r & -> & A & B & C).
      exists r. splits; auto; try lia.
      * intros t [<-|Ht]; auto.
      * right. destruct C as [C|(t & Ht & C)]; [exists s|exists t]; (split; [simpl; auto|auto]).
Qed.

(** As long as every half width fits an [int], the result is the largest half width rounded down: it is less than one
    below the true one, so adding one covers every point of the box. *)
Theorem c87_box_furthest_float : forall segs : list (Q * Q),
  segs <> [] -> Forall (fun s => fst s <= snd s /\ snd s - fst s < 2 * inject_Z (2 ^ 31))%Q segs ->
  exists r, box_to_furthest_float segs = Ok r /\
    (forall s, In s segs -> (snd s - fst s) / 2 < inject_Z (r + 1))%Q /\
    (exists s, In s segs /\ inject_Z r <= (snd s - fst s) / 2)%Q /\
    (forall p, q_box_has segs p -> q_within (inject_Z (r + 1)) (map seg_centroid_float segs) p).
Proof.
  intros segs N F. unfold box_to_furthest_float.
  destruct (furthest_float_loop segs 0 ltac:(lia)) as (r & E & A & B & C).
  { eapply Forall_impl; [|exact F]. intros [lo hi] [H1 H2]; unfold seg_centroid_to_bound_float; cbn [fst snd] in *.
    apply Qlt_shift_div_r; [reflexivity|]. rewrite Qmult_comm. auto. }
  assert (U : forall s, In s segs -> ((snd s - fst s) / 2 < inject_Z (r + 1))%Q).
  { intros s Hs. eapply Qlt_le_trans; [apply Qlt_floor|]. rewrite <- Zle_Qle. specialize (B s Hs).
    unfold seg_centroid_to_bound_float in B. lia. }
  exists r. splits; auto.
  - destruct C as [->|(s & Hs & ->)].
    + destruct segs as [|s segs]; [contradiction|]. exists s. split; [left; auto|].
      inversion_clear F as [|? ? [H _] _]. change (inject_Z 0) with 0%Q. apply Qle_shift_div_l; [reflexivity|]. lra.
    + exists s. split; auto. apply Qfloor_le.
  - intros p Hp. clear - Hp U. induction Hp as [|s x segs p [H1 H2] Hp IH]; cbn [map]; constructor.
    + pose proof (U s (or_introl eq_refl)) as L. unfold seg_centroid_float.
      assert (E1 : (snd s - fst s == 2 * ((snd s - fst s) / 2))%Q) by field.
      assert (E2 : (fst s + snd s == 2 * ((fst s + snd s) / 2))%Q) by field.
      split; lra.
    + apply IH. intros t Ht. apply U. right; auto.
Qed.

Example c87_box_furthest_float_case :
  let segs := [(0, 1); (0, 5); (-(1), 6 # 5)]%Q in
  box_to_furthest_float segs = Ok 2 /\ map seg_centroid_float segs = [1 # 2; 5 # 2; 1 # 10]%Q.
Proof. vm_compute. auto. Qed.

(** The rounding loses points: inside this box a coordinate is further from the centre than the returned distance. *)
Theorem c87_box_furthest_float_refuted : exists (segs : list (Q * Q)) (p c : Q) (r : Z),
  q_box_has segs [p] /\ map seg_centroid_float segs = [c] /\ box_to_furthest_float segs = Ok r /\ (inject_Z r < p - c)%Q.
Proof.
  exists [(0, 3 # 2)%Q], (3 # 2)%Q, (3 # 4)%Q, 0. split.
  - constructor; [split; vm_compute; discriminate|constructor].
  - split; [vm_compute; reflexivity|]. split; [vm_compute; reflexivity|]. vm_compute. reflexivity.
Qed.

(** And a box wider than twice the range of [int] has no defined result. *)
Theorem c87_box_furthest_float_wide : forall (lo hi : Q) (segs : list (Q * Q)),
  (2 * inject_Z (2 ^ 31) <= hi - lo)%Q -> box_to_furthest_float ((lo, hi) :: segs) = UB.
Proof.
  intros lo hi segs H. unfold box_to_furthest_float. cbn [for_each].
  assert (L : (inject_Z (2 ^ 31) <= seg_centroid_to_bound_float (lo, hi))%Q).
  { unfold seg_centroid_to_bound_float. cbn [fst snd]. apply Qle_shift_div_l; [reflexivity|]. rewrite Qmult_comm. auto. }
  set (x := seg_centroid_to_bound_float (lo, hi)) in *.
  assert (P : (0 < x)%Q) by (eapply Qlt_le_trans; [|exact L]; reflexivity).
  destruct (Qle_bool x (inject_Z 0)) eqn:E.
  { apply Qle_bool_iff in E. change (inject_Z 0) with 0%Q in E. lra. }
  cbn [negb]. unfold to_int. apply Qlt_le_weak, Qle_bool_iff in P as ->.
  apply Qfloor_resp_le in L. rewrite Qfloor_Z in L.
  replace (Qfloor x <? 2 ^ 31) with false by (symmetry; apply Z.ltb_ge; auto). rewrite andb_false_r. reflexivity.
Qed.

Example c87_box_furthest_float_wide_case :
  box_to_furthest_float [(- inject_Z (2 ^ 40), inject_Z (2 ^ 40)); (0, 1)]%Q = UB.
Proof. vm_compute. auto. Qed.

Print Assumptions c87_ball_distance_iff_inside.
Print Assumptions c87_box_distance_iff_inside.
Print Assumptions c87_ball_diameter.
Print Assumptions c87_ball_diameter_float.
Print Assumptions c87_ball_empty_iff.
Print Assumptions c87_ball_boundary_excluded.
Print Assumptions c87_unbounded_holds_everything.
Print Assumptions c87_unbounded_integer_diameter_refuted.
Print Assumptions c87_box_furthest_integer.
Print Assumptions c87_box_furthest_bounds_distance_refuted.
Print Assumptions c87_box_diameter_integer_refuted.
Print Assumptions c87_box_furthest_float.
Print Assumptions c87_box_furthest_float_refuted.
Print Assumptions c87_box_furthest_float_wide.
