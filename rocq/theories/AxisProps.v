(** Theorems on the choice of the axis and on the trees built with the policies of the library (C76, C77). *)
From Coq Require Import List Arith ZArith QArith Qround Lqa Lia Bool Permutation.
From Verif Require Import Base SortingModel SortingSpec SortingProofs BoundsModel BoundsSpec BoundsProofs BufferModel KDTreeModel KDTreeSpec KDTreeProofs
  KDTreeProps SearchModel SearchSpec SearchProofs SearchProps
  RandomModel RandomSpec RandomProofs AliasProofs StatsModel StatsSpec StatsProofs StatsProps AxisModel AxisSpec AxisProofs.
Import ListNotations.
Local Open Scope nat_scope.

(** A whole number of samples with values of the type, and indices of samples. *)
Definition axis_input (samples : list Z) (nf : nat) (lowest max : Z) (n : nat) (indices : list nat) : Prop :=
  0 < nf /\ length samples = n * nf /\ (forall i, In i indices -> i < n) /\ (forall z, In z samples -> (lowest <= z <= max)%Z).

(** Two samples of five have the greatest spread on the first feature; the last two are far on the second. *)
Definition cloud : list Z := [0; 0;  4; 1;  2; 2;  3; 90;  3; -90]%Z.
Lemma cloud_input indices : (forall i, In i indices -> i < 5) -> axis_input cloud 2 (-100) 100 5 indices.
Proof. intros H. split; [lia|]. split; [reflexivity|]. split; auto. intros z Hz. simpl in Hz. intuition lia. Qed.
Definition low : generator := fun _ lower _ => lower.
Definition high : generator := fun _ _ upper => upper.
Lemma low_ok : in_range low. Proof. intros c l u H. unfold low. lia. Qed.
Lemma high_ok : in_range high. Proof. intros c l u H. unfold high. lia. Qed.

(** ** C76: which axis is chosen *)

(** [CycleThroughAxesBuild] uses the allowed axes in order, each exactly once on any sequence of as many levels. *)
Theorem c76_cycle_uses_each_axis_once : forall nf mask, 0 < nf ->
  exists axis_at, (forall depth, cycle_through_axes nf mask depth = Ok (axis_at depth)) /\
    map axis_at (seq 0 (length (allowed nf mask))) = allowed nf mask /\
    forall depth, Permutation (map axis_at (seq depth (length (allowed nf mask)))) (allowed nf mask).
Proof.
  intros nf mask H0. set (A := allowed nf mask).
  assert (HA : 0 < length A). { unfold A, allowed. destruct mask; [now rewrite seq_length|simpl; lia]. }
  exists (fun d => nth (d mod length A) A 0).
  assert (E0 : map (fun d => nth (d mod length A) A 0) (seq 0 (length A)) = A).
  { apply nth_error_ext. intros k. destruct (Nat.lt_ge_cases k (length A)) as [Hk|Hk].
    - rewrite nth_error_map. rewrite (nth_error_nth' (seq 0 (length A)) k 0) by (now rewrite seq_length). rewrite seq_nth by auto. cbn [option_map Nat.add].
      rewrite Nat.mod_small by auto. symmetry. now apply nth_error_nth'.
    - rewrite (proj2 (nth_error_None A k)) by lia. apply nth_error_None. rewrite map_length, seq_length. lia. }
  split; [|split; [exact E0|]].
  - intros d. unfold cycle_through_axes, A, allowed in *. destruct mask as [|m mask].
    + destruct (Nat.eqb_spec nf 0); [lia|]. rewrite seq_length. rewrite seq_nth by (apply Nat.mod_upper_bound; lia). reflexivity.
    + apply rd_ok. apply nth_error_nth'. apply Nat.mod_upper_bound. simpl. lia.
  - induction depth as [|d IH]; [now rewrite E0|]. etransitivity; [|exact IH]. clear E0 IH.
    destruct (length A) as [|m] eqn:Em; [lia|]. rewrite seq_S. cbn [seq]. rewrite map_app. cbn [map].
    rewrite Permutation_app_comm. cbn [app].
    replace ((S d + m) mod S m) with (d mod S m); [reflexivity|].
    replace (S d + m) with (d + 1 * S m) by lia. now rewrite Nat.mod_add by lia.
Qed.
Example c76_cycle_uses_each_axis_once_case :
  map (cycle_through_axes 3 []) (seq 0 5) = [Ok 0; Ok 1; Ok 2; Ok 0; Ok 1] /\
  map (cycle_through_axes 3 [2; 0]) (seq 0 5) = [Ok 2; Ok 0; Ok 2; Ok 0; Ok 2] /\ cycle_through_axes 0 [] 4 = UB.
Proof. splits; reflexivity. Qed.

(** [MaximumSpreadBuild] without a mask: the first of the longest sides of the box. *)
Theorem c76_spread_is_the_longest_side : forall bound, aabb_segments bound <> [] ->
  exists axis, maximum_spread [] bound = Ok axis /\
    first_greatest (length (aabb_segments bound)) (fun j => inject_Z (side bound j)) axis.
Proof. intros bound H. exists (select_longest_axis bound). split; auto. now apply longest_axis_ok. Qed.
Definition box3 : aabb := mk_aabb [] [mk_segment 0 3; mk_segment 7 2; mk_segment (-1) 4].
Example c76_spread_is_the_longest_side_case :
  aabb_segments box3 <> [] /\ map (side box3) [0; 1; 2] = [3; 5; 5]%Z /\ maximum_spread [] box3 = Ok 1.
Proof. split; [discriminate|]. split; reflexivity. Qed.

(** With a mask: the first of the axes of the mask with the longest side; but axis 0 if all of these sides are 0, even if it
    is not in the mask. *)
Theorem c76_masked_spread : forall bound mask, mask <> [] -> Forall (fun f => f < length (aabb_segments bound)) mask ->
  exists axis, maximum_spread mask bound = Ok axis /\
    ((forall f, In f mask -> side bound f = 0%Z) -> axis = 0) /\
    (forall f, In f mask -> (0 < side bound f)%Z -> exists k, nth_error mask k = Some axis /\
       (forall g, In g mask -> (side bound g <= side bound axis)%Z) /\ (forall i g, i < k -> nth_error mask i = Some g -> (side bound g < side bound axis)%Z)).
Proof.
  intros bound mask Hne Hm. destruct (longest_masked_ok bound mask Hm) as (axis & E & H). exists axis. split; auto.
  destruct mask; [congruence|exact E].
Qed.
Theorem c76_masked_spread_refuted : exists bound mask axis,
  mask <> [] /\ Forall (fun f => f < length (aabb_segments bound)) mask /\ maximum_spread mask bound = Ok axis /\ ~ In axis mask.
Proof.
  exists (mk_aabb [] [mk_segment 0 3; mk_segment 5 5; mk_segment 4 4]), [1; 2], 0. splits; [discriminate|repeat constructor|reflexivity|].
  simpl. lia.
Qed.
Example c76_masked_spread_case :
  Forall (fun f => f < length (aabb_segments box3)) [0; 2; 1] /\ maximum_spread [0; 2; 1] box3 = Ok 2 /\ maximum_spread [0] box3 = Ok 0.
Proof. splits; repeat constructor. Qed.

Lemma input_rows samples nf lowest max n indices : axis_input samples nf lowest max n indices -> rows_exist (map inject_Z samples) nf indices.
Proof. intros (H0 & L & Hi & _) i Hin. rewrite map_length, L. specialize (Hi i Hin). nia. Qed.
Lemma float_samples samples : map float_value samples = map Some (map inject_Z samples).
Proof. unfold float_value. now rewrite map_map. Qed.
Lemma input_incl samples nf lowest max n indices l : axis_input samples nf lowest max n indices -> incl l indices -> axis_input samples nf lowest max n l.
Proof. intros (H0 & L & Hi & Hz) Hl. splits; auto. split; auto. Qed.

Lemma select_prefix (draw : generator) (l : list nat) m : in_range draw -> m <= length l ->
  exists l', select_n_elements draw l m = Ok l' /\ Permutation (firstn m l) l'.
Proof.
  intros Hd Hm. destruct (select_is_shuffle draw l m Hd Hm) as (E & Hr). rewrite E.
  destruct (shuffle_perm (fun c => draw c c (m - 1)) m 0 (firstn m l)) as (l' & El & _ & P).
  - intros c Hc. rewrite firstn_length. specialize (Hr c). lia.
  - eauto.
Qed.
Lemma firstn_incl {A} m (l : list A) : incl (firstn m l) l.
Proof. intros x Hx. rewrite <- (firstn_skipn m l). rewrite in_app_iff. auto. Qed.

(** [HighestVarianceBuild] without a mask, three samples or more: the first of the axes with the greatest variance over the
    first [max 3 (rate * n)] samples of the node. *)
Definition sampled (rate : Q) (n : nat) : nat := Nat.max 3 (Z.to_nat (Qfloor (rate * inject_Z (Z.of_nat n)))).
Lemma sampled_le rate n : (rate <= 1)%Q -> 3 <= n -> 3 <= sampled rate n <= n.
Proof.
  intros Hr Hn. unfold sampled. assert (Z.to_nat (Qfloor (rate * inject_Z (Z.of_nat n))) <= n); [|lia].
  assert (Qfloor (rate * inject_Z (Z.of_nat n)) <= Z.of_nat n)%Z; [|lia].
  apply Z.le_trans with (Qfloor (inject_Z (Z.of_nat n))); [|rewrite Qfloor_Z; lia]. apply Qfloor_resp_le.
  assert (0 <= inject_Z (Z.of_nat n))%Q by (change 0%Q with (inject_Z 0); rewrite <- Zle_Qle; lia).
  apply Qle_trans with (1 * inject_Z (Z.of_nat n))%Q; [apply Qmult_le_compat_r; auto|lra].
Qed.
Lemma variance_axis_is_sampled {V} (a : arith V) inj lowest max center samples nf draw rate indices : 3 <= length indices ->
  select_largest_variance_axis a inj lowest max center samples nf draw rate indices =
  (random_indices <- select_n_elements draw indices (sampled rate (length indices)) ;; argmax_variance a (map inj samples) nf random_indices).
Proof.
  intros H. unfold select_largest_variance_axis, n_choices, sampled. set (k := Z.to_nat _).
  destruct (Nat.ltb_spec 2 k).
  - replace (Nat.max 3 k) with k by lia. reflexivity.
  - destruct (Nat.ltb_spec 2 (length indices)); [|lia]. replace (Nat.max 3 k) with 3 by lia. reflexivity.
Qed.
Theorem c76_variance_of_the_first_samples : forall lowest max center samples nf n draw rate indices,
  axis_input samples nf lowest max n indices -> in_range draw -> (rate <= 1)%Q -> 3 <= length indices ->
  exists axis, highest_variance float_arith float_value lowest max center samples nf draw rate [] indices = Ok axis /\
    first_greatest nf (feature_variance samples nf (firstn (sampled rate (length indices)) indices)) axis.
Proof.
  intros lowest max center samples nf n draw rate indices Hin Hd Hr H3. cbn [highest_variance].
  rewrite variance_axis_is_sampled by auto. pose proof (sampled_le rate _ Hr H3) as Hs.
  destruct (select_prefix draw indices (sampled rate (length indices)) Hd ltac:(lia)) as (l & E & P). rewrite E. cbn [bind].
  rewrite float_samples. pose proof (Permutation_length P) as Ll. rewrite firstn_length in Ll.
  destruct (c74_argmax_variance (map inject_Z samples) nf l) as (axis & Ea & Ha).
  - apply Hin.
  - eapply input_rows. eapply input_incl; [exact Hin|]. intros i Hi. eapply firstn_incl. eapply Permutation_in; [symmetry; exact P|exact Hi].
  - lia.
  - exists axis. split; auto. eapply first_greatest_ext; [|exact Ha]. intros j Hj. unfold feature_variance. apply variance_perm.
    unfold column. apply Permutation_map. now symmetry.
Qed.
Example c76_variance_of_the_first_samples_case :
  axis_input cloud 2 (-100) 100 5 [3; 0; 4; 1] /\ sampled default_sampling_rate 4 = 3 /\ sampled (4#5)%Q 5 = 4 /\ sampled default_sampling_rate 40 = 4 /\
  highest_variance float_arith float_value (-100) 100 half cloud 2 high default_sampling_rate [] [3; 0; 4; 1] = Ok 1 /\
  highest_variance float_arith float_value (-100) 100 half cloud 2 low (4#5)%Q [] [0; 1; 2; 3; 4] = Ok 1 /\
  highest_variance float_arith float_value (-100) 100 half cloud 2 low (3#5)%Q [] [0; 1; 2; 3; 4] = Ok 0.
Proof. split; [apply cloud_input; simpl; intuition lia|]. splits; vm_compute; reflexivity. Qed.

(** The rest of the node has no influence whatever the random numbers are: the axis chosen can have a variance over the node
    hundreds of times less than another one. *)
Theorem c76_variance_of_the_node_refuted : exists samples nf lowest max center n indices,
  axis_input samples nf lowest max n indices /\ 3 <= length indices /\
  forall draw, in_range draw ->
    highest_variance float_arith float_value lowest max center samples nf draw default_sampling_rate [] indices = Ok 0 /\
    (500 * feature_variance samples nf indices 0 < feature_variance samples nf indices 1)%Q.
Proof.
  exists cloud, 2, (-100)%Z, 100%Z, half, 5, [0; 1; 2; 3; 4]. assert (Hin : axis_input cloud 2 (-100) 100 5 [0; 1; 2; 3; 4]) by (apply cloud_input; simpl; intuition lia).
  split; auto. split; [simpl; lia|]. intros draw Hd. split; [|vm_compute; reflexivity].
  destruct (c76_variance_of_the_first_samples (-100) 100 half cloud 2 5 draw default_sampling_rate [0; 1; 2; 3; 4] Hin Hd) as (axis & E & Hlt & _ & Hm).
  { vm_compute. discriminate. }
  { simpl. lia. }
  destruct axis as [|[|axis]]; auto; [|lia]. specialize (Hm 0 ltac:(lia)). vm_compute in Hm. discriminate.
Qed.

(** Two samples: the first of the axes on which the whole dataset, and not the two samples, spreads most; with a mask likewise
    among the axes of the mask. *)
Lemma whole_box lowest max center samples nf n indices : axis_input samples nf lowest max n indices -> 0 < n ->
  exists segs, make_tight_segments_all lowest max samples nf = Ok segs /\ length segs = nf /\
    forall spread f, f < nf -> is_spread samples nf (seq 0 n) f spread -> side (make_aabb center segs) f = spread.
Proof.
  intros (H0 & L & Hi & Hz) Hn. unfold make_tight_segments_all. rewrite L, Nat.div_mul by lia.
  assert (Hrows : forall f, f < nf -> in_dataset samples nf f (seq 0 n)). { intros f Hf k Hk'. apply in_seq in Hk'. rewrite L. nia. }
  destruct (make_tight_segments_ok lowest max samples nf (seq 0 n)) as (segs & E & Ls & T); auto.
  { intros k f Hk' Hf. apply Hz. unfold val. apply nth_In. apply Hrows; auto. }
  exists segs. split; auto. split; auto. intros spread f Hf Hspread.
  unfold side. cbn [aabb_segments make_aabb]. rewrite (nth_error_nth' segs f (mk_segment 0 0)) by lia.
  specialize (T f Hf). destruct T as (T1 & _ & T2). destruct T2 as ((u & Hu & Eu) & (v & Hv & Ev)). { destruct n; [lia|discriminate]. }
  destruct Hspread as (lo & hi & Hlo & Hhi & Hb & ->). set (s := nth f segs (mk_segment 0 0)) in *.
  assert (A1 : In (seg_lower s) (zcolumn samples nf f (seq 0 n))). { rewrite <- Eu. unfold zcolumn, val. apply in_map_iff. eauto. }
  assert (A2 : In (seg_upper s) (zcolumn samples nf f (seq 0 n))). { rewrite <- Ev. unfold zcolumn, val. apply in_map_iff. eauto. }
  pose proof (Hb _ A1). pose proof (Hb _ A2). unfold zcolumn in Hlo, Hhi. apply in_map_iff in Hlo, Hhi.
  destruct Hlo as (x & Ex & Hx), Hhi as (y & Ey & Hy). pose proof (T1 x Hx) as Tx. pose proof (T1 y Hy) as Ty. unfold val in Tx, Ty. rewrite Ex in Tx. rewrite Ey in Ty.
  lia.
Qed.
Lemma few_choices rate k : (rate <= 1)%Q -> k <= 2 -> (2 <? n_choices rate k) = false.
Proof.
  intros Hr Hk. apply Nat.ltb_ge. unfold n_choices. assert (Qfloor (rate * inject_Z (Z.of_nat k)) <= 2)%Z; [|lia].
  apply Z.le_trans with (Qfloor (inject_Z (Z.of_nat k))); [|rewrite Qfloor_Z; lia]. apply Qfloor_resp_le.
  assert (0 <= inject_Z (Z.of_nat k))%Q by (change 0%Q with (inject_Z 0); rewrite <- Zle_Qle; lia).
  apply Qle_trans with (1 * inject_Z (Z.of_nat k))%Q; [apply Qmult_le_compat_r; auto|lra].
Qed.
Theorem c76_two_samples : forall lowest max center samples nf n draw rate i j,
  axis_input samples nf lowest max n [i; j] -> (rate <= 1)%Q ->
  exists axis, highest_variance float_arith float_value lowest max center samples nf draw rate [] [i; j] = Ok axis /\
    forall spread, (forall f, f < nf -> is_spread samples nf (seq 0 n) f (spread f)) -> first_greatest nf (fun f => inject_Z (spread f)) axis.
Proof.
  intros lowest max center samples nf n draw rate i j Hin Hr. pose proof Hin as (H0 & L & Hi & Hz).
  assert (Hn : 0 < n) by (specialize (Hi i (or_introl eq_refl)); lia).
  destruct (whole_box lowest max center samples nf n [i; j] Hin Hn) as (segs & E & Ls & Hs).
  cbn [highest_variance]. unfold select_largest_variance_axis. cbn [length]. rewrite few_choices by (auto; lia). cbn [Nat.ltb Nat.leb Nat.eqb].
  rewrite E. cbn [bind]. eexists. split; [reflexivity|]. intros spread Hspread.
  pose proof (longest_axis_ok (make_aabb center segs)) as M. cbn [aabb_segments make_aabb] in M. rewrite Ls in M.
  eapply first_greatest_ext; [|apply M; intros ->; simpl in Ls; lia].
  intros f Hf. rewrite <- (Hs (spread f) f Hf (Hspread f Hf)). reflexivity.
Qed.
Theorem c76_masked_two_samples : forall lowest max center samples nf n draw rate mask i j,
  axis_input samples nf lowest max n [i; j] -> (rate <= 1)%Q -> mask <> [] -> Forall (fun f => f < nf) mask ->
  exists axis, highest_variance float_arith float_value lowest max center samples nf draw rate mask [i; j] = Ok axis /\
    forall spread, (forall f, f < nf -> is_spread samples nf (seq 0 n) f (spread f)) ->
      ((forall f, In f mask -> spread f = 0%Z) -> axis = 0) /\
      (forall f, In f mask -> (0 < spread f)%Z -> exists k, nth_error mask k = Some axis /\
         (forall g, In g mask -> (spread g <= spread axis)%Z) /\ (forall i g, i < k -> nth_error mask i = Some g -> (spread g < spread axis)%Z)).
Proof.
  intros lowest max center samples nf n draw rate mask i j Hin Hr Hne Hm. pose proof Hin as (H0 & L & Hi & Hz).
  assert (Hn : 0 < n) by (specialize (Hi i (or_introl eq_refl)); lia).
  destruct (whole_box lowest max center samples nf n [i; j] Hin Hn) as (segs & E & Ls & Hs).
  destruct (longest_masked_ok (make_aabb center segs) mask) as (axis & Ea & A1 & A2). { cbn [aabb_segments make_aabb]. now rewrite Ls. }
  exists axis. split.
  - unfold highest_variance. destruct mask as [|m mask]; [congruence|]. unfold select_largest_variance_axis_masked. cbn [length].
    rewrite few_choices by (auto; lia). cbn [Nat.ltb Nat.leb Nat.eqb]. rewrite E. exact Ea.
  - intros spread Hspread. rewrite Forall_forall in Hm.
    assert (Q : forall f, In f mask -> side (make_aabb center segs) f = spread f). { intros f Hf. apply Hs; auto. }
    split.
    + intros Hz0. apply A1. intros f Hf. rewrite Q; auto.
    + intros f Hf Hpos. destruct (A2 f Hf) as (k & Ek & B1 & B2); [rewrite Q; auto|]. pose proof (nth_error_In _ _ Ek) as Hax. exists k. split; auto.
      rewrite (Q axis Hax) in B1, B2. split; [intros g Hg; rewrite <- Q by auto; auto|].
      intros i0 g Hi0 Eg. rewrite <- Q by (eapply nth_error_In; eauto). eauto.
Qed.
Example c76_masked_two_samples_case :
  axis_input [1; 5; 0;  8; 5; 0;  2; -50; 0]%Z 3 (-100) 100 3 [0; 1] /\
  highest_variance float_arith float_value (-100) 100 half [1; 5; 0;  8; 5; 0;  2; -50; 0]%Z 3 low default_sampling_rate [2; 0; 1] [0; 1] = Ok 1 /\
  highest_variance float_arith float_value (-100) 100 half [1; 5; 0;  8; 5; 0;  2; -50; 0]%Z 3 low default_sampling_rate [2] [0; 1] = Ok 0 /\
  is_spread [1; 5; 0;  8; 5; 0;  2; -50; 0]%Z 3 (seq 0 3) 1 55.
Proof.
  split. { split; [lia|]. split; [reflexivity|]. split; [simpl; intuition lia|]. intros z Hz. simpl in Hz. intuition lia. }
  split; [vm_compute; reflexivity|]. split; [vm_compute; reflexivity|].
  exists (-50)%Z, 5%Z. splits; try (vm_compute; tauto). intros z Hz. vm_compute in Hz. intuition lia.
Qed.
Theorem c76_two_samples_refuted : exists samples nf lowest max center n i j,
  axis_input samples nf lowest max n [i; j] /\
  forall draw, highest_variance float_arith float_value lowest max center samples nf draw default_sampling_rate [] [i; j] = Ok 1 /\
    (feature_variance samples nf [i; j] 1 == 0)%Q /\ (0 < feature_variance samples nf [i; j] 0)%Q.
Proof.
  exists [1; 5;  8; 5;  2; -50]%Z, 2, (-100)%Z, 100%Z, half, 3, 0, 1. split.
  { split; [lia|]. split; [reflexivity|]. split; [simpl; intuition lia|]. intros z Hz. simpl in Hz. intuition lia. }
  intros draw. splits; vm_compute; reflexivity.
Qed.
Example c76_two_samples_case :
  axis_input cloud 2 (-100) 100 5 [2; 1] /\
  highest_variance float_arith float_value (-100) 100 half cloud 2 low default_sampling_rate [] [2; 1] = Ok 1 /\
  is_spread cloud 2 (seq 0 5) 0 4 /\ is_spread cloud 2 (seq 0 5) 1 180.
Proof.
  split; [apply cloud_input; simpl; intuition lia|]. split; [vm_compute; reflexivity|]. split.
  - exists 0%Z, 4%Z. splits; try (vm_compute; tauto). intros z Hz. vm_compute in Hz. intuition lia.
  - exists (-90)%Z, 90%Z. splits; try (vm_compute; tauto). intros z Hz. vm_compute in Hz. intuition lia.
Qed.

(** One sample: any axis can be returned, with or without a mask, and so can an axis that is not in the mask. *)
Theorem c76_one_sample : forall lowest max center samples nf rate mask i, 0 < nf -> (rate <= 1)%Q ->
  (forall draw, in_range draw -> exists axis, axis < nf /\
     highest_variance float_arith float_value lowest max center samples nf draw rate mask [i] = Ok axis) /\
  (forall axis, axis < nf -> exists draw, in_range draw /\
     highest_variance float_arith float_value lowest max center samples nf draw rate mask [i] = Ok axis).
Proof.
  intros lowest max center samples nf rate mask i H0 Hr.
  assert (E : forall draw, highest_variance float_arith float_value lowest max center samples nf draw rate mask [i] = Ok (draw 0 0 (nf - 1))).
  { intros draw. unfold highest_variance, select_largest_variance_axis, select_largest_variance_axis_masked, n_choices. cbn [length].
    assert (Hk : Z.to_nat (Qfloor (rate * inject_Z (Z.of_nat 1))) <= 2).
    { assert (Qfloor (rate * inject_Z (Z.of_nat 1)) <= 1)%Z; [|lia]. apply Z.le_trans with (Qfloor (inject_Z 1)); [|rewrite Qfloor_Z; lia]. apply Qfloor_resp_le.
      change (inject_Z (Z.of_nat 1)) with 1%Q. change (inject_Z 1) with 1%Q. lra. }
    destruct (Nat.ltb_spec 2 (Z.to_nat (Qfloor (rate * inject_Z (Z.of_nat 1))))); [lia|]. destruct mask; reflexivity. }
  split.
  - intros draw Hd. exists (draw 0 0 (nf - 1)). split; auto. specialize (Hd 0 0 (nf - 1) ltac:(lia)). lia.
  - intros axis Ha. exists (fun _ lower upper => Nat.min upper (Nat.max lower axis)). split; [intros c l u H; lia|]. rewrite E. f_equal. lia.
Qed.
Example c76_one_sample_case :
  in_range high /\ highest_variance float_arith float_value (-100) 100 half cloud 2 high default_sampling_rate [0] [3] = Ok 1.
Proof. split; [exact high_ok|]. vm_compute. reflexivity. Qed.

(** With a mask and three samples or more: an axis of the mask, the one on which one of the first samples is furthest from
    their mean; it can have the least variance of the mask. *)
Lemma masked_axis_is_sampled {V} (a : arith V) inj lowest max center samples nf draw rate mask indices : 3 <= length indices ->
  select_largest_variance_axis_masked a inj lowest max center samples nf draw rate mask indices =
  (random_indices <- select_n_elements draw indices (sampled rate (length indices)) ;; argmax_variance_masked a (map inj samples) nf mask random_indices).
Proof.
  intros H. unfold select_largest_variance_axis_masked, n_choices, sampled. set (k := Z.to_nat _).
  destruct (Nat.ltb_spec 2 k).
  - replace (Nat.max 3 k) with k by lia. reflexivity.
  - destruct (Nat.ltb_spec 2 (length indices)); [|lia]. replace (Nat.max 3 k) with 3 by lia. reflexivity.
Qed.
Theorem c76_masked_variance : forall lowest max center samples nf n draw rate mask indices,
  axis_input samples nf lowest max n indices -> in_range draw -> (rate <= 1)%Q -> 3 <= length indices ->
  mask <> [] -> Forall (fun f => f < nf) mask ->
  exists order k, Permutation (firstn (sampled rate (length indices)) indices) order /\
    highest_variance float_arith float_value lowest max center samples nf draw rate mask indices = Ok (nth k mask 0) /\
    first_greatest (length mask) (fun k => first_scatter (column (map inject_Z samples) nf (nth k mask 0) order)) k.
Proof.
  intros lowest max center samples nf n draw rate mask indices Hin Hd Hr H3 Hne Hm. unfold highest_variance. destruct mask as [|m mask]; [congruence|].
  rewrite masked_axis_is_sampled by auto. pose proof (sampled_le rate _ Hr H3) as Hs.
  destruct (select_prefix draw indices (sampled rate (length indices)) Hd ltac:(lia)) as (l & E & P). rewrite E. cbn [bind].
  rewrite float_samples. pose proof (Permutation_length P) as Ll. rewrite firstn_length in Ll.
  destruct (c74_argmax_variance_masked (map inject_Z samples) nf (m :: mask) l) as (k & Ea & Ha); auto.
  - eapply input_rows. eapply input_incl; [exact Hin|]. intros i Hi. eapply firstn_incl. eapply Permutation_in; [symmetry; exact P|exact Hi].
  - intros ->. simpl in Ll. lia.
  - exists l, k. auto.
Qed.
Theorem c76_masked_variance_refuted : exists samples nf lowest max center n mask indices draw,
  axis_input samples nf lowest max n indices /\ length indices = 3 /\ in_range draw /\ Forall (fun f => f < nf) mask /\
  highest_variance float_arith float_value lowest max center samples nf draw default_sampling_rate mask indices = Ok 0 /\
  In 1 mask /\ (100 * feature_variance samples nf indices 0 < feature_variance samples nf indices 1)%Q.
Proof.
  exists [3; 0;  1; 80;  1; -80]%Z, 2, (-100)%Z, 100%Z, half, 3, [0; 1], [0; 1; 2], low. splits.
  - split; [lia|]. split; [reflexivity|]. split; [simpl; intuition lia|]. intros z Hz. simpl in Hz. intuition lia.
  - reflexivity.
  - exact low_ok.
  - repeat constructor.
  - vm_compute. reflexivity.
  - simpl. auto.
  - vm_compute. reflexivity.
Qed.
Example c76_masked_variance_case :
  Forall (fun f => f < 2) [1; 0] /\ highest_variance float_arith float_value (-100) 100 half cloud 2 high default_sampling_rate [1; 0] [3; 0; 4; 1] = Ok 1.
Proof. split; [repeat constructor|]. vm_compute. reflexivity. Qed.

(** ** C77: the trees of the library *)

(** Each policy returns an axis of the dataset when it is called on samples of it. *)
Lemma cycle_valid nf mask depth : 0 < nf -> Forall (fun f => f < nf) mask -> exists axis, cycle_through_axes nf mask depth = Ok axis /\ axis < nf.
Proof.
  intros H0 Hm. unfold cycle_through_axes. destruct mask as [|m mask].
  - destruct (Nat.eqb_spec nf 0); [lia|]. exists (depth mod nf). split; auto. apply Nat.mod_upper_bound. lia.
  - rewrite Forall_forall in Hm. assert (H : depth mod length (m :: mask) < length (m :: mask)) by (apply Nat.mod_upper_bound; simpl; lia).
    exists (nth (depth mod length (m :: mask)) (m :: mask) 0). split; [apply rd_ok; now apply nth_error_nth'|]. apply Hm. now apply nth_In.
Qed.
Lemma longest_valid bound nf : 0 < nf -> length (aabb_segments bound) = nf -> select_longest_axis bound < nf.
Proof. intros H0 L. rewrite <- L. apply (longest_axis_ok bound). intros E. rewrite E in L. simpl in L. lia. Qed.
Lemma longest_masked_valid bound mask nf : 0 < nf -> length (aabb_segments bound) = nf -> Forall (fun f => f < nf) mask ->
  exists axis, select_longest_axis_masked bound mask = Ok axis /\ axis < nf.
Proof.
  intros H0 L Hm. destruct (longest_masked_ok bound mask) as (axis & E & Hz & Hp); [now rewrite L|]. exists axis. split; auto.
  rewrite Forall_forall in Hm. assert (D : (exists f, In f mask /\ (0 < side bound f)%Z) \/ forall f, In f mask -> side bound f = 0%Z).
  { assert (P : forall f, (0 <= side bound f)%Z). { intros f. unfold side. destruct (nth_error (aabb_segments bound) f); lia. }
    clear - P. induction mask as [|m mask IH]; [right; intros f []|]. destruct (Z.eq_dec (side bound m) 0).
    - destruct IH as [(f & Hf & Hs)|IH]; [left; exists f; simpl; auto|]. right. intros f [<-|Hf]; auto.
    - left. exists m. specialize (P m). simpl. split; auto. lia. }
  destruct D as [(f & Hf & Hs)|D]; [|rewrite Hz; auto]. destruct (Hp f Hf Hs) as (k & Ek & _). apply Hm. eapply nth_error_In; eauto.
Qed.
Lemma spread_valid bound mask nf : 0 < nf -> length (aabb_segments bound) = nf -> Forall (fun f => f < nf) mask ->
  exists axis, maximum_spread mask bound = Ok axis /\ axis < nf.
Proof.
  intros H0 L Hm. unfold maximum_spread. destruct mask as [|m mask].
  - exists (select_longest_axis bound). split; auto. now apply longest_valid.
  - now apply longest_masked_valid.
Qed.
Lemma whole_segments samples nf lowest max n indices : axis_input samples nf lowest max n indices ->
  exists segs, make_tight_segments_all lowest max samples nf = Ok segs /\ length segs = nf.
Proof.
  intros (H0 & L & Hi & Hz). unfold make_tight_segments_all. rewrite L, Nat.div_mul by lia.
  assert (Hrows : forall f, f < nf -> in_dataset samples nf f (seq 0 n)). { intros f Hf k Hk'. apply in_seq in Hk'. rewrite L. nia. }
  destruct (make_tight_segments_ok lowest max samples nf (seq 0 n)) as (segs & E & Ls & _); eauto.
  intros k f Hk' Hf. apply Hz. unfold val. apply nth_In. apply Hrows; auto.
Qed.
Section Few.
Context {V : Type} (a : arith V) (inj : Z -> V) (lowest max : Z) (center : segment -> Z) (samples : list Z) (nf n : nat).
Lemma variance_valid_few draw rate mask indices : axis_input samples nf lowest max n indices -> in_range draw -> (rate <= 1)%Q ->
  Forall (fun f => f < nf) mask -> length indices <= 2 ->
  exists axis, highest_variance a inj lowest max center samples nf draw rate mask indices = Ok axis /\ axis < nf.
Proof.
  intros Hin Hd Hr Hm H2. destruct (whole_segments _ _ _ _ _ _ Hin) as (segs & Es & Ls).
  assert (H0 : 0 < nf) by apply Hin. pose proof (Hd 0 0 (nf - 1) ltac:(lia)) as Hdr.
  unfold highest_variance, select_largest_variance_axis, select_largest_variance_axis_masked.
  rewrite few_choices by auto. destruct (Nat.ltb_spec 2 (length indices)); [lia|]. rewrite Es. cbn [bind].
  destruct mask as [|m mask]; destruct (length indices =? 2).
  - eexists. split; [reflexivity|]. apply longest_valid; auto.
  - eexists. split; [reflexivity|]. lia.
  - apply longest_masked_valid; auto.
  - eexists. split; [reflexivity|]. lia.
Qed.
End Few.
Lemma variance_valid lowest max center samples nf n draw rate mask indices :
  axis_input samples nf lowest max n indices -> in_range draw -> (rate <= 1)%Q -> Forall (fun f => f < nf) mask ->
  exists axis, highest_variance float_arith float_value lowest max center samples nf draw rate mask indices = Ok axis /\ axis < nf.
Proof.
  intros Hin Hd Hr Hm. destruct (Nat.le_gt_cases (length indices) 2) as [H2|H3]; [eapply variance_valid_few; eauto|].
  destruct mask as [|m mask].
  - destruct (c76_variance_of_the_first_samples lowest max center samples nf n draw rate indices Hin Hd Hr H3) as (axis & E & Ha & _). eauto.
  - destruct (c76_masked_variance lowest max center samples nf n draw rate (m :: mask) indices Hin Hd Hr H3 ltac:(discriminate) Hm)
      as (order & k & _ & E & Hk & _). exists (nth k (m :: mask) 0). split; auto. rewrite Forall_forall in Hm. apply Hm. now apply nth_In.
Qed.

(** Every tree built with one of the policies of the library, whatever the random numbers, is a tree that C10-C12 and the
    theorems on searches speak of. *)
Definition is_modelled (tol : Z) (samples : list Z) (nf bucket max_depth : nat) (lowest max : Z) (center : segment -> Z) (indices : list nat)
  (tree : res kdtree) : Prop :=
  exists policy, policy_ok nf policy /\ tree = make_kdtree tol samples nf bucket max_depth policy lowest max center indices.
Lemma modelled tol samples nf bucket max_depth lowest max center n indices policy initial :
  (0 <= tol)%Z -> axis_input samples nf lowest max n indices ->
  (forall path range depth bound, range <> [] -> incl range indices -> length range <= length indices -> length (aabb_segments bound) = nf ->
     exists axis, policy path range depth bound = Ok axis /\ axis < nf) ->
  (forall bound, length (aabb_segments bound) = nf -> exists axis, initial indices 0 bound = Ok axis /\ axis < nf) ->
  is_modelled tol samples nf bucket max_depth lowest max center indices
    (make_kdtree_with tol samples nf bucket max_depth policy initial lowest max center indices).
Proof.
  intros Ht (H0 & L & Hi & Hz) Hp Hinit. exists (total_policy nf policy). split; [intros p r d b; now apply total_policy_ok|].
  assert (Hrows : forall j, j < nf -> in_dataset samples nf j indices). { intros j Hj i Hin. specialize (Hi i Hin). rewrite L. nia. }
  apply make_kdtree_with_eq with (all := indices); auto.
  - apply incl_refl.
  - intros i j Hin Hj. apply Hz. unfold val. apply nth_In. now apply Hrows.
  - intros bound Hb. destruct (Hinit bound Hb) as (axis & E & _). eauto.
Qed.
Theorem c77_trees_of_the_library : forall tol samples nf bucket max_depth lowest max center n indices mask,
  (0 <= tol)%Z -> axis_input samples nf lowest max n indices -> Forall (fun f => f < nf) mask ->
  is_modelled tol samples nf bucket max_depth lowest max center indices
    (kdtree_cycle tol samples nf bucket max_depth lowest max center mask indices) /\
  is_modelled tol samples nf bucket max_depth lowest max center indices
    (kdtree_spread tol samples nf bucket max_depth lowest max center mask indices) /\
  forall draws draw rate, (forall path, in_range (draws path)) -> in_range draw -> (rate <= 1)%Q ->
    is_modelled tol samples nf bucket max_depth lowest max center indices
      (kdtree_variance float_arith float_value tol samples nf bucket max_depth lowest max center draws draw rate mask indices).
Proof.
  intros tol samples nf bucket max_depth lowest max center n indices mask Ht Hin Hm. assert (H0 : 0 < nf) by apply Hin. splits.
  - eapply modelled; eauto; intros; now apply cycle_valid.
  - eapply modelled; eauto; intros; now apply spread_valid.
  - intros draws draw rate Hds Hd Hr. eapply modelled; eauto; intros; eapply variance_valid; eauto. eapply input_incl; eauto.
Qed.

Lemma modelled_search m dist tol samples nf bucket max_depth lowest max center n indices query k tree :
  metric_ok m dist -> (0 <= tol)%Z -> axis_input samples nf lowest max n indices -> (forall j, j < nf -> separated tol samples nf j indices) ->
  length query = nf -> 1 <= k -> (Z.of_nat k < 2 ^ 64)%Z ->
  is_modelled tol samples nf bucket max_depth lowest max center indices tree ->
  exists t b, tree = Ok t /\ search m samples nf t Unbounded query accept_all k tt = Ok (b, tt) /\
    answers (m_lt m) k (with_distances dist samples nf query indices) b.
Proof.
  intros Hm Ht (H0 & L & Hi & Hz) Hs Hq H1 Hk (policy & Hp & ->). eapply c15_tree_search_finds_the_k_nearest; eauto.
  assert (Hrows : forall j, j < nf -> in_dataset samples nf j indices). { intros j Hj i Hin. specialize (Hi i Hin). rewrite L. nia. }
  split; auto. split; auto. split; auto. split; auto. intros i j Hin Hj. apply Hz. unfold val. apply nth_In. now apply Hrows.
Qed.
(** The k nearest neighbours found through a tree of the library are the k nearest neighbours. *)
Theorem c77_search_through_the_trees_of_the_library :
  forall m dist tol samples nf bucket max_depth lowest max center n indices mask query k,
  metric_ok m dist -> (0 <= tol)%Z -> axis_input samples nf lowest max n indices -> (forall j, j < nf -> separated tol samples nf j indices) ->
  Forall (fun f => f < nf) mask -> length query = nf -> 1 <= k -> (Z.of_nat k < 2 ^ 64)%Z ->
  forall tree,
    (tree = kdtree_cycle tol samples nf bucket max_depth lowest max center mask indices \/
     tree = kdtree_spread tol samples nf bucket max_depth lowest max center mask indices \/
     exists draws draw rate, (forall path, in_range (draws path)) /\ in_range draw /\ (rate <= 1)%Q /\
       tree = kdtree_variance float_arith float_value tol samples nf bucket max_depth lowest max center draws draw rate mask indices) ->
  exists t b, tree = Ok t /\ search m samples nf t Unbounded query accept_all k tt = Ok (b, tt) /\
    answers (m_lt m) k (with_distances dist samples nf query indices) b.
Proof.
  intros m dist tol samples nf bucket max_depth lowest max center n indices mask query k Hm Ht Hin Hs Hmask Hq H1 Hk tree Htree.
  destruct (c77_trees_of_the_library tol samples nf bucket max_depth lowest max center n indices mask Ht Hin Hmask) as (T1 & T2 & T3).
  apply (modelled_search m dist tol samples nf bucket max_depth lowest max center n); auto.
  destruct Htree as [-> |[-> |(draws & draw & rate & Hds & Hd & Hr & ->)]]; auto.
Qed.
Fixpoint axes (t : kd) : list nat := match t with KLeaf _ _ _ => [] | KNode _ _ axis _ l r => axis :: axes l ++ axes r end.
Definition shape (t : res kdtree) : res (list nat * list nat) := match t with Ok t => Ok (kt_indices t, axes (kt_root t)) | UB => UB | Throw => Throw | Fuel => Fuel end.
Example c77_search_through_the_trees_of_the_library_case :
  axis_input pts 2 (-100) 100 7 (seq 0 7) /\ (forall j, j < 2 -> separated 0 pts 2 j (seq 0 7)) /\ in_range high /\ in_range low /\
  shape (kdtree_cycle 0 pts 2 1 10 (-100) 100 half [] (seq 0 7)) = Ok ([6; 3; 1; 0; 2; 5; 4], [0; 1; 0; 0]) /\
  shape (kdtree_cycle 0 pts 2 1 10 (-100) 100 half [1] (seq 0 7)) = Ok ([0; 1; 2; 3; 4; 5; 6], [1; 1; 1]) /\
  shape (kdtree_spread 0 pts 2 1 10 (-100) 100 half [] (seq 0 7)) = Ok ([6; 3; 1; 5; 0; 2; 4], [0; 0; 1; 1]) /\
  shape (kdtree_spread 0 pts 2 1 10 (-100) 100 half [1] (seq 0 7)) = Ok ([0; 1; 2; 3; 4; 5; 6], [1; 1; 1]) /\
  shape (kdtree_variance float_arith float_value 0 pts 2 1 10 (-100) 100 half (fun _ => high) low default_sampling_rate [] (seq 0 7)) =
    Ok ([6; 3; 1; 0; 2; 5; 4], [0; 1; 0; 0]) /\
  match kdtree_variance float_arith float_value 0 pts 2 1 10 (-100) 100 half (fun _ => high) low default_sampling_rate [] (seq 0 7) with
  | Ok t => found (search int_metric pts 2 t Unbounded [4; 4]%Z accept_all 3 tt) | _ => None end = Some ([3; 4; 5], [2; 4; 4]%Z).
Proof.
  split. { split; [lia|]. split; [reflexivity|]. split; [intros i Hi; apply in_seq in Hi; lia|]. intros z Hz. simpl in Hz. intuition lia. }
  split; [exact pts_separated|]. split; [exact high_ok|]. split; [exact low_ok|]. splits; vm_compute; reflexivity.
Qed.

(** Integers of 32 bits, not negative, of which the squares summed over the dataset are values of the type: the default policy
    works as well. *)
Definition small_squares (samples : list Z) (indices : list nat) : Prop :=
  exists B, (0 <= B)%Z /\ (forall z, In z samples -> 0 <= z <= B)%Z /\ (Z.of_nat (length indices) * (B * B) < 2 ^ 31)%Z.
Lemma in_signed_ok z : (0 <= z < 2 ^ 31)%Z -> in_signed 32 z = true.
Proof.
  intros H. unfold in_signed. change (2 ^ (32 - 1))%Z with (2 ^ 31)%Z. destruct (Z.leb_spec (- 2 ^ 31) z)%Z; [|lia].
  destruct (Z.ltb_spec z (2 ^ 31))%Z; [|lia]. reflexivity.
Qed.
Lemma integer_argmax_valid samples nf indices B :
  0 < nf -> (Z.of_nat nf < 2 ^ 31)%Z -> rows_exist samples nf indices -> indices <> [] -> (0 <= B)%Z -> (forall z, In z samples -> 0 <= z <= B)%Z ->
  (Z.of_nat (length indices) * (B * B) < 2 ^ 31)%Z -> (Z.of_nat (length indices) < 2 ^ 31)%Z ->
  exists axis, argmax_variance (int_arith 32) samples nf indices = Ok axis /\ axis < nf.
Proof.
  intros H0 Hnf Hr Hne HB Hz Hsq Hlen.
  assert (Hval : forall i j, In i indices -> j < nf -> (0 <= nth (i * nf + j)%nat samples 0 <= B)%Z).
  { intros i j Hi Hj. apply Hz. apply nth_In. specialize (Hr i Hi). lia. }
  assert (HnB : (Z.of_nat (length indices) * B < 2 ^ 31)%Z) by (destruct (Z.eq_dec B 0); nia).
  assert (Hsum : forall j l, j < nf -> incl l indices -> (0 <= sum_z (zcolumn samples nf j l) <= Z.of_nat (length l) * B)%Z).
  { intros j l Hj. induction l as [|i l IH]; intros Hl; cbn [zcolumn map sum_z fold_right length]; [lia|].
    fold (zcolumn samples nf j l). fold (sum_z (zcolumn samples nf j l)).
    specialize (IH (fun y Hy => Hl y (or_intror Hy))). pose proof (Hval i j (Hl i (or_introl eq_refl)) Hj). lia. }
  destruct (c74_integer_mean 32 samples nf indices) as (mean & Em & Lm & Hm); auto; try lia.
  { intros i j Hi Hj. now apply Hval. }
  { intros j Hj. pose proof (Hsum j indices Hj (incl_refl _)). change (2 ^ (32 - 1))%Z with (2 ^ 31)%Z. lia. }
  unfold argmax_variance, squares. rewrite Em. cbn [bind].
  assert (Hmean : forall j m, j < nf -> nth_error mean j = Some m -> (0 <= m <= B)%Z).
  { intros j m Hj E. rewrite Hm in E by auto. injection E as <-. pose proof (Hsum j indices Hj (incl_refl _)).
    assert (0 < Z.of_nat (length indices))%Z by (destruct indices; [congruence|simpl; lia]).
    split; [apply Z.div_pos; lia|]. apply Z.div_le_upper_bound; lia. }
  destruct (accumulate_ok (int_arith 32)
    (fun index j => x <- rd samples (index * nf + j) ;; m <- rd mean j ;; squared_deviation (int_arith 32) x m)
    (fun j d v => (0 <= v <= Z.of_nat (length d) * (B * B))%Z) nf indices 0%Z) as (acc & E & L & H).
  - intros j Hj. simpl. lia.
  - intros d i r j v Hd Hj Hv. assert (Hi : In i indices) by (rewrite Hd, in_app_iff; simpl; auto).
    specialize (Hr i Hi) as Hri. pose proof (Hval i j Hi Hj) as Hx. set (x := nth (i * nf + j) samples 0%Z) in *.
    destruct (nth_error mean j) as [m|] eqn:Emj; [|apply nth_error_None in Emj; lia]. pose proof (Hmean j m Hj Emj) as Hmm.
    assert (Hsz : (Z.of_nat (length d) + 1 <= Z.of_nat (length indices))%Z) by (rewrite Hd, app_length; simpl; lia).
    assert (HBB : (B < 2 ^ 31)%Z) by nia.
    assert (Hdev : (0 <= (x - m) * (x - m) <= B * B)%Z).
    { split; [apply Z.square_nonneg|]. assert (D : (- B <= x - m <= B)%Z) by lia. clear - D. nia. }
    exists ((x - m) * (x - m))%Z, (v + (x - m) * (x - m))%Z.
    rewrite (proj2 (rd_ok samples (i * nf + j) x)) by (apply nth_error_nth'; lia). cbn [bind]. rewrite (proj2 (rd_ok _ _ _) Emj). cbn [bind].
    unfold squared_deviation. cbn [a_minus a_times a_plus int_arith]. change (Z.max 32 32) with 32%Z.
    assert (Hdiff : checked 32 (x - m) = Ok (x - m)%Z).
    { unfold checked, in_signed. change (2 ^ (32 - 1))%Z with (2 ^ 31)%Z. destruct (Z.leb_spec (- 2 ^ 31) (x - m))%Z; [|lia].
      destruct (Z.ltb_spec (x - m) (2 ^ 31))%Z; [|lia]. reflexivity. }
    rewrite Hdiff. cbn [bind]. unfold checked. rewrite in_signed_ok by nia. cbn [bind]. rewrite in_signed_ok by nia. cbn [bind].
    split; [reflexivity|]. split; [f_equal; apply to_signed_id; change (2 ^ (32 - 1))%Z with (2 ^ 31)%Z; nia|].
    rewrite app_length. cbn [length]. nia.
  - assert (E' : for_each indices (fun index variance => for_loop nf 0 (fun j variance =>
      x <- rd samples (index * nf + j) ;; m <- rd mean j ;; d <- squared_deviation (int_arith 32) x m ;; add_to (int_arith 32) variance j d) variance)
      (repeat 0%Z nf) = Ok acc).
    { rewrite <- E. apply for_each_ext. intros i s Hi. rewrite !for_loop_seq. apply for_each_ext. intros j t Hj.
      destruct (rd samples (i * nf + j)); cbn [bind]; auto. destruct (rd mean j); cbn [bind]; auto. }
    cbn [a_zero int_arith]. fold (int_arith 32). rewrite E'. cbn [bind].
    eexists. split; [reflexivity|]. unfold argmax. cbn [a_index a_lt int_arith].
    assert (Hacc : acc <> []) by (intros ->; simpl in L; lia).
    destruct (max_first Z.ltb inject_Z 0%Z acc (fun x y _ _ => Zltb_Q x y) Hacc) as (Hlt & _).
    destruct acc as [|v acc]; [congruence|]. rewrite L in Hlt.
    rewrite to_signed_id by (change (2 ^ (32 - 1))%Z with (2 ^ 31)%Z; lia). rewrite Z.mod_small by lia. lia.
Qed.
Theorem c77_default_tree_on_integers : forall tol samples nf bucket max_depth lowest max center n indices draws draw rate,
  (0 <= tol)%Z -> axis_input samples nf lowest max n indices -> (Z.of_nat nf < 2 ^ 31)%Z -> (Z.of_nat (length indices) < 2 ^ 31)%Z ->
  small_squares samples indices -> (forall path, in_range (draws path)) -> in_range draw -> (rate <= 1)%Q ->
  is_modelled tol samples nf bucket max_depth lowest max center indices
    (kdtree_variance (int_arith 32) (fun z => z) tol samples nf bucket max_depth lowest max center draws draw rate [] indices).
Proof.
  intros tol samples nf bucket max_depth lowest max center n indices draws draw rate Ht Hin Hnf Hlen (B & HB & Hz & Hsq) Hds Hd Hr.
  assert (G : forall draw range, in_range draw -> incl range indices -> length range <= length indices ->
    exists axis, highest_variance (int_arith 32) (fun z => z) lowest max center samples nf draw rate [] range = Ok axis /\ axis < nf).
  { intros draw' range Hd' Hincl Hle. assert (Hin' : axis_input samples nf lowest max n range) by (eapply input_incl; eauto).
    destruct (Nat.le_gt_cases (length range) 2) as [H2|H3]; [eapply variance_valid_few; eauto|].
    cbn [highest_variance]. rewrite variance_axis_is_sampled by lia. pose proof (sampled_le rate _ Hr H3) as Hs.
    destruct (select_prefix draw' range (sampled rate (length range)) Hd' ltac:(lia)) as (l & E & P). rewrite E. cbn [bind].
    rewrite map_id. pose proof (Permutation_length P) as Ll. rewrite firstn_length in Ll.
    apply integer_argmax_valid with (B := B); auto.
    - apply Hin.
    - intros i Hi. destruct Hin' as (_ & L & Hlt & _). rewrite L. assert (i < n); [|nia]. apply Hlt. eapply firstn_incl.
      eapply Permutation_in; [symmetry; exact P|exact Hi].
    - intros ->. simpl in Ll. lia.
    - apply Z.le_lt_trans with (Z.of_nat (length indices) * (B * B))%Z; auto. apply Z.mul_le_mono_nonneg_r; [apply Z.square_nonneg|lia].
    - lia. }
  eapply modelled; eauto. intros. apply G; auto using incl_refl.
Qed.
Example c77_default_tree_on_integers_case :
  axis_input pts 2 (-100) 100 7 (seq 0 7) /\ small_squares pts (seq 0 7) /\
  shape (kdtree_variance (int_arith 32) (fun z => z) 0 pts 2 1 10 (-100) 100 half (fun _ => high) low default_sampling_rate [] (seq 0 7)) =
    Ok ([6; 3; 1; 0; 2; 5; 4], [0; 1; 0; 0]).
Proof.
  split. { split; [lia|]. split; [reflexivity|]. split; [intros i Hi; apply in_seq in Hi; lia|]. intros z Hz. simpl in Hz. intuition lia. }
  split. { exists 9%Z. split; [lia|]. split; [intros z Hz; simpl in Hz; intuition lia|reflexivity]. }
  vm_compute. reflexivity.
Qed.

(** Three negative integers, and the default policy: the construction is undefined, with any bucket size, any maximal depth and
    any random numbers, for it asks the policy for an axis even if the tree is a single leaf. *)
Theorem c77_negative_integers_refuted : exists samples nf lowest max center n indices,
  axis_input samples nf lowest max n indices /\ (forall z, In z samples -> -3 <= z <= -1)%Z /\
  forall tol bucket max_depth draws draw, in_range draw ->
    kdtree_variance (int_arith 32) (fun z => z) tol samples nf bucket max_depth lowest max center draws draw default_sampling_rate [] indices = UB.
Proof.
  exists [-1; -2; -3]%Z, 1, (-100)%Z, 100%Z, half, 3, [0; 1; 2].
  split. { split; [lia|]. split; [reflexivity|]. split; [intros i Hi; simpl in Hi; lia|]. intros z Hz. simpl in Hz. intuition lia. }
  split; [intros z Hz; simpl in Hz; intuition lia|]. intros tol bucket max_depth draws draw Hd.
  unfold kdtree_variance, make_kdtree_with. destruct (make_tight_segments _ _ _ _ _) as [segs| | |] eqn:Es; try (vm_compute in Es; discriminate).
  cbn [bind]. unfold highest_variance. rewrite variance_axis_is_sampled by (simpl; lia).
  destruct (select_prefix draw [0; 1; 2] (sampled default_sampling_rate 3) Hd) as (l & E & P).
  { vm_compute. lia. }
  change (length [0; 1; 2]) with 3. rewrite E. cbn [bind]. change (firstn (sampled default_sampling_rate 3) [0; 1; 2]) with [0; 1; 2] in P.
  assert (Hl : In l [[0; 1; 2]; [0; 2; 1]; [1; 0; 2]; [1; 2; 0]; [2; 0; 1]; [2; 1; 0]]).
  { pose proof (Permutation_length P) as Ll. destruct l as [|x [|y [|z [|? l]]]]; try discriminate.
    assert (Hx : forall v, In v [x; y; z] -> In v [0; 1; 2]) by (intros v Hv; eapply Permutation_in; [symmetry; exact P|auto]).
    assert (Nd : NoDup [x; y; z]). { eapply Permutation_NoDup; [exact P|]. repeat constructor; simpl; intuition lia. }
    inversion_clear Nd as [|? ? N1 Nd']. inversion_clear Nd' as [|? ? N2 _].
    pose proof (Hx x (or_introl eq_refl)) as X. pose proof (Hx y (or_intror (or_introl eq_refl))) as Y.
    pose proof (Hx z (or_intror (or_intror (or_introl eq_refl)))) as W. clear - X Y W N1 N2. simpl in *.
    destruct X as [<-|[<-|[<-|[]]]]; destruct Y as [<-|[<-|[<-|[]]]]; destruct W as [<-|[<-|[<-|[]]]]; try tauto; intuition. }
  simpl in Hl. repeat (destruct Hl as [<-|Hl]; [vm_compute; reflexivity|]). destruct Hl.
Qed.

Print Assumptions c76_cycle_uses_each_axis_once.
Print Assumptions c76_spread_is_the_longest_side.
Print Assumptions c76_masked_spread.
Print Assumptions c76_masked_spread_refuted.
Print Assumptions c76_variance_of_the_first_samples.
Print Assumptions c76_variance_of_the_node_refuted.
Print Assumptions c76_two_samples.
Print Assumptions c76_masked_two_samples.
Print Assumptions c76_two_samples_refuted.
Print Assumptions c76_one_sample.
Print Assumptions c76_masked_variance.
Print Assumptions c76_masked_variance_refuted.
Print Assumptions c77_trees_of_the_library.
Print Assumptions c77_search_through_the_trees_of_the_library.
Print Assumptions c77_default_tree_on_integers.
Print Assumptions c77_negative_integers_refuted.
