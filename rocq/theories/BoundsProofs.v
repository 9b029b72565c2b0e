(** Lemmas on boxes and balls. *)
From Coq Require Import List Arith ZArith Lia Bool Permutation.
From Verif Require Import Base SortingModel SortingSpec BoundsModel BoundsSpec.
Import ListNotations.
Local Open Scope Z_scope.

Lemma inside_nil : inside [] [] [].
Proof. repeat split; simpl; auto; lia. Qed.

Lemma inside_cons l lo h hi x p :
  inside (l :: lo) (h :: hi) (x :: p) <-> l <= x <= h /\ inside lo hi p.
Proof.
  unfold inside; simpl. split.
  - intros (H1 & H2 & H). split; [apply (H 0%nat); lia|].
    repeat split; try lia; intros; apply (H (S i)); lia.
  - intros (H0 & H1 & H2 & H). split; [lia|]. split; [lia|].
    intros [|i] Hi; auto. apply H. lia.
Qed.

Lemma inside_length lo hi p : inside lo hi p -> length p = length lo /\ length p = length hi.
Proof. unfold inside; tauto. Qed.

(** The sum computed by [aabb_min_distance_sq]. *)
Fixpoint msq (a b : list segment) : Z :=
  match a, b with
  | s :: a', t :: b' => seg_min_distance s t * seg_min_distance s t + msq a' b'
  | _, _ => 0
  end.

Lemma min_distance_loop : forall b a a0 b0 acc,
  length a = length b -> length a0 = length b0 ->
  for_loop (length b) (length a0)
    (fun i acc => s1 <- rd (a0 ++ a) i ;; s2 <- rd (b0 ++ b) i ;;
                  let d := seg_min_distance s1 s2 in Ok (acc + d * d)) acc
  = Ok (acc + msq a b).
Proof.
  induction b as [|t b IH]; intros a a0 b0 acc Hl H0; destruct a as [|s a]; try discriminate; simpl.
  - f_equal; lia.
  - unfold rd at 1. rewrite nth_error_app2, Nat.sub_diag by lia. simpl.
    unfold rd at 1. rewrite nth_error_app2 by lia. rewrite H0, Nat.sub_diag. simpl.
    rewrite <- H0.
    specialize (IH a (a0 ++ [s]) (b0 ++ [t]) (acc + seg_min_distance s t * seg_min_distance s t)).
    rewrite !app_length, Nat.add_1_r, <- !app_assoc in IH. simpl in IH.
    rewrite IH; simpl in *; try lia. f_equal. lia.
Qed.

Lemma aabb_min_distance_ok a b :
  length a = length b -> aabb_min_distance_sq a b = Ok (msq a b).
Proof. intros H. apply (min_distance_loop b a [] [] 0); auto. Qed.

Lemma seg_min_sq_le s t x y :
  seg_lower s <= x <= seg_upper s -> seg_lower t <= y <= seg_upper t ->
  seg_min_distance s t * seg_min_distance s t <= (x - y) * (x - y).
Proof.
  intros. assert (0 <= seg_min_distance s t <= Z.abs (x - y)) as [A B].
  { unfold seg_min_distance.
    destruct (Z.ltb_spec (seg_upper s) (seg_lower t)); [lia|].
    destruct (Z.ltb_spec (seg_upper t) (seg_lower s)); lia. }
  rewrite <- (Z.abs_square (x - y)). apply Z.mul_le_mono_nonneg; lia.
Qed.

Lemma msq_le : forall a b p q, length a = length b ->
  inside (map seg_lower a) (map seg_upper a) p ->
  inside (map seg_lower b) (map seg_upper b) q -> msq a b <= sq_dist p q.
Proof.
  induction a as [|s a IH]; intros b p q Hl Hp Hq; destruct b as [|t b]; try discriminate; simpl.
  - destruct (inside_length _ _ _ Hp). destruct p; [simpl; lia|discriminate].
  - destruct (inside_length _ _ _ Hp). destruct (inside_length _ _ _ Hq).
    destruct p as [|x p]; try discriminate. destruct q as [|y q]; try discriminate.
    simpl in Hp, Hq. apply inside_cons in Hp as [Hx Hp]. apply inside_cons in Hq as [Hy Hq].
    pose proof (seg_min_sq_le s t x y Hx Hy). specialize (IH b p q ltac:(simpl in *; lia) Hp Hq).
    simpl. lia.
Qed.

Lemma sq_dist_refl p : sq_dist p p = 0.
Proof. induction p; simpl; lia. Qed.

Lemma msq_nonneg : forall a b, 0 <= msq a b.
Proof.
  induction a; destruct b; simpl; try lia. specialize (IHa b).
  pose proof (Z.square_nonneg (seg_min_distance a s)). lia.
Qed.

Definition nonempty (a : list segment) : Prop := exists p, inside (map seg_lower a) (map seg_upper a) p.

Lemma msq_attained : forall a b, length a = length b ->
  nonempty a -> nonempty b ->
  exists p q, inside (map seg_lower a) (map seg_upper a) p /\
              inside (map seg_lower b) (map seg_upper b) q /\ sq_dist p q = msq a b.
Proof.
  induction a as [|s a IH]; intros b Hl [p0 Hp] [q0 Hq]; destruct b as [|t b]; try discriminate.
  - exists [], []. repeat split; simpl; auto; intros; lia.
  - destruct (inside_length _ _ _ Hp). destruct (inside_length _ _ _ Hq).
    destruct p0 as [|x0 p0]; try discriminate. destruct q0 as [|y0 q0]; try discriminate.
    simpl in Hp, Hq. apply inside_cons in Hp as [Hx Hp]. apply inside_cons in Hq as [Hy Hq].
    destruct (IH b ltac:(simpl in *; lia) (ex_intro _ _ Hp) (ex_intro _ _ Hq)) as (p & q & Ip & Iq & E).
    assert (exists x y, seg_lower s <= x <= seg_upper s /\ seg_lower t <= y <= seg_upper t /\
              (x - y) * (x - y) = seg_min_distance s t * seg_min_distance s t) as (x & y & Ix & Iy & Exy).
    { unfold seg_min_distance.
      destruct (Z.ltb_spec (seg_upper s) (seg_lower t)).
      { exists (seg_upper s), (seg_lower t). repeat split; try lia. }
      destruct (Z.ltb_spec (seg_upper t) (seg_lower s)).
      { exists (seg_lower s), (seg_upper t). repeat split; try lia. }
      exists (Z.max (seg_lower s) (seg_lower t)), (Z.max (seg_lower s) (seg_lower t)).
      repeat split; try lia. }
    exists (x :: p), (y :: q). simpl map. rewrite !inside_cons. simpl. splits; auto; lia.
Qed.

Lemma diameter_fold : forall a acc,
  fold_left (fun acc s => let l := seg_upper s - seg_lower s in acc + l * l) a acc =
  acc + aabb_diameter_sq a.
Proof.
  unfold aabb_diameter_sq. induction a; intros; simpl; [lia|].
  rewrite IHa, (IHa (_ * _)). lia.
Qed.

Lemma diameter_cons s a :
  aabb_diameter_sq (s :: a) = (seg_upper s - seg_lower s) * (seg_upper s - seg_lower s) + aabb_diameter_sq a.
Proof. unfold aabb_diameter_sq at 1. simpl. rewrite diameter_fold. reflexivity. Qed.

Lemma diameter_bounds : forall a p q,
  inside (map seg_lower a) (map seg_upper a) p ->
  inside (map seg_lower a) (map seg_upper a) q -> sq_dist p q <= aabb_diameter_sq a.
Proof.
  induction a as [|s a IH]; intros p q Hp Hq.
  - destruct (inside_length _ _ _ Hp). destruct p; [unfold aabb_diameter_sq; simpl; lia|discriminate].
  - destruct (inside_length _ _ _ Hp). destruct (inside_length _ _ _ Hq).
    destruct p as [|x p]; try discriminate. destruct q as [|y q]; try discriminate.
    simpl in Hp, Hq. apply inside_cons in Hp as [Hx Hp]. apply inside_cons in Hq as [Hy Hq].
    specialize (IH p q Hp Hq). rewrite diameter_cons. simpl.
    assert (0 <= Z.abs (x - y) <= seg_upper s - seg_lower s) by lia.
    rewrite <- (Z.abs_square (x - y)).
    assert (Z.abs (x - y) * Z.abs (x - y) <= (seg_upper s - seg_lower s) * (seg_upper s - seg_lower s))
      by (apply Z.mul_le_mono_nonneg; lia).
    lia.
Qed.

Lemma diameter_attained : forall a,
  sq_dist (map seg_lower a) (map seg_upper a) = aabb_diameter_sq a.
Proof. induction a; auto. rewrite diameter_cons. simpl. rewrite IHa. lia. Qed.

Lemma corners_inside a : nonempty a ->
  inside (map seg_lower a) (map seg_upper a) (map seg_lower a) /\
  inside (map seg_lower a) (map seg_upper a) (map seg_upper a).
Proof.
  intros [p (H1 & H2 & H)]. rewrite map_length in *.
  split; (split; [|split]); rewrite ?map_length; auto; intros i Hi;
    specialize (H i ltac:(lia)); lia.
Qed.

Lemma is_in_bounds_from_ok : forall p a a0,
  length p = length a ->
  exists b, is_in_bounds_from (a0 ++ a) (length a0) p = Ok b /\
            (b = true <-> inside (map seg_lower a) (map seg_upper a) p).
Proof.
  induction p as [|v p IH]; intros a a0 Hl; destruct a as [|s a]; try discriminate; simpl.
  - exists true. split; auto. split; auto. intros _. apply inside_nil.
  - unfold rd. rewrite nth_error_app2, Nat.sub_diag by lia. simpl.
    unfold seg_contains.
    pose proof (inside_cons (seg_lower s) (map seg_lower a) (seg_upper s) (map seg_upper a) v p) as HC.
    destruct (Z.ltb_spec v (seg_lower s)), (Z.ltb_spec (seg_upper s) v); simpl;
      try (exists false; split; auto; split; [discriminate|rewrite HC; lia]).
    destruct (IH a (a0 ++ [s]) ltac:(simpl in *; lia)) as (b & E & Hb).
    rewrite app_length, Nat.add_1_r, <- app_assoc in E. simpl in E.
    exists b. split; auto. rewrite Hb, HC. intuition lia.
Qed.

Lemma manhattan_ok : forall p q, length p = length q -> manhattan_distance p q = Ok (l1_dist p q).
Proof.
  induction p as [|x p IH]; intros [|y q] H; try discriminate; simpl; auto.
  rewrite IH by (simpl in *; lia). reflexivity.
Qed.

Lemma l1_nonneg : forall p q, 0 <= l1_dist p q.
Proof. induction p; destruct q; simpl; try lia. specialize (IHp q). lia. Qed.

Lemma l1_sym : forall p q, l1_dist p q = l1_dist q p.
Proof. induction p; destruct q; simpl; auto. rewrite IHp. lia. Qed.

Lemma l1_triangle : forall p q r, length p = length q -> length q = length r ->
  l1_dist p r <= l1_dist p q + l1_dist q r.
Proof.
  induction p as [|x p IH]; intros [|y q] [|z r] H1 H2; try discriminate; simpl; try lia.
  specialize (IH q r ltac:(simpl in *; lia) ltac:(simpl in *; lia)). lia.
Qed.

Section Tight.
Context (lowest max : Z) (samples : list Z) (nf : nat).

Definition in_limits (a : list nat) : Prop :=
  forall i j, In i a -> (j < nf)%nat -> lowest <= val samples nf j i <= max.

(** Segment [s] is what the loop holds for feature [j] after the samples of [d]. *)
Definition tight_for (j : nat) (d : list nat) (s : segment) : Prop :=
  (forall i, In i d -> seg_lower s <= val samples nf j i <= seg_upper s) /\
  (d = [] -> s = mk_segment max lowest) /\
  (d <> [] -> (exists i, In i d /\ val samples nf j i = seg_lower s) /\
              (exists i, In i d /\ val samples nf j i = seg_upper s)).

Lemma tighten_tight j d s i :
  tight_for j d s -> lowest <= val samples nf j i <= max ->
  tight_for j (d ++ [i]) (tighten s (val samples nf j i)).
Proof.
  intros (H1 & H2 & H3) Hl. unfold tighten.
  set (v := val samples nf j i) in *.
  assert (Hv : val samples nf j i = v) by reflexivity. clearbody v.
  assert (Hin : In i (d ++ [i])) by (rewrite in_app_iff; simpl; auto).
  destruct d as [|i0 d0].
  - specialize (H2 eq_refl). subst s.
    split; [|split].
    + intros k [<-|[]]. rewrite Hv. simpl.
      destruct (Z.ltb_spec v max); simpl; destruct (Z.ltb_spec lowest v); simpl; lia.
    + discriminate.
    + intros _. simpl.
      split; exists i; (split; [simpl; auto|]); rewrite Hv;
        destruct (Z.ltb_spec v max); simpl; destruct (Z.ltb_spec lowest v); simpl; lia.
  - destruct H3 as [(ia & Ia & Ea) (ib & Ib & Eb)]; [discriminate|].
    pose proof (H1 ia Ia) as Hab.
    split; [|split].
    + intros k Hk. apply in_app_or in Hk as [Hk|[<-|[]]].
      * specialize (H1 k Hk).
        destruct (Z.ltb_spec v (seg_lower s)); simpl;
          destruct (Z.ltb_spec (seg_upper s) v); simpl; lia.
      * rewrite Hv.
        destruct (Z.ltb_spec v (seg_lower s)); simpl;
          destruct (Z.ltb_spec (seg_upper s) v); simpl; lia.
    + discriminate.
    + intros _.
      assert (forall k, In k (i0 :: d0) -> In k ((i0 :: d0) ++ [i])) by (intros; rewrite in_app_iff; auto).
      destruct (Z.ltb_spec v (seg_lower s)); cbn [seg_lower seg_upper seg_update_lower seg_update_upper];
        destruct (Z.ltb_spec (seg_upper s) v); cbn [seg_lower seg_upper seg_update_lower seg_update_upper];
        try (exfalso; lia);
        (split; [first [now (exists i; auto) | now (exists ia; auto)]
                |first [now (exists i; auto) | now (exists ib; auto)]]).
Qed.

Lemma feature_val' i j : (i * nf + j < length samples)%nat ->
  feature samples nf i j = Ok (val samples nf j i).
Proof. intros. unfold feature, val. apply rd_ok, nth_error_nth'; auto. Qed.

Lemma tight_features_ok a d i segs :
  (forall j, (j < nf)%nat -> in_dataset samples nf j a) -> in_limits a -> In i a ->
  length segs = nf ->
  (forall j, (j < nf)%nat -> tight_for j d (nth j segs (mk_segment 0 0))) ->
  exists segs', for_loop nf 0%nat (tight_step samples nf i) segs = Ok segs' /\ length segs' = nf /\
    (forall j, (j < nf)%nat -> tight_for j (d ++ [i]) (nth j segs' (mk_segment 0 0))).
Proof.
  intros Hd Hlim Hi Hl Ht.
  destruct (for_loop_inv
    (fun k segs => length segs = nf /\
       (forall j, (j < nf)%nat -> (j < k)%nat -> tight_for j (d ++ [i]) (nth j segs (mk_segment 0 0))) /\
       (forall j, (j < nf)%nat -> (k <= j)%nat -> tight_for j d (nth j segs (mk_segment 0 0))))
    (tight_step samples nf i) nf 0 segs) as (s' & E & H).
  - splits; auto; intros; lia.
  - intros k s Hk (L & H1 & H2). unfold tight_step.
    rewrite feature_val' by (apply Hd; auto; lia). simpl.
    assert (Hn : nth_error s k = Some (nth k s (mk_segment 0 0))) by (apply nth_error_nth'; lia).
    rewrite (proj2 (rd_ok _ _ _) Hn). simpl. rewrite wr_lt by lia.
    eexists; split; [reflexivity|]. rewrite upd_length. split; auto.
    assert (Hnth : forall j v, nth j (upd s k v) (mk_segment 0 0) =
               if (j =? k)%nat then v else nth j s (mk_segment 0 0)).
    { intros j v. destruct (Nat.eqb_spec j k).
      - subst. apply nth_error_nth. apply nth_error_upd_eq. lia.
      - destruct (Nat.lt_ge_cases j (length s)).
        + apply nth_error_nth. rewrite nth_error_upd_neq by auto. apply nth_error_nth'; auto.
        + rewrite !nth_overflow; auto. now rewrite upd_length. }
    split; intros j Hj Hjk; rewrite Hnth; destruct (Nat.eqb_spec j k); subst; try lia.
    + apply tighten_tight; auto.
    + apply H1; auto; lia.
    + apply H2; auto; lia.
  - exists s'. destruct H as (L & H & _). splits; auto; intros; apply H; lia.
Qed.

Lemma make_tight_segments_ok a :
  (forall j, (j < nf)%nat -> in_dataset samples nf j a) -> in_limits a ->
  exists segs, make_tight_segments lowest max samples nf a = Ok segs /\ length segs = nf /\
    (forall j, (j < nf)%nat -> tight_for j a (nth j segs (mk_segment 0 0))).
Proof.
  intros Hd Hlim. unfold make_tight_segments.
  destruct (for_each_inv
    (fun d segs => length segs = nf /\
       forall j, (j < nf)%nat -> tight_for j d (nth j segs (mk_segment 0 0)))
    (fun index => for_loop nf 0%nat (tight_step samples nf index)) a []
    (repeat (mk_segment max lowest) nf)) as (s & E & L & H); eauto.
  - split; [apply repeat_length|]. intros j Hj.
    assert (nth j (repeat (mk_segment max lowest) nf) (mk_segment 0 0) = mk_segment max lowest) as ->.
    { apply nth_error_nth. rewrite nth_error_repeat; auto. }
    split; [|split]; auto; intros; contradiction.
  - intros i d t Hi [L Ht].
    destruct (tight_features_ok a d i t) as (t' & E & L' & H'); auto. eauto.
Qed.

Lemma make_tight_segment_ok a j : (j < nf)%nat ->
  in_dataset samples nf j a -> in_limits a ->
  exists s, make_tight_segment lowest max samples nf a j = Ok s /\ tight_for j a s.
Proof.
  intros Hj Hd Hlim. unfold make_tight_segment.
  destruct (for_each_inv (fun d s => tight_for j d s)
    (fun index s => v <- feature samples nf index j ;; Ok (tighten s v)) a []
    (mk_segment max lowest)) as (s & E & H); eauto.
  - split; [|split]; auto; intros; contradiction.
  - intros i d t Hi Ht. rewrite feature_val' by auto. simpl. eexists; split; eauto.
    apply tighten_tight; auto.
Qed.
End Tight.

Lemma center_floor lo hi :
  let s := lo + hi in
  compute_center_int lo hi = if (s <? 0) && Z.even s then s / 2 - 1 else s / 2.
Proof.
  intros s. unfold compute_center_int. fold s. clearbody s.
  destruct (Z.ltb_spec s 0); simpl.
  - destruct (Z.even s) eqn:E.
    + apply Z.even_spec in E as [k ->]. rewrite Z.mul_comm, Z.quot_mul, Z.div_mul by lia. lia.
    + assert (Z.Odd s) as [k ->] by (apply Z.odd_spec; rewrite <- Z.negb_even, E; auto).
      replace (2 * k + 1) with (1 + k * 2) by lia. rewrite Z.div_add by lia.
      change (1 / 2) with 0.
      replace (1 + k * 2) with (- ((- k - 1) * 2 + 1)) by lia.
      rewrite Z.quot_opp_l by lia. rewrite Z.quot_div_nonneg by lia.
      rewrite Z.add_comm, Z.div_add by lia. change (1 / 2) with 0. lia.
  - rewrite Z.quot_div_nonneg by lia. reflexivity.
Qed.
