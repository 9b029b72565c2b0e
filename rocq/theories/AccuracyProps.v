(** How far rounded distances are from exact ones, and what this means for the answers. *)
From Coq Require Import Reals List Arith ZArith Bool Lia Lra Psatz Permutation.
From Flocq Require Import Core BinarySingleNaN.
From Verif Require Import Base BoundsModel BoundsSpec SortingSpec BufferModel BufferSpec KDTreeModel KDTreeProps SearchModel SearchSpec
  SearchProps FloatModel FloatSpec FloatProofs FloatProps AccuracySpec AccuracyProofs.
Import ListNotations.
Open Scope R_scope.

Section Formats.
Context {prec emax : Z} (Hp : Prec_gt_0 prec) (Hm : Prec_lt_emax prec emax) (Hfmt : format_ok prec emax).
Notation number := (binary_float prec emax).
Notation enc := (encode prec emax).
Notation M := (binary_metric prec emax Hp Hm).
Notation euclid := (euclidean prec emax Hp Hm).
Notation u := (roundoff prec).
Notation e := (tiny prec emax).

(** ** C83 *)

(** A computed distance is close to the exact one. *)
Theorem c83_distance_is_accurate : forall order (l r : list number),
  adds_each_once order -> finite_numbers l -> finite_numbers r -> length l = length r ->
  is_finite (euclid order l r) = true ->
  accurate prec emax (height (order (length l)) + 4) (length l) (true_square l r) (B2R (euclid order l r)).
Proof using Hfmt.
  intros order l r Ho Fl Fr HL F. destruct Hfmt. apply distance_accurate; auto; first [exact (finite_in l Fl)|exact (finite_in r Fr)|apply Ho].
Qed.

(** It is finite when the exact one is below the square root of the largest number, with a margin for the roundings. *)
Theorem c83_distance_is_finite : forall order (l r : list number),
  adds_each_once order -> finite_numbers l -> finite_numbers r -> length l = length r ->
  (1 + u) ^ (height (order (length l)) + 2) * (true_square l r + INR (length l) * e) < bpow radix2 emax ->
  is_finite (euclid order l r) = true.
Proof using Hfmt.
  intros order l r Ho Fl Fr HL F. destruct Hfmt. apply distance_finite; auto; first [exact (finite_in l Fl)|exact (finite_in r Fr)|apply Ho].
Qed.

Lemma row_length (samples : list number) nf i : (i * nf + nf <= length samples)%nat -> length (row samples nf i) = nf.
Proof. intros H. unfold row. rewrite firstn_length, skipn_length. lia. Qed.

Lemma not_below (x y : number) : is_finite x = true -> is_finite y = true -> Bltb y x = false -> B2R x <= B2R y.
Proof.
  intros Fx Fy H. rewrite Bltb_correct in H by auto. apply Rnot_lt_le. intros L. rewrite Rlt_bool_true in H; auto. discriminate.
Qed.

Lemma distance_pos order (l r : list number) : finite_numbers l -> finite_numbers r ->
  is_finite (euclid order l r) = true -> 0 <= B2R (euclid order l r).
Proof using Hfmt.
  intros Fl Fr F. destruct Hfmt as [H1 H2].
  destruct (good_inv prec emax (euclid order l r)) as [E|(_ & _ & H)]; auto; [|rewrite E; simpl; lra].
  apply euclidean_is_distance; auto; first [exact (finite_in l Fl)|exact (finite_in r Fr)|apply Ho].
Qed.

Lemma stored_entry (b : buffer (distance_type prec emax)) i : length (buf_indices b) = length (buf_distances b) ->
  In i (buf_indices b) -> exists d, In (i, d) (combine (buf_indices b) (map (@proj1_sig _ _) (buf_distances b))).
Proof.
  generalize (buf_indices b) (buf_distances b). induction l as [|x l IH]; intros [|y m] HL Hi; try discriminate; [destruct Hi|].
  destruct Hi as [->|Hi]; [eexists; left; reflexivity|]. destruct (IH m) as (d & Hd); auto. exists d. now right.
Qed.

(** A neighbour that is reported is nearly as close as any sample that is not. *)
Theorem c83_reported_neighbours_are_nearly_nearest :
  forall order tol samples nf bucket max_depth policy center indices query k,
  adds_each_once order -> float_input tol samples nf policy indices ->
  finite_numbers query -> length query = nf -> (1 <= k)%nat -> (Z.of_nat k < 2 ^ 64)%Z ->
  (forall i, In i indices -> is_finite (euclid order (row samples nf i) query) = true) ->
  let h := (height (order nf) + 4)%nat in
  exists tree b,
    make_kdtree tol (map enc samples) nf bucket max_depth policy (- largest prec emax) (largest prec emax) center indices
      = Ok tree /\
    search (M order) (map enc samples) nf tree Unbounded (map enc query) accept_all k tt = Ok (b, tt) /\
    forall i j, In i (buf_indices b) -> In j indices -> ~ In j (buf_indices b) ->
      (1 - u) ^ h * true_square (row samples nf i) query - INR nf * e <=
      (1 + u) ^ h * (true_square (row samples nf j) query + INR nf * e).
Proof using Hfmt.
  intros order tol samples nf bucket max_depth policy center indices query k Ho Hi Hq Hl H1 Hk Hd h.
  destruct (c82_search_matches_linear_scan Hp Hm Hfmt order tol samples nf bucket max_depth policy center indices query k)
    as (tree & b & E & Es & Lb & (rest & P & L & N) & _); auto.
  exists tree, b. splits; auto. intros i j Hb Hj Hn.
  destruct Hi as (_ & _ & Hs & Hx & _).
  destruct (stored_entry b i Lb Hb) as (di & Hdi).
  assert (Hci : In (i, di) (scan order samples nf query indices)).
  { eapply Permutation_in; [exact P|]. apply in_or_app. now left. }
  unfold scan in Hci. apply in_map_iff in Hci as (i' & Ei & Hi'). inversion Ei; subst i' di. clear Ei.
  assert (Hcj : In (j, euclid order (row samples nf j) query) rest).
  { assert (Q : In (j, euclid order (row samples nf j) query) (scan order samples nf query indices)).
    { unfold scan. apply in_map_iff. now exists j. }
    apply (Permutation_in _ (Permutation_sym P)) in Q. apply in_app_or in Q as [Q|Q]; auto. apply in_combine_l in Q. now destruct Hn. }
  specialize (N _ _ Hdi Hcj). cbn [snd] in N. apply not_below in N; [|now apply Hd|now apply Hd].
  assert (Fi : finite_numbers (row samples nf i)) by now apply finite_row.
  assert (Fj : finite_numbers (row samples nf j)) by now apply finite_row.
  assert (Li : length (row samples nf i) = nf) by now apply row_length, Hx.
  assert (Lj : length (row samples nf j) = nf) by now apply row_length, Hx.
  pose proof (c83_distance_is_accurate order (row samples nf i) query Ho Fi Hq ltac:(congruence) (Hd i Hi')) as [A _].
  pose proof (c83_distance_is_accurate order (row samples nf j) query Ho Fj Hq ltac:(congruence) (Hd j Hj)) as [_ B].
  rewrite Li in A. rewrite Lj in B. fold h in A, B.
  apply Rle_trans with (1 := A), Rle_trans with (2 := B). apply pow_incr. split; auto.
  apply distance_pos; auto.
Qed.

(** A radius search reports no sample that is much further than the radius, and misses none that is much nearer. *)
Theorem c83_radius_search_is_nearly_exact :
  forall order tol samples nf bucket max_depth policy center indices query (radius : distance_type prec emax),
  adds_each_once order -> float_input tol samples nf policy indices ->
  finite_numbers query -> length query = nf -> (Z.of_nat (length indices) < 2 ^ 64)%Z ->
  (forall x y, In x samples -> In y query -> is_finite (difference prec emax Hp Hm x y) = true) ->
  (forall i, In i indices -> is_finite (euclid order (row samples nf i) query) = true) ->
  is_finite (proj1_sig radius) = true ->
  let h := (height (order nf) + 4)%nat in
  let r := B2R (proj1_sig radius) in
  exists tree b,
    make_kdtree tol (map enc samples) nf bucket max_depth policy (- largest prec emax) (largest prec emax) center indices
      = Ok tree /\
    search (M order) (map enc samples) nf tree (Radius (D := m_dist (M order)) radius) (map enc query) accept_all default_capacity tt
      = Ok (b, tt) /\
    (forall i, In i (buf_indices b) -> (1 - u) ^ h * true_square (row samples nf i) query - INR nf * e < r ^ 2) /\
    (forall j, In j indices -> (1 + u) ^ h * (true_square (row samples nf j) query + INR nf * e) < r ^ 2 -> In j (buf_indices b)).
Proof using Hfmt.
  intros order tol samples nf bucket max_depth policy center indices query radius Ho Hi Hq Hl Hk Hdiff Hd Hr h r.
  destruct (c82_radius_search_matches_linear_scan Hp Hm Hfmt order tol samples nf bucket max_depth policy center indices query radius)
    as (tree & b & E & Es & Lb & P); auto.
  exists tree, b. splits; auto.
  all: destruct Hi as (_ & _ & Hs & Hx & _).
  - intros i Hb. destruct (stored_entry b i Lb Hb) as (di & Hdi).
    apply (Permutation_in _ P) in Hdi. apply filter_In in Hdi as [Hc Hlt]. cbn [snd] in Hlt.
    unfold scan in Hc. apply in_map_iff in Hc as (i' & Ei & Hi'). inversion Ei; subst i' di. clear Ei.
    assert (Fi : finite_numbers (row samples nf i)) by now apply finite_row.
    assert (Li : length (row samples nf i) = nf) by now apply row_length, Hx.
    pose proof (c83_distance_is_accurate order (row samples nf i) query Ho Fi Hq ltac:(congruence) (Hd i Hi')) as [A _].
    rewrite Li in A. fold h in A. apply Rle_lt_trans with (1 := A).
    rewrite Bltb_correct in Hlt by auto. pose proof (distance_pos order (row samples nf i) query Fi Hq (Hd i Hi')) as Pd.
    destruct (Rlt_bool_spec (B2R (euclid order (row samples nf i) query)) (B2R (proj1_sig radius))) as [Hlt'|]; [|discriminate].
    fold r in Hlt'. nra.
  - intros j Hj Hlt.
    assert (Fj : finite_numbers (row samples nf j)) by now apply finite_row.
    assert (Lj : length (row samples nf j) = nf) by now apply row_length, Hx.
    pose proof (c83_distance_is_accurate order (row samples nf j) query Ho Fj Hq ltac:(congruence) (Hd j Hj)) as [_ B].
    rewrite Lj in B. fold h in B.
    assert (Q : In (j, euclid order (row samples nf j) query)
      (filter (fun e => Bltb (snd e) (proj1_sig radius)) (scan order samples nf query indices))).
    { apply filter_In. split; [unfold scan; apply in_map_iff; now exists j|]. cbn [snd]. rewrite Bltb_correct by auto.
      apply Rlt_bool_true. fold r. assert (P2 : B2R (euclid order (row samples nf j) query) ^ 2 < r ^ 2) by lra.
      apply Rnot_le_lt. intros Hle. assert (0 <= r).
      { unfold r. destruct radius as [rad Hrad]. cbn [proj1_sig] in *.
        destruct (good_inv prec emax rad Hrad) as [->|(_ & _ & H)]; [discriminate|exact H]. }
      nra. }
    apply (Permutation_in _ (Permutation_sym P)) in Q. now apply in_combine_l in Q.
Qed.
End Formats.

(** ** Readable bounds *)

Lemma bernoulli_up (x : R) h : 0 <= x -> INR h * x <= / 2 -> (1 + x) ^ h <= 1 + 2 * INR h * x.
Proof.
  intros Hx. assert (forall k, INR k * x <= / 2 -> (1 + x) ^ k <= 1 + INR k * x + 2 * (INR k * x) ^ 2) as H.
  { induction k as [|k IH]; intros Hk; [simpl; lra|]. rewrite S_INR in *. pose proof (pos_INR k) as Pk. cbn [pow].
    assert (0 <= INR k * x) by nra.
    apply Rle_trans with ((1 + x) * (1 + INR k * x + 2 * (INR k * x) ^ 2)); [apply Rmult_le_compat_l; [lra|apply IH; lra]|].
    set (y := INR k * x) in *. replace ((INR k + 1) * x) with (y + x) in * by (unfold y; ring).
    assert (0 <= x * y) by nra. assert (x * y * y <= x * y * / 2) by (apply Rmult_le_compat_l; lra). nra. }
  intros Hh. apply Rle_trans with (1 := H h Hh). pose proof (pos_INR h). assert (0 <= INR h * x) by nra. nra.
Qed.

Lemma bernoulli_down (x : R) h : 0 <= x <= 1 -> 1 - INR h * x <= (1 - x) ^ h.
Proof.
  intros Hx. induction h as [|h IH]; [simpl; lra|]. rewrite S_INR. cbn [pow]. pose proof (pos_INR h).
  apply Rle_trans with ((1 - x) * (1 - INR h * x)); [nra|]. apply Rmult_le_compat_l; lra.
Qed.

Lemma height_one_by_one n : (height (one_by_one n) <= S n)%nat.
Proof. induction n as [|n IH]; cbn [one_by_one height]; lia. Qed.

Lemma height_all_fused n : height (all_fused n) = n.
Proof. induction n as [|n IH]; cbn [all_fused height]; lia. Qed.

Lemma height_four_by_four b : (height (four_by_four b) <= b + 3)%nat.
Proof. induction b as [|b IH]; cbn [four_by_four height]; lia. Qed.

Lemma height_rest g a c : (height (and_the_rest g a c) <= max 1 (height g) + c)%nat.
Proof. revert g a. induction c as [|c IH]; intros g a; cbn [and_the_rest]; [lia|]. specialize (IH (Sum g (Term a)) (S a)). cbn [height] in IH. lia. Qed.

Lemma height_libstdcxx n : (height (libstdcxx n) <= n / 4 + 6)%nat.
Proof.
  unfold libstdcxx. pose proof (height_rest (four_by_four (n / 4)) (4 * (n / 4)) (n mod 4)) as H.
  pose proof (height_four_by_four (n / 4)) as H'. pose proof (Nat.mod_upper_bound n 4 ltac:(lia)). lia.
Qed.

(** Doubles with up to 2^20 features, added up as libstdc++ does. *)
Theorem c83_double_distance_is_accurate : forall l r : list double,
  finite_numbers l -> finite_numbers r -> length l = length r -> (Z.of_nat (length l) <= 2 ^ 20)%Z ->
  let d := euclidean 53 1024 prec_double emax_double libstdcxx l r in
  is_finite d = true ->
  (1 - bpow radix2 (-34)) * true_square l r - bpow radix2 (-1054) <= B2R d ^ 2 <=
  (1 + bpow radix2 (-33)) * (true_square l r + bpow radix2 (-1054)).
Proof.
  intros l r Fl Fr HL Hn d F.
  pose proof (c83_distance_is_accurate prec_double emax_double double_format libstdcxx l r libstdcxx_ok Fl Fr HL F) as [A B].
  fold d in A, B. set (h := (height (libstdcxx (length l)) + 4)%nat) in *.
  assert (Hh : INR h <= bpow radix2 19).
  { rewrite INR_IZR_INZ. change (bpow radix2 19) with (IZR (2 ^ 19)). apply IZR_le.
    assert (h <= length l / 4 + 10)%nat by (unfold h; pose proof (height_libstdcxx (length l)); lia).
    pose proof (Nat.div_le_upper_bound (length l) 4 (length l / 4) ltac:(lia)) as _.
    pose proof (Nat.mul_div_le (length l) 4 ltac:(lia)) as Q. lia. }
  assert (Ht : INR (length l) * tiny 53 1024 <= bpow radix2 (-1054)).
  { change (-1054)%Z with (20 + -1074)%Z. rewrite bpow_plus. unfold tiny. change (3 - 1024 - 53)%Z with (-1074)%Z.
    apply Rmult_le_compat_r; [apply bpow_ge_0|]. rewrite INR_IZR_INZ. change (bpow radix2 20) with (IZR (2 ^ 20)). now apply IZR_le. }
  assert (Hu : INR h * roundoff 53 <= bpow radix2 (-34)).
  { change (-34)%Z with (19 + -53)%Z. rewrite bpow_plus. unfold roundoff. change (- (53))%Z with (-53)%Z.
    apply Rmult_le_compat_r; [apply bpow_ge_0|]. exact Hh. }
  assert (E33 : bpow radix2 (-33) = 2 * bpow radix2 (-34)).
  { change (-33)%Z with (1 + -34)%Z. rewrite bpow_plus. reflexivity. }
  assert (E34 : bpow radix2 (-34) <= / 4). { apply Rle_trans with (bpow radix2 (-2)); [apply bpow_le; lia|]. simpl. lra. }
  assert (U : 0 < roundoff 53 <= / 4) by (apply u_range; lia).
  pose proof (true_square_nonneg 53 1024 l r) as T.
  pose proof (bernoulli_up (roundoff 53) h ltac:(lra) ltac:(lra)) as G1. pose proof (bernoulli_down (roundoff 53) h ltac:(lra)) as G2.
  assert (0 < bpow radix2 (-1054)) by apply bpow_gt_0.
  assert (P : 0 <= INR (length l) * tiny 53 1024). { apply Rmult_le_pos; [apply pos_INR|]. apply bpow_ge_0. }
  split.
  - apply Rle_trans with (2 := A). assert ((1 - bpow radix2 (-34)) * true_square l r <= (1 - roundoff 53) ^ h * true_square l r);
      [apply Rmult_le_compat_r; lra|lra].
  - apply Rle_trans with (1 := B). apply Rmult_le_compat; try lra. apply pow_le. lra.
Qed.

Lemma value_of (m e : Z) : (Z.abs m < 2 ^ 53)%Z -> (-1074 <= e)%Z -> (e + 53 <= 1024)%Z -> B2R (double_of m e) = IZR m * bpow radix2 e.
Proof.
  intros H1 H2 H3. unfold double_of.
  pose proof (binary_normalize_correct 53 1024 prec_double emax_double mode_NE m e false) as H. cbn [round_mode] in H.
  assert (F : generic_format radix2 (FLT_exp (-1074) 53) (F2R (Float radix2 m e))).
  { apply generic_format_FLT. exists (Float radix2 m e); auto. }
  change (FLT_exp (3 - 1024 - 53) 53) with (FLT_exp (-1074) 53) in H. rewrite round_generic in H; auto with typeclass_instances.
  rewrite Rlt_bool_true in H; [apply H|]. rewrite <- F2R_Zabs.
  apply Rlt_le_trans with (bpow radix2 (53 + e)); [|apply bpow_le; lia]. rewrite bpow_plus.
  unfold F2R. cbn [Fnum Fexp]. apply Rmult_lt_compat_r; [apply bpow_gt_0|]. change (bpow radix2 53) with (IZR (2 ^ 53)). now apply IZR_lt.
Qed.

(** The distance of (3, 0) and (0, 4) is 5; the bound allows for seven nested roundings. *)
Example c83_case :
  format_ok 53 1024 /\ adds_each_once libstdcxx /\ (height (libstdcxx 2) + 4 = 7)%nat /\
  finite_numbers [double_of 3 0; double_of 0 0] /\ finite_numbers [double_of 0 0; double_of 4 0] /\
  B2SF (euclidean 53 1024 prec_double emax_double libstdcxx [double_of 3 0; double_of 0 0] [double_of 0 0; double_of 4 0])
    = dfinite 5629499534213120 (-50) /\
  true_square [double_of 3 0; double_of 0 0] [double_of 0 0; double_of 4 0] = 25.
Proof.
  split; [exact double_format|]. split; [exact libstdcxx_ok|]. split; [reflexivity|]. split; [repeat constructor|].
  split; [repeat constructor|]. split; [vm_compute; reflexivity|].
  cbn [true_square]. rewrite !value_of by (cbn; lia). simpl. lra.
Qed.

(** Samples at decimal positions: the hypotheses of the search theorems. *)
Example c83_search_case :
  float_input 0 decimals 2 cycle (seq 0 7) /\ finite_numbers [tenths 33; tenths 33] /\
  forallb (fun i => is_finite (euclidean 53 1024 prec_double emax_double libstdcxx (row decimals 2 i) [tenths 33; tenths 33]))
    (seq 0 7) = true /\
  is_finite (proj1_sig (as_distance 53 1024 (tenths 25))) = true /\
  (forall x y, In x decimals -> In y [tenths 33; tenths 33] -> is_finite (difference 53 1024 prec_double emax_double x y) = true).
Proof.
  split; [exact decimals_input|]. split; [repeat constructor|]. split; [vm_compute; reflexivity|]. split; [vm_compute; reflexivity|].
  apply all_differences_finite. vm_compute. reflexivity.
Qed.

(** Small features: no overflow. *)
Example c83_finite_case :
  (1 + roundoff 53) ^ (height (libstdcxx 2) + 2)
    * (true_square [double_of 3 0; double_of 0 0] [double_of 0 0; double_of 4 0] + INR 2 * tiny 53 1024) < bpow radix2 1024.
Proof.
  assert (T : true_square [double_of 3 0; double_of 0 0] [double_of 0 0; double_of 4 0] = 25) by apply c83_case. rewrite T.
  assert (U : 0 < roundoff 53 <= / 4) by (apply u_range; lia).
  assert (Te : tiny 53 1024 <= bpow radix2 0) by (unfold tiny; apply bpow_le; lia). simpl bpow in Te.
  assert (P : (1 + roundoff 53) ^ (height (libstdcxx 2) + 2) <= 2 ^ 5) by (apply pow_incr; lra).
  apply Rle_lt_trans with (2 ^ 5 * (25 + 2)).
  - apply Rmult_le_compat; try lra; [apply pow_le; lra| |]; simpl INR; pose proof (bpow_ge_0 radix2 (3 - 1024 - 53)) as Q;
      fold (tiny 53 1024) in Q; lra.
  - apply Rlt_le_trans with (bpow radix2 10); [simpl; lra|apply bpow_le; lia].
Qed.

Print Assumptions c83_distance_is_accurate.
Print Assumptions c83_distance_is_finite.
Print Assumptions c83_reported_neighbours_are_nearly_nearest.
Print Assumptions c83_radius_search_is_nearly_exact.
Print Assumptions c83_double_distance_is_accurate.
