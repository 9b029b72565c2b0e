(** Silhouette values of [float] and [double] samples. *)
From Coq Require Import Reals List Arith ZArith Bool Lia Lra Psatz Permutation.
From Flocq Require Import Core BinarySingleNaN.
From Verif Require Import Base BufferSpec SilhouetteModel SilhouetteSpec SilhouetteProofs FloatModel FloatSpec FloatProofs FloatProps AccuracySpec
  AccuracyProofs AccuracyProps FloatSilhouetteModel FloatSilhouetteSpec FloatSilhouetteProofs.
Import ListNotations.
Open Scope R_scope.

Section Formats.
Context {prec emax : Z} (Hp : Prec_gt_0 prec) (Hm : Prec_lt_emax prec emax) (Hfmt : format_ok prec emax).
Notation number := (binary_float prec emax).
Notation euclid := (euclidean prec emax Hp Hm).
Notation silhouette := (float_silhouette prec emax Hp Hm).
Notation average := (float_average prec emax Hp Hm).
Notation u := (roundoff prec).
Notation e := (tiny prec emax).
Notation one := (Bone (prec_gt_0_ := Hp) (prec_lt_emax_ := Hm)).
Notation zero := (B754_zero false).
Notation lab labels i := (nth i labels 0%nat).

Section Samples.
Context (order : nat -> grouping) (samples : list number) (nf n : nat) (labels : list nat).
Context (Hfin : finite_numbers samples) (Hnf : nf <> 0%nat) (Hs : (length samples = n * nf)%nat) (Hlab : length labels = n)
  (Hn : (0 < n)%nat) (Hmax : (Z.of_nat n <= 2 ^ (emax - 1))%Z).

Lemma rows_good i j : (i < n)%nat -> (j < n)%nat -> good prec emax (euclid order (row samples nf i) (row samples nf j)).
Proof using Hfmt Hfin.
  intros _ _. destruct Hfmt as (Hprec & Hemax). assert (H : forall k, finite_list prec emax (row samples nf k)).
  { intros k x Hx. unfold finite_numbers in Hfin. rewrite Forall_forall in Hfin. apply Hfin. unfold row in Hx.
    rewrite <- (firstn_skipn (k * nf) samples), in_app_iff. right. rewrite <- (firstn_skipn nf (skipn (k * nf) samples)), in_app_iff. now left. }
  apply euclidean_is_distance; auto.
Qed.

Lemma all_values : exists v, silhouette order samples nf labels = Ok v /\ length v = n /\
  forall i, (i < n)%nat -> exists x, nth_error v i = Some x /\ exists sep,
    x = score prec emax Hp Hm (own prec emax Hp Hm (euclid order) samples nf labels i) sep /\ good prec emax sep /\
    (exists c, sep = other prec emax Hp Hm (euclid order) samples nf labels i c) /\
    forall c, level prec emax sep <= level prec emax (other prec emax Hp Hm (euclid order) samples nf labels i c).
Proof using Hfmt Hfin Hnf Hs Hlab Hn Hmax. destruct Hfmt. apply float_values; auto. exact rows_good. Qed.
End Samples.

(** ** C107 *)

(** All values are numbers between -1 and 1, even if distances overflow. *)
Theorem c107_values_in_range : forall order (samples : list number) nf n labels,
  finite_numbers samples -> nf <> 0%nat -> (length samples = n * nf)%nat -> length labels = n -> (0 < n)%nat ->
  (Z.of_nat n <= 2 ^ (emax - 1))%Z ->
  exists v, silhouette order samples nf labels = Ok v /\ length v = n /\
    forall x, In x v -> is_finite x = true /\ -1 <= B2R x <= 1.
Proof using Hfmt.
  intros order samples nf n labels Hfin Hnf Hs Hlab Hn Hmax.
  destruct (all_values order samples nf n labels) as (v & E & L & V); auto. exists v. split; auto. split; auto.
  intros x Hx. apply In_nth_error in Hx. destruct Hx as (i & Ei). assert (Hi : (i < n)%nat) by (rewrite <- L; now apply (nth_error_lt v i x)).
  destruct (V i Hi) as (y & Ey & sep & -> & Gs & _). rewrite Ei in Ey. injection Ey as ->. destruct Hfmt. apply score_range; auto.
  apply (own_good prec emax Hp Hm) with (n := n); auto. now apply rows_good.
Qed.

(** A sample that is alone in its cluster has value 1, or value 0 if it lies on all samples of another cluster. *)
Theorem c107_alone : forall order (samples : list number) nf n labels i,
  finite_numbers samples -> nf <> 0%nat -> (length samples = n * nf)%nat -> length labels = n -> (i < n)%nat ->
  (Z.of_nat n <= 2 ^ (emax - 1))%Z ->
  (forall j, (j < n)%nat -> lab labels j = lab labels i -> j = i) ->
  exists v, silhouette order samples nf labels = Ok v /\
    (nth_error v i = Some one \/
     (nth_error v i = Some zero /\ exists c, c <> lab labels i /\ (exists j, (j < n)%nat /\ lab labels j = c) /\
        forall j, (j < n)%nat -> lab labels j = c ->
          is_finite (euclid order (row samples nf i) (row samples nf j)) = true /\
          B2R (euclid order (row samples nf i) (row samples nf j)) < 2 * INR n * e)).
Proof using Hfmt.
  intros order samples nf n labels i Hfin Hnf Hs Hlab Hi Hmax Halone. assert (Hn : (0 < n)%nat) by lia.
  destruct (all_values order samples nf n labels) as (v & E & L & V); auto. exists v. split; auto.
  destruct (V i Hi) as (y & Ey & sep & -> & Gs & (c & Ec) & _). rewrite Ey.
  assert (Ef : fellows labels i = []).
  { destruct (fellows labels i) as [|j l] eqn:Ef; auto. assert (Hj : In j (fellows labels i)) by (rewrite Ef; now left).
    unfold fellows in Hj. apply filter_In in Hj. destruct Hj as (Hj & Hne). apply (in_cluster n labels Hlab) in Hj. destruct Hj as (Hj & El).
    rewrite (Halone j Hj El), Nat.eqb_refl in Hne. discriminate. }
  destruct Hfmt as (Hprec & Hemax). unfold own. rewrite Ef. cbn [length Nat.eqb]. rewrite score_alone by auto.
  rewrite (lt_level prec emax) by (auto; reflexivity). change (level prec emax (B754_zero false)) with 0.
  destruct (Rlt_bool_spec 0 (level prec emax sep)) as [H|H]; [now left|]. right. split; auto.
  pose proof (level_range prec emax sep Gs) as R. assert (Hz : level prec emax sep = 0) by lra. subst sep. unfold other in Hz.
  pose proof (bpow_gt_0 radix2 emax) as Tp.
  destruct (Nat.eqb_spec (length (cluster labels c)) 0) as [E0|E0]; [rewrite ?orb_true_r in Hz; cbn [orb] in Hz; change (level prec emax (B754_infinity false)) with (bpow radix2 emax) in Hz; lra|].
  destruct (Nat.eqb_spec c (lab labels i)) as [Ei|Ei]; [rewrite ?orb_true_r in Hz; cbn [orb] in Hz; change (level prec emax (B754_infinity false)) with (bpow radix2 emax) in Hz; lra|].
  cbn [orb] in Hz. exists c. split; auto. split.
  - destruct (cluster labels c) as [|j l] eqn:Ecl; [now contradiction E0|]. exists j. apply (in_cluster n labels Hlab). rewrite Ecl. now left.
  - intros j Hj Elj. eapply (mean_zero prec emax Hp Hm) with (l := cluster labels c); eauto.
    + now apply rows_good.
    + intros k Hk. now apply (in_cluster n labels Hlab) in Hk.
    + pose proof (cluster_size labels c). lia.
    + now apply (in_cluster n labels Hlab).
Qed.

(** With a single cluster all values are 1, unless the distances from a sample are too large to be added. *)
Theorem c107_one_cluster : forall order (samples : list number) nf n labels i,
  finite_numbers samples -> nf <> 0%nat -> (length samples = n * nf)%nat -> length labels = n -> (i < n)%nat ->
  (Z.of_nat n <= 2 ^ prec)%Z ->
  (forall j, (j < n)%nat -> lab labels j = lab labels i) ->
  (forall j, (j < n)%nat -> is_finite (euclid order (row samples nf i) (row samples nf j)) = true) ->
  (1 + u) ^ n * fold_right Rplus 0 (map (fun j => B2R (euclid order (row samples nf i) (row samples nf j))) (seq 0 n)) < bpow radix2 emax ->
  exists v, silhouette order samples nf labels = Ok v /\ nth_error v i = Some one.
Proof using Hfmt.
  intros order samples nf n labels i Hfin Hnf Hs Hlab Hi Hk Hall Hfd Htop. assert (Hn : (0 < n)%nat) by lia. destruct Hfmt as (Hprec & Hemax).
  assert (Hmax : (Z.of_nat n <= 2 ^ (emax - 1))%Z) by (apply Z.le_trans with (1 := Hk); apply Z.pow_le_mono_r; lia).
  destruct (all_values order samples nf n labels) as (v & E & L & V); auto. exists v. split; auto.
  destruct (V i Hi) as (y & Ey & sep & -> & Gs & (c & Ec) & _). rewrite Ey. f_equal.
  assert (Hd : forall i j, (i < n)%nat -> (j < n)%nat -> good prec emax (euclid order (row samples nf i) (row samples nf j))) by now apply rows_good.
  assert (Es : sep = B754_infinity false).
  { subst sep. unfold other. destruct (Nat.eqb_spec (length (cluster labels c)) 0) as [E0|E0]; [reflexivity|].
    destruct (Nat.eqb_spec c (lab labels i)) as [Ei|Ei]; [reflexivity|]. exfalso.
    destruct (cluster labels c) as [|j l] eqn:Ecl; [now contradiction E0|].
    assert (Hj : In j (cluster labels c)) by (rewrite Ecl; now left). apply (in_cluster n labels Hlab) in Hj. destruct Hj as (Hj & El).
    apply Ei. rewrite <- El. auto. }
  rewrite Es. rewrite score_infinite; auto; [|apply (own_good prec emax Hp Hm) with (n := n); auto].
  assert (F : is_finite (own prec emax Hp Hm (euclid order) samples nf labels i) = true); [|now rewrite F].
  unfold own. destruct (Nat.eqb_spec (length (fellows labels i)) 0) as [E0|E0]; [reflexivity|].
  apply (part_mean prec emax Hp Hm Hprec Hemax (euclid order) samples nf n labels); auto.
  - intros j Hj. now apply (fellows_in n labels Hlab i j).
  - destruct (fellows labels i); [now contradiction E0|discriminate].
  - pose proof (fellows_length n labels Hlab i Hi). pose proof (cluster_size labels (lab labels i)). lia.
  - apply Rle_trans with (fold_right Rplus 0 (map (fun j => B2R (euclid order (row samples nf i) (row samples nf j))) (cluster labels (lab labels i)))).
    + unfold fellows. apply (total_part prec emax Hprec Hemax (euclid order) samples nf n labels); auto. intros j Hj. now apply (in_cluster n labels Hlab) in Hj.
    + unfold cluster. rewrite Hlab. apply (total_part prec emax Hprec Hemax (euclid order) samples nf n labels); auto. intros j Hj. apply in_seq in Hj. lia.
Qed.

(** The average of values between -1 and 1 is between -1 and 1. *)
Theorem c107_average_in_range : forall scores : list number,
  scores <> [] -> (Z.of_nat (length scores) <= 2 ^ (emax - 1))%Z ->
  (forall x, In x scores -> is_finite x = true /\ -1 <= B2R x <= 1) ->
  exists a, average scores = Ok a /\ is_finite a = true /\ -1 <= B2R a <= 1.
Proof using Hfmt.
  intros scores Hne Hk Hr. destruct Hfmt. eexists; split; [reflexivity|]. cbn [el_div el_add el_zero el_nat binary_element].
  apply average_range; auto.
Qed.

(** A value is within a few roundings of the exact expression on the computed distances. *)
Theorem c107_accurate : forall order (samples : list number) nf n labels i b,
  finite_numbers samples -> nf <> 0%nat -> (length samples = n * nf)%nat -> length labels = n -> (i < n)%nat ->
  (Z.of_nat n <= 2 ^ prec)%Z ->
  let f j := B2R (euclid order (row samples nf i) (row samples nf j)) in
  let a := true_mean f (fellows labels i) in
  (forall j, (j < n)%nat -> is_finite (euclid order (row samples nf i) (row samples nf j)) = true) ->
  (1 + u) ^ n * fold_right Rplus 0 (map f (seq 0 n)) < bpow radix2 emax ->
  true_least_mean labels f i b -> 0 < Rmax a b -> e <= u * Rmax a b ->
  exists v x, silhouette order samples nf labels = Ok v /\ nth_error v i = Some x /\
    Rabs (B2R x - true_value a b) <= 3 * ((1 + u) ^ S n - 1) + 4 * u.
Proof using Hfmt.
  intros order samples nf n labels i b Hfin Hnf Hs Hlab Hi Hk f a Hfd Htop Hb HM He. assert (Hn : (0 < n)%nat) by lia. destruct Hfmt as (Hprec & Hemax).
  assert (Hmax : (Z.of_nat n <= 2 ^ (emax - 1))%Z) by (apply Z.le_trans with (1 := Hk); apply Z.pow_le_mono_r; lia).
  destruct (all_values order samples nf n labels) as (v & E & L & V); auto. destruct (V i Hi) as (y & Ey & sep & -> & Gs & Hc & Hle).
  exists v. eexists. split; [exact E|]. split; [exact Ey|].
  apply (value_accurate prec emax Hp Hm Hprec Hemax (euclid order) samples nf n labels); auto. now apply rows_good.
Qed.
End Formats.

(** For up to a million [double] samples: nine decimals. *)
Theorem c107_accurate_doubles : forall order (samples : list (binary_float 53 1024)) nf n labels i b,
  finite_numbers samples -> nf <> 0%nat -> (length samples = n * nf)%nat -> length labels = n -> (i < n)%nat ->
  (Z.of_nat n <= 2 ^ 20)%Z ->
  let dist j := euclidean 53 1024 prec_double emax_double order (row samples nf i) (row samples nf j) in
  let f j := B2R (dist j) in
  let a := true_mean f (fellows labels i) in
  (forall j, (j < n)%nat -> is_finite (dist j) = true /\ f j <= bpow radix2 1000) ->
  true_least_mean labels f i b -> bpow radix2 (-1000) <= Rmax a b ->
  exists v x, float_silhouette 53 1024 prec_double emax_double order samples nf labels = Ok v /\ nth_error v i = Some x /\
    Rabs (B2R x - true_value a b) <= bpow radix2 (-30).
Proof.
  intros order samples nf n labels i b Hfin Hnf Hs Hlab Hi Hk dist f a Hfd Hb HM.
  assert (Hu : roundoff 53 = bpow radix2 (-53)) by reflexivity.
  assert (Hn : INR n <= bpow radix2 20). { rewrite INR_IZR_INZ. change (bpow radix2 20) with (IZR (2 ^ 20)). now apply IZR_le. }
  assert (H33 : bpow radix2 20 * bpow radix2 (-53) = bpow radix2 (-33)) by (rewrite <- bpow_plus; reflexivity).
  assert (Hu0 : 0 < roundoff 53) by apply bpow_gt_0.
  assert (Hsmall : bpow radix2 (-33) = 8 * bpow radix2 (-36)) by (change 8 with (bpow radix2 3); rewrite <- bpow_plus; reflexivity).
  assert (Hu36 : roundoff 53 <= bpow radix2 (-36)) by (apply bpow_le; lia).
  assert (H36 : bpow radix2 (-36) <= / 64) by (change (/ 64) with (bpow radix2 (-6)); apply bpow_le; lia).
  assert (H30 : bpow radix2 (-30) = 64 * bpow radix2 (-36)) by (change 64 with (bpow radix2 6); rewrite <- bpow_plus; reflexivity).
  assert (Hnu : INR n * roundoff 53 <= bpow radix2 (-33)) by (rewrite <- H33, <- Hu; apply Rmult_le_compat_r; lra).
  assert (Hpos : forall j, (j < n)%nat -> 0 <= f j).
  { intros j Hj. unfold f, dist. pose proof (rows_good prec_double emax_double double_format order samples nf n Hfin i j Hi Hj) as G.
    destruct (good_inv 53 1024 _ G) as [->|(_ & _ & V)]; [simpl; lra|exact V]. }
  assert (Hsum : forall l, (forall j, In j l -> (j < n)%nat) -> 0 <= fold_right Rplus 0 (map f l) <= INR (length l) * bpow radix2 1000).
  { induction l as [|j l IH]; intros Hl; [simpl; lra|]. specialize (IH (fun k Hk => Hl k (or_intror Hk))).
    pose proof (Hpos j (Hl j (or_introl eq_refl))). pose proof (proj2 (Hfd j (Hl j (or_introl eq_refl)))).
    change (length (j :: l)) with (S (length l)). rewrite S_INR. cbn [map fold_right]. lra. }
  destruct (Hsum (seq 0 n)) as (S0 & S1); [intros j Hj; apply in_seq in Hj; lia|]. rewrite seq_length in S1.
  assert (Hg : (1 + roundoff 53) ^ n <= 2).
  { pose proof (bernoulli_up (roundoff 53) n ltac:(lra) ltac:(lra)). lra. }
  destruct (c107_accurate prec_double emax_double double_format order samples nf n labels i b) as (v & x & E & Ei & B); auto.
  - apply Z.le_trans with (1 := Hk). apply Z.pow_le_mono_r; lia.
  - intros j Hj. apply Hfd. exact Hj.
  - fold dist. apply Rle_lt_trans with (2 * (bpow radix2 20 * bpow radix2 1000)).
    + apply Rmult_le_compat; [apply pow_le; lra|exact S0|exact Hg|]. apply Rle_trans with (1 := S1). apply Rmult_le_compat_r; [apply bpow_ge_0|exact Hn].
    + rewrite <- bpow_plus. change 2 with (bpow radix2 1). rewrite <- bpow_plus. apply bpow_lt. lia.
  - apply Rlt_le_trans with (bpow radix2 (-1000)); [apply bpow_gt_0|exact HM].
  - apply Rle_trans with (roundoff 53 * bpow radix2 (-1000)); [|apply Rmult_le_compat_l; [lra|exact HM]].
    unfold tiny, roundoff. rewrite <- bpow_plus. apply bpow_le. lia.
  - exists v, x. split; auto. split; auto. apply Rle_trans with (1 := B).
    assert (Hs1 : INR (S n) * roundoff 53 <= bpow radix2 (-33) + roundoff 53) by (rewrite S_INR; lra).
    pose proof (bernoulli_up (roundoff 53) (S n) ltac:(lra) ltac:(lra)) as G1.
    assert (Hu40 : 16 * roundoff 53 <= bpow radix2 (-36)). { change 16 with (bpow radix2 4). unfold roundoff. rewrite <- bpow_plus. apply bpow_le. lia. }
    lra.
Qed.

(** ** Cases *)
Notation double_silhouette := (float_silhouette 53 1024 prec_double emax_double libstdcxx).
Notation double_distance := (euclidean 53 1024 prec_double emax_double libstdcxx).
Definition shown (r : res (list (binary_float 53 1024))) : list SpecFloat.spec_float :=
  match r with Ok v => map (fun x => B2SF x) v | _ => [] end.
Definition shown_average (r : res (list (binary_float 53 1024))) : option SpecFloat.spec_float :=
  match r with Ok v => match float_average 53 1024 prec_double emax_double v with Ok a => Some (B2SF a) | _ => None end | _ => None end.

Lemma finite_bool (l : list (binary_float 53 1024)) : forallb is_finite l = true -> finite_numbers l.
Proof. intros H. apply Forall_forall. now apply forallb_forall. Qed.

(** Half of the distances overflow; the values are 0, 0, 0, -1 and 1. *)
Definition far : list (binary_float 53 1024) := [double_of 1 1023; double_of (-1) 1023; double_of 1 1023; double_of 0 0; double_of 1 0].
Example c107_range_case :
  format_ok 53 1024 /\ format_ok 24 128 /\ finite_numbers far /\ length far = 5%nat /\
  is_finite (double_distance (row far 1 0) (row far 1 1)) = false /\
  shown (double_silhouette far 1 [0; 0; 1; 1; 2]%nat) =
    [SpecFloat.S754_zero false; SpecFloat.S754_zero false; SpecFloat.S754_zero false;
     SpecFloat.S754_finite true 4503599627370496 (-52); SpecFloat.S754_finite false 4503599627370496 (-52)].
Proof.
  split; [exact double_format|]. split; [exact float_format|]. split; [apply finite_bool; vm_compute; reflexivity|]. split; [reflexivity|].
  split; vm_compute; reflexivity.
Qed.

(** Sample 4 is alone: 1. Below, sample 2 is alone and lies on both samples of cluster 0. *)
Example c107_alone_case :
  finite_numbers decimals /\ (forall j, (j < 7)%nat -> nth j [0; 1; 0; 1; 2; 0; 1]%nat 0%nat = 2%nat -> j = 4%nat) /\
  nth 4 (shown (double_silhouette decimals 2 [0; 1; 0; 1; 2; 0; 1]%nat)) SpecFloat.S754_nan = SpecFloat.S754_finite false 4503599627370496 (-52) /\
  nth 2 (shown (double_silhouette (map tenths [3; 3; 3; 8]%Z) 1 [0; 0; 1; 2]%nat)) SpecFloat.S754_nan = SpecFloat.S754_zero false.
Proof.
  split; [apply finite_bool; vm_compute; reflexivity|]. split; [|split; vm_compute; reflexivity].
  intros j Hj H. do 7 (destruct j as [|j]; [try reflexivity; discriminate|]). lia.
Qed.

(** Distances of whole numbers on a line. *)
Definition whole : list (binary_float 53 1024) := map (fun z => double_of z 0) [0; 3; 10; 12]%Z.
Lemma whole_distances : map (fun j => B2R (double_distance (row whole 1 0) (row whole 1 j))) (seq 0 4) = [0; 3; 10; 12] /\
  forall j, (j < 4)%nat -> is_finite (double_distance (row whole 1 0) (row whole 1 j)) = true /\
    B2R (double_distance (row whole 1 0) (row whole 1 j)) = nth j [0; 3; 10; 12] 0.
Proof.
  assert (H : forall j x, B2SF (double_distance (row whole 1 0) (row whole 1 j)) = x -> B2R (double_distance (row whole 1 0) (row whole 1 j)) = SF2R radix2 x).
  { intros j x <-. symmetry. apply SF2R_B2SF. }
  assert (Hv : forall j, (j < 4)%nat -> is_finite (double_distance (row whole 1 0) (row whole 1 j)) = true /\
    B2R (double_distance (row whole 1 0) (row whole 1 j)) = nth j [0; 3; 10; 12] 0).
  { intros j Hj. destruct j as [|[|[|[|]]]]; try lia; (split; [vm_compute; reflexivity|]); erewrite H by (vm_compute; reflexivity);
      cbn [SF2R nth cond_Zopp]; unfold F2R; cbn [Fnum Fexp]; simpl; lra. }
  split; [|exact Hv]. cbn [seq map]. rewrite (proj2 (Hv 0%nat ltac:(lia))), (proj2 (Hv 1%nat ltac:(lia))), (proj2 (Hv 2%nat ltac:(lia))), (proj2 (Hv 3%nat ltac:(lia))). reflexivity.
Qed.

Lemma whole_sum : (1 + roundoff 53) ^ 4 * fold_right Rplus 0 (map (fun j => B2R (double_distance (row whole 1 0) (row whole 1 j))) (seq 0 4)) < bpow radix2 1024.
Proof.
  rewrite (proj1 whole_distances). cbn [fold_right]. apply Rle_lt_trans with (2 ^ 4 * 25).
  - apply Rmult_le_compat; try lra.
    + apply pow_le. pose proof (bpow_gt_0 radix2 (-53)). unfold roundoff. simpl (- (53))%Z. lra.
    + apply pow_incr. assert (bpow radix2 (-53) <= bpow radix2 0) by (apply bpow_le; lia). change (bpow radix2 0) with 1 in H.
      pose proof (bpow_gt_0 radix2 (-53)). unfold roundoff. simpl (- (53))%Z. lra.
  - apply Rlt_le_trans with (bpow radix2 10); [simpl; lra|apply bpow_le; lia].
Qed.

Example c107_one_cluster_case :
  finite_numbers whole /\ length whole = 4%nat /\
  (forall j, (j < 4)%nat -> is_finite (double_distance (row whole 1 0) (row whole 1 j)) = true) /\
  (1 + roundoff 53) ^ 4 * fold_right Rplus 0 (map (fun j => B2R (double_distance (row whole 1 0) (row whole 1 j))) (seq 0 4)) < bpow radix2 1024 /\
  shown (double_silhouette whole 1 [3; 3; 3; 3]%nat) = repeat (SpecFloat.S754_finite false 4503599627370496 (-52)) 4.
Proof.
  split; [apply finite_bool; vm_compute; reflexivity|]. split; [reflexivity|]. split; [intros j Hj; now apply whole_distances|].
  split; [exact whole_sum|vm_compute; reflexivity].
Qed.

(** Sample 0 is at 3 from its fellow and at 10 and 12 from the others: the exact value is 8/11, the computed one is
    6550690367084358 / 2^53. *)
Example c107_accurate_case :
  let f j := B2R (double_distance (row whole 1 0) (row whole 1 j)) in
  finite_numbers whole /\ (forall j, (j < 4)%nat -> is_finite (double_distance (row whole 1 0) (row whole 1 j)) = true /\ f j <= bpow radix2 1000) /\
  (1 + roundoff 53) ^ 4 * fold_right Rplus 0 (map f (seq 0 4)) < bpow radix2 1024 /\
  true_mean f (fellows [0; 0; 1; 1]%nat 0) = 3 /\ true_least_mean [0; 0; 1; 1]%nat f 0 11 /\ true_value 3 11 = 8 / 11 /\
  bpow radix2 (-1000) <= Rmax 3 11 /\ tiny 53 1024 <= roundoff 53 * Rmax 3 11 /\
  nth 0 (shown (double_silhouette whole 1 [0; 0; 1; 1]%nat)) SpecFloat.S754_nan = SpecFloat.S754_finite false 6550690367084358 (-53).
Proof.
  intros f. destruct whole_distances as (_ & Hv). assert (Hf : forall j, (j < 4)%nat -> f j = nth j [0; 3; 10; 12] 0) by (intros; now apply Hv).
  assert (Hm : Rmax 3 11 = 11) by (apply Rmax_right; lra).
  split; [apply finite_bool; vm_compute; reflexivity|]. split.
  { intros j Hj. split; [now apply Hv|]. rewrite Hf by auto. apply Rle_trans with (bpow radix2 4); [|apply bpow_le; lia].
    destruct j as [|[|[|[|]]]]; try lia; simpl; lra. }
  split; [exact whole_sum|]. split.
  { unfold true_mean. change (fellows [0; 0; 1; 1]%nat 0) with [1]%nat. cbn [map fold_right length]. rewrite Hf by lia. simpl. lra. }
  split.
  { assert (E : true_mean f (cluster [0; 0; 1; 1]%nat 1) = 11).
    { unfold true_mean. change (cluster [0; 0; 1; 1]%nat 1) with [2; 3]%nat. cbn [map fold_right length]. rewrite !Hf by lia. simpl. lra. }
    split.
    - exists 1%nat. splits; [discriminate|discriminate|now rewrite E].
    - intros c Hc Hne. destruct c as [|[|c]]; [now contradiction Hc|rewrite E; lra|now contradiction Hne]. }
  split; [unfold true_value; rewrite Hm; lra|]. rewrite Hm. split.
  { apply Rle_trans with (bpow radix2 0); [apply bpow_le; lia|simpl; lra]. }
  split; [|vm_compute; reflexivity]. apply Rle_trans with (roundoff 53 * 1); [|apply Rmult_le_compat_l; [apply bpow_ge_0|lra]].
  rewrite Rmult_1_r. apply bpow_le. lia.
Qed.

(** The average of the values of seven samples; without values, not a number. *)
Example c107_average_case :
  shown_average (double_silhouette decimals 2 [0; 1; 0; 1; 2; 0; 1]%nat) = Some (SpecFloat.S754_finite false 8370085721091167 (-56)) /\
  length (shown (double_silhouette decimals 2 [0; 1; 0; 1; 2; 0; 1]%nat)) = 7%nat /\
  shown_average (Ok []) = Some SpecFloat.S754_nan.
Proof. split; [|split]; vm_compute; reflexivity. Qed.

(** The value of a sample depends on the order in which the other ones are given. *)
Theorem c107_order_refuted : exists (others others' : list (binary_float 53 1024)) x y first last,
  Permutation others others' /\ finite_numbers (first :: others ++ [last]) /\
  nth_error (shown (double_silhouette (first :: others ++ [last]) 1 [0; 0; 0; 0; 1]%nat)) 0 = Some x /\
  nth_error (shown (double_silhouette (first :: others' ++ [last]) 1 [0; 0; 0; 0; 1]%nat)) 0 = Some y /\ x <> y.
Proof.
  exists [double_of 1 53; double_of 1 0; double_of 1 0], [double_of 1 0; double_of 1 0; double_of 1 53].
  eexists. eexists. exists (double_of 0 0), (double_of (-2900000000000000) 0).
  split; [exact (Permutation_middle [double_of 1 0; double_of 1 0] [] (double_of 1 53))|]. split; [apply finite_bool; vm_compute; reflexivity|].
  split; [vm_compute; reflexivity|]. split; [vm_compute; reflexivity|]. discriminate.
Qed.

Print Assumptions c107_values_in_range.
Print Assumptions c107_alone.
Print Assumptions c107_one_cluster.
Print Assumptions c107_average_in_range.
Print Assumptions c107_accurate.
Print Assumptions c107_accurate_doubles.
Print Assumptions c107_order_refuted.
