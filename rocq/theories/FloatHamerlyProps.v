(** Hamerly's algorithm on [float] and [double] samples. *)
From Coq Require Import Reals List Arith ZArith Bool Lia Lra Psatz Permutation.
From Flocq Require Import Core BinarySingleNaN.
From Verif Require Import Base BufferSpec KMeansModel KMeansSpec KMeansProofs FloatModel FloatSpec FloatProofs FloatProps AccuracySpec
  FloatSilhouetteModel FloatSilhouetteProofs FloatSilhouetteProps FloatKMeansModel FloatKMeansSpec FloatKMeansProofs FloatKMeansProps
  FloatHamerlyModel FloatHamerlyProofs.
Import ListNotations.
Open Scope R_scope.

Section Formats.
Context {prec emax : Z} (Hp : Prec_gt_0 prec) (Hm : Prec_lt_emax prec emax) (Hfmt : format_ok prec emax).
Notation number := (binary_float prec emax).
Notation hamerly := (float_hamerly prec emax Hp Hm).
Notation fexp := (FLT_exp (3 - emax - prec) prec).
Notation top := (bpow radix2 emax).

(** ** C109 *)

(** With any contents, infinities and NaN included, the constructor and any number of steps are defined and give [k]
    centroids. *)
Theorem c109_defined : forall order (samples centroids : list number) nf n k m,
  nf <> 0%nat -> (length samples = n * nf)%nat -> (length centroids = k * nf)%nat -> (0 < k)%nat ->
  exists new, hamerly order m samples nf centroids = Ok new /\ (length new = k * nf)%nat.
Proof using Type.
  intros order samples centroids nf n k m Hnf Hs Hc Hk. unfold float_hamerly, hamerly_centroids. set (a := bounds_arith prec emax Hp Hm order).
  destruct (make_any a (B754_infinity false) Bmax_float samples nf n k Hnf Hs Hk (fun _ _ _ => True)) with (centroids := centroids) as (h & -> & I & _); auto. cbn [bind].
  destruct (steps_any a (B754_infinity false) (Bopp Bmax_float) samples nf n k Hnf Hs Hk (fun _ _ _ => True)) with (m := m) (h := h) as (h' & -> & I'); auto.
  cbn [bind]. exists (b_centroids _ h'). split; auto. apply I'.
Qed.

Lemma whole_step (op : number -> number -> number) (f : R -> R -> R) (x y : number) (z : Z) :
  (op = Bplus mode_NE /\ f = Rplus) \/ (op = Bminus mode_NE /\ f = Rminus) ->
  is_finite x = true -> is_finite y = true -> f (B2R x) (B2R y) = IZR z -> Rabs (IZR z) <= bpow radix2 prec ->
  is_finite (op x y) = true /\ B2R (op x y) = IZR z.
Proof using Hfmt.
  intros Hop Fx Fy E Hz. destruct Hfmt as (Hprec & Hemax). assert (Hv := fexp_correct prec emax Hp).
  assert (F : generic_format radix2 fexp (IZR z)).
  { apply (fmt_whole prec emax Hp Hprec Hemax). apply le_IZR. rewrite abs_IZR, (IZR_Zpower radix2) by lia. exact Hz. }
  assert (L : Rabs (IZR z) < top) by (apply Rle_lt_trans with (1 := Hz); apply bpow_lt; lia).
  destruct Hop as [(-> & ->)|(-> & ->)].
  - pose proof (Bplus_correct prec emax Hp Hm mode_NE x y Fx Fy) as C. cbn [round_mode] in C. change (SpecFloat.fexp prec emax) with fexp in C.
    rewrite E, (round_generic radix2 fexp ZnearestE _ F) in C. rewrite Rlt_bool_true in C by exact L. destruct C as (Ev & Fv & _). auto.
  - pose proof (Bminus_correct prec emax Hp Hm mode_NE x y Fx Fy) as C. cbn [round_mode] in C. change (SpecFloat.fexp prec emax) with fexp in C.
    rewrite E, (round_generic radix2 fexp ZnearestE _ F) in C. rewrite Rlt_bool_true in C by exact L. destruct C as (Ev & Fv & _). auto.
Qed.

Lemma quotient (x : number) m : is_finite x = true -> (1 <= m)%nat -> (Z.of_nat m <= 2 ^ prec)%Z ->
  is_finite (Bdiv mode_NE x (count prec emax Hp Hm m)) = true /\
  B2R (Bdiv mode_NE x (count prec emax Hp Hm m)) = round radix2 fexp ZnearestE (B2R x / INR m).
Proof using Hfmt.
  intros F H1 Hk. destruct Hfmt as (Hprec & Hemax). assert (Hv := fexp_correct prec emax Hp).
  assert (Hk' : 1 <= INR m) by (replace 1 with (INR 1) by reflexivity; apply le_INR; lia).
  pose proof (count_exact prec emax Hp Hm Hprec Hemax m H1 Hk) as Vc.
  pose proof (Bdiv_correct prec emax Hp Hm mode_NE x (count prec emax Hp Hm m) ltac:(rewrite Vc; lra)) as D. cbn [round_mode] in D. rewrite Vc in D.
  change (SpecFloat.fexp prec emax) with fexp in D.
  assert (Hi : 0 < / INR m <= 1).
  { split; [apply Rinv_0_lt_compat; lra|]. rewrite <- Rinv_1. apply Rinv_le_contravar; lra. }
  assert (L : Rabs (round radix2 fexp ZnearestE (B2R x / INR m)) < top).
  { apply Rle_lt_trans with (Rabs (B2R x)); [|apply abs_B2R_lt_emax].
    apply (rnd_abs_le prec emax); auto; [apply generic_format_abs, generic_format_B2R|]. unfold Rdiv. rewrite Rabs_mult, (Rabs_pos_eq (/ _)) by lra.
    pose proof (Rabs_pos (B2R x)). nra. }
  rewrite Rlt_bool_true in D by exact L. destruct D as (Ev & Fv & _). rewrite Fv, Ev. auto.
Qed.

Lemma absolute_part (samples : list number) nf f l l' : NoDup l -> incl l l' -> absolute_sum samples nf f l <= absolute_sum samples nf f l'.
Proof using Type.
  revert l'. induction l as [|i l IH]; intros l' Hd Hi; unfold absolute_sum; cbn [map fold_right].
  - clear. induction l' as [|i l IH]; simpl; [lra|]. pose proof (Rabs_pos (coordinate samples nf f i)). lra.
  - inversion Hd as [|? ? Hn Hd']; subst. destruct (in_split i l') as (l1 & l2 & ->); [apply Hi; now left|].
    assert (H : absolute_sum samples nf f l <= absolute_sum samples nf f (l1 ++ l2)).
    { apply IH; auto. intros j Hj. specialize (Hi j (or_intror Hj)). apply in_app_iff in Hi. apply in_app_iff. destruct Hi as [|[<- |]]; auto. now contradiction Hn. }
    unfold absolute_sum in H. assert (E : forall g : nat -> R, fold_right Rplus 0 (map g (l1 ++ i :: l2)) = g i + fold_right Rplus 0 (map g (l1 ++ l2))).
    { intros g. clear. induction l1 as [|j l1 IH]; simpl; [reflexivity|]. rewrite IH. ring. }
    rewrite E. lra.
Qed.

Lemma exact_below (samples : list number) nf f l : Rabs (exact_sum samples nf f l) <= absolute_sum samples nf f l.
Proof using Type. apply mean_bound. Qed.

Lemma exact_perm (samples : list number) nf f l l' : Permutation l l' -> exact_sum samples nf f l = exact_sum samples nf f l'.
Proof using Type. unfold exact_sum. induction 1; simpl; lra. Qed.

Lemma exact_whole (samples : list number) nf f l : (forall x, In x samples -> exists z, B2R x = IZR z) -> exists z, exact_sum samples nf f l = IZR z.
Proof using Type.
  intros H. induction l as [|i l (z & IH)]; [now exists 0%Z|]. unfold exact_sum in *. cbn [map fold_right]. rewrite IH. unfold coordinate at 1.
  destruct (nth_error samples (i * nf + f)) as [x|] eqn:E; [|exists z; lra]. destruct (H x (nth_error_In _ _ E)) as (w & ->). exists (w + z)%Z. now rewrite plus_IZR.
Qed.

Lemma drop_first (r s : R) : r + s - r = s.
Proof using Type. ring. Qed.

(** If the coordinates of the samples are whole numbers whose absolute values add up to at most [2^prec] for each feature,
    then after one or more steps from any centroids the samples are distributed in such a way that every centroid with
    samples is their mean, rounded once, and lies between them. *)
Theorem c109_whole_numbers : forall order (samples centroids : list number) nf n k m,
  finite_numbers samples -> (forall x, In x samples -> exists z, B2R x = IZR z) -> (Z.of_nat n <= 2 ^ prec)%Z ->
  (forall f, (f < nf)%nat -> absolute_sum samples nf f (seq 0 n) <= bpow radix2 prec) ->
  nf <> 0%nat -> (length samples = n * nf)%nat -> (length centroids = k * nf)%nat -> (0 < k)%nat ->
  exists new labels, hamerly order (1 + m) samples nf centroids = Ok new /\
    length labels = n /\ (forall c, In c labels -> (c < k)%nat) /\
    forall c f, (c < k)%nat -> (f < nf)%nat -> let ms := members labels c in ms <> [] ->
      exists x, nth_error new (c * nf + f) = Some x /\ is_finite x = true /\
        B2R x = round radix2 (FLT_exp (3 - emax - prec) prec) ZnearestE (exact_sum samples nf f ms / INR (length ms)) /\
        exists i j, In i ms /\ In j ms /\ coordinate samples nf f i <= B2R x <= coordinate samples nf f j.
Proof using Hfmt.
  intros order samples centroids nf n k m Fs Hz Hn Hsum Hnf Hs Hc Hk.
  assert (Fv : forall i f, is_finite (nth (i * nf + f) samples (B754_zero false)) = true).
  { intros i f. destruct (nth_in_or_default (i * nf + f) samples (B754_zero false)) as [H| ->]; [|reflexivity].
    unfold finite_numbers in Fs. rewrite Forall_forall in Fs. auto. }
  assert (Hb : forall f l, (f < nf)%nat -> NoDup l -> (forall j, In j l -> (j < n)%nat) -> Rabs (exact_sum samples nf f l) <= bpow radix2 prec).
  { intros f l Hf Hd Hl. eapply Rle_trans; [apply exact_below|]. eapply Rle_trans; [|apply (Hsum f Hf)]. apply absolute_part; auto.
    intros j Hj. apply in_seq. specialize (Hl j Hj). lia. }
  destruct (centroids_after_steps (bounds_arith prec emax Hp Hm order) (B754_infinity false) Bmax_float (Bopp Bmax_float) samples nf n k Hnf Hs Hk
    (fun f l (x : number) => is_finite x = true /\ B2R x = exact_sum samples nf f l)) with (m := m) (centroids := centroids) as (new & asg & E & L & La & B & M).
  - intros f l l' x P (F & V). split; auto. rewrite V. now apply exact_perm.
  - intros f Hf. split; reflexivity.
  - intros f i l x Hf Hd Hl (F & V). destruct (exact_whole samples nf f (i :: l) Hz) as (z & Ez). cbn [n_add bounds_arith n_zero]. rewrite Ez. eapply (whole_step _ Rplus).
    + left. split; reflexivity.
    + exact F.
    + apply Fv.
    + rewrite V, <- Ez. unfold exact_sum. cbn [map fold_right]. rewrite coordinate_nth. apply Rplus_comm.
    + rewrite <- Ez. now apply Hb.
  - intros f i l x Hf Hd Hl (F & V). destruct (exact_whole samples nf f l Hz) as (z & Ez). cbn [n_sub bounds_arith n_zero]. rewrite Ez. eapply (whole_step _ Rminus).
    + right. split; reflexivity.
    + exact F.
    + apply Fv.
    + rewrite V, <- Ez. unfold exact_sum. cbn [map fold_right]. rewrite coordinate_nth. apply drop_first.
    + rewrite <- Ez. apply Hb; auto; [now inversion Hd|]. intros j Hj. apply Hl. now right.
  - exact Hc.
  - exists new, asg. split; [exact E|]. split; [exact La|]. split.
    { intros c Hin. apply (In_nth _ _ 0%nat) in Hin. destruct Hin as (i & Hi & <-). apply B. lia. }
    intros c f Hck Hf ms Hne. destruct (M c f Hck Hf Hne) as (x & (F & V) & Ex). fold ms in V, Ex.
    assert (H1 : (1 <= length ms)%nat) by (destruct ms; [now contradiction Hne|simpl; lia]).
    assert (Hlen : (length ms <= n)%nat) by (rewrite <- La; apply members_size).
    destruct (quotient x (length ms) F H1 ltac:(lia)) as (Fq & Vq). rewrite V in Vq.
    eexists. split; [exact Ex|]. cbn [n_div bounds_arith]. split; [exact Fq|]. split; [exact Vq|]. rewrite Vq.
    assert (Lp : 0 < INR (length ms)) by (apply lt_0_INR; lia). assert (Hv := fexp_correct prec emax Hp).
    assert (Hfm : forall i, generic_format radix2 fexp (coordinate samples nf f i)) by (intros i; rewrite coordinate_nth; apply generic_format_B2R).
    destruct (least_one (coordinate samples nf f) ms Hne) as (i & Hi & Li).
    destruct (least_one (fun i => - coordinate samples nf f i) ms Hne) as (j & Hj & Lj).
    exists i, j. split; auto. split; auto. split.
    + apply round_ge_generic; auto; try typeclasses eauto. apply Rmult_le_reg_r with (INR (length ms)); auto.
      unfold Rdiv. rewrite Rmult_assoc, Rinv_l, Rmult_1_r by lra.
      unfold exact_sum. clear - Li. revert Li. generalize (coordinate samples nf f i) as a. induction ms as [|b ms IH]; intros a Li; [simpl; lra|].
      cbn [length map fold_right]. rewrite S_INR. pose proof (Li b (or_introl eq_refl)). specialize (IH a (fun x Hx => Li x (or_intror Hx))). lra.
    + apply round_le_generic; auto; try typeclasses eauto. apply Rmult_le_reg_r with (INR (length ms)); auto.
      unfold Rdiv. rewrite Rmult_assoc, Rinv_l, Rmult_1_r by lra.
      unfold exact_sum. clear - Lj. revert Lj. generalize (coordinate samples nf f j) as a. induction ms as [|b ms IH]; intros a Lj; [simpl; lra|].
      cbn [length map fold_right]. rewrite S_INR. pose proof (Lj b (or_introl eq_refl)). specialize (IH a (fun x Hx => Lj x (or_intror Hx))). lra.
Qed.
End Formats.

(** *** Cases *)
Notation double_hamerly := (float_hamerly 53 1024 prec_double emax_double libstdcxx).

(** A NaN among the samples and one among the centroids. *)
Example c109_defined_case :
  shown (double_hamerly 3 [double_of 1 0; B754_nan; double_of 5 0; B754_infinity true] 1 [double_of 0 0; double_of 4 0]) =
    [SpecFloat.S754_nan; SpecFloat.S754_finite false 5629499534213120 (-50)] /\
  shown (double_hamerly 3 whole 1 [B754_nan; double_of 7 0]) = [SpecFloat.S754_nan; SpecFloat.S754_finite false 7036874417766400 (-50)].
Proof. split; vm_compute; reflexivity. Qed.

(** 0, 3, 10 and 12 started at 10 and 12: sample 10 changes its cluster; 1.5 and 11. *)
Example c109_whole_numbers_case :
  finite_numbers whole /\ (forall x, In x whole -> exists z, B2R x = IZR z) /\ absolute_sum whole 1 0 (seq 0 4) <= bpow radix2 53 /\
  shown (double_hamerly 1 whole 1 [double_of 10 0; double_of 12 0]) =
    [SpecFloat.S754_finite false 4878899596318037 (-50); SpecFloat.S754_finite false 6755399441055744 (-49)] /\
  shown (double_hamerly 3 whole 1 [double_of 10 0; double_of 12 0]) =
    [SpecFloat.S754_finite false 6755399441055744 (-52); SpecFloat.S754_finite false 6192449487634432 (-49)].
Proof.
  split; [apply finite_bool; vm_compute; reflexivity|]. split; [apply c108_whole_numbers_case|]. split.
  { unfold absolute_sum. cbn [seq map fold_right]. rewrite !whole_coordinate. cbn [nth]. rewrite Rabs_R0, !Rabs_pos_eq by lra.
    apply Rle_trans with (bpow radix2 10); [simpl; lra|apply bpow_le; lia]. }
  split; vm_compute; reflexivity.
Qed.

(** A centroid need not be near the mean of its samples: after sample 2^60 has left the cluster of sample 1, the centroid of
    sample 1 is 0, for good; Lloyd's algorithm gives 1. *)
Theorem c109_mean_refuted : exists samples centroids y,
  finite_numbers samples /\ finite_numbers centroids /\ map B2SF (firstn 1 samples) = [SpecFloat.S754_finite false 4503599627370496 (-52)] /\
  (c <- double_hamerly 2 samples 1 centroids ;; double_predict samples 1 c) = Ok [0; 1; 1]%nat /\
  shown (double_hamerly 2 samples 1 centroids) = [SpecFloat.S754_zero false; y] /\
  shown (double_hamerly 9 samples 1 centroids) = [SpecFloat.S754_zero false; y] /\
  shown (double_steps 2 samples 1 centroids) = [SpecFloat.S754_finite false 4503599627370496 (-52); y].
Proof.
  exists [double_of 1 0; double_of 1 60; double_of 21 56], [double_of 0 0; double_of 40 56], (SpecFloat.S754_finite false 5207287069147136 8).
  split; [apply finite_bool; vm_compute; reflexivity|]. split; [apply finite_bool; vm_compute; reflexivity|].
  split; [vm_compute; reflexivity|]. split; [vm_compute; reflexivity|]. split; [vm_compute; reflexivity|]. split; vm_compute; reflexivity.
Qed.

(** The unit matters: the same numbers times 2^-60, which changes no digit, give other centroids, and sample 10 stays in the
    cluster it started in; Lloyd's algorithm gives the same numbers in both units. *)
Theorem c109_unit_refuted : exists zs start m0 e0 m1 e1,
  let at_unit u l := map (fun z => double_of z u) l in
  let result m e := SpecFloat.S754_finite false m e in
  shown (double_steps 9 (at_unit 0%Z zs) 1 (at_unit 0%Z start)) = [result m0 e0; result m1 e1] /\
  shown (double_hamerly 9 (at_unit 0%Z zs) 1 (at_unit 0%Z start)) = [result m0 e0; result m1 e1] /\
  shown (double_steps 9 (at_unit (-60)%Z zs) 1 (at_unit (-60)%Z start)) = [result m0 (e0 - 60)%Z; result m1 (e1 - 60)%Z] /\
  exists y, shown (double_hamerly 9 (at_unit (-60)%Z zs) 1 (at_unit (-60)%Z start)) = y /\
    y <> [result m0 (e0 - 60)%Z; result m1 (e1 - 60)%Z].
Proof.
  exists [0; 3; 10; 12]%Z, [10; 12]%Z, 6755399441055744%positive, (-52)%Z, 6192449487634432%positive, (-49)%Z. cbv zeta.
  split; [vm_compute; reflexivity|]. split; [vm_compute; reflexivity|]. split; [vm_compute; reflexivity|].
  exists [SpecFloat.S754_finite false 4878899596318037 (-110); SpecFloat.S754_finite false 6755399441055744 (-109)]. split; [vm_compute; reflexivity|discriminate].
Qed.

Print Assumptions c109_defined.
Print Assumptions c109_whole_numbers.
Print Assumptions c109_mean_refuted.
Print Assumptions c109_unit_refuted.
