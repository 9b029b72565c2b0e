(** Error bounds of rounded distances. *)
From Coq Require Import Reals List Arith ZArith Bool Lia Lra Psatz Permutation.
From Flocq Require Import Core BinarySingleNaN Relative Plus_error Div_sqrt_error.
From Verif Require Import Base FloatModel FloatProofs AccuracySpec.
Import ListNotations.
Open Scope R_scope.

Section Accuracy.
Context (prec emax : Z) (Hp : Prec_gt_0 prec) (Hm : Prec_lt_emax prec emax).
Context (Hprec : (2 <= prec)%Z) (Hemax : (prec + 3 <= emax)%Z).
Notation number := (binary_float prec emax).
Notation emin := (3 - emax - prec)%Z.
Notation fexp := (FLT_exp emin prec).
Notation fmt := (generic_format radix2 fexp).
Notation rnd := (round radix2 fexp ZnearestE).
Notation top := (bpow radix2 emax).
Notation level := (level prec emax).
Notation good := (good prec emax).
Notation numbers := (numbers prec emax).
Notation u := (roundoff prec).
Notation e := (tiny prec emax).

Lemma u_range : 0 < u <= / 4.
Proof using Hprec.
  unfold roundoff. split; [apply bpow_gt_0|]. apply Rle_trans with (bpow radix2 (-2)); [apply bpow_le; lia|]. simpl. lra.
Qed.

Lemma e_pos : 0 < e.
Proof. apply bpow_gt_0. Qed.

Lemma half_u : / 2 * bpow radix2 (- prec + 1) = u.
Proof. unfold roundoff. rewrite bpow_plus. simpl (bpow radix2 1). lra. Qed.

Lemma u_ro_u : u_ro radix2 prec = u.
Proof. unfold u_ro. apply half_u. Qed.

Lemma eps_range x : Rabs x <= u -> - u <= x <= u.
Proof. apply Rabs_le_inv. Qed.

Lemma rnd_any r : 0 <= r -> (1 - u) * r - e / 2 <= rnd r <= (1 + u) * r + e / 2.
Proof using Hp Hprec.
  intros Hr. destruct (error_N_FLT radix2 emin prec Hp (fun n => negb (Z.even n)) r) as (eps & eta & H1 & H2 & _ & ->).
  rewrite half_u in H1. apply Rabs_le_inv in H1, H2. fold e in H2. change (bpow radix2 emin) with e in H2.
  split; nra.
Qed.

Lemma rnd_sum x y : fmt x -> fmt y -> 0 <= x + y -> (1 - u) * (x + y) <= rnd (x + y) <= (1 + u) * (x + y).
Proof using Hp Hprec.
  intros Fx Fy H. destruct (FLT_plus_error_N_ex radix2 emin prec (fun n => negb (Z.even n)) x y Fx Fy) as (eps & H1 & ->).
  rewrite u_ro_u in H1. pose proof u_range as U.
  assert (H2 : Rabs eps <= u).
  { apply Rle_trans with (1 := H1). apply Rmult_le_reg_r with (1 + u); [lra|]. unfold Rdiv. rewrite Rmult_assoc, Rinv_l by lra. nra. }
  apply Rabs_le_inv in H2. split; nra.
Qed.

Lemma rnd_difference x y : fmt x -> fmt y -> (1 - u) * Rabs (x - y) <= rnd (Rabs (x - y)) <= (1 + u) * Rabs (x - y).
Proof using Hp Hprec.
  intros Fx Fy. unfold Rabs. destruct (Rcase_abs (x - y)) as [L|L].
  - replace (- (x - y)) with (y + - x) by lra. apply rnd_sum; auto; [now apply generic_format_opp|lra].
  - unfold Rminus. apply rnd_sum; auto; [now apply generic_format_opp|lra].
Qed.

Lemma rnd_root x : fmt x -> 0 <= x -> (1 - u) * sqrt x <= rnd (sqrt x) <= (1 + u) * sqrt x.
Proof using Hp Hprec Hemax.
  intros Fx Hx. destruct (sqrt_error_N_FLT_ex radix2 prec (fun n => negb (Z.even n)) ltac:(lia) emin ltac:(lia) x Fx) as (eps & H1 & ->).
  rewrite u_ro_u in H1. pose proof u_range as U. pose proof (sqrt_pos x) as S.
  assert (H2 : Rabs eps <= u).
  { apply Rle_trans with (1 := H1). assert (P : 0 < sqrt (1 + 2 * u)) by (apply sqrt_lt_R0; lra).
    assert (Q : (1 - u) * sqrt (1 + 2 * u) <= 1).
    { apply Rsqr_incr_0_var; [|lra]. unfold Rsqr.
      replace ((1 - u) * sqrt (1 + 2 * u) * ((1 - u) * sqrt (1 + 2 * u)))
        with ((1 - u) * (1 - u) * (sqrt (1 + 2 * u) * sqrt (1 + 2 * u))) by ring.
      rewrite sqrt_sqrt by lra. nra. }
    assert (R1 : 1 - u <= 1 / sqrt (1 + 2 * u)).
    { apply Rmult_le_reg_r with (sqrt (1 + 2 * u)); auto. unfold Rdiv. rewrite Rmult_assoc, Rinv_l by lra. lra. }
    lra. }
  apply Rabs_le_inv in H2. split; nra.
Qed.

(** The exact sum of the squares of some of the differences. *)
Definition mass (tmps : list number) (i : nat) : R := level (Babs (nth i tmps (B754_zero false))) ^ 2.
Definition total (f : nat -> R) (is : list nat) : R := fold_right (fun i s => f i + s) 0 is.

Lemma total_app f l l' : total f (l ++ l') = total f l + total f l'.
Proof. induction l as [|a l IH]; simpl; lra. Qed.

Lemma total_perm f l l' : Permutation l l' -> total f l = total f l'.
Proof. induction 1; simpl; lra. Qed.

Lemma total_nonneg f l : (forall i, 0 <= f i) -> 0 <= total f l.
Proof. intros H. induction l as [|a l IH]; simpl; [lra|]. specialize (H a). lra. Qed.

Lemma mass_nonneg tmps i : 0 <= mass tmps i.
Proof. apply pow2_ge_0. Qed.

Lemma grow_pos h : 1 <= (1 + u) ^ h.
Proof using Hprec. pose proof u_range. apply pow_R1_Rle. lra. Qed.

Lemma grow_mono h h' : (h <= h')%nat -> (1 + u) ^ h <= (1 + u) ^ h'.
Proof using Hprec. intros H. pose proof u_range. apply Rle_pow; auto. lra. Qed.

Lemma shrink_range h : 0 <= (1 - u) ^ h <= 1.
Proof using Hprec.
  pose proof u_range. induction h as [|h IH]; simpl; [lra|]. split; nra.
Qed.

Lemma shrink_mono h h' : (h <= h')%nat -> (1 - u) ^ h' <= (1 - u) ^ h.
Proof using Hprec.
  intros H. pose proof u_range. replace h' with (h + (h' - h))%nat by lia. rewrite pow_add.
  pose proof (shrink_range h). pose proof (shrink_range (h' - h)). nra.
Qed.

Lemma reduce_upper g tmps : numbers tmps ->
  level (reduce prec emax Hp Hm g tmps) <= (1 + u) ^ height g * (total (mass tmps) (terms g) + INR (length (terms g)) * e).
Proof using Hprec Hemax.
  intros N. pose proof u_range as U. pose proof e_pos as E. induction g as [|i|a IHa b IHb|i b IHb]; cbn [reduce terms height].
  - cbn. lra.
  - destruct (square_ok prec emax Hp Hm Hprec Hemax _ (nth_number prec emax tmps i N)) as [_ ->].
    eapply Rle_trans; [apply Rmin_l|]. fold (level (Babs (nth i tmps (B754_zero false)))).
    replace (level (Babs (nth i tmps (B754_zero false))) * level (Babs (nth i tmps (B754_zero false)))) with (mass tmps i)
      by (unfold mass; ring).
    pose proof (mass_nonneg tmps i) as P. destruct (rnd_any _ P) as [_ Q]. cbn [total fold_right length INR pow]. nra.
  - destruct (plus_ok prec emax Hp Hm Hprec Hemax _ _ (reduce_good prec emax Hp Hm Hprec Hemax a tmps N)
      (reduce_good prec emax Hp Hm Hprec Hemax b tmps N)) as [_ ->].
    eapply Rle_trans; [apply Rmin_l|].
    pose proof (level_range prec emax _ (reduce_good prec emax Hp Hm Hprec Hemax a tmps N)) as Ra.
    pose proof (level_range prec emax _ (reduce_good prec emax Hp Hm Hprec Hemax b tmps N)) as Rb.
    destruct (rnd_sum (level (reduce prec emax Hp Hm a tmps)) (level (reduce prec emax Hp Hm b tmps))) as [_ Q].
    { apply fmt_level; auto. now apply reduce_good. } { apply fmt_level; auto. now apply reduce_good. } { lra. }
    eapply Rle_trans; [exact Q|]. rewrite total_app, app_length, plus_INR. cbn [pow].
    rewrite Rmult_assoc. apply Rmult_le_compat_l; [lra|].
    pose proof (grow_mono (height a) (max (height a) (height b)) (Nat.le_max_l _ _)) as G1.
    pose proof (grow_mono (height b) (max (height a) (height b)) (Nat.le_max_r _ _)) as G2.
    pose proof (total_nonneg (mass tmps) (terms a) (mass_nonneg tmps)). pose proof (total_nonneg (mass tmps) (terms b) (mass_nonneg tmps)).
    pose proof (pos_INR (length (terms a))) as Na. pose proof (pos_INR (length (terms b))) as Nb.
    assert (0 <= INR (length (terms a)) * e) by nra. assert (0 <= INR (length (terms b)) * e) by nra.
    eapply Rle_trans; [apply Rplus_le_compat; [exact IHa|exact IHb]|].
    eapply Rle_trans; [apply Rplus_le_compat; (apply Rmult_le_compat_r; [|eassumption])|]; lra.
  - destruct (fma_ok prec emax Hp Hm Hprec Hemax _ _ (nth_number prec emax tmps i N) (reduce_good prec emax Hp Hm Hprec Hemax b tmps N)) as [_ ->].
    eapply Rle_trans; [apply Rmin_l|].
    pose proof (level_range prec emax _ (reduce_good prec emax Hp Hm Hprec Hemax b tmps N)) as Rb.
    replace (FloatProofs.level prec emax (Babs (nth i tmps (B754_zero false))) * FloatProofs.level prec emax (Babs (nth i tmps (B754_zero false))))
      with (mass tmps i) by (unfold mass; ring).
    pose proof (mass_nonneg tmps i) as P.
    destruct (rnd_any (mass tmps i + level (reduce prec emax Hp Hm b tmps))) as [_ Q]; [lra|].
    eapply Rle_trans; [exact Q|]. cbn [total fold_right length pow]. fold (total (mass tmps) (terms b)). rewrite S_INR.
    pose proof (grow_pos (height b)) as G.
    pose proof (total_nonneg (mass tmps) (terms b) (mass_nonneg tmps)). pose proof (pos_INR (length (terms b))).
    assert (0 <= INR (length (terms b)) * e) by nra.
    rewrite Rmult_assoc. apply Rle_trans with ((1 + u) * (mass tmps i + e + level (reduce prec emax Hp Hm b tmps))); [nra|].
    apply Rmult_le_compat_l; [lra|]. nra.
Qed.

Lemma below_top z r : good z -> level z = cap emax (rnd r) -> level z < top -> level z = rnd r /\ r < top.
Proof using Hprec Hemax.
  intros G E L. unfold cap, Rmin in E. destruct (Rle_dec (rnd r) top); [|rewrite E in L; lra]. split; auto.
  apply Rnot_le_lt. intros H. apply (rnd_top prec emax Hprec Hemax) in H. rewrite E in L. lra.
Qed.

Lemma reduce_lower g tmps : numbers tmps -> level (reduce prec emax Hp Hm g tmps) < top ->
  (1 - u) ^ height g * total (mass tmps) (terms g) - INR (length (terms g)) * e <= level (reduce prec emax Hp Hm g tmps).
Proof using Hprec Hemax.
  intros N. pose proof u_range as U. pose proof e_pos as E. induction g as [|i|a IHa b IHb|i b IHb]; cbn [reduce terms height]; intros L.
  - cbn. lra.
  - destruct (square_ok prec emax Hp Hm Hprec Hemax _ (nth_number prec emax tmps i N)) as [G V].
    destruct (below_top _ _ G V L) as [-> _].
    replace (FloatProofs.level prec emax (Babs (nth i tmps (B754_zero false))) * FloatProofs.level prec emax (Babs (nth i tmps (B754_zero false))))
      with (mass tmps i) by (unfold mass; ring).
    pose proof (mass_nonneg tmps i) as P. destruct (rnd_any _ P) as [Q _]. cbn [total fold_right length INR pow]. nra.
  - destruct (plus_ok prec emax Hp Hm Hprec Hemax _ _ (reduce_good prec emax Hp Hm Hprec Hemax a tmps N)
      (reduce_good prec emax Hp Hm Hprec Hemax b tmps N)) as [G V].
    destruct (below_top _ _ G V L) as [-> Lt].
    pose proof (level_range prec emax _ (reduce_good prec emax Hp Hm Hprec Hemax a tmps N)) as Ra.
    pose proof (level_range prec emax _ (reduce_good prec emax Hp Hm Hprec Hemax b tmps N)) as Rb.
    specialize (IHa ltac:(lra)). specialize (IHb ltac:(lra)).
    destruct (rnd_sum (level (reduce prec emax Hp Hm a tmps)) (level (reduce prec emax Hp Hm b tmps))) as [Q _].
    { apply fmt_level; auto. now apply reduce_good. } { apply fmt_level; auto. now apply reduce_good. } { lra. }
    eapply Rle_trans; [|exact Q]. rewrite total_app, app_length, plus_INR. cbn [pow].
    pose proof (shrink_mono (height a) (max (height a) (height b)) (Nat.le_max_l _ _)) as G1.
    pose proof (shrink_mono (height b) (max (height a) (height b)) (Nat.le_max_r _ _)) as G2.
    pose proof (total_nonneg (mass tmps) (terms a) (mass_nonneg tmps)). pose proof (total_nonneg (mass tmps) (terms b) (mass_nonneg tmps)).
    pose proof (pos_INR (length (terms a))). pose proof (pos_INR (length (terms b))).
    apply Rle_trans with ((1 - u) * ((1 - u) ^ Nat.max (height a) (height b) * (total (mass tmps) (terms a) + total (mass tmps) (terms b))
      - (INR (length (terms a)) + INR (length (terms b))) * e)).
    { assert (0 <= (INR (length (terms a)) + INR (length (terms b))) * e) by nra. nra. }
    apply Rmult_le_compat_l; [lra|].
    apply Rle_trans with ((1 - u) ^ height a * total (mass tmps) (terms a) + (1 - u) ^ height b * total (mass tmps) (terms b)
      - (INR (length (terms a)) + INR (length (terms b))) * e); [|lra].
    apply Rplus_le_compat_r. rewrite Rmult_plus_distr_l. apply Rplus_le_compat; apply Rmult_le_compat_r; auto.
  - destruct (fma_ok prec emax Hp Hm Hprec Hemax _ _ (nth_number prec emax tmps i N) (reduce_good prec emax Hp Hm Hprec Hemax b tmps N)) as [G V].
    destruct (below_top _ _ G V L) as [-> Lt].
    pose proof (level_range prec emax _ (reduce_good prec emax Hp Hm Hprec Hemax b tmps N)) as Rb.
    replace (FloatProofs.level prec emax (Babs (nth i tmps (B754_zero false))) * FloatProofs.level prec emax (Babs (nth i tmps (B754_zero false))))
      with (mass tmps i) in * by (unfold mass; ring).
    pose proof (mass_nonneg tmps i) as P. specialize (IHb ltac:(lra)).
    destruct (rnd_any (mass tmps i + level (reduce prec emax Hp Hm b tmps))) as [Q _]; [lra|].
    eapply Rle_trans; [|exact Q]. cbn [total fold_right length pow]. fold (total (mass tmps) (terms b)). rewrite S_INR.
    pose proof (shrink_range (height b)) as S.
    pose proof (total_nonneg (mass tmps) (terms b) (mass_nonneg tmps)). pose proof (pos_INR (length (terms b))).
    apply Rle_trans with ((1 - u) * (mass tmps i + ((1 - u) ^ height b * total (mass tmps) (terms b) - INR (length (terms b)) * e)) - e / 2);
      [|apply Rplus_le_compat_r; apply Rmult_le_compat_l; lra].
    assert ((1 - u) ^ height b * mass tmps i <= mass tmps i) by nra.
    assert (0 <= INR (length (terms b)) * e) by nra. nra.
Qed.

(** All the squares, along the lists of features. *)
Lemma total_shift f a n : total f (seq (S a) n) = total (fun i => f (S i)) (seq a n).
Proof. revert a. induction n as [|n IH]; intros a; cbn [seq total fold_right]; auto. f_equal. apply IH. Qed.

Lemma total_all (tmps : list number) :
  total (mass tmps) (seq 0 (length tmps)) = fold_right (fun t s => level (Babs t) ^ 2 + s) 0 tmps.
Proof.
  induction tmps as [|t tmps IH]; auto. cbn [length seq total fold_right]. fold (total (mass (t :: tmps)) (seq 1 (length tmps))).
  rewrite total_shift. f_equal. rewrite <- IH. reflexivity.
Qed.

Notation diffs l r := (map (fun xy => difference prec emax Hp Hm (fst xy) (snd xy)) (combine l r)).
Notation finite_list := (finite_list prec emax).

Lemma squares_upper l r : finite_list l -> finite_list r -> length l = length r ->
  fold_right (fun t s => level (Babs t) ^ 2 + s) 0 (diffs l r) <= (1 + u) ^ 2 * true_square l r.
Proof using Hprec Hemax.
  revert r. induction l as [|x l IH]; intros [|y r] Fl Fr HL; try discriminate; cbn [combine map fold_right true_square fst snd]; [lra|].
  assert (Fx : is_finite x = true) by (apply Fl; now left). assert (Fy : is_finite y = true) by (apply Fr; now left).
  specialize (IH r ltac:(intros z Hz; apply Fl; now right) ltac:(intros z Hz; apply Fr; now right) ltac:(now inversion HL)).
  destruct (minus_ok prec emax Hp Hm Hprec x y Fx Fy) as [_ V]. unfold difference at 1. unfold level in V |- *. rewrite V.
  destruct (rnd_difference (B2R x) (B2R y) (generic_format_B2R _ _ _) (generic_format_B2R _ _ _)) as [A B].
  pose proof (Rmin_l (rnd (Rabs (B2R x - B2R y))) top) as M. fold (cap emax (rnd (Rabs (B2R x - B2R y)))) in M.
  pose proof u_range as U. pose proof (Rabs_pos (B2R x - B2R y)) as P.
  assert (C : 0 <= cap emax (rnd (Rabs (B2R x - B2R y)))).
  { unfold cap. apply Rmin_glb; [nra|]. apply bpow_ge_0. }
  rewrite Rmult_plus_distr_l. apply Rplus_le_compat; auto.
  rewrite <- (pow2_abs (B2R x - B2R y)). rewrite <- Rpow_mult_distr. apply pow_incr. lra.
Qed.

Lemma squares_lower l r : finite_list l -> finite_list r -> length l = length r ->
  (forall t, In t (diffs l r) -> level (Babs t) < top) ->
  (1 - u) ^ 2 * true_square l r <= fold_right (fun t s => level (Babs t) ^ 2 + s) 0 (diffs l r).
Proof using Hprec Hemax.
  revert r. induction l as [|x l IH]; intros [|y r] Fl Fr HL HT; try discriminate; cbn [combine map fold_right true_square fst snd]; [lra|].
  assert (Fx : is_finite x = true) by (apply Fl; now left). assert (Fy : is_finite y = true) by (apply Fr; now left).
  specialize (IH r ltac:(intros z Hz; apply Fl; now right) ltac:(intros z Hz; apply Fr; now right) ltac:(now inversion HL)
    ltac:(intros t Ht; apply HT; now right)).
  specialize (HT _ (or_introl eq_refl)). cbn [fst snd] in HT.
  destruct (minus_ok prec emax Hp Hm Hprec x y Fx Fy) as [_ V]. unfold difference at 1. unfold difference in HT. unfold level in V, HT |- *.
  rewrite V in HT |- *.
  destruct (rnd_difference (B2R x) (B2R y) (generic_format_B2R _ _ _) (generic_format_B2R _ _ _)) as [A B].
  assert (M : cap emax (rnd (Rabs (B2R x - B2R y))) = rnd (Rabs (B2R x - B2R y))).
  { unfold cap, Rmin in *. destruct (Rle_dec (rnd (Rabs (B2R x - B2R y))) top); auto. lra. }
  rewrite M. pose proof u_range as U. pose proof (Rabs_pos (B2R x - B2R y)) as P.
  rewrite Rmult_plus_distr_l. apply Rplus_le_compat; auto.
  rewrite <- (pow2_abs (B2R x - B2R y)). rewrite <- Rpow_mult_distr. apply pow_incr. nra.
Qed.

Lemma true_square_nonneg (l r : list number) : 0 <= true_square l r.
Proof. revert r. induction l as [|x l IH]; intros [|y r]; cbn [true_square]; try lra. specialize (IH r). pose proof (pow2_ge_0 (B2R x - B2R y)). lra. Qed.

Lemma small_root (z : R) : 0 <= z -> z ^ 2 < top -> z < top.
Proof using Hprec Hemax.
  intros H0 H. assert (T : 1 <= top). { change 1 with (bpow radix2 0). apply bpow_le. lia. }
  apply Rnot_le_lt. intros L. assert (top * top <= z ^ 2) by nra. nra.
Qed.

Section Distance.
Context (order : nat -> grouping) (l r : list number).
Context (Ho : Permutation (terms (order (length l))) (seq 0 (length l))).
Context (Fl : finite_list l) (Fr : finite_list r) (HL : length l = length r).
Notation n := (length l).
Notation d := (euclidean prec emax Hp Hm order l r).
Notation s := (reduce prec emax Hp Hm (order n) (diffs l r)).

Lemma len_diffs : length (diffs l r) = n.
Proof using HL. rewrite map_length, combine_length. lia. Qed.

Lemma distance_is : d = Bsqrt mode_NE s.
Proof using HL. unfold euclidean. cbv zeta. now rewrite len_diffs. Qed.

Lemma len_terms : length (terms (order n)) = n.
Proof using Ho. rewrite (Permutation_length Ho). apply seq_length. Qed.

Lemma numbers_diffs : numbers (diffs l r).
Proof using Hprec Fl Fr. now apply diffs_numbers. Qed.

Lemma sum_upper : level s <= (1 + u) ^ (height (order n) + 2) * (true_square l r + INR n * e).
Proof using Hprec Hemax Ho Fl Fr HL.
  pose proof (reduce_upper (order n) (diffs l r) numbers_diffs) as H.
  rewrite len_terms, (total_perm _ _ _ Ho) in H. rewrite <- len_diffs in H at 3. rewrite total_all in H.
  pose proof (squares_upper l r Fl Fr HL) as Q. pose proof (true_square_nonneg l r) as P. pose proof e_pos as E. pose proof u_range as U.
  pose proof (pos_INR n) as Pn. pose proof (grow_pos (height (order n))) as G.
  eapply Rle_trans; [exact H|]. rewrite pow_add, Rmult_assoc. apply Rmult_le_compat_l; [lra|].
  rewrite Rmult_plus_distr_l. assert (0 <= INR n * e) by nra. apply Rplus_le_compat; auto. nra.
Qed.

Lemma sum_lower : level s < top -> (1 - u) ^ (height (order n) + 2) * true_square l r - INR n * e <= level s.
Proof using Hprec Hemax Ho Fl Fr HL.
  intros L. pose proof (reduce_lower (order n) (diffs l r) numbers_diffs L) as H.
  rewrite len_terms, (total_perm _ _ _ Ho) in H. rewrite <- len_diffs in H at 2. rewrite total_all in H.
  assert (HT : forall t, In t (diffs l r) -> level (Babs t) < top).
  { intros t Ht. apply (In_nth _ _ (B754_zero false)) in Ht as (i & Hi & Et). rewrite len_diffs in Hi.
    assert (Hin : In i (terms (order n))). { eapply Permutation_in; [symmetry; exact Ho|]. apply in_seq. lia. }
    pose proof (reduce_ge prec emax Hp Hm Hprec Hemax (order n) (diffs l r) i numbers_diffs Hin) as A. cbv zeta in A. rewrite Et in A.
    assert (N : is_nan t = false). { rewrite <- Et. apply nth_number, numbers_diffs. }
    destruct (square_ok prec emax Hp Hm Hprec Hemax t N) as [G V].
    destruct (below_top _ _ G V ltac:(lra)) as [_ B].
    apply small_root; [|cbn [pow]; rewrite Rmult_1_r; exact B].
    apply (level_range prec emax). apply (level_abs prec emax t N). }
  pose proof (squares_lower l r Fl Fr HL HT) as Q. pose proof (shrink_range (height (order n))) as S.
  eapply Rle_trans; [|exact H]. apply Rplus_le_compat_r. rewrite pow_add, Rmult_assoc. apply Rmult_le_compat_l; lra.
Qed.

Lemma good_sum : good s.
Proof using Hprec Hemax Fl Fr. apply reduce_good; auto. apply numbers_diffs. Qed.

Lemma finite_level z : good z -> level z < top -> is_finite z = true.
Proof.
  intros G L. destruct (good_inv prec emax z G) as [->|(F & _)]; auto. change (level (B754_infinity false)) with top in L. lra.
Qed.

Lemma level_finite z : is_finite z = true -> level z < top /\ level z = B2R z.
Proof.
  intros F. unfold level, FloatProofs.level. rewrite F. split; auto. pose proof (finite_below prec emax z F) as A.
  apply Rle_lt_trans with (2 := A). apply Rle_abs.
Qed.

Lemma distance_finite : (1 + u) ^ (height (order n) + 2) * (true_square l r + INR n * e) < top -> is_finite d = true.
Proof using Hprec Hemax Ho Fl Fr HL.
  intros H. rewrite distance_is. destruct (sqrt_ok prec emax Hp Hm s good_sum) as (_ & A & _).
  apply A. apply finite_level; [apply good_sum|]. apply Rle_lt_trans with (2 := H). apply sum_upper.
Qed.

Lemma distance_accurate : is_finite d = true -> accurate prec emax (height (order n) + 4) n (true_square l r) (B2R d).
Proof using Hprec Hemax Ho Fl Fr HL.
  rewrite distance_is. intros F.
  destruct (sqrt_ok prec emax Hp Hm s good_sum) as (_ & A & B).
  destruct (is_finite s) eqn:Fs; [|rewrite B in F by auto; discriminate].
  destruct (A eq_refl) as [V _]. destruct (level_finite _ F) as [_ E1]. rewrite E1 in V. rewrite V.
  destruct (level_finite _ Fs) as [L E2]. pose proof sum_upper as Up. pose proof (sum_lower L) as Lo. rewrite E2 in Up, Lo.
  pose proof (level_range prec emax _ good_sum) as R0. fold (level s) in R0. rewrite E2 in R0.
  destruct (rnd_root (B2R s) (generic_format_B2R _ _ _) ltac:(lra)) as [S1 S2].
  pose proof (sqrt_pos (B2R s)) as P. pose proof u_range as U. pose proof e_pos as E. pose proof (pos_INR n) as Pn.
  assert (Sq : sqrt (B2R s) ^ 2 = B2R s) by (apply pow2_sqrt; lra).
  assert (U1 : rnd (sqrt (B2R s)) ^ 2 <= (1 + u) ^ 2 * B2R s).
  { rewrite <- Sq, <- Rpow_mult_distr, Sq. apply pow_incr. split; [nra|lra]. }
  assert (L1 : (1 - u) ^ 2 * B2R s <= rnd (sqrt (B2R s)) ^ 2).
  { rewrite <- Sq at 1. rewrite <- Rpow_mult_distr. apply pow_incr. split; [nra|lra]. }
  replace (height (order n) + 4)%nat with (2 + (height (order n) + 2))%nat by lia.
  unfold accurate. rewrite !pow_add. split.
  - eapply Rle_trans; [|exact L1].
    apply Rle_trans with ((1 - u) ^ 2 * ((1 - u) ^ (height (order n) + 2) * true_square l r - INR n * e)).
    + rewrite Rmult_minus_distr_l, Rmult_assoc, pow_add. assert ((1 - u) ^ 2 * (INR n * e) <= INR n * e). { assert (0 <= INR n * e) by nra. pose proof (shrink_range 2) as W. rewrite <- (Rmult_1_l (INR n * e)) at 2. apply Rmult_le_compat_r; lra. } lra.
    + apply Rmult_le_compat_l; auto. apply pow2_ge_0.
  - eapply Rle_trans; [exact U1|]. rewrite Rmult_assoc. apply Rmult_le_compat_l; [apply pow2_ge_0|]. rewrite <- pow_add. exact Up.
Qed.
End Distance.
End Accuracy.
