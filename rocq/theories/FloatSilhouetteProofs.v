(** Lemmas on silhouette values in floating point. *)
From Coq Require Import Reals List Arith ZArith Bool Lia Lra Psatz.
From Flocq Require Import Core BinarySingleNaN.
From Verif Require Import Base BufferSpec KMeansProofs AliasProofs SilhouetteModel SilhouetteSpec SilhouetteProofs FloatModel FloatProofs AccuracySpec AccuracyProofs
  FloatSilhouetteModel FloatSilhouetteSpec.
Import ListNotations.
Open Scope R_scope.

Section Binary.
Context (prec emax : Z) (Hp : Prec_gt_0 prec) (Hm : Prec_lt_emax prec emax).
Context (Hprec : (2 <= prec)%Z) (Hemax : (prec + 3 <= emax)%Z).
Notation number := (binary_float prec emax).
Notation emin := (3 - emax - prec)%Z.
Notation fexp := (FLT_exp emin prec).
Notation fmt := (generic_format radix2 fexp).
Notation rnd := (round radix2 fexp ZnearestE).
Notation top := (bpow radix2 emax).
Notation level := (level prec emax).
Notation good := (good prec emax).
Notation u := (roundoff prec).
Notation e := (tiny prec emax).
Notation count := (count prec emax Hp Hm).
Notation one := (Bone (prec_gt_0_ := Hp) (prec_lt_emax_ := Hm)).
Implicit Types x y z : number.

Lemma INR_Z k : INR k = IZR (Z.of_nat k).
Proof. apply INR_IZR_INZ. Qed.

Lemma pow_Z k : (0 <= k)%Z -> IZR (2 ^ k) = bpow radix2 k.
Proof. intros H. apply (IZR_Zpower radix2). exact H. Qed.

Lemma fmt_1 : fmt 1.
Proof using Hprec Hemax. change 1 with (bpow radix2 0). apply fmt_bpow; auto; lia. Qed.

Lemma rnd_1 r : r <= 1 -> rnd r <= 1.
Proof using Hprec Hemax. intros H. rewrite <- (rnd_id prec emin 1 fmt_1). now apply rnd_le. Qed.

Lemma top_large : 1 < top.
Proof using Hprec Hemax. change 1 with (bpow radix2 0). apply bpow_lt. lia. Qed.

Lemma count_ok k : (1 <= k)%nat -> (Z.of_nat k <= 2 ^ (emax - 1))%Z ->
  is_finite (count k) = true /\ Bsign (count k) = false /\ B2R (count k) = rnd (INR k) /\ 1 <= B2R (count k).
Proof using Hprec Hemax.
  intros H1 H2. pose proof (binary_normalize_correct prec emax Hp Hm mode_NE (Z.of_nat k) 0 false) as H. cbv zeta in H. cbn [round_mode] in H.
  unfold F2R in H. cbn [Fnum Fexp] in H. simpl (bpow radix2 0) in H. rewrite Rmult_1_r, <- INR_Z in H.
  assert (Hk : 1 <= INR k) by (replace 1 with (INR 1) by reflexivity; apply le_INR; lia).
  assert (Hr : 1 <= rnd (INR k)) by (apply rnd_ge_fmt; auto; apply fmt_1).
  assert (Ht : rnd (INR k) < top).
  { apply Rle_lt_trans with (bpow radix2 (emax - 1)); [|apply bpow_lt; lia].
    rewrite <- (rnd_id prec emin (bpow radix2 (emax - 1))); [|apply fmt_bpow; auto; lia]. apply rnd_le; auto.
    rewrite INR_Z, <- (pow_Z (emax - 1)) by lia. apply IZR_le. exact H2. }
  assert (L : Rabs (rnd (INR k)) < top) by (rewrite Rabs_pos_eq by lra; exact Ht).
  rewrite Rlt_bool_true in H by exact L. destruct H as (E & F & S). unfold FloatSilhouetteModel.count.
  splits; auto.
  - rewrite S. destruct (Rcompare_spec (INR k) 0); auto; lra.
  - rewrite E. exact Hr.
Qed.

(** Up to 2 to the [prec] counts are exact. *)
Lemma count_exact k : (1 <= k)%nat -> (Z.of_nat k <= 2 ^ prec)%Z -> B2R (count k) = INR k.
Proof using Hprec Hemax.
  intros H1 H2. destruct (count_ok k H1) as (_ & _ & -> & _); [apply Z.le_trans with (1 := H2); apply Z.pow_le_mono_r; lia|].
  apply rnd_id. rewrite INR_Z. destruct (Z.eq_dec (Z.of_nat k) (2 ^ prec)) as [->|Hne].
  - rewrite pow_Z by lia. apply fmt_bpow; auto; lia.
  - apply generic_format_FLT. exists (Float radix2 (Z.of_nat k) 0); cbn [Fnum Fexp]; try lia.
    + unfold F2R. cbn [Fnum Fexp]. simpl. lra.
    + rewrite Z.abs_eq by lia. change (Zpower radix2 prec) with (2 ^ prec)%Z. lia.
Qed.

Lemma div_ok x y : good x -> is_finite y = true -> Bsign y = false -> 0 < B2R y ->
  good (Bdiv mode_NE x y) /\ (is_finite x = true -> level (Bdiv mode_NE x y) = cap emax (rnd (B2R x / B2R y))) /\
  (is_finite x = false -> Bdiv mode_NE x y = B754_infinity false).
Proof using Hprec Hemax.
  intros Gx Fy Sy Hy. destruct (good_inv prec emax x Gx) as [->|(Fx & Sx & Hx)].
  - assert (E : Bdiv mode_NE (B754_infinity false) y = B754_infinity false).
    { destruct y as [| | |s m ex H]; try discriminate; simpl in Sy, Hy; subst; [lra|reflexivity]. }
    rewrite E. split; [reflexivity|]. split; [discriminate|auto].
  - assert (Hq : 0 <= B2R x / B2R y) by (apply Rmult_le_pos; [lra|]; apply Rlt_le, Rinv_0_lt_compat; lra).
    destruct (settle prec emax Hprec (Bdiv mode_NE x y) (B2R x / B2R y) Hq) as (G & L).
    + pose proof (Bdiv_correct prec emax Hp Hm mode_NE x y ltac:(lra)) as H. cbn [round_mode] in H.
      destruct (Rlt_bool _ _).
      * destruct H as (E & Fz & S). rewrite Fx in Fz. splits; auto. rewrite S; [now rewrite Sx, Sy|].
        destruct (Bdiv mode_NE x y); auto; discriminate.
      * apply overflow_inf in H. now rewrite H, Sx, Sy.
    + split; [exact G|]. split; [auto|congruence].
Qed.

(** The quotient of two means, the first one smaller. *)
Lemma quotient_ok x y : good x -> good y -> level x < level y ->
  let q := Bdiv mode_NE x y in
  is_finite q = true /\ 0 <= B2R q <= 1 /\ (is_finite y = true -> B2R q = rnd (B2R x / B2R y)) /\ (is_finite y = false -> B2R q = 0) /\
  (B2R x = 0 -> B2R q = 0).
Proof using Hprec Hemax.
  intros Gx Gy H. pose proof (level_range prec emax x Gx) as Rx. pose proof (level_range prec emax y Gy) as Ry.
  destruct (good_inv prec emax x Gx) as [->|(Fx & Sx & Hx)].
  { exfalso. unfold FloatProofs.level in H at 1. cbn [is_finite] in H. lra. }
  destruct (good_inv prec emax y Gy) as [->|(Fy & Sy & Hy)]; cbv zeta.
  - assert (E : exists s, Bdiv mode_NE x (B754_infinity false) = B754_zero s).
    { destruct x as [s| | |s m ex Hb]; try discriminate; eexists; reflexivity. }
    destruct E as (s & ->). cbn [is_finite B2R]. splits; auto; try lra.
  - unfold FloatProofs.level in H. rewrite Fx, Fy in H. destruct (div_ok x y Gx Fy Sy ltac:(lra)) as (G & L & _). specialize (L Fx).
    assert (Hq0 : 0 <= B2R x / B2R y) by (apply Rmult_le_pos; [lra|]; apply Rlt_le, Rinv_0_lt_compat; lra).
    assert (Hq1 : B2R x / B2R y <= 1) by (apply Rmult_le_reg_r with (B2R y); [lra|]; unfold Rdiv; rewrite Rmult_assoc, Rinv_l by lra; lra).
    pose proof (rnd_1 _ Hq1) as R1. pose proof (rnd_nonneg prec emax Hprec _ Hq0) as R0. pose proof top_large as T.
    unfold cap in L. rewrite Rmin_left in L by lra.
    assert (Fq : is_finite (Bdiv mode_NE x y) = true).
    { apply (finite_level prec emax); auto. rewrite L. lra. }
    unfold FloatProofs.level in L. rewrite Fq in L. splits; auto; try lra; [congruence|].
    intros E. rewrite L, E. unfold Rdiv. rewrite Rmult_0_l. apply rnd_0.
Qed.

Lemma one_ok : is_finite one = true /\ B2R one = 1 /\ Bsign one = false.
Proof. split; [apply is_finite_Bone|]. split; [apply Bone_correct|]. apply Bsign_Bone. Qed.

Lemma difference_1 x y : is_finite x = true -> is_finite y = true -> Rabs (B2R x - B2R y) <= 1 ->
  is_finite (Bminus mode_NE x y) = true /\ B2R (Bminus mode_NE x y) = rnd (B2R x - B2R y) /\ -1 <= B2R (Bminus mode_NE x y) <= 1.
Proof using Hprec Hemax.
  intros Fx Fy H. apply Rabs_le_inv in H. pose proof (Bminus_correct prec emax Hp Hm mode_NE x y Fx Fy) as C. cbn [round_mode] in C.
  assert (R1 : -1 <= rnd (B2R x - B2R y) <= 1).
  { split; [|apply rnd_1; lra]. apply rnd_ge_fmt; auto; [|lra]. apply generic_format_opp, fmt_1. }
  assert (L : Rabs (rnd (B2R x - B2R y)) < top) by (apply Rle_lt_trans with 1; [apply Rabs_le; exact R1|apply top_large]).
  rewrite Rlt_bool_true in C by exact L.
  destruct C as (E & F & _). splits; auto; rewrite E; apply R1.
Qed.

(** What the last loop of [silhouette] computes from the two means. *)
Definition score (coh sep : number) : number :=
  if Bltb coh sep then Bminus mode_NE one (Bdiv mode_NE coh sep)
  else if Bltb sep coh then Bminus mode_NE (Bdiv mode_NE sep coh) one
  else B754_zero false.

Lemma score_range coh sep : good coh -> good sep -> is_finite (score coh sep) = true /\ -1 <= B2R (score coh sep) <= 1.
Proof using Hprec Hemax.
  intros Gc Gs. unfold score. destruct one_ok as (F1 & V1 & _). rewrite !(lt_level prec emax) by auto.
  destruct (Rlt_bool_spec (level coh) (level sep)) as [H|H].
  - destruct (quotient_ok coh sep Gc Gs H) as (F & R & _). destruct (difference_1 one _ F1 F) as (G & _ & R'); auto.
    rewrite V1. apply Rabs_le. lra.
  - destruct (Rlt_bool_spec (level sep) (level coh)) as [H'|H'].
    + destruct (quotient_ok sep coh Gs Gc H') as (F & R & _). destruct (difference_1 _ one F F1) as (G & _ & R'); auto.
      rewrite V1. apply Rabs_le. lra.
    + cbn. split; auto. lra.
Qed.

Lemma one_minus_zero z : is_finite z = true -> B2R z = 0 -> Bminus mode_NE one z = one.
Proof using Hprec Hemax.
  intros Fz Vz. destruct one_ok as (F1 & V1 & S1). pose proof (Bminus_correct prec emax Hp Hm mode_NE one z F1 Fz) as C. cbn [round_mode] in C.
  rewrite V1, Vz, Rminus_0_r in C. assert (R1 : rnd 1 = 1) by apply rnd_id, fmt_1. pose proof top_large as T.
  assert (L : Rabs (rnd 1) < top) by (rewrite R1, Rabs_R1; exact T).
  rewrite Rlt_bool_true in C by exact L. destruct C as (E & F & S). apply B2R_Bsign_inj; auto.
  - rewrite V1, <- R1. exact E.
  - rewrite S, S1. destruct (Rcompare_spec 1 0); auto; lra.
Qed.

(** Nothing of its own cluster: 1, or 0 when another cluster is at distance 0. *)
Lemma score_alone sep : good sep -> score (B754_zero false) sep = if Bltb (B754_zero false) sep then one else B754_zero false.
Proof using Hprec Hemax.
  intros G. unfold score. assert (G0 : good (B754_zero false)) by reflexivity.
  pose proof (level_range prec emax sep G) as R. rewrite !(lt_level prec emax) by auto. change (level (B754_zero false)) with 0.
  destruct (Rlt_bool_spec 0 (level sep)) as [H|H].
  - destruct (quotient_ok (B754_zero false) sep G0 G H) as (F & _ & _ & _ & Z). apply one_minus_zero; auto.
  - rewrite Rlt_bool_false by lra. reflexivity.
Qed.

(** No other cluster: 1, or 0 when the mean has overflowed. *)
Lemma score_infinite coh : good coh -> score coh (B754_infinity false) = if is_finite coh then one else B754_zero false.
Proof using Hprec Hemax.
  intros G. assert (Gi : good (B754_infinity false)) by reflexivity. unfold score.
  destruct (good_inv prec emax coh G) as [->|(F & S & V)]; [reflexivity|]. rewrite F.
  assert (H : level coh < level (B754_infinity false)).
  { unfold FloatProofs.level. rewrite F. cbn [is_finite]. pose proof (finite_below prec emax coh F) as B. rewrite Rabs_pos_eq in B by auto. exact B. }
  rewrite (lt_level prec emax) by auto. rewrite Rlt_bool_true by exact H.
  destruct (quotient_ok coh _ G Gi H) as (Fq & _ & _ & Z & _). apply one_minus_zero; auto.
Qed.

(** ** Sums and means *)
Notation E := (binary_element prec emax Hp Hm).
Notation add := (Bplus (prec := prec) (emax := emax) (prec_gt_0_ := Hp) (prec_lt_emax_ := Hm) mode_NE).

Lemma sum_good (l : list number) : forall a, good a -> (forall x, In x l -> good x) -> good (fold_left add l a).
Proof using Hprec Hemax.
  induction l as [|x l IH]; intros a Ha Hl; cbn [fold_left]; auto. apply IH; [|intros y Hy; apply Hl; now right].
  apply plus_ok; auto. apply Hl. now left.
Qed.

Definition Rsum (l : list number) : R := fold_right Rplus 0 (map (fun x => level x) l).

Lemma Rsum_pos (l : list number) : (forall x, In x l -> good x) -> 0 <= Rsum l.
Proof.
  induction l as [|x l IH]; intros H; unfold Rsum in *; simpl; [lra|].
  pose proof (level_range prec emax x (H x (or_introl eq_refl))). specialize (IH (fun y Hy => H y (or_intror Hy))). lra.
Qed.

Lemma plus_upper x y : good x -> good y -> level (add x y) <= (1 + u) * (level x + level y).
Proof using Hprec Hemax.
  intros Gx Gy. destruct (plus_ok prec emax Hp Hm Hprec Hemax x y Gx Gy) as (_ & ->).
  apply Rle_trans with (1 := Rmin_l _ _). apply (rnd_sum prec emax); auto; try now apply fmt_level.
  pose proof (level_range prec emax x Gx). pose proof (level_range prec emax y Gy). lra.
Qed.

Lemma sum_upper (l : list number) : forall a, good a -> (forall x, In x l -> good x) ->
  level (fold_left add l a) <= (1 + u) ^ length l * (level a + Rsum l).
Proof using Hprec Hemax.
  pose proof (u_range prec Hprec) as U.
  induction l as [|x l IH]; intros a Ha Hl; cbn [fold_left].
  - unfold Rsum. simpl. lra.
  - assert (Gx : good x) by (apply Hl; now left). assert (Hl' : forall y, In y l -> good y) by (intros y Hy; apply Hl; now right).
    destruct (plus_ok prec emax Hp Hm Hprec Hemax a x Ha Gx) as (G & _). apply Rle_trans with (1 := IH _ G Hl').
    pose proof (plus_upper a x Ha Gx) as P. pose proof (Rsum_pos l Hl') as S0. cbn [length pow].
    change (Rsum (x :: l)) with (level x + Rsum l). pose proof (grow_pos prec Hprec (length l)) as W.
    rewrite (Rmult_comm (1 + u)), Rmult_assoc. apply Rmult_le_compat_l; [lra|]. nra.
Qed.

Lemma sum_lower (l : list number) : forall a, good a -> (forall x, In x l -> good x) -> level (fold_left add l a) < top ->
  (1 - u) ^ length l * (level a + Rsum l) <= level (fold_left add l a).
Proof using Hprec Hemax.
  pose proof (u_range prec Hprec) as U.
  induction l as [|x l IH]; intros a Ha Hl Ht; cbn [fold_left] in *.
  - unfold Rsum. simpl. lra.
  - assert (Gx : good x) by (apply Hl; now left). assert (Hl' : forall y, In y l -> good y) by (intros y Hy; apply Hl; now right).
    destruct (plus_ok prec emax Hp Hm Hprec Hemax a x Ha Gx) as (G & L). apply Rle_trans with (2 := IH _ G Hl' Ht).
    assert (Hax : level (add a x) < top).
    { apply Rnot_le_lt. intros C. assert (B : forall l b, good b -> (forall y, In y l -> good y) -> top <= level b -> top <= level (fold_left add l b)).
      { clear -Hprec Hemax Hp Hm. induction l as [|y l IH]; intros b Gb Hl Hb; cbn [fold_left]; auto.
        assert (Gy : good y) by (apply Hl; now left). destruct (plus_ok prec emax Hp Hm Hprec Hemax b y Gb Gy) as (G & L).
        apply IH; auto; [intros z Hz; apply Hl; now right|]. rewrite L. unfold cap. apply Rmin_glb; [|lra]. apply rnd_top; auto.
        pose proof (level_range prec emax y Gy). lra. }
      specialize (B l _ G Hl' C). lra. }
    destruct (below_top prec emax Hprec Hemax _ _ G L Hax) as (Ll & _).
    pose proof (level_range prec emax a Ha) as R1. pose proof (level_range prec emax x Gx) as R2.
    pose proof (rnd_sum prec emax Hp Hprec (level a) (level x) (fmt_level prec emax Hprec Hemax a Ha) (fmt_level prec emax Hprec Hemax x Gx) ltac:(lra)) as P.
    rewrite <- Ll in P. pose proof (Rsum_pos l Hl') as S0. cbn [length pow].
    change (Rsum (x :: l)) with (level x + Rsum l). pose proof (shrink_range prec Hprec (length l)) as W.
    rewrite (Rmult_comm (1 - u)), Rmult_assoc. apply Rmult_le_compat_l; [lra|]. nra.
Qed.

Lemma two_powers h : 2 <= (1 + u) ^ h + (1 - u) ^ h.
Proof using Hprec Hemax.
  pose proof (u_range prec Hprec) as U. induction h as [|h IH]; simpl; [lra|].
  pose proof (grow_pos prec Hprec h). pose proof (shrink_range prec Hprec h). nra.
Qed.

Notation grown h := ((1 + u) ^ h - 1).

Lemma grown_mono h h' : (h <= h')%nat -> 0 <= grown h <= grown h'.
Proof using Hprec. intros H. pose proof (grow_pos prec Hprec h). pose proof (grow_mono prec Hprec h h' H). lra. Qed.

Lemma mean_close (l : list number) : (forall x, In x l -> good x) -> l <> [] -> (Z.of_nat (length l) <= 2 ^ prec)%Z ->
  (1 + u) ^ length l * Rsum l < top ->
  let m := Bdiv mode_NE (fold_left add l (B754_zero false)) (count (length l)) in let a := Rsum l / INR (length l) in
  good m /\ is_finite m = true /\ Rabs (B2R m - a) <= grown (S (length l)) * a + e / 2.
Proof using Hprec Hemax.
  intros Hl Hne Hk Ht m a. pose proof (u_range prec Hprec) as U. pose proof (e_pos prec emax) as Ep.
  assert (G0 : good (B754_zero false)) by reflexivity. change (0%R) with (level (B754_zero false)) in *.
  set (s := fold_left add l (B754_zero false)) in *. assert (Gs : good s) by (apply sum_good; auto).
  pose proof (sum_upper l _ G0 Hl) as Hup. fold s in Hup. change (level (B754_zero false)) with 0 in *. rewrite Rplus_0_l in Hup.
  pose proof (Rsum_pos l Hl) as S0. set (S := Rsum l) in *. set (k := length l) in *.
  assert (Hk1 : (1 <= k)%nat) by (unfold k; destruct l; [congruence|simpl; lia]).
  assert (Hkr : 1 <= INR k) by (replace 1 with (INR 1) by reflexivity; apply le_INR; lia).
  assert (Hs : level s < top) by lra.
  assert (Fs : is_finite s = true) by (apply (finite_level prec emax); auto).
  pose proof (sum_lower l _ G0 Hl Hs) as Hlo. fold s k S in Hlo. change (level (B754_zero false)) with 0 in Hlo. rewrite Rplus_0_l in Hlo.
  assert (Lf : level s = B2R s) by (unfold FloatProofs.level; now rewrite Fs). rewrite Lf in *.
  assert (Hke : (Z.of_nat k <= 2 ^ (emax - 1))%Z) by (apply Z.le_trans with (1 := Hk); apply Z.pow_le_mono_r; lia).
  destruct (count_ok k Hk1 Hke) as (Fk & Sk & _ & Vk). pose proof (count_exact k Hk1 Hk) as Ek.
  destruct (div_ok s (count k) Gs Fk Sk ltac:(lra)) as (Gm & Lm & _). fold m in Gm, Lm. specialize (Lm Fs). rewrite Ek in Lm.
  set (r := B2R s / INR k) in *. pose proof (level_range prec emax s Gs) as Rs. rewrite Lf in Rs.
  assert (Ik : 0 < / INR k <= 1) by (split; [apply Rinv_0_lt_compat; lra|]; rewrite <- Rinv_1; apply Rinv_le; lra).
  assert (Hr0 : 0 <= r) by (unfold r, Rdiv; nra). assert (Hr1 : r <= B2R s) by (unfold r, Rdiv; nra).
  assert (Hrr : rnd r <= B2R s).
  { rewrite <- (rnd_id prec emin (B2R s)) by apply generic_format_B2R. apply rnd_le; auto. }
  unfold cap in Lm. rewrite Rmin_left in Lm by lra.
  assert (Fm : is_finite m = true) by (apply (finite_level prec emax); auto; rewrite Lm; lra).
  unfold FloatProofs.level in Lm. rewrite Fm in Lm. splits; auto.
  pose proof (rnd_any prec emax Hp Hprec r Hr0) as Ra. rewrite <- Lm in Ra.
  assert (A0 : 0 <= a) by (unfold a, Rdiv; nra).
  assert (A1 : r <= (1 + u) ^ k * a). { unfold r, a, Rdiv. rewrite <- Rmult_assoc. apply Rmult_le_compat_r; lra. }
  assert (A2 : (1 - u) ^ k * a <= r). { unfold r, a, Rdiv. rewrite <- Rmult_assoc. apply Rmult_le_compat_r; lra. }
  pose proof (two_powers (Datatypes.S k)) as T. cbn [pow] in *. apply Rabs_le. split.
  - assert ((1 - u) * ((1 - u) ^ k * a) <= (1 - u) * r) by (apply Rmult_le_compat_l; lra). nra.
  - assert ((1 + u) * r <= (1 + u) * ((1 + u) ^ k * a)) by (apply Rmult_le_compat_l; lra). nra.
Qed.

(** ** The value *)
Lemma rnd_unit r : -1 <= r <= 1 -> Rabs (rnd r - r) <= u + e / 2.
Proof using Hprec Hp.
  intros H. pose proof (u_range prec Hprec) as U.
  assert (P : forall r, 0 <= r <= 1 -> Rabs (rnd r - r) <= u + e / 2).
  { clear r H. intros r H. pose proof (rnd_any prec emax Hp Hprec r ltac:(lra)). apply Rabs_le. nra. }
  destruct (Rle_lt_dec 0 r) as [H0|H0]; [apply P; lra|].
  replace r with (- (- r)) by lra. rewrite round_NE_opp. replace (- rnd (- r) - - - r) with (- (rnd (- r) - - r)) by lra.
  rewrite Rabs_Ropp. apply P. lra.
Qed.

Lemma value_range A B : 0 <= A -> 0 <= B -> -1 <= true_value A B <= 1.
Proof.
  intros HA HB. unfold true_value. pose proof (Rmax_l A B) as M1. pose proof (Rmax_r A B) as M2. set (M := Rmax A B) in *.
  destruct (Req_dec M 0) as [E|E].
  - assert (A = 0) by lra. assert (B = 0) by lra. subst A B. unfold Rdiv. rewrite Rminus_0_r, Rmult_0_l. lra.
  - assert (HM : 0 < M) by lra. split.
    + apply Rmult_le_reg_r with M; auto. unfold Rdiv. rewrite Rmult_assoc, Rinv_l by lra. lra.
    + apply Rmult_le_reg_r with M; auto. unfold Rdiv. rewrite Rmult_assoc, Rinv_l by lra. lra.
Qed.

Lemma score_value coh sep : good coh -> good sep -> is_finite coh = true -> is_finite sep = true ->
  Rabs (B2R (score coh sep) - true_value (B2R coh) (B2R sep)) <= 2 * u + e.
Proof using Hprec Hemax.
  intros Gc Gs Fc Fs. pose proof (u_range prec Hprec) as U. pose proof (e_pos prec emax) as Ep.
  unfold score. destruct one_ok as (F1 & V1 & _). rewrite !(lt_level prec emax) by auto.
  pose proof (level_range prec emax coh Gc) as Rc. pose proof (level_range prec emax sep Gs) as Rs.
  assert (Lc : level coh = B2R coh) by (unfold FloatProofs.level; now rewrite Fc).
  assert (Ls : level sep = B2R sep) by (unfold FloatProofs.level; now rewrite Fs).
  destruct (Rlt_bool_spec (level coh) (level sep)) as [H|H].
  - destruct (quotient_ok coh sep Gc Gs H) as (F & R & E & _). specialize (E Fs). rewrite Lc, Ls in *.
    destruct (difference_1 one _ F1 F) as (_ & V & _); [rewrite V1; apply Rabs_le; lra|]. rewrite V, V1.
    unfold true_value. rewrite Rmax_right by lra. replace ((B2R sep - B2R coh) / B2R sep) with (1 - B2R coh / B2R sep) by (field; lra).
    assert (Q : 0 <= B2R coh / B2R sep <= 1).
    { split; [apply Rmult_le_pos; [lra|]; apply Rlt_le, Rinv_0_lt_compat; lra|].
      apply Rmult_le_reg_r with (B2R sep); [lra|]. unfold Rdiv. rewrite Rmult_assoc, Rinv_l by lra. lra. }
    pose proof (rnd_unit (B2R coh / B2R sep) ltac:(lra)) as E1. rewrite <- E in E1.
    assert (Q2 : -1 <= 1 - B2R (Bdiv mode_NE coh sep) <= 1) by lra. pose proof (rnd_unit _ Q2) as E2.
    apply Rabs_le_inv in E1, E2. apply Rabs_le. lra.
  - destruct (Rlt_bool_spec (level sep) (level coh)) as [H'|H'].
    + destruct (quotient_ok sep coh Gs Gc H') as (F & R & E & _). specialize (E Fc). rewrite Lc, Ls in *.
      destruct (difference_1 _ one F F1) as (_ & V & _); [rewrite V1; apply Rabs_le; lra|]. rewrite V, V1.
      unfold true_value. rewrite Rmax_left by lra. replace ((B2R sep - B2R coh) / B2R coh) with (B2R sep / B2R coh - 1) by (field; lra).
      assert (Q : 0 <= B2R sep / B2R coh <= 1).
      { split; [apply Rmult_le_pos; [lra|]; apply Rlt_le, Rinv_0_lt_compat; lra|].
        apply Rmult_le_reg_r with (B2R coh); [lra|]. unfold Rdiv. rewrite Rmult_assoc, Rinv_l by lra. lra. }
      pose proof (rnd_unit (B2R sep / B2R coh) ltac:(lra)) as E1. rewrite <- E in E1.
      assert (Q2 : -1 <= B2R (Bdiv mode_NE sep coh) - 1 <= 1) by lra. pose proof (rnd_unit _ Q2) as E2.
      apply Rabs_le_inv in E1, E2. apply Rabs_le. lra.
    + rewrite Lc, Ls in *. assert (EQ : B2R sep = B2R coh) by lra. unfold true_value. rewrite EQ.
      unfold Rdiv. replace (B2R coh - B2R coh) with 0 by lra. rewrite Rmult_0_l. cbn [B2R]. rewrite Rminus_0_r, Rabs_R0. lra.
Qed.

Lemma value_close A B a b t : 0 <= A -> 0 <= B -> 0 <= a -> 0 <= b -> 0 <= t -> 0 < Rmax a b ->
  Rabs (A - a) <= t * Rmax a b -> Rabs (B - b) <= t * Rmax a b -> Rabs (true_value A B - true_value a b) <= 3 * t.
Proof.
  intros HA HB Ha Hb Ht HM H1 H2. pose proof (value_range A B HA HB) as R1. pose proof (value_range a b Ha Hb) as R2.
  destruct (Rle_lt_dec 1 t) as [T|T]; [apply Rabs_le; lra|].
  unfold true_value in *. set (M := Rmax a b) in *. set (M' := Rmax A B) in *.
  apply Rabs_le_inv in H1, H2.
  assert (D : - (t * M) <= M' - M <= t * M).
  { unfold M, M', Rmax in *. destruct (Rle_dec a b), (Rle_dec A B); lra. }
  assert (HM' : 0 < M') by nra.
  replace ((B - A) / M' - (b - a) / M) with (((B - A) / M' * (M - M') + ((B - A) - (b - a))) / M) by (field; lra).
  assert (P1 : - (t * M) <= (B - A) / M' * (M - M') <= t * M).
  { set (q := (B - A) / M') in *. apply Rabs_le_inv. rewrite Rabs_mult. rewrite <- (Rmult_1_l (t * M)).
    apply Rmult_le_compat; try apply Rabs_pos; apply Rabs_le; lra. }
  apply Rabs_le. split.
  - apply Rmult_le_reg_r with M; auto. unfold Rdiv. rewrite Rmult_assoc, Rinv_l by lra. lra.
  - apply Rmult_le_reg_r with M; auto. unfold Rdiv. rewrite Rmult_assoc, Rinv_l by lra. lra.
Qed.

Lemma e_small : e <= u / 4.
Proof using Hprec Hemax.
  unfold tiny, roundoff. replace (bpow radix2 (- prec) / 4) with (bpow radix2 (- prec - 2)).
  - apply bpow_le. lia.
  - unfold Zminus. rewrite bpow_plus. simpl. lra.
Qed.

(** ** The average *)
(** One more than 2 to the [prec] rounds to 2 to the [prec]. *)
Lemma rnd_step : rnd (bpow radix2 prec + 1) = bpow radix2 prec.
Proof using Hp Hm Hprec Hemax.
  assert (Hb : 4 <= bpow radix2 prec) by (change 4 with (bpow radix2 2); apply bpow_le; lia).
  assert (Hmag : mag radix2 (bpow radix2 prec + 1) = (prec + 1)%Z :> Z).
  { apply mag_unique_pos. replace (prec + 1 - 1)%Z with prec by lia. split; [lra|]. rewrite bpow_plus. simpl (bpow radix2 1). lra. }
  assert (Hc : cexp radix2 fexp (bpow radix2 prec + 1) = 1%Z).
  { unfold cexp. rewrite Hmag. unfold FLT_exp. lia. }
  assert (Hq : bpow radix2 prec = 2 * bpow radix2 (prec - 1)).
  { replace prec with (1 + (prec - 1))%Z at 1 by lia. rewrite bpow_plus. simpl (bpow radix2 1). lra. }
  unfold round, scaled_mantissa. rewrite Hc.
  assert (Em : (bpow radix2 prec + 1) * bpow radix2 (Z.opp 1) = IZR (2 ^ (prec - 1)) + / 2).
  { rewrite pow_Z by lia. rewrite Hq. simpl (bpow radix2 (Z.opp 1)). lra. }
  rewrite Em. assert (Ef : Zfloor (IZR (2 ^ (prec - 1)) + / 2) = (2 ^ (prec - 1))%Z).
  { apply Zfloor_imp. rewrite plus_IZR. lra. }
  unfold Znearest. rewrite Ef. replace (IZR (2 ^ (prec - 1)) + / 2 - IZR (2 ^ (prec - 1))) with (/ 2) by lra. rewrite Rcompare_Eq by reflexivity.
  assert (Ev : Z.even (2 ^ (prec - 1)) = true).
  { replace (prec - 1)%Z with (1 + (prec - 2))%Z by lia. rewrite Z.pow_add_r by lia. apply Z.even_mul. }
  rewrite Ev. cbn [negb]. unfold F2R. cbn [Fnum Fexp]. rewrite pow_Z by lia. rewrite Hq. simpl (bpow radix2 1). lra.
Qed.

Notation limit k := (Rmin (INR k) (bpow radix2 prec)).

Lemma fmt_limit k : fmt (limit k).
Proof using Hp Hm Hprec Hemax.
  unfold Rmin. destruct (Rle_dec (INR k) (bpow radix2 prec)) as [H|H]; [|apply fmt_bpow; auto; lia].
  destruct (Nat.eq_dec k 0) as [->|Hk]; [apply generic_format_0|].
  rewrite <- (count_exact k); [|lia|].
  - apply (generic_format_B2R prec emax).
  - apply le_IZR. rewrite <- INR_Z, pow_Z by lia. exact H.
Qed.

Lemma rnd_abs_le r m : fmt m -> Rabs r <= m -> Rabs (rnd r) <= m.
Proof using Hp Hm Hprec Hemax. intros F H. apply abs_round_le_generic; auto with typeclass_instances. Qed.

Lemma limit_step k r : Rabs r <= limit k + 1 -> Rabs (rnd r) <= limit (S k).
Proof using Hp Hm Hprec Hemax.
  intros H. destruct (Rle_lt_dec (INR (S k)) (bpow radix2 prec)) as [L|L].
  - apply rnd_abs_le; [apply fmt_limit|]. rewrite Rmin_left by auto. apply Rle_trans with (1 := H). rewrite S_INR. apply Rplus_le_compat_r, Rmin_l.
  - rewrite Rmin_right by lra. rewrite <- rnd_step. assert (Hr : Rabs r <= bpow radix2 prec + 1) by (pose proof (Rmin_r (INR k) (bpow radix2 prec)); lra).
    rewrite <- round_NE_abs by (apply FLT_exp_valid; exact Hp). now apply rnd_le.
Qed.

Lemma unit_sum (l : list number) : forall a k, is_finite a = true -> Rabs (B2R a) <= limit k ->
  (forall x, In x l -> is_finite x = true /\ -1 <= B2R x <= 1) ->
  is_finite (fold_left add l a) = true /\ Rabs (B2R (fold_left add l a)) <= limit (k + length l).
Proof using Hp Hm Hprec Hemax.
  induction l as [|x l IH]; intros a k Fa Ha Hl; cbn [fold_left length]; [rewrite Nat.add_0_r; auto|].
  destruct (Hl x (or_introl eq_refl)) as (Fx & Rx). pose proof (Bplus_correct prec emax Hp Hm mode_NE a x Fa Fx) as C. cbn [round_mode] in C.
  assert (Hs : Rabs (rnd (B2R a + B2R x)) <= limit (S k)).
  { apply limit_step. apply Rle_trans with (1 := Rabs_triang _ _). apply Rplus_le_compat; auto. apply Rabs_le. lra. }
  assert (L : Rabs (rnd (B2R a + B2R x)) < top).
  { apply Rle_lt_trans with (1 := Hs). apply Rle_lt_trans with (1 := Rmin_r _ _). apply bpow_lt. lia. }
  rewrite Rlt_bool_true in C by exact L. destruct C as (E & F & _).
  replace (k + S (length l))%nat with (S k + length l)%nat by lia. apply IH; auto; [rewrite E; exact Hs|]. intros y Hy. apply Hl. now right.
Qed.

Lemma average_range (l : list number) : l <> [] -> (Z.of_nat (length l) <= 2 ^ (emax - 1))%Z ->
  (forall x, In x l -> is_finite x = true /\ -1 <= B2R x <= 1) ->
  let m := Bdiv mode_NE (fold_left add l (B754_zero false)) (count (length l)) in is_finite m = true /\ -1 <= B2R m <= 1.
Proof using Hp Hm Hprec Hemax.
  intros Hne Hk Hl m. assert (H1 : (1 <= length l)%nat) by (destruct l; [congruence|simpl; lia]).
  destruct (count_ok (length l) H1 Hk) as (Fc & _ & Vc & Pc).
  destruct (unit_sum l (B754_zero false) 0) as (Fs & Rs); auto.
  { cbn [B2R]. rewrite Rabs_R0. apply Rmin_glb; [simpl; lra|apply bpow_ge_0]. }
  cbn [Nat.add] in Rs. assert (Hc : limit (length l) <= B2R (count (length l))).
  { rewrite Vc. apply rnd_ge_fmt; auto; [apply fmt_limit|apply Rmin_l]. }
  pose proof (Bdiv_correct prec emax Hp Hm mode_NE (fold_left add l (B754_zero false)) (count (length l)) ltac:(lra)) as C. cbn [round_mode] in C.
  assert (Hq : Rabs (rnd (B2R (fold_left add l (B754_zero false)) / B2R (count (length l)))) <= 1).
  { apply rnd_abs_le; [apply fmt_1|]. unfold Rdiv. rewrite Rabs_mult, Rabs_inv, (Rabs_pos_eq (B2R (count _))) by lra.
    apply Rmult_le_reg_r with (B2R (count (length l))); [lra|]. rewrite Rmult_assoc, Rinv_l by lra. lra. }
  assert (L : Rabs (rnd (B2R (fold_left add l (B754_zero false)) / B2R (count (length l)))) < top) by (pose proof top_large; lra).
  rewrite Rlt_bool_true in C by exact L. destruct C as (E & F & _). unfold m. rewrite F, E. split; auto. apply Rabs_le_inv. exact Hq.
Qed.

(** ** The function *)
Lemma cluster_size (labels : list nat) (c : nat) : (length (cluster labels c) <= length labels)%nat.
Proof.
  unfold cluster. rewrite <- (seq_length (length labels) 0) at 2. generalize (seq 0 (length labels)) as l. clear.
  induction l as [|x l IH]; simpl; auto. destruct (_ =? c)%nat; simpl; lia.
Qed.

Section Data.
Context (dist : list number -> list number -> number).
Context (samples : list number) (nf n : nat) (labels : list nat) (Hnf : (nf <> 0)%nat) (Hs : (length samples = n * nf)%nat)
  (Hlab : length labels = n) (Hn : (0 < n)%nat).
Context (Hd : forall i j, (i < n)%nat -> (j < n)%nat -> good (dist (row samples nf i) (row samples nf j))).
Context (Hmax : (Z.of_nat n <= 2 ^ (emax - 1))%Z).
Notation d i j := (dist (row samples nf i) (row samples nf j)).
Notation lab i := (nth i labels 0%nat).
Notation mean_of i l := (Bdiv mode_NE (fold_left add (map (fun j => d i j) l) (B754_zero false)) (count (length l))).

Definition own (i : nat) : number :=
  if (length (fellows labels i) =? 0)%nat then B754_zero false else mean_of i (fellows labels i).
Definition other (i c : nat) : number :=
  if ((length (cluster labels c) =? 0) || (c =? lab i))%nat then B754_infinity false else mean_of i (cluster labels c).

Lemma cluster_in c j : In j (cluster labels c) <-> (j < n)%nat /\ lab j = c.
Proof using Hlab. apply (in_cluster n labels Hlab). Qed.

Lemma fellows_in i j : In j (fellows labels i) -> (j < n)%nat.
Proof using Hlab. unfold fellows. rewrite filter_In, cluster_in. tauto. Qed.

Lemma size_le c : (length (cluster labels c) <= n)%nat.
Proof using Hlab. rewrite <- Hlab. apply cluster_size. Qed.

Lemma mean_good i l : (i < n)%nat -> (forall j, In j l -> (j < n)%nat) -> (1 <= length l <= n)%nat -> good (mean_of i l).
Proof using Hprec Hemax Hnf Hs Hlab Hn Hd Hmax.
  intros Hi Hl HL. destruct (count_ok (length l)) as (F & S & _ & V); [lia|lia|]. apply div_ok; auto; [|lra].
  apply sum_good; [reflexivity|]. intros x Hx. apply in_map_iff in Hx. destruct Hx as (j & <- & Hj). auto.
Qed.

Lemma own_good i : (i < n)%nat -> good (own i).
Proof using Hprec Hemax Hnf Hs Hlab Hn Hd Hmax.
  intros Hi. unfold own. destruct (Nat.eqb_spec (length (fellows labels i)) 0); [reflexivity|]. apply mean_good; auto.
  - intros j. apply fellows_in.
  - pose proof (fellows_length n labels Hlab i Hi). pose proof (size_le (lab i)). lia.
Qed.

Lemma other_good i c : (i < n)%nat -> good (other i c).
Proof using Hprec Hemax Hnf Hs Hlab Hn Hd Hmax.
  intros Hi. unfold other. destruct (Nat.eqb_spec (length (cluster labels c)) 0); [reflexivity|]. destruct (c =? lab i)%nat; [reflexivity|].
  cbn [orb]. apply mean_good; auto.
  - intros j Hj. now apply cluster_in in Hj.
  - pose proof (size_le c). lia.
Qed.

Lemma float_cohesion : exists v, cohesion E dist samples nf labels = Ok v /\ length v = n /\
  forall i, (i < n)%nat -> exists x, nth_error v i = Some x /\ x = own i.
Proof using Hprec Hemax Hnf Hs Hlab Hn.
  destruct (cohesion_ok E dist samples nf n labels Hnf Hs Hlab Hn) as (_ & _ & H). apply H. clear H. intros i Hi.
  rewrite (fellows_length n labels Hlab) by auto. replace (S (length (fellows labels i)) - 1)%nat with (length (fellows labels i)) by lia.
  unfold own, summed. cbn [el el_div el_add el_zero el_nat binary_element].
  destruct (fellows labels i) as [|j l] eqn:Ef; cbn [length Nat.eqb].
  - eexists; split; reflexivity.
  - destruct (Nat.ltb_spec 1 (S (S (length l)))); [|lia]. eexists; split; reflexivity.
Qed.

Lemma float_order1 x y : good x -> good y -> Bltb x y = true -> Bltb y x = false.
Proof using Hprec Hemax. intros Gx Gy. rewrite !(lt_level prec emax) by auto. destruct (Rlt_bool_spec (level x) (level y)); [|discriminate]. intros _. apply Rlt_bool_false. lra. Qed.
Lemma float_order2 x y z : good x -> good y -> good z -> Bltb y x = false -> Bltb z y = false -> Bltb z x = false.
Proof using Hprec Hemax.
  intros Gx Gy Gz. rewrite !(lt_level prec emax) by auto.
  destruct (Rlt_bool_spec (level y) (level x)), (Rlt_bool_spec (level z) (level y)); try discriminate. intros _ _. apply Rlt_bool_false. lra.
Qed.

Lemma float_separation : exists v, separation E dist samples nf labels = Ok v /\ length v = n /\
  forall i, (i < n)%nat -> exists x, nth_error v i = Some x /\ (exists c, x = other i c) /\ forall c, level x <= level (other i c).
Proof using Hprec Hemax Hnf Hs Hlab Hn Hd Hmax.
  set (h := fun i c => match mean_to E dist samples nf labels i c with Ok x => x | _ => B754_zero false end).
  apply (separation_ok E dist samples nf n labels Hnf Hs Hlab h); auto.
  - intros i c Hi Hc. unfold h, mean_to. destruct (_ =? 0)%nat; reflexivity.
  - intros i l Hi (Hl & Hr). change (@length number l = 1 + fold_left Nat.max labels 0)%nat in Hl. set (m := (1 + fold_left Nat.max labels 0)%nat) in *.
    assert (Hent : forall c, (c < m)%nat -> nth_error l c = Some (other i c)).
    { intros c Hc. rewrite Hr by auto. f_equal. unfold other, h, mean_to, sum_to, summed. cbn [el el_inf el_div el_add el_zero el_nat binary_element].
      destruct (Nat.eqb_spec c (lab i)) as [->|Hne]; [now rewrite orb_true_r|]. rewrite orb_false_r.
      destruct (length (cluster labels c) =? 0)%nat; auto. destruct (Nat.eqb_spec (lab i) c); [congruence|]. reflexivity. }
    assert (Hg : forall y, In y l -> good y /\ exists c, y = other i c).
    { intros y Hy. apply In_nth_error in Hy. destruct Hy as (c & Ec). assert (Hc : (c < @length number l)%nat) by exact (nth_error_lt _ _ _ Ec).
      rewrite Hl in Hc. rewrite Hent in Ec by exact Hc.
      injection Ec as <-. split; [now apply other_good|eauto]. }
    assert (Hb : forall c, (m <= c)%nat -> other i c = B754_infinity false).
    { intros c Hc. unfold other. destruct (cluster labels c) as [|j l'] eqn:Ecl; [reflexivity|]. exfalso.
      assert (Hj : In j (cluster labels c)) by (rewrite Ecl; now left). apply cluster_in in Hj. destruct Hj as (Hj & <-).
      assert (lab j <= fold_left Nat.max labels 0)%nat by (apply (proj2 (max_bound labels 0%nat)), nth_In; lia). unfold m in Hc. lia. }
    destruct l as [|x l]; [simpl in Hl; lia|].
    destruct (min_fold Bltb good float_order1 float_order2 l x) as (I1 & I2); [apply Hg; now left|intros; apply Hg; now right|].
    cbn [min_element]. eexists; split; [reflexivity|]. cbn [el el_lt binary_element]. cbv zeta in I1, I2.
    set (mn := fold_left (fun m y : number => if Bltb y m then y else m) l x) in *. destruct (Hg mn I1) as (Gm & Hc). split; [exact Hc|]. intros c.
    destruct (le_lt_dec m c) as [H|H].
    + rewrite Hb by auto. change (level (B754_infinity false)) with top. apply level_range. exact Gm.
    + assert (Hin : In (other i c) (x :: l)) by (apply (nth_error_In _ c), Hent; auto). specialize (I2 _ Hin).
      rewrite (lt_level prec emax) in I2 by (auto; now apply other_good). destruct (Rlt_bool_spec (level (other i c)) (level mn)); [discriminate|auto].
Qed.

Lemma float_values : exists v, silhouette E dist samples nf labels = Ok v /\ length v = n /\
  forall i, (i < n)%nat -> exists x, nth_error v i = Some x /\ exists sep, x = score (own i) sep /\ good sep /\ (exists c, sep = other i c) /\
    forall c, level sep <= level (other i c).
Proof using Hprec Hemax Hnf Hs Hlab Hn Hd Hmax.
  unfold silhouette. rewrite (get_n samples nf n Hnf Hs).
  destruct float_cohesion as (cs & -> & Hc1 & Hc2). destruct float_separation as (ss & -> & Hs1 & Hs2). cbn [bind].
  apply fill_inv. intros i Hi. destruct (Hc2 i Hi) as (x & Ex & ->). destruct (Hs2 i Hi) as (y & Ey & Hy).
  rewrite (proj2 (rd_ok cs i _) Ex), (proj2 (rd_ok ss i _) Ey). cbn [bind]. cbn [el el_lt el_div el_sub el_one el_zero binary_element bind].
  exists (score (own i) y). split; [unfold score; destruct (Bltb (own i) y); [reflexivity|]; destruct (Bltb y (own i)); reflexivity|].
  exists y. split; auto. split; auto. destruct Hy as ((c & ->) & _). now apply other_good.
Qed.

(** *** A mean of zero *)
Lemma add_ge x y : good x -> good y -> level x <= level (add x y) /\ level y <= level (add x y).
Proof using Hprec Hemax.
  intros Gx Gy. destruct (plus_ok prec emax Hp Hm Hprec Hemax x y Gx Gy) as (_ & ->).
  pose proof (level_range prec emax x Gx) as Rx. pose proof (level_range prec emax y Gy) as Ry. unfold cap.
  split; apply Rmin_glb; try lra; apply rnd_ge_fmt; auto; try apply fmt_level; auto; lra.
Qed.

Lemma sum_ge (l : list number) : forall a, good a -> (forall x, In x l -> good x) ->
  level a <= level (fold_left add l a) /\ forall x, In x l -> level x <= level (fold_left add l a).
Proof using Hprec Hemax.
  induction l as [|y l IH]; intros a Ha Hl; cbn [fold_left]; [split; [lra|intros x []]|].
  assert (Gy : good y) by (apply Hl; now left). destruct (add_ge a y Ha Gy) as (L1 & L2).
  destruct (IH (add a y)) as (I1 & I2); [now apply plus_ok|intros x Hx; apply Hl; now right|].
  split; [lra|]. intros x [<-|Hx]; [lra|auto].
Qed.

Lemma mean_zero i l j : (i < n)%nat -> (forall j, In j l -> (j < n)%nat) -> (1 <= length l <= n)%nat -> In j l ->
  level (mean_of i l) = 0 -> is_finite (d i j) = true /\ B2R (d i j) < 2 * INR n * e.
Proof using Hprec Hemax Hnf Hs Hlab Hn Hd Hmax.
  intros Hi Hl HL Hj Hz. destruct (count_ok (length l)) as (Fc & Sc & Vc & Pc); [lia|lia|].
  pose proof (u_range prec Hprec) as U. pose proof (e_pos prec emax) as Ep. pose proof e_small as Es. pose proof top_large as Tp.
  assert (Hgood : forall x, In x (map (fun j => d i j) l) -> good x) by (intros x Hx; apply in_map_iff in Hx; destruct Hx as (k & <- & Hk); auto).
  set (S := fold_left add (map (fun j => d i j) l) (B754_zero false)) in *.
  assert (GS : good S) by (apply sum_good; auto; reflexivity).
  destruct (div_ok S (count (length l)) GS Fc Sc ltac:(lra)) as (_ & L & I).
  destruct (is_finite S) eqn:FS; [|rewrite I in Hz by auto; change (level (B754_infinity false)) with top in Hz; lra].
  rewrite (L eq_refl) in Hz. unfold cap in Hz.
  assert (Hr : rnd (B2R S / B2R (count (length l))) <= 0).
  { destruct (Rle_lt_dec (rnd (B2R S / B2R (count (length l)))) top) as [H|H].
    - rewrite Rmin_left in Hz by auto. lra.
    - rewrite Rmin_right in Hz by lra. lra. }
  assert (Hq : B2R S / B2R (count (length l)) < e).
  { destruct (Rlt_le_dec (B2R S / B2R (count (length l))) e) as [H|H]; auto. exfalso.
    assert (e <= rnd (B2R S / B2R (count (length l)))); [|lra]. apply rnd_ge_fmt; auto. unfold tiny. apply fmt_bpow; auto; lia. }
  assert (Hc : B2R (count (length l)) <= 2 * INR n).
  { rewrite Vc. assert (H1 : 1 <= INR (length l)) by (replace 1 with (INR 1) by reflexivity; apply le_INR; lia).
    assert (INR (length l) <= INR n) by (apply le_INR; lia). pose proof (rnd_any prec emax Hp Hprec (INR (length l)) ltac:(lra)). nra. }
  assert (HS : B2R S < e * B2R (count (length l))).
  { apply Rmult_lt_reg_r with (/ B2R (count (length l))); [apply Rinv_0_lt_compat; lra|]. rewrite Rmult_assoc, Rinv_r by lra. lra. }
  destruct (sum_ge (map (fun j => d i j) l) (B754_zero false)) as (_ & Hge); auto; [reflexivity|]. fold S in Hge.
  assert (HDj : In (d i j) (map (fun j => d i j) l)) by (apply in_map_iff; exists j; auto). specialize (Hge _ HDj).
  destruct (level_finite prec emax S FS) as (LS & ES). destruct (good_inv prec emax (d i j) (Hgood _ HDj)) as [E|(F & _)].
  { rewrite E in Hge. change (level (B754_infinity false)) with top in Hge. lra. }
  split; auto. destruct (level_finite prec emax (d i j) F) as (_ & Ej). rewrite <- Ej. apply Rle_lt_trans with (1 := Hge). rewrite ES. nra.
Qed.

(** *** Error of a value *)
Notation f i := (fun j => B2R (d i j)).

Lemma level_is x : is_finite x = true -> level x = B2R x.
Proof using. intros F. unfold FloatProofs.level. now rewrite F. Qed.

Lemma total_part i (p : nat -> bool) (l : list nat) : (i < n)%nat -> (forall j, In j l -> (j < n)%nat) ->
  0 <= fold_right Rplus 0 (map (f i) (filter p l)) <= fold_right Rplus 0 (map (f i) l).
Proof using Hprec Hemax Hnf Hs Hlab Hn Hd Hmax.
  intros Hi. induction l as [|j l IH]; intros Hl; simpl; [lra|]. specialize (IH (fun k Hk => Hl k (or_intror Hk))).
  assert (0 <= B2R (d i j)).
  { pose proof (Hd i j Hi (Hl j (or_introl eq_refl))) as G. destruct (good_inv prec emax _ G) as [->|(_ & _ & V)]; [simpl; lra|exact V]. }
  destruct (p j); simpl; lra.
Qed.

Lemma part_mean i (l : list nat) : (i < n)%nat -> (forall j, In j l -> (j < n)%nat) -> (forall j, (j < n)%nat -> is_finite (d i j) = true) ->
  l <> [] -> (length l <= n)%nat -> (Z.of_nat n <= 2 ^ prec)%Z ->
  fold_right Rplus 0 (map (f i) l) <= fold_right Rplus 0 (map (f i) (seq 0 n)) ->
  (1 + u) ^ n * fold_right Rplus 0 (map (f i) (seq 0 n)) < top ->
  is_finite (mean_of i l) = true /\ 0 <= true_mean (f i) l /\
  Rabs (B2R (mean_of i l) - true_mean (f i) l) <= grown (S n) * true_mean (f i) l + e / 2.
Proof using Hprec Hemax Hnf Hs Hlab Hn Hd Hmax.
  intros Hi Hl Hfin Hne Hlen Hk Hpart Htop. pose proof (u_range prec Hprec) as U.
  assert (Hgood : forall x, In x (map (fun j => d i j) l) -> good x) by (intros x Hx; apply in_map_iff in Hx; destruct Hx as (j & <- & Hj); auto).
  assert (Es : Rsum (map (fun j => d i j) l) = fold_right Rplus 0 (map (f i) l)).
  { unfold Rsum. rewrite map_map. f_equal. apply map_ext_in. intros j Hj. apply level_is. auto. }
  assert (Hpos : 0 <= fold_right Rplus 0 (map (f i) l)) by (rewrite <- Es; now apply Rsum_pos).
  assert (Hg : 1 <= (1 + u) ^ length l <= (1 + u) ^ n).
  { split; [apply pow_R1_Rle; lra|apply Rle_pow; [lra|auto]]. }
  destruct (mean_close (map (fun j => d i j) l)) as (_ & F & C); auto.
  - destruct l; [congruence|discriminate].
  - rewrite map_length. lia.
  - rewrite map_length, Es. apply Rle_lt_trans with (2 := Htop). apply Rmult_le_compat; lra.
  - rewrite map_length, Es in C. rewrite map_length in F. split; [exact F|]. fold (true_mean (f i) l) in C.
    change (fold_right Rplus 0 (map (f i) l) / INR (length l)) with (true_mean (f i) l) in C.
    assert (Hm0 : 0 <= true_mean (f i) l).
    { unfold true_mean. apply Rmult_le_pos; auto. apply Rlt_le, Rinv_0_lt_compat, lt_0_INR. destruct l; [congruence|simpl; lia]. }
    split; auto. apply Rle_trans with (1 := C).
    pose proof (grown_mono (S (length l)) (S n) ltac:(lia)) as M. apply Rplus_le_compat_r, Rmult_le_compat_r; lra.
Qed.

Lemma value_accurate i b sep : (i < n)%nat -> (Z.of_nat n <= 2 ^ prec)%Z ->
  (forall j, (j < n)%nat -> is_finite (d i j) = true) ->
  (1 + u) ^ n * fold_right Rplus 0 (map (f i) (seq 0 n)) < top ->
  true_least_mean labels (f i) i b -> 0 < Rmax (true_mean (f i) (fellows labels i)) b ->
  e <= u * Rmax (true_mean (f i) (fellows labels i)) b ->
  (exists c, sep = other i c) -> (forall c, level sep <= level (other i c)) ->
  Rabs (B2R (score (own i) sep) - true_value (true_mean (f i) (fellows labels i)) b) <= 3 * grown (S n) + 4 * u.
Proof using Hprec Hemax Hnf Hs Hlab Hn Hd Hmax.
  intros Hi Hk Hfin Htop ((c0 & Hc0 & Hne0 & Eb) & Hleast) HM He (c & Ec) Hle.
  pose proof (u_range prec Hprec) as U. pose proof (e_pos prec emax) as Ep. pose proof e_small as Es. pose proof (grown_mono 0 (S n) ltac:(lia)) as G0.
  set (a := true_mean (f i) (fellows labels i)) in *. set (M := Rmax a b) in *. set (g := grown (S n)) in *.
  assert (Hseq : forall j, In j (seq 0 n) -> (j < n)%nat) by (intros j Hj; apply in_seq in Hj; lia).
  assert (Hother : forall c, c <> lab i -> cluster labels c <> [] -> other i c = mean_of i (cluster labels c) /\
    is_finite (other i c) = true /\ 0 <= true_mean (f i) (cluster labels c) /\
    Rabs (B2R (other i c) - true_mean (f i) (cluster labels c)) <= g * true_mean (f i) (cluster labels c) + e / 2).
  { intros c1 H1 H2. assert (E1 : other i c1 = mean_of i (cluster labels c1)).
    { unfold other. destruct (Nat.eqb_spec (length (cluster labels c1)) 0) as [E|_]; [destruct (cluster labels c1); [congruence|discriminate]|].
      destruct (Nat.eqb_spec c1 (lab i)); [congruence|reflexivity]. }
    split; auto. rewrite E1. apply part_mean; auto.
    - intros j Hj. now apply cluster_in in Hj.
    - apply size_le.
    - unfold cluster. rewrite Hlab. apply total_part; auto. }
  assert (Ha : 0 <= a /\ is_finite (own i) = true /\ Rabs (B2R (own i) - a) <= g * a + e / 2).
  { unfold own. destruct (Nat.eqb_spec (length (fellows labels i)) 0) as [E|E].
    - assert (a = 0). { unfold a, true_mean. destruct (fellows labels i); [|discriminate]. simpl. unfold Rdiv. apply Rmult_0_l. }
      cbn [B2R is_finite]. split; [lra|]. split; auto. rewrite H. rewrite Rminus_0_r, Rabs_R0. lra.
    - destruct (part_mean i (fellows labels i)) as (F & P & C); auto.
      + intros j. apply fellows_in.
      + destruct (fellows labels i); [now contradiction E|discriminate].
      + pose proof (fellows_length n labels Hlab i Hi). pose proof (size_le (lab i)). lia.
      + apply Rle_trans with (fold_right Rplus 0 (map (f i) (cluster labels (lab i)))).
        * unfold fellows. apply total_part; auto. intros j Hj. now apply cluster_in in Hj.
        * unfold cluster. rewrite Hlab. apply total_part; auto. }
  destruct Ha as (Ha & Fa & Ca).
  destruct (Hother c0 Hc0 Hne0) as (_ & F0 & P0 & C0). rewrite <- Eb in P0, C0.
  pose proof (Hle c0) as L0. rewrite (level_is _ F0) in L0.
  assert (Gs : good sep) by (rewrite Ec; now apply other_good).
  assert (Fs : is_finite sep = true).
  { destruct (good_inv prec emax sep Gs) as [->|(F & _)]; auto. exfalso. change (level (B754_infinity false)) with top in L0.
    pose proof (abs_B2R_lt_emax prec emax (other i c0)) as A. apply Rabs_def2 in A. lra. }
  rewrite (level_is _ Fs) in L0.
  assert (Hc : c <> lab i /\ cluster labels c <> []).
  { split; intros H; subst sep; unfold other in Fs; rewrite H in Fs; [rewrite Nat.eqb_refl, orb_true_r in Fs|]; discriminate. }
  destruct Hc as (Hc1 & Hc2). destruct (Hother c Hc1 Hc2) as (_ & _ & P1 & C1). rewrite <- Ec in C1. pose proof (Hleast c Hc1 Hc2) as Lc.
  pose proof (level_range prec emax sep Gs) as R1. rewrite (level_is _ Fs) in R1.
  pose proof (level_range prec emax (own i) (own_good i Hi)) as R0. rewrite (level_is _ Fa) in R0.
  pose proof (Rmax_l a b) as Ma. pose proof (Rmax_r a b) as Mb. fold M in Ma, Mb.
  assert (Cb : Rabs (B2R sep - b) <= g * b + e / 2).
  { apply Rabs_le. apply Rabs_le_inv in C0. apply Rabs_le_inv in C1. split; [|lra].
    destruct (Rle_lt_dec g 1); nra. }
  assert (V : Rabs (true_value (B2R (own i)) (B2R sep) - true_value a b) <= 3 * (g + u / 2)).
  { apply value_close; auto; try lra.
    - apply Rle_trans with (1 := Ca). fold M. nra.
    - apply Rle_trans with (1 := Cb). fold M. nra. }
  pose proof (score_value (own i) sep (own_good i Hi) Gs Fa Fs) as S.
  replace (B2R (score (own i) sep) - true_value a b) with ((B2R (score (own i) sep) - true_value (B2R (own i)) (B2R sep)) + (true_value (B2R (own i)) (B2R sep) - true_value a b)) by lra.
  apply Rle_trans with (1 := Rabs_triang _ _). lra.
Qed.
End Data.
End Binary.
