(** Lemmas about rounded distances. *)
From Coq Require Import List Arith ZArith Bool Reals Lra Lia Eqdep_dec Permutation.
From Flocq Require Import Core BinarySingleNaN.
From Verif Require Import Base BufferModel BufferSpec SearchSpec FloatModel.
Import ListNotations.
Local Open Scope R_scope.

Section Format.
Context (prec emin : Z).
Context (Hprec : (2 <= prec)%Z) (Hemin : (emin <= -2 * prec)%Z).
Notation fexp := (FLT_exp emin prec).
Notation fmt := (generic_format radix2 fexp).
Notation rnd := (round radix2 fexp ZnearestE).

Global Instance prec_gt_0_2 : Prec_gt_0 prec.
Proof using Hprec. unfold Prec_gt_0. lia. Qed.

Lemma multiple e x : fmt x -> (e <= fexp (mag radix2 x))%Z -> exists n : Z, x = IZR n * bpow radix2 e.
Proof.
  intros F H. unfold generic_format, F2R in F. cbn [Fnum Fexp] in F.
  exists (Ztrunc (scaled_mantissa radix2 fexp x) * 2 ^ (cexp radix2 fexp x - e))%Z.
  rewrite mult_IZR. rewrite F at 1.
  assert (E : bpow radix2 (cexp radix2 fexp x) = IZR (2 ^ (cexp radix2 fexp x - e)) * bpow radix2 e).
  { assert (P : IZR (2 ^ (cexp radix2 fexp x - e)) = bpow radix2 (cexp radix2 fexp x - e)).
    { apply (IZR_Zpower radix2). unfold cexp. lia. }
    rewrite P, <- bpow_plus. f_equal. lia. }
  rewrite E. ring.
Qed.

Lemma multiple_emin x : fmt x -> exists n : Z, x = IZR n * bpow radix2 emin.
Proof. intros F. apply multiple; auto. unfold FLT_exp. lia. Qed.

Lemma multiple_above k x : fmt x -> bpow radix2 k <= x -> exists n : Z, x = IZR n * bpow radix2 (k - prec + 1).
Proof.
  intros F H. apply multiple; auto. assert (k < mag radix2 x)%Z.
  { apply mag_gt_bpow. rewrite Rabs_pos_eq; auto. pose proof (bpow_ge_0 radix2 k). lra. }
  unfold FLT_exp. lia.
Qed.

Lemma next_multiple a b w : 0 < w -> IZR a * w < IZR b * w -> IZR a * w + w <= IZR b * w.
Proof.
  intros Hw H. assert (a < b)%Z. { apply lt_IZR. nra. }
  assert (IZR (a + 1) <= IZR b) by (apply IZR_le; lia). rewrite plus_IZR in *. nra.
Qed.


Lemma nearest x y : fmt y -> Rabs (rnd x - x) <= Rabs (y - x).
Proof. intros F. exact (proj2 (round_N_pt radix2 fexp (fun x => negb (Z.even x)) x) y F). Qed.

Lemma fmt_rnd x : fmt (rnd x).
Proof. apply generic_format_round; auto with typeclass_instances. Qed.

Lemma rnd_le x y : x <= y -> rnd x <= rnd y.
Proof. apply round_le; auto with typeclass_instances. Qed.

Lemma rnd_id x : fmt x -> rnd x = x.
Proof. apply round_generic; auto with typeclass_instances. Qed.

Lemma rnd_ge_fmt x y : fmt y -> y <= x -> y <= rnd x.
Proof. intros F H. rewrite <- (rnd_id y F). now apply rnd_le. Qed.

Lemma rnd_0 : rnd 0 = 0.
Proof. apply round_0; auto with typeclass_instances. Qed.

Lemma fmt_bpow e : (emin <= e)%Z -> fmt (bpow radix2 e).
Proof. intros H. apply generic_format_FLT_bpow; auto with typeclass_instances. Qed.

Theorem sqrt_square_rounded s : fmt s -> 0 <= s -> rnd (sqrt s) <= rnd (sqrt (rnd (rnd (sqrt s) * rnd (sqrt s)))).
Proof.
  intros Fs Hs. set (f := rnd (sqrt s)). set (t := rnd (f * f)).
  assert (Ff : fmt f) by apply fmt_rnd. assert (Ft : fmt t) by apply fmt_rnd.
  pose proof (sqrt_pos s) as Hq0.
  assert (Hf0 : 0 <= f). { rewrite <- rnd_0. apply rnd_le; auto. }
  pose proof (sqrt_sqrt s Hs) as Hss. set (q := sqrt s) in *.
  destruct (Rle_or_lt s (f * f)) as [Hge|Hlt].
  { apply rnd_le. apply sqrt_le_1_alt. apply rnd_ge_fmt; auto. }
  destruct (Rle_lt_or_eq_dec 0 f Hf0) as [Hfp|E].
  2:{ rewrite <- E. rewrite <- rnd_0 at 1. apply rnd_le. apply sqrt_pos. }
  assert (Hfq : f < q) by nra.
  assert (Hqp : 0 < q) by lra.
  destruct (mag radix2 q) as [k1 Hk]. cbn in Hk. specialize (Hk ltac:(lra)). rewrite Rabs_pos_eq in Hk by lra.
  set (k := (k1 - 1)%Z) in *. replace k1 with (k + 1)%Z in Hk by lia. clearbody k. clear k1.
  destruct Hk as [Hk1 Hk2].
  assert (Hs1 : bpow radix2 emin <= s).
  { destruct (multiple_emin s Fs) as [n En]. assert (0 < s) by nra. pose proof (bpow_gt_0 radix2 emin).
    assert (1 <= n)%Z. { assert (0 < n)%Z; [|lia]. apply lt_IZR. rewrite En in *. nra. }
    apply IZR_le in H1. nra. }
  assert (Hkk : (emin < 2 * k + 2)%Z).
  { apply (lt_bpow radix2). replace (2 * k + 2)%Z with (k + 1 + (k + 1))%Z by lia. rewrite bpow_plus. nra. }
  assert (Fk : fmt (bpow radix2 k)). { apply fmt_bpow. lia. }
  assert (Hfk : bpow radix2 k <= f) by (apply rnd_ge_fmt; auto).
  set (w := bpow radix2 (k - prec + 1)).
  assert (Hw : 0 < w) by apply bpow_gt_0.
  assert (Hulp : q - f <= w / 2).
  { pose proof (error_le_half_ulp radix2 fexp (fun x => negb (Z.even x)) q) as H. fold f in H.
    rewrite Rabs_left in H by lra. rewrite ulp_neq_0 in H by lra. unfold cexp in H.
    assert (M : mag radix2 q = (k + 1)%Z :> Z). { apply mag_unique. rewrite Rabs_pos_eq by lra. replace (k + 1 - 1)%Z with k by lia. auto. }
    rewrite M in H. unfold FLT_exp in H. rewrite Z.max_l in H by lia. replace (k + 1 - prec)%Z with (k - prec + 1)%Z in H by lia. fold w in H. lra. }
  assert (H2k : bpow radix2 (k + 1) = 2 * bpow radix2 k). { rewrite bpow_plus. cbn [bpow]. simpl. lra. }
  destruct (Z_le_gt_dec (2 * k) (emin + prec - 3)) as [Hsub|Hnorm].
  - (* subnormal *)
    apply rnd_le. apply sqrt_le_1_alt. destruct (Rle_or_lt s t) as [|Hts]; auto. exfalso.
    destruct (multiple_emin s Fs) as [a Ea]. destruct (multiple_emin t Ft) as [b Eb].
    pose proof (bpow_gt_0 radix2 emin) as He.
    assert (Hgap : t + bpow radix2 emin <= s). { rewrite Ea, Eb. apply next_multiple; auto. rewrite <- Ea, <- Eb. auto. }
    assert (Hd : s - f * f < bpow radix2 emin / 2).
    { assert (A : s - f * f <= w * q) by nra.
      assert (B : w * q < w * bpow radix2 (k + 1)) by nra.
      assert (C : w * bpow radix2 (k + 1) <= bpow radix2 emin / 2).
      { unfold w. rewrite <- bpow_plus. replace (bpow radix2 emin / 2) with (bpow radix2 (emin - 1)).
        - apply bpow_le. lia.
        - unfold Z.sub. rewrite bpow_plus. simpl. lra. }
      lra. }
    pose proof (nearest (f * f) s Fs) as N. fold t in N. rewrite (Rabs_pos_eq (s - f * f)) in N by lra.
    rewrite Rabs_left in N by lra. lra.
  - (* normal *)
    destruct (Rle_lt_or_eq_dec _ _ Hfk) as [Hfk2|E].
    2:{ assert (T : t = f * f). { unfold t. apply rnd_id. rewrite <- E, <- bpow_plus. apply fmt_bpow. lia. }
        rewrite T, sqrt_square by lra. rewrite rnd_id by auto. lra. }
    assert (Hstep : forall r, fmt r -> r < f -> r <= f - w).
    { intros r Fr Hr. destruct (multiple_above k f Ff Hfk) as [a Ea]. fold w in Ea.
      destruct (Rle_or_lt (bpow radix2 k) r) as [Hrk|Hrk].
      - destruct (multiple_above k r Fr Hrk) as [b Eb]. fold w in Eb.
        assert (r + w <= f); [|lra]. rewrite Ea, Eb. apply next_multiple; auto. rewrite <- Ea, <- Eb. auto.
      - assert (bpow radix2 k + w <= f); [|lra]. destruct (multiple_above k (bpow radix2 k) Fk ltac:(lra)) as [b Eb]. fold w in Eb.
        rewrite Ea, Eb. apply next_multiple; auto. rewrite <- Ea, <- Eb. auto. }
    pose proof (Hstep _ Fk Hfk2) as Hf1.
    destruct (Rle_or_lt f (rnd (sqrt t))) as [|Hr]; auto. exfalso.
    pose proof (Hstep _ (fmt_rnd _) Hr) as Hr2.
    assert (Ht : sqrt t < f). { destruct (Rle_or_lt f (sqrt t)); auto. assert (f <= rnd (sqrt t)) by (apply rnd_ge_fmt; auto). lra. }
    assert (Hmid : sqrt t <= f - w / 2).
    { pose proof (nearest (sqrt t) f Ff) as N. rewrite (Rabs_pos_eq (f - sqrt t)) in N by lra.
      destruct (Rle_or_lt (sqrt t) (f - w / 2)); auto. rewrite Rabs_left in N by lra. lra. }
    assert (Ht0 : 0 <= t). { rewrite <- rnd_0. apply rnd_le. nra. }
    pose proof (sqrt_sqrt t Ht0) as Htt. pose proof (sqrt_pos t) as Hqt.
    assert (Ht2 : t <= (f - w / 2) * (f - w / 2)) by nra.
    assert (Herr : f * f - t <= bpow radix2 k * w).
    { pose proof (error_le_half_ulp radix2 fexp (fun x => negb (Z.even x)) (f * f)) as H. fold t in H.
      rewrite ulp_neq_0 in H by nra. unfold cexp in H.
      assert (M : (mag radix2 (f * f) <= 2 * k + 2)%Z).
      { apply mag_le_bpow; [nra|]. rewrite Rabs_pos_eq by nra. replace (2 * k + 2)%Z with (k + 1 + (k + 1))%Z by lia. rewrite bpow_plus. nra. }
      assert (U : bpow radix2 (fexp (mag radix2 (f * f))) <= 2 * (bpow radix2 k * w)).
      { unfold w. rewrite <- bpow_plus. replace (2 * bpow radix2 (k + (k - prec + 1))) with (bpow radix2 (k + (k - prec + 1) + 1)).
        - apply bpow_le. unfold FLT_exp. lia.
        - rewrite bpow_plus. simpl. lra. }
      pose proof (Rle_abs (- (t - f * f))). rewrite Rabs_Ropp in *. lra. }
    nra.
Qed.
End Format.

Section Binary.
Context (prec emax : Z) (Hp : Prec_gt_0 prec) (Hm : Prec_lt_emax prec emax).
Context (Hprec : (2 <= prec)%Z) (Hemax : (prec + 3 <= emax)%Z).
Notation number := (binary_float prec emax).
Notation emin := (3 - emax - prec)%Z.
Notation fexp := (FLT_exp emin prec).
Notation fmt := (generic_format radix2 fexp).
Notation rnd := (round radix2 fexp ZnearestE).
Notation top := (bpow radix2 emax).
Implicit Types x y z s : number.

Definition cap (r : R) : R := Rmin r top.

(** The value of a distance, with infinity above all finite numbers. *)
Definition level (x : number) : R := if is_finite x then B2R x else top.

Definition good (x : number) : Prop := is_distance prec emax x = true.

Lemma good_inv x : good x -> x = B754_infinity false \/ (is_finite x = true /\ Bsign x = false /\ 0 <= B2R x).
Proof.
  unfold good, is_distance. destruct x as [[|]|[|]| |[|] m e H]; simpl; intros E; try discriminate; auto.
  - right. splits; auto. lra.
  - right. splits; auto. apply F2R_ge_0. simpl. lia.
Qed.

Lemma good_finite x : is_finite x = true -> Bsign x = false -> good x.
Proof. unfold good, is_distance. destruct x as [[|]|[|]| |[|] m e H]; simpl; auto; discriminate. Qed.

Lemma finite_below x : is_finite x = true -> Rabs (B2R x) < top.
Proof. intros _. apply abs_B2R_lt_emax. Qed.

Lemma top_pos : 0 < top.
Proof. apply bpow_gt_0. Qed.

Lemma level_range x : good x -> 0 <= level x <= top.
Proof.
  intros [->|(F & S & H)]%good_inv; unfold level; cbn [is_finite].
  - pose proof top_pos. lra.
  - rewrite F. pose proof (finite_below x F) as A. rewrite Rabs_pos_eq in A by auto. lra.
Qed.

Lemma lt_level x y : good x -> good y -> Bltb x y = Rlt_bool (level x) (level y).
Proof.
  intros [->|(Fx & Sx & Hx)]%good_inv [->|(Fy & Sy & Hy)]%good_inv; unfold level.
  - simpl. symmetry. apply Rlt_bool_false. lra.
  - rewrite Fy. cbn [is_finite]. pose proof (finite_below y Fy) as A. rewrite Rabs_pos_eq in A by auto.
    rewrite Rlt_bool_false by lra. destruct y as [| | |]; try discriminate; reflexivity.
  - rewrite Fx. cbn [is_finite]. pose proof (finite_below x Fx) as A. rewrite Rabs_pos_eq in A by auto.
    rewrite Rlt_bool_true by lra. destruct x as [| | |[|]]; try discriminate; reflexivity.
  - rewrite Fx, Fy. now apply Bltb_correct.
Qed.

Lemma level_inj x y : good x -> good y -> level x = level y -> x = y.
Proof.
  intros [->|(Fx & Sx & Hx)]%good_inv [->|(Fy & Sy & Hy)]%good_inv; unfold level; auto.
  - rewrite Fy. cbn [is_finite]. pose proof (finite_below y Fy) as A. rewrite Rabs_pos_eq in A by auto. lra.
  - rewrite Fx. cbn [is_finite]. pose proof (finite_below x Fx) as A. rewrite Rabs_pos_eq in A by auto. lra.
  - rewrite Fx, Fy. intros E. apply B2R_Bsign_inj; auto. congruence.
Qed.

Lemma fmt_level x : good x -> fmt (level x).
Proof.
  unfold level. destruct (is_finite x) eqn:F; intros _.
  - apply generic_format_B2R.
  - apply fmt_bpow; auto. lia.
Qed.

Lemma rnd_top r : top <= r -> top <= rnd r.
Proof. intros H. apply rnd_ge_fmt; auto; try lia. apply fmt_bpow; auto. lia. Qed.

Lemma rnd_nonneg r : 0 <= r -> 0 <= rnd r.
Proof. intros H. rewrite <- (rnd_0 prec emin). now apply rnd_le. Qed.

(** Results of operations, from what Flocq says of them. *)
Lemma settle (z : number) r : 0 <= r ->
  (if Rlt_bool (Rabs (rnd r)) top then B2R z = rnd r /\ is_finite z = true /\ Bsign z = false
   else z = B754_infinity false) ->
  good z /\ level z = cap (rnd r).
Proof.
  intros Hr. pose proof (rnd_nonneg r Hr) as H0. rewrite Rabs_pos_eq by auto.
  unfold level, cap. destruct (Rlt_bool_spec (rnd r) top) as [H|H].
  - intros (E & F & S). rewrite F. split; [now apply good_finite|]. rewrite E, Rmin_left by lra. auto.
  - intros ->. split; [reflexivity|]. cbn [is_finite]. rewrite Rmin_right by lra. auto.
Qed.

Lemma overflow_inf (z : number) (s : bool) : B2SF z = binary_overflow prec emax mode_NE s -> z = B754_infinity s.
Proof. unfold binary_overflow. cbn [overflow_to_inf]. destruct z; simpl; intros E; inversion E; auto. Qed.

Lemma sign_cases (r : R) : 0 <= r -> match Rcompare r 0 with Eq => false | Lt => true | Gt => false end = false.
Proof. intros H. destruct (Rcompare_spec r 0); auto. lra. Qed.

Lemma level_abs x : is_nan x = false -> good (Babs x) /\ (is_finite x = true -> level (Babs x) = Rabs (B2R x)).
Proof.
  intros N. split.
  - unfold good, is_distance. destruct x; simpl in *; auto; discriminate.
  - intros F. unfold level. rewrite is_finite_Babs, F. apply B2R_Babs.
Qed.

Lemma square_ok x : is_nan x = false ->
  good (Bmult mode_NE x x) /\ level (Bmult mode_NE x x) = cap (rnd (level (Babs x) * level (Babs x))).
Proof.
  intros N. destruct (level_abs x N) as [G V].
  destruct (is_finite x) eqn:F.
  - rewrite V by auto. rewrite <- Rabs_mult, Rabs_pos_eq by nra.
    apply settle; [nra|].
    pose proof (Bmult_correct prec emax _ _ mode_NE x x) as H. cbn [round_mode] in H.
    destruct (Rlt_bool _ _).
    + destruct H as (E & Fz & S). rewrite F in Fz. splits; auto. rewrite S; [now destruct (Bsign x)|].
      destruct (Bmult mode_NE x x); auto; discriminate.
    + apply overflow_inf in H. rewrite H. now destruct (Bsign x).
  - destruct x as [| [|] | |]; try discriminate; cbn [Bmult Babs xorb]; (split; [reflexivity|]);
      unfold level; cbn [is_finite]; unfold cap; rewrite Rmin_right; auto; apply rnd_top; rewrite <- bpow_plus; apply bpow_le; lia.
Qed.

Lemma plus_ok x y : good x -> good y -> good (Bplus mode_NE x y) /\ level (Bplus mode_NE x y) = cap (rnd (level x + level y)).
Proof.
  intros Gx Gy. pose proof (level_range _ Gx) as Rx. pose proof (level_range _ Gy) as Ry.
  destruct (good_inv x Gx) as [->|(Fx & Sx & Hx)], (good_inv y Gy) as [->|(Fy & Sy & Hy)].
  - simpl. split; [reflexivity|]. unfold cap. rewrite Rmin_right; [reflexivity|]. apply rnd_top. change (level (B754_infinity false)) with top. lra.
  - assert (E : Bplus mode_NE (B754_infinity false) y = B754_infinity false) by (destruct y as [| | |]; try discriminate; reflexivity).
    rewrite E. split; [reflexivity|]. unfold cap. rewrite Rmin_right; [reflexivity|]. apply rnd_top. change (level (B754_infinity false)) with top. lra.
  - assert (E : Bplus mode_NE x (B754_infinity false) = B754_infinity false) by (destruct x as [| | |]; try discriminate; reflexivity).
    rewrite E. split; [reflexivity|]. unfold cap. rewrite Rmin_right; [reflexivity|]. apply rnd_top. change (level (B754_infinity false)) with top. lra.
  - unfold level at 2 3. rewrite Fx, Fy. apply settle; [lra|].
    pose proof (Bplus_correct prec emax _ _ mode_NE x y Fx Fy) as H. cbn [round_mode] in H.
    destruct (Rlt_bool _ _).
    + destruct H as (E & Fz & S). splits; auto. rewrite S, Sx, Sy. apply sign_cases. lra.
    + destruct H as (H & _). apply overflow_inf in H. now rewrite H, Sx.
Qed.

Lemma fma_ok x z : is_nan x = false -> good z ->
  good (Bfma mode_NE x x z) /\ level (Bfma mode_NE x x z) = cap (rnd (level (Babs x) * level (Babs x) + level z)).
Proof.
  intros N Gz. destruct (level_abs x N) as [G V]. pose proof (level_range _ Gz) as Rz.
  assert (Hbig : forall r, top <= r -> good (B754_infinity false) /\ level (B754_infinity false) = cap (rnd r)).
  { intros r Hr. split; [reflexivity|]. unfold cap. rewrite Rmin_right; [reflexivity|]. now apply rnd_top. }
  destruct (is_finite x) eqn:F.
  - rewrite V by auto. rewrite <- Rabs_mult, Rabs_pos_eq by nra.
    destruct (good_inv z Gz) as [->|(Fz & Sz & Hz)].
    + assert (E : Bfma mode_NE x x (B754_infinity false) = B754_infinity false) by (destruct x as [| | |]; try discriminate; reflexivity).
      rewrite E. apply Hbig. change (level (B754_infinity false)) with top. nra.
    + unfold level at 2. rewrite Fz. apply settle; [nra|].
      pose proof (Bfma_correct prec emax _ _ mode_NE x x z F F Fz) as H. cbn [round_mode] in H. cbv zeta in H.
      destruct (Rlt_bool _ _).
      * destruct H as (E & Fr & S). splits; auto. rewrite S. unfold Bfma_szero. rewrite Sz.
        destruct (Rcompare_spec (B2R x * B2R x + B2R z) 0); auto; [nra|]. now destruct (Bsign x).
      * apply overflow_inf in H. rewrite H. rewrite Rlt_bool_false by nra. reflexivity.
  - assert (E : Bfma mode_NE x x z = B754_infinity false).
    { destruct x as [| [|] | |]; try discriminate; destruct (good_inv z Gz) as [->|(Fz & Sz & Hz)]; try reflexivity;
        destruct z as [| | |]; try discriminate; reflexivity. }
    rewrite E. apply Hbig. assert (E2 : level (Babs x) = top) by (destruct x; try discriminate; reflexivity).
    rewrite E2, <- bpow_plus. assert (top <= bpow radix2 (emax + emax)) by (apply bpow_le; lia). lra.
Qed.

Lemma sqrt_ok x : good x -> good (Bsqrt mode_NE x) /\
  (is_finite x = true -> level (Bsqrt mode_NE x) = rnd (sqrt (B2R x)) /\ is_finite (Bsqrt mode_NE x) = true) /\
  (is_finite x = false -> Bsqrt mode_NE x = B754_infinity false).
Proof.
  intros [->|(Fx & Sx & Hx)]%good_inv.
  - splits; auto; try discriminate. reflexivity.
  - pose proof (Bsqrt_correct prec emax _ _ mode_NE x) as (E & F & S). cbn [round_mode] in E.
    assert (Fz : is_finite (Bsqrt mode_NE x) = true). { rewrite F. destruct x as [| | |[|]]; try discriminate; reflexivity. }
    splits.
    + apply good_finite; auto. rewrite S; auto. destruct (Bsqrt mode_NE x); auto; discriminate.
    + intros _. split; auto. unfold level. now rewrite Fz.
    + congruence.
Qed.

Lemma minus_ok x y : is_finite x = true -> is_finite y = true ->
  is_nan (Bminus mode_NE x y) = false /\ level (Babs (Bminus mode_NE x y)) = cap (rnd (Rabs (B2R x - B2R y))).
Proof.
  intros Fx Fy. pose proof (Bminus_correct prec emax _ _ mode_NE x y Fx Fy) as H. cbn [round_mode] in H.
  assert (A : rnd (Rabs (B2R x - B2R y)) = Rabs (rnd (B2R x - B2R y))).
  { unfold Rabs at 1. destruct (Rcase_abs (B2R x - B2R y)) as [L|L].
    - rewrite round_NE_opp. rewrite Rabs_left1; auto. rewrite <- (rnd_0 prec emin). apply rnd_le; auto. lra.
    - rewrite Rabs_pos_eq; auto. apply rnd_nonneg. lra. }
  rewrite A. match type of H with context [Rlt_bool ?a ?b] => destruct (Rlt_bool_spec a b) as [L|L] end.
  - destruct H as (E & F & S).
    assert (N : is_nan (Bminus mode_NE x y) = false) by (destruct (Bminus mode_NE x y); auto; discriminate).
    split; auto. destruct (level_abs _ N) as [_ V]. rewrite V by auto. rewrite E. unfold cap. rewrite Rmin_left; [reflexivity|]. now apply Rlt_le.
  - destruct H as (H & _). apply overflow_inf in H. rewrite H. split; auto. unfold cap. rewrite Rmin_right; [reflexivity|exact L].
Qed.

Lemma cap_le a b : a <= b -> cap a <= cap b.
Proof. intros H. unfold cap. apply Rle_min_compat_r. exact H. Qed.

Lemma cap_rnd_ge x (y : R) : good x -> level x <= y -> level x <= cap (rnd y).
Proof.
  intros G H. unfold cap. apply Rmin_glb; [|apply level_range; auto]. apply rnd_ge_fmt; auto. now apply fmt_level.
Qed.

Lemma cap_rnd_le (x y : R) : x <= y -> cap (rnd x) <= cap (rnd y).
Proof. intros H. apply cap_le, rnd_le; auto. Qed.

(** Sums. *)
Definition numbers (tmps : list number) : Prop := forall x, In x tmps -> is_nan x = false.

Lemma nth_number tmps i : numbers tmps -> is_nan (nth i tmps (B754_zero false)) = false.
Proof.
  intros H. destruct (le_lt_dec (length tmps) i).
  - now rewrite nth_overflow.
  - apply H, nth_In. auto.
Qed.

Lemma reduce_good g tmps : numbers tmps -> good (reduce prec emax Hp Hm g tmps).
Proof.
  intros H. induction g as [|i|a IHa b IHb|i b IHb]; cbn [reduce].
  - reflexivity.
  - apply square_ok. now apply nth_number.
  - now apply plus_ok.
  - apply fma_ok; auto. now apply nth_number.
Qed.

Lemma reduce_ge g tmps i : numbers tmps -> In i (terms g) ->
  let tmp := nth i tmps (B754_zero false) in
  level (Bmult mode_NE tmp tmp) <= level (reduce prec emax Hp Hm g tmps).
Proof.
  intros H Hi tmp. assert (N : is_nan tmp = false) by now apply nth_number.
  destruct (square_ok tmp N) as [Gs Vs]. pose proof (level_range _ (proj1 (level_abs tmp N))) as Rt.
  induction g as [|j|a IHa b IHb|j b IHb]; cbn [reduce terms] in *.
  - destruct Hi.
  - destruct Hi as [->|[]]. fold tmp. lra.
  - destruct (plus_ok _ _ (reduce_good a tmps H) (reduce_good b tmps H)) as [_ ->].
    pose proof (level_range _ (reduce_good a tmps H)). pose proof (level_range _ (reduce_good b tmps H)).
    apply in_app_or in Hi as [Hi|Hi]; [specialize (IHa Hi)|specialize (IHb Hi)]; apply cap_rnd_ge; auto; lra.
  - destruct (fma_ok (nth j tmps (B754_zero false)) _ (nth_number tmps j H) (reduce_good b tmps H)) as [_ ->].
    pose proof (level_range _ (reduce_good b tmps H)).
    destruct Hi as [->|Hi].
    + fold tmp. rewrite Vs. apply cap_rnd_le. lra.
    + specialize (IHb Hi). apply cap_rnd_ge; auto. pose proof (level_range _ (proj1 (level_abs _ (nth_number tmps j H)))). nra.
Qed.

(** The sum depends only on the magnitudes of the differences. *)
Lemma reduce_abs g tmps tmps' : numbers tmps -> numbers tmps' -> map (fun x => level (Babs x)) tmps = map (fun x => level (Babs x)) tmps' ->
  reduce prec emax Hp Hm g tmps = reduce prec emax Hp Hm g tmps'.
Proof.
  intros H H' E.
  assert (En : forall i, level (Babs (nth i tmps (B754_zero false))) = level (Babs (nth i tmps' (B754_zero false)))).
  { intros i. rewrite <- !(map_nth (fun x => level (Babs x))). now rewrite E. }
  induction g as [|i|a IHa b IHb|i b IHb]; cbn [reduce]; auto.
  - destruct (square_ok _ (nth_number tmps i H)) as [G V], (square_ok _ (nth_number tmps' i H')) as [G' V'].
    apply level_inj; auto. now rewrite V, V', En.
  - now rewrite IHa, IHb.
  - destruct (fma_ok _ _ (nth_number tmps i H) (reduce_good b tmps H)) as [G V],
      (fma_ok _ _ (nth_number tmps' i H') (reduce_good b tmps' H')) as [G' V'].
    apply level_inj; auto. rewrite V, V', En, IHb. reflexivity.
Qed.

Lemma sqrt_mono x y : good x -> good y -> level x <= level y -> level (Bsqrt mode_NE x) <= level (Bsqrt mode_NE y).
Proof.
  intros Gx Gy H. destruct (sqrt_ok x Gx) as (Sx & Ax & Bx), (sqrt_ok y Gy) as (Sy & Ay & By).
  destruct (is_finite y) eqn:Fy.
  - destruct (is_finite x) eqn:Fx.
    + destruct (Ax eq_refl) as [-> _], (Ay eq_refl) as [-> _]. apply rnd_le; auto. apply sqrt_le_1_alt.
      unfold level in H. now rewrite Fx, Fy in H.
    + destruct (good_inv y Gy) as [->|(_ & _ & H0)]; [discriminate|].
      unfold level in H. rewrite Fx, Fy in H. pose proof (finite_below y Fy) as A. rewrite Rabs_pos_eq in A by auto. lra.
  - rewrite By by auto. change (level (B754_infinity false)) with top. now apply level_range.
Qed.

(** A rounded root below [g] is below the rounded root of the rounded square of [g]. *)
Lemma sqrt_square s (g : number) : good s -> good g -> level (Bsqrt mode_NE s) <= level g ->
  level (Bsqrt mode_NE s) <= level (Bsqrt mode_NE (Bmult mode_NE g g)).
Proof.
  intros Gs Gg H.
  assert (N : is_nan g = false) by (destruct (good_inv g Gg) as [->|(F & _)]; auto; destruct g; auto; discriminate).
  assert (Ag : level (Babs g) = level g).
  { destruct (good_inv g Gg) as [->|(F & S & H0)]; auto. rewrite (proj2 (level_abs g N) F). rewrite Rabs_pos_eq by auto. unfold level. now rewrite F. }
  destruct (square_ok g N) as [Gm Vm]. rewrite Ag in Vm.
  destruct (sqrt_ok s Gs) as (Ss & As & Bs). destruct (sqrt_ok _ Gm) as (Sm & Am & Bm).
  destruct (is_finite (Bmult mode_NE g g)) eqn:Fm.
  2:{ rewrite Bm by auto. change (level (B754_infinity false)) with top. now apply level_range. }
  assert (Fr : B2R (Bmult mode_NE g g) = rnd (level g * level g)).
  { unfold level at 1 in Vm. rewrite Fm in Vm. unfold cap in Vm.
    pose proof (finite_below _ Fm) as A. pose proof (Rle_abs (B2R (Bmult mode_NE g g))).
    unfold Rmin in Vm. destruct (Rle_dec _ _); auto. lra. }
  destruct (Am eq_refl) as [-> _]. rewrite Fr.
  assert (Fs : is_finite s = true).
  { destruct (is_finite s) eqn:Fs; auto. rewrite Bs in H by auto. change (level (B754_infinity false)) with top in H.
    assert (E : top <= rnd (level g * level g)).
    { apply rnd_top. pose proof (bpow_le radix2 0 emax ltac:(lia)) as B. change (bpow radix2 0) with 1 in B. nra. }
    pose proof (finite_below _ Fm) as A. pose proof (Rle_abs (B2R (Bmult mode_NE g g))). lra. }
  destruct (As Fs) as [E _]. rewrite E in *.
  assert (H0 : 0 <= B2R s). { destruct (good_inv s Gs) as [->|(_ & _ & H0)]; auto. discriminate. }
  eapply Rle_trans; [apply sqrt_square_rounded; auto; try lia; apply generic_format_B2R|].
  apply rnd_le; auto. apply sqrt_le_1_alt. apply rnd_le; auto.
  assert (0 <= rnd (sqrt (B2R s))) by (apply rnd_nonneg, sqrt_pos). nra.
Qed.

(** Features. *)
Definition clamp (z : Z) : Z := Z.max (- largest prec emax) (Z.min (largest prec emax) z).

Lemma largest_value : IZR (largest prec emax) * bpow radix2 emin = top - bpow radix2 (emax - prec).
Proof.
  unfold largest, smallest. rewrite mult_IZR, minus_IZR.
  assert (P : forall n : Z, (0 <= n)%Z -> IZR (2 ^ n) = bpow radix2 n) by (intros n Hn; apply (IZR_Zpower radix2); lia).
  rewrite !P by lia.
  rewrite Rmult_assoc, <- bpow_plus, Rmult_minus_distr_r, <- bpow_plus, Rmult_1_l. f_equal; [f_equal; lia|f_equal; lia].
Qed.

Lemma fmt_largest : fmt (top - bpow radix2 (emax - prec)).
Proof.
  apply generic_format_FLT. exists (Float radix2 (2 ^ prec - 1) (emax - prec)).
  - unfold F2R. cbn [Fnum Fexp]. rewrite minus_IZR. rewrite (IZR_Zpower radix2) by lia.
    rewrite Rmult_minus_distr_r, <- bpow_plus, Rmult_1_l. f_equal. f_equal. lia.
  - cbn [Fnum]. assert (1 <= 2 ^ prec)%Z by (apply (Z.pow_le_mono_r 2 0 prec); lia).
    rewrite Z.abs_eq by lia. change (Zpower radix2 prec) with (2 ^ prec)%Z. lia.
  - cbn [Fexp]. lia.
Qed.

Lemma largest_nonneg : (0 <= largest prec emax)%Z.
Proof.
  unfold largest, smallest. apply Z.mul_nonneg_nonneg; [|apply Z.pow_nonneg; lia].
  assert (1 <= 2 ^ prec)%Z by (apply (Z.pow_le_mono_r 2 0 prec); lia). lia.
Qed.

Lemma clamp_range (z : Z) : Rabs (IZR (clamp z) * bpow radix2 emin) <= top - bpow radix2 (emax - prec).
Proof.
  pose proof largest_nonneg as H0.
  rewrite Rabs_mult, (Rabs_pos_eq (bpow _ _)) by apply bpow_ge_0. rewrite <- largest_value.
  apply Rmult_le_compat_r; [apply bpow_ge_0|]. rewrite <- abs_IZR. apply IZR_le. unfold clamp. lia.
Qed.

Lemma feature_ok (z : Z) : is_finite (feature prec emax Hp Hm z) = true /\
  B2R (feature prec emax Hp Hm z) = rnd (IZR (clamp z) * bpow radix2 emin) /\
  (z = 0%Z -> Bsign (feature prec emax Hp Hm z) = false).
Proof.
  pose proof (binary_normalize_correct prec emax _ _ mode_NE (clamp z) emin false) as H. cbv zeta in H. cbn [round_mode] in H.
  unfold F2R in H. cbn [Fnum Fexp] in H.
  assert (L : Rabs (rnd (IZR (clamp z) * bpow radix2 emin)) < top).
  { apply Rle_lt_trans with (top - bpow radix2 (emax - prec)).
    - pose proof (clamp_range z) as R. apply Rabs_le_inv in R. apply Rabs_le. split.
      + rewrite <- (rnd_id prec emin (- _)); [apply rnd_le; auto; apply R|]. apply generic_format_opp, fmt_largest.
      + rewrite <- (rnd_id prec emin (top - _)); [apply rnd_le; auto; apply R|apply fmt_largest].
    - pose proof (bpow_gt_0 radix2 (emax - prec)). lra. }
  destruct (Rlt_bool_spec (Rabs (rnd (IZR (clamp z) * bpow radix2 emin))) top) as [_|C]; [|lra].
  rewrite Rlt_bool_true in H by exact L. destruct H as (E & F & S).
  split; [exact F|]. split; [exact E|].
  intros ->. assert (Z0 : clamp 0 = 0%Z).
  { unfold clamp. pose proof largest_nonneg. lia. }
  unfold feature. fold (clamp 0). rewrite Z0. reflexivity.
Qed.

Lemma feature_mono a b : (a <= b)%Z -> B2R (feature prec emax Hp Hm a) <= B2R (feature prec emax Hp Hm b).
Proof.
  intros H. destruct (feature_ok a) as (_ & -> & _), (feature_ok b) as (_ & -> & _).
  apply rnd_le; auto. apply Rmult_le_compat_r; [apply bpow_ge_0|]. apply IZR_le. unfold clamp. lia.
Qed.

Lemma encode_value x : is_finite x = true -> IZR (encode prec emax x) * bpow radix2 emin = B2R x.
Proof.
  destruct x as [s| | |s m e H]; try discriminate; intros _; cbn [encode B2R]; [lra|].
  assert (He : (emin <= e)%Z).
  { pose proof H as B. unfold SpecFloat.bounded in B. apply andb_true_iff in B as [C _].
    unfold SpecFloat.canonical_mantissa in C. apply Zeq_bool_eq in C. unfold SpecFloat.fexp, SpecFloat.emin in C. lia. }
  unfold F2R. cbn [Fnum Fexp]. rewrite mult_IZR. unfold smallest.
  assert (P : forall n : Z, (0 <= n)%Z -> IZR (2 ^ n) = bpow radix2 n) by (intros n Hn; apply (IZR_Zpower radix2); lia).
  rewrite P by lia. rewrite Rmult_assoc, <- bpow_plus. do 2 f_equal. lia.
Qed.

Lemma encode_clamp x : is_finite x = true -> clamp (encode prec emax x) = encode prec emax x.
Proof.
  intros F. pose proof (encode_value x F) as V. pose proof (abs_B2R_le_emax_minus_prec prec emax _ x) as A.
  rewrite <- V, <- largest_value in A. rewrite Rabs_mult, (Rabs_pos_eq (bpow _ _)) in A by apply bpow_ge_0.
  apply Rmult_le_reg_r in A; [|apply bpow_gt_0]. rewrite <- abs_IZR in A. apply le_IZR in A. unfold clamp. lia.
Qed.

Lemma feature_encode x : is_finite x = true -> x <> B754_zero true -> feature prec emax Hp Hm (encode prec emax x) = x.
Proof.
  intros F N. destruct (feature_ok (encode prec emax x)) as (Ff & E & Z0).
  rewrite encode_clamp, encode_value in E by auto. rewrite rnd_id in E by apply generic_format_B2R.
  destruct x as [[|]|s| |s m e B] eqn:Ex; try discriminate; try congruence.
  - apply B2R_Bsign_inj; auto.
  - rewrite <- Ex in *. apply B2R_Bsign_inj; auto.
    assert (NZ : B2R x <> 0). { subst x. cbn [B2R]. intros C. apply eq_0_F2R in C. destruct s; discriminate. }
    assert (Sg : forall y, is_finite y = true -> B2R y <> 0 -> Bsign y = Rlt_bool (B2R y) 0).
    { intros y Fy Ny. destruct y as [t|t| |t m' e' B']; try discriminate; [cbn in Ny; lra|]. cbn [B2R Bsign]. destruct t.
      - rewrite Rlt_bool_true; auto. apply F2R_lt_0. reflexivity.
      - rewrite Rlt_bool_false; auto. apply F2R_ge_0. simpl. lia. }
    rewrite !Sg; auto; rewrite E; auto.
Qed.

(** Distances along an axis. *)
Lemma axis_sym x y : is_finite x = true -> is_finite y = true ->
  level (Babs (Bminus mode_NE x y)) = level (Babs (Bminus mode_NE y x)).
Proof.
  intros Fx Fy. destruct (minus_ok x y Fx Fy) as [_ ->], (minus_ok y x Fy Fx) as [_ ->]. now rewrite Rabs_minus_sym.
Qed.

Lemma axis_mono x v y : is_finite x = true -> is_finite v = true -> is_finite y = true ->
  B2R y <= B2R v <= B2R x \/ B2R x <= B2R v <= B2R y ->
  level (Babs (Bminus mode_NE v y)) <= level (Babs (Bminus mode_NE x y)).
Proof.
  intros Fx Fv Fy H. destruct (minus_ok x y Fx Fy) as [_ ->], (minus_ok v y Fv Fy) as [_ ->].
  apply cap_rnd_le. destruct H as [H|H].
  - rewrite !Rabs_pos_eq by lra. lra.
  - rewrite !Rabs_left1 by lra. lra.
Qed.

Lemma axis_is_distance x y : is_finite x = true -> is_finite y = true -> good (axis_distance prec emax Hp Hm x y).
Proof. intros Fx Fy. apply level_abs. now apply minus_ok. Qed.

(** Euclidean distances. *)
Definition finite_list (l : list number) : Prop := forall x, In x l -> is_finite x = true.
Notation diffs l r := (map (fun xy => difference prec emax Hp Hm (fst xy) (snd xy)) (combine l r)).

Lemma diffs_numbers l r : finite_list l -> finite_list r -> numbers (diffs l r).
Proof.
  intros Hl Hr x Hx. apply in_map_iff in Hx as ([a b] & <- & Hab). apply minus_ok; cbn [fst snd].
  - apply in_combine_l in Hab. auto.
  - apply in_combine_r in Hab. auto.
Qed.

Lemma euclidean_is_distance order l r : finite_list l -> finite_list r -> good (euclidean prec emax Hp Hm order l r).
Proof. intros Hl Hr. unfold euclidean. apply sqrt_ok. apply reduce_good. now apply diffs_numbers. Qed.

Lemma euclidean_sym order l r : finite_list l -> finite_list r ->
  euclidean prec emax Hp Hm order l r = euclidean prec emax Hp Hm order r l.
Proof.
  intros Hl Hr. unfold euclidean. rewrite !map_length, !combine_length, (Nat.min_comm (length l)). f_equal.
  apply reduce_abs; try now apply diffs_numbers. rewrite !map_map.
  revert r Hr. induction l as [|a l IH]; intros [|b r] Hr; auto. cbn [combine map fst snd]. f_equal.
  - unfold difference. apply axis_sym; [apply Hl|apply Hr]; now left.
  - apply IH; intros x Hx; [apply Hl|apply Hr]; now right.
Qed.

Lemma finite_features zs : finite_list (map (feature prec emax Hp Hm) zs).
Proof. intros x Hx. apply in_map_iff in Hx as (z & <- & _). apply feature_ok. Qed.

Lemma nth_diffs l r a d : (a < length l)%nat -> length l = length r ->
  nth a (diffs l r) d = difference prec emax Hp Hm (nth a l (B754_zero false)) (nth a r (B754_zero false)).
Proof.
  intros Ha E. rewrite (nth_indep _ d (difference prec emax Hp Hm (B754_zero false) (B754_zero false))).
  2:{ rewrite map_length, combine_length. lia. }
  rewrite (map_nth (fun xy => difference prec emax Hp Hm (fst xy) (snd xy)) _ (B754_zero false, B754_zero false)).
  now rewrite combine_nth.
Qed.

Lemma square_abs x : is_nan x = false -> Bmult mode_NE (Babs x) (Babs x) = Bmult mode_NE x x.
Proof.
  intros N. assert (N2 : is_nan (Babs x) = false) by (destruct x; auto).
  destruct (square_ok x N) as [G V], (square_ok _ N2) as [G2 V2]. apply level_inj; auto.
  rewrite V, V2. now rewrite Babs_idempotent.
Qed.

Lemma euclidean_axis order p q other a v :
  (forall n i, (i < n)%nat -> In i (terms (order n))) ->
  finite_list p -> finite_list q -> finite_list other -> is_finite v = true -> (a < length p)%nat -> length p = length q ->
  let pa := nth a p (B754_zero false) in let qa := nth a q (B754_zero false) in
  B2R qa <= B2R v <= B2R pa \/ B2R pa <= B2R v <= B2R qa ->
  level (euclidean prec emax Hp Hm order other q) <= level (axis_distance prec emax Hp Hm v qa) ->
  level (euclidean prec emax Hp Hm order other q) <= level (euclidean prec emax Hp Hm order p q).
Proof.
  intros Ho Fp Fq Fo Fv Ha Hl pa qa Hv H.
  assert (Fpa : is_finite pa = true) by (apply Fp, nth_In; auto).
  assert (Fqa : is_finite qa = true) by (apply Fq, nth_In; lia).
  set (t := Bminus mode_NE pa qa).
  destruct (minus_ok pa qa Fpa Fqa) as [Nt _]. fold t in Nt.
  assert (H1 : level (euclidean prec emax Hp Hm order other q) <= level (Babs t)).
  { eapply Rle_trans; [exact H|]. now apply axis_mono. }
  unfold euclidean in H1 |- *. eapply Rle_trans; [apply sqrt_square with (g := Babs t)|]; auto.
  - apply reduce_good. now apply diffs_numbers.
  - now apply level_abs.
  - rewrite square_abs by auto. apply sqrt_mono.
    + now apply square_ok.
    + apply reduce_good. now apply diffs_numbers.
    + pose proof (reduce_ge (order (length (diffs p q))) (diffs p q) a (diffs_numbers p q Fp Fq)) as R.
      cbv zeta in R. rewrite nth_diffs in R by auto. apply R. apply Ho. rewrite map_length, combine_length. lia.
Qed.

(** The type of distances. *)
Notation dist_t := (distance_type prec emax).

Lemma as_distance_good x : good x -> proj1_sig (as_distance prec emax x) = x.
Proof. intros G. unfold as_distance. destruct (bool_dec _ _) as [|N]; auto. contradiction. Qed.

Lemma dist_inj (a b : dist_t) : proj1_sig a = proj1_sig b -> a = b.
Proof.
  destruct a as [x Hx], b as [y Hy]. cbn [proj1_sig]. intros ->. f_equal. apply UIP_dec. apply bool_dec.
Qed.

Lemma closer_level (a b : dist_t) : closer prec emax a b = Rlt_bool (level (proj1_sig a)) (level (proj1_sig b)).
Proof. apply lt_level; [exact (proj2_sig a)|exact (proj2_sig b)]. Qed.

Lemma not_closer (a b : dist_t) : closer prec emax a b = false <-> level (proj1_sig b) <= level (proj1_sig a).
Proof.
  rewrite closer_level. split; intros H.
  - destruct (Rlt_bool_spec (level (proj1_sig a)) (level (proj1_sig b))); auto. discriminate.
  - now apply Rlt_bool_false.
Qed.

Lemma closer_order : order_ok (closer prec emax).
Proof.
  split.
  - intros a b H. rewrite closer_level in H. apply not_closer.
    destruct (Rlt_bool_spec (level (proj1_sig a)) (level (proj1_sig b))); [lra|discriminate].
  - intros a b c. rewrite !not_closer. lra.
Qed.

Lemma computed_value order p q :
  proj1_sig (computed prec emax Hp Hm order p q)
  = euclidean prec emax Hp Hm order (map (feature prec emax Hp Hm) p) (map (feature prec emax Hp Hm) q).
Proof. unfold computed. apply as_distance_good, euclidean_is_distance; apply finite_features. Qed.

Lemma computed_sym order p q : computed prec emax Hp Hm order p q = computed prec emax Hp Hm order q p.
Proof. apply dist_inj. rewrite !computed_value. apply euclidean_sym; apply finite_features. Qed.

Lemma gap_value a b :
  proj1_sig (m_gap (binary_metric prec emax Hp Hm one_by_one) a b)
  = axis_distance prec emax Hp Hm (feature prec emax Hp Hm a) (feature prec emax Hp Hm b).
Proof. cbn [m_gap binary_metric]. apply as_distance_good, axis_is_distance; apply feature_ok. Qed.

Lemma binary_ok order : (forall n i, (i < n)%nat -> In i (terms (order n))) ->
  metric_ok (binary_metric prec emax Hp Hm order) (computed prec emax Hp Hm order).
Proof.
  intros Ho. split.
  - exact closer_order.
  - intros p q E. cbn [m_auto binary_metric]. unfold auto_euclidean. rewrite E, Nat.ltb_irrefl. reflexivity.
  - intros p other q a v Ha Hpq Hoq Hv H. cbn [m_lt m_gap binary_metric] in *. apply not_closer in H. apply not_closer.
    rewrite !computed_value in *.
    rewrite as_distance_good in H by (apply axis_is_distance; apply feature_ok).
    set (F := feature prec emax Hp Hm) in *.
    assert (Hn : forall l, (a < length l)%nat -> F (nth a l 0%Z) = nth a (map F l) (B754_zero false)).
    { intros l Hl. rewrite (nth_indep _ _ (F 0%Z)) by now rewrite map_length. symmetry. apply map_nth. }
    apply (euclidean_axis order (map F p) (map F q) (map F other) a (F v)); auto; try apply finite_features; try apply feature_ok.
    + now rewrite map_length.
    + now rewrite !map_length.
    + rewrite <- !Hn by lia. destruct Hv as [Hv|Hv]; [left|right]; split; apply feature_mono; lia.
    + rewrite <- Hn by lia. exact H.
Qed.
End Binary.
