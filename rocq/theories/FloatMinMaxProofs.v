(** Properties of the rounded min-max scores. *)
From Coq Require Import Reals List Arith ZArith Bool Lia Lra Psatz.
From Flocq Require Import Core BinarySingleNaN.
From Verif Require Import Base FloatModel FloatSpec FloatProofs AccuracySpec AccuracyProofs FloatSilhouetteModel FloatKMeansProofs FloatMinMaxModel.
Import ListNotations.
Open Scope R_scope.

Section Binary.
Context (prec emax : Z) (Hp : Prec_gt_0 prec) (Hm : Prec_lt_emax prec emax).
Context (Hprec : (2 <= prec)%Z) (Hemax : (prec + 3 <= emax)%Z).
Notation number := (binary_float prec emax).
Notation emin := (3 - emax - prec)%Z.
Notation fexp := (FLT_exp emin prec).
Notation rnd := (round radix2 fexp ZnearestE).
Notation top := (bpow radix2 emax).
Notation u := (roundoff prec).
Notation score := (float_score prec emax Hp Hm).
Implicit Types x y : number.

Lemma B2R_one : B2R (Bone : number) = 1.
Proof using. apply Bone_correct. Qed.

Lemma rnd_1 : rnd 1 = 1.
Proof using Hp Hm. rewrite <- B2R_one. apply round_generic; [apply valid_rnd_N|apply generic_format_B2R]. Qed.

Lemma rnd_mono r s : r <= s -> rnd r <= rnd s.
Proof using Hp. apply round_le; [now apply FLT_exp_valid|apply valid_rnd_N]. Qed.

Lemma rnd_z : rnd 0 = 0.
Proof using. apply round_0, valid_rnd_N. Qed.

Lemma rnd_unit r : 0 <= r <= 1 -> 0 <= rnd r <= 1.
Proof using Hp Hm. intros H. split; [rewrite <- rnd_z|rewrite <- rnd_1]; apply rnd_mono; lra. Qed.

Lemma one_lt_top : 1 < top.
Proof using Hprec Hemax. change 1 with (bpow radix2 0). apply bpow_lt. lia. Qed.

Lemma minus_value x y : is_finite x = true -> is_finite y = true -> is_finite (Bminus mode_NE x y) = true ->
  B2R (Bminus mode_NE x y) = rnd (B2R x - B2R y).
Proof using.
  intros Fx Fy F. pose proof (Bminus_correct prec emax Hp Hm mode_NE x y Fx Fy) as H.
  change (SpecFloat.fexp prec emax) with fexp in H. cbn [round_mode] in H. destruct (Rlt_bool _ _); [tauto|].
  destruct H as (H & _). destruct (Bminus mode_NE x y); try discriminate; unfold binary_overflow in H; cbn in H; discriminate.
Qed.

Lemma unit_small r : 0 <= r <= 1 -> Rlt_bool (Rabs (rnd r)) top = true.
Proof using Hp Hm Hprec Hemax. intros H. pose proof (rnd_unit r H). pose proof one_lt_top. apply Rlt_bool_true. rewrite Rabs_pos_eq; lra. Qed.

Lemma score_value m M x : is_finite m = true -> is_finite M = true -> is_finite x = true ->
  B2R m <= B2R x <= B2R M -> B2R m < B2R M ->
  is_finite (Bminus mode_NE x m) = true -> is_finite (Bminus mode_NE M m) = true ->
  is_finite (score m M x) = true /\ 0 < rnd (B2R M - B2R m) /\ 0 <= rnd (B2R x - B2R m) / rnd (B2R M - B2R m) <= 1 /\
  B2R (score m M x) = rnd (1 - rnd (rnd (B2R x - B2R m) / rnd (B2R M - B2R m))).
Proof using Hprec Hemax.
  intros Fm FM Fx Hx HM F1 F2. pose proof (minus_value x m Fx Fm F1) as E1. pose proof (minus_value M m FM Fm F2) as E2.
  assert (P : 0 < rnd (B2R M - B2R m)).
  { pose proof (rnd_difference prec emax Hp Hprec (B2R M) (B2R m) (generic_format_B2R _ _ _) (generic_format_B2R _ _ _)) as R.
    rewrite Rabs_pos_eq in R by lra. pose proof (u_range prec Hprec) as U.
    apply Rlt_le_trans with (2 := proj1 R). apply Rmult_lt_0_compat; lra. }
  assert (A : 0 <= rnd (B2R x - B2R m) <= rnd (B2R M - B2R m)).
  { split; [rewrite <- rnd_z at 1|]; apply rnd_mono; lra. }
  assert (Q : 0 <= rnd (B2R x - B2R m) / rnd (B2R M - B2R m) <= 1).
  { split; [apply Rle_mult_inv_pos; lra|]. apply Rmult_le_reg_r with (1 := P). unfold Rdiv. rewrite Rmult_assoc, Rinv_l by lra. lra. }
  pose proof (Bdiv_correct prec emax Hp Hm mode_NE (Bminus mode_NE x m) (Bminus mode_NE M m)) as D. rewrite E1, E2 in D.
  specialize (D ltac:(lra)). change (SpecFloat.fexp prec emax) with fexp in D. cbn [round_mode] in D. rewrite unit_small in D by auto.
  destruct D as (D1 & D2 & _). rewrite F1 in D2. pose proof (rnd_unit _ Q) as Q'.
  pose proof (Bminus_correct prec emax Hp Hm mode_NE Bone _ (is_finite_Bone prec emax Hp Hm) D2) as W.
  change (SpecFloat.fexp prec emax) with fexp in W. cbn [round_mode] in W. rewrite B2R_one, D1 in W. rewrite unit_small in W by lra.
  destruct W as (W1 & W2 & _). unfold float_score. auto.
Qed.

Lemma e_small : tiny prec emax <= u / 4.
Proof using Hprec Hemax.
  unfold tiny, roundoff. replace (/ 4) with (bpow radix2 (-2)) by (simpl; lra). unfold Rdiv.
  replace (/ 4) with (bpow radix2 (-2)) by (simpl; lra). rewrite <- bpow_plus. apply bpow_le. lia.
Qed.

(** Two roundings of the differences, one of the quotient and one of the result. *)
Lemma score_close a d A D : 0 <= a <= d -> 0 < d -> 0 < D -> A <= D ->
  (1 - u) * a <= A <= (1 + u) * a -> (1 - u) * d <= D <= (1 + u) * d -> 0 <= A ->
  Rabs (rnd (1 - rnd (A / D)) - (1 - a / d)) <= 5 * u.
Proof using Hprec Hemax Hp Hm.
  intros Ha Hd HD HAD HA HDd A0. pose proof (u_range prec Hprec) as U. pose proof e_small as E.
  set (t := a / d). set (q := A / D).
  assert (Et : a = t * d) by (unfold t; field; lra). assert (Eq : A = q * D) by (unfold q; field; lra).
  assert (T : 0 <= t <= 1).
  { split; [apply Rle_mult_inv_pos; lra|]. apply Rmult_le_reg_r with d; lra. }
  assert (Q : 0 <= q <= 1).
  { split; [apply Rle_mult_inv_pos; lra|]. apply Rmult_le_reg_r with D; lra. }
  assert (C1 : (q - t) * D <= 2 * u * (t * d)).
  { assert (t * ((1 - u) * d) <= t * D) by (apply Rmult_le_compat_l; lra). nra. }
  assert (C2 : - (2 * u * (t * d)) <= (q - t) * D).
  { assert (t * D <= t * ((1 + u) * d)) by (apply Rmult_le_compat_l; lra). nra. }
  assert (TD : t * d <= d) by (rewrite <- Et; lra).
  assert (D34 : 3 / 4 * d <= D).
  { apply Rle_trans with (2 := proj1 HDd). apply Rmult_le_compat_r; lra. }
  assert (B : 2 * u * (t * d) <= 8 / 3 * u * D).
  { apply Rle_trans with (2 * u * (4 / 3 * D)); [apply Rmult_le_compat_l; lra|]. lra. }
  assert (K1 : q - t <= 8 / 3 * u) by (apply Rmult_le_reg_r with D; lra).
  assert (K2 : - (8 / 3 * u) <= q - t) by (apply Rmult_le_reg_r with D; lra).
  pose proof (rnd_quotient prec emax Hp Hprec q) as R1. rewrite (Rabs_pos_eq q) in R1 by lra.
  pose proof (rnd_unit q Q) as Q'.
  pose proof (rnd_quotient prec emax Hp Hprec (1 - rnd q)) as R2. rewrite (Rabs_pos_eq (1 - rnd q)) in R2 by lra.
  assert (u * q <= u) by (rewrite <- (Rmult_1_r u) at 2; apply Rmult_le_compat_l; lra).
  assert (u * (1 - rnd q) <= u) by (rewrite <- (Rmult_1_r u) at 2; apply Rmult_le_compat_l; lra).
  apply Rabs_le_inv in R1. apply Rabs_le_inv in R2. apply Rabs_le. fold (tiny prec emax) in R1, R2. lra.
Qed.

Lemma minmax_ok (l : list number) : forall m M, is_finite m = true -> is_finite M = true -> (forall x, In x l -> is_finite x = true) ->
  let '(a, b) := fold_left (fun '(min, max) x => (if Bltb x min then x else min, if Bltb x max then max else x)) l (m, M) in
  (a = m \/ In a l) /\ (b = M \/ In b l) /\ B2R a <= B2R m /\ B2R M <= B2R b /\ (forall x, In x l -> B2R a <= B2R x <= B2R b).
Proof using.
  induction l as [|y l IH]; intros m M Fm FM F; cbn [fold_left].
  - repeat split; auto; try lra; destruct H.
  - assert (Fy : is_finite y = true) by (apply F; now left).
    pose proof (Bltb_correct _ _ y m Fy Fm) as Lm. pose proof (Bltb_correct _ _ y M Fy FM) as LM.
    cbn [In]. destruct (Bltb y m), (Bltb y M); symmetry in Lm, LM;
      (match goal with |- context [fold_left _ l (?p, ?q)] => specialize (IH p q) end);
      destruct (fold_left _ l _) as (a, b);
      (destruct IH as (I1 & I2 & I3 & I4 & I5); [auto|auto|intros; apply F; now right|]);
      destruct (Rlt_bool_spec (B2R y) (B2R m)); try discriminate; destruct (Rlt_bool_spec (B2R y) (B2R M)); try discriminate;
      (split; [intuition congruence|]; split; [intuition congruence|]; split; [lra|]; split; [lra|];
       intros x [<-|Hx]; [lra|now apply I5]).
Qed.
End Binary.
