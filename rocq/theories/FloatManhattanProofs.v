(** Properties of the rounded Manhattan distance. *)
From Coq Require Import Reals List Arith ZArith Bool Lia Lra Psatz Permutation.
From Flocq Require Import Core BinarySingleNaN.
From Verif Require Import Base FloatModel FloatSpec FloatProofs AccuracySpec AccuracyProofs FloatManhattanModel FloatManhattanSpec.
Import ListNotations.
Open Scope R_scope.

Section Binary.
Context (prec emax : Z) (Hp : Prec_gt_0 prec) (Hm : Prec_lt_emax prec emax).
Context (Hprec : (2 <= prec)%Z) (Hemax : (prec + 3 <= emax)%Z).
Notation number := (binary_float prec emax).
Notation emin := (3 - emax - prec)%Z.
Notation fexp := (FLT_exp emin prec).
Notation rnd := (round radix2 fexp ZnearestE).
Notation top := (bpow radix2 emax).
Notation u := (roundoff prec).
Notation level := (level prec emax).
Notation good := (good prec emax).
Notation cap := (cap emax).
Notation zero := (B754_zero false : number).
Notation add_up := (add_up prec emax Hp Hm).
Notation gap := (float_gap prec emax Hp Hm).
Implicit Types x y : number.

Lemma gap_ok x y : is_finite x = true -> is_finite y = true ->
  good (gap x y) /\ level (gap x y) = cap (rnd (Rabs (B2R x - B2R y))).
Proof using Hprec Hemax.
  intros Fx Fy. destruct (minus_ok prec emax Hp Hm Hprec x y Fx Fy) as (N & E). split; auto.
  apply (level_abs prec emax _ N).
Qed.

Lemma gap_sym x y : is_finite x = true -> is_finite y = true -> gap x y = gap y x.
Proof using Hprec Hemax.
  intros Fx Fy. destruct (gap_ok x y Fx Fy) as (G1 & E1). destruct (gap_ok y x Fy Fx) as (G2 & E2).
  apply (level_inj prec emax); auto. now rewrite E1, E2, Rabs_minus_sym.
Qed.

Definition all_good (gaps : list number) : Prop := forall i, good (nth i gaps zero).

Lemma add_up_good g gaps : all_good gaps -> good (add_up g gaps).
Proof using Hprec Hemax.
  intros H. induction g as [|i|a IHa b IHb|i b IHb]; cbn [FloatManhattanModel.add_up]; auto.
  - reflexivity.
  - now apply (plus_ok prec emax Hp Hm Hprec Hemax).
  - apply (plus_ok prec emax Hp Hm Hprec Hemax); auto.
Qed.

Lemma add_up_ge g gaps i : all_good gaps -> In i (terms g) -> level (nth i gaps zero) <= level (add_up g gaps).
Proof using Hprec Hemax.
  intros H. assert (P : forall x y, good x -> good y -> level x <= level (Bplus mode_NE x y) /\ level y <= level (Bplus mode_NE x y)).
  { intros x y Gx Gy. destruct (plus_ok prec emax Hp Hm Hprec Hemax x y Gx Gy) as (_ & ->).
    pose proof (level_range prec emax x Gx). pose proof (level_range prec emax y Gy).
    split; apply (cap_rnd_ge prec emax Hprec Hemax); auto; lra. }
  induction g as [|j|a IHa b IHb|j b IHb]; cbn [FloatManhattanModel.add_up terms]; intros Hi.
  - destruct Hi.
  - destruct Hi as [->|[]]. lra.
  - destruct (P _ _ (add_up_good a gaps H) (add_up_good b gaps H)) as (P1 & P2). apply in_app_or in Hi as [Hi|Hi]; [specialize (IHa Hi)|specialize (IHb Hi)]; lra.
  - destruct (P _ _ (H j) (add_up_good b gaps H)) as (P1 & P2). destruct Hi as [->|Hi]; [lra|specialize (IHb Hi); lra].
Qed.

Lemma cap_small r : r < top -> cap r = r.
Proof using. intros H. unfold FloatProofs.cap. apply Rmin_left. lra. Qed.

Lemma step_accurate a b s t (h k : nat) : good a -> good b -> 0 <= s -> 0 <= t -> (k <= h)%nat ->
  (1 + u) ^ S h * (s + t) < top ->
  (1 - u) ^ h * s <= level a <= (1 + u) ^ h * s -> (1 - u) ^ k * t <= level b <= (1 + u) ^ k * t ->
  (1 - u) ^ S h * (s + t) <= level (Bplus mode_NE a b) <= (1 + u) ^ S h * (s + t).
Proof using Hprec Hemax.
  intros Ga Gb Hs Ht Hk Htop Ba Bb. destruct (plus_ok prec emax Hp Hm Hprec Hemax a b Ga Gb) as (_ & ->).
  pose proof (u_range prec Hprec) as U. pose proof (level_range prec emax a Ga) as Ra. pose proof (level_range prec emax b Gb) as Rb.
  pose proof (rnd_sum prec emax Hp Hprec (level a) (level b) (fmt_level prec emax Hprec Hemax a Ga) (fmt_level prec emax Hprec Hemax b Gb) ltac:(lra)) as R.
  pose proof (grow_mono prec Hprec k h Hk) as GM. pose proof (shrink_mono prec Hprec k h Hk) as SM.
  assert (B1 : (1 + u) ^ k * t <= (1 + u) ^ h * t) by (apply Rmult_le_compat_r; lra).
  assert (B2 : (1 - u) ^ h * t <= (1 - u) ^ k * t) by (apply Rmult_le_compat_r; lra).
  assert (Hi : (1 + u) * (level a + level b) <= (1 + u) ^ S h * (s + t)).
  { cbn [pow]. rewrite Rmult_assoc. apply Rmult_le_compat_l; lra. }
  assert (Lo : (1 - u) ^ S h * (s + t) <= (1 - u) * (level a + level b)).
  { cbn [pow]. rewrite Rmult_assoc. apply Rmult_le_compat_l; lra. }
  rewrite cap_small by lra. lra.
Qed.

Lemma add_up_accurate (f : nat -> R) gaps g : all_good gaps -> (forall i, 0 <= f i) ->
  (forall i, (1 + u) * f i < top -> (1 - u) * f i <= level (nth i gaps zero) <= (1 + u) * f i) ->
  (1 + u) ^ depth g * total f (terms g) < top ->
  (1 - u) ^ depth g * total f (terms g) <= level (add_up g gaps) <= (1 + u) ^ depth g * total f (terms g).
Proof using Hprec Hemax.
  intros HG Hf Hi. pose proof (u_range prec Hprec) as U.
  assert (Sub : forall h h' a b, (h <= h')%nat -> 0 <= a <= b -> (1 + u) ^ h' * b < top -> (1 + u) ^ h * a < top).
  { intros h h' a b Hh Hab Ht. apply Rle_lt_trans with (2 := Ht). pose proof (grow_mono prec Hprec h h' Hh). pose proof (grow_pos prec Hprec h).
    apply Rmult_le_compat; lra. }
  assert (Join : forall a b s t (h k : nat), good a -> good b -> 0 <= s -> 0 <= t -> (1 + u) ^ S (max h k) * (s + t) < top ->
    ((1 + u) ^ h * s < top -> (1 - u) ^ h * s <= level a <= (1 + u) ^ h * s) ->
    ((1 + u) ^ k * t < top -> (1 - u) ^ k * t <= level b <= (1 + u) ^ k * t) ->
    (1 - u) ^ S (max h k) * (s + t) <= level (Bplus mode_NE a b) <= (1 + u) ^ S (max h k) * (s + t)).
  { intros a b s t h k Ga Gb Hs Ht Htop Ha Hb.
    specialize (Ha (Sub h (S (max h k)) s (s + t) ltac:(lia) ltac:(lra) Htop)). specialize (Hb (Sub k (S (max h k)) t (s + t) ltac:(lia) ltac:(lra) Htop)).
    set (m := max h k) in *. assert (Wide : forall (j : nat) (x v : R), (j <= m)%nat -> 0 <= v -> (1 - u) ^ j * v <= x <= (1 + u) ^ j * v -> (1 - u) ^ m * v <= x <= (1 + u) ^ m * v).
    { intros j x v Hj Hv Hx. pose proof (grow_mono prec Hprec j m Hj). pose proof (shrink_mono prec Hprec j m Hj).
      assert ((1 + u) ^ j * v <= (1 + u) ^ m * v) by (apply Rmult_le_compat_r; lra).
      assert ((1 - u) ^ m * v <= (1 - u) ^ j * v) by (apply Rmult_le_compat_r; lra). lra. }
    apply (step_accurate a b s t m m); auto; [apply (Wide h)|apply (Wide k)]; auto; unfold m; lia. }
  induction g as [|i|a IHa b IHb|i b IHb]; cbn [FloatManhattanModel.add_up terms depth]; intros Htop.
  - cbn [total fold_right pow]. change (level zero) with 0. lra.
  - unfold total in *. cbn [fold_right pow] in *. rewrite Rplus_0_r, !Rmult_1_r in *. auto.
  - rewrite total_app in *. apply Join; auto using add_up_good, total_nonneg.
  - cbn [total fold_right] in *. fold (total f (terms b)) in *. apply Join; auto using add_up_good, total_nonneg.
    rewrite !pow_1. auto.
Qed.

Lemma manhattan_total l : forall r, length l = length r ->
  true_manhattan l r = total (fun i => Rabs (B2R (nth i l zero) - B2R (nth i r zero))) (seq 0 (length l)).
Proof using.
  induction l as [|x l IH]; intros [|y r] H; try discriminate H; auto. injection H as H. cbn [true_manhattan length seq]. rewrite (IH r H).
  unfold total at 2. cbn [fold_right nth]. f_equal. unfold total. rewrite <- seq_shift. clear. induction (seq 0 (length l)) as [|i s IHs]; auto.
  cbn [map fold_right nth]. now rewrite IHs.
Qed.

Definition finite_list (l : list number) : Prop := forall x, In x l -> is_finite x = true.

Lemma finite_nth l i : finite_list l -> is_finite (nth i l zero) = true.
Proof using. intros H. destruct (nth_in_or_default i l zero) as [I| ->]; auto. Qed.

Lemma gap_zero : gap zero zero = zero.
Proof using. reflexivity. Qed.

Notation gaps l r := (map (fun xy => gap (fst xy) (snd xy)) (combine l r)).

Lemma nth_gaps l r i : length l = length r -> nth i (gaps l r) zero = gap (nth i l zero) (nth i r zero).
Proof using.
  intros E. rewrite <- gap_zero at 1. rewrite (map_nth (fun xy => gap (fst xy) (snd xy)) _ (zero, zero)). now rewrite combine_nth.
Qed.

Lemma gaps_good l r : finite_list l -> finite_list r -> length l = length r -> all_good (gaps l r).
Proof using Hprec Hemax. intros Hl Hr H i. rewrite nth_gaps by auto. apply gap_ok; now apply finite_nth. Qed.

Lemma gaps_sym l r : finite_list l -> finite_list r -> length l = length r -> gaps l r = gaps r l.
Proof using Hprec Hemax.
  revert r. induction l as [|x l IH]; intros [|y r] Hl Hr H; try discriminate H; auto. cbn [combine map fst snd]. f_equal.
  - apply gap_sym; [apply Hl|apply Hr]; now left.
  - apply IH; [intros z Hz; apply Hl; now right|intros z Hz; apply Hr; now right|now injection H].
Qed.

Lemma gap_positive x y : is_finite x = true -> is_finite y = true -> level (gap x y) = 0 <-> B2R x = B2R y.
Proof using Hprec Hemax.
  intros Fx Fy. destruct (gap_ok x y Fx Fy) as (G & ->). pose proof (u_range prec Hprec) as U. split.
  - intros H. pose proof (rnd_difference prec emax Hp Hprec (B2R x) (B2R y) (generic_format_B2R _ _ _) (generic_format_B2R _ _ _)) as R.
    pose proof (bpow_gt_0 radix2 emax) as T. unfold FloatProofs.cap in H. destruct (Rle_lt_dec (rnd (Rabs (B2R x - B2R y))) top) as [L|L].
    + rewrite Rmin_left in H by auto. rewrite H in R. pose proof (Rabs_pos (B2R x - B2R y)) as P.
      assert (Z : Rabs (B2R x - B2R y) = 0) by nra. destruct (Req_dec (B2R x - B2R y) 0) as [E|E]; [lra|]. apply Rabs_no_R0 in E. contradiction.
    + rewrite Rmin_right in H by lra. lra.
  - intros ->. rewrite Rminus_diag_eq, Rabs_R0 by reflexivity. rewrite round_0 by apply valid_rnd_N. apply cap_small. apply bpow_gt_0.
Qed.

Lemma add_up_zero g gs : all_good gs -> (forall i, level (nth i gs zero) = 0) -> level (add_up g gs) = 0.
Proof using Hprec Hemax.
  intros HG H. assert (P : forall x y, good x -> good y -> level x = 0 -> level y = 0 -> level (Bplus mode_NE x y) = 0).
  { intros x y Gx Gy Ex Ey. destruct (plus_ok prec emax Hp Hm Hprec Hemax x y Gx Gy) as (_ & ->). rewrite Ex, Ey, Rplus_0_r.
    rewrite round_0 by apply valid_rnd_N. apply cap_small. apply bpow_gt_0. }
  induction g as [|i|a IHa b IHb|i b IHb]; cbn [FloatManhattanModel.add_up]; auto using add_up_good.
Qed.

Lemma add_up_mono g gs gs' : all_good gs -> all_good gs' -> (forall i, level (nth i gs zero) <= level (nth i gs' zero)) ->
  level (add_up g gs) <= level (add_up g gs').
Proof using Hprec Hemax.
  intros HG HG' H. assert (P : forall x y x' y', good x -> good y -> good x' -> good y' -> level x <= level x' -> level y <= level y' ->
    level (Bplus mode_NE x y) <= level (Bplus mode_NE x' y')).
  { intros x y x' y' Gx Gy Gx' Gy' Ex Ey. destruct (plus_ok prec emax Hp Hm Hprec Hemax x y Gx Gy) as (_ & ->).
    destruct (plus_ok prec emax Hp Hm Hprec Hemax x' y' Gx' Gy') as (_ & ->). apply cap_rnd_le; auto. lra. }
  induction g as [|i|a IHa b IHb|i b IHb]; cbn [FloatManhattanModel.add_up]; auto using add_up_good. lra.
Qed.

Lemma gap_mono x y x' y' : is_finite x = true -> is_finite y = true -> is_finite x' = true -> is_finite y' = true ->
  Rabs (B2R x - B2R y) <= Rabs (B2R x' - B2R y') -> level (gap x y) <= level (gap x' y').
Proof using Hprec Hemax.
  intros Fx Fy Fx' Fy' H. destruct (gap_ok x y Fx Fy) as (_ & ->). destruct (gap_ok x' y' Fx' Fy') as (_ & ->). now apply cap_rnd_le.
Qed.
End Binary.
