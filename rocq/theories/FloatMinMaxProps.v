(** Scores from [normalize_min_max] on [float] and [double] values. *)
From Coq Require Import Reals List Arith ZArith Bool Lia Lra Psatz.
From Flocq Require Import Core BinarySingleNaN.
From Verif Require Import Base FloatModel FloatSpec FloatProofs FloatProps AccuracySpec AccuracyProofs FloatAliasProps
  FloatSilhouetteModel FloatSilhouetteProofs FloatMinMaxModel FloatMinMaxSpec FloatMinMaxProofs.
Import ListNotations.
Open Scope R_scope.

Section Formats.
Context {prec emax : Z} (Hp : Prec_gt_0 prec) (Hm : Prec_lt_emax prec emax) (Hfmt : format_ok prec emax).
Notation number := (binary_float prec emax).
Notation rnd := (round radix2 (FLT_exp (3 - emax - prec) prec) ZnearestE).
Notation normalize := (float_normalize_min_max prec emax Hp Hm).
Notation score := (float_score prec emax Hp Hm).
Notation no_overflow := (no_overflow Hp Hm).

Lemma normalize_cases (l : list number) : no_overflow l -> l <> [] ->
  ((forall x y, In x l -> In y l -> B2R x = B2R y) /\
   normalize l = Ok (repeat (Bdiv mode_NE Bone (count prec emax Hp Hm (length l))) (length l))) \/
  (exists m M, smallest l m /\ largest l M /\ B2R m < B2R M /\ normalize l = Ok (map (score m M) l)).
Proof using.
  intros (F & _) Hl. destruct l as [|first rest]; [congruence|].
  pose proof (minmax_ok prec emax rest first first (F first (or_introl eq_refl)) (F first (or_introl eq_refl)) (fun x Hx => F x (or_intror Hx))) as H.
  unfold float_normalize_min_max, float_minmax. destruct (fold_left _ rest (first, first)) as (m, M). destruct H as (I1 & I2 & H1 & H2 & H).
  assert (J1 : In m (first :: rest)) by (destruct I1 as [->|I1]; [now left|now right]).
  assert (J2 : In M (first :: rest)) by (destruct I2 as [->|I2]; [now left|now right]).
  assert (K : forall x, In x (first :: rest) -> B2R m <= B2R x <= B2R M) by (intros x [<-|Hx]; [lra|now apply H]).
  rewrite (Beqb_correct _ _ m M (F m J1) (F M J2)). destruct (Req_bool_spec (B2R m) (B2R M)) as [E|E].
  - left. split; auto. intros x y Hx Hy. pose proof (K x Hx). pose proof (K y Hy). lra.
  - right. exists m, M. pose proof (K m J1). repeat split; auto; try (intros y Hy; now apply K). lra.
Qed.

Lemma score_ok (l : list number) m M x : no_overflow l -> smallest l m -> largest l M -> B2R m < B2R M -> In x l ->
  is_finite (score m M x) = true /\ 0 < rnd (B2R M - B2R m) /\ 0 <= rnd (B2R x - B2R m) / rnd (B2R M - B2R m) <= 1 /\
  B2R (score m M x) = rnd (1 - rnd (rnd (B2R x - B2R m) / rnd (B2R M - B2R m))).
Proof using Hfmt.
  destruct Hfmt as (Hprec & Hemax). intros (F & O) (m1 & m2) (M1 & M2) L Hx.
  apply (score_value prec emax Hp Hm Hprec Hemax); auto.
Qed.

(** Equal values share a total of one. *)
Theorem c117_equal : forall l : list number, no_overflow l -> l <> [] -> (Z.of_nat (length l) <= 2 ^ prec)%Z ->
  (forall x y, In x l -> In y l -> B2R x = B2R y) ->
  exists w, normalize l = Ok (repeat w (length l)) /\ is_finite w = true /\ B2R w = rnd (1 / INR (length l)).
Proof using Hfmt.
  destruct Hfmt as (Hprec & Hemax). intros l O Hl Hn E. destruct (normalize_cases l O Hl) as [(_ & N)|(m & M & (m1 & _) & (M1 & _) & L & _)].
  2: { rewrite (E m M m1 M1) in L. lra. }
  assert (H1 : (1 <= length l)%nat) by (destruct l; [congruence|simpl; lia]).
  assert (He : (Z.of_nat (length l) <= 2 ^ (emax - 1))%Z) by (apply Z.le_trans with (1 := Hn); apply Z.pow_le_mono_r; lia).
  destruct (count_ok prec emax Hp Hm Hprec Hemax (length l) H1 He) as (Fk & Sk & _ & _).
  pose proof (count_exact prec emax Hp Hm Hprec Hemax (length l) H1 Hn) as Ek.
  eexists. split; [exact N|]. pose proof (le_INR _ _ H1) as HI. simpl in HI.
  pose proof (Bdiv_correct prec emax Hp Hm mode_NE Bone (count prec emax Hp Hm (length l))) as D.
  rewrite Ek, (B2R_one prec emax Hp Hm) in D. specialize (D ltac:(lra)).
  change (SpecFloat.fexp prec emax) with (FLT_exp (3 - emax - prec) prec) in D. cbn [round_mode] in D.
  rewrite (unit_small prec emax Hp Hm Hprec Hemax) in D.
  - destruct D as (D1 & D2 & _). split; [|exact D1]. rewrite D2. apply is_finite_Bone.
  - split; [apply Rle_mult_inv_pos; lra|]. apply Rmult_le_reg_r with (INR (length l)); [lra|]. unfold Rdiv. rewrite Rmult_assoc, Rinv_l by lra. lra.
Qed.

(** There is a score for each value, never outside 0 to 1 in spite of the rounding. *)
Theorem c117_range : forall l : list number, no_overflow l -> l <> [] -> (Z.of_nat (length l) <= 2 ^ prec)%Z ->
  exists ws, normalize l = Ok ws /\ length ws = length l /\ forall w, In w ws -> is_finite w = true /\ 0 <= B2R w <= 1.
Proof using Hfmt.
  intros l O Hl Hn. pose proof Hfmt as (Hprec & Hemax). destruct (normalize_cases l O Hl) as [(E & _)|(m & M & Hs & HL & L & N)].
  - destruct (c117_equal l O Hl Hn E) as (w & N & F & V). exists (repeat w (length l)). split; auto. split; [apply repeat_length|].
    intros w' Hw. apply repeat_spec in Hw as ->. split; auto. rewrite V. apply (rnd_unit prec emax Hp Hm).
    assert (HI : 1 <= INR (length l)) by (destruct l; [congruence|cbn [length]; rewrite S_INR; pose proof (pos_INR (length l)); lra]).
    split; [apply Rle_mult_inv_pos; lra|]. apply Rmult_le_reg_r with (INR (length l)); [lra|]. unfold Rdiv. rewrite Rmult_assoc, Rinv_l by lra. lra.
  - exists (map (score m M) l). split; auto. split; [apply map_length|]. intros w Hw. apply in_map_iff in Hw as (x & <- & Hx).
    destruct (score_ok l m M x O Hs HL L Hx) as (F & _ & Q & ->). split; auto.
    apply (rnd_unit prec emax Hp Hm). pose proof (rnd_unit prec emax Hp Hm _ Q). lra.
Qed.

(** A larger value never gets a larger score. *)
Theorem c117_antitone : forall (l ws : list number) i j x y v w, no_overflow l -> normalize l = Ok ws ->
  nth_error l i = Some x -> nth_error l j = Some y -> nth_error ws i = Some v -> nth_error ws j = Some w ->
  B2R x <= B2R y -> B2R w <= B2R v.
Proof using Hfmt.
  intros l ws i j x y v w O N Ex Ey Ev Ew Hxy. pose proof (nth_error_In _ _ Ex) as Ix. pose proof (nth_error_In _ _ Ey) as Iy.
  assert (Hl : l <> []) by (intros ->; destruct Ix).
  destruct (normalize_cases l O Hl) as [(_ & N')|(m & M & Hs & HL & L & N')]; rewrite N in N'; injection N' as ->.
  - apply nth_error_In, repeat_spec in Ev. apply nth_error_In, repeat_spec in Ew. subst. lra.
  - rewrite nth_error_map, Ex in Ev. rewrite nth_error_map, Ey in Ew. injection Ev as <-. injection Ew as <-.
    destruct (score_ok l m M x O Hs HL L Ix) as (_ & P & _ & ->). destruct (score_ok l m M y O Hs HL L Iy) as (_ & _ & _ & ->).
    apply (rnd_mono prec emax Hp). apply Rplus_le_compat_l, Ropp_le_contravar. apply (rnd_mono prec emax Hp).
    apply Rmult_le_compat_r; [left; now apply Rinv_0_lt_compat|]. apply (rnd_mono prec emax Hp). lra.
Qed.

(** The smallest values get exactly one and the largest exactly zero, unless all are equal. *)
Theorem c117_ends : forall (l ws : list number) i x w, no_overflow l -> normalize l = Ok ws ->
  (exists y z, In y l /\ In z l /\ B2R y <> B2R z) -> nth_error l i = Some x -> nth_error ws i = Some w ->
  (smallest l x -> B2R w = 1) /\ (largest l x -> B2R w = 0).
Proof using Hfmt.
  intros l ws i x w O N (y & z & Hy & Hz & Hyz) Ex Ew. pose proof (nth_error_In _ _ Ex) as Ix.
  assert (Hl : l <> []) by (intros ->; destruct Ix).
  destruct (normalize_cases l O Hl) as [(E & _)|(m & M & Hs & HL & L & N')]; [now destruct (Hyz (E y z Hy Hz))|].
  rewrite N in N'. injection N' as ->. rewrite nth_error_map, Ex in Ew. injection Ew as <-.
  destruct (score_ok l m M x O Hs HL L Ix) as (_ & P & _ & ->). destruct Hs as (m1 & m2). destruct HL as (M1 & M2). split; intros (_ & X).
  - replace (B2R x) with (B2R m) by (apply Rle_antisym; auto).
    replace (B2R m - B2R m) with 0 by lra. rewrite (rnd_z prec emax). unfold Rdiv. rewrite Rmult_0_l, (rnd_z prec emax), Rminus_0_r. now apply (rnd_1 prec emax Hp Hm).
  - replace (B2R x) with (B2R M) by (apply Rle_antisym; auto).
    unfold Rdiv. rewrite Rinv_r, (rnd_1 prec emax Hp Hm) by lra. replace (1 - 1) with 0 by lra. apply (rnd_z prec emax).
Qed.

(** Each score is within five roundings of the exact one. *)
Theorem c117_accurate : forall (l ws : list number) i x w m M, no_overflow l -> normalize l = Ok ws -> smallest l m -> largest l M ->
  B2R m < B2R M -> nth_error l i = Some x -> nth_error ws i = Some w ->
  Rabs (B2R w - (1 - (B2R x - B2R m) / (B2R M - B2R m))) <= 5 * roundoff prec.
Proof using Hfmt.
  intros l ws i x w a b O N (a1 & a2) (b1 & b2) Hab Ex Ew. pose proof (nth_error_In _ _ Ex) as Ix. pose proof Hfmt as (Hprec & Hemax).
  assert (Hl : l <> []) by (intros ->; destruct Ix).
  destruct (normalize_cases l O Hl) as [(E & _)|(m & M & Hs & HL & L & N')]; [rewrite (E a b a1 b1) in Hab; lra|].
  rewrite N in N'. injection N' as ->. rewrite nth_error_map, Ex in Ew. injection Ew as <-.
  destruct (score_ok l m M x O Hs HL L Ix) as (_ & P & _ & ->). destruct Hs as (m1 & m2). destruct HL as (M1 & M2).
  replace (B2R a) with (B2R m) in * by (apply Rle_antisym; auto). replace (B2R b) with (B2R M) in * by (apply Rle_antisym; auto).
  pose proof (m2 x Ix). pose proof (M2 x Ix).
  pose proof (rnd_difference prec emax Hp Hprec (B2R x) (B2R m) (generic_format_B2R _ _ _) (generic_format_B2R _ _ _)) as R1.
  pose proof (rnd_difference prec emax Hp Hprec (B2R M) (B2R m) (generic_format_B2R _ _ _) (generic_format_B2R _ _ _)) as R2.
  rewrite Rabs_pos_eq in R1, R2 by lra.
  apply (score_close prec emax Hp Hm Hprec Hemax); auto; try lra.
  - apply (rnd_mono prec emax Hp). lra.
  - rewrite <- (rnd_z prec emax). apply (rnd_mono prec emax Hp). lra.
Qed.
End Formats.

(** ** Examples and counterexamples *)
Notation single_normalize := (float_normalize_min_max 24 128 prec_float emax_float).
Definition seen (c : res (list (binary_float 24 128))) : option (list SpecFloat.spec_float) := match c with Ok l => Some (map B2SF l) | _ => None end.
Definition sample : list (binary_float 24 128) := [single 3 0; single (-1) 0; single 1 (-149); single 5 0].

Lemma sample_ok : no_overflow prec_float emax_float sample.
Proof.
  split; [intros x [<-|[<-|[<-|[<-|[]]]]]; reflexivity|].
  intros x y [<-|[<-|[<-|[<-|[]]]]] [<-|[<-|[<-|[<-|[]]]]]; vm_compute; reflexivity.
Qed.

Example c117_equal_case : no_overflow prec_float emax_float [B754_zero true; B754_zero false; B754_zero true] /\
  seen (single_normalize [B754_zero true; B754_zero false; B754_zero true]) = Some (repeat (SpecFloat.S754_finite false 11184811 (-25)) 3).
Proof.
  split; [|vm_compute; reflexivity]. split; [intros x [<-|[<-|[<-|[]]]]; reflexivity|].
  intros x y [<-|[<-|[<-|[]]]] [<-|[<-|[<-|[]]]]; vm_compute; reflexivity.
Qed.

Example c117_range_case : no_overflow prec_float emax_float sample /\ sample <> [] /\ (Z.of_nat (length sample) <= 2 ^ 24)%Z /\
  seen (single_normalize sample) = Some [SpecFloat.S754_finite false 11184810 (-25); SpecFloat.S754_finite false 8388608 (-23);
    SpecFloat.S754_finite false 13981013 (-24); SpecFloat.S754_zero false].
Proof. split; [exact sample_ok|]. split; [discriminate|]. split; [vm_compute; discriminate|]. vm_compute. reflexivity. Qed.

Example c117_antitone_case : no_overflow prec_float emax_float sample /\ nth_error sample 2 = Some (single 1 (-149)) /\
  nth_error sample 0 = Some (single 3 0) /\ Bltb (single 1 (-149)) (single 3 0) = true.
Proof. split; [exact sample_ok|]. split; [reflexivity|]. split; [reflexivity|]. vm_compute. reflexivity. Qed.

Example c117_ends_case : smallest sample (single (-1) 0) /\ largest sample (single 5 0) /\
  (exists y z, In y sample /\ In z sample /\ B2R y <> B2R z).
Proof.
  assert (T : 0 < B2R (single 1 (-149)) <= 1).
  { assert (V : B2R (single 1 (-149)) = bpow radix2 (-149)) by (values_in; lra). rewrite V. split; [apply bpow_gt_0|].
    change 1 with (bpow radix2 0). apply bpow_le. lia. }
  assert (V3 : B2R (single 3 0) = 3) by (values_in; lra). assert (V1 : B2R (single (-1) 0) = -1) by (values_in; lra).
  assert (V5 : B2R (single 5 0) = 5) by (values_in; lra).
  split; [|split].
  - split; [right; now left|]. intros y [<-|[<-|[<-|[<-|[]]]]]; lra.
  - split; [do 3 right; now left|]. intros y [<-|[<-|[<-|[<-|[]]]]]; lra.
  - exists (single 3 0), (single (-1) 0). split; [now left|]. split; [right; now left|]. lra.
Qed.

Example c117_accurate_case : smallest sample (single (-1) 0) /\ largest sample (single 5 0) /\ B2R (single (-1) 0) < B2R (single 5 0) /\
  nth_error sample 0 = Some (single 3 0) /\ 1 - (B2R (single 3 0) - B2R (single (-1) 0)) / (B2R (single 5 0) - B2R (single (-1) 0)) = / 3.
Proof.
  destruct c117_ends_case as (S & L & _). assert (V3 : B2R (single 3 0) = 3) by (values_in; lra).
  assert (V1 : B2R (single (-1) 0) = -1) by (values_in; lra). assert (V5 : B2R (single 5 0) = 5) by (values_in; lra).
  split; [exact S|]. split; [exact L|]. rewrite V1, V3, V5. split; [lra|]. split; [reflexivity|]. field.
Qed.

(** Different values can get the same score. *)
Theorem c117_strict_refuted : exists l : list (binary_float 24 128), no_overflow prec_float emax_float l /\
  (exists x y, nth_error l 0 = Some x /\ nth_error l 1 = Some y /\ Bltb x y = true) /\
  (exists a b c, seen (single_normalize l) = Some [a; b; c] /\ a = b).
Proof.
  exists [single 0 0; single 1 (-60); single 1 0]. split; [|split].
  - split; [intros x [<-|[<-|[<-|[]]]]; reflexivity|]. intros x y [<-|[<-|[<-|[]]]] [<-|[<-|[<-|[]]]]; vm_compute; reflexivity.
  - do 2 eexists. split; [reflexivity|]. split; [reflexivity|]. vm_compute. reflexivity.
  - do 3 eexists. split; [vm_compute; reflexivity|reflexivity].
Qed.

(** When the largest difference overflows the largest value gets NaN. *)
Theorem c117_overflow_refuted : exists l : list (binary_float 24 128), l <> [] /\ (forall x, In x l -> is_finite x = true) /\
  exists a b, seen (single_normalize l) = Some [a; b; SpecFloat.S754_nan].
Proof.
  exists [single (-1) 127; single 0 0; single 1 127]. split; [discriminate|].
  split; [intros x [<-|[<-|[<-|[]]]]; reflexivity|]. do 2 eexists. vm_compute. reflexivity.
Qed.

Print Assumptions c117_equal.
Print Assumptions c117_range.
Print Assumptions c117_antitone.
Print Assumptions c117_ends.
Print Assumptions c117_accurate.
Print Assumptions c117_strict_refuted.
Print Assumptions c117_overflow_refuted.
