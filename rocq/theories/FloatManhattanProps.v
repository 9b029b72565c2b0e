(** The Manhattan distance on [float] and [double] features. *)
From Coq Require Import Reals List Arith ZArith Bool Lia Lra Psatz Permutation.
From Flocq Require Import Core BinarySingleNaN.
From Verif Require Import Base FloatModel FloatSpec FloatProofs FloatProps AccuracySpec AccuracyProofs FloatAliasProps
  FloatManhattanModel FloatManhattanSpec FloatManhattanProofs.
Import ListNotations.
Open Scope R_scope.

Section Formats.
Context {prec emax : Z} (Hp : Prec_gt_0 prec) (Hm : Prec_lt_emax prec emax) (Hfmt : format_ok prec emax).
Notation number := (binary_float prec emax).
Notation u := (roundoff prec).
Notation zero := (B754_zero false : number).
Notation manhattan := (float_manhattan prec emax Hp Hm).
Notation gaps l r := (map (fun xy => float_gap prec emax Hp Hm (fst xy) (snd xy)) (combine l r)).

Lemma manhattan_value order (l r : list number) : length l = length r ->
  manhattan order l r = Ok (add_up prec emax Hp Hm (order (length l)) (gaps l r)).
Proof using. intros H. unfold float_manhattan. rewrite H, Nat.ltb_irrefl. reflexivity. Qed.

(** The distance of finite points is a number from 0 to infinity, the same to a bit in both directions. *)
Theorem c116_symmetric : forall order (l r : list number), length l = length r ->
  (forall x, In x l -> is_finite x = true) -> (forall x, In x r -> is_finite x = true) ->
  exists d, manhattan order l r = Ok d /\ manhattan order r l = Ok d /\ is_nan d = false /\ Bsign d = false.
Proof using Hfmt.
  destruct Hfmt as (Hprec & Hemax). intros order l r H Fl Fr. rewrite !manhattan_value by auto.
  rewrite (gaps_sym prec emax Hp Hm Hprec Hemax r l) by auto. rewrite <- H. eexists. split; [reflexivity|]. split; [reflexivity|].
  pose proof (add_up_good prec emax Hp Hm Hprec Hemax (order (length l)) _ (gaps_good prec emax Hp Hm Hprec Hemax l r Fl Fr H)) as G.
  unfold good, is_distance in G. apply andb_true_iff in G as (G1 & G2). now rewrite negb_true_iff in G1, G2.
Qed.

Theorem c116_second_too_short : forall order (l r : list number), (length r < length l)%nat -> manhattan order l r = UB.
Proof using. intros order l r H. unfold float_manhattan. destruct (Nat.ltb_spec (length r) (length l)); auto. lia. Qed.

(** It is zero only for points with the same coordinates: differences do not underflow. *)
Theorem c116_zero : forall order (l r : list number) d, adds_each_once order -> length l = length r ->
  (forall x, In x l -> is_finite x = true) -> (forall x, In x r -> is_finite x = true) -> manhattan order l r = Ok d ->
  d = zero <-> Forall2 (fun x y => B2R x = B2R y) l r.
Proof using Hfmt.
  destruct Hfmt as (Hprec & Hemax). intros order l r d Ho H Fl Fr E. rewrite manhattan_value in E by auto. injection E as <-.
  pose proof (gaps_good prec emax Hp Hm Hprec Hemax l r Fl Fr H) as G.
  pose proof (add_up_good prec emax Hp Hm Hprec Hemax (order (length l)) _ G) as Gs. split.
  - intros Z. assert (P : forall i, (i < length l)%nat -> B2R (nth i l zero) = B2R (nth i r zero)).
    { intros i Hi. apply (gap_positive prec emax Hp Hm Hprec Hemax); try now apply finite_nth.
      rewrite <- nth_gaps by auto. pose proof (level_range prec emax _ (G i)) as R.
      assert (I : In i (terms (order (length l)))) by (apply Permutation_in with (1 := Permutation_sym (Ho (length l))), in_seq; lia).
      pose proof (add_up_ge prec emax Hp Hm Hprec Hemax _ _ i G I) as L. rewrite Z in L. change (level prec emax zero) with 0 in L. lra. }
    clear - H P. revert r H P. induction l as [|x l IH]; intros [|y r] H P; try discriminate H; constructor.
    + exact (P 0%nat ltac:(simpl; lia)).
    + apply IH; [now injection H|]. intros i Hi. exact (P (S i) ltac:(simpl; lia)).
  - intros F. apply (level_inj prec emax); auto; [reflexivity|]. change (level prec emax zero) with 0.
    apply (add_up_zero prec emax Hp Hm Hprec Hemax); auto. intros i. rewrite nth_gaps by auto.
    apply (gap_positive prec emax Hp Hm Hprec Hemax); try now apply finite_nth.
    clear - F. revert i. induction F as [|x y l r E F IH]; intros [|i]; cbn [nth]; auto.
Qed.

(** It is at least the difference of each coordinate, as computed. *)
Theorem c116_at_least_each : forall order (l r : list number) d i x y, adds_each_once order -> length l = length r ->
  (forall x, In x l -> is_finite x = true) -> (forall x, In x r -> is_finite x = true) -> manhattan order l r = Ok d ->
  nth_error l i = Some x -> nth_error r i = Some y -> Bltb d (Babs (Bminus mode_NE x y)) = false.
Proof using Hfmt.
  destruct Hfmt as (Hprec & Hemax). intros order l r d i x y Ho H Fl Fr E Ex Ey. rewrite manhattan_value in E by auto. injection E as <-.
  pose proof (gaps_good prec emax Hp Hm Hprec Hemax l r Fl Fr H) as G.
  assert (Hi : (i < length l)%nat) by (apply nth_error_Some; congruence).
  assert (I : In i (terms (order (length l)))) by (apply Permutation_in with (1 := Permutation_sym (Ho (length l))), in_seq; lia).
  pose proof (add_up_ge prec emax Hp Hm Hprec Hemax _ _ i G I) as L. pose proof (G i) as Gi. rewrite nth_gaps in L, Gi by auto.
  rewrite (nth_error_nth l i zero Ex), (nth_error_nth r i zero Ey) in L, Gi. unfold float_gap in L at 1, Gi.
  rewrite (lt_level prec emax); auto; [|now apply add_up_good]. now apply Rlt_bool_false.
Qed.

(** Moving each coordinate further away never makes it smaller, in spite of the rounding. *)
Theorem c116_monotone : forall order (l r l' r' : list number) d d', length l = length r -> length l' = length r' -> length l = length l' ->
  (forall x, In x (l ++ r ++ l' ++ r') -> is_finite x = true) ->
  (forall i, (i < length l)%nat -> Rabs (B2R (nth i l zero) - B2R (nth i r zero)) <= Rabs (B2R (nth i l' zero) - B2R (nth i r' zero))) ->
  manhattan order l r = Ok d -> manhattan order l' r' = Ok d' -> Bltb d' d = false.
Proof using Hfmt.
  destruct Hfmt as (Hprec & Hemax). intros order l r l' r' d d' H H' HL F Hi E E'. rewrite manhattan_value in E, E' by auto.
  injection E as <-. injection E' as <-. rewrite <- HL.
  assert (Fl : forall x, In x l -> is_finite x = true) by (intros x Hx; apply F; rewrite !in_app_iff; tauto).
  assert (Fr : forall x, In x r -> is_finite x = true) by (intros x Hx; apply F; rewrite !in_app_iff; tauto).
  assert (Fl' : forall x, In x l' -> is_finite x = true) by (intros x Hx; apply F; rewrite !in_app_iff; tauto).
  assert (Fr' : forall x, In x r' -> is_finite x = true) by (intros x Hx; apply F; rewrite !in_app_iff; tauto).
  pose proof (gaps_good prec emax Hp Hm Hprec Hemax l r Fl Fr H) as G. pose proof (gaps_good prec emax Hp Hm Hprec Hemax l' r' Fl' Fr' H') as G'.
  rewrite (lt_level prec emax) by now apply add_up_good. apply Rlt_bool_false. apply add_up_mono; auto. intros i. rewrite !nth_gaps by auto.
  apply gap_mono; auto; try now apply finite_nth. destruct (Nat.lt_ge_cases i (length l)) as [L|L]; auto.
  rewrite !nth_overflow by lia. lra.
Qed.

(** Its relative error is one rounding for each nested operation, unless it overflows. *)
Theorem c116_accurate : forall order (l r : list number), adds_each_once order -> length l = length r ->
  (forall x, In x l -> is_finite x = true) -> (forall x, In x r -> is_finite x = true) ->
  (1 + u) ^ depth (order (length l)) * true_manhattan l r < bpow radix2 emax ->
  exists d, manhattan order l r = Ok d /\ is_finite d = true /\
    (1 - u) ^ depth (order (length l)) * true_manhattan l r <= B2R d <= (1 + u) ^ depth (order (length l)) * true_manhattan l r.
Proof using Hfmt.
  destruct Hfmt as (Hprec & Hemax). intros order l r Ho H Fl Fr Htop. rewrite manhattan_value by auto. eexists. split; [reflexivity|].
  pose proof (gaps_good prec emax Hp Hm Hprec Hemax l r Fl Fr H) as G. pose proof (u_range prec Hprec) as U.
  rewrite (manhattan_total prec emax l r H) in *. rewrite <- (total_perm _ _ _ (Ho (length l))) in *.
  set (f := fun i => Rabs (B2R (nth i l zero) - B2R (nth i r zero))) in *.
  pose proof (add_up_accurate prec emax Hp Hm Hprec Hemax f (gaps l r) (order (length l)) G) as A.
  specialize (A (fun i => Rabs_pos _)).
  assert (Hi : forall i, (1 + u) * f i < bpow radix2 emax -> (1 - u) * f i <= level prec emax (nth i (gaps l r) zero) <= (1 + u) * f i).
  { intros i Hi. rewrite nth_gaps by auto.
    destruct (gap_ok prec emax Hp Hm Hprec Hemax (nth i l zero) (nth i r zero) (finite_nth _ _ l i Fl) (finite_nth _ _ r i Fr)) as (_ & ->).
    pose proof (rnd_difference prec emax Hp Hprec (B2R (nth i l zero)) (B2R (nth i r zero)) (generic_format_B2R _ _ _) (generic_format_B2R _ _ _)) as R.
    fold (f i) in R |- *. rewrite cap_small by lra. exact R. }
  specialize (A Hi Htop). pose proof (add_up_good prec emax Hp Hm Hprec Hemax (order (length l)) _ G) as Gs.
  destruct (good_inv prec emax _ Gs) as [I|(F & _)].
  - rewrite I in A. change (level prec emax (B754_infinity false)) with (bpow radix2 emax) in A. lra.
  - split; auto. unfold level in A. now rewrite F in A.
Qed.

Lemma minus_zero (x : number) : Bminus mode_NE x zero = x.
Proof using. destruct x as [[|]|s| |s m e B]; reflexivity. Qed.

Lemma differences_from_origin (l : list number) (f : number -> number) :
  map (fun xy => f (Bminus mode_NE (fst xy) (snd xy))) (combine l (repeat zero (length l))) = map f l.
Proof using. induction l as [|x l IH]; cbn [length repeat combine map fst snd]; auto. now rewrite minus_zero, IH. Qed.

(** The distances from the origin are the distances to the point with all coordinates zero, to a bit, for any features. *)
Theorem c116_from_origin : forall order (l : list number),
  manhattan order l (repeat zero (length l)) = Ok (float_manhattan_from_origin prec emax Hp Hm order l) /\
  euclidean prec emax Hp Hm order l (repeat zero (length l)) = float_euclidean_from_origin prec emax Hp Hm order l.
Proof using.
  intros order l. split.
  - rewrite manhattan_value by now rewrite repeat_length. unfold float_gap. now rewrite (differences_from_origin l Babs).
  - unfold euclidean, float_euclidean_from_origin, difference. rewrite (differences_from_origin l (fun x => x)), map_id. reflexivity.
Qed.
End Formats.

(** ** Examples and counterexamples *)
Notation single_manhattan := (float_manhattan 24 128 prec_float emax_float).
Definition seen (c : res (binary_float 24 128)) : option SpecFloat.spec_float := match c with Ok x => Some (B2SF x) | _ => None end.
Definition here : list (binary_float 24 128) := [single 3 0; single (-1) (-149); single 5 (-1)].
Definition there : list (binary_float 24 128) := [single 3 0; single 2 (-149); single 1 0].

Lemma here_there : length here = length there /\ (forall x, In x here -> is_finite x = true) /\ (forall x, In x there -> is_finite x = true).
Proof. split; [reflexivity|]. split; intros x [<-|[<-|[<-|[]]]]; reflexivity. Qed.

Example c116_symmetric_case :
  (length here = length there /\ (forall x, In x here -> is_finite x = true) /\ (forall x, In x there -> is_finite x = true)) /\
  seen (single_manhattan libstdcxx here there) = Some (SpecFloat.S754_finite false 12582912 (-23)) /\
  seen (single_manhattan libstdcxx there here) = Some (SpecFloat.S754_finite false 12582912 (-23)) /\
  seen (single_manhattan libstdcxx [single 1 127] [single (-1) 127]) = Some (SpecFloat.S754_infinity false).
Proof. split; [exact here_there|]. split; [|split]; vm_compute; reflexivity. Qed.

Example c116_second_too_short_case : (length [single 1 0] < length here)%nat /\ single_manhattan libstdcxx here [single 1 0] = UB.
Proof. split; [simpl; lia|reflexivity]. Qed.

(** The smallest difference counts. *)
Example c116_zero_case : adds_each_once libstdcxx /\ adds_each_once one_by_one /\
  seen (single_manhattan libstdcxx [single 3 0; single 1 (-149)] [single 3 0; single 2 (-149)]) = Some (SpecFloat.S754_finite false 1 (-149)) /\
  seen (single_manhattan libstdcxx [single 3 0; B754_zero true] [single 3 0; B754_zero false]) = Some (SpecFloat.S754_zero false).
Proof. split; [apply libstdcxx_ok|]. split; [apply one_by_one_ok|]. split; vm_compute; reflexivity. Qed.

Example c116_at_least_each_case : nth_error here 2 = Some (single 5 (-1)) /\ nth_error there 2 = Some (single 1 0) /\
  B2SF (Babs (Bminus (prec_gt_0_ := prec_float) (prec_lt_emax_ := emax_float) mode_NE (single 5 (-1)) (single 1 0))) = SpecFloat.S754_finite false 12582912 (-23).
Proof. split; [reflexivity|]. split; [reflexivity|]. vm_compute. reflexivity. Qed.

(** Further away in each coordinate, hardly: the distances are the same after rounding. *)
Example c116_monotone_case :
  (forall x, In x ([single 16777216 0] ++ [single 0 0] ++ [single 16777216 0] ++ [single (-1) 0]) -> is_finite x = true) /\
  Rabs (B2R (single 16777216 0) - B2R (single 0 0)) <= Rabs (B2R (single 16777216 0) - B2R (single (-1) 0)) /\
  seen (single_manhattan libstdcxx [single 16777216 0] [single 0 0]) = seen (single_manhattan libstdcxx [single 16777216 0] [single (-1) 0]) /\
  seen (single_manhattan libstdcxx [single 16777216 0] [single (-3) 0]) = Some (SpecFloat.S754_finite false 8388610 1).
Proof.
  split; [intros x [<-|[<-|[<-|[<-|[]]]]]; reflexivity|]. split; [values_in; unfold Rabs; repeat destruct (Rcase_abs _); lra|].
  split; vm_compute; reflexivity.
Qed.

Example c116_accurate_case : depth (libstdcxx 3) = 4%nat /\ depth (libstdcxx 100) = 28%nat /\
  (1 + roundoff 24) ^ 4 * true_manhattan [single 3 0; single (-7) 0; single 5 0] [single 1 0; single 2 0; single 5 0] < bpow radix2 128 /\
  true_manhattan [single 3 0; single (-7) 0; single 5 0] [single 1 0; single 2 0; single 5 0] = 11.
Proof.
  assert (V : true_manhattan [single 3 0; single (-7) 0; single 5 0] [single 1 0; single 2 0; single 5 0] = 11).
  { cbn [true_manhattan]. values_in. unfold Rabs. repeat destruct (Rcase_abs _); lra. }
  split; [vm_compute; reflexivity|]. split; [vm_compute; reflexivity|]. split; auto. rewrite V.
  apply Rlt_le_trans with (bpow radix2 8); [|apply bpow_le; lia]. unfold roundoff. simpl. lra.
Qed.

Example c116_from_origin_case :
  B2SF (float_manhattan_from_origin 24 128 prec_float emax_float libstdcxx [single 3 0; single (-4) 0; B754_zero true]) = SpecFloat.S754_finite false 14680064 (-21) /\
  B2SF (float_euclidean_from_origin 24 128 prec_float emax_float all_fused [single 3 0; single (-4) 0; B754_zero true]) = SpecFloat.S754_finite false 10485760 (-21) /\
  B2SF (float_manhattan_from_origin 24 128 prec_float emax_float libstdcxx [B754_infinity true; single 1 0]) = SpecFloat.S754_infinity false.
Proof. split; [|split]; vm_compute; reflexivity. Qed.

(** The triangle inequality fails, even with the two legs added in floating point. *)
Theorem c116_triangle_refuted : exists (a b c : list (binary_float 24 128)) ab bc ac,
  single_manhattan libstdcxx a b = Ok ab /\ single_manhattan libstdcxx b c = Ok bc /\ single_manhattan libstdcxx a c = Ok ac /\
  Bltb (Bplus (prec_gt_0_ := prec_float) (prec_lt_emax_ := emax_float) mode_NE ab bc) ac = true.
Proof.
  exists [single 16777218 0], [single 1 0], [single (-1) 0]. do 3 eexists.
  split; [apply manhattan_value; reflexivity|]. split; [apply manhattan_value; reflexivity|]. split; [apply manhattan_value; reflexivity|].
  vm_compute. reflexivity.
Qed.

Print Assumptions c116_symmetric.
Print Assumptions c116_second_too_short.
Print Assumptions c116_zero.
Print Assumptions c116_at_least_each.
Print Assumptions c116_monotone.
Print Assumptions c116_accurate.
Print Assumptions c116_from_origin.
Print Assumptions c116_triangle_refuted.
