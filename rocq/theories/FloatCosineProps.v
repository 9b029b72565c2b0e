(** The cosine similarity on [float] and [double] features. *)
From Coq Require Import Reals List Arith ZArith Bool Lia Lra Psatz.
From Flocq Require Import Core BinarySingleNaN.
From Verif Require Import Base FloatModel FloatSpec FloatHamerlyModel AccuracySpec AccuracyProofs FloatAliasProps
  FloatCosineModel FloatCosineSpec FloatCosineProofs.
Import ListNotations.
Open Scope R_scope.

Section Formats.
Context {prec emax : Z} (Hp : Prec_gt_0 prec) (Hm : Prec_lt_emax prec emax) (Hfmt : format_ok prec emax).
Notation number := (binary_float prec emax).
Notation u := (roundoff prec).
Notation top := (bpow radix2 emax).
Notation cosine := (float_cosine prec emax Hp Hm).

(** Exchanging the vectors does not change a single bit, also with infinities and NaN among the features: the compiler may fuse
    any of the three sums, as long as it treats each vector's own length alike. *)
Theorem c115_symmetric : forall f f1 f2 (l r : list number), length l = length r ->
  exists c, cosine f f1 f2 l r = Ok c /\ cosine f f2 f1 r l = Ok c.
Proof using.
  intros f f1 f2 l r H. destruct (inner_total prec emax Hp Hm f l (B754_zero false) r ltac:(lia)) as (d & Ed).
  destruct (inner_total prec emax Hp Hm f1 l (B754_zero false) l ltac:(lia)) as (p & Ep).
  destruct (inner_total prec emax Hp Hm f2 r (B754_zero false) r ltac:(lia)) as (q & Eq).
  eexists. unfold float_cosine. rewrite <- (inner_comm prec emax Hp Hm f l (B754_zero false) r H). rewrite Ed, Ep, Eq. cbn [bind].
  split; [reflexivity|]. now rewrite (mult_comm prec emax Hp Hm (Bsqrt mode_NE q)).
Qed.

(** A second vector that is too short is read past its end. *)
Theorem c115_second_too_short : forall f f1 f2 (l r : list number), (length r < length l)%nat -> cosine f f1 f2 l r = UB.
Proof using. intros f f1 f2 l r H. unfold float_cosine. now rewrite inner_short. Qed.

(** Without overflow and underflow the result is the cosine up to a few roundings per feature, unless the product of the lengths
    is about the machine epsilon or below. *)
Theorem c115_accurate : forall f f1 f2 (l r : list number), length l = length r ->
  (forall x, In x l -> is_finite x = true) -> (forall x, In x r -> is_finite x = true) ->
  no_underflow l r -> no_underflow l l -> no_underflow r r ->
  INR (length l + 3) * u <= / 16 -> 2 * true_dot l l < top -> 2 * true_dot r r < top ->
  exists c, cosine f f1 f2 l r = Ok c /\
    ((c = B754_infinity false /\ true_length l * true_length r <= bpow radix2 (2 - prec)) \/
     (is_finite c = true /\ bpow radix2 (- prec) < true_length l * true_length r /\
      Rabs (B2R c - true_cosine l r) <= 4 * INR (length l + 3) * u)).
Proof using Hfmt.
  destruct Hfmt as (Hprec & Hemax). intros f f1 f2 l r H Fl Fr Hlr Hll Hrr Hn Hl Hr.
  destruct (growth_linear prec Hprec (length l) Hn) as (G1 & G2 & G3). pose proof (growth_pos prec Hprec (length l)) as G0.
  pose proof (u_range prec Hprec) as U. pose proof (dot_self_pos prec emax l) as Pl. pose proof (dot_self_pos prec emax r) as Pr.
  assert (S0 : 0 <= true_length l * true_length r) by (apply Rmult_le_pos; apply sqrt_pos).
  destruct (cosine_close prec emax Hp Hm Hprec Hemax f f1 f2 l r H Fl Fr Hlr Hll Hrr G1) as (c & E & C).
  { apply Rle_lt_trans with (2 := Hl). apply Rmult_le_compat_r; lra. }
  { apply Rle_lt_trans with (2 := Hr). apply Rmult_le_compat_r; lra. }
  exists c. split; auto. set (S := true_length l * true_length r) in *. destruct C as [(-> & C)|(F & C1 & C2)].
  - left. split; auto. assert (L : / 2 <= shrinkage prec (length l)).
    { unfold cosine_error in G3. set (s := shrinkage prec (length l)) in *. assert (Ps : 0 < s).
      { unfold s, shrinkage. apply Rmult_lt_0_compat; [apply pow_lt; lra|lra]. }
      assert (Q : (1 + u) * growth prec (length l) / s <= 5 / 4) by lra.
      assert ((1 + u) * growth prec (length l) <= 5 / 4 * s).
      { apply Rmult_le_reg_r with (/ s); [now apply Rinv_0_lt_compat|]. rewrite (Rmult_assoc (5 / 4)), Rinv_r by lra. unfold Rdiv in Q. lra. }
      nra. }
    replace (2 - prec)%Z with (1 - prec + 1)%Z by lia. rewrite bpow_plus. simpl (bpow radix2 1). nra.
  - right. split; auto. split; [|lra].
    replace (1 - prec)%Z with (- prec + 1)%Z in C1 by lia. rewrite bpow_plus in C1. simpl (bpow radix2 1) in C1. nra.
Qed.

(** A finite result exceeds 1 or -1 by a few roundings per feature at most. *)
Theorem c115_bounded : forall f f1 f2 (l r : list number), length l = length r ->
  (forall x, In x l -> is_finite x = true) -> (forall x, In x r -> is_finite x = true) ->
  no_underflow l r -> no_underflow l l -> no_underflow r r ->
  INR (length l + 3) * u <= / 16 -> 2 * true_dot l l < top -> 2 * true_dot r r < top ->
  bpow radix2 (2 - prec) < true_length l * true_length r ->
  exists c, cosine f f1 f2 l r = Ok c /\ is_finite c = true /\ Rabs (B2R c) <= 1 + 4 * INR (length l + 3) * u.
Proof using Hfmt.
  intros f f1 f2 l r H Fl Fr Hlr Hll Hrr Hn Hl Hr HS.
  destruct (c115_accurate f f1 f2 l r H Fl Fr Hlr Hll Hrr Hn Hl Hr) as (c & E & [(_ & C)|(F & _ & C)]); [lra|].
  exists c. split; auto. split; auto. pose proof (bpow_gt_0 radix2 (2 - prec)) as B.
  pose proof (cauchy prec emax l r H) as CS. pose proof (dot_le_abs prec emax l r) as DA.
  assert (T : Rabs (true_cosine l r) <= 1).
  { unfold true_cosine. set (S := true_length l * true_length r) in *. unfold Rdiv.
    rewrite Rabs_mult, (Rabs_pos_eq (/ S)) by (left; apply Rinv_0_lt_compat; lra).
    apply Rmult_le_reg_r with S; [lra|]. rewrite Rmult_assoc, Rinv_l by lra. lra. }
  replace (B2R c) with ((B2R c - true_cosine l r) + true_cosine l r) by lra. apply Rle_trans with (1 := Rabs_triang _ _). lra.
Qed.
(** The sign of a result is that of the cosine, except close to a right angle. *)
Theorem c115_sign : forall f f1 f2 (l r : list number), length l = length r ->
  (forall x, In x l -> is_finite x = true) -> (forall x, In x r -> is_finite x = true) ->
  no_underflow l r -> no_underflow l l -> no_underflow r r ->
  INR (length l + 3) * u <= / 16 -> 2 * true_dot l l < top -> 2 * true_dot r r < top ->
  bpow radix2 (2 - prec) < true_length l * true_length r -> 4 * INR (length l + 3) * u < Rabs (true_cosine l r) ->
  exists c, cosine f f1 f2 l r = Ok c /\ Bltb c (B754_zero false) = Rlt_bool (true_dot l r) 0 /\
    Bltb (B754_zero false) c = Rlt_bool 0 (true_dot l r).
Proof using Hfmt.
  intros f f1 f2 l r H Fl Fr Hlr Hll Hrr Hn Hl Hr HS HC.
  destruct (c115_accurate f f1 f2 l r H Fl Fr Hlr Hll Hrr Hn Hl Hr) as (c & E & [(_ & C)|(F & _ & C)]); [lra|].
  exists c. split; auto. pose proof (bpow_gt_0 radix2 (2 - prec)) as B. rewrite !Bltb_correct by auto. cbn [B2R].
  unfold true_cosine in *. set (S := true_length l * true_length r) in *. set (t := true_dot l r) in *.
  assert (Et : t / S * S = t) by (field; lra). set (q := t / S) in *. apply Rabs_le_inv in C.
  assert (D : (0 < q /\ 0 < B2R c /\ 0 < t) \/ (q < 0 /\ B2R c < 0 /\ t < 0)).
  { unfold Rabs in HC. destruct (Rcase_abs q) as [N|N].
    - right. split; [lra|]. split; [lra|]. rewrite <- Et. pose proof (Rmult_lt_0_compat (- q) S ltac:(lra) ltac:(lra)). lra.
    - assert (Pu : 0 <= 4 * INR (length l + 3) * u).
      { pose proof (pos_INR (length l + 3)). pose proof (bpow_ge_0 radix2 (- prec)). apply Rmult_le_pos; [lra|assumption]. }
      left. split; [lra|]. split; [lra|]. rewrite <- Et. apply Rmult_lt_0_compat; lra. }
  destruct D as [(_ & D1 & D2)|(_ & D1 & D2)].
  - rewrite (Rlt_bool_false (B2R c)), (Rlt_bool_false t), !Rlt_bool_true by lra. auto.
  - rewrite (Rlt_bool_false 0 (B2R c)), (Rlt_bool_false 0 t), !Rlt_bool_true by lra. auto.
Qed.
End Formats.

(** ** Examples and counterexamples *)
Notation single_cosine := (float_cosine 24 128 prec_float emax_float).
Definition shown (c : res (binary_float 24 128)) : option SpecFloat.spec_float := match c with Ok x => Some (B2SF x) | _ => None end.

Example c115_symmetric_case : length [single 3 0; B754_infinity true; single 4 0] = length [single 5 0; single 1 0; single (-12) 0] /\
  shown (single_cosine false true false [single 3 0; single 1 0; single 4 0] [single 5 0; single 1 0; single (-12) 0]) =
  shown (single_cosine false false true [single 5 0; single 1 0; single (-12) 0] [single 3 0; single 1 0; single 4 0]) /\
  shown (single_cosine false true false [single 3 0; B754_infinity true; single 4 0] [single 5 0; single 1 0; single (-12) 0]) = Some SpecFloat.S754_nan.
Proof. split; [reflexivity|]. split; vm_compute; reflexivity. Qed.

Example c115_second_too_short_case : (length [single 1 0] < length [single 3 0; single 4 0])%nat /\
  single_cosine true true true [single 3 0; single 4 0] [single 1 0] = UB /\
  exists c, single_cosine true true true [single 1 0] [single 3 0; single 4 0] = Ok c.
Proof. split; [simpl; lia|]. split; [reflexivity|]. unfold float_cosine. cbn [float_inner bind]. eexists. reflexivity. Qed.

Definition leg : list (binary_float 24 128) := [single 3 0; single 4 0].
Definition arm : list (binary_float 24 128) := [single 0 0; single (-5) 0].

Lemma leg_arm : true_dot leg leg = 25 /\ true_dot arm arm = 25 /\ true_dot leg arm = -20 /\ true_length leg = 5 /\ true_length arm = 5.
Proof.
  assert (V1 : true_dot leg leg = 25) by (unfold leg; cbn [true_dot]; values_in; lra).
  assert (V2 : true_dot arm arm = 25) by (unfold arm; cbn [true_dot]; values_in; lra).
  assert (V3 : true_dot leg arm = -20) by (unfold leg, arm; cbn [true_dot]; values_in; lra).
  unfold true_length. rewrite V1, V2, V3. replace 25 with (5 * 5) by lra. rewrite R_sqrt.sqrt_square by lra. repeat split; lra.
Qed.

Lemma leg_arm_ok : length leg = length arm /\ (forall x, In x leg -> is_finite x = true) /\ (forall x, In x arm -> is_finite x = true) /\
  no_underflow leg arm /\ no_underflow leg leg /\ no_underflow arm arm /\ INR (length leg + 3) * roundoff 24 <= / 16 /\
  2 * true_dot leg leg < bpow radix2 128 /\ 2 * true_dot arm arm < bpow radix2 128.
Proof.
  destruct leg_arm as (V1 & V2 & _). rewrite V1, V2.
  assert (B : 2 * 25 < bpow radix2 128) by (apply Rlt_le_trans with (bpow radix2 6); [simpl; lra|apply bpow_le; lia]).
  assert (L : bpow radix2 (2 - 128) <= 1) by (change 1 with (bpow radix2 0); apply bpow_le; lia).
  assert (W : forall z, 1 <= Rabs z -> z = 0 \/ bpow radix2 (2 - 128) <= Rabs z) by (intros z Hz; right; lra).
  split; [reflexivity|]. split; [intros x [<-|[<-|[]]]; reflexivity|]. split; [intros x [<-|[<-|[]]]; reflexivity|].
  split; [|split; [|split; [|split; [unfold roundoff; simpl; lra|split; exact B]]]].
  - unfold leg, arm. cbn [no_underflow]. split; [left; values_in; lra|]. split; auto. apply W. values_in. rewrite Rabs_left; lra.
  - unfold leg. cbn [no_underflow]. split; [|split; auto]; apply W; values_in; rewrite Rabs_pos_eq; lra.
  - unfold arm. cbn [no_underflow]. split; [left; values_in; lra|]. split; auto. apply W. values_in. rewrite Rabs_pos_eq; lra.
Qed.

Example c115_accurate_case :
  (length leg = length arm /\ (forall x, In x leg -> is_finite x = true) /\ (forall x, In x arm -> is_finite x = true) /\
   no_underflow leg arm /\ no_underflow leg leg /\ no_underflow arm arm /\ INR (length leg + 3) * roundoff 24 <= / 16 /\
   2 * true_dot leg leg < bpow radix2 128 /\ 2 * true_dot arm arm < bpow radix2 128) /\
  true_cosine leg arm = -20 / 25 /\
  shown (single_cosine false false false leg arm) = Some (SpecFloat.S754_finite true 13421773 (-24)).
Proof.
  split; [exact leg_arm_ok|]. destruct leg_arm as (_ & _ & V & L1 & L2). split; [unfold true_cosine; rewrite V, L1, L2; lra|].
  vm_compute. reflexivity.
Qed.

Example c115_bounded_case : bpow radix2 (2 - 24) < true_length leg * true_length arm /\
  4 * INR (length leg + 3) * roundoff 24 < / 100000 /\ INR 2000 * roundoff 24 <= / 16.
Proof.
  destruct leg_arm as (_ & _ & _ & L1 & L2). rewrite L1, L2. split; [|split].
  - apply Rlt_trans with (bpow radix2 0); [apply bpow_lt; lia|simpl; lra].
  - unfold roundoff. simpl. lra.
  - rewrite INR_IZR_INZ. change (Z.of_nat 2000) with 2000%Z. unfold roundoff. simpl. lra.
Qed.

Example c115_sign_case : 4 * INR (length leg + 3) * roundoff 24 < Rabs (true_cosine leg arm) /\ true_dot leg arm < 0.
Proof.
  destruct leg_arm as (_ & _ & V & L1 & L2). unfold true_cosine. rewrite V, L1, L2. split; [|lra].
  rewrite Rabs_left by lra. unfold roundoff. simpl. lra.
Qed.

(** A vector may be more similar to itself than 1, so the inverse cosine of the result is NaN. *)
Theorem c115_at_most_one_refuted : exists (l : list (binary_float 24 128)) c,
  single_cosine false false false l l = Ok c /\ single_cosine true true true l l = Ok c /\ Bltb (single 1 0) c = true.
Proof.
  pose (l := [single 1 0; single 1 0]).
  destruct (c115_symmetric prec_float emax_float false false false l l eq_refl) as (c & E & _).
  destruct (c115_symmetric prec_float emax_float true true true l l eq_refl) as (c' & E' & _).
  exists l, c. assert (S : shown (Ok c) = Some (SpecFloat.S754_finite false 8388609 (-23))) by (rewrite <- E; vm_compute; reflexivity).
  assert (S' : shown (Ok c') = Some (SpecFloat.S754_finite false 8388609 (-23))) by (rewrite <- E'; vm_compute; reflexivity).
  cbn [shown] in S, S'. split; auto. split.
  - rewrite E'. f_equal. apply B2SF_inj. congruence.
  - unfold Bltb. injection S as ->. vm_compute. reflexivity.
Qed.

(** Non-zero vectors that are short are infinitely similar to themselves and to their opposites, long ones get NaN. *)
Theorem c115_lengths_do_not_matter_refuted : exists l l' r : list (binary_float 24 128),
  (forall x, In x (l ++ l' ++ r) -> is_finite x = true /\ Beqb x (B754_zero false) = false) /\
  single_cosine false false false l l = Ok (B754_infinity false) /\ single_cosine false false false l l' = Ok (B754_infinity false) /\
  single_cosine false false false r r = Ok B754_nan.
Proof.
  exists [single 1 (-12)], [single (-1) (-12)], [single 1 64].
  split; [intros x [<-|[<-|[<-|[]]]]; split; vm_compute; reflexivity|].
  assert (K : forall (l r : list (binary_float 24 128)) x, length l = length r -> shown (single_cosine false false false l r) = Some (B2SF x) ->
    single_cosine false false false l r = Ok x).
  { intros l r x H S. destruct (c115_symmetric prec_float emax_float false false false l r H) as (c & E & _). rewrite E in *. cbn [shown] in S.
    f_equal. apply B2SF_inj. congruence. }
  split; [|split]; apply K; auto; vm_compute; reflexivity.
Qed.

Print Assumptions c115_symmetric.
Print Assumptions c115_second_too_short.
Print Assumptions c115_accurate.
Print Assumptions c115_bounded.
Print Assumptions c115_sign.
Print Assumptions c115_at_most_one_refuted.
Print Assumptions c115_lengths_do_not_matter_refuted.
