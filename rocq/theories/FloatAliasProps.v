(** The alias method on [float] and [double] weights. *)
From Coq Require Import Reals List Arith ZArith Bool Lia Lra Psatz Permutation.
From Flocq Require Import Core BinarySingleNaN.
From Verif Require Import Base FloatModel FloatSpec FloatProofs AccuracySpec AccuracyProofs FloatSilhouetteModel FloatSilhouetteProofs FloatKMeansProps
  FloatAliasModel FloatAliasSpec FloatAliasProofs.
Import ListNotations.
Open Scope R_scope.

Section Formats.
Context {prec emax : Z} (Hp : Prec_gt_0 prec) (Hm : Prec_lt_emax prec emax) (Hfmt : format_ok prec emax).
Notation number := (binary_float prec emax).
Notation u := (roundoff prec).
Notation e := (tiny prec emax).
Notation zero := (B754_zero false : number).
Notation make := (f_make_table prec emax Hp Hm).
Notation sample := (f_sample prec emax Hp Hm).
Notation rnd := (round radix2 (FLT_exp (3 - emax - prec) prec) ZnearestE).

(** The table and its use, whatever the weights. *)
Lemma table_ok (weights : list number) : weights <> [] ->
  exists small large alias probs, make weights = Ok (mk_float_table prec emax (length weights) alias probs) /\
    length alias = length weights /\ length probs = length weights /\ (forall j, (j < length weights)%nat -> (nth j alias 0 < length weights)%nat) /\
    Permutation (small ++ large) (seq 0 (length weights)) /\
    (forall i, In i small -> Bltb (nth i (f_normalize prec emax Hp Hm weights) zero) Bone = true) /\
    (forall i, In i large -> Bltb (nth i (f_normalize prec emax Hp Hm weights) zero) Bone = false) /\
    shape prec emax (length weights) (f_normalize prec emax Hp Hm weights) small large (repeat 0%nat (length weights)) (repeat zero (length weights)) /\
    f_fill prec emax Hp Hm (length weights) (length weights) (f_normalize prec emax Hp Hm weights) small large (repeat 0%nat (length weights))
      (repeat zero (length weights)) = Ok (alias, probs).
Proof using.
  intros Hne. set (n := length weights). set (fake := f_normalize prec emax Hp Hm weights).
  assert (Hn : (0 < n)%nat) by (unfold n; destruct weights; [congruence|simpl; lia]).
  assert (Lf : length fake = n) by apply fake_length.
  destruct (distribute_all prec emax Hp Hm n fake Lf) as (small & large & E & P & A & B).
  assert (Hs : shape prec emax n fake small large (repeat 0%nat n) (repeat zero n)).
  { unfold shape. rewrite !repeat_length. splits; auto.
    - apply Permutation_NoDup with (1 := Permutation_sym P), seq_NoDup.
    - intros i Hi. apply Permutation_in with (1 := P), in_seq in Hi. lia. }
  assert (H0 : forall j, (j < n)%nat -> (nth j (repeat 0%nat n) 0 < n)%nat) by (intros j _; rewrite nth_repeat; lia).
  assert (Hl : (length small + length large <= n)%nat) by (rewrite <- app_length, (Permutation_length P), seq_length; auto).
  destruct (fill_ok prec emax Hp Hm n n fake small large (repeat 0%nat n) (repeat zero n) Hs Hl H0) as (alias & probs & Ef & La & Lp & Ba & _).
  exists small, large, alias, probs. splits; auto.
  unfold f_make_table. fold n. destruct (Nat.eqb_spec n 0); [lia|]. cbv zeta. fold fake. rewrite E. cbn [bind]. rewrite Ef. reflexivity.
Qed.

Lemma sample_value (n : nat) alias probs (first second : number) : (1 <= n)%nat -> (Z.of_nat n <= 2 ^ (emax - 1))%Z -> canonical first ->
  length alias = n -> length probs = n ->
  exists c, (c < n)%nat /\ Z.of_nat c = Zfloor (rnd (B2R (count prec emax Hp Hm n) * B2R first)) /\
    sample (mk_float_table prec emax n alias probs) first second = Ok (if Bltb second (nth c probs zero) then c else nth c alias 0%nat).
Proof using Hfmt.
  intros H1 H2 Hc La Lp. destruct Hfmt as (Hprec & Hemax). destruct (cell_ok prec emax Hp Hm Hprec Hemax n first H1 H2 Hc) as (c & E & Hc' & Ev).
  exists c. splits; auto. unfold f_sample. cbn [f_weights f_probabilities f_alias]. rewrite E. cbn [bind].
  assert (E1 : rd probs c = Ok (nth c probs zero)) by (apply rd_ok, nth_error_nth'; lia). rewrite E1. cbn [bind].
  destruct (Bltb _ _); auto. apply rd_ok, nth_error_nth'. lia.
Qed.

(** Whatever the weights are - zero, negative, infinite or not numbers - and however many there are, the table is made
    and every call gives the index of a weight.  The product of the number of weights with a number below 1 never rounds
    up to that number. *)
Theorem c110_defined : forall weights : list number, weights <> [] -> (Z.of_nat (length weights) <= 2 ^ (emax - 1))%Z ->
  exists t, make weights = Ok t /\
    forall first second, canonical first -> exists i, sample t first second = Ok i /\ (i < length weights)%nat.
Proof using Hfmt.
  intros weights Hne Hn. destruct (table_ok weights Hne) as (small & large & alias & probs & E & La & Lp & Ba & _).
  eexists. split; [exact E|]. intros first second Hc.
  destruct (sample_value (length weights) alias probs first second) as (c & Hc' & _ & Es); auto; [destruct weights; [congruence|simpl; lia]|].
  eexists. split; [exact Es|]. destruct (Bltb _ _); auto.
Qed.

(** What the table holds. *)
Lemma table_values (weights : list number) : proper_weights weights -> weights <> [] ->
  let n := length weights in let N := INR n in let S := over n (weight weights) in
  (N + 3) * u <= / 3 -> S <= bpow radix2 (emax - 3) -> N <= S * bpow radix2 (emax - 2) ->
  exists alias probs, make weights = Ok (mk_float_table prec emax n alias probs) /\ length alias = n /\ length probs = n /\
    (forall j, (j < n)%nat -> (nth j alias 0 < n)%nat /\ is_finite (nth j probs zero) = true /\ 0 <= B2R (nth j probs zero) <= 1) /\
    over n (fun i => Rabs (INR n * share n (fun j => B2R (nth j probs zero)) (fun j => nth j alias 0%nat) i - N * weight weights i / S)) <= 8 * N * (N + 2) * u /\
    (4 * N * (N + 2) * u < 1 -> forall j, (j < n)%nat ->
      (weight weights j = 0 -> B2R (nth j probs zero) = 0) /\ (B2R (nth j probs zero) = 1 \/ 0 < weight weights (nth j alias 0%nat))).
Proof using Hfmt.
  intros Hw Hne n N S Hn Hhuge Htiny. pose proof Hfmt as (Hprec & Hemax). set (fake := f_normalize prec emax Hp Hm weights).
  destruct (table_ok weights Hne) as (small & large & alias & probs & E & La & Lp & Ba & P & A & B & Hs & Ef). fold n fake in E, La, Lp, Ba, P, A, B, Hs, Ef.
  assert (Fk : forall i, (i < n)%nat -> _) by (intros i Hi; exact (fake_ok prec emax Hp Hm Hprec Hemax weights Hw Hne Hn Hhuge Htiny i Hi)). fold n fake N S in Fk.
  destruct (fake_sum prec emax Hp Hm Hprec Hemax weights Hw Hne Hn Hhuge Htiny) as (Fs & Fg). fold n fake N S in Fs, Fg.
  assert (Hin : forall i, In i (small ++ large) <-> (i < n)%nat).
  { intros i. split; intros Hi; [apply Permutation_in with (1 := P), in_seq in Hi; lia|apply Permutation_in with (1 := Permutation_sym P), in_seq; lia]. }
  pose proof (u_range prec Hprec) as U. pose proof (e_small prec emax Hprec Hemax) as Es. pose proof (e_pos prec emax) as Ep.
  assert (Np : 1 <= N) by (apply (n_pos prec emax); auto).
  assert (V : values prec emax (2 * N) fake small large).
  { split; [intros i Hi; apply Hin in Hi; destruct (Fk i Hi) as (? & ? & _); auto|]. split.
    - intros i Hi. specialize (A i Hi). assert (Hi' : (i < n)%nat) by (apply Hin, in_or_app; auto). rewrite small_value in A by (now apply Fk). destruct (Rlt_bool_spec (B2R (nth i fake zero)) 1); auto. discriminate.
    - intros i Hi. specialize (B i Hi). assert (Hi' : (i < n)%nat) by (apply Hin, in_or_app; auto). rewrite small_value in B by (now apply Fk). destruct (Rlt_bool_spec (B2R (nth i fake zero)) 1); auto. discriminate. }
  assert (Hlen : length (small ++ large) = n) by (rewrite (Permutation_length P), seq_length; auto).
  assert (Hl : (length small + length large <= n)%nat) by (rewrite <- app_length, Hlen; auto).
  assert (H0 : forall j, (j < n)%nat -> (nth j (repeat 0%nat n) 0 < n)%nat) by (intros j Hj; rewrite nth_repeat; lia).
  destruct (fill_values prec emax Hp Hm Hprec Hemax n (2 * N) n fake small large _ _ alias probs Hs V Hl H0 ltac:(lra) Ef) as (R1 & R2 & R3).
  rewrite Hlen in R2, R3. fold N in R2, R3.
  assert (Gp : gap prec emax fake (small ++ large) = gap prec emax fake (seq 0 n)) by (unfold gap; f_equal; now apply total_perm).
  rewrite Gp in R2, R3. set (E0 := N * (2 * (N + 3) * u) + N * (e / 2)) in *.
  assert (HE : E0 <= 2 * N * (N + 3) * u + N * u / 8) by (unfold E0; nra).
  exists alias, probs. splits; auto.
  - intros j Hj. destruct (R1 j) as (Q1 & Q2); [now apply Hin|]. auto.
  - apply Rle_trans with (over n (fun i => Rabs (excess prec emax fake alias probs (small ++ large) i) + Rabs (B2R (nth i fake zero) - N * weight weights i / S))).
    + rewrite !over_total. apply total_le. intros i Hi. apply in_seq in Hi.
      assert (X : INR n * share n (fun j => B2R (nth j probs zero)) (fun j => nth j alias 0%nat) i = excess prec emax fake alias probs (small ++ large) i + B2R (nth i fake zero)).
      { unfold share. fold N. rewrite over_total, <- (total_perm _ _ _ P).
        replace (B2R (nth i fake zero)) with (total (fun j => if (j =? i)%nat then B2R (nth j fake zero) else 0) (small ++ large)).
        2:{ apply (total_one (small ++ large) i (fun j => B2R (nth j fake zero))); [apply Hs|apply Hin; lia]. }
        unfold excess. rewrite <- total_plus. field_simplify; [|lra]. apply total_ext. intros j _. destruct (j =? i)%nat; lra. }
      rewrite X. replace (_ + B2R (nth i fake zero) - _) with (excess prec emax fake alias probs (small ++ large) i + (B2R (nth i fake zero) - N * weight weights i / S)) by lra.
      apply Rabs_triang.
    + rewrite over_total, (total_plus (fun i => Rabs (excess prec emax fake alias probs (small ++ large) i))), <- !over_total.
      assert (Y : 2 * (N * (u * (2 * N + 1))) + 2 * E0 <= 8 * N * (N + 2) * u) by nra. lra.
  - intros Hz j Hj. assert (Y : gap prec emax fake (seq 0 n) + N * (u * (2 * N + 1)) < 1).
    { apply Rle_lt_trans with (2 := Hz). nra. }
    destruct (R3 Y j) as (Q1 & Q2); [now apply Hin|]. split.
    + intros Ew. apply Q1. now apply Fk.
    + destruct Q2 as [Q2|Q2]; auto. right. pose proof (weight_nonneg prec emax weights Hw (nth j alias 0%nat)) as W.
      destruct (Rle_lt_or_eq_dec 0 _ W) as [W'|W']; auto. exfalso. apply Q2. apply Fk; auto.
Qed.

(** For weights whose sum is neither huge nor tiny the call picks a cell with its first number and then either the cell
    or another index, by comparing its second number with the threshold of the cell; for the cells equally probable and a
    uniform second number, the probabilities of all the indices are together within 8 (n + 2) roundoffs of the weights
    over their sum. *)
Theorem c110_accurate : forall weights : list number, proper_weights weights ->
  let n := length weights in let S := over n (weight weights) in
  weights <> [] -> 8 * (INR n + 2) * u <= 1 -> INR n <= S * bpow radix2 (emax - 2) -> S <= bpow radix2 (emax - 3) ->
  exists t threshold other, make weights = Ok t /\
    (forall j, (j < n)%nat -> 0 <= threshold j <= 1 /\ (other j < n)%nat) /\
    (forall first second, canonical first -> canonical second -> exists cell, (cell < n)%nat /\ Z.of_nat cell = Zfloor (rnd (INR n * B2R first)) /\
       sample t first second = Ok (two_step threshold other cell (B2R second))) /\
    over n (fun i => Rabs (share n threshold other i - weight weights i / S)) <= 8 * (INR n + 2) * u.
Proof using Hfmt.
  intros weights Hw n S Hne Hn Htiny Hhuge. pose proof Hfmt as (Hprec & Hemax). pose proof (u_range prec Hprec) as U.
  assert (Np : 1 <= INR n) by (apply (n_pos prec emax); auto).
  assert (Hn3 : (INR n + 3) * u <= / 3) by nra.
  destruct (table_values weights Hw Hne Hn3 Hhuge Htiny) as (alias & probs & E & La & Lp & T & A & _). fold n S in E, La, Lp, T, A.
  exists (mk_float_table prec emax n alias probs), (fun j => B2R (nth j probs zero)), (fun j => nth j alias 0%nat).
  assert (Sp : 0 < S) by (apply (sum_pos prec emax weights Hne Htiny)).
  splits; auto.
  - intros j Hj. destruct (T j Hj) as (? & ? & ?). auto.
  - intros first second Hc (Fs & Hs).
    destruct (n_exact prec emax Hp Hm Hprec Hemax weights Hne Hn3) as (Ec & _ & _ & H1 & H2). fold n in Ec, H1, H2.
    destruct (sample_value n alias probs first second H1 H2 Hc La Lp) as (c & Hc' & Ev & Es). rewrite Ec in Ev.
    exists c. splits; auto. rewrite Es. unfold two_step. destruct (T c Hc') as (_ & Fp & _). now rewrite Bltb_correct.
  - apply Rmult_le_reg_l with (INR n); [lra|].
    replace (INR n * (8 * (INR n + 2) * u)) with (8 * INR n * (INR n + 2) * u) by ring. apply Rle_trans with (2 := A).
    rewrite !over_total, <- total_scale. apply total_le. intros i Hi. apply Req_le.
    rewrite <- (Rabs_pos_eq (INR n)) at 1 by lra. rewrite <- Rabs_mult. f_equal. field. lra.
Qed.

(** An item of weight 0 is never drawn, as long as 4 n (n + 2) roundoffs are below 1: up to 2046 weights for [float],
    47 million for [double]. *)
Theorem c110_zero_never : forall (weights : list number) t first second i, proper_weights weights ->
  let n := length weights in let S := over n (weight weights) in
  weights <> [] -> 4 * INR n * (INR n + 2) * u < 1 -> INR n <= S * bpow radix2 (emax - 2) -> S <= bpow radix2 (emax - 3) ->
  make weights = Ok t -> canonical first -> canonical second -> sample t first second = Ok i -> 0 < weight weights i.
Proof using Hfmt.
  intros weights t first second i Hw n S Hne Hn Htiny Hhuge Et Hc (Fs & Hs) Ei. pose proof Hfmt as (Hprec & Hemax). pose proof (u_range prec Hprec) as U.
  assert (Np : 1 <= INR n) by (apply (n_pos prec emax); auto).
  assert (Hn3 : (INR n + 3) * u <= / 3).
  { assert (H1 : (1 <= n)%nat) by (apply INR_le; exact Np). destruct (Nat.eq_dec n 1) as [E1|H2]; [rewrite E1 in *; simpl in *; lra|].
    assert (N2 : 2 <= INR n) by (replace 2 with (INR 2) by reflexivity; apply le_INR; lia). nra. }
  destruct (table_values weights Hw Hne Hn3 Hhuge Htiny) as (alias & probs & E & La & Lp & T & _ & Z). fold n S in E, La, Lp, T, Z. specialize (Z Hn).
  rewrite E in Et. injection Et as <-.
  destruct (n_exact prec emax Hp Hm Hprec Hemax weights Hne Hn3) as (_ & _ & _ & H1 & H2). fold n in H1, H2.
  destruct (sample_value n alias probs first second H1 H2 Hc La Lp) as (c & Hc' & _ & Es). rewrite Es in Ei. injection Ei as Ei.
  destruct (T c Hc') as (_ & Fp & Bp). destruct (Z c Hc') as (Z1 & Z2). rewrite Bltb_correct in Ei by auto.
  destruct (Rlt_bool_spec (B2R second) (B2R (nth c probs zero))) as [L|L]; subst i.
  - destruct (Rle_lt_or_eq_dec 0 _ (weight_nonneg prec emax weights Hw c)) as [W|W]; auto. symmetry in W. specialize (Z1 W). lra.
  - destruct Z2 as [Z2|Z2]; auto. lra.
Qed.

(** If some weights are infinite, only their items are drawn: n over the infinite sum is 0, so the finite weights are
    normalized to 0 and the infinite ones to NaN, which is not below 1. *)
Lemma normalize_infinite (weights : list number) : Forall (fun w => w = B754_infinity false \/ is_finite w = true /\ Bsign w = false) weights ->
  In (B754_infinity false) weights -> (Z.of_nat (length weights) <= 2 ^ (emax - 1))%Z ->
  forall i, (i < length weights)%nat ->
    (nth i weights zero = B754_infinity false -> nth i (f_normalize prec emax Hp Hm weights) zero = B754_nan) /\
    (nth i weights zero <> B754_infinity false -> nth i (f_normalize prec emax Hp Hm weights) zero = zero).
Proof using Hfmt.
  intros Hw Hin Hz i Hi. destruct Hfmt as (Hprec & Hemax). unfold f_normalize.
  assert (G : forall w, In w weights -> good prec emax w).
  { intros w H. rewrite Forall_forall in Hw. destruct (Hw w H) as [->|(F & Sg)]; [reflexivity|now apply good_finite]. }
  assert (Inf : forall l, (forall w, In w l -> good prec emax w) -> fold_left (Bplus mode_NE) l (B754_infinity false : number) = B754_infinity false).
  { induction l as [|w l IH]; intros Hl; cbn [fold_left]; [reflexivity|].
    replace (Bplus mode_NE (B754_infinity false) w) with (B754_infinity false : number); [apply IH; intros; apply Hl; now right|].
    destruct (good_inv prec emax w (Hl w (or_introl eq_refl))) as [->|(F & _)]; [reflexivity|]. destruct w; try discriminate; reflexivity. }
  assert (Sum : forall l acc, good prec emax acc -> (forall w, In w l -> good prec emax w) -> In (B754_infinity false) l ->
    fold_left (Bplus mode_NE) l acc = B754_infinity false).
  { induction l as [|w l IH]; intros acc Ga Hl Hl'; [destruct Hl'|]. cbn [fold_left]. destruct Hl' as [->|Hl'].
    - replace (Bplus mode_NE acc (B754_infinity false)) with (B754_infinity false : number); [apply Inf; intros; apply Hl; now right|].
      destruct (good_inv prec emax acc Ga) as [->|(F & _)]; [reflexivity|]. destruct acc; try discriminate; reflexivity.
    - apply IH; auto; [|intros; apply Hl; now right]. apply plus_ok; auto. apply Hl. now left. }
  rewrite (Sum weights zero); auto; [|reflexivity].
  destruct (count_ok prec emax Hp Hm Hprec Hemax (length weights)) as (Fc & Sc & _); [lia|exact Hz|].
  assert (D : Bdiv mode_NE (count prec emax Hp Hm (length weights)) (B754_infinity false) = zero).
  { destruct (count prec emax Hp Hm (length weights)) as [s| | |s m x b]; try discriminate; cbn [Bsign] in Sc; subst s; reflexivity. }
  rewrite D. rewrite (nth_indep (map (fun w => Bmult mode_NE w zero) weights) zero (Bmult mode_NE zero zero)) by (now rewrite map_length).
  rewrite (map_nth (fun w => Bmult mode_NE w zero)). pose proof (nth_In weights zero Hi) as Hn. split.
  - intros ->. reflexivity.
  - intros Hne. rewrite Forall_forall in Hw. destruct (Hw _ Hn) as [C|(F & Sg)]; [contradiction|].
    destruct (nth i weights zero) as [s| | |s m x b]; try discriminate; cbn [Bsign] in Sg; subst s; reflexivity.
Qed.

Theorem c110_infinite_only : forall (weights : list number) t first second i,
  Forall (fun w => w = B754_infinity false \/ is_finite w = true /\ Bsign w = false) weights -> In (B754_infinity false) weights ->
  (Z.of_nat (length weights) <= 2 ^ (emax - 1))%Z -> make weights = Ok t -> canonical first -> canonical second -> sample t first second = Ok i ->
  nth_error weights i = Some (B754_infinity false).
Proof using Hfmt.
  intros weights t first second i Hw Hin Hz Et Hc (F2 & H2) Es.
  assert (Hne : weights <> []) by (intros ->; destruct Hin).
  pose proof (normalize_infinite weights Hw Hin Hz) as Nz.
  destruct (table_ok weights Hne) as (small & large & alias & probs & E & La & Lp & Ba & P & A & B & Hs & Ef).
  set (n := length weights) in *. set (fake := f_normalize prec emax Hp Hm weights) in *.
  assert (Hmem : forall j, In j (small ++ large) <-> (j < n)%nat).
  { intros j. split; intros Hj; [apply Permutation_in with (1 := P), in_seq in Hj; lia|apply Permutation_in with (1 := Permutation_sym P), in_seq; lia]. }
  pose proof Hfmt as (Hprec & Hemax). destruct (one_ok prec emax Hp Hm) as (F1 & E1 & S1).
  assert (Dec : forall j, (j < n)%nat -> (nth j weights zero = B754_infinity false /\ nth j fake zero = B754_nan) \/ nth j fake zero = zero).
  { intros j Hj. pose proof (Nz j Hj) as (N1 & N2). rewrite Forall_forall in Hw. destruct (Hw _ (nth_In weights zero Hj)) as [C|(F & _)]; [left; auto|].
    right. apply N2. intros C. rewrite C in F. discriminate. }
  assert (Zlt : Bltb zero (Bone : number) = true) by (rewrite Bltb_correct by auto; rewrite E1; apply Rlt_bool_true; simpl; lra).
  assert (Sm : forall j, In j small -> nth j fake zero = zero).
  { intros j Hj. destruct (Dec j) as [(_ & C)|C]; auto; [apply Hmem, in_or_app; now left|]. specialize (A j Hj). rewrite C in A. discriminate. }
  assert (Lg : forall j, In j large -> nth j weights zero = B754_infinity false /\ nth j fake zero = B754_nan).
  { intros j Hj. destruct (Dec j) as [C|C]; auto; [apply Hmem, in_or_app; now right|]. specialize (B j Hj). rewrite C in B. congruence. }
  assert (Hl : large <> []).
  { apply In_nth with (d := zero) in Hin. destruct Hin as (j & Hj & Ej). fold n in Hj. assert (Hj' : In j (small ++ large)) by now apply Hmem.
    apply in_app_or in Hj'. destruct Hj' as [Hj'|Hj']; [|intros ->; destruct Hj']. exfalso. specialize (Sm j Hj'). destruct (Nz j Hj) as (N1 & _). rewrite (N1 Ej) in Sm. discriminate. }
  destruct (fill_nan prec emax Hp Hm n n fake small large (repeat 0%nat n) (repeat zero n) Hs) as (a' & p' & E' & V1 & V2); auto.
  { rewrite <- app_length, (Permutation_length P), seq_length. auto. }
  { intros j Hj. rewrite nth_repeat. lia. }
  { intros j Hj. now apply Lg. }
  rewrite Ef in E'. injection E' as <- <-. rewrite E in Et. injection Et as <-.
  assert (H1 : (1 <= n)%nat) by (unfold n; destruct weights; [congruence|simpl; lia]).
  destruct (sample_value n alias probs first second H1 Hz Hc La Lp) as (c & Hc' & _ & Ev). rewrite Ev in Es. injection Es as Es.
  assert (R : In i large).
  { apply Hmem in Hc'. apply in_app_or in Hc'. destruct Hc' as [Hc'|Hc'].
    - destruct (V1 c Hc') as (Ez & Ha). rewrite Ez, Bltb_correct in Es by auto. rewrite Rlt_bool_false in Es by (simpl; lra). now subst i.
    - rewrite (V2 c Hc'), Bltb_correct in Es by auto. rewrite E1, Rlt_bool_true in Es by lra. now subst i. }
  destruct (Lg i R) as (Ei & _). rewrite <- Ei. apply nth_error_nth'. apply Hmem, in_or_app. now right.
Qed.
End Formats.

(** ** Examples and counterexamples *)
Definition single (m x : Z) : binary_float 24 128 := binary_normalize 24 128 prec_float emax_float mode_NE m x false.
Notation single_make := (f_make_table 24 128 prec_float emax_float).
Notation single_sample := (f_sample 24 128 prec_float emax_float).
Definition single_ok : format_ok 24 128.
Proof. unfold format_ok. lia. Qed.

Lemma single_value (x : binary_float 24 128) y : B2SF x = y -> B2R x = SF2R radix2 y.
Proof. intros <-. symmetry. apply SF2R_B2SF. Qed.
Ltac values_in := repeat (erewrite single_value by (vm_compute; reflexivity)); cbn [SF2R cond_Zopp]; unfold F2R; cbn [Fnum Fexp]; simpl.

Lemma canonical_single (x : binary_float 24 128) : is_finite x = true -> 0 <= B2R x < 1 -> canonical x.
Proof. split; auto. Qed.

Definition four : list (binary_float 24 128) := [single 1 0; single 4 0; single 0 0; single 5 0].
(** What is drawn for pairs of random numbers. *)
Definition sampled (weights : list (binary_float 24 128)) (numbers : list (binary_float 24 128 * binary_float 24 128)) : list (res nat) :=
  map (fun '(first, second) => t <- single_make weights ;; single_sample t first second) numbers.
Definition tries : list (binary_float 24 128 * binary_float 24 128) :=
  [(single 0 0, single 1 (-2)); (single 0 0, single 1 (-1)); (single 1 (-2), single 1 (-1)); (single 1 (-1), single 0 0); (single 16777215 (-24), single 0 0)].

Lemma four_sum : over 4 (weight four) = 10.
Proof. unfold over, four. cbn [seq map fold_right weight nth_error]. values_in. lra. Qed.

Example c110_defined_case :
  (four ++ [B754_nan; B754_infinity true] <> [] /\ (Z.of_nat 6 <= 2 ^ (128 - 1))%Z /\ canonical (single 16777215 (-24))) /\
  sampled (four ++ [B754_nan; B754_infinity true]) tries = [Ok 0; Ok 0; Ok 1; Ok 3; Ok 5]%nat.
Proof.
  split; [split; [discriminate|split; [vm_compute; congruence|apply canonical_single]]|vm_compute; reflexivity].
  - reflexivity.
  - values_in. lra.
Qed.

Example c110_accurate_case :
  (proper_weights four /\ four <> [] /\ 8 * (INR 4 + 2) * roundoff 24 <= 1 /\ INR 4 <= 10 * bpow radix2 (128 - 2) /\ 10 <= bpow radix2 (128 - 3) /\
   over 4 (weight four) = 10) /\
  sampled four tries = [Ok 0; Ok 1; Ok 3; Ok 1; Ok 3]%nat.
Proof.
  splits; [| | | | | |vm_compute; reflexivity].
  - repeat (constructor; [split; reflexivity|]). constructor.
  - discriminate.
  - unfold roundoff. simpl. lra.
  - simpl. lra.
  - simpl. lra.
  - apply four_sum.
Qed.

Example c110_zero_never_case : 4 * INR 4 * (INR 4 + 2) * roundoff 24 < 1 /\ weight four 2 = 0 /\
  4 * INR 2046 * (INR 2046 + 2) * roundoff 24 < 1.
Proof.
  rewrite !INR_IZR_INZ. change (Z.of_nat 4) with 4%Z. change (Z.of_nat 2046) with 2046%Z. splits.
  - unfold roundoff. simpl. lra.
  - unfold weight, four. cbn [nth_error]. values_in. lra.
  - unfold roundoff. simpl. lra.
Qed.

Example c110_infinite_only_case : exists t, single_make [single 1 0; B754_infinity false; single 0 0; B754_infinity false] = Ok t /\
  map (fun ab => single_sample t (fst ab) (snd ab)) [(single 0 0, single 1 (-1)); (single 1 (-2), single 1 (-1)); (single 1 (-1), single 1 (-1)); (single 3 (-2), single 1 (-1))]
  = [Ok 1; Ok 1; Ok 1; Ok 3]%nat.
Proof.
  destruct (c110_defined prec_float emax_float single_ok [single 1 0; B754_infinity false; single 0 0; B754_infinity false]) as (t & E & _); [discriminate|vm_compute; congruence|].
  exists t. split; [exact E|].
  assert (X : (t <- single_make [single 1 0; B754_infinity false; single 0 0; B754_infinity false] ;;
    Ok (map (fun ab => single_sample t (fst ab) (snd ab)) [(single 0 0, single 1 (-1)); (single 1 (-2), single 1 (-1)); (single 1 (-1), single 1 (-1)); (single 3 (-2), single 1 (-1))]))
    = Ok [Ok 1; Ok 1; Ok 1; Ok 3]%nat) by (vm_compute; reflexivity).
  rewrite E in X. cbn [bind] in X. apply (f_equal (fun r => match r with Ok l => l | _ => [] end)) in X. exact X.
Qed.

(** With 4500 [float] weights an item of weight 0 may be drawn: 2 to the 27 first, then 4498 times 9, then 0.  Adding up
    the weights rounds each 9 up to 16, so that the normalized weights are short by more than 1 in total; the last cell is
    left over and gets the threshold 1. *)
Definition many : list (binary_float 24 128) := single 1 27 :: repeat (single 9 0) 4498 ++ [single 0 0].

Lemma many_sum : over (length many) (weight many) = 2 ^ 27 + 4498 * 9.
Proof.
  assert (Hw : proper_weights many).
  { unfold proper_weights, many. constructor; [split; reflexivity|]. apply Forall_app. split.
    - apply Forall_forall. intros x Hx. apply repeat_spec in Hx. subst x. split; reflexivity.
    - constructor; [split; reflexivity|constructor]. }
  rewrite (sum_is 24 128 many Hw). unfold many.
  assert (L : forall k l, Rsum 24 128 (repeat (single 9 0) k ++ l) = INR k * 9 + Rsum 24 128 l).
  { induction k as [|k IH]; intros l; [simpl; lra|]. cbn [repeat app]. unfold Rsum in *. cbn [map fold_right]. rewrite IH, S_INR.
    replace (level 24 128 (single 9 0)) with 9; [lra|]. unfold level. change (is_finite (single 9 0)) with true. cbv iota. values_in. lra. }
  unfold Rsum. cbn [map fold_right]. fold (Rsum 24 128 (repeat (single 9 0) 4498 ++ [single 0 0])). rewrite L, INR_IZR_INZ.
  change (Z.of_nat 4498) with 4498%Z. unfold Rsum. cbn [map fold_right]. unfold level.
  change (is_finite (single 1 27)) with true. change (is_finite (single 0 0)) with true. cbv iota. values_in. lra.
Qed.

Theorem c110_many_refuted : exists (weights : list (binary_float 24 128)) t first second i,
  proper_weights weights /\ length weights = 4500%nat /\ over 4500 (weight weights) = 2 ^ 27 + 4498 * 9 /\ single_make weights = Ok t /\
  canonical first /\ canonical second /\ single_sample t first second = Ok i /\ (i < 4500)%nat /\ weight weights i = 0.
Proof.
  assert (Ht : exists t, single_make many = Ok t) by (destruct (c110_defined prec_float emax_float single_ok many) as (t & E & _); [discriminate|vm_compute; congruence|eauto]).
  destruct Ht as (t & Et).
  assert (Es : single_sample t (single 16777215 (-24)) (single 1 (-1)) = Ok 4499%nat).
  { assert (E : (t <- single_make many ;; single_sample t (single 16777215 (-24)) (single 1 (-1))) = Ok 4499%nat) by (vm_compute; reflexivity).
    rewrite Et in E. exact E. }
  assert (Hw : proper_weights many).
  { unfold proper_weights, many. constructor; [split; reflexivity|]. apply Forall_app. split.
    - apply Forall_forall. intros x Hx. apply repeat_spec in Hx. subst x. split; reflexivity.
    - constructor; [split; reflexivity|constructor]. }
  assert (Hl : length many = 4500%nat) by (vm_compute; reflexivity).
  exists many, t, (single 16777215 (-24)), (single 1 (-1)), 4499%nat. split; [exact Hw|]. split; [exact Hl|].
  split; [rewrite <- Hl; exact many_sum|]. split; [exact Et|]. split; [apply canonical_single; [reflexivity|values_in; lra]|].
  split; [apply canonical_single; [reflexivity|values_in; lra]|]. split; [exact Es|]. split; [apply Nat.ltb_lt; reflexivity|].
  unfold weight. assert (E : nth_error many 4499 = Some (B754_zero false)) by (vm_compute; reflexivity). rewrite E. reflexivity.
Qed.

(** When the number of weights over their sum overflows, or the sum does, an item of weight 0 may be drawn among two or
    three. *)
Theorem c110_range_refuted :
  (exists t first second, proper_weights [single 1 (-149); single 0 0] /\ single_make [single 1 (-149); single 0 0] = Ok t /\
     canonical first /\ canonical second /\ single_sample t first second = Ok 1%nat /\ weight [single 1 (-149); single 0 0] 1 = 0) /\
  (exists t first second, proper_weights [single 1 127; single 1 127; single 0 0] /\ single_make [single 1 127; single 1 127; single 0 0] = Ok t /\
     canonical first /\ canonical second /\ single_sample t first second = Ok 2%nat /\ weight [single 1 127; single 1 127; single 0 0] 2 = 0).
Proof.
  split.
  - destruct (c110_defined prec_float emax_float single_ok [single 1 (-149); single 0 0]) as (t & E & _); [discriminate|vm_compute; congruence|].
    exists t, (single 3 (-2)), (single 1 (-1)).
    split; [repeat (constructor; [split; reflexivity|]); constructor|]. split; [exact E|].
    split; [apply canonical_single; [reflexivity|values_in; lra]|]. split; [apply canonical_single; [reflexivity|values_in; lra]|]. split.
    + assert (X : (t <- single_make [single 1 (-149); single 0 0] ;; single_sample t (single 3 (-2)) (single 1 (-1))) = Ok 1%nat) by (vm_compute; reflexivity).
      rewrite E in X. exact X.
    + unfold weight. cbn [nth_error]. values_in. lra.
  - destruct (c110_defined prec_float emax_float single_ok [single 1 127; single 1 127; single 0 0]) as (t & E & _); [discriminate|vm_compute; congruence|].
    exists t, (single 3 (-2)), (single 1 (-1)).
    split; [repeat (constructor; [split; reflexivity|]); constructor|]. split; [exact E|].
    split; [apply canonical_single; [reflexivity|values_in; lra]|]. split; [apply canonical_single; [reflexivity|values_in; lra]|]. split.
    + assert (X : (t <- single_make [single 1 127; single 1 127; single 0 0] ;; single_sample t (single 3 (-2)) (single 1 (-1))) = Ok 2%nat) by (vm_compute; reflexivity).
      rewrite E in X. exact X.
    + unfold weight. cbn [nth_error]. values_in. lra.
Qed.

Print Assumptions c110_defined.
Print Assumptions c110_accurate.
Print Assumptions c110_zero_never.
Print Assumptions c110_infinite_only.
Print Assumptions c110_many_refuted.
Print Assumptions c110_range_refuted.
