(** Lemmas on the alias method in floating point. *)
From Coq Require Import Reals List Arith ZArith Bool Lia Lra Psatz Permutation.
From Flocq Require Import Core BinarySingleNaN Relative.
From Verif Require Import Base RandomModel FloatModel FloatProofs AccuracySpec AccuracyProofs FloatSilhouetteModel FloatSilhouetteProofs FloatKMeansProofs
  FloatAliasModel FloatAliasSpec.
Import ListNotations.
Open Scope R_scope.

Section Binary.
Context (prec emax : Z) (Hp : Prec_gt_0 prec) (Hm : Prec_lt_emax prec emax).
Context (Hprec : (2 <= prec)%Z) (Hemax : (prec + 3 <= emax)%Z).
Notation number := (binary_float prec emax).
Notation emin := (3 - emax - prec)%Z.
Notation fexp := (FLT_exp emin prec).
Notation fmt := (generic_format radix2 fexp).
Notation rnd := (round radix2 fexp ZnearestE).
Notation top := (bpow radix2 emax).
Notation level := (level prec emax).
Notation good := (good prec emax).
Notation u := (roundoff prec).
Notation e := (tiny prec emax).
Notation count := (count prec emax Hp Hm).
Notation one := (Bone (prec_gt_0_ := Hp) (prec_lt_emax_ := Hm)).
Notation zero := (B754_zero false : number).
Notation transfer := (f_transfer prec emax Hp Hm).
Notation distribute := (f_distribute prec emax Hp Hm).
Notation pair_up := (f_pair_up prec emax Hp Hm).
Notation fill := (f_fill prec emax Hp Hm).
Implicit Types x y z : number.

(** ** The loops, whatever the numbers *)
Section Loops.
Context (n : nat).
Implicit Types (fake probs : list number) (small large alias : list nat).

Lemma distribute_ok fake i small large : (i < n)%nat -> length fake = n -> (length small + length large < n)%nat ->
  distribute n fake i (small, large) = Ok (if Bltb (nth i fake zero) one then (i :: small, large) else (small, i :: large)).
Proof using.
  intros Hi Hf Hl. unfold f_distribute. assert (E : rd fake i = Ok (nth i fake zero)) by (apply rd_ok, nth_error_nth'; lia).
  rewrite E. cbn [bind]. unfold push. destruct (Bltb _ _); (destruct (Nat.ltb_spec (length small) n); [|lia]); (destruct (Nat.ltb_spec (length large) n); [|lia]); reflexivity.
Qed.

Lemma ones_ok : forall (l : list nat) probs, length probs = n -> (forall i, In i l -> (i < n)%nat) ->
  exists probs', for_each l (fun i p => wr p i one) probs = Ok probs' /\ length probs' = n /\
    (forall j, In j l -> nth j probs' zero = one) /\ (forall j, ~ In j l -> nth j probs' zero = nth j probs zero).
Proof using.
  induction l as [|i l IH]; intros probs Hl Hi; cbn [for_each].
  - exists probs. splits; auto. intros j [].
  - rewrite wr_lt by (rewrite Hl; apply Hi; now left). cbn [bind].
    destruct (IH (upd probs i one)) as (p' & E & L & H1 & H2); [now rewrite upd_length|intros; apply Hi; now right|].
    assert (Hin : (i < length probs)%nat) by (rewrite Hl; apply Hi; now left).
    exists p'. splits; auto.
    + intros j [<-|Hj]; auto. destruct (in_dec Nat.eq_dec i l) as [Hd|Hd]; auto. rewrite H2 by auto.
      apply nth_error_nth. now apply nth_error_upd_eq.
    + intros j Hj. assert (i <> j) by (intros ->; apply Hj; now left). rewrite H2 by (intros C; apply Hj; now right).
      destruct (nth_error (upd probs i one) j) as [v|] eqn:Ev.
      * rewrite (nth_error_nth _ _ _ Ev). rewrite nth_error_upd_neq in Ev by auto. now rewrite (nth_error_nth _ _ _ Ev).
      * rewrite !nth_overflow; auto; apply nth_error_None; auto. rewrite nth_error_upd_neq in Ev by auto. auto.
Qed.

Lemma nth_upd {A} (l : list A) i v d : (i < length l)%nat -> nth i (upd l i v) d = v.
Proof using. intros H. apply nth_error_nth. now apply nth_error_upd_eq. Qed.
Lemma nth_upd_other {A} (l : list A) i j v d : i <> j -> nth j (upd l i v) d = nth j l d.
Proof using.
  intros H. destruct (nth_error (upd l i v) j) as [w|] eqn:Ev.
  - rewrite (nth_error_nth _ _ _ Ev). rewrite nth_error_upd_neq in Ev by auto. now rewrite (nth_error_nth _ _ _ Ev).
  - rewrite !nth_overflow; auto; apply nth_error_None; auto. rewrite nth_error_upd_neq in Ev by auto. auto.
Qed.

(** The arrays and the stacks. *)
Definition shape fake small large alias probs : Prop :=
  length fake = n /\ length alias = n /\ length probs = n /\ NoDup (small ++ large) /\ (forall i, In i (small ++ large) -> (i < n)%nat).

Lemma stack_size (l : list nat) : NoDup l -> (forall i, In i l -> (i < n)%nat) -> (length l <= n)%nat.
Proof using. intros H1 H2. rewrite <- (seq_length n 0). apply NoDup_incl_length; auto. intros i Hi. apply in_seq. specialize (H2 i Hi). lia. Qed.

Definition pushed (fake : list number) (l : nat) small large : list nat * list nat :=
  if Bltb (nth l fake zero) one then (l :: small, large) else (small, l :: large).

Lemma pushed_perm fake l small large : Permutation (fst (pushed fake l small large) ++ snd (pushed fake l small large)) (l :: small ++ large).
Proof using. unfold pushed. destruct (Bltb _ _); cbn [fst snd app]; auto. symmetry. apply Permutation_middle. Qed.

Lemma fill_step fuel fake s l small large alias probs : shape fake (s :: small) (l :: large) alias probs ->
  let fake' := upd fake l (transfer (nth l fake zero) (nth s fake zero)) in
  let st := pushed fake' l small large in
  fill (S fuel) n fake (s :: small) (l :: large) alias probs =
    fill fuel n fake' (fst st) (snd st) (upd alias s l) (upd probs s (nth s fake zero)) /\
  shape fake' (fst st) (snd st) (upd alias s l) (upd probs s (nth s fake zero)) /\
  s <> l /\ (s < n)%nat /\ (l < n)%nat /\ ~ In s (fst st ++ snd st) /\ ~ In l (small ++ large) /\
  Permutation ((s :: small) ++ l :: large) (s :: l :: small ++ large).
Proof using.
  intros (Hf & Ha & Hq & Hd & Hn) fake' st.
  assert (P : Permutation ((s :: small) ++ l :: large) (s :: l :: small ++ large)).
  { cbn [app]. constructor. symmetry. apply Permutation_middle. }
  pose proof (Permutation_NoDup P Hd) as Hd'. inversion Hd' as [|? ? Hs Hd2]; subst. inversion Hd2 as [|? ? Hl Hd3]; subst.
  assert (Hsn : (s < n)%nat) by (apply Hn; now left).
  assert (Hln : (l < n)%nat) by (apply Hn, in_or_app; right; now left).
  assert (Hne : s <> l) by (intros ->; apply Hs; now left).
  pose proof (pushed_perm fake' l small large) as Pst. fold st in Pst.
  assert (Hrest : forall i, In i (l :: small ++ large) -> (i < n)%nat).
  { intros i Hi. apply Hn. apply Permutation_in with (1 := Permutation_sym P). now right. }
  assert (Hs' : ~ In s (fst st ++ snd st)) by (intros C; apply Hs; now apply Permutation_in with (1 := Pst)).
  assert (Hsz : (length (s :: l :: small ++ large) <= n)%nat).
  { apply stack_size; auto. intros i [<-|Hi]; auto. }
  cbn [length] in Hsz. rewrite app_length in Hsz.
  splits; auto.
  - unfold f_fill. cbn [f_pair_up].
    assert (E1 : rd fake s = Ok (nth s fake zero)) by (apply rd_ok, nth_error_nth'; lia).
    assert (E2 : rd fake l = Ok (nth l fake zero)) by (apply rd_ok, nth_error_nth'; lia).
    rewrite E1. cbn [bind]. rewrite wr_lt by lia. cbn [bind]. rewrite wr_lt by lia. cbn [bind]. rewrite E2. cbn [bind].
    rewrite wr_lt by lia. cbn [bind]. fold fake'. rewrite distribute_ok; [|auto|unfold fake'; now rewrite upd_length|lia].
    cbn [bind]. fold (pushed fake' l small large). fold st. destruct st as (a & b). reflexivity.
  - unfold shape. unfold fake'. rewrite !upd_length. splits; auto.
    + apply Permutation_NoDup with (1 := Permutation_sym Pst). auto.
    + intros i Hi. apply Hrest. now apply Permutation_in with (1 := Pst).
Qed.

(** Without small or without large indices only ones are written. *)
Lemma fill_end fuel fake small large alias probs : shape fake small large alias probs -> small = [] \/ large = [] ->
  exists probs', fill fuel n fake small large alias probs = Ok (alias, probs') /\ length probs' = n /\
    (forall j, In j (small ++ large) -> nth j probs' zero = one) /\ (forall j, ~ In j (small ++ large) -> nth j probs' zero = nth j probs zero).
Proof using.
  intros (Hf & Ha & Hq & Hd & Hn) H. unfold f_fill.
  assert (E : pair_up fuel n fake small large alias probs = Ok (small, large, alias, probs)).
  { destruct fuel, small, large; auto; destruct H; discriminate. }
  rewrite E. cbn [bind].
  destruct (ones_ok large probs Hq) as (p1 & E1 & L1 & A1 & B1); [intros; apply Hn, in_or_app; auto|]. rewrite E1. cbn [bind].
  destruct (ones_ok small p1 L1) as (p2 & E2 & L2 & A2 & B2); [intros; apply Hn, in_or_app; auto|]. rewrite E2. cbn [bind].
  exists p2. splits; auto.
  - intros j Hj. destruct (in_dec Nat.eq_dec j small) as [Hs|Hs]; auto. rewrite B2 by auto. apply A1. apply in_app_or in Hj. tauto.
  - intros j Hj. rewrite B2, B1; auto; intros C; apply Hj, in_or_app; auto.
Qed.

Lemma fill_ok : forall fuel fake small large alias probs, shape fake small large alias probs -> (length small + length large <= fuel)%nat ->
  (forall j, (j < n)%nat -> (nth j alias 0 < n)%nat) ->
  exists alias' probs', fill fuel n fake small large alias probs = Ok (alias', probs') /\ length alias' = n /\ length probs' = n /\
    (forall j, (j < n)%nat -> (nth j alias' 0 < n)%nat) /\
    (forall j, ~ In j (small ++ large) -> nth j alias' 0%nat = nth j alias 0%nat /\ nth j probs' zero = nth j probs zero).
Proof using.
  induction fuel as [|fuel IH]; intros fake small large alias probs Hs Hfu Ha.
  - destruct (fill_end 0 fake small large alias probs Hs) as (p & E & L & _ & B); [left; destruct small; auto; simpl in Hfu; lia|].
    exists alias, p. pose proof Hs as (_ & La & _). splits; auto.
  - destruct small as [|s small], large as [|l large];
      try (destruct (fill_end (S fuel) fake _ _ alias probs Hs) as (p & E & L & _ & B); [auto|]; exists alias, p; pose proof Hs as (_ & La & _); splits; auto; fail).
    destruct (fill_step fuel fake s l small large alias probs Hs) as (E & Hs' & Hne & Hsn & Hln & Hni & _ & P).
    set (fake' := upd fake l _) in *. set (st := pushed fake' l small large) in *.
    destruct (IH _ _ _ _ _ Hs') as (a' & p' & E' & La & Lp & Ba & Fr).
    + pose proof (Permutation_length (pushed_perm fake' l small large)) as PL. fold st in PL. rewrite app_length in PL. cbn [length] in PL. rewrite app_length in PL. cbn [length] in Hfu. lia.
    + intros j Hj. destruct Hs as (_ & La & _). destruct (Nat.eq_dec s j) as [<-|Hn]; [rewrite nth_upd by lia; auto|rewrite nth_upd_other by auto; auto].
    + exists a', p'. rewrite E. splits; auto. intros j Hj. destruct (Fr j) as (F1 & F2).
      { intros C. apply Hj. apply Permutation_in with (1 := Permutation_sym P). right. now apply Permutation_in with (1 := pushed_perm fake' l small large). }
      assert (s <> j) by (intros ->; apply Hj; now left). rewrite F1, F2, !nth_upd_other by auto. auto.
Qed.

(** Large indices without a number stay large, and small ones with 0 get them as alias. *)
Lemma fill_nan : forall fuel fake small large alias probs, shape fake small large alias probs -> (length small + length large <= fuel)%nat ->
  (forall j, (j < n)%nat -> (nth j alias 0 < n)%nat) -> large <> [] ->
  (forall i, In i small -> nth i fake zero = zero) -> (forall i, In i large -> nth i fake zero = B754_nan) ->
  exists alias' probs', fill fuel n fake small large alias probs = Ok (alias', probs') /\
    (forall j, In j small -> nth j probs' zero = zero /\ In (nth j alias' 0%nat) large) /\ forall j, In j large -> nth j probs' zero = one.
Proof using.
  induction fuel as [|fuel IH]; intros fake small large alias probs Hs Hfu Ha Hne Hz Hnan.
  - destruct large; [congruence|]. cbn [length] in Hfu. lia.
  - destruct large as [|l large]; [congruence|]. destruct small as [|s small].
    + destruct (fill_end (S fuel) fake [] (l :: large) alias probs Hs) as (p & E & L & A & _); [now left|]. exists alias, p. splits; auto. intros j [].
    + destruct (fill_step fuel fake s l small large alias probs Hs) as (E & Hs' & Hsl & Hsn & Hln & Hni & Hli & P).
      assert (El : nth l fake zero = B754_nan) by (apply Hnan; now left). rewrite El in *.
      assert (Et : transfer B754_nan (nth s fake zero) = B754_nan) by reflexivity. rewrite Et in *.
      pose proof Hs as (Lf & La & _).
      assert (Ep : pushed (upd fake l B754_nan) l small large = (small, l :: large)) by (unfold pushed; rewrite nth_upd by lia; reflexivity).
      rewrite Ep in *. cbn [fst snd] in *. rewrite E.
      assert (Ha' : forall j, (j < n)%nat -> (nth j (upd alias s l) 0 < n)%nat).
      { intros j Hj. destruct (Nat.eq_dec s j) as [<-|Hn]; [rewrite nth_upd by lia; auto|rewrite nth_upd_other by auto; auto]. }
      assert (Hfu' : (length small + length (l :: large) <= fuel)%nat) by (cbn [length] in *; lia).
      destruct (IH _ _ _ _ _ Hs' Hfu' Ha') as (a' & p' & E' & A & B).
      * discriminate.
      * intros i Hi. rewrite nth_upd_other; [apply Hz; now right|]. intros ->. apply Hli, in_or_app. now left.
      * intros i Hi. destruct (Nat.eq_dec l i) as [<-|Hn]; [apply nth_upd; lia|]. rewrite nth_upd_other by auto. apply Hnan. exact Hi.
      * destruct (fill_ok fuel _ _ _ _ _ Hs' Hfu' Ha') as (a2 & p2 & E2 & _ & _ & _ & Fr). rewrite E' in E2. injection E2 as <- <-.
        exists a', p'. splits; auto. intros j [<-|Hj]; auto. destruct (Fr s Hni) as (F1 & F2). pose proof Hs as (_ & _ & Lp & _). rewrite F1, F2, !nth_upd by lia.
        split; [apply Hz; now left|now left].
Qed.

Lemma distribute_all fake : length fake = n ->
  exists small large, for_each (rev (seq 0 n)) (distribute n fake) ([], []) = Ok (small, large) /\ Permutation (small ++ large) (seq 0 n) /\
    (forall i, In i small -> Bltb (nth i fake zero) one = true) /\ (forall i, In i large -> Bltb (nth i fake zero) one = false).
Proof using.
  intros Hf.
  assert (G : forall l s0 l0, (length l + length s0 + length l0 <= n)%nat -> (forall i, In i l -> (i < n)%nat) ->
    (forall i, In i s0 -> Bltb (nth i fake zero) one = true) -> (forall i, In i l0 -> Bltb (nth i fake zero) one = false) ->
    exists small large, for_each l (distribute n fake) (s0, l0) = Ok (small, large) /\ Permutation (small ++ large) (l ++ s0 ++ l0) /\
    (forall i, In i small -> Bltb (nth i fake zero) one = true) /\ (forall i, In i large -> Bltb (nth i fake zero) one = false)).
  { induction l as [|i l IH]; intros s0 l0 Hl Hi H1 H2; cbn [for_each].
    - exists s0, l0. splits; auto.
    - cbn [length] in Hl. rewrite distribute_ok; [|apply Hi; now left|auto|lia]. cbn [bind].
      destruct (Bltb (nth i fake zero) one) eqn:E.
      + destruct (IH (i :: s0) l0) as (a & b & Ef & P & A & B); auto; [cbn [length]; lia|intros; apply Hi; now right|intros j [<-|Hj]; auto|].
        exists a, b. splits; auto. rewrite P. cbn [app]. symmetry. apply Permutation_middle.
      + destruct (IH s0 (i :: l0)) as (a & b & Ef & P & A & B); auto; [cbn [length]; lia|intros; apply Hi; now right|intros j [<-|Hj]; auto|].
        exists a, b. splits; auto. rewrite P. cbn [app].
        rewrite (app_assoc l s0 (i :: l0)), <- Permutation_middle, <- app_assoc. auto. }
  destruct (G (rev (seq 0 n)) [] []) as (a & b & E & P & A & B); try (intros i []; fail).
  - rewrite rev_length, seq_length. simpl. lia.
  - intros i Hi. apply in_rev, in_seq in Hi. lia.
  - exists a, b. splits; auto. rewrite P. cbn [app]. rewrite app_nil_r. symmetry. apply Permutation_rev.
Qed.
End Loops.

(** ** The cell chosen by the first number *)
Lemma fexp_0 : fexp 0 = (- prec)%Z.
Proof using Hp Hm Hprec Hemax. unfold FLT_exp. lia. Qed.

Lemma below_one r : fmt r -> r < 1 -> r <= 1 - u.
Proof using Hp Hm Hprec Hemax.
  intros F H. assert (Hv := FLT_exp_valid emin prec).
  pose proof (pred_ge_gt radix2 fexp r 1 F (fmt_1 prec emax Hprec Hemax) H) as P.
  change 1 with (bpow radix2 0) in P at 1. rewrite pred_bpow, fexp_0 in P. simpl (bpow radix2 0) in P. exact P.
Qed.

Lemma cell_below N r : fmt N -> 1 <= N -> 0 <= r <= 1 - u -> rnd (N * r) <= pred radix2 fexp N.
Proof using Hp Hm Hprec Hemax.
  intros FN HN Hr. assert (Hv := FLT_exp_valid emin prec). pose proof (u_range prec Hprec) as U.
  apply round_N_le_midp; auto; [now apply generic_format_pred|]. rewrite succ_pred by auto.
  assert (M : N * r <= N - N * u) by nra. apply Rle_lt_trans with (1 := M).
  assert (K : N - pred radix2 fexp N < 2 * (N * u)); [|lra].
  rewrite pred_eq_pos by lra. unfold pred_pos. set (m := mag radix2 N).
  assert (Hmag : bpow radix2 (m - 1) <= N < bpow radix2 m).
  { pose proof (bpow_mag_le radix2 N ltac:(lra)) as B1. pose proof (bpow_mag_gt radix2 N) as B2. rewrite Rabs_pos_eq in B1, B2 by lra. auto. }
  assert (Hm1 : (1 <= m)%Z) by (apply (mag_ge_bpow radix2 N 1); simpl; rewrite Rabs_pos_eq; lra).
  destruct (Req_bool_spec N (bpow radix2 (m - 1))) as [E|E].
  - assert (Hf : fexp (m - 1) = (m - 1 - prec)%Z) by (unfold FLT_exp; lia). rewrite Hf.
    unfold Zminus at 1. rewrite bpow_plus. rewrite <- E. fold (roundoff prec). nra.
  - unfold ulp. rewrite Req_bool_false by lra. unfold cexp. fold m.
    assert (Hf : fexp m = ((m - 1) + (1 + - prec))%Z) by (unfold FLT_exp; lia). rewrite Hf, !bpow_plus.
    fold (roundoff prec). simpl (bpow radix2 1). change (IZR (Z.pow_pos 2 1)) with 2. nra.
Qed.

Lemma trunc_value x : Btrunc x = Ztrunc (B2R x).
Proof using Hm.
  apply eq_IZR. rewrite (Btrunc_correct prec emax Hm x). unfold round, scaled_mantissa, cexp, FIX_exp, F2R. simpl. rewrite !Rmult_1_r. reflexivity.
Qed.

(** For every number of weights: the cell exists. *)
Lemma cell_ok n r : (1 <= n)%nat -> (Z.of_nat n <= 2 ^ (emax - 1))%Z -> canonical r ->
  exists c, f_truncate prec emax (Bmult mode_NE (count n) r) = Ok c /\ (c < n)%nat /\ Z.of_nat c = Zfloor (rnd (B2R (count n) * B2R r)).
Proof using Hp Hm Hprec Hemax.
  intros Hn1 Hn2 (Fr & Hr). destruct (count_ok prec emax Hp Hm Hprec Hemax n Hn1 Hn2) as (Fc & Sc & Ec & Hc).
  assert (Hv := FLT_exp_valid emin prec).
  assert (FN : fmt (B2R (count n))) by apply generic_format_B2R.
  assert (Hr1 : B2R r <= 1 - u) by (apply below_one; [apply generic_format_B2R|lra]).
  pose proof (cell_below (B2R (count n)) (B2R r) FN Hc ltac:(lra)) as B.
  assert (L0 : 0 <= rnd (B2R (count n) * B2R r)) by (apply (rnd_nonneg prec emax Hprec); apply Rmult_le_pos; lra).
  assert (Lp : pred radix2 fexp (B2R (count n)) < B2R (count n)) by (apply pred_lt_id; lra).
  assert (Lt : B2R (count n) < top) by (pose proof (finite_below prec emax (count n) Fc) as A; rewrite Rabs_pos_eq in A by lra; auto).
  pose proof (Bmult_correct prec emax Hp Hm mode_NE (count n) r) as C. cbn [round_mode] in C.
  change (SpecFloat.fexp prec emax) with fexp in C.
  assert (L : Rabs (rnd (B2R (count n) * B2R r)) < top) by (rewrite Rabs_pos_eq by auto; lra).
  rewrite Rlt_bool_true in C by exact L. destruct C as (Ev & Fv & _). rewrite Fc, Fr in Fv. cbn [andb] in Fv.
  set (v := rnd (B2R (count n) * B2R r)) in *.
  assert (Hvn : v < INR n).
  { apply Rnot_le_lt. intros H. assert (INR n <= pred radix2 fexp (B2R (count n))) by lra.
    assert (rnd (INR n) <= pred radix2 fexp (B2R (count n))).
    { rewrite <- (rnd_id prec emin (pred radix2 fexp (B2R (count n)))) by (now apply generic_format_pred). now apply rnd_le. }
    rewrite <- Ec in *. lra. }
  assert (Ht : Btrunc (Bmult mode_NE (count n) r) = Zfloor v) by (rewrite trunc_value, Ev; apply Ztrunc_floor; auto).
  assert (H0 : (0 <= Zfloor v)%Z) by (apply Zfloor_lub; auto).
  assert (H1 : (Zfloor v < Z.of_nat n)%Z).
  { apply lt_IZR. apply Rle_lt_trans with (1 := Zfloor_lb v). now rewrite <- INR_IZR_INZ. }
  exists (Z.to_nat (Zfloor v)). unfold f_truncate. rewrite Fv, Ht. destruct (Z.ltb_spec (-1) (Zfloor v)); [|lia]. cbn [andb]. splits; auto; lia.
Qed.

(** ** Sums *)
Lemma over_total n f : over n f = total f (seq 0 n).
Proof using. unfold over. induction (seq 0 n) as [|a l IH]; simpl; [lra|]. now rewrite IH. Qed.
Lemma total_ext f g l : (forall i, In i l -> f i = g i) -> total f l = total g l.
Proof using. induction l as [|a l IH]; intros H; simpl; [lra|]. rewrite (H a (or_introl eq_refl)), IH by (intros; apply H; now right). lra. Qed.
Lemma total_le f g l : (forall i, In i l -> f i <= g i) -> total f l <= total g l.
Proof using. induction l as [|a l IH]; intros H; simpl; [lra|]. pose proof (H a (or_introl eq_refl)). assert (total f l <= total g l) by (apply IH; intros; apply H; now right). lra. Qed.
Lemma total_plus f g l : total (fun i => f i + g i) l = total f l + total g l.
Proof using. induction l as [|a l IH]; simpl; lra. Qed.
Lemma total_scale a f l : total (fun i => a * f i) l = a * total f l.
Proof using. induction l as [|x l IH]; simpl; [lra|]. rewrite IH. lra. Qed.
Lemma total_const a l : total (fun _ => a) l = INR (length l) * a.
Proof using. induction l as [|x l IH]; [simpl; lra|]. cbn [length total fold_right]. rewrite S_INR. unfold total in IH. rewrite IH. lra. Qed.
Lemma total_abs f l : Rabs (total f l) <= total (fun i => Rabs (f i)) l.
Proof using. induction l as [|x l IH]; simpl; [rewrite Rabs_R0; lra|]. apply Rle_trans with (1 := Rabs_triang _ _). lra. Qed.
Lemma total_none l (i : nat) a : ~ In i l -> total (fun j => if (j =? i)%nat then a j else 0) l = 0.
Proof using.
  induction l as [|x l IH]; intros H; simpl; [lra|]. rewrite IH by (intros C; apply H; now right).
  destruct (Nat.eqb_spec x i) as [->|_]; [exfalso; apply H; now left|lra].
Qed.
Lemma total_one l (i : nat) a : NoDup l -> In i l -> total (fun j => if (j =? i)%nat then a j else 0) l = a i.
Proof using.
  induction l as [|x l IH]; intros Hd Hi; [destruct Hi|]. inversion Hd as [|? ? Hx Hd']; subst. simpl.
  destruct (Nat.eqb_spec x i) as [->|Hn].
  - rewrite total_none by auto. lra.
  - destruct Hi as [->|Hi]; [congruence|]. rewrite IH by auto. lra.
Qed.
Lemma over_one n (i : nat) a : (i < n)%nat -> over n (fun j => if (i =? j)%nat then a else 0) = a.
Proof using.
  intros H. rewrite over_total. transitivity (total (fun j => if (j =? i)%nat then a else 0) (seq 0 n)).
  - apply total_ext. intros j _. now rewrite Nat.eqb_sym.
  - apply (total_one (seq 0 n) i (fun _ => a)); [apply seq_NoDup|apply in_seq; lia].
Qed.
Lemma over_swap n (l : list nat) (g : nat -> R) : (forall j, In j l -> (j < n)%nat) ->
  over n (fun i => total (fun j => if (j =? i)%nat then g j else 0) l) = total g l.
Proof using.
  rewrite over_total. induction l as [|x l IH]; intros H; cbn [total fold_right].
  - rewrite total_const. simpl. lra.
  - rewrite (total_plus (fun i => if (x =? i)%nat then g x else 0) (fun i => total (fun j => if (j =? i)%nat then g j else 0) l)).
    rewrite IH by (intros; apply H; now right). rewrite <- over_total, over_one by (apply H; now left). reflexivity.
Qed.

(** ** One transfer *)
Lemma transfer_ok y x : is_finite y = true -> is_finite x = true -> 1 <= B2R y -> 0 <= B2R x < 1 ->
  is_finite (transfer y x) = true /\ 0 <= B2R (transfer y x) <= B2R y /\ Rabs (B2R (transfer y x) - (B2R y + (B2R x - 1))) <= u * (B2R y + 1).
Proof using Hp Hm Hprec Hemax.
  intros Fy Fx Hy Hx. pose proof (u_range prec Hprec) as U. destruct (one_ok prec emax Hp Hm) as (F1 & E1 & _).
  destruct (difference_1 prec emax Hp Hm Hprec Hemax x one Fx F1) as (Ft & Et & Bt); [rewrite E1; apply Rabs_le; lra|].
  rewrite E1 in Et. unfold f_transfer. set (t := Bminus mode_NE x one) in *.
  assert (Ht0 : B2R t <= 0) by (rewrite Et, <- (rnd_0 prec emin); apply rnd_le; auto; lra).
  pose proof (generic_format_B2R prec emax y) as My. change (SpecFloat.fexp prec emax) with fexp in My.
  pose proof (generic_format_B2R prec emax t) as Mt. change (SpecFloat.fexp prec emax) with fexp in Mt.
  pose proof (generic_format_B2R prec emax x) as Mx. change (SpecFloat.fexp prec emax) with fexp in Mx.
  assert (Rg : 0 <= rnd (B2R y + B2R t) <= B2R y).
  { split; [apply (rnd_nonneg prec emax Hprec); lra|]. rewrite <- (rnd_id prec emin (B2R y)) at 2 by auto. apply rnd_le; auto. lra. }
  pose proof (finite_below prec emax y Fy) as Ay. rewrite Rabs_pos_eq in Ay by lra.
  pose proof (Bplus_correct prec emax Hp Hm mode_NE y t Fy Ft) as C. cbn [round_mode] in C. change (SpecFloat.fexp prec emax) with fexp in C.
  assert (L : Rabs (rnd (B2R y + B2R t)) < top) by (rewrite Rabs_pos_eq by lra; lra).
  rewrite Rlt_bool_true in C by exact L. destruct C as (Ev & Fv & _). splits; auto; [rewrite Ev; lra|rewrite Ev; lra|].
  rewrite Ev.
  assert (K1 : Rabs (rnd (B2R y + B2R t) - (B2R y + B2R t)) <= u * Rabs (B2R y + B2R t)) by (apply (rnd_plus prec emax); auto).
  assert (K2 : Rabs (B2R t - (B2R x - 1)) <= u * Rabs (B2R x - 1)).
  { rewrite Et. apply (rnd_plus prec emax Hp Hprec (B2R x) (-1)); auto. apply generic_format_opp. apply (fmt_1 prec emax Hprec Hemax). }
  rewrite (Rabs_pos_eq (B2R y + B2R t)) in K1 by lra. rewrite (Rabs_left (B2R x - 1)) in K2 by lra.
  apply Rabs_le_inv in K1. apply Rabs_le_inv in K2. apply Rabs_le. nra.
Qed.

Lemma small_value x : is_finite x = true -> Bltb x one = Rlt_bool (B2R x) 1.
Proof using. intros F. destruct (one_ok prec emax Hp Hm) as (F1 & E1 & _). rewrite Bltb_correct by auto. now rewrite E1. Qed.

(** ** The table *)
Section Values.
Context (n : nat) (B : R).
Notation c := (u * (B + 1)).
Definition values (fake : list number) (small large : list nat) : Prop :=
  (forall i, In i (small ++ large) -> is_finite (nth i fake zero) = true /\ 0 <= B2R (nth i fake zero) <= B) /\
  (forall i, In i small -> B2R (nth i fake zero) < 1) /\ (forall i, In i large -> 1 <= B2R (nth i fake zero)).
(** How far the sum of the remaining numbers is from what the remaining cells hold. *)
Definition gap (fake : list number) (l : list nat) : R := Rabs (total (fun j => B2R (nth j fake zero) - 1) l).
(** What the listed cells give to [i], beyond the number that [i] still has. *)
Definition excess (fake : list number) (alias : list nat) (probs : list number) (l : list nat) (i : nat) : R :=
  total (fun j => (if (j =? i)%nat then B2R (nth j probs zero) - B2R (nth j fake zero) else 0) +
                  (if (nth j alias 0 =? i)%nat then 1 - B2R (nth j probs zero) else 0)) l.

Lemma values_step fake s l small large alias probs : shape n fake (s :: small) (l :: large) alias probs -> values fake (s :: small) (l :: large) ->
  let fake' := upd fake l (transfer (nth l fake zero) (nth s fake zero)) in
  let st := pushed fake' l small large in
  values fake' (fst st) (snd st) /\ (forall j, j <> l -> nth j fake' zero = nth j fake zero) /\
  Rabs (B2R (nth l fake' zero) - (B2R (nth l fake zero) + (B2R (nth s fake zero) - 1))) <= c.
Proof using Hp Hm Hprec Hemax.
  intros Hs (V1 & V2 & V3) fake' st.
  destruct (fill_step n 0 fake s l small large alias probs Hs) as (_ & _ & Hne & Hsn & Hln & _ & Hli & _).
  destruct Hs as (Lf & _).
  destruct (V1 s) as (Fs & Bs); [now left|]. destruct (V1 l) as (Fl & Bl); [apply in_or_app; right; now left|].
  assert (Hs1 : B2R (nth s fake zero) < 1) by (apply V2; now left). assert (Hl1 : 1 <= B2R (nth l fake zero)) by (apply V3; now left).
  destruct (transfer_ok _ _ Fl Fs Hl1 ltac:(lra)) as (Ft & Bt & Et).
  assert (El : nth l fake' zero = transfer (nth l fake zero) (nth s fake zero)) by (apply nth_upd; lia).
  assert (Eo : forall j, j <> l -> nth j fake' zero = nth j fake zero) by (intros j Hj; apply nth_upd_other; auto).
  assert (Eo' : forall j, In j (small ++ large) -> nth j fake' zero = nth j fake zero) by (intros j Hj; apply Eo; intros ->; auto).
  pose proof (u_range prec Hprec) as U. splits; auto.
  - assert (Q1 : forall i, In i (l :: small ++ large) -> is_finite (nth i fake' zero) = true /\ 0 <= B2R (nth i fake' zero) <= B).
    { intros i [<-|Hi]; [rewrite El; split; auto; lra|]. rewrite Eo' by auto. apply V1. apply in_app_or in Hi. apply in_or_app. destruct Hi; [left; now right|right; now right]. }
    split; [intros i Hi; apply Q1; now apply Permutation_in with (1 := pushed_perm fake' l small large)|].
    assert (Q2 : forall i, In i small -> B2R (nth i fake' zero) < 1) by (intros i Hi; rewrite Eo' by (apply in_or_app; auto); apply V2; now right).
    assert (Q3 : forall i, In i large -> 1 <= B2R (nth i fake' zero)) by (intros i Hi; rewrite Eo' by (apply in_or_app; auto); apply V3; now right).
    unfold st, pushed. rewrite small_value by (rewrite El; auto). destruct (Rlt_bool_spec (B2R (nth l fake' zero)) 1) as [H|H]; cbn [fst snd]; split; auto.
    + intros i [<-|Hi]; auto.
    + intros i [<-|Hi]; auto.
  - rewrite El. apply Rle_trans with (1 := Et). nra.
Qed.

(** The ends of the loops: what is left is at most what the roundings have lost. *)
Lemma ends_same_sign fake small large : values fake small large -> small = [] \/ large = [] ->
  total (fun j => Rabs (1 - B2R (nth j fake zero))) (small ++ large) = gap fake (small ++ large).
Proof using.
  intros (V1 & V2 & V3) [-> | ->]; unfold gap; cbn [app].
  - rewrite (total_ext _ (fun j => B2R (nth j fake zero) - 1)); [|intros i Hi; specialize (V3 i Hi); rewrite Rabs_left1; lra].
    rewrite Rabs_pos_eq; auto. clear V1 V2. induction large as [|a l IH]; simpl; [lra|]. specialize (V3 a (or_introl eq_refl)) as Ha. specialize (IH (fun i Hi => V3 i (or_intror Hi))). lra.
  - rewrite app_nil_r in *. rewrite (total_ext _ (fun j => -1 * (B2R (nth j fake zero) - 1))); [|intros i Hi; specialize (V2 i Hi); rewrite Rabs_pos_eq; lra].
    rewrite total_scale, Rabs_left1; [lra|]. clear V1 V3. induction small as [|a l IH]; simpl; [lra|]. specialize (V2 a (or_introl eq_refl)) as Ha. specialize (IH (fun i Hi => V2 i (or_intror Hi))). lra.
Qed.

Lemma gap_step fake s l small large alias probs : shape n fake (s :: small) (l :: large) alias probs -> values fake (s :: small) (l :: large) ->
  let fake' := upd fake l (transfer (nth l fake zero) (nth s fake zero)) in
  let st := pushed fake' l small large in
  gap fake' (fst st ++ snd st) <= gap fake ((s :: small) ++ l :: large) + c.
Proof using Hp Hm Hprec Hemax.
  intros Hs V fake' st. destruct (values_step fake s l small large alias probs Hs V) as (V' & Eo & Er). fold fake' in V', Eo, Er.
  destruct (fill_step n 0 fake s l small large alias probs Hs) as (_ & _ & _ & _ & _ & _ & Hli & P).
  unfold gap. rewrite (total_perm _ _ _ P), (total_perm _ _ _ (pushed_perm fake' l small large)). cbn [total fold_right]. fold (total (fun j => B2R (nth j fake zero) - 1) (small ++ large)).
  fold (total (fun j => B2R (nth j fake' zero) - 1) (small ++ large)).
  rewrite (total_ext (fun j => B2R (nth j fake' zero) - 1) (fun j => B2R (nth j fake zero) - 1) (small ++ large)).
  2:{ intros j Hj. rewrite Eo; auto. intros ->. auto. }
  set (T := total _ (small ++ large)). set (d := B2R (nth l fake' zero) - _) in Er.
  replace (B2R (nth l fake' zero) - 1 + T) with (B2R (nth s fake zero) - 1 + (B2R (nth l fake zero) - 1 + T) + d) by (unfold d; lra).
  apply Rle_trans with (1 := Rabs_triang _ _). lra.
Qed.

Lemma fill_values : forall fuel fake small large alias probs alias' probs', shape n fake small large alias probs -> values fake small large ->
  (length small + length large <= fuel)%nat -> (forall j, (j < n)%nat -> (nth j alias 0 < n)%nat) ->
  0 <= B -> fill fuel n fake small large alias probs = Ok (alias', probs') ->
  let k := INR (length (small ++ large)) in
  (forall j, In j (small ++ large) -> is_finite (nth j probs' zero) = true /\ 0 <= B2R (nth j probs' zero) <= 1) /\
  over n (fun i => Rabs (excess fake alias' probs' (small ++ large) i)) <= 2 * (k * c) + gap fake (small ++ large) /\
  (gap fake (small ++ large) + k * c < 1 -> forall j, In j (small ++ large) ->
     (B2R (nth j fake zero) = 0 -> B2R (nth j probs' zero) = 0) /\
     (B2R (nth j probs' zero) = 1 \/ B2R (nth (nth j alias' 0%nat) fake zero) <> 0)).
Proof using Hp Hm Hprec Hemax.
  pose proof (u_range prec Hprec) as U. destruct (one_ok prec emax Hp Hm) as (F1 & E1 & _).
  assert (Done : forall fuel fake small large alias probs alias' probs', shape n fake small large alias probs -> values fake small large -> 0 <= B ->
    small = [] \/ large = [] -> fill fuel n fake small large alias probs = Ok (alias', probs') ->
  let k := INR (length (small ++ large)) in
  (forall j, In j (small ++ large) -> is_finite (nth j probs' zero) = true /\ 0 <= B2R (nth j probs' zero) <= 1) /\
  over n (fun i => Rabs (excess fake alias' probs' (small ++ large) i)) <= 2 * (k * c) + gap fake (small ++ large) /\
  (gap fake (small ++ large) + k * c < 1 -> forall j, In j (small ++ large) ->
     (B2R (nth j fake zero) = 0 -> B2R (nth j probs' zero) = 0) /\
     (B2R (nth j probs' zero) = 1 \/ B2R (nth (nth j alias' 0%nat) fake zero) <> 0))).
  { intros fuel fake small large alias probs alias' probs' Hs V HB He E k.
    destruct (fill_end n fuel fake small large alias probs Hs He) as (p & E' & _ & A & _). rewrite E' in E. injection E as <- <-.
    pose proof (ends_same_sign fake small large V He) as Es. pose proof (pos_INR (length (small ++ large))) as Hk. fold k in Hk.
    assert (Hkc : 0 <= k * c) by (apply Rmult_le_pos; [auto|apply Rmult_le_pos; lra]).
    splits.
    - intros j Hj. rewrite A by auto. split; auto. rewrite E1. lra.
    - apply Rle_trans with (gap fake (small ++ large)); [|lra]. rewrite <- Es. rewrite <- (over_swap n (small ++ large)); [|apply Hs].
      rewrite !over_total. apply total_le. intros i _. unfold excess. apply Rle_trans with (1 := total_abs _ _). apply total_le.
      intros j Hj. rewrite A, E1 by auto. destruct (j =? i)%nat, (nth j alias 0 =? i)%nat; apply Req_le; try (f_equal; lra);
        match goal with |- Rabs ?a = 0 => replace a with 0 by lra; apply Rabs_R0 end.
    - intros Hg j Hj. split; [|left; rewrite A, E1; auto]. intros Ez. exfalso.
      assert (1 <= total (fun j => Rabs (1 - B2R (nth j fake zero))) (small ++ large)); [|lra].
      clear -Hj Ez. induction (small ++ large) as [|a l IH]; [destruct Hj|]. cbn [total fold_right].
      assert (N : 0 <= total (fun j => Rabs (1 - B2R (nth j fake zero))) l) by (apply total_nonneg; intros; apply Rabs_pos). unfold total in N, IH.
      destruct Hj as [<-|Hj]; [rewrite Ez, Rabs_pos_eq; lra|]. pose proof (Rabs_pos (1 - B2R (nth a fake zero))). specialize (IH Hj). lra. }
  induction fuel as [|fuel IH]; intros fake small large alias probs alias' probs' Hs V Hfu Ha HB E k.
  - apply (Done 0%nat fake small large alias probs alias' probs'); auto. left. destruct small; auto. simpl in Hfu. lia.
  - destruct small as [|s small], large as [|l large]; try (apply (Done (S fuel) fake _ _ alias probs alias' probs'); auto; fail).
    pose proof Hs as (Lf & La & Lp & Hd & Hin).
    destruct (fill_step n fuel fake s l small large alias probs Hs) as (E' & Hs' & Hne & Hsn & Hln & Hni & Hli & P).
    destruct (values_step fake s l small large alias probs Hs V) as (V' & Eo & Er).
    pose proof (gap_step fake s l small large alias probs Hs V) as G.
    rewrite E' in E. set (fake' := upd fake l _) in *. set (st := pushed fake' l small large) in *. cbv zeta in G. fold st in G.
    pose proof (pushed_perm fake' l small large) as Pst. fold st in Pst.
    assert (Hlen : length ((s :: small) ++ l :: large) = S (length (fst st ++ snd st))).
    { rewrite (Permutation_length P), (Permutation_length Pst). reflexivity. }
    assert (Hfu' : (length (fst st) + length (snd st) <= fuel)%nat).
    { rewrite <- app_length. rewrite app_length in Hlen. cbn [length] in Hlen, Hfu. lia. }
    assert (Ha' : forall j, (j < n)%nat -> (nth j (upd alias s l) 0 < n)%nat).
    { intros j Hj. destruct (Nat.eq_dec s j) as [<-|Hn]; [rewrite nth_upd by lia; auto|rewrite nth_upd_other by auto; auto]. }
    destruct (fill_ok n fuel _ _ _ _ _ Hs' Hfu' Ha') as (a2 & p2 & E2 & _ & _ & _ & Fr). rewrite E2 in E. injection E as -> ->.
    destruct (Fr s Hni) as (As & Ps). rewrite nth_upd in As by lia. rewrite nth_upd in Ps by lia.
    destruct (IH _ _ _ _ _ _ _ Hs' V' Hfu' Ha' HB E2) as (R1 & R2 & R3). set (D' := fst st ++ snd st) in *.
    set (k' := INR (length D')) in *. assert (Hk : k = k' + 1) by (unfold k; rewrite Hlen; apply S_INR).
    assert (P' : Permutation ((s :: small) ++ l :: large) (s :: D')).
    { rewrite P. constructor. now symmetry. }
    destruct V as (V1 & V2 & V3). destruct (V1 s) as (Fs & Bs); [now left|]. assert (Hs1 : B2R (nth s fake zero) < 1) by (apply V2; now left).
    assert (Hl1 : 1 <= B2R (nth l fake zero)) by (apply V3; now left).
    assert (Hc : 0 <= c) by (apply Rmult_le_pos; lra).
    splits.
    + intros j Hj. apply Permutation_in with (1 := P') in Hj. destruct Hj as [<-|Hj]; auto. rewrite Ps. split; auto. lra.
    + apply Rle_trans with (over n (fun i => Rabs (excess fake' alias' probs' D' i) + (if (l =? i)%nat then c else 0))).
      * rewrite !over_total. apply total_le. intros i _.
        assert (X : excess fake alias' probs' ((s :: small) ++ l :: large) i = excess fake' alias' probs' D' i +
          (if (l =? i)%nat then B2R (nth l fake' zero) - (B2R (nth l fake zero) + (B2R (nth s fake zero) - 1)) else 0)).
        { unfold excess. rewrite (total_perm _ _ _ P), (total_perm _ _ _ Pst). cbn [total fold_right].
          match goal with |- _ + (_ + ?a) = _ + ?b + _ => replace a with b end.
          2:{ apply total_ext. intros j Hj. rewrite Eo; auto. intros ->. auto. }
          rewrite As, Ps. destruct (Nat.eqb_spec s i), (Nat.eqb_spec l i); subst; lra. }
        rewrite X. apply Rle_trans with (1 := Rabs_triang _ _). destruct (l =? i)%nat; [lra|]. rewrite Rabs_R0. lra.
      * rewrite over_total, (total_plus (fun i => Rabs (excess fake' alias' probs' D' i)) (fun i => if (l =? i)%nat then c else 0)), <- !over_total, over_one by auto.
        rewrite Hk. lra.
    + intros Hg. assert (Hg' : gap fake' D' + k' * c < 1) by (rewrite Hk in Hg; lra). specialize (R3 Hg').
      assert (Pos : forall j, B2R (nth j fake' zero) <> 0 -> B2R (nth j fake zero) <> 0).
      { intros j Hj. destruct (Nat.eq_dec j l) as [->|Hjl]; [lra|]. now rewrite <- Eo. }
      intros j Hj. apply Permutation_in with (1 := P') in Hj. destruct Hj as [<-|Hj].
      * rewrite Ps, As. split; auto. right. lra.
      * destruct (R3 j Hj) as (Q1 & Q2). split; [|destruct Q2; auto].
        intros Ez. apply Q1. rewrite Eo; auto. intros ->. lra.
Qed.
End Values.

(** ** The normalized weights *)
Lemma grow_linear k : (1 + u) ^ k * (1 - INR k * u) <= 1 /\ 1 - INR k * u <= (1 - u) ^ k.
Proof using Hprec.
  pose proof (u_range prec Hprec) as U. induction k as [|k (I1 & I2)]; [simpl; lra|]. rewrite S_INR. cbn [pow].
  pose proof (grow_pos prec Hprec k) as W. pose proof (pos_INR k) as K. pose proof (shrink_range prec Hprec k) as W'. split; [|nra].
  assert (0 <= (INR k + 1) * u * u) by (apply Rmult_le_pos; [apply Rmult_le_pos|]; lra). nra.
Qed.

Lemma mult_ok x y : good x -> is_finite x = true -> good y -> is_finite y = true ->
  good (Bmult mode_NE x y) /\ level (Bmult mode_NE x y) = cap emax (rnd (B2R x * B2R y)).
Proof using Hp Hm Hprec Hemax.
  intros Gx Fx Gy Fy. destruct (good_inv prec emax x Gx) as [->|(_ & Sx & Hx)]; [discriminate|].
  destruct (good_inv prec emax y Gy) as [->|(_ & Sy & Hy)]; [discriminate|].
  apply settle; auto; [apply Rmult_le_pos; auto|].
  pose proof (Bmult_correct prec emax Hp Hm mode_NE x y) as C. cbn [round_mode] in C. change (SpecFloat.fexp prec emax) with fexp in C.
  destruct (Rlt_bool _ _).
  - destruct C as (E & F & S). rewrite Fx, Fy in F. cbn [andb] in F. splits; auto. rewrite S; [now rewrite Sx, Sy|]. destruct (Bmult mode_NE x y); auto; discriminate.
  - apply overflow_inf in C. now rewrite C, Sx, Sy.
Qed.

(** The sum, the factor and the products, for weights whose sum is neither huge nor tiny. *)
Section Weights.
Context (weights : list number) (Hw : proper_weights weights) (Hne : weights <> []).
Notation n := (length weights).
Notation N := (INR n).
Notation S := (over n (weight weights)).
Notation fake := (f_normalize prec emax Hp Hm weights).
Context (Hn : (N + 3) * u <= / 3) (Hhuge : S <= bpow radix2 (emax - 3)) (Htiny : N <= S * bpow radix2 (emax - 2)).

Lemma weight_nth i : weight weights i = B2R (nth i weights zero).
Proof using.
  unfold weight. destruct (nth_error weights i) as [x|] eqn:E; [now rewrite (nth_error_nth _ _ _ E)|].
  rewrite nth_overflow; [reflexivity|]. now apply nth_error_None.
Qed.

Lemma weight_good x : In x weights -> good x /\ is_finite x = true.
Proof using Hw. intros Hx. unfold proper_weights in Hw. rewrite Forall_forall in Hw. destruct (Hw x Hx) as (F & Sg). split; auto. now apply good_finite. Qed.

Lemma weight_nonneg i : 0 <= weight weights i.
Proof using Hw.
  rewrite weight_nth. destruct (nth_in_or_default i weights zero) as [Hi|Hi]; [|rewrite Hi; simpl; lra].
  destruct (weight_good _ Hi) as (G & F). destruct (good_inv prec emax _ G) as [E|(_ & _ & H)]; auto. rewrite E in F. discriminate.
Qed.

Lemma sum_is : S = Rsum prec emax weights.
Proof using Hw.
  rewrite over_total. rewrite (total_ext _ (fun i => level (nth i weights zero))).
  2:{ intros i Hi. apply in_seq in Hi. rewrite weight_nth. unfold FloatProofs.level. destruct (weight_good (nth i weights zero)) as (_ & ->); auto. apply nth_In. lia. }
  unfold Rsum. clear. induction weights as [|w ws IH]; [reflexivity|]. cbn [length seq map fold_right total].
  rewrite <- seq_shift. fold (total (fun i => level (nth i (w :: ws) zero)) (map Datatypes.S (seq 0 (length ws)))).
  rewrite <- IH. cbn [nth]. f_equal. clear. induction (seq 0 (length ws)) as [|a l IH]; [reflexivity|]. cbn [map total fold_right nth]. f_equal. exact IH.
Qed.

Lemma n_pos : 1 <= N.
Proof using Hne. replace 1 with (INR 1) by reflexivity. apply le_INR. apply Nat.neq_0_lt_0. intros E. apply Hne. now apply length_zero_iff_nil. Qed.

Lemma n_exact : B2R (count n) = N /\ is_finite (count n) = true /\ Bsign (count n) = false /\ (1 <= n)%nat /\ (Z.of_nat n <= 2 ^ (emax - 1))%Z.
Proof using Hp Hm Hprec Hemax Hne Hn.
  assert (H1 : (1 <= n)%nat) by (apply INR_le; exact n_pos).
  assert (H2 : (Z.of_nat n <= 2 ^ prec)%Z).
  { apply le_IZR. rewrite <- INR_IZR_INZ, (IZR_Zpower radix2) by lia. pose proof (u_range prec Hprec) as U. pose proof n_pos as Np.
    assert (Eu : u * bpow radix2 prec = 1) by (unfold roundoff; rewrite <- bpow_plus; replace (- prec + prec)%Z with 0%Z by lia; reflexivity).
    pose proof (bpow_gt_0 radix2 prec) as Bp. nra. }
  assert (H3 : (Z.of_nat n <= 2 ^ (emax - 1))%Z) by (apply Z.le_trans with (1 := H2); apply Z.pow_le_mono_r; lia).
  destruct (count_ok prec emax Hp Hm Hprec Hemax n H1 H3) as (F & Sg & _). splits; auto. now apply count_exact.
Qed.

Lemma sum_pos : 0 < S.
Proof using Hne Htiny. pose proof n_pos. pose proof (bpow_gt_0 radix2 (emax - 2)) as Bp. apply Rnot_le_lt. intros C. nra. Qed.

Notation factor := (Bdiv mode_NE (count n) (fold_left (Bplus mode_NE) weights zero)).

Lemma factor_ok : good factor /\ is_finite factor = true /\ N * (1 - u) * (1 - N * u) <= B2R factor * S /\ B2R factor * S * (1 - N * u) <= N * (1 + u).
Proof using Hp Hm Hprec Hemax Hw Hne Hn Hhuge Htiny.
  pose proof (u_range prec Hprec) as U. pose proof n_pos as Np. destruct n_exact as (Ec & Fc & Sc & _). pose proof sum_pos as Sp.
  destruct (grow_linear n) as (W1 & W2). pose proof (grow_pos prec Hprec n) as W3.
  assert (Ha : / 2 <= 1 - N * u <= 1) by nra. set (a := 1 - N * u) in *.
  assert (G0 : good zero) by reflexivity. assert (Gw : forall x, In x weights -> good x) by (intros; now apply weight_good).
  set (s := fold_left (Bplus mode_NE) weights zero).
  assert (Gs : good s) by (apply sum_good; auto).
  pose proof (sum_upper prec emax Hp Hm Hprec Hemax weights zero G0 Gw) as Hup. fold s in Hup.
  pose proof (sum_lower prec emax Hp Hm Hprec Hemax weights zero G0 Gw) as Hlo. fold s in Hlo.
  change (level zero) with 0 in Hup, Hlo. rewrite Rplus_0_l, <- sum_is in Hup, Hlo.
  assert (Hs1 : level s * a <= S) by nra.
  assert (Hs2 : level s <= bpow radix2 (emax - 2)).
  { replace (emax - 2)%Z with (1 + (emax - 3))%Z by lia. rewrite bpow_plus. change (bpow radix2 1) with 2. pose proof (level_range prec emax s Gs). nra. }
  assert (Hst : level s < top) by (apply Rle_lt_trans with (1 := Hs2); apply bpow_lt; lia). specialize (Hlo Hst).
  assert (Fs : is_finite s = true) by (apply (finite_level prec emax); auto).
  assert (Els : level s = B2R s) by (unfold FloatProofs.level; now rewrite Fs). rewrite Els in *.
  assert (Hs3 : S * a <= B2R s) by nra. assert (Hs4 : 0 < B2R s) by nra.
  assert (Ss : Bsign s = false) by (destruct (good_inv prec emax s Gs) as [E|(_ & ? & _)]; auto; rewrite E in Fs; discriminate).
  assert (Gc : good (count n)) by now apply good_finite.
  destruct (div_ok prec emax Hp Hm Hprec Hemax (count n) s Gc Fs Ss Hs4) as (G & L & _). specialize (L Fc). rewrite Ec in L.
  set (f := Bdiv mode_NE (count n) s) in *. set (q := N / B2R s) in *.
  assert (Hq : q * B2R s = N) by (unfold q; field; lra).
  assert (Hq0 : 0 < q) by (unfold q; apply Rdiv_lt_0_compat; lra).
  assert (Hq1 : bpow radix2 (2 - emax) <= q).
  { apply Rmult_le_reg_r with (B2R s); auto. rewrite Hq. apply Rle_trans with (bpow radix2 (2 - emax) * bpow radix2 (emax - 2)).
    - apply Rmult_le_compat_l; auto. apply bpow_ge_0.
    - rewrite <- bpow_plus. replace (2 - emax + (emax - 2))%Z with 0%Z by lia. simpl. lra. }
  assert (Hq2 : q <= bpow radix2 (emax - 1)).
  { replace (emax - 1)%Z with (1 + (emax - 2))%Z by lia. rewrite bpow_plus. change (bpow radix2 1) with 2.
    pose proof (bpow_gt_0 radix2 (emax - 2)) as Bp. apply Rmult_le_reg_r with (B2R s); auto. rewrite Hq. nra. }
  assert (Hr : Rabs (rnd q - q) <= u * q).
  { pose proof (relative_error_N_FLT radix2 emin prec Hp (fun m => negb (Z.even m)) q) as Re.
    rewrite (half_u prec) in Re. rewrite (Rabs_pos_eq q) in Re by lra. apply Re. replace (emin + prec - 1)%Z with (2 - emax)%Z by lia. exact Hq1. }
  apply Rabs_le_inv in Hr.
  assert (Hrt : rnd q < top).
  { apply Rle_lt_trans with (bpow radix2 (emax - 1)); [|apply bpow_lt; lia].
    rewrite <- (rnd_id prec emin (bpow radix2 (emax - 1))) by (apply fmt_bpow; auto; lia). now apply rnd_le. }
  unfold cap in L. rewrite Rmin_left in L by lra.
  assert (Ff : is_finite f = true) by (apply (finite_level prec emax); auto; lra).
  assert (Elf : level f = B2R f) by (unfold FloatProofs.level; now rewrite Ff). rewrite Elf in L.
  assert (Q1 : N * (1 - u) <= B2R f * B2R s <= N * (1 + u)) by (rewrite L, <- Hq; split; nra).
  assert (Q0 : 0 <= B2R f) by (rewrite L; nra).
  splits; auto.
  - apply Rle_trans with (B2R f * B2R s * a); [apply Rmult_le_compat_r; lra|]. rewrite Rmult_assoc. apply Rmult_le_compat_l; lra.
  - apply Rle_trans with (B2R f * B2R s); [|lra]. rewrite Rmult_assoc. apply Rmult_le_compat_l; lra.
Qed.

Notation ideal i := (N * weight weights i / S).
Notation kappa := (2 * (N + 3) * u).

Lemma fake_length : length fake = n.
Proof using. unfold f_normalize. now rewrite map_length. Qed.

Lemma ideal_range i : (i < n)%nat -> 0 <= ideal i <= N.
Proof using Hw Hne Htiny.
  intros Hi. pose proof sum_pos as Sp. pose proof (weight_nonneg i) as W. pose proof n_pos as Np.
  assert (Le : weight weights i <= S).
  { rewrite over_total. rewrite <- (total_one (seq 0 n) i (weight weights)) at 1; [|apply seq_NoDup|apply in_seq; lia].
    apply total_le. intros j _. destruct (j =? i)%nat; [lra|apply weight_nonneg]. }
  split; [unfold Rdiv; apply Rmult_le_pos; [apply Rmult_le_pos; lra|apply Rlt_le, Rinv_0_lt_compat; lra]|].
  apply Rmult_le_reg_r with S; auto. unfold Rdiv. rewrite Rmult_assoc, Rinv_l by lra. nra.
Qed.

Lemma fake_ok i : (i < n)%nat -> is_finite (nth i fake zero) = true /\ 0 <= B2R (nth i fake zero) <= 2 * N /\
  Rabs (B2R (nth i fake zero) - ideal i) <= kappa * ideal i + e / 2 /\ (weight weights i = 0 -> B2R (nth i fake zero) = 0).
Proof using Hp Hm Hprec Hemax Hw Hne Hn Hhuge Htiny.
  intros Hi. pose proof (u_range prec Hprec) as U. pose proof n_pos as Np. pose proof sum_pos as Sp. pose proof (weight_nonneg i) as W0.
  pose proof (e_small prec emax Hprec Hemax) as Es. pose proof (e_pos prec emax) as Ep. pose proof (ideal_range i Hi) as It.
  assert (E : nth i fake zero = Bmult mode_NE (nth i weights zero) factor).
  { unfold f_normalize. rewrite (nth_indep _ zero (Bmult mode_NE zero factor)) by (rewrite map_length; auto).
    apply (map_nth (fun w => Bmult mode_NE w factor)). }
  destruct (weight_good (nth i weights zero)) as (Gw & Fw); [now apply nth_In|]. destruct factor_ok as (Gf & Ff & L1 & L2).
  destruct (mult_ok (nth i weights zero) factor Gw Fw Gf Ff) as (G & L). rewrite <- E in G, L. rewrite <- weight_nth in L.
  set (x := nth i fake zero) in *. set (f := B2R factor) in *. set (t := ideal i) in *. set (a := 1 - N * u) in *.
  assert (Ha : / 2 <= a <= 1) by (unfold a; nra).
  assert (Hphi : exists phi, weight weights i * f = t * phi /\ (1 - u) * a <= phi /\ phi * a <= 1 + u).
  { exists (f * S / N). split; [unfold t; field; lra|]. split.
    - apply Rmult_le_reg_r with N; [lra|]. replace (f * S / N * N) with (f * S) by (field; lra). nra.
    - apply Rmult_le_reg_r with N; [lra|]. replace (f * S / N * a * N) with (f * S * a) by (field; lra). nra. }
  destruct Hphi as (phi & Ephi & P1 & P2).
  assert (P0 : 0 <= phi) by nra.
  pose proof (rnd_any prec emax Hp Hprec (weight weights i * f)) as R. rewrite Ephi in R, L. specialize (R ltac:(apply Rmult_le_pos; lra)).
  assert (K : kappa <= 2 / 3) by lra.
  assert (Hkap : 0 <= kappa) by nra.
  assert (Q2 : (1 + u) * phi <= 1 + kappa).
  { apply Rmult_le_reg_r with a; [lra|]. assert ((1 + u) * (phi * a) <= (1 + u) * (1 + u)) by (apply Rmult_le_compat_l; lra).
    assert ((1 + u) * (1 + u) <= (1 + kappa) * a); [|lra]. unfold a.
    assert (N * u <= / 3) by nra. assert (0 <= N * u) by nra. assert ((N + 3) * u = N * u + 3 * u) by ring. set (nu := N * u) in *.
    replace ((1 + kappa) * (1 - nu)) with (1 + 2 * (nu + 3 * u) - nu - 2 * (nu + 3 * u) * nu) by (replace kappa with (2 * (nu + 3 * u)) by (unfold nu; ring); ring).
    assert ((nu + 3 * u) * nu <= (nu + 3 * u) * / 3) by (apply Rmult_le_compat_l; lra). nra. }
  assert (Q1 : 1 - kappa <= (1 - u) * phi).
  { apply Rle_trans with ((1 - u) * ((1 - u) * a)); [|apply Rmult_le_compat_l; lra]. unfold a.
    assert (0 <= N * u) by nra. replace kappa with (2 * (N * u + 3 * u)) by ring. set (nu := N * u) in *.
    assert (nu <= / 3) by (unfold nu; nra). assert (1 - 2 * u <= (1 - u) * (1 - u)) by nra.
    assert ((1 - 2 * u) * (1 - nu) <= (1 - u) * ((1 - u) * (1 - nu))) by (rewrite <- Rmult_assoc; apply Rmult_le_compat_r; lra).
    assert (0 <= u * nu) by (apply Rmult_le_pos; lra). nra. }
  assert (B1 : rnd (t * phi) <= (1 + kappa) * t + e / 2).
  { apply Rle_trans with (1 := proj2 R). apply Rplus_le_compat_r. replace ((1 + u) * (t * phi)) with (t * ((1 + u) * phi)) by ring. rewrite (Rmult_comm (1 + kappa)). apply Rmult_le_compat_l; lra. }
  assert (B2 : (1 - kappa) * t - e / 2 <= rnd (t * phi)).
  { apply Rle_trans with (2 := proj1 R). apply Rplus_le_compat_r. replace ((1 - u) * (t * phi)) with (t * ((1 - u) * phi)) by ring. rewrite (Rmult_comm (1 - kappa)). apply Rmult_le_compat_l; lra. }
  assert (B3 : rnd (t * phi) <= 2 * N) by (assert ((1 + kappa) * t <= (1 + kappa) * N) by (apply Rmult_le_compat_l; lra); nra).
  assert (Hnt : 2 * N < top).
  { assert (N <= bpow radix2 prec).
    { assert (Eu : u * bpow radix2 prec = 1) by (unfold roundoff; rewrite <- bpow_plus; replace (- prec + prec)%Z with 0%Z by lia; reflexivity).
      pose proof (bpow_gt_0 radix2 prec) as Bp. nra. }
    apply Rle_lt_trans with (bpow radix2 (1 + prec)); [rewrite bpow_plus; change (bpow radix2 1) with 2; lra|apply bpow_lt; lia]. }
  unfold cap in L. rewrite Rmin_left in L by lra.
  assert (Fx : is_finite x = true) by (apply (finite_level prec emax); auto; lra).
  assert (Elx : level x = B2R x) by (unfold FloatProofs.level; now rewrite Fx). rewrite Elx in L.
  assert (Z0 : 0 <= B2R x) by (rewrite L; apply (rnd_nonneg prec emax Hprec); apply Rmult_le_pos; lra).
  splits; auto; [rewrite L; auto|rewrite L; apply Rabs_le; lra|].
  intros Ew. rewrite L, <- Ephi, Ew, Rmult_0_l. apply rnd_0.
Qed.

Lemma ideal_sum : over n (fun i => ideal i) = N.
Proof using Hne Htiny.
  pose proof sum_pos as Sp. rewrite over_total, (total_ext _ (fun i => N / S * weight weights i)) by (intros; field; lra).
  rewrite total_scale, <- over_total. field. lra.
Qed.

Notation E0 := (N * kappa + N * (e / 2)).

Lemma fake_sum : over n (fun i => Rabs (B2R (nth i fake zero) - ideal i)) <= E0 /\ gap fake (seq 0 n) <= E0.
Proof using Hp Hm Hprec Hemax Hw Hne Hn Hhuge Htiny.
  assert (A : over n (fun i => Rabs (B2R (nth i fake zero) - ideal i)) <= E0).
  { rewrite over_total. apply Rle_trans with (total (fun i => kappa * ideal i + e / 2) (seq 0 n)).
    - apply total_le. intros i Hi. apply in_seq in Hi. apply fake_ok. lia.
    - rewrite total_plus, total_const, seq_length, total_scale, <- over_total, ideal_sum. lra. }
  split; auto. apply Rle_trans with (2 := A). unfold gap.
  replace (total (fun j => B2R (nth j fake zero) - 1) (seq 0 n)) with (total (fun j => B2R (nth j fake zero) - ideal j) (seq 0 n)).
  - rewrite (over_total n (fun i => Rabs (B2R (nth i fake zero) - ideal i))). apply (total_abs (fun i => B2R (nth i fake zero) - ideal i)).
  - rewrite (total_ext _ (fun j => B2R (nth j fake zero) + -1 * ideal j)) by (intros; lra).
    rewrite (total_ext (fun j => B2R (nth j fake zero) - 1) (fun j => B2R (nth j fake zero) + -1)) by (intros; lra).
    rewrite !total_plus, total_scale, total_const, seq_length, <- !over_total, ideal_sum. lra.
Qed.
End Weights.
End Binary.
