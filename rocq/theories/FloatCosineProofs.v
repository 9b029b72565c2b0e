(** Symmetry and error bounds of the rounded cosine similarity. *)
From Coq Require Import Reals List Arith ZArith Bool Lia Lra Psatz.
From Flocq Require Import Core BinarySingleNaN Relative.
From Verif Require Import Base FloatModel FloatHamerlyModel FloatProofs AccuracySpec AccuracyProofs FloatKMeansProofs FloatCosineModel FloatCosineSpec.
Import ListNotations.
Open Scope R_scope.

Section Symmetry.
Context (prec emax : Z) (Hp : Prec_gt_0 prec) (Hm : Prec_lt_emax prec emax).
Notation number := (binary_float prec emax).

Lemma mult_comm (x y : number) : Bmult mode_NE x y = Bmult mode_NE y x.
Proof.
  apply B2SF_inj. destruct x as [| | |sx mx ex Bx], y as [| | |sy my ey By]; cbn; auto; try (now rewrite xorb_comm).
  rewrite !B2SF_SF2B. now rewrite xorb_comm, Pos.mul_comm, Z.add_comm.
Qed.

Lemma szero_comm (x y z : number) : Bfma_szero prec emax mode_NE x y z = Bfma_szero prec emax mode_NE y x z.
Proof. unfold Bfma_szero. now rewrite (xorb_comm (Bsign x)). Qed.

Lemma fma_comm (x y z : number) : Bfma mode_NE x y z = Bfma mode_NE y x z.
Proof.
  unfold Bfma. rewrite (szero_comm x y z).
  destruct x as [sx|sx| |sx mx ex Bx], y as [sy|sy| |sy my ey By]; auto; cbv zeta;
    try (rewrite (xorb_comm sx sy); reflexivity); destruct z as [sz|sz| |sz mz ez Bz]; auto; unfold Operations.Fmult;
    rewrite (Z.mul_comm (SpecFloat.cond_Zopp sx _)), (Z.add_comm ex); reflexivity.
Qed.

Lemma multiply_add_comm fused (a x y : number) :
  multiply_add prec emax Hp Hm fused a x y = multiply_add prec emax Hp Hm fused a y x.
Proof. unfold multiply_add. destruct fused; [apply fma_comm|now rewrite mult_comm]. Qed.

Lemma inner_comm fused (l : list number) : forall a r, length l = length r ->
  float_inner prec emax Hp Hm fused a l r = float_inner prec emax Hp Hm fused a r l.
Proof.
  induction l as [|x l IH]; intros a [|y r] H; try discriminate H; auto. cbn [float_inner]. rewrite (multiply_add_comm fused a x y).
  apply IH. now injection H.
Qed.

Lemma inner_total fused (l : list number) : forall a r, (length l <= length r)%nat ->
  exists v, float_inner prec emax Hp Hm fused a l r = Ok v.
Proof. induction l as [|x l IH]; intros a [|y r] H; cbn [float_inner length] in *; try lia; eauto. apply IH. lia. Qed.

Lemma inner_short fused (l : list number) : forall a r, (length r < length l)%nat -> float_inner prec emax Hp Hm fused a l r = UB.
Proof. induction l as [|x l IH]; intros a [|y r] H; cbn [float_inner length] in *; try lia; eauto. apply IH. lia. Qed.
End Symmetry.

Section Bounds.
Context (prec emax : Z) (Hp : Prec_gt_0 prec) (Hm : Prec_lt_emax prec emax).
Context (Hprec : (2 <= prec)%Z) (Hemax : (prec + 3 <= emax)%Z).
Notation number := (binary_float prec emax).
Notation emin := (3 - emax - prec)%Z.
Notation fexp := (FLT_exp emin prec).
Notation fmt := (generic_format radix2 fexp).
Notation rnd := (round radix2 fexp ZnearestE).
Notation top := (bpow radix2 emax).
Notation u := (roundoff prec).
Notation e := (tiny prec emax).
Notation least := (bpow radix2 (2 - emax)).
Implicit Types x y a : number.
Implicit Types l r : list number.

(** The sum of the absolute values of the products. *)
Fixpoint abs_dot l r : R :=
  match l, r with
  | x :: l', y :: r' => Rabs (B2R x * B2R y) + abs_dot l' r'
  | _, _ => 0
  end.

Lemma abs_dot_pos l : forall r, 0 <= abs_dot l r.
Proof using. induction l as [|x l IH]; intros [|y r]; cbn [abs_dot]; try lra. specialize (IH r). pose proof (Rabs_pos (B2R x * B2R y)). lra. Qed.

Lemma dot_le_abs l : forall r, Rabs (true_dot l r) <= abs_dot l r.
Proof using.
  induction l as [|x l IH]; intros [|y r]; cbn [abs_dot true_dot]; try (rewrite Rabs_R0; lra).
  specialize (IH r). apply Rle_trans with (1 := Rabs_triang _ _). lra.
Qed.

Lemma abs_dot_self l : abs_dot l l = true_dot l l.
Proof using. induction l as [|x l IH]; cbn [abs_dot true_dot]; auto. rewrite IH, (Rabs_pos_eq (B2R x * B2R x)) by apply Rle_0_sqr. reflexivity. Qed.

Lemma dot_self_pos l : 0 <= true_dot l l.
Proof using. rewrite <- abs_dot_self. apply abs_dot_pos. Qed.

Lemma abs_dot_mean l : forall r, length l = length r -> 2 * abs_dot l r <= true_dot l l + true_dot r r.
Proof using.
  induction l as [|x l IH]; intros [|y r] H; try discriminate H; cbn [abs_dot true_dot]; [lra|].
  injection H as H. specialize (IH r H). assert (2 * Rabs (B2R x * B2R y) <= B2R x * B2R x + B2R y * B2R y); [|lra].
  pose proof (Rle_0_sqr (B2R x + B2R y)) as S1. pose proof (Rle_0_sqr (B2R x - B2R y)) as S2. unfold Rsqr in *.
  unfold Rabs. destruct (Rcase_abs (B2R x * B2R y)); lra.
Qed.

(** The inequality of Cauchy and Schwarz. *)
Lemma cauchy l : forall r, length l = length r -> abs_dot l r <= true_length l * true_length r.
Proof using.
  unfold true_length. induction l as [|x l IH]; intros [|y r] H; try discriminate H; cbn [abs_dot true_dot].
  { rewrite sqrt_0. lra. }
  injection H as H. specialize (IH r H). pose proof (dot_self_pos l) as P. pose proof (dot_self_pos r) as Q.
  pose proof (abs_dot_pos l r) as A.
  pose proof (sqrt_pos (true_dot l l)) as Sp. pose proof (sqrt_pos (true_dot r r)) as Sq.
  pose proof (sqrt_sqrt _ P) as Ep. pose proof (sqrt_sqrt _ Q) as Eq'.
  set (sp := sqrt (true_dot l l)) in *. set (sq := sqrt (true_dot r r)) in *. rewrite <- Ep, <- Eq'. rewrite Rabs_mult.
  replace (B2R x * B2R x) with (Rabs (B2R x) * Rabs (B2R x)) by (rewrite <- Rabs_mult; apply Rabs_pos_eq, Rle_0_sqr).
  replace (B2R y * B2R y) with (Rabs (B2R y) * Rabs (B2R y)) by (rewrite <- Rabs_mult; apply Rabs_pos_eq, Rle_0_sqr).
  pose proof (Rabs_pos (B2R x)) as Px. pose proof (Rabs_pos (B2R y)) as Py. set (b := Rabs (B2R x)) in *. set (c := Rabs (B2R y)) in *.
  rewrite <- sqrt_mult by nra. apply Rle_trans with (b * c + sp * sq); [lra|].
  assert (0 <= b * c) by nra. assert (0 <= sp * sq) by nra.
  rewrite <- (R_sqrt.sqrt_square (b * c + sp * sq)) by lra. apply sqrt_le_1; [nra|nra|].
  pose proof (Rle_0_sqr (b * sq - c * sp)) as S2. unfold Rsqr in S2. lra.
Qed.

Lemma least_tiny : e / 2 = u * least.
Proof using.
  unfold tiny, roundoff. rewrite <- bpow_plus. replace (3 - emax - prec)%Z with ((- prec + (2 - emax)) + 1)%Z by lia.
  rewrite bpow_plus. simpl (bpow radix2 1). lra.
Qed.

Lemma rnd_normal p : least <= Rabs p -> Rabs (rnd p - p) <= u * Rabs p.
Proof using Hp Hprec.
  intros H. rewrite <- (half_u prec). apply relative_error_N_FLT; [exact Hp|].
  replace (emin + prec - 1)%Z with (2 - emax)%Z by lia. exact H.
Qed.

Lemma rnd_zero : rnd 0 = 0.
Proof using. apply round_0. apply valid_rnd_N. Qed.

Lemma multiply_add_close fused a x y s t h : is_finite a = true -> is_finite x = true -> is_finite y = true ->
  Rabs (B2R a - s) <= ((1 + u) ^ S h - 1) * t -> Rabs s <= t ->
  B2R x * B2R y = 0 \/ least <= Rabs (B2R x * B2R y) ->
  (1 + u) ^ S (S h) * (t + Rabs (B2R x * B2R y)) < top ->
  let a' := multiply_add prec emax Hp Hm fused a x y in
  is_finite a' = true /\ Rabs (B2R a' - (s + B2R x * B2R y)) <= ((1 + u) ^ S (S h) - 1) * (t + Rabs (B2R x * B2R y)).
Proof using Hprec Hemax.
  intros Fa Fx Fy Ha Hs Hxy Htop. cbv zeta. pose proof (u_range prec Hprec) as U. pose proof (grow_pos prec Hprec h) as G0.
  cbn [pow] in *. set (g0 := (1 + u) ^ h) in *. set (g := (1 + u) * g0) in *. assert (G : 1 + u <= g) by (unfold g; nra).
  set (p := B2R x * B2R y) in *. pose proof (Rabs_pos p) as Pp. pose proof (Rabs_pos s) as Ps.
  unfold multiply_add. destruct fused.
  - pose proof (Bfma_correct prec emax Hp Hm mode_NE x y a Fx Fy Fa) as C. cbv zeta in C. cbn [round_mode] in C.
    change (SpecFloat.fexp prec emax) with fexp in C. fold p in C. replace (p + B2R a) with (B2R a + p) in C by lra.
    assert (H1 : Rabs (B2R a + p) <= g * t + Rabs p).
    { replace (B2R a + p) with ((B2R a - s) + (s + p)) by lra. apply Rle_trans with (1 := Rabs_triang _ _).
      pose proof (Rabs_triang s p). nra. }
    assert (E : Rabs (rnd (B2R a + p) - (B2R a + p)) <= u * Rabs (B2R a + p) + u * Rabs p).
    { destruct Hxy as [Z|L].
      - rewrite Z, Rplus_0_r. rewrite round_generic; [|apply valid_rnd_N|apply generic_format_B2R].
        rewrite Rminus_diag_eq by reflexivity. rewrite Rabs_R0. pose proof (Rabs_pos (B2R a)). pose proof (Rabs_pos 0). nra.
      - pose proof (rnd_quotient prec emax Hp Hprec (B2R a + p)) as R. rewrite least_tiny in R. nra. }
    assert (T0 : 0 <= t) by lra.
    assert (Q1 : u * Rabs (B2R a + p) <= u * (g * t + Rabs p)) by (apply Rmult_le_compat_l; lra).
    assert (Q2 : (1 + 2 * u) * Rabs p <= (1 + u) * g * Rabs p) by (apply Rmult_le_compat_r; auto; nra).
    assert (K : Rabs (rnd (B2R a + p)) < top).
    { apply Rle_lt_trans with (2 := Htop). replace (rnd (B2R a + p)) with ((rnd (B2R a + p) - (B2R a + p)) + (B2R a + p)) by lra.
      apply Rle_trans with (1 := Rabs_triang _ _). lra. }
    rewrite Rlt_bool_true in C by exact K. destruct C as (V & F & _). split; auto. rewrite V.
    replace (rnd (B2R a + p) - (s + p)) with ((rnd (B2R a + p) - (B2R a + p)) + (B2R a - s)) by lra.
    apply Rle_trans with (1 := Rabs_triang _ _). lra.
  - pose proof (Bmult_correct prec emax Hp Hm mode_NE x y) as C. cbn [round_mode] in C. change (SpecFloat.fexp prec emax) with fexp in C.
    fold p in C.
    assert (E : Rabs (rnd p - p) <= u * Rabs p).
    { destruct Hxy as [Z|L]; [|now apply rnd_normal]. rewrite Z, rnd_zero, Rminus_0_r, Rabs_R0. lra. }
    assert (T0 : 0 <= t) by lra.
    assert (K1 : Rabs (rnd p) <= (1 + u) * Rabs p).
    { replace (rnd p) with ((rnd p - p) + p) by lra. apply Rle_trans with (1 := Rabs_triang _ _). lra. }
    assert (Q0 : Rabs p <= g * (t + Rabs p)) by nra.
    assert (Q1 : (1 + u) * Rabs p <= (1 + u) * (g * (t + Rabs p))) by (apply Rmult_le_compat_l; lra).
    rewrite Rlt_bool_true in C by (apply Rle_lt_trans with (2 := Htop); apply Rle_trans with (1 := K1); lra).
    destruct C as (V & F & _). rewrite Fx, Fy in F. cbn [andb] in F. set (q := Bmult mode_NE x y) in *.
    pose proof (Bplus_correct prec emax Hp Hm mode_NE a q Fa F) as C. cbn [round_mode] in C. change (SpecFloat.fexp prec emax) with fexp in C.
    pose proof (rnd_plus prec emax Hp Hprec (B2R a) (B2R q) (generic_format_B2R _ _ _) (generic_format_B2R _ _ _)) as E2.
    rewrite <- V in E, K1.
    assert (H0 : Rabs (B2R a + B2R q - (s + p)) <= (g - 1) * (t + Rabs p)).
    { replace (B2R a + B2R q - (s + p)) with ((B2R a - s) + (B2R q - p)) by lra. apply Rle_trans with (1 := Rabs_triang _ _). nra. }
    assert (H1 : Rabs (B2R a + B2R q) <= g * (t + Rabs p)).
    { replace (B2R a + B2R q) with ((B2R a + B2R q - (s + p)) + (s + p)) by lra. apply Rle_trans with (1 := Rabs_triang _ _).
      pose proof (Rabs_triang s p). nra. }
    set (w := B2R a + B2R q) in *.
    assert (Q2 : u * Rabs w <= u * (g * (t + Rabs p))) by (apply Rmult_le_compat_l; lra).
    assert (K : Rabs (rnd w) < top).
    { apply Rle_lt_trans with (2 := Htop). replace (rnd w) with ((rnd w - w) + w) by lra.
      apply Rle_trans with (1 := Rabs_triang _ _). lra. }
    rewrite Rlt_bool_true in C by exact K. destruct C as (V2 & F2 & _). split; auto. rewrite V2.
    replace (rnd w - (s + p)) with ((rnd w - w) + (w - (s + p))) by lra. apply Rle_trans with (1 := Rabs_triang _ _). lra.
Qed.

Lemma inner_close_from fused l : forall r a s t h, length l = length r -> is_finite a = true ->
  (forall x, In x l -> is_finite x = true) -> (forall x, In x r -> is_finite x = true) -> no_underflow l r ->
  Rabs (B2R a - s) <= ((1 + u) ^ S h - 1) * t -> Rabs s <= t -> (1 + u) ^ (S h + length l) * (t + abs_dot l r) < top ->
  exists v, float_inner prec emax Hp Hm fused a l r = Ok v /\ is_finite v = true /\
    Rabs (B2R v - (s + true_dot l r)) <= ((1 + u) ^ (S h + length l) - 1) * (t + abs_dot l r).
Proof using Hprec Hemax.
  induction l as [|x l IH]; intros [|y r] a s t h H Fa Fl Fr Hu Ha Hs Htop; try discriminate H; cbn [float_inner length no_underflow abs_dot true_dot] in *.
  { exists a. rewrite !Rplus_0_r, Nat.add_0_r in *. auto. }
  injection H as H. destruct Hu as (Hu1 & Hu). pose proof (abs_dot_pos l r) as P. pose proof (Rabs_pos (B2R x * B2R y)) as Px.
  pose proof (Rabs_pos s) as Ps.
  replace (S h + S (length l))%nat with (S (S h) + length l)%nat in * by lia.
  pose proof (grow_mono prec Hprec (S (S h)) (S (S h) + length l) ltac:(lia)) as GM. pose proof (grow_pos prec Hprec (S (S h))) as G1.
  destruct (multiply_add_close fused a x y s t h Fa (Fl x (or_introl eq_refl)) (Fr y (or_introl eq_refl)) Ha Hs Hu1) as (F' & E').
  { apply Rle_lt_trans with (2 := Htop). apply Rmult_le_compat; lra. }
  assert (Hs' : Rabs (s + B2R x * B2R y) <= t + Rabs (B2R x * B2R y)) by (apply Rle_trans with (1 := Rabs_triang _ _); lra).
  destruct (IH r (multiply_add prec emax Hp Hm fused a x y) (s + B2R x * B2R y) (t + Rabs (B2R x * B2R y)) (S h)) as (v & Ev & Fv & Cv); auto.
  { intros z Hz. apply Fl. now right. }
  { intros z Hz. apply Fr. now right. }
  { now rewrite Rplus_assoc. }
  exists v. split; auto. split; auto. now rewrite <- !Rplus_assoc.
Qed.

Lemma inner_close fused l r : length l = length r ->
  (forall x, In x l -> is_finite x = true) -> (forall x, In x r -> is_finite x = true) -> no_underflow l r ->
  growth prec (length l) * abs_dot l r < top ->
  exists v, float_inner prec emax Hp Hm fused (B754_zero false) l r = Ok v /\ is_finite v = true /\
    Rabs (B2R v - true_dot l r) <= (growth prec (length l) - 1) * abs_dot l r.
Proof using Hprec Hemax.
  intros H Fl Fr Hu Htop. unfold growth in *. replace (length l + 1)%nat with (1 + length l)%nat in * by lia.
  destruct (inner_close_from fused l r (B754_zero false) 0 0 0 H eq_refl Fl Fr Hu) as (v & E & F & C).
  - cbn [B2R]. rewrite Rminus_0_r, Rabs_R0. lra.
  - rewrite Rabs_R0. lra.
  - rewrite Rplus_0_l. exact Htop.
  - exists v. rewrite !Rplus_0_l in C. auto.
Qed.

Lemma growth_pos n : 1 <= growth prec n.
Proof using Hprec. apply grow_pos. exact Hprec. Qed.

Lemma root_close (v : number) G P : is_finite v = true -> 0 <= P -> 1 <= G <= 3 / 2 -> Rabs (B2R v - P) <= (G - 1) * P ->
  is_finite (Bsqrt mode_NE v) = true /\
  (1 - u) * (sqrt (2 - G) * sqrt P) <= B2R (Bsqrt mode_NE v) <= (1 + u) * (sqrt G * sqrt P).
Proof using Hprec Hemax.
  intros F HP HG H. apply Rabs_le_inv in H. pose proof (u_range prec Hprec) as U.
  assert (L : (2 - G) * P <= B2R v) by lra. assert (T : B2R v <= G * P) by lra. assert (Z : 0 <= (2 - G) * P) by (apply Rmult_le_pos; lra).
  assert (Z2 : 0 <= G * P) by (apply Rmult_le_pos; lra). assert (V : 0 <= B2R v) by lra.
  destruct (Bsqrt_correct prec emax Hp Hm mode_NE v) as (E & Fs & _). cbn [round_mode] in E. change (SpecFloat.fexp prec emax) with fexp in E.
  split.
  - rewrite Fs. destruct v as [s|s| |s m x B]; try discriminate F; auto. destruct s; auto. exfalso.
    pose proof (F2R_lt_0 radix2 (Float radix2 (Z.neg m) x) ltac:(reflexivity)) as N. cbn [B2R SpecFloat.cond_Zopp] in V. cbn in V, N. lra.
  - rewrite E. pose proof (rnd_root prec emax Hp Hprec Hemax (B2R v) (generic_format_B2R _ _ _) V) as R.
    rewrite <- !sqrt_mult by lra. pose proof (sqrt_le_1 _ _ Z V L) as S1. pose proof (sqrt_le_1 _ _ V Z2 T) as S2. split.
    + apply Rle_trans with (2 := proj1 R). apply Rmult_le_compat_l; lra.
    + apply Rle_trans with (1 := proj2 R). apply Rmult_le_compat_l; lra.
Qed.

Lemma quotient_close d D den S G L T : 0 < S -> 0 < L -> 1 <= G -> G <= 3 / 2 -> L * S <= den -> den <= T * S -> L * T <= G * (2 - G) ->
  Rabs (d - D) <= (G - 1) * S -> Rabs D <= S -> Rabs (d / den - D / S) <= G / L - 1.
Proof using.
  intros HS HL HG1 HG2 Hlo Hhi HLT Hd HD. assert (Pden : 0 < den) by nra.
  set (k := S / den). assert (Ek : k * den = S) by (unfold k; field; lra). assert (Pk : 0 < k) by (unfold k; apply Rdiv_lt_0_compat; lra).
  assert (K1 : L * k <= 1).
  { apply Rmult_le_reg_r with den; auto. replace (L * k * den) with (L * S) by (rewrite <- Ek; ring). lra. }
  assert (K2 : 1 <= T * k).
  { apply Rmult_le_reg_r with den; auto. replace (T * k * den) with (T * S) by (rewrite <- Ek; ring). lra. }
  replace (d / den - D / S) with (k * ((d - D) / S) + (k - 1) * (D / S)) by (unfold k; field; lra).
  assert (B1 : Rabs ((d - D) / S) <= G - 1).
  { unfold Rdiv. rewrite Rabs_mult, (Rabs_pos_eq (/ S)) by (left; now apply Rinv_0_lt_compat).
    apply Rmult_le_reg_r with S; auto. rewrite Rmult_assoc, Rinv_l by lra. lra. }
  assert (B2 : Rabs (D / S) <= 1).
  { unfold Rdiv. rewrite Rabs_mult, (Rabs_pos_eq (/ S)) by (left; now apply Rinv_0_lt_compat).
    apply Rmult_le_reg_r with S; auto. rewrite Rmult_assoc, Rinv_l by lra. lra. }
  apply Rle_trans with (1 := Rabs_triang _ _). rewrite !Rabs_mult, (Rabs_pos_eq k) by lra.
  pose proof (Rabs_pos ((d - D) / S)) as N1. pose proof (Rabs_pos (D / S)) as N2. pose proof (Rabs_pos (k - 1)) as N3.
  apply Rle_trans with (k * (G - 1) + Rabs (k - 1) * 1); [apply Rplus_le_compat; apply Rmult_le_compat_l; lra|].
  set (al := G / L). assert (Eal : al * L = G) by (unfold al; field; lra). assert (Pal : 0 < al) by (unfold al; apply Rdiv_lt_0_compat; lra).
  destruct (Rle_lt_dec 1 k) as [Hk|Hk].
  - rewrite Rabs_pos_eq by lra. assert (G * k <= al); [|lra]. rewrite <- Eal. nra.
  - rewrite Rabs_left by lra. set (be := (2 - G) * k).
    assert (AB : 1 <= al * be).
    { assert (PT : 0 < T) by nra. assert (H1 : L * T * al <= al * (G * (2 - G))) by nra.
      replace (L * T * al) with (G * T) in H1 by (rewrite <- Eal; ring).
      assert (H2 : T <= al * (2 - G)) by (apply Rmult_le_reg_l with G; lra).
      unfold be. nra. }
    assert (Pbe : 0 <= be) by (unfold be; nra).
    assert (2 <= al + be); [|unfold be in *; lra].
    destruct (Rle_lt_dec 2 (al + be)) as [?|Q]; auto. exfalso. pose proof (Rle_0_sqr (al - be)) as Sq. unfold Rsqr in Sq. nra.
Qed.

Lemma machine_eps : is_finite (epsilon prec emax Hp Hm) = true /\ B2R (epsilon prec emax Hp Hm) = bpow radix2 (1 - prec).
Proof using Hprec Hemax.
  pose proof (binary_normalize_correct prec emax Hp Hm mode_NE 1 (1 - prec) false) as H. cbv zeta in H. cbn [round_mode] in H.
  change (SpecFloat.fexp prec emax) with fexp in H.
  assert (E : F2R (Float radix2 1 (1 - prec)) = bpow radix2 (1 - prec)) by (unfold F2R; cbn [Fnum Fexp]; lra).
  rewrite E in H. rewrite (rnd_id prec emin) in H by (apply fmt_bpow; auto; lia).
  rewrite Rlt_bool_true in H; [tauto|]. rewrite Rabs_pos_eq by apply bpow_ge_0. apply bpow_lt. lia.
Qed.

Lemma equality_zero (d : number) : is_finite d = true -> 0 <= B2R d ->
  equality prec emax Hp Hm d (B754_zero false) = Rle_bool (B2R d) (bpow radix2 (1 - prec)).
Proof using Hprec Hemax.
  intros F P. destruct machine_eps as (Fe & Ee). unfold equality.
  pose proof (Bminus_correct prec emax Hp Hm mode_NE (B754_zero false) d eq_refl F) as C. cbn [round_mode] in C.
  change (SpecFloat.fexp prec emax) with fexp in C. replace (B2R (B754_zero false : number) - B2R d) with (- B2R d) in C by (cbn [B2R]; lra).
  rewrite round_generic in C by (try apply valid_rnd_N; apply generic_format_opp, generic_format_B2R).
  rewrite Rabs_Ropp in C. rewrite Rlt_bool_true in C by apply abs_B2R_lt_emax. destruct C as (V & Fv & _).
  rewrite Bleb_correct; [|now rewrite is_finite_Babs|exact Fe]. rewrite B2R_Babs, V, Rabs_Ropp, Rabs_pos_eq, Ee by auto. reflexivity.
Qed.

Lemma cosine_close f0 f1 f2 l r : length l = length r ->
  (forall x, In x l -> is_finite x = true) -> (forall x, In x r -> is_finite x = true) ->
  no_underflow l r -> no_underflow l l -> no_underflow r r -> growth prec (length l) <= 3 / 2 ->
  (1 + u) ^ 3 * growth prec (length l) * true_dot l l < top -> (1 + u) ^ 3 * growth prec (length l) * true_dot r r < top ->
  exists c, float_cosine prec emax Hp Hm f0 f1 f2 l r = Ok c /\
    ((c = B754_infinity false /\ shrinkage prec (length l) * (true_length l * true_length r) <= bpow radix2 (1 - prec)) \/
     (is_finite c = true /\ bpow radix2 (1 - prec) < (1 + u) ^ 3 * growth prec (length l) * (true_length l * true_length r) /\
      Rabs (B2R c - true_cosine l r) <= cosine_error prec (length l))).
Proof using Hprec Hemax.
  intros Hlen Fl Fr Hlr Hll Hrr HG Hl Hr. pose proof (growth_pos (length l)) as G1. pose proof (u_range prec Hprec) as U.
  pose proof (dot_self_pos l) as Pl. pose proof (dot_self_pos r) as Pr. pose proof (abs_dot_mean l r Hlen) as Mean.
  pose proof (cauchy l r Hlen) as CS. pose proof (dot_le_abs l r) as DA. pose proof (abs_dot_pos l r) as PA.
  assert (C3 : 1 <= (1 + u) ^ 3) by (apply pow_R1_Rle; lra).
  destruct (inner_close f0 l r Hlen Fl Fr Hlr) as (d & Ed & Fd & Cd).
  { apply Rle_lt_trans with ((1 + u) ^ 3 * growth prec (length l) * Rmax (true_dot l l) (true_dot r r)); [|unfold Rmax; destruct (Rle_dec _ _); lra].
    assert (abs_dot l r <= Rmax (true_dot l l) (true_dot r r)) by (pose proof (Rmax_l (true_dot l l) (true_dot r r)); pose proof (Rmax_r (true_dot l l) (true_dot r r)); lra).
    apply Rmult_le_compat; auto; nra. }
  destruct (inner_close f1 l l eq_refl Fl Fl Hll) as (p & Ep & Fp & Cp).
  { rewrite abs_dot_self. apply Rle_lt_trans with (2 := Hl). apply Rmult_le_compat_r; auto; nra. }
  destruct (inner_close f2 r r eq_refl Fr Fr Hrr) as (q & Eq' & Fq & Cq).
  { rewrite abs_dot_self. rewrite <- Hlen. apply Rle_lt_trans with (2 := Hr). apply Rmult_le_compat_r; auto; nra. }
  rewrite abs_dot_self in Cp, Cq. rewrite <- Hlen in Cq.
  unfold shrinkage, cosine_error, shrinkage, true_cosine, true_length in *.
  set (G := growth prec (length l)) in *. set (n := length l) in *.
  destruct (root_close p G _ Fp Pl (conj G1 HG) Cp) as (Fm1 & Lm1 & Um1). destruct (root_close q G _ Fq Pr (conj G1 HG) Cq) as (Fm2 & Lm2 & Um2).
  set (m1 := Bsqrt mode_NE p) in *. set (m2 := Bsqrt mode_NE q) in *.
  set (S1 := sqrt (true_dot l l)) in *. set (S2 := sqrt (true_dot r r)) in *.
  assert (PS1 : 0 <= S1) by apply sqrt_pos. assert (PS2 : 0 <= S2) by apply sqrt_pos.
  assert (ES1 : S1 * S1 = true_dot l l) by now apply sqrt_sqrt. assert (ES2 : S2 * S2 = true_dot r r) by now apply sqrt_sqrt.
  pose proof (sqrt_pos (2 - G)) as Pg. pose proof (sqrt_pos G) as PG. pose proof (sqrt_sqrt (2 - G) ltac:(lra)) as Eg. pose proof (sqrt_sqrt G ltac:(lra)) as EG.
  set (g := sqrt (2 - G)) in *. set (gg := sqrt G) in *. set (S := S1 * S2) in *.
  assert (PS : 0 <= S) by (unfold S; nra).
  assert (W1 : 0 <= (1 - u) * (g * S1)) by (apply Rmult_le_pos; [lra|nra]). assert (W2 : 0 <= (1 - u) * (g * S2)) by (apply Rmult_le_pos; [lra|nra]).
  assert (Lo : (1 - u) ^ 2 * (2 - G) * S <= B2R m1 * B2R m2).
  { replace ((1 - u) ^ 2 * (2 - G) * S) with (((1 - u) * (g * S1)) * ((1 - u) * (g * S2))) by (rewrite <- Eg; unfold S; ring).
    apply Rmult_le_compat; lra. }
  assert (Hi : B2R m1 * B2R m2 <= (1 + u) ^ 2 * G * S).
  { replace ((1 + u) ^ 2 * G * S) with (((1 + u) * (gg * S1)) * ((1 + u) * (gg * S2))) by (rewrite <- EG; unfold S; ring).
    apply Rmult_le_compat; lra. }
  assert (Pm : 0 <= B2R m1 * B2R m2) by (apply Rmult_le_pos; lra).
  set (w := B2R m1 * B2R m2) in *.
  assert (Hleast : least <= bpow radix2 (1 - prec)) by (apply bpow_le; lia).
  assert (Fleast : fmt least) by (apply fmt_bpow; auto; lia).
  assert (Pw : 0 <= rnd w) by (rewrite <- rnd_zero; apply round_le; auto; [apply FLT_exp_valid; exact Hp|apply valid_rnd_N]).
  assert (Small : w < least -> rnd w <= least).
  { intros H. rewrite <- (round_generic radix2 fexp ZnearestE least Fleast). apply round_le; [apply FLT_exp_valid; exact Hp|apply valid_rnd_N|lra]. }
  assert (Normal : least <= w -> (1 - u) * w <= rnd w <= (1 + u) * w).
  { intros H. pose proof (rnd_normal w ltac:(rewrite Rabs_pos_eq; auto)) as R. rewrite (Rabs_pos_eq w) in R by auto. apply Rabs_le_inv in R. lra. }
  assert (Big : (1 + u) ^ 3 * G * S < top).
  { assert (2 * S <= true_dot l l + true_dot r r) by (unfold S; pose proof (Rle_0_sqr (S1 - S2)) as Q; unfold Rsqr in Q; lra).
    assert (T0 : 0 <= (1 + u) ^ 3 * G) by (apply Rmult_le_pos; lra).
    pose proof (Rmult_le_compat_l _ _ _ T0 H) as T1. lra. }
  assert (Hi3 : (1 + u) * w <= (1 + u) ^ 3 * G * S).
  { replace ((1 + u) ^ 3 * G * S) with ((1 + u) * ((1 + u) ^ 2 * G * S)) by ring. apply Rmult_le_compat_l; lra. }
  assert (Lo3 : (1 - u) ^ 3 * (2 - G) * S <= (1 - u) * w).
  { replace ((1 - u) ^ 3 * (2 - G) * S) with ((1 - u) * ((1 - u) ^ 2 * (2 - G) * S)) by ring. apply Rmult_le_compat_l; lra. }
  assert (Htop : 32 <= top).
  { change 32 with (bpow radix2 5). apply bpow_le. lia. }
  assert (Eps1 : bpow radix2 (1 - prec) <= / 2) by (change (/ 2) with (bpow radix2 (-1)); apply bpow_le; lia).
  pose proof (Bmult_correct prec emax Hp Hm mode_NE m1 m2) as C. cbn [round_mode] in C. change (SpecFloat.fexp prec emax) with fexp in C. fold w in C.
  rewrite Rlt_bool_true in C; [|rewrite Rabs_pos_eq by auto; destruct (Rle_lt_dec least w) as [H|H]; [destruct (Normal H); lra|specialize (Small H); lra]].
  destruct C as (Vden & Fden & _). rewrite Fm1, Fm2 in Fden. cbn [andb] in Fden.
  unfold float_cosine. rewrite Ed, Ep, Eq'. cbn [bind]. fold m1 m2. set (den := Bmult mode_NE m1 m2) in *.
  eexists. split; [reflexivity|]. unfold float_division. rewrite equality_zero by (auto; rewrite Vden; auto). rewrite Vden.
  destruct (Rle_bool_spec (rnd w) (bpow radix2 (1 - prec))) as [H|H].
  - left. split; auto. destruct (Rle_lt_dec least w) as [H1|H1]; [destruct (Normal H1); lra|].
    apply Rle_trans with ((1 - u) * w); auto. assert (0 <= u * w) by (apply Rmult_le_pos; lra). lra.
  - right. destruct (Rle_lt_dec least w) as [H1|H1]; [|specialize (Small H1); lra]. destruct (Normal H1) as (N1 & N2).
    pose proof (bpow_gt_0 radix2 (1 - prec)) as Pe. set (L := (1 - u) ^ 3 * (2 - G)) in *. set (T := (1 + u) ^ 3 * G) in *.
    assert (PS' : 0 < S) by (destruct PS as [?|Z]; auto; rewrite <- Z in Hi3; lra).
    assert (Q1 : 27 / 64 <= (1 - u) ^ 3).
    { replace (27 / 64) with ((3 / 4) ^ 3) by field. apply pow_incr. lra. }
    assert (HL : 27 / 128 <= L) by (unfold L; replace (27 / 128) with (27 / 64 * / 2) by field; apply Rmult_le_compat; lra).
    assert (LT : L * T <= G * (2 - G)).
    { replace (L * T) with ((1 - u * u) ^ 3 * (G * (2 - G))) by (unfold L, T; ring).
      assert (UU : 0 <= u * u <= / 4 * / 4) by (split; [apply Rmult_le_pos; lra|apply Rmult_le_compat; lra]).
      assert (C1 : (1 - u * u) ^ 3 <= 1) by (rewrite <- (pow1 3); apply pow_incr; lra).
      assert (GG : 0 <= G * (2 - G)) by (apply Rmult_le_pos; lra).
      apply Rle_trans with (1 * (G * (2 - G))); [apply Rmult_le_compat_r; lra|lra]. }
    assert (Cd' : Rabs (B2R d - true_dot l r) <= (G - 1) * S) by (apply Rle_trans with (1 := Cd); apply Rmult_le_compat_l; lra).
    pose proof (quotient_close (B2R d) (true_dot l r) (rnd w) S G L T PS' ltac:(lra) G1 HG ltac:(lra) ltac:(lra) LT Cd' ltac:(lra)) as QC.
    assert (Cos : Rabs (true_dot l r / S) <= 1).
    { unfold Rdiv. rewrite Rabs_mult, (Rabs_pos_eq (/ S)) by (left; now apply Rinv_0_lt_compat).
      apply Rmult_le_reg_r with S; auto. rewrite Rmult_assoc, Rinv_l by lra. lra. }
    set (al := G / L) in *. assert (Eal : al * L = G) by (unfold al; field; lra).
    assert (PalB : al <= 8) by (apply Rmult_le_reg_r with L; lra).
    pose proof (Rabs_pos (B2R d / rnd w - true_dot l r / S)) as QN.
    set (z := B2R d / rnd w) in *. set (c := true_dot l r / S) in *.
    assert (Hz : Rabs z <= al).
    { replace z with ((z - c) + c) by lra. apply Rle_trans with (1 := Rabs_triang _ _). lra. }
    assert (Ez : Rabs (rnd z - z) <= u * al).
    { destruct (Rle_lt_dec least (Rabs z)) as [H2|H2].
      - apply Rle_trans with (1 := rnd_normal z H2). apply Rmult_le_compat_l; lra.
      - apply Rle_trans with (1 := rnd_quotient prec emax Hp Hprec z). rewrite least_tiny.
        assert (u * (Rabs z + least) <= u * al) by (apply Rmult_le_compat_l; lra). lra. }
    assert (Er : Rabs (rnd z - c) <= (1 + u) * al - 1).
    { replace (rnd z - c) with ((rnd z - z) + (z - c)) by lra. apply Rle_trans with (1 := Rabs_triang _ _). lra. }
    pose proof (Bdiv_correct prec emax Hp Hm mode_NE d den ltac:(rewrite Vden; lra)) as C. cbn [round_mode] in C.
    change (SpecFloat.fexp prec emax) with fexp in C. rewrite Vden in C. fold z in C.
    rewrite Rlt_bool_true in C.
    2: { replace (rnd z) with ((rnd z - z) + z) by lra. apply Rle_lt_trans with (1 := Rabs_triang _ _).
         assert (u * al <= / 4 * 8) by (apply Rmult_le_compat; lra). lra. }
    destruct C as (V & F & _). rewrite F, V. split; auto. split; [lra|].
    replace ((1 + u) * G / L) with ((1 + u) * al) by (unfold al; field; lra). exact Er.
Qed.

Lemma growth_linear n : INR (n + 3) * u <= / 16 ->
  growth prec n <= 3 / 2 /\ (1 + u) ^ 3 * growth prec n <= 2 /\ cosine_error prec n <= 4 * INR (n + 3) * u.
Proof using Hprec.
  intros H. pose proof (u_range prec Hprec) as U. pose proof (growth_pos n) as G1.
  assert (B : forall m, 0 <= 1 - INR m * u -> (1 + u) ^ m * (1 - INR m * u) <= 1).
  { induction m as [|m IH]; intros Hm'; [simpl; lra|]. rewrite S_INR in *. cbn [pow]. pose proof (pos_INR m) as Pm.
    pose proof (grow_pos prec Hprec m) as Gm. assert (0 <= 1 - INR m * u) by lra. specialize (IH H0).
    apply Rle_trans with (2 := IH). rewrite (Rmult_comm (1 + u)), Rmult_assoc. apply Rmult_le_compat_l; [lra|]. nra. }
  assert (E3 : INR (n + 3) * u = INR (n + 1) * u + 2 * u) by (rewrite !plus_INR; simpl; lra).
  pose proof (pos_INR (n + 1)) as Pn. assert (I1 : 1 <= INR (n + 1)) by (rewrite plus_INR; simpl; pose proof (pos_INR n); lra).
  set (w := INR (n + 1) * u) in *. assert (Pw : u <= w) by (unfold w; nra).
  pose proof (B (n + 1)%nat ltac:(fold w; lra)) as B1. fold w in B1. fold (growth prec n) in B1. set (G := growth prec n) in *.
  assert (GU : G <= 1 + 8 / 7 * w) by nra.
  split; [lra|]. split.
  { assert ((1 + u) ^ 3 <= 1 + 4 * u) by (assert (u * u <= u / 48) by nra; assert (u * u * u <= u / 48) by nra; lra). nra. }
  unfold cosine_error, shrinkage. fold G. rewrite (Rmult_assoc 4), E3.
  assert (D1 : 1 - 3 * u <= (1 - u) ^ 3) by nra.
  assert (D2 : (1 - 3 * u) * (1 - 8 / 7 * w) <= (1 - u) ^ 3 * (2 - G)) by (apply Rmult_le_compat; lra).
  set (den := (1 - u) ^ 3 * (2 - G)) in *.
  assert (D3 : 9 / 10 <= den) by nra.
  assert (N : (1 + u) * G <= (1 + u) * (1 + 8 / 7 * w)) by (apply Rmult_le_compat_l; lra).
  apply Rmult_le_reg_r with den; [lra|]. unfold Rdiv. rewrite Rmult_minus_distr_r, Rmult_assoc, Rinv_l by lra.
  assert (0 <= u * w) by nra. assert (9 / 10 * (4 * (w + 2 * u)) <= 4 * (w + 2 * u) * den) by nra. lra.
Qed.
End Bounds.
