(** K-medoids with FasterPAM in any arithmetic, and on [float] and [double] (C114). *)
From Coq Require Import Reals List Arith ZArith Bool Lia Lra Psatz Permutation.
From Flocq Require Import Core BinarySingleNaN.
From Verif Require Import Base BufferModel BufferSpec SearchModel MatrixModel KMeansModel KMeansProofs RandomModel RandomSpec RandomProps KMedoidsModel
  KMedoidsSpec KMedoidsProofs KMedoidsProps FloatModel FloatSpec FloatProofs FloatProps AccuracySpec AccuracyProofs FloatSilhouetteProofs FloatKMeansProofs FloatKMeansProps FloatAliasProps
  FloatPlusPlusProofs FloatHamerlyModel FloatMedoidsModel FloatMedoidsSpec FloatMedoidsProofs FloatMedoidsGrowth AffineProofs.
Import ListNotations.
Local Open Scope nat_scope.

Lemma starts_random {D} (src : source D) n o k draw : rows src = n -> (forall i, in_range (draw i)) -> 1 <= mo_n_init o -> k <= n ->
  exists starts, any_starts src o k [] draw = Ok starts /\ starts <> [] /\ forall M, In M starts -> Permutation M (seq 0 k).
Proof.
  intros Hr Hd Hi Hk. unfold any_starts.
  match goal with |- context [for_each ?l ?body []] =>
    destruct (for_each_inv (fun d s => length s = length d /\ forall M, In M s -> Permutation M (seq 0 k)) body l [] [])
      as (starts & E & HL & HA) end.
  - split; auto. intros M [].
  - intros x d t Hx (HL & HA). rewrite Hr. destruct (interval_ok (draw x) k n (Hd x) Hk) as (idx & -> & HP & _). cbn [bind].
    eexists. split; [reflexivity|]. rewrite !app_length, HL. split; auto. intros M HM. apply in_app_or in HM.
    destruct HM as [HM|[<-|[]]]; auto.
  - exists starts. rewrite app_nil_l, seq_length in HL. splits; auto. intros ->. cbn in HL. lia.
Qed.

(** Whatever [+], [-], [<] and == do on the distances: fit ends, with as many medoids as asked, all of them samples, and every
    sample gets the label of one of them. *)
Theorem c114_valid_in_any_arithmetic :
  forall {D : Type} (zero : D) plus minus lt eq top src n dist o n_medoids medoids draw, provides src n dist ->
  let k := match medoids with [] => n_medoids | _ => length medoids end in
  Forall (fun m => m < n) medoids -> (medoids = [] -> (forall i, in_range (draw i)) /\ 1 <= mo_n_init o) -> 2 <= k <= n ->
  exists best labels,
    any_medoids_fit zero plus minus lt eq top src o n_medoids medoids draw = Ok best /\ length best = k /\ Forall (fun m => m < n) best /\
    any_indices lt eq top src best 1 = Ok labels /\ length labels = n /\ Forall (fun label => label < k) labels.
Proof.
  intros D zero plus minus lt eq top src n dist o n_medoids medoids draw Hsrc k HM Hr (Hk & Hkn).
  assert (HS : exists starts, any_starts src o n_medoids medoids draw = Ok starts /\ starts <> [] /\
    forall M, In M starts -> Forall (fun m => m < n) M /\ length M = k).
  { destruct medoids as [|m0 M0] eqn:EM.
    - destruct Hr as (Hd & Hi); auto. destruct (starts_random src n o n_medoids draw (proj1 Hsrc) Hd Hi Hkn) as (starts & E & Hne & HP).
      exists starts. splits; auto. intros M Hin. specialize (HP M Hin). split.
      + apply Forall_forall. intros m Hm. apply (Permutation_in m HP), in_seq in Hm. unfold k in Hkn. lia.
      + rewrite (Permutation_length HP). apply seq_length.
    - rewrite <- EM in *. exists [medoids]. splits; [apply starts_given; congruence|discriminate|]. intros M [<-|[]]. split; auto.
      unfold k. now rewrite EM. }
  destruct HS as (starts & Es & Hne & HS).
  destruct (fit_keeps zero plus minus lt eq top src (fun _ => shaped n k) (fun _ => step_any zero plus minus lt src n dist Hsrc k) o n_medoids medoids draw starts Es Hne)
    as (_ & p & E & _ & Hp).
  { intros M Hin. destruct (HS M Hin) as (HMv & HMl). destruct (make_any zero plus minus lt eq top src n dist Hsrc M) as (p & E & Em & Hp); auto; [lia|].
    rewrite HMl in Hp. eauto. }
  destruct Hp as [_ S1 S2 _ _ _ _ _]. destruct (indices_any lt eq top src n dist Hsrc (ap_medoids p) 1) as (v & Ev & Lv & Fv); auto; [lia|].
  rewrite S1 in Fv. exists (ap_medoids p), v. splits; auto.
Qed.

Section Formats.
Context {prec emax : Z} (Hp : Prec_gt_0 prec) (Hm : Prec_lt_emax prec emax) (Hfmt : format_ok prec emax).
Notation number := (binary_float prec emax).
Notation enc := (encode prec emax).
Notation zero := (B754_zero false : number).
Notation gd := (good prec emax).

Definition finite_distance (x : number) : Prop := is_finite x = true /\ gd x.

Lemma key_lt x y : finite_distance x -> finite_distance y -> Bltb x y = (enc x <? enc y)%Z.
Proof.
  intros (Fx & _) (Fy & _). rewrite Bltb_correct by auto. rewrite <- (encode_value prec emax x Fx), <- (encode_value prec emax y Fy).
  pose proof (bpow_gt_0 radix2 (3 - emax - prec)) as B. destruct (Z.ltb_spec (enc x) (enc y)) as [H|H].
  - apply Rlt_bool_true. apply Rmult_lt_compat_r; auto. now apply IZR_lt.
  - apply Rlt_bool_false. apply Rmult_le_compat_r; [lra|]. now apply IZR_le.
Qed.

Lemma key_inj x y : finite_distance x -> finite_distance y -> enc x = enc y -> x = y.
Proof.
  intros (Fx & Gx) (Fy & Gy) E. apply (level_inj prec emax); auto. unfold level. rewrite Fx, Fy.
  now rewrite <- (encode_value prec emax x Fx), <- (encode_value prec emax y Fy), E.
Qed.

Lemma key_pos x : finite_distance x -> (0 <= enc x)%Z.
Proof.
  intros (Fx & Gx). destruct (good_inv prec emax x Gx) as [->|(_ & _ & H)]; [discriminate|].
  rewrite <- (encode_value prec emax x Fx) in H. pose proof (bpow_gt_0 radix2 (3 - emax - prec)) as B.
  destruct (Z_lt_le_dec (enc x) 0) as [L|]; auto. apply IZR_lt in L. nra.
Qed.

Lemma minus_good x y : finite_distance x -> finite_distance y -> (enc y <= enc x)%Z -> gd (Bminus mode_NE x y).
Proof using Hfmt.
  intros (Fx & Gx) (Fy & Gy) H.
  assert (HR : (0 <= B2R x - B2R y)%R).
  { rewrite <- (encode_value prec emax x Fx), <- (encode_value prec emax y Fy). pose proof (bpow_gt_0 radix2 (3 - emax - prec)) as B.
    apply IZR_le in H. nra. }
  assert (Sx : Bsign x = false) by (destruct (good_inv prec emax x Gx) as [->|(_ & ? & _)]; auto).
  pose proof (Bminus_correct prec emax _ _ mode_NE x y Fx Fy) as C. destruct (Rlt_bool _ _).
  - destruct C as (_ & F & S). apply good_finite; auto. rewrite S, Sx. destruct (Rcompare_spec (B2R x - B2R y) 0); auto. lra.
  - destruct C as (C & _). apply (overflow_inf prec emax) in C. rewrite C, Sx. reflexivity.
Qed.

Lemma not_negative x : gd x -> Bltb x zero = false.
Proof.
  intros G. rewrite (lt_level prec emax) by (auto; reflexivity). apply Rlt_bool_false. pose proof (level_range prec emax x G) as H.
  change (level prec emax zero) with 0%R. lra.
Qed.

Lemma plus_zero x : gd x -> Bplus mode_NE x zero = x.
Proof. unfold good, is_distance. destruct x as [[|]|[|]| |[|] m e B]; cbn; intros H; try discriminate; reflexivity. Qed.

Lemma largest_ok : finite_distance (Bmax_float : number).
Proof. split; [|unfold good, is_distance]; reflexivity. Qed.

Lemma below_largest x : gd x -> Bltb x Bmax_float = true -> finite_distance x /\ (enc x < enc (Bmax_float : number))%Z.
Proof.
  intros G H. assert (F : is_finite x = true) by (destruct (good_inv prec emax x G) as [->|(F & _)]; auto; discriminate H).
  split; [now split|]. rewrite key_lt in H; [now apply Z.ltb_lt|now split|apply largest_ok].
Qed.

Lemma machine_epsilon : is_finite (epsilon prec emax Hp Hm) = true /\ B2R (epsilon prec emax Hp Hm) = bpow radix2 (1 - prec).
Proof using Hfmt.
  destruct Hfmt as (Hprec & Hemax).
  pose proof (binary_normalize_correct prec emax Hp Hm mode_NE 1 (1 - prec) false) as H. cbv zeta in H. cbn [round_mode] in H.
  change (SpecFloat.fexp prec emax) with (FLT_exp (3 - emax - prec) prec) in H.
  assert (E : F2R (Float radix2 1 (1 - prec)) = bpow radix2 (1 - prec)) by (unfold F2R; cbn [Fnum Fexp]; lra).
  rewrite E in H. rewrite (rnd_id prec (3 - emax - prec)) in H by (apply fmt_bpow; auto; lia).
  rewrite Rlt_bool_true in H; [tauto|]. rewrite Rabs_pos_eq by apply bpow_ge_0. apply bpow_lt. lia.
Qed.

Lemma clear_apart x y : finite_distance x -> finite_distance y -> (B2R x + bpow radix2 (2 - prec) <= B2R y)%R ->
  Bltb x y = true /\ equality prec emax Hp Hm y x = false.
Proof using Hfmt.
  destruct Hfmt as (Hprec & Hemax). intros (Fx & Gx) (Fy & Gy) H. pose proof (bpow_gt_0 radix2 (2 - prec)) as B. split.
  - rewrite Bltb_correct by auto. apply Rlt_bool_true. lra.
  - unfold equality. destruct (minus_ok prec emax Hp Hm Hprec x y Fx Fy) as (N & E).
    destruct (level_abs prec emax _ N) as (G & _). destruct (machine_epsilon) as (Fe & Ee).
    assert (L : (bpow radix2 (1 - prec) < level prec emax (Babs (Bminus mode_NE x y)))%R).
    { rewrite E. rewrite Rabs_left1 by lra. unfold cap. apply Rlt_le_trans with (bpow radix2 (2 - prec)).
      - apply bpow_lt. lia.
      - apply Rmin_glb; [|apply bpow_le; lia]. apply rnd_ge_fmt; auto; try lia; [apply fmt_bpow; auto; lia|lra]. }
    destruct (good_inv prec emax _ G) as [I|(F & _)].
    + rewrite I. destruct (epsilon prec emax Hp Hm); try discriminate Fe; reflexivity.
    + unfold level in L. rewrite F in L. rewrite Bleb_correct by auto. apply Rle_bool_false. rewrite Ee. exact L.
Qed.

Section Samples.
Context (add : nat -> grouping) (samples : list number) (nf n : nat) (Hnf : nf <> 0) (Hlen : length samples = n * nf).
Notation dist := (fun i j => euclidean prec emax Hp Hm add (row samples nf i) (row samples nf j)).

Lemma source_ok : exists src, float_source prec emax Hp Hm add samples nf = Ok src /\ provides src n dist.
Proof using Hnf Hlen.
  unfold float_source, get_n_samples. destruct (Nat.eqb_spec nf 0); [contradiction|]. rewrite Hlen, Nat.div_mul by auto. cbn [bind].
  eexists. split; [reflexivity|]. split; [reflexivity|]. intros i j Hi Hj. cbn [dist_at].
  rewrite !(sample_row' samples nf n) by auto. reflexivity.
Qed.

(** The same on [float] and [double], whatever the samples: also with infinities and NaN among them. *)
Theorem c114_fit_valid :
  forall o n_medoids medoids draw,
  let k := match medoids with [] => n_medoids | _ => length medoids end in
  Forall (fun m => m < n) medoids -> (medoids = [] -> (forall i, in_range (draw i)) /\ 1 <= mo_n_init o) -> 2 <= k <= n ->
  exists best labels,
    float_medoids_fit prec emax Hp Hm add o n_medoids medoids draw samples nf = Ok best /\ length best = k /\ Forall (fun m => m < n) best /\
    float_medoids_predict prec emax Hp Hm add samples nf best = Ok labels /\ length labels = n /\ Forall (fun label => label < k) labels.
Proof using Hnf Hlen.
  intros o n_medoids medoids draw k HM Hr Hk. unfold float_medoids_fit, float_medoids_predict.
  destruct source_ok as (src & -> & Hsrc). cbn [bind].
  exact (c114_valid_in_any_arithmetic _ _ _ _ _ _ src n dist o n_medoids medoids draw Hsrc HM Hr Hk).
Qed.

Context (Hfin : finite_numbers samples) (Hbelow : forall i j, i < n -> j < n -> Bltb (dist i j) Bmax_float = true).
Notation desc := (described zero (Bplus mode_NE) n dist enc finite_distance gd).

Lemma between_ok i j : i < n -> j < n -> finite_distance (dist i j) /\ (enc (dist i j) < enc (Bmax_float : number))%Z.
Proof using Hfmt Hnf Hlen Hfin Hbelow.
  intros Hi Hj. destruct Hfmt as (Hprec & Hemax). apply below_largest; auto.
  apply euclidean_is_distance; auto; now apply row_finite.
Qed.

Lemma float_laws src : provides src n dist ->
  (forall k p, desc k p -> exists p', apam_step zero (Bplus mode_NE) (Bminus mode_NE) Bltb src p = Ok p' /\ desc k p') /\
  (forall M, Forall (fun m => m < n) M -> 2 <= length M -> clearly_nearest dist n M ->
    exists p, make_apam zero (Bplus mode_NE) (Bminus mode_NE) Bltb (equality prec emax Hp Hm) Bmax_float src M = Ok p /\ ap_medoids p = M /\
      desc (length M) p).
Proof using Hfmt Hnf Hlen Hfin Hbelow.
  intros Hsrc. destruct Hfmt as (Hprec & Hemax).
  assert (A1 : forall i j, i < n -> j < n -> finite_distance (dist i j)) by (intros; now apply between_ok).
  assert (A2 : finite_distance zero) by (split; reflexivity).
  assert (A3 : forall o, o < n -> dist o o = zero) by (intros; apply self_distance; auto; now apply row_finite).
  assert (A4 : forall i j, i < n -> j < n -> (0 <= enc (dist i j))%Z) by (intros; apply key_pos; auto).
  assert (A5 : forall x y, gd x -> gd y -> gd (Bplus mode_NE x y)) by (intros; now apply plus_ok).
  assert (A6 : forall x : number, finite_distance x -> (0 <= enc x)%Z -> gd x) by (intros x (_ & G) _; auto).
  split.
  - apply (step_order zero (Bplus mode_NE) (Bminus mode_NE) Bltb src n dist Hsrc enc finite_distance gd key_lt key_inj A1 A2 eq_refl A3 A4 A5
      minus_good A6 not_negative plus_zero).
  - intros M HM Hk Hc.
    apply (make_order zero (Bplus mode_NE) (Bminus mode_NE) Bltb (equality prec emax Hp Hm) Bmax_float src n dist Hsrc enc finite_distance gd
      key_lt key_inj A1 A2 eq_refl A3 A4 A5 minus_good A6 not_negative plus_zero largest_ok M HM Hk).
    + intros i j Hi Hj. now apply between_ok.
    + intros o Ho. destruct (Hc o Ho) as (j & Hj & H). exists j. split; auto. intros j' Hj' Hne.
      rewrite Forall_forall in HM. apply clear_apart; auto; apply A1; auto; apply HM, nth_In; auto.
Qed.

Lemma desc_means k p : desc k p ->
  length (ap_medoids p) = k /\ Forall (fun m => m < n) (ap_medoids p) /\ NoDup (ap_medoids p) /\ length (ap_nearest p) = n /\
  nearest_by Bltb dist n (ap_medoids p) (fun o => nth o (ap_nearest p) 0) /\
  ap_loss p = running_total zero (Bplus mode_NE) dist n (ap_medoids p) (fun o => nth o (ap_nearest p) 0).
Proof using Hfmt Hnf Hlen Hfin Hbelow.
  intros [[Hk S1 S2 (S3 & S4) _ S5 _ _] HN HO _ HL]. pose proof S2 as S2'. rewrite Forall_forall in S2'.
  assert (Hin : forall j, j < length (ap_medoids p) -> nth j (ap_medoids p) 0 < n) by (intros; apply S2', nth_In; auto).
  assert (HD : forall o, o < n -> nth o (ap_distances p) zero = dist (nth (nth o (ap_nearest p) 0) (ap_medoids p) 0) o).
  { intros o Ho. destruct (HO o Ho) as (F1 & _ & [O1 _ _ O4 _ _ _]). apply key_inj; auto. apply between_ok; auto. }
  splits; auto.
  - intros o Ho. destruct (HO o Ho) as (F1 & _ & [O1 _ _ O4 _ O6 _]). split; auto. intros j Hj.
    rewrite key_lt by (apply between_ok; auto). apply Z.ltb_ge. rewrite <- O4. auto.
  - rewrite HL. unfold running_total. f_equal. apply (nth_ext _ _ zero zero); [now rewrite map_length, seq_length|]. intros o Ho.
    rewrite HD by lia.
    rewrite (nth_indep _ zero (dist (nth (nth 0 (ap_nearest p) 0) (ap_medoids p) 0) 0)) by (rewrite map_length, seq_length; lia).
    rewrite (map_nth (fun o => dist (nth (nth o (ap_nearest p) 0) (ap_medoids p) 0) o)), seq_nth by lia. reflexivity.
Qed.

Lemma steps_desc medoids t : Forall (fun m => m < n) medoids -> 2 <= length medoids -> clearly_nearest dist n medoids ->
  exists p, float_pam prec emax Hp Hm add t samples nf medoids = Ok p /\ desc (length medoids) p.
Proof using Hfmt Hnf Hlen Hfin Hbelow.
  intros HM Hk Hc. unfold float_pam. destruct source_ok as (src & -> & Hsrc). cbn [bind]. destruct (float_laws src Hsrc) as (L1 & L2).
  destruct (L2 medoids HM Hk Hc) as (p & -> & _ & Hd). cbn [bind].
  match goal with |- context [for_loop t 0 ?body p] => destruct (for_loop_inv (fun _ => desc (length medoids)) body t 0 p) as (q & E & Hq) end; auto.
  - exists q. split; auto.
Qed.

(** When each sample starts with one medoid clearly nearer than the others: however many steps, the medoids are different
    samples, the buffers know a nearest medoid of each sample, and the reported loss is the rounded sum of the distances to
    them. *)
Theorem c114_steps :
  forall medoids t, Forall (fun m => m < n) medoids -> 2 <= length medoids -> clearly_nearest dist n medoids ->
  exists p, float_pam prec emax Hp Hm add t samples nf medoids = Ok p /\
    length (ap_medoids p) = length medoids /\ Forall (fun m => m < n) (ap_medoids p) /\ NoDup (ap_medoids p) /\ length (ap_nearest p) = n /\
    nearest_by Bltb dist n (ap_medoids p) (fun o => nth o (ap_nearest p) 0) /\
    ap_loss p = running_total zero (Bplus mode_NE) dist n (ap_medoids p) (fun o => nth o (ap_nearest p) 0).
Proof using Hfmt Hnf Hlen Hfin Hbelow.
  intros medoids t HM Hk Hc. destruct (steps_desc medoids t HM Hk Hc) as (p & E & Hd). exists p. split; auto. now apply desc_means.
Qed.

(** Unless it overflows, the reported loss is up to roundings the least sum of distances of the samples to those medoids. *)
Theorem c114_reported_deviation :
  forall medoids t p, Forall (fun m => m < n) medoids -> 2 <= length medoids -> clearly_nearest dist n medoids ->
  float_pam prec emax Hp Hm add t samples nf medoids = Ok p -> is_finite (ap_loss p) = true ->
  exists near, let least := exact_total dist n (ap_medoids p) near in
    (forall o, o < n -> near o < length (ap_medoids p)) /\
    (forall other, (forall o, o < n -> other o < length (ap_medoids p)) -> (least <= exact_total dist n (ap_medoids p) other)%R) /\
    ((1 - roundoff prec) ^ n * least <= B2R (ap_loss p) <= (1 + roundoff prec) ^ n * least)%R.
Proof using Hfmt Hnf Hlen Hfin Hbelow.
  intros medoids t p HM Hk Hc Ep Fp. destruct (steps_desc medoids t HM Hk Hc) as (p' & Ep' & Hd). rewrite Ep in Ep'. injection Ep' as <-.
  destruct (desc_means _ p Hd) as (D1 & D2 & _ & _ & D5 & D6). rewrite Forall_forall in D2.
  exists (fun o => nth o (ap_nearest p) 0). cbn zeta. destruct Hfmt as (Hprec & Hemax).
  set (M := ap_medoids p) in *. set (near := fun o => nth o (ap_nearest p) 0) in *.
  assert (Hin : forall j o, j < length M -> o < n -> finite_distance (dist (nth j M 0) o)) by (intros; apply between_ok; auto; apply D2, nth_In; auto).
  split; [intros o Ho; now apply D5|]. split.
  - intros other Ho. unfold exact_total.
    assert (G : forall l, (forall o, In o l -> o < n) ->
      (fold_right Rplus 0 (map (fun o => B2R (dist (nth (near o) M 0%nat) o)) l) <= fold_right Rplus 0 (map (fun o => B2R (dist (nth (other o) M 0%nat) o)) l))%R).
    { induction l as [|o l IH]; intros Hl; cbn [map fold_right]; [lra|].
      assert (Ho' : o < n) by (apply Hl; now left). specialize (IH (fun o' H => Hl o' (or_intror H))).
      destruct (D5 o Ho') as (N1 & N2). specialize (N2 (other o) (Ho o Ho')). rewrite Bltb_correct in N2 by (apply Hin; auto).
      revert N2. case Rlt_bool_spec; intros N2 N3; [discriminate|lra]. }
    apply G. intros o Ho'. apply in_seq in Ho'. lia.
  - set (l := map (fun o => dist (nth (near o) M 0) o) (seq 0 n)).
    assert (Hl : forall x, In x l -> finite_distance x).
    { intros x Hx. apply in_map_iff in Hx as (o & <- & Ho). apply in_seq in Ho. apply Hin; [apply D5|]; lia. }
    assert (Hg : forall x, In x l -> gd x) by (intros x Hx; now apply Hl).
    assert (Ll : length l = n) by (unfold l; now rewrite map_length, seq_length).
    assert (Es : Rsum prec emax l = exact_total dist n M near).
    { unfold Rsum, exact_total. rewrite <- (map_map (fun o => dist (nth (near o) M 0) o) B2R). fold l. f_equal. apply map_ext_in. intros x Hx.
      unfold level. now rewrite (proj1 (Hl x Hx)). }
    assert (G0 : gd zero) by reflexivity.
    assert (EL : level prec emax (ap_loss p) = B2R (ap_loss p)) by (unfold level; now rewrite Fp).
    assert (E0 : (level prec emax zero = 0)%R) by reflexivity.
    rewrite <- EL, <- Es, D6. unfold running_total. fold M near l. rewrite <- Ll. split.
    + pose proof (sum_lower prec emax Hp Hm Hprec Hemax l zero G0 Hg) as S. rewrite E0, Rplus_0_l in S. apply S.
      unfold running_total in D6. fold l in D6. rewrite <- D6, EL.
      apply Rle_lt_trans with (1 := Rle_abs _). now apply (finite_below prec emax).
    + pose proof (sum_upper prec emax Hp Hm Hprec Hemax l zero G0 Hg) as S. now rewrite E0, Rplus_0_l in S.
Qed.

(** ** How much the total deviation can grow *)
Section Grow.
Context (B : R) (HB : forall i j, i < n -> j < n -> (B2R (dist i j) <= B)%R) (Hn : 0 < n).
Notation u := (roundoff prec).
Notation w := (bpow radix2 (3 - emax - prec)).
Context (Htop : ((1 + u) ^ (4 * n + 1) * (3 * INR n * B) < bpow radix2 emax)%R).
Notation rnd := (round radix2 (FLT_exp (3 - emax - prec) prec) ZnearestE).

Definition float_tracks (h : nat) (v : number) (z : Z) : Prop := is_finite v = true /\
  (Rabs (B2R v - IZR z * w) <= ((1 + u) ^ (2 * h) - 1) * (INR h * B))%R /\ (Rabs (IZR z * w) <= INR h * B)%R.
Definition float_small (z : Z) : Prop := (IZR z * w <= ((1 + u) ^ (4 * n) - 1) * (3 * INR n * B))%R.

Lemma largest_pos : (0 <= B)%R.
Proof using Hfmt Hnf Hlen Hfin Hbelow HB Hn.
  specialize (HB 0 0 Hn Hn). destruct (between_ok 0 0 Hn Hn) as ((F & G) & _). destruct (good_inv prec emax _ G) as [E|(_ & _ & V)]; [|lra].
  rewrite E in F. discriminate.
Qed.

Lemma within_value x : within n dist x -> is_finite x = true /\ (0 <= B2R x <= B)%R /\ (IZR (enc x) * w = B2R x)%R.
Proof using Hfmt Hnf Hlen Hfin Hbelow HB.
  intros (i & j & Hi & Hj & ->). specialize (HB i j Hi Hj). destruct (between_ok i j Hi Hj) as ((F & G) & _). split; auto. split.
  - split; auto. destruct (good_inv prec emax _ G) as [E|(_ & _ & V)]; [|lra]. rewrite E in F. discriminate.
  - now apply encode_value.
Qed.

Lemma scale_top h m : h <= 4 * n + 1 -> (0 <= m <= 3 * INR n)%R -> ((1 + u) ^ h * (m * B) < bpow radix2 emax)%R.
Proof using Hfmt Hnf Hlen Hfin Hbelow HB Hn Htop.
  intros Hh Hm'. destruct Hfmt as (Hprec & Hemax). pose proof largest_pos as PB. apply Rle_lt_trans with (2 := Htop).
  pose proof (grow_pos prec Hprec h). pose proof (grow_mono prec Hprec h (4 * n + 1) Hh).
  apply Rmult_le_compat; [lra|nra|lra|nra].
Qed.

Lemma float_mono h v z : float_tracks h v z -> float_tracks (S h) v z.
Proof using Hfmt Hnf Hlen Hfin Hbelow HB Hn.
  intros (F & H1 & H2). destruct Hfmt as (Hprec & Hemax). pose proof largest_pos as PB. pose proof (pos_INR h) as Ph.
  pose proof (grow_pos prec Hprec (2 * h)). pose proof (grow_mono prec Hprec (2 * h) (2 * S h) ltac:(lia)).
  unfold float_tracks. rewrite S_INR. splits; auto; [|lra]. apply Rle_trans with (1 := H1). apply Rmult_le_compat; nra.
Qed.

Lemma float_add h v z x y : h < 2 * n -> float_tracks h v z -> within n dist x -> within n dist y ->
  float_tracks (S h) (Bplus mode_NE v (Bminus mode_NE x y)) (z + (enc x - enc y))%Z.
Proof using Hfmt Hnf Hlen Hfin Hbelow HB Hn Htop.
  intros Hh (Fv & H1 & H2) Wx Wy. destruct (within_value x Wx) as (Fx & Rx & Kx). destruct (within_value y Wy) as (Fy & Ry & Ky).
  destruct Hfmt as (Hprec & Hemax). pose proof largest_pos as PB. pose proof (pos_INR h) as Ph. pose proof (u_range prec Hprec) as U.
  set (g := ((1 + u) ^ (2 * h))%R) in *. assert (Gg : (1 <= g)%R) by apply (grow_pos prec Hprec).
  assert (Eg : ((1 + u) ^ (2 * S h) = (1 + u) * (1 + u) * g)%R) by (unfold g; replace (2 * S h) with (S (S (2 * h))) by lia; cbn [pow]; ring).
  pose proof (pos_INR n) as Pn.
  assert (Hm3 : (0 <= INR (S h) <= 3 * INR n)%R).
  { split; [apply pos_INR|]. replace 3%R with (INR 3) by (simpl; lra). rewrite <- mult_INR. apply le_INR. lia. }
  pose proof (scale_top (2 * S h) (INR (S h)) ltac:(lia) Hm3) as HT. rewrite Eg in HT. rewrite S_INR in *.
  set (s := (IZR z * w)%R) in *. assert (Ez : (IZR (z + (enc x - enc y)) * w = s + (B2R x - B2R y))%R).
  { rewrite plus_IZR, minus_IZR, <- Kx, <- Ky. unfold s. ring. }
  set (hb := (INR h * B)%R) in *. assert (Phb : (0 <= hb)%R) by (unfold hb; nra).
  replace ((INR h + 1) * B)%R with (hb + B)%R in * by (unfold hb; ring).
  assert (Axy : (Rabs (B2R x - B2R y) <= B)%R) by (apply Rabs_le; lra).
  pose proof (rnd_plus prec emax Hp Hprec (B2R x) (- B2R y) (generic_format_B2R _ _ _) (generic_format_opp _ _ _ (generic_format_B2R _ _ _))) as E1.
  change (B2R x + - B2R y)%R with (B2R x - B2R y)%R in E1. set (d := rnd (B2R x - B2R y)) in *.
  assert (Ed : (Rabs (d - (B2R x - B2R y)) <= u * B)%R) by (apply Rle_trans with (1 := E1); nra).
  assert (Ad : (Rabs d <= (1 + u) * B)%R).
  { replace d with ((d - (B2R x - B2R y)) + (B2R x - B2R y))%R by ring. apply Rle_trans with (1 := Rabs_triang _ _). lra. }
  assert (Q1 : (0 <= (g - 1) * (hb + B))%R) by nra.
  assert (Q2 : ((1 + u) * (1 + u) * (hb + B) <= (1 + u) * (1 + u) * g * (hb + B))%R) by nra.
  pose proof (Bminus_correct prec emax Hp Hm mode_NE x y Fx Fy) as C1. cbn [round_mode] in C1. fold d in C1.
  rewrite Rlt_bool_true in C1 by (apply Rle_lt_trans with (2 := HT); apply Rle_trans with (1 := Ad); nra).
  destruct C1 as (V1 & F1 & _).
  assert (Av : (Rabs (B2R v) <= g * hb)%R).
  { replace (B2R v) with ((B2R v - s) + s)%R by ring. apply Rle_trans with (1 := Rabs_triang _ _). lra. }
  pose proof (rnd_plus prec emax Hp Hprec (B2R v) (B2R (Bminus mode_NE x y)) (generic_format_B2R _ _ _) (generic_format_B2R _ _ _)) as E2.
  rewrite V1 in E2. set (r := rnd (B2R v + d)) in *.
  assert (A2 : (Rabs (B2R v + d) <= g * hb + (1 + u) * B)%R) by (apply Rle_trans with (1 := Rabs_triang _ _); lra).
  assert (E2a : (Rabs (r - (B2R v + d)) <= u * (g * hb + (1 + u) * B))%R).
  { apply Rle_trans with (1 := E2). apply Rmult_le_compat_l; [lra|exact A2]. }
  assert (Er : (Rabs (r - (s + (B2R x - B2R y))) <= ((1 + u) * (1 + u) * g - 1) * (hb + B))%R).
  { replace (r - (s + (B2R x - B2R y)))%R with ((r - (B2R v + d)) + ((B2R v - s) + (d - (B2R x - B2R y))))%R by ring.
    apply Rle_trans with (1 := Rabs_triang _ _). pose proof (Rabs_triang (B2R v - s) (d - (B2R x - B2R y))) as TT.
    assert (Q3 : (0 <= u * ((1 + u) * g) * hb)%R) by (apply Rmult_le_pos; auto; apply Rmult_le_pos; [lra|]; nra).
    assert (Q4 : (0 <= (1 + u) * (1 + u) * (g - 1) * B)%R) by (apply Rmult_le_pos; auto; apply Rmult_le_pos; [nra|lra]). lra. }
  assert (As : (Rabs (s + (B2R x - B2R y)) <= hb + B)%R) by (apply Rle_trans with (1 := Rabs_triang _ _); lra).
  assert (Ar : (Rabs r <= (1 + u) * (1 + u) * g * (hb + B))%R).
  { replace r with ((r - (s + (B2R x - B2R y))) + (s + (B2R x - B2R y)))%R by ring. apply Rle_trans with (1 := Rabs_triang _ _). lra. }
  pose proof (Bplus_correct prec emax Hp Hm mode_NE v (Bminus mode_NE x y) Fv F1) as C2. cbn [round_mode] in C2. rewrite V1 in C2. fold r in C2.
  rewrite Rlt_bool_true in C2 by (apply Rle_lt_trans with (2 := HT); exact Ar). destruct C2 as (V2 & F2 & _).
  unfold float_tracks. rewrite Ez, Eg, V2, S_INR. replace ((INR h + 1) * B)%R with (hb + B)%R by (unfold hb; ring). splits; auto.
Qed.

Lemma float_sign v v' z z' : float_tracks n v z -> float_tracks (2 * n) v' z' -> Bltb (Bplus mode_NE v v') zero = true -> float_small (z + z')%Z.
Proof using Hfmt Hnf Hlen Hfin Hbelow HB Hn Htop.
  intros (F1 & E1 & A1) (F2 & E2 & A2) H. destruct Hfmt as (Hprec & Hemax). pose proof largest_pos as PB. pose proof (u_range prec Hprec) as U.
  pose proof (pos_INR n) as Pn. replace (2 * (2 * n)) with (4 * n) in E2 by lia. rewrite mult_INR in E2, A2. replace (INR 2) with 2%R in E2, A2 by (simpl; lra).
  unfold float_small. rewrite plus_IZR, Rmult_plus_distr_r. set (s1 := (IZR z * w)%R) in *. set (s2 := (IZR z' * w)%R) in *.
  pose proof (grow_pos prec Hprec (2 * n)) as G1. pose proof (grow_mono prec Hprec (2 * n) (4 * n) ltac:(lia)) as G2.
  pose proof (scale_top (4 * n + 1) (3 * INR n) ltac:(lia) ltac:(lra)) as HT. rewrite pow_add in HT. cbn [pow] in HT. rewrite Rmult_1_r in HT.
  set (g1 := ((1 + u) ^ (2 * n))%R) in *. set (g := ((1 + u) ^ (4 * n))%R) in *. set (nb := (INR n * B)%R) in *.
  assert (Pnb : (0 <= nb)%R) by (unfold nb; nra).
  replace (2 * INR n * B)%R with (2 * nb)%R in * by (unfold nb; ring). replace (3 * INR n * B)%R with (3 * nb)%R in * by (unfold nb; ring).
  assert (Q : ((g1 - 1) * nb <= (g - 1) * nb)%R) by (apply Rmult_le_compat_r; lra).
  assert (E : (Rabs (B2R v + B2R v' - (s1 + s2)) <= (g - 1) * (3 * nb))%R).
  { replace (B2R v + B2R v' - (s1 + s2))%R with ((B2R v - s1) + (B2R v' - s2))%R by ring. apply Rle_trans with (1 := Rabs_triang _ _). lra. }
  assert (A : (Rabs (B2R v + B2R v') <= g * (3 * nb))%R).
  { replace (B2R v + B2R v')%R with ((B2R v + B2R v' - (s1 + s2)) + (s1 + s2))%R by ring. apply Rle_trans with (1 := Rabs_triang _ _).
    pose proof (Rabs_triang s1 s2). lra. }
  assert (S : (B2R v + B2R v' < 0)%R).
  { pose proof (Bplus_correct prec emax Hp Hm mode_NE v v' F1 F2) as C. cbn [round_mode] in C.
    pose proof (rnd_plus prec emax Hp Hprec (B2R v) (B2R v') (generic_format_B2R _ _ _) (generic_format_B2R _ _ _)) as R0.
    rewrite Rlt_bool_true in C.
    - destruct C as (V & F & _). rewrite Bltb_correct in H by auto. rewrite V in H. cbn [B2R] in H.
      revert H. case Rlt_bool_spec; intros H; [|discriminate]. intros _. apply Rnot_le_lt. intros Hge.
      apply (Rlt_irrefl 0). apply Rle_lt_trans with (2 := H). apply round_ge_generic; auto; try apply generic_format_0; typeclasses eauto.
    - apply Rle_lt_trans with (2 := HT). change (Rabs (rnd (B2R v + B2R v')) <= g * (1 + u) * (3 * nb))%R.
      replace (rnd (B2R v + B2R v')) with ((rnd (B2R v + B2R v') - (B2R v + B2R v')) + (B2R v + B2R v'))%R by ring.
      apply Rle_trans with (1 := Rabs_triang _ _). apply Rle_trans with ((1 + u) * Rabs (B2R v + B2R v'))%R; [lra|].
      apply Rle_trans with ((1 + u) * (g * (3 * nb)))%R; [apply Rmult_le_compat_l; lra|lra]. }
  apply Rabs_le_inv in E. lra.
Qed.
Lemma total_least M near : M <> [] -> Forall (fun m => m < n) M -> (forall o, o < n -> near o < length M) ->
  (IZR (deviations (fun i j => enc (dist i j)) n M) * w <= exact_total dist n M near)%R.
Proof using Hfmt Hnf Hlen Hfin Hbelow HB Hn Htop.
  intros HM HF Hnear. rewrite Forall_forall in HF. unfold deviations, exact_total.
  assert (G : forall l, (forall o, In o l -> o < n) ->
    (IZR (fold_right Z.add 0%Z (map (deviation (fun i j => enc (dist i j)) M) l)) * w <= fold_right Rplus 0 (map (fun o => B2R (dist (nth (near o) M 0%nat) o)) l))%R).
  { induction l as [|o l IH]; intros Hl; cbn [map fold_right]; [lra|]. rewrite plus_IZR, Rmult_plus_distr_r.
    specialize (IH (fun o' H => Hl o' (or_intror H))). assert (Ho : o < n) by (apply Hl; now left).
    assert (Hin : In (nth (near o) M 0) M) by (apply nth_In; auto).
    destruct (between_ok (nth (near o) M 0) o (HF _ Hin) Ho) as ((F & _) & _). rewrite <- (encode_value prec emax _ F).
    assert (Hd : (deviation (fun i j => enc (dist i j)) M o <= enc (dist (nth (near o) M 0%nat) o))%Z).
    { destruct (deviation_min (fun i j => enc (dist i j)) M o HM) as (_ & H). now apply H. }
    apply IZR_le in Hd. pose proof (bpow_gt_0 radix2 (3 - emax - prec)). apply Rplus_le_compat; [apply Rmult_le_compat_r; lra|exact IH]. }
  apply G. intros o Ho. apply in_seq in Ho. lia.
Qed.

Lemma total_nearest k p : desc k p ->
  (exact_total dist n (ap_medoids p) (fun o => nth o (ap_nearest p) 0%nat) = IZR (deviations (fun i j => enc (dist i j)) n (ap_medoids p)) * w)%R.
Proof using Hfmt Hnf Hlen Hfin Hbelow HB Hn Htop.
  intros Hd. destruct Hd as [[Hk S1 S2 (S3 & S4) _ S5 _ _] _ HO _ _]. rewrite Forall_forall in S2. unfold deviations, exact_total.
  assert (G : forall l, (forall o, In o l -> o < n) ->
    (fold_right Rplus 0 (map (fun o => B2R (dist (nth (nth o (ap_nearest p) 0%nat) (ap_medoids p) 0%nat) o)) l) =
     IZR (fold_right Z.add 0%Z (map (deviation (fun i j => enc (dist i j)) (ap_medoids p)) l)) * w)%R).
  { induction l as [|o l IH]; intros Hl; cbn [map fold_right]; [lra|]. rewrite plus_IZR, Rmult_plus_distr_r.
    rewrite (IH (fun o' H => Hl o' (or_intror H))). f_equal. assert (Ho : o < n) by (apply Hl; now left).
    destruct (HO o Ho) as (_ & _ & H1). rewrite (deviation_one (fun i j => enc (dist i j)) _ _ _ _ _ _ H1).
    destruct H1 as [O1 _ _ O4 _ _ _]. rewrite O4. symmetry. apply encode_value. apply between_ok; auto. apply S2, nth_In; auto. }
  apply G. intros o Ho. apply in_seq in Ho. lia.
Qed.

Notation tracked := (tracked zero (Bplus mode_NE) (Bminus mode_NE) n dist enc finite_distance gd).
Notation most := (((1 + u) ^ (4 * n) - 1) * (3 * INR n * B))%R.

Lemma step_grows src k p : provides src n dist -> tracked k p ->
  exists q, apam_step zero (Bplus mode_NE) (Bminus mode_NE) Bltb src p = Ok q /\ tracked k q /\
    (IZR (deviations (fun i j => enc (dist i j)) n (ap_medoids q)) * w <=
     IZR (deviations (fun i j => enc (dist i j)) n (ap_medoids p)) * w + INR n * most)%R.
Proof using Hfmt Hnf Hlen Hfin Hbelow HB Hn Htop.
  intros Hsrc Ht. unfold apam_step. rewrite (proj1 Hsrc). destruct Hfmt as (Hprec & Hemax).
  assert (A1 : forall i j, i < n -> j < n -> finite_distance (dist i j)) by (intros; now apply between_ok).
  assert (A2 : finite_distance zero) by (split; reflexivity).
  assert (A3 : forall o, o < n -> dist o o = zero) by (intros; apply self_distance; auto; now apply row_finite).
  assert (A4 : forall i j, i < n -> j < n -> (0 <= enc (dist i j))%Z) by (intros; apply key_pos; auto).
  assert (A5 : forall x y, gd x -> gd y -> gd (Bplus mode_NE x y)) by (intros; now apply plus_ok).
  assert (A6 : forall x : number, finite_distance x -> (0 <= enc x)%Z -> gd x) by (intros x (_ & G) _; auto).
  assert (T0 : float_tracks 0 zero 0).
  { unfold float_tracks. cbn [B2R INR Nat.mul pow]. rewrite !Rmult_0_l, Rminus_0_r, Rabs_R0. splits; auto; lra. }
  assert (S0 : float_small 0).
  { unfold float_small. rewrite Rmult_0_l. pose proof (grow_pos prec Hprec (4 * n)). pose proof largest_pos. pose proof (pos_INR n).
    apply Rmult_le_pos; [lra|]. nra. }
  destruct (for_loop_inv (fun i q => tracked k q /\ (IZR (deviations (fun i j => enc (dist i j)) n (ap_medoids q)) * w <=
     IZR (deviations (fun i j => enc (dist i j)) n (ap_medoids p)) * w + INR i * most)%R)
    (any_candidate zero (Bplus mode_NE) (Bminus mode_NE) Bltb src) n 0 p) as (q & E & H).
  - split; auto. cbn [INR]. lra.
  - intros c q Hc (Hq & Hg).
    destruct (candidate_grows zero (Bplus mode_NE) (Bminus mode_NE) Bltb src n dist Hsrc enc finite_distance gd key_lt key_inj A1 eq_refl
      float_tracks float_small T0 float_mono float_add float_sign S0) with (k := k) (p := q) (c := c) as (q' & Eq & Hq' & Hs); auto; try lia.
    { intros k' p' c' Hd Hc'. apply (candidate_order zero (Bplus mode_NE) (Bminus mode_NE) Bltb src n dist Hsrc enc finite_distance gd key_lt key_inj
        A1 A2 eq_refl A3 A4 A5 minus_good A6 not_negative plus_zero); auto. }
    exists q'. splits; auto. unfold float_small in Hs. rewrite minus_IZR in Hs. rewrite S_INR. lra.
  - exists q. cbn [Nat.add] in H. destruct H. splits; auto.
Qed.

(** The total deviation can grow, but by no more than roundings: each of the n candidates of a step adds at most the roundings
    of 3n differences of distances of at most B. *)
Theorem c114_growth :
  forall medoids t p, Forall (fun m => m < n) medoids -> 2 <= length medoids -> clearly_nearest dist n medoids ->
  float_pam prec emax Hp Hm add t samples nf medoids = Ok p ->
  exists near, (forall o, o < n -> near o < length (ap_medoids p)) /\
    forall first, (forall o, o < n -> first o < length medoids) ->
    (exact_total dist n (ap_medoids p) near <=
     exact_total dist n medoids first + INR (t * n) * (((1 + u) ^ (4 * n) - 1) * (3 * INR n * B)))%R.
Proof using Hfmt Hnf Hlen Hfin Hbelow HB Hn Htop.
  intros medoids t p HM Hk Hc. unfold float_pam. destruct source_ok as (src & -> & Hsrc). cbn [bind].
  destruct (float_laws src Hsrc) as (_ & L2). destruct (L2 medoids HM Hk Hc) as (p0 & E0 & Em & Hd0). rewrite E0. cbn [bind].
  assert (Ht0 : tracked (length medoids) p0).
  { split; auto. revert E0. unfold make_apam.
    destruct (any_indices _ _ _ _ _ 1) as [I1| | |]; cbn [bind]; try discriminate.
    destruct (any_indices _ _ _ _ _ 2) as [I2| | |]; cbn [bind]; try discriminate.
    destruct (any_distances _ _ _ _ _ 1) as [D1| | |]; cbn [bind]; try discriminate.
    destruct (any_distances _ _ _ _ _ 2) as [D2| | |]; cbn [bind]; try discriminate.
    destruct (any_losses _ _ _ I1 D1 D2 _) as [L| | |] eqn:EL; cbn [bind]; try discriminate.
    intros [= <-]. exact EL. }
  match goal with |- context [for_loop t 0 ?body p0] =>
    destruct (for_loop_inv (fun i q => tracked (length medoids) q /\ (IZR (deviations (fun i j => enc (dist i j)) n (ap_medoids q)) * w <=
      IZR (deviations (fun i j => enc (dist i j)) n medoids) * w + INR (i * n) * most)%R) body t 0 p0) as (q & E & Hq & Hg) end.
  - split; auto. rewrite Em. replace (0 * n) with 0 by lia. cbn [INR]. lra.
  - intros i q _ (Hq & Hg). destruct (step_grows src _ q Hsrc Hq) as (q' & Eq & Hq' & Hg'). exists q'. splits; auto.
    replace (S i * n) with (n + i * n) by lia. rewrite plus_INR. lra.
  - rewrite E. intros [= <-]. cbn [Nat.add] in Hg. destruct Hq as (Hd & _). destruct (desc_means _ q Hd) as (D1 & _ & _ & _ & D5 & _).
    exists (fun o => nth o (ap_nearest q) 0). split; [intros o Ho; now apply D5|]. intros first Hf. rewrite (total_nearest _ q Hd).
    pose proof (total_least medoids first ltac:(intros ->; cbn in Hk; lia) HM Hf). lra.
Qed.
End Grow.

(** And fit returns the medoids after some number of steps: different samples. *)
Theorem c114_fit_distinct :
  forall o n_medoids medoids draw, Forall (fun m => m < n) medoids -> 2 <= length medoids -> clearly_nearest dist n medoids ->
  exists best t p, float_medoids_fit prec emax Hp Hm add o n_medoids medoids draw samples nf = Ok best /\
    t <= mo_max_iter o /\ float_pam prec emax Hp Hm add t samples nf medoids = Ok p /\ best = ap_medoids p /\
    length best = length medoids /\ Forall (fun m => m < n) best /\ NoDup best.
Proof using Hfmt Hnf Hlen Hfin Hbelow.
  intros o n_medoids medoids draw HM Hk Hc. destruct (steps_desc medoids 0 HM Hk Hc) as (p0 & E0 & Hd0).
  assert (Es : forall t, float_pam prec emax Hp Hm add (S t) samples nf medoids =
    (src <- float_source prec emax Hp Hm add samples nf ;; p <- float_pam prec emax Hp Hm add t samples nf medoids ;;
     apam_step zero (Bplus mode_NE) (Bminus mode_NE) Bltb src p)).
  { intros t. unfold float_pam. destruct (float_source prec emax Hp Hm add samples nf); cbn [bind]; auto.
    destruct (make_apam _ _ _ _ _ _ _ _); cbn [bind]; auto. apply loop_snoc. }
  unfold float_medoids_fit. destruct source_ok as (src & E & Hsrc). rewrite E in *. cbn [bind] in *.
  destruct (float_laws src Hsrc) as (L1 & L2).
  destruct (fit_keeps zero (Bplus mode_NE) (Bminus mode_NE) Bltb (equality prec emax Hp Hm) Bmax_float src
    (fun t p => float_pam prec emax Hp Hm add t samples nf medoids = Ok p /\ desc (length medoids) p)) with (o := o) (k := n_medoids)
    (medoids := medoids) (draw := draw) (starts := [medoids]) as (t & p & Ef & Ht & Ep & Hd).
  - intros t p (Ep & Hd). destruct (L1 _ p Hd) as (q & Eq & Hq). exists q. splits; auto. rewrite Es, Ep. exact Eq.
  - apply starts_given. intros ->. cbn in Hk. lia.
  - discriminate.
  - intros M [<-|[]]. destruct (L2 medoids HM Hk Hc) as (p & Ep & Em & Hd). exists p. splits; auto. unfold float_pam. rewrite E. cbn [bind].
    rewrite Ep. reflexivity.
  - exists (ap_medoids p), t, p. destruct (desc_means _ p Hd) as (D1 & D2 & D3 & _). splits; auto.
Qed.
End Samples.
End Formats.

(** ** The exact integers are one of these arithmetics *)
Definition as_pam (p : @apam Z) : pam :=
  mk_pam (ap_medoids p) (ap_nearest p) (ap_second p) (ap_distances p) (ap_second_distances p) (ap_losses p) (ap_loss p).

Section Integers.
Context (wrap : Z -> Z) (top : Z) (src : source Z).
Notation plus := (fun x y : Z => wrap (x + y)%Z).

Lemma candidate_as c p : try_candidate wrap src c (as_pam p) = res_map as_pam (any_candidate 0%Z plus Z.sub Z.ltb src c p).
Proof.
  unfold try_candidate, any_candidate. destruct p as [M N S DN DS L T]. unfold as_pam. cbn [p_nearest ap_nearest p_medoids ap_medoids ap_second ap_distances ap_second_distances ap_losses ap_loss].
  destruct (rd N c) as [i| | |]; cbn [bind res_map]; auto. destruct (negb (c =? i)); cbn [res_map]; auto.
  change (find_best_swap wrap src (mk_pam M N S DN DS L T) c) with (any_best_swap 0%Z plus Z.sub Z.ltb src (mk_apam M N S DN DS L T) c).
  destruct (any_best_swap _ _ _ _ _ _ _) as [[d b]| | |]; cbn [bind res_map]; auto. destruct (d <? 0)%Z; cbn [res_map]; auto.
  destruct (wr M b c) as [M'| | |]; cbn [bind res_map]; auto.
  change (swap_buffers wrap src M' (mk_pam M N S DN DS L T) c b) with (any_swap_buffers 0%Z plus Z.ltb src M' (mk_apam M N S DN DS L T) c b).
  destruct (any_swap_buffers _ _ _ _ _ _ _ _) as [[[[[N' S'] DN'] DS'] T']| | |]; cbn [bind res_map]; auto.
  change (compute_losses wrap N' DN' DS' (length M')) with (any_losses 0%Z plus Z.sub N' DN' DS' (length M')).
  destruct (any_losses _ _ _ _ _ _ _); cbn [bind res_map]; auto.
Qed.

Lemma make_as M : make_pam wrap top src M = res_map as_pam (make_apam 0%Z plus Z.sub Z.ltb Z.eqb top src M).
Proof.
  unfold make_pam, make_apam.
  change (nth_indices top src M) with (any_indices Z.ltb Z.eqb top src M).
  change (nth_distances top src M) with (any_distances Z.ltb Z.eqb top src M).
  destruct (any_indices Z.ltb Z.eqb top src M 1) as [N| | |]; cbn [bind res_map]; auto.
  destruct (any_indices Z.ltb Z.eqb top src M 2) as [S| | |]; cbn [bind res_map]; auto.
  destruct (any_distances Z.ltb Z.eqb top src M 1) as [DN| | |]; cbn [bind res_map]; auto.
  destruct (any_distances Z.ltb Z.eqb top src M 2) as [DS| | |]; cbn [bind res_map]; auto.
  change (compute_losses wrap N DN DS (length M)) with (any_losses 0%Z plus Z.sub N DN DS (length M)).
  destruct (any_losses _ _ _ _ _ _ _); cbn [bind res_map]; auto.
Qed.

Lemma loop_as o : forall iterations patience previous candidate p,
  medoids_loop wrap src o iterations patience previous candidate (as_pam p) =
  res_map (fun '(M, q) => (M, as_pam q)) (any_medoids_loop 0%Z plus Z.sub Z.ltb src o iterations patience previous candidate p).
Proof.
  induction iterations; intros patience previous candidate p; cbn [medoids_loop any_medoids_loop res_map]; auto.
  assert (Es : pam_step wrap src (as_pam p) = res_map as_pam (apam_step 0%Z plus Z.sub Z.ltb src p)).
  { apply for_loop_map. intros c q _. apply candidate_as. }
  rewrite Es. destruct (apam_step _ _ _ _ _ _) as [q| | |]; cbn [bind res_map]; auto.
  change (p_medoids (as_pam q)) with (ap_medoids q). cbn zeta.
  destruct (mo_early_stopping o && same_indices (ap_medoids q) previous); [destruct (patience =? mo_patience o)|]; cbn [res_map]; auto.
Qed.

Lemma start_as o M : medoids_candidate wrap top src o M = any_medoids_candidate 0%Z plus Z.sub Z.ltb Z.eqb top src o M.
Proof.
  unfold medoids_candidate, any_medoids_candidate. rewrite make_as. destruct (make_apam _ _ _ _ _ _ _ _) as [p| | |]; cbn [bind res_map]; auto.
  rewrite loop_as. destruct (any_medoids_loop _ _ _ _ _ _ _ _ _ _ _) as [[M' q]| | |]; cbn [bind res_map]; auto.
Qed.
End Integers.

(** On integers, signed or unsigned, this is the fit of the other properties on k-medoids. *)
Theorem c114_integers_included :
  forall wrap top src o n_medoids medoids draw,
  medoids_fit wrap top src o n_medoids medoids draw =
  any_medoids_fit 0%Z (fun x y => wrap (x + y)%Z) Z.sub Z.ltb Z.eqb top src o n_medoids medoids draw.
Proof.
  intros wrap top src o n_medoids medoids draw. unfold medoids_fit, any_medoids_fit.
  change (medoids_candidates src o n_medoids medoids draw) with (any_starts src o n_medoids medoids draw).
  destruct (any_starts src o n_medoids medoids draw) as [starts| | |]; cbn [bind]; auto.
  assert (E : forall l acc, for_each l (fun candidate results => r <- medoids_candidate wrap top src o candidate ;; Ok (results ++ [r])) acc =
    for_each l (fun candidate results => r <- any_medoids_candidate 0%Z (fun x y => wrap (x + y)%Z) Z.sub Z.ltb Z.eqb top src o candidate ;; Ok (results ++ [r])) acc).
  { induction l; intros acc; cbn [for_each]; auto. rewrite start_as. destruct (any_medoids_candidate _ _ _ _ _ _ _ _ _); cbn [bind]; auto. }
  rewrite E. reflexivity.
Qed.

(** ** Cases *)
Definition single_dist (v : list (binary_float 24 128)) (i j : nat) : binary_float 24 128 :=
  euclidean 24 128 prec_float emax_float libstdcxx (row v 1 i) (row v 1 j).
Notation single_max := (@Bmax_float 24 128 prec_float emax_float).
Definition pam_shown (r : res (@apam (binary_float 24 128))) : option (list nat * list nat * SpecFloat.spec_float) :=
  match r with Ok p => Some (ap_medoids p, ap_nearest p, B2SF (ap_loss p)) | _ => None end.
Notation single_pam := (float_pam 24 128 prec_float emax_float libstdcxx).
Notation single_fit := (float_medoids_fit 24 128 prec_float emax_float libstdcxx).

Lemma clear_by_keys (x y : binary_float 24 128) : is_finite x && is_finite y && (encode 24 128 x + 2 ^ 127 <=? encode 24 128 y)%Z = true ->
  (B2R x + bpow radix2 (2 - 24) <= B2R y)%R.
Proof.
  rewrite !andb_true_iff, Z.leb_le. intros ((Hx & Hy) & H). rewrite <- (encode_value 24 128 x Hx), <- (encode_value 24 128 y Hy).
  replace (bpow radix2 (2 - 24)) with (IZR (2 ^ 127) * bpow radix2 (3 - 128 - 24))%R
    by (change (2 ^ 127)%Z with (Zpower radix2 127); rewrite IZR_Zpower, <- bpow_plus by lia; reflexivity).
  rewrite <- Rmult_plus_distr_r, <- plus_IZR. apply Rmult_le_compat_r; [apply bpow_ge_0|]. now apply IZR_le.
Qed.

Definition clear_check (dist : nat -> nat -> binary_float 24 128) (n : nat) (M : list nat) : bool :=
  forallb (fun o => existsb (fun j => forallb (fun j' => (j' =? j) ||
    let x := dist (nth j M 0) o in let y := dist (nth j' M 0) o in
    is_finite x && is_finite y && (encode 24 128 x + 2 ^ 127 <=? encode 24 128 y)%Z) (seq 0 (length M))) (seq 0 (length M))) (seq 0 n).
Lemma clear_check_ok dist n M : clear_check dist n M = true -> clearly_nearest dist n M.
Proof.
  intros H o Ho. unfold clear_check in H. rewrite forallb_forall in H. specialize (H o ltac:(apply in_seq; lia)).
  apply existsb_exists in H as (j & Hj & H). apply in_seq in Hj. exists j. split; [lia|]. intros j' Hj' Hne.
  rewrite forallb_forall in H. specialize (H j' ltac:(apply in_seq; lia)). apply orb_true_iff in H as [H|H]; [apply Nat.eqb_eq in H; lia|].
  now apply clear_by_keys.
Qed.
Definition below_check (dist : nat -> nat -> binary_float 24 128) (n : nat) : bool :=
  forallb (fun i => forallb (fun j => Bltb (dist i j) single_max) (seq 0 n)) (seq 0 n).
Lemma below_check_ok dist n : below_check dist n = true -> forall i j, i < n -> j < n -> Bltb (dist i j) single_max = true.
Proof.
  intros H i j Hi Hj. unfold below_check in H. rewrite forallb_forall in H. specialize (H i ltac:(apply in_seq; lia)).
  rewrite forallb_forall in H. apply H, in_seq. lia.
Qed.

Lemma singles_finite (l : list (binary_float 24 128)) : forallb is_finite l = true -> finite_numbers l.
Proof. intros H. apply Forall_forall. now apply forallb_forall. Qed.

Lemma pam_from r M near loss : pam_shown r = Some (M, near, loss) -> exists p, r = Ok p /\ ap_medoids p = M /\ B2SF (ap_loss p) = loss.
Proof. destruct r as [p| | |]; try discriminate. intros [= <- _ <-]. eauto. Qed.

(** Five numbers, and the same with a NaN and an infinity. *)
Definition five_values : list (binary_float 24 128) := [single 1 0; single 2 0; single 10 0; single 12 0; single 13 0].
Definition broken_values : list (binary_float 24 128) := five_values ++ [B754_nan; B754_infinity true].

(** [<] that always holds, [+] and [-] that forget their arguments. *)
Example c114_valid_in_any_arithmetic_case :
  let src := mk_source 4 (fun i j => if (i <? 4) && (j <? 4) then Ok tt else UB) in
  provides src 4 (fun _ _ => tt) /\ Forall (fun m => m < 4) [0; 2] /\ 2 <= length [0; 2] <= 4 /\
  any_medoids_fit tt (fun _ _ => tt) (fun _ _ => tt) (fun _ _ => true) (fun _ _ => false) tt src (mk_medoids_options 2 true 0 1) 2 [0; 2] (fun _ _ a _ => a)
    = Ok [0; 3].
Proof.
  cbn zeta. split.
  { split; [reflexivity|]. intros i j Hi Hj. cbn [dist_at]. apply Nat.ltb_lt in Hi, Hj. now rewrite Hi, Hj. }
  split; [repeat constructor; lia|]. split; [cbn; lia|]. vm_compute. reflexivity.
Qed.

Example c114_fit_valid_case :
  length broken_values = 7 * 1 /\ in_range (fun _ a _ => a) /\
  single_fit default_medoids_options 2 [] (fun _ _ a _ => a) broken_values 1 = Ok [2; 1] /\
  float_medoids_predict 24 128 prec_float emax_float libstdcxx broken_values 1 [2; 1] = Ok [1; 1; 0; 0; 0; 0; 0].
Proof.
  split; [reflexivity|]. split; [intros t a b; lia|]. split; vm_compute; reflexivity.
Qed.

Example c114_steps_case :
  length five_values = 5 * 1 /\ finite_numbers five_values /\
  (forall i j, i < 5 -> j < 5 -> Bltb (single_dist five_values i j) single_max = true) /\
  Forall (fun m => m < 5) [0; 1] /\ clearly_nearest (single_dist five_values) 5 [0; 1] /\
  pam_shown (single_pam 0 five_values 1 [0; 1]) = Some ([0; 1], [0; 1; 1; 1; 1], B2SF (single 29 0)) /\
  pam_shown (single_pam 1 five_values 1 [0; 1]) = Some ([3; 1], [1; 1; 0; 0; 0], B2SF (single 4 0)).
Proof.
  split; [reflexivity|]. split; [apply singles_finite; vm_compute; reflexivity|]. split; [apply below_check_ok; vm_compute; reflexivity|].
  split; [repeat constructor; lia|]. split; [apply clear_check_ok; vm_compute; reflexivity|]. split; vm_compute; reflexivity.
Qed.

Example c114_reported_deviation_case :
  exists p, single_pam 1 five_values 1 [0; 1] = Ok p /\ is_finite (ap_loss p) = true /\ B2R (ap_loss p) = 4%R /\
    exact_total (single_dist five_values) 5 (ap_medoids p) (fun o => nth o [1; 1; 0; 0; 0] 0) = 4%R.
Proof.
  assert (E1 : pam_shown (single_pam 1 five_values 1 [0; 1]) = Some ([3; 1], [1; 1; 0; 0; 0], B2SF (single 4 0))) by (vm_compute; reflexivity).
  destruct (pam_from _ _ _ _ E1) as (p & Ep & M1 & L1). exists p. split; [exact Ep|]. clear E1 Ep.
  rewrite <- is_finite_SF_B2SF, <- (SF2R_B2SF 24 128 (ap_loss p)), L1, M1. split; [vm_compute; reflexivity|]. split.
  - rewrite SF2R_B2SF. values_in. lra.
  - unfold exact_total. cbn [seq map nth fold_right]. values_in. lra.
Qed.

Lemma most_check_ok (dist : nat -> nat -> binary_float 24 128) n (b : binary_float 24 128) :
  is_finite b && forallb (fun i => forallb (fun j => is_finite (dist i j) && (encode 24 128 (dist i j) <=? encode 24 128 b)%Z) (seq 0 n)) (seq 0 n) = true ->
  forall i j, i < n -> j < n -> (B2R (dist i j) <= B2R b)%R.
Proof.
  rewrite andb_true_iff. intros (Fb & H) i j Hi Hj. rewrite forallb_forall in H. specialize (H i ltac:(apply in_seq; lia)).
  rewrite forallb_forall in H. specialize (H j ltac:(apply in_seq; lia)). rewrite andb_true_iff, Z.leb_le in H. destruct H as (F & H).
  rewrite <- (encode_value 24 128 _ F), <- (encode_value 24 128 b Fb). apply Rmult_le_compat_r; [apply bpow_ge_0|]. now apply IZR_le.
Qed.

(** The distances are at most 12; the totals are 29 before and 4 after the first step. *)
Example c114_growth_case :
  (forall i j, i < 5 -> j < 5 -> (B2R (single_dist five_values i j) <= B2R (single 12 0))%R) /\
  ((1 + roundoff 24) ^ (4 * 5 + 1) * (3 * INR 5 * B2R (single 12 0)) < bpow radix2 128)%R /\
  exact_total (single_dist five_values) 5 [0; 1] (fun o => nth o [0; 1; 1; 1; 1] 0) = 29%R.
Proof.
  split; [apply most_check_ok; vm_compute; reflexivity|]. split.
  - assert (E : B2R (single 12 0) = 12%R) by (values_in; lra). rewrite E. replace (INR 5) with 5%R by (simpl; lra).
    assert (U : (0 < roundoff 24 <= 1)%R) by (unfold roundoff; simpl; lra).
    apply Rle_lt_trans with (2 ^ 21 * 180)%R.
    + replace (3 * 5 * 12)%R with 180%R by lra. apply Rmult_le_compat_r; [lra|]. apply pow_incr. lra.
    + rewrite <- (IZR_Zpower radix2 128) by lia. rewrite pow_IZR, <- mult_IZR. apply IZR_lt. vm_compute. reflexivity.
  - unfold exact_total. cbn [seq map nth fold_right]. values_in. lra.
Qed.

Example c114_fit_distinct_case :
  single_fit default_medoids_options 2 [0; 1] (fun _ _ a _ => a) five_values 1 = Ok [3; 1] /\
  single_fit (mk_medoids_options 0 true 0 1) 2 [0; 1] (fun _ _ a _ => a) five_values 1 = Ok [0; 1].
Proof. split; vm_compute; reflexivity. Qed.

Example c114_integers_included_case :
  let src := mk_source 5 (fun i j => Ok (Z.abs (nth i [1; 2; 10; 12; 13] 0 - nth j [1; 2; 10; 12; 13] 0)%Z)) in
  medoids_fit signed_wrap 1000 src default_medoids_options 2 [0; 1] (fun _ _ a _ => a) = Ok [3; 1].
Proof. vm_compute. reflexivity. Qed.

(** ** What does not hold *)
(** One would expect the total deviation not to grow. It can, even from a clear start: here from 1 to 3/2. The swap that is made
    costs 1/2, but the sums that decide on it have terms of the size of 2^23, and round that cost to less than 0. *)
Definition far_values : list (binary_float 24 128) := [single 2 0; single 8388610 0; single 3 (-1); single 1 0].
Theorem c114_improves_refuted :
  exists (samples : list (binary_float 24 128)) medoids best p q, let n := length samples in
    finite_numbers samples /\ (forall i j, i < n -> j < n -> Bltb (single_dist samples i j) single_max = true) /\
    Forall (fun m => m < n) medoids /\ clearly_nearest (single_dist samples) n medoids /\
    (forall draw, single_fit default_medoids_options 2 medoids draw samples 1 = Ok best) /\
    single_pam 0 samples 1 medoids = Ok p /\ single_pam 1 samples 1 medoids = Ok q /\ ap_medoids q = best /\
    B2SF (ap_loss p) = B2SF (single 1 0) /\ B2SF (ap_loss q) = B2SF (single 3 (-1)).
Proof.
  exists far_values, [2; 1], [3; 1].
  assert (E0 : pam_shown (single_pam 0 far_values 1 [2; 1]) = Some ([2; 1], [0; 1; 0; 0], B2SF (single 1 0))) by (vm_compute; reflexivity).
  assert (E1 : pam_shown (single_pam 1 far_values 1 [2; 1]) = Some ([3; 1], [0; 1; 0; 0], B2SF (single 3 (-1)))) by (vm_compute; reflexivity).
  destruct (pam_from _ _ _ _ E0) as (p & Ep & _ & L0). destruct (pam_from _ _ _ _ E1) as (q & Eq & M1 & L1). clear E0 E1.
  exists p, q. cbn zeta.
  split; [apply singles_finite; vm_compute; reflexivity|]. split; [apply below_check_ok; vm_compute; reflexivity|].
  split; [repeat constructor; cbn; lia|]. split; [apply clear_check_ok; vm_compute; reflexivity|].
  split; [intros draw; vm_compute; reflexivity|]. exact (conj Ep (conj Eq (conj M1 (conj L0 L1)))).
Qed.

(** Nor are the medoids different samples when a sample of the start is as near to two medoids: the samples 1, 2, 0 and 3 with
    medoids at 1 and 3 end with 3 twice, and a total of 6 instead of 2. *)
Definition tied_values : list (binary_float 24 128) := [single 1 0; single 2 0; single 0 0; single 3 0].
Theorem c114_distinct_refuted :
  exists (samples : list (binary_float 24 128)) medoids best m p q, let n := length samples in
    finite_numbers samples /\ NoDup (map B2SF samples) /\ (forall i j, i < n -> j < n -> Bltb (single_dist samples i j) single_max = true) /\
    Forall (fun m => m < n) medoids /\ NoDup medoids /\
    (forall draw, single_fit default_medoids_options 2 medoids draw samples 1 = Ok best) /\ best = [m; m] /\
    single_pam 0 samples 1 medoids = Ok p /\ single_pam 1 samples 1 medoids = Ok q /\ ap_medoids q = best /\
    B2SF (ap_loss p) = B2SF (single 2 0) /\ B2SF (ap_loss q) = B2SF (single 6 0).
Proof.
  exists tied_values, [0; 3], [3; 3], 3.
  assert (E0 : pam_shown (single_pam 0 tied_values 1 [0; 3]) = Some ([0; 3], [0; 0; 0; 1], B2SF (single 2 0))) by (vm_compute; reflexivity).
  assert (E1 : pam_shown (single_pam 1 tied_values 1 [0; 3]) = Some ([3; 3], [1; 0; 1; 0], B2SF (single 6 0))) by (vm_compute; reflexivity).
  destruct (pam_from _ _ _ _ E0) as (p & Ep & _ & L0). destruct (pam_from _ _ _ _ E1) as (q & Eq & M1 & L1). clear E0 E1.
  exists p, q. cbn zeta.
  split; [apply singles_finite; vm_compute; reflexivity|].
  split. { vm_compute. repeat constructor; cbn; intuition discriminate. }
  split; [apply below_check_ok; vm_compute; reflexivity|].
  split; [repeat constructor; cbn; lia|]. split; [repeat constructor; cbn; intuition discriminate|].
  split; [intros draw; vm_compute; reflexivity|]. split; [reflexivity|]. exact (conj Ep (conj Eq (conj M1 (conj L0 L1)))).
Qed.

Print Assumptions c114_valid_in_any_arithmetic.
Print Assumptions c114_fit_valid.
Print Assumptions c114_steps.
Print Assumptions c114_reported_deviation.
Print Assumptions c114_growth.
Print Assumptions c114_fit_distinct.
Print Assumptions c114_integers_included.
Print Assumptions c114_improves_refuted.
Print Assumptions c114_distinct_refuted.
