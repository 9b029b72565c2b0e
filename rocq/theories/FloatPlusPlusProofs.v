(** Lemmas on k-means++ in floating point. *)
From Coq Require Import Reals List Arith ZArith QArith Bool Lia Lra Psatz.
From Flocq Require Import Core BinarySingleNaN.
From Verif Require Import Base BufferSpec SearchModel MatrixModel KMeansModel KMeansSpec KMeansProofs RandomModel RandomSpec RandomProofs PlusPlusProofs
  FloatModel FloatSpec FloatProofs AccuracySpec AccuracyProofs FloatSilhouetteModel FloatSilhouetteProofs FloatKMeansModel FloatKMeansSpec FloatKMeansProofs FloatKMeansProps
  FloatAliasModel FloatAliasSpec FloatAliasProofs FloatAliasProps FloatPlusPlusModel.
Import ListNotations.
Local Open Scope nat_scope.

(** ** The loops, whatever is chosen *)
Section Chains.
Context {F : Type} (samples : list F) (nf n : nat) (Hnf : nf <> 0) (Hs : length samples = n * nf) (Hn : 0 < n).
Notation x i := (row samples nf i).
Context (next : nat -> list F -> res (list F)) (follow : list nat -> nat -> Prop).
Context (Hnext : forall c idx, (forall i, In i idx -> i < n) -> idx <> [] ->
  exists i, i < n /\ next c (flat_map (row samples nf) idx) = Ok (x i) /\ follow idx i).

Lemma all_loop draw k : in_range draw -> exists idx,
  (first <- select_random_sample draw samples nf ;; for_loop (k - 1) 1 (fun c v => s <- next c v ;; Ok (v ++ s)) first) = Ok (flat_map (row samples nf) idx) /\
  length idx = 1 + (k - 1) /\ (forall i, In i idx -> i < n) /\ chain follow idx.
Proof using Hnf Hs Hn Hnext.
  intros Hd. destruct (first_ok samples nf n Hnf Hs Hn draw Hd) as (i0 & Hi0 & -> & _). cbn [bind].
  destruct (for_loop_inv (fun done v => exists idx, v = flat_map (row samples nf) idx /\ length idx = done /\
      (forall i, In i idx -> i < n) /\ chain follow idx)
    (fun c v => s <- next c v ;; Ok (v ++ s)) (k - 1) 1 (x i0)) as (v & -> & idx & -> & H).
  - exists [i0]. splits; auto.
    + simpl. now rewrite app_nil_r.
    + intros i [<-|[]]; auto.
    + intros c i Hc E. destruct c as [|[|c]]; [lia|discriminate|discriminate].
  - intros c v Hc (idx & -> & H1 & H2 & H3).
    assert (Hne : idx <> []) by (intros ->; simpl in H1; lia).
    destruct (Hnext c idx H2 Hne) as (i & Hi & -> & Hf). cbn [bind]. eexists; split; [reflexivity|]. exists (idx ++ [i]). splits.
    + rewrite flat_map_app. simpl. now rewrite app_nil_r.
    + rewrite app_length. simpl. lia.
    + intros j Hj. apply in_app_or in Hj. destruct Hj as [Hj|[<-|[]]]; auto.
    + apply (chain_snoc samples nf n); auto.
  - exists idx. splits; try apply H. auto.
Qed.

Lemma previous_loop draw k : in_range draw -> exists idx,
  (first <- select_random_sample draw samples nf ;;
   ' (_, v) <- for_loop (k - 1) 1 (fun c '(previous, v) => s <- next c previous ;; Ok (s, v ++ s)) (first, first) ;; Ok v) = Ok (flat_map (row samples nf) idx) /\
  length idx = 1 + (k - 1) /\ (forall i, In i idx -> i < n) /\ chain (fun chosen => follow [last chosen 0]) idx.
Proof using Hnf Hs Hn Hnext.
  intros Hd. destruct (first_ok samples nf n Hnf Hs Hn draw Hd) as (i0 & Hi0 & -> & _). cbn [bind].
  destruct (for_loop_inv (fun done st => exists idx, st = (x (last idx 0), flat_map (row samples nf) idx) /\ length idx = done /\
      (forall i, In i idx -> i < n) /\ chain (fun chosen => follow [last chosen 0]) idx)
    (fun c '(previous, v) => s <- next c previous ;; Ok (s, v ++ s)) (k - 1) 1 (x i0, x i0)) as (v & -> & idx & -> & H).
  - exists [i0]. splits; auto.
    + simpl. now rewrite app_nil_r.
    + intros i [<-|[]]; auto.
    + intros c i Hc E. destruct c as [|[|c]]; [lia|discriminate|discriminate].
  - intros c v Hc (idx & -> & H1 & H2 & H3).
    assert (Hne : idx <> []) by (intros ->; simpl in H1; lia).
    assert (Hlast : last idx 0 < n).
    { apply H2. rewrite (app_removelast_last 0 Hne) at 2. apply in_or_app. simpl. auto. }
    destruct (Hnext c [last idx 0]) as (i & Hi & E & Hf); [intros i [<-|[]]; auto|congruence|].
    simpl in E. rewrite app_nil_r in E. rewrite E. cbn [bind]. eexists; split; [reflexivity|]. exists (idx ++ [i]). splits.
    + rewrite flat_map_app, last_last. simpl. now rewrite app_nil_r.
    + rewrite app_length. simpl. lia.
    + intros j Hj. apply in_app_or in Hj. destruct Hj as [Hj|[<-|[]]]; auto.
    + apply (chain_snoc samples nf n); auto.
  - cbn [bind]. exists idx. splits; try apply H. auto.
Qed.
End Chains.

Section Binary.
Context (prec emax : Z) (Hp : Prec_gt_0 prec) (Hm : Prec_lt_emax prec emax).
Context (Hprec : (2 <= prec)%Z) (Hemax : (prec + 3 <= emax)%Z).
Notation number := (binary_float prec emax).
Notation u := (roundoff prec).
Notation good := (good prec emax).
Notation level := (level prec emax).
Notation zero := (B754_zero false : number).
Notation inf := (B754_infinity false : number).
Context (order : nat -> grouping).
Notation euclid := (euclidean prec emax Hp Hm order).
(** A sample has distance 0 to itself, and a distance that is not 0 is not small. *)
Lemma reduce_zero g tmps : numbers prec emax tmps -> (forall t, In t tmps -> level (Babs t) = 0%R) -> level (reduce prec emax Hp Hm g tmps) = 0%R.
Proof using Hprec Hemax.
  intros N H. assert (R0 : cap emax (round radix2 (FLT_exp (3 - emax - prec) prec) ZnearestE 0) = 0%R).
  { rewrite round_0 by typeclasses eauto. unfold cap. apply Rmin_left. apply bpow_ge_0. }
  assert (Z0 : forall i, level (Babs (nth i tmps zero)) = 0%R).
  { intros i. destruct (le_lt_dec (length tmps) i); [now rewrite nth_overflow|]. apply H, nth_In. auto. }
  induction g as [|i|a IHa b IHb|i b IHb]; cbn [reduce].
  - reflexivity.
  - destruct (square_ok prec emax Hp Hm Hprec Hemax (nth i tmps zero)) as (_ & ->); [now apply nth_number|]. rewrite Z0, Rmult_0_l. exact R0.
  - destruct (plus_ok prec emax Hp Hm Hprec Hemax (reduce prec emax Hp Hm a tmps) (reduce prec emax Hp Hm b tmps)) as (_ & ->); try now apply reduce_good.
    rewrite IHa, IHb, Rplus_0_l. exact R0.
  - destruct (fma_ok prec emax Hp Hm Hprec Hemax (nth i tmps zero) (reduce prec emax Hp Hm b tmps)) as (_ & ->); [now apply nth_number|now apply reduce_good|].
    rewrite IHb, Z0, Rmult_0_l, Rplus_0_l. exact R0.
Qed.

Lemma self_distance l : finite_list prec emax l -> euclid l l = zero.
Proof using Hprec Hemax.
  intros Hl. unfold euclidean. set (r := reduce _ _ _ _ _ _).
  assert (N : numbers prec emax (map (fun xy => difference prec emax Hp Hm (fst xy) (snd xy)) (combine l l))) by (apply diffs_numbers; auto).
  assert (G : good r) by (apply reduce_good; auto).
  assert (E : level r = 0%R).
  { apply reduce_zero; auto. intros t Ht. apply in_map_iff in Ht. destruct Ht as ((a & b) & <- & Hab).
    assert (b = a) as ->. { clear - Hab. induction l as [|c l IH]; [destruct Hab|]. cbn [combine] in Hab. destruct Hab as [Hab|Hab]; [congruence|auto]. }
    apply in_combine_l in Hab. cbn [fst snd]. unfold difference. destruct (minus_ok prec emax Hp Hm Hprec a a) as (_ & ->); auto.
    rewrite Rminus_diag_eq, Rabs_R0 by auto. rewrite round_0 by typeclasses eauto. unfold cap. apply Rmin_left. apply bpow_ge_0. }
  assert (r = zero) as ->; [|reflexivity]. apply (level_inj prec emax); auto. reflexivity.
Qed.

Lemma distance_large l r : finite_list prec emax l -> finite_list prec emax r -> is_finite (euclid l r) = true -> (0 < B2R (euclid l r))%R ->
  (bpow radix2 ((3 - emax - prec) / 2) <= B2R (euclid l r))%R.
Proof using Hprec Hemax.
  intros Hl Hr. unfold euclidean. set (q := reduce _ _ _ _ _ _). intros F P.
  assert (G : good q) by (apply reduce_good; auto; now apply diffs_numbers).
  destruct (sqrt_ok prec emax Hp Hm q G) as (_ & S1 & S2).
  destruct (is_finite q) eqn:Fq; [|rewrite S2 in F by auto; discriminate]. destruct (S1 eq_refl) as (L & _). unfold FloatProofs.level in L. rewrite F in L. rewrite L in *.
  set (emin := (3 - emax - prec)%Z) in *.
  assert (V : Valid_exp (FLT_exp emin prec)) by (apply FLT_exp_valid; exact Hp).
  assert (Q0 : (0 < B2R q)%R).
  { destruct (good_inv prec emax q G) as [E|(_ & _ & H)]; [rewrite E in Fq; discriminate|]. destruct H as [H|H]; auto. rewrite <- H, sqrt_0, round_0 in P by typeclasses eauto. lra. }
  assert (Q1 : (bpow radix2 emin <= B2R q)%R).
  { pose proof (generic_format_B2R prec emax q) as Fm. destruct q as [s|s| |s m e He]; try discriminate; [simpl in Q0; lra|].
    destruct s; [exfalso; simpl in Q0; pose proof (F2R_lt_0 radix2 (Float radix2 (Z.neg m) e) eq_refl); cbn in *; lra|].
    cbn [B2R]. unfold F2R. cbn [Fnum Fexp cond_Zopp]. 
    assert (emin <= e)%Z.
    { clear - He Hprec Hemax Hp. unfold SpecFloat.bounded in He. apply andb_prop in He. destruct He as (He & _). apply Zeq_bool_eq in He. unfold SpecFloat.fexp, SpecFloat.emin in He. unfold emin. lia. }
    apply Rle_trans with (bpow radix2 e); [now apply bpow_le|]. rewrite <- (Rmult_1_l (bpow radix2 e)) at 1. apply Rmult_le_compat_r; [apply bpow_ge_0|]. apply IZR_le. lia. }
  assert (H2 : (emin / 2 + emin / 2 <= emin <= emin / 2 + emin / 2 + 1)%Z) by (clear; Z.to_euclidean_division_equations; lia).
  apply round_ge_generic; [exact V|typeclasses eauto| |].
  - apply generic_format_bpow. unfold FLT_exp. apply Z.max_lub; [lia|]. unfold emin in *. lia.
  - rewrite <- (R_sqrt.sqrt_square (bpow radix2 (emin / 2))) by apply bpow_ge_0. apply sqrt_le_1_alt. rewrite <- bpow_plus. apply Rle_trans with (2 := Q1). apply bpow_le. lia.
Qed.
Lemma distance_small l r : finite_list prec emax l -> finite_list prec emax r -> is_finite (euclid l r) = true ->
  (B2R (euclid l r) <= bpow radix2 ((emax + 1) / 2))%R.
Proof using Hprec Hemax.
  intros Hl Hr. unfold euclidean. set (q := reduce _ _ _ _ _ _). intros F.
  assert (G : good q) by (apply reduce_good; auto; now apply diffs_numbers).
  destruct (sqrt_ok prec emax Hp Hm q G) as (_ & S1 & S2).
  destruct (is_finite q) eqn:Fq; [|rewrite S2 in F by auto; discriminate]. destruct (S1 eq_refl) as (L & _). unfold FloatProofs.level in L. rewrite F in L. rewrite L in *.
  assert (V : Valid_exp (FLT_exp (3 - emax - prec) prec)) by (apply FLT_exp_valid; exact Hp).
  pose proof (finite_below prec emax q Fq) as B. pose proof (Rle_abs (B2R q)) as B'.
  assert (H2 : (emax <= (emax + 1) / 2 + (emax + 1) / 2 <= emax + 1)%Z) by (clear; Z.to_euclidean_division_equations; lia).
  apply round_le_generic; [exact V|typeclasses eauto| |].
  - apply generic_format_bpow. unfold FLT_exp. apply Z.max_lub; lia.
  - rewrite <- (R_sqrt.sqrt_square (bpow radix2 ((emax + 1) / 2))) by apply bpow_ge_0. apply sqrt_le_1_alt. rewrite <- bpow_plus.
    apply Rle_trans with (bpow radix2 emax); [lra|]. apply bpow_le. lia.
Qed.

Lemma zero_or_more y : good y -> y = zero \/ Bltb zero y = true.
Proof using Hprec Hemax.
  intros G. rewrite (lt_level prec emax) by (auto; reflexivity). pose proof (level_range prec emax y G) as R.
  change (level zero) with 0%R. destruct (Rlt_bool_spec 0 (level y)) as [L|L]; auto. left. apply (level_inj prec emax); auto; [reflexivity|].
  change (level zero) with 0%R. lra.
Qed.

Context (samples : list number) (nf n : nat) (Hnf : nf <> 0) (Hs : length samples = n * nf).
Notation x i := (row samples nf i).

Lemma forward_any centroids k : length centroids = k * nf ->
  exists v, float_forward prec emax Hp Hm order samples nf centroids = Ok v /\ length v = n.
Proof using Hnf Hs.
  intros Hc. unfold float_forward, samples_to_nearest_centroid_distances. destruct (n_rows samples centroids nf n k Hnf Hs Hc) as (-> & ->). cbn [bind].
  match goal with |- context [fill (B754_infinity false) n ?g] => destruct (fill_inv inf n g (fun _ _ => True)) as (v & E & L & _) end; [|exists v; auto].
  intros i Hi.
  match goal with |- context [for_loop k 0 ?g (B754_infinity false)] => destruct (for_loop_inv (fun _ (_ : number) => True) g k 0 inf I) as (m & E & _) end.
  - intros j m Hj _. rewrite (one_distance euclid samples centroids nf n k Hnf Hs Hc) by lia. cbn [bind]. eexists; split; eauto.
  - rewrite E. eexists; split; eauto.
Qed.

(** The least distance is found. *)
Lemma forward_good centroids k : finite_numbers samples -> finite_numbers centroids -> length centroids = k * nf -> 0 < k ->
  exists v, float_forward prec emax Hp Hm order samples nf centroids = Ok v /\ length v = n /\
    forall i, i < n -> exists d, nth_error v i = Some d /\ good d /\
      (exists j, j < k /\ d = euclid (x i) (row centroids nf j)) /\ forall j, j < k -> (level d <= level (euclid (x i) (row centroids nf j)))%R.
Proof using Hprec Hemax Hnf Hs.
  intros Fs Fc Hc Hk. unfold float_forward, samples_to_nearest_centroid_distances. destruct (n_rows samples centroids nf n k Hnf Hs Hc) as (-> & ->). cbn [bind].
  apply fill_inv. intros i Hi.
  assert (G : forall j, good (euclid (x i) (row centroids nf j))) by (intros j; apply euclidean_is_distance; auto; now apply row_finite).
  match goal with |- context [for_loop k 0 ?g (B754_infinity false)] =>
    destruct (for_loop_inv (fun done (m : number) => good m /\ (done = 0 /\ m = inf \/ exists j, j < done /\ m = euclid (x i) (row centroids nf j)) /\
      forall j, j < done -> (level m <= level (euclid (x i) (row centroids nf j)))%R) g k 0 inf) as (m & E & H) end.
  - splits; auto; [reflexivity|intros; lia].
  - intros j m Hj (Gm & Hm' & Hle). rewrite (one_distance euclid samples centroids nf n k Hnf Hs Hc) by lia. cbn [bind]. eexists; split; [reflexivity|].
    rewrite (lt_level prec emax) by auto. destruct (Rlt_bool_spec (level (euclid (x i) (row centroids nf j))) (level m)) as [L|L].
    + splits; auto; [right; exists j; split; [lia|auto]|]. intros j' Hj'. destruct (Nat.eq_dec j' j) as [->|]; [apply Rle_refl|]. specialize (Hle j' ltac:(lia)). lra.
    + splits; auto.
      * right. destruct Hm' as [(_ & ->)|(j' & Hj' & ->)]; [|exists j'; split; [lia|auto]]. exists j. split; [lia|].
        apply (level_inj prec emax); auto. apply Rle_antisym; auto. apply (level_range prec emax), G.
      * intros j' Hj'. destruct (Nat.eq_dec j' j) as [->|]; [exact L|]. apply Hle. lia.
  - rewrite E. exists m. split; auto. simpl in H. destruct H as (Gm & [(H & _)|(j & Hj & Em)] & Hle); [lia|]. splits; auto. exists j; auto.
Qed.

(** Choosing the next sample. *)
Context (unit : nat -> number) (Hu : forall c, canonical (unit c)).
Notation next c v := (float_next prec emax Hp Hm order samples nf unit c v).
Notation d i j := (euclid (x i) (x j)).

Lemma next_any c idx : (Z.of_nat n <= 2 ^ (emax - 1))%Z -> 0 < n -> (forall i, In i idx -> i < n) -> idx <> [] ->
  exists i, i < n /\ next c (flat_map (row samples nf) idx) = Ok (x i) /\ True.
Proof using Hprec Hemax Hnf Hs Hu.
  intros Hz Hn Hi Hne. unfold float_next.
  destruct (forward_any (flat_map (row samples nf) idx) (length idx)) as (v & -> & L); [apply (flat_rows_length samples nf n); auto|]. cbn [bind].
  assert (Hv : v <> []) by (intros ->; simpl in L; lia).
  destruct (c110_defined Hp Hm (conj Hprec Hemax) v Hv) as (t & -> & H); [rewrite L; exact Hz|]. cbn [bind].
  destruct (H (unit (2 * c)) (unit (2 * c + 1)) (Hu _)) as (i & -> & Hl). cbn [bind]. rewrite L in Hl. exists i. splits; auto.
  apply (sample_row' samples nf n); auto.
Qed.

(** Which samples may follow [chosen]. *)
Definition far (chosen : list nat) (i : nat) : Prop :=
  (forall j, In j chosen -> Bltb zero (d i j) = true) \/ forall i, i < n -> exists j, In j chosen /\ d i j = zero.

Context (Fs : finite_numbers samples) (Hsize : (4 * INR n * (INR n + 2) * u < 1)%R) (Hrange : (3 * prec + 6 <= emax)%Z).

Lemma finite_rows idx : finite_numbers (flat_map (row samples nf) idx).
Proof using Fs.
  clear - Fs. unfold finite_numbers. apply Forall_forall. intros y Hy. apply in_flat_map in Hy. destruct Hy as (i & _ & Hy).
  now apply (row_finite samples nf i Fs).
Qed.

Lemma size_le : (INR n <= bpow radix2 prec)%R.
Proof using Hsize.
  clear - Hsize. unfold roundoff in Hsize. rewrite bpow_opp in Hsize. pose proof (bpow_gt_0 radix2 prec) as B. pose proof (pos_INR n) as P.
  assert (4 * INR n * (INR n + 2) < bpow radix2 prec)%R.
  { apply Rmult_lt_reg_r with (/ bpow radix2 prec)%R; [now apply Rinv_0_lt_compat|]. rewrite Rinv_r by lra. exact Hsize. }
  nra.
Qed.

Lemma more_level y : good y -> (0 < level y)%R -> Bltb zero y = true.
Proof using Hprec Hemax. intros G P. rewrite (lt_level prec emax) by (auto; reflexivity). apply Rlt_bool_true. exact P. Qed.

Lemma next_far c idx : 0 < n -> (forall i, In i idx -> i < n) -> idx <> [] ->
  exists i, i < n /\ next c (flat_map (row samples nf) idx) = Ok (x i) /\ far idx i.
Proof using Hprec Hemax Hnf Hs Hu Fs Hsize Hrange.
  intros Hn Hi Hne. unfold float_next.
  assert (Hk : 0 < length idx) by (destruct idx; [congruence|simpl; lia]).
  assert (Rj : forall j, j < length idx -> exists a, In a idx /\ row (flat_map (row samples nf) idx) nf j = x a).
  { intros j Hj. destruct (nth_error idx j) as [a|] eqn:E; [|apply nth_error_None in E; lia]. exists a. split; [now apply nth_error_In in E|].
    apply (row_flat samples nf n); auto. }
  assert (Ra : forall a, In a idx -> exists j, j < length idx /\ row (flat_map (row samples nf) idx) nf j = x a).
  { intros a Ha. apply In_nth_error in Ha. destruct Ha as (j & E). exists j. split; [now apply nth_error_lt in E|]. apply (row_flat samples nf n); auto. }
  assert (Gd : forall i j, good (d i j)) by (intros i j; apply euclidean_is_distance; auto; now apply row_finite).
  destruct (forward_good (flat_map (row samples nf) idx) (length idx) Fs (finite_rows idx)) as (v & -> & L & V); auto.
  { apply (flat_rows_length samples nf n); auto. }
  cbn [bind]. assert (Hv : v <> []) by (intros ->; simpl in L; lia).
  assert (W : forall i, i < n -> (exists a, In a idx /\ nth_error v i = Some (d i a)) /\ forall a, In a idx -> (level (nth i v zero) <= level (d i a))%R).
  { intros i Hi'. destruct (V i Hi') as (w & Ew & Gw & (j & Hj & Ej) & Hle). split.
    - destruct (Rj j Hj) as (a & Ha & E). exists a. split; auto. now rewrite Ew, Ej, E.
    - intros a Ha. rewrite (nth_error_nth _ _ _ Ew). destruct (Ra a Ha) as (j' & Hj' & E). rewrite <- E. auto. }
  assert (Hz : (Z.of_nat n <= 2 ^ (emax - 1))%Z).
  { apply le_IZR. rewrite <- INR_IZR_INZ. apply Rle_trans with (1 := size_le).
    change 2%Z with (radix_val radix2). rewrite IZR_Zpower by lia. apply bpow_le. lia. }
  destruct (c110_defined Hp Hm (conj Hprec Hemax) v Hv) as (t & Et & H); [rewrite L; exact Hz|].
  destruct (H (unit (2 * c)) (unit (2 * c + 1)) (Hu _)) as (i & Ei & Hl). rewrite L in Hl. exists i. splits; auto.
  { rewrite Et. cbn [bind]. rewrite Ei. cbn [bind]. apply (sample_row' samples nf n); auto. }
  assert (Hgood : Forall (fun w => w = inf \/ is_finite w = true /\ Bsign w = false) v).
  { apply Forall_forall. intros w Hin. apply In_nth_error in Hin. destruct Hin as (a & Ea). destruct (V a) as (w' & Ew & Gw & _); [rewrite <- L; now apply nth_error_lt in Ea|].
    rewrite Ea in Ew. injection Ew as <-. destruct (good_inv prec emax w Gw) as [->|(F & S & _)]; auto. }
  assert (Dec : In inf v \/ ~ In inf v).
  { clear. induction v as [|w v IH]; [right; intros []|]. destruct IH as [IH|IH]; [left; now right|].
    destruct w as [s|[|]| |s m e b]; try (right; intros [C|C]; [discriminate|contradiction]). left. now left. }
  destruct Dec as [Hin|Hout].
  { left. intros j Hj. pose proof (c110_infinite_only Hp Hm (conj Hprec Hemax) v t (unit (2 * c)) (unit (2 * c + 1)) i Hgood Hin ltac:(rewrite L; exact Hz) Et (Hu _) (Hu _) Ei) as Ein.
    apply more_level; auto. destruct (W i Hl) as (_ & Hle). specialize (Hle j Hj). rewrite (nth_error_nth _ _ _ Ein) in Hle.
    apply Rlt_le_trans with (2 := Hle). unfold FloatProofs.level. cbn [is_finite]. apply bpow_gt_0. }
  assert (Hw : proper_weights v).
  { unfold proper_weights. rewrite Forall_forall in *. intros w Hin. destruct (Hgood w Hin) as [->|Hf]; [contradiction|exact Hf]. }
  assert (Wd : forall i, i < n -> exists a, In a idx /\ is_finite (d i a) = true /\ weight v i = B2R (d i a)).
  { intros i' Hi'. destruct (W i' Hi') as ((a & Ha & E) & _). exists a. unfold weight. rewrite E. splits; auto.
    apply nth_error_In in E. unfold proper_weights in Hw. rewrite Forall_forall in Hw. now apply Hw. }
  assert (Wl : forall i, i < n -> weight v i = level (nth i v zero)).
  { intros i' Hi'. destruct (W i' Hi') as ((a & Ha & E) & _). unfold weight. rewrite E, (nth_error_nth _ _ _ E). unfold FloatProofs.level.
    apply nth_error_In in E. unfold proper_weights in Hw. rewrite Forall_forall in Hw. destruct (Hw _ E) as (-> & _). reflexivity. }
  assert (Wp : forall i, (0 <= weight v i)%R) by (intros i'; now apply weight_nonneg).
  set (S := over (length v) (weight v)).
  assert (Term : forall i, i < n -> (weight v i <= S)%R).
  { intros i' Hi'. unfold S. rewrite L, over_total.
    assert (G : forall l, In i' l -> (weight v i' <= total (weight v) l)%R).
    { induction l as [|b l IH]; intros Hin; [destruct Hin|]. cbn [total fold_right].
      assert (0 <= total (weight v) l)%R by (clear - Wp; induction l as [|b l IH]; cbn [total fold_right]; [lra|]; pose proof (Wp b); fold (total (weight v) l); lra).
      fold (total (weight v) l). destruct Hin as [->|Hin]; [lra|]. specialize (IH Hin). pose proof (Wp b). lra. }
    apply G, in_seq. lia. }
  assert (Top : (S <= bpow radix2 (emax - 3))%R).
  { set (B := bpow radix2 ((emax + 1) / 2)).
    assert (G : forall l, (forall i, In i l -> i < n) -> (total (weight v) l <= INR (length l) * B)%R).
    { induction l as [|b l IH]; intros Hin; cbn [total fold_right length]; [simpl; lra|]. fold (total (weight v) l). rewrite S_INR.
      specialize (IH (fun i Hi => Hin i (or_intror Hi))). destruct (Wd b (Hin b (or_introl eq_refl))) as (a & Ha & Fd & Ew).
      assert (weight v b <= B)%R by (rewrite Ew; apply distance_small; auto; now apply row_finite). lra. }
    unfold S. rewrite L, over_total. specialize (G (seq 0 n)). rewrite seq_length in G.
    apply Rle_trans with (INR n * B)%R; [apply G; intros j Hj; apply in_seq in Hj; lia|].
    apply Rle_trans with (bpow radix2 prec * B)%R; [apply Rmult_le_compat_r; [apply bpow_ge_0|apply size_le]|].
    unfold B. rewrite <- bpow_plus. apply bpow_le. clear - Hrange Hprec. Z.to_euclidean_division_equations. lia. }
  destruct (Req_dec S 0) as [Z|NZ].
  - right. intros i' Hi'. destruct (Wd i' Hi') as (a & Ha & Fd & E). exists a. split; auto. destruct (zero_or_more _ (Gd i' a)) as [Ez|C]; auto. exfalso.
    rewrite Bltb_correct in C by auto. destruct (Rlt_bool_spec (B2R zero) (B2R (d i' a))) as [C'|]; [|discriminate]. rewrite <- E in C'. cbn [B2R] in C'.
    specialize (Term i' Hi'). lra.
  - left. intros j Hj. apply more_level; auto. apply Rlt_le_trans with (level (nth i v zero)); [|now apply W]. rewrite <- Wl by auto.
    assert (Low : (bpow radix2 ((3 - emax - prec) / 2) <= S)%R).
    { assert (E : exists i, i < n /\ (0 < weight v i)%R).
      { assert (G : forall l, (forall i, In i l -> i < n) -> (exists i, i < n /\ (0 < weight v i)%R) \/ total (weight v) l = 0%R).
        { induction l as [|b l IH]; intros Hin; [now right|]. destruct (Wp b) as [P|P]; [left; exists b; split; auto; apply Hin; now left|].
          destruct IH as [IH|IH]; [intros; apply Hin; now right|now left|]. right. cbn [total fold_right]. fold (total (weight v) l). lra. }
        destruct (G (seq 0 n)) as [G'|G']; auto; [intros j' Hj'; apply in_seq in Hj'; lia|]. exfalso. apply NZ. unfold S. now rewrite L, over_total. }
      destruct E as (i' & Hi' & P). apply Rle_trans with (2 := Term i' Hi'). destruct (Wd i' Hi') as (a & Ha & Fd & E). rewrite E in *.
      apply distance_large; auto; now apply row_finite. }
    apply (c110_zero_never Hp Hm (conj Hprec Hemax) v t (unit (2 * c)) (unit (2 * c + 1)) i Hw Hv); auto; [now rewrite L|].
    unfold S in *. rewrite L in *. apply Rle_trans with (1 := size_le). apply Rle_trans with (bpow radix2 ((3 - emax - prec) / 2) * bpow radix2 (emax - 2))%R.
    + rewrite <- bpow_plus. apply bpow_le. clear - Hrange Hprec. Z.to_euclidean_division_equations. lia.
    + apply Rmult_le_compat_r; [apply bpow_ge_0|exact Low].
Qed.

(** Distances that are not 0 count as 1. *)
Definition apart (p r : list number) : Q := if Bltb zero (euclid p r) then 1%Q else 0%Q.

Lemma far_distinct idx k : 0 < n -> (forall i j, i < n -> j < n -> d i j = zero -> x i = x j) ->
  (exists l, NoDup (map (row samples nf) l) /\ (forall i, In i l -> i < n) /\ length l = k) ->
  (forall i, In i idx -> i < n) -> length idx <= k -> chain far idx -> NoDup (map (row samples nf) idx).
Proof using Hprec Hemax Hnf Hs Fs.
  intros Hn Hsep Hl Hi Hk Hc. apply (distinct_ok apart) with (n := n) (k := k); auto.
  - intros p q. unfold apart. destruct (Bltb _ _); discriminate.
  - intros i j Hi' Hj'. unfold apart.
    assert (G : good (d i j)) by (apply euclidean_is_distance; auto; now apply row_finite).
    destruct (zero_or_more _ G) as [E|E].
    + rewrite E. split; [intros _; now apply Hsep|intros _; reflexivity].
    + rewrite E. split; [intros H; discriminate|]. intros H. rewrite H, self_distance in E by (now apply row_finite). discriminate.
  - intros c i H0 E. destruct (Hc c i H0 E) as [H|H]; [left|right].
    + intros j Hj. specialize (H j Hj). unfold apart. rewrite H. reflexivity.
    + intros i' Hi'. destruct (H i' Hi') as (j & Hj & Ej). exists j. split; auto. unfold apart. rewrite Ej. reflexivity.
Qed.
End Binary.
