(** Lloyd's algorithm on [float] and [double] samples. *)
From Coq Require Import Reals List Arith ZArith Bool Lia Lra Psatz Permutation.
From Flocq Require Import Core BinarySingleNaN.
From Verif Require Import Base BufferSpec MatrixModel KMeansModel KMeansSpec KMeansProofs FloatModel FloatSpec FloatProofs FloatProps AccuracySpec
  AccuracyProofs AccuracyProps FloatSilhouetteModel FloatSilhouetteProofs FloatSilhouetteProps FloatKMeansModel FloatKMeansSpec FloatKMeansProofs.
Import ListNotations.
Open Scope R_scope.

Section Formats.
Context {prec emax : Z} (Hp : Prec_gt_0 prec) (Hm : Prec_lt_emax prec emax) (Hfmt : format_ok prec emax).
Notation number := (binary_float prec emax).
Notation euclid := (euclidean prec emax Hp Hm).
Notation predict := (float_predict prec emax Hp Hm).
Notation step := (float_step prec emax Hp Hm).
Notation steps := (float_steps prec emax Hp Hm).
Notation u := (roundoff prec).
Notation e := (tiny prec emax).
Notation zero := (B754_zero false : number).

Lemma row_finite (samples : list number) nf i : finite_numbers samples -> finite_list prec emax (row samples nf i).
Proof.
  unfold finite_numbers. rewrite Forall_forall. intros H x Hx. apply H. unfold row in Hx.
  rewrite <- (firstn_skipn (i * nf) samples), in_app_iff. right. rewrite <- (firstn_skipn nf (skipn (i * nf) samples)), in_app_iff. now left.
Qed.

Lemma coordinate_nth (samples : list number) nf f i : coordinate samples nf f i = B2R (nth (i * nf + f) samples zero).
Proof.
  unfold coordinate. destruct (nth_error samples (i * nf + f)) as [x|] eqn:E; [now rewrite (nth_error_nth _ _ _ E)|].
  rewrite nth_overflow; [reflexivity|]. now apply nth_error_None.
Qed.

Lemma values_sum (samples : list number) nf f l :
  fold_right Rplus 0 (map (fun x : number => B2R x) (map (fun i => nth (i * nf + f) samples zero) l)) = exact_sum samples nf f l /\
  fold_right Rplus 0 (map (fun x : number => Rabs (B2R x)) (map (fun i => nth (i * nf + f) samples zero) l)) = absolute_sum samples nf f l.
Proof.
  unfold exact_sum, absolute_sum. rewrite !map_map. split; f_equal; apply map_ext; intros i; now rewrite coordinate_nth.
Qed.

Lemma members_in (labels : list nat) c i : In i (members labels c) -> (i < length labels)%nat /\ nth_error labels i = Some c.
Proof.
  unfold members. rewrite filter_In, in_seq. intros (H & E). apply Nat.eqb_eq in E. split; [lia|].
  rewrite <- E. apply nth_error_nth'. lia.
Qed.

Lemma members_size (labels : list nat) c : (length (members labels c) <= length labels)%nat.
Proof. unfold members. rewrite <- (seq_length (length labels) 0) at 2. induction (seq 0 (length labels)); simpl; auto. destruct (_ =? _); simpl; lia. Qed.

(** What one step computes. *)
Lemma step_ok order (samples centroids : list number) nf n k :
  nf <> 0%nat -> (length samples = n * nf)%nat -> (length centroids = k * nf)%nat -> (0 < k)%nat ->
  exists labels new, predict order samples nf centroids = Ok labels /\ length labels = n /\ (forall x, In x labels -> (x < k)%nat) /\
    step order samples nf centroids = Ok new /\ updated (binary_arith prec emax Hp Hm order) samples nf k labels new.
Proof.
  intros Hnf Hs Hc Hk.
  destruct (any_predict (@Bltb prec emax) (B754_infinity false) (euclid order) samples centroids nf n k Hnf Hs Hc Hk) as (v & E & L & V).
  assert (Hv : forall x, In x v -> (x < k)%nat).
  { intros x Hx. apply In_nth_error in Hx. destruct Hx as (i & Ei). assert (Hi : (i < n)%nat) by (rewrite <- L; apply nth_error_Some; congruence).
    destruct (V i Hi) as (j & Ej & Hj). rewrite Ei in Ej. injection Ej as ->. exact Hj. }
  destruct (update_ok (binary_arith prec emax Hp Hm order) samples nf n k Hnf Hs v centroids L Hv Hc) as (new & En & U).
  exists v, new. splits; auto. unfold float_step, float_predict. rewrite E. cbn [bind].
  destruct (n_rows centroids centroids nf k k Hnf Hc Hc) as (-> & _). exact En.
Qed.

(** ** C108 *)

(** With any contents, infinities and NaN included, all labels are indices of centroids, and any number of steps gives [k]
    centroids again. *)
Theorem c108_labels_in_range : forall order (samples centroids : list number) nf n k m,
  nf <> 0%nat -> (length samples = n * nf)%nat -> (length centroids = k * nf)%nat -> (0 < k)%nat ->
  exists new labels, steps order m samples nf centroids = Ok new /\ (length new = k * nf)%nat /\
    predict order samples nf new = Ok labels /\ length labels = n /\ forall x, In x labels -> (x < k)%nat.
Proof using Type.
  intros order samples centroids nf n k m Hnf Hs. revert centroids. induction m as [|m IH]; intros centroids Hc Hk.
  - destruct (step_ok order samples centroids nf n k Hnf Hs Hc Hk) as (v & new & E & L & V & _). exists centroids, v. splits; auto.
  - destruct (step_ok order samples centroids nf n k Hnf Hs Hc Hk) as (v & new & E & L & V & E' & L' & _). cbn [float_steps]. rewrite E'. cbn [bind]. now apply IH.
Qed.

(** Each sample goes to the first of the centroids whose computed distance is least, even if distances overflow. *)
Theorem c108_assignment : forall order (samples centroids : list number) nf n k,
  finite_numbers samples -> finite_numbers centroids ->
  nf <> 0%nat -> (length samples = n * nf)%nat -> (length centroids = k * nf)%nat -> (0 < k)%nat ->
  exists labels, predict order samples nf centroids = Ok labels /\ length labels = n /\
    forall i, (i < n)%nat -> exists c, nth_error labels i = Some c /\ (c < k)%nat /\
      (forall c', (c' < k)%nat -> Bltb (euclid order (row samples nf i) (row centroids nf c')) (euclid order (row samples nf i) (row centroids nf c)) = false) /\
      (forall c', (c' < c)%nat -> Bltb (euclid order (row samples nf i) (row centroids nf c)) (euclid order (row samples nf i) (row centroids nf c')) = true).
Proof using Hfmt.
  intros order samples centroids nf n k Fs Fc Hnf Hs Hc Hk. destruct Hfmt as (Hprec & Hemax).
  assert (Ginf : good prec emax (B754_infinity false)) by reflexivity.
  destruct (good_predict (@Bltb prec emax) (B754_infinity false) (euclid order) samples centroids nf n k Hnf Hs Hc Hk (good prec emax)
    (float_order1 prec emax Hprec Hemax) (float_order2 prec emax Hprec Hemax)) as (v & E & L & V).
  - intros i j _ _. apply euclidean_is_distance; auto; now apply row_finite.
  - exact Ginf.
  - intros x Gx. rewrite (lt_level prec emax) by auto. apply Rlt_bool_false. apply (level_range prec emax x Gx).
  - intros x Gx Hx. destruct (good_inv prec emax x Gx) as [Ex|(F & S & P)]; auto. exfalso. destruct x as [| | |[|]]; simpl in *; discriminate.
  - exists v. splits; auto. intros i Hi. destruct (V i Hi) as (c & Ec & (Hck & Hn) & Hf). exists c. splits; auto.
Qed.

(** If the computed distance to the centroid of a sample is finite, no other centroid is closer in exact arithmetic by more
    than the rounding errors. *)
Theorem c108_assignment_accurate : forall order (samples centroids : list number) nf n k labels i c c',
  adds_each_once order -> finite_numbers samples -> finite_numbers centroids ->
  nf <> 0%nat -> (length samples = n * nf)%nat -> (length centroids = k * nf)%nat ->
  predict order samples nf centroids = Ok labels -> nth_error labels i = Some c -> (i < n)%nat -> (c' < k)%nat ->
  is_finite (euclid order (row samples nf i) (row centroids nf c)) = true ->
  is_finite (euclid order (row samples nf i) (row centroids nf c')) = true ->
  (1 - u) ^ (height (order nf) + 4) * true_square (row samples nf i) (row centroids nf c) - INR nf * e <=
  (1 + u) ^ (height (order nf) + 4) * (true_square (row samples nf i) (row centroids nf c') + INR nf * e).
Proof using Hfmt.
  intros order samples centroids nf n k labels i c c' Ho Fs Fc Hnf Hs Hc E Ei Hi Hc' F F'.
  destruct (c108_assignment order samples centroids nf n k Fs Fc Hnf Hs Hc ltac:(lia)) as (v & Ev & L & V).
  rewrite E in Ev. injection Ev as <-. destruct (V i Hi) as (c0 & E0 & Hck & Hmin & _). rewrite Ei in E0. injection E0 as <-.
  assert (Ls : length (row samples nf i) = nf) by (apply (row_length' samples nf n); auto).
  assert (Lc : forall j, (j < k)%nat -> length (row centroids nf j) = nf) by (intros j Hj; now apply (row_length' centroids nf k)).
  destruct Hfmt as (Hprec & Hemax).
  assert (A : forall j, (j < k)%nat -> is_finite (euclid order (row samples nf i) (row centroids nf j)) = true ->
    accurate prec emax (height (order nf) + 4) nf (true_square (row samples nf i) (row centroids nf j)) (B2R (euclid order (row samples nf i) (row centroids nf j)))).
  { intros j Hj Fj. rewrite <- Ls. rewrite Ls at 1. rewrite Ls at 2.
    pose proof (distance_accurate prec emax Hp Hm Hprec Hemax order (row samples nf i) (row centroids nf j)) as D. rewrite Ls in D. rewrite Ls.
    apply D; auto; try now apply row_finite. now rewrite Lc. }
  pose proof (A c Hck F) as (A1 & _). pose proof (A c' Hc' F') as (_ & A2).
  assert (G : forall j, good prec emax (euclid order (row samples nf i) (row centroids nf j))) by (intros j; apply euclidean_is_distance; auto; now apply row_finite).
  specialize (Hmin c' Hc'). rewrite (lt_level prec emax) in Hmin by auto. unfold level in Hmin. rewrite F, F' in Hmin.
  assert (Hle : B2R (euclid order (row samples nf i) (row centroids nf c)) <= B2R (euclid order (row samples nf i) (row centroids nf c'))).
  { destruct (Rlt_bool_spec (B2R (euclid order (row samples nf i) (row centroids nf c'))) (B2R (euclid order (row samples nf i) (row centroids nf c)))); [discriminate|auto]. }
  assert (P : 0 <= B2R (euclid order (row samples nf i) (row centroids nf c))).
  { destruct (good_inv prec emax _ (G c)) as [Ex|(_ & _ & P)]; auto. rewrite Ex in F. discriminate. }
  pose proof (pow_incr _ _ 2 (conj P Hle)). lra.
Qed.

(** A new centroid is the mean of the members of its cluster, up to one rounding error for each member and two more. *)
Theorem c108_centroid_accurate : forall order (samples centroids : list number) nf n k,
  finite_numbers samples -> nf <> 0%nat -> (length samples = n * nf)%nat -> (length centroids = k * nf)%nat -> (0 < k)%nat ->
  exists labels new, predict order samples nf centroids = Ok labels /\ step order samples nf centroids = Ok new /\ (length new = k * nf)%nat /\
    forall c f, (c < k)%nat -> (f < nf)%nat ->
      let ms := members labels c in
      (ms = [] -> nth_error new (c * nf + f) = Some zero) /\
      (ms <> [] -> (Z.of_nat (length ms) <= 2 ^ prec)%Z -> (1 + u) ^ length ms * absolute_sum samples nf f ms < bpow radix2 emax ->
        exists x, nth_error new (c * nf + f) = Some x /\ is_finite x = true /\
          Rabs (B2R x - exact_sum samples nf f ms / INR (length ms)) <=
          ((1 + u) ^ S (length ms) - 1) * (absolute_sum samples nf f ms / INR (length ms)) + e / 2).
Proof using Hfmt.
  intros order samples centroids nf n k Fs Hnf Hs Hc Hk. destruct Hfmt as (Hprec & Hemax).
  destruct (step_ok order samples centroids nf n k Hnf Hs Hc Hk) as (v & new & E & L & V & E' & L' & U).
  exists v, new. splits; auto. intros c f Hck Hf ms. specialize (U c f Hck Hf). rewrite nth_row in U.
  destruct (Nat.ltb_spec f nf); [|lia]. fold ms in U. split.
  - intros Ems. rewrite Ems in U. exact U.
  - intros Hne Hlen Htop. destruct (Nat.eqb_spec (length ms) 0) as [E0|E0]; [destruct ms; [now contradiction Hne|discriminate]|].
    eexists. split; [exact U|]. unfold left_sum. cbn [n_div n_zero n_add num binary_arith].
    set (l := map (fun i => nth (i * nf + f) samples (B754_zero false)) ms).
    assert (Ll : length l = length ms) by (unfold l; now rewrite map_length).
    destruct (values_sum samples nf f ms) as (S1 & S2). rewrite <- S1, <- S2 in *. fold l. fold l in Htop. rewrite <- Ll in *.
    apply (mean_close prec emax Hp Hm Hprec Hemax l); auto.
    + intros x Hx. unfold l in Hx. apply in_map_iff in Hx. destruct Hx as (i & <- & Hi). apply members_in in Hi.
      unfold finite_numbers in Fs. rewrite Forall_forall in Fs. apply Fs. apply nth_In. rewrite Hs. nia.
    + destruct l; [now contradiction E0|discriminate].
Qed.

Lemma sum_le (g : nat -> R) M l : 0 <= M -> (forall i, In i l -> g i <= M) -> fold_right Rplus 0 (map g l) <= INR (length l) * M.
Proof using Type.
  intros HM. induction l as [|i l IH]; intros H; [simpl; lra|]. cbn [map fold_right length]. rewrite S_INR.
  pose proof (H i (or_introl eq_refl)). specialize (IH (fun j Hj => H j (or_intror Hj))). lra.
Qed.

Lemma mean_bound (g : nat -> R) l : Rabs (fold_right Rplus 0 (map g l)) <= fold_right Rplus 0 (map (fun i => Rabs (g i)) l).
Proof using Type. induction l as [|i l IH]; simpl; [rewrite Rabs_R0; lra|]. eapply Rle_trans; [apply Rabs_triang|]. lra. Qed.

(** If the samples are at most [M] in absolute value, and [n M] is below the overflow threshold by the rounding errors, then
    after one or more steps from any centroids, also infinite ones or NaN, all coordinates are finite and at most [M] in
    absolute value, up to rounding errors. *)
Theorem c108_centroids_finite : forall order (samples centroids : list number) nf n k m M,
  finite_numbers samples -> (forall x, In x samples -> Rabs (B2R x) <= M) -> (Z.of_nat n <= 2 ^ prec)%Z ->
  (1 + u) ^ n * (INR n * M) < bpow radix2 emax -> 0 <= M ->
  nf <> 0%nat -> (length samples = n * nf)%nat -> (length centroids = k * nf)%nat -> (0 < k)%nat ->
  exists new, steps order (S m) samples nf centroids = Ok new /\ (length new = k * nf)%nat /\
    forall x, In x new -> is_finite x = true /\ Rabs (B2R x) <= (1 + u) ^ S n * M + e / 2.
Proof using Hfmt.
  intros order samples centroids nf n k m M Fs HM Hn Htop HM0 Hnf Hs. revert centroids. induction m as [|m IH]; intros centroids Hc Hk.
  - destruct (c108_centroid_accurate order samples centroids nf n k Fs Hnf Hs Hc Hk) as (v & new & E & E' & L' & A).
    destruct (step_ok order samples centroids nf n k Hnf Hs Hc Hk) as (v' & new' & Ev & Lv & _). rewrite E in Ev. injection Ev as <-.
    cbn [float_steps]. rewrite E'. cbn [bind]. exists new. splits; auto.
    assert (Up := u_range prec (proj1 Hfmt)). assert (Ep := e_pos prec emax).
    assert (P1 : 1 <= (1 + u) ^ S n) by (apply pow_R1_Rle; lra).
    intros x Hx. apply In_nth_error in Hx. destruct Hx as (p & Ep').
    assert (Hp' : (p < k * nf)%nat) by (rewrite <- L'; apply nth_error_Some; congruence).
    assert (Hdiv : (p = (p / nf) * nf + p mod nf)%nat) by (rewrite Nat.mul_comm; apply Nat.div_mod; auto).
    assert (Hmod : (p mod nf < nf)%nat) by now apply Nat.mod_upper_bound.
    assert (Hq : (p / nf < k)%nat) by (apply Nat.div_lt_upper_bound; auto; lia).
    destruct (A (p / nf)%nat (p mod nf)%nat Hq Hmod) as (A0 & A1). rewrite <- Hdiv in A0, A1. set (ms := members v (p / nf)) in *.
    destruct ms as [|i0 ms'] eqn:Ems.
    + rewrite (A0 eq_refl) in Ep'. injection Ep' as <-. split; [reflexivity|]. cbn [B2R]. rewrite Rabs_R0. nra.
    + rewrite <- Ems in *. clear A0. assert (Hlen : (length ms <= n)%nat) by (rewrite <- Lv; apply members_size).
      assert (Hco : forall i, In i ms -> Rabs (coordinate samples nf (p mod nf) i) <= M).
      { intros i Hi. apply members_in in Hi. rewrite coordinate_nth. apply HM. apply nth_In. rewrite Hs. nia. }
      assert (Sum : absolute_sum samples nf (p mod nf) ms <= INR (length ms) * M).
      { unfold absolute_sum. apply (sum_le (fun i => Rabs (coordinate samples nf (p mod nf) i))); auto. }
      assert (Lp : 0 < INR (length ms)) by (apply lt_0_INR; rewrite Ems; simpl; lia).
      assert (Spos : 0 <= absolute_sum samples nf (p mod nf) ms).
      { unfold absolute_sum. clear. induction ms as [|i l IH]; simpl; [lra|]. pose proof (Rabs_pos (coordinate samples nf (p mod nf) i)). lra. }
      destruct A1 as (y & Ey & Fy & By).
      * rewrite Ems; discriminate.
      * lia.
      * apply Rle_lt_trans with (2 := Htop). apply Rmult_le_compat; auto; [apply pow_le; lra|apply Rle_pow; [lra|auto]|].
        apply Rle_trans with (1 := Sum). apply Rmult_le_compat_r; auto. now apply le_INR.
      * rewrite Ep' in Ey. injection Ey as <-. split; auto.
        assert (Q : absolute_sum samples nf (p mod nf) ms / INR (length ms) <= M).
        { apply Rmult_le_reg_r with (INR (length ms)); auto. unfold Rdiv. rewrite Rmult_assoc, Rinv_l, Rmult_1_r by lra. lra. }
        assert (Q0 : 0 <= absolute_sum samples nf (p mod nf) ms / INR (length ms)).
        { unfold Rdiv. apply Rmult_le_pos; auto. left. now apply Rinv_0_lt_compat. }
        assert (Qe : Rabs (exact_sum samples nf (p mod nf) ms / INR (length ms)) <= absolute_sum samples nf (p mod nf) ms / INR (length ms)).
        { unfold Rdiv. rewrite Rabs_mult, (Rabs_pos_eq (/ INR (length ms))) by (left; now apply Rinv_0_lt_compat).
          apply Rmult_le_compat_r; [left; now apply Rinv_0_lt_compat|]. apply mean_bound. }
        assert (Pm : (1 + u) ^ S (length ms) <= (1 + u) ^ S n) by (apply Rle_pow; [lra|lia]).
        assert (P1' : 1 <= (1 + u) ^ S (length ms)) by (apply pow_R1_Rle; lra).
        set (ex := exact_sum samples nf (p mod nf) ms / INR (length ms)) in *.
        set (ab := absolute_sum samples nf (p mod nf) ms / INR (length ms)) in *.
        replace (B2R x) with ((B2R x - ex) + ex) by ring. eapply Rle_trans; [apply Rabs_triang|].
        apply Rle_trans with ((1 + u) ^ S (length ms) * ab + e / 2); [lra|].
        apply Rplus_le_compat_r. apply Rmult_le_compat; auto; lra.
  - destruct (step_ok order samples centroids nf n k Hnf Hs Hc Hk) as (v & new & E & L & V & E' & L' & _).
    change (steps order (S (S m)) samples nf centroids) with (c <- step order samples nf centroids ;; steps order (S m) samples nf c).
    rewrite E'. cbn [bind]. now apply IH.
Qed.

Lemma least_one (g : nat -> R) l : l <> [] -> exists i, In i l /\ forall j, In j l -> g i <= g j.
Proof using Type.
  induction l as [|i l IH]; intros H; [now contradiction H|]. destruct l as [|i' l].
  - exists i. split; [now left|]. intros j [-> |[]]. lra.
  - destruct IH as (i0 & H0 & H1); [discriminate|]. destruct (Rle_dec (g i) (g i0)) as [Hle|Hle].
    + exists i. split; [now left|]. intros j [-> |Hj]; [lra|]. specialize (H1 j Hj). lra.
    + exists i0. split; [now right|]. intros j [-> |Hj]; [lra|]. auto.
Qed.

Lemma whole_list (l : list number) : (forall x, In x l -> exists z, B2R x = IZR z) ->
  exists zs, map (fun x : number => B2R x) l = map IZR zs /\
    fold_right Rplus 0 (map (fun x : number => Rabs (B2R x)) l) = IZR (fold_right Z.add 0%Z (map Z.abs zs)).
Proof using Type.
  induction l as [|x l IH]; intros H; [exists []; split; reflexivity|]. destruct IH as (zs & E1 & E2); [intros; apply H; now right|].
  destruct (H x (or_introl eq_refl)) as (z & Ez). exists (z :: zs). cbn [map fold_right]. rewrite E1, E2, Ez, plus_IZR, abs_IZR. split; reflexivity.
Qed.

(** If all coordinates are whole numbers whose absolute values add up to at most [2^prec] in each cluster, a new centroid is
    the mean of its members rounded once, and lies between the members. *)
Theorem c108_whole_numbers : forall order (samples centroids : list number) nf n k,
  finite_numbers samples -> (forall x, In x samples -> exists z, B2R x = IZR z) -> (Z.of_nat n <= 2 ^ prec)%Z ->
  nf <> 0%nat -> (length samples = n * nf)%nat -> (length centroids = k * nf)%nat -> (0 < k)%nat ->
  exists labels new, predict order samples nf centroids = Ok labels /\ step order samples nf centroids = Ok new /\
    forall c f, (c < k)%nat -> (f < nf)%nat -> let ms := members labels c in
      ms <> [] -> absolute_sum samples nf f ms <= bpow radix2 prec ->
      exists x, nth_error new (c * nf + f) = Some x /\ is_finite x = true /\
        B2R x = round radix2 (FLT_exp (3 - emax - prec) prec) ZnearestE (exact_sum samples nf f ms / INR (length ms)) /\
        exists i j, In i ms /\ In j ms /\ coordinate samples nf f i <= B2R x <= coordinate samples nf f j.
Proof using Hfmt.
  intros order samples centroids nf n k Fs Hz Hn Hnf Hs Hc Hk. destruct Hfmt as (Hprec & Hemax).
  destruct (step_ok order samples centroids nf n k Hnf Hs Hc Hk) as (v & new & E & L & V & E' & L' & U).
  exists v, new. splits; auto. intros c f Hck Hf ms Hne Htop. specialize (U c f Hck Hf). rewrite nth_row in U.
  destruct (Nat.ltb_spec f nf); [|lia]. fold ms in U.
  destruct (Nat.eqb_spec (length ms) 0) as [E0|E0]; [destruct ms; [now contradiction Hne|discriminate]|].
  eexists. split; [exact U|]. unfold left_sum. cbn [n_div n_zero n_add num binary_arith].
  set (l := map (fun i => nth (i * nf + f) samples (B754_zero false)) ms).
  assert (Ll : length l = length ms) by (unfold l; now rewrite map_length).
  destruct (values_sum samples nf f ms) as (S1 & S2). fold l in S1, S2.
  assert (Hin : forall x, In x l -> In x samples).
  { intros x Hx. unfold l in Hx. apply in_map_iff in Hx. destruct Hx as (i & <- & Hi). apply members_in in Hi. apply nth_In. rewrite Hs. nia. }
  destruct (whole_list l) as (zs & Z1 & Z2); [intros x Hx; apply Hz; auto|].
  assert (Hlen : (length ms <= n)%nat) by (rewrite <- L; apply members_size).
  assert (Hsum : (fold_right Z.add 0 (map Z.abs zs) <= 2 ^ prec)%Z).
  { apply le_IZR. rewrite <- Z2, S2. rewrite (IZR_Zpower radix2) by lia. exact Htop. }
  destruct (whole_mean prec emax Hp Hm Hprec Hemax l zs) as (F & B).
  - intros x Hx. unfold finite_numbers in Fs. rewrite Forall_forall in Fs. auto.
  - destruct l; [now contradiction E0|discriminate].
  - exact Z1.
  - exact Hsum.
  - rewrite Ll. lia.
  - rewrite S1, Ll in B. rewrite Ll in F. split; [exact F|]. split; [exact B|]. rewrite B.
    assert (Lp : 0 < INR (length ms)) by (apply lt_0_INR; lia).
    assert (Hv := fexp_correct prec emax Hp).
    assert (Hfm : forall i, generic_format radix2 (FLT_exp (3 - emax - prec) prec) (coordinate samples nf f i)).
    { intros i. rewrite coordinate_nth. apply generic_format_B2R. }
    destruct (least_one (coordinate samples nf f) ms Hne) as (i & Hi & Li).
    destruct (least_one (fun i => - coordinate samples nf f i) ms Hne) as (j & Hj & Lj).
    exists i, j. split; auto. split; auto. split.
    + apply round_ge_generic; auto; try typeclasses eauto. apply Rmult_le_reg_r with (INR (length ms)); auto.
      unfold Rdiv. rewrite Rmult_assoc, Rinv_l, Rmult_1_r by lra.
      unfold exact_sum. clear - Li. revert Li. generalize (coordinate samples nf f i) as a. induction ms as [|b ms IH]; intros a Li; [simpl; lra|].
      cbn [length map fold_right]. rewrite S_INR. pose proof (Li b (or_introl eq_refl)). specialize (IH a (fun x Hx => Li x (or_intror Hx))). lra.
    + apply round_le_generic; auto; try typeclasses eauto. apply Rmult_le_reg_r with (INR (length ms)); auto.
      unfold Rdiv. rewrite Rmult_assoc, Rinv_l, Rmult_1_r by lra.
      unfold exact_sum. clear - Lj. revert Lj. generalize (coordinate samples nf f j) as a. induction ms as [|b ms IH]; intros a Lj; [simpl; lra|].
      cbn [length map fold_right]. rewrite S_INR. pose proof (Lj b (or_introl eq_refl)). specialize (IH a (fun x Hx => Lj x (or_intror Hx))). lra.
Qed.
End Formats.

(** *** Cases *)
Notation double_predict := (float_predict 53 1024 prec_double emax_double libstdcxx).
Notation double_forward := (float_forward 53 1024 prec_double emax_double libstdcxx).
Notation double_step := (float_step 53 1024 prec_double emax_double libstdcxx).
Notation double_steps := (float_steps 53 1024 prec_double emax_double libstdcxx).

(** With a NaN among the samples: its sample is given to centroid 0, whose coordinate is then NaN; from then on no sample is
    closer to it than infinity, but label 0 stays the default. *)
Example c108_labels_in_range_case :
  let samples := [double_of 1 0; B754_nan; double_of 5 0; B754_infinity true] in
  let centroids := [double_of 0 0; double_of 4 0] in
  double_predict samples 1 centroids = Ok [0; 0; 1; 0]%nat /\
  shown (double_steps 1 samples 1 centroids) = [SpecFloat.S754_nan; SpecFloat.S754_finite false 5629499534213120 (-50)] /\
  (c <- double_steps 2 samples 1 centroids ;; double_predict samples 1 c) = Ok [1; 0; 1; 0]%nat.
Proof. split; [|split]; vm_compute; reflexivity. Qed.

(** Seven samples in the plane and two centroids; samples so far away that all distances overflow get label 0. *)
Example c108_assignment_case :
  finite_numbers decimals /\ length decimals = 14%nat /\
  double_predict decimals 2 (firstn 4 decimals) = Ok [0; 1; 0; 1; 0; 1; 1]%nat /\
  finite_numbers far /\ double_predict far 1 (rev (firstn 2 far)) = Ok [1; 0; 1; 0; 0]%nat /\
  is_finite (double_distance (row far 1 0) (row (rev (firstn 2 far)) 1 0)) = false.
Proof.
  split; [apply finite_bool; vm_compute; reflexivity|]. split; [reflexivity|]. split; [vm_compute; reflexivity|].
  split; [apply finite_bool; vm_compute; reflexivity|]. split; vm_compute; reflexivity.
Qed.

(** The first sample against centroids 0 and 1 of the same data. *)
Example c108_assignment_accurate_case :
  adds_each_once libstdcxx /\ finite_numbers decimals /\ finite_numbers (firstn 4 decimals) /\
  double_predict decimals 2 (firstn 4 decimals) = Ok [0; 1; 0; 1; 0; 1; 1]%nat /\
  forallb (fun i => forallb (fun c => is_finite (double_distance (row decimals 2 i) (row (firstn 4 decimals) 2 c))) [0; 1]%nat) (seq 0 7) = true.
Proof.
  split; [exact libstdcxx_ok|]. split; [apply finite_bool; vm_compute; reflexivity|]. split; [apply finite_bool; vm_compute; reflexivity|].
  split; vm_compute; reflexivity.
Qed.

Lemma doubles_value (x : binary_float 53 1024) y : B2SF x = y -> B2R x = SF2R radix2 y.
Proof. intros <-. symmetry. apply SF2R_B2SF. Qed.

Lemma powers n : (1 + roundoff 53) ^ n <= 2 ^ n /\ 0 <= (1 + roundoff 53) ^ n.
Proof.
  assert (H : bpow radix2 (-53) <= bpow radix2 0) by (apply bpow_le; lia). change (bpow radix2 0) with 1 in H.
  pose proof (bpow_gt_0 radix2 (-53)). unfold roundoff. simpl (- (53))%Z. split; [apply pow_incr; lra|apply pow_le; lra].
Qed.

Lemma whole_values : map (fun x : binary_float 53 1024 => B2R x) whole = [0; 3; 10; 12].
Proof.
  unfold whole. cbn [map]. repeat (erewrite doubles_value by (vm_compute; reflexivity)).
  cbn [SF2R cond_Zopp]. unfold F2R. cbn [Fnum Fexp]. simpl. repeat (f_equal; try lra).
Qed.

Lemma whole_coordinate i : coordinate whole 1 0 i = nth i [0; 3; 10; 12] 0.
Proof.
  rewrite coordinate_nth, <- whole_values. rewrite <- (map_nth (fun x : binary_float 53 1024 => B2R x)). cbn [B2R]. f_equal. lia.
Qed.

(** 0, 3, 10 and 12 with centroids 3 and 10, after one step 1.5 and 11. *)
Example c108_centroid_accurate_case :
  finite_numbers whole /\ double_predict whole 1 (firstn 2 (skipn 1 whole)) = Ok [0; 0; 1; 1]%nat /\
  shown (double_step whole 1 (firstn 2 (skipn 1 whole))) =
    [SpecFloat.S754_finite false 6755399441055744 (-52); SpecFloat.S754_finite false 6192449487634432 (-49)] /\
  members [0; 0; 1; 1]%nat 0 = [0; 1]%nat /\ exact_sum whole 1 0 [0; 1]%nat = 3 /\ absolute_sum whole 1 0 [0; 1]%nat = 3 /\
  (1 + roundoff 53) ^ 2 * absolute_sum whole 1 0 [0; 1]%nat < bpow radix2 1024.
Proof.
  assert (A : absolute_sum whole 1 0 [0; 1]%nat = 3).
  { unfold absolute_sum. cbn [map fold_right]. rewrite !whole_coordinate. cbn [nth]. rewrite Rabs_R0, Rabs_pos_eq by lra. lra. }
  split; [apply finite_bool; vm_compute; reflexivity|]. split; [vm_compute; reflexivity|]. split; [vm_compute; reflexivity|].
  split; [reflexivity|]. split; [unfold exact_sum; cbn [map fold_right]; rewrite !whole_coordinate; cbn [nth]; lra|]. split; [exact A|].
  rewrite A. destruct (powers 2) as (P1 & P2). apply Rle_lt_trans with (2 ^ 2 * 3); [apply Rmult_le_compat_r; lra|].
  apply Rlt_le_trans with (bpow radix2 10); [simpl; lra|apply bpow_le; lia].
Qed.

(** From NaN and infinity: the first centroid gets all samples, the other one none. *)
Example c108_centroids_finite_case :
  finite_numbers whole /\ (forall x, In x whole -> Rabs (B2R x) <= 12) /\ (1 + roundoff 53) ^ 4 * (INR 4 * 12) < bpow radix2 1024 /\
  shown (double_steps 1 whole 1 [B754_nan; B754_infinity false]) = [SpecFloat.S754_finite false 7036874417766400 (-50); SpecFloat.S754_zero false] /\
  shown (double_steps 3 whole 1 [B754_nan; B754_infinity false]) =
    [SpecFloat.S754_finite false 6192449487634432 (-49); SpecFloat.S754_finite false 6755399441055744 (-52)].
Proof.
  split; [apply finite_bool; vm_compute; reflexivity|]. split.
  { intros x Hx. assert (H : In (B2R x) (map (fun x : binary_float 53 1024 => B2R x) whole)) by (apply in_map_iff; eauto).
    rewrite whole_values in H. simpl in H. destruct H as [<- |[<- |[<- |[<- |[]]]]]; rewrite Rabs_pos_eq; lra. }
  split.
  { destruct (powers 4) as (P1 & P2). apply Rle_lt_trans with (2 ^ 4 * (INR 4 * 12)); [apply Rmult_le_compat_r; simpl; lra|].
    apply Rlt_le_trans with (bpow radix2 11); [simpl; lra|apply bpow_le; lia]. }
  split; vm_compute; reflexivity.
Qed.

(** 0, 3 and 10 in one cluster: 13/3, rounded. *)
Example c108_whole_numbers_case :
  finite_numbers (firstn 3 whole) /\ (forall x, In x whole -> exists z, B2R x = IZR z) /\
  double_predict (firstn 3 whole) 1 [double_of 7 0] = Ok [0; 0; 0]%nat /\ members [0; 0; 0]%nat 0 = [0; 1; 2]%nat /\
  absolute_sum whole 1 0 [0; 1; 2]%nat <= bpow radix2 53 /\ exact_sum whole 1 0 [0; 1; 2]%nat / INR 3 = 13 / 3 /\
  shown (double_step (firstn 3 whole) 1 [double_of 7 0]) = [SpecFloat.S754_finite false 4878899596318037 (-50)].
Proof.
  split; [apply finite_bool; vm_compute; reflexivity|]. split.
  { intros x Hx. assert (H : In (B2R x) (map (fun x : binary_float 53 1024 => B2R x) whole)) by (apply in_map_iff; eauto).
    rewrite whole_values in H. simpl in H. destruct H as [<- |[<- |[<- |[<- |[]]]]]; [now exists 0%Z|now exists 3%Z|now exists 10%Z|now exists 12%Z]. }
  split; [vm_compute; reflexivity|]. split; [reflexivity|]. split.
  { unfold absolute_sum. cbn [map fold_right]. rewrite !whole_coordinate. cbn [nth]. rewrite Rabs_R0, !Rabs_pos_eq by lra.
    apply Rle_trans with (bpow radix2 10); [simpl; lra|apply bpow_le; lia]. }
  split; [unfold exact_sum; cbn [map fold_right]; rewrite !whole_coordinate; simpl; lra|vm_compute; reflexivity].
Qed.

(** Three equal samples with a centroid on them: after a step the centroid is not on them, and all distances are positive. *)
Theorem c108_identical_refuted : exists x : binary_float 53 1024,
  is_finite x = true /\ shown (double_forward [x; x; x] 1 [x]) = repeat (SpecFloat.S754_zero false) 3 /\
  exists y d, shown (double_step [x; x; x] 1 [x]) = [y] /\ y <> B2SF x /\
    shown (c <- double_step [x; x; x] 1 [x] ;; double_forward [x; x; x] 1 c) = repeat d 3 /\ SpecFloat.SFltb (SpecFloat.S754_zero false) d = true.
Proof.
  exists (tenths 1). split; [vm_compute; reflexivity|]. split; [vm_compute; reflexivity|].
  exists (SpecFloat.S754_finite false 7205759403792795 (-56)), (SpecFloat.S754_finite false 4503599627370496 (-108)).
  split; [vm_compute; reflexivity|]. split; [vm_compute; discriminate|]. split; vm_compute; reflexivity.
Qed.

(** The sum of two finite coordinates can overflow: the centroid of two equal samples is infinite, no later step brings it
    back, and all distances to it are infinite. *)
Theorem c108_overflow_refuted : exists x : binary_float 53 1024,
  is_finite x = true /\ shown (double_steps 1 [x; x] 1 [x]) = [SpecFloat.S754_infinity false] /\
  shown (double_steps 3 [x; x] 1 [x]) = [SpecFloat.S754_infinity false] /\
  shown (c <- double_steps 3 [x; x] 1 [x] ;; double_forward [x; x] 1 c) = repeat (SpecFloat.S754_infinity false) 2.
Proof. exists (double_of 1 1023). splits; vm_compute; reflexivity. Qed.

(** The centroid depends on the order in which the samples are given. *)
Theorem c108_order_refuted : exists samples samples' : list (binary_float 53 1024),
  Permutation samples samples' /\ finite_numbers samples /\
  exists c y y', shown (double_step samples 1 [c]) = [y] /\ shown (double_step samples' 1 [c]) = [y'] /\ y <> y'.
Proof.
  exists [double_of 1 53; double_of 1 0; double_of 1 0], [double_of 1 0; double_of 1 0; double_of 1 53].
  split; [exact (Permutation_middle [double_of 1 0; double_of 1 0] [] (double_of 1 53))|]. split; [apply finite_bool; vm_compute; reflexivity|].
  exists (double_of 0 0). exists (SpecFloat.S754_finite false 6004799503160661 (-1)), (SpecFloat.S754_finite false 6004799503160663 (-1)).
  split; [vm_compute; reflexivity|]. split; [vm_compute; reflexivity|]. discriminate.
Qed.

Print Assumptions c108_labels_in_range.
Print Assumptions c108_assignment.
Print Assumptions c108_assignment_accurate.
Print Assumptions c108_centroid_accurate.
Print Assumptions c108_centroids_finite.
Print Assumptions c108_whole_numbers.
Print Assumptions c108_identical_refuted.
Print Assumptions c108_overflow_refuted.
Print Assumptions c108_order_refuted.
