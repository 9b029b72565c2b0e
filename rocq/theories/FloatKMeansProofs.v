(** Lemmas on k-means in floating point. *)
From Coq Require Import Reals List Arith ZArith Bool Lia Lra Psatz.
From Flocq Require Import Core BinarySingleNaN Plus_error Relative.
From Verif Require Import Base SortingModel BufferSpec SearchModel MatrixModel KMeansModel KMeansSpec KMeansProofs FloatModel FloatProofs AccuracySpec AccuracyProofs
  FloatSilhouetteModel FloatSilhouetteProofs FloatKMeansModel FloatKMeansSpec.
Import ListNotations.
Close Scope R_scope.
Open Scope nat_scope.

(** ** The assignment, for any order *)
Section Assign.
Context {F D : Type} (lt : D -> D -> bool) (inf : D) (dist : list F -> list F -> D).
Context (samples centroids : list F) (nf n k : nat) (Hnf : nf <> 0) (Hs : length samples = n * nf) (Hc : length centroids = k * nf) (Hk : 0 < k).
Notation d i j := (dist (row samples nf i) (row centroids nf j)).

(** Whatever [lt] is: the index of a centroid, and the distances reported are those of the assignment. *)
Lemma any_index i : i < n -> exists m j, nearest_centroid_index lt inf dist samples nf centroids k i = Ok (m, j) /\ j < k /\ (m = inf /\ j = 0 \/ m = d i j).
Proof using Hnf Hs Hc Hk.
  intros Hi. unfold nearest_centroid_index.
  destruct (for_loop_inv (fun done '(m, j) => j < k /\ (m = inf /\ j = 0 \/ m = d i j))
    (fun centroid_index '(min_distance, min_index) =>
      d <- sample_to_centroid dist samples nf centroids i centroid_index ;;
      Ok (if lt d min_distance then (d, centroid_index) else (min_distance, min_index))) k 0 (inf, 0)) as ((m, j) & E & HP).
  - auto.
  - intros c (m, j) Hr HP. rewrite (one_distance dist samples centroids nf n k) by (auto; lia). simpl. eexists; split; eauto.
    destruct (lt (d i c) m); auto. split; [lia|auto].
  - exists m, j. auto.
Qed.

Lemma any_predict : exists v, samples_to_nearest_centroid_indices lt inf dist samples nf centroids = Ok v /\ length v = n /\
  forall i, i < n -> exists j, nth_error v i = Some j /\ j < k.
Proof using Hnf Hs Hc Hk.
  unfold samples_to_nearest_centroid_indices. destruct (n_rows samples centroids nf n k Hnf Hs Hc) as (-> & ->). simpl.
  apply fill_inv. intros i Hi. destruct (any_index i Hi) as (m & j & -> & Hj & _). simpl. eauto.
Qed.

(** For distances among which [lt] is a strict weak order bounded by [inf]. *)
Context (ok : D -> Prop) (Hasym : forall x y, ok x -> ok y -> lt x y = true -> lt y x = false)
  (Htrans : forall x y z, ok x -> ok y -> ok z -> lt y x = false -> lt z y = false -> lt z x = false)
  (Hok : forall i j, i < n -> j < k -> ok (d i j)) (Hoki : ok inf) (Hinf : forall x, ok x -> lt inf x = false)
  (Hinf' : forall x, ok x -> lt x inf = false -> x = inf).

Lemma good_index i : i < n -> exists j, nearest_centroid_index lt inf dist samples nf centroids k i = Ok (d i j, j) /\
  first_nearest lt dist centroids nf k (row samples nf i) j.
Proof using Hnf Hs Hc Hk Hasym Htrans Hok Hoki Hinf Hinf'.
  intros Hi. unfold nearest_centroid_index.
  assert (Irr : forall x, ok x -> lt x x = false) by (intros x Hx; destruct (lt x x) eqn:E; auto; pose proof (Hasym x x Hx Hx E); congruence).
  destruct (for_loop_inv (fun done '(m, j) => ok m /\ (done = 0 -> j = 0) /\ (j = 0 /\ m = inf \/ j < done /\ m = d i j) /\
      (forall j', j' < done -> lt (d i j') m = false) /\ forall j', j' < j -> lt m (d i j') = true)
    (fun centroid_index '(min_distance, min_index) =>
      d <- sample_to_centroid dist samples nf centroids i centroid_index ;;
      Ok (if lt d min_distance then (d, centroid_index) else (min_distance, min_index))) k 0 (inf, 0)) as ((m, j) & E & HP).
  - splits; auto; intros; lia.
  - intros c (m, j) Hr (Hm & H0 & H1 & H2 & H3). rewrite (one_distance dist samples centroids nf n k) by (auto; lia). simpl. eexists; split; eauto.
    assert (Hd : ok (d i c)) by (apply Hok; lia).
    destruct (lt (d i c) m) eqn:Em.
    + assert (Hall : forall j', j' < c -> lt (d i c) (d i j') = true).
      { intros j' Hj'. destruct (lt (d i c) (d i j')) eqn:El; auto. exfalso. specialize (H2 j' Hj').
        assert (lt (d i c) m = false); [|congruence]. apply (Htrans m (d i j') (d i c)); auto. apply Hok; lia. }
      split; [exact Hd|]. split; [lia|]. split; [right; split; [lia|reflexivity]|]. split; [|exact Hall].
      intros j' Hj'. destruct (Nat.eq_dec j' c) as [->|Hn]; [now apply Irr|]. apply Hasym; auto; [apply Hok; lia|]. apply Hall. lia.
    + split; [exact Hm|]. split; [lia|]. split; [destruct H1 as [H1|(H1 & ->)]; [now left|right; split; [lia|reflexivity]]|]. split; [|exact H3].
      intros j' Hj'. destruct (Nat.eq_dec j' c) as [->|Hn]; auto. apply H2. lia.
  - simpl in HP. destruct HP as (Hm & _ & H1 & H2 & H3). destruct H1 as [(-> & ->)|(H1 & ->)].
    + assert (E0 : d i 0 = inf) by (apply Hinf'; [apply Hok; lia|apply H2; lia]). exists 0. rewrite E, E0. split; auto. split; [split; auto|lia].
      intros j' Hj'. rewrite E0. auto.
    + exists j. split; auto. split; [split; auto|auto].
Qed.

Lemma good_predict : exists v, samples_to_nearest_centroid_indices lt inf dist samples nf centroids = Ok v /\ length v = n /\
  forall i, i < n -> exists j, nth_error v i = Some j /\ first_nearest lt dist centroids nf k (row samples nf i) j.
Proof using Hnf Hs Hc Hk Hasym Htrans Hok Hoki Hinf Hinf'.
  unfold samples_to_nearest_centroid_indices. destruct (n_rows samples centroids nf n k Hnf Hs Hc) as (-> & ->). simpl.
  apply fill_inv. intros i Hi. destruct (good_index i Hi) as (j & -> & Hj). simpl. eauto.
Qed.
End Assign.

(** ** The update, without laws of addition *)
Section Update.
Context (a : arith).
Notation num := (num a).
Context (samples : list num) (nf n k : nat) (Hnf : nf <> 0) (Hs : length samples = n * nf).

(** The members are added one after the other. *)
Definition left_sum (f : nat) (ms : list nat) : num :=
  fold_left (n_add a) (map (fun i => nth (i * nf + f) samples (n_zero a)) ms) (n_zero a).

Definition left_sums (asg : list nat) (sums : list num) : Prop :=
  length sums = k * nf /\ forall c f, c < k -> f < nf -> nth_error (row sums nf c) f = Some (left_sum f (members asg c)).

Lemma left_sums_compute asg : length asg = n -> (forall x, In x asg -> x < k) ->
  exists sums, compute_cluster_positions_sum a samples nf asg k = Ok sums /\ left_sums asg sums.
Proof using Hnf Hs.
  intros Hl Hin. unfold compute_cluster_positions_sum. destruct (n_rows samples samples nf n n Hnf Hs Hs) as (-> & _). simpl.
  destruct (for_loop_inv (fun i sums => left_sums (firstn i asg) sums)
    (fun sample_index sums =>
      cluster <- rd asg sample_index ;;
      accumulate_sample a (n_add a) samples nf sample_index cluster sums) n 0 (repeat (n_zero a) (k * nf))) as (sums & E & HP).
  - split; [apply repeat_length|]. intros c f Hc Hf. rewrite nth_row. destruct (Nat.ltb_spec f nf); [|lia]. simpl.
    assert (Hlt : c * nf + f < k * nf) by nia.
    rewrite nth_error_nth' with (d := n_zero a) by now rewrite repeat_length. now rewrite nth_repeat.
  - intros i sums Hi (H1 & H2). destruct (rd_lt asg i) as (c & Ec); [lia|]. rewrite Ec. cbn [bind].
    apply rd_ok in Ec. assert (Hc : c < k) by (apply Hin; eapply nth_error_In; eauto).
    destruct (accumulate_ok a samples nf n k Hnf Hs (n_add a) sums i c H1 ltac:(lia) Hc) as (sums' & -> & H3 & H4 & H5).
    eexists; split; eauto. split; auto. intros c' f Hc' Hf.
    assert (Ef : firstn (S i) asg = firstn i asg ++ [c]).
    { apply nth_error_ext. intros j. rewrite nth_error_firstn'. destruct (Nat.ltb_spec j (S i)).
      - destruct (Nat.eq_dec j i) as [->|Hn].
        + rewrite nth_error_app2 by (rewrite firstn_length; lia).
          replace (i - length (firstn i asg)) with 0 by (rewrite firstn_length; lia). auto.
        + rewrite nth_error_app1 by (rewrite firstn_length; lia). rewrite nth_error_firstn'.
          destruct (Nat.ltb_spec j i); auto; lia.
      - symmetry. apply nth_error_None. rewrite app_length, firstn_length. simpl. lia. }
    rewrite Ef, members_snoc. replace (length (firstn i asg)) with i by (rewrite firstn_length; lia).
    destruct (Nat.eqb_spec c c') as [<-|Hn].
    + unfold left_sum. rewrite H4, map_app, fold_left_app. cbn [map fold_left]. apply nth_transform2; [apply H2; auto|].
      rewrite (nth_row samples nf i f). destruct (Nat.ltb_spec f nf); [|lia]. apply nth_error_nth'. nia.
    + rewrite H5, app_nil_r by auto. apply H2; auto.
  - exists sums. split; auto. simpl in HP. now rewrite <- Hl, firstn_all in HP.
Qed.

(** The centroids after an update: [x / m] for the sum x of m members, zeros for an empty cluster. *)
Definition updated (asg : list nat) (new : list num) : Prop :=
  length new = k * nf /\ forall c f, c < k -> f < nf ->
    nth_error (row new nf c) f = Some (if length (members asg c) =? 0 then n_zero a else n_div a (left_sum f (members asg c)) (length (members asg c))).

Lemma update_ok asg centroids : length asg = n -> (forall x, In x asg -> x < k) -> length centroids = k * nf ->
  exists new, (sizes <- compute_cluster_sizes asg k ;; sums <- compute_cluster_positions_sum a samples nf asg k ;;
    lloyd_update_centroids a nf sizes sums centroids) = Ok new /\ updated asg new.
Proof using Hnf Hs.
  intros Hl Hin Hc. destruct (sizes_ok asg k Hin) as (sizes & -> & Lz & Hz). destruct (left_sums_compute asg Hl Hin) as (sums & -> & S1 & S2). cbn [bind].
  unfold lloyd_update_centroids. destruct (n_rows centroids centroids nf k k Hnf Hc Hc) as (-> & _). cbn [bind].
  destruct (for_loop_inv (fun done new => length new = k * nf /\ forall c f, c < done -> f < nf ->
      nth_error (row new nf c) f = Some (if length (members asg c) =? 0 then n_zero a else n_div a (left_sum f (members asg c)) (length (members asg c))))
    (fun cluster centroids =>
      size <- rd sizes cluster ;;
      new_position <-
        (if size =? 0 then sample_at sums nf cluster else mean_of a sums nf cluster size) ;;
      Ok (splice centroids (cluster * nf) (cluster * nf + nf) new_position)) k 0 centroids) as (new & E & HP).
  - split; auto. lia.
  - intros c new Hr (H1 & H2). rewrite (proj2 (rd_ok sizes c _) (Hz c ltac:(lia))). cbn [bind].
    assert (Hpos : exists v, (if length (members asg c) =? 0 then sample_at sums nf c
                              else mean_of a sums nf c (length (members asg c))) = Ok v /\ length v = nf /\
      forall f, f < nf -> nth_error v f = Some (if length (members asg c) =? 0 then n_zero a else n_div a (left_sum f (members asg c)) (length (members asg c)))).
    { assert (Lr : length (row sums nf c) = nf) by (apply (row_length' sums nf k); auto; lia). unfold mean_of.
      rewrite (sample_row' sums nf k) by (auto; lia). cbn [bind].
      destruct (Nat.eqb_spec (length (members asg c)) 0) as [E0|E0]; eexists; (split; [reflexivity|]).
      - split; auto. intros f Hf. rewrite S2 by lia. destruct (members asg c); [reflexivity|discriminate].
      - split; [now rewrite map_length|]. intros f Hf. rewrite nth_error_map, S2 by lia. reflexivity. }
    destruct Hpos as (v & -> & Hv & Hm). cbn [bind]. eexists; split; eauto.
    destruct (row_splice new nf k c v H1 ltac:(lia) Hv) as (H3 & H4 & H5). split; auto.
    intros c' f Hc' Hf. destruct (Nat.eq_dec c' c) as [->|Hn].
    + rewrite H4. auto.
    + rewrite H5 by auto. apply H2; auto. lia.
  - exists new. split; auto.
Qed.
End Update.

(** ** Sums and means *)
Open Scope R_scope.
Section Binary.
Context (prec emax : Z) (Hp : Prec_gt_0 prec) (Hm : Prec_lt_emax prec emax).
Context (Hprec : (2 <= prec)%Z) (Hemax : (prec + 3 <= emax)%Z).
Notation number := (binary_float prec emax).
Notation emin := (3 - emax - prec)%Z.
Notation fexp := (FLT_exp emin prec).
Notation fmt := (generic_format radix2 fexp).
Notation rnd := (round radix2 fexp ZnearestE).
Notation top := (bpow radix2 emax).
Notation u := (roundoff prec).
Notation e := (tiny prec emax).
Notation count := (count prec emax Hp Hm).
Notation add := (Bplus (prec_gt_0_ := Hp) (prec_lt_emax_ := Hm) mode_NE).
Notation sum l := (fold_right Rplus 0 (map (fun x : number => B2R x) l)).
Notation asum l := (fold_right Rplus 0 (map (fun x : number => Rabs (B2R x)) l)).
Implicit Types x y z : number.

Lemma rnd_plus r s : fmt r -> fmt s -> Rabs (rnd (r + s) - (r + s)) <= u * Rabs (r + s).
Proof using Hp Hprec.
  intros Fr Fs. destruct (Rle_lt_dec 0 (r + s)) as [H|H].
  - pose proof (rnd_sum prec emax Hp Hprec r s Fr Fs H). rewrite (Rabs_pos_eq (r + s)) by auto. apply Rabs_le. lra.
  - pose proof (rnd_sum prec emax Hp Hprec (- r) (- s) ltac:(now apply generic_format_opp) ltac:(now apply generic_format_opp) ltac:(lra)) as N.
    replace (- r + - s) with (- (r + s)) in N by lra. rewrite round_NE_opp in N. rewrite (Rabs_left (r + s)) by auto. apply Rabs_le. lra.
Qed.

Lemma rnd_quotient r : Rabs (rnd r - r) <= u * Rabs r + e / 2.
Proof using Hp Hprec.
  destruct (Rle_lt_dec 0 r) as [H|H].
  - pose proof (rnd_any prec emax Hp Hprec r H). rewrite (Rabs_pos_eq r) by auto. apply Rabs_le. lra.
  - pose proof (rnd_any prec emax Hp Hprec (- r) ltac:(lra)) as N. rewrite round_NE_opp in N. rewrite (Rabs_left r) by auto. apply Rabs_le. lra.
Qed.

Lemma asum_pos (l : list number) : 0 <= asum l.
Proof using. induction l as [|x l IH]; simpl; [lra|]. pose proof (Rabs_pos (B2R x)). lra. Qed.

Lemma sum_abs (l : list number) : Rabs (sum l) <= asum l.
Proof using. induction l as [|x l IH]; simpl; [rewrite Rabs_R0; lra|]. apply Rle_trans with (1 := Rabs_triang _ _). lra. Qed.

Lemma sum_close (l : list number) : forall a s t h, is_finite a = true -> Rabs (B2R a - s) <= ((1 + u) ^ h - 1) * t -> Rabs s <= t ->
  (forall x, In x l -> is_finite x = true) -> (1 + u) ^ (h + length l) * (t + asum l) < top ->
  is_finite (fold_left add l a) = true /\
  Rabs (B2R (fold_left add l a) - (s + sum l)) <= ((1 + u) ^ (h + length l) - 1) * (t + asum l).
Proof using Hprec Hemax.
  pose proof (u_range prec Hprec) as U.
  induction l as [|x l IH]; intros a s t h Fa Ha Hs Hl Htop; cbn [fold_left length map fold_right] in *.
  { rewrite Nat.add_0_r in *. split; auto. now rewrite !Rplus_0_r. }
  assert (Fx : is_finite x = true) by (apply Hl; now left). pose proof (Rabs_pos (B2R x)) as Px. pose proof (asum_pos l) as Pl.
  pose proof (Rabs_pos s) as Ps. pose proof (grow_pos prec Hprec h) as G. pose proof (grow_mono prec Hprec (S h) (h + S (length l)) ltac:(lia)) as GM.
  set (g := (1 + u) ^ h) in *.
  pose proof (Bplus_correct prec emax Hp Hm mode_NE a x Fa Fx) as C. cbn [round_mode] in C.
  pose proof (rnd_plus (B2R a) (B2R x) (generic_format_B2R _ _ _) (generic_format_B2R _ _ _)) as E.
  assert (H1 : Rabs (B2R a + B2R x - (s + B2R x)) <= (g - 1) * t) by (replace (B2R a + B2R x - (s + B2R x)) with (B2R a - s) by lra; exact Ha).
  assert (H2 : Rabs (s + B2R x) <= t + Rabs (B2R x)) by (apply Rle_trans with (1 := Rabs_triang _ _); lra).
  assert (H3 : Rabs (B2R a + B2R x) <= g * (t + Rabs (B2R x))).
  { replace (B2R a + B2R x) with ((B2R a + B2R x - (s + B2R x)) + (s + B2R x)) by lra. apply Rle_trans with (1 := Rabs_triang _ _). nra. }
  assert (H4 : Rabs (rnd (B2R a + B2R x) - (s + B2R x)) <= ((1 + u) ^ S h - 1) * (t + Rabs (B2R x))).
  { replace (rnd (B2R a + B2R x) - (s + B2R x)) with ((rnd (B2R a + B2R x) - (B2R a + B2R x)) + (B2R a + B2R x - (s + B2R x))) by lra.
    apply Rle_trans with (1 := Rabs_triang _ _). cbn [pow]. fold g. nra. }
  assert (L : Rabs (rnd (B2R a + B2R x)) < top).
  { apply Rle_lt_trans with (2 := Htop). replace (rnd (B2R a + B2R x)) with ((rnd (B2R a + B2R x) - (s + B2R x)) + (s + B2R x)) by lra.
    apply Rle_trans with (1 := Rabs_triang _ _). apply Rle_trans with ((1 + u) ^ S h * (t + Rabs (B2R x))); [lra|].
    apply Rmult_le_compat; try lra. apply pow_le. lra. }
  rewrite Rlt_bool_true in C by exact L. destruct C as (Ev & F & _).
  replace (h + S (length l))%nat with (S h + length l)%nat in * by lia.
  destruct (IH (add a x) (s + B2R x) (t + Rabs (B2R x)) (S h)) as (I1 & I2); auto.
  - rewrite Ev. exact H4.
  - intros y Hy. apply Hl. now right.
  - rewrite Rplus_assoc. exact Htop.
  - split; auto. rewrite !Rplus_assoc in I2. exact I2.
Qed.

Lemma mean_close (l : list number) : (forall x, In x l -> is_finite x = true) -> l <> [] -> (Z.of_nat (length l) <= 2 ^ prec)%Z ->
  (1 + u) ^ length l * asum l < top ->
  let m := Bdiv mode_NE (fold_left add l (B754_zero false)) (count (length l)) in
  is_finite m = true /\ Rabs (B2R m - sum l / INR (length l)) <= ((1 + u) ^ S (length l) - 1) * (asum l / INR (length l)) + e / 2.
Proof using Hprec Hemax.
  intros Hl Hne Hk Ht m. pose proof (u_range prec Hprec) as U. pose proof (e_pos prec emax) as Ep.
  assert (H1 : (1 <= length l)%nat) by (destruct l; [congruence|simpl; lia]).
  assert (Hk' : 1 <= INR (length l)) by (replace 1 with (INR 1) by reflexivity; apply le_INR; lia).
  destruct (sum_close l (B754_zero false) 0 0 0) as (F & C); auto.
  { cbn [B2R]. rewrite Rminus_0_r, Rabs_R0. lra. } { rewrite Rabs_R0. lra. } { cbn [Nat.add]. rewrite Rplus_0_l. exact Ht. }
  cbn [Nat.add] in C. rewrite !Rplus_0_l in C. set (S0 := fold_left add l (B754_zero false)) in *.
  destruct (count_ok prec emax Hp Hm Hprec Hemax (length l) H1) as (Fc & _ & _ & _).
  { apply Z.le_trans with (1 := Hk). apply Z.pow_le_mono_r; lia. }
  pose proof (count_exact prec emax Hp Hm Hprec Hemax (length l) H1 Hk) as Vc.
  pose proof (Bdiv_correct prec emax Hp Hm mode_NE S0 (count (length l)) ltac:(rewrite Vc; lra)) as D. cbn [round_mode] in D. rewrite Vc in D.
  assert (Hi : 0 < / INR (length l) <= 1).
  { split; [apply Rinv_0_lt_compat; lra|]. rewrite <- Rinv_1. apply Rinv_le_contravar; lra. }
  assert (L : Rabs (rnd (B2R S0 / INR (length l))) < top).
  { apply Rle_lt_trans with (Rabs (B2R S0)); [|apply abs_B2R_lt_emax].
    apply (rnd_abs_le prec emax); auto; [apply generic_format_abs, generic_format_B2R|]. unfold Rdiv. rewrite Rabs_mult, (Rabs_pos_eq (/ _)) by lra.
    pose proof (Rabs_pos (B2R S0)). nra. }
  rewrite Rlt_bool_true in D by exact L. destruct D as (Ev & Fv & _). unfold m. rewrite Fv. split; [exact F|]. rewrite Ev. change (SpecFloat.fexp prec emax) with fexp.
  pose proof (rnd_quotient (B2R S0 / INR (length l))) as Q. pose proof (sum_abs l) as Sa. pose proof (asum_pos l) as Pl.
  pose proof (grow_pos prec Hprec (length l)) as G. set (g := (1 + u) ^ length l) in *. set (k := / INR (length l)) in *. unfold Rdiv in *. fold k in Q |- *.
  assert (C' : Rabs (B2R S0 * k - sum l * k) <= (g - 1) * (asum l * k)).
  { replace (B2R S0 * k - sum l * k) with ((B2R S0 - sum l) * k) by lra. rewrite Rabs_mult, (Rabs_pos_eq k) by lra.
    replace ((g - 1) * (asum l * k)) with ((g - 1) * asum l * k) by ring. apply Rmult_le_compat_r; [lra|exact C]. }
  assert (Sk : Rabs (sum l * k) <= asum l * k) by (rewrite Rabs_mult, (Rabs_pos_eq k) by lra; apply Rmult_le_compat_r; lra).
  assert (Ak : Rabs (B2R S0 * k) <= g * (asum l * k)).
  { replace (B2R S0 * k) with ((B2R S0 * k - sum l * k) + sum l * k) by lra. apply Rle_trans with (1 := Rabs_triang _ _). lra. }
  replace (rnd (B2R S0 * k) - sum l * k) with ((rnd (B2R S0 * k) - B2R S0 * k) + (B2R S0 * k - sum l * k)) by lra.
  apply Rle_trans with (1 := Rabs_triang _ _). cbn [pow]. fold g. pose proof (Rmult_le_compat_l u _ _ ltac:(lra) Ak) as M.
  set (w := asum l * k) in *. set (v := Rabs (B2R S0 * k)) in *. lra.
Qed.

(** *** Whole numbers *)
Lemma fmt_whole (z : Z) : (Z.abs z <= 2 ^ prec)%Z -> fmt (IZR z).
Proof using Hprec Hemax Hp.
  intros H. destruct (Z.eq_dec (Z.abs z) (2 ^ prec)) as [E|E].
  - assert (F : fmt (bpow radix2 prec)) by (apply fmt_bpow; auto; lia). rewrite <- pow_Z in F by lia.
    destruct (Z.abs_eq_or_opp z) as [Z1|Z1].
    + rewrite <- Z1, E. exact F.
    + replace z with (- 2 ^ prec)%Z by lia. rewrite opp_IZR. now apply generic_format_opp.
  - apply generic_format_FLT. exists (Float radix2 z 0); cbn [Fnum Fexp].
    + unfold F2R. cbn [Fnum Fexp]. simpl (bpow radix2 0). lra.
    + change (radix_val radix2) with 2%Z. lia.
    + lia.
Qed.

Lemma whole_sum (l : list number) : forall a (z : Z) (zs : list Z), is_finite a = true -> B2R a = IZR z -> (forall x, In x l -> is_finite x = true) ->
  map (fun x : number => B2R x) l = map IZR zs -> (Z.abs z + fold_right Z.add 0 (map Z.abs zs) <= 2 ^ prec)%Z ->
  is_finite (fold_left add l a) = true /\ B2R (fold_left add l a) = IZR (z + fold_right Z.add 0%Z zs).
Proof using Hprec Hemax.
  induction l as [|x l IH]; intros a z zs Fa Va Hl Hz Hb; destruct zs as [|w zs]; try discriminate; cbn [fold_left map fold_right] in *.
  { rewrite Z.add_0_r. auto. }
  injection Hz as Vx Hz. assert (Fx : is_finite x = true) by (apply Hl; now left).
  pose proof (Bplus_correct prec emax Hp Hm mode_NE a x Fa Fx) as C. cbn [round_mode] in C. rewrite Va, Vx, <- plus_IZR in C.
  assert (Hpos : (0 <= fold_right Z.add 0 (map Z.abs zs))%Z) by (clear; induction zs; simpl; lia).
  assert (F : fmt (IZR (z + w))) by (apply fmt_whole; lia). change (SpecFloat.fexp prec emax) with fexp in C. rewrite (round_generic radix2 fexp ZnearestE _ F) in C.
  assert (L : Rabs (IZR (z + w)) < top).
  { rewrite <- abs_IZR. apply Rle_lt_trans with (IZR (2 ^ prec)); [apply IZR_le; lia|]. rewrite pow_Z by lia. apply bpow_lt. lia. }
  rewrite Rlt_bool_true in C by exact L. destruct C as (Ev & Fv & _).
  destruct (IH (add a x) (z + w)%Z zs) as (I1 & I2); auto; [intros y Hy; apply Hl; now right|lia|].
  split; auto. rewrite I2. f_equal. lia.
Qed.

Lemma whole_mean (l : list number) (zs : list Z) : (forall x, In x l -> is_finite x = true) -> l <> [] -> map (fun x : number => B2R x) l = map IZR zs ->
  (fold_right Z.add 0 (map Z.abs zs) <= 2 ^ prec)%Z -> (Z.of_nat (length l) <= 2 ^ prec)%Z ->
  let m := Bdiv mode_NE (fold_left add l (B754_zero false)) (count (length l)) in
  is_finite m = true /\ B2R m = rnd (sum l / INR (length l)).
Proof using Hprec Hemax.
  intros Hl Hne Hz Hb Hk m. assert (H1 : (1 <= length l)%nat) by (destruct l; [congruence|simpl; lia]).
  assert (Hk' : 1 <= INR (length l)) by (replace 1 with (INR 1) by reflexivity; apply le_INR; lia).
  destruct (whole_sum l (B754_zero false) 0 zs) as (F & V); auto. set (S0 := fold_left add l (B754_zero false)) in *. rewrite Z.add_0_l in V.
  assert (Es : sum l = B2R S0).
  { rewrite V, Hz. clear. induction zs as [|w zs IH]; simpl; auto. now rewrite plus_IZR, IH. }
  pose proof (count_exact prec emax Hp Hm Hprec Hemax (length l) H1 Hk) as Vc.
  pose proof (Bdiv_correct prec emax Hp Hm mode_NE S0 (count (length l)) ltac:(rewrite Vc; lra)) as D. cbn [round_mode] in D. rewrite Vc in D.
  assert (Hi : 0 < / INR (length l) <= 1).
  { split; [apply Rinv_0_lt_compat; lra|]. rewrite <- Rinv_1. apply Rinv_le_contravar; lra. }
  assert (L : Rabs (rnd (B2R S0 / INR (length l))) < top).
  { apply Rle_lt_trans with (Rabs (B2R S0)); [|apply abs_B2R_lt_emax].
    apply (rnd_abs_le prec emax); auto; [apply generic_format_abs, generic_format_B2R|]. unfold Rdiv. rewrite Rabs_mult, (Rabs_pos_eq (/ _)) by lra.
    pose proof (Rabs_pos (B2R S0)). nra. }
  rewrite Rlt_bool_true in D by exact L. destruct D as (Ev & Fv & _). unfold m. rewrite Fv, Ev, Es. auto.
Qed.
End Binary.
