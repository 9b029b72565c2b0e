(** Lemmas on k-means under a change of coordinates. *)
From Coq Require Import List Arith ZArith QArith Qcanon Qcabs Lia Bool Permutation.
From Verif Require Import Base SortingModel BufferModel BufferSpec BufferProofs SearchModel MatrixModel MatrixProofs
  KMeansModel KMeansSpec KMeansProofs KMeansCases KMeansInertia HamerlyConverge AffineSpec.
Import ListNotations.
Local Open Scope nat_scope.
Set Default Proof Using "Type".

(** ** Results mapped by a function *)
Definition res_map {A B} (f : A -> B) (r : res A) : res B :=
  match r with Ok x => Ok (f x) | UB => UB | Throw => Throw | Fuel => Fuel end.

Lemma for_loop_map {S S'} (f : S -> S') body body' : forall count first s,
  (forall i t, first <= i < first + count -> body' i (f t) = res_map f (body i t)) ->
  for_loop count first body' (f s) = res_map f (for_loop count first body s).
Proof.
  induction count; intros first s H; simpl; auto. rewrite H by lia. destruct (body first s); simpl; auto.
  apply IHcount. intros i t Hi. apply H. lia.
Qed.

Lemma map_upd {A B} (f : A -> B) : forall l i x, map f (upd l i x) = upd (map f l) i (f x).
Proof. induction l; intros [|i] x; simpl; auto. now rewrite IHl. Qed.
Lemma wr_map {A B} (f : A -> B) l i x : wr (map f l) i (f x) = res_map (map f) (wr l i x).
Proof. unfold wr. rewrite map_length. destruct (i <? length l); simpl; auto. now rewrite map_upd. Qed.
Lemma rd_map {A B} (f : A -> B) l i : rd (map f l) i = res_map f (rd l i).
Proof. unfold rd. rewrite nth_error_map. destruct (nth_error l i); auto. Qed.

Lemma fill_map {A B} (g : A -> B) blank count f f' : (forall i, i < count -> f' i = res_map g (f i)) ->
  fill (g blank) count f' = res_map (map g) (fill blank count f).
Proof.
  intros H. unfold fill. replace (repeat (g blank) count) with (map g (repeat blank count)).
  2:{ clear. induction count; simpl; auto. now rewrite IHcount. }
  apply for_loop_map. intros i v Hi. rewrite H by lia. destruct (f i); simpl; auto. apply wr_map.
Qed.

Lemma fill_ext {A} (blank : A) count f f' : (forall i, i < count -> f' i = f i) -> fill blank count f' = fill blank count f.
Proof.
  intros H. rewrite (fill_map (fun x => x) blank count f f').
  - destruct (fill blank count f); simpl; auto. now rewrite map_id.
  - intros i Hi. rewrite H by auto. now destruct (f i).
Qed.

(** What the first run returns, the second returns too, up to [R]. *)
Definition fsim {A B} (R : A -> B -> Prop) (x : res A) (y : res B) : Prop := forall r, x = Ok r -> exists r', y = Ok r' /\ R r r'.

Lemma fsim_bind {A B C D} (R : A -> B -> Prop) (Q : C -> D -> Prop) x y f g :
  fsim R x y -> (forall r r', x = Ok r -> R r r' -> fsim Q (f r) (g r')) -> fsim Q (bind x f) (bind y g).
Proof.
  intros H1 H2 r E. apply bind_ok in E. destruct E as (u & Eu & E). destruct (H1 u Eu) as (u' & -> & Hr). simpl.
  now apply (H2 u u' Eu Hr).
Qed.
Lemma fsim_map {A B} (f : A -> B) x y : y = res_map f x -> fsim (fun r r' => r' = f r) x y.
Proof. intros -> r ->. simpl. eauto. Qed.
Lemma fsim_ok {A B} (R : A -> B -> Prop) x y : R x y -> fsim R (Ok x) (Ok y).
Proof. intros H r E. injection E as <-. eauto. Qed.
Lemma fsim_loop {S S'} (R : S -> S' -> Prop) body body' : forall count first s s',
  R s s' -> (forall i t t', first <= i < first + count -> R t t' -> fsim R (body i t) (body' i t')) ->
  fsim R (for_loop count first body s) (for_loop count first body' s').
Proof.
  induction count; intros first s s' H0 H; simpl; [now apply fsim_ok|].
  apply (fsim_bind R); [apply H; auto; lia|]. intros r r' _ Hr. apply IHcount; auto. intros i t t' Hi. apply H. lia.
Qed.

(** ** Vectors *)
Section Vectors.
Local Open Scope Qc_scope.
Notation at_ v f := (nth f v (0 : Qc)).

Lemma vec_ext (v w : list Qc) n : length v = n -> length w = n -> (forall f, (f < n)%nat -> at_ v f = at_ w f) -> v = w.
Proof.
  intros H1 H2 H. apply nth_error_ext. intros f. destruct (Nat.lt_ge_cases f n) as [Hf|Hf].
  - rewrite (List.nth_error_nth' v (n := f) (0 : Qc)), (List.nth_error_nth' w (n := f) (0 : Qc)) by lia. f_equal. auto.
  - rewrite !(proj2 (nth_error_None _ _)); auto; lia.
Qed.
Lemma vplus_length p r : length p = length r -> length (vplus p r) = length p.
Proof. intros. unfold vplus. rewrite map_length, combine_length. lia. Qed.
Lemma vminus_length p r : length p = length r -> length (vminus p r) = length p.
Proof. intros. unfold vminus. rewrite map_length, combine_length. lia. Qed.
Lemma vplus_at p r : forall f, length p = length r -> at_ (vplus p r) f = at_ p f + at_ r f.
Proof.
  unfold vplus. revert r. induction p as [|x p IH]; intros [|y r] f H; simpl in *; try discriminate.
  - destruct f; ring.
  - destruct f; auto.
Qed.
Lemma vminus_at p r : forall f, length p = length r -> at_ (vminus p r) f = at_ p f - at_ r f.
Proof.
  unfold vminus. revert r. induction p as [|x p IH]; intros [|y r] f H; simpl in *; try discriminate.
  - destruct f; ring.
  - destruct f; auto.
Qed.
Lemma zero_at n : forall f, at_ (repeat (0 : Qc) n) f = 0.
Proof. induction n; intros [|f]; simpl; auto. Qed.

Lemma row_at (m : list Qc) w i f : (f < w)%nat -> nth f (row m w i) 0 = nth (i * w + f)%nat m 0.
Proof.
  intros Hf. pose proof (nth_row m w i f) as E. destruct (Nat.ltb_spec f w); [|lia].
  rewrite <- !nth_default_eq. unfold nth_default. now rewrite E.
Qed.

(** The number [m]. *)
Definition nq (m : nat) : Qc := Q2Qc (inject_Z (Z.of_nat m)).
Lemma nq_0 : nq 0 = 0.
Proof. reflexivity. Qed.
Lemma nq_S m : nq (S m) = nq m + 1.
Proof.
  unfold nq. apply Qc_is_canon. unfold Qcplus, Q2Qc. cbn [this]. rewrite !Qred_correct.
  rewrite Nat2Z.inj_succ, <- Z.add_1_r, inject_Z_plus. reflexivity.
Qed.
Lemma nq_pos m : (m <> 0)%nat -> nq m <> 0.
Proof.
  intros H E. assert (E' : (inject_Z (Z.of_nat m) == 0)%Q).
  { assert (E2 : (this (nq m) == this 0)%Q) by now rewrite E. unfold nq, Q2Qc in E2. cbn [this] in E2.
    now rewrite !Qred_correct in E2. }
  unfold inject_Z, Qeq in E'. simpl in E'. lia.
Qed.
End Vectors.

(** ** The change of coordinates on sums and means *)
Section Change.
Context (nf nf' : nat) (d d' : list Qc -> list Qc -> Qc) (c : Qc) (T : list Qc -> list Qc).
Context (HT : change_of_coordinates nf nf' d d' c T) (Hnf : nf <> 0) (Hnf' : nf' <> 0).
Notation A := (rational d).
Notation A' := (rational d').
Notation at_ v f := (nth f v (0 : Qc)%Qc).
Notation zero := (repeat (0 : Qc)%Qc nf).

Section Algebra.
Local Open Scope Qc_scope.

(** Component [f] of the linear part. *)
Definition lin (p : list Qc) (f : nat) : Qc := at_ (T p) f - at_ (T zero) f.

Lemma lin_plus p r f : length p = nf -> length r = nf -> lin (vplus p r) f = lin p f + lin r f.
Proof using HT Hnf Hnf'.
  intros Hp Hr. unfold lin.
  assert (Hz : length zero = nf) by apply repeat_length.
  assert (E : vminus (vplus p r) zero = vplus p r).
  { apply (vec_ext _ _ nf); rewrite ?vminus_length, ?vplus_length; rewrite ?vplus_length; try congruence; try lia.
    intros g Hg. rewrite vminus_at, zero_at by (rewrite vplus_length; lia). ring. }
  rewrite <- E at 1. rewrite (cc_affine _ _ _ _ _ _ HT) by auto.
  pose proof (cc_length _ _ _ _ _ _ HT) as L.
  rewrite vminus_at, vplus_at by (rewrite ?vplus_length, ?L; auto; rewrite ?L; auto). ring.
Qed.

(** [m] times a vector. *)
Fixpoint times (m : nat) (p : list Qc) : list Qc := match m with O => zero | S m => vplus (times m p) p end.

Lemma times_length m p : length p = nf -> length (times m p) = nf.
Proof.
  intros Hp. induction m; simpl; [apply repeat_length|]. rewrite vplus_length; auto. congruence.
Qed.
Lemma times_at m p f : length p = nf -> at_ (times m p) f = nq m * at_ p f.
Proof.
  intros Hp. induction m; simpl; [rewrite zero_at, nq_0; ring|].
  rewrite vplus_at, IHm, nq_S by (rewrite times_length; auto). ring.
Qed.
Lemma lin_times m p f : length p = nf -> lin (times m p) f = nq m * lin p f.
Proof using HT Hnf Hnf'.
  intros Hp. induction m; simpl.
  - unfold lin. rewrite nq_0. ring.
  - rewrite lin_plus, IHm, nq_S by (auto using times_length). ring.
Qed.

(** A sum of [m] points: its image under the linear part plus [m] times the image of the origin. *)
Lemma sum_image (ms : list nat) (x x' : nat -> list Qc) f :
  (forall i, In i ms -> length (x i) = nf /\ x' i = T (x i)) ->
  fold_right (fun i acc => at_ (x' i) f + acc) 0 ms =
  lin (fold_right (fun i acc => vplus acc (x i)) zero ms) f + nq (length ms) * at_ (T zero) f.
Proof using HT Hnf Hnf'.
  induction ms as [|i ms IH]; intros H.
  - simpl. unfold lin. rewrite nq_0. ring.
  - cbn [fold_right length]. rewrite IH by (intros; apply H; simpl; auto).
    destruct (H i) as (Hl & ->); [simpl; auto|].
    assert (Hacc : forall l, (forall j, In j l -> length (x j) = nf) ->
       length (fold_right (fun i acc => vplus acc (x i)) zero l) = nf).
    { clear - Hl. induction l; intros G; simpl; [apply repeat_length|].
      rewrite vplus_length; rewrite IHl; auto; try (intros; apply G; simpl; auto). symmetry. apply G. simpl; auto. }
    rewrite lin_plus; auto.
    + rewrite nq_S. unfold lin. ring.
    + apply Hacc. intros j Hj. apply H. simpl; auto.
Qed.
End Algebra.

Lemma sum_at (samples : list Qc) n ms f : length samples = n * nf -> (forall i, In i ms -> i < n) -> f < nf ->
  at_ (fold_right (fun i acc => vplus acc (row samples nf i)) zero ms) f = feature_sum A samples nf f ms /\
  length (fold_right (fun i acc => vplus acc (row samples nf i)) zero ms) = nf.
Proof using HT Hnf Hnf'.
  intros Hs Hms Hf. induction ms as [|i ms IH]; cbn [fold_right feature_sum].
  - rewrite zero_at, repeat_length. auto.
  - destruct IH as (IH1 & IH2); [intros; apply Hms; simpl; auto|].
    assert (Hl : length (row samples nf i) = nf) by (apply (row_length' samples nf n); auto; apply Hms; simpl; auto).
    split; [|rewrite vplus_length; congruence]. rewrite vplus_at by congruence. rewrite IH1, row_at by auto.
    unfold feature_sum. cbn [fold_right]. apply (ok_add_comm _ (rational_ok d)).
Qed.

Lemma mean_image samples samples' n ms v v' : image nf nf' T n samples samples' -> (forall i, In i ms -> i < n) -> ms <> [] ->
  is_mean A samples nf ms v -> is_mean A' samples' nf' ms v' -> v' = T v.
Proof using HT Hnf Hnf'.
  intros (Hs & Hs' & Him) Hms Hne (Lv & Hv) (Lv' & Hv').
  assert (Hm : length ms <> 0) by (destruct ms; simpl; congruence).
  set (V := fold_right (fun i acc => vplus acc (row samples nf i)) zero ms).
  assert (HV : length V = nf) by (apply (sum_at samples n ms 0); auto; lia).
  assert (ET : times (length ms) v = V).
  { apply (vec_ext _ _ nf); auto using times_length. intros f Hf. rewrite times_at by auto.
    unfold V. rewrite (proj1 (sum_at samples n ms f Hs Hms Hf)).
    rewrite (nth_error_nth _ _ _ (Hv f Hf)). cbn [n_div rational]. unfold qc_div. fold (nq (length ms)).
    rewrite Qcmult_comm. unfold Qcdiv. rewrite <- Qcmult_assoc, (Qcmult_comm (/ _)), Qcmult_inv_r, Qcmult_1_r by now apply nq_pos.
    reflexivity. }
  apply (vec_ext _ _ nf'); auto; [now apply (cc_length _ _ _ _ _ _ HT)|]. intros f Hf.
  rewrite (nth_error_nth _ _ _ (Hv' f Hf)).
  assert (ES : feature_sum A' samples' nf' f ms = fold_right (fun i acc => at_ (row samples' nf' i) f + acc)%Qc (0 : Qc)%Qc ms).
  { unfold feature_sum. cbn [n_add n_zero rational]. clear - Hf. induction ms; cbn [fold_right]; auto. now rewrite IHms, row_at. }
  rewrite ES, (sum_image ms (row samples nf) (row samples' nf') f).
  2:{ intros i Hi. split; [apply (row_length' samples nf n); auto|]. auto. }
  fold V. rewrite <- ET, lin_times by auto. cbn [n_div rational]. unfold qc_div. fold (nq (length ms)).
  unfold lin. pose proof (nq_pos _ Hm). field. auto.
Qed.

(** ** Distances times a constant *)
Definition by_c (x : Qc) : Qc := (c * x)%Qc.
Definition by_ext (x : option Qc) : option Qc := option_map by_c x.

Lemma c_pos : (0 < c)%Qc.
Proof using HT Hnf Hnf'. apply (cc_positive _ _ _ _ _ _ HT). Qed.
Lemma by_lt x y : qc_lt (by_c x) (by_c y) = qc_lt x y.
Proof using HT Hnf Hnf'.
  pose proof c_pos as Hc. unfold by_c. destruct (qc_lt x y) eqn:E.
  - apply qc_lt_true in E. apply qc_lt_true. rewrite !(Qcmult_comm c). now apply Qcmult_lt_compat_r.
  - apply qc_lt_false in E. apply qc_lt_false. rewrite !(Qcmult_comm c). apply Qcmult_le_compat_r; auto. now apply Qclt_le_weak.
Qed.
Lemma by_eq x y : qc_eq (by_c x) (by_c y) = qc_eq x y.
Proof using HT Hnf Hnf'.
  assert (R : forall z, qc_eq z z = true).
  { intros z. unfold qc_eq. destruct (Qceq_alt z z) as (H & _). now rewrite (H eq_refl). }
  destruct (qc_eq x y) eqn:E.
  - apply qc_eq_true in E. subst. apply R.
  - destruct (qc_eq (by_c x) (by_c y)) eqn:E'; auto. apply qc_eq_true in E'. unfold by_c in E'.
    assert (x = y); [|subst; now rewrite R in E].
    pose proof c_pos as Hc. apply (f_equal (Qcmult (/ c)%Qc)) in E'.
    assert (Hi : (/ c * c = 1)%Qc) by (apply Qcmult_inv_l; intros ->; now apply (Qclt_not_eq _ _ Hc)).
    rewrite !Qcmult_assoc, Hi, !Qcmult_1_l in E'. auto.
Qed.
Lemma by_elt x y : e_lt A' (by_ext x) (by_ext y) = e_lt A x y.
Proof using HT Hnf Hnf'. destruct x, y; simpl; auto. apply by_lt. Qed.
Lemma by_eeq x y : e_eq A' (by_ext x) (by_ext y) = e_eq A x y.
Proof using HT Hnf Hnf'. destruct x, y; simpl; auto. apply by_eq. Qed.
Lemma by_lowest x y : lowest_lt A' (by_ext x) (by_ext y) = lowest_lt A x y.
Proof using HT Hnf Hnf'. destruct x, y; simpl; auto. apply by_lt. Qed.
Lemma by_half x : e_half A' (by_ext x) = by_ext (e_half A x).
Proof using HT Hnf Hnf'. destruct x; simpl; auto. unfold by_c, qc_div, Qcdiv. f_equal. ring. Qed.
Lemma by_add x v : e_add A' (by_ext x) (by_c v) = by_ext (e_add A x v).
Proof using HT Hnf Hnf'. destruct x; simpl; auto. unfold by_c. f_equal. ring. Qed.
Lemma by_sub x v : e_sub A' (by_ext x) (by_c v) = by_ext (e_sub A x v).
Proof using HT Hnf Hnf'. destruct x; simpl; auto. unfold by_c. f_equal. ring. Qed.
Lemma by_max x y : e_max A' (by_ext x) (by_ext y) = by_ext (e_max A x y).
Proof using HT Hnf Hnf'. unfold e_max. rewrite by_elt. now destruct (e_lt A x y). Qed.
Lemma by_total l : total A' (map by_ext l) = by_ext (total A l).
Proof using HT Hnf Hnf'.
  unfold total. cbn [n_zero rational].
  assert (G : forall l acc, fold_left (fun acc x => match x with Some v => e_add A' acc v | None => None end) (map by_ext l) (by_ext acc) =
     by_ext (fold_left (fun acc x => match x with Some v => e_add A acc v | None => None end) l acc)).
  { clear l. induction l as [|x l IH]; intros acc; simpl; auto.
    rewrite <- IH. destruct x; simpl; auto. now rewrite by_add. }
  rewrite <- G. f_equal. unfold by_ext, option_map, by_c. f_equal. ring.
Qed.

Lemma max_from_map {D D'} (g : D -> D') lt lt' : (forall x y, lt' (g x) (g y) = lt x y) -> forall l bi b i,
  max_element_from lt' bi (g b) i (map g l) = (fun '(j, x) => (j, g x)) (max_element_from lt bi b i l).
Proof using.
  intros H. induction l as [|x l IH]; intros bi b i; simpl; auto. rewrite H. destruct (lt b x); apply IH.
Qed.
Lemma max_map {D D'} (g : D -> D') lt lt' l : (forall x y, lt' (g x) (g y) = lt x y) ->
  get_max_index_value_pair lt' (map g l) = res_map (fun '(j, x) => (j, g x)) (get_max_index_value_pair lt l).
Proof using.
  intros H. destruct l as [|x l]; simpl; auto. f_equal. now apply max_from_map.
Qed.
Lemma second_max_map l : get_second_max_index_value_pair A' (map by_c l) =
  res_map (fun '(j, x) => (j, by_ext x)) (get_second_max_index_value_pair A l).
Proof using HT Hnf Hnf'.
  unfold get_second_max_index_value_pair.
  cbn [num n_lt rational]. rewrite (max_map by_c qc_lt qc_lt l by_lt).
  destruct (get_max_index_value_pair qc_lt l) as [(mi, mv)| | |]; simpl; auto.
  rewrite map_length. destruct (length l <? 2); simpl; auto. rewrite map_map.
  change (map (fun x => Some (by_c x)) l) with (map (fun x => by_ext (Some x)) l). rewrite <- (map_map Some by_ext).
  change (@None Qc) with (by_ext None) at 1. rewrite wr_map. destruct (wr (map Some l) mi None); simpl; auto.
  apply (max_map by_ext). apply by_lowest.
Qed.

(** ** Searching the centroids *)
Ltac nn := change (ext A) with (option Qc) in *; change (ext A') with (option Qc) in *; change (num A) with Qc in *; change (num A') with Qc in *.
Ltac ds := nn; match goal with |- context [@sample_to_centroid Qc ?D ?e ?s ?w ?cs ?i ?j] =>
  destruct (@sample_to_centroid Qc D e s w cs i j) as [x| | |] end; cbn [bind res_map]; auto.
Section Data.
Context (n k : nat) (samples samples' : list Qc) (Hsam : image nf nf' T n samples samples').
Notation Image := (image nf nf' T).

Lemma data_length : length samples = n * nf.
Proof using Hsam. apply Hsam. Qed.
Lemma data_length' : length samples' = n * nf'.
Proof using Hsam. apply Hsam. Qed.

Lemma image_count m v v' : Image m v v' -> get_n_samples v nf = Ok m /\ get_n_samples v' nf' = Ok m.
Proof using Hnf Hnf'.
  intros (H1 & H2 & _). unfold get_n_samples. rewrite H1, H2.
  destruct (Nat.eqb_spec nf 0), (Nat.eqb_spec nf' 0); try contradiction. now rewrite !Nat.div_mul.
Qed.

Lemma pair_image m m' v v' w w' i j : Image m v v' -> Image m' w w' -> i < m -> j < m' ->
  sample_to_centroid (e_dist A') v' nf' w' i j = res_map by_ext (sample_to_centroid (e_dist A) v nf w i j).
Proof using HT Hnf Hnf'.
  intros (H1 & H2 & H3) (G1 & G2 & G3) Hi Hj.
  rewrite (one_distance (e_dist A) v w nf m m') by auto. rewrite (one_distance (e_dist A') v' w' nf' m m') by auto.
  simpl. unfold e_dist. cbn [n_dist rational option_map]. rewrite H3, G3 by auto. f_equal. f_equal.
  apply (cc_dist _ _ _ _ _ _ HT); [apply (row_length' v nf m)|apply (row_length' w nf m')]; auto.
Qed.

Lemma indices_image cs cs' : Image k cs cs' ->
  samples_to_nearest_centroid_indices (e_lt A') None (e_dist A') samples' nf' cs' =
  samples_to_nearest_centroid_indices (e_lt A) None (e_dist A) samples nf cs.
Proof using HT Hnf Hnf' Hsam.
  intros Hc. unfold samples_to_nearest_centroid_indices. nn.
  destruct (image_count _ _ _ Hsam) as (-> & ->). destruct (image_count _ _ _ Hc) as (-> & ->). cbn [bind].
  apply fill_ext. intros i Hi. unfold nearest_centroid_index.
  rewrite (for_loop_map (fun '(m, j) => (by_ext m, j)) (fun centroid_index '(min_distance, min_index) =>
    d <- sample_to_centroid (e_dist A) samples nf cs i centroid_index ;;
    Ok (if e_lt A d min_distance then (d, centroid_index) else (min_distance, min_index))) _ k 0 (None, 0)).
  - match goal with |- bind (res_map _ ?x) _ = bind ?y _ => change y with x; now destruct x as [(m, j)| | |] end.
  - intros j (m, b) Hj. rewrite (pair_image n k samples samples' cs cs') by (auto; lia).
    ds. rewrite by_elt.
    now destruct (e_lt A x m).
Qed.

Lemma distances_image cs cs' : Image k cs cs' ->
  samples_to_nearest_centroid_distances (e_lt A') None (e_dist A') samples' nf' cs' =
  res_map (map by_ext) (samples_to_nearest_centroid_distances (e_lt A) None (e_dist A) samples nf cs).
Proof using HT Hnf Hnf' Hsam.
  intros Hc. unfold samples_to_nearest_centroid_distances. nn.
  destruct (image_count _ _ _ Hsam) as (-> & ->). destruct (image_count _ _ _ Hc) as (-> & ->). cbn [bind].
  change (@None Qc) with (by_ext None) at 1. apply fill_map. intros i Hi.
  change (@None Qc) with (by_ext None) at 1. apply for_loop_map. intros j m Hj.
  rewrite (pair_image n k samples samples' cs cs') by (auto; lia).
  ds. rewrite by_elt.
  now destruct (e_lt A x m).
Qed.

Lemma second_image cs cs' : Image k cs cs' ->
  samples_to_second_nearest_centroid_distances (e_lt A') (e_eq A') None (e_dist A') samples' nf' cs' =
  res_map (map by_ext) (samples_to_second_nearest_centroid_distances (e_lt A) (e_eq A) None (e_dist A) samples nf cs).
Proof using HT Hnf Hnf' Hsam.
  intros Hc. unfold samples_to_second_nearest_centroid_distances. nn.
  destruct (image_count _ _ _ Hsam) as (-> & ->). destruct (image_count _ _ _ Hc) as (-> & ->). cbn [bind].
  change (@None Qc) with (by_ext None) at 1. apply fill_map. intros i Hi.
  rewrite (for_loop_map (fun '(m, s) => (by_ext m, by_ext s)) (fun centroid_index '(first_min_distance, second_min_distance) =>
        candidate <- sample_to_centroid (e_dist A) samples nf cs i centroid_index ;;
        Ok (if e_lt A candidate first_min_distance then (candidate, first_min_distance)
            else if e_lt A candidate second_min_distance && negb (e_eq A candidate first_min_distance)
                 then (first_min_distance, candidate)
                 else (first_min_distance, second_min_distance))) _ k 0 (None, None)).
  - match goal with |- bind (res_map _ ?x) _ = res_map _ (bind ?y _) => change y with x; now destruct x as [(m, j)| | |] end.
  - intros j (m, b) Hj. rewrite (pair_image n k samples samples' cs cs') by (auto; lia).
    ds. rewrite !by_elt, by_eeq.
    destruct (e_lt A x m); auto. now destruct (e_lt A x b && negb (e_eq A x m)).
Qed.

Lemma neighbors_image cs cs' : Image k cs cs' ->
  nearest_neighbor_distances (e_lt A') None (e_dist A') cs' nf' =
  res_map (map by_ext) (nearest_neighbor_distances (e_lt A) None (e_dist A) cs nf).
Proof using HT Hnf Hnf'.
  intros Hc. unfold nearest_neighbor_distances. nn.
  destruct (image_count _ _ _ Hc) as (-> & ->). cbn [bind].
  change (@None Qc) with (by_ext None) at 1. apply fill_map. intros i Hi.
  change (@None Qc) with (by_ext None) at 1. apply for_loop_map. intros j m Hj.
  destruct (i =? j); auto.
  rewrite (pair_image k k cs cs' cs cs') by (auto; lia).
  ds. rewrite by_elt.
  now destruct (e_lt A x m).
Qed.

Lemma others_image cs cs' i u a : Image k cs cs' -> i < n ->
  other_centroids A' samples' nf' cs' i (by_ext u) a =
  res_map (fun '(l, u, a) => (by_ext l, by_ext u, a)) (other_centroids A samples nf cs i u a).
Proof using HT Hnf Hnf' Hsam.
  intros Hc Hi. unfold other_centroids. nn. destruct (image_count _ _ _ Hc) as (-> & ->). cbn [bind].
  change (@None Qc, by_ext u, a) with ((fun '(l, u, a) => (by_ext l, by_ext u, a)) (@None Qc, u, a)).
  apply for_loop_map. intros j ((l, v), b) Hj. destruct (j =? b); auto.
  rewrite (pair_image n k samples samples' cs cs') by (auto; lia).
  ds. rewrite !by_elt.
  destruct (e_lt A x v); auto. now destruct (e_lt A x l).
Qed.

Lemma others_range cs cs' i u a r : Image k cs cs' -> i < n -> a < k -> other_centroids A samples nf cs i u a = Ok r -> snd r < k.
Proof using HT Hnf Hnf' Hsam.
  intros Hc Hi Ha. unfold other_centroids. nn. destruct (image_count _ _ _ Hc) as (-> & _). cbn [bind]. intros E.
  match type of E with for_loop _ _ ?b ?s = _ => destruct (for_loop_inv (fun _ r => snd r < k) b k 0 s) as (r' & E' & H) end; auto.
  - intros j ((l, v), b) Hj Hb. destruct (j =? b); [eexists; split; eauto|].
    rewrite (one_distance (e_dist A) samples cs nf n k); auto using data_length; [|apply Hc|lia].
    cbn [bind]. eexists; split; eauto. destruct (e_lt A _ v); [simpl; lia|]. now destruct (e_lt A _ l).
  - assert (r' = r) by congruence. now subst.
Qed.

(** ** Steps *)
Context (Hk : 0 < k).

Lemma after_image asg empty empty' new new' : length asg = n ->
  centroids_after A samples nf k asg empty new -> centroids_after A' samples' nf' k asg empty' new' ->
  (forall c, c < k -> members asg c = [] -> empty' c = T (empty c)) -> Image k new new'.
Proof using HT Hnf Hnf' Hsam Hk.
  intros Hl (L & H) (L' & H') He. split; [exact L|]. split; [exact L'|]. intros j Hj.
  destruct (H j Hj) as (H1 & H2). destruct (H' j Hj) as (H1' & H2').
  destruct (members asg j) as [|x ms] eqn:E.
  - nn. rewrite H2, H2' by auto. auto.
  - apply (mean_image samples samples' n (x :: ms)); auto; try congruence; [|apply H1; congruence|apply H1'; congruence].
    intros i Hi. rewrite <- E in Hi. apply filter_In in Hi. destruct Hi as (Hi & _). apply in_seq in Hi. lia.
Qed.

Definition lrel (l : lloyd A) (l' : lloyd A') : Prop :=
  Image k (ll_centroids _ l) (ll_centroids _ l') /\ ll_indices _ l' = ll_indices _ l /\
  ll_distances _ l' = map by_ext (ll_distances _ l) /\ ll_loss _ l' = by_ext (ll_loss _ l) /\
  lloyd_inv A samples nf n k l /\ lloyd_inv A' samples' nf' n k l'.

Lemma make_lloyd_image cs cs' : Image k cs cs' ->
  exists l l', make_lloyd A samples nf cs = Ok l /\ make_lloyd A' samples' nf' cs' = Ok l' /\ lrel l l'.
Proof using HT Hnf Hnf' Hsam Hk.
  intros Hc.
  destruct (make_lloyd_ok A (rational_ok d) samples nf n k Hnf data_length cs Hk (proj1 Hc)) as (l & E & Ec & Hl).
  destruct (make_lloyd_ok A' (rational_ok d') samples' nf' n k Hnf' data_length' cs' Hk (proj1 (proj2 Hc))) as (l' & E' & Ec' & Hl').
  exists l, l'. split; [auto|]. split; [auto|]. unfold lrel. rewrite Ec, Ec'. split; [auto|].
  unfold make_lloyd in E, E'. pose proof (indices_image cs cs' Hc) as I1. pose proof (distances_image cs cs' Hc) as I2.
  nn. rewrite I1 in E'. rewrite I2 in E'. clear I1 I2.
  apply bind_ok in E. destruct E as (asg & E1 & E). apply bind_ok in E. destruct E as (ds & E2 & E).
  nn. rewrite E1 in E'. cbn [bind] in E'. rewrite E2 in E'. cbn [bind res_map] in E'. injection E as E. injection E' as E'.
  rewrite <- E, <- E' in *. cbn [ll_indices ll_distances ll_loss].
  split; [auto|]. split; [auto|]. split; [apply by_total|auto].
Qed.

Lemma lloyd_step_image l l' : lrel l l' -> keeps_origin nf nf' T \/ (forall c, c < k -> In c (ll_indices _ l)) ->
  exists m m', lloyd_step A samples nf l = Ok m /\ lloyd_step A' samples' nf' l' = Ok m' /\ lrel m m'.
Proof using HT Hnf Hnf' Hsam Hk.
  intros (Hc & Hi & _ & _ & Hl & Hl') Ho.
  destruct (lloyd_step_ok A (rational_ok d) samples nf n k Hnf data_length l Hk Hl) as (m & E & Hm & Ca).
  destruct (lloyd_step_ok A' (rational_ok d') samples' nf' n k Hnf' data_length' l' Hk Hl') as (m' & E' & Hm' & Ca').
  exists m, m'. split; [auto|]. split; [auto|].
  assert (Him : Image k (ll_centroids _ m) (ll_centroids _ m')).
  { rewrite Hi in Ca'. apply (after_image (ll_indices _ l) _ _ _ _ (proj1 (proj1 (proj2 Hl))) Ca Ca').
    intros j Hj Ej. destruct Ho as [Ho|Ho]; [symmetry; exact Ho|]. exfalso. specialize (Ho j Hj).
    apply In_nth with (d := 0) in Ho. destruct Ho as (i & Hin & Ei).
    assert (Hf : In i (members (ll_indices _ l) j)).
    { apply filter_In. split; [apply in_seq; lia|]. now apply Nat.eqb_eq. }
    rewrite Ej in Hf. destruct Hf. }
  destruct (make_lloyd_image _ _ Him) as (l2 & l2' & E2 & E2' & R).
  unfold lloyd_step in E, E'.
  assert (G : m = l2).
  { apply bind_ok in E. destruct E as (? & _ & E). apply bind_ok in E. destruct E as (? & _ & E).
    apply bind_ok in E. destruct E as (? & _ & E). apply bind_ok in E. destruct E as (cn & _ & E).
    assert (ll_centroids _ m = cn).
    { unfold make_lloyd in E. apply bind_ok in E. destruct E as (? & _ & E). apply bind_ok in E. destruct E as (? & _ & E).
      injection E as <-. reflexivity. }
    subst cn. congruence. }
  assert (G' : m' = l2').
  { clear - E' E2'. apply bind_ok in E'. destruct E' as (? & _ & E). apply bind_ok in E. destruct E as (? & _ & E).
    apply bind_ok in E. destruct E as (? & _ & E). apply bind_ok in E. destruct E as (cn & _ & E).
    assert (ll_centroids _ m' = cn).
    { unfold make_lloyd in E. apply bind_ok in E. destruct E as (? & _ & E). apply bind_ok in E. destruct E as (? & _ & E).
      injection E as <-. reflexivity. }
    subst cn. congruence. }
  now subst.
Qed.

(** *** Hamerly *)
Definition hrel (h : hamerly A) (h' : hamerly A') : Prop :=
  Image k (h_centroids _ h) (h_centroids _ h') /\ h_indices _ h' = h_indices _ h /\
  h_nearest _ h' = map by_ext (h_nearest _ h) /\ h_second _ h' = map by_ext (h_second _ h) /\
  h_neighbors _ h' = map by_ext (h_neighbors _ h) /\ h_sizes _ h' = h_sizes _ h /\
  h_velocities _ h' = map by_c (h_velocities _ h) /\ h_loss _ h' = by_ext (h_loss _ h) /\
  clusters_ok A samples nf n k (h_indices _ h) (h_sizes _ h) (h_sums _ h) /\
  clusters_ok A' samples' nf' n k (h_indices _ h') (h_sizes _ h') (h_sums _ h').

Lemma swap_image h h' i : hrel h h' -> i < n -> fsim hrel (swap_bound A samples nf i h) (swap_bound A' samples' nf' i h').
Proof using HT Hnf Hnf' Hsam Hk.
  intros (Hc & Hi & H1 & H2 & H3 & H4 & H5 & H6 & C & C') Hin r E.
  destruct h as [cs asg near sec nei sizes sums vel loss]. destruct h' as [cs' asg' near' sec' nei' sizes' sums' vel' loss'].
  cbn [h_centroids h_indices h_nearest h_second h_neighbors h_sizes h_sums h_velocities h_loss] in *. subst asg' near' sec' nei' sizes' vel' loss'.
  pose proof C as (C1 & C2 & C3 & C4 & C5). pose proof C' as (_ & _ & _ & _ & C5').
  unfold swap_bound in E |- *. cbn [h_centroids h_indices h_nearest h_second h_neighbors h_sizes h_sums h_velocities h_loss] in E |- *.
  pose proof (nth_all asg i ltac:(lia)) as Ea. pose proof (C2 i Hin) as Hak.
  rewrite Ea in E |- *. cbn [bind] in E |- *. set (a := nth i asg 0) in *. nn.
  apply bind_ok in E. destruct E as (nb & En & E). rewrite rd_map, En. cbn [bind res_map].
  apply bind_ok in E. destruct E as (se & Es & E). rewrite rd_map, Es. cbn [bind res_map].
  apply bind_ok in E. destruct E as (pd & Ep & E). rewrite rd_map, Ep. cbn [bind res_map].
  rewrite by_half, by_max, by_elt. nn. destruct (e_lt A (e_max A (e_half A nb) se) pd).
  2:{ injection E as <-. eexists. split; [reflexivity|]. unfold hrel.
      cbn [h_centroids h_indices h_nearest h_second h_neighbors h_sizes h_sums h_velocities h_loss]. auto 12. }
  rewrite (pair_image n k samples samples' cs cs') by auto.
  apply bind_ok in E. destruct E as (ub & Eu & E). nn. rewrite Eu. cbn [bind res_map].
  apply bind_ok in E. destruct E as (near2 & Ew & E). rewrite wr_map, Ew. cbn [bind res_map].
  rewrite by_elt. nn. destruct (e_lt A (e_max A (e_half A nb) se) ub).
  2:{ injection E as <-. eexists. split; [reflexivity|]. unfold hrel.
      cbn [h_centroids h_indices h_nearest h_second h_neighbors h_sizes h_sums h_velocities h_loss]. auto 12. }
  apply bind_ok in E. destruct E as (((lb, ub2), na) & Eo & E).
  cbn [h_centroids h_indices h_nearest h_second h_neighbors h_sizes h_sums h_velocities h_loss] in Eo, E |- *.
  rewrite (others_image cs cs' i ub a Hc Hin). nn. rewrite Eo. cbn [bind res_map].
  pose proof (others_range cs cs' i ub a _ Hc Hin Hak Eo) as Hna. cbn [snd] in Hna.
  apply bind_ok in E. destruct E as (sec2 & Ew2 & E). rewrite wr_map, Ew2. cbn [bind res_map].
  cbn [h_centroids h_indices h_nearest h_second h_neighbors h_sizes h_sums h_velocities h_loss] in E |- *.
  destruct (Nat.eqb_spec a na) as [Ean|Ean].
  { injection E as <-. eexists. split; [reflexivity|]. unfold hrel.
    cbn [h_centroids h_indices h_nearest h_second h_neighbors h_sizes h_sums h_velocities h_loss]. auto 12. }
  apply bind_ok in E. destruct E as (near3 & Ew3 & E). rewrite wr_map, Ew3. cbn [bind res_map].
  destruct (reassign_ok line line_ok samples nf n k Hnf data_length line_laws asg sizes sums i na C Hin Hna (not_eq_sym Ean))
    as (o & ns & s1 & s2 & F1 & F2 & F3 & F4 & F5).
  destruct (reassign_ok line line_ok samples' nf' n k Hnf' data_length' line_laws asg sizes sums' i na C' Hin Hna (not_eq_sym Ean))
    as (o' & ns' & s1' & s2' & F1' & F2' & F3' & F4' & F5').
  fold a in F1, F2, F3, F4, F5, F1', F2', F3', F4', F5'.
  change (accumulate_sample line (n_sub line) samples nf i a sums) with (accumulate_sample A (n_sub A) samples nf i a sums) in F3.
  change (accumulate_sample line (n_add line) samples nf i na s1) with (accumulate_sample A (n_add A) samples nf i na s1) in F4.
  change (accumulate_sample line (n_sub line) samples' nf' i a sums') with (accumulate_sample A' (n_sub A') samples' nf' i a sums') in F3'.
  change (accumulate_sample line (n_add line) samples' nf' i na s1') with (accumulate_sample A' (n_add A') samples' nf' i na s1') in F4'.
  assert (o' = o) by congruence. subst o'. assert (ns' = ns) by congruence. subst ns'.
  rewrite F1 in E |- *. cbn [bind] in E |- *. rewrite (wr_lt sizes) in E |- * by lia. cbn [bind] in E |- *.
  rewrite F2 in E |- *. cbn [bind] in E |- *. rewrite (wr_lt (upd _ _ _)) in E |- * by (rewrite upd_length; lia). cbn [bind] in E |- *.
  rewrite (wr_lt asg) in E |- * by lia. cbn [bind] in E |- *.
  rewrite F3 in E. rewrite F3'. cbn [bind] in E |- *. rewrite F4 in E. rewrite F4'. cbn [bind] in E |- *.
  injection E as <-. eexists. split; [reflexivity|]. unfold hrel.
  cbn [h_centroids h_indices h_nearest h_second h_neighbors h_sizes h_sums h_velocities h_loss].
  splits; auto.
  destruct ub2 as [v|], pd as [w|]; cbn [by_ext option_map]; auto.
  - rewrite <- by_add. f_equal. apply by_sub.
  - apply by_add.
Qed.

Lemma velocities_image pre pre' cs cs' v : Image k pre pre' -> Image k cs cs' ->
  update_centroids_velocities A' nf' pre' cs' (map by_c v) = res_map (map by_c) (update_centroids_velocities A nf pre cs v).
Proof using HT Hnf Hnf' Hsam Hk.
  intros Hp Hc. unfold update_centroids_velocities. nn. destruct (image_count _ _ _ Hc) as (-> & ->). cbn [bind].
  apply for_loop_map. intros j w Hj. destruct Hp as (P1 & P2 & P3). destruct Hc as (Q1 & Q2 & Q3).
  rewrite (sample_row' pre nf k), (sample_row' cs nf k), (sample_row' pre' nf' k), (sample_row' cs' nf' k) by (auto; lia).
  cbn [bind]. cbn [n_dist rational]. rewrite P3, Q3 by lia.
  rewrite (cc_dist _ _ _ _ _ _ HT); [apply wr_map|apply (row_length' pre nf k)|apply (row_length' cs nf k)]; auto; lia.
Qed.

Lemma bounds_image h h' : hrel h h' -> fsim hrel (update_bounds A samples nf h) (update_bounds A' samples' nf' h').
Proof using HT Hnf Hnf' Hsam Hk.
  intros (Hc & Hi & H1 & H2 & H3 & H4 & H5 & H6 & C & C') r E.
  destruct h as [cs asg near sec nei sizes sums vel loss]. destruct h' as [cs' asg' near' sec' nei' sizes' sums' vel' loss'].
  cbn [h_centroids h_indices h_nearest h_second h_neighbors h_sizes h_sums h_velocities h_loss] in *. subst asg' near' sec' nei' sizes' vel' loss'.
  unfold update_bounds in E |- *. cbn [h_centroids h_indices h_nearest h_second h_neighbors h_sizes h_sums h_velocities h_loss] in E |- *.
  rewrite second_max_map. nn. change (n_lt A) with qc_lt in *. change (n_lt A') with qc_lt in *. nn.
  rewrite (max_map by_c qc_lt qc_lt vel by_lt).
  apply bind_ok in E. destruct E as ((fi, fv) & Ef & E). rewrite Ef. cbn [bind res_map].
  apply bind_ok in E. destruct E as ((si, sv) & Es & E). rewrite Es. cbn [bind res_map].
  destruct (image_count _ _ _ Hsam) as (Cn & Cn'). rewrite Cn in E. rewrite Cn'. cbn [bind] in E |- *.
  apply bind_ok in E. destruct E as ((ne, se) & El & E).
  match goal with |- context [for_loop n 0 ?b' (map by_ext near, map by_ext sec)] =>
    assert (EL : for_loop n 0 b' (map by_ext near, map by_ext sec) = Ok (map by_ext ne, map by_ext se)) end.
  { change (Ok (map by_ext ne, map by_ext se)) with (res_map (fun '(x, y) => (map by_ext x, map by_ext y)) (Ok (ne, se))).
    rewrite <- El.
    change (map by_ext near, map by_ext sec) with ((fun '(x, y) => (map by_ext x, map by_ext y)) (near, sec)).
    apply for_loop_map. intros j (x, y) Hj. destruct (rd asg j) as [a| | |]; cbn [bind res_map]; auto.
    rewrite rd_map. destruct (rd vel a) as [w| | |]; cbn [bind res_map]; auto.
    rewrite rd_map. destruct (rd x j) as [u| | |]; cbn [bind res_map]; auto.
    rewrite by_add, wr_map. nn. destruct (wr x j (e_add A u w)) as [x2| | |]; cbn [bind res_map]; auto.
    rewrite rd_map. destruct (rd y j) as [l| | |]; cbn [bind res_map]; auto.
    assert (Eq : (if a =? fi then match by_ext sv with Some v => e_sub A' (by_ext l) v | None => None end else e_sub A' (by_ext l) (by_c fv)) =
                 by_ext (if a =? fi then match sv with Some v => e_sub A l v | None => None end else e_sub A l fv)).
    { destruct (a =? fi); [|apply by_sub]. destruct sv; auto. apply by_sub. }
    nn. rewrite Eq, wr_map. nn. now destruct (wr y j _) as [y2| | |]. }
  rewrite EL. cbn [bind].
  pose proof (neighbors_image cs cs' Hc) as N. nn. rewrite N. clear N.
  apply bind_ok in E. destruct E as (nb & Eb & E). nn. rewrite Eb. cbn [bind res_map].
  injection E as <-. eexists. split; [reflexivity|]. unfold hrel.
  cbn [h_centroids h_indices h_nearest h_second h_neighbors h_sizes h_sums h_velocities h_loss]. auto 12.
Qed.

Lemma hamerly_step_image h h' : hrel h h' -> fsim hrel (hamerly_step A samples nf h) (hamerly_step A' samples' nf' h').
Proof using HT Hnf Hnf' Hsam Hk.
  intros Hh. unfold hamerly_step. apply (fsim_bind hrel).
  { unfold swap_bounds. nn. destruct (image_count _ _ _ Hsam) as (-> & ->). cbn [bind].
    apply fsim_loop; auto. intros i t t' Hi Ht. apply swap_image; auto. lia. }
  intros r r' _ Hr. clear h h' Hh. rename r into h. rename r' into h'. destruct Hr as (Hc & Hi & H1 & H2 & H3 & H4 & H5 & H6 & C & C').
  destruct (hamerly_centroids_ok A samples nf n k Hnf data_length _ _ _ _ (proj1 Hc) C) as (new & -> & Hn).
  destruct (hamerly_centroids_ok A' samples' nf' n k Hnf' data_length' _ _ _ _ (proj1 (proj2 Hc)) C') as (new' & -> & Hn').
  cbn [bind]. rewrite Hi in Hn'.
  assert (Him : Image k new new').
  { apply (after_image (h_indices _ h) _ _ _ _ (proj1 C) Hn Hn'). intros j Hj _. now apply Hc. }
  nn. rewrite H5. rewrite (velocities_image _ _ new new' _ Hc Him).
  intros r E. apply bind_ok in E. destruct E as (vel & Ev & E). nn. rewrite Ev. cbn [bind res_map].
  match type of E with update_bounds A _ _ ?x = _ => match goal with |- context [update_bounds A' _ _ ?y] =>
    apply (bounds_image x y); auto end end.
  unfold hrel. cbn [h_centroids h_indices h_nearest h_second h_neighbors h_sizes h_sums h_velocities h_loss].
  splits; auto.
Qed.

Lemma make_hamerly_image cs cs' : Image k cs cs' ->
  exists h h', make_hamerly A samples nf cs = Ok h /\ make_hamerly A' samples' nf' cs' = Ok h' /\ hrel h h' /\
    h_centroids _ h = cs /\ h_centroids _ h' = cs'.
Proof using HT Hnf Hnf' Hsam Hk.
  intros Hc.
  destruct (make_shape A (rational_ok d) samples nf n k Hnf data_length Hk cs (proj1 Hc)) as (h & E & Sh & Ec & _).
  destruct (make_shape A' (rational_ok d') samples' nf' n k Hnf' data_length' Hk cs' (proj1 (proj2 Hc))) as (h' & E' & Sh' & Ec' & _).
  exists h, h'. split; [auto|]. split; [auto|]. split; [|auto]. unfold hrel. rewrite Ec, Ec'. split; [auto|].
  destruct Sh as (_ & _ & C & _). destruct Sh' as (_ & _ & C' & _).
  unfold make_hamerly in E, E'. pose proof (indices_image cs cs' Hc) as I1. pose proof (distances_image cs cs' Hc) as I2.
  pose proof (second_image cs cs' Hc) as I3. pose proof (neighbors_image cs cs' Hc) as I4.
  nn. rewrite I1 in E'. rewrite I2 in E'. rewrite I3 in E'. rewrite I4 in E'. clear I1 I2 I3 I4.
  apply bind_ok in E. destruct E as (asg & E1 & E). apply bind_ok in E. destruct E as (ds & E2 & E).
  apply bind_ok in E. destruct E as (se & E3 & E). apply bind_ok in E. destruct E as (nb & E4 & E).
  nn. rewrite E1 in E'. cbn [bind] in E'. rewrite E2 in E'. cbn [bind res_map] in E'.
  rewrite E3 in E'. cbn [bind res_map] in E'. rewrite E4 in E'. cbn [bind res_map] in E'.
  destruct (image_count _ _ _ Hc) as (Q & Q'). rewrite Q in E. rewrite Q' in E'. cbn [bind] in E, E'.
  apply bind_ok in E. destruct E as (sz & E5 & E). rewrite E5 in E'. cbn [bind] in E'.
  apply bind_ok in E. destruct E as (su & E6 & E). apply bind_ok in E'. destruct E' as (su' & E6' & E').
  injection E as E. injection E' as E'. rewrite <- E, <- E' in *.
  cbn [h_centroids h_indices h_nearest h_second h_neighbors h_sizes h_sums h_velocities h_loss] in *.
  split; [auto|]. split; [auto|]. split; [auto|]. split; [auto|]. split; [auto|]. split.
  { cbn [n_zero rational]. clear. induction k as [|m IH]; simpl; auto. rewrite <- IH. f_equal. unfold by_c. ring. }
  split; [apply by_total|auto].
Qed.
End Data.

(** ** fit *)
Section Fit.
Context (k : nat) (Hk : 0 < k) (alg : algorithm A) (alg' : algorithm A') (R : state A alg -> state A' alg' -> Prop).
Context (o : options) (close close' : Qc -> Qc -> bool).
Notation Image := (image nf nf' T).
Context (Rc : forall s s', R s s' -> Image k (alg_centroids A alg s) (alg_centroids A' alg' s') /\ alg_loss A' alg' s' = by_ext (alg_loss A alg s)).
Context (Rs : forall s s', R s s' -> fsim R (alg_step A alg s) (alg_step A' alg' s')).
Context (Hclose : early_stopping o = false \/ forall u u' v v', Image k u u' -> Image k v v' -> (same close' u' v' <-> same close u v)).

Lemma equal_image u u' v v' : Image k u u' -> Image k v v' \/ (v = [] /\ v' = []) ->
  early_stopping o && are_containers_equal A' close' u' v' = early_stopping o && are_containers_equal A close u v.
Proof using HT Hnf Hnf' Hk Hclose.
  intros Hu Hv. destruct Hclose as [->|H]; auto. f_equal. destruct Hv as [Hv|(-> & ->)].
  - apply eq_true_iff_eq. rewrite (containers_same A' close'), (containers_same A close). now apply H.
  - unfold are_containers_equal. destruct Hu as (L & L' & _). nn. rewrite L, L'. cbn [length].
    destruct (Nat.eqb_spec (k * nf) 0); [nia|]. destruct (Nat.eqb_spec (k * nf') 0); [nia|]. reflexivity.
Qed.

Definition out (r : list Qc * state A alg) (r' : list Qc * state A' alg') : Prop := Image k (fst r) (fst r') /\ R (snd r) (snd r').

Lemma loop_image : forall it p prev prev' cand cand' s s', Image k cand cand' -> Image k prev prev' \/ (prev = [] /\ prev' = []) -> R s s' ->
  fsim out (fit_loop A alg o close it p prev cand s) (fit_loop A' alg' o close' it p prev' cand' s').
Proof using HT Hnf Hnf' Hk Rc Rs Hclose.
  induction it as [|it IH]; intros p prev prev' cand cand' s s' Hc Hp Hr; cbn [fit_loop].
  - apply fsim_ok. split; auto.
  - apply (fsim_bind R); [apply Rs; auto|]. intros t t' _ Ht. destruct (Rc _ _ Ht) as (Hi & _). nn.
    rewrite (equal_image _ _ _ _ Hi Hp). destruct (early_stopping o && _).
    + destruct (p =? patience o).
      * apply fsim_ok. split; auto.
      * apply IH; auto.
    + apply IH; auto.
Qed.

Lemma candidate_image cand cand' : Image k cand cand' -> fsim R (alg_make A alg cand) (alg_make A' alg' cand') ->
  fsim (fun r r' => Image k (fst r) (fst r') /\ snd r' = by_ext (snd r)) (fit_candidate A alg o close cand) (fit_candidate A' alg' o close' cand').
Proof using HT Hnf Hnf' Hk Rc Rs Hclose.
  intros Hc Hm. unfold fit_candidate. apply (fsim_bind R); auto. intros s s' _ Hr.
  apply (fsim_bind out); [apply loop_image; auto|]. intros (x, t) (x', t') _ (H1 & H2). apply fsim_ok. cbn [fst snd] in *.
  split; auto. now apply Rc.
Qed.

Lemma fit_image centroids centroids' init init' :
  (centroids = [] /\ centroids' = [] /\ forall i, i < n_init o -> Image k (init i) (init' i) /\ fsim R (alg_make A alg (init i)) (alg_make A' alg' (init' i))) \/
  (Image k centroids centroids' /\ fsim R (alg_make A alg centroids) (alg_make A' alg' centroids')) ->
  fsim (Image k) (fit A alg o close centroids init) (fit A' alg' o close' centroids' init').
Proof using HT Hnf Hnf' Hk Rc Rs Hclose.
  intros H. unfold fit. nn.
  assert (HC : Forall2 (fun x x' => Image k x x' /\ fsim R (alg_make A alg x) (alg_make A' alg' x'))
    match centroids with [] => map init (seq 0 (n_init o)) | _ => [centroids] end
    match centroids' with [] => map init' (seq 0 (n_init o)) | _ => [centroids'] end).
  { destruct H as [(-> & -> & H)|(H & Hm)].
    - assert (G : forall m, m <= n_init o -> Forall2 (fun x x' => Image k x x' /\ fsim R (alg_make A alg x) (alg_make A' alg' x'))
         (map init (seq 0 m)) (map init' (seq 0 m))); [|now apply G].
      induction m as [|m IH]; intros Hm; [constructor|]. rewrite seq_S, !map_app. apply Forall2_app; [apply IH; lia|].
      constructor; [|constructor]. apply H. simpl. lia.
    - pose proof H as (L & L' & _). destruct centroids as [|x cs]; [cbn [length] in L; nia|].
      destruct centroids' as [|x' cs']; [cbn [length] in L'; nia|]. constructor; [|constructor]. auto. }
  match goal with |- fsim _ (bind (for_each ?l _ _) _) (bind (for_each ?l' _ _) _) => generalize dependent l; generalize dependent l' end.
  intros l' l HC. clear H.
  apply (fsim_bind (Forall2 (fun r r' => Image k (fst r) (fst r') /\ snd r' = by_ext (snd r)))).
  { assert (G : forall acc acc', Forall2 (fun r r' => Image k (fst r) (fst r') /\ snd r' = by_ext (snd r)) acc acc' ->
      fsim (Forall2 (fun r r' => Image k (fst r) (fst r') /\ snd r' = by_ext (snd r)))
        (for_each l (fun candidate results => r <- fit_candidate A alg o close candidate ;; Ok (results ++ [r])) acc)
        (for_each l' (fun candidate results => r <- fit_candidate A' alg' o close' candidate ;; Ok (results ++ [r])) acc')); [|apply G; constructor].
    induction HC as [|x x' l l' (Hx & Hm) _ IH]; intros acc acc' Ha; cbn [for_each].
    - now apply fsim_ok.
    - apply (fsim_bind (Forall2 (fun r r' => Image k (fst r) (fst r') /\ snd r' = by_ext (snd r)))).
      + apply (fsim_bind _ _ _ _ _ _ (candidate_image x x' Hx Hm)). intros r r' _ Hr. apply fsim_ok.
        apply Forall2_app; auto.
      + intros r r' _ Hr. now apply IH. }
  intros rs rs' _ HR.
  assert (Em : map snd rs' = map by_ext (map snd rs)).
  { clear - HR. induction HR as [|x y l l' (_ & H) _ IH]; simpl; auto. now rewrite IH, H. }
  nn. rewrite Em. rewrite (max_map by_ext (fun x y => e_lt A y x)) by (intros; apply by_elt).
  intros r E. apply bind_ok in E. destruct E as ((mi, mv) & E1 & E). nn. rewrite E1. cbn [bind res_map].
  apply bind_ok in E. destruct E as ((b, ls) & E2 & E). injection E as <-.
  apply rd_ok in E2.
  assert (G : exists b' ls', nth_error rs' mi = Some (b', ls') /\ Image k b b').
  { clear - HR E2. revert mi E2. induction HR as [|x y l l' (H & _) _ IH]; intros [|mi] E; simpl in *; try discriminate.
    - injection E as ->. destruct y as (b', ls'). simpl in H. eauto.
    - apply IH; auto. }
  destruct G as (b' & ls' & E3 & Hb). apply rd_ok in E3. rewrite E3. cbn [bind]. eauto.
Qed.
End Fit.
End Change.
