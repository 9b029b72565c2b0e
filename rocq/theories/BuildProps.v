(** Theorems on the construction of initial medoids (C88). *)
From Coq Require Import List Arith ZArith Lia Bool Permutation.
From Verif Require Import Base SortingModel BufferModel BufferSpec BoundsSpec SearchModel MatrixModel KMeansModel KMeansProofs
  RandomModel KMedoidsModel KMedoidsSpec KMedoidsProofs KMedoidsProps BuildModel.
Import ListNotations.
Local Open Scope nat_scope.

(** The sum of the distances of the samples to [c] alone. *)
Definition total_to (dist : nat -> nat -> Z) (n c : nat) : Z := fold_right Z.add 0%Z (map (dist c) (seq 0 n)).

Lemma total_to_zsum dist n c : total_to dist n c = zsum n (dist c).
Proof. rewrite <- (zsum_ext n (deviation dist [c]) (dist c)) by auto. rewrite <- deviations_zsum. reflexivity. Qed.
Lemma total_to_deviations dist n c : total_to dist n c = deviations dist n [c].
Proof. reflexivity. Qed.

Lemma zsum_nonneg n f : (forall o, o < n -> (0 <= f o)%Z) -> (0 <= zsum n f)%Z.
Proof. induction n; intros H; simpl; [lia|]. pose proof (IHn ltac:(auto)). pose proof (H n ltac:(lia)). lia. Qed.

(** ** The least of a sequence of values, with infinity on top *)
Section Least.
Context (n : nat) (keep : nat -> bool) (value : nat -> Z).
Definition least (t : nat) (best : option Z) (sel : nat) : Prop :=
  ((forall c, c < t -> keep c = false) /\ best = None /\ sel = 0) \/
  (sel < t /\ keep sel = true /\ best = Some (value sel) /\
   (forall c, c < t -> keep c = true -> (value sel <= value c)%Z) /\
   (forall c, c < sel -> keep c = true -> (value sel < value c)%Z)).

Lemma least_step t best sel : least t best sel ->
  least (S t) (if keep t then if opt_lt (Some (value t)) best then Some (value t) else best else best)
    (if keep t then if opt_lt (Some (value t)) best then t else sel else sel).
Proof.
  intros H. destruct (keep t) eqn:K.
  - destruct H as [(H1 & -> & ->)|(H1 & H2 & -> & H3 & H4)]; cbn [opt_lt].
    + right. splits; auto.
      * intros c Hc Kc. destruct (Nat.eq_dec c t) as [->|]; [lia|]. rewrite H1 in Kc by lia. discriminate.
      * intros c Hc Kc. rewrite H1 in Kc by lia. discriminate.
    + destruct (Z.ltb_spec (value t) (value sel)); right; splits; auto; try lia.
      * intros c Hc Kc. destruct (Nat.eq_dec c t) as [->|]; [lia|]. specialize (H3 c ltac:(lia) Kc). lia.
      * intros c Hc Kc. specialize (H3 c ltac:(lia) Kc). lia.
      * intros c Hc Kc. destruct (Nat.eq_dec c t) as [->|]; [lia|]. apply H3; auto. lia.
  - destruct H as [(H1 & -> & ->)|(H1 & H2 & -> & H3 & H4)]; [left|right]; splits; auto.
    + intros c Hc. destruct (Nat.eq_dec c t) as [->|]; auto. apply H1. lia.
    + intros c Hc Kc. destruct (Nat.eq_dec c t) as [->|]; [congruence|]. apply H3; auto. lia.
Qed.
End Least.

Section Exact.
Context (dist : nat -> nat -> Z) (n : nat) (src : source Z) (Hsrc : provides src n dist).

Lemma candidate_loss_ok c : c < n -> candidate_loss src c = Ok (total_to dist n c).
Proof using Hsrc.
  intros Hc. unfold candidate_loss. rewrite (proj1 Hsrc), total_to_zsum.
  destruct (for_loop_inv (fun t acc => acc = zsum t (dist c)) (fun o acc => d <- dist_at src c o ;; Ok (acc + d)%Z) n 0 0%Z)
    as (s & -> & ->); auto.
  intros o s Ho ->. rewrite (proj2 Hsrc) by lia. cbn [bind]. eauto.
Qed.

Lemma first_medoid_ok : exists best sel, first_medoid_td_index_pair None src = Ok (best, sel) /\
  least (fun _ => true) (total_to dist n) n best sel.
Proof using Hsrc.
  unfold first_medoid_td_index_pair. rewrite (proj1 Hsrc).
  match goal with |- context [for_loop n 0 ?b _] =>
    destruct (for_loop_inv (fun t '(best, sel) => least (fun _ => true) (total_to dist n) t best sel) b n 0 (None, 0))
      as ((best & sel) & E & H) end.
  - left. splits; auto. lia.
  - intros c (best & sel) Hc H. rewrite candidate_loss_ok by lia. cbn [bind]. eexists. split; [reflexivity|].
    apply least_step in H. cbv beta iota in H. destruct (opt_lt (Some (total_to dist n c)) best); auto.
  - rewrite E. exists best, sel. split; auto.
Qed.

Lemma not_in_spec M o : not_in M o = true <-> ~ In o M.
Proof using Type.
  unfold not_in. rewrite negb_true_iff. split.
  - intros H Hi. assert (existsb (Nat.eqb o) M = true) by (apply existsb_exists; exists o; split; auto; apply Nat.eqb_refl). congruence.
  - intros H. apply not_true_is_false. intros E. apply existsb_exists in E. destruct E as (x & Hx & E).
    apply Nat.eqb_eq in E. subst. auto.
Qed.

Context (Hself : forall o, o < n -> dist o o = 0%Z) (Hpos : forall i j, i < n -> j < n -> (0 <= dist i j)%Z).

Lemma deviation_nonneg M o : M <> [] -> (forall m, In m M -> m < n) -> o < n -> (0 <= deviation dist M o)%Z.
Proof using Hpos.
  intros Hne HM Ho. destruct (deviation_min dist M o Hne) as ((m & Hm & <-) & _). auto.
Qed.

Lemma deviation_member M o : (forall m, In m M -> m < n) -> In o M -> deviation dist M o = 0%Z.
Proof using Hself Hpos.
  intros HM Ho. apply deviation_is. split; [exists o; auto|]. intros m Hm. auto.
Qed.

Lemma deviation_app M c o : M <> [] -> deviation dist (M ++ [c]) o = Z.min (deviation dist M o) (dist c o).
Proof using Type.
  intros Hne. apply deviation_is. destruct (deviation_min dist M o Hne) as ((m & Hm & E) & H). split.
  - destruct (Z.min_spec (deviation dist M o) (dist c o)) as [(_ & ->)|(_ & ->)].
    + exists m. rewrite in_app_iff. auto.
    + exists c. rewrite in_app_iff. simpl. auto.
  - intros x Hx. apply in_app_iff in Hx. destruct Hx as [Hx|[->|[]]]; [specialize (H x Hx)|]; lia.
Qed.

(** What the accumulator holds: the decrease of the total deviation without the part of the candidate itself. *)
Lemma candidate_gain_ok M near c : M <> [] -> (forall m, In m M -> m < n) -> c < n ->
  length near = n -> (forall o, o < n -> nth o near 0%Z = deviation dist M o) ->
  candidate_gain src M near c = Ok (deviations dist n M - deviations dist n (M ++ [c]) - deviation dist M c)%Z.
Proof using Hsrc Hself Hpos.
  intros Hne HM Hc Ln Hn. unfold candidate_gain. rewrite (proj1 Hsrc).
  set (g := fun o => (deviation dist M o - deviation dist (M ++ [c]) o - if (c =? o)%nat then deviation dist M c else 0)%Z).
  match goal with |- context [for_loop n 0 ?b _] =>
    destruct (for_loop_inv (fun t acc => acc = zsum t g) b n 0 0%Z) as (s & -> & ->) end; auto.
  - intros o s Ho ->. cbn [zsum].
    assert (Eg : g o = (deviation dist M o - Z.min (deviation dist M o) (dist c o) - if (c =? o)%nat then deviation dist M c else 0)%Z)
      by (unfold g; rewrite deviation_app by auto; reflexivity). rewrite Eg. clear Eg.
    destruct (Nat.eqb_spec c o) as [<-|Hne']; cbn [negb andb].
    + eexists. split; [reflexivity|]. rewrite Hself by auto. pose proof (deviation_nonneg M c Hne HM Hc). lia.
    + destruct (not_in M o) eqn:E.
      * rewrite (proj2 Hsrc) by lia. cbn [bind]. rewrite (rd_nth near o 0%Z) by lia. cbn [bind]. rewrite Hn by lia.
        eexists. split; [reflexivity|]. destruct (Z.ltb_spec (dist c o) (deviation dist M o)); lia.
      * eexists. split; [reflexivity|].
        assert (In o M) as Hi by (destruct (in_dec Nat.eq_dec o M); auto; apply not_in_spec in n0; congruence).
        rewrite (deviation_member M o HM Hi). pose proof (Hpos c o Hc ltac:(lia)). lia.
  - cbn [Nat.add]. f_equal. unfold g. rewrite zsum_sub, zsum_sub, <- !deviations_zsum. f_equal.
    assert (G : forall m, zsum m (fun o => if (c =? o)%nat then deviation dist M c else 0%Z) = if c <? m then deviation dist M c else 0%Z).
    { induction m as [|m IH]; auto. cbn [zsum]. rewrite IH. clear - m.
      destruct (Nat.ltb_spec c m), (Nat.eqb_spec c m), (Nat.ltb_spec c (S m)); lia. }
    rewrite G. apply Nat.ltb_lt in Hc as ->. auto.
Qed.

(** [score M c]: the total deviation with [c] added, the nearest distance of [c] counted on top. *)
Definition score (M : list nat) (c : nat) : Z := (deviations dist n (M ++ [c]) + deviation dist M c)%Z.

Lemma select_ok M near : M <> [] -> (forall m, In m M -> m < n) ->
  length near = n -> (forall o, o < n -> nth o near 0%Z = deviation dist M o) ->
  exists best sel, select_medoid None src M near = Ok (best, sel) /\
    least (not_in M) (fun c => deviations dist n M - score M c)%Z n best sel.
Proof using Hsrc Hself Hpos.
  intros Hne HM Ln Hn. unfold select_medoid. rewrite (proj1 Hsrc).
  match goal with |- context [for_loop n 0 ?b _] =>
    destruct (for_loop_inv (fun t '(best, sel) => least (not_in M) (fun c => deviations dist n M - score M c)%Z t best sel) b n 0 (None, 0))
      as ((best & sel) & E & H) end.
  - left. splits; auto. lia.
  - intros c (best & sel) Hc H. apply least_step in H. cbv beta in H. destruct (not_in M c) eqn:K.
    + rewrite (candidate_gain_ok M near c) by (auto; lia). cbn [bind]. eexists. split; [reflexivity|].
      unfold score in *. rewrite Z.sub_add_distr in H.
      destruct (opt_lt (Some (deviations dist n M - deviations dist n (M ++ [c]) - deviation dist M c)%Z) best); auto.
    + eexists. split; [reflexivity|]. auto.
  - rewrite E. exists best, sel. split; auto.
Qed.

Context (top : Z) (Htop : forall i j, i < n -> j < n -> (dist i j < top)%Z).

Lemma nearest_ok M : M <> [] -> (forall m, In m M -> m < n) ->
  exists near, nth_distances top src M 1 = Ok near /\ length near = n /\ forall o, o < n -> nth o near 0%Z = deviation dist M o.
Proof using Hsrc Htop.
  intros Hne HM. unfold nth_distances, nth_nearest.
  replace (length M <? 1) with false by (symmetry; apply Nat.ltb_ge; destruct M; [congruence|simpl; lia]). cbn [Nat.eqb orb].
  destruct (nearest_distances_ok dist n src Hsrc top M HM Hne ltac:(auto)) as (v & -> & L & H).
  exists v. splits; auto. intros o Ho. destruct (H o Ho) as (i & Hi).
  eapply (first_deviation dist n top M HM Hne ltac:(auto)); eauto.
Qed.

Lemma deviations_singleton c : deviations dist n [c] = total_to dist n c.
Proof using Type. reflexivity. Qed.

(** The state after [i] medoids. *)
Definition built (i : nat) (state : option Z * list nat * list Z) : Prop :=
  let '(total, M, near) := state in
  length M = i /\ NoDup M /\ (forall m, In m M -> m < n) /\
  (forall c, c < n -> (total_to dist n (nth 0 M 0%nat) <= total_to dist n c)%Z) /\
  (forall c, c < nth 0 M 0 -> (total_to dist n (nth 0 M 0%nat) < total_to dist n c)%Z) /\
  length near = n /\ (forall o, o < n -> nth o near 0%Z = deviation dist M o) /\
  (forall t, 1 <= t < i ->
     (forall c, c < n -> ~ In c (firstn t M) -> (score (firstn t M) c <= score (firstn t M) (nth t M 0%nat))%Z) /\
     (forall c, c < nth t M 0%nat -> ~ In c (firstn t M) -> (score (firstn t M) c < score (firstn t M) (nth t M 0%nat))%Z)) /\
  total = Some (2 * deviations dist n [nth 0 M 0%nat] - deviations dist n M
                - zsum (i - 1) (fun t => deviation dist (firstn (S t) M) (nth (S t) M 0%nat)))%Z.

Lemma built_step i total M near : 1 <= i < n -> built i (total, M, near) ->
  exists best sel near', select_medoid None src M near = Ok (best, sel) /\
    nth_distances top src (M ++ [sel]) 1 = Ok near' /\ built (S i) (opt_add total best, M ++ [sel], near').
Proof using Hsrc Hself Hpos Htop.
  intros Hi (L & ND & HM & F1 & F2 & Ln & Hn & S1 & ->).
  assert (Hne : M <> []) by (intros ->; simpl in L; lia).
  destruct (select_ok M near Hne HM Ln Hn) as (best & sel & E & H).
  destruct H as [(H & _)|(H1 & H2 & -> & H3 & H4)].
  - exfalso. assert (I : incl (seq 0 n) M).
    { intros c Hc. apply in_seq in Hc. destruct (in_dec Nat.eq_dec c M) as [|N]; auto. apply not_in_spec in N.
      rewrite H in N by lia. discriminate. }
    pose proof (NoDup_incl_length (seq_NoDup n 0) I). rewrite seq_length in H0. lia.
  - apply not_in_spec in H2.
    assert (HM' : forall m, In m (M ++ [sel]) -> m < n).
    { intros m Hm. apply in_app_iff in Hm. destruct Hm as [Hm|[<-|[]]]; auto. }
    assert (Hne' : M ++ [sel] <> []) by (intros A; apply app_eq_nil in A; destruct A; auto).
    destruct (nearest_ok (M ++ [sel]) Hne' HM') as (near' & E' & L' & Hn').
    exists (Some (deviations dist n M - score M sel)%Z), sel, near'. split; [exact E|]. split; [exact E'|].
    assert (N0 : nth 0 (M ++ [sel]) 0 = nth 0 M 0) by (rewrite app_nth1 by lia; auto).
    assert (Fi : forall t, t <= i -> firstn t (M ++ [sel]) = firstn t M).
    { intros t Ht. rewrite firstn_app. replace (t - length M) with 0 by lia. cbn [firstn]. apply app_nil_r. }
    assert (Ni : nth i (M ++ [sel]) 0 = sel) by (rewrite app_nth2 by lia; rewrite L, Nat.sub_diag; auto).
    assert (Fn : firstn i M = M) by (rewrite <- L; apply firstn_all).
    unfold built. splits; auto.
    + rewrite app_length. simpl. lia.
    + apply (Permutation_NoDup (Permutation_cons_append M sel)). constructor; auto.
    + intros c Hc. rewrite N0. auto.
    + intros c Hc. rewrite N0 in *. auto.
    + intros t Ht. rewrite Fi by lia. destruct (Nat.eq_dec t i) as [->|].
      * rewrite Ni, Fn. split; intros c Hc Hin; apply not_in_spec in Hin.
        -- specialize (H3 c Hc Hin). lia.
        -- specialize (H4 c Hc Hin). lia.
      * rewrite app_nth1 by lia. apply S1. lia.
    + cbn [opt_add]. f_equal. rewrite N0. replace (S i - 1) with (S (i - 1)) by lia. cbn [zsum].
      replace (S (i - 1)) with i by lia. rewrite Fi, Fn, Ni by lia.
      rewrite (zsum_ext (i - 1) (fun t => deviation dist (firstn (S t) (M ++ [sel])) (nth (S t) (M ++ [sel]) 0))
        (fun t => deviation dist (firstn (S t) M) (nth (S t) M 0))).
      2:{ intros t Ht. rewrite Fi by lia. rewrite app_nth1 by lia. auto. }
      unfold score. lia.
Qed.

Lemma built_first : 1 <= n -> exists total c near, first_medoid_td_index_pair None src = Ok (total, c) /\
  nth_distances top src [c] 1 = Ok near /\ built 1 (total, [c], near).
Proof using Hsrc Htop.
  intros Hn. destruct first_medoid_ok as (best & sel & E & H).
  destruct H as [(H & _)|(H1 & _ & -> & H3 & H4)]; [specialize (H 0 ltac:(lia)); discriminate|].
  assert (HM : forall m, In m [sel] -> m < n) by (intros m [<-|[]]; auto).
  destruct (nearest_ok [sel] ltac:(discriminate) HM) as (near & E' & L & Hn').
  exists (Some (total_to dist n sel)), sel, near. split; [exact E|]. split; [exact E'|].
  unfold built. cbn [nth length]. splits; auto.
  - constructor; [intros []|constructor].
  - intros t Ht. lia.
  - cbn [zsum Nat.sub]. f_equal. rewrite !total_to_deviations. lia.
Qed.

Lemma build_ok k : 1 <= k <= n -> exists state, pam_build None top src k = Ok state /\ built k state.
Proof using Hsrc Hself Hpos Htop.
  intros Hk. unfold pam_build. destruct (built_first ltac:(lia)) as (total & c & near & -> & E & B). cbn [bind].
  rewrite E. cbn [bind].
  match goal with |- context [for_loop _ 1 ?b ?s] =>
    destruct (for_loop_inv built b (k - 1) 1 s) as (st & -> & H); auto end.
  - intros i ((t & M) & nr) Hi H. destruct (built_step i t M nr ltac:(lia) H) as (best & sel & near' & E1 & E2 & H').
    rewrite E1. cbn [bind]. cbv zeta. rewrite E2. cbn [bind]. eauto.
  - exists st. split; auto. replace (1 + (k - 1)) with k in H by lia. auto.
Qed.
End Exact.

Lemma for_loop_app {S} (body : nat -> S -> res S) : forall a b i s,
  for_loop (a + b) i body s = (s' <- for_loop a i body s ;; for_loop b (i + a) body s').
Proof.
  induction a as [|a IH]; intros b i s; cbn [Nat.add for_loop bind].
  - now rewrite Nat.add_0_r.
  - destruct (body i s); cbn [bind]; auto. rewrite IH. now rewrite Nat.add_succ_r.
Qed.

(** ** The first medoid *)
Theorem c88_first_medoid : forall dist n src, provides src n dist -> 1 <= n ->
  exists c, first_medoid_td_index_pair None src = Ok (Some (total_to dist n c), c) /\ c < n /\
    (forall c', c' < n -> (total_to dist n c <= total_to dist n c')%Z) /\
    (forall c', c' < c -> (total_to dist n c < total_to dist n c')%Z).
Proof.
  intros dist n src Hsrc Hn. destruct (first_medoid_ok dist n src Hsrc) as (best & sel & E & H).
  destruct H as [(H & _)|(H1 & _ & -> & H3 & H4)]; [specialize (H 0 ltac:(lia)); discriminate|].
  exists sel. splits; auto.
Qed.

Example c88_first_medoid_case :
  provides (line_source [0; 1; 2; 10]%Z) 4 (line_dist [0; 1; 2; 10]%Z) /\
  first_medoid_td_index_pair None (line_source [0; 1; 2; 10]%Z) = Ok (Some 11%Z, 1).
Proof. split; [apply line_provides|vm_compute; reflexivity]. Qed.

(** On integers the answer is sample 0 with a deviation of 0, whatever the samples are. *)
Theorem c88_first_medoid_integers : forall dist n src, provides src n dist ->
  (forall i j, i < n -> j < n -> (0 <= dist i j)%Z) ->
  first_medoid_td_index_pair (Some 0%Z) src = Ok (Some 0%Z, 0).
Proof.
  intros dist n src Hsrc Hpos. unfold first_medoid_td_index_pair. rewrite (proj1 Hsrc).
  match goal with |- context [for_loop n 0 ?b ?s] =>
    destruct (for_loop_inv (fun _ st => st = s) b n 0 s) as (st & -> & ->) end; auto.
  intros c st Hc ->. rewrite (candidate_loss_ok dist n) by (auto; lia). cbn [bind opt_lt]. eexists. split; [reflexivity|].
  destruct (Z.ltb_spec (total_to dist n c) 0); auto. rewrite total_to_zsum in *.
  pose proof (zsum_nonneg n (dist c) ltac:(intros; apply Hpos; lia)). lia.
Qed.

Theorem c88_first_medoid_integers_refuted : exists dist n src total c c',
  provides src n dist /\ first_medoid_td_index_pair (Some 0%Z) src = Ok (Some total, c) /\ c < n /\ c' < n /\
  total <> total_to dist n c /\ (total_to dist n c' < total_to dist n c)%Z.
Proof.
  exists (line_dist [0; 1; 2; 10]%Z), 4, (line_source [0; 1; 2; 10]%Z), 0%Z, 0, 1.
  split; [apply line_provides|]. split; [vm_compute; reflexivity|]. split; [lia|]. split; [lia|].
  split; [vm_compute; discriminate|vm_compute; reflexivity].
Qed.

(** ** Copies of the medoids *)
Theorem c88_medoids_to_centroids : forall (samples : list Z) nf n medoids,
  1 <= nf -> length samples = n * nf -> (forall m, In m medoids -> m < n) ->
  exists c, medoids_to_centroids samples nf medoids = Ok c /\ length c = length medoids * nf /\
    forall k, k < length medoids -> row c nf k = row samples nf (nth k medoids 0).
Proof.
  intros samples nf n M Hnf L HM. unfold medoids_to_centroids.
  match goal with |- context [for_loop _ 0 ?b ?s] =>
    destruct (for_loop_inv (fun t c => length c = length M * nf /\ forall k, k < t -> row c nf k = row samples nf (nth k M 0)) b
      (length M) 0 s) as (c & E & Lc & H) end.
  - split; [apply repeat_length|lia].
  - intros k c Hk (Lc & H). rewrite (rd_nth M k 0) by lia. cbn [bind].
    assert (nth k M 0 < n) by (apply HM, nth_In; lia).
    rewrite (sample_row' samples nf n) by (auto; lia). cbn [bind]. eexists. split; [reflexivity|].
    destruct (row_splice c nf (length M) k (row samples nf (nth k M 0)) Lc ltac:(lia)) as (A & B & C).
    { eapply row_length'; eauto. }
    split; auto. intros k' Hk'. destruct (Nat.eq_dec k' k) as [->|]; auto. rewrite C by auto. apply H. lia.
  - exists c. splits; auto.
Qed.

Example c88_medoids_to_centroids_case :
  medoids_to_centroids [1; 2; 3; 4; 5; 6]%Z 2 [2; 0; 2] = Ok [5; 6; 1; 2; 5; 6]%Z /\
  medoids_to_centroids [1; 2; 3; 4; 5; 6]%Z 2 [3] = UB.
Proof. vm_compute. auto. Qed.

(** A medoid that is not a sample is read outside the data. *)
Theorem c88_medoids_to_centroids_outside : forall (samples : list Z) nf n medoids m,
  1 <= nf -> length samples = n * nf -> In m medoids -> n <= m -> medoids_to_centroids samples nf medoids = UB.
Proof.
  intros samples nf n M m Hnf L Hm Hmn. unfold medoids_to_centroids.
  apply In_nth with (d := 0) in Hm. destruct Hm as (k & Hk & Em).
  assert (G : forall count first c, first + count = length M -> first <= k ->
    for_loop count first (fun k clusters => data_index <- rd M k ;; s <- sample_at samples nf data_index ;;
      Ok (splice clusters (k * nf) (k * nf + nf) s)) c = UB).
  { induction count as [|count IH]; intros first c Hc Hf; [lia|]. cbn [for_loop].
    rewrite (rd_nth M first 0) by lia. cbn [bind]. unfold sample_at.
    destruct (lt_dec (nth first M 0) n) as [Hl|Hl].
    - assert (first <> k) by (intros ->; lia).
      fold (sample_at samples nf (nth first M 0)). rewrite (sample_row' samples nf n) by (auto; lia). cbn [bind].
      apply IH; lia.
    - unfold slice. replace ((nth first M 0 * nf <=? nth first M 0 * nf + nf) && (nth first M 0 * nf + nf <=? length samples)) with false; auto.
      symmetry. apply andb_false_iff. right. apply Nat.leb_gt. nia. }
  apply G; lia.
Qed.

(** ** The construction *)
Section Build.
Context (dist : nat -> nat -> Z) (n : nat) (src : source Z) (top : Z) (Hsrc : provides src n dist).
Context (Hself : forall o, o < n -> dist o o = 0%Z) (Hpos : forall i j, i < n -> j < n -> (0 <= dist i j)%Z).
Context (Htop : forall i j, i < n -> j < n -> (dist i j < top)%Z).

(** With floating point distances: [k] different samples come back with the distance of every sample to the nearest of
    them.  The first is the one with the least total deviation.  Each other one is, among the samples left, the one for
    which the total deviation after adding it, plus its own distance to the medoids there were, is the greatest.  The
    number returned is not the total deviation: the decreases are added instead of subtracted. *)
Theorem c88_build : forall k, 1 <= k <= n ->
  exists total M near, pam_build None top src k = Ok (Some total, M, near) /\
    length M = k /\ NoDup M /\ (forall m, In m M -> m < n) /\
    length near = n /\ (forall o, o < n -> nth o near 0%Z = deviation dist M o) /\
    (forall c, c < n -> (deviations dist n [nth 0 M 0%nat] <= deviations dist n [c])%Z) /\
    (forall t c, 1 <= t < k -> c < n -> ~ In c (firstn t M) ->
       (deviations dist n (firstn t M ++ [c]) + deviation dist (firstn t M) c <=
        deviations dist n (firstn (S t) M) + deviation dist (firstn t M) (nth t M 0%nat))%Z) /\
    (total = 2 * deviations dist n [nth 0 M 0%nat] - deviations dist n M
             - fold_right Z.add 0 (map (fun t => deviation dist (firstn t M) (nth t M 0%nat)) (seq 1 (k - 1))))%Z /\
    (deviations dist n M <= deviations dist n [nth 0 M 0%nat] <= total)%Z.
Proof using Hsrc Hself Hpos Htop.
  intros k Hk. destruct (build_ok dist n src Hsrc Hself Hpos top Htop k Hk) as (((total & M) & near) & E & B).
  destruct B as (L & ND & HM & F1 & F2 & Ln & Hn & S1 & ->).
  assert (P : forall t, S t <= k -> firstn (S t) M = firstn t M ++ [nth t M 0]).
  { intros t Ht. rewrite <- (firstn_skipn t (firstn (S t) M)). rewrite firstn_firstn. replace (Nat.min t (S t)) with t by lia. f_equal.
    rewrite skipn_firstn_comm. replace (S t - t) with 1 by lia.
    rewrite <- (firstn_skipn t M) at 2. rewrite app_nth2; rewrite firstn_length; replace (Nat.min t (length M)) with t by lia; [|lia].
    rewrite Nat.sub_diag. pose proof (skipn_length t M). destruct (skipn t M); simpl in *; [lia|auto]. }
  set (w := zsum (k - 1) (fun t => deviation dist (firstn (S t) M) (nth (S t) M 0%nat))).
  (* the running difference *)
  assert (T : forall t, t < k -> (deviations dist n (firstn (S t) M) + zsum t (fun t => deviation dist (firstn (S t) M) (nth (S t) M 0%nat))
              <= deviations dist n [nth 0 M 0%nat])%Z).
  { induction t as [|t IH]; intros Ht.
    - rewrite P by lia. cbn [firstn app zsum]. lia.
    - specialize (IH ltac:(lia)). cbn [zsum].
      assert (Hc : nth (S t) M 0 < n) by (apply HM, nth_In; lia).
      assert (HP : forall m, In m (firstn (S t) M) -> m < n) by (intros m Hm; apply HM; rewrite <- (firstn_skipn (S t) M); apply in_app_iff; auto).
      assert (Hne : firstn (S t) M <> []) by (intros A; apply (f_equal (@length nat)) in A; rewrite firstn_length in A; cbn [length] in A; lia).
      rewrite (P (S t)) by lia.
      (* the accumulator of the candidate is a sum of decreases *)
      destruct (nearest_ok dist n src Hsrc top Htop (firstn (S t) M) Hne HP) as (nr & _ & Lr & Hr).
      pose proof (candidate_gain_ok dist n src Hsrc Hself Hpos (firstn (S t) M) nr (nth (S t) M 0) Hne HP Hc Lr Hr) as G.
      enough (0 <= deviations dist n (firstn (S t) M) - deviations dist n (firstn (S t) M ++ [nth (S t) M 0%nat]) -
                   deviation dist (firstn (S t) M) (nth (S t) M 0%nat))%Z by lia.
      clear - G Lr Hsrc Hc. revert G. generalize (deviations dist n (firstn (S t) M) - deviations dist n (firstn (S t) M ++ [nth (S t) M 0%nat]) -
                   deviation dist (firstn (S t) M) (nth (S t) M 0%nat))%Z as v. intros v G.
      unfold candidate_gain in G. rewrite (proj1 Hsrc) in G.
      match type of G with for_loop n 0 ?b ?s = _ =>
        destruct (for_loop_inv (fun _ acc => (0 <= acc)%Z) b n 0 s) as (st & E' & Hst); [lia| |congruence] end.
      intros o s Ho Hs. destruct (negb _ && _); [|eauto]. rewrite (proj2 Hsrc) by lia. cbn [bind].
      rewrite (rd_nth nr o 0%Z) by lia. cbn [bind]. eexists. split; [reflexivity|].
      destruct (Z.ltb_spec (dist (nth (S t) M 0) o) (nth o nr 0%Z)); lia. }
  assert (W : (0 <= w)%Z).
  { apply zsum_nonneg. intros t Ht. apply (deviation_nonneg dist n Hpos).
    - intros A. apply (f_equal (@length nat)) in A. rewrite firstn_length in A. cbn [length] in A. lia.
    - intros m Hm. apply HM. rewrite <- (firstn_skipn (S t) M). apply in_app_iff; auto.
    - apply HM, nth_In. lia. }
  exists (2 * deviations dist n [nth 0 M 0%nat] - deviations dist n M - w)%Z, M, near. splits; auto.
  - intros t c Ht Hc Hin. rewrite P by lia. destruct (S1 t Ht) as (A & _). apply (A c Hc Hin).
  - f_equal. unfold w. clear.
    assert (Q : forall m, zsum m (fun t => deviation dist (firstn (S t) M) (nth (S t) M 0%nat)) =
      fold_right Z.add 0%Z (map (fun t => deviation dist (firstn t M) (nth t M 0%nat)) (seq 1 m))).
    { induction m as [|m IH]; auto. rewrite seq_S, map_app, fold_right_app. cbn [zsum map fold_right Nat.add]. rewrite IH.
      rewrite (fold_add_map _ (seq 1 m) (_ + 0)%Z). lia. }
    apply Q.
  - specialize (T (k - 1) ltac:(lia)). fold w in T. replace (S (k - 1)) with k in T by lia.
    rewrite <- L in T at 1. rewrite firstn_all in T. lia.
  - specialize (T (k - 1) ltac:(lia)). fold w in T. replace (S (k - 1)) with k in T by lia.
    rewrite <- L in T at 1. rewrite firstn_all in T. lia.
Qed.

(** More medoids than samples: all the samples, then sample 0 again and again, and an infinite deviation. *)
Theorem c88_build_too_many : forall k, 1 <= n < k ->
  exists total M near near', pam_build None top src n = Ok (Some total, M, near) /\ Permutation M (seq 0 n) /\
    pam_build None top src k = Ok (None, M ++ repeat 0 (k - n), near') /\ near' = repeat 0%Z n.
Proof using Hsrc Hself Hpos Htop.
  intros k Hk. destruct (build_ok dist n src Hsrc Hself Hpos top Htop n ltac:(lia)) as (((total & M) & near) & E & B).
  pose proof B as (L & ND & HM & F1 & F2 & Ln & Hn & S1 & Et). subst total. eexists _, M, near, (repeat 0%Z n). split; [exact E|].
  assert (PM : Permutation M (seq 0 n)).
  { apply NoDup_Permutation_bis; auto; [rewrite seq_length; lia|]. intros m Hm. apply in_seq. specialize (HM m Hm). lia. }
  split; auto. split; auto.
  unfold pam_build in *. destruct (first_medoid_td_index_pair None src) as [(t0 & c0)| | |]; cbn [bind] in *; try discriminate E.
  destruct (nth_distances top src [c0] 1) as [nr| | |]; cbn [bind] in *; try discriminate E.
  replace (k - 1) with (n - 1 + (k - n)) by lia. rewrite for_loop_app, E. cbn [bind].
  assert (Z0 : forall X, (forall m, In m X -> m < n) -> forall v, length v = n -> (forall o, o < n -> nth o v 0%Z = deviation dist (M ++ X) o) ->
    v = repeat 0%Z n).
  { intros X HX v Lv Hv. apply nth_error_ext. intros o. destruct (lt_dec o n) as [Ho|Ho].
    - rewrite (@nth_error_nth' Z v o 0%Z) by lia. rewrite (@nth_error_nth' Z (repeat 0%Z n) o 0%Z) by (rewrite repeat_length; lia).
      rewrite Hv, nth_repeat by auto. f_equal. apply (deviation_member dist n Hself Hpos).
      + intros m Hm. apply in_app_iff in Hm. destruct Hm; auto.
      + apply in_app_iff. left. apply (Permutation_in _ (Permutation_sym PM)). apply in_seq. lia.
    - rewrite (proj2 (nth_error_None v o)), (proj2 (nth_error_None (repeat 0%Z n) o)); auto; rewrite ?repeat_length; lia. }
  assert (G : forall count first j t v,
    length v = n -> (forall o, o < n -> nth o v 0%Z = deviation dist (M ++ repeat 0 j) o) -> 1 <= count ->
    for_loop count first (fun _ '(total_deviation, medoids_indices, nearest) =>
      ' (selected_deviation_candidate, selected_medoid_index) <- select_medoid None src medoids_indices nearest ;;
      nearest <- nth_distances top src (medoids_indices ++ [selected_medoid_index]) 1 ;;
      Ok (opt_add total_deviation selected_deviation_candidate, medoids_indices ++ [selected_medoid_index], nearest)) (t, M ++ repeat 0 j, v) =
    Ok (None, M ++ repeat 0 (j + count), repeat 0%Z n)).
  { induction count as [|count IH]; intros first j t v Lv Hv Hc; [lia|]. cbn [for_loop].
    assert (HX : forall j m, In m (repeat 0 j) -> m < n) by (intros j' m Hm; apply repeat_spec in Hm; lia).
    assert (HMX : forall j m, In m (M ++ repeat 0 j) -> m < n) by (intros j' m Hm; apply in_app_iff in Hm; destruct Hm; eauto).
    assert (Hne : forall j, M ++ repeat 0 j <> []) by (intros j' A; apply app_eq_nil in A; destruct A as (-> & _); simpl in L; lia).
    destruct (select_ok dist n src Hsrc Hself Hpos (M ++ repeat 0 j) v (Hne j) (HMX j) Lv Hv) as (best & sel & Es & H).
    rewrite Es. cbn [bind]. destruct H as [(_ & -> & ->)|(H1 & H2 & _)].
    2:{ exfalso. apply not_in_spec in H2. apply H2, in_app_iff. left. apply (Permutation_in _ (Permutation_sym PM)), in_seq. lia. }
    rewrite <- app_assoc. change [0] with (repeat 0 1). rewrite <- repeat_app.
    destruct (nearest_ok dist n src Hsrc top Htop (M ++ repeat 0 (j + 1)) (Hne _) (HMX _)) as (v' & Ev & Lv' & Hv').
    rewrite Ev. cbn [bind]. replace (opt_add t None) with (@None Z) by (destruct t; auto).
    destruct count as [|count].
    - cbn [for_loop]. f_equal. f_equal. exact (Z0 (repeat 0 (j + 1)) (HX _) v' Lv' Hv').
    - rewrite (IH (S first) (j + 1) None v'); auto; try lia. f_equal. f_equal. f_equal. f_equal. f_equal. lia. }
  specialize (fun t => G (k - n) (1 + (n - 1)) 0 t near Ln) as G'.
  cbn [repeat] in G'. rewrite app_nil_r in G'. apply G'; auto. lia.
Qed.

(** On integers (where infinity is 0) every medoid is sample 0 and the deviation is 0. *)
Theorem c88_build_integers : forall k, 1 <= n ->
  exists near, pam_build (Some 0%Z) top src k = Ok (Some 0%Z, repeat 0 (Nat.max 1 k), near) /\
    length near = n /\ forall o, o < n -> nth o near 0%Z = dist 0 o.
Proof using Hsrc Hpos Htop.
  intros k Hn. unfold pam_build. rewrite (c88_first_medoid_integers dist n src Hsrc Hpos). cbn [bind].
  assert (HX : forall j m, In m (repeat 0 j) -> m < n) by (intros j' m Hm; apply repeat_spec in Hm; lia).
  assert (D : forall j o, deviation dist (repeat 0 (S j)) o = dist 0 o).
  { intros j o. apply deviation_is. split; [exists 0; split; auto; left; auto|]. intros m Hm. apply repeat_spec in Hm. subst. lia. }
  destruct (nearest_ok dist n src Hsrc top Htop [0] ltac:(discriminate) (HX 1)) as (near & -> & L & H). cbn [bind].
  match goal with |- context [for_loop _ 1 ?b ?s] =>
    destruct (for_loop_inv (fun i '(t, M, v) => 1 <= i /\ t = Some 0%Z /\ M = repeat 0 i /\ length v = n /\ forall o, o < n -> nth o v 0%Z = dist 0 o)
      b (k - 1) 1 s) as (((t & M) & v) & -> & Hi & -> & -> & Lv & Hv) end.
  - splits; auto.
  - intros i ((t & M) & v) Hi (Hi1 & -> & -> & Lv & Hv).
    assert (Es : select_medoid (Some 0%Z) src (repeat 0 i) v = Ok (Some 0%Z, 0)).
    { unfold select_medoid. rewrite (proj1 Hsrc).
      match goal with |- context [for_loop n 0 ?b ?s] =>
        destruct (for_loop_inv (fun _ st => st = s) b n 0 s) as (st & -> & ->) end; auto.
      intros c st Hc ->. destruct (not_in (repeat 0 i) c); [|eauto].
      assert (exists g, candidate_gain src (repeat 0 i) v c = Ok g /\ (0 <= g)%Z) as (g & -> & Hg).
      { unfold candidate_gain. rewrite (proj1 Hsrc).
        match goal with |- context [for_loop n 0 ?b ?s] =>
          destruct (for_loop_inv (fun _ acc => (0 <= acc)%Z) b n 0 s) as (g & E & Hg); [lia| |eauto] end.
        intros o s Ho Hs. destruct (negb _ && _); [|eauto]. rewrite (proj2 Hsrc) by lia. cbn [bind].
        rewrite (rd_nth v o 0%Z) by lia. cbn [bind]. eexists. split; [reflexivity|].
        destruct (Z.ltb_spec (dist c o) (nth o v 0%Z)); lia. }
      cbn [bind opt_lt]. destruct (Z.ltb_spec g 0); [lia|]. eauto. }
    rewrite Es. cbn [bind]. cbv zeta. change [0] with (repeat 0 1). rewrite <- repeat_app. rewrite Nat.add_1_r.
    destruct (nearest_ok dist n src Hsrc top Htop (repeat 0 (S i)) ltac:(discriminate) (HX _)) as (v' & -> & Lv' & Hv'). cbn [bind].
    eexists. split; [reflexivity|]. split; [lia|]. split; [reflexivity|]. split; [reflexivity|]. split; [exact Lv'|]. intros o Ho. rewrite Hv' by auto. apply D.
  - exists v. splits; auto. f_equal. f_equal. f_equal. f_equal. lia.
Qed.
End Build.

Example c88_build_case :
  let l := [0; 1; 2; 10]%Z in
  provides (line_source l) 4 (line_dist l) /\
  (forall i j, i < 4 -> j < 4 -> (0 <= line_dist l i j < 100)%Z) /\
  pam_build None 100 (line_source l) 3 = Ok (Some 11%Z, [1; 0; 3], [0; 0; 1; 0]%Z) /\
  pam_build None 100 (line_source l) 6 = Ok (None, [1; 0; 3; 2; 0; 0], [0; 0; 0; 0]%Z) /\
  pam_build (Some 0%Z) 100 (line_source l) 3 = Ok (Some 0%Z, [0; 0; 0], [0; 1; 2; 10]%Z).
Proof.
  split; [apply line_provides|]. split.
  - intros i j Hi Hj. do 4 (destruct i as [|i]; [do 4 (destruct j as [|j]; [vm_compute; split; [discriminate|reflexivity]|]); lia|]); lia.
  - split; [vm_compute; reflexivity|]. split; vm_compute; reflexivity.
Qed.

(** The sample added is not one that decreases the total deviation the most, and the number returned is not the total
    deviation of the medoids returned. *)
Theorem c88_build_greedy_refuted : exists dist n src top total first second near better,
  provides src n dist /\ pam_build None top src 2 = Ok (Some total, [first; second], near) /\ better < n /\
  (deviations dist n [first; better] < deviations dist n [first; second])%Z /\
  total <> deviations dist n [first; second].
Proof.
  exists (line_dist [0; 1; 2; 10]%Z), 4, (line_source [0; 1; 2; 10]%Z), 100%Z, 11%Z, 1, 0, [0; 0; 1; 9]%Z, 3.
  split; [apply line_provides|]. split; [vm_compute; reflexivity|]. split; [lia|].
  split; [vm_compute; reflexivity|vm_compute; discriminate].
Qed.

Print Assumptions c88_first_medoid.
Print Assumptions c88_first_medoid_integers.
Print Assumptions c88_first_medoid_integers_refuted.
Print Assumptions c88_medoids_to_centroids.
Print Assumptions c88_medoids_to_centroids_outside.
Print Assumptions c88_build.
Print Assumptions c88_build_too_many.
Print Assumptions c88_build_integers.
Print Assumptions c88_build_greedy_refuted.
