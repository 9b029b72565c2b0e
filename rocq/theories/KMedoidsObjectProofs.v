(** Lemmas for a KMedoids object used for several calls. *)
From Coq Require Import List Arith ZArith Bool Lia Permutation.
From Verif Require Import Base SortingModel SearchModel BufferModel BufferSpec MatrixModel MatrixProofs StatsModel KMeansModel KMeansSpec KMeansProofs RandomModel RandomSpec
  RandomProofs RandomProps KMedoidsModel KMedoidsSpec KMedoidsProofs KMedoidsProps KMedoidsTies KMedoidsTiesProps.
Import ListNotations.
Local Open Scope nat_scope.

Lemma ok_inv {A} (x y : A) : Ok x = Ok y -> x = y.
Proof. congruence. Qed.

Lemma bind_ext {A B} (e e' : res A) (k k' : A -> res B) : e = e' -> (forall a, e' = Ok a -> k a = k' a) -> bind e k = bind e' k'.
Proof. intros -> H. destruct e'; cbn [bind]; auto. Qed.

Lemma fill_ext {A} (b : A) k f g : (forall i, i < k -> f i = g i) -> fill b k f = fill b k g.
Proof. intros H. unfold fill. apply for_loop_ext. intros i s Hi. rewrite H by lia. reflexivity. Qed.

(** ** Two sources of the same distances *)
Section Sources.
Context (n : nat) (src src' : source Z) (Hr : rows src = n) (Hr' : rows src' = n).
Context (Hd : forall i j, i < n -> j < n -> dist_at src i j = dist_at src' i j).
Context (wrap : Z -> Z) (top : Z).

Lemma medoid_distance_ext M i o : (forall m, In m M -> m < n) -> o < n -> medoid_distance src M i o = medoid_distance src' M i o.
Proof using Hd.
  intros HM Ho. unfold medoid_distance. apply bind_ext; [reflexivity|]. intros m E. apply rd_ok, nth_error_In in E. auto.
Qed.

Lemma nearest_indices_ext M : (forall m, In m M -> m < n) ->
  samples_to_nearest_medoid_indices Z.ltb top src M = samples_to_nearest_medoid_indices Z.ltb top src' M.
Proof using Hr Hr' Hd.
  intros HM. unfold samples_to_nearest_medoid_indices. destruct M as [|m M]; [reflexivity|]. rewrite Hr, Hr'. apply fill_ext. intros o Ho.
  f_equal. apply for_loop_ext. intros i (d & j) _. rewrite (medoid_distance_ext (m :: M) i o HM Ho). reflexivity.
Qed.
Lemma second_indices_ext M : (forall m, In m M -> m < n) ->
  samples_to_second_nearest_medoid_indices Z.ltb Z.eqb top src M = samples_to_second_nearest_medoid_indices Z.ltb Z.eqb top src' M.
Proof using Hr Hr' Hd.
  intros HM. unfold samples_to_second_nearest_medoid_indices. destruct M as [|m M]; [reflexivity|]. rewrite Hr, Hr'. apply fill_ext. intros o Ho.
  f_equal. apply for_loop_ext. intros i (((d & d2) & j) & j2) _. rewrite (medoid_distance_ext (m :: M) i o HM Ho). reflexivity.
Qed.
Lemma nearest_distances_ext M : (forall m, In m M -> m < n) ->
  samples_to_nearest_medoid_distances Z.ltb top src M = samples_to_nearest_medoid_distances Z.ltb top src' M.
Proof using Hr Hr' Hd.
  intros HM. unfold samples_to_nearest_medoid_distances. destruct M as [|m M]; [reflexivity|]. rewrite Hr, Hr'. apply fill_ext. intros o Ho.
  apply for_each_ext. intros x d Hx. rewrite Hd by auto. reflexivity.
Qed.
Lemma second_distances_ext M : (forall m, In m M -> m < n) ->
  samples_to_second_nearest_medoid_distances Z.ltb Z.eqb top src M = samples_to_second_nearest_medoid_distances Z.ltb Z.eqb top src' M.
Proof using Hr Hr' Hd.
  intros HM. unfold samples_to_second_nearest_medoid_distances. destruct M as [|m M]; [reflexivity|]. rewrite Hr, Hr'. apply fill_ext. intros o Ho.
  f_equal. apply for_each_ext. intros x (d & d2) Hx. rewrite Hd by auto. reflexivity.
Qed.

Lemma make_pam_ext M : (forall m, In m M -> m < n) -> make_pam wrap top src M = make_pam wrap top src' M.
Proof using Hr Hr' Hd.
  intros HM. unfold make_pam, nth_indices, nth_distances, nth_nearest.
  rewrite (nearest_indices_ext M HM), (second_indices_ext M HM), (nearest_distances_ext M HM), (second_distances_ext M HM). reflexivity.
Qed.

Lemma find_best_swap_ext p c : c < n -> find_best_swap wrap src p c = find_best_swap wrap src' p c.
Proof using Hr Hr' Hd.
  intros Hc. unfold find_best_swap. rewrite Hr, Hr'. f_equal. apply for_loop_ext. intros o (a & b) Ho. rewrite Hd by lia. reflexivity.
Qed.

Lemma update_second_ext M b o d i : (forall m, In m M -> m < n) -> o < n ->
  update_second_nearest src M b o d i = update_second_nearest src' M b o d i.
Proof using Hd.
  intros HM Ho. unfold update_second_nearest. apply for_loop_ext. intros j (x & y) _. rewrite (medoid_distance_ext M j o HM Ho). reflexivity.
Qed.

Lemma swap_sample_ext M c b o i1 i2 d1 d2 : (forall m, In m M -> m < n) -> c < n -> o < n ->
  swap_sample src M c b o i1 i2 d1 d2 = swap_sample src' M c b o i1 i2 d1 d2.
Proof using Hd.
  intros HM Hc Ho. unfold swap_sample. destruct (o =? c); [reflexivity|]. rewrite Hd by auto. apply bind_ext; [reflexivity|]. intros d _.
  rewrite !(update_second_ext M _ o _ _ HM Ho). reflexivity.
Qed.

Lemma swap_buffers_ext M p c b : (forall m, In m M -> m < n) -> c < n -> swap_buffers wrap src M p c b = swap_buffers wrap src' M p c b.
Proof using Hr Hr' Hd.
  intros HM Hc. unfold swap_buffers. rewrite Hr, Hr'. apply for_loop_ext. intros o ((((I1 & I2) & D1) & D2) & l) Ho.
  apply bind_ext; [reflexivity|]. intros i1 _. apply bind_ext; [reflexivity|]. intros i2 _. apply bind_ext; [reflexivity|]. intros d1 _.
  apply bind_ext; [reflexivity|]. intros d2 _. rewrite (swap_sample_ext M c b o i1 i2 d1 d2 HM Hc) by lia. reflexivity.
Qed.

Lemma wr_in M b c M' : (forall m, In m M -> m < n) -> c < n -> wr M b c = Ok M' -> forall m, In m M' -> m < n.
Proof using Type.
  intros HM Hc E m Hm. apply wr_ok in E. destruct E as (Hb & ->). apply In_nth_error in Hm. destruct Hm as (i & Hi).
  rewrite nth_error_upd in Hi. destruct (_ && _); [injection Hi as <-; auto|]. apply HM. eapply nth_error_In. exact Hi.
Qed.

Lemma try_candidate_ext p c : (forall m, In m (p_medoids p) -> m < n) -> c < n ->
  try_candidate wrap src c p = try_candidate wrap src' c p.
Proof using Hr Hr' Hd.
  intros HM Hc. unfold try_candidate. apply bind_ext; [reflexivity|]. intros i _. destruct (negb _); [|reflexivity].
  rewrite (find_best_swap_ext p c Hc). apply bind_ext; [reflexivity|]. intros (d & b) _. destruct (d <? 0)%Z; [|reflexivity].
  apply bind_ext; [reflexivity|]. intros M' E. rewrite (swap_buffers_ext M' p c b); auto. eapply wr_in; eauto.
Qed.

Lemma try_candidate_in p c q : (forall m, In m (p_medoids p) -> m < n) -> c < n -> try_candidate wrap src c p = Ok q ->
  forall m, In m (p_medoids q) -> m < n.
Proof using Type.
  intros HM Hc E. unfold try_candidate in E. apply bind_ok in E. destruct E as (i & _ & E). destruct (negb _); [|injection E as <-; auto].
  apply bind_ok in E. destruct E as ((d & b) & _ & E). destruct (d <? 0)%Z; [|injection E as <-; auto].
  apply bind_ok in E. destruct E as (M' & EM & E). apply bind_ok in E. destruct E as (((((I1 & I2) & D1) & D2) & l) & _ & E).
  apply bind_ok in E. destruct E as (L & _ & E). injection E as <-. cbn [p_medoids]. eapply wr_in; eauto.
Qed.

Lemma tries_ext : forall k c p, c + k <= n -> (forall m, In m (p_medoids p) -> m < n) ->
  for_loop k c (try_candidate wrap src) p = for_loop k c (try_candidate wrap src') p /\
  forall q, for_loop k c (try_candidate wrap src) p = Ok q -> forall m, In m (p_medoids q) -> m < n.
Proof using Hr Hr' Hd.
  induction k as [|k IH]; intros c p Hk HM; cbn [for_loop]; [split; [auto|intros q E; injection E as <-; auto]|].
  rewrite <- (try_candidate_ext p c HM) by lia. destruct (try_candidate wrap src c p) as [q| | |] eqn:E; cbn [bind];
    try (split; [reflexivity|discriminate]).
  apply IH; [lia|]. apply (try_candidate_in p c q HM); [lia|auto].
Qed.

Lemma loop_ext o : forall it pt prev cand p, (forall m, In m (p_medoids p) -> m < n) -> (forall m, In m cand -> m < n) ->
  medoids_loop wrap src o it pt prev cand p = medoids_loop wrap src' o it pt prev cand p /\
  forall r, medoids_loop wrap src o it pt prev cand p = Ok r -> forall m, In m (fst r) -> m < n.
Proof using Hr Hr' Hd.
  induction it as [|it IH]; intros pt prev cand p HM HC; cbn [medoids_loop]; [split; [auto|intros r E; injection E as <-; auto]|].
  unfold pam_step. rewrite Hr, Hr'. destruct (tries_ext n 0 p ltac:(lia) HM) as (<- & HI).
  destruct (for_loop n 0 (try_candidate wrap src) p) as [q| | |] eqn:E; cbn [bind]; try (split; [reflexivity|discriminate]).
  specialize (HI q eq_refl). destruct (_ && _); [destruct (_ =? _)|].
  - split; [auto|intros r E'; injection E' as <-; auto].
  - apply IH; auto.
  - apply IH; auto.
Qed.

Lemma candidate_ext o M : (forall m, In m M -> m < n) ->
  medoids_candidate wrap top src o M = medoids_candidate wrap top src' o M /\
  forall r, medoids_candidate wrap top src o M = Ok r -> forall m, In m (fst r) -> m < n.
Proof using Hr Hr' Hd.
  intros HM. unfold medoids_candidate. rewrite <- (make_pam_ext M HM). destruct (make_pam wrap top src M) as [p| | |] eqn:E; cbn [bind];
    try (split; [reflexivity|discriminate]).
  assert (EM : p_medoids p = M).
  { unfold make_pam in E. repeat (apply bind_ok in E; destruct E as (? & _ & E)). injection E as <-. reflexivity. }
  destruct (loop_ext o (mo_max_iter o) 0 [] M p) as (<- & H); [rewrite EM; auto|auto|]. split; [reflexivity|].
  intros r E'. apply bind_ok in E'. destruct E' as ((R & q) & E1 & E2). injection E2 as <-. exact (H _ E1).
Qed.

Lemma fit_ext o k M draw : (forall m, In m M -> m < n) -> (forall i, in_range (draw i)) -> k <= n ->
  medoids_fit wrap top src o k M draw = medoids_fit wrap top src' o k M draw /\
  forall R, medoids_fit wrap top src o k M draw = Ok R -> forall m, In m R -> m < n.
Proof using Hr Hr' Hd.
  intros HM Hin Hk. unfold medoids_fit.
  assert (E : medoids_candidates src o k M draw = medoids_candidates src' o k M draw) by (unfold medoids_candidates; rewrite Hr, Hr'; reflexivity).
  rewrite <- E. destruct (medoids_candidates src o k M draw) as [starts| | |] eqn:Es; cbn [bind]; try (split; [reflexivity|discriminate]).
  assert (HS : forall S, In S starts -> forall m, In m S -> m < n).
  { unfold medoids_candidates in Es. destruct M as [|m M]; [|injection Es as <-; intros S [<-|[]]; auto].
    assert (G : forall l acc res, (forall S, In S acc -> forall m, In m S -> m < n) ->
      for_each l (fun i candidates => random_medoids <- make_n_elements_from_interval (draw i) k (rows src) ;; Ok (candidates ++ [random_medoids])) acc = Ok res ->
      forall S, In S res -> forall m, In m S -> m < n).
    { induction l as [|i l IH]; intros acc res Ha E1; cbn [for_each] in E1; [injection E1 as <-; auto|].
      apply bind_ok in E1. destruct E1 as (acc' & E1 & E2). apply (IH acc' res); [|exact E2]. apply bind_ok in E1. destruct E1 as (r & E1 & E3).
      injection E3 as <-. rewrite Hr in E1. destruct (interval_ok (draw i) k n (Hin i) Hk) as (idx & E4 & HP & _).
      assert (r = idx) by congruence. subst r. intros S HSi. apply in_app_or in HSi. destruct HSi as [HSi|[<-|[]]]; [apply Ha; auto|].
      intros m Hm. apply (Permutation_in m HP), in_seq in Hm. lia. }
    exact (G (seq 0 (mo_n_init o)) [] starts (fun S HS => match HS with end) Es). }
  assert (G : forall l acc, (forall S, In S l -> forall m, In m S -> m < n) -> (forall r, In r acc -> forall m, In m (fst r) -> m < n) ->
    for_each l (fun candidate results => r <- medoids_candidate wrap top src o candidate ;; Ok (results ++ [r])) acc =
    for_each l (fun candidate results => r <- medoids_candidate wrap top src' o candidate ;; Ok (results ++ [r])) acc /\
    forall res, for_each l (fun candidate results => r <- medoids_candidate wrap top src o candidate ;; Ok (results ++ [r])) acc = Ok res ->
      forall r, In r res -> forall m, In m (fst r) -> m < n).
  { induction l as [|S l IH]; intros acc Hl Ha; cbn [for_each]; [split; [auto|intros res E1; injection E1 as <-; auto]|].
    destruct (candidate_ext o S (Hl S (or_introl eq_refl))) as (<- & HC).
    destruct (medoids_candidate wrap top src o S) as [r| | |] eqn:E1; cbn [bind]; try (split; [reflexivity|discriminate]).
    apply IH; [intros S' HS'; apply Hl; right; auto|]. intros r' Hr1. apply in_app_or in Hr1. destruct Hr1 as [Hr1|[<-|[]]]; [exact (Ha _ Hr1)|]. exact (HC r eq_refl). }
  destruct (G starts [] HS ltac:(intros r [])) as (<- & HG). split; [reflexivity|]. intros R ER. apply bind_ok in ER. destruct ER as (results & E1 & ER).
  apply bind_ok in ER. destruct ER as ((i & l) & _ & ER). apply bind_ok in ER. destruct ER as ((best & b) & E2 & ER). injection ER as <-.
  apply rd_ok, nth_error_In in E2. exact (HG results E1 _ E2).
Qed.
End Sources.

(** ** One start *)
Lemma fit_given_eq wrap top src o k M draw R loss : M <> [] -> medoids_candidate wrap top src o M = Ok (R, loss) ->
  medoids_fit wrap top src o k M draw = Ok R.
Proof.
  intros Hne E. unfold medoids_fit, medoids_candidates. destruct M as [|m M]; [congruence|]. cbn [bind for_each]. rewrite E. reflexivity.
Qed.

Lemma fit_given_inv wrap top src o k M draw : M <> [] ->
  medoids_fit wrap top src o k M draw = (r <- medoids_candidate wrap top src o M ;; Ok (fst r)).
Proof.
  intros Hne. destruct (medoids_candidate wrap top src o M) as [(R & l)| | |] eqn:E; cbn [bind fst]; [now apply (fit_given_eq _ _ _ _ _ _ _ _ l)|..];
    unfold medoids_fit, medoids_candidates; destruct M as [|m M]; try congruence; cbn [bind for_each]; rewrite E; reflexivity.
Qed.

Section Rest.
Context (dist : nat -> nat -> Z) (n : nat) (src : source Z) (Hsrc : provides src n dist).
Context (Hself : forall o, o < n -> dist o o = 0%Z) (Hpos : forall i j, i < n -> j < n -> (0 <= dist i j)%Z).
Context (top : Z) (Htop : forall i j, i < n -> j < n -> (dist i j < top)%Z).

(** The states from a start, and the number of the one that [fit] returns. *)
Lemma any_reached M : (forall m, In m M -> m < n) -> 2 <= length M ->
  exists st, make_pam signed_wrap top src M = Ok (st 0) /\ p_medoids (st 0) = M /\ p_loss (st 0) = deviations dist n M /\
   (forall t, pam_step signed_wrap src (st t) = Ok (st (S t)) /\ sound dist n top (st t) /\ length (p_medoids (st t)) = length M /\
     (st (S t) = st t \/ (p_loss (st (S t)) < p_loss (st t))%Z)) /\
   forall o, exists t, medoids_candidate signed_wrap top src o M = Ok (p_medoids (st t), p_loss (st t)) /\
     stops_at (mo_max_iter o) (mo_early_stopping o) Nat.eqb (mo_patience o) (fun i => p_medoids (st i)) t.
Proof using Hsrc Hself Hpos Htop.
  intros HM H2. destruct (make_pam_sound dist n src Hsrc Hself Hpos top Htop M HM H2) as (p & Ep & EM & HS & EL).
  destruct (sound_states dist n src Hsrc Hself Hpos top Htop p HS) as (st & H0 & H).
  exists st. rewrite H0, Ep. split; [auto|]. split; [auto|]. split; [auto|]. split.
  { intros t. destruct (H t) as (A & B & C & D & _). rewrite EM in C. auto. }
  intros o. unfold medoids_candidate. rewrite Ep. cbn [bind].
  destruct (fit_loop_ok index_arith (pam_algorithm top src) (as_options o) Nat.eqb st (fun i => proj1 (H i))
    ltac:(intros i E; destruct (H i) as (_ & Hc & _); pose proof (s_two _ _ _ _ Hc) as H3;
          change (p_medoids (st i) = []) in E; rewrite E in H3; simpl in H3; lia) M (mo_max_iter o) 0 0) as (t & E & Ht);
    cbn [as_options max_iter patience early_stopping]; try lia.
  - intros _. split; [lia|left; lia].
  - intros t' Ht' (_ & Hs). destruct (Hs 0); lia.
  - cbn [Nat.eqb] in E. rewrite H0 in E.
    assert (E' : medoids_loop signed_wrap src o (mo_max_iter o) 0 [] M p =
      Ok (if t =? 0 then M else p_medoids (st t), st t)) by (rewrite (medoids_loop_eq top); exact E).
    rewrite E'. cbn [bind].
    assert (ER : (if t =? 0 then M else p_medoids (st t)) = p_medoids (st t)).
    { destruct t; simpl; auto. rewrite H0. auto. }
    exists t. rewrite ER. split; [reflexivity|exact Ht].
Qed.

(** Medoids from which the first step changes nothing. *)
Definition at_rest (M : list nat) : Prop := exists p, make_pam signed_wrap top src M = Ok p /\ pam_step signed_wrap src p = Ok p.

Lemma rest_fit M o k draw : (forall m, In m M -> m < n) -> 2 <= length M -> at_rest M ->
  medoids_fit signed_wrap top src o k M draw = Ok M.
Proof using Hsrc Hself Hpos Htop.
  intros HM H2 (p & Ep & Es). destruct (any_reached M HM H2) as (st & E0 & EM & _ & H & Hf).
  destruct (Hf o) as (t & Et & _).
  assert (Hst : forall i, st i = p).
  { induction i as [|i IH]; [congruence|]. destruct (H i) as (Hi & _). rewrite IH, Es in Hi. congruence. }
  apply (fit_given_eq _ _ _ _ _ _ _ _ (p_loss (st t))); [intros ->; simpl in H2; lia|]. rewrite Et. do 2 f_equal. rewrite Hst, <- EM, Hst. reflexivity.
Qed.

(** A fit of at least one iteration finds the medoids at rest, or better ones. *)
Lemma fit_rest_or_better M o k draw : (forall m, In m M -> m < n) -> 2 <= length M -> 1 <= mo_max_iter o ->
  exists R, medoids_fit signed_wrap top src o k M draw = Ok R /\ (forall m, In m R -> m < n) /\ length R = length M /\
    ((R = M /\ at_rest M) \/ (deviations dist n R < deviations dist n M)%Z).
Proof using Hsrc Hself Hpos Htop.
  intros HM H2 Hi. destruct (any_reached M HM H2) as (st & E0 & EM & EL & H & Hf).
  destruct (Hf o) as (t & Et & (Ht & Hs & _)).
  exists (p_medoids (st t)). split; [apply (fit_given_eq _ _ _ _ _ _ _ _ (p_loss (st t))); [intros ->; simpl in H2; lia|auto]|].
  destruct (H t) as (_ & HS & HL & _). split; [apply HS|]. split; [auto|].
  assert (Ht1 : 1 <= t). { destruct Hs as [->|(_ & Hs)]; [auto|]. destruct (Hs 0); lia. }
  destruct (H 0) as (Es & _ & _ & [E1|H1]).
  - left. assert (Hst : forall i, st i = st 0).
    { induction i as [|i IH]; [auto|]. destruct (H i) as (Hi' & _). rewrite IH, Es in Hi'. congruence. }
    split; [rewrite Hst; auto|]. exists (st 0). split; [auto|]. rewrite Es, E1. auto.
  - right. assert (Hm : forall i, (p_loss (st (S i)) <= p_loss (st 1%nat))%Z).
    { induction i as [|i IH]; [lia|]. destruct (H (S i)) as (_ & _ & _ & [->|?]); lia. }
    destruct t as [|t]; [lia|]. specialize (Hm t). pose proof (sound_loss dist n Hpos top _ HS). lia.
Qed.
End Rest.
