(** Theorems on a KMedoids object used for several calls (C94). *)
From Coq Require Import List Arith ZArith Bool Lia Permutation.
From Verif Require Import Base SortingModel SearchModel BufferModel BufferSpec BufferProofs BoundsSpec BoundsProofs MatrixModel MatrixSpec MatrixProofs MatrixProps StatsModel KMeansModel KMeansSpec KMeansProofs
  RandomModel RandomSpec RandomProofs RandomProps KMedoidsModel KMedoidsSpec KMedoidsProofs KMedoidsProps KMedoidsTies KMedoidsTiesProps
  KMedoidsObjectModel KMedoidsObjectProofs.
Import ListNotations.
Local Open Scope nat_scope.

(** ** Once there are medoids *)
(** Options that differ in [n_init] only. *)
Definition same_options (o o' : medoids_options) : Prop :=
  mo_max_iter o = mo_max_iter o' /\ mo_early_stopping o = mo_early_stopping o' /\ mo_patience o = mo_patience o'.

(** Objects with the same medoids, not empty, that may have been built for different numbers of medoids. *)
Definition same_medoids (x y : kmedoids) : Prop :=
  kd_medoids x = kd_medoids y /\ kd_medoids x <> [] /\ same_options (kd_options x) (kd_options y).

(** Calls that differ in [n_init] and in the numbers drawn only. *)
Inductive same_mcall : mcall -> mcall -> Prop :=
| same_mset o o' : same_options o o' -> same_mcall (mcall_set_options o) (mcall_set_options o')
| same_mfit samples nf draw draw' : same_mcall (mcall_fit_samples samples nf draw) (mcall_fit_samples samples nf draw')
| same_mfit_matrix p draw draw' : same_mcall (mcall_fit_matrix p draw) (mcall_fit_matrix p draw')
| same_mother c : same_mcall c c.

Lemma loop_same wrap src o o' : same_options o o' -> forall it pt prev cand p,
  medoids_loop wrap src o it pt prev cand p = medoids_loop wrap src o' it pt prev cand p.
Proof.
  intros (_ & E1 & E2). induction it as [|it IH]; intros pt prev cand p; cbn [medoids_loop]; [reflexivity|]. rewrite E1, E2.
  apply bind_ext; [reflexivity|]. intros q _. rewrite !IH. reflexivity.
Qed.

Lemma fit_options wrap top src o o' k k' M draw draw' : M <> [] -> same_options o o' ->
  medoids_fit wrap top src o k M draw = medoids_fit wrap top src o' k' M draw'.
Proof.
  intros Hne Ho. rewrite !fit_given_inv by auto. unfold medoids_candidate. rewrite (proj1 Ho). f_equal.
  apply bind_ext; [reflexivity|]. intros p _. now rewrite (loop_same wrap src o o' Ho).
Qed.

Theorem c94_start_ignored precompute top (cs cs' : list mcall) : Forall2 same_mcall cs cs' -> forall x y answers x',
  same_medoids x y -> do_mcalls precompute top cs x = Ok (answers, x') -> (forall m, In (manswer_medoids m) answers -> m <> []) ->
  exists y', do_mcalls precompute top cs' y = Ok (answers, y') /\ same_medoids x' y'.
Proof.
  induction 1 as [|c c' cs cs' Hc HF IH]; intros x y answers x' Hxy E Hne.
  { injection E as <- <-. exists y. auto. }
  cbn [do_mcalls] in E |- *. apply bind_ok in E. destruct E as ((r & x1) & E1 & E). apply bind_ok in E. destruct E as ((rs & x2) & E2 & E).
  injection E as <- <-. assert (Hne' : forall m, In (manswer_medoids m) rs -> m <> []) by (intros; apply Hne; right; auto).
  assert (H1 : exists y1, do_mcall precompute top c' y = Ok (r, y1) /\ same_medoids x1 y1).
  { pose proof Hxy as Hxy'. destruct Hxy as (Hm & Hm' & Ho).
    assert (F : forall src draw draw' m, medoids_fit signed_wrap top src (kd_options x) (kd_count x) (kd_medoids x) draw = Ok m ->
      r = manswer_medoids m -> x1 = mk_kmedoids (kd_count x) m (kd_options x) ->
      exists y1, (medoids <- medoids_fit signed_wrap top src (kd_options y) (kd_count y) (kd_medoids y) draw' ;;
        Ok (manswer_medoids medoids, mk_kmedoids (kd_count y) medoids (kd_options y))) = Ok (r, y1) /\ same_medoids x1 y1).
    { intros src draw draw' m Ef -> ->. rewrite <- Hm, <- (fit_options _ _ _ (kd_options x) _ (kd_count x) (kd_count y) _ draw draw' Hm' Ho), Ef.
      cbn [bind]. eexists. split; [reflexivity|]. split; [reflexivity|]. split; [|exact Ho]. cbn. apply Hne. now left. }
    destruct Hc as [o o' Ho'|samples nf d d'|p d d'|c]; cbn [do_mcall] in *.
    - injection E1 as <- <-. eexists. split; [reflexivity|]. split; [exact Hm|]. split; [exact Hm'|exact Ho'].
    - destruct (fit_source precompute samples nf) as [src| | |]; cbn [bind] in *; try discriminate.
      apply bind_ok in E1. destruct E1 as (m & E1 & E3). injection E3 as <- <-. apply (F src d d' m); auto.
    - apply bind_ok in E1. destruct E1 as (m & E1 & E3). injection E3 as <- <-. apply (F _ d d' m); auto.
    - destruct c; cbn [do_mcall] in *.
      + injection E1 as <- <-. eexists. split; [reflexivity|]. split; [exact Hm|]. split; [exact Hm'|]. split; auto.
      + destruct (fit_source precompute samples n_features) as [src| | |]; cbn [bind] in *; try discriminate.
        apply bind_ok in E1. destruct E1 as (m & E1 & E3). injection E3 as <- <-. apply (F src draw draw m); auto.
      + apply bind_ok in E1. destruct E1 as (m & E1 & E3). injection E3 as <- <-. apply (F _ draw draw m); auto.
      + apply bind_ok in E1. destruct E1 as (m & E1 & E3). injection E3 as <- <-. rewrite <- Hm, E1. cbn [bind]. eexists. split; [reflexivity|auto].
      + apply bind_ok in E1. destruct E1 as (m & E1 & E3). injection E3 as <- <-. rewrite <- Hm, E1. cbn [bind]. eexists. split; [reflexivity|auto].
      + apply bind_ok in E1. destruct E1 as (m & E1 & E3). injection E3 as <- <-. rewrite <- Hm, E1. cbn [bind]. eexists. split; [reflexivity|auto].
      + apply bind_ok in E1. destruct E1 as (m & E1 & E3). injection E3 as <- <-. rewrite <- Hm, E1. cbn [bind]. eexists. split; [reflexivity|auto]. }
  destruct H1 as (y1 & -> & Hxy1). cbn [bind]. destruct (IH x1 y1 rs x2 Hxy1 E2 Hne') as (y' & -> & Hxy'). cbn [bind]. eauto.
Qed.

(** ** Samples or matrix *)
(** The distances between samples. *)
Definition rows_dist (samples : list Z) (nf i j : nat) : Z := l1_dist (row samples nf i) (row samples nf j).

(** [n] samples of [nf] features, and the matrix of their distances. *)
Definition matrix_of (n : nat) (samples : list Z) (nf : nat) (p : pairwise_matrix int_metric) : Prop :=
  length samples = n * nf /\ 1 <= nf /\ pairwise_sequential int_metric 0%Z samples nf = Ok p.

(** The same call on the samples or on their matrix. *)
Inductive same_data (n : nat) : mcall -> mcall -> Prop :=
| data_set o : same_data n (mcall_set_options o) (mcall_set_options o)
| data_fit samples nf draw : length samples = n * nf -> 1 <= nf -> (forall i, in_range (draw i)) ->
    same_data n (mcall_fit_samples samples nf draw) (mcall_fit_samples samples nf draw)
| data_fit_matrix samples nf p draw : matrix_of n samples nf p -> (forall i, in_range (draw i)) ->
    same_data n (mcall_fit_samples samples nf draw) (mcall_fit_matrix p draw)
| data_predict samples nf p : matrix_of n samples nf p -> same_data n (mcall_predict_samples samples nf) (mcall_predict_matrix p)
| data_forward samples nf p : matrix_of n samples nf p -> same_data n (mcall_forward_samples samples nf) (mcall_forward_matrix p).

Lemma both_sources n samples nf : length samples = n * nf -> 1 <= nf ->
  (exists p, pairwise_sequential int_metric 0%Z samples nf = Ok p /\ provides (matrix_source int_metric 0%Z p) n (rows_dist samples nf)) /\
  (exists s, samples_source int_metric samples nf = Ok s /\ provides s n (rows_dist samples nf)).
Proof. intros Hl Hnf. exact (c46_sources int_metric l1_dist 0%Z samples nf n int_metric_computes l1_sym l1_self Hl Hnf). Qed.

Lemma fit_sources n samples nf pre : length samples = n * nf -> 1 <= nf ->
  exists s, fit_source pre samples nf = Ok s /\ provides s n (rows_dist samples nf).
Proof.
  intros Hl Hnf. destruct (both_sources n samples nf Hl Hnf) as ((p & Ep & Hp) & s & Es & Hs). unfold fit_source. rewrite Es. cbn [bind].
  destruct pre; [|eauto]. rewrite Ep. cbn [bind]. eauto.
Qed.

Lemma provides_ext n dist (s s' : source Z) : provides s n dist -> provides s' n dist ->
  rows s = n /\ rows s' = n /\ forall i j, i < n -> j < n -> dist_at s i j = dist_at s' i j.
Proof. intros (R & D) (R' & D'). split; [auto|]. split; [auto|]. intros i j Hi Hj. rewrite D, D' by auto. reflexivity. Qed.

(** A program that uses matrices and one that uses samples, with or without the template parameter: the same answers, the same
    exceptions. Each call has its own [n] samples. *)
Theorem c94_samples_or_matrix top n pre pre' (cs cs' : list mcall) : Forall2 (same_data n) cs cs' -> forall x,
  (forall m, In m (kd_medoids x) -> m < n) -> kd_count x <= n -> do_mcalls pre top cs x = do_mcalls pre' top cs' x.
Proof.
  induction 1 as [|c c' cs cs' Hc HF IH]; intros x HM Hk; [reflexivity|]. cbn [do_mcalls].
  assert (G : do_mcall pre top c x = do_mcall pre' top c' x /\
    forall r y, do_mcall pre top c x = Ok (r, y) -> (forall m, In m (kd_medoids y) -> m < n) /\ kd_count y <= n).
  { assert (F : forall s s' dist draw, provides s n dist -> provides s' n dist -> (forall i, in_range (draw i)) ->
      let run src := (medoids <- medoids_fit signed_wrap top src (kd_options x) (kd_count x) (kd_medoids x) draw ;;
        Ok (manswer_medoids medoids, mk_kmedoids (kd_count x) medoids (kd_options x))) in
      run s = run s' /\ forall r y, run s = Ok (r, y) -> (forall m, In m (kd_medoids y) -> m < n) /\ kd_count y <= n).
    { intros s s' dist draw Hs Hs' Hdraw run. destruct (provides_ext n dist s s' Hs Hs') as (R1 & R2 & R3).
      destruct (fit_ext n s s' R1 R2 R3 signed_wrap top (kd_options x) (kd_count x) (kd_medoids x) draw HM Hdraw Hk) as (Ef & Hf).
      unfold run. rewrite <- Ef. split; [reflexivity|]. intros r y E. apply bind_ok in E. destruct E as (R & E & E'). injection E' as <- <-.
      split; [exact (Hf R E)|exact Hk]. }
    destruct Hc as [o|samples nf draw Hl Hnf Hdraw|samples nf p draw (Hl & Hnf & Ep) Hdraw|samples nf p (Hl & Hnf & Ep)|samples nf p (Hl & Hnf & Ep)];
      cbn [do_mcall].
    - split; [reflexivity|]. intros r y E. injection E as <- <-. auto.
    - destruct (fit_sources n samples nf pre Hl Hnf) as (s & -> & Hs). destruct (fit_sources n samples nf pre' Hl Hnf) as (s' & -> & Hs').
      cbn [bind]. apply (F s s' (rows_dist samples nf)); auto.
    - destruct (fit_sources n samples nf pre Hl Hnf) as (s & -> & Hs).
      destruct (both_sources n samples nf Hl Hnf) as ((p' & Ep' & Hp) & _). assert (p' = p) by congruence. subst p'.
      cbn [bind]. apply (F s _ (rows_dist samples nf)); auto.
    - destruct (both_sources n samples nf Hl Hnf) as ((p' & Ep' & Hp) & s & Es & Hs). assert (p' = p) by congruence. subst p'.
      unfold predict_samples, predict_matrix. rewrite Es. cbn [bind].
      destruct (provides_ext n _ s _ Hs Hp) as (R1 & R2 & R3).
      assert (EQ : match nth_nearest (samples_to_nearest_medoid_indices (m_lt int_metric) top s)
            (samples_to_second_nearest_medoid_indices (m_lt int_metric) Z.eqb top s) (kd_medoids x) 1 with Some r => r | None => UB end =
          samples_to_nearest_medoid_indices (m_lt int_metric) top (matrix_source int_metric 0%Z p) (kd_medoids x)).
      { unfold nth_nearest. destruct (kd_medoids x) as [|m l] eqn:EM; [reflexivity|]. cbn [Nat.eqb length Nat.ltb Nat.leb orb].
        apply (nearest_indices_ext n s _ R1 R2 R3 top). exact HM. }
      rewrite EQ. split; [reflexivity|]. intros r y E. apply bind_ok in E. destruct E as (? & _ & E). injection E as <- <-. auto.
    - destruct (both_sources n samples nf Hl Hnf) as ((p' & Ep' & Hp) & s & Es & Hs). assert (p' = p) by congruence. subst p'.
      unfold forward_samples, forward_matrix. rewrite Es. cbn [bind].
      destruct (provides_ext n _ s _ Hs Hp) as (R1 & R2 & R3).
      assert (EQ : samples_to_nearest_medoid_distances (m_lt int_metric) top s (kd_medoids x) =
        samples_to_nearest_medoid_distances (m_lt int_metric) top (matrix_source int_metric 0%Z p) (kd_medoids x))
        by exact (nearest_distances_ext n s _ R1 R2 R3 top (kd_medoids x) HM). rewrite EQ.
      split; [reflexivity|]. intros r y E. apply bind_ok in E. destruct E as (? & _ & E). injection E as <- <-. auto. }
  destruct G as (<- & G). apply bind_ext; [reflexivity|]. intros (r & y) E. destruct (G r y E) as (G1 & G2). rewrite (IH y G1 G2). reflexivity.
Qed.

(** ** Calls on the same data *)
(** The samples or the matrix of a call: [n] samples at distances [dist]. *)
Definition about (n : nat) (dist : nat -> nat -> Z) (c : mcall) : Prop :=
  match c with
  | mcall_set_options _ => True
  | mcall_fit_samples samples nf _ | mcall_predict_samples samples nf | mcall_forward_samples samples nf =>
      length samples = n * nf /\ 1 <= nf /\ forall i j, i < n -> j < n -> rows_dist samples nf i j = dist i j
  | mcall_fit_matrix p _ | mcall_predict_matrix p | mcall_forward_matrix p => provides (matrix_source int_metric 0%Z p) n dist
  end.

(** The answers of a sequence of calls on an object that holds the medoids [M], and the medoids it holds then: each fit returns as
    many samples, the same ones or better ones; [predict] and [forward] are about the medoids held. *)
Fixpoint served (dist : nat -> nat -> Z) (n : nat) (M : list nat) (cs : list mcall) (answers : list manswer) (last : list nat) : Prop :=
  match cs, answers with
  | [], [] => last = M
  | c :: cs, r :: answers =>
    match c, r with
    | mcall_set_options _, manswer_self => served dist n M cs answers last
    | mcall_fit_samples _ _ _, manswer_medoids R | mcall_fit_matrix _ _, manswer_medoids R =>
        length R = length M /\ (forall m, In m R -> m < n) /\ (R = M \/ (deviations dist n R < deviations dist n M)%Z) /\
        served dist n R cs answers last
    | mcall_predict_samples _ _, manswer_labels l | mcall_predict_matrix _, manswer_labels l =>
        length l = n /\ (forall o, o < n -> first_nearest_medoid dist M o (nth o l 0)) /\ served dist n M cs answers last
    | mcall_forward_samples _ _, manswer_distances l | mcall_forward_matrix _, manswer_distances l =>
        length l = n /\ (forall o, o < n -> nth o l 0%Z = deviation dist M o) /\ served dist n M cs answers last
    | _, _ => False
    end
  | _, _ => False
  end.

(** The number of fits in a sequence of calls. *)
Definition fits (cs : list mcall) : nat :=
  length (filter (fun c => match c with mcall_fit_samples _ _ _ | mcall_fit_matrix _ _ => true | _ => false end) cs).

(** Every fit is allowed at least one iteration. *)
Definition iterates (c : mcall) : Prop := match c with mcall_set_options o => 1 <= mo_max_iter o | _ => True end.

Section SameData.
Context (precompute : bool) (top : Z) (n : nat) (dist : nat -> nat -> Z).
Context (Hself : forall o, o < n -> dist o o = 0%Z) (Hpos : forall i j, i < n -> j < n -> (0 <= dist i j)%Z).
Context (Htop : forall i j, i < n -> j < n -> (dist i j < top)%Z).

Lemma about_provides samples nf : length samples = n * nf -> 1 <= nf -> (forall i j, i < n -> j < n -> rows_dist samples nf i j = dist i j) ->
  (exists s, fit_source precompute samples nf = Ok s /\ provides s n dist) /\ (exists s, samples_source int_metric samples nf = Ok s /\ provides s n dist).
Proof using Type.
  intros Hl Hnf Hd. split.
  - destruct (fit_sources n samples nf precompute Hl Hnf) as (s & Es & R & D). exists s. split; [auto|]. split; [auto|].
    intros i j Hi Hj. rewrite D, Hd by auto. reflexivity.
  - destruct (both_sources n samples nf Hl Hnf) as (_ & s & Es & R & D). exists s. split; [auto|]. split; [auto|].
    intros i j Hi Hj. rewrite D, Hd by auto. reflexivity.
Qed.

(** The distances as a source. *)
Let known := mk_source n (fun i j => Ok (dist i j)).

Lemma known_provides : provides known n dist.
Proof using Type. split; [reflexivity|]. reflexivity. Qed.

Lemma fit_known src o k M draw : provides src n dist -> (forall m, In m M -> m < n) -> 2 <= length M ->
  exists R, medoids_fit signed_wrap top src o k M draw = Ok R /\ (forall m, In m R -> m < n) /\ length R = length M /\
    (R = M \/ (deviations dist n R < deviations dist n M)%Z) /\ (at_rest known top M -> R = M) /\
    (1 <= mo_max_iter o -> R = M -> at_rest known top M).
Proof using Hself Hpos Htop.
  intros Hs HM H2. assert (Hne : M <> []) by (intros ->; simpl in H2; lia).
  assert (E : medoids_fit signed_wrap top src o k M draw = medoids_fit signed_wrap top known o k M draw).
  { destruct (provides_ext n dist src known Hs known_provides) as (R1 & R2 & R3). rewrite !fit_given_inv by auto.
    now rewrite (proj1 (candidate_ext n src known R1 R2 R3 signed_wrap top o M HM)). }
  rewrite E. clear E Hs src.
  destruct (any_reached dist n known known_provides Hself Hpos top Htop M HM H2) as (st & E0 & EM & EL & H & Hf).
  destruct (mo_max_iter o) as [|mi] eqn:Emi.
  - destruct (Hf o) as (t & Et & Ht & _). rewrite Emi in Ht. assert (t = 0) by lia. subst t.
    exists M. rewrite (fit_given_eq _ _ _ _ _ _ _ M (p_loss (st 0)) Hne) by (rewrite Et, EM; reflexivity).
    split; [auto|]. split; [auto|]. split; [auto|]. split; [auto|]. split; [auto|]. lia.
  - destruct (fit_rest_or_better dist n known known_provides Hself Hpos top Htop M o k draw HM H2 ltac:(lia)) as (R & ER & HR & HL & HB).
    exists R. split; [auto|]. split; [auto|]. split; [auto|]. split; [destruct HB as [(-> & _)|]; auto|]. split.
    + intros Hr. rewrite (rest_fit dist n known known_provides Hself Hpos top Htop M o k draw HM H2 Hr) in ER. congruence.
    + intros _ ->. destruct HB as [(_ & ?)|?]; [auto|lia].
Qed.

(** What one call does. *)
Lemma one_call c x : about n dist c -> (forall m, In m (kd_medoids x) -> m < n) -> 2 <= length (kd_medoids x) ->
  exists r y, do_mcall precompute top c x = Ok (r, y) /\ (forall m, In m (kd_medoids y) -> m < n) /\ length (kd_medoids y) = length (kd_medoids x) /\
    (forall cs rs l, served dist n (kd_medoids y) cs rs l -> served dist n (kd_medoids x) (c :: cs) (r :: rs) l) /\
    (kd_options y = match c with mcall_set_options o => o | _ => kd_options x end) /\
    (kd_medoids y = kd_medoids x \/ (deviations dist n (kd_medoids y) < deviations dist n (kd_medoids x))%Z) /\
    (at_rest known top (kd_medoids x) -> kd_medoids y = kd_medoids x) /\
    (fits [c] = 0 -> kd_medoids y = kd_medoids x) /\
    (fits [c] = 1 -> 1 <= mo_max_iter (kd_options x) -> kd_medoids y = kd_medoids x -> at_rest known top (kd_medoids x)).
Proof using Hself Hpos Htop.
  intros Hc HM H2. assert (Hne : kd_medoids x <> []) by (intros E; rewrite E in H2; simpl in H2; lia).
  assert (F : forall src draw, provides src n dist ->
    exists R, medoids_fit signed_wrap top src (kd_options x) (kd_count x) (kd_medoids x) draw = Ok R /\
      (forall m, In m R -> m < n) /\ length R = length (kd_medoids x) /\
      (R = kd_medoids x \/ (deviations dist n R < deviations dist n (kd_medoids x))%Z) /\ (at_rest known top (kd_medoids x) -> R = kd_medoids x) /\
      (1 <= mo_max_iter (kd_options x) -> R = kd_medoids x -> at_rest known top (kd_medoids x))).
  { intros src draw Hs. now apply fit_known. }
  assert (P : forall src, provides src n dist -> exists labels distances,
      samples_to_nearest_medoid_indices Z.ltb top src (kd_medoids x) = Ok labels /\
      samples_to_nearest_medoid_distances Z.ltb top src (kd_medoids x) = Ok distances /\ length labels = n /\ length distances = n /\
      forall o, o < n -> first_nearest_medoid dist (kd_medoids x) o (nth o labels 0) /\ nth o distances 0%Z = deviation dist (kd_medoids x) o).
  { intros src Hs. destruct (c67_predict dist n src top (kd_medoids x) Hs Hne HM) as (l & d & A1 & A2 & A3 & A4 & A5).
    { intros m o Hm Ho. apply Htop; auto. }
    exists l, d. split; [auto|]. split; [auto|]. split; [auto|]. split; [auto|]. intros o Ho. destruct (A5 o Ho) as (B1 & B2 & _). auto. }
  destruct c as [o|samples nf draw|p draw|samples nf|p|samples nf|p]; cbn [about] in Hc; cbn [do_mcall].
  - eexists _, _. split; [reflexivity|]. cbn [kd_medoids kd_options]. split; [auto|]. split; [auto|]. split; [intros cs rs l H; exact H|].
    split; [auto|]. split; [auto|]. split; [auto|]. split; [auto|]. discriminate.
  - destruct Hc as (Hl & Hnf & Hd). destruct (about_provides samples nf Hl Hnf Hd) as ((s & -> & Hs) & _). cbn [bind].
    destruct (F s draw Hs) as (R & -> & G1 & G2 & G3 & G4 & G5). cbn [bind]. eexists _, _. split; [reflexivity|]. cbn [kd_medoids kd_options].
    split; [auto|]. split; [auto|]. split; [intros cs rs l H; cbn [served]; auto|]. split; [auto|]. split; [auto|]. split; [auto|]. split; [discriminate|auto].
  - destruct (F _ draw Hc) as (R & -> & G1 & G2 & G3 & G4 & G5). cbn [bind]. eexists _, _. split; [reflexivity|]. cbn [kd_medoids kd_options].
    split; [auto|]. split; [auto|]. split; [intros cs rs l H; cbn [served]; auto|]. split; [auto|]. split; [auto|]. split; [auto|]. split; [discriminate|auto].
  - destruct Hc as (Hl & Hnf & Hd). destruct (about_provides samples nf Hl Hnf Hd) as (_ & s & Es & Hs). unfold predict_samples. rewrite Es. cbn [bind].
    destruct (P s Hs) as (l & d & A1 & A2 & A3 & A4 & A5). unfold nth_nearest.
    replace (length (kd_medoids x) <? 1) with false by (symmetry; apply Nat.ltb_ge; lia). cbn [Nat.eqb orb].
    change (m_lt int_metric) with Z.ltb. change (m_dist int_metric) with Z. rewrite A1. cbn [bind].
    eexists _, _. split; [reflexivity|]. split; [auto|]. split; [auto|].
    split; [intros cs rs l' H; cbn [served]; split; [auto|]; split; [intros o Ho; apply A5; auto|auto]|].
    split; [auto|]. split; [auto|]. split; [auto|]. split; [auto|]. discriminate.
  - destruct (P _ Hc) as (l & d & A1 & A2 & A3 & A4 & A5). unfold predict_matrix. change (m_lt int_metric) with Z.ltb. change (m_dist int_metric) with Z.
    change (m_dist int_metric) with Z in A1. rewrite A1. cbn [bind].
    eexists _, _. split; [reflexivity|]. split; [auto|]. split; [auto|].
    split; [intros cs rs l' H; cbn [served]; split; [auto|]; split; [intros o Ho; apply A5; auto|auto]|].
    split; [auto|]. split; [auto|]. split; [auto|]. split; [auto|]. discriminate.
  - destruct Hc as (Hl & Hnf & Hd). destruct (about_provides samples nf Hl Hnf Hd) as (_ & s & Es & Hs). unfold forward_samples. rewrite Es. cbn [bind].
    destruct (P s Hs) as (l & d & A1 & A2 & A3 & A4 & A5).
    change (m_lt int_metric) with Z.ltb. change (m_dist int_metric) with Z. rewrite A2. cbn [bind].
    eexists _, _. split; [reflexivity|]. split; [auto|]. split; [auto|].
    split; [intros cs rs l' H; cbn [served]; split; [auto|]; split; [intros o Ho; apply A5; auto|auto]|].
    split; [auto|]. split; [auto|]. split; [auto|]. split; [auto|]. discriminate.
  - destruct (P _ Hc) as (l & d & A1 & A2 & A3 & A4 & A5). unfold forward_matrix. change (m_lt int_metric) with Z.ltb. change (m_dist int_metric) with Z.
    change (m_dist int_metric) with Z in A2. rewrite A2. cbn [bind].
    eexists _, _. split; [reflexivity|]. split; [auto|]. split; [auto|].
    split; [intros cs rs l' H; cbn [served]; split; [auto|]; split; [intros o Ho; apply A5; auto|auto]|].
    split; [auto|]. split; [auto|]. split; [auto|]. split; [auto|]. discriminate.
Qed.

(** Any calls in any order on an object with two or more medoids, whatever the options: all succeed, the medoids only get better, and
    the labels and distances are those of the medoids held. *)
Theorem c94_served : forall cs x, Forall (about n dist) cs -> (forall m, In m (kd_medoids x) -> m < n) -> 2 <= length (kd_medoids x) ->
  exists answers y, do_mcalls precompute top cs x = Ok (answers, y) /\ served dist n (kd_medoids x) cs answers (kd_medoids y).
Proof using Hself Hpos Htop.
  induction cs as [|c cs IH]; intros x HA HM H2; [exists [], x; split; reflexivity|]. pose proof (Forall_inv HA) as Hc. pose proof (Forall_inv_tail HA) as HA'.
  destruct (one_call c x Hc HM H2) as (r & x1 & E & HM1 & HL1 & HS & _). cbn [do_mcalls]. rewrite E. cbn [bind].
  destruct (IH x1 HA' HM1) as (rs & y & -> & HS'); [lia|]. cbn [bind]. exists (r :: rs), y. split; [reflexivity|]. auto.
Qed.

Lemma rest_calls : forall cs x, Forall (about n dist) cs -> (forall m, In m (kd_medoids x) -> m < n) -> 2 <= length (kd_medoids x) ->
  at_rest known top (kd_medoids x) -> exists answers y, do_mcalls precompute top cs x = Ok (answers, y) /\ kd_medoids y = kd_medoids x.
Proof using Hself Hpos Htop.
  induction cs as [|c cs IH]; intros x HA HM H2 Hr; [exists [], x; split; reflexivity|]. pose proof (Forall_inv HA) as Hc. pose proof (Forall_inv_tail HA) as HA'.
  destruct (one_call c x Hc HM H2) as (r & x1 & E & HM1 & HL1 & _ & _ & _ & Hk & _). specialize (Hk Hr). cbn [do_mcalls]. rewrite E. cbn [bind].
  destruct (IH x1 HA' HM1) as (rs & y & -> & Ey); [lia|now rewrite Hk|]. cbn [bind]. exists (r :: rs), y. split; [reflexivity|]. congruence.
Qed.

Lemma deviations_pos M : (forall m, In m M -> m < n) -> M <> [] -> (0 <= deviations dist n M)%Z.
Proof using Hpos.
  intros HM Hne. unfold deviations. assert (G : forall l, (forall o, In o l -> o < n) -> (0 <= fold_right Z.add 0 (map (deviation dist M) l))%Z).
  { induction l as [|o l IH]; intros Hl; cbn [map fold_right]; [lia|]. specialize (IH (fun o' H => Hl o' (or_intror H))).
    destruct (deviation_min dist M o Hne) as ((m & Hm & Em) & _). specialize (Hpos m o (HM m Hm) (Hl o (or_introl eq_refl))). lia. }
  apply G. intros o Ho. apply in_seq in Ho. lia.
Qed.

(** After more fits than the deviation of the first medoids, each of at least one iteration and with whatever options, the medoids
    stay what they are, whatever is called. *)
Theorem c94_comes_to_rest : forall cs x, Forall (about n dist) cs -> Forall iterates cs -> 1 <= mo_max_iter (kd_options x) ->
  (forall m, In m (kd_medoids x) -> m < n) -> 2 <= length (kd_medoids x) ->
  Z.to_nat (deviations dist n (kd_medoids x)) < fits cs ->
  exists answers y, do_mcalls precompute top cs x = Ok (answers, y) /\
  forall cs', Forall (about n dist) cs' -> exists answers' z, do_mcalls precompute top cs' y = Ok (answers', z) /\ kd_medoids z = kd_medoids y.
Proof using Hself Hpos Htop.
  assert (G : forall cs x, Forall (about n dist) cs -> Forall iterates cs -> 1 <= mo_max_iter (kd_options x) ->
    (forall m, In m (kd_medoids x) -> m < n) -> 2 <= length (kd_medoids x) ->
    at_rest known top (kd_medoids x) \/ Z.to_nat (deviations dist n (kd_medoids x)) < fits cs ->
    exists answers y, do_mcalls precompute top cs x = Ok (answers, y) /\ (forall m, In m (kd_medoids y) -> m < n) /\
      2 <= length (kd_medoids y) /\ at_rest known top (kd_medoids y)).
  { induction cs as [|c cs IH]; intros x HA HI Ho HM H2 Hr.
    - exists [], x. split; [reflexivity|]. split; [auto|]. split; [auto|]. destruct Hr as [Hr|Hr]; [auto|]. cbn in Hr. lia.
    - pose proof (Forall_inv HA) as Hc. pose proof (Forall_inv_tail HA) as HA'. pose proof (Forall_inv HI) as Hi. pose proof (Forall_inv_tail HI) as HI'.
      destruct (one_call c x Hc HM H2) as (r & x1 & E & HM1 & HL1 & _ & Eo & Hb & Hk & Hn & Hf). cbn [do_mcalls]. rewrite E. cbn [bind].
      assert (Hne : forall z, length (kd_medoids z) = length (kd_medoids x) -> kd_medoids z <> []) by (intros z Hz Ez; rewrite Ez in Hz; simpl in Hz; lia).
      destruct (IH x1 HA' HI') as (rs & y & -> & Hy).
      + rewrite Eo. destruct c; auto.
      + auto.
      + lia.
      + destruct Hr as [Hr|Hr]; [left; now rewrite (Hk Hr)|].
        assert (EF : fits (c :: cs) = fits [c] + fits cs) by (unfold fits; cbn [filter]; destruct c; reflexivity).
        assert (F01 : fits [c] = 0 \/ fits [c] = 1) by (unfold fits; cbn [filter]; destruct c; cbn; auto).
        destruct F01 as [F|F]; [right; rewrite (Hn F); lia|].
        pose proof (deviations_pos _ HM1 (Hne x1 HL1)). pose proof (deviations_pos _ HM (Hne x eq_refl)).
        destruct Hb as [Hb|Hb]; [left; rewrite Hb; apply Hf; auto|right; lia].
      + cbn [bind]. exists (r :: rs), y. auto. }
  intros cs x HA HI Ho HM H2 Hr. destruct (G cs x HA HI Ho HM H2 (or_intror Hr)) as (answers & y & E & HM' & H2' & Hrest).
  exists answers, y. split; [auto|]. intros cs' HA'. now apply rest_calls.
Qed.
End SameData.

(** ** No two samples equally far from a third *)
Section Apart.
Context (precompute : bool) (top : Z) (n : nat) (dist : nat -> nat -> Z).
Context (Hself : forall o, o < n -> dist o o = 0%Z) (Hpos : forall i j, i < n -> j < n -> (0 <= dist i j)%Z).
Context (Htop : forall i j, i < n -> j < n -> (dist i j < top)%Z).
Context (Hapart : forall o i j, o < n -> i < n -> j < n -> dist i o = dist j o -> i = j).
Let known := mk_source n (fun i j => Ok (dist i j)).

Lemma apart_unique M : (forall m, In m M -> m < n) -> M <> [] -> NoDup M -> unique_nearest dist n M.
Proof using Hapart.
  intros HM Hne Hnd o Ho. destruct (deviation_min dist M o Hne) as ((m & Hm & Em) & Hmin).
  destruct (In_nth M m 0 Hm) as (j & Hj & Ej). exists j. split; [auto|]. intros j' Hj' Hjj. rewrite Ej.
  specialize (Hmin (nth j' M 0) (nth_In M 0 Hj')). destruct (Z.eq_dec (dist m o) (dist (nth j' M 0) o)) as [E|]; [|lia].
  exfalso. apply Hjj. apply (proj1 (NoDup_nth M 0) Hnd); auto. rewrite Ej. symmetry. apply (Hapart o); auto. apply HM, nth_In. auto.
Qed.

Lemma consistent_unique p q : consistent dist n p -> consistent dist n q -> p_medoids p = p_medoids q -> p = q.
Proof using Hapart.
  intros Hp Hq EM. destruct (c_lengths _ _ _ Hp) as (A1 & A2 & A3 & A4 & A5). destruct (c_lengths _ _ _ Hq) as (B1 & B2 & B3 & B4 & B5).
  assert (HI : forall o j j', o < n -> j < length (p_medoids p) -> j' < length (p_medoids p) ->
    dist (nth j (p_medoids p) 0) o = dist (nth j' (p_medoids p) 0) o -> j = j').
  { intros o j j' Ho Hj Hj' E. apply (proj1 (NoDup_nth _ 0) (c_distinct _ _ _ Hp)); auto.
    apply (Hapart o); auto; apply (c_medoids _ _ _ Hp), nth_In; auto. }
  assert (E1 : forall o, o < n -> nth o (p_nearest p) 0 = nth o (p_nearest q) 0 /\ nth o (p_distances p) 0%Z = nth o (p_distances q) 0%Z).
  { intros o Ho. destruct (c_nearest _ _ _ Hp o Ho) as ((P1 & P2) & P3). destruct (c_nearest _ _ _ Hq o Ho) as ((Q1 & Q2) & Q3).
    rewrite <- EM in Q1, Q2, Q3. specialize (P2 _ Q1). specialize (Q2 _ P1).
    assert (EJ : nth o (p_nearest p) 0 = nth o (p_nearest q) 0) by (apply (HI o); auto; lia). split; [auto|]. rewrite P3, Q3, EJ. reflexivity. }
  assert (E2 : forall o, o < n -> nth o (p_second p) 0 = nth o (p_second q) 0 /\ nth o (p_second_distances p) 0%Z = nth o (p_second_distances q) 0%Z).
  { intros o Ho. destruct (E1 o Ho) as (EJ & _). destruct (c_second _ _ _ Hp o Ho) as (P1 & P2 & P3 & P4). destruct (c_second _ _ _ Hq o Ho) as (Q1 & Q2 & Q3 & Q4).
    rewrite <- EM in Q1, Q3, Q4. rewrite <- EJ in Q2, Q4. specialize (P4 _ Q1 Q2). specialize (Q4 _ P1 P2). rewrite P3 in *. rewrite Q3 in *.
    assert (E2 : nth o (p_second p) 0 = nth o (p_second q) 0) by (apply (HI o); auto; lia). split; [auto|]. now rewrite E2. }
  destruct p as [M I1 I2 D1 D2 L l], q as [M' I1' I2' D1' D2' L' l']. cbn [p_medoids p_nearest p_second p_distances p_second_distances p_losses p_loss] in *.
  subst M'. f_equal.
  - apply (nth_ext _ _ 0 0); [congruence|]. intros i Hi. apply E1. lia.
  - apply (nth_ext _ _ 0 0); [congruence|]. intros i Hi. apply E2. lia.
  - apply (nth_ext _ _ 0%Z 0%Z); [congruence|]. intros i Hi. apply E1. lia.
  - apply (nth_ext _ _ 0%Z 0%Z); [congruence|]. intros i Hi. apply E2. lia.
  - apply (nth_ext _ _ 0%Z 0%Z); [congruence|]. intros i Hi. pose proof (c_losses _ _ _ Hp i) as P. pose proof (c_losses _ _ _ Hq i) as Q.
    cbn [p_losses p_medoids] in P, Q. rewrite P, Q by lia. reflexivity.
  - pose proof (c_loss _ _ _ Hp) as P. pose proof (c_loss _ _ _ Hq) as Q. cbn [p_loss p_medoids] in P, Q. congruence.
Qed.

Lemma known_ok : provides known n dist.
Proof using Type. split; reflexivity. Qed.

Lemma make_again p : consistent dist n p -> make_pam signed_wrap top known (p_medoids p) = Ok p.
Proof using Hself Hpos Htop Hapart.
  intros Hp. pose proof (c_two _ _ _ Hp) as H2. assert (Hne : p_medoids p <> []) by (intros E; rewrite E in H2; simpl in H2; lia).
  destruct (make_pam_ok dist n known known_ok top (p_medoids p) (c_medoids _ _ _ Hp) Hne) as (q & -> & EM & Hq); auto.
  - intros m o Hm Ho. apply Htop; [apply (c_medoids _ _ _ Hp)|]; auto.
  - apply apart_unique; auto; apply Hp.
  - f_equal. apply consistent_unique; auto.
Qed.

(** All states from distinct medoids, and the one a fit returns. *)
Lemma apart_states M : (forall m, In m M -> m < n) -> 2 <= length M -> NoDup M ->
  exists st, make_pam signed_wrap top known M = Ok (st 0) /\ p_medoids (st 0) = M /\
   (forall t, pam_step signed_wrap known (st t) = Ok (st (S t)) /\ consistent dist n (st t)) /\
   forall o k draw, exists t, medoids_fit signed_wrap top known o k M draw = Ok (p_medoids (st t)) /\
     stops_at (mo_max_iter o) (mo_early_stopping o) Nat.eqb (mo_patience o) (fun i => p_medoids (st i)) t.
Proof using Hself Hpos Htop Hapart.
  intros HM H2 Hnd. assert (Hne : M <> []) by (intros ->; simpl in H2; lia).
  destruct (any_reached dist n known known_ok Hself Hpos top Htop M HM H2) as (st & E0 & EM & EL & H & Hf).
  exists st. split; [auto|]. split; [auto|]. split.
  - assert (HC : consistent dist n (st 0)).
    { destruct (make_pam_ok dist n known known_ok top M HM Hne (fun m o Hm Ho => Htop m o (HM m Hm) Ho) H2 (apart_unique M HM Hne Hnd) Hself Hpos)
        as (p & Ep & _ & Hp). congruence. }
    intros t. split; [apply H|]. induction t as [|t IH]; [auto|].
    destruct (pam_step_ok dist n known known_ok Hself Hpos (st t) IH) as (q & E & Hq & _). destruct (H t) as (E' & _). congruence.
  - intros o k draw. destruct (Hf o) as (t & Et & Ht). exists t. split; [|auto]. exact (fit_given_eq _ _ _ _ _ _ _ _ _ Hne Et).
Qed.

(** A call of [fit] on an object that has medoids. *)
Lemma do_fit c x : about n dist c -> fits [c] = 1 -> (forall m, In m (kd_medoids x) -> m < n) -> kd_medoids x <> [] ->
  do_mcall precompute top c x = (R <- medoids_fit signed_wrap top known (kd_options x) 0 (kd_medoids x) (fun _ _ a _ => a) ;;
    Ok (manswer_medoids R, mk_kmedoids (kd_count x) R (kd_options x))).
Proof using Type.
  intros Hc H1 HM Hne.
  assert (F : forall src draw, provides src n dist -> medoids_fit signed_wrap top src (kd_options x) (kd_count x) (kd_medoids x) draw =
    medoids_fit signed_wrap top known (kd_options x) 0 (kd_medoids x) (fun _ _ a _ => a)).
  { intros src draw Hs. destruct (provides_ext n dist src known Hs known_ok) as (R1 & R2 & R3). rewrite !fit_given_inv by auto.
    now rewrite (proj1 (candidate_ext n src known R1 R2 R3 signed_wrap top (kd_options x) (kd_medoids x) HM)). }
  destruct c as [o|samples nf draw|p draw|samples nf|p|samples nf|p]; try discriminate H1; cbn [about] in Hc; cbn [do_mcall].
  - destruct Hc as (Hl & Hnf & Hd). destruct (about_provides precompute n dist samples nf Hl Hnf Hd) as ((s & -> & Hs) & _). cbn [bind].
    now rewrite (F s draw Hs).
  - now rewrite (F _ draw Hc).
Qed.

(** Without early stopping iterations add up. *)
Theorem c94_iterations_add : forall c c' x m m' patience patience' inits inits', about n dist c -> fits [c] = 1 -> about n dist c' -> fits [c'] = 1 ->
  (forall m, In m (kd_medoids x) -> m < n) -> 2 <= length (kd_medoids x) -> NoDup (kd_medoids x) ->
  exists R answers y z,
    do_mcalls precompute top [mcall_set_options (mk_medoids_options m false patience inits); c;
                              mcall_set_options (mk_medoids_options m' false patience' inits'); c'] x = Ok (answers, y) /\
    do_mcalls precompute top [mcall_set_options (mk_medoids_options (m + m') false patience inits); c] x = Ok ([manswer_self; manswer_medoids R], z) /\
    kd_medoids y = R /\ kd_medoids z = R.
Proof using Hself Hpos Htop Hapart.
  intros c c' x m m' pt pt' ni ni' Hc F1 Hc' F1' HM H2 Hnd.
  assert (Hne : kd_medoids x <> []) by (intros E; rewrite E in H2; simpl in H2; lia).
  destruct (apart_states (kd_medoids x) HM H2 Hnd) as (st & E0 & EM & Hst & Hf).
  assert (HT : forall t, (forall m, In m (p_medoids (st t)) -> m < n) /\ 2 <= length (p_medoids (st t)) /\ NoDup (p_medoids (st t)) /\ p_medoids (st t) <> []).
  { intros t. destruct (Hst t) as (_ & HC). pose proof (c_two _ _ _ HC) as H3. split; [apply HC|]. split; [auto|]. split; [apply HC|].
    intros E. rewrite E in H3. simpl in H3. lia. }
  assert (R1 : forall o k draw, mo_early_stopping o = false -> medoids_fit signed_wrap top known o k (kd_medoids x) draw = Ok (p_medoids (st (mo_max_iter o)))).
  { intros o k draw Ho. destruct (Hf o k draw) as (t & -> & _ & [->|(E & _)] & _); [reflexivity|congruence]. }
  assert (R2 : forall o k draw, mo_early_stopping o = false ->
    medoids_fit signed_wrap top known o k (p_medoids (st m)) draw = Ok (p_medoids (st (m + mo_max_iter o)))).
  { intros o k draw Ho. destruct (HT m) as (T1 & T2 & T3 & _). destruct (apart_states (p_medoids (st m)) T1 T2 T3) as (st' & E0' & EM' & Hst' & Hf').
    assert (G : forall i, st' i = st (m + i)).
    { rewrite (make_again _ (proj2 (Hst m))) in E0'. apply ok_inv in E0'. induction i as [|i IH]; [rewrite Nat.add_0_r; auto|].
      destruct (Hst' i) as (S1 & _). destruct (Hst (m + i)) as (S2 & _). rewrite IH, S2 in S1. rewrite Nat.add_succ_r. congruence. }
    destruct (Hf' o k draw) as (t & -> & _ & [->|(E & _)] & _); [now rewrite G|congruence]. }
  exists (p_medoids (st (m + m'))). eexists _, _, _. split.
  { cbn [do_mcalls do_mcall bind]. rewrite (do_fit c) by auto. cbn [kd_options kd_medoids kd_count]. rewrite R1 by reflexivity. cbn [bind mo_max_iter kd_options kd_medoids kd_count].
    rewrite (do_fit c') by (auto; apply HT). cbn [kd_options kd_medoids kd_count]. rewrite R2 by reflexivity. cbn [bind mo_max_iter]. reflexivity. }
  split.
  { cbn [do_mcalls do_mcall bind]. rewrite (do_fit c) by auto. cbn [kd_options kd_medoids kd_count]. rewrite R1 by reflexivity. cbn [bind mo_max_iter]. reflexivity. }
  split; reflexivity.
Qed.

(** One fit that is allowed as many iterations as the deviation of the first medoids is final, early stopping or not. *)
Theorem c94_one_fit_rests : forall c x, about n dist c -> fits [c] = 1 ->
  (forall m, In m (kd_medoids x) -> m < n) -> 2 <= length (kd_medoids x) -> NoDup (kd_medoids x) ->
  Z.to_nat (deviations dist n (kd_medoids x)) <= mo_max_iter (kd_options x) ->
  exists r y, do_mcall precompute top c x = Ok (r, y) /\
  forall cs, Forall (about n dist) cs -> exists answers z, do_mcalls precompute top cs y = Ok (answers, z) /\ kd_medoids z = kd_medoids y.
Proof using Hself Hpos Htop Hapart.
  intros c x Hc F1 HM H2 Hnd Hmi. assert (Hne : kd_medoids x <> []) by (intros E; rewrite E in H2; simpl in H2; lia).
  destruct (apart_states (kd_medoids x) HM H2 Hnd) as (st & E0 & EM & Hst & Hf).
  rewrite (do_fit c) by auto. destruct (Hf (kd_options x) 0 (fun _ _ a _ => a)) as (t & -> & Hstop). cbn [bind].
  eexists _, _. split; [reflexivity|]. intros cs HA. destruct (Hst t) as (_ & HC). pose proof (c_two _ _ _ HC) as H3.
  apply (rest_calls precompute top n dist Hself Hpos Htop cs); [auto|apply HC|auto|]. cbn [kd_medoids].
  exists (st t). split; [apply make_again; auto|].
  destruct (Nat.eq_dec t (mo_max_iter (kd_options x))) as [->|Hn].
  - assert (Hfix : forall t0 q, steps t0 (pam_step signed_wrap known) (st 0) = Ok q -> q = st t0).
    { assert (G : forall t0 i q, steps t0 (pam_step signed_wrap known) (st i) = Ok q -> q = st (i + t0)).
      { induction t0 as [|t0 IH]; intros i q E; cbn [steps] in E; [rewrite Nat.add_0_r; congruence|].
        rewrite (proj1 (Hst i)) in E. cbn [bind] in E. rewrite (IH _ _ E). f_equal. lia. }
      intros t0 q E. rewrite (G t0 0 q E). reflexivity. }
    destruct (c46_settles dist n known known_ok Hself Hpos (st 0) (proj2 (Hst 0))) as (t0 & q & Ht0 & Eq & _ & Hq).
    apply Hfix in Eq. subst q. rewrite EM in Ht0.
    assert (G : forall i, st (t0 + i) = st t0).
    { induction i as [|i IH]; [now rewrite Nat.add_0_r|]. rewrite Nat.add_succ_r. pose proof (proj1 (Hst (t0 + i))) as Hs. rewrite IH, Hq in Hs. congruence. }
    replace (mo_max_iter (kd_options x)) with (t0 + (mo_max_iter (kd_options x) - t0)) by lia. rewrite G. auto.
  - destruct Hstop as (Hle & Hstop).
    apply (c68_early_stop_is_fixed dist n known known_ok Hself Hpos top Htop (kd_options x) (kd_medoids x) st t); auto.
    + intros i. apply Hst.
    + split; auto.
    + apply apart_unique; auto.
    + lia.
Qed.
End Apart.

(** ** Fewer samples than the medoids say *)
Lemma outside_undefined (src : source Z) n top M m : rows src = n -> 1 <= n -> (forall i, n <= i -> dist_at src i 0 = UB) ->
  (forall i, i < n -> exists d, dist_at src i 0 = Ok d) -> In m M -> n <= m ->
  samples_to_nearest_medoid_indices Z.ltb top src M = UB /\ samples_to_nearest_medoid_distances Z.ltb top src M = UB.
Proof.
  intros Hr Hn Hbad Hgood Hm Hout. split.
  - unfold samples_to_nearest_medoid_indices. destruct M as [|m0 M0] eqn:EM; [destruct Hm|]. rewrite <- EM in *. clear EM m0 M0.
    rewrite Hr. unfold fill. destruct n as [|n']; [lia|]. cbn [for_loop].
    assert (G : forall k i s, i + k = length M -> (exists j, i <= j /\ nth_error M j = Some m) ->
      for_loop k i (fun idx '(first_min_distance, first_min_index) =>
            nearest_candidate <- medoid_distance src M idx 0 ;;
            Ok (if (nearest_candidate <? first_min_distance)%Z then (nearest_candidate, idx)
                else (first_min_distance, first_min_index))) s = UB).
    { induction k as [|k IH]; intros i (d, ix) Hk (j & Hj & Ej).
      - pose proof (nth_error_lt _ _ _ Ej). lia.
      - cbn [for_loop]. unfold medoid_distance. destruct (rd_lt M i) as (x & Ex); [lia|]. rewrite Ex. apply rd_ok in Ex. cbn [bind].
        destruct (le_lt_dec (S n') x) as [Hx|Hx]; [now rewrite (Hbad x Hx)|]. destruct (Hgood x Hx) as (dd & ->). cbn [bind].
        destruct (dd <? d)%Z; apply IH; try lia; exists j; split; auto; destruct (Nat.eq_dec i j) as [->|]; try lia;
          (assert (x = m) by congruence; lia). }
    rewrite G; auto. apply In_nth_error in Hm. destruct Hm as (j & Ej). exists j. split; auto. lia.
  - unfold samples_to_nearest_medoid_distances. destruct M as [|m0 M0] eqn:EM; [destruct Hm|]. rewrite <- EM in *. clear EM m0 M0.
    rewrite Hr. unfold fill. destruct n as [|n']; [lia|]. cbn [for_loop].
    assert (G : forall d, for_each M (fun medoid first_min_distance => nearest_candidate <- dist_at src medoid 0 ;;
        Ok (if (nearest_candidate <? first_min_distance)%Z then nearest_candidate else first_min_distance)) d = UB).
    { induction M as [|x M IH]; intros d; [destruct Hm|]. cbn [for_each].
      destruct (le_lt_dec (S n') x) as [Hx|Hx]; [now rewrite (Hbad x Hx)|]. destruct (Hgood x Hx) as (dd & ->). cbn [bind].
      apply IH. destruct Hm as [->|Hm]; [lia|auto]. }
    now rewrite G.
Qed.

Lemma outside_sources n samples nf pre : length samples = n * nf -> 1 <= nf -> 1 <= n ->
  (exists s, samples_source int_metric samples nf = Ok s /\ rows s = n /\ (forall i, n <= i -> dist_at s i 0 = UB)) /\
  exists s, fit_source pre samples nf = Ok s /\ rows s = n /\ (forall i, n <= i -> dist_at s i 0 = UB).
Proof.
  intros Hl Hnf Hn. destruct (both_sources n samples nf Hl Hnf) as (_ & s & Es & Hs).
  assert (H1 : exists s, samples_source int_metric samples nf = Ok s /\ rows s = n /\ (forall i, n <= i -> dist_at s i 0 = UB)).
  { exists s. split; [auto|]. split; [apply Hs|]. unfold samples_source in Es. apply bind_ok in Es. destruct Es as (k & _ & Es). injection Es as <-.
    cbn [dist_at]. intros i Hi. unfold dynamic_at, sample_at, slice. assert (n * nf <= i * nf) by (apply Nat.mul_le_mono_r; auto).
    destruct (_ && _) eqn:E; auto. apply andb_true_iff in E. destruct E as (_ & E). apply Nat.leb_le in E. lia. }
  split; [auto|]. destruct H1 as (s' & Es' & R' & D'). assert (s' = s) by congruence. subst s'. unfold fit_source. rewrite Es. cbn [bind]. destruct pre; [|eauto].
  destruct (pairwise_sequential_ok int_metric l1_dist 0%Z samples nf n) as (p & Ep & T1 & T2 & _); auto using int_metric_computes; try lia.
  rewrite Ep. cbn [bind]. eexists. split; [reflexivity|]. split; [exact T1|]. intros i Hi. cbn [matrix_source dist_at]. unfold pairwise_at.
  destruct (Nat.eqb_spec i 0); [lia|]. destruct (Nat.ltb_spec i 0); [lia|]. unfold rd.
  rewrite (proj2 (nth_error_None _ _)); [reflexivity|]. rewrite T2, Nat.add_0_r. apply triangle_mono. auto.
Qed.

(** A medoid that the samples of a later call do not have: [fit], [predict] and [forward] read outside. *)
Theorem c94_outside_undefined : forall pre top n samples nf draw x m, length samples = n * nf -> 1 <= nf -> 1 <= n ->
  In m (kd_medoids x) -> n <= m ->
  do_mcall pre top (mcall_fit_samples samples nf draw) x = UB /\
  do_mcall pre top (mcall_predict_samples samples nf) x = UB /\
  do_mcall pre top (mcall_forward_samples samples nf) x = UB.
Proof.
  intros pre top n samples nf draw x m Hl Hnf Hn Hm Hout. assert (Hne : kd_medoids x <> []) by (intros E; rewrite E in Hm; destruct Hm).
  destruct (outside_sources n samples nf pre Hl Hnf Hn) as ((s & Es & Rs & Ds) & s' & Es' & Rs' & Ds').
  destruct (fit_sources n samples nf pre Hl Hnf) as (s1 & E1 & _ & D1). assert (s1 = s') by congruence. subst s1.
  destruct (both_sources n samples nf Hl Hnf) as (_ & s2 & E2 & _ & D2). assert (s2 = s) by congruence. subst s2.
  destruct (outside_undefined s n top (kd_medoids x) m Rs Hn Ds) as (A1 & A2); [intros i Hi; eexists; apply D2; lia|auto|auto|].
  destruct (outside_undefined s' n top (kd_medoids x) m Rs' Hn Ds') as (B1 & _); [intros i Hi; eexists; apply D1; lia|auto|auto|].
  assert (HL : length (kd_medoids x) <? 1 = false) by (apply Nat.ltb_ge; destruct (kd_medoids x); [congruence|simpl; lia]).
  cbn [do_mcall]. split; [|split].
  - rewrite Es'. cbn [bind]. rewrite fit_given_inv by auto. unfold medoids_candidate, make_pam, nth_indices, nth_nearest. rewrite HL.
    cbn [Nat.eqb orb]. rewrite B1. reflexivity.
  - unfold predict_samples. rewrite Es. cbn [bind]. unfold nth_nearest. rewrite HL. cbn [Nat.eqb orb].
    change (m_lt int_metric) with Z.ltb. change (m_dist int_metric) with Z. rewrite A1. reflexivity.
  - unfold forward_samples. rewrite Es. cbn [bind]. change (m_lt int_metric) with Z.ltb. change (m_dist int_metric) with Z. rewrite A2. reflexivity.
Qed.

(** Before the first fit [predict] and [forward] throw. *)
Theorem c94_predict_before_fit : forall pre top samples nf p x, 1 <= nf -> kd_medoids x = [] ->
  do_mcall pre top (mcall_predict_samples samples nf) x = Throw /\ do_mcall pre top (mcall_predict_matrix p) x = Throw /\
  do_mcall pre top (mcall_forward_samples samples nf) x = Throw /\ do_mcall pre top (mcall_forward_matrix p) x = Throw.
Proof.
  intros pre top samples nf p x Hnf E. cbn [do_mcall]. rewrite E.
  destruct (c67_no_medoids_throws samples nf top p Hnf) as (-> & -> & -> & ->). cbn [bind]. auto.
Qed.

(** ** Cases *)
Definition first_draw (_ _ a _ : nat) : nat := a.
Definition shown_medoids (r : res (list manswer * kmedoids)) : option (list manswer * list nat) :=
  match r with Ok (a, x) => Some (a, kd_medoids x) | _ => None end.
Definition apart_data : list Z := [98; 96; 34; 185; 91; 165; 75; 161; 110]%Z.
Definition its (m : nat) (early : bool) (inits : nat) : medoids_options := mk_medoids_options m early 0 inits.
Definition fit_on (l : list Z) : mcall := mcall_fit_samples l 1 first_draw.

Lemma about_line l : forall c, In c [fit_on l; mcall_predict_samples l 1; mcall_forward_samples l 1] -> about (length l) (line_dist l) c.
Proof. intros c [<-|[<-|[<-|[]]]]; (split; [lia|split; [lia|reflexivity]]). Qed.

Lemma line_self' l o : line_dist l o o = 0%Z.
Proof. apply l1_self. Qed.

(** Two objects, built for 3 and for 8 medoids, with one and with no start. *)
Example c94_start_case :
  let cs inits := [fit_on apart_data; mcall_set_options (its 9 true inits); fit_on apart_data; mcall_predict_samples apart_data 1] in
  let x := new_kmedoids_with 3 [5; 0; 4] (its 1 false 1) in let y := new_kmedoids_with 8 [5; 0; 4] (its 1 false 0) in
  Forall2 same_mcall (cs 1) (cs 7) /\ same_medoids x y /\
  shown_medoids (do_mcalls true int_max (cs 1) x) =
    Some ([manswer_medoids [5; 6; 4]; manswer_self; manswer_medoids [5; 2; 1]; manswer_labels [2; 2; 1; 0; 2; 0; 2; 0; 2]], [5; 2; 1]) /\
  shown_medoids (do_mcalls true int_max (cs 7) y) =
    Some ([manswer_medoids [5; 6; 4]; manswer_self; manswer_medoids [5; 2; 1]; manswer_labels [2; 2; 1; 0; 2; 0; 2; 0; 2]], [5; 2; 1]).
Proof.
  split; [repeat first [constructor | split]|]. split; [split; [reflexivity|split; [discriminate|repeat split]]|]. split; vm_compute; reflexivity.
Qed.

(** Two features; the matrix is made once, before the calls that use it, or not at all. *)
Example c94_matrix_case :
  let l := [0; 0; 2; 1; 4; 2; 9; 9; 8; 7]%Z in
  exists p, matrix_of 5 l 2 p /\
  Forall2 (same_data 5) [mcall_fit_samples l 2 (fun _ _ a _ => a); mcall_predict_samples l 2; mcall_forward_samples l 2]
                        [mcall_fit_matrix p (fun _ _ a _ => a); mcall_predict_matrix p; mcall_forward_matrix p] /\
  shown_medoids (do_mcalls true int_max [mcall_fit_matrix p (fun _ _ a _ => a); mcall_predict_matrix p; mcall_forward_matrix p]
    (new_kmedoids 2 default_medoids_options)) =
  Some ([manswer_medoids [3; 1]; manswer_labels [1; 1; 1; 0; 0]; manswer_distances [3; 0; 3; 0; 3]%Z], [3; 1]) /\
  shown_medoids (do_mcalls false int_max [mcall_fit_samples l 2 (fun _ _ a _ => a); mcall_predict_samples l 2; mcall_forward_samples l 2]
    (new_kmedoids 2 default_medoids_options)) =
  Some ([manswer_medoids [3; 1]; manswer_labels [1; 1; 1; 0; 0]; manswer_distances [3; 0; 3; 0; 3]%Z], [3; 1]).
Proof.
  intros l. destruct (both_sources 5 l 2) as ((p & Ep & _) & _); [reflexivity|lia|]. exists p.
  assert (Hp : matrix_of 5 l 2 p) by (split; [reflexivity|split; [lia|exact Ep]]). split; [exact Hp|]. split.
  - repeat constructor; try exact Ep; try reflexivity; try lia; (econstructor; [exact Hp|]) || (econstructor; exact Hp) || (intros i a b c; lia).
  - vm_compute in Ep. injection Ep as <-. split; vm_compute; reflexivity.
Qed.

(** Samples 0 and 1 are 5 apart from sample 2, and samples 3 and 4 coincide: calls on data with ties, and with a medoid twice. *)
Definition tie_data : list Z := [0; 10; 5; 30; 30; 4; 20]%Z.
Example c94_served_case :
  let cs := [mcall_predict_samples tie_data 1; fit_on tie_data; mcall_set_options (its 3 true 1); fit_on tie_data; mcall_forward_samples tie_data 1] in
  let x := new_kmedoids_with 3 [0; 1; 1] (its 1 true 1) in
  Forall (about 7 (line_dist tie_data)) cs /\ (forall m, In m (kd_medoids x) -> m < 7) /\ deviations (line_dist tie_data) 7 [0; 1; 1] = 59%Z /\
  (forall o, o < 7 -> line_dist tie_data o o = 0%Z) /\ (forall i j, i < 7 -> j < 7 -> (0 <= line_dist tie_data i j < int_max)%Z) /\
  shown_medoids (do_mcalls false int_max cs x) =
    Some ([manswer_labels [0; 1; 0; 1; 1; 0; 1]; manswer_medoids [3; 6; 5]; manswer_self; manswer_medoids [3; 6; 5];
           manswer_distances [4; 6; 1; 0; 0; 0; 0]%Z], [3; 6; 5]).
Proof.
  cbv zeta. split; [|split; [|split; [|split; [|split]]]].
  - repeat constructor; try apply (about_line tie_data); cbn [In]; auto 6.
  - cbn. intros m [<-|[<-|[<-|[]]]]; lia.
  - vm_compute. reflexivity.
  - intros o _. apply line_self'.
  - intros i j Hi Hj. do 7 (destruct i as [|i]; [do 7 (destruct j as [|j]; [vm_compute; split; [discriminate|reflexivity]|]); lia|]). lia.
  - vm_compute. reflexivity.
Qed.

(** 60 fits of one iteration each. *)
Example c94_rest_case :
  let cs := repeat (fit_on tie_data) 60 in
  let x := new_kmedoids_with 3 [0; 1; 1] (its 1 true 1) in
  Forall iterates cs /\ Z.to_nat (deviations (line_dist tie_data) 7 (kd_medoids x)) < fits cs /\
  option_map snd (shown_medoids (do_mcalls false int_max cs x)) = Some [3; 6; 5].
Proof.
  cbv zeta. split; [|split; [vm_compute; lia|vm_compute; reflexivity]]. apply Forall_forall. intros c Hc. apply repeat_spec in Hc. subst. exact I.
Qed.

(** One iteration, two more and three. *)
Example c94_iterations_case :
  let x := new_kmedoids_with 3 [5; 0; 4] (its 1 false 1) in
  (forall o i j, o < 9 -> i < 9 -> j < 9 -> line_dist apart_data i o = line_dist apart_data j o -> i = j) /\
  shown_medoids (do_mcalls true int_max [mcall_set_options (its 1 false 1); fit_on apart_data; mcall_set_options (its 2 false 1); fit_on apart_data] x) =
    Some ([manswer_self; manswer_medoids [5; 6; 4]; manswer_self; manswer_medoids [5; 2; 1]], [5; 2; 1]) /\
  shown_medoids (do_mcalls true int_max [mcall_set_options (its 3 false 1); fit_on apart_data] x) =
    Some ([manswer_self; manswer_medoids [5; 2; 1]], [5; 2; 1]) /\
  shown_medoids (do_mcalls true int_max [mcall_set_options (its 2 false 1); fit_on apart_data] x) =
    Some ([manswer_self; manswer_medoids [5; 2; 0]], [5; 2; 0]).
Proof.
  cbv zeta. split; [|split; [|split]]; [|vm_compute; reflexivity..].
  assert (H : forallb (fun o => forallb (fun i => forallb (fun j => negb (line_dist apart_data i o =? line_dist apart_data j o)%Z || (i =? j))
    (seq 0 9)) (seq 0 9)) (seq 0 9) = true) by (vm_compute; reflexivity).
  intros o i j Ho Hi Hj E. rewrite forallb_forall in H. specialize (H o ltac:(apply in_seq; lia)). rewrite forallb_forall in H.
  specialize (H i ltac:(apply in_seq; lia)). rewrite forallb_forall in H. specialize (H j ltac:(apply in_seq; lia)).
  rewrite E, Z.eqb_refl in H. cbn in H. now apply Nat.eqb_eq.
Qed.

(** The deviation of the first medoids is 111 and 200 iterations are allowed. *)
Example c94_one_fit_case :
  let x := new_kmedoids_with 3 [5; 0; 4] (its 200 true 1) in
  NoDup (kd_medoids x) /\ deviations (line_dist apart_data) 9 (kd_medoids x) = 111%Z /\
  shown_medoids (do_mcalls true int_max [fit_on apart_data; fit_on apart_data] x) =
    Some ([manswer_medoids [5; 2; 1]; manswer_medoids [5; 2; 1]], [5; 2; 1]).
Proof. cbv zeta. split; [repeat constructor; simpl; lia|]. split; vm_compute; reflexivity. Qed.

Example c94_outside_case :
  do_mcalls true int_max [fit_on tie_data; fit_on [1; 2; 3]%Z] (new_kmedoids_with 2 [0; 6] (its 100 true 1)) = UB /\
  do_mcalls true int_max [fit_on tie_data; mcall_predict_samples [1; 2; 3]%Z 1] (new_kmedoids_with 2 [0; 6] (its 100 true 1)) = UB /\
  do_mcalls true int_max [mcall_predict_samples [1; 2; 3]%Z 1] (new_kmedoids 2 (its 100 true 1)) = Throw.
Proof. vm_compute. auto. Qed.

(** ** What does not hold *)
(** With ties a fit of 100 iterations that stops early is not final, though no sample is equally near to two of the first medoids. *)
Theorem c94_refit_refuted : exists l M R R',
  unique_nearest (line_dist l) (length l) M /\
  shown_medoids (do_mcalls true int_max [fit_on l; fit_on l] (new_kmedoids_with (length M) M default_medoids_options)) =
    Some ([manswer_medoids R; manswer_medoids R'], R') /\ R' <> R.
Proof.
  exists [11; 9; 13; 6; 4; 2; 12]%Z, [2; 3; 4], [6; 3; 4], [6; 1; 4]. split.
  - apply unique_checked. vm_compute. reflexivity.
  - split; [vm_compute; reflexivity|discriminate].
Qed.

(** A fitted object that is fitted on other samples starts from the indices it holds: not what a new object returns. *)
Theorem c94_new_data_refuted : exists l l' R R',
  length l = length l' /\
  option_map snd (shown_medoids (do_mcalls true int_max [fit_on l; fit_on l'] (new_kmedoids 2 default_medoids_options))) = Some R /\
  option_map snd (shown_medoids (do_mcalls true int_max [fit_on l'] (new_kmedoids 2 default_medoids_options))) = Some R' /\
  (deviations (line_dist l') (length l') R' < deviations (line_dist l') (length l') R)%Z.
Proof.
  exists [54; 16; 33; 23; 10; 22; 49; 14; 34]%Z, [34; 49; 32; 21; 40; 14; 39; 51; 50]%Z, [4; 5], [0; 8].
  split; [reflexivity|]. split; [vm_compute; reflexivity|]. split; [vm_compute; reflexivity|]. vm_compute. reflexivity.
Qed.

Print Assumptions c94_start_ignored.
Print Assumptions c94_samples_or_matrix.
Print Assumptions c94_served.
Print Assumptions c94_comes_to_rest.
Print Assumptions c94_iterations_add.
Print Assumptions c94_one_fit_rests.
Print Assumptions c94_outside_undefined.
Print Assumptions c94_predict_before_fit.
Print Assumptions c94_refit_refuted.
Print Assumptions c94_new_data_refuted.
