(** Theorems about [KMedoids::fit<FasterMSC>] (C106). *)
From Coq Require Import List Arith Lia ZArith QArith Qabs Lqa Bool Permutation.
From Verif Require Import Base SortingModel SortingProofs BufferModel RandomModel RandomSpec AliasProofs KMeansModel KMeansSpec KMeansProofs MatrixProofs
  KMedoidsModel KMedoidsSpec KMedoidsProofs KMedoidsProps MscModel MscSpec MscProofs MscProps MedoidUnitProps MscFitModel MscFitSpec MscFitProofs ThreadsModel ThreadsSpec ThreadsProofs ThreadsProps.
Import ListNotations.
Local Open Scope nat_scope.

Section Fit.
Context (eps top : Q) (dist : nat -> nat -> Q) (n : nat) (src : source Q).

(** From medoids set before, or found by an earlier call: as many samples, those of the state where the steps stop. *)
Theorem c106_fit_given o k M draw : provides src n dist -> (0 <= eps)%Q -> (forall m, In m M -> m < n) -> 2 <= length M ->
  exists best loss, msc_fit eps top src o k M draw = Ok best /\ msc_reached eps top src o M (best, loss) /\
    (forall m, In m best -> m < n) /\ length best = length M.
Proof.
  intros Hsrc Heps HM Hk.
  destruct (msc_best_ok eps top dist n src Hsrc Heps o k M draw [M]) as (results & best & loss & E & HF & Hin & _).
  - destruct M; [simpl in Hk; lia|reflexivity].
  - discriminate.
  - intros M' [<-|[]]. split; auto.
  - exists best, loss. split; auto. inversion HF as [|? R ? Rs H0 HR]; subst. inversion HR; subst. destruct Hin as [->|[]]. exact H0.
Qed.

(** Without medoids: every start is a rearrangement of the first [k] samples; the result is one with the least reported loss. *)
Theorem c106_fit_random o k draw : provides src n dist -> (0 <= eps)%Q -> (forall i, in_range (draw i)) -> 1 <= mo_n_init o -> 2 <= k <= n ->
  exists starts results best loss, msc_fit eps top src o k [] draw = Ok best /\ length starts = mo_n_init o /\
    (forall M, In M starts -> Permutation M (seq 0 k)) /\ Forall2 (msc_reached eps top src o) starts results /\
    In (best, loss) results /\ (forall R l, In (R, l) results -> (loss <= l)%Q) /\ (forall m, In m best -> m < n) /\ length best = k.
Proof.
  intros Hsrc Heps Hd Hi (Hk2 & Hkn). destruct (msc_random_starts dist n src Hsrc o k draw Hd Hkn) as (starts & Es & HL & HP).
  assert (HS : forall M, In M starts -> msc_start n M).
  { intros M HM. specialize (HP M HM). split.
    - intros m Hm. apply (Permutation_in m HP), in_seq in Hm. lia.
    - rewrite (Permutation_length HP), seq_length. auto. }
  destruct (msc_best_ok eps top dist n src Hsrc Heps o k [] draw starts Es) as (results & best & loss & E & HF & Hin & Hbest); auto.
  { intros ->. simpl in HL. lia. }
  assert (HB : exists M, In M starts /\ (forall m, In m best -> m < n) /\ length best = length M).
  { clear -HF Hin. induction HF as [|M R Ms Rs (_ & H1 & H2) HF IH]; [destruct Hin|]. destruct Hin as [->|Hin].
    - exists M. split; [now left|]. auto.
    - destruct (IH Hin) as (M' & HM' & H'). exists M'. split; auto. now right. }
  destruct HB as (M & HM & H1 & H2). exists starts, results, best, loss. splits; auto.
  - clear -HF. induction HF; constructor; auto. apply H.
  - rewrite H2, (Permutation_length (HP M HM)). apply seq_length.
Qed.

(** A single medoid throws; without medoids and without initialisations the read is undefined. *)
Theorem c106_single_medoid_throws o k m draw : provides src n dist -> m < n -> msc_fit eps top src o k [m] draw = Throw.
Proof.
  intros Hsrc Hm. unfold msc_fit. cbn [msc_candidates medoids_candidates bind for_each]. unfold msc_candidate.
  rewrite (c72_construction_throws eps top dist n src [m] Hsrc); auto. intros m' [<-|[]]. auto.
Qed.

Theorem c106_no_init_undefined o k draw : mo_n_init o = 0 -> msc_fit eps top src o k [] draw = UB.
Proof. intros H. unfold msc_fit, msc_candidates, medoids_candidates. rewrite H. reflexivity. Qed.

(** Two medoids: from any start the steps come to rest, after a number of steps that does not depend on the start. *)
Theorem c106_two_settle : provides src n dist -> (0 <= eps)%Q -> distances_ok dist n -> tolerance_exact eps top dist n ->
  exists T, forall M, (forall m, In m M -> m < n) -> length M = 2 ->
    exists p q, make_msc eps top src M = Ok p /\ steps T (msc_step eps src) p = Ok q /\ msc_step eps src q = Ok q.
Proof.
  intros Hsrc Heps Hd Hex. exists (S (length (two_losses eps top dist n))). intros M HM Hk.
  destruct (c73_construction eps top dist n src M Hsrc Heps HM Hk) as (p & Ep & _ & Hp).
  destruct (steps_rest (msc_step eps src) (two_medoids top dist n) total_deviation (two_losses eps top dist n)
    (fun p => two_step eps top dist n src Hsrc p Hd Hex) p Hp) as (q & E & _ & H).
  exists p, q. auto.
Qed.

(** Three medoids: from any start where no sample has two medoids at the same distance the steps come to rest, and the medoids do
    not all become the same. *)
Theorem c106_three_settle : provides src n dist -> (0 <= eps)%Q -> (forall o, o < n -> (dist o o == 0)%Q) ->
  (forall i j, i < n -> j < n -> i <> j -> (eps < dist i j)%Q) ->
  exists T, forall M, (forall m, In m M -> m < n) -> length M = 3 -> separated eps top dist n M ->
    exists p q, make_msc eps top src M = Ok p /\ steps T (msc_step eps src) p = Ok q /\ msc_step eps src q = Ok q /\
      exists m m', In m (s_medoids q) /\ In m' (s_medoids q) /\ m <> m'.
Proof.
  intros Hsrc Heps Hself Hfar. exists (S (length (three_losses eps dist n))). intros M HM Hk Hsep.
  assert (Hn : 0 < n).
  { destruct M as [|m M]; [discriminate|]. specialize (HM m (or_introl eq_refl)). lia. }
  destruct (c72_construction eps top dist n src M Hsrc Heps HM ltac:(lia) Hsep) as (p & Ep & EM & Hp).
  pose proof (described_three eps dist n Heps top M p Hp EM Hk Hsep Hn) as H3.
  destruct (steps_rest (msc_step eps src) (three_state eps dist n) (phi eps n) (three_losses eps dist n)
    (three_step eps dist n src Hsrc Heps Hself Hfar) p H3) as (q & E & Hq & H).
  exists p, q. splits; auto. destruct (h_one _ _ _ _ Hq) as (i & j & Hi & Hj & Hne).
  exists (nth i (s_medoids q) 0), (nth j (s_medoids q) 0). rewrite <- (h_length _ _ _ _ Hq) in Hi, Hj. splits; auto; now apply nth_In.
Qed.

(** Compiled with OpenMP the same medoids are returned. *)
Lemma msc_loop_alone o : forall iterations pt q c s,
  alone (msc_step eps src) s_medoids same_indices (mo_early_stopping o) (mo_patience o) iterations pt q c s
  = msc_loop eps src o iterations pt q c s.
Proof.
  induction iterations as [|it IH]; intros pt q c s; cbn [alone msc_loop]; [reflexivity|].
  destruct (msc_step eps src s) as [s'| | |]; cbn [bind]; auto.
  destruct (mo_early_stopping o && _); auto. destruct (pt =? mo_patience o); auto.
Qed.

Lemma msc_one_by_one o k medoids draw :
  (candidates <- msc_candidates src o k medoids draw ;;
   one_by_one (make_msc eps top src) (msc_step eps src) s_medoids total_deviation same_indices (mo_max_iter o)
     (mo_early_stopping o) (mo_patience o) Qlt_bool [] candidates)
  = msc_fit eps top src o k medoids draw.
Proof.
  unfold msc_fit. destruct (msc_candidates src o k medoids draw) as [cs| | |]; cbn [bind]; auto.
  unfold one_by_one. f_equal. apply for_each_ext. intros c rs _. unfold from_start, msc_candidate, ended.
  destruct (make_msc eps top src c) as [s| | |]; cbn [bind]; auto. now rewrite msc_loop_alone.
Qed.

Theorem c106_parallel o k schedule medoids draw :
  let n := match medoids with [] => mo_n_init o | _ => 1 end in
  runs n schedule ->
  (forall c, parallel_msc_fit eps top src o schedule k medoids draw = Ok c -> msc_fit eps top src o k medoids draw = Ok c) /\
  (enough n (3 * mo_max_iter o + 3) schedule -> forall c,
     msc_fit eps top src o k medoids draw = Ok c -> parallel_msc_fit eps top src o schedule k medoids draw = Ok c).
Proof.
  intros m Hs. unfold parallel_msc_fit. rewrite <- msc_one_by_one.
  destruct (msc_candidates src o k medoids draw) as [cs| | |] eqn:Ec; cbn [bind]; try (split; [|intros _]; discriminate).
  assert (En : length cs = m).
  { unfold m, msc_candidates, medoids_candidates in *. destruct medoids; [|injection Ec as <-; reflexivity].
    apply collect_ok in Ec. destruct Ec as (ys & -> & F). apply same_length in F. now rewrite seq_length in F. }
  unfold runs, enough in *. rewrite <- En in Hs |- *.
  destruct (best_same (make_msc eps top src) (msc_step eps src) s_medoids total_deviation same_indices (mo_max_iter o)
    (mo_early_stopping o) (mo_patience o) Qlt_bool [] 0%Q schedule cs Hs) as (H1 & H2 & _). split; [exact H1|exact H2].
Qed.
End Fit.

(** ** Examples *)
Definition two_starts : medoids_options := mk_medoids_options 100 true 0 2.
Definition reports (r : res (list nat * Q)) : res (list nat * Q) := ' (m, l) <- r ;; Ok (m, Qred l).


Lemma two_draws_range i : in_range (two_draws i).
Proof. intros k a b Hab. unfold two_draws. destruct (i =? 0); lia. Qed.

Definition l5 : list Z := [12; 17; 3; 18; 7]%Z.

Example c106_fit_given_case : provides (qline l7) 7 (qdist l7) /\ (0 <= tiny)%Q /\ (forall m, In m m7 -> m < 7) /\ 2 <= length m7 /\
  msc_fit tiny huge (qline l7) two_starts 3 m7 two_draws = Ok [0; 4; 2] /\
  msc_fit tiny huge (qline l7) two_starts 3 [0; 4; 2] two_draws = Ok [0; 5; 2].
Proof.
  split; [apply (qline_provides l7)|]. split; [apply tiny_pos|]. split; [cbn; intros m H; lia|]. split; [cbn; lia|].
  split; vm_compute; reflexivity.
Qed.

(** Two starts, two results. *)
Example c106_fit_random_case : provides (qline l5) 5 (qdist l5) /\ (forall i, in_range (two_draws i)) /\ 2 <= 2 <= 5 /\
  msc_candidates (qline l5) two_starts 2 [] two_draws = Ok [[0; 1]; [1; 0]] /\
  reports (msc_candidate tiny huge (qline l5) two_starts [0; 1]) = Ok ([0; 4], 0%Q) /\
  reports (msc_candidate tiny huge (qline l5) two_starts [1; 0]) = Ok ([1; 2], 46 # 45) /\
  msc_fit tiny huge (qline l5) two_starts 2 [] two_draws = Ok [0; 4].
Proof.
  split; [apply (qline_provides l5)|]. split; [apply two_draws_range|]. split; [lia|]. do 3 (split; [vm_compute; reflexivity|]).
  vm_compute; reflexivity.
Qed.

Example c106_single_medoid_throws_case : msc_fit tiny huge (qline l7) two_starts 1 [3] two_draws = Throw /\
  msc_fit tiny huge (qline l7) two_starts 1 [] two_draws = Throw.
Proof. split; vm_compute; reflexivity. Qed.

Example c106_no_init_undefined_case : msc_fit tiny huge (qline l7) (mk_medoids_options 100 true 0 0) 3 [] two_draws = UB.
Proof. reflexivity. Qed.

(** Two steps change medoids; the third changes none. *)
Example c106_two_settle_case : provides (qline l5) 5 (qdist l5) /\ distances_ok (qdist l5) 5 /\ tolerance_exact tiny huge (qdist l5) 5 /\
  (medoids_after l5 0 [0; 1]) <> medoids_after l5 1 [0; 1] /\
  exists q, msc_after l5 2 [0; 1] = Ok q /\ msc_step tiny (qline l5) q = Ok q.
Proof.
  split; [apply (qline_provides l5)|]. split; [apply (qline_ok l5)|]. split; [apply (line_exact l5)|]. split; [vm_compute; discriminate|].
  exists (get (msc_after l5 2 [0; 1])). split; vm_compute; reflexivity.
Qed.

Lemma line_far l : NoDup l -> forall i j, i < length l -> j < length l -> i <> j -> (tiny < qdist l i j)%Q.
Proof.
  intros Hnd i j Hi Hj Hne. assert (H : (1 <= Z.abs (nth i l 0 - nth j l 0))%Z).
  { assert (nth i l 0%Z <> nth j l 0%Z); [|lia]. intros E. apply Hne. now apply (proj1 (NoDup_nth l 0%Z) Hnd). }
  apply Qlt_le_trans with (inject_Z 1); [reflexivity|]. unfold qdist. rewrite <- Zle_Qle. exact H.
Qed.

Example c106_three_settle_case : provides (qline l7) 7 (qdist l7) /\ (forall o, o < 7 -> (qdist l7 o o == 0)%Q) /\
  (forall i j, i < 7 -> j < 7 -> i <> j -> (tiny < qdist l7 i j)%Q) /\ separated tiny huge (qdist l7) 7 m7 /\
  medoids_after l7 0 m7 = Ok (m7, 98%Q) /\ medoids_after l7 1 m7 = Ok ([0; 4; 2], 6133 # 16740) /\
  exists q, msc_after l7 1 m7 = Ok q /\ msc_step tiny (qline l7) q = Ok q.
Proof.
  split; [apply (qline_provides l7)|]. split; [apply (qline_ok l7)|].
  split; [apply (line_far l7); repeat constructor; cbn; intros H; repeat (destruct H as [H|H]; [discriminate|]); exact H|].
  split; [apply (separated_checked l7 m7); reflexivity|]. split; [vm_compute; reflexivity|]. split; [vm_compute; reflexivity|].
  exists (get (msc_after l7 1 m7)). split; vm_compute; reflexivity.
Qed.

Example c106_parallel_case : let o := mk_medoids_options 3 true 0 2 in let turns := 3 * mo_max_iter o + 3 in
  let fit_with schedule := parallel_msc_fit tiny huge (qline l5) o schedule 2 [] two_draws in
  runs 2 (in_turns turns) /\ enough 2 turns (in_turns turns) /\ runs 2 (backwards turns) /\ enough 2 turns (backwards turns) /\
  fit_with (in_turns turns) = Ok [0; 4] /\ fit_with (backwards turns) = Ok [0; 4] /\
  msc_fit tiny huge (qline l5) o 2 [] two_draws = Ok [0; 4] /\ fit_with [0; 1] = Fuel.
Proof.
  intros o turns fit_with. split; [apply runs_check; vm_compute; reflexivity|]. split; [apply enough_check; vm_compute; reflexivity|].
  split; [apply runs_check; vm_compute; reflexivity|]. split; [apply enough_check; vm_compute; reflexivity|].
  do 3 (split; [vm_compute; reflexivity|]). vm_compute; reflexivity.
Qed.

(** ** What a user may expect and does not hold *)
(** The result does not have the least silhouette loss of those reached: only the least reported one. *)
Theorem c106_best_refuted : exists l o k best start other loss lb lo, NoDup l /\ 3 <= k <= length l /\
  separated tiny huge (qdist l) (length l) (seq 0 k) /\
  msc_fit tiny huge (qline l) o k [] two_draws = Ok best /\
  msc_candidates (qline l) o k [] two_draws = Ok [seq 0 k; start] /\ msc_candidate tiny huge (qline l) o start = Ok (other, loss) /\
  silhouette_loss tiny (qdist l) (length l) best lb /\ silhouette_loss tiny (qdist l) (length l) other lo /\ (lo < lb)%Q.
Proof.
  set (l := [15; 23; 25; 13; 29]%Z). set (c := msc_candidate tiny huge (qline l) two_starts [2; 0; 1]).
  exists l, two_starts, 3, [0; 3; 2], [2; 0; 1], [2; 0; 4], (match c with Ok (_, x) => x | _ => 0%Q end),
    (loss_of l [0; 3; 2]), (loss_of l [2; 0; 4]).
  split; [repeat constructor; cbn; intros H; repeat (destruct H as [H|H]; [discriminate|]); exact H|].
  split; [cbn; lia|]. split; [apply separated_checked; reflexivity|]. split; [vm_compute; reflexivity|].
  split; [vm_compute; reflexivity|]. split; [vm_compute; reflexivity|].
  split; [apply loss_checked; reflexivity|]. split; [apply loss_checked; reflexivity|]. vm_compute. reflexivity.
Qed.

(** A second call starts at the result of the first, with buffers that are computed anew, and may leave it. *)
Theorem c106_again_refuted : exists l M best best' lb lo, NoDup l /\ separated tiny huge (qdist l) (length l) M /\
  separated tiny huge (qdist l) (length l) best /\
  (exists q, msc_after l 1 M = Ok q /\ s_medoids q = best /\ msc_step tiny (qline l) q = Ok q) /\
  (forall draw, msc_fit tiny huge (qline l) two_starts 3 M draw = Ok best) /\
  (forall draw, msc_fit tiny huge (qline l) two_starts 3 best draw = Ok best') /\ best <> best' /\
  silhouette_loss tiny (qdist l) (length l) best lb /\ silhouette_loss tiny (qdist l) (length l) best' lo /\ (lo < lb)%Q.
Proof.
  exists l7, m7, [0; 4; 2], [0; 5; 2], (loss_of l7 [0; 4; 2]), (loss_of l7 [0; 5; 2]).
  split; [repeat constructor; cbn; intros H; repeat (destruct H as [H|H]; [discriminate|]); exact H|].
  split; [apply separated_checked; reflexivity|]. split; [apply separated_checked; reflexivity|].
  split. { exists (get (msc_after l7 1 m7)). split; [|split]; vm_compute; reflexivity. }
  split; [intros draw; vm_compute; reflexivity|]. split; [intros draw; vm_compute; reflexivity|]. split; [discriminate|].
  split; [apply loss_checked; reflexivity|]. split; [apply loss_checked; reflexivity|]. vm_compute. reflexivity.
Qed.

(** The loss that is reported before any exchange is a sum of distances, later one of quotients: the unit decides which start wins,
    and a result may hold a sample twice. *)
Definition thousandth : Q := 1 # 1000.
Theorem c106_unit_refuted : exists l o k best best', NoDup l /\ 3 <= k <= length l /\
  separated tiny huge (qdist l) (length l) (seq 0 k) /\ separated tiny huge (fun i j => thousandth * qdist l i j)%Q (length l) (seq 0 k) /\
  msc_fit tiny huge (qline l) o k [] two_draws = Ok best /\ msc_fit tiny huge (scaled_line l thousandth) o k [] two_draws = Ok best' /\
  best <> best' /\ ~ NoDup best.
Proof.
  exists [5; 23; 25; 21; 27]%Z, two_starts, 3, [0; 0; 1], [0; 1; 2].
  split; [repeat constructor; cbn; intros H; repeat (destruct H as [H|H]; [discriminate|]); exact H|].
  split; [cbn; lia|]. split; [apply separated_checked; reflexivity|]. split; [apply scaled_checked; reflexivity|].
  split; [vm_compute; reflexivity|]. split; [vm_compute; reflexivity|]. split; [discriminate|].
  intros H. inversion H as [|? ? Hn _]. apply Hn. now left.
Qed.

Print Assumptions c106_fit_given.
Print Assumptions c106_fit_random.
Print Assumptions c106_single_medoid_throws.
Print Assumptions c106_no_init_undefined.
Print Assumptions c106_two_settle.
Print Assumptions c106_three_settle.
Print Assumptions c106_parallel.
Print Assumptions c106_best_refuted.
Print Assumptions c106_again_refuted.
Print Assumptions c106_unit_refuted.
