(** Theorems on FasterPAM and KMedoids::fit from any start (C93). *)
From Coq Require Import List Arith ZArith Bool Lia Permutation.
From Verif Require Import Base BufferModel BufferSpec MatrixModel MatrixProofs StatsModel KMeansModel KMeansSpec KMeansProofs RandomModel RandomSpec
  RandomProofs RandomProps KMedoidsModel KMedoidsSpec KMedoidsProofs KMedoidsProps KMedoidsTies.
Import ListNotations.
Local Open Scope nat_scope.

Lemma forall2_source {A B} (R : A -> B -> Prop) l l' y : Forall2 R l l' -> In y l' -> exists x, In x l /\ R x y.
Proof.
  induction 1; intros []; [subst; eexists; split; [left; reflexivity|auto]|].
  destruct IHForall2 as (z & G1 & G2); auto. exists z. split; [right; auto|auto].
Qed.

Section AnyStart.
Context (dist : nat -> nat -> Z) (n : nat) (src : source Z) (Hsrc : provides src n dist).
Context (Hself : forall o, o < n -> dist o o = 0%Z) (Hpos : forall i j, i < n -> j < n -> (0 <= dist i j)%Z).
Context (top : Z) (Htop : forall i j, i < n -> j < n -> (dist i j < top)%Z).

(** Any two or more samples as medoids, any number of steps: the reported loss is at least the total deviation, it only falls, and
    it starts at the total deviation; so the total deviation never exceeds that of the start. *)
Theorem c93_steps :
  forall M, (forall m, In m M -> m < n) -> 2 <= length M ->
  exists p, make_pam signed_wrap top src M = Ok p /\ p_medoids p = M /\ p_loss p = deviations dist n M /\
  forall t, exists q, steps t (pam_step signed_wrap src) p = Ok q /\ (forall m, In m (p_medoids q) -> m < n) /\
    length (p_medoids q) = length M /\ (deviations dist n (p_medoids q) <= p_loss q <= deviations dist n M)%Z /\
    exists q', pam_step signed_wrap src q = Ok q' /\ (q' = q \/ (p_loss q' < p_loss q)%Z).
Proof using Hsrc Hself Hpos Htop.
  intros M HM H2. destruct (make_pam_sound dist n src Hsrc Hself Hpos top Htop M HM H2) as (p & E & EM & HS & EL).
  exists p. split; [auto|]. split; [auto|]. split; [auto|]. intros t. rewrite <- EL. rewrite <- EM. clear EL EM E M HM H2.
  revert p HS. induction t as [|t IH]; intros p HS; cbn [steps].
  - exists p. split; [auto|]. split; [apply HS|]. split; [auto|]. split; [pose proof (sound_loss dist n Hpos top p HS); lia|].
    destruct (pam_step_sound dist n src Hsrc Hself Hpos top Htop p HS) as (q & E & _ & _ & H). eauto.
  - destruct (pam_step_sound dist n src Hsrc Hself Hpos top Htop p HS) as (p' & -> & HS' & HL & H). cbn [bind].
    destruct (IH p' HS') as (q & E & H1 & H2 & H3 & H4). exists q. split; [auto|]. split; [auto|]. split; [congruence|]. split; [|auto].
    destruct H as [->|H]; lia.
Qed.

(** After finitely many steps nothing changes any more. *)
Theorem c93_settles :
  forall M p, (forall m, In m M -> m < n) -> 2 <= length M -> make_pam signed_wrap top src M = Ok p ->
  exists t q, steps t (pam_step signed_wrap src) p = Ok q /\ forall s, steps (t + s) (pam_step signed_wrap src) p = Ok q.
Proof using Hsrc Hself Hpos Htop.
  intros M p HM H2 E. destruct (make_pam_sound dist n src Hsrc Hself Hpos top Htop M HM H2) as (p0 & E0 & _ & HS & _).
  assert (p0 = p) by congruence. subst p0. clear E E0 HM H2 M.
  assert (Hb : (0 <= p_loss p)%Z) by (pose proof (sound_loss dist n Hpos top p HS); lia).
  remember (Z.to_nat (p_loss p)) as w eqn:Ew. revert p HS Hb Ew. induction w as [w IH] using lt_wf_ind. intros p HS Hb Ew.
  destruct (pam_step_sound dist n src Hsrc Hself Hpos top Htop p HS) as (q & E & HS' & _ & [->|H]).
  - exists 0, p. split; [auto|]. cbn [Nat.add]. induction s as [|s IHs]; cbn [steps]; [auto|]. now rewrite E.
  - assert (Hq : (0 <= p_loss q)%Z) by (pose proof (sound_loss dist n Hpos top q HS'); lia).
    destruct (IH (Z.to_nat (p_loss q)) ltac:(lia) q HS' Hq eq_refl) as (t & r & E1 & E2).
    exists (S t), r. split; [|intros s]; cbn [steps Nat.add]; rewrite E; cbn [bind]; auto.
Qed.

Lemma any_candidate o M : (forall m, In m M -> m < n) -> 2 <= length M ->
  exists R loss, medoids_candidate signed_wrap top src o M = Ok (R, loss) /\
    (deviations dist n R <= loss <= deviations dist n M)%Z /\ (forall m, In m R -> m < n) /\ length R = length M.
Proof using Hsrc Hself Hpos Htop.
  intros HM H2. destruct (make_pam_sound dist n src Hsrc Hself Hpos top Htop M HM H2) as (p & Ep & EM & HS & EL).
  destruct (sound_states dist n src Hsrc Hself Hpos top Htop p HS) as (st & H0 & H).
  unfold medoids_candidate. rewrite Ep. cbn [bind].
  destruct (fit_loop_ok index_arith (pam_algorithm top src) (as_options o) Nat.eqb st (fun i => proj1 (H i))
    ltac:(intros i E; destruct (H i) as (_ & Hc & _); pose proof (s_two _ _ _ _ Hc) as H3;
          change (p_medoids (st i) = []) in E; rewrite E in H3; simpl in H3; lia) M (mo_max_iter o) 0 0) as (t & E & Ht);
    cbn [as_options max_iter patience early_stopping]; try lia.
  - intros _. split; [lia|left; lia].
  - intros t' Ht' (_ & Hs). destruct (Hs 0); lia.
  - cbn [Nat.eqb] in E. rewrite H0 in E.
    assert (E' : medoids_loop signed_wrap src o (mo_max_iter o) 0 [] M p =
      Ok (if t =? 0 then M else p_medoids (st t), st t)) by (rewrite (medoids_loop_eq top); exact E).
    rewrite E'. cbn [bind].
    assert (ER : (if t =? 0 then M else p_medoids (st t)) = p_medoids (st t)).
    { destruct t; simpl; auto. rewrite H0. auto. }
    destruct (H t) as (_ & Hc & Hl & _ & Hb). exists (p_medoids (st t)), (p_loss (st t)). rewrite ER. split; [auto|].
    pose proof (sound_loss dist n Hpos top _ Hc). rewrite EL in Hb. split; [lia|]. split; [apply Hc|congruence].
Qed.

Lemma any_fit o k medoids draw starts : medoids_candidates src o k medoids draw = Ok starts -> starts <> [] ->
  (forall M, In M starts -> (forall m, In m M -> m < n) /\ 2 <= length M) ->
  exists best, medoids_fit signed_wrap top src o k medoids draw = Ok best /\ (forall m, In m best -> m < n) /\
    (exists M, In M starts /\ length best = length M) /\ forall M, In M starts -> (deviations dist n best <= deviations dist n M)%Z.
Proof using Hsrc Hself Hpos Htop.
  intros Es Hne Hall. unfold medoids_fit. rewrite Es. cbn [bind].
  destruct (for_each_inv (fun done results => Forall2 (fun M (r : list nat * Z) =>
      ((deviations dist n (fst r) <= snd r <= deviations dist n M)%Z /\ (forall m, In m (fst r) -> m < n)) /\ length (fst r) = length M) done results)
    (fun candidate results => r <- medoids_candidate signed_wrap top src o candidate ;; Ok (results ++ [r])) starts [] [])
    as (results & E & HP).
  - constructor.
  - intros x d t Hx HP. destruct (any_candidate o x (proj1 (Hall x Hx)) (proj2 (Hall x Hx))) as (R & loss & -> & HR1 & HR2 & HR3). cbn [bind].
    eexists. split; [reflexivity|]. apply Forall2_app; auto.
  - rewrite app_nil_l in HP. rewrite E. cbn [bind].
    assert (Hr : map snd results <> []). { destruct HP; [congruence|discriminate]. }
    destruct (min_pair_ok (map snd results) Hr) as (i & loss & Em & Hi & H1 & H2 & _). rewrite Em. cbn [bind].
    rewrite map_length in Hi. destruct (rd_lt results i Hi) as (r & Er). rewrite Er. apply rd_ok in Er. cbn [bind]. destruct r as (best & l).
    assert (l = loss) as ->.
    { rewrite H1. symmetry. apply nth_error_nth. now rewrite nth_error_map, Er. }
    assert (Hb : exists M, In M starts /\ ((deviations dist n best <= loss <= deviations dist n M)%Z /\ (forall m, In m best -> m < n)) /\ length best = length M).
    { apply nth_error_In in Er. destruct (forall2_source _ _ _ _ HP Er) as (M & HM & H). eauto. }
    destruct Hb as (M & HM & (Hd & Hin) & HL). exists best. split; [auto|]. split; [auto|]. split; [eauto|].
    intros M' HM'. enough (loss <= deviations dist n M')%Z by lia.
    apply In_nth_error in HM'. destruct HM' as (j & Hj).
    destruct (nth_error results j) as [r|] eqn:Ej.
    + specialize (H2 j). rewrite map_length in H2. specialize (H2 (nth_error_lt _ _ _ Ej)).
      rewrite (nth_error_nth (map snd results) j 0%Z (x := snd r)) in H2 by (rewrite nth_error_map, Ej; reflexivity).
      assert ((snd r <= deviations dist n M')%Z); [|lia]. clear -HP Hj Ej. revert j Hj Ej. induction HP; intros [|j] Hj Ej; cbn in *; try discriminate.
      * injection Hj as ->. injection Ej as ->. lia.
      * eauto.
    + apply nth_error_None in Ej. assert (length starts = length results) by (clear -HP; induction HP; cbn [length]; congruence). apply nth_error_lt in Hj. lia.
Qed.

(** [fit] from given medoids, or from those of an earlier call: it returns, and what it returns is no worse. *)
Theorem c93_fit_given :
  forall o k M draw, (forall m, In m M -> m < n) -> 2 <= length M ->
  exists best, medoids_fit signed_wrap top src o k M draw = Ok best /\ (forall m, In m best -> m < n) /\ length best = length M /\
    (deviations dist n best <= deviations dist n M)%Z.
Proof using Hsrc Hself Hpos Htop.
  intros o k M draw HM H2. destruct (any_fit o k M draw [M]) as (best & E & H1 & (M' & [<-|[]] & HL) & H).
  - destruct M; [simpl in H2; lia|reflexivity].
  - discriminate.
  - intros M' [<-|[]]. auto.
  - exists best. split; [auto|]. split; [auto|]. split; [auto|]. apply H. now left.
Qed.

(** [fit] without medoids: no worse than the first [k] samples, that every start consists of. *)
Theorem c93_fit_random :
  forall o k draw, (forall i, in_range (draw i)) -> 1 <= mo_n_init o -> 2 <= k <= n ->
  exists best, medoids_fit signed_wrap top src o k [] draw = Ok best /\ (forall m, In m best -> m < n) /\ length best = k /\
    (deviations dist n best <= deviations dist n (seq 0 k))%Z.
Proof using Hsrc Hself Hpos Htop.
  intros o k draw Hd Hi (Hk2 & Hkn).
  assert (HS : exists starts, medoids_candidates src o k [] draw = Ok starts /\ length starts = mo_n_init o /\
    forall M, In M starts -> Permutation M (seq 0 k)).
  { unfold medoids_candidates.
    match goal with |- context [for_each ?l ?body []] =>
      destruct (for_each_inv (fun d s => length s = length d /\ forall M, In M s -> Permutation M (seq 0 k)) body l [] [])
        as (starts & E & HL & HA) end.
    - split; auto. intros M [].
    - intros x d t Hx (HL & HA). rewrite (proj1 Hsrc). destruct (interval_ok (draw x) k n (Hd x) Hkn) as (idx & -> & HP & _). cbn [bind].
      eexists. split; [reflexivity|]. rewrite !app_length, HL. split; auto. intros M HM. apply in_app_or in HM.
      destruct HM as [HM|[<-|[]]]; auto.
    - exists starts. rewrite app_nil_l, seq_length in HL. auto. }
  destruct HS as (starts & Es & HL & HP).
  assert (Hne : starts <> []) by (intros ->; cbn [length] in HL; lia).
  destruct (any_fit o k [] draw starts Es Hne) as (best & E & H1 & (M & HM & HLM) & H).
  { intros M HM. specialize (HP M HM). split.
    - intros m Hm. apply (Permutation_in m HP), in_seq in Hm. lia.
    - rewrite (Permutation_length HP), seq_length. auto. }
  specialize (HP M HM). specialize (H M HM). exists best. split; [auto|]. split; [auto|].
  rewrite HLM, (Permutation_length HP), seq_length. split; [auto|].
  rewrite <- (deviations_perm dist n M (seq 0 k) HP); auto. intros ->. apply Permutation_length in HP. rewrite seq_length in HP. cbn [length] in HP. lia.
Qed.
End AnyStart.

(** Sample 4 is as near to medoid 0 as to medoid 1: two medoids that are not distinguishable. Samples 0 and 5 coincide. *)
Example c93_case :
  let l := [0; 10; 3; 20; 5; 0; 18]%Z in
  (unique_check l [0; 1], unique_check l [0; 5], line_check l [0; 1; 5]) = (false, false, true) /\
  deviations (line_dist l) 7 [0; 1] = 26%Z /\ deviations (line_dist l) 7 [0; 5] = 56%Z /\
  medoids_fit signed_wrap int_max (line_source l) default_medoids_options 2 [0; 1] (fun _ _ a _ => a) = Ok [2; 3] /\
  deviations (line_dist l) 7 [2; 3] = 17%Z /\
  medoids_fit signed_wrap int_max (line_source l) default_medoids_options 2 [0; 5] (fun _ _ a _ => a) = Ok [2; 3] /\
  medoids_fit signed_wrap int_max (line_source l) default_medoids_options 2 [] (fun _ _ a _ => a) = Ok [2; 3].
Proof. vm_compute. auto 10. Qed.

(** Distinct medoids, all nearer than 120 to each sample; with ties one iteration chooses sample 18 twice. *)
Definition tied : list Z := [0; 0; 0; 0; 0; 0; 0; -6; -6; -6; -3; -3; -3; 2; 2; 1; 1; -8; 100; -8; -8; -8; -8; -8; -8]%Z.
Theorem c93_distinct_refuted :
  exists l M best, NoDup M /\ (forall m, In m M -> m < length l) /\
    medoids_fit signed_wrap int_max (line_source l) (mk_medoids_options 1 true 0 1) (length M) M (fun _ _ a _ => a) = Ok best /\ ~ NoDup best.
Proof.
  exists tied, [7; 13; 0; 18], [17; 18; 0; 18]. split; [repeat constructor; simpl; lia|].
  split; [intros m; cbn [In]; intros [<-|[<-|[<-|[<-|[]]]]]; vm_compute; lia|].
  split; [vm_compute; reflexivity|]. intros H. assert (H' := proj1 (NoDup_nth _ 0) H 1 3). cbn in H'. assert (1 = 3) by (apply H'; auto with arith). discriminate.
Qed.

(** The total deviation can grow in a step, though never above that of the start. *)
Theorem c93_step_can_worsen_refuted :
  exists l M p c q, make_pam signed_wrap int_max (line_source l) M = Ok p /\
    for_loop c 0 (try_candidate signed_wrap (line_source l)) p = Ok q /\
    exists q', try_candidate signed_wrap (line_source l) c q = Ok q' /\ c < length l /\
    (deviations (line_dist l) (length l) (p_medoids q) < deviations (line_dist l) (length l) (p_medoids q'))%Z.
Proof.
  destruct (make_pam signed_wrap int_max (line_source tied) [7; 13; 0; 18]) as [p| | |] eqn:E; [|vm_compute in E; discriminate E..].
  destruct (for_loop 18 0 (try_candidate signed_wrap (line_source tied)) p) as [q| | |] eqn:E1;
    [|vm_compute in E; injection E as <-; vm_compute in E1; discriminate E1..].
  exists tied, [7; 13; 0; 18], p, 18, q. split; [exact E|]. split; [exact E1|].
  vm_compute in E. injection E as <-. vm_compute in E1. injection E1 as <-.
  eexists. split; [vm_compute; reflexivity|]. split; [vm_compute; lia|]. vm_compute. reflexivity.
Qed.

(** Two medoids and two samples equally near to both: what the removal of the first medoid is said to cost exceeds the largest
    number of the type, however small the distances are. The theorems above are about exact arithmetic; with [int] the addition
    is undefined. *)
Theorem c93_tie_overflow :
  forall dist n src top m m' o o', provides src n dist -> (forall i j, i < n -> j < n -> (0 <= dist i j)%Z) ->
  (forall i j, i < n -> j < n -> (2 * dist i j < top)%Z) -> m < n -> m' < n -> o < o' < n ->
  dist m o = dist m' o -> dist m o' = dist m' o' ->
  exists p, make_pam signed_wrap top src [m; m'] = Ok p /\ (top < nth 0 (p_losses p) 0)%Z.
Proof.
  intros dist n src top m m' o o' Hsrc Hpos Hsmall Hm Hm' Ho E1 E2. set (M := [m; m']).
  assert (HM : forall x, In x M -> x < n) by (intros x [<-|[<-|[]]]; auto). assert (Hne : M <> []) by discriminate.
  assert (Htop : forall x y, In x M -> y < n -> (dist x y < top)%Z).
  { intros x y Hx Hy. specialize (Hsmall x y (HM x Hx) Hy). specialize (Hpos x y (HM x Hx) Hy). lia. }
  unfold make_pam, nth_indices, nth_distances, nth_nearest. cbn [length Nat.eqb Nat.ltb Nat.leb orb M].
  change [m; m'] with M.
  destruct (nearest_indices_ok dist n src Hsrc top M HM Hne Htop) as (I1 & -> & L1 & P1).
  destruct (second_indices_ok dist n src Hsrc top M HM Hne Htop) as (I2 & -> & L2 & P2).
  destruct (nearest_distances_ok dist n src Hsrc top M HM Hne Htop) as (D1 & -> & L3 & P3).
  destruct (second_distances_ok dist n src Hsrc top M HM Hne Htop) as (D2 & -> & L4 & P4). cbn [bind].
  assert (Hk : 0 < length M) by (cbn; lia).
  assert (H : forall x, x < n -> nth x I1 0 < 2 /\ (nth x D1 0 <= nth x D2 0)%Z /\
    (dist m x = dist m' x -> nth x I1 0 = 0 /\ nth x D1 0%Z = dist m x /\ nth x D2 0%Z = top)).
  { intros x Hx. destruct (P1 x Hx) as (d & F1). destruct (P3 x Hx) as (i & F3). destruct (P4 x Hx) as (db & ib & i2 & F4 & S4).
    destruct (first_unique _ _ _ _ _ _ _ Hk F1 F3) as (-> & <-). destruct (first_unique _ _ _ _ _ _ _ Hk F1 F4) as (<- & <-).
    destruct F1 as (_ & F1). destruct F1 as (A1 & A2 & A3 & A4); [lia|]. cbn beta in *. change (length M) with 2 in *. split; [auto|].
    assert (Hd : (nth x D1 0 < top)%Z) by (rewrite A2; apply Htop; [now apply nth_In|auto]).
    split; [destruct S4 as [(-> & _)|(_ & _ & ? & _)]; lia|]. intros E.
    assert (HT : forall j, j < 2 -> dist (nth j M 0) x = dist m x) by (intros [|[|j]] Hj; cbn; [auto|congruence|lia]).
    rewrite HT in A2 by auto. split.
    - destruct (nth x I1 0) as [|[|j]] eqn:EI; [auto| |lia]. specialize (A4 0 ltac:(lia)). rewrite HT in A4 by lia. lia.
    - split; [auto|]. destruct S4 as [(-> & _)|(B1 & B2 & B3 & _)]; [auto|]. rewrite HT in B2 by auto. lia. }
  destruct (compute_losses_ok n I1 D1 D2 2 L1 L3 L4) as (L & EL & HL & HP). { intros x Hx. apply (H x Hx). }
  change (length M) with 2. rewrite EL. cbn [bind]. eexists. split; [reflexivity|]. cbn [p_losses]. rewrite (HP 0) by lia.
  destruct (H o ltac:(lia)) as (_ & _ & G1). destruct (G1 E1) as (G2 & G3 & G4).
  destruct (H o' ltac:(lia)) as (_ & _ & G1'). destruct (G1' E2) as (G2' & G3' & G4').
  set (g := fun x => if 0 =? nth x I1 0 then (nth x D2 0 - nth x D1 0)%Z else 0%Z).
  assert (Hg : forall x, x < n -> (0 <= g x)%Z).
  { intros x Hx. unfold g. destruct (H x Hx) as (_ & ? & _). destruct (0 =? nth x I1 0); lia. }
  assert (Eo : (2 * g o > top)%Z).
  { unfold g. rewrite G2, G3, G4. cbn [Nat.eqb]. specialize (Hsmall m o Hm ltac:(lia)). lia. }
  assert (Eo' : (2 * g o' > top)%Z).
  { unfold g. rewrite G2', G3', G4'. cbn [Nat.eqb]. specialize (Hsmall m o' Hm ltac:(lia)). lia. }
  assert (Hs : forall t, t <= n -> (0 <= zsum t g)%Z /\ (o < t -> (g o <= zsum t g)%Z) /\ (o < t -> o' < t -> (g o + g o' <= zsum t g)%Z)).
  { induction t as [|t IH]; intros Ht; cbn [zsum]; [lia|]. destruct (IH ltac:(lia)) as (I3 & I4 & I5). specialize (Hg t ltac:(lia)).
    split; [lia|]. split.
    - intros Hl. destruct (Nat.eq_dec o t) as [->|]; [lia|]. specialize (I4 ltac:(lia)). lia.
    - intros Hl Hl'. destruct (Nat.eq_dec o' t) as [->|]; [specialize (I4 ltac:(lia)); lia|]. specialize (I5 ltac:(lia) ltac:(lia)). lia. }
  destruct (Hs n ltac:(lia)) as (_ & _ & Hs'). specialize (Hs' ltac:(lia) ltac:(lia)). fold g. lia.
Qed.

Example c93_tie_overflow_case :
  option_map p_losses (match make_pam signed_wrap int_max (line_source [1; 5; 3; 3]%Z) [0; 1] with Ok p => Some p | _ => None end) =
  Some [2 * int_max; 4]%Z.
Proof. vm_compute. reflexivity. Qed.

Print Assumptions c93_steps.
Print Assumptions c93_settles.
Print Assumptions c93_fit_given.
Print Assumptions c93_fit_random.
Print Assumptions c93_distinct_refuted.
Print Assumptions c93_step_can_worsen_refuted.
Print Assumptions c93_tie_overflow.
