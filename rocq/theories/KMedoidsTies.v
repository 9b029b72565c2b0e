(** Lemmas on FasterPAM from any start: samples may be equally near to several medoids, and medoids may be repeated. *)
From Coq Require Import List Arith ZArith Bool Lia Permutation.
From Verif Require Import Base BufferModel BufferSpec MatrixModel MatrixProofs StatsModel KMeansModel KMeansSpec KMeansProofs RandomModel RandomSpec
  RandomProofs KMedoidsModel KMedoidsSpec KMedoidsProofs.
Import ListNotations.
Local Open Scope nat_scope.

Section Ties.
Context (dist : nat -> nat -> Z) (n : nat) (src : source Z) (Hsrc : provides src n dist).
Context (Hself : forall o, o < n -> dist o o = 0%Z) (Hpos : forall i j, i < n -> j < n -> (0 <= dist i j)%Z).
Context (top : Z) (Htop : forall i j, i < n -> j < n -> (dist i j < top)%Z).

(** What the buffers say of one sample is never too small. *)
Definition over (T : nat -> Z) (k i1 i2 : nat) (d1 d2 : Z) : Prop :=
  i1 < k /\ (T i1 <= d1)%Z /\ ((i2 < k /\ i2 <> i1 /\ (T i2 <= d2)%Z) \/ (top <= d2)%Z).

Definition overs (M I1 I2 : list nat) (D1 D2 : list Z) (o : nat) : Prop :=
  over (fun j => dist (nth j M 0%nat) o) (length M) (nth o I1 0) (nth o I2 0) (nth o D1 0%Z) (nth o D2 0%Z).

Definition removal (I1 : list nat) (D1 D2 : list Z) (i o : nat) : Z :=
  if i =? nth o I1 0 then (nth o D2 0 - nth o D1 0)%Z else 0%Z.

Record sound (p : pam) : Prop := {
  s_medoids : forall m, In m (p_medoids p) -> m < n;
  s_two : 2 <= length (p_medoids p);
  s_lengths : length (p_nearest p) = n /\ length (p_second p) = n /\ length (p_distances p) = n /\
    length (p_second_distances p) = n /\ length (p_losses p) = length (p_medoids p);
  s_over : forall o, o < n -> overs (p_medoids p) (p_nearest p) (p_second p) (p_distances p) (p_second_distances p) o;
  s_losses : forall i, i < length (p_medoids p) ->
    nth i (p_losses p) 0%Z = zsum n (removal (p_nearest p) (p_distances p) (p_second_distances p) i);
  s_loss : p_loss p = zsum n (fun o => nth o (p_distances p) 0%Z) }.

(** The distance to the nearest medoid after an exchange, as it follows from the buffers. *)
Definition after (c b o i1 : nat) (d1 d2 : Z) : Z :=
  if o =? c then 0%Z else if i1 =? b then Z.min (dist c o) d2 else Z.min (dist c o) d1.

Lemma swap_sample_over M c b o i1 i2 d1 d2 : (forall m, In m M -> m < n) -> c < n -> o < n -> b < length M ->
  over (fun j => dist (nth j M 0%nat) o) (length M) i1 i2 d1 d2 ->
  exists i1' i2' d1' d2', swap_sample src (exchange M b c) c b o i1 i2 d1 d2 = Ok (i1', i2', d1', d2') /\
    over (fun j => dist (nth j (exchange M b c) 0%nat) o) (length M) i1' i2' d1' d2' /\ d1' = after c b o i1 d1 d2.
Proof using Hsrc Hself Hpos Htop.
  intros HM Hc Ho Hb (A1 & A2 & A3). set (M' := exchange M b c).
  assert (HL : length M' = length M) by (now apply exchange_length).
  assert (HN : forall j, nth j M' 0 = if j =? b then c else nth j M 0) by (intros; now apply nth_exchange).
  assert (Hb' : dist (nth b M' 0%nat) o = dist c o) by (now rewrite HN, Nat.eqb_refl).
  assert (Hj' : forall j, j <> b -> dist (nth j M' 0%nat) o = dist (nth j M 0%nat) o).
  { intros j Hj. rewrite HN. destruct (Nat.eqb_spec j b); congruence. }
  assert (HM' : forall m, In m M' -> m < n).
  { intros m Hm. apply in_exchange in Hm; auto. destruct Hm as [->|(j & Hj & _ & <-)]; auto. apply HM, nth_In; auto. }
  cbn beta in *. unfold swap_sample, after, over. destruct (Nat.eqb_spec o c) as [Hoc|Hoc].
  - subst c. pose proof (Hself o Ho) as Hz. destruct (Nat.eqb_spec i1 b) as [E|E]; cbn [negb].
    + exists b, i2, 0%Z, d2. split; auto. subst i1. split; [|auto]. split; [auto|]. split; [lia|].
      destruct A3 as [(B1 & B2 & B3)|B]; auto. left. rewrite Hj' by auto. auto.
    + exists b, i1, 0%Z, d1. split; auto. split; [|auto]. split; [auto|]. split; [lia|]. left. rewrite Hj' by auto. auto.
  - destruct Hsrc as (_ & Hd). rewrite Hd by auto. cbn [bind]. pose proof (Htop c o Hc Ho) as Hlt.
    destruct (Nat.eqb_spec i1 b) as [E|E].
    + subst i1. destruct (Z.ltb_spec (dist c o) d2) as [H1|H1].
      * exists b, i2, (dist c o), d2. split; auto. split; [|lia]. split; [auto|]. split; [lia|].
        destruct A3 as [(B1 & B2 & B3)|B]; auto. left. rewrite Hj' by auto. auto.
      * destruct A3 as [(B1 & B2 & B3)|B]; [|lia].
        rewrite <- Hb'. destruct (update_second_ok dist n src Hsrc M' b o i2) as (i' & d' & -> & C1 & C2 & C3 & C4); auto; try lia.
        cbn [bind]. exists i2, i', d2, d'. split; auto. split; [|lia]. split; [auto|]. split; [rewrite Hj'; auto|]. left. split; [lia|]. split; [auto|lia].
    + destruct (Z.ltb_spec (dist c o) d1) as [H1|H1]; [|destruct (Z.ltb_spec (dist c o) d2) as [H2|H2]].
      * exists b, i1, (dist c o), d1. split; auto. split; [|lia]. split; [auto|]. split; [lia|]. left. rewrite Hj' by auto. auto.
      * exists i1, b, d1, (dist c o). split; auto. split; [|lia]. split; [auto|]. rewrite Hj' by auto. split; [auto|]. left. split; [auto|]. split; [auto|lia].
      * destruct (Nat.eqb_spec i2 b) as [E2|E2].
        -- rewrite <- Hb'. destruct (update_second_ok dist n src Hsrc M' b o i1) as (i' & d' & -> & C1 & C2 & C3 & C4); auto; try lia.
           cbn [bind]. exists i1, i', d1, d'. split; auto. split; [|lia]. split; [auto|]. split; [rewrite Hj'; auto|]. left. split; [lia|]. split; [auto|lia].
        -- exists i1, i2, d1, d2. split; auto. split; [|lia]. split; [auto|]. rewrite !Hj' by auto. split; auto.
Qed.

Lemma swap_buffers_over p c b : sound p -> c < n -> b < length (p_medoids p) ->
  exists I1 I2 D1 D2 loss, swap_buffers signed_wrap src (exchange (p_medoids p) b c) p c b = Ok (I1, I2, D1, D2, loss) /\
    length I1 = n /\ length I2 = n /\ length D1 = n /\ length D2 = n /\ loss = zsum n (fun o => nth o D1 0%Z) /\
    (forall o, o < n -> nth o D1 0%Z = after c b o (nth o (p_nearest p) 0) (nth o (p_distances p) 0%Z) (nth o (p_second_distances p) 0%Z)) /\
    forall o, o < n -> overs (exchange (p_medoids p) b c) I1 I2 D1 D2 o.
Proof using Hsrc Hself Hpos Htop.
  intros Hp Hc Hb. destruct (s_lengths _ Hp) as (L1 & L2 & L3 & L4 & _). set (M := p_medoids p) in *.
  set (M' := exchange M b c). assert (HL : length M' = length M) by (now apply exchange_length).
  set (a := fun o => after c b o (nth o (p_nearest p) 0) (nth o (p_distances p) 0%Z) (nth o (p_second_distances p) 0%Z)).
  assert (Ha : forall o, after c b o (nth o (p_nearest p) 0) (nth o (p_distances p) 0%Z) (nth o (p_second_distances p) 0%Z) = a o) by reflexivity.
  unfold swap_buffers. destruct Hsrc as (Hr & Hd). rewrite Hr.
  match goal with |- context [for_loop n 0 ?body ?s0] =>
    destruct (for_loop_inv (fun t '(I1, I2, D1, D2, loss) => (length I1 = n /\ length I2 = n /\ length D1 = n /\ length D2 = n) /\
      (loss = zsum t a /\ (forall o, o < t -> nth o D1 0%Z = a o) /\ (forall o, o < t -> overs M' I1 I2 D1 D2 o) /\
       (forall o, t <= o < n -> nth o I1 0 = nth o (p_nearest p) 0 /\ nth o I2 0 = nth o (p_second p) 0 /\
          nth o D1 0%Z = nth o (p_distances p) 0%Z /\ nth o D2 0%Z = nth o (p_second_distances p) 0%Z))) body n 0 s0)
      as ((((( I1 & I2) & D1) & D2) & loss) & E & H)
  end.
  - split; [auto|]. split; [auto|]. split; [lia|]. split; [lia|]. auto.
  - intros o ((((I1 & I2) & D1) & D2) & loss) Ho ((K1 & K2 & K3 & K4) & K5 & K6 & K7 & K8).
    rewrite (rd_nth I1 o 0), (rd_nth I2 o 0), (rd_nth D1 o 0%Z), (rd_nth D2 o 0%Z) by lia. cbn [bind].
    destruct (K8 o ltac:(lia)) as (-> & -> & -> & ->).
    destruct (swap_sample_over M c b o _ _ _ _ (s_medoids _ Hp) Hc ltac:(lia) Hb (s_over _ Hp o ltac:(lia)))
      as (i1 & i2 & d1 & d2 & E & Hone & Hd1).
    fold M' in E, Hone. rewrite Ha in Hd1. rewrite E. cbn [bind]. rewrite !wr_lt by lia. cbn [bind].
    eexists. split; [reflexivity|cbv beta iota]. rewrite !upd_length. split; [auto|]. split; [|split; [|split]].
    + cbn [zsum]. rewrite <- K5, <- Hd1. destruct (Nat.eqb_spec o c) as [->|]; [|reflexivity].
      unfold a, after in Hd1. rewrite Nat.eqb_refl in Hd1. lia.
    + intros o' Ho'. rewrite nth_upd by lia. destruct (Nat.eqb_spec o' o) as [->|Hne]; [auto|]. apply K6. lia.
    + intros o' Ho'. unfold overs. rewrite !nth_upd by lia. destruct (Nat.eqb_spec o' o) as [->|Hne].
      * rewrite HL. auto.
      * apply K7. lia.
    + intros o' Ho'. rewrite !nth_upd by lia. destruct (Nat.eqb_spec o' o) as [->|Hne]; [lia|]. apply K8. lia.
  - rewrite E. destruct H as ((K1 & K2 & K3 & K4) & K5 & K6 & K7 & _). exists I1, I2, D1, D2, loss.
    split; [auto|]. split; [auto|]. split; [auto|]. split; [auto|]. split; [auto|]. split; [|split; auto].
    rewrite K5. apply zsum_ext. intros o Ho. symmetry. apply K6. lia.
Qed.

Lemma make_sound M I1 I2 D1 D2 loss : (forall m, In m M -> m < n) -> 2 <= length M ->
  length I1 = n -> length I2 = n -> length D1 = n -> length D2 = n -> (forall o, o < n -> overs M I1 I2 D1 D2 o) ->
  loss = zsum n (fun o => nth o D1 0%Z) ->
  exists L, compute_losses signed_wrap I1 D1 D2 (length M) = Ok L /\ sound (mk_pam M I1 I2 D1 D2 L loss).
Proof using Type.
  intros HM H2 L1 L2 L3 L4 H E.
  destruct (compute_losses_ok n I1 D1 D2 (length M) L1 L3 L4) as (L & EL & HL & HP).
  { intros o Ho. apply (H o Ho). }
  exists L. split; auto. constructor; cbn [p_medoids p_nearest p_second p_distances p_second_distances p_losses p_loss]; auto.
Qed.

(** The exchange that is made lowers the reported loss. *)
Lemma try_candidate_sound p c : sound p -> c < n ->
  exists p', try_candidate signed_wrap src c p = Ok p' /\ sound p' /\ length (p_medoids p') = length (p_medoids p) /\
    (p' = p \/ (p_loss p' < p_loss p)%Z).
Proof using Hsrc Hself Hpos Htop.
  intros Hp Hc. unfold try_candidate. destruct (s_lengths _ Hp) as (L1 & L2 & L3 & L4 & L5).
  rewrite (rd_nth _ c 0) by lia. cbn [bind]. destruct (Nat.eqb_spec c (nth c (p_nearest p) 0)) as [E|E]; cbn [negb].
  { exists p. auto. }
  pose proof (s_two _ Hp) as H2.
  destruct (find_best_swap_ok dist n src Hsrc p (length (p_medoids p)) c) as (delta & b & -> & Hb & H1 & _); auto; try lia.
  { intros o Ho. apply (s_over _ Hp o Ho). }
  cbn [bind]. cbn zeta in H1. destruct (Z.ltb_spec delta 0) as [Hd|Hd]; [|exists p; auto].
  rewrite wr_lt by auto. cbn [bind]. rewrite upd_exchange by auto.
  destruct (swap_buffers_over p c b Hp Hc Hb) as (I1 & I2 & D1 & D2 & loss & -> & K1 & K2 & K3 & K4 & K5 & K6 & K7). cbn [bind].
  destruct (make_sound (exchange (p_medoids p) b c) I1 I2 D1 D2 loss) as (L & -> & HS); auto.
  { intros m Hm. apply in_exchange in Hm; auto. destruct Hm as [->|(j & Hj & _ & <-)]; auto. apply (s_medoids _ Hp), nth_In; auto. }
  { now rewrite exchange_length. }
  cbn [bind]. eexists. split; [reflexivity|]. split; [auto|]. cbn [p_medoids p_loss]. split; [now apply exchange_length|]. right.
  rewrite K5, (s_loss _ Hp). enough (zsum n (fun o => nth o D1 0%Z) <= zsum n (fun o => nth o (p_distances p) 0%Z) + delta)%Z by lia.
  rewrite H1, (s_losses _ Hp b Hb), <- !zsum_add. apply zsum_le. intros o Ho. rewrite (K6 o Ho).
  destruct (s_over _ Hp o Ho) as (A1 & A2 & A3). cbn beta in *.
  assert (P1 : (0 <= nth o (p_distances p) 0)%Z).
  { specialize (Hpos (nth (nth o (p_nearest p) 0) (p_medoids p) 0) o (s_medoids _ Hp _ (nth_In _ _ A1)) Ho). lia. }
  assert (P2 : (0 <= nth o (p_second_distances p) 0)%Z).
  { destruct A3 as [(B1 & _ & B3)|B].
    - specialize (Hpos (nth (nth o (p_second p) 0) (p_medoids p) 0) o (s_medoids _ Hp _ (nth_In _ _ B1)) Ho). lia.
    - specialize (Htop o o Ho Ho). rewrite Hself in Htop by auto. lia. }
  unfold after, removal, mi_part, xc_part. rewrite (Nat.eqb_sym b).
  destruct (Nat.eqb_spec o c) as [->|Hoc]; [rewrite (Hself c Hc)|];
    destruct (nth _ (p_nearest p) 0 =? b); repeat match goal with |- context [(?x <? ?y)%Z] => destruct (Z.ltb_spec x y) end; lia.
Qed.

Lemma pam_step_sound p : sound p ->
  exists p', pam_step signed_wrap src p = Ok p' /\ sound p' /\ length (p_medoids p') = length (p_medoids p) /\
    (p' = p \/ (p_loss p' < p_loss p)%Z).
Proof using Hsrc Hself Hpos Htop.
  intros Hp. unfold pam_step. rewrite (proj1 Hsrc).
  destruct (for_loop_inv (fun _ p' => sound p' /\ (length (p_medoids p') = length (p_medoids p) /\ (p' = p \/ (p_loss p' < p_loss p)%Z)))
    (try_candidate signed_wrap src) n 0 p) as (p' & E & HC & HL & H).
  - auto.
  - intros c q Hc (HC & HL & H). destruct (try_candidate_sound q c HC ltac:(lia)) as (q' & -> & HC' & HL' & H').
    exists q'. split; auto. split; auto. split; [congruence|]. destruct H' as [->|H']; auto. right. destruct H as [->|H]; auto. lia.
  - exists p'. auto.
Qed.

(** The reported loss is never below the total deviation. *)
Lemma sound_loss p : sound p -> (0 <= deviations dist n (p_medoids p) <= p_loss p)%Z.
Proof using Hpos.
  intros Hp. rewrite (s_loss _ Hp), deviations_zsum.
  assert (Hne : p_medoids p <> []) by (pose proof (s_two _ Hp) as H; intros E; rewrite E in H; simpl in H; lia).
  assert (H : forall o, o < n -> (0 <= deviation dist (p_medoids p) o <= nth o (p_distances p) 0)%Z).
  { intros o Ho. destruct (deviation_min dist (p_medoids p) o Hne) as ((m & Hm & <-) & H). split; [apply Hpos; auto; apply (s_medoids _ Hp); auto|].
    destruct (s_over _ Hp o Ho) as (A1 & A2 & _). cbn beta in A2. specialize (H _ (nth_In _ 0 A1)). cbn beta in H. lia. }
  split.
  - assert (Z0 : zsum n (fun _ => 0%Z) = 0%Z) by (generalize n; intros t; induction t as [|t IH]; cbn [zsum]; [auto|rewrite IH; auto]).
    rewrite <- Z0 at 1. apply zsum_le. intros o Ho. apply (H o Ho).
  - apply zsum_le. intros o Ho. apply (H o Ho).
Qed.

(** Construction from any medoids, two or more. *)
Lemma make_pam_sound M : (forall m, In m M -> m < n) -> 2 <= length M ->
  exists p, make_pam signed_wrap top src M = Ok p /\ p_medoids p = M /\ sound p /\ p_loss p = deviations dist n M.
Proof using Hsrc Hself Hpos Htop.
  intros HM H2. assert (Hne : M <> []) by (intros ->; simpl in H2; lia).
  assert (Htop' : forall m o, In m M -> o < n -> (dist m o < top)%Z) by (intros; apply Htop; auto).
  unfold make_pam, nth_indices, nth_distances, nth_nearest.
  rewrite (proj2 (Nat.ltb_ge (length M) 1)), (proj2 (Nat.ltb_ge (length M) 2)) by lia. cbn [Nat.eqb orb].
  destruct (nearest_indices_ok dist n src Hsrc top M HM Hne Htop') as (I1 & -> & L1 & P1).
  destruct (second_indices_ok dist n src Hsrc top M HM Hne Htop') as (I2 & -> & L2 & P2).
  destruct (nearest_distances_ok dist n src Hsrc top M HM Hne Htop') as (D1 & -> & L3 & P3).
  destruct (second_distances_ok dist n src Hsrc top M HM Hne Htop') as (D2 & -> & L4 & P4). cbn [bind].
  assert (Hk : 0 < length M) by lia.
  assert (HO : forall o, o < n -> overs M I1 I2 D1 D2 o /\ nth o D1 0%Z = deviation dist M o).
  { intros o Ho. destruct (P1 o Ho) as (d & F1). destruct (P3 o Ho) as (i & F3).
    destruct (P2 o Ho) as (da & ia & d2 & F2 & S2). destruct (P4 o Ho) as (db & ib & i2 & F4 & S4).
    split; [|exact (first_deviation dist n top M HM Hne Htop' o _ _ F3)].
    destruct (first_unique _ _ _ _ _ _ _ Hk F1 F3) as (-> & <-).
    destruct (first_unique _ _ _ _ _ _ _ Hk F1 F2) as (<- & <-).
    destruct (first_unique _ _ _ _ _ _ _ Hk F1 F4) as (<- & <-).
    destruct F1 as (_ & F1). destruct F1 as (A1 & A2 & A3 & A4); [lia|]. cbn beta in *.
    split; [exact A1|]. split; [lia|].
    destruct S4 as [(C & _)|(C1 & C2 & C3 & C4)]; [right; lia|].
    destruct S2 as [(_ & S2)|(B1 & B2 & B3 & B4)]; [specialize (S2 i2 C1); cbn beta in S2; lia|].
    left. split; [exact B1|]. split; [intros E; rewrite E in B2; lia|].
    destruct (B4 i2 C1) as [?|?]; lia. }
  assert (EL : fold_right Z.add 0%Z D1 = zsum n (fun o => nth o D1 0%Z)).
  { rewrite <- L3. clear. rewrite <- (rev_involutive D1). generalize (rev D1) as r. induction r as [|x r IH]; [reflexivity|].
    cbn [rev]. rewrite app_length, Nat.add_1_r. cbn [zsum]. rewrite fold_right_app. cbn [fold_right].
    replace (fold_right Z.add (x + 0)%Z (rev r)) with (fold_right Z.add 0%Z (rev r) + x)%Z.
    2:{ clear. induction (rev r) as [|y l IH]; cbn [fold_right]; lia. }
    rewrite IH, app_nth2, Nat.sub_diag by lia. cbn [nth]. f_equal. apply zsum_ext. intros o Ho. now rewrite app_nth1. }
  destruct (make_sound M I1 I2 D1 D2 (zsum n (fun o => nth o D1 0%Z))) as (L & -> & HS); auto.
  { intros o Ho. apply (HO o Ho). }
  cbn [bind]. rewrite fold_signed, EL. eexists. split; [reflexivity|]. split; [auto|]. split; [auto|].
  cbn [p_loss]. rewrite deviations_zsum. apply zsum_ext. intros o Ho. apply (HO o Ho).
Qed.

(** The states of a run. *)
Lemma sound_states p : sound p ->
  exists st, st 0 = p /\ forall t,
    pam_step signed_wrap src (st t) = Ok (st (S t)) /\ sound (st t) /\ length (p_medoids (st t)) = length (p_medoids p) /\
    (st (S t) = st t \/ (p_loss (st (S t)) < p_loss (st t))%Z) /\ (p_loss (st t) <= p_loss p)%Z.
Proof using Hsrc Hself Hpos Htop.
  intros Hp.
  set (st := fix st t := match t with 0 => p | S t => match pam_step signed_wrap src (st t) with Ok q => q | _ => st t end end).
  assert (HS : forall t, st (S t) = match pam_step signed_wrap src (st t) with Ok q => q | _ => st t end) by reflexivity.
  assert (H : forall t, sound (st t) /\ (length (p_medoids (st t)) = length (p_medoids p) /\ (p_loss (st t) <= p_loss p)%Z)).
  { induction t as [|t (IH & IL & IB)]; [split; auto; simpl; split; auto; lia|].
    destruct (pam_step_sound (st t) IH) as (q & E & Hq & L & H1). rewrite HS, E. split; auto. split; [congruence|].
    destruct H1 as [->|H1]; lia. }
  exists st. split; auto. intros t. destruct (H t) as (Hc & Hl & Hb).
  destruct (pam_step_sound (st t) Hc) as (q & E & _ & _ & H1). rewrite HS, E. auto.
Qed.
End Ties.
