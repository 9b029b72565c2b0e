(** Lemmas on FasterMSC with distances in another unit. *)
From Coq Require Import List Arith QArith Qabs Lqa Lia Bool.
From Verif Require Import Base SortingModel BufferModel KMeansModel RandomModel KMedoidsModel KMedoidsSpec MscModel MscSpec AliasProofs MscProofs
  MscProps MedoidUnitSpec MedoidUnitProofs.
Import ListNotations.
Local Open Scope nat_scope.
Set Default Proof Using "Type".

Lemma qlt_compat x y x' y' : (x == x')%Q -> (y == y')%Q -> Qlt_bool x y = Qlt_bool x' y'.
Proof.
  intros Hx Hy. destruct (Qlt_bool x' y') eqn:E.
  - apply Qlt_bool_iff in E. apply Qlt_bool_iff. rewrite Hx, Hy. auto.
  - apply Qlt_bool_false in E. apply Qlt_bool_false. rewrite Hx, Hy. auto.
Qed.

Lemma max_from_sim : forall l l' bi b b' i, listed Qeq l l' -> (b == b')%Q ->
  fst (max_element_from Qlt_bool bi b' i l') = fst (max_element_from Qlt_bool bi b i l) /\
  (snd (max_element_from Qlt_bool bi b i l) == snd (max_element_from Qlt_bool bi b' i l'))%Q.
Proof.
  induction l as [|x l IH]; intros [|x' l'] bi b b' i (HL & H) Hb; cbn in HL; try lia; cbn [max_element_from]; auto.
  pose proof (H 0 x x' eq_refl eq_refl) as Hx. rewrite (qlt_compat b' x' b x) by now symmetry.
  assert (listed Qeq l l') by (split; [lia|intros j; apply (H (S j))]). destruct (Qlt_bool b x); apply IH; auto.
Qed.

Lemma max_sim l l' : listed Qeq l l' -> rsim (fun r r' => fst r' = fst r /\ (snd r == snd r')%Q)
  (get_max_index_value_pair Qlt_bool l) (get_max_index_value_pair Qlt_bool l').
Proof.
  intros (HL & H). destruct l as [|x l], l' as [|x' l']; cbn in HL; try lia; [exact I|]. cbn [get_max_index_value_pair rsim].
  apply max_from_sim; [split; [lia|intros j; apply (H (S j))]|]. apply (H 0); auto.
Qed.

Section Unit_.
Context (eps top c : Q) (dist : nat -> nat -> Q) (n : nat) (src src' : source Q).
Context (Hsrc : provides src n dist) (Hsrc' : provides src' n (fun i j => c * dist i j)%Q) (Hc : (0 < c)%Q) (Heps : (0 <= eps)%Q)
  (Hgood : above_tolerance eps c dist n).

(** A distance and the same one in the other unit. *)
Definition same (x y : Q) : Prop := (y == c * x)%Q /\ ((Qabs x <= eps)%Q \/ (Qabs (c * x) <= eps)%Q -> (x == 0)%Q).

Lemma lt_same x y x' y' : same x x' -> same y y' -> Qlt_bool x' y' = Qlt_bool x y.
Proof using Hc.
  intros (Hx & _) (Hy & _). rewrite (qlt_compat x' y' _ _ Hx Hy). destruct (Qlt_bool x y) eqn:E.
  - apply Qlt_bool_iff in E. apply Qlt_bool_iff. nra.
  - apply Qlt_bool_false in E. apply Qlt_bool_false. nra.
Qed.

Lemma zero_same : same 0 0.
Proof. split; [ring|]. intros _. reflexivity. Qed.

Lemma equality_zero x : equality eps x 0 = true <-> (Qabs x <= eps)%Q.
Proof.
  unfold equality. rewrite Qle_bool_iff. assert (E : (0 - x == - x)%Q) by ring. rewrite E, Qabs_opp. reflexivity.
Qed.

(** The quotient of two distances does not depend on the unit. *)
Lemma division_same x y x' y' : (x' == c * x)%Q -> same y y' -> (division eps x y == division eps x' y')%Q.
Proof using Hc Heps.
  intros Hx (Hy & Gy). unfold division. destruct (equality eps y 0) eqn:E, (equality eps y' 0) eqn:E'.
  - reflexivity.
  - apply equality_zero in E. assert (H : (y == 0)%Q) by auto. exfalso.
    assert (equality eps y' 0 = true); [|congruence]. apply equality_zero. rewrite Hy, H. setoid_replace (c * 0)%Q with 0%Q by ring. auto.
  - apply equality_zero in E'. rewrite Hy in E'. assert (H : (y == 0)%Q) by auto. exfalso.
    assert (equality eps y 0 = true); [|congruence]. apply equality_zero. rewrite H. auto.
  - rewrite Hx, Hy. assert (~ (y == 0)%Q).
    { intros H. assert (equality eps y 0 = true); [|congruence]. apply equality_zero. rewrite H. auto. }
    field. split; auto. lra.
Qed.

Lemma dist_same i j : i < n -> j < n -> rsim same (dist_at src i j) (dist_at src' i j).
Proof using Hsrc Hsrc' Hgood.
  intros Hi Hj. rewrite (proj2 Hsrc i j Hi Hj), (proj2 Hsrc' i j Hi Hj). split; [reflexivity|]. now apply Hgood.
Qed.

Lemma medoid_same medoids idx o : (forall m, In m medoids -> m < n) -> o < n ->
  rsim same (medoid_distance src medoids idx o) (medoid_distance src' medoids idx o).
Proof using Hsrc Hsrc' Hgood.
  intros HM Ho. unfold medoid_distance, rd. destruct (nth_error medoids idx) as [m|] eqn:E; [|exact I]. cbn [bind].
  apply dist_same; auto. apply HM. now apply nth_error_In in E.
Qed.

Lemma qadd_sim l l' i v v' : listed Qeq l l' -> (v == v')%Q -> rsim (listed Qeq) (qadd_at l i v) (qadd_at l' i v').
Proof.
  intros Hl Hv. unfold qadd_at. apply (rsim_bind Qeq); [now apply rd_listed|]. intros x x' Hx. apply wr_listed; auto. now rewrite Hx, Hv.
Qed.

(** What the two states have in common. *)
Record alike (p p' : msc) : Prop := {
  k_medoids : s_medoids p' = s_medoids p;
  k_range : forall m, In m (s_medoids p) -> m < n;
  k_three : 3 <= length (s_medoids p);
  k_nearest : s_nearest p' = s_nearest p;
  k_second : s_second p' = s_second p;
  k_third : s_third p' = s_third p;
  k_distances : listed same (s_distances p) (s_distances p');
  k_seconds : listed same (s_second_distances p) (s_second_distances p');
  k_thirds : listed same (s_third_distances p) (s_third_distances p');
  k_losses : listed Qeq (s_losses p) (s_losses p') }.

Lemma losses_sim nearest second d1 d1' d2 d2' d3 d3' k : listed same d1 d1' -> listed same d2 d2' -> listed same d3 d3' ->
  rsim (listed Qeq) (compute_silhouette_losses eps nearest second d1 d2 d3 k) (compute_silhouette_losses eps nearest second d1' d2' d3' k).
Proof using Hc Heps.
  intros H1 H2 H3. unfold compute_silhouette_losses. apply (rsim_loop (fun _ => listed Qeq)).
  - split; auto. intros i x x' E E'. rewrite E in E'. injection E' as ->. reflexivity.
  - intros i l l' _ Hl. destruct (rd nearest i) as [a| | |]; try exact I. cbn [bind]. destruct (rd second i) as [b| | |]; try exact I. cbn [bind].
    apply (rsim_bind same); [now apply rd_listed|]. intros x x' Hx. apply (rsim_bind same); [now apply rd_listed|]. intros y y' Hy.
    apply (rsim_bind same); [now apply rd_listed|]. intros z z' Hz.
    pose proof (division_same x y x' y' (proj1 Hx) Hy) as E1. pose proof (division_same y z y' z' (proj1 Hy) Hz) as E2.
    pose proof (division_same x z x' z' (proj1 Hx) Hz) as E3.
    apply (rsim_bind (listed Qeq)); [apply qadd_sim; auto; now rewrite E1, E2|]. intros m m' Hm. apply qadd_sim; auto. now rewrite E1, E3.
Qed.

Lemma best_sim p p' o : alike p p' -> o < n ->
  rsim (fun r r' => (fst r == fst r')%Q /\ snd r' = snd r) (msc_best_swap eps src p o) (msc_best_swap eps src' p' o).
Proof using Hsrc Hsrc' Hgood Hc Heps.
  intros K Ho. unfold msc_best_swap. rewrite (proj1 Hsrc), (proj1 Hsrc').
  set (P := fun (s s' : Q * list Q) => (fst s == fst s')%Q /\ listed Qeq (snd s) (snd s')).
  apply (rsim_bind P).
  - apply (rsim_loop (fun _ => P)); [split; [reflexivity|apply K]|].
    intros i (d & l) (d' & l') Hi (Hd & Hl). cbn [fst snd] in Hd, Hl. apply (rsim_bind same); [apply dist_same; lia|]. intros w w' Hw.
    rewrite (k_nearest _ _ K), (k_second _ _ K).
    destruct (rd (s_nearest p) i) as [a| | |]; try exact I. cbn [bind]. destruct (rd (s_second p) i) as [b| | |]; try exact I. cbn [bind].
    apply (rsim_bind same); [apply rd_listed, K|]. intros x x' Hx. apply (rsim_bind same); [apply rd_listed, K|]. intros y y' Hy.
    apply (rsim_bind same); [apply rd_listed, K|]. intros z z' Hz.
    rewrite (lt_same w x w' x' Hw Hx), (lt_same w y w' y' Hw Hy), (lt_same w z w' z' Hw Hz).
    assert (Es : (x' + w' == c * (x + w))%Q) by (rewrite (proj1 Hx), (proj1 Hw); ring).
    pose proof (fun u u' v v' Hu Hv => division_same u v u' v' Hu Hv) as D.
    destruct (Qlt_bool w x); [|destruct (Qlt_bool w y); [|destruct (Qlt_bool w z)]]; cbn zeta.
    + apply (rsim_bind (listed Qeq)).
      { apply qadd_sim; auto. rewrite (D w w' x x' (proj1 Hw) Hx), (D y y' z z' (proj1 Hy) Hz), (D _ _ y y' Es Hy). reflexivity. }
      intros m m' Hm. apply (rsim_bind (listed Qeq)).
      { apply qadd_sim; auto. rewrite (D x x' z z' (proj1 Hx) Hz), (D x x' y y' (proj1 Hx) Hy). reflexivity. }
      intros q q' Hq. split; cbn [fst snd]; auto. rewrite Hd, (D x x' y y' (proj1 Hx) Hy), (D w w' x x' (proj1 Hw) Hx). reflexivity.
    + apply (rsim_bind (listed Qeq)).
      { apply qadd_sim; auto. rewrite (D x x' w w' (proj1 Hx) Hw), (D y y' z z' (proj1 Hy) Hz), (D _ _ y y' Es Hy). reflexivity. }
      intros m m' Hm. apply (rsim_bind (listed Qeq)).
      { apply qadd_sim; auto. rewrite (D x x' z z' (proj1 Hx) Hz), (D x x' y y' (proj1 Hx) Hy). reflexivity. }
      intros q q' Hq. split; cbn [fst snd]; auto. rewrite Hd, (D x x' y y' (proj1 Hx) Hy), (D x x' w w' (proj1 Hx) Hw). reflexivity.
    + apply (rsim_bind (listed Qeq)).
      { apply qadd_sim; auto. rewrite (D y y' z z' (proj1 Hy) Hz), (D y y' w w' (proj1 Hy) Hw). reflexivity. }
      intros m m' Hm. apply (rsim_bind (listed Qeq)).
      { apply qadd_sim; auto. rewrite (D x x' z z' (proj1 Hx) Hz), (D x x' w w' (proj1 Hx) Hw). reflexivity. }
      intros q q' Hq. now split.
    + now split.
  - intros (d & l) (d' & l') (Hd & Hl). cbn [fst snd] in Hd, Hl. apply (rsim_bind _ _ _ _ _ _ (max_sim l l' Hl)).
    intros (a & b) (a' & b') (Ea & Eb). cbn [fst snd] in Ea, Eb. cbn. split; auto. now rewrite Hd, Eb.
Qed.

Lemma third_sim medoids b o x x' i1 i2 : (forall m, In m medoids -> m < n) -> o < n -> same x x' ->
  rsim (fun r r' => fst r' = fst r /\ same (snd r) (snd r'))
    (update_third_nearest src medoids b o x i1 i2) (update_third_nearest src' medoids b o x' i1 i2).
Proof using Hsrc Hsrc' Hgood Hc.
  intros HM Ho Hx. unfold update_third_nearest. apply (rsim_loop (fun _ (r r' : nat * Q) => fst r' = fst r /\ same (snd r) (snd r'))); [now split|].
  intros i (j & y) (j' & y') _ (Ej & Hy). cbn [fst snd] in Ej, Hy. subst j'.
  destruct (negb (i =? i1) && negb (i =? b) && negb (i =? i2)); [|now split].
  apply (rsim_bind same); [now apply medoid_same|]. intros z z' Hz. rewrite (lt_same z y z' y' Hz Hy). destruct (Qlt_bool z y); now split.
Qed.

Definition same_three (s s' : nearest_three) : Prop := t_1 s' = t_1 s /\ t_2 s' = t_2 s /\ t_3 s' = t_3 s /\
  same (e_1 s) (e_1 s') /\ same (e_2 s) (e_2 s') /\ same (e_3 s) (e_3 s').

Lemma sample_sim medoids m b o s s' : (forall m, In m medoids -> m < n) -> m < n -> o < n -> same_three s s' ->
  rsim same_three (msc_swap_sample src medoids m b o s) (msc_swap_sample src' medoids m b o s').
Proof using Hsrc Hsrc' Hgood Hc.
  intros HM Hm Ho. destruct s as [i1 i2 i3 x1 x2 x3], s' as [j1 j2 j3 y1 y2 y3]. intros (E1 & E2 & E3 & H1 & H2 & H3).
  cbn [t_1 t_2 t_3 e_1 e_2 e_3] in *. subst j1 j2 j3. unfold msc_swap_sample. cbn [t_1 t_2 t_3 e_1 e_2 e_3]. pose proof zero_same as H0.
  assert (G : forall i1 i2 i3 x1 x2 x3 y1 y2 y3, same x1 y1 -> same x2 y2 -> same x3 y3 ->
    rsim same_three (Ok (mk_three i1 i2 i3 x1 x2 x3)) (Ok (mk_three i1 i2 i3 y1 y2 y3))).
  { intros. cbn. unfold same_three. cbn [t_1 t_2 t_3 e_1 e_2 e_3]. auto 10. }
  destruct (o =? m).
  { destruct (negb (i1 =? b)); [destruct (negb (i2 =? b))|]; now apply G. }
  apply (rsim_bind same); [now apply dist_same|]. intros z z' Hz.
  rewrite (lt_same z x1 z' y1 Hz H1), (lt_same z x2 z' y2 Hz H2), (lt_same z x3 z' y3 Hz H3).
  destruct (i1 =? b); [|destruct (i2 =? b)].
  - destruct (Qlt_bool z x2); [now apply G|]. destruct (Qlt_bool z x3 || (i3 =? 0)); [now apply G|].
    apply (rsim_bind _ _ _ _ _ _ (third_sim medoids b o z z' i2 i3 HM Ho Hz)). intros (j & w) (j' & w') (Ej & Hw). cbn [fst snd] in Ej, Hw.
    subst j'. now apply G.
  - destruct (Qlt_bool z x1); [now apply G|]. destruct (Qlt_bool z x3 || (i3 =? 0)); [now apply G|].
    apply (rsim_bind _ _ _ _ _ _ (third_sim medoids b o z z' i1 i3 HM Ho Hz)). intros (j & w) (j' & w') (Ej & Hw). cbn [fst snd] in Ej, Hw.
    subst j'. now apply G.
  - destruct (Qlt_bool z x1); [now apply G|]. destruct (Qlt_bool z x2); [now apply G|]. destruct (Qlt_bool z x3 || (i3 =? 0)); [now apply G|].
    destruct (i3 =? b); [|now apply G].
    apply (rsim_bind _ _ _ _ _ _ (third_sim medoids b o z z' i1 i2 HM Ho Hz)). intros (j & w) (j' & w') (Ej & Hw). cbn [fst snd] in Ej, Hw.
    subst j'. now apply G.
Qed.

Lemma swap_sim medoids p p' m b : (forall m, In m medoids -> m < n) -> 3 <= length medoids -> m < n -> alike p p' ->
  rsim (fun q q' => alike q q' /\ (s_loss q == s_loss q')%Q /\ s_medoids q = medoids)
    (msc_swap_buffers eps src medoids p m b) (msc_swap_buffers eps src' medoids p' m b).
Proof using Hsrc Hsrc' Hgood Hc Heps.
  intros HM H3 Hm K. unfold msc_swap_buffers. rewrite (proj1 Hsrc), (proj1 Hsrc').
  apply (rsim_loop (fun _ q q' => alike q q' /\ (s_loss q == s_loss q')%Q /\ s_medoids q = medoids)).
  - split; [|split; [reflexivity|reflexivity]]. destruct K. split; cbn; auto.
  - intros o q q' Hi (Kq & Hl & Em). rewrite (k_nearest _ _ Kq), (k_second _ _ Kq), (k_third _ _ Kq).
    destruct (rd (s_nearest q) o) as [i1| | |]; try exact I. cbn [bind]. destruct (rd (s_second q) o) as [i2| | |]; try exact I. cbn [bind].
    destruct (rd (s_third q) o) as [i3| | |]; try exact I. cbn [bind].
    apply (rsim_bind same); [apply rd_listed, Kq|]. intros x x' Hx. apply (rsim_bind same); [apply rd_listed, Kq|]. intros y y' Hy.
    apply (rsim_bind same); [apply rd_listed, Kq|]. intros z z' Hz.
    assert (Hs : same_three (mk_three i1 i2 i3 x y z) (mk_three i1 i2 i3 x' y' z')) by (unfold same_three; cbn; auto 10).
    apply (rsim_bind _ _ _ _ _ _ (sample_sim medoids m b o _ _ HM Hm ltac:(lia) Hs)). intros s s' (E1 & E2 & E3 & F1 & F2 & F3).
    rewrite E1, E2, E3.
    destruct (wr (s_nearest q) o (t_1 s)) as [n1| | |]; try exact I. cbn [bind].
    destruct (wr (s_second q) o (t_2 s)) as [n2| | |]; try exact I. cbn [bind].
    destruct (wr (s_third q) o (t_3 s)) as [n3| | |]; try exact I. cbn [bind].
    apply (rsim_bind (listed same)); [apply wr_listed; auto; apply Kq|]. intros v1 v1' V1.
    apply (rsim_bind (listed same)); [apply wr_listed; auto; apply Kq|]. intros v2 v2' V2.
    apply (rsim_bind (listed same)); [apply wr_listed; auto; apply Kq|]. intros v3 v3' V3.
    cbn [rsim]. split; [|split; [|reflexivity]].
    + split; cbn; auto. apply Kq.
    + cbn. destruct (o =? m); auto. now rewrite Hl, (division_same _ _ _ _ (proj1 F1) F2).
Qed.

(** One candidate: nothing happens in both runs, or both report the same loss afterwards. *)
Lemma try_sim o p p' : o < n -> alike p p' ->
  rsim (fun q q' => alike q q' /\ ((q = p /\ q' = p') \/ (s_loss q == s_loss q')%Q)) (msc_try eps src o p) (msc_try eps src' o p').
Proof using Hsrc Hsrc' Hgood Hc Heps.
  intros Ho K. unfold msc_try. rewrite (k_nearest _ _ K), (k_medoids _ _ K).
  destruct (rd (s_nearest p) o) as [a| | |]; try exact I. cbn [bind].
  destruct (negb (o =? a)); [|now split; auto]. pose proof (k_three _ _ K) as H3.
  rewrite (proj2 (Nat.eqb_neq (length (s_medoids p)) 2)) by lia.
  apply (rsim_bind _ _ _ _ _ _ (best_sim p p' o K Ho)). intros (x & b) (x' & b') (Ex & Eb). cbn [fst snd] in Ex, Eb. subst b'.
  rewrite (qlt_compat 0 x' 0 x) by (reflexivity || now symmetry). destruct (Qlt_bool 0 x); [|now split; auto].
  destruct (wr (s_medoids p) b o) as [medoids| | |] eqn:Ew; try exact I. cbn [bind].
  assert (HM : (forall m, In m medoids -> m < n) /\ 3 <= length medoids).
  { unfold wr in Ew. destruct (b <? length (s_medoids p)); [|discriminate]. injection Ew as <-. rewrite upd_length. split; auto.
    intros m Hin. apply In_nth_error in Hin. destruct Hin as (i & Hi). rewrite upd_at in Hi.
    destruct ((i =? b) && (b <? length (s_medoids p))); [congruence|]. apply (k_range _ _ K). now apply nth_error_In in Hi. }
  apply (rsim_bind _ _ _ _ _ _ (swap_sim medoids p p' o b (proj1 HM) (proj2 HM) Ho K)). intros q q' (Kq & Hl & Em).
  rewrite (k_nearest _ _ Kq), (k_second _ _ Kq).
  apply (rsim_bind _ _ _ _ _ _ (losses_sim (s_nearest q) (s_second q) _ _ _ _ _ _ (length medoids) (k_distances _ _ Kq) (k_seconds _ _ Kq)
    (k_thirds _ _ Kq))).
  intros l l' Hls. cbn [rsim]. split; [|now right]. destruct Kq. split; cbn; auto.
Qed.

Definition outcome (p p' q q' : msc) : Prop := alike q q' /\ ((q = p /\ q' = p') \/ (s_loss q == s_loss q')%Q).

Lemma step_sim p p' : alike p p' -> rsim (outcome p p') (msc_step eps src p) (msc_step eps src' p').
Proof using Hsrc Hsrc' Hgood Hc Heps.
  intros K. unfold msc_step. rewrite (proj1 Hsrc), (proj1 Hsrc'). apply (rsim_loop (fun _ => outcome p p')); [split; auto|].
  intros o q q' Hi (Kq & Hq). apply (rsim_mono _ _ _ _ (try_sim o q q' ltac:(lia) Kq)). intros r r' (Kr & Hr). split; auto.
  destruct Hr as [(-> & ->)|Hr]; auto.
Qed.

Lemma steps_sim p p' : alike p p' -> forall t, rsim (outcome p p') (steps t (msc_step eps src) p) (steps t (msc_step eps src') p').
Proof using Hsrc Hsrc' Hgood Hc Heps.
  intros K. assert (G : forall t q q', outcome p p' q q' -> rsim (outcome p p') (steps t (msc_step eps src) q) (steps t (msc_step eps src') q')).
  { induction t as [|t IH]; intros q q' Hq; cbn [steps]; auto. apply (rsim_bind (outcome p p')); [|auto].
    apply (rsim_mono _ _ _ _ (step_sim q q' (proj1 Hq))). intros r r' (Kr & Hr). split; auto.
    destruct Hr as [(-> & ->)|Hr]; auto. apply Hq. }
  intros t. apply G. split; auto.
Qed.

(** ** The construction *)
Lemma make_losses s M p : make_msc eps top s M = Ok p -> 3 <= length M ->
  compute_silhouette_losses eps (s_nearest p) (s_second p) (s_distances p) (s_second_distances p) (s_third_distances p) (length M) = Ok (s_losses p) /\
  s_loss p = fold_left Qplus (s_distances p) 0%Q.
Proof.
  intros E H3. unfold make_msc, if_more_than_two in E. rewrite (proj2 (Nat.ltb_lt 2 (length M))) in E by lia.
  repeat (apply bind_ok in E; let x := fresh "x" in let Hx := fresh "Hx" in destruct E as (x & Hx & E)). injection E as <-. cbn. auto.
Qed.

Lemma same_position T k i i' : (forall a b, a < k -> b < k -> a <> b -> (eps < Qabs (T a - T b))%Q) -> i < k -> i' < k ->
  (T i <= T i')%Q -> (c * T i' <= c * T i)%Q -> i' = i.
Proof using Hc Heps.
  intros Hs Hi Hi' H1 H2. destruct (Nat.eq_dec i' i) as [|Hne]; auto. specialize (Hs i' i Hi' Hi Hne).
  assert (E : (T i' - T i == 0)%Q) by nra. rewrite E in Hs. change (Qabs 0) with 0%Q in Hs. lra.
Qed.

Lemma fold_scaled : forall l l' a a', listed same l l' -> (a' == c * a)%Q -> (fold_left Qplus l' a' == c * fold_left Qplus l a)%Q.
Proof.
  induction l as [|x l IH]; intros [|x' l'] a a' (HL & H) Ha; cbn in HL; try lia; auto. cbn [fold_left]. apply IH.
  - split; [lia|]. intros i. apply (H (S i)).
  - destruct (H 0 x x' eq_refl eq_refl) as (-> & _). rewrite Ha. ring.
Qed.

Lemma make_sim M : (forall m, In m M -> m < n) -> 3 <= length M -> separated eps top dist n M ->
  separated eps top (fun i j => c * dist i j)%Q n M ->
  exists p p', make_msc eps top src M = Ok p /\ make_msc eps top src' M = Ok p' /\ s_medoids p = M /\ alike p p' /\ (s_loss p' == c * s_loss p)%Q.
Proof using Hsrc Hsrc' Hgood Hc Heps.
  intros HM H3 Hs Hs'.
  destruct (c72_construction eps top dist n src M Hsrc Heps HM H3 Hs) as (p & Ep & Em & D).
  destruct (c72_construction eps top _ n src' M Hsrc' Heps HM H3 Hs') as (p' & Ep' & Em' & D').
  exists p, p'. destruct (make_losses src M p Ep H3) as (El & Eloss). destruct (make_losses src' M p' Ep' H3) as (El' & Eloss').
  pose proof (d_lengths _ _ _ _ D) as (L1 & L2 & L3 & L4 & L5 & L6 & _).
  pose proof (d_lengths _ _ _ _ D') as (L1' & L2' & L3' & L4' & L5' & L6' & _).
  assert (G : forall o, o < n -> nth o (s_nearest p') 0 = nth o (s_nearest p) 0 /\ nth o (s_second p') 0 = nth o (s_second p) 0 /\
    nth o (s_third p') 0 = nth o (s_third p) 0 /\ same (nth o (s_distances p) 0%Q) (nth o (s_distances p') 0%Q) /\
    same (nth o (s_second_distances p) 0%Q) (nth o (s_second_distances p') 0%Q) /\
    same (nth o (s_third_distances p) 0%Q) (nth o (s_third_distances p') 0%Q)).
  { intros o Ho. pose proof (d_nearest _ _ _ _ D o Ho) as B. pose proof (d_nearest _ _ _ _ D' o Ho) as B'. cbn zeta in B, B'.
    rewrite Em in B. rewrite Em' in B'. destruct B as ((A1 & A2 & A3 & A4 & A5) & A6 & A7 & A8 & A9 & A10 & A11 & A12).
    destruct B' as ((B1 & B2 & B3 & B4 & B5) & B6 & B7 & B8 & B9 & B10 & B11 & B12).
    set (T := to_medoid dist M o) in *. assert (ET : forall i, to_medoid (fun i j => c * dist i j)%Q M o i = (c * T i)%Q) by reflexivity.
    assert (HT : forall a b, a < length M -> b < length M -> a <> b -> (eps < Qabs (T a - T b))%Q).
    { intros a b Ha Hb Hne. apply (proj2 (Hs o Ho a Ha)); auto. }
    assert (E1 : nth o (s_nearest p') 0 = nth o (s_nearest p) 0).
    { apply (same_position T (length M)); auto. apply (B4 _ A1). }
    rewrite E1 in *. assert (E2 : nth o (s_second p') 0 = nth o (s_second p) 0).
    { apply (same_position T (length M)); auto. apply (B5 _ A2); auto. }
    rewrite E2 in *. assert (E3 : nth o (s_third p') 0 = nth o (s_third p) 0).
    { apply (same_position T (length M)); auto. apply (B9 _ A6); auto. }
    rewrite E3 in *. split; [auto|]. split; [auto|]. split; [auto|].
    assert (GT : forall x y i, i < length M -> (x == T i)%Q -> (y == c * T i)%Q -> same x y).
    { intros x y i Hi Hx Hy. split; [now rewrite Hx, Hy|]. rewrite Hx. apply Hgood; auto. apply HM. now apply nth_In. }
    split; [now apply (GT _ _ _ A1)|]. split; [now apply (GT _ _ _ A2)|now apply (GT _ _ _ A6)]. }
  assert (GL : forall l l' : list Q, length l = n -> length l' = n -> (forall o, o < n -> same (nth o l 0%Q) (nth o l' 0%Q)) -> listed same l l').
  { intros l l' H1 H2 H. split; [lia|]. intros i x x' E E'. assert (Hi : i < n) by (rewrite <- H1; apply nth_error_Some; congruence).
    specialize (H i Hi). now rewrite (nth_of _ _ _ _ E), (nth_of _ _ _ _ E') in H. }
  assert (GE : forall l l' : list nat, length l = n -> length l' = n -> (forall o, o < n -> nth o l' 0 = nth o l 0) -> l' = l).
  { intros l l' H1 H2 H. apply (nth_ext _ _ 0 0); [lia|]. intros i Hi. apply H. lia. }
  assert (N1 : s_nearest p' = s_nearest p) by (apply GE; auto; intros o Ho; apply (G o Ho)).
  assert (N2 : s_second p' = s_second p) by (apply GE; auto; intros o Ho; apply (G o Ho)).
  assert (N3 : s_third p' = s_third p) by (apply GE; auto; intros o Ho; apply (G o Ho)).
  assert (S1 : listed same (s_distances p) (s_distances p')) by (apply GL; auto; intros o Ho; apply (G o Ho)).
  assert (S2 : listed same (s_second_distances p) (s_second_distances p')) by (apply GL; auto; intros o Ho; apply (G o Ho)).
  assert (S3 : listed same (s_third_distances p) (s_third_distances p')) by (apply GL; auto; intros o Ho; apply (G o Ho)).
  pose proof (losses_sim (s_nearest p) (s_second p) _ _ _ _ _ _ (length M) S1 S2 S3) as Hl. rewrite N1, N2 in El'. rewrite El, El' in Hl. cbn in Hl.
  split; [auto|]. split; [auto|]. split; [auto|]. split.
  - split; auto; rewrite Em; auto.
  - rewrite Eloss, Eloss'. apply fold_scaled; auto. ring.
Qed.
End Unit_.
