(** Each iteration of the parallel loop keeps its outcome whatever the others do. *)
From Coq Require Import List Arith ZArith Bool Lia.
From Verif Require Import Base SortingModel BufferModel SearchModel MatrixModel RandomModel KMeansModel KMedoidsModel ThreadsModel.
Import ListNotations.

Definition fails {A} (r : res A) : Prop := forall x, r <> Ok x.

Lemma bind_fails {A B} (r : res A) (f : A -> res B) : fails r -> fails (bind r f).
Proof. intros H x E. destruct r as [y| | |]; cbn [bind] in E; [exact (H y eq_refl)|discriminate E|discriminate E|discriminate E]. Qed.

Lemma collect_ok {A B} (f : A -> res B) : forall l acc r,
  for_each l (fun x acc => y <- f x ;; Ok (acc ++ [y])) acc = Ok r <-> exists ys, r = acc ++ ys /\ Forall2 (fun x y => f x = Ok y) l ys.
Proof.
  induction l as [|x l IH]; intros acc r; cbn [for_each].
  - split.
    + intros E. injection E as <-. exists []. now rewrite app_nil_r.
    + intros (ys & -> & H). inversion H. now rewrite app_nil_r.
  - destruct (f x) as [y| | |] eqn:Ef; cbn [bind].
    + rewrite IH. split.
      * intros (ys & -> & H). exists (y :: ys). split; [now rewrite <- app_assoc|]. now constructor.
      * intros (ys & -> & H). inversion H as [|? y' ? ys' E1 E2]; subst. rewrite Ef in E1. injection E1 as <-. exists ys'.
        split; [now rewrite <- app_assoc|auto].
    + split; [discriminate|]. intros (ys & _ & H). inversion H as [|? ? ? ? E1 E2]; subst. rewrite Ef in E1. discriminate.
    + split; [discriminate|]. intros (ys & _ & H). inversion H as [|? ? ? ? E1 E2]; subst. rewrite Ef in E1. discriminate.
    + split; [discriminate|]. intros (ys & _ & H). inversion H as [|? ? ? ? E1 E2]; subst. rewrite Ef in E1. discriminate.
Qed.

Section Threads.
Context {St C L : Type} (make : C -> res St) (step : St -> res St) (current : St -> C) (deviation_of : St -> L) (same : C -> C -> bool)
  (iterations_max : nat) (early : bool) (patience_max : nat).
Notation advance := (advance make step current deviation_of same iterations_max early patience_max).
Notation parallel_loop := (parallel_loop make step current deviation_of same iterations_max early patience_max).
Notation parallel_best := (parallel_best make step current deviation_of same iterations_max early patience_max).

(** One candidate on its own. *)
Fixpoint alone (iterations patience_iteration : nat) (previous candidate : C) (s : St) : res (C * St) :=
  match iterations with
  | 0 => Ok (candidate, s)
  | S iterations =>
    s <- step s ;;
    if early && same (current s) previous then
      if patience_iteration =? patience_max then Ok (current s, s)
      else alone iterations (S patience_iteration) (current s) (current s) s
    else alone iterations 0 (current s) (current s) s
  end.
Definition ended (r : res (C * St)) : res (C * L) := ' (c, s) <- r ;; Ok (c, deviation_of s).
Definition from_start (none c : C) : res (C * L) := s <- make c ;; ended (alone iterations_max 0 none c s).

(** What an iteration will leave behind: its candidate and its loss. *)
Definition outcome (p : position) (c q : C) (l : L) : res (C * L) :=
  match p with
  | Begin => from_start q c
  | Head iterations patience_iteration s => ended (alone iterations patience_iteration q c s)
  | Test iterations patience_iteration s =>
    if early && same c q then
      if patience_iteration =? patience_max then Ok (c, deviation_of s) else ended (alone iterations (S patience_iteration) c c s)
    else ended (alone iterations 0 c c s)
  | Store iterations patience_iteration s => ended (alone iterations patience_iteration c c s)
  | Finish s => Ok (c, deviation_of s)
  | Done => Ok (c, l)
  end.
Definition distance_left (p : @position St) : nat :=
  match p with
  | Begin => 3 * iterations_max + 3
  | Head iterations _ _ => 3 * iterations + 2
  | Test iterations _ _ => 3 * iterations + 4
  | Store iterations _ _ => 3 * iterations + 3
  | Finish _ => 1
  | Done => 0
  end.

Lemma advance_outcome i p m c q l : nth_error (candidates m) i = Some c -> nth_error (previous m) i = Some q -> nth_error (losses m) i = Some l ->
  match advance i p m with
  | Ok (p', m') => exists c' q' l', m' = mk_shared (upd (candidates m) i c') (upd (previous m) i q') (upd (losses m) i l') /\
      outcome p' c' q' l' = outcome p c q l /\ distance_left p' <= distance_left p - 1
  | _ => fails (outcome p c q l)
  end.
Proof.
  intros Ec Eq El.
  assert (Hc : i < length (candidates m)) by (apply nth_error_Some; congruence).
  assert (Hq : i < length (previous m)) by (apply nth_error_Some; congruence).
  assert (Hl : i < length (losses m)) by (apply nth_error_Some; congruence).
  assert (Em : m = mk_shared (upd (candidates m) i c) (upd (previous m) i q) (upd (losses m) i l)).
  { rewrite !upd_same; auto. now destruct m. }
  pose proof (proj2 (rd_ok _ _ _) Ec) as Rc. pose proof (proj2 (rd_ok _ _ _) Eq) as Rq.
  destruct p as [|[|it] pt s|it pt s|it pt s|s|]; cbn [ThreadsModel.advance outcome]; unfold from_start.
  - rewrite Rc. cbn [bind]. destruct (make c) as [s| | |]; cbn [bind]; try (intros x E; discriminate E).
    exists c, q, l. split; [exact Em|]. split; [reflexivity|]. cbn [distance_left]. lia.
  - exists c, q, l. split; [exact Em|]. split; [reflexivity|]. cbn [distance_left]. lia.
  - cbn [alone]. destruct (step s) as [s'| | |]; cbn [bind]; try (intros x E; discriminate E).
    rewrite wr_lt by auto. cbn [bind]. exists (current s'), q, l. split; [rewrite (upd_same _ _ _ Eq), (upd_same _ _ _ El); reflexivity|].
    split; [|cbn [distance_left]; lia]. cbn [outcome].
    destruct (early && same (current s') q); [|reflexivity]. destruct (pt =? patience_max); reflexivity.
  - destruct early; cbn [andb].
    + rewrite Rc. cbn [bind]. rewrite Rq. cbn [bind]. destruct (same c q).
      * destruct (pt =? patience_max); exists c, q, l; (split; [exact Em|split; [reflexivity|cbn [distance_left]; lia]]).
      * exists c, q, l. split; [exact Em|split; [reflexivity|cbn [distance_left]; lia]].
    + exists c, q, l. split; [exact Em|split; [reflexivity|cbn [distance_left]; lia]].
  - rewrite Rc. cbn [bind]. rewrite wr_lt by auto. cbn [bind]. exists c, c, l.
    split; [rewrite (upd_same _ _ _ Ec), (upd_same _ _ _ El); reflexivity|]. split; [reflexivity|cbn [distance_left]; lia].
  - rewrite wr_lt by auto. cbn [bind]. exists c, q, (deviation_of s).
    split; [rewrite (upd_same _ _ _ Ec), (upd_same _ _ _ Eq); reflexivity|]. split; [reflexivity|cbn [distance_left]; lia].
  - exists c, q, l. split; [exact Em|split; [reflexivity|cbn [distance_left]; lia]].
Qed.

(** The state after some actions: every iteration still has the outcome [outs] says. *)
Definition on_course (outs : list (res (C * L))) (ps : list (@position St)) (m : shared) : Prop :=
  length (candidates m) = length outs /\ length (previous m) = length outs /\ length (losses m) = length outs /\ length ps = length outs /\
  forall i p c q l, nth_error ps i = Some p -> nth_error (candidates m) i = Some c -> nth_error (previous m) i = Some q ->
    nth_error (losses m) i = Some l -> nth_error outs i = Some (outcome p c q l).

Lemma some_at {A} (l : list A) i : i < length l -> exists x, nth_error l i = Some x.
Proof. intros H. destruct (nth_error l i) eqn:E; eauto. apply nth_error_None in E. lia. Qed.

Lemma loop_outcome outs : forall schedule ps m, Forall (fun i => i < length outs) schedule -> on_course outs ps m ->
  (exists ps' m', parallel_loop schedule ps m = Ok (ps', m') /\ on_course outs ps' m' /\
     forall i p p', nth_error ps i = Some p -> nth_error ps' i = Some p' ->
       distance_left p' <= distance_left p - count_occ Nat.eq_dec schedule i) \/
  (fails (parallel_loop schedule ps m) /\ parallel_loop schedule ps m <> Throw /\ exists i r, nth_error outs i = Some r /\ fails r).
Proof.
  induction schedule as [|i schedule IH]; intros ps m Hs Ho.
  - left. exists ps, m. split; [reflexivity|]. split; [auto|]. intros j p p' E E'. cbn [count_occ]. replace p' with p by congruence. lia.
  - inversion Hs as [|? ? Hi Hs']; subst. pose proof Ho as (L1 & L2 & L3 & L4 & H).
    destruct (some_at ps i ltac:(lia)) as (p & Ep). destruct (some_at (candidates m) i ltac:(lia)) as (c & Ec).
    destruct (some_at (previous m) i ltac:(lia)) as (q & Eq). destruct (some_at (losses m) i ltac:(lia)) as (l & El).
    pose proof (H i p c q l Ep Ec Eq El) as Ei.
    pose proof (advance_outcome i p m c q l Ec Eq El) as Ha.
    unfold ThreadsModel.parallel_loop. cbn [for_each]. rewrite (proj2 (rd_ok _ _ _) Ep). cbn [bind].
    destruct (advance i p m) as [(p', m')| | |]; cbn [no_exceptions bind].
    2-4: right; split; [intros x E; discriminate E|]; split; [discriminate|]; exists i, (outcome p c q l); split; auto.
    destruct Ha as (c' & q' & l' & -> & Eo & Hd). rewrite wr_lt by lia. cbn [bind].
    set (m' := mk_shared (upd (candidates m) i c') (upd (previous m) i q') (upd (losses m) i l')).
    assert (Ho' : on_course outs (upd ps i p') m').
    { unfold on_course, m'. cbn [candidates previous losses]. rewrite !upd_length. split; [auto|]. split; [auto|]. split; [auto|]. split; [auto|].
      intros j p1 c1 q1 l1 E1 E2 E3 E4. destruct (Nat.eq_dec j i) as [->|Hne].
      - rewrite nth_error_upd_eq in E1 by lia. rewrite nth_error_upd_eq in E2 by lia. rewrite nth_error_upd_eq in E3 by lia.
        rewrite nth_error_upd_eq in E4 by lia. injection E1 as <-. injection E2 as <-. injection E3 as <-. injection E4 as <-.
        now rewrite Eo.
      - rewrite nth_error_upd_neq in E1 by auto. rewrite nth_error_upd_neq in E2 by auto. rewrite nth_error_upd_neq in E3 by auto.
        rewrite nth_error_upd_neq in E4 by auto. now apply H. }
    destruct (IH (upd ps i p') m' Hs' Ho') as [(ps2 & m2 & E & Ho2 & Hd2)|(Hf & Ht & He)].
    + left. exists ps2, m2. split; [exact E|]. split; [auto|]. intros j p1 p2 E1 E2. cbn [count_occ].
      destruct (Nat.eq_dec i j) as [<-|Hne].
      * replace p1 with p by congruence. specialize (Hd2 i p' p2 ltac:(rewrite nth_error_upd_eq by lia; reflexivity) E2). lia.
      * specialize (Hd2 j p1 p2 ltac:(rewrite nth_error_upd_neq by auto; exact E1) E2). exact Hd2.
    + right. split; [exact Hf|]. split; [exact Ht|]. exact He.
Qed.

(** The choice among candidates computed one after the other. *)
Definition one_by_one (lt : L -> L -> bool) (none : C) (cs : list C) : res C :=
  results <- for_each cs (fun c results => r <- from_start none c ;; Ok (results ++ [r])) [] ;;
  ' (min_loss_index, _) <- get_max_index_value_pair (fun x y => lt y x) (map snd results) ;;
  ' (best, _) <- rd results min_loss_index ;;
  Ok best.

Lemma done_outs outs ps (m : @shared C L) : on_course outs ps m -> all_done ps = true -> outs = map Ok (combine (candidates m) (losses m)).
Proof.
  intros (L1 & L2 & L3 & L4 & H) Hd. apply nth_error_ext. intros i. destruct (Nat.lt_ge_cases i (length outs)) as [Hi|Hi].
  2: { rewrite !(proj2 (nth_error_None _ _)); auto. rewrite map_length, combine_length. lia. }
  destruct (some_at ps i ltac:(lia)) as (p & Ep). destruct (some_at (candidates m) i ltac:(lia)) as (c & Ec).
  destruct (some_at (previous m) i ltac:(lia)) as (q & Eq). destruct (some_at (losses m) i ltac:(lia)) as (l & El).
  rewrite (H i p c q l Ep Ec Eq El). unfold all_done in Hd. rewrite forallb_forall in Hd. specialize (Hd p (nth_error_In _ _ Ep)).
  destruct p; try discriminate Hd. cbn [outcome]. symmetry.
  rewrite nth_error_map. assert (E : nth_error (combine (candidates m) (losses m)) i = Some (c, l)); [|now rewrite E].
  clear -Ec El. revert i Ec El. generalize (candidates m), (losses m). induction l0 as [|x l0 IH]; intros [|y l1] [|i] Ec El; cbn in *; try discriminate.
  - congruence.
  - auto.
Qed.

Lemma start_course cs none zero : on_course (map (from_start none) cs) (repeat Begin (length cs))
  (mk_shared cs (repeat none (length cs)) (repeat zero (length cs))).
Proof.
  unfold on_course. cbn [candidates previous losses]. rewrite !repeat_length, map_length. do 4 (split; [auto|]).
  intros i p c q l E1 E2 E3 E4. apply nth_error_In, repeat_spec in E1. apply nth_error_In, repeat_spec in E3. subst.
  rewrite nth_error_map, E2. reflexivity.
Qed.

Lemma one_by_one_ok none cs rs : map (from_start none) cs = map Ok rs ->
  for_each cs (fun c results => r <- from_start none c ;; Ok (results ++ [r])) [] = Ok rs.
Proof.
  intros E. apply collect_ok. exists rs. split; [reflexivity|]. revert rs E. induction cs as [|c cs IH]; intros [|r rs] E; cbn [map] in E; try discriminate.
  - constructor.
  - injection E as E1 E2. constructor; auto.
Qed.

Lemma best_same lt none zero schedule cs : Forall (fun i => i < length cs) schedule ->
  (forall c, parallel_best lt none zero schedule cs = Ok c -> one_by_one lt none cs = Ok c) /\
  ((forall i, i < length cs -> 3 * iterations_max + 3 <= count_occ Nat.eq_dec schedule i) ->
   forall c, one_by_one lt none cs = Ok c -> parallel_best lt none zero schedule cs = Ok c) /\
  parallel_best lt none zero schedule cs <> Throw.
Proof.
  intros Hs. pose proof (start_course cs none zero) as Ho.
  destruct (loop_outcome _ schedule _ _ (eq_ind_r (fun n => Forall (fun i => i < n) schedule) Hs (map_length _ _)) Ho)
    as [(ps & m & E & Ho' & Hd)|(Hf & Ht & i & r & Ei & Hr)].
  - unfold ThreadsModel.parallel_best. rewrite E. cbn [bind].
    assert (Hlen : length (candidates m) = length (losses m)) by (destruct Ho' as (? & ? & ? & _); congruence).
    assert (Hsame : all_done ps = true -> one_by_one lt none cs =
      (' (min_loss_index, _) <- get_max_index_value_pair (fun x y => lt y x) (losses m) ;; rd (candidates m) min_loss_index)).
    { intros Hdone. pose proof (done_outs _ _ _ Ho' Hdone) as Eo. unfold one_by_one. rewrite (one_by_one_ok none cs _ Eo). cbn [bind].
      assert (Es : map snd (combine (candidates m) (losses m)) = losses m).
      { clear -Hlen. revert Hlen. generalize (candidates m), (losses m). induction l as [|x l IH]; intros [|y l'] H; cbn in *; try discriminate; auto. f_equal. auto. }
      rewrite Es. destruct (get_max_index_value_pair (fun x y => lt y x) (losses m)) as [(k, v)| | |]; cbn [bind]; auto.
      unfold rd. clear -Hlen. revert k Hlen. generalize (candidates m), (losses m). induction l as [|x l IH]; intros [|y l'] [|k] H; cbn in *; try discriminate; auto. }
    destruct (all_done ps) eqn:Ed.
    + rewrite (Hsame eq_refl). split; [auto|]. split; [auto|].
      destruct (get_max_index_value_pair _ (losses m)) as [(k, v)| | |] eqn:Em; cbn [bind]; try discriminate.
      * unfold rd. destruct (nth_error (candidates m) k); discriminate.
      * exfalso. clear -Em. unfold get_max_index_value_pair in Em. destruct (losses m); discriminate Em.
    + split; [discriminate|]. split; [|discriminate]. intros Hcount c Ec. exfalso. enough (all_done ps = true) by congruence.
      apply forallb_forall. intros p Hp. apply In_nth_error in Hp. destruct Hp as (i & Hp).
      assert (Hi : i < length cs). { destruct Ho' as (_ & _ & _ & L4 & _). rewrite map_length in L4. rewrite <- L4. apply nth_error_Some. congruence. }
      specialize (Hd i Begin p). rewrite (nth_error_repeat _ Hi) in Hd. specialize (Hd eq_refl Hp). specialize (Hcount i Hi).
      destruct p; cbn [distance_left] in Hd; solve [reflexivity|lia].
  - unfold ThreadsModel.parallel_best. split; [|split].
    + intros c Ec. exfalso. destruct (parallel_loop schedule _ _) as [x| | |] eqn:Ex; cbn [bind] in Ec; try discriminate Ec. exact (Hf x eq_refl).
    + intros _ c Ec. exfalso. unfold one_by_one in Ec.
      destruct (for_each cs _ []) as [rs| | |] eqn:El; cbn [bind] in Ec; try discriminate Ec.
      apply collect_ok in El. destruct El as (ys & _ & F). clear -F Ei Hr. rewrite nth_error_map in Ei.
      destruct (nth_error cs i) as [x|] eqn:Ex; [|discriminate Ei]. injection Ei as <-.
      revert i Ex. induction F as [|c y cs ys Hy F IH]; intros [|i] Ex; cbn in Ex; try discriminate.
      * injection Ex as ->. exact (Hr _ Hy).
      * eauto.
    + destruct (parallel_loop schedule _ _) as [x| | |] eqn:Ex; cbn [bind]; try discriminate; [exfalso; exact (Hf x eq_refl)|congruence].
Qed.
End Threads.
