(** The dual tree search with one neighbour: nothing that is pruned is closer than the pair kept. *)
From Coq Require Import List Arith ZArith Lia Bool Permutation.
From Verif Require Import Base SortingModel SortingSpec SortingProofs BoundsModel BoundsSpec BoundsProofs
  BufferModel BufferSpec BufferProofs KDTreeModel KDTreeSpec KDTreeProofs SearchModel SearchSpec SearchProofs SearchProps
  DualTreeModel.
Import ListNotations.
Set Default Proof Using "Type".

(** ** Containers *)

Lemma position_eqb_eq a b : position_eqb a b = true <-> a = b.
Proof. unfold position_eqb. destruct (list_eq_dec bool_dec a b); split; congruence. Qed.

Lemma positions_eqb_eq a b : positions_eqb a b = true <-> a = b.
Proof.
  unfold positions_eqb. destruct a as [a1 a2], b as [b1 b2]. simpl.
  rewrite andb_true_iff, !position_eqb_eq. split; [intros (-> & ->); auto|intros H; inversion H; auto].
Qed.

Lemma pair_eqb_eq a b : pair_eqb a b = true <-> a = b.
Proof.
  unfold pair_eqb. destruct a as [a1 a2], b as [b1 b2]. simpl.
  rewrite andb_true_iff, !Nat.eqb_eq. split; [intros (-> & ->); auto|intros H; inversion H; auto].
Qed.

Lemma find_put {K V} (eqb : K -> K -> bool) (H : forall a b, eqb a b = true <-> a = b) (l : list (K * V)) k v k' :
  map_find eqb k' (map_put eqb k v l) = if eqb k' k then Some v else map_find eqb k' l.
Proof.
  induction l as [|(k0, v0) l IH]; simpl.
  - destruct (eqb k' k) eqn:E; auto.
  - destruct (eqb k k0) eqn:E0; simpl.
    + apply H in E0. subst k0. destruct (eqb k' k); auto.
    + rewrite IH. destruct (eqb k' k0) eqn:E1; auto. destruct (eqb k' k) eqn:E2; auto.
      apply H in E1, E2. subst. rewrite (proj2 (H k0 k0) eq_refl) in E0. discriminate.
Qed.

(** ** The sum of two roots *)

Lemma sqrt_sum_lt_sound a b c : (0 <= b)%Z -> sqrt_sum_lt a b c = true -> (a < c)%Z.
Proof. intros Hb H. unfold sqrt_sum_lt in H. apply andb_true_iff in H as (H & _). apply Z.ltb_lt in H. lia. Qed.

Lemma diameter_nonneg a : (0 <= aabb_diameter_sq a)%Z.
Proof. induction a as [|s a IH]; [unfold aabb_diameter_sq; simpl; lia|]. rewrite diameter_cons.
  pose proof (Z.square_nonneg (seg_upper s - seg_lower s)). lia. Qed.

(** ** The structure of trees *)

Lemma range_of arr t : kd_ranges arr t -> node_first t <= node_last t <= length arr.
Proof. destruct t; simpl; intros H; [lia|]. destruct H as (-> & H & _). lia. Qed.

Lemma children_of nf arr s t c : In c (node_children t) -> kd_ranges arr t -> kd_enclosed s nf arr t ->
  kd_ranges arr (snd c) /\ kd_enclosed s nf arr (snd c) /\ kd_height (snd c) < kd_height t.
Proof.
  destruct t as [f l b|f l ax b tl tr]; cbn [node_children]; [intros []|].
  intros Hc (_ & _ & R1 & R2) (_ & E1 & E2). cbn [kd_height]. destruct Hc as [<-|[<-|[]]]; simpl; splits; auto; lia.
Qed.

Lemma child_at root p t c : node_at root p = Ok t -> In c (node_children t) -> node_at root (fst c :: p) = Ok (snd c).
Proof.
  intros H Hc. simpl. rewrite H. cbn [bind]. destruct t as [f l b|f l ax b tl tr]; [destruct Hc|].
  destruct Hc as [<-|[<-|[]]]; reflexivity.
Qed.

Lemma samples_split arr t x : In x (kd_samples arr t) ->
  In x (sub arr (node_first t) (node_last t)) \/ exists c, In c (node_children t) /\ In x (kd_samples arr (snd c)).
Proof.
  destruct t as [f l b|f l ax b tl tr]; simpl; auto. rewrite !in_app_iff. intros [H|[H|H]]; auto.
  - right. exists (false, tl). simpl. auto.
  - right. exists (true, tr). simpl. auto.
Qed.

Lemma own_in arr t x : In x (sub arr (node_first t) (node_last t)) -> In x (kd_samples arr t).
Proof. destruct t as [f l b|f l ax b tl tr]; simpl; auto. rewrite !in_app_iff. auto. Qed.

(** ** The traversal, for any invariant *)

Section Traverse.
Context (m : metric) (p : pruning (m_dist m)).
Context (qs : list Z) (nf : nat) (qarr : list nat) (qroot : kd).
Context (rs : list Z) (rarr : list nat) (rroot : kd).
Context {S : Type} (accept : nat -> S -> res (bool * S)) (capacity : nat).
Context (right_first : position -> position -> bool).

Notation state := (dual (m_dist m) S).

(** The invariant, what only grows, what is known of a pair of samples and of a cost. *)
Context (inv : state -> Prop) (ext : state -> state -> Prop) (cov : state -> nat -> nat -> Prop).
Context (below : Z -> list nat -> list nat -> Prop).
Hypothesis Hrefl : forall st, ext st st.
Hypothesis Htrans : forall a b c, ext a b -> ext b c -> ext a c.
Hypothesis Hcov : forall a b x y, ext a b -> cov a x y -> cov b x y.

Definition covered (st : state) (xs ys : list nat) : Prop := forall x y, In x xs -> In y ys -> cov st x y.

Hypothesis Hvisit : forall st k, inv st ->
  let st' := mk_dual (du_buffers st) (k :: du_visited st) (du_limits st) (du_edges st) (du_combinations st) (du_state st) in
  inv st' /\ ext st st'.
Hypothesis Hcost : forall st pos q r, inv st -> node_first q <= node_last q <= length qarr ->
  kd_enclosed qs nf qarr q -> kd_enclosed rs nf rarr r ->
  exists o st', cost m p qarr pos q r st = Ok (o, st') /\ inv st' /\ ext st st' /\ du_visited st' = du_visited st /\
    ((exists c, o = Some c /\ below c (kd_samples qarr q) (kd_samples rarr r)) \/
     o = None /\ covered st' (kd_samples qarr q) (kd_samples rarr r)).
Hypothesis Hupdate : forall st pos q r c, inv st -> node_first q <= node_last q <= length qarr ->
  below c (kd_samples qarr q) (kd_samples rarr r) ->
  exists o st', update_cost m p qarr pos q c st = Ok (o, st') /\ inv st' /\ ext st st' /\ du_visited st' = du_visited st /\
    ((exists c, o = Some c /\ below c (kd_samples qarr q) (kd_samples rarr r)) \/
     o = None /\ covered st' (kd_samples qarr q) (kd_samples rarr r)).
Hypothesis Hsearch : forall st q r, inv st -> node_first q <= node_last q <= length qarr ->
  node_first r <= node_last r <= length rarr ->
  exists st', partial_search_for_each_query m qs nf qarr rs nf rarr accept capacity q r st = Ok st' /\ inv st' /\
    ext st st' /\ du_visited st' = du_visited st /\
    covered st' (sub qarr (node_first q) (node_last q)) (sub rarr (node_first r) (node_last r)).

Lemma covered_ext st st' xs ys : ext st st' -> covered st xs ys -> covered st' xs ys.
Proof using Hcov. intros He H x y Hx Hy. eapply Hcov; eauto. Qed.

Definition visits_ok (stack : list (position * position)) (st : state) : Prop :=
  forall p1 p2, In (p1, p2) (du_visited st) -> In (p1, p2) stack \/
    forall t1 t2, node_at qroot p1 = Ok t1 -> node_at rroot p2 = Ok t2 ->
      covered st (kd_samples qarr t1) (kd_samples rarr t2).

Lemma visits_same stack st st' : du_visited st' = du_visited st -> ext st st' -> visits_ok stack st -> visits_ok stack st'.
Proof using Hcov.
  intros Hv He H p1 p2 Hi. rewrite Hv in Hi. destruct (H p1 p2 Hi) as [H1|H1]; auto.
  right. intros t1 t2 H2 H3. eapply covered_ext; eauto.
Qed.

Notation traverse := (dual_tree_traversal m p qs nf qarr rs nf rarr accept capacity right_first).

Lemma traversal_ok : forall fuel qp q rp r oc bypass st stack,
  kd_height q + kd_height r < fuel ->
  node_at qroot qp = Ok q -> node_at rroot rp = Ok r ->
  kd_ranges qarr q -> kd_ranges rarr r -> kd_enclosed qs nf qarr q -> kd_enclosed rs nf rarr r ->
  inv st -> visits_ok stack st ->
  (forall e, In e stack -> length (fst e) + length (snd e) < length qp + length rp) ->
  (forall c, oc = Some c -> below c (kd_samples qarr q) (kd_samples rarr r)) ->
  exists st', traverse fuel qp q rp r oc bypass st = Ok st' /\ inv st' /\ ext st st' /\ visits_ok stack st' /\
    covered st' (kd_samples qarr q) (kd_samples rarr r).
Proof using Hrefl Htrans Hcov Hvisit Hcost Hupdate Hsearch.
  induction fuel as [|fuel IH]; intros qp q rp r oc bypass st stack Hf Hq Hr Rq Rr Eq Er I V Hst Hc; [lia|].
  pose proof (range_of qarr q Rq) as Nq. pose proof (range_of rarr r Rr) as Nr.
  cbn [dual_tree_traversal]. unfold emplace_nodes_combination_if_not_found.
  destruct (existsb (positions_eqb (qp, rp)) (du_visited st)) eqn:Ev.
  - apply existsb_exists in Ev as (k & Hk & Ek). apply positions_eqb_eq in Ek. subst k. cbn [negb].
    exists st. splits; auto. 
    destruct (V qp rp Hk) as [Hs|Hs]; [|auto]. specialize (Hst _ Hs). simpl in Hst. lia.
  - cbn [negb].
    set (st0 := mk_dual (du_buffers st) ((qp, rp) :: du_visited st) (du_limits st) (du_edges st) (du_combinations st) (du_state st)).
    destruct (Hvisit st (qp, rp) I) as (I0 & X0). fold st0 in I0, X0.
    assert (V0 : visits_ok ((qp, rp) :: stack) st0).
    { intros p1 p2 [Hi|Hi]; [inversion Hi; subst; left; simpl; auto|].
      destruct (V p1 p2 Hi) as [H|H]; [left; simpl; auto|right].
      intros t1 t2 H1 H2. eapply covered_ext; eauto. }
    assert (Hst' : forall c1 c2, forall e, In e ((qp, rp) :: stack) ->
              length (fst e) + length (snd e) < length (c1 :: qp) + length rp /\
              length (fst e) + length (snd e) < length qp + length (c2 :: rp : position)).
    { intros c1 c2 e [<-|He]; simpl; [lia|]. specialize (Hst e He). lia. }
    (* end of the node: the pair leaves the stack *)
    assert (Fin : forall st', visits_ok ((qp, rp) :: stack) st' -> covered st' (kd_samples qarr q) (kd_samples rarr r) ->
              visits_ok stack st').
    { intros st' Hv Hcv p1 p2 Hi. destruct (Hv p1 p2 Hi) as [[He|He]|He]; auto.
      inversion He; subst. right. intros t1 t2 H1 H2. rewrite Hq in H1. rewrite Hr in H2.
      inversion H1; inversion H2; subst. exact Hcv. }
    (* the cost *)
    set (go := if bypass then Ok (true, st0) else _).
    assert (G : exists g st1, go = Ok (g, st1) /\ inv st1 /\ ext st0 st1 /\ du_visited st1 = du_visited st0 /\
              (g = true \/ g = false /\ covered st1 (kd_samples qarr q) (kd_samples rarr r))).
    { unfold go. destruct bypass.
      - exists true, st0. splits; auto.
      - destruct oc as [c|].
        + destruct (Hupdate st0 qp q r c I0 Nq (Hc c eq_refl)) as (o & st1 & E & I1 & S1 & V1 & Ho).
          rewrite E. cbn [bind]. eexists _, st1. split; [reflexivity|]. splits; auto.
          destruct Ho as [(c' & -> & Ho)|(-> & Ho)]; auto.
        + destruct (Hcost st0 qp q r I0 Nq Eq Er) as (o & st1 & E & I1 & S1 & V1 & Ho).
          rewrite E. cbn [bind]. eexists _, st1. split; [reflexivity|]. splits; auto.
          destruct Ho as [(c' & -> & Ho)|(-> & Ho)]; auto. }
    destruct G as (g & st1 & -> & I1 & X1 & V1 & Hg). cbn [bind].
    assert (Vs1 : visits_ok ((qp, rp) :: stack) st1) by (eapply visits_same; eauto).
    assert (X01 : ext st st1) by eauto.
    destruct Hg as [->|(-> & Hcv)]; cbn [negb]; [|exists st1; splits; auto].
    destruct (Hsearch st1 q r I1 Nq Nr) as (st2 & E2 & I2 & X2 & V2 & C2).
    match goal with |- context [bind ?e _] => replace e with (Ok st2) by (symmetry; exact E2) end. cbn [bind].
    assert (Vs2 : visits_ok ((qp, rp) :: stack) st2) by (eapply visits_same; eauto).
    (* children of the query node *)
    assert (HQ : forall cs st, (forall c, In c cs -> In c (node_children q)) -> inv st -> visits_ok ((qp, rp) :: stack) st ->
              exists st', for_each cs (fun child st => traverse fuel (fst child :: qp) (snd child) rp r None false st) st = Ok st' /\
                inv st' /\ ext st st' /\ visits_ok ((qp, rp) :: stack) st' /\
                forall c, In c cs -> covered st' (kd_samples qarr (snd c)) (kd_samples rarr r)).
    { induction cs as [|c cs IHc]; intros sta Hin Ia Va.
      - exists sta. splits; auto.  intros c [].
      - cbn [for_each]. assert (Hc0 : In c (node_children q)) by (apply Hin; simpl; auto).
        destruct (children_of nf qarr qs q c Hc0 Rq Eq) as (Rc & Ec & Lc).
        destruct (IH (fst c :: qp) (snd c) rp r None false sta ((qp, rp) :: stack)) as (stb & Eb & Ib & Xb & Vb & Cb); auto.
        { lia. } { now apply child_at with q. } { intros e He. apply (Hst' (fst c) true e He). } { discriminate. }
        match goal with |- context [bind ?e _] => replace e with (Ok stb) by (symmetry; exact Eb) end. cbn [bind].
        destruct (IHc stb (fun c' H => Hin c' (or_intror H)) Ib Vb) as (stc & Ec' & Ic & Xc & Vc & Cc).
        exists stc. splits; auto.
        + eauto.
        + intros c' [<-|Hc']; auto. eapply covered_ext; eauto. }
    destruct (HQ (node_children q) st2 (fun c H => H) I2 Vs2) as (st3 & E3 & I3 & X3 & Vs3 & C3).
    match goal with |- context [bind ?e _] => replace e with (Ok st3) by (symmetry; exact E3) end. cbn [bind].
    (* the queue of reference children *)
    set (body := fun (child : bool * kd) (qs0 : list (bool * kd * Z) * state) => _).
    assert (HR : forall cs queue sta, (forall c, In c cs -> In c (node_children r)) -> inv sta -> 
              exists queue' stb, for_each cs body (queue, sta) = Ok (queue', stb) /\ inv stb /\ ext sta stb /\
                du_visited stb = du_visited sta /\
                (forall e, In e queue' -> In e queue \/ In (fst e) cs /\
                   below (snd e) (kd_samples qarr q) (kd_samples rarr (snd (fst e)))) /\
                (forall e, In e queue -> In e queue') /\
                (forall c, In c cs -> (exists v, In (c, v) queue') \/ covered stb (kd_samples qarr q) (kd_samples rarr (snd c)))).
    { induction cs as [|c cs IHc]; intros queue sta Hin Ia.
      - exists queue, sta. splits; auto.  intros c [].
      - cbn [for_each]. unfold body at 1. cbn [fst snd].
        assert (Hc0 : In c (node_children r)) by (apply Hin; simpl; auto).
        destruct (children_of nf rarr rs r c Hc0 Rr Er) as (Rc & Ec & Lc).
        destruct (Hcost sta qp q (snd c) Ia Nq Eq Ec) as (o & stb & E & Ib & Sb & Vb & Ho).
        match goal with |- context [cost ?a1 ?a2 ?a3 ?a4 ?a5 ?a6 ?a7] =>
          replace (cost a1 a2 a3 a4 a5 a6 a7) with (Ok (o, stb)) by (symmetry; exact E) end. cbn [bind].
        destruct Ho as [(v & -> & Hv)|(-> & Hv)].
        + destruct (IHc (push_child (right_first qp rp) queue (c, v)) stb (fun c' H => Hin c' (or_intror H)) Ib)
            as (queue' & stc & E' & Ic & Xc & Vc & Q1 & Q2 & Q3).
          exists queue', stc. 
          assert (Hp : forall e, In e (push_child (right_first qp rp) queue (c, v)) <-> e = (c, v) \/ In e queue).
          { intros e. destruct queue as [|f queue]; simpl; [intuition|]. 
            destruct ((v <? snd f)%Z || (v =? snd f)%Z && right_first qp rp); simpl; intuition. }
          splits; auto.
          * eauto.
          * congruence.
          * intros e He. destruct (Q1 e He) as [H|(H & B)].
            -- apply Hp in H as [->|H]; auto. right. cbn [fst snd]. split; simpl; auto.
            -- right. split; simpl; auto.
          * intros e He. apply Q2. apply Hp. auto.
          * intros c' [<-|Hc']; [left|auto]. exists v. apply Q2. apply Hp. auto.
        + destruct (IHc queue stb (fun c' H => Hin c' (or_intror H)) Ib) as (queue' & stc & E' & Ic & Xc & Vc & Q1 & Q2 & Q3).
          exists queue', stc. splits; auto.
          * eauto.
          * congruence.
          * intros e He. destruct (Q1 e He) as [H|(H & B)]; auto. right. split; simpl; auto.
          * intros c' [<-|Hc']; [right|auto]. eapply covered_ext; eauto. }
    destruct (HR (node_children r) [] st3 (fun c H => H) I3) as (queue & st4 & E4 & I4 & X4 & V4 & Q1 & _ & Q3).
    match goal with |- context [for_each (node_children r) ?f ?i] =>
      replace (for_each (node_children r) f i) with (Ok (queue, st4)) by (symmetry; exact E4) end. cbn [bind].
    assert (Vs4 : visits_ok ((qp, rp) :: stack) st4) by (eapply visits_same; eauto).
    assert (X04 : ext st st4) by eauto.
    (* everything is covered as soon as the queue is *)
    assert (All : forall st', ext st4 st' ->
              (forall e, In e queue -> covered st' (kd_samples qarr q) (kd_samples rarr (snd (fst e)))) ->
              covered st' (kd_samples qarr q) (kd_samples rarr r)).
    { intros st' Xe Hqueue x y Hx Hy. destruct (samples_split rarr r y Hy) as [Hy'|(c & Hc' & Hy')].
      - destruct (samples_split qarr q x Hx) as [Hx'|(c & Hc' & Hx')].
        + apply (Hcov st2); eauto.
        + apply (Hcov st3); eauto. apply (C3 c Hc'); auto.
      - destruct (Q3 c Hc') as [(v & Hv)|Hv].
        + apply (Hqueue (c, v) Hv); auto.
        + apply (Hcov st4); auto. }
    (* processing the queue *)
    assert (Step : forall e b o sta, In e queue -> (forall c, o = Some c -> c = snd e) -> inv sta ->
              visits_ok ((qp, rp) :: stack) sta ->
              exists stb, traverse fuel qp q (fst (fst e) :: rp) (snd (fst e)) o b sta = Ok stb /\ inv stb /\ ext sta stb /\
                visits_ok ((qp, rp) :: stack) stb /\ covered stb (kd_samples qarr q) (kd_samples rarr (snd (fst e)))).
    { intros e b o sta He Ho Ia Va. destruct (Q1 e He) as [[]|(Hc0 & Hb)].
      destruct (children_of nf rarr rs r (fst e) Hc0 Rr Er) as (Rc & Ec & Lc).
      apply IH; auto.
      - lia.
      - now apply child_at with r.
      - intros e' He'. apply (Hst' true (fst (fst e)) e' He').
      - intros c E. rewrite (Ho c E). exact Hb. }
    destruct queue as [|((side, child), v) rest].
    + exists st4. assert (Hcv : covered st4 (kd_samples qarr q) (kd_samples rarr r)).
      { apply All; [auto|]. intros e []. }
      splits; auto.
    + destruct (Step (side, child, v) true None st4) as (st5 & E5 & I5 & X5 & Vs5 & C5); auto; [simpl; auto|discriminate|].
      cbn [fst snd] in E5.
      match goal with |- context [bind ?e _] => replace e with (Ok st5) by (symmetry; exact E5) end. cbn [bind].
      set (loop := fun (e : bool * kd * Z) (st : state) => _).
      assert (HL : forall es sta, (forall e, In e es -> In e ((side, child, v) :: rest)) -> inv sta ->
                visits_ok ((qp, rp) :: stack) sta ->
                exists stb, for_each es loop sta = Ok stb /\ inv stb /\ ext sta stb /\ visits_ok ((qp, rp) :: stack) stb /\
                  forall e, In e es -> covered stb (kd_samples qarr q) (kd_samples rarr (snd (fst e)))).
      { induction es as [|e es IHe]; intros sta Hin Ia Va.
        - exists sta. splits; auto.  intros e [].
        - cbn [for_each]. unfold loop at 1.
          destruct (Step e false (Some (snd e)) sta) as (stb & Eb & Ib & Xb & Vb & Cb); auto.
          { apply Hin; simpl; auto. } { intros c E; inversion E; auto. }
          destruct e as ((sd, ch), w). cbn [fst snd] in *.
          match goal with |- context [bind ?e _] => replace e with (Ok stb) by (symmetry; exact Eb) end. cbn [bind].
          destruct (IHe stb (fun e H => Hin e (or_intror H)) Ib Vb) as (stc & Ec' & Ic & Xc & Vc & Cc).
          exists stc. splits; auto.
          + eauto.
          + intros e' [<-|He']; auto. cbn [fst snd]. eapply covered_ext; eauto. }
      destruct (HL rest st5) as (st6 & E6 & I6 & X6 & Vs6 & C6); auto. { simpl; auto. }
      match goal with |- context [for_each rest ?f st5] =>
        replace (for_each rest f st5) with (Ok st6) by (symmetry; exact E6) end.
      exists st6.
      assert (Hcv : covered st6 (kd_samples qarr q) (kd_samples rarr r)).
      { apply All; [eauto|]. intros e [<-|He]; auto. eapply covered_ext; eauto. }
      splits; eauto.
Qed.
End Traverse.

Section One.
Context (qs : list Z) (nf : nat) (qarr : list nat) (qroot : kd).
Context (rs : list Z) (rarr : list nat) (rroot : kd).
Context {S : Type} (accept : nat -> S -> res (bool * S)) (P : nat -> bool) (Q : S -> Prop).
Context (right_first : position -> position -> bool).
Hypothesis HdataQ : forall i, In i qarr -> i * nf + nf <= length qs.
Hypothesis HdataR : forall i, In i rarr -> i * nf + nf <= length rs.
Hypothesis Hacc : forall i s, In i rarr -> Q s -> exists s', accept i s = Ok (P i, s') /\ Q s'.

Notation state := (dual (option Z) S).

Definition dst (x y : nat) : Z := sq_dist (row rs nf y) (row qs nf x).

(** The buffer of a query: nothing yet, or the sample [y]. *)
Definition single (x y : nat) : buffer (option Z) :=
  mk_buffer [y] [Some (dst x y)] y (Some (dst x y)) 0 (Some (dst x y)) 1.
Definition none : buffer (option Z) := make_buffer None 1.
Definition good (x y : nat) : Prop := In x qarr /\ In y rarr /\ P y = true.

Definition one (x : nat) (b : buffer (option Z)) : Prop := b = none \/ exists y, b = single x y /\ good x y.

Lemma update_none x y : update_static_buffers opt_lt none y (Some (dst x y)) = Ok (single x y).
Proof. reflexivity. Qed.

Lemma update_single x y0 y :
  update_static_buffers opt_lt (single x y0) y (Some (dst x y)) =
  Ok (if (dst x y <? dst x y0)%Z then single x y else single x y0).
Proof.
  unfold update_static_buffers, single, remaining_capacity, buf_size.
  cbn [buf_indices buf_distances buf_closest_index buf_closest_distance buf_furthest_pos buf_furthest_distance
       buf_max_capacity length Nat.eqb opt_lt].
  change ((Z.of_nat 1 - Z.of_nat 1) mod 2 ^ 64 =? 0)%Z with true. cbn [negb].
  destruct (dst x y <? dst x y0)%Z; reflexivity.
Qed.

Notation offer x := (offer float_metric rs nf Unbounded (row qs nf x) accept).

Lemma offer_one x y b s : In x qarr -> In y rarr -> Q s -> one x b ->
  exists b' s', offer x y (b, s) = Ok (b', s') /\ Q s' /\ one x b' /\
    (P y = true -> exists y', b' = single x y' /\ (dst x y' <= dst x y)%Z) /\
    (forall y0, b = single x y0 -> exists y', b' = single x y' /\ (dst x y' <= dst x y0)%Z) /\
    (P y = false -> b' = b).
Proof using HdataR HdataQ Hacc.
  intros Hx Hy Hs Hb.
  destruct (offer_ok float_metric (fun p q => Some (sq_dist p q)) float_metric_ok rs nf rarr Unbounded (row qs nf x)
              accept P Q HdataR (row_length qs nf (repeat 0%Z nf) (repeat_length _ _) x (HdataQ x Hx)) Hacc I y b s Hy Hs) as (s' & Hs' & E).
  match type of E with _ = ?rhs => match goal with |- context [SearchModel.offer ?a1 ?a2 ?a3 ?a4 ?a5 ?a6 ?a7 ?a8] =>
    replace (SearchModel.offer a1 a2 a3 a4 a5 a6 a7 a8) with rhs by (symmetry; exact E) end end.
  unfold elig, within. cbn [andb]. destruct (P y) eqn:Py.
  - change (Some (sq_dist (row rs nf y) (row qs nf x))) with (Some (dst x y)).
    change (m_lt float_metric) with opt_lt. change (m_dist float_metric) with (option Z).
    destruct Hb as [->|(y0 & -> & G0)].
    + rewrite update_none. cbn [bind]. exists (single x y), s'. splits; auto.
      * right. exists y. split; auto. split; auto.
      * intros _. exists y. split; auto. lia.
      * intros y0 H. discriminate.
      * discriminate.
    + rewrite update_single. cbn [bind].
      destruct (Z.ltb_spec (dst x y) (dst x y0)).
      * exists (single x y), s'. splits; auto.
        -- right. exists y. split; auto. split; auto.
        -- intros _. exists y. split; auto. lia.
        -- intros y1 E1. inversion E1; subst. exists y. split; auto. lia.
        -- discriminate.
      * exists (single x y0), s'. splits; auto.
        -- right. exists y0. auto.
        -- intros _. exists y0. split; auto.
        -- intros y1 E1. exists y1. split; auto. lia.
  - exists b, s'. splits; auto.
    + discriminate.
    + intros y0 ->. exists y0. split; auto. lia.
Qed.

Lemma offers_one x : In x qarr -> forall ys b s, (forall y, In y ys -> In y rarr) -> Q s -> one x b ->
  exists b' s', for_each ys (offer x) (b, s) = Ok (b', s') /\ Q s' /\ one x b' /\
    (forall y, In y ys -> P y = true -> exists y', b' = single x y' /\ (dst x y' <= dst x y)%Z) /\
    (forall y0, b = single x y0 -> exists y', b' = single x y' /\ (dst x y' <= dst x y0)%Z).
Proof using HdataR HdataQ Hacc.
  intros Hx. induction ys as [|y ys IH]; intros b s Hin Hs Hb.
  - exists b, s. splits; auto. { intros y []. } intros y0 ->. exists y0. split; auto. lia.
  - cbn [for_each].
    destruct (offer_one x y b s) as (b1 & s1 & E1 & Hs1 & O1 & C1 & M1 & _); auto. { apply Hin; simpl; auto. }
    match goal with |- context [bind ?e _] => replace e with (Ok (b1, s1)) by (symmetry; exact E1) end. cbn [bind].
    destruct (IH b1 s1) as (b2 & s2 & E2 & Hs2 & O2 & C2 & M2); auto. { intros z Hz. apply Hin; simpl; auto. }
    exists b2, s2. splits; auto.
    + intros z [<-|Hz] Pz; auto. destruct (C1 Pz) as (y1 & Eb & L1). destruct (M2 y1 Eb) as (y2 & Eb2 & L2).
      exists y2. split; auto. lia.
    + intros y0 E0. destruct (M1 y0 E0) as (y1 & Eb & L1). destruct (M2 y1 Eb) as (y2 & Eb2 & L2).
      exists y2. split; auto. lia.
Qed.

Lemma search_one x b s first last : In x qarr -> first <= last <= length rarr -> Q s -> one x b ->
  exists b' s', partial_search float_metric rs nf rarr Unbounded (row qs nf x) accept first last (b, s) = Ok (b', s') /\
    Q s' /\ one x b' /\
    (forall y, In y (sub rarr first last) -> P y = true -> exists y', b' = single x y' /\ (dst x y' <= dst x y)%Z) /\
    (forall y0, b = single x y0 -> exists y', b' = single x y' /\ (dst x y' <= dst x y0)%Z).
Proof using HdataR HdataQ Hacc.
  intros Hx Hr Hs Hb. unfold partial_search, slice.
  assert ((first <=? last) = true) as -> by (apply Nat.leb_le; lia).
  assert ((last <=? length rarr) = true) as -> by (apply Nat.leb_le; lia).
  cbn [andb bind]. fold (sub rarr first last). apply offers_one; auto.
  intros y Hy. unfold sub in Hy.
  rewrite <- (firstn_skipn first rarr). apply in_or_app. right.
  rewrite <- (firstn_skipn (last - first) (skipn first rarr)). apply in_or_app; auto.
Qed.

(** ** The queue of edges *)

Notation queue := (list (edge (option Z)) * list (nat * nat))%type.

Definition kept (q : queue) : Prop :=
  q = ([], []) \/ exists x y, q = ([(x, y, Some (dst x y))], [(x, y)]) /\ good x y.
Definition reaches (q : queue) (d : Z) : Prop :=
  exists x y, fst q = [(x, y, Some (dst x y))] /\ (dst x y <= d)%Z.

Lemma reaches_le q d d' : reaches q d -> (d <= d')%Z -> reaches q d'.
Proof. intros (x & y & E & L) H. exists x, y. split; auto. lia. Qed.

Lemma queue_one x b q : one x b -> kept q ->
  exists q', update_priority_queue opt_lt None x b q = Ok q' /\ kept q' /\
    (forall d, reaches q d -> reaches q' d) /\
    (forall y, b = single x y -> reaches q' (dst x y)).
Proof.
  intros [->|(y & -> & G)] [->|(x0 & y0 & -> & G0)].
  - exists ([], []). splits; auto. { left; auto. } discriminate.
  - exists ([(x0, y0, Some (dst x0 y0))], [(x0, y0)]). splits; auto. { right. exists x0, y0. auto. } discriminate.
  - exists ([(x, y, Some (dst x y))], [(x, y)]). splits.
    + unfold update_priority_queue, single. cbn -[opt_lt]. unfold top_edge. cbn -[opt_lt].
      unfold opt_lt at 1. rewrite Z.ltb_irrefl. reflexivity.
    + right. exists x, y. auto.
    + intros d (x1 & y1 & E & _). discriminate.
    + intros y1 E. inversion E; subst. exists x, y1. split; auto. lia.
  - destruct (Z.ltb_spec (dst x y) (dst x0 y0)) as [H|H].
    + exists ([(x, y, Some (dst x y))], [(x, y)]).
      assert (N : pair_eqb (x, y) (x0, y0) = false).
      { apply not_true_is_false. intros E. apply pair_eqb_eq in E. inversion E; subst. lia. }
      assert (N' : pair_eqb (x0, y0) (x, y) = false).
      { apply not_true_is_false. intros E. apply pair_eqb_eq in E. inversion E; subst. lia. }
      splits.
      * unfold update_priority_queue, single. cbn -[opt_lt pair_eqb Nat.ltb].
        unfold top_edge. cbn -[opt_lt pair_eqb Nat.ltb]. cbn [opt_lt]. rewrite (proj2 (Z.ltb_lt _ _) H).
        rewrite N. cbn -[opt_lt pair_eqb]. unfold top_edge. cbn -[opt_lt pair_eqb]. cbn [opt_lt].
        rewrite (proj2 (Z.ltb_ge _ _)) by lia. cbn -[opt_lt pair_eqb].
        rewrite (proj2 (pair_eqb_eq (x0, y0) (x0, y0)) eq_refl), N'. reflexivity.
      * right. exists x, y. auto.
      * intros d (x1 & y1 & E & L). inversion E; subst. exists x, y. split; auto. lia.
      * intros y1 E. inversion E; subst. exists x, y1. split; auto. lia.
    + exists ([(x0, y0, Some (dst x0 y0))], [(x0, y0)]). splits; auto.
      * unfold update_priority_queue, single. cbn -[opt_lt pair_eqb Nat.ltb].
        unfold top_edge. cbn -[opt_lt pair_eqb Nat.ltb]. cbn [opt_lt]. rewrite (proj2 (Z.ltb_ge _ _)) by lia. reflexivity.
      * right. exists x0, y0. auto.
      * intros y1 E. inversion E; subst. exists x0, y0. auto.
Qed.

(** ** The state *)

Definition queue_of (st : state) : queue := (du_edges st, du_combinations st).
Definition best (st : state) (d : Z) : Prop := reaches (queue_of st) d.

Definition limits_ok (st : state) (l : limits (option Z)) : Prop :=
  closest_limit l = None \/
  exists c, closest_limit l = Some c /\ opt_lt (furthest_limit l) (Some c) = false /\ best st c.

Record inv (st : state) : Prop := {
  iv_state : Q (du_state st);
  iv_queue : kept (queue_of st);
  iv_buffers : forall x b, map_find Nat.eqb x (du_buffers st) = Some b ->
    one x b /\ forall y, b = single x y -> best st (dst x y);
  iv_limits : forall p l, map_find position_eqb p (du_limits st) = Some l -> limits_ok st l }.

Definition ext (st st' : state) : Prop := forall d, best st d -> best st' d.

Lemma limits_ext st st' l : ext st st' -> limits_ok st l -> limits_ok st' l.
Proof. intros He [H|(c & E & F & B)]; [left; auto|right]. exists c. auto. Qed.

(** Limits of a query node. *)
Lemma lim_closest st l d f : limits_ok st l -> best st d -> opt_lt f (Some d) = false ->
  limits_ok st (try_update_furthest_limit float_metric (try_update_closest_limit float_metric l (Some d)) f).
Proof.
  intros Hl Hb Hf. right. destruct l as [c g].
  unfold try_update_furthest_limit, try_update_closest_limit, std_min, std_max. cbn [closest_limit furthest_limit m_lt float_metric].
  destruct Hl as [Hc|(c0 & Hc & Hg & Hb0)]; cbn [closest_limit furthest_limit] in *; subst c.
  - cbn [opt_lt]. exists d. splits; auto.
    destruct (opt_lt g f) eqn:E; auto. destruct g as [g|], f as [f|]; cbn [opt_lt] in *; auto; try discriminate.
    + rewrite Z.ltb_ge in *. lia.
  - cbn [opt_lt]. destruct (Z.ltb_spec d c0).
    + exists d. splits; auto.
      destruct (opt_lt g f) eqn:E; auto. destruct g as [g|]; cbn [opt_lt] in *; auto.
      rewrite Z.ltb_ge in *. lia.
    + exists c0. splits; auto.
      destruct (opt_lt g f) eqn:E; auto. destruct g as [g|], f as [f|]; cbn [opt_lt] in *; auto; try discriminate.
      rewrite Z.ltb_lt, Z.ltb_ge in *. lia.
Qed.

Lemma lim_inf st l : limits_ok st l -> limits_ok st (mk_limits (closest_limit l) None).
Proof. intros [H|(c & E & _ & B)]; [left; auto|right; exists c; auto]. Qed.

Lemma query_limits_ok st l x : inv st -> limits_ok st l -> limits_ok st (query_limits float_metric (du_buffers st) l x).
Proof.
  intros I Hl. unfold query_limits. change (m_dist float_metric) with (option Z).
  destruct (map_find Nat.eqb x (du_buffers st)) as [b|] eqn:E; [|now apply lim_inf].
  destruct (iv_buffers st I x b E) as ([->|(y & -> & G)] & Hb).
  - apply lim_inf; auto.
  - change (negb (remaining_capacity (single x y) =? 0)%Z) with false. cbn iota.
    unfold try_update_limits. apply lim_closest; auto. cbn [buf_furthest_distance single opt_lt]. apply Z.ltb_irrefl.
Qed.

Lemma default_ok st : limits_ok st (default_limits float_metric float_pruning).
Proof. left. reflexivity. Qed.

(** Only the limits differ. *)
Definition same_but_limits (st st' : state) : Prop :=
  du_buffers st' = du_buffers st /\ du_visited st' = du_visited st /\ du_edges st' = du_edges st /\
  du_combinations st' = du_combinations st /\ du_state st' = du_state st.

Lemma same_ext st st' : same_but_limits st st' -> ext st st'.
Proof. intros (_ & _ & E1 & E2 & _) d H. unfold best, queue_of in *. now rewrite E1, E2. Qed.

Lemma same_limits st st' l : same_but_limits st st' -> limits_ok st l -> limits_ok st' l.
Proof. intros H. apply limits_ext. now apply same_ext. Qed.

Lemma with_limits st map : inv st ->
  (forall p l, map_find position_eqb p map = Some l -> limits_ok st l) ->
  forall st', same_but_limits st st' -> du_limits st' = map -> inv st'.
Proof.
  intros [I1 I2 I3 I4] Hm st' Hs El. pose proof (same_ext _ _ Hs) as He. pose proof Hs as (E1 & E2 & E3 & E4 & E5).
  constructor.
  - now rewrite E5.
  - unfold queue_of. now rewrite E3, E4.
  - rewrite E1. intros x b Hb. destruct (I3 x b Hb) as (O & B). split; auto. 
  - rewrite El. intros p l Hp. apply (same_limits st); auto. eapply Hm; eauto.
Qed.

Lemma node_limits_ok st p node : inv st -> node_first node <= node_last node <= length qarr ->
  exists l st', query_node_limits float_metric float_pruning qarr p node st = Ok (l, st') /\
    inv st' /\ same_but_limits st st' /\ limits_ok st' l.
Proof.
  intros I Hr. unfold query_node_limits, update_bounds_limits, slice.
  assert ((node_first node <=? node_last node) = true) as -> by (apply Nat.leb_le; lia).
  assert ((node_last node <=? length qarr) = true) as -> by (apply Nat.leb_le; lia).
  cbn [andb bind].
  set (l0 := match map_find position_eqb p (du_limits st) with Some l => l | None => default_limits float_metric float_pruning end).
  assert (H0 : limits_ok st l0).
  { unfold l0. destruct (map_find position_eqb p (du_limits st)) eqn:E; [eapply iv_limits; eauto|apply default_ok]. }
  set (range := firstn (node_last node - node_first node) (skipn (node_first node) qarr)).
  assert (H1 : limits_ok st (fold_left (query_limits float_metric (du_buffers st)) range l0)).
  { clearbody range l0. revert l0 H0. induction range as [|x range IH]; intros l0 H0; simpl; auto.
    apply IH. now apply query_limits_ok. }
  set (l1 := fold_left (query_limits float_metric (du_buffers st)) range l0) in *.
  set (map0 := map_put position_eqb p l1 (du_limits st)).
  assert (M0 : forall p' l, map_find position_eqb p' map0 = Some l -> limits_ok st l).
  { intros p' l. unfold map0. rewrite find_put by apply position_eqb_eq.
    destruct (position_eqb p' p); [intros H; inversion H; subst; auto|intros H; eapply iv_limits; eauto]. }
  cbn [du_limits du_buffers du_visited du_edges du_combinations du_state].
  assert (F : forall cs l map, limits_ok st l ->
    (forall p' l, map_find position_eqb p' map = Some l -> limits_ok st l) ->
    exists l' map', fold_left (child_limits float_metric float_pruning p) cs (l, map) = (l', map') /\ limits_ok st l' /\
      (forall p' l, map_find position_eqb p' map' = Some l -> limits_ok st l)).
  { induction cs as [|c cs IH]; intros l map Hl Hm; simpl; [eauto|].
    destruct (map_find position_eqb (fst c :: p) map) as [lc|] eqn:E.
    - apply IH; auto. pose proof (Hm _ _ E) as Hc.
      destruct Hc as [Hc|(d & Hc & Hf & Hb)].
      + rewrite Hc. destruct l as [a g]. unfold try_update_furthest_limit, try_update_closest_limit, std_min.
        cbn [closest_limit furthest_limit]. 
        destruct Hl as [Ha|(d & Ha & Hg & Hb)]; cbn [closest_limit furthest_limit] in *; subst a; cbn [m_lt float_metric opt_lt].
        * left; auto.
        * right. exists d. splits; auto. cbn [furthest_limit]. unfold std_max. cbn [m_lt float_metric].
          destruct (opt_lt g (furthest_limit lc)) eqn:E1; auto.
          destruct g as [g|]; [|discriminate]. destruct (furthest_limit lc) as [f|]; cbn [opt_lt] in *; auto.
          rewrite Z.ltb_ge, Z.ltb_lt in *. lia.
      + rewrite Hc. apply lim_closest; auto.
    - apply IH; auto. intros p' l'. rewrite find_put by apply position_eqb_eq.
      destruct (position_eqb p' (fst c :: p)); [intros H; inversion H; subst; apply default_ok|apply Hm]. }
  destruct (F (node_children node) l1 map0 H1 M0) as (l2 & map2 & E2 & H2 & M2).
  match goal with |- context [fold_left ?f (node_children node) ?i] =>
    replace (fold_left f (node_children node) i) with (l2, map2) by (symmetry; exact E2) end.
  eexists l2, _. split; [reflexivity|].
  assert (Hs : same_but_limits st
    (mk_dual (du_buffers st) (du_visited st) (map_put position_eqb p l2 map2) (du_edges st) (du_combinations st) (du_state st))).
  { unfold same_but_limits. cbn. auto. }
  splits; auto.
  - apply (with_limits st (map_put position_eqb p l2 map2) I); [|exact Hs|reflexivity].
    intros p' l. rewrite find_put by apply position_eqb_eq.
    destruct (position_eqb p' p); [intros H; inversion H; subst; auto|apply M2].
Qed.

(** What pruning means. *)
Lemma pruned st l diameter cost : limits_ok st l -> (0 <= diameter)%Z ->
  p_adjusted_below float_pruning (closest_limit l) (furthest_limit l) diameter cost = true ->
  exists c, best st c /\ (c < cost)%Z.
Proof.
  intros Hl Hd H. destruct Hl as [Hc|(c & Hc & Hf & Hb)]; rewrite Hc in H; cbn [p_adjusted_below float_pruning] in H; [discriminate|].
  exists c. split; auto. apply orb_true_iff in H as [H|H].
  - destruct (furthest_limit l) as [f|]; cbn [opt_lt] in *; [|discriminate].
    rewrite Z.ltb_lt in H. rewrite Z.ltb_ge in Hf. lia.
  - eapply sqrt_sum_lt_sound; eauto.
Qed.

Lemma best_le st d d' : best st d -> (d <= d')%Z -> best st d'.
Proof. apply reaches_le. Qed.

(** A pair of samples is covered when it is not eligible or the edge kept is as short. *)
Definition cov (st : state) (x y : nat) : Prop := P y = true -> best st (dst x y).

(** [c] is a lower bound of the distances of two sets. *)
Definition below (c : Z) (xs ys : list nat) : Prop := forall x y, In x xs -> In y ys -> (c <= dst x y)%Z.

Lemma update_cost_ok st p node c xs ys : inv st -> node_first node <= node_last node <= length qarr -> below c xs ys ->
  exists o st', update_cost float_metric float_pruning qarr p node c st = Ok (o, st') /\ inv st' /\
    same_but_limits st st' /\ (o = Some c \/ o = None /\ covered float_metric cov st' xs ys).
Proof.
  intros I Hr Hc. unfold update_cost.
  destruct (node_limits_ok st p node I Hr) as (l & st' & E & I' & Hs & Hl).
  match goal with |- context [bind ?e _] => replace e with (Ok (l, st')) by (symmetry; exact E) end. cbn [bind].
  exists (if @p_adjusted_below (option Z) float_pruning (closest_limit l) (furthest_limit l)
                (aabb_diameter_sq (node_bound node)) c then None else Some c), st'.
  split; [reflexivity|]. splits; auto.
  destruct (p_adjusted_below float_pruning (closest_limit l) (furthest_limit l) (aabb_diameter_sq (node_bound node)) c) eqn:Ep.
  - right. split; auto. destruct (pruned st' l _ _ Hl (diameter_nonneg _) Ep) as (c0 & B & L).
    intros x y Hx Hy _. apply (best_le _ _ _ B). specialize (Hc x y Hx Hy). lia.
  - left. reflexivity.
Qed.

(** The boxes enclose the samples. *)
Lemma encloses_inside s arr b ys x : (forall i, In i arr -> i * nf + nf <= length s) ->
  encloses s nf b ys -> In x ys -> In x arr ->
  inside (map seg_lower (aabb_segments b)) (map seg_upper (aabb_segments b)) (row s nf x).
Proof.
  intros Hd (L & H) Hx Ha. pose proof (row_length s nf (repeat 0%Z nf) (repeat_length _ _) x (Hd x Ha)) as Lr.
  unfold inside. rewrite !map_length, Lr. splits; auto. intros i Hi.
  destruct (nth_error (aabb_segments b) i) as [sg|] eqn:E; [|apply nth_error_None in E; lia].
  specialize (H x i sg Hx E).
  assert (val s nf i x = nth i (row s nf x) 0%Z) as Ev.
  { symmetry. apply (row_nth s nf (repeat 0%Z nf) (repeat_length _ _)); auto. }
  rewrite <- Ev.
  rewrite (nth_indep _ 0%Z (seg_lower (mk_segment 0 0))) by (rewrite map_length; lia).
  rewrite (nth_indep (map seg_upper _) 0%Z (seg_upper (mk_segment 0 0))) by (rewrite map_length; lia).
  rewrite !map_nth, (nth_error_nth _ _ _ E). exact H.
Qed.

Lemma kd_box_bound t : node_bound t = aabb_segments (kd_box t).
Proof. destruct t; reflexivity. Qed.

Lemma sq_sym : forall p q, sq_dist p q = sq_dist q p.
Proof. induction p as [|a p IH]; intros [|b q]; simpl; auto. rewrite IH. lia. Qed.

Lemma enclosed_root s arr t : kd_enclosed s nf arr t -> encloses s nf (kd_box t) (kd_samples arr t).
Proof. destruct t; intros (H & _); exact H. Qed.

Lemma cost_ok st p q r : inv st -> node_first q <= node_last q <= length qarr ->
  kd_enclosed qs nf qarr q -> kd_enclosed rs nf rarr r ->
  exists o st', cost float_metric float_pruning qarr p q r st = Ok (o, st') /\ inv st' /\ same_but_limits st st' /\
    ((exists c, o = Some c /\ below c (kd_samples qarr q) (kd_samples rarr r)) \/
     o = None /\ covered float_metric cov st' (kd_samples qarr q) (kd_samples rarr r)).
Proof using HdataQ HdataR.
  intros I Hr Eq Er. unfold cost.
  pose proof (enclosed_root _ _ _ Eq) as Bq. pose proof (enclosed_root _ _ _ Er) as Br.
  assert (Ll : length (node_bound q) = length (node_bound r)).
  { rewrite !kd_box_bound. destruct Bq as (-> & _), Br as (-> & _). reflexivity. }
  rewrite aabb_min_distance_ok by exact Ll. cbn [bind].
  assert (Hb : below (msq (node_bound q) (node_bound r)) (kd_samples qarr q) (kd_samples rarr r)).
  { intros x y Hx Hy. unfold dst. rewrite sq_sym. apply msq_le; auto; rewrite kd_box_bound.
    - eapply encloses_inside; eauto. eapply kd_samples_in; eauto.
    - eapply encloses_inside; eauto. eapply kd_samples_in; eauto. }
  destruct (update_cost_ok st p q _ _ _ I Hr Hb) as (o & st' & E & I' & Hs & Ho).
  exists o, st'. splits; auto. destruct Ho as [->|Ho]; auto. left. eexists. split; eauto.
Qed.

(** ** Partial searches *)

Lemma search_for_query_ok st r x : inv st -> In x qarr -> node_first r <= node_last r <= length rarr ->
  exists st', search_for_query float_metric qs nf rs nf rarr accept 1 r x st = Ok st' /\ inv st' /\ ext st st' /\
    du_visited st' = du_visited st /\ covered float_metric cov st' [x] (sub rarr (node_first r) (node_last r)).
Proof using HdataQ HdataR Hacc.
  intros I Hx Hr. unfold search_for_query.
  assert (sample_at qs nf x = Ok (row qs nf x)) as ->.
  { apply (sample_at_row qs nf qarr (repeat 0%Z nf) HdataQ (repeat_length _ _) x Hx). }
  cbn [bind].
  set (b := match map_find Nat.eqb x (du_buffers st) with Some b => b | None => make_buffer (m_inf float_metric) 1 end).
  assert (Hb : one x b /\ forall y, b = single x y -> best st (dst x y)).
  { unfold b. destruct (map_find Nat.eqb x (du_buffers st)) as [b0|] eqn:E; [eapply iv_buffers; eauto|].
    split; [left; reflexivity|]. intros y H. discriminate. }
  destruct Hb as (Hone & Hbest).
  destruct (search_one x b (du_state st) (node_first r) (node_last r) Hx Hr (iv_state st I) Hone)
    as (b' & s' & E & Hs & O' & C & M).
  match goal with |- context [bind ?e _] => replace e with (Ok (b', s')) by (symmetry; exact E) end. cbn [bind].
  destruct (queue_one x b' (queue_of st) O' (iv_queue st I)) as (q' & Eq & Kq & Rq & Bq).
  match goal with |- context [bind ?e _] => replace e with (Ok q') by (symmetry; exact Eq) end. cbn [bind].
  destruct q' as (edges & combinations).
  eexists. split; [reflexivity|].
  set (st' := mk_dual _ _ _ _ _ _).
  assert (He : ext st st') by (intros d Hd; exact (Rq d Hd)).
  splits; auto.
  - constructor; auto.
    + intros x' b1. unfold st'. cbn [du_buffers]. rewrite find_put by apply Nat.eqb_eq.
      destruct (Nat.eqb_spec x' x) as [->|Hn].
      * intros E1. inversion E1; subst b1. split; auto.
      * intros E1. destruct (iv_buffers st I x' b1 E1) as (O1 & B1). split; auto.
    + intros p l El. apply (limits_ext st); auto. eapply iv_limits; eauto.
  - intros x' y [<-|[]] Hy Py. destruct (C y Hy Py) as (y' & Eb & L). apply (best_le _ (dst x y')); auto. exact (Bq y' Eb).
Qed.

Lemma partial_search_ok st q r : inv st -> node_first q <= node_last q <= length qarr ->
  node_first r <= node_last r <= length rarr ->
  exists st', partial_search_for_each_query float_metric qs nf qarr rs nf rarr accept 1 q r st = Ok st' /\ inv st' /\
    ext st st' /\ du_visited st' = du_visited st /\
    covered float_metric cov st' (sub qarr (node_first q) (node_last q)) (sub rarr (node_first r) (node_last r)).
Proof using HdataQ HdataR Hacc.
  intros I Hq Hr. unfold partial_search_for_each_query, slice.
  assert ((node_first q <=? node_last q) = true) as -> by (apply Nat.leb_le; lia).
  assert ((node_last q <=? length qarr) = true) as -> by (apply Nat.leb_le; lia).
  cbn [andb bind]. fold (sub qarr (node_first q) (node_last q)).
  assert (Hin : forall x, In x (sub qarr (node_first q) (node_last q)) -> In x qarr).
  { intros x Hx. apply (kd_samples_in qarr (KLeaf (node_first q) (node_last q) (kd_box q))). exact Hx. }
  revert st I. induction (sub qarr (node_first q) (node_last q)) as [|x xs IH]; intros st I.
  - exists st. splits; auto. { intros d H; exact H. } intros x y [].
  - cbn [for_each]. destruct (search_for_query_ok st r x I) as (st1 & E1 & I1 & X1 & V1 & C1); auto.
    { apply Hin; simpl; auto. }
    match goal with |- context [bind ?e _] => replace e with (Ok st1) by (symmetry; exact E1) end. cbn [bind].
    destruct (IH (fun x H => Hin x (or_intror H)) st1 I1) as (st2 & E2 & I2 & X2 & V2 & C2).
    exists st2. splits; auto.
    + intros d H. auto.
    + etransitivity; [exact V2|exact V1].
    + intros x' y [<-|Hx] Hy Py; [apply X2, C1; simpl; auto|apply C2; auto].
Qed.


Lemma traversal_one fuel s : kd_height qroot + kd_height rroot < fuel ->
  kd_ranges qarr qroot -> kd_ranges rarr rroot -> kd_enclosed qs nf qarr qroot -> kd_enclosed rs nf rarr rroot -> Q s ->
  exists st, dual_tree_traversal float_metric float_pruning qs nf qarr rs nf rarr accept 1 right_first fuel
      [] qroot [] rroot None false (mk_dual [] [] [] [] [] s) = Ok st /\ inv st /\
    covered float_metric cov st (kd_samples qarr qroot) (kd_samples rarr rroot).
Proof using HdataQ HdataR Hacc.
  intros Hf Rq Rr Eq Er Hs.
  destruct (traversal_ok float_metric float_pruning qs nf qarr qroot rs rarr rroot accept 1 right_first inv ext cov below)
    with (fuel := fuel) (qp := @nil bool) (q := qroot) (rp := @nil bool) (r := rroot) (oc := @None Z) (bypass := false)
         (st := @mk_dual (option Z) S [] [] [] [] [] s) (stack := @nil (position * position))
    as (st & E & I & _ & _ & C); auto.
  - intros st d H. exact H.
  - intros a b c H1 H2 d H. auto.
  - intros a b x y He H Py. apply He. auto.
  - intros st k I. split; [destruct I; constructor; auto|]. intros d H. exact H.
  - intros st pos q r I Hr Hq1 Hr1. destruct (cost_ok st pos q r I Hr Hq1 Hr1) as (o & st' & E & I' & Hs' & Ho).
    exists o, st'. splits; auto. { now apply same_ext. } apply Hs'.
  - intros st pos q r c I Hr Hb. destruct (update_cost_ok st pos q c _ _ I Hr Hb) as (o & st' & E & I' & Hs' & Ho).
    exists o, st'. splits; auto. { now apply same_ext. } { apply Hs'. }
    destruct Ho as [->|Ho]; auto. left. eauto.
  - intros st q r I Hq Hr. apply partial_search_ok; auto.
  - constructor; cbn; auto; [left; reflexivity|discriminate|discriminate].
  - intros p1 p2 [].
  - intros e [].
  - discriminate.
  - exists st. auto.
Qed.
End One.

(** ** Any number of neighbours and any kind of values: no undefined behaviour on the way, genuine edges *)

Section Any.
Context (m : metric) (dist : list Z -> list Z -> m_dist m) (Hm : metric_ok m dist) (p : pruning (m_dist m)).
Context (qs : list Z) (nf : nat) (qarr : list nat) (qroot : kd).
Context (rs : list Z) (rarr : list nat) (rroot : kd).
Context {S : Type} (accept : nat -> S -> res (bool * S)) (P : nat -> bool) (Q : S -> Prop) (k : nat).
Context (right_first : position -> position -> bool).
Hypothesis HdataQ : forall i, In i qarr -> i * nf + nf <= length qs.
Hypothesis HdataR : forall i, In i rarr -> i * nf + nf <= length rs.
Hypothesis Hacc : forall i s, In i rarr -> Q s -> exists s', accept i s = Ok (P i, s') /\ Q s'.
Hypothesis H1 : 1 <= k.
Hypothesis Hk : fits k.
(** Does the pruning leave nodes alone as long as nothing is known? *)
Context (F : Prop).
Hypothesis HF : F -> forall furthest diameter cost, p_adjusted_below p (m_inf m) furthest diameter cost = false.

Notation D := (m_dist m).
Notation lt := (m_lt m).
Notation inf := (m_inf m).
Notation state := (dual D S).
Notation queue := (list (edge D) * list (nat * nat))%type.

Definition distance_of (x y : nat) : D := dist (row rs nf y) (row qs nf x).
Definition genuine (e : edge D) : Prop :=
  let '(x, y, d) := e in In x qarr /\ In y rarr /\ P y = true /\ d = distance_of x y.

(** The buffer of a query. *)
Definition buffer_ok (x : nat) (b : buffer D) : Prop :=
  buf_max_capacity b = k /\
  exists offers rest, buf_inv lt inf b offers rest /\ forall o, In o offers -> genuine (x, fst o, snd o).

Lemma buffer_ok_entries x b i y d : buffer_ok x b -> nth_error (buf_indices b) i = Some y ->
  nth_error (buf_distances b) i = Some d -> genuine (x, y, d).
Proof.
  intros (_ & offers & rest & I & G) Hy Hd. apply (G (y, d)). eapply Permutation_in; [exact (bi_perm _ _ _ _ _ I)|].
  apply in_or_app. left. apply (nth_error_In _ i). unfold entries.
  revert i Hy Hd. generalize (buf_indices b) (buf_distances b).
  induction l as [|a l IH]; intros [|c l'] [|i] Ha Hc; simpl in *; try discriminate; auto. congruence.
Qed.

Lemma offers_any x : In x qarr -> forall ys b s, (forall y, In y ys -> In y rarr) -> Q s -> buffer_ok x b ->
  exists b' s', for_each ys (offer m rs nf Unbounded (row qs nf x) accept) (b, s) = Ok (b', s') /\ Q s' /\
    buffer_ok x b' /\ (buf_indices b <> [] -> buf_indices b' <> []) /\
    (forall y, In y ys -> P y = true -> buf_indices b' <> []).
Proof using HdataR HdataQ Hacc Hm H1 Hk.
  intros Hx. induction ys as [|y ys IH]; intros b s Hin Hs Hb.
  - exists b, s. splits; auto.
  - cbn [for_each].
    destruct (offer_ok m dist Hm rs nf rarr Unbounded (row qs nf x)
                accept P Q HdataR (row_length qs nf (repeat 0%Z nf) (repeat_length _ _) x (HdataQ x Hx)) Hacc I y b s)
      as (s1 & Hs1 & E); auto. { apply Hin; simpl; auto. }
    rewrite E. unfold elig, within. cbn [andb].
    destruct (P y) eqn:Py.
    + destruct Hb as (Hc & offers & rest & I & G).
      destruct (update_inv lt inf (mo_order m dist Hm) b offers rest y (dist (row rs nf y) (row qs nf x)))
        as (b1 & rest1 & E1 & I1 & C1 & Z1); auto.
      { unfold cap_ok. rewrite Hc. splits; auto; lia. }
      rewrite E1. cbn [bind].
      assert (B1 : buffer_ok x b1).
      { split; [congruence|]. exists (offers ++ [(y, dist (row rs nf y) (row qs nf x))]), rest1. split; auto.
        intros o Ho. apply in_app_iff in Ho as [Ho|[<-|[]]]; auto. cbn. splits; auto. apply Hin; simpl; auto. }
      assert (N1 : buf_indices b1 <> []).
      { intros E0. destruct (bi_empty _ _ _ _ _ I1 E0) as (-> & _). pose proof (bi_perm _ _ _ _ _ I1) as Pm.
        unfold entries in Pm. rewrite E0 in Pm. simpl in Pm. apply Permutation_length in Pm. rewrite app_length in Pm.
        simpl in Pm. lia. }
      destruct (IH b1 s1 (fun z Hz => Hin z (or_intror Hz)) Hs1 B1) as (b2 & s2 & E2 & Hs2 & O2 & M2 & N2).
      exists b2, s2. splits; auto.
    + cbn [bind]. destruct (IH b s1 (fun z Hz => Hin z (or_intror Hz)) Hs1 Hb) as (b2 & s2 & E2 & Hs2 & O2 & M2 & N2).
      exists b2, s2. splits; auto. intros z [<-|Hz] Pz; [congruence|eauto].
Qed.

Lemma search_any x b s first last : In x qarr -> first <= last <= length rarr -> Q s -> buffer_ok x b ->
  exists b' s', partial_search m rs nf rarr Unbounded (row qs nf x) accept first last (b, s) = Ok (b', s') /\
    Q s' /\ buffer_ok x b' /\ (buf_indices b <> [] -> buf_indices b' <> []) /\
    (forall y, In y (sub rarr first last) -> P y = true -> buf_indices b' <> []).
Proof using HdataR HdataQ Hacc Hm H1 Hk.
  intros Hx Hr Hs Hb. unfold partial_search, slice.
  assert ((first <=? last) = true) as -> by (apply Nat.leb_le; lia).
  assert ((last <=? length rarr) = true) as -> by (apply Nat.leb_le; lia).
  cbn [andb bind]. fold (sub rarr first last). apply offers_any; auto.
  intros y Hy. apply (kd_samples_in rarr (KLeaf first last (mk_aabb [] []))). exact Hy.
Qed.

(** The queue. *)
Definition queue_ok (q : queue) : Prop :=
  (forall e, In e (fst q) -> genuine e) /\ incl (snd q) (map fst (fst q)).

Lemma top_edge_ok (edges : list (edge D)) : edges <> [] ->
  exists i e, top_edge lt edges = Ok (i, e) /\ nth_error edges i = Some e.
Proof using Hm H1.
  unfold edge in *. intros H. unfold top_edge.
  destruct (get_max_spec lt (mo_order m dist Hm) (map snd edges)) as (j & v & E & Hj & _).
  { destruct edges; simpl; congruence. }
  rewrite E. cbn [bind]. apply nth_error_lt in Hj. rewrite map_length in Hj.
  destruct (nth_error edges j) as [e|] eqn:Ee; [|apply nth_error_None in Ee; lia].
  exists j, e. split; auto. unfold edge. rewrite (proj2 (rd_ok _ _ _) Ee). reflexivity.
Qed.

Lemma pop_ok q : queue_ok q -> fst q <> [] ->
  exists q', pop_edge lt q = Ok q' /\ queue_ok q' /\ length (fst q) = Datatypes.S (length (fst q')).
Proof using Hm H1.
  destruct q as (edges, combos). intros (G & I) H. cbn [fst snd] in *. unfold pop_edge.
  destruct (top_edge_ok edges H) as (i & e & E & He). rewrite E. cbn [bind].
  eexists. split; [reflexivity|]. cbn [fst snd].
  destruct (nth_error_split edges i He) as (l1 & l2 & -> & L). subst i.
  rewrite firstn_app, firstn_all, Nat.sub_diag, firstn_O, app_nil_r.
  replace (skipn (Datatypes.S (length l1)) (l1 ++ e :: l2)) with l2.
  2:{ symmetry. rewrite skipn_app, skipn_all2 by lia.
      replace (Datatypes.S (length l1) - length l1) with 1 by lia. reflexivity. }
  split; [split|].
  - intros e' He'. apply G. apply in_app_iff in He'. apply in_app_iff. simpl. tauto.
  - intros c Hc. apply filter_In in Hc as (Hc & Hn). apply I in Hc. cbn [fst] in *.
    rewrite map_app in *. cbn [map] in Hc. apply in_app_iff in Hc. apply in_app_iff. destruct Hc as [Hc|[Hc|Hc]]; auto.
    subst c. rewrite (proj2 (pair_eqb_eq (fst e) (fst e)) eq_refl) in Hn. discriminate.
  - rewrite !app_length. simpl. lia.
Qed.

Lemma shrink_ok : forall fuel q, queue_ok q -> length (fst q) <= fuel ->
  exists q', shrink lt fuel k q = Ok q' /\ queue_ok q' /\ (fst q <> [] -> fst q' <> []) /\ length (fst q') <= k.
Proof using Hm H1.
  induction fuel as [|fuel IH]; intros q Hq Hl; cbn [shrink]; destruct (Nat.leb_spec (length (fst q)) k).
  - exists q. auto.
  - lia.
  - exists q. auto.
  - destruct (pop_ok q Hq) as (q1 & E & Q1 & L). { intros E. rewrite E in *. simpl in *. lia. }
    rewrite E. cbn [bind]. destruct (IH q1 Q1) as (q2 & E2 & Q2 & N & L2); [lia|].
    exists q2. splits; auto. intros _. apply N. intros Ee. rewrite Ee in L. simpl in L. lia.
Qed.

Lemma insert_ok q e : queue_ok q -> genuine e ->
  queue_ok (snd (insert_edge q e)) /\ fst (snd (insert_edge q e)) <> [] /\
  (fst (insert_edge q e) = true -> length (fst (snd (insert_edge q e))) = Datatypes.S (length (fst q))).
Proof using H1.
  destruct q as (edges, combos). intros (G & I) He. unfold insert_edge. cbn [fst snd] in *.
  destruct (existsb (pair_eqb (fst e)) combos) eqn:Ex; cbn [fst snd].
  - splits; auto; [split; auto| |discriminate]. apply existsb_exists in Ex as (c & Hc & _). apply I in Hc.
    intros ->. destruct Hc.
  - splits.
    + split.
      * intros e' H. apply in_app_iff in H as [H|[<-|[]]]; auto.
      * intros c Hc. cbn [fst]. rewrite map_app. apply in_app_iff in Hc. apply in_app_iff. simpl. destruct Hc; auto.
    + destruct edges; discriminate.
    + intros _. rewrite app_length. simpl. lia.
Qed.

Lemma furthest_distance_ok edges : exists d, pq_furthest_distance lt inf edges = Ok d.
Proof using Hm H1.
  unfold pq_furthest_distance. destruct edges as [|e edges]; [eauto|].
  destruct (top_edge_ok (e :: edges)) as (i & e' & E & _); [discriminate|]. rewrite E. cbn [bind]. eauto.
Qed.

Lemma buffer_edge_ok x b i : buffer_ok x b -> i < buf_size b -> exists e, buffer_edge x b i = Ok e /\ genuine e.
Proof using H1.
  intros Hb Hi. unfold buffer_edge. pose proof Hb as (_ & offers & rest & I & _).
  pose proof (bi_len _ _ _ _ _ I) as L. unfold buf_size in Hi.
  destruct (nth_error (buf_indices b) i) as [y|] eqn:Ey; [|apply nth_error_None in Ey; lia].
  destruct (nth_error (buf_distances b) i) as [d|] eqn:Ed; [|apply nth_error_None in Ed; lia].
  rewrite (proj2 (rd_ok _ _ _) Ey). cbn [bind]. rewrite (proj2 (rd_ok _ _ _) Ed). cbn [bind].
  eexists. split; [reflexivity|]. eapply buffer_ok_entries; eauto.
Qed.

Lemma queue_any x b q : buffer_ok x b -> queue_ok q ->
  exists q', update_priority_queue lt inf x b q = Ok q' /\ queue_ok q' /\ (fst q <> [] -> fst q' <> []) /\
    (buf_indices b <> [] -> fst q' <> []).
Proof using Hm H1.
  intros Hb Hq. unfold update_priority_queue. pose proof Hb as (Hc & offers & rest & I & _). rewrite Hc.
  destruct (shrink_ok (length (fst q)) q Hq (le_n _)) as (q0 & E0 & Q0 & N0 & L0). rewrite E0. cbn [bind].
  set (step1 := if length (fst q0) + buf_size b <=? k then _ else _).
  assert (S1 : exists q1, step1 = Ok q1 /\ queue_ok q1 /\ (fst q0 <> [] -> fst q1 <> []) /\
            (buf_indices b <> [] -> fst q1 <> [])).
  { unfold step1. destruct (Nat.leb_spec (length (fst q0) + buf_size b) k) as [Hle|Hle].
    - destruct (for_loop_inv (fun i q' => queue_ok q' /\ (fst q0 <> [] -> fst q' <> []) /\ (0 < i -> fst q' <> []))
        (fun i q => e <- buffer_edge x b i ;; Ok (snd (insert_edge q e))) (buf_size b) 0 q0) as (q1 & E1 & Q1 & N1 & M1).
      + splits; auto. intros H. lia.
      + intros i q' Hi (Q' & N' & M'). destruct (buffer_edge_ok x b i Hb) as (e & Ee & Ge); [lia|]. rewrite Ee. cbn [bind].
        eexists. split; [reflexivity|]. destruct (insert_ok q' e Q' Ge) as (A1 & A2 & _). splits; auto.
      + exists q1. splits; auto. intros Hn. apply M1. unfold buf_size. destruct (buf_indices b); [congruence|simpl; lia].
    - exists q0. splits; auto. intros _ Ee. rewrite Ee in Hle. simpl in Hle. pose proof (bi_cap _ _ _ _ _ I). lia. }
  destruct S1 as (q1 & -> & Q1 & N1 & M1). cbn [bind].
  destruct (furthest_distance_ok (fst q1)) as (limit & El). rewrite El. cbn [bind].
  destruct (lt (buf_closest_distance b) limit).
  - match goal with |- context [for_loop ?c ?f ?body q1] => destruct (for_loop_inv
      (fun i q' => queue_ok q' /\ (fst q1 <> [] -> fst q' <> [])) body c f q1) as (q2 & E2 & Q2 & N2) end.
    + auto.
    + intros i q' Hi (Q' & N'). destruct (buffer_edge_ok x b i Hb) as (e & Ee & Ge); [lia|]. rewrite Ee. cbn [bind].
      destruct (furthest_distance_ok (fst q')) as (limit' & El'). rewrite El'. cbn [bind].
      destruct (lt (snd e) limit'); [|exists q'; auto].
      destruct (insert_ok q' e Q' Ge) as (A1 & A2 & A3). destruct (insert_edge q' e) as (inserted, q3). cbn [fst snd] in *.
      destruct (inserted && (k <? length (fst q3))) eqn:Eb; [|exists q3; auto].
      apply andb_true_iff in Eb as (_ & Eb). apply Nat.ltb_lt in Eb.
      destruct (pop_ok q3 A1 A2) as (q4 & E4 & Q4 & L4). exists q4. splits; auto. intros _ E5. rewrite E5 in L4.
      simpl in L4. lia.
    + exists q2. splits; auto.
  - exists q1. splits; auto.
Qed.

(** The state. *)
Definition quiet (st : state) : Prop :=
  (forall x b, map_find Nat.eqb x (du_buffers st) = Some b -> buf_indices b = []) /\
  (forall pos l, map_find position_eqb pos (du_limits st) = Some l -> closest_limit l = inf).

Record any_inv (st : state) : Prop := {
  ai_state : Q (du_state st);
  ai_queue : queue_ok (du_edges st, du_combinations st);
  ai_buffers : forall x b, map_find Nat.eqb x (du_buffers st) = Some b -> buffer_ok x b;
  ai_quiet : du_edges st = [] -> quiet st }.

Definition any_ext (st st' : state) : Prop := du_edges st <> [] -> du_edges st' <> [].
Definition any_cov (st : state) (x y : nat) : Prop := F -> P y = true -> du_edges st <> [].

Lemma node_limits_any st pos node : any_inv st -> node_first node <= node_last node <= length qarr ->
  exists l st', query_node_limits m p qarr pos node st = Ok (l, st') /\ any_inv st' /\ du_edges st' = du_edges st /\
    du_visited st' = du_visited st /\ (du_edges st' = [] -> closest_limit l = inf).
Proof using Hm H1 Hk.
  intros I Hr. unfold query_node_limits, update_bounds_limits, slice.
  assert ((node_first node <=? node_last node) = true) as -> by (apply Nat.leb_le; lia).
  assert ((node_last node <=? length qarr) = true) as -> by (apply Nat.leb_le; lia).
  cbn [andb bind].
  set (l0 := match map_find position_eqb pos (du_limits st) with Some l => l | None => default_limits m p end).
  set (range := firstn (node_last node - node_first node) (skipn (node_first node) qarr)).
  set (l1 := fold_left (query_limits m (du_buffers st)) range l0).
  set (map0 := map_put position_eqb pos l1 (du_limits st)).
  cbn [du_limits du_buffers du_visited du_edges du_combinations du_state].
  destruct (fold_left (child_limits m p pos) (node_children node) (l1, map0)) as (l2, map2) eqn:E2.
  assert (Qt : du_edges st = [] -> closest_limit l2 = inf /\
            forall pos' l, map_find position_eqb pos' map2 = Some l -> closest_limit l = inf).
  { intros He. destruct (ai_quiet st I He) as (Qb & Ql).
    assert (C0 : closest_limit l0 = inf).
    { unfold l0. destruct (map_find position_eqb pos (du_limits st)) eqn:E; [eapply Ql; eauto|reflexivity]. }
    assert (C1 : closest_limit l1 = inf).
    { unfold l1. clear E2 map0 l1. clearbody range l0. revert l0 C0. induction range as [|x range IH]; intros l0 C0; simpl; auto.
      apply IH. unfold query_limits. destruct (map_find Nat.eqb x (du_buffers st)) as [b|] eqn:E; auto.
      assert ((remaining_capacity b =? 0)%Z = false) as ->; auto.
      apply Z.eqb_neq. pose proof (ai_buffers st I x b E) as (Hc & _). unfold remaining_capacity, buf_size.
      rewrite (Qb x b E), Hc. cbn [length]. unfold fits in Hk. rewrite Z.mod_small; lia. }
    assert (M0 : forall pos' l, map_find position_eqb pos' map0 = Some l -> closest_limit l = inf).
    { intros pos' l. unfold map0. rewrite find_put by apply position_eqb_eq.
      destruct (position_eqb pos' pos); [intros H; inversion H; subst; auto|apply Ql]. }
    clearbody l1 map0. revert l1 map0 E2 C1 M0. induction (node_children node) as [|c cs IH]; intros l1 map0 E2 C1 M0.
    - simpl in E2. inversion E2; subst. auto.
    - cbn [fold_left child_limits] in E2.
      destruct (map_find position_eqb (fst c :: pos) map0) as [lc|] eqn:E.
      + apply (IH _ _ E2); auto. unfold try_update_furthest_limit, try_update_closest_limit, std_min. cbn [closest_limit].
        rewrite C1, (M0 _ _ E). destruct (lt inf inf); auto.
      + apply (IH _ _ E2); auto. intros pos' l. rewrite find_put by apply position_eqb_eq.
        destruct (position_eqb pos' (fst c :: pos)); [intros H; inversion H; subst; reflexivity|apply M0]. }
  eexists l2, _. split; [reflexivity|]. cbn [du_edges du_visited]. splits; auto.
  - destruct I as [A1 A2 A3 A4]. constructor; auto. cbn [du_edges du_buffers du_limits]. intros He. destruct (Qt He) as (C2 & M2).
    split; [apply (A4 He)|]. intros pos' l. cbn [du_limits]. rewrite find_put by apply position_eqb_eq.
    destruct (position_eqb pos' pos); [intros H; inversion H; subst; auto|apply M2].
  - apply Qt.
Qed.

Lemma update_cost_any st pos node c xs ys : any_inv st -> node_first node <= node_last node <= length qarr ->
  exists o st', update_cost m p qarr pos node c st = Ok (o, st') /\ any_inv st' /\ any_ext st st' /\
    du_visited st' = du_visited st /\ ((exists c, o = Some c /\ True) \/ o = None /\ covered m any_cov st' xs ys).
Proof using Hm H1 Hk HF.
  intros I Hr. unfold update_cost.
  destruct (node_limits_any st pos node I Hr) as (l & st' & E & I' & He & Hv & Hl). rewrite E. cbn [bind].
  eexists _, st'. split; [reflexivity|]. splits; auto. { unfold any_ext. now rewrite He. }
  destruct (p_adjusted_below p (closest_limit l) (furthest_limit l) (aabb_diameter_sq (node_bound node)) c) eqn:Ep.
  - right. split; auto. intros x y _ _ f _ H0. rewrite (Hl H0) in Ep. rewrite (HF f) in Ep. discriminate.
  - left. eauto.
Qed.

Lemma cost_any st pos q r : any_inv st -> node_first q <= node_last q <= length qarr ->
  kd_enclosed qs nf qarr q -> kd_enclosed rs nf rarr r ->
  exists o st', cost m p qarr pos q r st = Ok (o, st') /\ any_inv st' /\ any_ext st st' /\ du_visited st' = du_visited st /\
    ((exists c, o = Some c /\ True) \/ o = None /\ covered m any_cov st' (kd_samples qarr q) (kd_samples rarr r)).
Proof using Hm H1 Hk HF.
  intros I Hr Eq Er. unfold cost.
  pose proof (enclosed_root _ _ _ _ Eq) as Bq. pose proof (enclosed_root _ _ _ _ Er) as Br.
  assert (Ll : length (node_bound q) = length (node_bound r)).
  { rewrite !kd_box_bound. destruct Bq as (-> & _), Br as (-> & _). reflexivity. }
  rewrite aabb_min_distance_ok by exact Ll. cbn [bind]. apply update_cost_any; auto.
Qed.

Lemma search_for_query_any st r x : any_inv st -> In x qarr -> node_first r <= node_last r <= length rarr ->
  exists st', search_for_query m qs nf rs nf rarr accept k r x st = Ok st' /\ any_inv st' /\ any_ext st st' /\
    du_visited st' = du_visited st /\ covered m any_cov st' [x] (sub rarr (node_first r) (node_last r)).
Proof using HdataQ HdataR Hacc Hm H1 Hk.
  intros I Hx Hr. unfold search_for_query.
  rewrite (sample_at_row qs nf qarr (repeat 0%Z nf) HdataQ (repeat_length _ _) x Hx). cbn [bind].
  set (b := match map_find Nat.eqb x (du_buffers st) with Some b => b | None => make_buffer inf k end).
  assert (Hb : buffer_ok x b).
  { unfold b. destruct (map_find Nat.eqb x (du_buffers st)) as [b0|] eqn:E; [eapply ai_buffers; eauto|].
    split; [reflexivity|]. exists [], []. split; [apply buf_inv_make|]. intros o []. }
  destruct (search_any x b (du_state st) (node_first r) (node_last r) Hx Hr (ai_state st I) Hb)
    as (b' & s' & E & Hs & O' & M & C). rewrite E. cbn [bind].
  destruct (queue_any x b' _ O' (ai_queue st I)) as (q' & Eq & Kq & Rq & Bq). rewrite Eq. cbn [bind].
  destruct q' as (edges & combinations). cbn [fst] in *.
  eexists. split; [reflexivity|]. cbn [du_visited]. splits; auto.
  - constructor; auto; cbn [du_buffers du_edges].
    + intros x' b1. rewrite find_put by apply Nat.eqb_eq. destruct (Nat.eqb_spec x' x) as [->|Hn].
      * intros E1. inversion E1; subst b1. auto.
      * apply ai_buffers; auto.
    + intros ->. assert (Ee : du_edges st = []). { destruct (du_edges st); auto. exfalso. apply Rq; congruence. }
      destruct (ai_quiet st I Ee) as (Qb & Ql). split; auto. cbn [du_buffers].
      intros x' b1. rewrite find_put by apply Nat.eqb_eq. destruct (Nat.eqb_spec x' x) as [->|Hn].
      * intros E1. inversion E1; subst b1. destruct (buf_indices b'); auto. exfalso. apply Bq; congruence.
      * apply Qb.
  - intros x' y [<-|[]] Hy _ Py. cbn [du_edges]. apply Bq. eapply C; eauto.
Qed.

Lemma partial_search_any st q r : any_inv st -> node_first q <= node_last q <= length qarr ->
  node_first r <= node_last r <= length rarr ->
  exists st', partial_search_for_each_query m qs nf qarr rs nf rarr accept k q r st = Ok st' /\ any_inv st' /\
    any_ext st st' /\ du_visited st' = du_visited st /\
    covered m any_cov st' (sub qarr (node_first q) (node_last q)) (sub rarr (node_first r) (node_last r)).
Proof using HdataQ HdataR Hacc Hm H1 Hk.
  intros I Hq Hr. unfold partial_search_for_each_query, slice.
  assert ((node_first q <=? node_last q) = true) as -> by (apply Nat.leb_le; lia).
  assert ((node_last q <=? length qarr) = true) as -> by (apply Nat.leb_le; lia).
  cbn [andb bind]. fold (sub qarr (node_first q) (node_last q)).
  assert (Hin : forall x, In x (sub qarr (node_first q) (node_last q)) -> In x qarr).
  { intros x Hx. apply (kd_samples_in qarr (KLeaf (node_first q) (node_last q) (kd_box q))). exact Hx. }
  revert st I. induction (sub qarr (node_first q) (node_last q)) as [|x xs IH]; intros st I.
  - exists st. splits; auto. { intros H; exact H. } intros x y [].
  - cbn [for_each]. destruct (search_for_query_any st r x I) as (st1 & E1 & I1 & X1 & V1 & C1); auto.
    { apply Hin; simpl; auto. }
    rewrite E1. cbn [bind].
    destruct (IH (fun x H => Hin x (or_intror H)) st1 I1) as (st2 & E2 & I2 & X2 & V2 & C2).
    exists st2. splits; auto.
    + intros H. auto.
    + congruence.
    + intros x' y [<-|Hx] Hy f Py; [apply X2, (C1 x y); simpl; auto|apply (C2 x' y); auto].
Qed.

Lemma traversal_any fuel s : kd_height qroot + kd_height rroot < fuel ->
  kd_ranges qarr qroot -> kd_ranges rarr rroot -> kd_enclosed qs nf qarr qroot -> kd_enclosed rs nf rarr rroot -> Q s ->
  exists st, dual_tree_traversal m p qs nf qarr rs nf rarr accept k right_first fuel
      [] qroot [] rroot None false (mk_dual [] [] [] [] [] s) = Ok st /\ any_inv st /\
    covered m any_cov st (kd_samples qarr qroot) (kd_samples rarr rroot).
Proof using HdataQ HdataR Hacc Hm H1 Hk HF.
  intros Hf Rq Rr Eq Er Hs.
  destruct (traversal_ok m p qs nf qarr qroot rs rarr rroot accept k right_first any_inv any_ext any_cov (fun _ _ _ => True))
    with (fuel := fuel) (qp := @nil bool) (q := qroot) (rp := @nil bool) (r := rroot) (oc := @None Z) (bypass := false)
         (st := @mk_dual D S [] [] [] [] [] s) (stack := @nil (position * position))
    as (st & E & I & _ & _ & C); auto.
  - intros st H. exact H.
  - intros a b c A B H. auto.
  - intros a b x y He H f Py. apply He. auto.
  - intros st key I. split; [destruct I; constructor; auto|]. intros H. exact H.
  - intros st pos q r I Hr Hq1 Hr1. apply cost_any; auto.
  - intros st pos q r c I Hr _. apply update_cost_any; auto.
  - intros st q r I Hq Hr. apply partial_search_any; auto.
  - constructor; cbn; auto; [|discriminate|]; split; cbn; try discriminate; intros e [].
  - intros p1 p2 [].
  - intros e [].
  - exists st. auto.
Qed.
End Any.
