(** Lemmas on DBSCAN. *)
From Coq Require Import List Arith ZArith Lia Bool Permutation Sorted.
From Verif Require Import Base BufferModel DbscanModel DbscanSpec.
Import ListNotations.
Set Default Proof Using "Type".

Definition vis (V : list bool) (x : nat) : Prop := nth_error V x = Some true.
Definition unvisited (V : list bool) : nat := length (filter negb V).

Lemma vis_dec V x : {vis V x} + {~ vis V x}.
Proof. unfold vis. destruct (nth_error V x) as [[|]|]; [left|right|right]; congruence. Qed.

Lemma vis_upd V i x : i < length V -> (vis (upd V i true) x <-> x = i \/ vis V x).
Proof.
  intros H. unfold vis. destruct (Nat.eq_dec x i) as [->|Hne].
  - rewrite nth_error_upd_eq by auto. tauto.
  - rewrite nth_error_upd_neq by auto. tauto.
Qed.

Lemma not_vis V x : x < length V -> ~ vis V x -> nth_error V x = Some false.
Proof.
  intros H Hv. unfold vis in Hv. destruct (nth_error V x) as [[|]|] eqn:E; auto; [congruence|].
  apply nth_error_None in E. lia.
Qed.

Lemma unvisited_upd V x : nth_error V x = Some false -> S (unvisited (upd V x true)) = unvisited V.
Proof.
  intros H. destruct (upd_split V x true false H) as (a & b & -> & _ & ->).
  unfold unvisited. rewrite !filter_app, !app_length. simpl. lia.
Qed.

Lemma unvisited_le V : unvisited V <= length V.
Proof. unfold unvisited. induction V as [|v V IH]; simpl; auto. destruct v; simpl; lia. Qed.

Lemma nth_upd (p : list nat) i j v : i < length p -> nth j (upd p i v) 0 = if j =? i then v else nth j p 0.
Proof.
  intros H. destruct (Nat.eqb_spec j i) as [->|Hne].
  - apply nth_error_nth. now apply nth_error_upd_eq.
  - destruct (nth_error p j) as [y|] eqn:E.
    + rewrite (nth_error_nth p j 0 E). apply nth_error_nth. now rewrite nth_error_upd_neq by auto.
    + apply nth_error_None in E. rewrite !nth_overflow; auto. now rewrite upd_length.
Qed.

Lemma nth_of_error (p : list nat) j x : nth_error p j = Some x -> nth j p 0 = x.
Proof. apply nth_error_nth. Qed.

Lemma filter_length_le {A} (f : A -> bool) l : length (filter f l) <= length l.
Proof. induction l as [|x l IH]; simpl; auto. destruct (f x); simpl; lia. Qed.

Lemma firstn_snoc {A} (l : list A) i x : nth_error l i = Some x -> firstn (S i) l = firstn i l ++ [x].
Proof.
  revert i. induction l as [|a l IH]; intros [|i] H; simpl in *; try discriminate.
  - now inversion H.
  - f_equal. now apply IH.
Qed.

Lemma copy_if_ok {A} (keep : A -> res bool) (f : A -> bool) l :
  (forall x, In x l -> keep x = Ok (f x)) -> copy_if keep l = Ok (filter f l).
Proof.
  induction l as [|x l IH]; intros H; simpl; auto.
  rewrite H by (simpl; auto). cbn [bind]. rewrite IH by (intros; apply H; simpl; auto). reflexivity.
Qed.

Section Run.
Context {D : Type} (n : nat) (near : nat -> nat -> bool) (min : nat) (query : nat -> res (buffer D)).
Context (Hq : forall i, i < n -> exists b, query i = Ok b /\ Permutation (buf_indices b) (filter (near i) (seq 0 n))).
Notation core := (core n near min).
Notation dense := (dense n near min).
Notation founder := (founder n near min).
Notation claims := (claims n near min).

Lemma dense_core_l i j : dense i j -> i < n /\ core i = true.
Proof. destruct 1; auto. Qed.
Lemma dense_core_r i j : dense i j -> j < n /\ core j = true.
Proof. induction 1; auto. Qed.
Lemma dense_trans i j k : dense i j -> dense j k -> dense i k.
Proof. induction 1; auto. intros. econstructor; eauto. Qed.
Lemma dense_snoc i j k : dense i j -> near j k = true -> k < n -> core k = true -> dense i k.
Proof.
  intros H Hn Hk Hc. apply (dense_trans i j k H). apply dense_core_r in H as [H1 H2].
  apply (dense_step n near min j k k); auto. constructor; auto.
Qed.
Lemma dense_sym : (forall i j, i < n -> j < n -> near i j = near j i) -> forall i j, dense i j -> dense j i.
Proof.
  intros Hs i j H. induction H as [i Hi Hc|i j k Hi Hc Hn H IH]; [constructor; auto|].
  apply (dense_snoc k j i); auto. apply dense_core_l in H as [Hj _]. now rewrite Hs.
Qed.

Lemma ball i : i < n -> exists b, query i = Ok b /\ (min <? buf_size b) = core i /\
  (forall x, In x (buf_indices b) <-> x < n /\ near i x = true) /\ length (buf_indices b) <= n.
Proof using Hq.
  intros Hi. destruct (Hq i Hi) as (b & E & P). exists b. splits; auto.
  - unfold DbscanSpec.core, buf_size. now rewrite (Permutation_length P).
  - intros x. split; intros H.
    + eapply Permutation_in in H; [|exact P]. apply filter_In in H as [H1 H2]. apply in_seq in H1. split; auto; lia.
    + eapply Permutation_in; [symmetry; exact P|]. apply filter_In. split; [apply in_seq; lia|tauto].
  - rewrite (Permutation_length P). etransitivity; [apply filter_length_le|]. now rewrite seq_length.
Qed.

(** ** The inner loop *)
Section Inner.
Context (e c : nat) (V0 : list bool) (p0 : list nat).

Record inner (pos : nat) (L : list nat) (V : list bool) (p : list nat) : Prop := {
  in_V : length V = n;
  in_p : length p = n;
  in_pos : pos <= length L;
  in_L : forall x, In x L -> x < n;
  in_vis : forall x, vis V x <-> vis V0 x \/ In x (firstn pos L);
  in_origin : forall x, In x L -> near e x = true \/
    (~ vis V0 x /\ exists y, dense e y /\ (y = e \/ (In y L /\ ~ vis V0 y)) /\ near y x = true);
  in_first : forall x, x < n -> near e x = true -> In x L;
  in_next : forall y x, In y (firstn pos L) -> ~ vis V0 y -> core y = true -> x < n -> near y x = true ->
    vis V0 x \/ In x L;
  in_kept : forall x, nth x p0 0 <> 0 -> nth x p 0 = nth x p0 0;
  in_given : forall x, nth x p0 0 = 0 -> In x (firstn pos L) -> nth x p 0 = S c;
  in_none : forall x, nth x p0 0 = 0 -> ~ In x (firstn pos L) -> nth x p 0 = 0 }.

Lemma inner_ok : core e = true -> e < n ->
  forall fuel pos L V p, inner pos L V p -> length L - pos + n * unvisited V < fuel ->
  exists L' V' p', predict_inner min query fuel pos L V p (S c) = Ok (V', p') /\ inner (length L') L' V' p'.
Proof using Hq.
  intros Hce Hen. induction fuel as [|fuel IH]; intros pos L V p I Hf; [lia|].
  cbn [predict_inner]. destruct (Nat.ltb_spec pos (length L)) as [Hpos|Hpos].
  2:{ exists L, V, p. split; auto. assert (pos = length L) by (pose proof (in_pos _ _ _ _ I); lia). now subst. }
  destruct (nth_error L pos) as [x|] eqn:Ex; [|apply nth_error_None in Ex; lia].
  rewrite (proj2 (rd_ok L pos x) Ex). cbn [bind].
  assert (HxL : In x L) by (eapply nth_error_In; eauto).
  pose proof (in_L _ _ _ _ I x HxL) as Hxn.
  assert (Hfn : forall y, In y (firstn (S pos) L) <-> In y (firstn pos L) \/ y = x).
  { intros y. rewrite (firstn_snoc L pos x Ex), in_app_iff. simpl. intuition. }
  assert (Hp : exists p', (prediction <- rd p x ;; if prediction =? 0 then wr p x (S c) else Ok p) = Ok p' /\ length p' = n /\
    (forall y, nth y p0 0 <> 0 -> nth y p' 0 = nth y p0 0) /\
    (forall y, nth y p0 0 = 0 -> In y (firstn (S pos) L) -> nth y p' 0 = S c) /\
    (forall y, nth y p0 0 = 0 -> ~ In y (firstn (S pos) L) -> nth y p' 0 = 0)).
  { destruct (nth_error p x) as [v|] eqn:Ev; [|apply nth_error_None in Ev; pose proof (in_p _ _ _ _ I); lia].
    rewrite (proj2 (rd_ok p x v) Ev). cbn [bind]. apply nth_of_error in Ev.
    assert (Hlp : x < length p) by (pose proof (in_p _ _ _ _ I); lia).
    destruct (Nat.eqb_spec v 0) as [Hv|Hv].
    - exists (upd p x (S c)). rewrite wr_lt by auto. splits; auto.
      + rewrite upd_length. apply I.
      + intros y Hy. rewrite nth_upd by auto. destruct (Nat.eqb_spec y x) as [->|Hne]; [|now apply I].
        pose proof (in_kept _ _ _ _ I x Hy). congruence.
      + intros y Hy Hin. rewrite nth_upd by auto. destruct (Nat.eqb_spec y x) as [->|Hne]; auto.
        apply I; auto. apply Hfn in Hin. tauto.
      + intros y Hy Hin. rewrite Hfn in Hin. rewrite nth_upd by auto. destruct (Nat.eqb_spec y x) as [->|Hne]; [tauto|].
        apply I; auto.
    - exists p. splits; auto.
      + apply I.
      + apply I.
      + intros y Hy Hin. apply Hfn in Hin as [Hin| ->]; [apply I; auto|].
        destruct (in_dec Nat.eq_dec x (firstn pos L)) as [Hin|Hin]; [apply I; auto|].
        pose proof (in_none _ _ _ _ I x Hy Hin). congruence.
      + intros y Hy Hin. rewrite Hfn in Hin. apply I; tauto. }
  destruct Hp as (p' & Ep & Lp & Hp1 & Hp2 & Hp3).
  destruct (nth_error V x) as [v|] eqn:Ev; [|apply nth_error_None in Ev; pose proof (in_V _ _ _ _ I); lia].
  rewrite (proj2 (rd_ok V x v) Ev). cbn [bind]. destruct v.
  - (* already visited *)
    cbn [bind]. destruct (rd p x) as [v| | |] eqn:Er; try discriminate. cbn [bind] in Ep |- *. rewrite Ep. cbn [bind].
    apply IH; [|lia]. constructor; auto; try apply I; try lia.
    + intros y. rewrite Hfn, (in_vis _ _ _ _ I y). split; [tauto|]. intros [H|[H|H]]; auto. subst y. apply (in_vis _ _ _ _ I x). exact Ev.
    + intros y z Hy. apply Hfn in Hy as [Hy| ->]; [apply (in_next _ _ _ _ I y z); auto|].
      intros Hv0. apply (in_next _ _ _ _ I x z); auto.
      destruct (proj1 (in_vis _ _ _ _ I x) Ev); tauto.
  - (* new *)
    assert (HxV : x < length V) by (eapply nth_error_lt; eauto).
    rewrite wr_lt by auto. cbn [bind].
    destruct (ball x Hxn) as (b & Eb & Es & Hb & Hbn). rewrite Eb. cbn [bind]. rewrite Es.
    assert (HnV0 : ~ vis V0 x).
    { intros H. assert (vis V x) by (apply (in_vis _ _ _ _ I x); auto). unfold vis in *. congruence. }
    assert (Hdx : core x = true -> dense e x).
    { intros Hc. destruct (in_origin _ _ _ _ I x HxL) as [H|(_ & y & Hy & _ & H)].
      - apply (dense_snoc e e x); auto. now constructor.
      - apply (dense_snoc e y x); auto. }
    assert (HV : forall y, vis (upd V x true) y <-> vis V0 y \/ In y (firstn (S pos) L)).
    { intros y. rewrite vis_upd, Hfn, (in_vis _ _ _ _ I y) by auto. tauto. }
    pose proof (unvisited_upd V x Ev) as Hun.
    destruct (core x) eqn:Hc.
    + (* core: its unvisited neighbours are appended *)
      rewrite (copy_if_ok _ (fun i => negb (nth i (upd V x true) false))).
      2:{ intros y Hy. apply Hb in Hy as [Hy _]. unfold rd.
          rewrite (nth_error_nth' (upd V x true) y false) by (rewrite upd_length; pose proof (in_V _ _ _ _ I); lia). reflexivity. }
      cbn [bind]. destruct (rd p x) as [v| | |] eqn:Er; try discriminate. cbn [bind] in Ep |- *. rewrite Ep. cbn [bind].
      set (kept := filter _ _).
      assert (Hk : forall y, In y kept <-> y < n /\ near x y = true /\ ~ vis (upd V x true) y).
      { intros y. unfold kept. rewrite filter_In, Hb. split.
        - intros [[H1 H2] H3]. splits; auto. intros Hv. unfold vis in Hv. apply (nth_error_nth _ _ false) in Hv.
          rewrite Hv in H3. discriminate.
        - intros (H1 & H2 & H3). splits; auto.
          apply not_vis in H3; [|rewrite upd_length; pose proof (in_V _ _ _ _ I); lia].
          now rewrite (nth_error_nth _ _ false H3). }
      assert (Hkn : length kept <= n). { unfold kept. etransitivity; [apply filter_length_le|exact Hbn]. }
      assert (Hfn' : forall y, In y (firstn (S pos) (L ++ kept)) <-> In y (firstn (S pos) L)).
      { intros y. rewrite firstn_app. replace (S pos - length L) with 0 by lia. now rewrite app_nil_r. }
      apply IH; [|rewrite app_length; nia]. constructor; auto.
      * rewrite upd_length. apply I.
      * rewrite app_length. lia.
      * intros y Hy. apply in_app_iff in Hy as [Hy|Hy]; [now apply I|]. now apply Hk in Hy.
      * intros y. rewrite Hfn'. apply HV.
      * intros y Hy. apply in_app_iff in Hy as [Hy|Hy].
        -- destruct (in_origin _ _ _ _ I y Hy) as [H|(H1 & z & H2 & H3 & H4)]; auto. right. split; auto.
           exists z. splits; auto. destruct H3 as [H3|[H3 H5]]; auto. right. split; auto. apply in_app_iff. auto.
        -- apply Hk in Hy as (Hy1 & Hy2 & Hy3). right. split.
           ++ intros H. apply Hy3, HV. auto.
           ++ exists x. splits; auto. right. split; auto. apply in_app_iff. auto.
      * intros y Hy Hn. apply in_app_iff. left. now apply I.
      * intros y z Hy Hy0 Hyc Hz Hyz. apply Hfn', Hfn in Hy as [Hy| ->].
        -- destruct (in_next _ _ _ _ I y z Hy Hy0 Hyc Hz Hyz) as [H|H]; auto. right. apply in_app_iff. auto.
        -- destruct (vis_dec (upd V x true) z) as [H|H].
           ++ apply HV in H as [H|H]; auto. right. apply in_app_iff. left. apply Hfn in H as [H| ->]; auto.
              eapply (In_nth_error) in H as [k Hk']. assert (In z (firstn pos L ++ skipn pos L)).
              { apply in_app_iff. left. eapply nth_error_In; eauto. } now rewrite firstn_skipn in H.
           ++ right. apply in_app_iff. right. now apply Hk.
      * intros y Hy Hin. apply Hp2; auto. now apply Hfn'.
      * intros y Hy Hin. apply Hp3; auto. now rewrite <- Hfn'.
    + (* border *)
      cbn [bind]. destruct (rd p x) as [v| | |] eqn:Er; try discriminate. cbn [bind] in Ep |- *. rewrite Ep. cbn [bind].
      apply IH; [|nia]. constructor; auto; try apply I.
      * rewrite upd_length. apply I.
      * intros y z Hy Hy0 Hyc Hz Hyz. apply Hfn in Hy as [Hy| ->]; [|congruence].
        apply (in_next _ _ _ _ I y z); auto.
Qed.
End Inner.

(** What a finished inner loop did. *)
Lemma inner_start e c V0 p0 L : e < n -> length V0 = n -> length p0 = n ->
  (forall x, In x L <-> x < n /\ near e x = true) -> inner e c V0 p0 0 L V0 p0.
Proof.
  intros He LV Lp HL. constructor; auto; simpl; try tauto; try lia.
  - intros x Hx. now apply HL in Hx.
  - intros x Hx. left. now apply HL in Hx.
  - intros x Hx Hn. now apply HL.
Qed.

(** The call of the inner loop from a core entry point. *)
Lemma found_cluster e c V p : e < n -> core e = true -> length V = n -> length p = n -> ~ vis V e ->
  exists L V' p', entry_point min query n e (c, V, p) = Ok (S c, V', p') /\
    inner e c (upd V e true) (upd p e (S c)) (length L) L V' p'.
Proof using Hq.
  intros He Hc LV Lp Hv. destruct (ball e He) as (b & E & Es & Hb & Hbn).
  destruct (inner_ok e c (upd V e true) (upd p e (S c)) Hc He (n * n + n + 1) 0 (buf_indices b) (upd V e true) (upd p e (S c)))
    as (L & V' & p' & E' & I).
  - apply inner_start; auto; now rewrite upd_length.
  - pose proof (unvisited_le (upd V e true)) as H. rewrite upd_length in H. nia.
  - exists L, V', p'. split; auto. unfold entry_point.
    rewrite (proj2 (rd_ok V e false)) by (apply not_vis; auto; lia). cbn [bind].
    rewrite wr_lt by lia. cbn [bind]. rewrite E. cbn [bind]. rewrite Es, Hc, wr_lt by lia. cbn [bind].
    rewrite E'. reflexivity.
Qed.

(** ** The outer loop, any neighbourhood relation *)
Record weak (i c : nat) (V : list bool) (p : list nat) : Prop := {
  wk_V : length V = n;
  wk_p : length p = n;
  wk_seen : forall j, j < i -> vis V j;
  wk_label : forall x, nth x p 0 <> 0 -> vis V x;
  wk_core : forall x, vis V x -> core x = true -> nth x p 0 <> 0;
  wk_max : forall x, nth x p 0 <= c;
  wk_all : forall k, 1 <= k <= c -> exists x, x < n /\ core x = true /\ nth x p 0 = k;
  wk_border : forall x, core x = false -> nth x p 0 <> 0 ->
    exists y, y < n /\ core y = true /\ nth y p 0 = nth x p 0 /\ near y x = true }.

Lemma weak_step i c V p : i < n -> weak i c V p ->
  exists c' V' p', entry_point min query n i (c, V, p) = Ok (c', V', p') /\ weak (S i) c' V' p'.
Proof using Hq.
  intros Hi W. destruct (vis_dec V i) as [Hv|Hv].
  { exists c, V, p. split.
    - unfold entry_point. now rewrite (proj2 (rd_ok V i true) Hv).
    - constructor; try apply W. intros j Hj. destruct (Nat.eq_dec j i) as [->|]; auto. apply (wk_seen _ _ _ _ W); lia. }
  assert (Hi0 : nth i p 0 = 0).
  { destruct (Nat.eq_dec (nth i p 0) 0); auto. exfalso. apply Hv. now apply (wk_label _ _ _ _ W). }
  assert (LV : i < length V) by (pose proof (wk_V _ _ _ _ W); lia).
  assert (Lp : i < length p) by (pose proof (wk_p _ _ _ _ W); lia).
  destruct (core i) eqn:Hc.
  - destruct (found_cluster i c V p Hi Hc (wk_V _ _ _ _ W) (wk_p _ _ _ _ W) Hv) as (L & V' & p' & E & I).
    exists (S c), V', p'. split; auto.
    assert (HV : forall x, vis V' x <-> x = i \/ vis V x \/ In x L).
    { intros x. rewrite (in_vis _ _ _ _ _ _ _ _ I x), vis_upd, firstn_all by auto. tauto. }
    assert (Hp : forall x, nth x p' 0 = if nth x p 0 =? 0 then if (x =? i) || existsb (Nat.eqb x) L then S c else 0 else nth x p 0).
    { intros x. pose proof (in_kept _ _ _ _ _ _ _ _ I x) as H1. pose proof (in_given _ _ _ _ _ _ _ _ I x) as H2.
      pose proof (in_none _ _ _ _ _ _ _ _ I x) as H3. rewrite firstn_all in H2, H3. rewrite nth_upd in H1, H2, H3 by auto.
      destruct (Nat.eqb_spec x i) as [Ex|Hne].
      - rewrite Ex, Hi0. simpl. rewrite <- Ex. apply H1. lia.
      - simpl. destruct (Nat.eqb_spec (nth x p 0) 0) as [E0|E0]; [|now apply H1].
        destruct (existsb (Nat.eqb x) L) eqn:Ein.
        + apply existsb_exists in Ein as (y & Hy & Ey). apply Nat.eqb_eq in Ey. subst y. auto.
        + apply H3; auto. intros Hin. assert (existsb (Nat.eqb x) L = true); [|congruence].
          apply existsb_exists. exists x. split; auto. apply Nat.eqb_refl. }
    assert (Hin : forall x, existsb (Nat.eqb x) L = true <-> In x L).
    { intros x. rewrite existsb_exists. split.
      - intros (y & Hy & Ey). apply Nat.eqb_eq in Ey. now subst.
      - intros Hx. exists x. split; auto. apply Nat.eqb_refl. }
    constructor.
    + apply I.
    + apply I.
    + intros j Hj. apply HV. destruct (Nat.eq_dec j i) as [->|]; auto. right; left. apply (wk_seen _ _ _ _ W); lia.
    + intros x Hx. apply HV. rewrite Hp in Hx. destruct (Nat.eqb_spec (nth x p 0) 0) as [E0|E0].
      * destruct (Nat.eqb_spec x i) as [Exi|]; auto. destruct (existsb (Nat.eqb x) L) eqn:Ein; simpl in Hx; [|congruence].
        apply Hin in Ein. auto.
      * right; left. now apply (wk_label _ _ _ _ W).
    + intros x Hx Hcx. rewrite Hp. destruct (Nat.eqb_spec (nth x p 0) 0) as [E0|E0]; auto.
      apply HV in Hx as [->|[Hx|Hx]].
      * now rewrite Nat.eqb_refl.
      * exfalso. now apply (wk_core _ _ _ _ W x).
      * apply Hin in Hx. rewrite Hx, orb_true_r. lia.
    + intros x. rewrite Hp. pose proof (wk_max _ _ _ _ W x). destruct (_ =? 0); [destruct (_ || _)|]; lia.
    + intros k Hk. destruct (Nat.eq_dec k (S c)) as [->|Hne].
      * exists i. splits; auto. now rewrite Hp, Hi0, !Nat.eqb_refl.
      * destruct (wk_all _ _ _ _ W k) as (x & Hx & Hcx & Ex); [lia|]. exists x. splits; auto. rewrite Hp, Ex.
        destruct (Nat.eqb_spec k 0); [lia|auto].
    + intros x Hcx Hx. pose proof (Hp x) as Ex. destruct (Nat.eqb_spec (nth x p 0) 0) as [E0|E0].
      * destruct (Nat.eqb_spec x i) as [Exi|Hne]; [congruence|]. simpl in Ex.
        destruct (existsb (Nat.eqb x) L) eqn:Ein; [|congruence]. rewrite Ex. apply Hin in Ein.
        assert (HI : nth i p' 0 = S c) by (now rewrite Hp, Hi0, !Nat.eqb_refl).
        destruct (in_origin _ _ _ _ _ _ _ _ I x Ein) as [H|(Hx0 & y & Hd & Hy & Hyx)]; [exists i; auto|].
        apply dense_core_r in Hd as [Hyn Hyc].
        destruct Hy as [->|[HyL Hy0]]; [exists i; auto|]. exists y. splits; auto.
        rewrite Hp. destruct (Nat.eqb_spec (nth y p 0) 0) as [Ey|Ey].
        -- apply Hin in HyL. now rewrite HyL, orb_true_r.
        -- exfalso. apply Hy0. apply vis_upd; auto. right. now apply (wk_label _ _ _ _ W).
      * rewrite Ex. destruct (wk_border _ _ _ _ W x Hcx E0) as (y & Hyn & Hyc & Ey & Hn). exists y. splits; auto.
        rewrite Hp, Ey. destruct (Nat.eqb_spec (nth x p 0) 0); congruence.
  - destruct (ball i Hi) as (b & E & Es & Hb & Hbn).
    assert (Ep : upd p i 0 = p). { apply upd_same. rewrite (nth_error_nth' p i 0) by auto. congruence. }
    exists c, (upd V i true), p. split.
    + unfold entry_point. rewrite (proj2 (rd_ok V i false)) by (apply not_vis; auto). cbn [bind].
      rewrite wr_lt by auto. cbn [bind]. rewrite E. cbn [bind]. rewrite Es, Hc, wr_lt by auto. cbn [bind]. now rewrite Ep.
    + constructor; try apply W.
      * rewrite upd_length. apply W.
      * intros j Hj. apply vis_upd; auto. destruct (Nat.eq_dec j i) as [->|]; auto. right. apply (wk_seen _ _ _ _ W); lia.
      * intros x Hx. apply vis_upd; auto. right. now apply (wk_label _ _ _ _ W).
      * intros x Hx Hcx. apply vis_upd in Hx as [->|Hx]; auto; [congruence|]. now apply (wk_core _ _ _ _ W).
Qed.

Lemma nth_repeat0 x k : nth x (repeat 0 k) 0 = 0.
Proof. revert x. induction k; intros [|x]; simpl; auto. Qed.
Lemma vis_repeat x k : ~ vis (repeat false k) x.
Proof. unfold vis. intros H. apply nth_error_In, repeat_spec in H. discriminate. Qed.

Lemma predict_weak : exists c V p, predict_all min query n = Ok p /\ weak n c V p.
Proof using Hq.
  destruct (for_loop_inv (fun i s => weak i (fst (fst s)) (snd (fst s)) (snd s)) (entry_point min query n) n 0
    (0, repeat false n, repeat 0 n)) as ([[c V] p] & E & W).
  - constructor; simpl; try apply repeat_length; try lia.
    + intros x H. now rewrite nth_repeat0 in H.
    + intros x H. now apply vis_repeat in H.
    + intros x. rewrite nth_repeat0. lia.
    + intros x _ H. now rewrite nth_repeat0 in H.
  - intros i [[c V] p] Hi W. simpl in W. destruct (weak_step i c V p) as (c' & V' & p' & E & W'); [lia|auto|].
    exists (c', V', p'). auto.
  - exists c, V, p. split; auto. unfold predict_all. rewrite E. reflexivity.
Qed.

(** ** The outer loop, symmetric neighbourhood relation *)
Context (Hsym : forall i j, i < n -> j < n -> near i j = near j i).

Definition label_of (F : list nat) (p : list nat) (x : nat) : Prop :=
  (nth x p 0 = 0 /\ forall e, In e F -> ~ claims e x) \/
  (exists c e, nth_error F c = Some e /\ nth x p 0 = S c /\ claims e x /\
     forall c' e', c' < c -> nth_error F c' = Some e' -> ~ claims e' x).

Record strong (i c : nat) (V : list bool) (p : list nat) (F : list nat) : Prop := {
  st_V : length V = n;
  st_p : length p = n;
  st_F : length F = c;
  st_sorted : StronglySorted lt F;
  st_founder : forall e, In e F -> e < i /\ founder e;
  st_seen : forall j, j < i -> vis V j;
  st_core : forall x, vis V x -> core x = true -> exists e, In e F /\ dense e x;
  st_closed : forall e x, In e F -> dense e x -> vis V x;
  st_label : forall x, x < n -> label_of F p x;
  st_noise : forall x, vis V x -> nth x p 0 = 0 -> x < i;
  st_vis : forall x, nth x p 0 <> 0 -> vis V x }.

Lemma sorted_snoc F i : StronglySorted lt F -> (forall e, In e F -> e < i) -> StronglySorted lt (F ++ [i]).
Proof.
  induction F as [|a F IH]; intros Hs Hlt; simpl; [repeat constructor|].
  inversion Hs as [|? ? H1 H2]; subst. constructor.
  - apply IH; auto. intros e He. apply Hlt. simpl; auto.
  - rewrite Forall_forall in *. intros x Hx. apply in_app_iff in Hx as [Hx|[<-|[]]]; auto. apply Hlt. simpl; auto.
Qed.

Lemma strong_step i c V p F : i < n -> strong i c V p F ->
  exists c' V' p' F', entry_point min query n i (c, V, p) = Ok (c', V', p') /\ strong (S i) c' V' p' F'.
Proof using Hq Hsym.
  intros Hi W. destruct (vis_dec V i) as [Hv|Hv].
  { exists c, V, p, F. split.
    - unfold entry_point. now rewrite (proj2 (rd_ok V i true) Hv).
    - constructor; try apply W.
      + intros e He. apply (st_founder _ _ _ _ _ W) in He as [He1 He2]. split; auto.
      + intros j Hj. destruct (Nat.eq_dec j i) as [->|]; auto. apply (st_seen _ _ _ _ _ W); lia.
      + intros x Hx Hx0. apply (st_noise _ _ _ _ _ W) in Hx; auto. }
  assert (Hi0 : nth i p 0 = 0).
  { destruct (Nat.eq_dec (nth i p 0) 0); auto. exfalso. apply Hv. now apply (st_vis _ _ _ _ _ W). }
  assert (LV : i < length V) by (pose proof (st_V _ _ _ _ _ W); lia).
  assert (Lp : i < length p) by (pose proof (st_p _ _ _ _ _ W); lia).
  destruct (core i) eqn:Hc.
  - destruct (found_cluster i c V p Hi Hc (st_V _ _ _ _ _ W) (st_p _ _ _ _ _ W) Hv) as (L & V' & p' & E & I).
    exists (S c), V', p', (F ++ [i]). split; auto.
    assert (Hii : dense i i) by (now constructor).
    assert (Hfresh : forall x, vis V x -> core x = true -> ~ dense i x).
    { intros x Hx Hcx Hd. destruct (st_core _ _ _ _ _ W x Hx Hcx) as (e & He & Hex). apply Hv.
      apply (st_closed _ _ _ _ _ W e i He). apply (dense_trans e x i); auto. now apply dense_sym. }
    assert (HV : forall x, vis V' x <-> x = i \/ vis V x \/ In x L).
    { intros x. rewrite (in_vis _ _ _ _ _ _ _ _ I x), vis_upd, firstn_all by auto. tauto. }
    assert (HV0 : forall x, vis (upd V i true) x <-> x = i \/ vis V x) by (intros; now apply vis_upd).
    (* the cluster is covered *)
    assert (Hcov : forall y x, dense y x -> dense i y -> (y = i \/ (In y L /\ ~ vis (upd V i true) y)) ->
                   x = i \/ (In x L /\ ~ vis (upd V i true) x)).
    { intros y x Hd. induction Hd as [y Hy Hcy|y j x Hy Hcy Hyj Hd IH]; auto. intros Hiy HyL.
      pose proof (dense_core_l _ _ Hd) as [Hj Hcj].
      assert (Hij : dense i j) by (apply (dense_snoc i y j); auto). apply IH; auto.
      destruct (Nat.eq_dec j i) as [->|Hne]; auto. right.
      assert (Hj0 : ~ vis (upd V i true) j).
      { intros H. apply HV0 in H as [H|H]; auto. apply (Hfresh j H Hcj Hij). }
      split; auto. destruct HyL as [->|[HyL Hy0]].
      - apply (in_first _ _ _ _ _ _ _ _ I j Hj Hyj).
      - destruct (in_next _ _ _ _ _ _ _ _ I y j) as [H|H]; auto; [now rewrite firstn_all|contradiction]. }
    assert (Hcov' : forall x, dense i x -> x = i \/ (In x L /\ ~ vis (upd V i true) x)).
    { intros x Hd. apply (Hcov i x); auto. }
    assert (Hfound : founder i).
    { unfold DbscanSpec.founder. splits; auto. intros j Hj. destruct (le_lt_dec i j) as [|Hlt]; auto. exfalso.
      apply (Hfresh j); auto; [now apply (st_seen _ _ _ _ _ W)|]. now apply dense_core_r in Hj. }
    (* membership in the work list *)
    assert (HL : forall x, x < n -> x <> i -> nth x p 0 = 0 -> (In x L <-> claims i x)).
    { intros x Hx Hne Hx0. split.
      - intros Hin. destruct (core x) eqn:Hcx.
        + left. split; auto. destruct (in_origin _ _ _ _ _ _ _ _ I x Hin) as [H|(_ & y & Hy & _ & H)].
          * apply (dense_snoc i i x); auto.
          * apply (dense_snoc i y x); auto.
        + right. split; auto. destruct (in_origin _ _ _ _ _ _ _ _ I x Hin) as [H|(Hv0 & y & Hy & _ & H)]; auto.
          right. split; eauto. destruct (le_lt_dec x i) as [Hle|]; auto. exfalso. apply Hv0, HV0. right.
          apply (st_seen _ _ _ _ _ W). lia.
      - intros [[Hcx Hd]|[Hcx [H|(Hlt & y & Hy & H)]]].
        + destruct (Hcov' x Hd) as [?|[? _]]; [contradiction|auto].
        + apply (in_first _ _ _ _ _ _ _ _ I x Hx H).
        + assert (Hx0' : ~ vis (upd V i true) x).
          { intros Hvx. apply HV0 in Hvx as [?|Hvx]; [contradiction|]. apply (st_noise _ _ _ _ _ W) in Hvx; auto. lia. }
          destruct (Hcov' y Hy) as [->|[HyL Hy0]].
          * apply (in_first _ _ _ _ _ _ _ _ I x Hx H).
          * destruct (in_next _ _ _ _ _ _ _ _ I y x) as [?|?]; auto; [now rewrite firstn_all| |contradiction].
            now apply dense_core_r in Hy. }
    assert (Hk : forall x, nth x p 0 <> 0 -> nth x p' 0 = nth x p 0).
    { intros x Hx. pose proof (in_kept _ _ _ _ _ _ _ _ I x) as H. rewrite nth_upd in H by auto.
      destruct (Nat.eqb_spec x i) as [Exi|]; [congruence|auto]. }
    assert (Hpi : nth i p' 0 = S c).
    { pose proof (in_kept _ _ _ _ _ _ _ _ I i) as H. rewrite nth_upd, Nat.eqb_refl in H by auto. apply H. lia. }
    assert (Hg : forall x, x <> i -> nth x p 0 = 0 -> In x L -> nth x p' 0 = S c).
    { intros x Hx Hx0 Hin. pose proof (in_given _ _ _ _ _ _ _ _ I x) as H. rewrite firstn_all, nth_upd in H by auto.
      destruct (Nat.eqb_spec x i); [contradiction|auto]. }
    assert (Hn : forall x, x <> i -> nth x p 0 = 0 -> ~ In x L -> nth x p' 0 = 0).
    { intros x Hx Hx0 Hin. pose proof (in_none _ _ _ _ _ _ _ _ I x) as H. rewrite firstn_all, nth_upd in H by auto.
      destruct (Nat.eqb_spec x i); [contradiction|auto]. }
    assert (HF : nth_error (F ++ [i]) c = Some i).
    { rewrite nth_error_app2 by (rewrite (st_F _ _ _ _ _ W); lia). now rewrite (st_F _ _ _ _ _ W), Nat.sub_diag. }
    assert (Hnone : forall x, x < n -> nth x p 0 = 0 -> forall e, In e F -> ~ claims e x).
    { intros x Hx Hx0. destruct (st_label _ _ _ _ _ W x Hx) as [[_ H]|(c0 & e0 & _ & H & _)]; auto. congruence. }
    assert (Hbefore : forall x, x < n -> nth x p 0 = 0 -> forall c' e', c' < c -> nth_error (F ++ [i]) c' = Some e' -> ~ claims e' x).
    { intros x Hx Hx0 c' e' Hc' He'. rewrite nth_error_app1 in He' by (rewrite (st_F _ _ _ _ _ W); lia).
      apply Hnone; auto. eapply nth_error_In; eauto. }
    constructor.
    + apply I.
    + apply I.
    + rewrite app_length, (st_F _ _ _ _ _ W). simpl. lia.
    + apply sorted_snoc; [apply W|]. intros e He. now apply (st_founder _ _ _ _ _ W) in He.
    + intros e He. apply in_app_iff in He as [He|[<-|[]]]; [|split; auto].
      apply (st_founder _ _ _ _ _ W) in He as [He1 He2]. split; auto.
    + intros j Hj. apply HV. destruct (Nat.eq_dec j i) as [->|]; auto. right; left. apply (st_seen _ _ _ _ _ W); lia.
    + intros x Hx Hcx. apply HV in Hx as [->|[Hx|Hx]].
      * exists i. split; auto. apply in_app_iff. simpl; auto.
      * destruct (st_core _ _ _ _ _ W x Hx Hcx) as (e & He & Hd). exists e. split; auto. apply in_app_iff. auto.
      * exists i. split; [apply in_app_iff; simpl; auto|].
        pose proof (in_L _ _ _ _ _ _ _ _ I x Hx) as Hxn.
        destruct (in_origin _ _ _ _ _ _ _ _ I x Hx) as [H|(_ & y & Hy & _ & H)].
        -- apply (dense_snoc i i x); auto.
        -- apply (dense_snoc i y x); auto.
    + intros e x He Hd. apply HV. apply in_app_iff in He as [He|[<-|[]]].
      * right; left. now apply (st_closed _ _ _ _ _ W e x).
      * destruct (Hcov' x Hd) as [?|[? _]]; auto.
    + intros x Hx. destruct (Nat.eq_dec (nth x p 0) 0) as [Hx0|Hx0].
      * destruct (Nat.eq_dec x i) as [->|Hne].
        -- right. exists c, i. splits; auto. { left. split; auto. } now apply Hbefore.
        -- destruct (in_dec Nat.eq_dec x L) as [Hin|Hin].
           ++ right. exists c, i. splits; auto. { now apply HL. } now apply Hbefore.
           ++ left. split; [now apply Hn|]. intros e He. apply in_app_iff in He as [He|[<-|[]]]; auto.
              rewrite <- HL; auto.
      * destruct (st_label _ _ _ _ _ W x Hx) as [[? _]|(c0 & e0 & He0 & Ep & Hcl & Hb)]; [contradiction|].
        right. exists c0, e0. pose proof (nth_error_lt _ _ _ He0) as Hlt. splits; auto.
        -- now rewrite nth_error_app1.
        -- rewrite Hk; auto.
        -- intros c' e' Hc' He'. rewrite nth_error_app1 in He' by lia. eapply Hb; eauto.
    + intros x Hx Hx0. apply HV in Hx as [->|[Hx|Hx]]; try lia.
      * destruct (Nat.eq_dec (nth x p 0) 0) as [E0|E0]; [apply (st_noise _ _ _ _ _ W) in Hx; auto|].
        rewrite Hk in Hx0; congruence.
      * destruct (Nat.eq_dec x i) as [->|Hne]; auto. destruct (Nat.eq_dec (nth x p 0) 0) as [E0|E0].
        -- rewrite Hg in Hx0; auto. discriminate.
        -- rewrite Hk in Hx0; congruence.
    + intros x Hx. apply HV. destruct (Nat.eq_dec x i) as [->|Hne]; auto. right.
      destruct (Nat.eq_dec (nth x p 0) 0) as [E0|E0]; [|left; now apply (st_vis _ _ _ _ _ W)].
      destruct (in_dec Nat.eq_dec x L) as [Hin|Hin]; auto. exfalso. apply Hx. now apply Hn.
  - destruct (ball i Hi) as (b & E & Es & Hb & Hbn).
    assert (Ep : upd p i 0 = p). { apply upd_same. rewrite (nth_error_nth' p i 0) by auto. congruence. }
    exists c, (upd V i true), p, F. split.
    + unfold entry_point. rewrite (proj2 (rd_ok V i false)) by (apply not_vis; auto). cbn [bind].
      rewrite wr_lt by auto. cbn [bind]. rewrite E. cbn [bind]. rewrite Es, Hc, wr_lt by auto. cbn [bind]. now rewrite Ep.
    + constructor; try apply W.
      * rewrite upd_length. apply W.
      * intros e He. apply (st_founder _ _ _ _ _ W) in He as [He1 He2]. split; auto.
      * intros j Hj. apply vis_upd; auto. destruct (Nat.eq_dec j i) as [->|]; auto. right. apply (st_seen _ _ _ _ _ W); lia.
      * intros x Hx Hcx. apply vis_upd in Hx as [->|Hx]; auto; [congruence|]. now apply (st_core _ _ _ _ _ W).
      * intros e x He Hd. apply vis_upd; auto. right. eapply (st_closed _ _ _ _ _ W); eauto.
      * intros x Hx Hx0. apply vis_upd in Hx as [->|Hx]; auto. apply (st_noise _ _ _ _ _ W) in Hx; auto.
      * intros x Hx. apply vis_upd; auto. right. now apply (st_vis _ _ _ _ _ W).
Qed.

Lemma predict_strong : exists p, predict_all min query n = Ok p /\ density_labels n near min p.
Proof using Hq Hsym.
  destruct (for_loop_inv (fun i s => exists F, strong i (fst (fst s)) (snd (fst s)) (snd s) F) (entry_point min query n) n 0
    (0, repeat false n, repeat 0 n)) as ([[c V] p] & E & F & W).
  - exists []. constructor; simpl; try apply repeat_length; try lia; auto; try tauto.
    + constructor.
    + intros x H. now apply vis_repeat in H.
    + intros x Hx. left. rewrite nth_repeat0. split; auto.
    + intros x H. now apply vis_repeat in H.
    + intros x H. now rewrite nth_repeat0 in H.
  - intros i [[c V] p] Hi (F & W). simpl in W. destruct (strong_step i c V p F) as (c' & V' & p' & F' & E & W'); [lia|auto|].
    exists (c', V', p'). split; auto. exists F'. auto.
  - exists p. split; [unfold predict_all; rewrite E; reflexivity|]. simpl in W. split; [apply W|].
    exists F. splits; [apply W| |].
    + intros e. split; intros He; [now apply (st_founder _ _ _ _ _ W) in He|].
      destruct He as (He & Hc & Hlow). destruct (st_core _ _ _ _ _ W e) as (e' & He' & Hd); auto; [now apply (st_seen _ _ _ _ _ W)|].
      assert (e = e'); [|now subst]. apply Nat.le_antisymm.
      * apply Hlow. now apply dense_sym.
      * apply (st_founder _ _ _ _ _ W) in He' as (_ & _ & _ & Hl). now apply Hl.
    + intros x Hx. assert (Ex : nth_error p x = Some (nth x p 0)) by (apply nth_error_nth'; rewrite (st_p _ _ _ _ _ W); lia).
      destruct (st_label _ _ _ _ _ W x Hx) as [[H1 H2]|(c0 & e0 & H1 & H2 & H3)]; [left|right].
      * split; auto. congruence.
      * exists c0, e0. splits; try tauto. congruence.
Qed.
End Run.
