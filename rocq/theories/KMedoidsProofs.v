(** Lemmas on k-medoids. *)
From Coq Require Import List Arith ZArith Lia Bool Permutation.
From Verif Require Import Base SortingModel BufferModel BufferProofs SearchModel MatrixModel KMeansModel KMeansSpec KMeansProofs RandomModel
 
  KMedoidsModel KMedoidsSpec.
Import ListNotations.
Set Default Proof Using "Type".

(** ** Minima *)
Definition min_of (f : nat -> Z) (l : list nat) (x : Z) : Prop :=
  (exists m, In m l /\ f m = x) /\ forall m, In m l -> (x <= f m)%Z.

Lemma min_of_unique f l x y : min_of f l x -> min_of f l y -> x = y.
Proof. intros ((m & H1 & <-) & H2) ((m' & H3 & <-) & H4). specialize (H2 _ H3). specialize (H4 _ H1). lia. Qed.

Lemma deviation_min dist l o : l <> [] -> min_of (fun m => dist m o) l (deviation dist l o).
Proof.
  destruct l as [|m ms]; [congruence|]. intros _. unfold deviation.
  induction ms as [|m' ms ((m0 & H1 & H2) & H3)]; simpl.
  - split; [exists m; simpl; auto|]. intros m0 [->|[]]. lia.
  - set (r := fold_right Z.min (dist m o) (map (fun m' : nat => dist m' o) ms)) in *. split.
    + destruct (Z.min_spec (dist m' o) r) as [[_ ->]|[_ ->]]; [exists m'; simpl; auto|].
      exists m0. simpl in H1 |- *. tauto.
    + intros m1 [->|[->|H]]; [|lia|]; [specialize (H3 m1); simpl in H3; lia|specialize (H3 m1); simpl in H3].
      assert (r <= dist m1 o)%Z by auto. lia.
Qed.

Lemma deviation_is dist l o x : min_of (fun m => dist m o) l x -> deviation dist l o = x.
Proof.
  intros H. apply (min_of_unique (fun m => dist m o) l); auto. apply deviation_min.
  destruct H as ((m & H & _) & _). destruct l; [destruct H|congruence].
Qed.

Lemma in_removed (l : list nat) i m : i < length l ->
  In m (firstn i l ++ skipn (S i) l) <-> exists j, j < length l /\ j <> i /\ nth j l 0 = m.
Proof.
  intros Hi. rewrite in_app_iff. split.
  - intros [H|H]; apply (In_nth _ _ 0) in H; destruct H as (j & Hj & E).
    + rewrite firstn_length in Hj. exists j. splits; try lia. rewrite <- E.
      rewrite <- (firstn_skipn i l) at 1. rewrite app_nth1; auto. rewrite firstn_length. lia.
    + rewrite skipn_length in Hj. exists (S i + j). splits; try lia. rewrite <- E.
      rewrite <- (firstn_skipn (S i) l) at 1. rewrite app_nth2; rewrite firstn_length; [|lia]. f_equal. lia.
  - intros (j & Hj & Hji & E). destruct (lt_dec j i) as [H|H].
    + left. rewrite <- E. rewrite <- (firstn_skipn i l) at 1. rewrite app_nth1 by (rewrite firstn_length; lia).
      apply nth_In. rewrite firstn_length. lia.
    + right. rewrite <- E. rewrite <- (firstn_skipn (S i) l) at 1. rewrite app_nth2 by (rewrite firstn_length; lia).
      apply nth_In. rewrite firstn_length, skipn_length. lia.
Qed.

Lemma in_exchange (l : list nat) i c m : i < length l ->
  In m (exchange l i c) <-> m = c \/ exists j, j < length l /\ j <> i /\ nth j l 0 = m.
Proof.
  intros Hi. rewrite <- (in_removed l i m Hi). unfold exchange. rewrite !in_app_iff. simpl. intuition.
Qed.

Lemma upd_exchange (l : list nat) i c : i < length l -> upd l i c = exchange l i c.
Proof.
  unfold exchange. revert i. induction l as [|x l IH]; intros i Hi; simpl in Hi; [lia|]. destruct i; simpl; auto.
  f_equal. apply IH. lia.
Qed.

(** ** Sums *)
Fixpoint zsum (n : nat) (f : nat -> Z) : Z := match n with 0 => 0%Z | S n => (zsum n f + f n)%Z end.

Lemma zsum_ext n f g : (forall o, o < n -> f o = g o) -> zsum n f = zsum n g.
Proof. induction n; intros H; simpl; auto. rewrite IHn by auto. rewrite H by lia. auto. Qed.
Lemma zsum_add n f g : zsum n (fun o => f o + g o)%Z = (zsum n f + zsum n g)%Z.
Proof. induction n; simpl; lia. Qed.
Lemma zsum_sub n f g : zsum n (fun o => f o - g o)%Z = (zsum n f - zsum n g)%Z.
Proof. induction n; simpl; lia. Qed.
Lemma zsum_le n f g : (forall o, o < n -> (f o <= g o)%Z) -> (zsum n f <= zsum n g)%Z.
Proof. induction n; intros H; simpl; [lia|]. pose proof (IHn ltac:(auto)). pose proof (H n ltac:(lia)). lia. Qed.

Lemma fold_add_map (f : nat -> Z) l r : fold_right Z.add r (map f l) = (fold_right Z.add 0%Z (map f l) + r)%Z.
Proof. induction l; simpl; lia. Qed.
Lemma deviations_zsum dist n medoids : deviations dist n medoids = zsum n (deviation dist medoids).
Proof.
  unfold deviations. induction n; simpl; auto.
  change (deviation dist medoids 0 :: _) with (map (deviation dist medoids) (seq 0 (S n))) ||
  change (fold_right Z.add 0%Z (map (deviation dist medoids) (seq 0 (S n))) = zsum n (deviation dist medoids) + deviation dist medoids n)%Z.
  rewrite seq_S, map_app, fold_right_app. simpl. rewrite fold_add_map, IHn. lia.
Qed.

(** ** One sample *)
Record one (T : nat -> Z) (k i1 i2 : nat) (d1 d2 : Z) : Prop := {
  o_i1 : i1 < k; o_i2 : i2 < k; o_ne : i2 <> i1; o_d1 : d1 = T i1; o_d2 : d2 = T i2;
  o_min : forall j, j < k -> (d1 <= T j)%Z; o_min2 : forall j, j < k -> j <> i1 -> (d2 <= T j)%Z }.

Section Sample.
Context (dist : nat -> nat -> Z) (l : list nat) (o : nat) (i1 i2 : nat) (d1 d2 : Z).
Context (H : one (fun j => dist (nth j l 0) o) (length l) i1 i2 d1 d2).

Lemma deviation_one : deviation dist l o = d1.
Proof using H.
  destruct H as [? ? ? -> -> Hm _]. apply deviation_is. split.
  - exists (nth i1 l 0). split; auto. now apply nth_In.
  - intros m Hm'. apply (In_nth _ _ 0) in Hm'. destruct Hm' as (j & Hj & <-). auto.
Qed.

Lemma deviation_removed i : i < length l -> deviation dist (firstn i l ++ skipn (S i) l) o = if i =? i1 then d2 else d1.
Proof using H.
  intros Hi. destruct H as [? ? ? -> -> Hm Hm2]. apply deviation_is. destruct (Nat.eqb_spec i i1) as [->|Hne]; split.
  - exists (nth i2 l 0). split; auto. apply in_removed; auto. exists i2. auto.
  - intros m Hm'. apply in_removed in Hm'; auto. destruct Hm' as (j & Hj & Hji & <-). auto.
  - exists (nth i1 l 0). split; auto. apply in_removed; auto. exists i1. auto.
  - intros m Hm'. apply in_removed in Hm'; auto. destruct Hm' as (j & Hj & Hji & <-). auto.
Qed.

Lemma deviation_exchange i c : i < length l -> deviation dist (exchange l i c) o = Z.min (dist c o) (if i =? i1 then d2 else d1).
Proof using H.
  intros Hi. rewrite <- (deviation_removed i) by auto.
  assert (Hr : firstn i l ++ skipn (S i) l <> []).
  { destruct H as [? ? ? _ _ _ _]. assert (exists j, j < length l /\ j <> i) as (j & Hj & Hji)
      by (destruct (Nat.eq_dec i i1) as [->|]; eauto).
    intros E. assert (In (nth j l 0) []) as []. rewrite <- E. apply in_removed; eauto. }
  destruct (deviation_min dist _ o Hr) as ((m & H1 & H2) & H3). apply deviation_is. split.
  - destruct (Z.min_spec (dist c o) (deviation dist (firstn i l ++ skipn (S i) l) o)) as [[_ ->]|[_ ->]].
    + exists c. split; auto. apply in_exchange; auto.
    + exists m. split; auto. apply in_exchange; auto. right. apply in_removed in H1; auto.
  - intros m' Hm'. apply in_exchange in Hm'; auto. destruct Hm' as [->|Hm']; [lia|].
    apply in_removed in Hm'; auto. specialize (H3 _ Hm'). lia.
Qed.
End Sample.

Lemma nth_exchange (l : list nat) i c j d : i < length l -> nth j (exchange l i c) d = if j =? i then c else nth j l d.
Proof. intros Hi. rewrite <- upd_exchange by auto. rewrite nth_upd by auto. destruct (Nat.eqb_spec j i); auto. Qed.
Lemma exchange_length (l : list nat) i c : i < length l -> length (exchange l i c) = length l.
Proof. intros. rewrite <- upd_exchange by auto. apply upd_length. Qed.

(** ** Lists read as functions *)
Lemma rd_nth {A} (l : list A) i def : i < length l -> rd l i = Ok (nth i l def).
Proof. intros Hi. apply rd_ok. now apply nth_error_nth'. Qed.

Lemma add_at_ok x i v : i < length x -> exists x', add_at signed_wrap x i v = Ok x' /\ length x' = length x /\
  forall j, nth j x' 0%Z = (nth j x 0 + if (j =? i)%nat then v else 0)%Z.
Proof.
  intros Hi. unfold add_at. rewrite (rd_nth x i 0%Z) by auto. cbn [bind]. rewrite wr_lt by auto.
  eexists. splits; eauto using upd_length. intros j. rewrite nth_upd by auto. unfold signed_wrap.
  destruct (Nat.eqb_spec j i) as [->|]; lia.
Qed.

Section State.
Context (dist : nat -> nat -> Z) (n : nat) (src : source Z) (Hsrc : provides src n dist).

Lemma compute_losses_ok I1 D1 D2 k : length I1 = n -> length D1 = n -> length D2 = n ->
  (forall o, o < n -> nth o I1 0 < k) ->
  exists L, compute_losses signed_wrap I1 D1 D2 k = Ok L /\ length L = k /\
    forall i, i < k -> nth i L 0%Z = zsum n (fun o => if i =? nth o I1 0 then (nth o D2 0 - nth o D1 0)%Z else 0%Z).
Proof.
  intros L1 L2 L3 HI. unfold compute_losses. rewrite L1.
  destruct (for_loop_inv (fun t L => length L = k /\ forall i, i < k ->
    nth i L 0%Z = zsum t (fun o => if i =? nth o I1 0 then (nth o D2 0 - nth o D1 0)%Z else 0%Z))
    (fun sample_index delta_td_mi =>
      nearest_medoid_idx <- rd I1 sample_index ;; second <- rd D2 sample_index ;; first <- rd D1 sample_index ;;
      add_at signed_wrap delta_td_mi nearest_medoid_idx (second - first)) n 0 (repeat 0%Z k)) as (L & E & HL & HP).
  - rewrite repeat_length. split; auto. intros i Hi. simpl. rewrite nth_repeat. auto.
  - intros o L Ho (HL & HP). rewrite (rd_nth I1 o 0), (rd_nth D2 o 0%Z), (rd_nth D1 o 0%Z) by lia. cbn [bind].
    destruct (add_at_ok L (nth o I1 0) (nth o D2 0 - nth o D1 0)%Z) as (L' & E & HL' & H'); [rewrite HL; apply HI; lia|].
    exists L'. splits; auto; try lia. intros i Hi. rewrite H'. cbn [zsum]. rewrite HP by auto. reflexivity.
  - exists L. auto.
Qed.

Definition xc_part (c : nat) (D1 : list Z) (o : nat) : Z := if (dist c o <? nth o D1 0)%Z then (dist c o - nth o D1 0)%Z else 0%Z.
Definition mi_part (c : nat) (I1 : list nat) (D1 D2 : list Z) (i o : nat) : Z :=
  if i =? nth o I1 0 then
    if (dist c o <? nth o D1 0)%Z then (nth o D1 0 - nth o D2 0)%Z
    else if (dist c o <? nth o D2 0)%Z then (dist c o - nth o D2 0)%Z else 0%Z
  else 0%Z.

Lemma min_pair_ok (l : list Z) : l <> [] -> exists j v, get_max_index_value_pair (fun x y => (y <? x)%Z) l = Ok (j, v) /\
  j < length l /\ v = nth j l 0%Z /\ (forall i, i < length l -> (v <= nth i l 0)%Z) /\ (forall i, i < j -> (v < nth i l 0)%Z).
Proof using Type.
  destruct l as [|x l]; [congruence|]. intros _. cbn [get_max_index_value_pair].
  assert (G : forall l bi best i, let '(j, v) := max_element_from (fun x y => (y <? x)%Z) bi best i l in
    (v <= best)%Z /\ (forall t, t < length l -> (v <= nth t l 0)%Z) /\
    ((j = bi /\ v = best) \/ (i <= j /\ j - i < length l /\ v = nth (j - i) l 0%Z /\ (v < best)%Z /\
       (forall t, t < j - i -> (v < nth t l 0)%Z)))).
  { clear. induction l as [|x l IH]; intros bi best i; cbn [max_element_from length].
    - splits; auto; try lia.
    - destruct (Z.ltb_spec x best) as [Hx|Hx].
      + specialize (IH i x (S i)). destruct (max_element_from _ i x (S i) l) as (j, v). destruct IH as (H1 & H2 & H3).
        splits; [lia| |].
        * intros [|t] Ht; simpl; [lia|]. apply H2. lia.
        * right. destruct H3 as [(-> & ->)|(H3 & H4 & H5 & H6 & H7)].
          -- splits; try lia. { now rewrite Nat.sub_diag. } 
          -- replace (j - i) with (S (j - S i)) by lia. splits; try lia; auto. intros [|t] Ht; simpl; auto. apply H7. lia.
      + specialize (IH bi best (S i)). destruct (max_element_from _ bi best (S i) l) as (j, v). destruct IH as (H1 & H2 & H3).
        splits; [lia| |].
        * intros [|t] Ht; simpl; [lia|]. apply H2. lia.
        * destruct H3 as [(-> & ->)|(H3 & H4 & H5 & H6 & H7)]; auto. right.
          replace (j - i) with (S (j - S i)) by lia. splits; try lia; auto. intros [|t] Ht; simpl; [lia|]. apply H7. lia. }
  specialize (G l 0 x 1). destruct (max_element_from _ 0 x 1 l) as (j, v). destruct G as (H1 & H2 & H3).
  exists j, v. split; auto. cbn [length]. destruct H3 as [(-> & ->)|(H3 & H4 & H5 & H6 & H7)].
  - splits; auto; try lia. intros [|i] Hi; simpl; [lia|]. apply H2. lia.
  - destruct j as [|j]; [lia|]. replace (S j - 1) with j in * by lia. splits; auto; try lia.
    + intros [|i] Hi; simpl; [lia|]. apply H2. lia.
    + intros [|i] Hi; simpl; [lia|]. apply H7. lia.
Qed.

Lemma find_best_swap_ok p k c : c < n -> length (p_nearest p) = n -> length (p_distances p) = n -> length (p_second_distances p) = n ->
  length (p_losses p) = k -> 1 <= k -> (forall o, o < n -> nth o (p_nearest p) 0 < k) ->
  exists delta b, find_best_swap signed_wrap src p c = Ok (delta, b) /\ b < k /\
    let gain i := (nth i (p_losses p) 0 + zsum n (mi_part c (p_nearest p) (p_distances p) (p_second_distances p) i) +
      zsum n (xc_part c (p_distances p)))%Z in
    delta = gain b /\ (forall i, i < k -> (delta <= gain i)%Z) /\ (forall i, i < b -> (delta < gain i)%Z).
Proof using Hsrc.
  intros Hc L1 L2 L3 LL Hk HI. unfold find_best_swap. destruct Hsrc as (Hr & Hd). rewrite Hr.
  destruct p as [med I1 I2 D1 D2 L loss]. cbn [p_nearest p_distances p_second_distances p_losses] in *.
  match goal with |- context [for_loop n 0 ?body ?s0] =>
    destruct (for_loop_inv (fun t '(xc, mi) => xc = zsum t (xc_part c D1) /\ length mi = k /\
      forall i, i < k -> nth i mi 0%Z = (nth i L 0 + zsum t (mi_part c I1 D1 D2 i))%Z) body n 0 s0) as ((xc & mi) & E & Hx & Hl & Hm)
  end.
  - splits; auto. intros i Hi. simpl. lia.
  - intros o (xc & mi) Ho (Hx & Hl & Hm). rewrite Hd by lia. cbn [bind].
    rewrite (rd_nth I1 o 0), (rd_nth D1 o 0%Z), (rd_nth D2 o 0%Z) by lia. cbn [bind].
    assert (Hi : nth o I1 0 < length mi) by (rewrite Hl; apply HI; lia).
    assert (HX : forall xc' mi', xc' = (xc + xc_part c D1 o)%Z -> length mi' = k ->
      (forall i, i < k -> nth i mi' 0%Z = (nth i mi 0 + mi_part c I1 D1 D2 i o)%Z) ->
      xc' = zsum (S o) (xc_part c D1) /\ length mi' = k /\
      forall i, i < k -> nth i mi' 0%Z = (nth i L 0 + zsum (S o) (mi_part c I1 D1 D2 i))%Z).
    { intros xc' mi' Hx' Hl' Hm'. cbn [zsum]. splits; auto; [lia|]. intros i Hii. rewrite Hm', Hm by auto. lia. }
    unfold xc_part at 1, mi_part at 1 in HX.
    destruct (Z.ltb_spec (dist c o) (nth o D1 0%Z)) as [H1|H1]; [|destruct (Z.ltb_spec (dist c o) (nth o D2 0%Z)) as [H2|H2]].
    + destruct (add_at_ok mi (nth o I1 0) (nth o D1 0 - nth o D2 0)%Z Hi) as (mi' & -> & Hl' & Hm'). cbn [bind].
      eexists. split; [reflexivity|]. apply HX; auto; lia.
    + destruct (add_at_ok mi (nth o I1 0) (dist c o - nth o D2 0)%Z Hi) as (mi' & -> & Hl' & Hm'). cbn [bind].
      eexists. split; [reflexivity|]. apply HX; auto; lia.
    + eexists. split; [reflexivity|]. apply HX; auto; [lia|]. intros i Hii. destruct (i =? nth o I1 0); lia.
  - rewrite E. cbn [bind]. destruct (min_pair_ok mi) as (b & v & -> & Hb & Hv & Hmin & Hfirst).
    { intros ->. simpl in Hl. lia. }
    cbn [bind]. exists (signed_wrap (xc + v)), b. split; auto. split; [lia|]. unfold signed_wrap. cbn zeta. splits.
    + rewrite Hv, Hm, Hx by lia. simpl. lia.
    + intros i Hi. specialize (Hmin i ltac:(lia)). rewrite (Hm i Hi) in Hmin. simpl in *. lia.
    + intros i Hi. specialize (Hfirst i Hi). rewrite (Hm i ltac:(lia)) in Hfirst. simpl in *. lia.
Qed.

(** ** Consistent states *)
Lemma consistent_one p o : consistent dist n p -> o < n ->
  one (fun j => dist (nth j (p_medoids p) 0) o) (length (p_medoids p)) (nth o (p_nearest p) 0) (nth o (p_second p) 0)
    (nth o (p_distances p) 0%Z) (nth o (p_second_distances p) 0%Z).
Proof using Type.
  intros [_ _ H2 _ H3 H4 _ _] Ho. destruct (H3 o Ho) as ((H5 & H6) & H7). destruct (H4 o Ho) as (H8 & H9 & H10 & H11).
  constructor; auto. intros j Hj. rewrite H7. auto.
Qed.

Lemma gain_is_exchange p c i : consistent dist n p -> c < n -> i < length (p_medoids p) ->
  (nth i (p_losses p) 0 + zsum n (mi_part c (p_nearest p) (p_distances p) (p_second_distances p) i) +
    zsum n (xc_part c (p_distances p)) = deviations dist n (exchange (p_medoids p) i c) - deviations dist n (p_medoids p))%Z.
Proof using Type.
  intros Hp Hc Hi. rewrite (c_losses _ _ _ Hp) by auto. rewrite !deviations_zsum.
  set (M := p_medoids p) in *. set (dr := deviation dist (firstn i M ++ skipn (S i) M)). set (d := deviation dist M).
  set (de := deviation dist (exchange M i c)). rewrite <- (zsum_sub n dr d), <- !zsum_add, <- zsum_sub. apply zsum_ext. intros o Ho.
  pose proof (consistent_one p o Hp Ho) as H1. fold M in H1. unfold dr, d, de, xc_part, mi_part.
  rewrite (deviation_removed _ _ _ _ _ _ _ H1) by auto. rewrite (deviation_one _ _ _ _ _ _ _ H1).
  rewrite (deviation_exchange _ _ _ _ _ _ _ H1) by auto.
  assert (nth o (p_distances p) 0 <= nth o (p_second_distances p) 0)%Z.
  { destruct H1 as [? ? ? _ E Hm _]. rewrite E. now apply Hm. }
  destruct (Nat.eqb_spec i (nth o (p_nearest p) 0)); [|destruct (Z.ltb_spec (dist c o) (nth o (p_distances p) 0%Z)); lia].
  destruct (Z.ltb_spec (dist c o) (nth o (p_distances p) 0%Z)), (Z.ltb_spec (dist c o) (nth o (p_second_distances p) 0%Z)); lia.
Qed.

Lemma best_swap p c : consistent dist n p -> c < n ->
  exists delta b, find_best_swap signed_wrap src p c = Ok (delta, b) /\ b < length (p_medoids p) /\
    let change i := (deviations dist n (exchange (p_medoids p) i c) - deviations dist n (p_medoids p))%Z in
    delta = change b /\ (forall i, i < length (p_medoids p) -> (delta <= change i)%Z) /\ (forall i, i < b -> (delta < change i)%Z).
Proof using Hsrc.
  intros Hp Hc. destruct (c_lengths _ _ _ Hp) as (L1 & L2 & L3 & L4 & L5). pose proof (c_two _ _ _ Hp).
  destruct (find_best_swap_ok p (length (p_medoids p)) c) as (delta & b & E & Hb & H1 & H2 & H3); auto; try lia.
  { intros o Ho. destruct (c_nearest _ _ _ Hp o Ho) as ((? & _) & _). auto. }
  exists delta, b. cbn zeta in *. splits; auto.
  - rewrite H1. apply gain_is_exchange; auto.
  - intros i Hi. rewrite <- gain_is_exchange by auto. auto.
  - intros i Hi. rewrite <- gain_is_exchange by (auto; lia). auto.
Qed.

Lemma update_second_ok M b o i1 : (forall m, In m M -> m < n) -> o < n -> b < length M -> i1 < length M -> i1 <> b ->
  exists i2 d2, update_second_nearest src M b o (dist (nth b M 0%nat) o) i1 = Ok (i2, d2) /\
    i2 < length M /\ i2 <> i1 /\ d2 = dist (nth i2 M 0%nat) o /\
    forall j, j < length M -> j <> i1 -> (d2 <= dist (nth j M 0%nat) o)%Z.
Proof using Hsrc.
  intros HM Ho Hb Hi1 Hne. unfold update_second_nearest. destruct Hsrc as (_ & Hd).
  match goal with |- context [for_loop ?k 0 ?body ?s0] =>
    destruct (for_loop_inv (fun t '(i2, d2) => i2 < length M /\ i2 <> i1 /\ d2 = dist (nth i2 M 0%nat) o /\
      (d2 <= dist (nth b M 0%nat) o)%Z /\ forall j, j < t -> j <> i1 -> (d2 <= dist (nth j M 0%nat) o)%Z) body k 0 s0) as ((i2 & d2) & E & H1 & H2 & H3 & H4 & H5)
  end.
  - splits; auto; lia.
  - intros j (i2 & d2) Hj (H1 & H2 & H3 & H4 & H5).
    destruct (Nat.eqb_spec j i1) as [->|E1]; [|destruct (Nat.eqb_spec j b) as [->|E2]]; cbn [negb andb].
    + eexists. split; [reflexivity|cbv beta iota]. splits; auto. intros j0 Hj' E'. apply H5; lia.
    + eexists. split; [reflexivity|cbv beta iota]. splits; auto. intros j0 Hj' E'. destruct (Nat.eq_dec j0 b) as [->|]; auto. apply H5; lia.
    + unfold medoid_distance. rewrite (rd_nth M j 0) by lia. cbn [bind].
      rewrite Hd; auto; [|apply HM, nth_In; lia]. cbn [bind].
      destruct (Z.ltb_spec (dist (nth j M 0%nat) o) d2).
      * eexists. split; [reflexivity|cbv beta iota]. splits; auto; try lia. intros j' Hj' E'. destruct (Nat.eq_dec j' j) as [->|]; [lia|].
        specialize (H5 j' ltac:(lia) E'). lia.
      * eexists. split; [reflexivity|cbv beta iota]. splits; auto; try lia. intros j' Hj' E'. destruct (Nat.eq_dec j' j) as [->|]; [lia|].
        apply H5; lia.
  - exists i2, d2. splits; auto.
Qed.

Lemma swap_sample_ok M c b o i1 i2 d1 d2 : (forall m, In m M -> m < n) -> c < n -> o < n -> b < length M ->
  dist o o = 0%Z -> (forall i, i < n -> (0 <= dist i o)%Z) ->
  one (fun j => dist (nth j M 0%nat) o) (length M) i1 i2 d1 d2 ->
  exists i1' i2' d1' d2', swap_sample src (exchange M b c) c b o i1 i2 d1 d2 = Ok (i1', i2', d1', d2') /\
    one (fun j => dist (nth j (exchange M b c) 0%nat) o) (length M) i1' i2' d1' d2'.
Proof using Hsrc.
  intros HM Hc Ho Hb Hself Hpos [A1 A2 A3 A4 A5 A6 A7]. set (M' := exchange M b c).
  assert (HL : length M' = length M) by (now apply exchange_length).
  assert (HN : forall j, nth j M' 0 = if j =? b then c else nth j M 0) by (intros; now apply nth_exchange).
  assert (Hb' : dist (nth b M' 0%nat) o = dist c o) by (now rewrite HN, Nat.eqb_refl).
  assert (Hj' : forall j, j <> b -> dist (nth j M' 0%nat) o = dist (nth j M 0%nat) o).
  { intros j Hj. rewrite HN. destruct (Nat.eqb_spec j b); congruence. }
  assert (HM' : forall m, In m M' -> m < n).
  { intros m Hm. apply in_exchange in Hm; auto. destruct Hm as [->|(j & Hj & _ & <-)]; auto. apply HM, nth_In; auto. }
  assert (Hpos' : forall j, j < length M -> (0 <= dist (nth j M' 0%nat) o)%Z).
  { intros j Hj. apply Hpos, HM', nth_In. lia. }
  cbn beta in *. unfold swap_sample. destruct (Nat.eqb_spec o c) as [Hoc|Hoc].
  - subst c. destruct (Nat.eqb_spec i1 b) as [E|E]; cbn [negb].
    + exists b, i2, 0%Z, d2. split; auto. subst i1. constructor; auto; try lia.
      * rewrite Hj' by auto. auto.
      * intros j Hj Hne. rewrite Hj' by auto. auto.
    + exists b, i1, 0%Z, d1. split; auto. constructor; auto; try lia.
      * rewrite Hj' by auto. auto.
      * intros j Hj Hne. rewrite Hj' by auto. auto.
  - destruct Hsrc as (_ & Hd). rewrite Hd by auto. cbn [bind].
    assert (Hmin : forall j, j < length M -> j <> b -> (d1 <= dist (nth j M' 0%nat) o)%Z).
    { intros j Hj Hne. rewrite Hj'; auto. }
    assert (Hmin2 : forall j, j < length M -> j <> b -> j <> i1 -> (d2 <= dist (nth j M' 0%nat) o)%Z).
    { intros j Hj Hne Hne'. rewrite Hj'; auto. }
    assert (H12 : (d1 <= d2)%Z) by (rewrite A5; auto).
    destruct (Nat.eqb_spec i1 b) as [E|E].
    + subst i1. destruct (Z.ltb_spec (dist c o) d2) as [H1|H1].
      * exists b, i2, (dist c o), d2. split; auto. constructor; auto.
        -- rewrite Hj'; auto.
        -- intros j Hj. destruct (Nat.eq_dec j b) as [->|Hne]; [lia|]. pose proof (Hmin2 j Hj Hne Hne). lia.
      * rewrite <- Hb'. destruct (update_second_ok M' b o i2) as (i' & d' & -> & B1 & B2 & B3 & B4); auto; try lia.
        cbn [bind]. exists i2, i', d2, d'. split; auto. constructor; auto; try lia.
        -- rewrite Hj'; auto.
        -- intros j Hj. destruct (Nat.eq_dec j b) as [->|Hne]; [lia|]. auto.
        -- intros j Hj. apply B4. lia.
    + destruct (Z.ltb_spec (dist c o) d1) as [H1|H1]; [|destruct (Z.ltb_spec (dist c o) d2) as [H2|H2]].
      * exists b, i1, (dist c o), d1. split; auto. constructor; auto.
        -- rewrite Hj'; auto.
        -- intros j Hj. destruct (Nat.eq_dec j b) as [->|Hne]; [lia|]. pose proof (Hmin j Hj Hne). lia.
      * exists i1, b, d1, (dist c o). split; auto. constructor; auto.
        -- rewrite Hj'; auto.
        -- intros j Hj. destruct (Nat.eq_dec j b) as [->|Hne]; [lia|]. auto.
        -- intros j Hj Hne. destruct (Nat.eq_dec j b) as [->|Hne']; [lia|]. pose proof (Hmin2 j Hj Hne' Hne). lia.
      * destruct (Nat.eqb_spec i2 b) as [E2|E2].
        -- rewrite <- Hb'. destruct (update_second_ok M' b o i1) as (i' & d' & -> & B1 & B2 & B3 & B4); auto; try lia.
           cbn [bind]. exists i1, i', d1, d'. split; auto. constructor; auto; try lia.
           ++ rewrite Hj'; auto.
           ++ intros j Hj. destruct (Nat.eq_dec j b) as [->|Hne]; [lia|]. auto.
           ++ intros j Hj. apply B4. lia.
        -- exists i1, i2, d1, d2. split; auto. constructor; auto.
           ++ rewrite Hj'; auto.
           ++ rewrite Hj'; auto.
           ++ intros j Hj. destruct (Nat.eq_dec j b) as [->|Hne]; [lia|]. auto.
           ++ intros j Hj Hne. destruct (Nat.eq_dec j b) as [->|Hne']; [lia|]. auto.
Qed.

Definition ones (M I1 I2 : list nat) (D1 D2 : list Z) (o : nat) : Prop :=
  one (fun j => dist (nth j M 0%nat) o) (length M) (nth o I1 0) (nth o I2 0) (nth o D1 0%Z) (nth o D2 0%Z).

Context (Hself : forall o, o < n -> dist o o = 0%Z) (Hpos : forall i j, i < n -> j < n -> (0 <= dist i j)%Z).

Lemma swap_buffers_ok p c b : consistent dist n p -> c < n -> b < length (p_medoids p) ->
  exists I1 I2 D1 D2 loss, swap_buffers signed_wrap src (exchange (p_medoids p) b c) p c b = Ok (I1, I2, D1, D2, loss) /\
    length I1 = n /\ length I2 = n /\ length D1 = n /\ length D2 = n /\
    loss = deviations dist n (exchange (p_medoids p) b c) /\
    forall o, o < n -> ones (exchange (p_medoids p) b c) I1 I2 D1 D2 o.
Proof using Hsrc Hself Hpos.
  intros Hp Hc Hb. destruct (c_lengths _ _ _ Hp) as (L1 & L2 & L3 & L4 & _). set (M := p_medoids p) in *.
  set (M' := exchange M b c). assert (HL : length M' = length M) by (now apply exchange_length).
  rewrite deviations_zsum. unfold swap_buffers. destruct Hsrc as (Hr & Hd). rewrite Hr.
  match goal with |- context [for_loop n 0 ?body ?s0] =>
    destruct (for_loop_inv (fun t '(I1, I2, D1, D2, loss) => length I1 = n /\ length I2 = n /\ length D1 = n /\ length D2 = n /\
      loss = zsum t (deviation dist M') /\ (forall o, o < t -> ones M' I1 I2 D1 D2 o) /\
      (forall o, t <= o < n -> ones M I1 I2 D1 D2 o)) body n 0 s0) as ((((( I1 & I2) & D1) & D2) & loss) & E & H)
  end.
  - splits; auto; try lia. intros o Ho. apply (consistent_one p o Hp). lia.
  - intros o ((((I1 & I2) & D1) & D2) & loss) Ho (K1 & K2 & K3 & K4 & K5 & K6 & K7).
    rewrite (rd_nth I1 o 0), (rd_nth I2 o 0), (rd_nth D1 o 0%Z), (rd_nth D2 o 0%Z) by lia. cbn [bind].
    destruct (swap_sample_ok M c b o _ _ _ _ (c_medoids _ _ _ Hp) Hc ltac:(lia) Hb (Hself o ltac:(lia))
      (fun i Hi => Hpos i o Hi ltac:(lia)) (K7 o ltac:(lia))) as (i1 & i2 & d1 & d2 & E & Hone).
    fold M' in E, Hone. rewrite E. cbn [bind]. rewrite !wr_lt by lia. cbn [bind].
    eexists. split; [reflexivity|cbv beta iota]. rewrite !upd_length. splits; auto.
    + assert (Hdev : deviation dist M' o = d1) by (apply (deviation_one dist M' o i1 i2 d1 d2); rewrite HL; auto).
      cbn [zsum]. rewrite <- K5, Hdev. destruct (Nat.eqb_spec o c) as [->|]; auto.
      unfold swap_sample in E. rewrite Nat.eqb_refl in E. destruct (negb _) in E; injection E; intros; subst; lia.
    + intros o' Ho'. unfold ones. rewrite !nth_upd by lia. destruct (Nat.eqb_spec o' o) as [->|Hne].
      * rewrite HL. auto.
      * apply K6. lia.
    + intros o' Ho'. unfold ones. rewrite !nth_upd by lia. destruct (Nat.eqb_spec o' o) as [->|Hne]; [lia|].
      apply K7. lia.
  - rewrite E. destruct H as (K1 & K2 & K3 & K4 & K5 & K6 & _). exists I1, I2, D1, D2, loss. splits; auto.
Qed.

Lemma losses_removal M I1 I2 D1 D2 i : (forall o, o < n -> ones M I1 I2 D1 D2 o) -> i < length M ->
  zsum n (fun o => if i =? nth o I1 0 then (nth o D2 0 - nth o D1 0)%Z else 0%Z) =
  (deviations dist n (firstn i M ++ skipn (S i) M) - deviations dist n M)%Z.
Proof using Type.
  intros H Hi. rewrite !deviations_zsum, <- zsum_sub. apply zsum_ext. intros o Ho. specialize (H o Ho).
  rewrite (deviation_removed _ _ _ _ _ _ _ H) by auto. rewrite (deviation_one _ _ _ _ _ _ _ H).
  destruct (i =? nth o I1 0); lia.
Qed.

(** Buffers that describe distinct medoids make a consistent state. *)
Lemma make_consistent M I1 I2 D1 D2 : (forall m, In m M -> m < n) -> NoDup M -> 2 <= length M ->
  length I1 = n -> length I2 = n -> length D1 = n -> length D2 = n -> (forall o, o < n -> ones M I1 I2 D1 D2 o) ->
  exists L, compute_losses signed_wrap I1 D1 D2 (length M) = Ok L /\
    consistent dist n (mk_pam M I1 I2 D1 D2 L (deviations dist n M)).
Proof using Type.
  intros HM HN H2 L1 L2 L3 L4 H.
  destruct (compute_losses_ok I1 D1 D2 (length M) L1 L3 L4) as (L & E & HL & HP).
  { intros o Ho. apply (H o Ho). }
  exists L. split; auto. constructor; cbn [p_medoids p_nearest p_second p_distances p_second_distances p_losses p_loss]; auto.
  - intros o Ho. destruct (H o Ho) as [A1 A2 A3 A4 A5 A6 A7]. split; [split|]; auto. intros j Hj. rewrite <- A4. auto.
  - intros o Ho. destruct (H o Ho) as [A1 A2 A3 A4 A5 A6 A7]. splits; auto.
  - intros i Hi. rewrite HP by auto. apply (losses_removal M I1 I2 D1 D2 i); auto.
Qed.

Lemma exchange_member M b c : b < length M -> In c M -> (deviations dist n M <= deviations dist n (exchange M b c))%Z.
Proof using Type.
  intros Hb Hc. rewrite !deviations_zsum. apply zsum_le. intros o Ho.
  assert (M <> []) by (destruct M; [destruct Hc|congruence]).
  destruct (deviation_min dist M o H) as (_ & H1).
  assert (exchange M b c <> []) as H2 by (unfold exchange; intros E; apply app_eq_nil in E; destruct E; discriminate).
  destruct (deviation_min dist _ o H2) as ((m & H3 & <-) & _). apply H1.
  apply in_exchange in H3; auto. destruct H3 as [->|(j & Hj & _ & <-)]; auto. now apply nth_In.
Qed.

Lemma exchange_nodup M b c : b < length M -> NoDup M -> ~ In c M -> NoDup (exchange M b c).
Proof using Type.
  intros Hb HN Hc. apply (NoDup_nth _ 0). rewrite exchange_length by auto. intros i j Hi Hj. rewrite !nth_exchange by auto.
  assert (Hin : forall j, j < length M -> nth j M 0 <> c) by (intros t Ht E; apply Hc; rewrite <- E; now apply nth_In).
  destruct (Nat.eqb_spec i b), (Nat.eqb_spec j b); intros E; try congruence.
  - exfalso. apply (Hin j); auto.
  - exfalso. apply (Hin i); auto.
  - apply (proj1 (NoDup_nth M 0) HN); auto.
Qed.

(** One candidate: skipped, rejected, or exchanged for a medoid. *)
Lemma try_candidate_ok p c : consistent dist n p -> c < n ->
  exists p', try_candidate signed_wrap src c p = Ok p' /\ consistent dist n p' /\
    ((p' = p /\ (nth c (p_nearest p) 0 = c \/
        forall i, i < length (p_medoids p) -> (deviations dist n (p_medoids p) <= deviations dist n (exchange (p_medoids p) i c))%Z)) \/
     ((p_loss p' < p_loss p)%Z /\ exists b, b < length (p_medoids p) /\ p_medoids p' = exchange (p_medoids p) b c /\
        nth c (p_nearest p) 0 <> c /\
        forall i, i < length (p_medoids p) -> (p_loss p' <= deviations dist n (exchange (p_medoids p) i c))%Z)).
Proof using Hsrc Hself Hpos.
  intros Hp Hc. unfold try_candidate. destruct (c_lengths _ _ _ Hp) as (L1 & L2 & L3 & L4 & _).
  rewrite (rd_nth _ c 0) by lia. cbn [bind]. destruct (Nat.eqb_spec c (nth c (p_nearest p) 0)) as [E|E]; cbn [negb].
  { exists p. splits; auto. }
  destruct (best_swap p c Hp Hc) as (delta & b & -> & Hb & H1 & H2 & _). cbn [bind]. cbn zeta in *.
  destruct (Z.ltb_spec delta 0) as [Hd|Hd].
  - rewrite wr_lt by auto. cbn [bind]. rewrite upd_exchange by auto.
    destruct (swap_buffers_ok p c b Hp Hc Hb) as (I1 & I2 & D1 & D2 & loss & -> & K1 & K2 & K3 & K4 & K5 & K6). cbn [bind].
    destruct (make_consistent (exchange (p_medoids p) b c) I1 I2 D1 D2) as (L & -> & HC); auto.
    + intros m Hm. apply in_exchange in Hm; auto. destruct Hm as [->|(j & Hj & _ & <-)]; auto. apply (c_medoids _ _ _ Hp), nth_In; auto.
    + apply exchange_nodup; auto; [apply Hp|]. intros Hin. pose proof (exchange_member _ b c Hb Hin). lia.
    + rewrite exchange_length by auto. apply Hp.
    + cbn [bind]. eexists. split; [reflexivity|cbv beta iota]. rewrite K5. split; auto. right. cbn. rewrite (c_loss _ _ _ Hp). split; [lia|].
      exists b. splits; auto. intros i Hi. specialize (H2 i Hi). lia.
  - exists p. splits; auto. left. split; auto. right. intros i Hi. specialize (H2 i Hi). lia.
Qed.

Lemma pam_step_ok p : consistent dist n p ->
  exists p', pam_step signed_wrap src p = Ok p' /\ consistent dist n p' /\ length (p_medoids p') = length (p_medoids p) /\
    (p' <> p -> (p_loss p' < p_loss p)%Z) /\
    (p' = p -> forall c, c < n -> nth c (p_nearest p) 0 <> c -> forall i, i < length (p_medoids p) ->
       (deviations dist n (p_medoids p) <= deviations dist n (exchange (p_medoids p) i c))%Z).
Proof using Hsrc Hself Hpos.
  intros Hp. unfold pam_step. rewrite (proj1 Hsrc).
  destruct (for_loop_inv (fun t p' => consistent dist n p' /\ length (p_medoids p') = length (p_medoids p) /\
    ((p' = p /\ forall c, c < t -> nth c (p_nearest p) 0 <> c -> forall i, i < length (p_medoids p) ->
       (deviations dist n (p_medoids p) <= deviations dist n (exchange (p_medoids p) i c))%Z) \/ (p_loss p' < p_loss p)%Z))
    (try_candidate signed_wrap src) n 0 p) as (p' & E & HC & HL & H).
  - splits; auto. left. split; auto. lia.
  - intros c q Hc (HC & HL & H). destruct (try_candidate_ok q c HC ltac:(lia)) as (q' & -> & HC' & H').
    exists q'. split; auto. split; auto. destruct H' as [(-> & H')|(H1 & b & Hb & H2 & H3 & _)].
    + split; auto. destruct H as [(-> & H)|H]; auto. left. split; auto. intros c' Hc' Hne i Hi.
      destruct (Nat.eq_dec c' c) as [->|]; [|apply H; auto; lia]. destruct H'; [contradiction|auto].
    + split. { rewrite H2, exchange_length; auto. } right. destruct H as [(-> & _)|H]; lia.
  - exists p'. splits; auto.
    + intros Hne. destruct H as [(? & _)|H]; [contradiction|auto].
    + intros -> c Hc. destruct H as [(_ & H)|H]; [|lia]. apply H. lia.
Qed.
End State.

(** ** The nearest and second nearest medoids *)
Lemma for_each_index {A S} (body : A -> S -> res S) : forall l pre s,
  for_each l body s = for_loop (length l) (length pre) (fun i s => x <- rd (pre ++ l) i ;; body x s) s.
Proof.
  induction l as [|x l IH]; intros pre s; cbn [for_each length for_loop]; auto.
  assert (rd (pre ++ x :: l) (length pre) = Ok x) as ->.
  { apply rd_ok. rewrite nth_error_app2, Nat.sub_diag by lia. reflexivity. }
  cbn [bind]. destruct (body x s); cbn [bind]; auto.
  replace (pre ++ x :: l) with ((pre ++ [x]) ++ l) by now rewrite <- app_assoc.
  replace (Datatypes.S (length pre)) with (length (pre ++ [x])) by (rewrite app_length; simpl; lia). apply IH.
Qed.

Definition first_of (T : nat -> Z) (top : Z) (t : nat) (d1 : Z) (i1 : nat) : Prop :=
  (t = 0 -> d1 = top /\ i1 = 0) /\
  (0 < t -> i1 < t /\ d1 = T i1 /\ (forall j, j < t -> (d1 <= T j)%Z) /\ forall j, j < i1 -> (d1 < T j)%Z).
Definition second_of (T : nat -> Z) (top : Z) (t : nat) (d1 d2 : Z) (i2 : nat) : Prop :=
  (d2 = top /\ forall j, j < t -> T j = d1) \/
  (i2 < t /\ T i2 = d2 /\ (d1 < d2)%Z /\ forall j, j < t -> T j = d1 \/ (d2 <= T j)%Z).

Lemma first_step T top t d1 i1 : (T t < top)%Z -> first_of T top t d1 i1 ->
  first_of T top (S t) (if (T t <? d1)%Z then T t else d1) (if (T t <? d1)%Z then t else i1).
Proof.
  intros Ht (H0 & H1). split; [lia|]. intros _. destruct t as [|t].
  - destruct H0 as (-> & ->); auto. destruct (Z.ltb_spec (T 0) top); [|lia]. splits; auto; try lia.
    intros j Hj. replace j with 0 by lia. lia.
  - destruct H1 as (H1 & -> & H2 & H3); [lia|]. destruct (Z.ltb_spec (T (S t)) (T i1)); splits; auto; try lia.
    + intros j Hj. destruct (Nat.eq_dec j (S t)) as [->|]; [lia|]. specialize (H2 j ltac:(lia)). lia.
    + intros j Hj. specialize (H2 j ltac:(lia)). lia.
    + intros j Hj. destruct (Nat.eq_dec j (S t)) as [->|]; [lia|]. apply H2. lia.
Qed.

Lemma second_step T top t d1 d2 i1 i2 : (T t < top)%Z -> first_of T top t d1 i1 -> second_of T top t d1 d2 i2 ->
  second_of T top (S t) (if (T t <? d1)%Z then T t else d1)
    (if (T t <? d1)%Z then d1 else if (T t <? d2)%Z && negb (T t =? d1)%Z then T t else d2)
    (if (T t <? d1)%Z then i1 else if (T t <? d2)%Z && negb (T t =? d1)%Z then t else i2).
Proof.
  intros Ht (H0 & H1) H2. destruct (Z.ltb_spec (T t) d1) as [Hx|Hx].
  - destruct t as [|t].
    + destruct H0 as (-> & ->); auto. left. split; auto. intros j Hj. replace j with 0 by lia. auto.
    + destruct H1 as (H1 & E & H3 & _); [lia|]. right. splits; auto; try lia.
      intros j Hj. destruct (Nat.eq_dec j (S t)) as [->|]; auto. right. apply H3. lia.
  - destruct (Z.ltb_spec (T t) d2) as [Hy|Hy], (Z.eqb_spec (T t) d1) as [Hz|Hz]; cbn [negb andb].
    + destruct H2 as [(E & H2)|(A1 & A2 & A3 & A4)]; [left|right]; splits; auto; try lia.
      * intros j Hj. destruct (Nat.eq_dec j t) as [->|]; auto. apply H2. lia.
      * intros j Hj. destruct (Nat.eq_dec j t) as [->|]; auto. apply A4. lia.
    + right. splits; auto; try lia. intros j Hj. destruct (Nat.eq_dec j t) as [->|]; [lia|].
      destruct H2 as [(E & H2)|(A1 & A2 & A3 & A4)]; [left; apply H2; lia|].
      destruct (A4 j ltac:(lia)); auto. lia.
    + destruct H2 as [(E & H2)|(A1 & A2 & A3 & A4)]; lia.
    + destruct H2 as [(E & H2)|(A1 & A2 & A3 & A4)]; [lia|right]; splits; auto; try lia.
      intros j Hj. destruct (Nat.eq_dec j t) as [->|]; auto. apply A4. lia.
Qed.

Section Construction.
Context (dist : nat -> nat -> Z) (n : nat) (src : source Z) (Hsrc : provides src n dist).
Context (top : Z) (M : list nat) (HM : forall m, In m M -> m < n) (Hne : M <> []).
Context (Htop : forall m o, In m M -> o < n -> (dist m o < top)%Z).

Local Notation T o := (fun j => dist (nth j M 0%nat) o).

Lemma medoid_at idx o : idx < length M -> o < n -> medoid_distance src M idx o = Ok (T o idx) /\ (T o idx < top)%Z.
Proof using Hsrc HM Htop.
  intros Hi Ho. assert (In (nth idx M 0) M) by now apply nth_In. unfold medoid_distance. rewrite (rd_nth M idx 0) by auto.
  cbn [bind]. split; [apply (proj2 Hsrc); auto|]. auto.
Qed.

Lemma nearest_indices_ok : exists v, samples_to_nearest_medoid_indices Z.ltb top src M = Ok v /\ length v = n /\
  forall o, o < n -> exists d, first_of (T o) top (length M) d (nth o v 0).
Proof using Hsrc HM Hne Htop.
  unfold samples_to_nearest_medoid_indices. destruct M as [|m0 M0] eqn:EM; [congruence|]. rewrite <- EM in *. rewrite (proj1 Hsrc).
  match goal with |- context [fill ?b n ?f] =>
    destruct (fill_inv b n f (fun o i => exists d, first_of (T o) top (length M) d i)) as (v & E & Hv & H) end.
  - intros o Ho.
    match goal with |- context [for_loop ?k 0 ?body ?s0] =>
      destruct (for_loop_inv (fun t '(d, i) => first_of (T o) top t d i) body k 0 s0) as ((d & i) & E & H) end.
    + split; auto. lia.
    + intros idx (d & i) Hidx Hf. destruct (medoid_at idx o) as (-> & Hlt); auto; [lia|]. cbn [bind].
      pose proof (first_step (T o) top idx d i Hlt Hf) as Hs. destruct (dist (nth idx M 0%nat) o <? d)%Z; eauto.
    + rewrite E. cbn [bind]. eexists. split; eauto.
  - exists v. splits; auto. intros o Ho. destruct (H o Ho) as (i & Ei & d & Hd). exists d.
    rewrite (nth_error_nth _ _ 0 Ei). auto.
Qed.

Lemma second_indices_ok : exists v, samples_to_second_nearest_medoid_indices Z.ltb Z.eqb top src M = Ok v /\ length v = n /\
  forall o, o < n -> exists d i d2, first_of (T o) top (length M) d i /\ second_of (T o) top (length M) d d2 (nth o v 0).
Proof using Hsrc HM Hne Htop.
  unfold samples_to_second_nearest_medoid_indices. destruct M as [|m0 M0] eqn:EM; [congruence|]. rewrite <- EM in *. rewrite (proj1 Hsrc).
  match goal with |- context [fill ?b n ?f] =>
    destruct (fill_inv b n f (fun o i2 => exists d i d2, first_of (T o) top (length M) d i /\ second_of (T o) top (length M) d d2 i2))
      as (v & E & Hv & H) end.
  - intros o Ho.
    match goal with |- context [for_loop ?k 0 ?body ?s0] =>
      destruct (for_loop_inv (fun t '(d, d2, i, i2) => first_of (T o) top t d i /\ second_of (T o) top t d d2 i2) body k 0 s0)
        as ((((d & d2) & i) & i2) & E & H & H2) end.
    + split; [split; auto; lia|]. left. split; auto. lia.
    + intros idx (((d & d2) & i) & i2) Hidx (Hf & Hs). destruct (medoid_at idx o) as (-> & Hlt); auto; [lia|]. cbn [bind].
      pose proof (second_step (T o) top idx d d2 i i2 Hlt Hf Hs) as Hs'.
      pose proof (first_step (T o) top idx d i Hlt Hf) as Hf'. cbn beta in *.
      destruct (dist (nth idx M 0%nat) o <? d)%Z; [eexists; split; [reflexivity|split; eassumption]|].
      destruct (dist (nth idx M 0%nat) o <? d2)%Z, (dist (nth idx M 0%nat) o =? d)%Z; cbn [negb andb] in *;
        (eexists; split; [reflexivity|split; eassumption]).
    + rewrite E. cbn [bind]. eexists. split; eauto.
  - exists v. splits; auto. intros o Ho. destruct (H o Ho) as (i & Ei & d & i1 & d2 & Hd). exists d, i1, d2.
    rewrite (nth_error_nth _ _ 0 Ei). auto.
Qed.

Lemma nearest_distances_ok : exists v, samples_to_nearest_medoid_distances Z.ltb top src M = Ok v /\ length v = n /\
  forall o, o < n -> exists i, first_of (T o) top (length M) (nth o v 0%Z) i.
Proof using Hsrc HM Hne Htop.
  unfold samples_to_nearest_medoid_distances. destruct M as [|m0 M0] eqn:EM; [congruence|]. rewrite <- EM in *. rewrite (proj1 Hsrc).
  match goal with |- context [fill ?b n ?f] =>
    destruct (fill_inv b n f (fun o d => exists i, first_of (T o) top (length M) d i)) as (v & E & Hv & H) end.
  - intros o Ho. rewrite (for_each_index _ M [] top). cbn [app length].
    match goal with |- context [for_loop ?k 0 ?body ?s0] =>
      destruct (for_loop_inv (fun t d => exists i, first_of (T o) top t d i) body k 0 s0) as (d & E & H) end.
    + exists 0. split; auto. lia.
    + intros idx d Hidx (i & Hf). destruct (medoid_at idx o) as (Hmd & Hlt); auto; [lia|].
      unfold medoid_distance in Hmd. rewrite (rd_nth M idx 0) in * by lia. cbn [bind] in *. rewrite Hmd. cbn [bind].
      pose proof (first_step (T o) top idx d i Hlt Hf) as Hs. eauto.
    + rewrite E. eexists. split; eauto.
  - exists v. splits; auto. intros o Ho. destruct (H o Ho) as (d & Ed & i & Hd). exists i.
    rewrite (nth_error_nth _ _ 0%Z Ed). auto.
Qed.

Lemma second_distances_ok : exists v, samples_to_second_nearest_medoid_distances Z.ltb Z.eqb top src M = Ok v /\ length v = n /\
  forall o, o < n -> exists d i i2, first_of (T o) top (length M) d i /\ second_of (T o) top (length M) d (nth o v 0%Z) i2.
Proof using Hsrc HM Hne Htop.
  unfold samples_to_second_nearest_medoid_distances. destruct M as [|m0 M0] eqn:EM; [congruence|]. rewrite <- EM in *. rewrite (proj1 Hsrc).
  match goal with |- context [fill ?b n ?f] =>
    destruct (fill_inv b n f (fun o d2 => exists d i i2, first_of (T o) top (length M) d i /\ second_of (T o) top (length M) d d2 i2))
      as (v & E & Hv & H) end.
  - intros o Ho. rewrite (for_each_index _ M [] (top, top)). cbn [app length].
    match goal with |- context [for_loop ?k 0 ?body ?s0] =>
      destruct (for_loop_inv (fun t '(d, d2) => exists i i2, first_of (T o) top t d i /\ second_of (T o) top t d d2 i2) body k 0 s0)
        as ((d & d2) & E & i & i2 & H & H2) end.
    + exists 0, 0. split; [split; auto; lia|]. left. split; auto. lia.
    + intros idx (d & d2) Hidx (i & i2 & Hf & Hs). destruct (medoid_at idx o) as (Hmd & Hlt); auto; [lia|].
      unfold medoid_distance in Hmd. rewrite (rd_nth M idx 0) in * by lia. cbn [bind] in *. rewrite Hmd. cbn [bind].
      pose proof (second_step (T o) top idx d d2 i i2 Hlt Hf Hs) as Hs'.
      pose proof (first_step (T o) top idx d i Hlt Hf) as Hf'. cbn beta in *.
      destruct (dist (nth idx M 0%nat) o <? d)%Z; [eexists; split; [reflexivity|do 2 eexists; split; eassumption]|].
      destruct (dist (nth idx M 0%nat) o <? d2)%Z, (dist (nth idx M 0%nat) o =? d)%Z; cbn [negb andb] in *;
        (eexists; split; [reflexivity|do 2 eexists; split; eassumption]).
    + rewrite E. cbn [bind]. eexists. split; eauto 6.
  - exists v. splits; auto. intros o Ho. destruct (H o Ho) as (d2 & Ed & d & i & i2 & Hd). exists d, i, i2.
    rewrite (nth_error_nth _ _ 0%Z Ed). auto.
Qed.

Lemma first_unique T k d i d' i' : 0 < k -> first_of T top k d i -> first_of T top k d' i' -> d = d' /\ i = i'.
Proof using Type.
  intros Hk (_ & H) (_ & H'). destruct (H Hk) as (A1 & A2 & A3 & A4). destruct (H' Hk) as (B1 & B2 & B3 & B4).
  assert (d = d') by (specialize (A3 i' B1); specialize (B3 i A1); lia). split; auto.
  destruct (lt_eq_lt_dec i i') as [[Hl|]|Hl]; auto.
  - specialize (B4 i Hl). lia.
  - specialize (A4 i' Hl). lia.
Qed.

Lemma first_deviation o d i : first_of (T o) top (length M) d i -> d = deviation dist M o.
Proof using HM Htop Hne.
  intros (_ & H). destruct H as (A1 & A2 & A3 & _). { destruct M; [congruence|simpl; lia]. }
  symmetry. apply deviation_is. split.
  - exists (nth i M 0). split; auto. now apply nth_In.
  - intros m Hm. apply (In_nth _ _ 0) in Hm. destruct Hm as (j & Hj & <-). auto.
Qed.

Lemma fold_signed l : fold_left (fun acc d => signed_wrap (acc + d)) l 0%Z = fold_right Z.add 0%Z l.
Proof using Type.
  unfold signed_wrap. rewrite fold_symmetric by (intros; lia). induction l; simpl; lia.
Qed.

Lemma make_pam_ok : 2 <= length M -> unique_nearest dist n M ->
  (forall o, o < n -> dist o o = 0%Z) -> (forall i j, i < n -> j < n -> (0 <= dist i j)%Z) ->
  exists p, make_pam signed_wrap top src M = Ok p /\ p_medoids p = M /\ consistent dist n p.
Proof using Hsrc HM Hne Htop.
  intros H2 Hu Hself Hpos. unfold make_pam, nth_indices, nth_distances, nth_nearest.
  rewrite (proj2 (Nat.ltb_ge (length M) 1)), (proj2 (Nat.ltb_ge (length M) 2)) by lia. cbn [Nat.eqb orb].
  destruct nearest_indices_ok as (I1 & -> & L1 & P1). destruct second_indices_ok as (I2 & -> & L2 & P2).
  destruct nearest_distances_ok as (D1 & -> & L3 & P3). destruct second_distances_ok as (D2 & -> & L4 & P4). cbn [bind].
  assert (HO : forall o, o < n -> ones dist M I1 I2 D1 D2 o).
  { assert (Hk : 0 < length M) by lia. intros o Ho. destruct (P1 o Ho) as (d & F1). destruct (P3 o Ho) as (i & F3).
    destruct (P2 o Ho) as (da & ia & d2 & F2 & S2). destruct (P4 o Ho) as (db & ib & i2 & F4 & S4).
    destruct (first_unique _ _ _ _ _ _ Hk F1 F3) as (-> & <-).
    destruct (first_unique _ _ _ _ _ _ Hk F1 F2) as (<- & <-).
    destruct (first_unique _ _ _ _ _ _ Hk F1 F4) as (<- & <-).
    destruct F1 as (_ & F1). destruct F1 as (A1 & A2 & A3 & A4); [lia|]. cbn beta in *.
    destruct (Hu o Ho) as (j & Hj & Hju).
    assert (nth o I1 0 = j) as Ej.
    { destruct (Nat.eq_dec (nth o I1 0) j); auto. specialize (Hju _ A1 n0). specialize (A3 j Hj). lia. }
    assert (exists j', j' < length M /\ j' <> j) as (j' & Hj' & Hne').
    { destruct j; [exists 1|exists 0]; lia. }
    specialize (Hju j' Hj' Hne') as Hlt.
    destruct S2 as [(_ & S2)|(B1 & B2 & B3 & B4)]; [specialize (S2 j' Hj'); cbn beta in S2; rewrite Ej in *; lia|].
    destruct S4 as [(_ & S4)|(C1 & C2 & C3 & C4)]; [specialize (S4 j' Hj'); cbn beta in S4; rewrite Ej in *; lia|].
    cbn beta in *. assert (d2 = nth o D2 0%Z).
    { destruct (B4 i2 C1) as [?|?]; [lia|]. destruct (C4 (nth o I2 0) B1) as [?|?]; lia. }
    constructor; auto; try lia.
    - intros E. rewrite E in B2. lia.
    - intros j0 Hj0 Hne0. destruct (C4 j0 Hj0) as [E|?]; auto. rewrite Ej in *. specialize (Hju j0 Hj0 Hne0). lia. }
  assert (HN : NoDup M).
  { apply (NoDup_nth M 0). intros i j Hi Hj E. destruct (Nat.eq_dec i j) as [|Hij]; auto. exfalso.
    assert (Hin : nth i M 0 < n) by (apply HM, nth_In; auto). destruct (Hu _ Hin) as (t & Ht & Hlt).
    assert (Hz : dist (nth i M 0) (nth i M 0) = 0%Z) by auto.
    assert (0 <= dist (nth t M 0%nat) (nth i M 0%nat))%Z by (apply Hpos; auto; apply HM, nth_In; auto).
    destruct (Nat.eq_dec i t) as [->|].
    - specialize (Hlt j Hj ltac:(auto)). rewrite <- E in Hlt. lia.
    - specialize (Hlt i Hi ltac:(auto)). lia. }
  destruct (make_consistent dist n M I1 I2 D1 D2) as (L & -> & HC); auto. cbn [bind].
  rewrite fold_signed. eexists. split; [reflexivity|]. split; auto.
  replace (fold_right Z.add 0%Z D1) with (deviations dist n M); auto.
  unfold deviations. f_equal. apply nth_error_ext. intros i. destruct (lt_dec i n) as [Hi|Hi].
  - rewrite nth_error_map, (nth_error_nth' (seq 0 n) i 0), seq_nth by (rewrite ?seq_length; lia).
    rewrite (nth_error_nth' D1 i 0%Z) by lia. cbn [option_map Nat.add]. f_equal.
    rewrite (deviation_one _ _ _ _ _ _ _ (HO i Hi)). auto.
  - rewrite (proj2 (nth_error_None D1 i)) by lia. apply nth_error_None. rewrite map_length, seq_length. lia.
Qed.
End Construction.

(** ** fit *)
(** The loop of [KMeans::fit] is the loop of [KMedoids::fit]. *)
Definition index_arith : arith := mk_arith nat 0 (fun x _ => x) (fun x _ => x) (fun x _ => x) Nat.ltb Nat.eqb (fun _ _ => 0).
Definition pam_algorithm (top : Z) (src : source Z) : algorithm index_arith :=
  mk_algorithm index_arith pam (make_pam signed_wrap top src) (pam_step signed_wrap src) p_medoids (fun _ => None).
Definition as_options (o : medoids_options) : options :=
  mk_options (mo_max_iter o) (mo_early_stopping o) (mo_patience o) (mo_n_init o).

Lemma medoids_loop_eq top src o : forall it pi previous candidate p,
  medoids_loop signed_wrap src o it pi previous candidate p =
  fit_loop index_arith (pam_algorithm top src) (as_options o) Nat.eqb it pi previous candidate p.
Proof.
  induction it as [|it IH]; intros pi previous candidate p; cbn [medoids_loop fit_loop]; auto.
  change (alg_step index_arith (pam_algorithm top src) p) with (pam_step signed_wrap src p).
  destruct (pam_step signed_wrap src p); cbn [bind]; auto.
  change (are_containers_equal index_arith Nat.eqb (alg_centroids index_arith (pam_algorithm top src) a) previous)
    with (same_indices (p_medoids a) previous).
  change (early_stopping (as_options o)) with (mo_early_stopping o). change (patience (as_options o)) with (mo_patience o).
  destruct (_ && _); [destruct (_ =? _); auto|]; apply IH.
Qed.

Section FitProofs.
Context (dist : nat -> nat -> Z) (n : nat) (src : source Z) (Hsrc : provides src n dist).
Context (Hself : forall o, o < n -> dist o o = 0%Z) (Hpos : forall i j, i < n -> j < n -> (0 <= dist i j)%Z).
Context (top : Z) (Htop : forall i j, i < n -> j < n -> (dist i j < top)%Z) (o : medoids_options).

Definition good_start (M : list nat) : Prop := (forall m, In m M -> m < n) /\ 2 <= length M /\ unique_nearest dist n M.

Lemma pam_states p : consistent dist n p ->
  exists st, st 0 = p /\ forall t,
    pam_step signed_wrap src (st t) = Ok (st (S t)) /\ consistent dist n (st t) /\
    length (p_medoids (st t)) = length (p_medoids p) /\ (p_loss (st t) <= p_loss p)%Z.
Proof using Hsrc Hself Hpos.
  intros Hp.
  set (st := fix st t := match t with 0 => p | S t => match pam_step signed_wrap src (st t) with Ok q => q | _ => st t end end).
  assert (HS : forall t, st (S t) = match pam_step signed_wrap src (st t) with Ok q => q | _ => st t end) by reflexivity.
  assert (H : forall t, consistent dist n (st t) /\ length (p_medoids (st t)) = length (p_medoids p) /\ (p_loss (st t) <= p_loss p)%Z).
  { induction t as [|t (IH & IL & IB)]; [splits; auto; simpl; lia|].
    destruct (pam_step_ok dist n src Hsrc Hself Hpos (st t) IH) as (q & E & Hq & L & H1 & _).
    rewrite HS, E. splits; auto; try congruence.
    assert (q = st t \/ q <> st t) as [->|Hn]; [|auto|specialize (H1 Hn); lia].
    assert (D : forall a b : pam, {a = b} + {a <> b}) by (repeat decide equality).
    destruct (D q (st t)); auto. }
  exists st. split; auto. intros t. destruct (H t) as (Hc & Hl & Hb).
  destruct (pam_step_ok dist n src Hsrc Hself Hpos (st t) Hc) as (q & E & _). rewrite HS, E. splits; auto.
Qed.

Lemma medoids_candidate_ok M : good_start M ->
  exists R, medoids_candidate signed_wrap top src o M = Ok (R, deviations dist n R) /\ reached top src o M R /\
    (deviations dist n R <= deviations dist n M)%Z /\ NoDup R /\ (forall m, In m R -> m < n) /\ length R = length M.
Proof using Hsrc Hself Hpos Htop.
  intros (HM & Hk & Hu). assert (Hne : M <> []) by (intros ->; simpl in Hk; lia).
  destruct (make_pam_ok dist n src Hsrc top M HM Hne (fun m o Hm Ho => Htop m o (HM m Hm) Ho) Hk Hu Hself Hpos) as (p & Ep & EM & Hp).
  destruct (pam_states p Hp) as (st & H0 & H).
  unfold medoids_candidate. rewrite Ep. cbn [bind].
  destruct (fit_loop_ok index_arith (pam_algorithm top src) (as_options o) Nat.eqb st (fun i => proj1 (H i))
    ltac:(intros i E; destruct (H i) as (_ & Hc & _); pose proof (c_two _ _ _ Hc) as H2;
          change (p_medoids (st i) = []) in E; rewrite E in H2; simpl in H2; lia) M (mo_max_iter o) 0 0) as (t & E & Ht);
    cbn [as_options max_iter patience early_stopping]; try lia.
  - intros _. split; [lia|left; lia].
  - intros t' Ht' (_ & Hs). destruct (Hs 0); lia.
  - cbn [Nat.eqb] in E. rewrite H0 in E.
    assert (E' : medoids_loop signed_wrap src o (mo_max_iter o) 0 [] M p =
      Ok (if t =? 0 then M else p_medoids (st t), st t)) by (rewrite (medoids_loop_eq top); exact E).
    rewrite E'. cbn [bind].
    assert (ER : (if t =? 0 then M else p_medoids (st t)) = p_medoids (st t)).
    { destruct t; simpl; auto. rewrite H0. auto. }
    destruct (H t) as (_ & Hc & Hl & Hb). exists (p_medoids (st t)). rewrite ER, (c_loss _ _ _ Hc). splits; auto.
    + exists st, t. rewrite H0. splits; auto. intros i. apply H.
    + rewrite <- (c_loss _ _ _ Hc). rewrite <- EM, <- (c_loss _ _ _ Hp). auto.
    + apply Hc.
    + apply Hc.
    + congruence.
Qed.

(** The best of the candidates. *)
Lemma medoids_best_ok n_medoids medoids draw starts : medoids_candidates src o n_medoids medoids draw = Ok starts ->
  starts <> [] -> (forall M, In M starts -> good_start M) ->
  exists results best, medoids_fit signed_wrap top src o n_medoids medoids draw = Ok best /\
    Forall2 (fun M R => reached top src o M R /\ (deviations dist n R <= deviations dist n M)%Z /\ NoDup R /\
       (forall m, In m R -> m < n) /\ length R = length M) starts results /\
    In best results /\ forall R, In R results -> (deviations dist n best <= deviations dist n R)%Z.
Proof using Hsrc Hself Hpos Htop.
  intros Es Hne Hall. unfold medoids_fit. rewrite Es. cbn [bind].
  destruct (for_each_inv (fun done results => Forall2 (fun M (r : list nat * Z) =>
      snd r = deviations dist n (fst r) /\ reached top src o M (fst r) /\ (deviations dist n (fst r) <= deviations dist n M)%Z /\ NoDup (fst r) /\
      (forall m, In m (fst r) -> m < n) /\ length (fst r) = length M) done results)
    (fun candidate results => r <- medoids_candidate signed_wrap top src o candidate ;; Ok (results ++ [r])) starts [] [])
    as (results & E & HP).
  - constructor.
  - intros x d t Hx HP. destruct (medoids_candidate_ok x (Hall x Hx)) as (R & -> & HR). cbn [bind].
    eexists. split; [reflexivity|]. apply Forall2_app; auto.
  - simpl in HP. rewrite E. cbn [bind].
    assert (Hr : map snd results <> []). { destruct HP; [congruence|discriminate]. }
    destruct (min_pair_ok (map snd results) Hr) as (i & loss & Em & Hi & H1 & H2 & _). rewrite Em. cbn [bind].
    rewrite map_length in Hi. destruct (rd_lt results i Hi) as (r & Er). rewrite Er. apply rd_ok in Er. cbn [bind]. destruct r as (best & l).
    exists (map fst results), best. splits; auto.
    + clear -HP. induction HP; simpl; constructor; auto. apply H.
    + apply (in_map fst _ (best, l)). eapply nth_error_In; eauto.
    + assert (HS : forall r, In r results -> snd r = deviations dist n (fst r)).
      { clear -HP. intros r Hr. induction HP as [|M r' ? ? Hh HP IH]; [destruct Hr|]. destruct Hr as [<-|Hr]; auto. apply Hh. }
      intros R HR. apply in_map_iff in HR. destruct HR as (r & <- & HR). rewrite <- (HS r HR).
      pose proof (HS (best, l) (nth_error_In _ _ Er)) as Hb. cbn [fst snd] in Hb. rewrite <- Hb.
      assert (l = loss) as ->.
      { rewrite H1. symmetry. apply nth_error_nth. now rewrite nth_error_map, Er. }
      apply (In_nth _ _ (best, loss)) in HR. destruct HR as (j & Hj & <-). specialize (H2 j ltac:(rewrite map_length; auto)).
      rewrite (nth_error_nth (map snd results) j 0%Z (x := snd (nth j results (best, loss)))) in H2; auto.
      rewrite nth_error_map, (nth_error_nth' results j (best, loss)) by auto. reflexivity.
Qed.
End FitProofs.
