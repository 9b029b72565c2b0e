(** Lemmas for C100: dendrograms whose levels are changed by a monotone map. *)
From Coq Require Import List Arith ZArith QArith Lia Bool Permutation Lqa.
From Verif Require Import Base BufferSpec GraphSpec SlinkModel SlinkSpec SlinkProofs CondensedModel CondensedSpec CondensedProofs
  IsometrySpec IsometryProofs.
Import ListNotations.
Local Open Scope nat_scope.

(** The dendrogram with every level replaced. *)
Fixpoint map_levels {D D'} (phi : D -> D') (s : slink D) : slink D' :=
  match s with
  | SLeaf i => SLeaf i
  | SNode i v n l r => SNode i (phi v) n (map_levels phi l) (map_levels phi r)
  end.

Section Map.
Context {D D' : Type} (phi : D -> D').
Notation up := (map_levels phi).

Lemma up_leaves s : leaves (up s) = leaves s.
Proof. induction s; cbn; congruence. Qed.
Lemma up_levels s : levels (up s) = map phi (levels s).
Proof. induction s as [|i v n l IHl r IHr]; cbn; auto. now rewrite IHl, IHr, map_app. Qed.
Lemma up_size s : sl_size (up s) = sl_size s.
Proof. now destruct s. Qed.

Lemma up_descendant s s' : descendant s s' -> descendant (up s) (up s').
Proof. induction 1; cbn; [apply desc_here|now apply desc_left|now apply desc_right]. Qed.

Lemma descendant_up s x : descendant (up s) x -> exists s', x = up s' /\ descendant s s'.
Proof.
  induction s as [i|i v n l IHl r IHr]; cbn; intros H; inversion H; subst.
  - exists (SLeaf i). split; auto. constructor.
  - exists (SNode i v n l r). split; auto. constructor.
  - destruct IHl as (s' & -> & ?); auto. exists s'. split; auto. now apply desc_left.
  - destruct IHr as (s' & -> & ?); auto. exists s'. split; auto. now apply desc_right.
Qed.

(** ** Condensed trees *)
Context (inverse : D -> Q) (inverse' : D' -> Q) (R : Q -> Q -> Prop).

Inductive calike : cnode D -> cnode D' -> Prop :=
| ca_leaf s m m' q q' b : R q q' -> calike (CLeaf s m q b) (CLeaf (up s) m' q' b)
| ca_split s m m' q q' b l r l' r' : R q q' -> calike l l' -> calike r r' -> calike (CSplit s m q b l r) (CSplit (up s) m' q' b l' r').

Lemma calike_root c c' : calike c c' -> cn_root c' = up (cn_root c).
Proof. destruct 1; reflexivity. Qed.
Lemma calike_selected c c' : calike c c' -> cn_selected c' = cn_selected c.
Proof. destruct 1; reflexivity. Qed.
Lemma calike_is_leaf c c' : calike c c' -> cn_is_leaf c' = cn_is_leaf c.
Proof. destruct 1; reflexivity. Qed.
Lemma calike_set b c c' : calike c c' -> calike (cn_set_selected b c) (cn_set_selected b c').
Proof. destruct 1; cbn; [now apply ca_leaf|now apply ca_split]. Qed.

Lemma condense_alike min
  (R0 : R 0%Q 0%Q) (Radd : forall q q' k v v' m m', R q q' -> R v v' -> R m m' -> R (add_excess_of_mass q k v m) (add_excess_of_mass q' k v' m')) :
  forall s root lm lm' st st', (forall v, In v (levels s) -> R (inverse v) (inverse' (phi v))) -> R lm lm' -> R st st' ->
  calike (condense inverse min root lm st s) (condense inverse' min (up root) lm' st' (up s)).
Proof.
  induction s as [i|i v n l IHl r IHr]; intros root lm lm' st st' Hv Hm Hs; cbn [condense map_levels]; [now apply ca_leaf|].
  assert (Vv : R (inverse v) (inverse' (phi v))) by (apply Hv; left; auto).
  assert (Vl : forall x, In x (levels l) -> R (inverse x) (inverse' (phi x))) by (intros; apply Hv; right; apply in_or_app; auto).
  assert (Vr : forall x, In x (levels r) -> R (inverse x) (inverse' (phi x))) by (intros; apply Hv; right; apply in_or_app; auto).
  rewrite !up_size. destruct (min <=? sl_size l), (min <=? sl_size r); cbn [andb].
  - apply ca_split; auto.
  - apply IHl; auto.
  - apply IHr; auto.
  - apply ca_leaf; auto.
Qed.

Lemma shallow_alike c c' : calike c c' ->
  match shallowest_selected c, shallowest_selected c' with
  | Ok cs, Ok cs' => map cn_root cs' = map (fun x => up (cn_root x)) cs
  | UB, UB => True
  | _, _ => False
  end.
Proof.
  induction 1 as [s m m' q q' b Hq|s m m' q q' b l r l' r' Hq Hl IHl Hr IHr]; cbn [shallowest_selected cn_selected].
  - destruct b; cbn; auto.
  - destruct b; cbn; auto.
    destruct (shallowest_selected l), (shallowest_selected l'); cbn [bind]; try contradiction; auto.
    destruct (shallowest_selected r), (shallowest_selected r'); cbn [bind]; try contradiction; auto.
    rewrite !map_app. congruence.
Qed.

Lemma fill_up k : forall s fc, fill_label k (up s) fc = fill_label k s fc.
Proof.
  induction s as [i|i v n l IHl r IHr]; intros fc; cbn [fill_label map_levels]; auto. rewrite IHl.
  destruct (fill_label k l fc); cbn [bind]; auto.
Qed.

Lemma extract_alike c c' : calike c c' -> extract_flat_condensed c' = extract_flat_condensed c.
Proof.
  intros H. pose proof (shallow_alike c c' H) as Sh. unfold extract_flat_condensed. rewrite (calike_root c c' H), up_size.
  destruct (shallowest_selected c) as [cs| | |], (shallowest_selected c') as [cs'| | |]; try contradiction; auto. cbn [bind].
  assert (G : forall cs cs' st, map cn_root cs' = map (fun x => up (cn_root x)) cs ->
    for_each cs' (fun c (st : nat * list nat) => let '(cluster_label, flat_cluster) := st in
      flat_cluster <- fill_label cluster_label (cn_root c) flat_cluster ;; Ok (S cluster_label, flat_cluster)) st =
    for_each cs (fun c (st : nat * list nat) => let '(cluster_label, flat_cluster) := st in
      flat_cluster <- fill_label cluster_label (cn_root c) flat_cluster ;; Ok (S cluster_label, flat_cluster)) st).
  { clear. induction cs as [|x cs IH]; intros [|x' cs'] st E; cbn in E; try discriminate; auto.
    injection E as E1 E2. cbn [for_each]. destruct st as (k & fc). rewrite E1, fill_up.
    destruct (fill_label k (cn_root x) fc); cbn [bind]; auto. }
  now rewrite (G cs cs') by auto.
Qed.
End Map.

Section Select.
Context {D D' : Type} (phi : D -> D') (a : Q) (Ha : (0 < a)%Q).
Definition times (q q' : Q) : Prop := (q' == a * q)%Q.

Lemma times_add q q' k v v' m m' : times q q' -> times v v' -> times m m' -> times (add_excess_of_mass q k v m) (add_excess_of_mass q' k v' m').
Proof. unfold times, add_excess_of_mass. intros -> -> ->. ring. Qed.

Lemma le_times x y x' y' : times x x' -> times y y' -> Qle_bool x' y' = Qle_bool x y.
Proof.
  unfold times. intros Hx Hy. destruct (Qle_bool x y) eqn:E.
  - apply Qle_bool_iff. apply Qle_bool_iff in E. rewrite Hx, Hy. nra.
  - destruct (Qle_bool x' y') eqn:E'; auto. exfalso. apply Qle_bool_iff in E'. rewrite Hx, Hy in E'.
    assert (x <= y)%Q by nra. apply Qle_bool_iff in H. congruence.
Qed.

Lemma select_alike c c' : calike phi times c c' ->
  times (fst (select_subtree c)) (fst (select_subtree c')) /\ calike phi times (snd (select_subtree c)) (snd (select_subtree c')).
Proof.
  induction 1 as [s m m' q q' b Hq|s m m' q q' b l r l' r' Hq Hl [IHl1 IHl2] Hr [IHr1 IHr2]]; cbn [select_subtree].
  - split; auto. now apply ca_leaf.
  - destruct (select_subtree l) as [ql cl], (select_subtree l') as [ql' cl'], (select_subtree r) as [qr cr], (select_subtree r') as [qr' cr'].
    cbn [fst snd] in *.
    assert (T : times (ql + qr) (ql' + qr')) by (unfold times in *; rewrite IHl1, IHr1; ring).
    rewrite (le_times _ _ _ _ T Hq). destruct (negb (Qle_bool (ql + qr) q)); cbn [fst snd]; split; auto; now apply ca_split.
Qed.
End Select.

(** ** Joins *)
Section Joins.
Context {D : Type} (lt : D -> D -> bool) (Hlt : order_ok lt) (phi : D -> D).

Definition keeps (vs : list D) : Prop := forall u v, In u vs -> In v vs -> lt (phi u) (phi v) = lt u v.

Lemma up_dendrogram s : keeps (levels s) -> dendrogram lt s -> dendrogram lt (map_levels phi s).
Proof.
  induction s as [i|i v n l IHl r IHr]; cbn [levels dendrogram map_levels]; auto. intros K (Hn & Hi & Hv & Dl & Dr).
  rewrite !up_leaves, !up_levels. split; [auto|]. split; [auto|]. split.
  - intros x Hx. rewrite <- map_app in Hx. apply in_map_iff in Hx as (y & <- & Hy). rewrite K; auto; [left; auto|right; auto].
  - split; [apply IHl|apply IHr]; auto; intros u w Hu Hw; apply K; right; apply in_or_app; auto.
Qed.

Lemma up_strict s : keeps (levels s) -> strict lt s -> strict lt (map_levels phi s).
Proof.
  induction s as [i|i v n l IHl r IHr]; cbn [levels strict map_levels]; auto. intros K (Hv & Dl & Dr).
  rewrite !up_levels. split.
  - intros x Hx. rewrite <- map_app in Hx. apply in_map_iff in Hx as (y & <- & Hy). rewrite K; auto; [right; auto|left; auto].
  - split; [apply IHl|apply IHr]; auto; intros u w Hu Hw; apply K; right; apply in_or_app; auto.
Qed.

Lemma node_level (s : slink D) k v n l r : descendant s (SNode k v n l r) -> In v (levels s).
Proof.
  remember (SNode k v n l r) as x eqn:E. induction 1; subst.
  - left; auto.
  - right. apply in_or_app. left. auto.
  - right. apply in_or_app. right. auto.
Qed.

Lemma joined_level (s : slink D) t x y : joined_at lt s t x y -> exists v, In v (levels s) /\ lt t v = false /\ joined_at lt s v x y.
Proof.
  intros (k & v & n & l & r & Hd & Ht & Hx & Hy). exists v. split; [eapply node_level; eauto|]. split; auto.
  exists k, v, n, l, r. splits; auto. apply lt_irrefl; auto.
Qed.

Lemma joined_up s t x y : keeps (levels s) ->
  (joined_at lt (map_levels phi s) t x y <-> exists v, In v (levels s) /\ lt t (phi v) = false /\ joined_at lt s v x y).
Proof.
  intros K. split.
  - intros (k & v & n & l & r & Hd & Ht & Hx & Hy). apply descendant_up in Hd as (s' & E & Hd).
    destruct s' as [|k' v' n' l' r']; [discriminate|]. cbn in E. injection E as -> -> -> -> ->. rewrite !up_leaves in *.
    exists v'. split; [eapply node_level; eauto|]. split; auto. exists k', v', n', l', r'. splits; auto. apply lt_irrefl; auto.
  - intros (v & Hv & Ht & (k & u & n & l & r & Hd & Hu & Hx & Hy)).
    exists k, (phi u), n, (map_levels phi l), (map_levels phi r). rewrite !up_leaves. splits; auto.
    + apply (up_descendant phi) in Hd. exact Hd.
    + apply (proj2 Hlt (phi u) (phi v) t); auto. rewrite K; auto. eapply node_level; eauto.
Qed.

Lemma reach_weaker n d t t' x y : lt t' t = false -> reach lt n d t x y -> reach lt n d t' x y.
Proof.
  intros Ht H. induction H as [i Hi|i j k Hi Hj Hw H IH]; [now constructor|]. apply reach_step with j; auto.
  apply (proj2 Hlt _ t _); auto.
Qed.

Lemma reach_bottleneck n d t x y : reach lt n d t x y -> x <> y ->
  exists i j, i < n /\ j < n /\ lt t (d i j) = false /\ reach lt n d (d i j) x y.
Proof.
  induction 1 as [i Hi|i j k Hi Hj Hw H IH]; intros Hne; [congruence|].
  destruct (Nat.eq_dec j k) as [->|Hjk].
  - exists i, k. splits; auto. apply reach_step with k; auto; [apply lt_irrefl; auto|constructor; auto].
  - destruct (IH Hjk) as (p & q & Hp & Hq & Hpq & Hr). destruct (lt (d p q) (d i j)) eqn:E.
    + exists i, j. splits; auto. apply reach_step with j; auto; [apply lt_irrefl; auto|].
      apply reach_weaker with (d p q); auto. now apply (proj1 Hlt).
    + exists p, q. splits; auto. apply reach_step with j; auto.
Qed.
End Joins.
