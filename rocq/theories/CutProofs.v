(** Cuts of a dendrogram and density connectivity. *)
From Coq Require Import List Arith ZArith Lia Bool Permutation Relations.
From Verif Require Import Base UnionFindModel UnionFindSpec UnionFindProofs BufferModel BufferSpec BufferProofs SearchSpec
  GraphSpec GraphProofs BoruvkaSpec SlinkModel SlinkSpec SlinkProofs SlinkProps DbscanModel DbscanSpec DbscanProofs DbscanProps.
Import ListNotations.

(** Two samples have a common ancestor of level below [r]. *)
Definition joined_below {D} (lt : D -> D -> bool) (r : D) (root : slink D) (i j : nat) : Prop :=
  exists k v s a b, descendant root (SNode k v s a b) /\ lt v r = true /\ In i (leaves a ++ leaves b) /\ In j (leaves a ++ leaves b).

Section Cut.
Context {D : Type} (lt : D -> D -> bool) (Hlt : order_ok lt) (r : D).

Lemma below_up_to t (E : list (nat * nat * D)) i j : lt t r = true ->
  linked (ends (up_to lt t E)) i j -> linked (ends (below lt r E)) i j.
Proof using Hlt.
  intros Ht. apply linked_mono. intros a b H. unfold ends in *. apply in_map_iff in H as ([[a' b'] w] & Ee & H).
  simpl in Ee. inversion Ee; subst a' b'. apply in_map_iff. exists (a, b, w). split; auto.
  unfold up_to, below in *. apply filter_In in H as [H Hw]. apply filter_In. split; auto. simpl in *.
  apply negb_true_iff in Hw. destruct (lt w r) eqn:Hwr; auto.
  pose proof (le_trans lt Hlt r w t Hwr Hw). congruence.
Qed.

Lemma heaviest (l : list D) : l <> [] -> exists t, In t l /\ forall x, In x l -> lt t x = false.
Proof using Hlt.
  induction l as [|x l IH]; [congruence|]. intros _. destruct l as [|y l].
  { exists x. split; [now left|]. intros z [<-|[]]. now apply (lt_irrefl lt Hlt). }
  destruct IH as (t & Ht & Hmax); [discriminate|]. destruct (lt t x) eqn:Htx.
  - exists x. split; [now left|]. intros z [<-|Hz]; [now apply (lt_irrefl lt Hlt)|].
    apply (le_trans lt Hlt z t x); [now apply Hmax|now apply (lt_asym lt Hlt)].
  - exists t. split; [now right|]. intros z [<-|Hz]; auto.
Qed.

Lemma below_joined n E root i j : i < n -> j < n -> i <> j ->
  (forall t i j, i < n -> j < n -> i <> j -> (joined_at lt root t i j <-> linked (ends (up_to lt t E)) i j)) ->
  (joined_below lt r root i j <-> linked (ends (below lt r E)) i j).
Proof using Hlt.
  intros Hi Hj Hij HJ. split.
  - intros (k & v & s & a & b & Hd & Hv & Hia & Hja). apply (below_up_to v); auto. apply HJ; auto.
    exists k, v, s, a, b. splits; auto. now apply (lt_irrefl lt Hlt).
  - intros H. destruct (heaviest (map snd (below lt r E))) as (t & Ht & Hmax).
    { intros E0. assert (below lt r E = []) as E1 by (destruct (below lt r E); auto; discriminate).
      rewrite E1 in H. apply linked_nil in H. contradiction. }
    assert (Htr : lt t r = true).
    { apply in_map_iff in Ht as (e & <- & He). unfold below in He. apply filter_In in He. tauto. }
    assert (J : joined_at lt root t i j).
    { apply HJ; auto. revert H. apply linked_mono. intros a b Hab. unfold ends in *.
      apply in_map_iff in Hab as (e & <- & He). apply in_map. unfold up_to. apply filter_In.
      split; [unfold below in He; apply filter_In in He; tauto|]. apply negb_true_iff. apply Hmax. now apply in_map. }
    destruct J as (k & v & s & a & b & Hd & Hv & Hia & Hja). exists k, v, s, a, b. splits; auto.
    destruct (lt v r) eqn:Hvr; auto. pose proof (le_trans lt Hlt r v t Hvr Hv). congruence.
Qed.
End Cut.

(** A node holds samples on both sides. *)
Lemma leaves_some {D} (s : slink D) : exists x, In x (leaves s).
Proof.
  induction s as [i|k v c a IHa b _]; cbn [leaves]; [exists i; now left|].
  destruct IHa as (x & Hx). exists x. apply in_or_app. auto.
Qed.

Lemma leaves_nodup {D} (s s' : slink D) : descendant s s' -> NoDup (leaves s) -> NoDup (leaves s').
Proof. induction 1; auto; cbn [leaves]; intros H0; apply NoDup_app' in H0; apply IHdescendant; tauto. Qed.

Lemma other_leaf {D} (a b : slink D) i : NoDup (leaves a ++ leaves b) -> In i (leaves a ++ leaves b) ->
  exists j, j <> i /\ In j (leaves a ++ leaves b).
Proof.
  intros Hn Hi. destruct (leaves_some a) as (x & Hx), (leaves_some b) as (y & Hy).
  assert (Hd : forall z, In z (leaves a) -> In z (leaves b) -> False).
  { intros z. apply NoDup_app' in Hn as (_ & _ & Hn). apply Hn. }
  apply in_app_or in Hi as [Hi|Hi].
  - exists y. split; [intros ->; eauto|apply in_or_app; auto].
  - exists x. split; [intros ->; eauto|apply in_or_app; auto].
Qed.

(** Density connectivity from links. *)
Section Density.
Context (n : nat) (near : nat -> nat -> bool) (min : nat).
Context (Hsym : forall i j, i < n -> j < n -> near i j = near j i).

Lemma links_dense E i j :
  (forall a b, In (a, b) E -> a < n /\ b < n /\ core n near min a = true /\ core n near min b = true /\ near a b = true) ->
  linked E i j -> i = j \/ dense n near min i j.
Proof using Hsym.
  intros HE H. induction H as [i j H|i|i j H [->|IH]|i j k H1 [->|IH1] H2 [->|IH2]]; auto.
  - destruct (HE i j H) as (A1 & A2 & A3 & A4 & A5). right. eapply dense_step; eauto. now constructor.
  - right. now apply dense_sym.
  - right. eapply dense_trans; eauto.
Qed.

Lemma two_near i j : i < n -> j < n -> i <> j -> near i i = true -> near i j = true -> min <= 1 -> core n near min i = true.
Proof.
  intros Hi Hj Hij H1 H2 Hm. unfold core. apply Nat.ltb_lt.
  assert (2 <= length (filter (near i) (seq 0 n))); [|lia].
  change 2 with (length [i; j]). apply NoDup_incl_length.
  - repeat constructor; simpl; intuition congruence.
  - intros x [<-|[<-|[]]]; apply filter_In; split; auto; apply in_seq; lia.
Qed.

Lemma one_near i : i < n -> near i i = true -> min = 0 -> core n near min i = true.
Proof.
  intros Hi H1 ->. unfold core. apply Nat.ltb_lt.
  assert (In i (filter (near i) (seq 0 n))) as H by (apply filter_In; split; auto; apply in_seq; lia).
  destruct (filter (near i) (seq 0 n)); [destruct H|simpl; lia].
Qed.

Lemma core_has_other i : i < n -> 1 <= min -> core n near min i = true -> exists j, j < n /\ j <> i /\ near i j = true.
Proof.
  intros Hi Hm H. unfold core in H. apply Nat.ltb_lt in H.
  assert (Nd : NoDup (filter (near i) (seq 0 n))) by (apply NoDup_filter, seq_NoDup).
  destruct (filter (near i) (seq 0 n)) as [|x [|y l]] eqn:E; simpl in H; try lia.
  assert (G : forall z, In z (x :: y :: l) -> z < n /\ near i z = true).
  { intros z Hz. rewrite <- E in Hz. apply filter_In in Hz as (Hz & Hz'). apply in_seq in Hz. split; auto. lia. }
  destruct (Nat.eq_dec x i) as [->|Hx].
  - exists y. destruct (G y); [right; now left|]. splits; auto. intros ->. inversion Nd as [|? ? Hn _]; subst. apply Hn. now left.
  - exists x. destruct (G x); [now left|]. auto.
Qed.
End Density.

(** The core distance bounds the number of samples in the ball. *)
Lemma core_count {D} (lt : D -> D -> bool) (Hlt : order_ok lt) dist samples nf n k i d r :
  core_distance lt dist samples nf n k i d -> lt d r = true -> k <= n ->
  k <= length (filter (in_ball lt dist samples nf r i) (seq 0 n)).
Proof.
  intros (stored & j & (rest & HP & HL & _) & (_ & Hf)) Hd Hk.
  assert (E : length (filter (fun c => lt (snd c) r) (with_distances dist samples nf (row samples nf i) (seq 0 n))) =
              length (filter (in_ball lt dist samples nf r i) (seq 0 n))).
  { unfold with_distances, in_ball. generalize (seq 0 n) as l. induction l as [|x l IH]; cbn [map filter snd]; auto.
    destruct (lt (dist (row samples nf x) (row samples nf i)) r); cbn [length]; auto. }
  rewrite <- E. assert (HF : filter (fun c : nat * D => lt (snd c) r) stored = stored).
  { revert Hf. clear - Hd Hlt. induction stored as [|c s IH]; intros Hf; auto. cbn [filter].
    assert (lt (snd c) r = true) as ->.
    { specialize (Hf c (or_introl eq_refl)). cbn [snd] in Hf. destruct (lt (snd c) r) eqn:X; auto.
      pose proof (le_trans lt Hlt r (snd c) d X Hf). congruence. }
    f_equal. apply IH. intros x Hx. apply Hf. now right. }
  assert (P' : Permutation (filter (fun c => lt (snd c) r) (stored ++ rest))
                 (filter (fun c => lt (snd c) r) (with_distances dist samples nf (row samples nf i) (seq 0 n)))).
  { revert HP. generalize (stored ++ rest) as a, (with_distances dist samples nf (row samples nf i) (seq 0 n)) as b.
    induction 1; cbn [filter]; auto; repeat match goal with |- context [lt ?x r] => destruct (lt x r) end; auto;
      try constructor; auto. eapply perm_trans; eauto. }
  rewrite <- (Permutation_length P'), filter_app, app_length, HF, HL.
  unfold with_distances. rewrite map_length, seq_length. lia.
Qed.
