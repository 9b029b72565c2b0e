(** Lemmas on condensed trees. *)
From Coq Require Import List Arith ZArith QArith Lia Bool Permutation Lqa.
From Verif Require Import Base SlinkModel SlinkSpec SlinkProofs CondensedModel CondensedSpec.
Import ListNotations.
Local Open Scope nat_scope.

Lemma qsum_app a b : (qsum (a ++ b) == qsum a + qsum b)%Q.
Proof. induction a as [|x a IH]; simpl; [ring|]. rewrite IH. ring. Qed.

Lemma qsum_perm a b : Permutation a b -> (qsum a == qsum b)%Q.
Proof.
  induction 1 as [|x a b H IH|x y a|a b c H1 IH1 H2 IH2]; simpl; try reflexivity.
  - now rewrite IH.
  - ring.
  - now rewrite IH1.
Qed.

Lemma split_list {A} (P R : A -> Prop) (l : list A) : (forall x, In x l -> P x \/ R x) ->
  exists a b, Permutation l (a ++ b) /\ (forall x, In x a -> P x) /\ (forall x, In x b -> R x).
Proof.
  induction l as [|x l IH]; intros H.
  - exists [], []. splits; auto; intros ? [].
  - destruct IH as (a & b & HP & Ha & Hb); [intros; apply H; right; auto|].
    destruct (H x (or_introl eq_refl)) as [Hx|Hx].
    + exists (x :: a), b. splits; auto.
      * simpl. now constructor.
      * intros y [<-|Hy]; auto.
    + exists a, (x :: b). splits; auto.
      * rewrite HP. apply Permutation_middle.
      * intros y [<-|Hy]; auto.
Qed.

Set Default Proof Using "Type".
Section Trees.
Context {D : Type} (inverse : D -> Q).
Notation slink := (slink D).
Notation cnode := (cnode D).

(** Sizes count the samples. *)
Fixpoint sized (s : slink) : Prop :=
  match s with
  | SLeaf _ => True
  | SNode _ _ n l r => n = length (leaves l ++ leaves r) /\ sized l /\ sized r
  end.

Lemma sized_size s : sized s -> sl_size s = length (leaves s).
Proof. clear inverse. destruct s; simpl; tauto. Qed.

Lemma dendrogram_sized lt s : dendrogram lt s -> sized s.
Proof. clear inverse. induction s; simpl; tauto. Qed.

Lemma leaves_pos (s : slink) : 1 <= length (leaves s).
Proof. induction s; simpl; rewrite ?app_length; lia. Qed.

Lemma leaves_some (s : slink) : exists x, In x (leaves s).
Proof. induction s as [i|? ? ? l [x Hx] r _]; simpl; [eauto|]. exists x. apply in_or_app. auto. Qed.

(** Nodes of a condensed tree. *)
Inductive inside : cnode -> cnode -> Prop :=
| inside_here c : inside c c
| inside_left s m q b l r c : inside l c -> inside (CSplit s m q b l r) c
| inside_right s m q b l r c : inside r c -> inside (CSplit s m q b l r) c.

(** What [condense] guarantees of the tree; [trunk] is where the node ends. *)
Fixpoint tree_ok (c : cnode) : Prop :=
  match c with
  | CLeaf _ _ _ b => True
  | CSplit s _ _ _ l r => tree_ok l /\ tree_ok r /\
      exists i v n, descendant s (SNode i v n (cn_root l) (cn_root r))
  end.

Lemma condense_root min root lm st : forall s, cn_root (condense inverse min root lm st s) = root.
Proof.
  intros s. revert st. induction s as [i|i v n l IHl r IHr]; intros st; cbn [condense]; auto.
  destruct (min <=? sl_size l), (min <=? sl_size r); cbn [andb]; auto.
Qed.

Lemma condense_lambda min root lm st : forall s, cn_lambda_min (condense inverse min root lm st s) = lm.
Proof.
  intros s. revert st. induction s as [i|i v n l IHl r IHr]; intros st; cbn [condense]; auto.
  destruct (min <=? sl_size l), (min <=? sl_size r); cbn [andb]; auto.
Qed.

Lemma condense_ok min : forall s root lm st, descendant root s -> tree_ok (condense inverse min root lm st s).
Proof.
  induction s as [i|i v n l IHl r IHr]; intros root lm st Hd; cbn [condense]; simpl; auto.
  destruct (min <=? sl_size l), (min <=? sl_size r); cbn [andb]; simpl; auto.
  - splits; [apply IHl; constructor|apply IHr; constructor|]. rewrite !condense_root. eauto.
  - apply IHl. eapply descendant_trans; [exact Hd|]. apply desc_left. constructor.
  - apply IHr. eapply descendant_trans; [exact Hd|]. apply desc_right. constructor.
Qed.

Lemma inside_descendant c c' : tree_ok c -> inside c c' -> descendant (cn_root c) (cn_root c').
Proof.
  intros H Hi. induction Hi as [c|s m q b l r c Hi IH|s m q b l r c Hi IH]; [constructor| |];
    simpl in H; destruct H as (Hl & Hr & i & v & n & Hd); simpl; eapply descendant_trans; try exact Hd.
  - apply desc_left; auto.
  - apply desc_right; auto.
Qed.

Lemma inside_ok c c' : tree_ok c -> inside c c' -> tree_ok c'.
Proof. intros H Hi. induction Hi; auto; simpl in H; tauto. Qed.

(** The clusters of the specification are the nodes of the tree. *)
Lemma condense_clusters min : forall s root lm st, descendant root s -> sized s ->
  (forall c, inside (condense inverse min root lm st s) c ->
     cn_root c = root \/ exists i v n l r, descendant s (SNode i v n l r) /\ big min l /\ big min r /\ (cn_root c = l \/ cn_root c = r)) /\
  (forall i v n l r, descendant s (SNode i v n l r) -> big min l -> big min r ->
     exists a b, inside (condense inverse min root lm st s) a /\ inside (condense inverse min root lm st s) b /\
       cn_root a = l /\ cn_root b = r).
Proof.
  induction s as [i|i v n l IHl r IHr]; intros root lm st Hd Hs; cbn [condense].
  - split.
    + intros c Hc. inversion Hc; subst. auto.
    + intros i0 v n l r H. inversion H.
  - simpl in Hs. destruct Hs as (Hn & Hsl & Hsr).
    pose proof (sized_size l Hsl) as El. pose proof (sized_size r Hsr) as Er.
    assert (Sub : forall k w m a b, descendant l (SNode k w m a b) -> descendant (SNode i v n l r) (SNode k w m a b)) by (intros; now apply desc_left).
    assert (Sub' : forall k w m a b, descendant r (SNode k w m a b) -> descendant (SNode i v n l r) (SNode k w m a b)) by (intros; now apply desc_right).
    assert (Dl : descendant root l) by (eapply descendant_trans; [exact Hd|]; apply desc_left; constructor).
    assert (Dr : descendant root r) by (eapply descendant_trans; [exact Hd|]; apply desc_right; constructor).
    assert (Small : forall s' : slink, length (leaves s') < min -> forall k w m a b, descendant s' (SNode k w m a b) -> ~ big min a).
    { intros s' Hlt k w m a b Hda Ha. unfold big in Ha. assert (length (leaves a) <= length (leaves s')); [|lia].
      clear - Hda. assert (G : forall x y : slink, descendant x y -> length (leaves y) <= length (leaves x)).
      { induction 1; simpl; rewrite ?app_length; lia. }
      apply G in Hda. simpl in Hda. rewrite app_length in Hda. lia. }
    destruct (Nat.leb_spec min (sl_size l)) as [Hl|Hl], (Nat.leb_spec min (sl_size r)) as [Hr|Hr]; cbn [andb].
    + destruct (IHl l (inverse v) 0%Q (desc_here l) Hsl) as [Pl Ql]. destruct (IHr r (inverse v) 0%Q (desc_here r) Hsr) as [Pr Qr].
      assert (Bl : big min l) by (unfold big; lia). assert (Br : big min r) by (unfold big; lia).
      split.
      * intros c Hc. inversion Hc as [|? ? ? ? ? ? ? H|? ? ? ? ? ? ? H]; subst; auto; right.
        -- destruct (Pl c H) as [E|(k & w & m & a & b & H1 & H2)]; [|exists k, w, m, a, b; auto].
           exists i, v, (length (leaves l ++ leaves r)), l, r. splits; auto. constructor.
        -- destruct (Pr c H) as [E|(k & w & m & a & b & H1 & H2)]; [|exists k, w, m, a, b; auto].
           exists i, v, (length (leaves l ++ leaves r)), l, r. splits; auto. constructor.
      * intros k w m a b H Ha Hb. inversion H as [|? ? ? ? ? ? H'|? ? ? ? ? ? H']; subst.
        -- eexists; eexists. splits; [apply inside_left; constructor|apply inside_right; constructor| |]; apply condense_root.
        -- destruct (Ql _ _ _ _ _ H' Ha Hb) as (x & y & I1 & I2 & E1 & E2). exists x, y. splits; auto; now apply inside_left.
        -- destruct (Qr _ _ _ _ _ H' Ha Hb) as (x & y & I1 & I2 & E1 & E2). exists x, y. splits; auto; now apply inside_right.
    + destruct (IHl root lm (add_excess_of_mass st (sl_size r) (inverse v) lm) Dl Hsl) as [Pl Ql]. split.
      * intros c Hc. destruct (Pl c Hc) as [E|(k & w & m & a & b & H1 & H2)]; auto. right. exists k, w, m, a, b. auto.
      * intros k w m a b H Ha Hb. inversion H as [|? ? ? ? ? ? H'|? ? ? ? ? ? H']; subst; eauto.
        -- unfold big in Hb. lia.
        -- exfalso. apply (Small r ltac:(lia) _ _ _ _ _ H' Ha).
    + destruct (IHr root lm (add_excess_of_mass st (sl_size l) (inverse v) lm) Dr Hsr) as [Pr Qr]. split.
      * intros c Hc. destruct (Pr c Hc) as [E|(k & w & m & a & b & H1 & H2)]; auto. right. exists k, w, m, a, b. auto.
      * intros k w m a b H Ha Hb. inversion H as [|? ? ? ? ? ? H'|? ? ? ? ? ? H']; subst; eauto.
        -- unfold big in Ha. lia.
        -- exfalso. apply (Small l ltac:(lia) _ _ _ _ _ H' Ha).
    + split.
      * intros c Hc. inversion Hc; subst. auto.
      * intros k w m a b H Ha Hb. inversion H as [|? ? ? ? ? ? H'|? ? ? ? ? ? H']; subst.
        -- unfold big in Ha. lia.
        -- exfalso. apply (Small l ltac:(lia) _ _ _ _ _ H' Ha).
        -- exfalso. apply (Small r ltac:(lia) _ _ _ _ _ H' Ha).
Qed.

Lemma clusters_inside min root s : sized root ->
  (cluster_node min root s <-> exists c, inside (build_condensed inverse min root) c /\ cn_root c = s).
Proof.
  intros Hs. destruct (condense_clusters min root root 0%Q 0%Q (desc_here root) Hs) as [P R]. unfold build_condensed. split.
  - intros [->|(i & v & n & l & r & Hd & Hl & Hr & Es)].
    + eexists. split; [apply inside_here|]. apply condense_root.
    + destruct (R _ _ _ _ _ Hd Hl Hr) as (a & b & Ia & Ib & Ea & Eb). destruct Es as [->| ->]; eauto.
  - intros (c & Hc & <-). destruct (P c Hc) as [->|H]; [left; auto|right; exact H].
Qed.

(** Stability of a node. *)
Definition term_sum (lm : Q) (dep : nat -> D) (l : list nat) : Q := qsum (map (fun x => inverse (dep x) - lm)%Q l).

Lemma term_sum_const lm dep v l : (forall x, In x l -> dep x = v) ->
  (term_sum lm dep l == inject_Z (Z.of_nat (length l)) * (inverse v - lm))%Q.
Proof.
  unfold term_sum. induction l as [|x l IH]; intros H; [simpl; unfold inject_Z; ring|].
  cbn [map qsum fold_right length]. rewrite (H x) by (left; auto). change (fold_right Qplus 0%Q) with qsum. rewrite IH by (intros; apply H; right; auto).
  rewrite Nat2Z.inj_succ. unfold Z.succ. rewrite inject_Z_plus. unfold inject_Z at 3. ring.
Qed.

Lemma term_sum_ext lm dep dep' l : (forall x, In x l -> dep x = dep' x) -> term_sum lm dep l = term_sum lm dep' l.
Proof. intros H. unfold term_sum. f_equal. apply map_ext_in. intros x Hx. now rewrite H. Qed.

Lemma term_sum_app lm dep a b : (term_sum lm dep (a ++ b) == term_sum lm dep a + term_sum lm dep b)%Q.
Proof. unfold term_sum. rewrite map_app. apply qsum_app. Qed.

(** The stability added from the trunk node [s] on. *)
Lemma condense_stability min root lm : forall s st, sized s -> NoDup (leaves s) ->
  match s with
  | SLeaf _ => cn_stability (condense inverse min root lm st s) = st
  | SNode _ _ _ _ _ => exists dep, (forall x, In x (leaves s) -> departs min s x (dep x)) /\
       (cn_stability (condense inverse min root lm st s) == st + term_sum lm dep (leaves s))%Q
  end.
Proof.
  induction s as [i|i v n l IHl r IHr]; intros st Hs Hnd; cbn [condense]; [reflexivity|].
  simpl in Hs, Hnd. destruct Hs as (Hn & Hsl & Hsr). destruct (NoDup_app' _ _ Hnd) as (Nl & Nr & Dis).
  pose proof (sized_size l Hsl) as El. pose proof (sized_size r Hsr) as Er.
  destruct (Nat.leb_spec min (sl_size l)) as [Hl|Hl], (Nat.leb_spec min (sl_size r)) as [Hr|Hr]; cbn [andb].
  - exists (fun _ => v). split.
    + intros x Hx. apply departs_split; auto; unfold big; lia.
    + cbn [cn_stability leaves]. rewrite (term_sum_const lm _ v) by auto. unfold add_excess_of_mass. rewrite Hn. reflexivity.
  - specialize (IHl (add_excess_of_mass st (sl_size r) (inverse v) lm) Hsl Nl).
    pose proof (leaves_pos r). destruct l as [k|k w m a b]; [simpl in Hl; lia|].
    set (l := SNode k w m a b) in *. destruct IHl as (dep & Hdep & Hst).
    exists (fun x => if existsb (Nat.eqb x) (leaves r) then v else dep x).
    assert (Er' : forall x, In x (leaves r) -> existsb (Nat.eqb x) (leaves r) = true).
    { intros x Hx. apply existsb_exists. exists x. split; auto. apply Nat.eqb_refl. }
    assert (El' : forall x, In x (leaves l) -> existsb (Nat.eqb x) (leaves r) = false).
    { intros x Hx. destruct (existsb _ _) eqn:E; auto. apply existsb_exists in E as (y & Hy & Exy).
      apply Nat.eqb_eq in Exy. subst y. exfalso. apply (Dis x); auto. }
    split.
    + intros x Hx. simpl in Hx. apply in_app_or in Hx as [Hx|Hx].
      * rewrite El' by exact Hx. apply stays_left; auto; unfold big; lia.
      * rewrite Er' by exact Hx. apply departs_right; auto. unfold big; lia.
    + rewrite Hst. change (leaves (SNode i v n l r)) with (leaves l ++ leaves r). rewrite term_sum_app.
      rewrite (term_sum_ext lm (fun x => if existsb (Nat.eqb x) (leaves r) then v else dep x) dep (leaves l))
        by (intros x Hx; now rewrite El').
      rewrite (term_sum_const lm _ v (leaves r)) by (intros x Hx; now rewrite Er').
      unfold add_excess_of_mass. rewrite Er. ring.
  - specialize (IHr (add_excess_of_mass st (sl_size l) (inverse v) lm) Hsr Nr).
    pose proof (leaves_pos l). destruct r as [k|k w m a b]; [simpl in Hr; lia|].
    set (r := SNode k w m a b) in *. destruct IHr as (dep & Hdep & Hst).
    exists (fun x => if existsb (Nat.eqb x) (leaves l) then v else dep x).
    assert (El' : forall x, In x (leaves l) -> existsb (Nat.eqb x) (leaves l) = true).
    { intros x Hx. apply existsb_exists. exists x. split; auto. apply Nat.eqb_refl. }
    assert (Er' : forall x, In x (leaves r) -> existsb (Nat.eqb x) (leaves l) = false).
    { intros x Hx. destruct (existsb _ _) eqn:E; auto. apply existsb_exists in E as (y & Hy & Exy).
      apply Nat.eqb_eq in Exy. subst y. exfalso. apply (Dis x); auto. }
    split.
    + intros x Hx. simpl in Hx. apply in_app_or in Hx as [Hx|Hx].
      * rewrite El' by exact Hx. apply departs_left; auto. unfold big; lia.
      * rewrite Er' by exact Hx. apply stays_right; auto; unfold big; lia.
    + rewrite Hst. change (leaves (SNode i v n l r)) with (leaves l ++ leaves r). rewrite term_sum_app.
      rewrite (term_sum_ext lm (fun x => if existsb (Nat.eqb x) (leaves l) then v else dep x) dep (leaves r))
        by (intros x Hx; now rewrite Er').
      rewrite (term_sum_const lm _ v (leaves l)) by (intros x Hx; now rewrite El').
      unfold add_excess_of_mass. rewrite El. ring.
  - exists (fun _ => v). split.
    + intros x Hx. simpl in Hx. apply in_app_or in Hx as [Hx|Hx].
      * apply departs_left; auto; unfold big; lia.
      * apply departs_right; auto; unfold big; lia.
    + cbn [cn_stability leaves]. rewrite (term_sum_const lm _ v) by auto. unfold add_excess_of_mass. rewrite Hn. reflexivity.
Qed.

(** A node inside is the condensation of its own root. *)
Lemma inside_condense min : forall s root lm st c, inside (condense inverse min root lm st s) c ->
  c = condense inverse min root lm st s \/
  exists i v n l r, descendant s (SNode i v n l r) /\
    (c = condense inverse min l (inverse v) 0 l \/ c = condense inverse min r (inverse v) 0 r).
Proof.
  induction s as [i|i v n l IHl r IHr]; intros root lm st c; cbn [condense].
  - intros H. inversion H; subst. auto.
  - assert (Lift : forall c', (exists k w m a b, descendant l (SNode k w m a b) /\ (c' = condense inverse min a (inverse w) 0 a \/ c' = condense inverse min b (inverse w) 0 b)) ->
       exists k w m a b, descendant (SNode i v n l r) (SNode k w m a b) /\ (c' = condense inverse min a (inverse w) 0 a \/ c' = condense inverse min b (inverse w) 0 b)).
    { intros c' (k & w & m & a & b & H & E). exists k, w, m, a, b. split; auto. now apply desc_left. }
    assert (Lift' : forall c', (exists k w m a b, descendant r (SNode k w m a b) /\ (c' = condense inverse min a (inverse w) 0 a \/ c' = condense inverse min b (inverse w) 0 b)) ->
       exists k w m a b, descendant (SNode i v n l r) (SNode k w m a b) /\ (c' = condense inverse min a (inverse w) 0 a \/ c' = condense inverse min b (inverse w) 0 b)).
    { intros c' (k & w & m & a & b & H & E). exists k, w, m, a, b. split; auto. now apply desc_right. }
    destruct (min <=? sl_size l), (min <=? sl_size r); cbn [andb]; intros H.
    + inversion H as [|? ? ? ? ? ? ? H'|? ? ? ? ? ? ? H']; subst; auto; right.
      * destruct (IHl _ _ _ _ H') as [->|X]; auto. exists i, v, n, l, r. split; auto. constructor.
      * destruct (IHr _ _ _ _ H') as [->|X]; auto. exists i, v, n, l, r. split; auto. constructor.
    + destruct (IHl _ _ _ _ H); auto.
    + destruct (IHr _ _ _ _ H); auto.
    + inversion H; subst; auto.
Qed.

Lemma descendant_sized (s s' : slink) : descendant s s' -> sized s -> sized s'.
Proof. clear inverse. induction 1; simpl; tauto. Qed.

Lemma descendant_nodup (s s' : slink) : descendant s s' -> NoDup (leaves s) -> NoDup (leaves s').
Proof. clear inverse. induction 1; simpl; auto; intros Hn; apply NoDup_app' in Hn; tauto. Qed.

Lemma inside_mass min root c : sized root -> NoDup (leaves root) -> inside (build_condensed inverse min root) c ->
  mass inverse min root (cn_root c) (cn_stability c).
Proof.
  intros Hs Hn Hc. unfold build_condensed in Hc.
  assert (G : forall s b, descendant root s -> birth inverse root s b ->
            mass inverse min root s (cn_stability (condense inverse min s b 0 s))).
  { intros s b Hd Hb. exists b. split; auto.
    pose proof (condense_stability min s b s 0 (descendant_sized _ _ Hd Hs) (descendant_nodup _ _ Hd Hn)) as H.
    destruct s as [i|i v n l r].
    - rewrite H. reflexivity.
    - destruct H as (dep & H1 & H2). exists dep. split; auto. rewrite H2. unfold term_sum. ring. }
  destruct (inside_condense _ _ _ _ _ _ Hc) as [->|(i & v & n & l & r & Hd & [->| ->])]; rewrite condense_root; apply G.
  - constructor.
  - left. auto.
  - eapply descendant_trans; [exact Hd|]. apply desc_left. constructor.
  - right. exists i, v, n, l, r. auto.
  - eapply descendant_trans; [exact Hd|]. apply desc_right. constructor.
  - right. exists i, v, n, l, r. auto.
Qed.

(** The specified mass is unique. *)
Lemma departs_in min (s : slink) x v : departs min s x v -> In x (leaves s).
Proof. induction 1; simpl; auto; apply in_or_app; auto. Qed.

Lemma departs_fun min (s : slink) x v w : NoDup (leaves s) -> departs min s x v -> departs min s x w -> v = w.
Proof. clear inverse.
  intros Hn H. revert w. induction H as [i v n l r x Hl Hr Hx|i v n l r x Hl Hx|i v n l r x Hr Hx|i v n l r x w0 Hl Hr Hd IH|i v n l r x w0 Hr Hl Hd IH];
    intros w H'; simpl in Hn; destruct (NoDup_app' _ _ Hn) as (Nl & Nr & Dis); inversion H'; subst; try tauto; auto.
  all: exfalso; repeat match goal with H : departs _ _ _ _ |- _ => apply departs_in in H end; eapply Dis; eauto.
Qed.

Lemma parent_unique (root : slink) i v n l r i' v' n' l' r' s : NoDup (leaves root) ->
  descendant root (SNode i v n l r) -> descendant root (SNode i' v' n' l' r') ->
  (s = l \/ s = r) -> (s = l' \/ s = r') -> v = v'.
Proof.
  intros Hn H H' Es Es'. destruct (leaves_some s) as [x Hx].
  assert (Len : forall a b : slink, descendant a b -> length (leaves b) <= length (leaves a)) by (induction 1; simpl; rewrite ?app_length; lia).
  assert (Ps : forall (k : nat) (w : D) (m : nat) (a b : slink), s = a \/ s = b -> length (leaves s) < length (leaves (SNode k w m a b)) /\ In x (leaves (SNode k w m a b))).
  { intros k w m a b E. simpl. rewrite app_length. pose proof (leaves_pos a). pose proof (leaves_pos b). split; [destruct E; subst; lia|].
    apply in_or_app. destruct E; subst; auto. }
  destruct (Ps i v n l r Es) as [L1 X1]. destruct (Ps i' v' n' l' r' Es') as [L2 X2].
  assert (Down : forall (k : nat) (w : D) (m : nat) (a b t : slink), NoDup (leaves (SNode k w m a b)) -> (s = a \/ s = b) ->
            descendant (SNode k w m a b) t -> In x (leaves t) -> t = SNode k w m a b \/ length (leaves t) <= length (leaves s)).
  { intros k w m a b t Nd E Hd Ht. simpl in Nd. destruct (NoDup_app' _ _ Nd) as (Na & Nb & Dis).
    inversion Hd; subst; auto; right.
    - destruct E as [->| ->]; [apply Len; auto|]. exfalso. apply (Dis x); auto. eapply descendant_leaves; eauto.
    - destruct E as [->| ->]; [|apply Len; auto]. exfalso. apply (Dis x); auto. eapply descendant_leaves; eauto. }
  pose proof (descendant_nodup _ _ H Hn) as N1. pose proof (descendant_nodup _ _ H' Hn) as N2.
  destruct (chain root _ _ x Hn H H' X1 X2) as [C|C].
  - destruct (Down i v n l r _ N1 Es C X2) as [E|E]; [inversion E; auto|lia].
  - destruct (Down i' v' n' l' r' _ N2 Es' C X1) as [E|E]; [inversion E; auto|lia].
Qed.

Lemma birth_fun (root s : slink) b b' : NoDup (leaves root) -> birth inverse root s b -> birth inverse root s b' -> b = b'.
Proof.
  intros Hn.
  assert (Root : forall i v n l r, descendant root (SNode i v n l r) -> (root = l \/ root = r) -> False).
  { intros i v n l r Hd E. assert (Len : forall a b : slink, descendant a b -> length (leaves b) <= length (leaves a)) by (induction 1; simpl; rewrite ?app_length; lia).
    apply Len in Hd. simpl in Hd. rewrite app_length in Hd. pose proof (leaves_pos l). pose proof (leaves_pos r). destruct E; subst; lia. }
  intros [[-> ->]|(i & v & n & l & r & Hd & Es & ->)] [[E ->]|(i' & v' & n' & l' & r' & Hd' & Es' & ->)]; auto.
  - exfalso. eauto.
  - subst s. exfalso. eauto.
  - f_equal. eapply parent_unique; eauto.
Qed.

Lemma mass_fun min (root s : slink) q q' : NoDup (leaves root) -> descendant root s ->
  mass inverse min root s q -> mass inverse min root s q' -> (q == q')%Q.
Proof.
  intros Hn Hd (b & Hb & H) (b' & Hb' & H'). rewrite <- (birth_fun root s b b' Hn Hb Hb') in H'. destruct s as [i|i v n l r].
  - now rewrite H, H'.
  - destruct H as (dep & H1 & H2), H' as (dep' & H1' & H2'). rewrite H2, H2'.
    rewrite (map_ext_in _ (fun x => inverse (dep' x) - b)%Q); [reflexivity|]. intros x Hx.
    rewrite (departs_fun min _ x (dep x) (dep' x) (descendant_nodup _ _ Hd Hn)); auto.
Qed.

(** Selection. *)
Definition total (sel : list cnode) : Q := qsum (map cn_stability sel).

Fixpoint best (c : cnode) : Q * list cnode :=
  match c with
  | CLeaf _ _ q _ => (q, [c])
  | CSplit _ _ q _ l r =>
      let children := (fst (best l) + fst (best r))%Q in
      if negb (Qle_bool children q) then (children, snd (best l) ++ snd (best r)) else (q, [c])
  end.

(** Marks as [condense] leaves them. *)
Fixpoint fresh (c : cnode) : Prop :=
  match c with
  | CLeaf _ _ _ b => b = true
  | CSplit _ _ _ b l r => b = false /\ fresh l /\ fresh r
  end.

Lemma condense_fresh min : forall s root lm st, fresh (condense inverse min root lm st s).
Proof.
  induction s as [i|i v n l IHl r IHr]; intros root lm st; cbn [condense]; simpl; auto.
  destruct (min <=? sl_size l), (min <=? sl_size r); cbn [andb]; simpl; auto.
Qed.

Definition key (c : cnode) : slink * Q := (cn_root c, cn_stability c).

Lemma select_best c : fresh c -> exists cs, shallowest_selected (snd (select_subtree c)) = Ok cs /\
  map key cs = map key (snd (best c)) /\ fst (select_subtree c) = fst (best c) /\ cn_root (snd (select_subtree c)) = cn_root c /\
  cn_is_leaf (snd (select_subtree c)) = cn_is_leaf c.
Proof.
  induction c as [s m q b|s m q b l IHl r IHr]; simpl; intros F.
  - subst b. eexists. splits; reflexivity.
  - destruct F as (-> & Fl & Fr). destruct (IHl Fl) as (al & El & Kl & Tl & _). destruct (IHr Fr) as (ar & Er & Kr & Tr & _).
    destruct (select_subtree l) as [ql l'] eqn:SL, (select_subtree r) as [qr r'] eqn:SR. cbn [fst snd] in *. subst ql qr.
    destruct (negb (Qle_bool (fst (best l) + fst (best r)) q)); cbn [fst snd].
    + exists (al ++ ar). simpl. rewrite El. cbn [bind]. rewrite Er. cbn [bind]. splits; auto. rewrite !map_app. congruence.
    + eexists. splits; reflexivity.
Qed.

Lemma select_children s m q b l r : fresh (CSplit s m q b l r) -> exists cs,
  shallowest_selected (cn_set_selected false (snd (select_subtree (CSplit s m q b l r)))) = Ok cs /\
  map key cs = map key (snd (best l) ++ snd (best r)).
Proof.
  intros (_ & Fl & Fr). destruct (select_best l Fl) as (al & El & Kl & Tl & _). destruct (select_best r Fr) as (ar & Er & Kr & Tr & _).
  simpl. destruct (select_subtree l) as [ql l'], (select_subtree r) as [qr r']. cbn [fst snd] in *. exists (al ++ ar). split.
  - destruct (negb (Qle_bool (ql + qr) q)); simpl; rewrite El; cbn [bind]; rewrite Er; reflexivity.
  - rewrite !map_app. congruence.
Qed.

Fixpoint finals (c : cnode) : list cnode :=
  match c with CLeaf _ _ _ _ => [c] | CSplit _ _ _ _ l r => finals l ++ finals r end.

Lemma fresh_finals c : fresh c -> shallowest_selected c = Ok (finals c).
Proof.
  induction c as [s m q b|s m q b l IHl r IHr]; simpl; intros F; [now subst b|]. destruct F as (-> & Fl & Fr).
  rewrite IHl by auto. cbn [bind]. rewrite IHr by auto. reflexivity.
Qed.

Definition cleaves (c : cnode) : list nat := leaves (cn_root c).

Lemma inside_trans a b c : inside a b -> inside b c -> inside a c.
Proof. induction 1; intros; auto; [apply inside_left|apply inside_right]; auto. Qed.

Lemma inside_leaves c c' x : tree_ok c -> inside c c' -> In x (cleaves c') -> In x (cleaves c).
Proof. intros H Hi. apply descendant_leaves. now apply inside_descendant. Qed.

Lemma split_nodup s m q b l r : tree_ok (CSplit s m q b l r) -> NoDup (leaves s) ->
  NoDup (cleaves l) /\ NoDup (cleaves r) /\ (forall x, In x (cleaves l) -> ~ In x (cleaves r)).
Proof.
  intros (Hl & Hr & i & v & n & Hd) Hn. pose proof (descendant_nodup _ _ Hd Hn) as H. simpl in H. apply NoDup_app' in H. exact H.
Qed.

Lemma NoDup_app_intro (l1 l2 : list nat) : NoDup l1 -> NoDup l2 -> (forall x, In x l1 -> ~ In x l2) -> NoDup (l1 ++ l2).
Proof.
  induction l1 as [|y l1 IH]; simpl; intros H1 H2 H; auto. inversion H1; subst. constructor.
  - rewrite in_app_iff. intros [?|?]; auto. apply (H y); auto.
  - apply IH; auto.
Qed.

Lemma flat_inside c cs x : tree_ok c -> (forall y, In y cs -> inside c y) -> In x (flat_map cleaves cs) -> In x (cleaves c).
Proof. intros H Hin Hx. apply in_flat_map in Hx as (y & Hy & Hx). eapply inside_leaves; eauto. Qed.

Lemma join_disjoint s m q b l r a a' : tree_ok (CSplit s m q b l r) -> NoDup (leaves s) ->
  (forall y, In y a -> inside l y) -> (forall y, In y a' -> inside r y) ->
  NoDup (flat_map cleaves a) -> NoDup (flat_map cleaves a') -> NoDup (flat_map cleaves (a ++ a')).
Proof.
  intros H Hn Ha Ha' N N'. destruct (split_nodup _ _ _ _ _ _ H Hn) as (_ & _ & Dis). simpl in H. destruct H as (Hl & Hr & _).
  rewrite flat_map_app. apply NoDup_app_intro; auto. intros x Hx Hx'. apply (Dis x).
  - apply (flat_inside l a); auto.
  - apply (flat_inside r a'); auto.
Qed.

(** A family that is made of disjoint nodes and meets every node without children. *)
Definition covering (c : cnode) (sel : list cnode) : Prop :=
  forall f, inside c f -> cn_is_leaf f = true -> exists y, In y sel /\ inside y f.

Lemma cover_join s m q b l r a a' : covering l a -> covering r a' -> covering (CSplit s m q b l r) (a ++ a').
Proof.
  intros Ha Ha' f Hf Hl. inversion Hf as [|? ? ? ? ? ? ? H|? ? ? ? ? ? ? H]; subst; [discriminate| |].
  - destruct (Ha f H Hl) as (y & Hy & Hi). exists y. split; auto. apply in_or_app; auto.
  - destruct (Ha' f H Hl) as (y & Hy & Hi). exists y. split; auto. apply in_or_app; auto.
Qed.

Lemma best_facts c : tree_ok c -> NoDup (cleaves c) ->
  (forall y, In y (snd (best c)) -> inside c y) /\ NoDup (flat_map cleaves (snd (best c))) /\
  covering c (snd (best c)) /\ (total (snd (best c)) == fst (best c))%Q.
Proof.
  induction c as [s m q b|s m q b l IHl r IHr]; intros H Hn; cbn [best].
  - splits.
    + intros y [<-|[]]. constructor.
    + simpl. rewrite app_nil_r. exact Hn.
    + intros f Hf _. inversion Hf; subst. eexists. split; [left; reflexivity|constructor].
    + unfold total. simpl. ring.
  - pose proof H as (Hl & Hr & _). destruct (split_nodup _ _ _ _ _ _ H Hn) as (Nl & Nr & Dis).
    destruct (IHl Hl Nl) as (Il & Fl & Cl & Tl). destruct (IHr Hr Nr) as (Ir & Fr & Cr & Tr).
    destruct (negb _); cbn [fst snd].
    + splits.
      * intros y Hy. apply in_app_or in Hy as [Hy|Hy]; [apply inside_left|apply inside_right]; auto.
      * eapply join_disjoint; eauto.
      * apply cover_join; auto.
      * unfold total in *. rewrite map_app, qsum_app, Tl, Tr. reflexivity.
    + splits.
      * intros y [<-|[]]. constructor.
      * simpl. rewrite app_nil_r. exact Hn.
      * intros f Hf _. eexists. split; [left; reflexivity|exact Hf].
      * unfold total. simpl. ring.
Qed.

Lemma finals_facts c : tree_ok c -> NoDup (cleaves c) ->
  (forall y, In y (finals c) <-> inside c y /\ cn_is_leaf y = true) /\ NoDup (flat_map cleaves (finals c)).
Proof.
  induction c as [s m q b|s m q b l IHl r IHr]; intros H Hn; cbn [finals].
  - split.
    + intros y. split.
      * intros [<-|[]]. split; [constructor|reflexivity].
      * intros [Hi _]. inversion Hi. left. auto.
    + simpl. rewrite app_nil_r. exact Hn.
  - pose proof H as (Hl & Hr & _). destruct (split_nodup _ _ _ _ _ _ H Hn) as (Nl & Nr & Dis).
    destruct (IHl Hl Nl) as (Il & Fl). destruct (IHr Hr Nr) as (Ir & Fr). split.
    + intros y. rewrite in_app_iff, Il, Ir. split.
      * intros [[? ?]|[? ?]]; split; auto; [apply inside_left|apply inside_right]; auto.
      * intros [Hi Hy]. inversion Hi; subst; auto. discriminate.
    + eapply join_disjoint; eauto; [intros y Hy; now apply Il|intros y Hy; now apply Ir].
Qed.

Lemma flat_perm (a b : list cnode) : Permutation a b -> Permutation (flat_map cleaves a) (flat_map cleaves b).
Proof. apply Permutation_flat_map. Qed.

Lemma alone c sel : tree_ok c -> (forall y, In y (c :: sel) -> inside c y) -> NoDup (flat_map cleaves (c :: sel)) -> sel = [].
Proof.
  intros H Hin Hn. destruct sel as [|y sel]; auto. exfalso. simpl in Hn. apply NoDup_app' in Hn as (_ & _ & Dis).
  destruct (leaves_some (cn_root y)) as [x Hx]. apply (Dis x).
  - apply (inside_leaves c y); auto. apply Hin. right. left. auto.
  - apply in_or_app. auto.
Qed.

Lemma sel_split s m q b l r sel : let c := CSplit s m q b l r in tree_ok c ->
  (forall y, In y sel -> inside c y) -> NoDup (flat_map cleaves sel) ->
  sel = [c] \/ exists a a', Permutation sel (a ++ a') /\ (forall y, In y a -> inside l y) /\ (forall y, In y a' -> inside r y).
Proof.
  intros c H Hin Hn. destruct (split_list (fun y => inside l y \/ inside r y) (fun y => y = c) sel) as (a & b' & HP & Ha & Hb).
  { intros y Hy. specialize (Hin y Hy). inversion Hin; subst; auto. }
  destruct b' as [|y b'].
  - rewrite app_nil_r in HP. right. destruct (split_list (inside l) (inside r) a Ha) as (d & e & HP' & Hd & He).
    exists d, e. splits; auto. now rewrite HP.
  - left. assert (y = c) by (apply Hb; left; auto). subst y.
    assert (HP' : Permutation sel (c :: a ++ b')) by (rewrite HP; symmetry; apply Permutation_middle).
    rewrite (alone c (a ++ b')) in HP'; auto.
    + apply Permutation_sym, Permutation_length_1_inv in HP'. exact HP'.
    + intros y Hy. apply Hin. eapply Permutation_in; [symmetry; exact HP'|exact Hy].
    + eapply Permutation_NoDup; [apply flat_perm; exact HP'|auto].
Qed.

Lemma total_perm a b : Permutation a b -> (total a == total b)%Q.
Proof. intros H. apply qsum_perm. now apply Permutation_map. Qed.

Lemma total_app a b : (total (a ++ b) == total a + total b)%Q.
Proof. unfold total. rewrite map_app. apply qsum_app. Qed.

Lemma sel_parts s m q b l r sel a a' : tree_ok (CSplit s m q b l r) -> NoDup (leaves s) ->
  NoDup (flat_map cleaves sel) -> covering (CSplit s m q b l r) sel -> Permutation sel (a ++ a') ->
  (forall y, In y a -> inside l y) -> (forall y, In y a' -> inside r y) ->
  covering l a /\ covering r a'.
Proof.
  intros H Hn Hf Hc HP Ha Ha'. destruct (split_nodup _ _ _ _ _ _ H Hn) as (Nl & Nr & Dis). simpl in H. destruct H as (Hl & Hr & _).
  split; intros f Hfi Hleaf.
  - destruct (Hc f (inside_left _ _ _ _ _ _ _ Hfi) Hleaf) as (y & Hy & Hyf). apply (Permutation_in _ HP) in Hy.
    apply in_app_or in Hy as [Hy|Hy]; [eauto|]. exfalso. destruct (leaves_some (cn_root f)) as [x Hx]. apply (Dis x).
    + apply (inside_leaves l f); auto.
    + apply (inside_leaves r f); auto. eapply inside_trans; eauto.
  - destruct (Hc f (inside_right _ _ _ _ _ _ _ Hfi) Hleaf) as (y & Hy & Hyf). apply (Permutation_in _ HP) in Hy.
    apply in_app_or in Hy as [Hy|Hy]; [|eauto]. exfalso. destruct (leaves_some (cn_root f)) as [x Hx]. apply (Dis x).
    + apply (inside_leaves l f); auto. eapply inside_trans; eauto.
    + apply (inside_leaves r f); auto.
Qed.

Lemma perm_nodup_parts sel a a' : NoDup (flat_map cleaves sel) -> Permutation sel (a ++ a') ->
  NoDup (flat_map cleaves a) /\ NoDup (flat_map cleaves a').
Proof.
  intros Hn HP. apply (Permutation_NoDup (flat_perm _ _ HP)) in Hn. rewrite flat_map_app in Hn. apply NoDup_app' in Hn. tauto.
Qed.

Lemma Qle_bool_false a b : Qle_bool a b = false -> (b < a)%Q.
Proof. intros H. apply Qnot_le_lt. intros L. apply Qle_bool_iff in L. congruence. Qed.

Lemma best_is_best c : tree_ok c -> NoDup (cleaves c) -> forall sel, (forall y, In y sel -> inside c y) ->
  NoDup (flat_map cleaves sel) -> covering c sel ->
  (total sel <= fst (best c))%Q /\ ((total sel == fst (best c))%Q -> length (snd (best c)) <= length sel).
Proof.
  induction c as [s m q b|s m q b l IHl r IHr]; intros H Hn sel Hin Hf Hc; cbn [best].
  - destruct (Hc _ (inside_here _) eq_refl) as (y & Hy & _). assert (E : sel = [CLeaf s m q b]).
    { assert (All : forall z, In z sel -> z = CLeaf s m q b) by (intros z Hz; specialize (Hin z Hz); inversion Hin; auto).
      destruct sel as [|z sel]; [destruct Hy|]. rewrite (All z (or_introl eq_refl)) in *. f_equal. apply (alone (CLeaf s m q b)); auto. }
    subst sel. cbn [fst snd length]. unfold total. simpl. split; [lra|auto].
  - pose proof H as (Hl & Hr & _). destruct (split_nodup _ _ _ _ _ _ H Hn) as (Nl & Nr & Dis).
    destruct (sel_split s m q b l r sel H Hin Hf) as [->|(a & a' & HP & Ha & Ha')].
    + unfold total. simpl. destruct (Qle_bool (fst (best l) + fst (best r)) q) eqn:E; simpl.
      * split; [lra|auto].
      * apply Qle_bool_false in E. split; [lra|]. intros X. exfalso. lra.
    + destruct (sel_parts _ _ _ _ _ _ _ _ _ H Hn Hf Hc HP Ha Ha') as [Ca Ca']. destruct (perm_nodup_parts _ _ _ Hf HP) as [Fa Fa'].
      destruct (IHl Hl Nl a Ha Fa Ca) as [Tl Ll]. destruct (IHr Hr Nr a' Ha' Fa' Ca') as [Tr Lr].
      assert (T : (total sel == total a + total a')%Q) by (rewrite (total_perm _ _ HP); apply total_app).
      rewrite (Permutation_length HP), app_length.
      destruct (Qle_bool (fst (best l) + fst (best r)) q) eqn:E; cbn [negb fst snd].
      * apply Qle_bool_iff in E. split; [lra|]. intros _. simpl.
        assert (1 <= length a); [|lia]. assert (Hex : exists f, inside l f /\ cn_is_leaf f = true).
        { clear. induction l as [s m q b|s m q b l1 [f [H1 H2]] l2 _].
          - eexists. split; [constructor|reflexivity].
          - exists f. split; auto. now apply inside_left. }
        destruct Hex as (f & Hfi & Hfl). destruct (Ca f Hfi Hfl) as (y & Hy & _). destruct a; [destruct Hy|simpl; lia].
      * split; [lra|]. intros X. rewrite app_length. assert (total a == fst (best l))%Q by lra. assert (total a' == fst (best r))%Q by lra.
        specialize (Ll ltac:(auto)). specialize (Lr ltac:(auto)). lia.
Qed.

Lemma best_any c : tree_ok c -> NoDup (cleaves c) -> (forall y, inside c y -> (0 <= cn_stability y)%Q) ->
  forall sel, (forall y, In y sel -> inside c y) -> NoDup (flat_map cleaves sel) -> (total sel <= fst (best c))%Q.
Proof.
  induction c as [s m q b|s m q b l IHl r IHr]; intros H Hn Hpos sel Hin Hf; cbn [best].
  - assert (E : sel = [] \/ sel = [CLeaf s m q b]).
    { assert (All : forall z, In z sel -> z = CLeaf s m q b) by (intros z Hz; specialize (Hin z Hz); inversion Hin; auto).
      destruct sel as [|z sel]; [auto|]. right. rewrite (All z (or_introl eq_refl)) in *. f_equal. apply (alone (CLeaf s m q b)); auto. }
    pose proof (Hpos _ (inside_here _)) as P. simpl in P. destruct E; subst sel; unfold total; simpl; lra.
  - pose proof H as (Hl & Hr & _). destruct (split_nodup _ _ _ _ _ _ H Hn) as (Nl & Nr & Dis).
    assert (B : (q <= fst (if negb (Qle_bool (fst (best l) + fst (best r)) q) then ((fst (best l) + fst (best r))%Q, snd (best l) ++ snd (best r)) else (q, [CSplit s m q b l r])) /\
                fst (best l) + fst (best r) <= fst (if negb (Qle_bool (fst (best l) + fst (best r)) q) then ((fst (best l) + fst (best r))%Q, snd (best l) ++ snd (best r)) else (q, [CSplit s m q b l r])))%Q).
    { destruct (Qle_bool (fst (best l) + fst (best r)) q) eqn:E; cbn [negb fst].
      - apply Qle_bool_iff in E. split; lra.
      - apply Qle_bool_false in E. split; lra. }
    destruct B as [B1 B2]. destruct (sel_split s m q b l r sel H Hin Hf) as [->|(a & a' & HP & Ha & Ha')].
    + unfold total at 1. simpl map. cbn [qsum fold_right cn_stability]. lra.
    + destruct (perm_nodup_parts _ _ _ Hf HP) as [Fa Fa'].
      assert (Tl : (total a <= fst (best l))%Q) by (apply IHl; auto; intros; apply Hpos; now apply inside_left).
      assert (Tr : (total a' <= fst (best r))%Q) by (apply IHr; auto; intros; apply Hpos; now apply inside_right).
      rewrite (total_perm _ _ HP), total_app. lra.
Qed.

(** Nodes that share a sample are nested. *)
Lemma inside_nested T a b x : tree_ok T -> NoDup (cleaves T) -> inside T a -> inside T b -> In x (cleaves a) -> In x (cleaves b) ->
  inside a b \/ inside b a.
Proof.
  intros H Hn Ha. revert b. induction Ha as [c|s m q w l r c Ha IH|s m q w l r c Ha IH]; intros b Hb Hxa Hxb; auto;
    pose proof H as (Hl & Hr & _); destruct (split_nodup _ _ _ _ _ _ H Hn) as (Nl & Nr & Dis).
  - inversion Hb; subst.
    + right. now apply inside_left.
    + apply IH; auto.
    + exfalso. apply (Dis x); eapply inside_leaves; eauto.
  - inversion Hb; subst.
    + right. now apply inside_right.
    + exfalso. apply (Dis x); eapply inside_leaves; eauto.
    + apply IH; auto.
Qed.

(** Labels. *)
Lemma fill_ok k : forall (s : slink) fc, (forall x, In x (leaves s) -> x < length fc) ->
  exists fc', fill_label k s fc = Ok fc' /\ length fc' = length fc /\
    (forall x, ~ In x (leaves s) -> nth_error fc' x = nth_error fc x) /\ (forall x, In x (leaves s) -> nth_error fc' x = Some k).
Proof. clear inverse.
  induction s as [i|i v n l IHl r IHr]; intros fc H; cbn [fill_label].
  - rewrite wr_lt by (apply H; left; auto). eexists. splits; [reflexivity|apply upd_length| |].
    + intros x Hx. apply nth_error_upd_neq. intros ->. apply Hx. left. auto.
    + intros x [<-|[]]. apply nth_error_upd_eq. apply H; left; auto.
  - simpl in H. destruct (IHl fc) as (f1 & E1 & L1 & O1 & V1). { intros; apply H, in_or_app; auto. }
    rewrite E1. cbn [bind]. destruct (IHr f1) as (f2 & E2 & L2 & O2 & V2). { intros; rewrite L1; apply H, in_or_app; auto. }
    rewrite E2. exists f2. splits; auto; try congruence.
    + intros x Hx. simpl in Hx. rewrite in_app_iff in Hx. rewrite O2, O1; tauto.
    + intros x Hx. simpl in Hx. destruct (in_dec Nat.eq_dec x (leaves r)) as [Hr|Hr]; auto. rewrite O2 by auto. apply V1.
      apply in_app_or in Hx as [|]; tauto.
Qed.

Lemma fill_all : forall (cs : list cnode) k fc, (forall x, In x (flat_map cleaves cs) -> x < length fc) -> NoDup (flat_map cleaves cs) ->
  exists fc', for_each cs (fun c (st : nat * list nat) =>
      let '(cluster_label, flat_cluster) := st in
      flat_cluster <- fill_label cluster_label (cn_root c) flat_cluster ;;
      Ok (S cluster_label, flat_cluster)) (k, fc) = Ok (k + length cs, fc') /\ length fc' = length fc /\
    (forall x, ~ In x (flat_map cleaves cs) -> nth_error fc' x = nth_error fc x) /\
    (forall x i c, nth_error cs i = Some c -> In x (cleaves c) -> nth_error fc' x = Some (k + i)).
Proof.
  induction cs as [|c cs IH]; intros k fc H Hn.
  - exists fc. cbn [for_each length]. rewrite Nat.add_0_r. splits; auto. intros x i c Hi. destruct i; discriminate.
  - cbn [flat_map] in H, Hn. apply NoDup_app' in Hn as (N1 & N2 & Dis).
    destruct (fill_ok k (cn_root c) fc) as (f1 & E1 & L1 & O1 & V1). { intros; apply H, in_or_app; auto. }
    cbn [for_each]. rewrite E1. cbn [bind].
    destruct (IH (S k) f1) as (f2 & E2 & L2 & O2 & V2); auto. { intros; rewrite L1; apply H, in_or_app; auto. }
    exists f2. splits.
    + rewrite E2. f_equal. f_equal. simpl. lia.
    + congruence.
    + intros x Hx. cbn [flat_map] in Hx. rewrite in_app_iff in Hx. rewrite O2, O1; auto.
    + intros x [|i] c' Hi Hx; simpl in Hi.
      * inversion Hi; subst c'. rewrite Nat.add_0_r. rewrite O2; [apply V1; auto|]. apply Dis. exact Hx.
      * rewrite (V2 x i c' Hi Hx). f_equal. lia.
Qed.
End Trees.
