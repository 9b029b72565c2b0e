(** Lemmas on HDBSCAN with stabilities of any type. *)
From Coq Require Import List Arith ZArith QArith Bool Lia Permutation.
From Verif Require Import Base SlinkModel SlinkSpec SlinkProofs CondensedModel CondensedSpec CondensedProofs CondensedProps
  FloatCondensedModel.
Import ListNotations.
Local Open Scope nat_scope.

Section Labels.
Context {D : Type} (lt : D -> D -> bool) (root : slink D) (n : nat) (Hdend : dendrogram lt root) (Hleaves : Permutation (leaves root) (seq 0 n)).

Lemma shown_sizes min labels clusters : length labels = n -> shows labels clusters -> flat_clustering min root clusters ->
  forall label, In label labels -> label <> 0 -> min <= count_occ Nat.eq_dec labels label \/ labels = repeat 1 n.
Proof.
  intros L S F label Hin Hne. destruct label as [|k]; [congruence|]. apply In_nth_error in Hin as [x Hx].
  destruct (shows_label root n labels _ x k L S) with (2 := Hx) as (s & Hs & Hxs).
  { intros s Hs. destruct F as [F _]. rewrite Forall_forall in F. eapply cluster_descendant; eauto. }
  assert (Hc : cluster_node min root s).
  { destruct F as [F _]. rewrite Forall_forall in F. apply F. eapply nth_error_In; eauto. }
  destruct Hc as [->|(i & v & m & l & r & Hd & Hl & Hr & Es)].
  - right. destruct F as [_ F]. assert (Ek : nth_error clusters 0 = Some root).
    { assert (In root clusters) as Hin by (eapply nth_error_In; eauto).
      destruct clusters as [|s0 rest] eqn:EM; [destruct Hin|]. simpl. f_equal.
      destruct Hin as [->|Hin]; auto. exfalso. simpl in F. apply NoDup_app' in F as (_ & _ & Dis).
      destruct (leaves_some s0) as [y Hy]. apply (Dis y Hy). apply in_flat_map. exists root. split; auto. apply (in_root root n Hleaves).
      assert (Hy' : nth_error labels y = Some 1) by (apply (proj1 S 0 s0 y); auto). apply nth_error_lt in Hy'. lia. }
    apply nth_error_ext. intros y. destruct (Nat.lt_ge_cases y n) as [Hy|Hy].
    + rewrite nth_error_repeat by auto. apply (proj1 S 0 root y Ek). now apply (in_root root n Hleaves).
    + rewrite (proj2 (nth_error_None _ _)), (proj2 (nth_error_None _ _)); auto; rewrite ?repeat_length; lia.
  - left. assert (Hb : big min s) by (destruct Es as [->| ->]; auto). eapply Nat.le_trans; [exact Hb|].
    apply count_at_least.
    + assert (descendant root s) by (eapply cluster_descendant; right; exists i, v, m, l, r; splits; eauto).
      eapply descendant_nodup; eauto. apply (root_nodup root n Hleaves).
    + intros y Hy. exact (proj1 S k s y Hs Hy).
Qed.

Lemma covered_nonempty min clusters : covers_finest min root clusters -> clusters <> [].
Proof using Hdend Hleaves.
  intros H ->. set (T := build_condensed (fun _ : D => 0%Q) min root).
  assert (Hex : forall T : cnode D, exists f, inside T f /\ cn_is_leaf f = true).
  { induction T0 as [s m q b|s m q b l1 [f [H1 H2]] l2 _].
    - eexists. split; [constructor|reflexivity].
    - exists f. split; auto. now apply inside_left. }
  destruct (Hex T) as (f & Hf & Hl). apply (finest_leaf lt (fun _ => 0%Q) root n Hdend Hleaves min f Hf) in Hl. destruct (H _ Hl) as (s & [] & _).
Qed.
End Labels.

(** Trees with changed levels. *)
Section Map.
Context {D D' : Type} (f : D -> D').

Fixpoint smap (s : slink D) : slink D' :=
  match s with SLeaf i => SLeaf i | SNode i v k l r => SNode i (f v) k (smap l) (smap r) end.

Lemma smap_leaves s : leaves (smap s) = leaves s.
Proof. induction s as [|i v k l IHl r IHr]; simpl; congruence. Qed.

Lemma smap_size s : sl_size (smap s) = sl_size s.
Proof. destruct s; reflexivity. Qed.

Lemma smap_levels s : levels (smap s) = map f (levels s).
Proof. induction s as [|i v k l IHl r IHr]; simpl; auto. rewrite map_app. congruence. Qed.

Lemma smap_dendrogram (lt : D -> D -> bool) (lt' : D' -> D' -> bool) s : (forall a b, lt' (f a) (f b) = lt a b) -> dendrogram lt s -> dendrogram lt' (smap s).
Proof.
  intros H. induction s as [|i v k l IHl r IHr]; simpl; auto. intros (A & B & C & E & F). rewrite !smap_leaves, !smap_levels. splits; auto.
  intros x Hx. rewrite <- map_app in Hx. apply in_map_iff in Hx as (y & <- & Hy). rewrite H. auto.
Qed.

Lemma smap_fill label s : forall fc, fill_label label (smap s) fc = fill_label label s fc.
Proof. induction s as [|i v k l IHl r IHr]; intros fc; simpl; auto. rewrite IHl. destruct (fill_label label l fc); cbn [bind]; auto. Qed.

Context {V : Type} (zero : V) (inverse : D' -> V) (excess : V -> nat -> V -> V -> V) (plus : V -> V -> V) (greater : V -> V -> bool).

Fixpoint fmap_node (c : fnode D V) : fnode D' V :=
  match c with FLeaf s m q b => FLeaf (smap s) m q b | FSplit s m q b l r => FSplit (smap s) m q b (fmap_node l) (fmap_node r) end.

Lemma fmap_condense min : forall s root lm st, fcondense zero inverse excess min (smap root) lm st (smap s) =
  fmap_node (fcondense zero (fun d => inverse (f d)) excess min root lm st s).
Proof.
  induction s as [i|i v k l IHl r IHr]; intros root lm st; cbn [smap fcondense]; auto. rewrite !smap_size.
  destruct (min <=? sl_size l), (min <=? sl_size r); cbn [andb fmap_node]; auto. rewrite IHl, IHr. reflexivity.
Qed.

Lemma fmap_select c : fselect plus greater (fmap_node c) = (fst (fselect plus greater c), fmap_node (snd (fselect plus greater c))).
Proof.
  induction c as [s m q b|s m q b l IHl r IHr]; cbn [fmap_node fselect]; auto. rewrite IHl, IHr.
  destruct (fselect plus greater l) as [tl l'], (fselect plus greater r) as [tr r']. cbn [fst snd]. destruct (greater (plus tl tr) q); reflexivity.
Qed.

Lemma fmap_make o root : fmake zero inverse excess plus greater o (smap root) = fmap_node (fmake zero (fun d => inverse (f d)) excess plus greater o root).
Proof.
  unfold fmake, fbuild. rewrite fmap_condense. destruct (return_leaf_nodes o); auto. rewrite fmap_select.
  destruct (fselect plus greater _) as [t c]. cbn [fst snd].
  assert (E : fn_is_leaf (fmap_node c) = fn_is_leaf c) by (destruct c; reflexivity). rewrite E. destruct (_ && _); auto. destruct c; reflexivity.
Qed.

Lemma fmap_root c : fn_root (fmap_node c) = smap (fn_root c).
Proof. destruct c; reflexivity. Qed.

Lemma fmap_shallowest c : fshallowest (fmap_node c) = bind (fshallowest c) (fun l => Ok (map fmap_node l)).
Proof.
  induction c as [s m q b|s m q b l IHl r IHr]; cbn [fmap_node fshallowest fn_selected]; destruct b; auto. rewrite IHl.
  destruct (fshallowest l) as [a| | |]; cbn [bind]; auto. rewrite IHr. destruct (fshallowest r) as [a'| | |]; cbn [bind]; auto. rewrite map_app. reflexivity.
Qed.

Lemma fmap_loop : forall (cs : list (fnode D V)) (st : nat * list nat),
  for_each (map fmap_node cs) (fun c (st : nat * list nat) =>
      let '(cluster_label, flat_cluster) := st in
      flat_cluster <- fill_label cluster_label (fn_root c) flat_cluster ;;
      Ok (S cluster_label, flat_cluster)) st =
  for_each cs (fun c (st : nat * list nat) =>
      let '(cluster_label, flat_cluster) := st in
      flat_cluster <- fill_label cluster_label (fn_root c) flat_cluster ;;
      Ok (S cluster_label, flat_cluster)) st.
Proof.
  induction cs as [|c cs IH]; intros [k fc]; auto. cbn [map for_each]. rewrite fmap_root, smap_fill.
  destruct (fill_label k (fn_root c) fc); cbn [bind]; auto.
Qed.

Lemma fmap_extract c : fextract (fmap_node c) = fextract c.
Proof.
  unfold fextract. rewrite fmap_shallowest, fmap_root, smap_size. destruct (fshallowest c) as [cs| | |]; cbn [bind]; auto. now rewrite fmap_loop.
Qed.
End Map.
