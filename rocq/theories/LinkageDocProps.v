(** Theorems on the document of a single linkage tree (C99). *)
From Coq Require Import String List Arith ZArith Lia Bool Permutation Sorted.
From Verif Require Import Base UnionFindModel UnionFindSpec UnionFindProofs BufferSpec BufferProofs GraphSpec GraphProofs
  SlinkModel SlinkSpec SlinkProofs SlinkProps DocumentModel DocumentSpec DocumentProofs DocumentProps LinkageDocModel LinkageDocSpec.
Import ListNotations.
Local Open Scope string_scope.
Local Open Scope list_scope.

(** ** The value that is written *)
Section Text.
Context (integral : bool).

Fixpoint slink_json (s : slink Z) : json :=
  match s with
  | SLeaf i => JObject [("representative", JInt (Z.of_nat i)); ("level", value_json integral 0); ("cluster_size", JInt 1)]
  | SNode i v n l r => JObject [("representative", JInt (Z.of_nat i)); ("level", value_json integral v);
                                ("cluster_size", JInt (Z.of_nat n)); ("left", slink_json l); ("right", slink_json r)]
  end.

(** Every number of the tree can be printed. *)
Fixpoint slink_fits (s : slink Z) : Prop :=
  match s with
  | SLeaf i => small i
  | SNode i v n l r => small i /\ printable integral v /\ small n /\ slink_fits l /\ slink_fits r
  end.

Lemma slink_text s : slink_fits s -> serialize_slink_node integral s = text (slink_json s).
Proof.
  induction s as [i|i v n l IHl r IHr]; cbn [slink_fits serialize_slink_node slink_json]; unfold serialize_slink_fields;
    cbn [sl_representative sl_level sl_size].
  - intros Hi. rewrite !to_int64_id by (unfold small, fits64 in *; lia). change (Z.of_nat 1) with 1%Z.
    change [Str "representative"; Int64 (Z.of_nat i); Str "level"; write_value integral 0; Str "cluster_size"; Int64 1]
      with ([Str "representative"; Int64 (Z.of_nat i); Str "level"] ++ [write_value integral 0] ++ [Str "cluster_size"; Int64 1]).
    rewrite write_value_text by (unfold printable, fits64; lia). cbn [text flat_map fst snd].
    repeat (cbn [app]; rewrite <- ?app_assoc). reflexivity.
  - intros (Hi & Hv & Hn & Hl & Hr). rewrite !to_int64_id by (unfold small, fits64 in *; lia). rewrite IHl, IHr by auto.
    change [Str "representative"; Int64 (Z.of_nat i); Str "level"; write_value integral v; Str "cluster_size"; Int64 (Z.of_nat n)]
      with ([Str "representative"; Int64 (Z.of_nat i); Str "level"] ++ [write_value integral v] ++ [Str "cluster_size"; Int64 (Z.of_nat n)]).
    rewrite write_value_text by auto. cbn [text flat_map fst snd].
    repeat (cbn [app]; rewrite <- ?app_assoc). reflexivity.
Qed.

(** ** What is read *)
Fixpoint linkage_of (s : slink Z) : linkage :=
  match s with
  | SLeaf i => Sample (Z.of_nat i) 0 1
  | SNode i v n l r => Merge (Z.of_nat i) v (Z.of_nat n) (linkage_of l) (linkage_of r)
  end.

Lemma slink_read s : read_linkage (slink_json s) = Some (linkage_of s).
Proof.
  induction s as [i|i v n l IHl r IHr].
  - cbn -[number]. now rewrite value_number.
  - cbn -[number read_linkage]. cbn [read_linkage]. now rewrite value_number, IHl, IHr.
Qed.

Lemma linkage_of_inj s s' : linkage_of s = linkage_of s' -> s = s'.
Proof.
  revert s'. induction s as [i|i v n l IHl r IHr]; intros [i'|i' v' n' l' r'] H; cbn in H; inversion H; f_equal; auto; lia.
Qed.

Lemma linkage_of_samples s : linkage_samples (linkage_of s) = map Z.of_nat (leaves s).
Proof. induction s as [i|i v n l IHl r IHr]; cbn; auto. now rewrite IHl, IHr, map_app. Qed.

Lemma linkage_of_levels s : linkage_levels (linkage_of s) = levels s.
Proof. induction s as [i|i v n l IHl r IHr]; cbn; auto. now rewrite IHl, IHr. Qed.

Lemma linkage_of_nodes s d : In d (linkage_nodes (linkage_of s)) <-> exists s', descendant s s' /\ d = linkage_of s'.
Proof.
  revert d. induction s as [i|i v n l IHl r IHr]; intros d; cbn [linkage_of linkage_nodes].
  - split.
    + intros [<-|[]]. exists (SLeaf i). split; [constructor|reflexivity].
    + intros (s' & H & ->). inversion H; subst. left. reflexivity.
  - split.
    + intros [<-|H]; [exists (SNode i v n l r); split; [constructor|reflexivity]|].
      apply in_app_or in H as [H|H].
      * apply IHl in H as (s' & H & ->). exists s'. split; [now apply desc_left|reflexivity].
      * apply IHr in H as (s' & H & ->). exists s'. split; [now apply desc_right|reflexivity].
    + intros (s' & H & ->). inversion H; subst.
      * left. reflexivity.
      * right. apply in_or_app. left. apply IHl. eauto.
      * right. apply in_or_app. right. apply IHr. eauto.
Qed.

Lemma linkage_of_ok s : dendrogram Z.ltb s -> forall d, In d (linkage_nodes (linkage_of s)) -> linkage_node_ok d.
Proof.
  intros HD d H. apply linkage_of_nodes in H as (s' & Hs & ->).
  pose proof (dendrogram_descendant Z.ltb _ _ Hs HD) as D'. destruct s' as [i|i v n l r].
  - cbn. auto.
  - destruct D' as (Hn & Hi & Hl & _). change (linkage_node_ok (linkage_of (SNode i v n l r))) with
      (Z.of_nat n = Z.of_nat (length (linkage_samples (linkage_of (SNode i v n l r)))) /\
       In (Z.of_nat i) (linkage_samples (linkage_of (SNode i v n l r))) /\
       forall x, In x (linkage_levels (linkage_of l) ++ linkage_levels (linkage_of r)) -> (x <= v)%Z).
    rewrite !linkage_of_samples, !linkage_of_levels, map_length. split; [|split].
    + now rewrite Hn.
    + now apply in_map.
    + intros x Hx. specialize (Hl x Hx). apply Z.ltb_ge in Hl. exact Hl.
Qed.

Lemma in_map_of_nat i l : In (Z.of_nat i) (map Z.of_nat l) <-> In i l.
Proof.
  split; [|apply in_map]. intros H. apply in_map_iff in H as (x & E & H). apply Nat2Z.inj in E. now subst.
Qed.

Lemma linkage_of_joined s t i j :
  linkage_joined (linkage_of s) t (Z.of_nat i) (Z.of_nat j) <-> joined_at Z.ltb s t i j.
Proof.
  split.
  - intros (k & v & n & l & r & H & Hv & Hi & Hj). apply linkage_of_nodes in H as (s' & Hs & E).
    rewrite E in Hi, Hj. rewrite linkage_of_samples, in_map_of_nat in Hi, Hj.
    destruct s' as [|k' v' n' l' r']; [discriminate|]. cbn in E. injection E as E1 E2 E3 E4 E5. subst v'.
    exists k', v, n', l', r'. splits; auto. now apply Z.ltb_ge.
  - intros (k & v & n & l & r & H & Hv & Hi & Hj).
    exists (Z.of_nat k), v, (Z.of_nat n), (linkage_of l), (linkage_of r).
    change (Merge (Z.of_nat k) v (Z.of_nat n) (linkage_of l) (linkage_of r)) with (linkage_of (SNode k v n l r)).
    rewrite linkage_of_samples, !in_map_of_nat. splits; auto.
    + apply linkage_of_nodes. eauto.
    + now apply Z.ltb_ge.
Qed.
End Text.

(** ** C99 *)
Section C99.
Context (integral : bool).
Context (sort : list (nat * nat * Z) -> list (nat * nat * Z)) (Hsort : sorts Z.ltb sort).
Context (order : list (nat * slink Z) -> list (nat * slink Z)) (Horder : forall l, Permutation (order l) l).
Context (n : nat) (edges : list (nat * nat * Z)) (Hn : 1 <= n) (Hspan : spanning_tree n edges).
Context (Hsmall : small n).
Context (Hweights : integral = true -> forall e, In e edges -> (- 2 ^ 63 <= snd e < 2 ^ 63)%Z).

Lemma made_fits root : make_slink sort order edges = Ok root -> slink_fits integral root.
Proof.
  intros E. destruct (make_ok Z.ltb z_order_ok sort Hsort order Horder n edges Hn Hspan)
    as (root' & E' & HD & HL & Hsz & Hrep & Hlev & _). rewrite E in E'. injection E' as <-.
  assert (G : forall s, dendrogram Z.ltb s -> (forall i, In i (leaves s) -> i < n) -> length (leaves s) <= n ->
    (forall v, In v (levels s) -> printable integral v) -> slink_fits integral s).
  { clear - Hsmall. induction s as [i|i v m l IHl r IHr]; cbn [dendrogram leaves levels slink_fits]; intros HD Hi Hlen Hv.
    - specialize (Hi i (or_introl eq_refl)). unfold small in *. lia.
    - destruct HD as (Hm & Hr & _ & Dl & Dr). rewrite app_length in *. pose proof (Hi i Hr) as Hi'.
      split; [unfold small in *; lia|]. split; [apply Hv; left; reflexivity|]. split; [unfold small in *; lia|].
      split; [apply IHl|apply IHr]; auto; try lia; intros x Hx; try apply Hi; try apply Hv; try right; apply in_or_app; auto. }
  apply G; auto.
  - intros i Hi. apply (Permutation_in _ HL), in_seq in Hi. lia.
  - rewrite (Permutation_length HL), seq_length. lia.
  - intros v Hv. apply (Permutation_in _ Hlev), in_map_iff in Hv as (e & <- & He). intros Hint. exact (Hweights Hint e He).
Qed.

(** The document is one JSON value from which the clusters at every threshold can be read. *)
Theorem c99_document : exists root doc node d,
  make_slink sort order edges = Ok root /\ serialize_slink integral root = text doc /\
  field "root" doc = Some node /\ read_linkage node = Some d /\
  Permutation (linkage_samples d) (map Z.of_nat (seq 0 n)) /\ Permutation (linkage_levels d) (map snd edges) /\
  (forall x, In x (linkage_nodes d) -> linkage_node_ok x) /\
  (forall t i j, i < n -> j < n -> i <> j ->
     (linkage_joined d t (Z.of_nat i) (Z.of_nat j) <-> linked (ends (up_to Z.ltb t edges)) i j)).
Proof.
  destruct (make_ok Z.ltb z_order_ok sort Hsort order Horder n edges Hn Hspan)
    as (root & E & HD & HL & Hsz & Hrep & Hlev & HJ).
  exists root, (JObject [("root", slink_json integral root)]), (slink_json integral root), (linkage_of root).
  split; [exact E|]. split.
  { unfold serialize_slink. rewrite slink_text by now apply made_fits. cbn [text flat_map fst snd].
    repeat (cbn [app]; rewrite <- ?app_assoc). reflexivity. }
  split; [reflexivity|]. split; [apply slink_read|].
  rewrite linkage_of_samples, linkage_of_levels. split; [now apply Permutation_map|]. split; [exact Hlev|].
  split; [now apply linkage_of_ok|].
  intros t i j Hi Hj Hij. rewrite linkage_of_joined. now apply HJ.
Qed.
End C99.

(** Two trees with the same document are the same tree: they predict the same labels for all options. *)
Theorem c99_document_determines_predictions :
  forall integral sort order n edges sort' order' n' edges' root root',
  sorts Z.ltb sort -> (forall l, Permutation (order l) l) -> 1 <= n -> spanning_tree n edges -> small n ->
  (integral = true -> forall e, In e edges -> (- 2 ^ 63 <= snd e < 2 ^ 63)%Z) ->
  sorts Z.ltb sort' -> (forall l, Permutation (order' l) l) -> 1 <= n' -> spanning_tree n' edges' -> small n' ->
  (integral = true -> forall e, In e edges' -> (- 2 ^ 63 <= snd e < 2 ^ 63)%Z) ->
  make_slink sort order edges = Ok root -> make_slink sort' order' edges' = Ok root' ->
  serialize_slink integral root = serialize_slink integral root' ->
  n = n' /\ Permutation (map snd edges) (map snd edges') /\
  forall cut min, extract_flat_slink Z.ltb 0%Z cut min root = extract_flat_slink Z.ltb 0%Z cut min root'.
Proof.
  intros integral sort order n edges sort' order' n' edges' root root' S1 O1 N1 T1 M1 W1 S2 O2 N2 T2 M2 W2 E1 E2 H.
  unfold serialize_slink in H. injection H as H.
  rewrite (slink_text integral root (made_fits integral sort S1 order O1 n edges N1 T1 M1 W1 root E1)) in H.
  rewrite (slink_text integral root' (made_fits integral sort' S2 order' O2 n' edges' N2 T2 M2 W2 root' E2)) in H.
  apply text_prefix in H as [H _].
  assert (root = root') as <-.
  { apply linkage_of_inj. pose proof (slink_read integral root) as R. rewrite H, slink_read in R. now injection R. }
  destruct (make_ok Z.ltb z_order_ok sort S1 order O1 n edges N1 T1) as (r1 & F1 & _ & L1 & _ & _ & V1 & _).
  destruct (make_ok Z.ltb z_order_ok sort' S2 order' O2 n' edges' N2 T2) as (r2 & F2 & _ & L2 & _ & _ & V2 & _).
  rewrite E1 in F1. injection F1 as <-. rewrite E2 in F2. injection F2 as <-. split; [|split].
  - pose proof (Permutation_length L1) as A. pose proof (Permutation_length L2) as B. rewrite seq_length in A, B. congruence.
  - now rewrite <- V1.
  - reflexivity.
Qed.

Definition shown (integral : bool) (edges : list (nat * nat * Z)) : res (list token) :=
  root <- make_slink (isort Z.ltb) (@rev _) edges ;; Ok (serialize_slink integral root).

(** Two edges in another order: same document; another weight: another document. *)
Example c99_case :
  1 <= 5 /\ spanning_tree 5 path5 /\ small 5 /\ (forall e, In e path5 -> (- 2 ^ 63 <= snd e < 2 ^ 63)%Z) /\
  shown true [(0, 1, 3%Z)] = Ok
    [StartObject; Str "root"; StartObject; Str "representative"; Int64 0; Str "level"; Int64 3; Str "cluster_size"; Int64 2;
       Str "left"; StartObject; Str "representative"; Int64 0; Str "level"; Int64 0; Str "cluster_size"; Int64 1; EndObject;
       Str "right"; StartObject; Str "representative"; Int64 1; Str "level"; Int64 0; Str "cluster_size"; Int64 1; EndObject;
     EndObject; EndObject] /\
  shown true path5 = Ok (text (JObject [("root", slink_json true path5_tree)])) /\
  shown true path5 = shown true [(0, 1, 5%Z); (1, 2, 7%Z); (2, 3, 5%Z); (3, 4, 9%Z)] /\
  shown true path5 <> shown true [(0, 1, 5%Z); (1, 2, 7%Z); (2, 3, 5%Z); (3, 4, 8%Z)] /\
  linkage_joined (linkage_of path5_tree) 6 2 3 /\ ~ linkage_joined (linkage_of path5_tree) 6 0 2.
Proof.
  splits; [lia|apply path5_spanning|unfold small; lia| |vm_compute; reflexivity|vm_compute; reflexivity|vm_compute; reflexivity| | |].
  - intros e H. cbn in H. repeat (destruct H as [<-|H]; [cbn; lia|]). destruct H.
  - vm_compute. discriminate.
  - apply (linkage_of_joined path5_tree 6 2 3). apply c26_case.
  - intros H. apply (linkage_of_joined path5_tree 6 0 2) in H. revert H. apply c26_case.
Qed.

(** With unsigned 64-bit weights a level of 2^63 or more is written as a negative number: in the document a merge can lie
    below the merges it contains. *)
Theorem c99_large_level_refuted : exists n edges root doc node d x,
  spanning_tree n edges /\ (forall e, In e edges -> (0 <= snd e < 2 ^ 64)%Z) /\
  make_slink (isort Z.ltb) (@rev _) edges = Ok root /\ serialize_slink true root = text doc /\
  field "root" doc = Some node /\ read_linkage node = Some d /\
  (linkage_level d < 0)%Z /\ In x (linkage_levels d) /\ (linkage_level d < x)%Z /\ ~ linkage_node_ok d.
Proof.
  exists 3, [(0, 1, 5%Z); (1, 2, (2 ^ 63)%Z)],
    (SNode 0 (2 ^ 63)%Z 3 (SNode 0 5%Z 2 (SLeaf 0) (SLeaf 1)) (SLeaf 2)),
    (JObject [("root", slink_json true (SNode 0 (- 2 ^ 63)%Z 3 (SNode 0 5%Z 2 (SLeaf 0) (SLeaf 1)) (SLeaf 2)))]),
    (slink_json true (SNode 0 (- 2 ^ 63)%Z 3 (SNode 0 5%Z 2 (SLeaf 0) (SLeaf 1)) (SLeaf 2))),
    (linkage_of (SNode 0 (- 2 ^ 63)%Z 3 (SNode 0 5%Z 2 (SLeaf 0) (SLeaf 1)) (SLeaf 2))), 5%Z.
  split; [|split; [|split; [vm_compute; reflexivity|split; [vm_compute; reflexivity|split; [reflexivity|
    split; [vm_compute; reflexivity|split; [vm_compute; reflexivity|split; [|split; [vm_compute; reflexivity|]]]]]]]]].
  - unfold spanning_tree; splits; auto.
    { intros a b w H; simpl in H; repeat (destruct H as [H|H]; [inversion H; subst; lia|]); destruct H. }
    assert (L : forall i, i < 3 -> linked (ends [(0, 1, 5%Z); (1, 2, (2 ^ 63)%Z)]) 0 i).
    { assert (L1 : linked (ends [(0, 1, 5%Z); (1, 2, (2 ^ 63)%Z)]) 0 1) by (apply linked_in; simpl; auto).
      assert (L2 : linked (ends [(0, 1, 5%Z); (1, 2, (2 ^ 63)%Z)]) 0 2) by (eapply linked_trans; [exact L1|apply linked_in; simpl; auto]).
      intros [|[|[|i]]] Hi; auto; try lia. apply Relation_Operators.rst_refl. }
    intros i j Hi Hj. eapply linked_trans; [apply linked_sym; apply L; auto|apply L; auto].
  - intros e H. cbn in H. repeat (destruct H as [<-|H]; [cbn; lia|]). destruct H.
  - cbn. auto.
  - intros (_ & _ & H). specialize (H 5%Z). cbn in H. specialize (H (or_introl eq_refl)). lia.
Qed.

Print Assumptions c99_document.
Print Assumptions c99_document_determines_predictions.
Print Assumptions c99_large_level_refuted.
