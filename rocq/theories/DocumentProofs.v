(** Lemmas on serialized trees. *)
From Coq Require Import String List Arith ZArith Lia Bool Permutation.
From Verif Require Import Base SortingModel SortingSpec SortingProofs BoundsModel BoundsSpec BoundsProofs BufferModel BufferSpec
  BufferProofs KDTreeModel KDTreeSpec KDTreeProofs KDTreeProps SearchModel SearchSpec SearchProofs SearchProps DocumentModel DocumentSpec.
Import ListNotations.
Local Open Scope string_scope.
Local Open Scope list_scope.

(** ** Texts are read in one way only *)

Section JsonInd.
Context (P : json -> Prop).
Hypothesis Hint : forall z, P (JInt z).
Hypothesis Hdouble : forall z, P (JDouble z).
Hypothesis Harray : forall l, Forall P l -> P (JArray l).
Hypothesis Hobject : forall l, Forall (fun kv => P (snd kv)) l -> P (JObject l).

Fixpoint json_induction (j : json) : P j :=
  match j with
  | JInt z => Hint z
  | JDouble z => Hdouble z
  | JArray l => Harray l ((fix go l : Forall P l :=
      match l with [] => Forall_nil _ | x :: l' => Forall_cons x (json_induction x) (go l') end) l)
  | JObject l => Hobject l ((fix go l : Forall (fun kv => P (snd kv)) l :=
      match l with [] => Forall_nil _ | kv :: l' => Forall_cons kv (json_induction (snd kv)) (go l') end) l)
  end.
End JsonInd.

Lemma text_head j : exists t l, text j = t :: l /\ t <> EndArray /\ t <> EndObject /\ (forall s, t <> Str s).
Proof. destruct j; simpl; eexists; eexists; (split; [reflexivity|]); splits; try congruence; intros; congruence. Qed.

Lemma text_prefix : forall j1 j2 r1 r2, text j1 ++ r1 = text j2 ++ r2 -> j1 = j2 /\ r1 = r2.
Proof.
  induction j1 as [z|z|l Hl|l Hl] using json_induction; intros j2 r1 r2 H.
  - destruct j2; simpl in H; inversion H; auto.
  - destruct j2; simpl in H; inversion H; auto.
  - destruct j2 as [z|z|l2|l2]; cbn [text app] in H; try discriminate.
    assert (H' : flat_map text l ++ EndArray :: r1 = flat_map text l2 ++ EndArray :: r2).
    { injection H as H. rewrite <- !app_assoc in H. exact H. }
    clear H. assert (G : l = l2 /\ r1 = r2); [|destruct G; subst; auto].
    revert l2 H'. induction Hl as [|j l Hj Hl IH]; intros [|j2 l2] H'; cbn [flat_map] in H'; rewrite <- ?app_assoc in H'.
    + injection H' as ->. auto.
    + destruct (text_head j2) as (t & x & E & N1 & _). rewrite E in H'. injection H' as H' _. congruence.
    + destruct (text_head j) as (t & x & E & N1 & _). rewrite E in H'. injection H' as H' _. congruence.
    + apply Hj in H' as [-> H']. apply IH in H' as [-> ->]. auto.
  - destruct j2 as [z|z|l2|l2]; cbn [text app] in H; try discriminate.
    assert (H' : flat_map (fun kv => Str (fst kv) :: text (snd kv)) l ++ EndObject :: r1 =
                 flat_map (fun kv => Str (fst kv) :: text (snd kv)) l2 ++ EndObject :: r2).
    { injection H as H. rewrite <- !app_assoc in H. exact H. }
    clear H. assert (G : l = l2 /\ r1 = r2); [|destruct G; subst; auto].
    revert l2 H'. induction Hl as [|(k & j) l Hj Hl IH]; intros [|(k2 & j2) l2] H'; cbn [flat_map fst snd] in H';
      rewrite <- ?app_assoc in H'; cbn [app] in H'; try discriminate.
    + injection H' as ->. auto.
    + injection H' as -> H'. apply Hj in H' as [E H']. simpl in E. subst. apply IH in H' as [-> ->]. auto.
Qed.

(** ** The document of a tree *)
Section Document.
Context (integral : bool) (samples : list Z) (nf : nat).

Definition fits64 (v : Z) : Prop := (- 2 ^ 63 <= v < 2 ^ 63)%Z.
Definition printable (v : Z) : Prop := integral = true -> fits64 v.

Lemma to_int64_id v : fits64 v -> to_int64 v = v.
Proof. unfold fits64, to_int64. intros H. rewrite Z.mod_small; lia. Qed.

Definition value_json (v : Z) : json := if integral then JInt v else JDouble v.

Lemma write_value_text v : printable v -> [write_value integral v] = text (value_json v).
Proof. unfold printable, write_value, value_json. destruct integral; intros H; auto. rewrite to_int64_id; auto. Qed.

Lemma value_number v : number (value_json v) = Some v.
Proof. unfold value_json. destruct integral; auto. Qed.

Definition row_json (i : nat) : json := JArray (map value_json (row samples nf i)).
Definition points_json (range : list nat) : json := JArray (map row_json range).

Fixpoint node_json (indices : list nat) (t : kd) : json :=
  match t with
  | KLeaf first last _ => JObject [("axis", JInt (-1)); ("points", points_json (sub indices first last))]
  | KNode first last axis _ l r =>
      JObject [("axis", JInt (Z.of_nat axis)); ("points", points_json (sub indices first last));
               ("left", node_json indices l); ("right", node_json indices r)]
  end.

(** The indexed samples exist and can be written. *)
Definition writable (arr : list nat) : Prop :=
  forall i, In i arr -> i * nf + nf <= length samples /\ Forall printable (row samples nf i).

Lemma row_values i : i * nf + nf <= length samples -> Forall printable (row samples nf i) ->
  for_loop nf 0 (fun j row => v <- rd samples (i * nf + j) ;; Ok (row ++ [write_value integral v])) [] =
  Ok (flat_map text (map value_json (row samples nf i))).
Proof.
  intros Hl Hp.
  assert (Lr : length (row samples nf i) = nf) by (unfold row; rewrite firstn_length, skipn_length; lia).
  assert (G : forall count first acc, first + count = nf ->
    for_loop count first (fun j row => v <- rd samples (i * nf + j) ;; Ok (row ++ [write_value integral v])) acc =
    Ok (acc ++ flat_map text (map value_json (skipn first (row samples nf i))))).
  { induction count as [|count IH]; intros first acc Hf.
    - cbn [for_loop]. rewrite skipn_all2 by lia. cbn. now rewrite app_nil_r.
    - cbn [for_loop].
      assert (Ev : nth_error (row samples nf i) first = Some (nth first (row samples nf i) 0%Z)) by (apply nth_error_nth'; lia).
      assert (Er : rd samples (i * nf + first) = Ok (nth first (row samples nf i) 0%Z)).
      { apply rd_ok. rewrite <- Ev. unfold row.
        rewrite <- (firstn_skipn (i * nf) samples) at 1. rewrite nth_error_app2; rewrite firstn_length; [|lia].
        replace (i * nf + first - min (i * nf) (length samples)) with first by lia.
        rewrite <- (firstn_skipn nf (skipn (i * nf) samples)) at 1. rewrite nth_error_app1; auto.
        rewrite firstn_length, skipn_length. lia. }
      rewrite Er. cbn [bind]. rewrite IH by lia. rewrite <- app_assoc. f_equal. f_equal.
      rewrite write_value_text.
      2:{ rewrite Forall_forall in Hp. apply Hp. eapply nth_error_In; eauto. }
      assert (Es : skipn first (row samples nf i) = nth first (row samples nf i) 0%Z :: skipn (S first) (row samples nf i)).
      { clear - Ev. revert first Ev. generalize (row samples nf i). induction l as [|x l IH]; intros [|n] H; simpl in *; try discriminate; auto. }
      rewrite Es. reflexivity. }
  rewrite (G nf 0 []) by lia. reflexivity.
Qed.

Lemma points_text range : writable range ->
  serialize_points integral samples nf range = Ok (text (points_json range)).
Proof.
  intros Hw. unfold serialize_points.
  assert (G : forall l acc, writable l ->
    for_each l (fun index out =>
       values <- for_loop nf 0 (fun j row => v <- rd samples (index * nf + j) ;; Ok (row ++ [write_value integral v])) [] ;;
       Ok (out ++ [StartArray] ++ values ++ [EndArray])) acc = Ok (acc ++ flat_map text (map row_json l))).
  { induction l as [|i l IH]; intros acc Hl.
    - cbn. now rewrite app_nil_r.
    - cbn [for_each]. destruct (Hl i) as (H1 & H2); [left; auto|]. rewrite row_values by auto. cbn [bind].
      rewrite IH by (intros j Hj; apply Hl; right; auto). cbn [map flat_map]. rewrite <- app_assoc. reflexivity. }
  rewrite G by auto. cbn [bind]. reflexivity.
Qed.

Lemma node_text indices : writable indices -> (Z.of_nat nf < 2 ^ 63)%Z -> forall t,
  kd_ranges indices t -> kd_ordered samples nf indices t ->
  serialize_node integral samples nf indices t = Ok (text (node_json indices t)).
Proof.
  intros Hw Hn.
  assert (Hs : forall f l, f <= l <= length indices -> slice indices f l = Ok (sub indices f l) /\ writable (sub indices f l)).
  { intros f l H. split.
    - unfold slice. assert ((f <=? l)%nat = true) as -> by (apply Nat.leb_le; lia).
      assert ((l <=? length indices)%nat = true) as -> by (apply Nat.leb_le; lia). reflexivity.
    - intros i Hi. apply Hw. unfold sub in Hi.
      assert (In i (skipn f indices)) by (rewrite <- (firstn_skipn (l - f) (skipn f indices)); apply in_or_app; auto).
      rewrite <- (firstn_skipn f indices). apply in_or_app; auto. }
  induction t as [f l b|f l ax b tl IHl tr IHr]; intros Hr Ho; cbn [serialize_node node_json].
  - simpl in Hr. destruct (Hs f l Hr) as (-> & Hw'). cbn [bind]. rewrite points_text by auto. cbn [bind].
    cbn [text flat_map fst snd app]. rewrite <- !app_assoc. reflexivity.
  - destruct Hr as (-> & Hf & Rl & Rr). destruct Ho as (Ha & _ & _ & Ol & Or).
    destruct (Hs f (S f)) as (-> & Hw'); [lia|]. cbn [bind]. rewrite points_text by auto. cbn [bind].
    rewrite IHl, IHr by auto. cbn [bind]. rewrite to_int64_id by (unfold fits64; lia).
    cbn [text flat_map fst snd app]. rewrite <- !app_assoc. repeat (cbn [app]; rewrite <- ?app_assoc). reflexivity.
Qed.

(** ** Reading it back *)
Lemma all_some_map {A B} (f : A -> option B) (g : A -> B) l : (forall x, In x l -> f x = Some (g x)) -> all_some (map f l) = Some (map g l).
Proof.
  induction l as [|x l IH]; intros H; cbn; auto. rewrite H by (left; auto). rewrite IH; auto. intros y Hy; apply H; right; auto.
Qed.

Lemma points_read range : points (points_json range) = Some (map (row samples nf) range).
Proof.
  unfold points, points_json. rewrite map_map. apply all_some_map. intros i _. unfold numbers, row_json. rewrite map_map.
  rewrite (all_some_map (fun x => number (value_json x)) (fun x => x)) by (intros; apply value_number). now rewrite map_id.
Qed.

Fixpoint doc_of (indices : list nat) (t : kd) : doc_tree :=
  match t with
  | KLeaf first last _ => DLeaf (map (row samples nf) (sub indices first last))
  | KNode first last axis _ l r => DNode (Z.of_nat axis) (map (row samples nf) (sub indices first last)) (doc_of indices l) (doc_of indices r)
  end.

Lemma node_read indices t : read_tree (node_json indices t) = Some (doc_of indices t).
Proof.
  induction t as [f l b|f l ax b tl IHl tr IHr].
  - cbn -[points]. rewrite points_read. reflexivity.
  - cbn -[points read_tree]. cbn [read_tree]. rewrite points_read, IHl, IHr.
    destruct (Z.eqb_spec (Z.of_nat ax) (-1)); [lia|]. reflexivity.
Qed.

Lemma doc_of_points indices t : doc_points (doc_of indices t) = map (row samples nf) (kd_samples indices t).
Proof. induction t; cbn [doc_of doc_points kd_samples]; auto. rewrite !map_app. congruence. Qed.

Lemma doc_of_limits indices bucket max_depth : forall t d, kd_ranges indices t -> kd_limits bucket max_depth d t -> doc_limits bucket max_depth d (doc_of indices t).
Proof.
  induction t as [f l b|f l ax b tl IHl tr IHr]; intros d Hr Hl; cbn [doc_of doc_limits].
  - simpl in Hr, Hl. rewrite map_length. unfold sub. rewrite firstn_length, skipn_length. lia.
  - cbn [kd_limits] in Hl. simpl in Hr. destruct Hl as (_ & _ & A & B). split; [apply IHl|apply IHr]; tauto.
Qed.

Lemma nth_row i a : a < nf -> nth a (row samples nf i) 0%Z = val samples nf a i.
Proof. intros H. apply (row_nth samples nf (repeat 0%Z nf) (repeat_length _ _) i a H). Qed.

Lemma doc_of_ordered indices : forall t, kd_ranges indices t -> kd_ordered samples nf indices t -> doc_search_tree nf (doc_of indices t).
Proof.
  induction t as [f l b|f l ax b tl IHl tr IHr]; intros Hr Ho; cbn [doc_of doc_search_tree]; auto.
  simpl in Hr, Ho. destruct Hr as (-> & Hf & Rl & Rr). destruct Ho as (Ha & OL & OR & Ol & Or).
  split; [lia|]. exists (row samples nf (nth f indices 0)). rewrite Nat2Z.id. splits; auto.
  - rewrite (nth_sub_one nf indices (repeat 0%Z nf)) by (auto; apply repeat_length). reflexivity.
  - intros q Hq. rewrite doc_of_points in Hq. apply in_map_iff in Hq as (y & <- & Hy). rewrite !nth_row by auto. auto.
  - intros q Hq. rewrite doc_of_points in Hq. apply in_map_iff in Hq as (y & <- & Hy). rewrite !nth_row by auto. auto.
Qed.
End Document.

(** ** A tree over an array that was rearranged *)

(** The positions of the array held by a subtree, in order. *)
Fixpoint kd_positions (t : kd) : list nat :=
  match t with
  | KLeaf first last _ => seq first (last - first)
  | KNode first last _ _ l r => kd_positions l ++ seq first (last - first) ++ kd_positions r
  end.

Lemma sub_positions arr first last : last <= length arr -> sub arr first last = map (fun p => nth p arr 0) (seq first (last - first)).
Proof.
  intros H. unfold sub.
  assert (G : forall n l k, k + n <= length l -> firstn n (skipn k l) = map (fun p => nth p l 0) (seq k n)).
  { clear. induction n as [|n IH]; intros l k H; [reflexivity|].
    cbn [seq map]. rewrite <- IH by lia.
    assert (E : skipn k l = nth k l 0 :: skipn (S k) l).
    { clear IH. revert l H. induction k as [|k IHk]; intros [|x l] H; simpl in *; try lia; auto. apply IHk. lia. }
    rewrite E. reflexivity. }
  destruct (Nat.le_gt_cases first last) as [Hl|Hl].
  - apply G. lia.
  - replace (last - first) with 0 by lia. reflexivity.
Qed.

Lemma samples_positions arr t : kd_ranges arr t ->
  kd_samples arr t = map (fun p => nth p arr 0) (kd_positions t) /\ Forall (fun p => p < length arr) (kd_positions t).
Proof.
  induction t as [f l b|f l ax b tl IHl tr IHr]; cbn [kd_ranges kd_samples kd_positions].
  - intros H. split; [apply sub_positions; lia|]. rewrite Forall_forall. intros p Hp. apply in_seq in Hp. lia.
  - intros (-> & Hf & Hl & Hr). destruct (IHl Hl) as (E1 & F1). destruct (IHr Hr) as (E2 & F2).
    rewrite E1, E2, sub_positions by lia. rewrite !map_app. split; auto.
    rewrite !Forall_app. splits; auto. rewrite Forall_forall. intros p Hp. apply in_seq in Hp. lia.
Qed.

Lemma ranges_length arr arr' t : length arr = length arr' -> kd_ranges arr t -> kd_ranges arr' t.
Proof.
  intros L. induction t as [f l b|f l ax b tl IHl tr IHr]; cbn [kd_ranges]; [lia|].
  intros (-> & Hf & Hl & Hr). splits; auto. lia.
Qed.

(** A tree that covers its array covers any array of the same length. *)
Lemma samples_rearranged arr arr' t :
  NoDup arr -> length arr = length arr' -> kd_ranges arr t -> kd_samples arr t = arr -> kd_samples arr' t = arr'.
Proof.
  intros N L R E. destruct (samples_positions arr t R) as (E1 & F1).
  destruct (samples_positions arr' t (ranges_length arr arr' t L R)) as (E2 & _).
  assert (Ep : kd_positions t = seq 0 (length arr)).
  { rewrite E in E1. assert (Ln : length (kd_positions t) = length arr) by (apply (f_equal (@length nat)) in E1; rewrite map_length in E1; lia).
    apply nth_ext with (d := 0) (d' := 0); rewrite ?seq_length; auto.
    intros i Hi. rewrite seq_nth by lia. simpl.
    assert (H : nth (nth i (kd_positions t) 0) arr 0 = nth i arr 0).
    { pose proof (f_equal (fun l => nth i l 0) E1) as H. cbn beta in H. rewrite H.
      rewrite (nth_indep (map _ _) 0 (nth 0 arr 0)) by (rewrite map_length; lia).
      rewrite (map_nth (fun p => nth p arr 0)). reflexivity. }
    rewrite NoDup_nth with (d := 0) in N. apply N; auto; [|lia].
    rewrite Forall_forall in F1. apply F1. apply nth_In. lia. }
  rewrite E2, Ep, L.
  pose proof (sub_positions arr' 0 (length arr') ltac:(lia)) as H. rewrite Nat.sub_0_r in H. rewrite <- H.
  unfold sub. rewrite Nat.sub_0_r. cbn [skipn]. apply firstn_all.
Qed.

(** Axes of the inner nodes. *)
Fixpoint kd_axes (nf : nat) (t : kd) : Prop :=
  match t with KLeaf _ _ _ => True | KNode _ _ axis _ l r => axis < nf /\ kd_axes nf l /\ kd_axes nf r end.

Lemma ordered_axes samples nf arr t : kd_ordered samples nf arr t -> kd_axes nf t.
Proof. induction t; simpl; tauto. Qed.

(** The search of a tree whose array need not be ordered: nothing is reported that is not a candidate, and something is
    left out only once the buffer is full. *)
Section Unordered.
Context (m : metric) (dist : list Z -> list Z -> m_dist m) (Hm : metric_ok m dist).
Context (samples : list Z) (nf : nat) (arr : list nat) (query : list Z).
Hypothesis Hdata : forall i, In i arr -> i * nf + nf <= length samples.
Hypothesis Hquery : length query = nf.

Notation visit := (visit m samples nf arr Unbounded query accept_all).
Notation inv := (buf_inv (m_lt m) (m_inf m)).
Notation cands := (cands m dist samples nf Unbounded query (fun _ => true)).

Let Hacc : forall i (s : unit), In i arr -> True -> exists s', accept_all i s = Ok (true, s') /\ True.
Proof. intros i s _ _. exists s. auto. Qed.

Let psearch := psearch_ok m dist Hm samples nf arr Unbounded query accept_all (fun _ => true) (fun _ => True) Hdata Hquery
  Hacc (covers_unbounded nf).

Lemma mtrans a b c : mono m a b -> mono m b c -> mono m a c.
Proof.
  intros (A1 & A2 & A3) (B1 & B2 & B3). unfold mono. splits; [congruence|lia|].
  intros H1 H2. destruct (A3 H1 H2) as (H3 & H4). rewrite A1 in B3. destruct (B3 H1 H3) as (H5 & H6).
  split; auto. eapply le_trans; eauto. apply (mo_order m dist Hm).
Qed.

Lemma full_mono b b' : 1 <= buf_max_capacity b -> mono m b b' -> buf_size b = buf_max_capacity b -> buf_size b' = buf_max_capacity b'.
Proof. intros H1 (A1 & A2 & A3) Hf. destruct (A3 H1 Hf). congruence. Qed.

Lemma visit_unordered : forall t b s pre rest,
  kd_ranges arr t -> kd_axes nf t -> inv b pre rest -> fits (buf_max_capacity b) -> 1 <= buf_max_capacity b ->
  exists b' s' rest' off skip, visit t (b, s) = Ok (b', s') /\ inv b' (pre ++ off) rest' /\ mono m b b' /\
    Permutation (off ++ skip) (cands (kd_samples arr t)) /\ (skip <> [] -> buf_size b' = buf_max_capacity b').
Proof.
  induction t as [f l bx|f l ax bx tl IHl tr IHr]; intros b s pre rest Hr Ho I F1 F2.
  - simpl in Hr. cbn [SearchProofs.visit].
    destruct (psearch f l b s pre rest) as (b' & s' & rest' & E & _ & I' & M & _); auto; try lia.
    exists b', s', rest', (cands (sub arr f l)), []. splits; auto.
    + rewrite app_nil_r. reflexivity.
    + congruence.
  - simpl in Hr, Ho. destruct Hr as (-> & Hf & Rl & Rr). destruct Ho as (Ha & Ol & Or).
    cbn [SearchProofs.visit].
    destruct (psearch f (Datatypes.S f) b s pre rest) as (b1 & s1 & rest1 & E1 & _ & I1 & M1 & _); auto; try lia.
    rewrite E1. cbn [bind].
    destruct (split_value_ok samples nf arr query Hdata Hquery f ax Hf Ha) as (Ep & Hpin).
    unfold select_closest_child. rewrite Ep. cbn [bind]. rewrite (query_value_ok nf query Hquery ax Ha). cbn [bind].
    assert (C1 : buf_max_capacity b1 = buf_max_capacity b) by apply M1.
    assert (G : forall ta tb side,
      (forall b s pre rest, kd_ranges arr ta -> kd_axes nf ta -> inv b pre rest -> fits (buf_max_capacity b) ->
        1 <= buf_max_capacity b ->
        exists b' s' rest' off skip, visit ta (b, s) = Ok (b', s') /\ inv b' (pre ++ off) rest' /\ mono m b b' /\
          Permutation (off ++ skip) (cands (kd_samples arr ta)) /\ (skip <> [] -> buf_size b' = buf_max_capacity b')) ->
      (forall b s pre rest, kd_ranges arr tb -> kd_axes nf tb -> inv b pre rest -> fits (buf_max_capacity b) ->
        1 <= buf_max_capacity b ->
        exists b' s' rest' off skip, visit tb (b, s) = Ok (b', s') /\ inv b' (pre ++ off) rest' /\ mono m b b' /\
          Permutation (off ++ skip) (cands (kd_samples arr tb)) /\ (skip <> [] -> buf_size b' = buf_max_capacity b')) ->
      kd_ranges arr ta -> kd_axes nf ta -> kd_ranges arr tb -> kd_axes nf tb ->
      exists b' s' rest' off skip,
        (st2 <- visit ta (b1, s1) ;; v <- visit_sibling m samples nf arr query f ax side (fst st2) ;;
         if v : bool then visit tb st2 else Ok st2) = Ok (b', s') /\
        inv b' (pre ++ off) rest' /\ mono m b b' /\
        Permutation (off ++ skip) (cands (sub arr f (Datatypes.S f)) ++ cands (kd_samples arr ta) ++ cands (kd_samples arr tb)) /\
        (skip <> [] -> buf_size b' = buf_max_capacity b')).
    { intros ta tb side IHa IHb Ra Oa Rb Ob.
      destruct (IHa b1 s1 (pre ++ cands (sub arr f (Datatypes.S f))) rest1) as (b2 & s2 & rest2 & off2 & skip2 & E2 & I2 & M2 & P2 & K2); auto;
        try (rewrite C1; auto).
      rewrite E2. cbn [bind fst]. unfold visit_sibling. rewrite Ep. cbn [bind]. rewrite (query_value_ok nf query Hquery ax Ha). cbn [bind].
      assert (C2 : buf_max_capacity b2 = buf_max_capacity b) by (destruct M2; congruence).
      set (near := if side then _ else _). destruct (negb (remaining_capacity b2 =? 0)%Z || near) eqn:Ev.
      - destruct (IHb b2 s2 ((pre ++ cands (sub arr f (Datatypes.S f))) ++ off2) rest2) as (b3 & s3 & rest3 & off3 & skip3 & E3 & I3 & M3 & P3 & K3); auto;
          try (rewrite C2; auto).
        exists b3, s3, rest3, (cands (sub arr f (Datatypes.S f)) ++ off2 ++ off3), (skip2 ++ skip3). splits; auto.
        + rewrite <- !app_assoc in I3. exact I3.
        + eauto using mtrans.
        + transitivity (cands (sub arr f (Datatypes.S f)) ++ (off2 ++ skip2) ++ (off3 ++ skip3)).
          { rewrite <- !app_assoc. apply Permutation_app_head. apply Permutation_app_head.
            rewrite !app_assoc. apply Permutation_app_tail. apply Permutation_app_comm. }
          now rewrite P2, P3.
        + intros Hne. destruct skip3 as [|x skip3]; [|apply K3; discriminate]. rewrite app_nil_r in Hne.
          apply (full_mono b2); auto; lia.
      - apply orb_false_iff in Ev as [Ev1 Ev2]. apply negb_false_iff in Ev1.
        exists b2, s2, rest2, (cands (sub arr f (Datatypes.S f)) ++ off2), (skip2 ++ cands (kd_samples arr tb)).
        splits; auto.
        + rewrite <- !app_assoc in I2. exact I2.
        + eauto using mtrans.
        + transitivity (cands (sub arr f (Datatypes.S f)) ++ (off2 ++ skip2) ++ cands (kd_samples arr tb)).
          { rewrite <- !app_assoc. reflexivity. }
          now rewrite P2.
        + intros _. pose proof (bi_cap _ _ _ _ _ I2) as Hcap.
          rewrite remaining_zero in Ev1 by (rewrite ?C2; auto; rewrite <- C2; apply Hcap; rewrite C2; auto).
          now apply Nat.eqb_eq in Ev1. }
    destruct (nth ax query 0%Z <? val samples nf ax (nth f arr 0%nat))%Z; cbn [negb].
    + destruct (G tl tr false) as (b' & s' & rest' & off & skip & E & I' & M' & P' & K'); auto.
      exists b', s', rest', off, skip. splits; auto. rewrite P'. cbn [kd_samples]. rewrite !cands_app.
      rewrite !app_assoc. apply Permutation_app_tail. apply Permutation_app_comm.
    + destruct (G tr tl true) as (b' & s' & rest' & off & skip & E & I' & M' & P' & K'); auto.
      exists b', s', rest', off, skip. splits; auto. rewrite P'. cbn [kd_samples]. rewrite !cands_app.
      rewrite app_assoc. apply Permutation_app_comm.
Qed.
End Unordered.
