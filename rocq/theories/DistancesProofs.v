(** Lemmas on distances. *)
From Coq Require Import List Arith ZArith Lia Bool.
From Verif Require Import Base DistancesModel DistancesSpec.
Import ListNotations.

(** ** Alignments *)
Inductive align : nat -> list Z -> list Z -> Prop :=
| al_nil : align 0 [] []
| al_keep x a b k : align k a b -> align k (x :: a) (x :: b)
| al_sub x y a b k : align k a b -> align (S k) (x :: a) (y :: b)
| al_del x a b k : align k a b -> align (S k) (x :: a) b
| al_ins y a b k : align k a b -> align (S k) a (y :: b).

Lemma align_refl a : align 0 a a.
Proof. induction a; constructor; auto. Qed.

Lemma align_app k1 k2 u v c d : align k1 u c -> align k2 v d -> align (k1 + k2) (u ++ v) (c ++ d).
Proof. intros H1 H2. induction H1; simpl; auto; constructor; auto. Qed.

Lemma align_split k a c : align k a c -> forall u v, a = u ++ v ->
  exists c1 c2 k1 k2, c = c1 ++ c2 /\ k1 + k2 = k /\ align k1 u c1 /\ align k2 v c2.
Proof.
  induction 1 as [|x a b k H IH|x y a b k H IH|x a b k H IH|y a b k H IH]; intros u v E.
  - symmetry in E. apply app_eq_nil in E as [-> ->]. exists [], [], 0, 0. splits; auto using al_nil.
  - destruct u as [|z u]; simpl in E.
    + subst v. exists [], (x :: b), 0, k. splits; auto; constructor; auto.
    + inversion E; subst. destruct (IH u v eq_refl) as (c1 & c2 & k1 & k2 & -> & <- & H1 & H2).
      exists (z :: c1), c2, k1, k2. splits; auto. constructor; auto.
  - destruct u as [|z u]; simpl in E.
    + subst v. exists [], (y :: b), 0, (S k). splits; auto; constructor; auto.
    + inversion E; subst. destruct (IH u v eq_refl) as (c1 & c2 & k1 & k2 & -> & <- & H1 & H2).
      exists (y :: c1), c2, (S k1), k2. splits; auto. constructor; auto.
  - destruct u as [|z u]; simpl in E.
    + subst v. exists [], b, 0, (S k). splits; auto; constructor; auto.
    + inversion E; subst. destruct (IH u v eq_refl) as (c1 & c2 & k1 & k2 & -> & <- & H1 & H2).
      exists c1, c2, (S k1), k2. splits; auto. constructor; auto.
  - destruct (IH u v E) as (c1 & c2 & k1 & k2 & -> & <- & H1 & H2).
    exists (y :: c1), c2, (S k1), k2. splits; auto. constructor; auto.
Qed.

Lemma align_drop k x v c : align k (x :: v) c -> exists k', k' <= S k /\ align k' v c.
Proof.
  intros H. remember (x :: v) as a eqn:E. induction H as [|x' a b k H IH|x' y a b k H IH|x' a b k H IH|y a b k H IH]; try discriminate.
  - inversion E; subst. exists (S k). split; [lia|]. now constructor.
  - inversion E; subst. exists (S k). split; [lia|]. now constructor.
  - inversion E; subst. exists k. split; [lia|]. auto.
  - destruct (IH E) as (k' & L & H'). exists (S k'). split; [lia|]. now constructor.
Qed.

Lemma align_change k x y v c : align k (y :: v) c -> exists k', k' <= S k /\ align k' (x :: v) c.
Proof.
  intros H. remember (y :: v) as a eqn:E. induction H as [|x' a b k H IH|x' z a b k H IH|x' a b k H IH|z a b k H IH]; try discriminate.
  - inversion E; subst. exists (S k). split; [lia|]. now constructor.
  - inversion E; subst. exists (S k). split; [lia|]. now constructor.
  - inversion E; subst. exists (S k). split; [lia|]. now constructor.
  - destruct (IH E) as (k' & L & H'). exists (S k'). split; [lia|]. now constructor.
Qed.

Lemma edit_align a b c k : edit1 a b -> align k b c -> exists k', k' <= S k /\ align k' a c.
Proof.
  intros E H. destruct E as [u v x|u v x|u v x y];
  destruct (align_split _ _ _ H _ _ eq_refl) as (c1 & c2 & k1 & k2 & -> & <- & H1 & H2).
  - apply align_drop in H2 as (k' & L & H2). exists (k1 + k'). split; [lia|]. now apply align_app.
  - exists (k1 + S k2). split; [lia|]. apply align_app; auto. now constructor.
  - apply (align_change _ x) in H2 as (k' & L & H2). exists (k1 + k'). split; [lia|]. now apply align_app.
Qed.

Lemma edits_align k a b : edits k a b -> exists k', k' <= k /\ align k' a b.
Proof.
  induction 1 as [a|k a b c E H (k' & L & IH)].
  - exists 0. split; auto. apply align_refl.
  - destruct (edit_align _ _ _ _ E IH) as (k2 & L2 & H2). exists k2. split; auto. lia.
Qed.

Lemma edit1_cons x a b : edit1 a b -> edit1 (x :: a) (x :: b).
Proof.
  intros E. destruct E as [u v y|u v y|u v y z].
  - apply (edit_insert (x :: u)).
  - apply (edit_delete (x :: u)).
  - apply (edit_substitute (x :: u)).
Qed.

Lemma edits_cons x k a b : edits k a b -> edits k (x :: a) (x :: b).
Proof. induction 1; [constructor|]. econstructor; eauto using edit1_cons. Qed.

Lemma align_edits k a b : align k a b -> edits k a b.
Proof.
  induction 1 as [|x a b k H IH|x y a b k H IH|x a b k H IH|y a b k H IH].
  - constructor.
  - now apply edits_cons.
  - apply (edits_more _ _ (y :: a)); [apply (edit_substitute [])|]. now apply edits_cons.
  - apply (edits_more _ _ a); auto. apply (edit_delete []).
  - apply (edits_more _ _ (y :: a)); [apply (edit_insert [])|]. now apply edits_cons.
Qed.

Definition best (a b : list Z) (d : nat) : Prop := align d a b /\ forall k, align k a b -> d <= k.

Lemma best_fewest a b d : best a b d -> fewest_edits a b d.
Proof.
  intros [H M]. split; [now apply align_edits|]. intros k Hk. apply edits_align in Hk as (k' & L & Hk').
  specialize (M _ Hk'). lia.
Qed.

(** ** The recurrence on prefixes *)
Lemma align_rev k a b : align k a b -> align k (rev a) (rev b).
Proof.
  assert (G : forall k a b c d j, align k a b -> align j c d -> align (k + j) (a ++ c) (b ++ d)) by (intros; now apply align_app).
  induction 1 as [|x a b k H IH|x y a b k H IH|x a b k H IH|y a b k H IH]; simpl.
  - constructor.
  - rewrite <- (Nat.add_0_r k). apply G; auto. apply align_refl.
  - rewrite <- Nat.add_1_r. apply G; auto. constructor. constructor.
  - rewrite <- Nat.add_1_r. rewrite <- (app_nil_r (rev b)). apply G; auto. constructor. constructor.
  - rewrite <- Nat.add_1_r. rewrite <- (app_nil_r (rev a)). apply G; auto. constructor. constructor.
Qed.

Lemma align_rev' k a b : align k (rev a) (rev b) -> align k a b.
Proof. intros H. apply align_rev in H. now rewrite !rev_involutive in H. Qed.

Lemma align_snoc k a b x y : align k (a ++ [x]) (b ++ [y]) ->
  (x = y /\ align k a b) \/
  exists k', k = S k' /\ (align k' a b \/ align k' a (b ++ [y]) \/ align k' (a ++ [x]) b).
Proof.
  intros H. apply align_rev in H. rewrite !rev_app_distr in H. simpl in H.
  inversion H as [|x' a' b' k' H'|x' y' a' b' k' H'|x' a' b' k' H'|y' a' b' k' H']; subst.
  - left. split; auto. now apply align_rev'.
  - right. exists k'. split; auto. left. now apply align_rev'.
  - right. exists k'. split; auto. right; left. apply align_rev'. now rewrite rev_app_distr.
  - right. exists k'. split; auto. right; right. apply align_rev'. now rewrite rev_app_distr.
Qed.

Lemma best_snoc a b x y del ins diag :
  best a (b ++ [y]) del -> best (a ++ [x]) b ins -> best a b diag ->
  best (a ++ [x]) (b ++ [y]) (Nat.min (Nat.min (del + 1) (ins + 1)) (if (x =? y)%Z then diag else diag + 1)).
Proof.
  intros [D Dm] [I Im] [G Gm].
  assert (H1 : align (del + 1) (a ++ [x]) (b ++ [y])).
  { rewrite <- (app_nil_r (b ++ [y])). apply align_app; auto. constructor. constructor. }
  assert (H2 : align (ins + 1) (a ++ [x]) (b ++ [y])).
  { rewrite <- (app_nil_r (a ++ [x])). apply align_app; auto. constructor. constructor. }
  assert (H3 : align (if (x =? y)%Z then diag else diag + 1) (a ++ [x]) (b ++ [y])).
  { destruct (Z.eqb_spec x y) as [->|].
    - rewrite <- (Nat.add_0_r diag). apply align_app; auto. apply align_refl.
    - apply align_app; auto. constructor. constructor. }
  split.
  - destruct (Nat.min_spec (Nat.min (del + 1) (ins + 1)) (if (x =? y)%Z then diag else diag + 1)) as [[_ ->]|[_ ->]]; auto.
    destruct (Nat.min_spec (del + 1) (ins + 1)) as [[_ ->]|[_ ->]]; auto.
  - intros k Hk. apply align_snoc in Hk as [[-> Hk]|(k' & -> & [Hk|[Hk|Hk]])].
    + rewrite Z.eqb_refl. specialize (Gm _ Hk). lia.
    + specialize (Gm _ Hk). destruct (x =? y)%Z; lia.
    + specialize (Dm _ Hk). lia.
    + specialize (Im _ Hk). lia.
Qed.

Lemma best_nil_left b : best [] b (length b).
Proof.
  split.
  - induction b; simpl; constructor; auto.
  - intros k H. remember [] as a eqn:E. revert E. induction H; intros E; try discriminate; simpl; auto.
    specialize (IHalign E). lia.
Qed.

Lemma best_nil_right a : best a [] (length a).
Proof.
  split.
  - induction a; simpl; constructor; auto.
  - intros k H. remember [] as b eqn:E. revert E. induction H; intros E; try discriminate; simpl; auto.
    specialize (IHalign E). lia.
Qed.

Lemma firstn_snoc_nth {A} (l : list A) i x : nth_error l i = Some x -> firstn (S i) l = firstn i l ++ [x].
Proof.
  revert i. induction l as [|y l IH]; intros [|i] H; simpl in *; try discriminate.
  - congruence.
  - rewrite (IH i H). reflexivity.
Qed.

(** ** The dynamic programme *)
Section DP.
Context (left right : list Z).

Definition row_ok (i : nat) (buffer : list nat) (upto : nat) : Prop :=
  length buffer = length right + 1 /\
  forall j, j <= upto -> exists d, nth_error buffer j = Some d /\ best (firstn i left) (firstn j right) d.

Lemma dp_row i previous current : i < length left -> row_ok i previous (length right) -> length current = length right + 1 ->
  exists current', levenshtein_row left right i (previous, current) = Ok (current', previous) /\ row_ok (S i) current' (length right).
Proof.
  intros Hi [Lp Hp] Lc. unfold levenshtein_row. rewrite wr_lt by lia. cbn [bind].
  destruct (nth_error left i) as [x|] eqn:Ex; [|apply nth_error_None in Ex; lia].
  destruct (for_loop_inv (fun j cur => row_ok (S i) cur j) (levenshtein_cell left right previous i) (length right) 0
              (upd current 0 (i + 1))) as (cur & E & H).
  - split; [now rewrite upd_length|]. intros j Hj. assert (j = 0) as -> by lia. exists (i + 1). split.
    + apply nth_error_upd_eq. lia.
    + simpl firstn at 2. replace (i + 1) with (length (firstn (S i) left)) by (rewrite firstn_length; lia).
      apply best_nil_right.
  - intros j cur Hj [Lj Hc]. destruct Hj as [_ Hj]. simpl in Hj.
    destruct (Hp (j + 1) ltac:(lia)) as (del & E1 & B1). destruct (Hp j ltac:(lia)) as (diag & E2 & B2).
    destruct (Hc j ltac:(lia)) as (ins & E3 & B3).
    destruct (nth_error right j) as [y|] eqn:Ey; [|apply nth_error_None in Ey; lia].
    unfold levenshtein_cell, rd. rewrite E1, E3, Ex, Ey, E2. cbn [bind]. rewrite wr_lt by lia.
    eexists. split; [reflexivity|]. split; [now rewrite upd_length|]. intros j' Hj'.
    destruct (Nat.eq_dec j' (S j)) as [->|Hne].
    + eexists. rewrite <- (Nat.add_1_r j) at 1. rewrite nth_error_upd_eq by lia. split; [reflexivity|].
      rewrite (firstn_snoc_nth left i x Ex), (firstn_snoc_nth right j y Ey). apply best_snoc.
      * rewrite <- (firstn_snoc_nth right j y Ey), <- Nat.add_1_r. exact B1.
      * rewrite <- (firstn_snoc_nth left i x Ex). exact B3.
      * exact B2.
    + rewrite nth_error_upd_neq by lia. apply Hc. lia.
  - simpl in H. rewrite E. cbn [bind]. exists cur. auto.
Qed.

Lemma levenshtein_best : exists d, levenshtein_distance left right = Ok d /\ best left right d.
Proof.
  unfold levenshtein_distance.
  destruct (for_loop_inv (fun i b => row_ok i (fst b) (length right) /\ length (snd b) = length right + 1)
              (levenshtein_row left right) (length left) 0 (seq 0 (length right + 1), repeat 0 (length right + 1)))
    as ([p c] & E & [[L H] _]).
  - simpl. split; [|apply repeat_length]. split; [apply seq_length|]. intros j Hj. exists j. split.
    + rewrite (nth_error_nth' _ j 0) by (rewrite seq_length; lia). rewrite seq_nth by lia. reflexivity.
    + simpl firstn. assert (G : j = length (firstn j right)) by (rewrite firstn_length; lia). rewrite G at 2. apply best_nil_left.
  - intros i [p c] Hi [Hr Lc]. simpl in *. destruct (dp_row i p c) as (c' & E & H); auto; try lia.
    exists (c', p). split; auto. split; auto. apply Hr.
  - rewrite E. cbn [bind]. simpl in *. destruct (H (length right)) as (d & Ed & B); [lia|].
    exists d. unfold rd. rewrite Ed. split; auto. now rewrite !firstn_all in B.
Qed.
End DP.

(** ** Vectors *)
Local Open Scope Z_scope.

Lemma inner_ok p q : length p = length q -> inner_product p q = Ok (dot p q).
Proof.
  revert q. induction p as [|x p IH]; intros [|y q] H; simpl in *; auto; try discriminate.
  rewrite IH by lia. reflexivity.
Qed.

Lemma dot_sym p q : dot p q = dot q p.
Proof. revert q. induction p as [|x p IH]; intros [|y q]; simpl; auto. rewrite IH. lia. Qed.

Lemma dot_self p : 0 <= dot p p.
Proof. induction p; simpl; nia. Qed.

Lemma dot_zero p : dot p p = 0 -> forall x, In x p -> x = 0.
Proof.
  induction p as [|y p IH]; simpl; intros H x; [tauto|]. pose proof (dot_self p).
  pose proof (Z.square_nonneg y). assert (y * y = 0 /\ dot p p = 0) as [Hy Hp] by lia. intros [<-|Hx]; [nia|auto].
Qed.

Lemma cauchy_schwarz p q : dot p q * dot p q <= dot p p * dot q q.
Proof.
  revert q. induction p as [|x p IH]; intros [|y q]; simpl; try lia.
  specialize (IH q). pose proof (dot_self p) as Hp. pose proof (dot_self q) as Hq.
  set (A := dot p p) in *. set (B := dot q q) in *. set (d := dot p q) in *. clearbody A B d.
  assert (H : 2 * (x * y * d) <= x * x * B + y * y * A).
  { destruct (Z.eq_dec A 0) as [->|HA].
    - assert (d = 0) as -> by nia. nia.
    - assert (0 <= A * (x * x * B + y * y * A - 2 * (x * y * d))); [|nia].
      pose proof (Z.square_nonneg (x * d - y * A)).
      assert (x * x * (d * d) <= x * x * (A * B)) by (apply Z.mul_le_mono_nonneg_l; [apply Z.square_nonneg|lia]). nia. }
  nia.
Qed.

(** The equality case. *)
Lemma dot_scale a b p q : length p = length q ->
  dot (map (fun '(x, y) => a * x - b * y) (combine p q)) (map (fun '(x, y) => a * x - b * y) (combine p q)) =
  a * a * dot p p - 2 * a * b * dot p q + b * b * dot q q.
Proof.
  revert q. induction p as [|x p IH]; intros [|y q] H; try discriminate; cbn [dot combine map]; [ring|].
  rewrite IH by (simpl in H; lia). ring.
Qed.

Lemma zero_combination a b p q : length p = length q ->
  (forall x, In x (map (fun '(x, y) => a * x - b * y) (combine p q)) -> x = 0) -> map (Z.mul a) p = map (Z.mul b) q.
Proof.
  revert q. induction p as [|x p IH]; intros [|y q] H E; simpl in *; try discriminate; auto.
  pose proof (E _ (or_introl eq_refl)). rewrite (IH q); [|lia|intros; apply E; auto]. f_equal. lia.
Qed.

Lemma dot_map_l a p q : dot (map (Z.mul a) p) q = a * dot p q.
Proof. revert q. induction p as [|x p IH]; intros [|y q]; simpl; try lia. rewrite IH. ring. Qed.

Lemma schwarz_equality p q : length p = length q -> 0 < dot p p ->
  (dot p q * dot p q = dot p p * dot q q <-> parallel p q).
Proof.
  intros L Hp. split.
  - intros E. exists (dot p q), (dot p p). split; [lia|]. apply zero_combination; auto. apply dot_zero.
    rewrite dot_scale by auto. nia.
  - intros (a & b & Hab & E).
    assert (F1 : a * dot p p = b * dot p q).
    { rewrite <- dot_map_l, E, dot_map_l. now rewrite (dot_sym q p). }
    assert (F2 : a * dot p q = b * dot q q). { rewrite <- dot_map_l, E, dot_map_l. reflexivity. }
    destruct (Z.eq_dec b 0) as [->|Hb]; [nia|].
    apply (Z.mul_cancel_l _ _ b Hb). rewrite Z.mul_assoc, <- F1.
    replace (b * (dot p p * dot q q)) with (dot p p * (b * dot q q)) by ring. rewrite <- F2. ring.
Qed.
