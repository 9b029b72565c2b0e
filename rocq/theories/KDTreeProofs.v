(** Lemmas on the construction of the tree. *)
From Coq Require Import List Arith ZArith Lia Permutation Bool.
From Verif Require Import Base SortingModel SortingSpec SortingProofs BoundsModel KDTreeModel KDTreeSpec.
Import ListNotations.

Lemma sub_mid {A} (a b c : list A) l r :
  l = length a -> r = length a + length b -> sub (a ++ b ++ c) l r = b.
Proof.
  intros -> ->. unfold sub.
  rewrite skipn_app, skipn_all, Nat.sub_diag. cbn [app skipn].
  replace (length a + length b - length a) with (length b + 0) by lia.
  rewrite firstn_app_2. cbn [firstn]. now rewrite app_nil_r.
Qed.

Lemma app_inv_length {A} : forall (a b c d : list A), length a = length b -> a ++ c = b ++ d -> a = b /\ c = d.
Proof.
  induction a as [|x a IH]; intros [|y b] c d Hl H; try discriminate; simpl in *; auto.
  injection H as -> H. destruct (IH b c d ltac:(lia) H). subst; auto.
Qed.

Lemma seg_eta s : mk_segment (seg_lower s) (seg_upper s) = s.
Proof. now destruct s. Qed.

Lemma upd_upd {A} (l : list A) i v w : upd (upd l i v) i w = upd l i w.
Proof. revert i; induction l; destruct i; simpl; auto. now rewrite IHl. Qed.

Lemma kd_size_samples arr : forall t, kd_ranges arr t -> length (kd_samples arr t) = kd_size t.
Proof.
  induction t as [f l b|f l ax b tl IHl tr IHr]; cbn [kd_ranges kd_samples kd_size].
  - intros H. unfold sub. rewrite firstn_length, skipn_length. lia.
  - intros (-> & Hf & Hl & Hr). rewrite !app_length, IHl, IHr by auto.
    unfold sub. rewrite firstn_length, skipn_length. lia.
Qed.

Lemma filter_len_incl {A} (f : A -> bool) (l1 l2 : list A) :
  length (filter f l1) <= length (filter f (l1 ++ l2)) /\ length (filter f l2) <= length (filter f (l1 ++ l2)).
Proof. rewrite filter_app, app_length. lia. Qed.

Lemma filter_len_perm {A} (f : A -> bool) (l1 l2 : list A) : Permutation l1 l2 -> length (filter f l1) = length (filter f l2).
Proof.
  induction 1; cbn [filter]; auto; try congruence;
    repeat match goal with |- context[if ?b then _ else _] => destruct b end; cbn [length]; congruence.
Qed.

Lemma crowd_app tol samples nf c l1 l2 : crowd tol samples nf c (l1 ++ l2) ->
  crowd tol samples nf c l1 /\ crowd tol samples nf c l2.
Proof.
  intros H. split; intros j x Hj Hx;
    (etransitivity; [|apply (H j x Hj); apply in_or_app; auto]); apply filter_len_incl.
Qed.

Lemma crowd_perm tol samples nf c l1 l2 : Permutation l1 l2 -> crowd tol samples nf c l1 -> crowd tol samples nf c l2.
Proof.
  intros P H j x Hj Hx. rewrite <- (filter_len_perm _ _ _ P). apply H; auto.
  eapply Permutation_in; [symmetry|]; eauto.
Qed.

Section Proofs.
Context (tol : Z) (samples : list Z) (nf bucket max_depth : nat).
Context (policy : list bool -> list nat -> nat -> aabb -> nat).
Hypothesis Htol : (0 <= tol)%Z.
Hypothesis Hpolicy : forall p r d b, policy p r d b < nf.

Notation val := (val samples nf).
Notation build := (build tol samples nf bucket max_depth policy).

Definition ok_indices (M : list nat) : Prop := forall j, j < nf -> in_dataset samples nf j M.
Definition sep_indices (M : list nat) : Prop := forall j, j < nf -> separated tol samples nf j M.

Lemma ok_perm M M' : Permutation M M' -> ok_indices M -> ok_indices M'.
Proof. intros P H j Hj. eapply good_perm; eauto. Qed.

Lemma ok_incl M M' : incl M' M -> ok_indices M -> ok_indices M'.
Proof. intros P H j Hj. eapply good_incl; eauto. Qed.

Lemma sep_incl M M' : incl M' M -> sep_indices M -> sep_indices M'.
Proof. intros P H j Hj x y Hx Hy. apply (H j Hj); auto. Qed.

(** What is known of the subtree over the part [M'] of the array, wherever the array is otherwise changed. *)
Definition subtree_ok (depth : nat) (arr : list nat) (M' : list nat) (t : kd) : Prop :=
  kd_ranges arr t /\ kd_samples arr t = M' /\
  (depth <= max_depth -> kd_limits bucket max_depth depth t) /\
  kd_cut_boxes samples nf arr t /\ kd_ordered_within samples nf arr (2 * tol) t /\
  (sep_indices M' -> kd_ordered samples nf arr t) /\
  (forall c, crowd tol samples nf c M' -> kd_even c t).

Lemma build_ok : forall fuel path A M B depth bound,
  length M < fuel -> ok_indices M -> length (aabb_segments bound) = nf ->
  exists M' t,
    build fuel path (A ++ M ++ B) (length A) (length A + length M) depth bound = Ok (A ++ M' ++ B, t, bound) /\
    Permutation M M' /\ kd_box t = bound /\
    (forall A' B', length A' = length A -> subtree_ok depth (A' ++ M' ++ B') M' t).
Proof.
  induction fuel as [|fuel IH]; intros path A M B depth bound Hf Hok Hb; [lia|].
  cbn [KDTreeModel.build].
  replace (length A + length M - length A) with (length M) by lia.
  destruct ((depth <? max_depth) && (bucket <? length M)) eqn:Ec.
  2:{ exists M, (KLeaf (length A) (length A + length M) bound).
      split; [reflexivity|]. split; [reflexivity|]. split; [reflexivity|].
      intros A' B' HA. unfold subtree_ok. simpl. splits; auto.
      - lia.
      - rewrite !app_length. lia.
      - apply sub_mid; lia.
      - replace (length A + length M - length A) with (length M) by lia.
        apply andb_false_iff in Ec as [Ec|Ec].
        + apply Nat.ltb_ge in Ec. intros. split; auto. lia.
        + apply Nat.ltb_ge in Ec. intros. split; auto. }
  apply andb_true_iff in Ec as [Ed Ebk]. apply Nat.ltb_lt in Ed, Ebk.
  assert (Hne : M <> []) by (destruct M; simpl in *; [lia|discriminate]).
  rewrite (slice_mid A M B) by lia. cbn [bind].
  set (axis := policy path M depth bound).
  assert (Hax : axis < nf) by apply Hpolicy. clearbody axis.
  destruct (quickselect_median_within tol samples nf axis Htol M (Hok axis Hax) Hne)
    as (L & x & R & Eq & P & Hhalf & W1 & W2).
  assert (Hord : sep_indices M ->
     (forall y, In y L -> (val axis y < val axis x)%Z) /\ (forall y, In y R -> (val axis x <= val axis y)%Z)).
  { intros Hs.
    destruct (quickselect_median_ok tol samples nf axis Htol M (Hok axis Hax) (Hs axis Hax) Hne)
      as (L2 & x2 & R2 & Eq2 & P2 & _ & H1 & H2).
    rewrite Eq in Eq2. inversion Eq2.
    assert (L = L2 /\ x :: R = x2 :: R2) as [-> Hxr].
    { apply app_inv_length; congruence. }
    inversion Hxr; subst. auto. }
  destruct (quickselect_median_crowd tol samples nf axis Htol M (Hok axis Hax) Hne _ _ _ _ _ Eq) as (xc & Hxc & Hcrowd).
  rewrite Eq. cbn [bind fst snd].
  rewrite (splice_mid A M (L ++ x :: R) B) by lia.
  assert (LM : length M = length L + S (length R)).
  { rewrite (Permutation_length P), app_length. simpl. lia. }
  assert (Hokx : ok_indices (L ++ x :: R)) by (eapply ok_perm; eauto).
  assert (Ev : value_at samples nf axis (A ++ (L ++ x :: R) ++ B) (length A + length L) = Ok (val axis x)).
  { unfold value_at. rewrite (proj2 (rd_ok _ _ x)).
    - cbn [bind]. apply feature_val. apply Hokx; auto. rewrite in_app_iff; simpl; auto.
    - rewrite <- app_assoc. rewrite app_assoc. rewrite nth_error_app2 by (rewrite app_length; lia).
      rewrite app_length, Nat.sub_diag. reflexivity. }
  rewrite Ev. cbn [bind].
  destruct (nth_error (aabb_segments bound) axis) as [sg|] eqn:Esg;
    [|apply nth_error_None in Esg; lia].
  unfold aabb_update_upper at 1. rewrite (proj2 (rd_ok _ _ _) Esg). cbn [bind].
  rewrite wr_lt by lia. cbn [bind].
  set (b1 := mk_aabb (aabb_centroid bound) (upd (aabb_segments bound) axis (seg_update_upper sg (val axis x)))).
  rewrite Nat.add_0_r.
  replace (A ++ (L ++ x :: R) ++ B) with (A ++ L ++ (x :: R ++ B)) by (rewrite <- app_assoc; reflexivity).
  destruct (IH (path ++ [false]) A L (x :: R ++ B) (S depth) b1) as (L' & tl & El & Pl & Bl & Sl).
  { lia. }
  { eapply ok_incl; [|exact Hokx]. intros z Hz. rewrite in_app_iff. auto. }
  { unfold b1. simpl. now rewrite upd_length. }
  rewrite El. cbn [bind].
  assert (LL : length L' = length L) by (symmetry; apply Permutation_length; auto).
  unfold aabb_update_upper at 1. unfold b1 at 1. cbn [aabb_segments].
  rewrite (proj2 (rd_ok _ _ (seg_update_upper sg (val axis x)))) by (apply nth_error_upd_eq; lia).
  cbn [bind]. unfold b1 at 1. cbn [aabb_segments]. rewrite wr_lt by (rewrite upd_length; lia).
  cbn [bind]. unfold b1 at 1. cbn [aabb_centroid].
  rewrite upd_upd. unfold seg_update_upper at 1 2. cbn [seg_lower seg_upper]. rewrite seg_eta.
  rewrite (upd_same _ _ _ Esg).
  replace (mk_aabb (aabb_centroid bound) (aabb_segments bound)) with bound by (destruct bound; reflexivity).
  unfold aabb_update_lower at 1. rewrite (proj2 (rd_ok _ _ _) Esg). cbn [bind].
  rewrite wr_lt by lia. cbn [bind].
  set (b4 := mk_aabb (aabb_centroid bound) (upd (aabb_segments bound) axis (seg_update_lower sg (val axis x)))).
  replace (A ++ L' ++ x :: R ++ B) with ((A ++ L' ++ [x]) ++ R ++ B)
    by (rewrite <- !app_assoc; reflexivity).
  assert (LA : length (A ++ L' ++ [x]) = length A + S (length L)).
  { rewrite !app_length. simpl. lia. }
  destruct (IH (path ++ [true]) (A ++ L' ++ [x]) R B (S depth) b4) as (R' & tr & Er & Pr & Br & Sr).
  { lia. }
  { eapply ok_incl; [|exact Hokx]. intros z Hz. rewrite in_app_iff. simpl. auto. }
  { unfold b4. simpl. now rewrite upd_length. }
  rewrite LA in Er.
  replace (length A + S (length L) + length R) with (length A + length M) in Er by lia.
  rewrite Er. cbn [bind].
  assert (LR : length R' = length R) by (symmetry; apply Permutation_length; auto).
  unfold aabb_update_lower at 1. unfold b4 at 1. cbn [aabb_segments].
  rewrite (proj2 (rd_ok _ _ (seg_update_lower sg (val axis x)))) by (apply nth_error_upd_eq; lia).
  cbn [bind]. unfold b4 at 1. cbn [aabb_segments]. rewrite wr_lt by (rewrite upd_length; lia).
  cbn [bind]. unfold b4 at 1. cbn [aabb_centroid].
  rewrite upd_upd. unfold seg_update_lower at 1 2. cbn [seg_lower seg_upper]. rewrite seg_eta.
  rewrite (upd_same _ _ _ Esg).
  replace (mk_aabb (aabb_centroid bound) (aabb_segments bound)) with bound by (destruct bound; reflexivity).
  exists (L' ++ x :: R'), (KNode (length A + length L) (length A + S (length L)) axis bound tl tr).
  split; [rewrite <- !app_assoc; reflexivity|].
  assert (PM : Permutation M (L' ++ x :: R')).
  { rewrite P. apply Permutation_app; auto. }
  split; auto. split; [reflexivity|].
  intros A' B' HA.
  assert (Harr1 : A' ++ (L' ++ x :: R') ++ B' = A' ++ L' ++ (x :: R' ++ B')) by (rewrite <- app_assoc; reflexivity).
  assert (Harr2 : A' ++ (L' ++ x :: R') ++ B' = (A' ++ L' ++ [x]) ++ R' ++ B')
    by (rewrite <- !app_assoc; reflexivity).
  assert (Harr3 : A' ++ (L' ++ x :: R') ++ B' = (A' ++ L') ++ [x] ++ (R' ++ B'))
    by (rewrite <- !app_assoc; reflexivity).
  specialize (Sl A' (x :: R' ++ B') HA). rewrite <- Harr1 in Sl.
  specialize (Sr (A' ++ L' ++ [x]) B'). rewrite LA in Sr.
  specialize (Sr ltac:(rewrite !app_length; simpl; lia)). rewrite <- Harr2 in Sr.
  assert (Hx : nth (length A + length L) (A' ++ (L' ++ x :: R') ++ B') 0 = x).
  { rewrite Harr3. apply nth_error_nth. rewrite nth_error_app2 by (rewrite app_length; lia).
    replace (length A + length L - length (A' ++ L')) with 0 by (rewrite app_length; lia). reflexivity. }
  assert (Hsx : sub (A' ++ (L' ++ x :: R') ++ B') (length A + length L) (length A + S (length L)) = [x]).
  { rewrite Harr3. apply sub_mid; rewrite app_length; simpl; lia. }
  set (arr := A' ++ (L' ++ x :: R') ++ B') in *.
  assert (Larr : length A + length M <= length arr).
  { unfold arr. rewrite !app_length. simpl. lia. }
  clearbody arr.
  destruct Sl as (l1 & l2 & l3 & l4 & l5 & l6 & l7). destruct Sr as (r1 & r2 & r3 & r4 & r5 & r6 & r7).
  unfold subtree_ok. cbn [kd_ranges kd_samples kd_limits kd_cut_boxes kd_ordered_within kd_ordered kd_even].
  pose proof (kd_size_samples arr tl l1) as Zl. pose proof (kd_size_samples arr tr r1) as Zr.
  rewrite l2 in Zl. rewrite r2 in Zr.
  splits; auto; try lia.
  - rewrite l2, r2, Hsx. reflexivity.
  - intros _. splits; [lia|cbn [kd_size]; lia|apply l3; lia|apply r3; lia].
  - rewrite Hx. exists sg. split; auto. rewrite Bl, Br. unfold b1, b4, box_with. cbn [aabb_centroid aabb_segments].
    rewrite !upd_length.
    splits; auto; try (rewrite nth_error_upd_eq by lia; reflexivity);
      intros j Hj; apply nth_error_upd_neq; auto.
  - intros y Hy. rewrite Hx. rewrite l2 in Hy. apply W1. eapply Permutation_in; [symmetry|]; eauto.
  - intros y Hy. rewrite Hx. rewrite r2 in Hy. apply W2. eapply Permutation_in; [symmetry|]; eauto.
  - intros Hs. assert (Hs' : sep_indices M).
    { eapply sep_incl; [|exact Hs]. intros z Hz. eapply Permutation_in; eauto. }
    destruct (Hord Hs') as [O1 O2]. rewrite Hx, l2, r2.
    splits; auto.
    + intros y Hy. apply O1. eapply Permutation_in; [symmetry|]; eauto.
    + intros y Hy. apply O2. eapply Permutation_in; [symmetry|]; eauto.
    + apply l6. eapply sep_incl; [|exact Hs]. intros z Hz. rewrite in_app_iff; auto.
    + apply r6. eapply sep_incl; [|exact Hs]. intros z Hz. rewrite in_app_iff; simpl; auto.
  - intros c Hc. destruct (crowd_app _ _ _ _ _ _ Hc) as [C1 C2].
    destruct (crowd_app tol samples nf c [x] R' C2) as [_ C3].
    pose proof (crowd_perm _ _ _ _ _ _ (Permutation_sym PM) Hc axis xc Hax Hxc) as Hle.
    cbn [kd_size]. replace (kd_size tl + (length A + S (length L) - (length A + length L)) + kd_size tr) with (length M) by lia.
    split; [lia|]. split; [lia|]. split; [now apply l7|now apply r7].
Qed.

(** Boxes cut at the samples of an ordered tree enclose what is below them. *)
Lemma enclosed_of_cuts arr : forall t,
  kd_ranges arr t -> kd_cut_boxes samples nf arr t -> kd_ordered samples nf arr t ->
  encloses samples nf (kd_box t) (kd_samples arr t) -> kd_enclosed samples nf arr t.
Proof.
  induction t as [f l b|f l ax b tl IHl tr IHr]; intros Hr Hc Ho He; cbn [kd_enclosed]; split; auto.
  cbn [kd_ranges kd_cut_boxes kd_ordered kd_box kd_samples] in *.
  destruct Hr as (-> & Hf & Rl & Rr). destruct Hc as ((s & Es & Wl & Wr) & Cl & Cr).
  destruct Ho as (Hax & O1 & O2 & Ol & Or). destruct He as [Hlen He].
  split; [apply IHl|apply IHr]; auto.
  - destruct Wl as (_ & W1 & W2 & W3). split; [congruence|].
    intros y j sg Hy Hj. destruct (Nat.eq_dec j ax) as [->|Hne].
    + rewrite W2 in Hj. injection Hj as <-. cbn [seg_lower seg_upper].
      specialize (O1 y Hy). specialize (He y ax s). rewrite in_app_iff in He.
      specialize (He (or_introl Hy) Es). lia.
    + rewrite W3 in Hj by auto. apply (He y j sg); auto. rewrite in_app_iff; auto.
  - destruct Wr as (_ & W1 & W2 & W3). split; [congruence|].
    intros y j sg Hy Hj. destruct (Nat.eq_dec j ax) as [->|Hne].
    + rewrite W2 in Hj. injection Hj as <-. cbn [seg_lower seg_upper].
      specialize (O2 y Hy). specialize (He y ax s). rewrite !in_app_iff in He.
      specialize (He (or_intror (or_intror Hy)) Es). lia.
    + rewrite W3 in Hj by auto. apply (He y j sg); auto. rewrite !in_app_iff; auto.
Qed.

(** Every node stores the centroid of the box of the root. *)
Fixpoint kd_centroids (c : list Z) (t : kd) : Prop :=
  aabb_centroid (kd_box t) = c /\
  match t with KLeaf _ _ _ => True | KNode _ _ _ _ l r => kd_centroids c l /\ kd_centroids c r end.

Lemma centroids_of_cuts arr : forall t c, kd_cut_boxes samples nf arr t -> aabb_centroid (kd_box t) = c ->
  kd_centroids c t.
Proof.
  induction t as [f l b|f l ax b tl IHl tr IHr]; intros c Hc E; cbn [kd_centroids]; split; auto.
  cbn [kd_cut_boxes kd_box] in *. destruct Hc as ((s & Es & Wl & Wr) & Cl & Cr).
  split; [apply IHl|apply IHr]; auto; [destruct Wl|destruct Wr]; congruence.
Qed.
End Proofs.
