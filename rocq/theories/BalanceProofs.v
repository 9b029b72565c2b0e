(** Lemmas on the height of the tree. *)
From Coq Require Import List Arith ZArith Lia Bool.
From Verif Require Import SortingSpec BoundsModel KDTreeModel KDTreeSpec KDTreeProofs.
Import ListNotations.

Lemma kd_below_trans t d s d' u : kd_below t d s -> kd_below s d' u -> kd_below t (d + d') u.
Proof. induction 1; intros H'; auto; cbn [Nat.add]; [apply kd_down_left|apply kd_down_right]; auto. Qed.

(** A path of [d] nodes passes through every smaller depth at an inner node. *)
Lemma kd_below_through t d s : kd_below t d s -> forall e, e < d ->
  exists f last axis b l r, kd_below t e (KNode f last axis b l r).
Proof.
  induction 1 as [t|f last axis b l r d t H IH|f last axis b l r d t H IH]; intros e He; [lia| |];
    (destruct e as [|e]; [exists f, last, axis, b, l, r; constructor|]);
    (destruct (IH e) as (f' & last' & a' & b' & l' & r' & H'); [lia|]); exists f', last', a', b', l', r';
    [now apply kd_down_left|now apply kd_down_right].
Qed.

Lemma kd_height_leaf t : exists f l b, kd_below t (kd_height t) (KLeaf f l b).
Proof.
  induction t as [f l b|f last axis b l IHl r IHr]; cbn [kd_height].
  { exists f, l, b. constructor. }
  destruct (Nat.max_spec (kd_height l) (kd_height r)) as [[_ ->]|[_ ->]].
  - destruct IHr as (f' & l' & b' & H). exists f', l', b'. now apply kd_down_right.
  - destruct IHl as (f' & l' & b' & H). exists f', l', b'. now apply kd_down_left.
Qed.

Section Ranges.
Context (arr : list nat).

Lemma split_bounds l r c : l <= (l + 1 + r - 1) / 2 -> (l + 1 + r - 1) / 2 < l + c ->
  2 * l <= l + r /\ l + r <= 2 * (l + c) - 1.
Proof using.
  intros H1 H2. pose proof (Nat.div_mod_eq (l + 1 + r - 1) 2). pose proof (Nat.mod_upper_bound (l + 1 + r - 1) 2). lia.
Qed.

Lemma halving c t d s : kd_below t d s -> kd_ranges arr t -> kd_even c t ->
  2 ^ d * (kd_size s - 2 * (c - 1)) <= kd_size t - 2 * (c - 1).
Proof using.
  induction 1 as [t|f last axis b l r d t H IH|f last axis b l r d t H IH]; intros Hr He; [cbn [Nat.pow]; lia| |];
    cbn [kd_ranges kd_even kd_size] in *; destruct Hr as (-> & Hf & Rl & Rr); destruct He as (E1 & E2 & El & Er);
    replace (S f - f) with 1 in * by lia; destruct (split_bounds _ _ _ E1 E2) as [B1 B2]; cbn [Nat.pow].
  - specialize (IH Rl El). lia.
  - specialize (IH Rr Er). lia.
Qed.

(** Distinct values: sizes at one depth differ by at most one. *)
Lemma halving_low t d s : kd_below t d s -> kd_ranges arr t -> kd_even 1 t -> kd_size t + 2 <= 2 ^ d * (kd_size s + 2).
Proof using.
  induction 1 as [t|f last axis b l r d t H IH|f last axis b l r d t H IH]; intros Hr He; [cbn [Nat.pow]; lia| |];
    cbn [kd_ranges kd_even kd_size] in *; destruct Hr as (-> & Hf & Rl & Rr); destruct He as (E1 & E2 & El & Er);
    replace (S f - f) with 1 in * by lia; destruct (split_bounds _ _ _ E1 E2) as [B1 B2]; cbn [Nat.pow].
  - specialize (IH Rl El). lia.
  - specialize (IH Rr Er). lia.
Qed.

Lemma kd_below_limits bucket max_depth t d s : kd_below t d s -> forall e, kd_limits bucket max_depth e t ->
  kd_limits bucket max_depth (e + d) s.
Proof using.
  induction 1 as [t|f last axis b l r d t H IH|f last axis b l r d t H IH]; intros e Hl; [now rewrite Nat.add_0_r| |];
    cbn [kd_limits] in Hl; destruct Hl as (_ & _ & Hl & Hr); rewrite <- Nat.add_succ_comm; auto.
Qed.

(** A tree whose nodes have nothing on the left. *)
Fixpoint kd_chain (t : kd) : Prop :=
  match t with
  | KLeaf _ _ _ => True
  | KNode _ _ _ _ l r => kd_size l = 0 /\ kd_chain r
  end.

Lemma chain_height bucket max_depth : forall t d, kd_ranges arr t -> kd_limits bucket max_depth d t -> kd_chain t ->
  kd_height t = Nat.min (max_depth - d) (kd_size t - bucket).
Proof using.
  induction t as [f l b|f last axis b l _ r IHr]; intros d Hr Hl Hc; cbn [kd_ranges kd_limits kd_chain kd_height kd_size] in *.
  - lia.
  - destruct Hr as (-> & Hf & Rl & Rr). destruct Hl as (L1 & L2 & Ll & Lr). destruct Hc as (C1 & C2).
    assert (kd_height l = 0) as ->.
    { destruct l as [|f' l' a' b' ll lr]; auto. exfalso. cbn [kd_limits] in Ll. lia. }
    rewrite (IHr (S d)) by auto. replace (S f - f) with 1 in * by lia. lia.
Qed.

Lemma equal_chain samples nf t : kd_ranges arr t -> kd_ordered samples nf arr t ->
  (forall j x y, j < nf -> In x (kd_samples arr t) -> In y (kd_samples arr t) -> val samples nf j x = val samples nf j y) ->
  kd_chain t.
Proof using.
  induction t as [f l b|f last axis b l _ r IHr]; intros Hr Ho He; cbn [kd_chain]; auto.
  cbn [kd_ranges kd_ordered kd_samples] in *. destruct Hr as (-> & Hf & Rl & Rr). destruct Ho as (Hax & O1 & _ & Ol & Or). split.
  - rewrite <- (kd_size_samples arr l Rl). destruct (kd_samples arr l) as [|y ys] eqn:Ey; auto. exfalso.
    assert (Hx : In (nth f arr 0) (sub arr f (S f))).
    { unfold sub. replace (S f - f) with 1 by lia. destruct (nth_error arr f) as [v|] eqn:Ev; [|apply nth_error_None in Ev; lia].
      rewrite (nth_error_nth _ _ _ Ev). clear - Ev. revert f Ev. induction arr as [|a l IH]; intros [|f] Ev; try discriminate; simpl in *; auto.
      inversion Ev; auto. }
    specialize (O1 y (or_introl eq_refl)). rewrite (He axis y (nth f arr 0)) in O1; auto; try lia.
    + now left.
    + rewrite !in_app_iff. auto.
  - apply IHr; auto. intros j x y Hj Hx Hy. apply He; auto; rewrite !in_app_iff; auto.
Qed.
End Ranges.
