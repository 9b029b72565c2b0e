From Coq Require Import List Arith Lia Permutation Relations PeanoNat.
From Verif Require Import Base UnionFindModel UnionFindSpec.
Import ListNotations.

(** [root p i r]: following parents from [i] reaches the self-parent [r]. *)
Inductive root (p : list nat) : nat -> nat -> Prop :=
| root_here i : nth_error p i = Some i -> root p i i
| root_up i j r : nth_error p i = Some j -> i <> j -> root p j r -> root p i r.

Record pinv (n M : nat) (p rk : list nat) : Prop := {
  pi_lp : length p = n;
  pi_lr : length rk = n;
  pi_up : forall i j, nth_error p i = Some j -> j < n /\
            (i <> j -> nth i rk 0 < nth j rk 0);
  pi_max : forall i, i < n -> nth i rk 0 <= M
}.

Lemma root_fun p i r1 r2 : root p i r1 -> root p i r2 -> r1 = r2.
Proof.
  intros H; revert r2; induction H; intros r2 H2; inversion H2; subst; auto; try congruence.
  apply IHroot. congruence.
Qed.

Lemma root_self p i r : root p i r -> nth_error p r = Some r.
Proof. induction 1; auto. Qed.

Lemma root_idem p i r : root p i r -> root p r r.
Proof. intros. apply root_here. eapply root_self; eauto. Qed.

Lemma root_lt n M p rk i r : pinv n M p rk -> root p i r -> r < n /\ i < n.
Proof.
  intros I H. split.
  - apply root_self in H. apply nth_error_lt in H. now rewrite (pi_lp _ _ _ _ I) in H.
  - inversion H; subst; erewrite <- (pi_lp _ _ _ _ I); eapply nth_error_lt; eauto.
Qed.

Lemma root_rank n M p rk i r : pinv n M p rk -> root p i r -> nth i rk 0 <= nth r rk 0.
Proof.
  intros I; induction 1; auto.
  destruct (pi_up _ _ _ _ I _ _ H) as [_ Hr]. specialize (Hr H0). lia.
Qed.

Lemma root_total n M p rk : pinv n M p rk -> forall i, i < n -> exists r, root p i r.
Proof.
  intros I.
  assert (forall k i, M - nth i rk 0 < k -> i < n -> exists r, root p i r) as H.
  { induction k; intros i Hk Hi; [lia|].
    assert (Hi' : i < length p) by (rewrite (pi_lp _ _ _ _ I); auto).
    destruct (nth_error p i) as [j|] eqn:E; [|apply nth_error_None in E; lia].
    destruct (pi_up _ _ _ _ I _ _ E) as [Hj Hr].
    destruct (Nat.eq_dec i j) as [->|Hne]; [exists j; now constructor|].
    specialize (Hr Hne). pose proof (pi_max _ _ _ _ I j Hj).
    destruct (IHk j) as [r Hroot]; [lia|auto|].
    exists r. eapply root_up; eauto. }
  intros i Hi. apply (H (S (M - nth i rk 0)) i); auto.
Qed.

(** Path splitting at [i]. *)
Lemma split_root n M p rk i t g :
  pinv n M p rk -> nth_error p i = Some t -> i <> t -> nth_error p t = Some g ->
  forall x r, root p x r -> root (upd p i g) x r.
Proof.
  intros I Hi Hne Ht x r H. induction H as [x Hx|x j r Hx Hxj H IH].
  - apply root_here. rewrite nth_error_upd_neq; auto. congruence.
  - destruct (Nat.eq_dec i x) as [->|Hix].
    + assert (j = t) by congruence. subst j.
      assert (Hg : nth_error (upd p x g) x = Some g)
        by (apply nth_error_upd_eq; eapply nth_error_lt; eauto).
      assert (Ht' : nth_error (upd p x g) t = Some g) by (rewrite nth_error_upd_neq; auto).
      destruct (Nat.eq_dec t g) as [->|Htg].
      * eapply root_up; eauto.
      * eapply root_up with (j := g); auto.
        -- intros ->.
           destruct (pi_up _ _ _ _ I _ _ Hi) as [_ R1]. specialize (R1 Hne).
           destruct (pi_up _ _ _ _ I _ _ Ht) as [_ R2]. specialize (R2 Htg). lia.
        -- inversion IH; subst; congruence.
    + eapply root_up with (j := j); auto. rewrite nth_error_upd_neq; auto.
Qed.

Lemma split_pinv n M p rk i t g :
  pinv n M p rk -> nth_error p i = Some t -> i <> t -> nth_error p t = Some g ->
  pinv n M (upd p i g) rk.
Proof.
  intros I Hi Hne Ht.
  destruct (pi_up _ _ _ _ I _ _ Hi) as [_ R1]. specialize (R1 Hne).
  destruct (pi_up _ _ _ _ I _ _ Ht) as [Hgn R2].
  constructor; try apply I.
  - rewrite upd_length; apply I.
  - intros x j Hx. destruct (Nat.eq_dec i x) as [->|Hix].
    + rewrite nth_error_upd_eq in Hx by (eapply nth_error_lt; eauto).
      inversion Hx; subst j. split; auto. intros Hxg.
      destruct (Nat.eq_dec t g) as [->|Htg]; [auto|]. specialize (R2 Htg). lia.
    + rewrite nth_error_upd_neq in Hx by auto. now apply (pi_up _ _ _ _ I).
Qed.

(** Two parent arrays with the same roots. *)
Definition same_roots (p p' : list nat) : Prop :=
  forall x r, root p x r <-> root p' x r.

Lemma same_roots_of_impl n M p p' rk :
  pinv n M p rk -> pinv n M p' rk ->
  (forall x r, root p x r -> root p' x r) -> same_roots p p'.
Proof.
  intros I I' H x r; split; auto. intros H'.
  destruct (root_lt _ _ _ _ _ _ I' H') as [_ Hx].
  destruct (root_total _ _ _ _ I x Hx) as [r0 H0].
  assert (r0 = r) by (apply (root_fun p' x); auto). now subst.
Qed.

Lemma same_roots_refl p : same_roots p p.
Proof. firstorder. Qed.
Lemma same_roots_trans p q s : same_roots p q -> same_roots q s -> same_roots p s.
Proof. unfold same_roots; intros H H' x r. rewrite H. apply H'. Qed.

Lemma find_loop_correct n M rk : forall fuel p i,
  pinv n M p rk -> i < n -> M - nth i rk 0 < fuel ->
  exists p' r, find_loop fuel p i = Ok (p', r) /\ root p i r /\
               pinv n M p' rk /\ same_roots p p'.
Proof.
  induction fuel; intros p i I Hi Hf; [lia|]. simpl.
  destruct (rd_lt p i) as [t Ht]; [now rewrite (pi_lp _ _ _ _ I)|].
  rewrite Ht; simpl. apply rd_ok in Ht.
  destruct (Nat.eqb_spec i t) as [->|Hne].
  - exists p, t. split; auto. split; [now constructor|]. split; auto using same_roots_refl.
  - destruct (pi_up _ _ _ _ I _ _ Ht) as [Htn Hr]. specialize (Hr Hne).
    destruct (rd_lt p t) as [g Hg]; [now rewrite (pi_lp _ _ _ _ I)|].
    rewrite Hg; simpl. apply rd_ok in Hg.
    rewrite wr_lt by now rewrite (pi_lp _ _ _ _ I). simpl.
    assert (I' : pinv n M (upd p i g) rk) by (eapply split_pinv; eauto).
    assert (S1 : same_roots p (upd p i g)).
    { eapply same_roots_of_impl; eauto. eapply split_root; eauto. }
    pose proof (pi_max _ _ _ _ I t Htn).
    destruct (IHfuel (upd p i g) t I' Htn) as (p' & r & E & Hroot & Ip & Sr); [lia|].
    exists p', r. split; auto. split.
    + eapply root_up; eauto. now apply S1.
    + split; auto. eapply same_roots_trans; eauto.
Qed.

(** Full invariant of a reachable object. *)
Record uinv (n : nat) (u : uf) : Prop := {
  ui_p : pinv n (Nat.log2 n) (parents u) (ranks u);
  ui_sz : forall r, r < n -> root (parents u) r r ->
            exists l, NoDup l /\ (forall x, In x l -> root (parents u) x r) /\
                      2 ^ nth r (ranks u) 0 <= length l
}.

Lemma uinv_n_pos n u i : uinv n u -> i < n -> 0 < n.
Proof. lia. Qed.

Lemma nth_repeat0 n i : nth i (repeat 0 n) 0 = 0.
Proof. revert i; induction n; destruct i; simpl; auto. Qed.

Lemma nth_error_seq0 n i j : nth_error (seq 0 n) i = Some j -> i < n /\ j = i.
Proof.
  intros H. assert (Hi : i < n) by (apply nth_error_lt in H; now rewrite seq_length in H).
  split; auto. apply nth_error_nth with (d := 0) in H. rewrite seq_nth in H; auto.
Qed.

Lemma nth_error_seq0' n i : i < n -> nth_error (seq 0 n) i = Some i.
Proof.
  intros H. rewrite (nth_error_nth' _ _ 0) by now rewrite seq_length.
  now rewrite seq_nth.
Qed.

Lemma uinv_make n : uinv n (uf_make n).
Proof.
  constructor; simpl.
  - constructor.
    + apply seq_length.
    + apply repeat_length.
    + intros i j H. apply nth_error_seq0 in H as [? ->]. split; auto. congruence.
    + intros. rewrite nth_repeat0. lia.
  - intros r Hr _. exists [r]. repeat split.
    + repeat constructor; simpl; tauto.
    + simpl; intros x [->|[]]. constructor. now apply nth_error_seq0'.
    + rewrite nth_repeat0. simpl. lia.
Qed.

Lemma root_make n i r : root (seq 0 n) i r -> r = i.
Proof. induction 1; auto. apply nth_error_seq0 in H as [_ ->]. congruence. Qed.

Lemma log2_lt n : 0 < n -> Nat.log2 n < n.
Proof. intros. apply Nat.log2_lt_lin; auto. Qed.

Lemma uf_find_correct n u i :
  uinv n u -> i < n ->
  exists u' r, uf_find u i = Ok (u', r) /\ root (parents u) i r /\
               uinv n u' /\ same_roots (parents u) (parents u') /\ ranks u' = ranks u.
Proof.
  intros U Hi. unfold uf_find.
  pose proof (ui_p _ _ U) as I.
  destruct (find_loop_correct n (Nat.log2 n) (ranks u) (2 * length (parents u)) (parents u) i I Hi)
    as (p' & r & E & Hroot & I' & S').
  { rewrite (pi_lp _ _ _ _ I). pose proof (log2_lt n ltac:(lia)). lia. }
  rewrite E; simpl. exists (mk_uf p' (ranks u)), r. split; auto. split; auto. split; [|split; auto].
  constructor; auto. simpl.
  - intros q Hq Hqq. apply S' in Hqq.
    destruct (ui_sz _ _ U q Hq Hqq) as (l & ND & Hl & Hlen).
    exists l. split; auto. split; auto. intros x Hx. apply S'. auto.
Qed.


Lemma rep_root n u i r : uinv n u -> i < n -> (rep u i = Some r <-> root (parents u) i r).
Proof.
  intros U Hi. unfold rep.
  destruct (uf_find_correct n u i U Hi) as (u' & r' & -> & Hr & _).
  split; intros H; [congruence|]. f_equal. eapply root_fun; eauto.
Qed.

Lemma same_roots_rep n u u' i :
  uinv n u -> uinv n u' -> i < n -> same_roots (parents u) (parents u') -> rep u i = rep u' i.
Proof.
  intros U U' Hi S.
  destruct (root_total _ _ _ _ (ui_p _ _ U) i Hi) as [r Hr].
  rewrite (proj2 (rep_root n u i r U Hi) Hr).
  symmetry. apply (rep_root n); auto. now apply S.
Qed.

(** Hanging root [b] below root [a]. *)
Lemma link_root p a b :
  root p a a -> root p b b -> a <> b ->
  forall x r, root p x r -> root (upd p b a) x (if r =? b then a else r).
Proof.
  intros Ha Hb Hab x r H.
  assert (Hbl : b < length p) by (apply root_self in Hb; eapply nth_error_lt; eauto).
  apply root_self in Ha. apply root_self in Hb.
  induction H as [x Hx|x j r Hx Hxj H IH].
  - destruct (Nat.eqb_spec x b) as [->|Hxb].
    + apply root_up with (j := a); auto.
      * now apply nth_error_upd_eq.
      * constructor. rewrite nth_error_upd_neq; auto.
    + constructor. rewrite nth_error_upd_neq; auto.
  - apply root_up with (j := j); auto.
    rewrite nth_error_upd_neq; auto. congruence.
Qed.

Lemma link_pinv n M M' p rk rk' a b :
  pinv n M p rk -> root p a a -> root p b b -> a <> b ->
  length rk' = n -> (forall i, i < n -> nth i rk' 0 <= M') ->
  (forall i, i <> a -> nth i rk' 0 = nth i rk 0) ->
  nth a rk 0 <= nth a rk' 0 -> nth b rk 0 < nth a rk' 0 ->
  pinv n M' (upd p b a) rk'.
Proof.
  intros I Ha Hb Hab Hl Hmax Hoth Hge Hlt.
  apply root_self in Ha as Ha'. apply root_self in Hb as Hb'.
  constructor; auto.
  - rewrite upd_length. apply I.
  - intros i j Hij. destruct (Nat.eq_dec b i) as [->|Hbi].
    + rewrite nth_error_upd_eq in Hij by (eapply nth_error_lt; eauto).
      inversion Hij; subst j. split.
      * rewrite <- (pi_lp _ _ _ _ I). eapply nth_error_lt; eauto.
      * intros _. rewrite Hoth by auto. auto.
    + rewrite nth_error_upd_neq in Hij by auto.
      destruct (pi_up _ _ _ _ I _ _ Hij) as [Hj Hr]. split; auto.
      intros Hne. specialize (Hr Hne).
      assert (i <> a) by congruence.
      rewrite (Hoth i) by auto.
      destruct (Nat.eq_dec j a) as [->|]; [lia|]. rewrite Hoth; auto.
Qed.

Lemma NoDup_app_disj {A} (l1 l2 : list A) :
  NoDup l1 -> NoDup l2 -> (forall x, In x l1 -> In x l2 -> False) -> NoDup (l1 ++ l2).
Proof.
  induction l1; simpl; intros H1 H2 H; auto.
  inversion H1; subst. constructor.
  - rewrite in_app_iff. intros [?|?]; eauto.
  - apply IHl1; eauto.
Qed.

Lemma NoDup_lt_length l n : NoDup l -> (forall x, In x l -> x < n) -> length l <= n.
Proof.
  intros ND H. rewrite <- (seq_length n 0). apply NoDup_incl_length; auto.
  intros x Hx. apply in_seq. specialize (H x Hx). lia.
Qed.

Lemma pow_le_log2 k n : 2 ^ k <= n -> k <= Nat.log2 n.
Proof.
  intros H. rewrite <- (Nat.log2_pow2 k) by lia. now apply Nat.log2_le_mono.
Qed.

Lemma nth_upd (l : list nat) i j v :
  i < length l -> nth j (upd l i v) 0 = if j =? i then v else nth j l 0.
Proof.
  intros Hi. revert i j Hi. induction l; simpl; intros i j Hi; [lia|].
  destruct i, j; simpl; auto. apply IHl. lia.
Qed.

(** The combined set of members after linking. *)
Lemma link_members n M p rk a b la lb :
  pinv n M p rk -> root p a a -> root p b b -> a <> b ->
  NoDup la -> NoDup lb -> (forall x, In x la -> root p x a) -> (forall x, In x lb -> root p x b) ->
  NoDup (la ++ lb) /\ (forall x, In x (la ++ lb) -> root (upd p b a) x a).
Proof.
  intros I Ha Hb Hab NDa NDb Hla Hlb. split.
  - apply NoDup_app_disj; auto. intros x H1 H2.
    apply Hab. apply (root_fun p x); auto.
  - intros x Hx. apply in_app_iff in Hx as [Hx|Hx].
    + specialize (Hla x Hx). apply (link_root p a b) in Hla; auto.
      destruct (Nat.eqb_spec a b); congruence.
    + specialize (Hlb x Hx). apply (link_root p a b) in Hlb; auto.
      now rewrite Nat.eqb_refl in Hlb.
Qed.

Lemma link_roots_after n M p rk a b q :
  pinv n M p rk -> root p a a -> root p b b -> a <> b ->
  root (upd p b a) q q -> q <> b /\ root p q q.
Proof.
  intros I Ha Hb Hab Hq. apply root_self in Hq.
  destruct (Nat.eq_dec b q) as [->|Hne].
  - rewrite nth_error_upd_eq in Hq; [congruence|]. apply root_self in Hb. eapply nth_error_lt; eauto.
  - rewrite nth_error_upd_neq in Hq by auto. split; auto. now constructor.
Qed.

Lemma link_uinv n p rk rk' a b :
  uinv n (mk_uf p rk) -> root p a a -> root p b b -> a <> b -> a < n -> b < n ->
  ((nth a rk 0 = nth b rk 0 /\ rk' = upd rk a (S (nth a rk 0))) \/
   (nth b rk 0 < nth a rk 0 /\ rk' = rk)) ->
  uinv n (mk_uf (upd p b a) rk').
Proof.
  intros U Ha Hb Hab Han Hbn Hrk.
  pose proof (ui_p _ _ U) as I. simpl in I.
  destruct (ui_sz _ _ U a Han Ha) as (la & NDa & Hla & Hsa).
  destruct (ui_sz _ _ U b Hbn Hb) as (lb & NDb & Hlb & Hsb). simpl in *.
  destruct (link_members n _ p rk a b la lb I Ha Hb Hab NDa NDb Hla Hlb) as [ND Hmem].
  assert (Hlr : length rk = n) by apply I.
  assert (Hrka : 2 ^ nth a rk' 0 <= length (la ++ lb)).
  { rewrite app_length. destruct Hrk as [[E ->]|[L ->]].
    - rewrite nth_upd by lia. rewrite Nat.eqb_refl.
      rewrite Nat.pow_succ_r'. rewrite E in *. lia.
    - lia. }
  assert (Hother : forall i, i <> a -> nth i rk' 0 = nth i rk 0).
  { intros i Hi. destruct Hrk as [[E ->]|[L ->]]; auto.
    rewrite nth_upd by lia. destruct (Nat.eqb_spec i a); congruence. }
  assert (Hlens : length (la ++ lb) <= n).
  { apply NoDup_lt_length; auto. intros x Hx.
    apply in_app_iff in Hx as [Hx|Hx].
    - apply (root_lt _ _ _ _ _ _ I (Hla x Hx)).
    - apply (root_lt _ _ _ _ _ _ I (Hlb x Hx)). }
  constructor; simpl.
  - apply (link_pinv n (Nat.log2 n) (Nat.log2 n) p rk rk' a b); auto.
    + destruct Hrk as [[E ->]|[L ->]]; auto. now rewrite upd_length.
    + intros i Hi. destruct (Nat.eq_dec i a) as [->|Hia].
      * apply pow_le_log2. lia.
      * rewrite Hother by auto. now apply (pi_max _ _ _ _ I).
    + destruct Hrk as [[E ->]|[L ->]]; auto.
      rewrite nth_upd by lia. rewrite Nat.eqb_refl. lia.
    + destruct Hrk as [[E ->]|[L ->]]; auto.
      rewrite nth_upd by lia. rewrite Nat.eqb_refl. lia.
  - intros q Hq Hqq.
    destruct (link_roots_after n _ p rk a b q I Ha Hb Hab Hqq) as [Hqb Hqp].
    destruct (Nat.eq_dec q a) as [->|Hqa].
    + exists (la ++ lb). auto.
    + destruct (ui_sz _ _ U q Hq Hqp) as (l & NDl & Hl & Hs). simpl in *.
      exists l. split; auto. split.
      * intros x Hx. specialize (Hl x Hx). apply (link_root p a b) in Hl; auto.
        destruct (Nat.eqb_spec q b); congruence.
      * rewrite Hother; auto.
Qed.

Lemma uf_merge_correct n u i j :
  uinv n u -> i < n -> j < n ->
  exists u' ri rj r,
    uf_merge u i j = Ok (u', r) /\ uinv n u' /\
    root (parents u) i ri /\ root (parents u) j rj /\
    (r = ri \/ r = rj) /\
    (forall x rx, root (parents u) x rx ->
       root (parents u') x (if (rx =? ri) then r else if (rx =? rj) then r else rx)).
Proof.
  intros U Hi Hj. unfold uf_merge.
  destruct (uf_find_correct n u i U Hi) as (u1 & ri & E1 & Hri & U1 & S1 & K1).
  rewrite E1; simpl.
  destruct (uf_find_correct n u1 j U1 Hj) as (u2 & rj & E2 & Hrj & U2 & S2 & K2).
  rewrite E2; simpl.
  assert (Hrj0 : root (parents u) j rj) by now apply S1.
  assert (S12 : same_roots (parents u) (parents u2)) by (eapply same_roots_trans; eauto).
  assert (Hii : root (parents u2) ri ri) by (apply S12; eapply root_idem; eauto).
  assert (Hjj : root (parents u2) rj rj) by (apply S12; eapply root_idem; eauto).
  destruct (root_lt _ _ _ _ _ _ (ui_p _ _ U) Hri) as [Hrin _].
  destruct (root_lt _ _ _ _ _ _ (ui_p _ _ U) Hrj0) as [Hrjn _].
  pose proof (pi_lp _ _ _ _ (ui_p _ _ U2)) as Lp.
  pose proof (pi_lr _ _ _ _ (ui_p _ _ U2)) as Lr.
  destruct (Nat.eqb_spec ri rj) as [->|Hne].
  { exists u2, rj, rj, rj. repeat (split; [solve [auto]|]).
    intros x rx Hx. apply S12 in Hx.
    destruct (Nat.eqb_spec rx rj) as [->|]; auto. }
  destruct u2 as [p2 rk2]; simpl in *.
  assert (R1 : rd rk2 ri = Ok (nth ri rk2 0)).
  { apply rd_ok. apply nth_error_nth'. lia. }
  assert (R2 : rd rk2 rj = Ok (nth rj rk2 0)).
  { apply rd_ok. apply nth_error_nth'. lia. }
  rewrite R1, R2; simpl.
  assert (Hlink_i : forall x rx, root (parents u) x rx ->
     root (upd p2 rj ri) x (if rx =? ri then ri else if rx =? rj then ri else rx)).
  { intros x rx Hx. apply S12 in Hx. apply (link_root p2 ri rj) in Hx; auto.
    destruct (Nat.eqb_spec rx ri) as [->|].
    - destruct (Nat.eqb_spec ri rj); congruence.
    - auto. }
  assert (Hlink_j : forall x rx, root (parents u) x rx ->
     root (upd p2 ri rj) x (if rx =? ri then rj else if rx =? rj then rj else rx)).
  { intros x rx Hx. apply S12 in Hx. apply (link_root p2 rj ri) in Hx; auto.
    destruct (Nat.eqb_spec rx rj) as [->|].
    - destruct (Nat.eqb_spec rj ri); congruence.
    - auto. }
  destruct (Nat.eqb_spec (nth ri rk2 0) (nth rj rk2 0)) as [Eq|Nk].
  - apply root_self in Hii as Pii.
    rewrite (proj2 (rd_ok p2 ri ri) Pii); simpl.
    rewrite wr_lt by lia. simpl. rewrite wr_lt by lia. simpl.
    assert (P' : nth_error (upd p2 rj ri) ri = Some ri) by (rewrite nth_error_upd_neq; auto).
    rewrite (proj2 (rd_ok _ ri ri) P'); simpl.
    exists (mk_uf (upd p2 rj ri) (upd rk2 ri (S (nth ri rk2 0)))), ri, rj, ri.
    split; auto. split; [|auto 10].
    exact (link_uinv n p2 rk2 _ ri rj U2 Hii Hjj Hne Hrin Hrjn (or_introl (conj Eq eq_refl))).
  - destruct (Nat.ltb_spec (nth rj rk2 0) (nth ri rk2 0)) as [Lt|Ge].
    + rewrite wr_lt by lia. simpl.
      pose proof (link_uinv n p2 rk2 rk2 ri rj U2 Hii Hjj Hne Hrin Hrjn (or_intror (conj Lt eq_refl))) as U3.
      exists (mk_uf (upd p2 rj ri) rk2), ri, rj, ri. split; auto 10.
    + rewrite wr_lt by lia. simpl.
      assert (Lt : nth ri rk2 0 < nth rj rk2 0) by lia.
      pose proof (link_uinv n p2 rk2 rk2 rj ri U2 Hjj Hii (not_eq_sym Hne) Hrjn Hrin (or_intror (conj Lt eq_refl))) as U3.
      exists (mk_uf (upd p2 ri rj) rk2), ri, rj, rj. split; auto 10.
Qed.

(** Roots describe the equivalence generated by a list of pairs. *)
Definition tracks (n : nat) (u : uf) (pairs : list (nat * nat)) : Prop :=
  forall i j ri rj, i < n -> j < n ->
    root (parents u) i ri -> root (parents u) j rj ->
    (ri = rj <-> linked pairs i j).

Lemma linked_mono pairs pairs' i j :
  (forall a b, In (a, b) pairs -> In (a, b) pairs') -> linked pairs i j -> linked pairs' i j.
Proof.
  intros H HL. induction HL.
  - apply rst_step. auto.
  - apply rst_refl.
  - now apply rst_sym.
  - eapply rst_trans; eauto.
Qed.

Lemma linked_nil i j : linked [] i j -> i = j.
Proof. induction 1; simpl in *; try tauto; congruence. Qed.

Lemma tracks_make n : tracks n (uf_make n) [].
Proof.
  intros i j ri rj Hi Hj Hri Hrj. simpl in *.
  apply root_make in Hri. apply root_make in Hrj. subst. split.
  - intros ->. apply rst_refl.
  - apply linked_nil.
Qed.

Lemma tracks_same n u u' pairs :
  same_roots (parents u) (parents u') -> tracks n u pairs -> tracks n u' pairs.
Proof. intros S T i j ri rj Hi Hj Hri Hrj. apply T; auto; now apply S. Qed.

(** Equality of representatives as an equivalence closed under a function. *)
Lemma linked_invariant {A} (f : nat -> A) pairs i j :
  (forall a b, In (a, b) pairs -> f a = f b) -> linked pairs i j -> f i = f j.
Proof. intros H HL. induction HL; auto; try congruence. Qed.

Definition rootf (u : uf) (i : nat) : nat := match rep u i with Some r => r | None => i end.

Lemma rootf_root n u i : uinv n u -> i < n -> root (parents u) i (rootf u i).
Proof.
  intros U Hi. unfold rootf.
  destruct (root_total _ _ _ _ (ui_p _ _ U) i Hi) as [r Hr].
  now rewrite (proj2 (rep_root n u i r U Hi) Hr).
Qed.

Lemma tracks_merge n u u' i j ri rj r pairs :
  uinv n u -> uinv n u' -> i < n -> j < n ->
  (forall a b, In (a, b) pairs -> a < n /\ b < n) ->
  root (parents u) i ri -> root (parents u) j rj -> (r = ri \/ r = rj) ->
  (forall x rx, root (parents u) x rx ->
     root (parents u') x (if (rx =? ri) then r else if (rx =? rj) then r else rx)) ->
  tracks n u pairs -> tracks n u' ((i, j) :: pairs).
Proof.
  intros U U' Hi Hj Hp Hri Hrj Hr Hmap T.
  assert (Hmono : forall a b, linked pairs a b -> linked ((i, j) :: pairs) a b).
  { intros a b. apply linked_mono. simpl; auto. }
  assert (Hroots : forall x, x < n -> root (parents u) x (rootf u x))
    by (intros; eapply rootf_root; eauto).
  assert (Hij : linked ((i, j) :: pairs) i j) by (apply rst_step; simpl; auto).
  assert (Hx : forall x, x < n -> rootf u x = ri -> linked ((i,j)::pairs) x i).
  { intros x Hx E. apply Hmono. apply (T x i (rootf u x) ri); auto. }
  assert (Hy : forall x, x < n -> rootf u x = rj -> linked ((i,j)::pairs) x i).
  { intros x Hx' E. eapply rst_trans; [|apply rst_sym; exact Hij].
    apply Hmono. apply (T x j (rootf u x) rj); auto. }
  intros x y rx ry Hxn Hyn Hrx Hry.
  pose proof (Hmap _ _ (Hroots x Hxn)) as Hrx'. pose proof (Hmap _ _ (Hroots y Hyn)) as Hry'.
  assert (Ex := root_fun _ _ _ _ Hrx Hrx'). assert (Ey := root_fun _ _ _ _ Hry Hry').
  clear Hrx' Hry'. split.
  - intros E. rewrite Ex, Ey in E.
    destruct (Nat.eqb_spec (rootf u x) ri) as [A|A], (Nat.eqb_spec (rootf u x) rj) as [A'|A'],
             (Nat.eqb_spec (rootf u y) ri) as [B|B], (Nat.eqb_spec (rootf u y) rj) as [B'|B'];
      try (apply rst_trans with i; [first [apply Hx; assumption|apply Hy; assumption]
                                 |apply rst_sym; first [apply Hx; assumption|apply Hy; assumption]]);
      try (exfalso; destruct Hr; subst r; congruence).
    apply Hmono. apply (T x y (rootf u x) (rootf u y)); auto.
  - intros HL. rewrite Ex, Ey.
    apply (linked_invariant (fun x => if x <? n then
       (if rootf u x =? ri then r else if rootf u x =? rj then r else rootf u x) else x)) in HL.
    + apply Nat.ltb_lt in Hxn, Hyn. now rewrite Hxn, Hyn in HL.
    + simpl. intros a b [E|E].
      * inversion E; subst a b. apply Nat.ltb_lt in Hi as Hi', Hj as Hj'. rewrite Hi', Hj'.
        rewrite (root_fun _ _ _ _ (Hroots i Hi) Hri), (root_fun _ _ _ _ (Hroots j Hj) Hrj).
        rewrite !Nat.eqb_refl. destruct (rj =? ri); auto.
      * destruct (Hp a b E) as [Ha Hb]. apply Nat.ltb_lt in Ha as Ha', Hb as Hb'. rewrite Ha', Hb'.
        assert (rootf u a = rootf u b) as ->; auto.
        apply (T a b); auto. apply rst_step; auto.
Qed.

Lemma merged_in_range n ops :
  Forall (op_in_range n) ops -> forall a b, In (a, b) (merged_pairs ops) -> a < n /\ b < n.
Proof.
  induction 1; simpl; [tauto|]. destruct x; auto. simpl in *.
  intros a b [E|E]; auto. inversion E; subst; auto.
Qed.

Lemma run_correct n : forall ops u pairs,
  uinv n u -> tracks n u pairs -> (forall a b, In (a, b) pairs -> a < n /\ b < n) ->
  Forall (op_in_range n) ops ->
  exists u', uf_run u ops = Ok u' /\ uinv n u' /\ tracks n u' (rev (merged_pairs ops) ++ pairs).
Proof.
  induction ops as [|o ops IH]; intros u pairs U T Hp HF.
  - exists u. auto.
  - inversion HF as [|? ? Ho HF']; subst. destruct o as [i|i j]; simpl in *.
    + destruct (uf_find_correct n u i U Ho) as (u1 & r & -> & Hr & U1 & S1 & _). simpl.
      apply IH; auto. eapply tracks_same; eauto.
    + destruct Ho as [Hi Hj].
      destruct (uf_merge_correct n u i j U Hi Hj)
        as (u1 & ri & rj & r & -> & U1 & Hri & Hrj & Hr & Hmap). simpl.
      destruct (IH u1 ((i, j) :: pairs)) as (u' & E & U' & T'); auto.
      * apply (tracks_merge n u u1 i j ri rj r pairs); auto.
      * simpl. intros a b [Eab|Eab]; auto. inversion Eab; subst; auto.
      * exists u'. split; auto. split; auto. rewrite <- app_assoc. auto.
Qed.

Lemma tracks_iff n u pairs pairs' :
  (forall a b, In (a, b) pairs <-> In (a, b) pairs') -> tracks n u pairs -> tracks n u pairs'.
Proof.
  intros H T i j ri rj Hi Hj Hri Hrj. rewrite (T i j ri rj); auto.
  split; apply linked_mono; firstorder.
Qed.

Lemma run_make_correct n ops :
  Forall (op_in_range n) ops ->
  exists u, uf_run (uf_make n) ops = Ok u /\ uinv n u /\ tracks n u (merged_pairs ops).
Proof.
  intros HF.
  destruct (run_correct n ops (uf_make n) []) as (u & E & U & T); auto.
  - apply uinv_make.
  - apply tracks_make.
  - simpl; tauto.
  - exists u. split; auto. split; auto. eapply tracks_iff; eauto.
    intros a b. rewrite app_nil_r, <- in_rev. tauto.
Qed.

(** ** Arbitrary (possibly cyclic) parent arrays *)

(** [walk p i l j]: starting at [i] the loop of parents visits [l] and then stands on [j]. *)
Inductive walk (p : list nat) : nat -> list nat -> nat -> Prop :=
| walk_nil i : walk p i [] i
| walk_cons i k l j : nth_error p i = Some k -> walk p k l j -> walk p i (i :: l) j.

Lemma walk_upd p x v i l j : ~ In x l -> walk p i l j -> walk (upd p x v) i l j.
Proof.
  intros Hx H. induction H; constructor 2 with k || constructor; simpl in *.
  - rewrite nth_error_upd_neq; auto.
  - auto.
Qed.

Lemma walk_app p i l1 k l2 j : walk p i l1 k -> walk p k l2 j -> walk p i (l1 ++ l2) j.
Proof. induction 1; simpl; auto. intros. econstructor; eauto. Qed.

Lemma walk_app_inv p l1 : forall i l2 j, walk p i (l1 ++ l2) j -> exists k, walk p i l1 k /\ walk p k l2 j.
Proof.
  induction l1; simpl; intros.
  - exists i. split; auto. constructor.
  - inversion H; subst. destruct (IHl1 _ _ _ H5) as (k' & ? & ?). exists k'. split; auto. econstructor; eauto.
Qed.

Lemma walk_in_range p i l j : walk p i l j -> forall x, In x l -> x < length p.
Proof. induction 1; simpl; [tauto|]. intros x [->|]; eauto using nth_error_lt. Qed.

Definition in_range (p : list nat) : Prop := forall i j, nth_error p i = Some j -> j < length p.

Lemma walk_end_range p i l j : in_range p -> i < length p -> walk p i l j -> j < length p.
Proof. intros R Hi H. induction H; auto. apply IHwalk. eapply R; eauto. Qed.

Lemma orbit p i : in_range p -> i < length p ->
  exists l1 l2 c, walk p i (l1 ++ l2) c /\ hd_error l2 = Some c /\ NoDup (l1 ++ l2).
Proof.
  intros R Hi.
  assert (H : forall k l j, length p - length l < k -> walk p i l j -> NoDup l ->
            exists l1 l2 c, walk p i (l1 ++ l2) c /\ hd_error l2 = Some c /\ NoDup (l1 ++ l2)).
  { induction k; intros l j Hk W ND; [lia|].
    destruct (in_dec Nat.eq_dec j l) as [Hin|Hni].
    - destruct (in_split _ _ Hin) as (l1 & l2 & ->). exists l1, (j :: l2), j. auto.
    - assert (Hj : j < length p) by (eapply walk_end_range; eauto).
      destruct (nth_error p j) as [j'|] eqn:E; [|apply nth_error_None in E; lia].
      apply (IHk (l ++ [j]) j').
      + rewrite app_length; simpl.
        assert (length (l ++ [j]) <= length p).
        { apply NoDup_lt_length.
          - apply NoDup_app_disj; auto. repeat constructor; simpl; tauto.
            simpl. intros x ? [->|[]]; auto.
          - intros x Hx. apply in_app_iff in Hx as [Hx|[->|[]]]; auto.
            eapply walk_in_range; eauto. }
        rewrite app_length in H; simpl in H. lia.
      + eapply walk_app; eauto. econstructor; eauto. constructor.
      + apply NoDup_app_disj; auto. repeat constructor; simpl; tauto.
        simpl. intros x ? [->|[]]; auto. }
  apply (H (S (length p)) [] i); simpl; try lia; constructor.
Qed.

Lemma find_loop_any : forall fuel p i l1 l2 c,
  walk p i (l1 ++ l2) c -> hd_error l2 = Some c -> NoDup (l1 ++ l2) ->
  length l1 + 2 * length l2 <= fuel ->
  exists p' r, find_loop fuel p i = Ok (p', r) /\ In r (l1 ++ l2) /\ length p' = length p /\
               nth_error p' r = Some r /\
               (length l2 = 1 -> r = c).
Proof.
  induction fuel; intros p i l1 l2 c W Hc ND Hf.
  { destruct l2; simpl in *; [discriminate|lia]. }
  simpl. destruct l1 as [|i0 l1]; simpl in *.
  - destruct l2 as [|c0 l2]; [discriminate|]. simpl in Hc; inversion Hc; subst c0.
    inversion W as [|? t ? ? Ht W']; subst.
    assert (Hil : c < length p) by (eapply nth_error_lt; eauto).
    rewrite (proj2 (rd_ok p c t) Ht); simpl.
    destruct (Nat.eqb_spec c t) as [->|Hne].
    + exists p, t. repeat split; auto.
    + destruct l2 as [|t0 l2]; [inversion W'; subst; congruence|].
      inversion W' as [|? g ? ? Hg W'']; subst t0 l j i.
      rewrite (proj2 (rd_ok p t g) Hg); simpl. rewrite wr_lt by auto. simpl.
      inversion ND as [|? ? Hni ND']; subst. inversion ND' as [|? ? Hni' ND'']; subst.
      assert (Hupd : nth_error (upd p c g) c = Some g) by now apply nth_error_upd_eq.
      assert (Htp : nth_error (upd p c g) t = Some g) by (rewrite nth_error_upd_neq; auto).
      assert (Wend : walk (upd p c g) g (l2 ++ [c]) g).
      { eapply walk_app; [apply walk_upd; [simpl in *; tauto|exact W'']|].
        econstructor; eauto. constructor. }
      destruct (IHfuel (upd p c g) t [t] (l2 ++ [c]) g) as (p' & r & E & Hin & Hlen & Hself & _).
      * simpl. econstructor; eauto.
      * destruct l2; simpl; auto. inversion W''; subst; auto. inversion W''; subst; auto.
      * simpl. constructor.
        -- rewrite in_app_iff; simpl in *. intuition.
        -- apply NoDup_app_disj; auto. repeat constructor; simpl; tauto.
           simpl in *; intros x ? [->|[]]; auto.
      * simpl in *. rewrite app_length. simpl. lia.
      * exists p', r. split; auto. split; [|split; [|split]].
        -- simpl in *. rewrite in_app_iff in Hin. simpl in Hin. tauto.
        -- now rewrite Hlen, upd_length.
        -- auto.
        -- simpl. discriminate.
  - inversion W as [|? t ? ? Ht W']; subst.
    assert (Hil : i0 < length p) by (eapply nth_error_lt; eauto).
    rewrite (proj2 (rd_ok p i0 t) Ht); simpl.
    inversion ND as [|? ? Hni ND']; subst.
    destruct (Nat.eqb_spec i0 t) as [->|Hne].
    + exfalso. apply Hni. inversion W'; subst; simpl; auto.
      destruct l1; destruct l2; simpl in *; try discriminate.
    + assert (exists t0 rest, l1 ++ l2 = t0 :: rest) as (t0 & rest & E0).
      { destruct l1; destruct l2; simpl in *; try discriminate; eauto. }
      assert (W0 := W'). rewrite E0 in W0.
      inversion W0 as [|? g ? ? Hg W'']; subst.
      rewrite (proj2 (rd_ok p t0 g) Hg); simpl. rewrite wr_lt by auto. simpl.
      destruct (IHfuel (upd p i0 g) t0 l1 l2 c) as (p' & r & E & Hin & Hlen & Hself & Hr); auto.
      * apply walk_upd; auto.
      * lia.
      * exists p', r. split; auto. split; auto. split; [now rewrite Hlen, upd_length|]. auto.
Qed.

Lemma walk_closed p : forall l i, walk p i l i -> forall x y, In x l -> nth_error p x = Some y -> In y l.
Proof.
  intros l i W x y Hx Hy. destruct (in_split _ _ Hx) as (a & b & ->).
  destruct (walk_app_inv _ _ _ _ _ W) as (k & Wa & Wb).
  inversion Wb as [|? k' ? ? Hk Wb']; subst. assert (k' = y) by congruence. subst k'.
  destruct b as [|y' b].
  - inversion Wb'; subst.
    destruct a as [|a0 a]; inversion Wa; subst; simpl; auto.
  - inversion Wb'; subst. rewrite in_app_iff; simpl; auto.
Qed.

Lemma root_in_closed p (S : nat -> Prop) i r :
  (forall x y, S x -> nth_error p x = Some y -> S y) -> S i -> root p i r -> S r.
Proof. intros H HS R. induction R; eauto. Qed.

Lemma root_orbit p i r : root p i r -> forall l1 l2 c,
  walk p i (l1 ++ l2) c -> hd_error l2 = Some c -> NoDup (l1 ++ l2) -> length l2 = 1 /\ c = r.
Proof.
  induction 1 as [i Hi|i j r Hi Hne HR IH]; intros l1 l2 c W Hc ND.
  - destruct l1 as [|i0 l1]; simpl in *.
    + destruct l2 as [|c0 l2]; [discriminate|]. simpl in Hc; inversion Hc; subst c0.
      inversion W as [|? t ? ? Ht W']; subst. assert (t = c) by congruence. subst t.
      split; auto. destruct l2; auto.
      inversion W'; subst. inversion ND; subst. simpl in *; tauto.
    + inversion W as [|? t ? ? Ht W']; subst. assert (t = i0) by congruence. subst t.
      inversion ND as [|? ? Hni ND']; subst. exfalso. apply Hni.
      inversion W'; subst; simpl; auto.
      destruct l1; destruct l2; simpl in *; discriminate.
  - destruct l1 as [|i0 l1]; simpl in *.
    + exfalso. destruct l2 as [|c0 l2]; [discriminate|]. simpl in Hc; inversion Hc; subst c0.
      assert (i = c) by (inversion W; auto). subst i.
      assert (Hr : In r (c :: l2)).
      { apply (root_in_closed p (fun x => In x (c :: l2)) c).
        - apply walk_closed with c; auto.
        - simpl; auto.
        - eapply root_up; eauto. }
      destruct (in_split _ _ Hr) as (a & b & E). rewrite E in W, ND.
      apply root_self in HR.
      destruct (walk_app_inv _ _ _ _ _ W) as (k & Wa & Wb).
      inversion Wb as [|? k' ? ? Hk Wb']; subst. assert (k' = r) by congruence. subst k'.
      destruct b as [|y b].
      * inversion Wb'; subst. congruence.
      * inversion Wb'; subst. apply NoDup_remove_2 in ND. apply ND.
        rewrite in_app_iff; simpl; auto.
    + inversion W as [|? t ? ? Ht W']; subst. assert (t = j) by congruence. subst t.
      inversion ND; subst. eapply IH; eauto.
Qed.
