(** Shared vocabulary of the model: outcomes of a C++ call and checked array access.
    Nothing here models a particular FFCL function. *)
From Coq Require Import List Arith Lia Permutation Bool.
Import ListNotations.

(** Outcome of a modelled call.
    [Ok a]   the call returns [a];
    [UB]     undefined behaviour (out of range access, null dereference, ...);
    [Throw]  a C++ exception leaves the call;
    [Fuel]   the loop fuel given to the model was used up (the call has not returned yet). *)
Inductive res (A : Type) : Type :=
| Ok (a : A)
| UB
| Throw
| Fuel.
Arguments Ok {A} a.
Arguments UB {A}.
Arguments Throw {A}.
Arguments Fuel {A}.

Definition bind {A B} (r : res A) (k : A -> res B) : res B :=
  match r with
  | Ok a => k a
  | UB => UB
  | Throw => Throw
  | Fuel => Fuel
  end.

Notation "x <- e ;; k" := (bind e (fun x => k))
  (at level 61, e at next level, right associativity).
Notation "' p <- e ;; k" := (bind e (fun p => k))
  (at level 61, p pattern, e at next level, right associativity).

(** Array read [a[i]] and write [a[i] = v]; out of range is [UB]. *)
Definition rd {A} (l : list A) (i : nat) : res A :=
  match nth_error l i with
  | Some a => Ok a
  | None => UB
  end.

Fixpoint upd {A} (l : list A) (i : nat) (v : A) : list A :=
  match l, i with
  | [], _ => []
  | _ :: t, 0 => v :: t
  | h :: t, S i' => h :: upd t i' v
  end.

Definition wr {A} (l : list A) (i : nat) (v : A) : res (list A) :=
  if i <? length l then Ok (upd l i v) else UB.

(** [std::iter_swap (first + i) (first + j)] / [std::swap (a[i]) (a[j])]. *)
Definition swap {A} (l : list A) (i j : nat) : res (list A) :=
  x <- rd l i ;;
  y <- rd l j ;;
  l1 <- wr l i y ;;
  wr l1 j x.

(** ** Lemmas *)

Lemma bind_ok {A B} (r : res A) (k : A -> res B) b :
  bind r k = Ok b -> exists a, r = Ok a /\ k a = Ok b.
Proof. destruct r; simpl; intros H; try discriminate; eauto. Qed.

Lemma rd_ok {A} (l : list A) i a : rd l i = Ok a <-> nth_error l i = Some a.
Proof. unfold rd; destruct (nth_error l i); split; intros; congruence. Qed.

Lemma rd_lt {A} (l : list A) i : i < length l -> exists a, rd l i = Ok a.
Proof.
  intros H. unfold rd. destruct (nth_error l i) eqn:E; eauto.
  apply nth_error_None in E; lia.
Qed.

Lemma upd_length {A} (l : list A) i v : length (upd l i v) = length l.
Proof. revert i; induction l; destruct i; simpl; auto. Qed.

Lemma nth_error_upd {A} (l : list A) i j v :
  nth_error (upd l i v) j =
  if (j =? i) && (i <? length l) then Some v else nth_error l j.
Proof.
  revert i j; induction l; intros i j; simpl.
  - destruct j; simpl; destruct i; simpl; auto. now rewrite andb_false_r.
  - destruct i, j; simpl; auto. rewrite IHl. reflexivity.
Qed.

Lemma nth_error_upd_eq {A} (l : list A) i v :
  i < length l -> nth_error (upd l i v) i = Some v.
Proof.
  intros. rewrite nth_error_upd, Nat.eqb_refl.
  apply Nat.ltb_lt in H; now rewrite H.
Qed.

Lemma nth_error_upd_neq {A} (l : list A) i j v :
  i <> j -> nth_error (upd l i v) j = nth_error l j.
Proof.
  intros. rewrite nth_error_upd. destruct (Nat.eqb_spec j i); try congruence; auto.
Qed.

Lemma wr_ok {A} (l : list A) i v l' :
  wr l i v = Ok l' <-> i < length l /\ l' = upd l i v.
Proof.
  unfold wr. destruct (Nat.ltb_spec i (length l)); split.
  - intros E; inversion E; auto.
  - intros [_ ->]; auto.
  - discriminate.
  - intros []; lia.
Qed.

Lemma wr_lt {A} (l : list A) i v : i < length l -> wr l i v = Ok (upd l i v).
Proof. intros. apply wr_ok; auto. Qed.

Lemma upd_split {A} (l : list A) i v x :
  nth_error l i = Some x ->
  exists a b, l = a ++ x :: b /\ length a = i /\ upd l i v = a ++ v :: b.
Proof.
  revert i; induction l; intros i H; destruct i; simpl in *; try discriminate.
  - inversion H; subst. exists [], l. auto.
  - destruct (IHl _ H) as (a0 & b0 & -> & <- & E).
    exists (a :: a0), b0. simpl. rewrite E. auto.
Qed.

Lemma nth_error_lt {A} (l : list A) i x : nth_error l i = Some x -> i < length l.
Proof. intros H. apply nth_error_Some. congruence. Qed.

Lemma nth_error_ext {A} (l l' : list A) :
  (forall i, nth_error l i = nth_error l' i) -> l = l'.
Proof.
  revert l'. induction l; intros l' H.
  - destruct l'; auto. specialize (H 0). discriminate.
  - destruct l' as [|b l']; [specialize (H 0); discriminate|].
    f_equal.
    + specialize (H 0); simpl in H; congruence.
    + apply IHl. intros i. apply (H (S i)).
Qed.

Lemma upd_same {A} (l : list A) i x : nth_error l i = Some x -> upd l i x = l.
Proof.
  intros. apply nth_error_ext. intros j. rewrite nth_error_upd.
  destruct (Nat.eqb_spec j i); simpl; auto. subst.
  destruct (Nat.ltb_spec i (length l)); auto.
Qed.

Lemma swap_lt {A} (l : list A) i j x y :
  nth_error l i = Some x -> nth_error l j = Some y ->
  swap l i j = Ok (upd (upd l i y) j x).
Proof.
  intros Hi Hj. unfold swap.
  rewrite (proj2 (rd_ok l i x) Hi), (proj2 (rd_ok l j y) Hj). simpl.
  rewrite wr_lt by (eapply nth_error_lt; eauto). simpl.
  rewrite wr_lt; auto. rewrite upd_length. eapply nth_error_lt; eauto.
Qed.

Lemma swap_ok {A} (l : list A) i j l' :
  swap l i j = Ok l' ->
  exists x y, nth_error l i = Some x /\ nth_error l j = Some y /\
              l' = upd (upd l i y) j x.
Proof.
  unfold swap. intros H.
  apply bind_ok in H as (x & Hx & H). apply bind_ok in H as (y & Hy & H).
  apply bind_ok in H as (l1 & H1 & H).
  apply rd_ok in Hx. apply rd_ok in Hy.
  apply wr_ok in H1 as [? ->]. apply wr_ok in H as [? ->]. eauto.
Qed.

(** Value found at [k] after swapping positions [i] and [j]. *)
Lemma nth_error_swapped {A} (l : list A) i j x y k :
  nth_error l i = Some x -> nth_error l j = Some y ->
  nth_error (upd (upd l i y) j x) k =
  if k =? j then Some x else if k =? i then Some y else nth_error l k.
Proof.
  intros Hi Hj.
  assert (i < length l) by (eapply nth_error_lt; eauto).
  assert (j < length l) by (eapply nth_error_lt; eauto).
  rewrite !nth_error_upd, upd_length.
  apply Nat.ltb_lt in H, H0. rewrite H, H0, !andb_true_r. reflexivity.
Qed.

Lemma upd_comm {A} (l : list A) i j x y :
  i <> j -> upd (upd l i x) j y = upd (upd l j y) i x.
Proof.
  intros. apply nth_error_ext. intros k. rewrite !nth_error_upd, !upd_length.
  destruct (Nat.eqb_spec k j), (Nat.eqb_spec k i); simpl; try congruence; auto.
Qed.

Lemma swapped_perm {A} (l : list A) i j x y :
  nth_error l i = Some x -> nth_error l j = Some y ->
  Permutation l (upd (upd l i y) j x).
Proof.
  intros Hi Hj.
  destruct (Nat.eq_dec i j) as [->|Hne].
  - assert (x = y) by congruence. subst.
    rewrite (upd_same l j y) by auto. rewrite upd_same by auto. reflexivity.
  - assert (Hj' : nth_error (upd l i y) j = Some y)
      by (rewrite nth_error_upd_neq; auto).
    destruct (upd_split _ _ y _ Hi) as (a & b & El & Ea & Eu).
    destruct (upd_split _ _ x _ Hj') as (c & d & El' & Ec & Eu').
    rewrite Eu'. rewrite Eu in El'.
    (* a ++ x :: b is a permutation of x :: a ++ b; c ++ x :: d of x :: c ++ d *)
    rewrite El.
    transitivity (x :: a ++ b); [symmetry; apply Permutation_middle|].
    transitivity (x :: c ++ d); [|apply Permutation_middle].
    apply perm_skip.
    apply Permutation_cons_inv with (a := y).
    transitivity (a ++ y :: b); [apply Permutation_middle|].
    rewrite El'. symmetry. apply Permutation_middle.
Qed.

Lemma Forall_upd {A} (P : A -> Prop) l i v :
  Forall P l -> P v -> Forall P (upd l i v).
Proof.
  revert i. induction l; intros i HF Hv; destruct i; simpl; auto;
    inversion HF; subst; auto.
Qed.

Lemma nth_error_nth' {A} (l : list A) i d : i < length l -> nth_error l i = Some (nth i l d).
Proof. apply nth_error_nth'. Qed.

(** [for (i = first; i < first + count; ++i) s = body(i, s);] *)
Fixpoint for_loop {S} (count first : nat) (body : nat -> S -> res S) (s : S) : res S :=
  match count with
  | 0 => Ok s
  | Datatypes.S count' => s' <- body first s ;; for_loop count' (Datatypes.S first) body s'
  end.

(** [for (x : l) s = body(x, s);] *)
Fixpoint for_each {A S} (l : list A) (body : A -> S -> res S) (s : S) : res S :=
  match l with
  | [] => Ok s
  | x :: l' => s' <- body x s ;; for_each l' body s'
  end.

Lemma for_loop_inv {S} (P : nat -> S -> Prop) body : forall count first s,
  P first s ->
  (forall i s, first <= i < first + count -> P i s -> exists s', body i s = Ok s' /\ P (Datatypes.S i) s') ->
  exists s', for_loop count first body s = Ok s' /\ P (first + count) s'.
Proof.
  induction count; intros first s H0 H; simpl.
  - rewrite Nat.add_0_r. eauto.
  - destruct (H first s ltac:(lia) H0) as (s' & -> & H1). simpl.
    destruct (IHcount (Datatypes.S first) s' H1) as (s'' & E & H2).
    + intros i t Hi. apply H. lia.
    + exists s''. split; auto. now rewrite Nat.add_succ_r.
Qed.

Lemma for_each_inv {A S} (P : list A -> S -> Prop) body : forall l done s,
  P done s ->
  (forall x d t, In x l -> P d t -> exists t', body x t = Ok t' /\ P (d ++ [x]) t') ->
  exists s', for_each l body s = Ok s' /\ P (done ++ l) s'.
Proof.
  induction l as [|x l IH]; intros done s H0 H; simpl.
  - rewrite app_nil_r. eauto.
  - destruct (H x done s (or_introl eq_refl) H0) as (s' & -> & H1). simpl.
    destruct (IH (done ++ [x]) s' H1) as (s'' & E & H2).
    + intros y d t Hy. apply H. simpl; auto.
    + exists s''. split; auto. now rewrite <- app_assoc in H2.
Qed.

(** Splits conjunctions only (does not unfold anything). *)
Ltac splits := repeat match goal with |- _ /\ _ => split end.
