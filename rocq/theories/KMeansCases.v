(** Arithmetics the theorems on k-means apply to: canonical rationals with the distance |x - y| summed over the features
    (for one feature this is the Euclidean distance), and with squared Euclidean distances. *)
From Coq Require Import List Arith ZArith QArith Qcanon Qcabs Lia Bool.
From Verif Require Import Base BufferSpec KMeansModel KMeansSpec.
Import ListNotations.
Local Open Scope Qc_scope.

Definition qc_lt (x y : Qc) : bool := match x ?= y with Lt => true | _ => false end.
Definition qc_div (x : Qc) (n : nat) : Qc := x / Q2Qc (inject_Z (Z.of_nat n)).
Definition qc_eq (x y : Qc) : bool := match x ?= y with Eq => true | _ => false end.
(** Sum of a function of the coordinates. *)
Definition summed (f : Qc -> Qc -> Qc) (p q : list Qc) : Qc := fold_right (fun '(x, y) s => f x y + s) 0 (combine p q).
Definition l1 : list Qc -> list Qc -> Qc := summed (fun x y => Qcabs (x - y)).
Definition sq : list Qc -> list Qc -> Qc := summed (fun x y => (x - y) * (x - y)).

Definition line : arith := mk_arith Qc 0 Qcplus Qcminus qc_div qc_lt qc_eq l1.
Definition squared : arith := mk_arith Qc 0 Qcplus Qcminus qc_div qc_lt qc_eq sq.

Definition q (z : Z) : Qc := Q2Qc (inject_Z z).
Definition qs (l : list Z) : list Qc := map q l.

Lemma qc_lt_false x y : qc_lt y x = false <-> x <= y.
Proof.
  unfold qc_lt. split; intros H.
  - apply Qcnot_lt_le. intros Hl. rewrite (proj1 (Qclt_alt y x) Hl) in H. discriminate.
  - destruct (y ?= x) eqn:E; auto. exfalso. now apply (Qcle_not_lt x y).
Qed.
Lemma qc_lt_true x y : qc_lt y x = true <-> y < x.
Proof.
  unfold qc_lt. split; intros H.
  - apply Qclt_alt. destruct (y ?= x); auto; discriminate.
  - now rewrite (proj1 (Qclt_alt y x) H).
Qed.
Lemma qc_eq_true x y : qc_eq x y = true -> x = y.
Proof. unfold qc_eq. destruct (x ?= y) eqn:E; try discriminate. intros _. now apply Qceq_alt. Qed.

Lemma qc_order : order_ok qc_lt.
Proof.
  split.
  - intros x y H. apply qc_lt_false. apply qc_lt_true in H. now apply Qclt_le_weak.
  - intros x y z. rewrite !qc_lt_false. apply Qcle_trans.
Qed.

Lemma line_ok : arith_ok line.
Proof.
  constructor; simpl.
  - exact qc_order.
  - intros. ring.
  - intros. ring.
  - intros. ring.
Qed.
Lemma squared_ok : arith_ok squared.
Proof.
  constructor; simpl.
  - exact qc_order.
  - intros. ring.
  - intros. ring.
  - intros. ring.
Qed.

Lemma half_twice s : qc_div s 2 + qc_div s 2 = s.
Proof.
  unfold qc_div. replace (Q2Qc (inject_Z (Z.of_nat 2))) with (1 + 1) by (apply Qc_is_canon; reflexivity).
  field. discriminate.
Qed.

Lemma l1_triangle : forall p r s, length p = length r -> length r = length s -> l1 p s <= l1 p r + l1 r s.
Proof.
  unfold l1, summed. induction p as [|x p IH]; intros [|y r] [|z s]; simpl; intros H1 H2; try discriminate.
  specialize (IH r s ltac:(lia) ltac:(lia)).
  apply Qcle_trans with ((Qcabs (x - y) + Qcabs (y - z)) + (l1 p r + l1 r s)).
  - apply Qcplus_le_compat; auto. replace (x - z) with ((x - y) + (y - z)) by ring. apply Qcabs_triangle.
  - unfold l1, summed. match goal with |- ?u <= ?v => replace u with v by ring end. apply Qcle_refl.
Qed.

Lemma line_laws : metric_laws line.
Proof.
  constructor; simpl.
  - intros. ring.
  - intros. ring.
  - intros x y z. rewrite !qc_lt_false. intros H. apply Qcplus_le_compat; auto. apply Qcle_refl.
  - intros u s. rewrite !qc_lt_false. intros H. rewrite <- (half_twice s). now apply Qcplus_le_compat.
  - unfold l1, summed. induction p as [|x p IH]; intros [|y r]; simpl; intros H; try discriminate; auto.
    rewrite (IH r) by lia. rewrite Qcabs_Qcminus. reflexivity.
  - intros p r s H1 H2. apply qc_lt_false. now apply l1_triangle.
Qed.

(** A test for [no_tie]. *)
Local Open Scope nat_scope.
Definition no_tieb (a : arith) (samples : list (num a)) (nf n k : nat) (centroids : list (num a)) : bool :=
  forallb (fun i => forallb (fun j => forallb (fun j' =>
    let d j := n_dist a (row samples nf i) (row centroids nf j) in
    (j =? j') || existsb (fun j2 => n_lt a (d j2) (d j)) (seq 0 k) || negb (n_eq a (d j') (d j)))
    (seq 0 k)) (seq 0 k)) (seq 0 n).

Lemma no_tie_check a samples nf n k centroids : no_tieb a samples nf n k centroids = true -> no_tie a samples nf n k centroids.
Proof.
  intros H i j j' Hi Hj' Hn (Hj & Hmin). unfold no_tieb in H. rewrite forallb_forall in H.
  specialize (H i (proj2 (in_seq n 0 i) ltac:(lia))). rewrite forallb_forall in H.
  specialize (H j (proj2 (in_seq k 0 j) ltac:(lia))). rewrite forallb_forall in H.
  specialize (H j' (proj2 (in_seq k 0 j') ltac:(lia))). cbv zeta in H. destruct (Nat.eqb_spec j j') as [|_]; [contradiction|].
  rewrite orb_false_l in H. apply orb_true_iff in H. destruct H as [H|H].
  - apply existsb_exists in H. destruct H as (j2 & H1 & H2). apply in_seq in H1. rewrite Hmin in H2 by lia. discriminate.
  - now apply negb_true_iff.
Qed.
