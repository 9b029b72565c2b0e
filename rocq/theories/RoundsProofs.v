(** The rounds of Boruvka's algorithm. *)
From Coq Require Import List Arith ZArith Lia Bool Permutation.
From Verif Require Import Base SortingModel BoundsModel UnionFindModel UnionFindSpec UnionFindProofs BufferModel BufferSpec
  KDTreeModel KDTreeSpec SearchModel SearchSpec SearchProofs GraphSpec GraphProofs DualTreeModel BoruvkaModel BoruvkaSpec
  BoruvkaProofs DualBoruvkaModel DualBoruvkaProofs RoundsModel.
Import ListNotations.

(** The numbers of components reported when there are [c] of them: nothing once there is one; otherwise [c] and then what is
    reported for at most half as many. *)
Inductive halving : nat -> list nat -> Prop :=
| halving_done c : c <= 1 -> halving c []
| halving_round c c' l : 1 < c -> 2 * c' <= c -> halving c' l -> halving c (c :: l).

Lemma halving_log : forall c l, halving c l -> length l <= Nat.log2 c.
Proof.
  induction 1 as [c Hc|c c' l H1 H2 H IH]; simpl; [lia|].
  destruct c' as [|c'].
  { inversion H; subst; simpl; [|lia]. change 1 with (Nat.log2 2). apply Nat.log2_le_mono. lia. }
  assert (S (Nat.log2 (S c')) <= Nat.log2 c).
  { rewrite <- Nat.log2_double by lia. apply Nat.log2_le_mono. exact H2. }
  lia.
Qed.

Lemma halving_sum : forall c l, halving c l -> list_sum l <= 2 * (c - 1).
Proof. induction 1 as [c Hc|c c' l H1 H2 H IH]; simpl in *; lia. Qed.

(** What a loop does when each round at least halves the number of components. *)
Section Loop.
Context (m : metric) (P : forest m -> Prop) (step : nat -> forest m -> res (forest m)).
Hypothesis Hstep : forall i f, P f -> 1 < n_components m f ->
  exists f', step i f = Ok f' /\ P f' /\ 2 * n_components m f' <= n_components m f.

Fixpoint plain (fuel i : nat) (f : forest m) : res (forest m) :=
  if 1 <? n_components m f then
    match fuel with
    | 0 => Fuel
    | S fuel' => f' <- step i f ;; plain fuel' (S i) f'
    end
  else Ok f.

Fixpoint reported (fuel i : nat) (f : forest m) (out : progress) : res (forest m * progress) :=
  if 1 <? n_components m f then
    match fuel with
    | 0 => Fuel
    | S fuel' =>
        let out := mk_progress (component_counts out ++ [n_components m f]) (counter out + n_components m f) in
        f' <- step i f ;; reported fuel' (S i) f' out
    end
  else Ok (f, out).

Lemma reported_ok : forall fuel i f counts sum, P f -> n_components m f < 2 ^ S fuel ->
  exists f' l, reported fuel i f (mk_progress counts sum) = Ok (f', mk_progress (counts ++ l) (sum + list_sum l)) /\
    plain fuel i f = Ok f' /\ P f' /\ n_components m f' <= 1 /\ halving (n_components m f) l.
Proof using Hstep.
  induction fuel as [|fuel IH]; intros i f counts sum I Hn; cbn [reported plain];
    destruct (Nat.ltb_spec 1 (n_components m f)) as [H1|H1].
  - simpl in Hn. lia.
  - exists f, []. rewrite app_nil_r. cbn [list_sum fold_right]. rewrite Nat.add_0_r. split; [reflexivity|].
    split; [reflexivity|]. split; auto. split; auto. now constructor.
  - destruct (Hstep i f I H1) as (f1 & E1 & I1 & L1). rewrite E1. cbn [bind component_counts counter].
    destruct (IH (S i) f1 (counts ++ [n_components m f]) (sum + n_components m f) I1) as (f' & l & E & E' & I' & Hl & Hh).
    { assert (2 ^ S (S fuel) = 2 * 2 ^ S fuel) by reflexivity. lia. }
    exists f', (n_components m f :: l). rewrite E, E'. rewrite <- app_assoc. cbn [list_sum fold_right app].
    rewrite Nat.add_assoc. split; [reflexivity|]. split; [reflexivity|]. split; auto. split; auto.
    now apply halving_round with (n_components m f1).
  - exists f, []. rewrite app_nil_r. cbn [list_sum fold_right]. rewrite Nat.add_0_r. split; [reflexivity|].
    split; [reflexivity|]. split; auto. split; auto. now constructor.
Qed.
End Loop.

Lemma log_fuel n fuel : Nat.log2 n <= fuel -> n < 2 ^ S fuel.
Proof.
  intros H. destruct n as [|n]; [apply Nat.neq_0_lt_0; now apply Nat.pow_nonzero|].
  destruct (Nat.log2_spec (S n)) as [_ H1]; [lia|]. eapply Nat.lt_le_trans; [exact H1|].
  apply Nat.pow_le_mono_r; lia.
Qed.

(** The loops of the model are of this form. *)
Lemma plain_make_tree m samples nf tree oc oe core : forall fuel i f,
  make_tree_loop m samples nf tree oc oe core fuel i f =
  plain m (fun i f => if n_components m f =? 2 then dual_component_step_sequential m samples nf tree oc core i f
                      else step_sequential m samples nf tree oc oe core i f) fuel i f.
Proof.
  induction fuel as [|fuel IH]; intros i f; cbn [make_tree_loop plain]; auto.
  destruct (1 <? n_components m f); auto.
  match goal with |- bind ?x _ = bind ?y _ => change y with x; destruct x; cbn [bind]; auto end.
Qed.

Lemma reported_make_tree_loop m samples nf tree oc oe core : forall fuel i f out,
  reported_loop m samples nf tree oc oe core fuel i f out =
  reported m (fun i f => if n_components m f =? 2 then dual_component_step_sequential m samples nf tree oc core i f
                         else step_sequential m samples nf tree oc oe core i f) fuel i f out.
Proof.
  induction fuel as [|fuel IH]; intros i f out; cbn [reported_loop reported]; auto.
  destruct (1 <? n_components m f); auto. match goal with |- bind ?x _ = bind ?y _ => change y with x; destruct x; cbn [bind]; auto end.
Qed.

Lemma plain_make_tree_2 m p samples nf tree oc oe tol policy lowest max center rf k : forall fuel i f,
  make_tree_2_loop m p samples nf tree oc oe tol policy lowest max center rf k fuel i f =
  plain m (step_dual_tree_sequential m p samples nf tree oc oe tol policy lowest max center rf k) fuel i f.
Proof.
  induction fuel as [|fuel IH]; intros i f; cbn [make_tree_2_loop plain]; auto.
  destruct (1 <? n_components m f); auto. match goal with |- bind ?x _ = bind ?y _ => change y with x; destruct x; cbn [bind]; auto end.
Qed.

Lemma reported_make_tree_2_loop m p samples nf tree oc oe tol policy lowest max center rf k : forall fuel i f out,
  reported_loop_2 m samples nf tree oc oe p tol policy lowest max center rf k fuel i f out =
  reported m (step_dual_tree_sequential m p samples nf tree oc oe tol policy lowest max center rf k) fuel i f out.
Proof.
  induction fuel as [|fuel IH]; intros i f out; cbn [reported_loop_2 reported]; auto.
  destruct (1 <? n_components m f); auto. match goal with |- bind ?x _ = bind ?y _ => change y with x; destruct x; cbn [bind]; auto end.
Qed.
