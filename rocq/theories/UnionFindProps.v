(** Theorems C01-C04: UnionFind. *)
From Coq Require Import List Arith Lia Relations.
From Verif Require Import Base UnionFindModel UnionFindSpec UnionFindProofs.
Import ListNotations.

(** C01.  Any history of in-range calls runs to completion; afterwards every [find] answers, with a member
    of the class, equal answers mean linked by merged pairs, and calling [find] changes no answer. *)
Theorem c01_find_answers_merge_history n ops :
  Forall (op_in_range n) ops ->
  exists u, uf_run (uf_make n) ops = Ok u /\
    (forall i, i < n -> exists u' r,
        uf_find u i = Ok (u', r) /\ r < n /\ linked (merged_pairs ops) i r /\ rep u r = Some r /\
        (forall x, x < n -> rep u' x = rep u x)) /\
    (forall i j, i < n -> j < n -> (rep u i = rep u j <-> linked (merged_pairs ops) i j)).
Proof.
  intros HF. destruct (run_make_correct n ops HF) as (u & E & U & T).
  exists u. split; auto. split.
  - intros i Hi. destruct (uf_find_correct n u i U Hi) as (u' & r & Ef & Hr & U' & S & _).
    destruct (root_lt _ _ _ _ _ _ (ui_p _ _ U) Hr) as [Hrn _].
    exists u', r. split; auto. split; auto. split; [|split].
    + apply (T i r r r); auto. eapply root_idem; eauto.
    + apply (rep_root n); auto. eapply root_idem; eauto.
    + intros x Hx. symmetry. eapply same_roots_rep; eauto.
  - intros i j Hi Hj.
    destruct (root_total _ _ _ _ (ui_p _ _ U) i Hi) as [ri Hri].
    destruct (root_total _ _ _ _ (ui_p _ _ U) j Hj) as [rj Hrj].
    rewrite (proj2 (rep_root n u i ri U Hi) Hri), (proj2 (rep_root n u j rj U Hj) Hrj).
    rewrite <- (T i j ri rj); auto. split; congruence.
Qed.

Example c01_case :
  Forall (op_in_range 5) [OMerge 0 1; OMerge 2 3; OFind 3; OMerge 1 3] /\
  match uf_run (uf_make 5) [OMerge 0 1; OMerge 2 3; OFind 3; OMerge 1 3] with
  | Ok u => map (rep u) [0; 1; 2; 3; 4] = [Some 0; Some 0; Some 0; Some 0; Some 4]
  | _ => False
  end.
Proof. split; [repeat constructor; simpl; lia|reflexivity]. Qed.

(** C02. *)
Theorem c02_merge_joins_exactly_two_classes n ops u i j :
  Forall (op_in_range n) ops -> uf_run (uf_make n) ops = Ok u -> i < n -> j < n ->
  exists u' r, uf_merge u i j = Ok (u', r) /\
    rep u' i = Some r /\ rep u' j = Some r /\
    (rep u i = Some r \/ rep u j = Some r) /\
    (forall x y, x < n -> y < n ->
       (same u' x y <-> same u x y \/ (same u x i /\ same u y j) \/ (same u x j /\ same u y i))).
Proof.
  intros HF Hrun Hi Hj. destruct (run_make_correct n ops HF) as (u0 & E & U & T).
  assert (u0 = u) by congruence. subst u0.
  destruct (uf_merge_correct n u i j U Hi Hj) as (u' & ri & rj & r & Em & U' & Hri & Hrj & Hr & Hmap).
  exists u', r. split; auto.
  assert (Ri : rep u i = Some ri) by (apply (rep_root n); auto).
  assert (Rj : rep u j = Some rj) by (apply (rep_root n); auto).
  assert (Hrep' : forall x rx, x < n -> rep u x = Some rx ->
     rep u' x = Some (if rx =? ri then r else if rx =? rj then r else rx)).
  { intros x rx Hx Hrx. apply (rep_root n) in Hrx; auto. apply (rep_root n); auto. }
  assert (Htot : forall x, x < n -> exists rx, rep u x = Some rx).
  { intros x Hx. destruct (root_total _ _ _ _ (ui_p _ _ U) x Hx) as [rx Hrx].
    exists rx. apply (rep_root n); auto. }
  split; [|split; [|split]].
  - rewrite (Hrep' i ri Hi Ri). now rewrite Nat.eqb_refl.
  - rewrite (Hrep' j rj Hj Rj). rewrite Nat.eqb_refl. destruct (rj =? ri); auto.
  - destruct Hr; subst; auto.
  - intros x y Hx Hy.
    destruct (Htot x Hx) as [rx Rx]. destruct (Htot y Hy) as [ry Ry].
    unfold same. rewrite (Hrep' x rx Hx Rx), (Hrep' y ry Hy Ry), Rx, Ry, Ri, Rj.
    split.
    + intros (q & E1 & E2).
      destruct (Nat.eqb_spec rx ri), (Nat.eqb_spec rx rj), (Nat.eqb_spec ry ri), (Nat.eqb_spec ry rj);
        subst; inversion E1; inversion E2; subst; eauto 10;
        try (destruct Hr; subst; congruence).
    + intros [(q & E1 & E2)|[[(q & E1 & E2) (q' & E3 & E4)]|[(q & E1 & E2) (q' & E3 & E4)]]];
        inversion E1; inversion E2; subst; try (inversion E3; inversion E4; subst);
        rewrite ?Nat.eqb_refl.
      * eauto.
      * exists r. split; auto. destruct (q' =? q); auto.
      * exists r. split; auto. destruct (q =? q'); auto.
Qed.

Example c02_case :
  exists u, uf_run (uf_make 4) [OMerge 0 1; OMerge 2 3] = Ok u /\
  match uf_merge u 3 1 with
  | Ok (u', r) => r = 2 /\ map (rep u') [0; 1; 2; 3] = repeat (Some 2) 4 /\
                  map (rep u) [0; 1; 2; 3] = [Some 0; Some 0; Some 2; Some 2]
  | _ => False
  end.
Proof. eexists. split; [reflexivity|]. now vm_compute. Qed.

(** C03.  One unit of fuel is one evaluation of the loop condition, so [S (log2 n)] units mean at most
    [log2 n] links are followed. *)
Theorem c03_find_is_logarithmic n ops u i :
  Forall (op_in_range n) ops -> uf_run (uf_make n) ops = Ok u -> i < n ->
  (exists p' r, find_loop (S (Nat.log2 n)) (parents u) i = Ok (p', r) /\ rep u i = Some r) /\
  (forall k, nth_error (ranks u) i = Some k -> k <= Nat.log2 n).
Proof.
  intros HF Hrun Hi. destruct (run_make_correct n ops HF) as (u0 & E & U & T).
  assert (u0 = u) by congruence. subst u0. split.
  - destruct (find_loop_correct n (Nat.log2 n) (ranks u) (S (Nat.log2 n)) (parents u) i (ui_p _ _ U) Hi)
      as (p' & r & Ef & Hr & _); [lia|].
    exists p', r. split; auto. apply (rep_root n); auto.
  - intros k Hk. apply nth_error_nth with (d := 0) in Hk. subst k.
    now apply (pi_max _ _ _ _ (ui_p _ _ U)).
Qed.

(** Eight elements merged pairwise reach rank 3 = log2 8, and two links from 7 are still in place. *)
Definition c03_ops : list uf_op :=
  [OMerge 0 1; OMerge 2 3; OMerge 4 5; OMerge 6 7; OMerge 0 2; OMerge 4 6; OMerge 0 4].
Example c03_case :
  Forall (op_in_range 8) c03_ops /\
  match uf_run (uf_make 8) c03_ops with
  | Ok u => nth_error (ranks u) 0 = Some 3 /\ parents u = [0; 0; 0; 2; 0; 4; 4; 6] /\
            find_loop 3 (parents u) 7 = Fuel /\ rep u 7 = Some 0
  | _ => False
  end.
Proof. split; [repeat constructor; simpl; lia|now vm_compute]. Qed.

Lemma chain_root p i r : chain_ends p i r -> root p i r.
Proof.
  induction 1 as [r Hr|i j r Hi H IH]; [now constructor|].
  destruct (Nat.eq_dec i j) as [->|]; auto. eapply root_up; eauto.
Qed.

(** C04, first half: on any in-range labels, cycles included, [find] returns an in-range self-parented
    element; if the chain of [i] ends in a self-labelled index that index is the answer. *)
Theorem c04_label_constructor_find_returns labels i :
  (forall l, In l labels -> l < length labels) -> i < length labels ->
  exists u' r, uf_find (uf_of_labels labels) i = Ok (u', r) /\ r < length labels /\
    nth_error (parents u') r = Some r /\
    (forall r', chain_ends labels i r' -> r = r').
Proof.
  intros HR Hi.
  assert (R : in_range labels) by (intros a b H; apply HR; eapply nth_error_In; eauto).
  destruct (orbit labels i R Hi) as (l1 & l2 & c & W & Hc & ND).
  assert (Hlen : length l1 + length l2 <= length labels).
  { rewrite <- app_length. apply NoDup_lt_length; auto. intros x Hx. eapply walk_in_range; eauto. }
  destruct (find_loop_any (2 * length labels) labels i l1 l2 c W Hc ND) as (p' & r & E & Hin & _ & Hself & Hr);
    [lia|].
  unfold uf_find, uf_of_labels. cbn [parents ranks]. rewrite E. cbn [bind].
  exists (mk_uf p' (repeat 0 (length labels))), r. split; auto. split; [|split; auto].
  - eapply walk_in_range; eauto.
  - intros r' Hch. apply chain_root in Hch.
    destruct (root_orbit labels i r' Hch l1 l2 c W Hc ND) as [H1 H2]. subst. auto.
Qed.

Example c04_case :
  (forall l, In l [1; 2; 2; 0; 3] -> l < 5) /\ chain_ends [1; 2; 2; 0; 3] 4 2 /\
  rep (uf_of_labels [1; 2; 2; 0; 3]) 4 = Some 2 /\
  (* a cycle of length four *)
  rep (uf_of_labels [1; 2; 3; 0]) 0 = Some 0.
Proof.
  split; [simpl; intuition lia|]. split; [|now vm_compute].
  repeat (eapply ce_step; [reflexivity|]). now constructor.
Qed.

(** C04, second half: with cyclic labels the answer of [find] depends on earlier [find] calls. *)
Theorem c04_cyclic_labels_stable_answers_refuted :
  exists labels i j u',
    (forall l, In l labels -> l < length labels) /\ i < length labels /\ j < length labels /\
    (exists r, uf_find (uf_of_labels labels) i = Ok (u', r)) /\
    rep u' j <> rep (uf_of_labels labels) j.
Proof.
  exists [1; 2; 0], 0, 1, (mk_uf [2; 0; 2] [0; 0; 0]). simpl.
  split; [intuition lia|]. repeat (split; [lia|]). split.
  - exists 2. reflexivity.
  - vm_compute. discriminate.
Qed.

Print Assumptions c01_find_answers_merge_history.
Print Assumptions c02_merge_joins_exactly_two_classes.
Print Assumptions c03_find_is_logarithmic.
Print Assumptions c04_label_constructor_find_returns.
Print Assumptions c04_cyclic_labels_stable_answers_refuted.
