(** C105: one UnionFind used by several threads. *)
From Coq Require Import List Arith Bool Lia.
From Verif Require Import Base UnionFindModel UnionFindSpec UnionFindProofs SharedFindModel SharedFindSpec SharedFindProofs.
Import ListNotations.

Lemma reached n ops u : Forall (op_in_range n) ops -> uf_run (uf_make n) ops = Ok u -> uinv n u.
Proof. intros Hr E. destruct (run_make_correct n ops Hr) as (u0 & E0 & U & _). congruence. Qed.

(** The actions of one thread alone are the sequential call, arrays included: the model of the threads is the model of the class. *)
Theorem c105_alone o u u' r :
  match o with OFind x => uf_find u x | OMerge x y => uf_merge u x y end = Ok (u', r) ->
  exists k, interleave (repeat 0 k) [enter o] u = Ok ([Return r], u').
Proof.
  destruct o as [x|x y].
  - intros E. destruct (find_split u x u' r E) as (p1 & E1 & ->).
    destruct (alone_find Finding (ranks u)) with (2 := E1) as (k & Ek).
    { intros f p q g Hf Hn. destruct f; try (cbn [call_step parents]; rewrite Hf; reflexivity). now destruct (Hn index). }
    exists (k + 1). rewrite (uf_eta u) at 1. cbn [enter]. rewrite (alone_app k 1 _ _ _ _ Ek). reflexivity.
  - unfold uf_merge. destruct (uf_find u x) as [[u1 r1]| | |] eqn:F1; cbn [bind]; intros E; try discriminate E.
    destruct (uf_find u1 y) as [[u2 r2]| | |] eqn:F2; cbn [bind] in E; try discriminate E.
    destruct (find_split u x u1 r1 F1) as (p1 & E1 & ->). destruct (find_split _ y u2 r2 F2) as (p2 & E2 & ->). cbn [parents ranks] in *.
    destruct (alone_find (fun f => First f y) (ranks u)) with (2 := E1) as (k1 & Ek1).
    { intros f p q g Hf Hn. destruct f; try (cbn [call_step parents]; rewrite Hf; reflexivity). now destruct (Hn index). }
    destruct (alone_find (Second r1) (ranks u)) with (2 := E2) as (k2 & Ek2).
    { intros f p q g Hf Hn. destruct f; try (cbn [call_step parents]; rewrite Hf; reflexivity). now destruct (Hn index). }
    assert (G : forall k, interleave (repeat 0 (k1 + S (k2 + S k))) [enter (OMerge x y)] u =
      interleave (repeat 0 k) [if r1 =? r2 then Return r1 else Rank1 r1 r2] (mk_uf p2 (ranks u))).
    { intros k. rewrite (uf_eta u) at 1. cbn [enter]. rewrite (alone_app k1 _ _ _ _ _ Ek1).
      rewrite (alone_step (First (FReturn r1) y) _ (Second r1 (FTest y)) (mk_uf p1 (ranks u))) by reflexivity. rewrite (alone_app k2 _ _ _ _ _ Ek2).
      now rewrite (alone_step (Second r1 (FReturn r2)) _ (if r1 =? r2 then Return r1 else Rank1 r1 r2) (mk_uf p2 (ranks u))) by reflexivity. }
    destruct (r1 =? r2) eqn:E12.
    { injection E as <- <-. exists (k1 + S (k2 + 1)). rewrite (G 0). reflexivity. }
    destruct (rd (ranks u) r1) as [q1| | |] eqn:K1; cbn [bind] in E; try discriminate E.
    destruct (rd (ranks u) r2) as [q2| | |] eqn:K2; cbn [bind] in E; try discriminate E.
    assert (G1 : forall k, interleave (repeat 0 (k1 + S (k2 + S (S (S k))))) [enter (OMerge x y)] u =
      interleave (repeat 0 k) [if q1 =? q2 then LinkRead r1 r2 else Rank3 r1 r2] (mk_uf p2 (ranks u))).
    { intros k. rewrite G. rewrite (alone_step _ _ (Rank2 r1 r2 q1) (mk_uf p2 (ranks u))) by (cbn [call_step ranks]; now rewrite K1).
      now rewrite (alone_step _ _ (if q1 =? q2 then LinkRead r1 r2 else Rank3 r1 r2) (mk_uf p2 (ranks u))) by (cbn [call_step ranks]; now rewrite K2). }
    destruct (q1 =? q2) eqn:Q.
    + destruct (rd p2 r1) as [t1| | |] eqn:T1; cbn [bind] in E; try discriminate E.
      destruct (wr p2 r2 t1) as [p3| | |] eqn:W1; cbn [bind] in E; try discriminate E.
      destruct (wr (ranks u) r1 (S q1)) as [rk| | |] eqn:W2; cbn [bind] in E; try discriminate E.
      destruct (rd p3 r1) as [t2| | |] eqn:T2; cbn [bind] in E; try discriminate E. injection E as <- <-.
      exists (k1 + S (k2 + S (S (S 5)))). rewrite G1.
      rewrite (alone_step _ _ (LinkWrite r1 r2 t1) (mk_uf p2 (ranks u))) by (cbn [call_step parents]; now rewrite T1).
      rewrite (alone_step _ _ (BumpRead r1) (mk_uf p3 (ranks u))) by (cbn [call_step parents]; now rewrite W1).
      rewrite (alone_step _ _ (BumpWrite r1 q1) (mk_uf p3 (ranks u))) by (cbn [call_step ranks]; now rewrite K1).
      rewrite (alone_step _ _ (ReadResult r1) (mk_uf p3 rk)) by (cbn [call_step ranks]; now rewrite W2).
      rewrite (alone_step _ _ (Return t2) (mk_uf p3 rk)) by (cbn [call_step parents]; now rewrite T2). reflexivity.
    + exists (k1 + S (k2 + S (S (S 3)))). rewrite G1.
      rewrite (alone_step _ _ (Rank4 r1 r2 q1) (mk_uf p2 (ranks u))) by (cbn [call_step ranks]; now rewrite K1).
      rewrite (alone_step _ _ (if q2 <? q1 then Hang r2 r1 else Hang r1 r2) (mk_uf p2 (ranks u))) by (cbn [call_step ranks]; now rewrite K2).
      destruct (q2 <? q1).
      * destruct (wr p2 r2 r1) as [p3| | |] eqn:W; cbn [bind] in E; try discriminate E. injection E as <- <-.
        now rewrite (alone_step _ _ (Return r1) (mk_uf p3 (ranks u))) by (cbn [call_step parents]; now rewrite W).
      * destruct (wr p2 r1 r2) as [p3| | |] eqn:W; cbn [bind] in E; try discriminate E. injection E as <- <-.
        now rewrite (alone_step _ _ (Return r2) (mk_uf p3 (ranks u))) by (cbn [call_step parents]; now rewrite W).
Qed.

(** Concurrent finds alone: whatever the order of the accesses, every find comes back with the representative the object had, within
    [4 * log2 n + 2] actions of its own, and the representatives stay what they were. *)
Theorem c105_finds n ops u tasks schedule :
  Forall (op_in_range n) ops -> uf_run (uf_make n) ops = Ok u ->
  finds_only n tasks -> Forall (fun t => t < length tasks) schedule ->
  exists calls v, interleave schedule (map enter tasks) u = Ok (calls, v) /\
    (forall x, x < n -> rep v x = rep u x) /\ ranks v = ranks u /\
    forall t x, nth_error tasks t = Some (OFind x) ->
      (forall r, returned calls t r -> rep u x = Some r) /\
      (4 * Nat.log2 n + 2 <= turns schedule t -> exists r, returned calls t r).
Proof.
  intros Hops Hrun Hf Hs. pose proof (reached n ops u Hops Hrun) as U. destruct tasks as [|o tasks0] eqn:Etasks.
  { destruct schedule as [|t s]; [|inversion Hs as [|? ? Ht _]; cbn in Ht; lia].
    exists [], u. split; [reflexivity|]. split; [auto|]. split; [auto|]. intros [|t] x E; discriminate E. }
  rewrite <- Etasks in *. assert (Ho : exists i, i < n).
  { rewrite Etasks in Hf. inversion Hf as [|? ? (x & _ & Hx) _]. eauto. }
  clear tasks0 o Etasks. destruct Ho as (i & Hi). destruct (merge_shaped n u i i U Hi Hi) as (u' & w & l & _ & U' & Hm).
  assert (Hnone : forall t x y, nth_error tasks t <> Some (OMerge x y)).
  { intros t x y E. unfold finds_only in Hf. rewrite Forall_forall in Hf. destruct (Hf _ (nth_error_In _ _ E)) as (z & Ez & _). discriminate Ez. }
  assert (Ht : Forall (task_in n i i) tasks).
  { eapply Forall_impl; [|exact Hf]. intros o (x & -> & Hx). exact Hx. }
  assert (Hone : forall s t x y x' y', nth_error tasks s = Some (OMerge x y) -> nth_error tasks t = Some (OMerge x' y') -> s = t).
  { intros s t x y x' y' E. exfalso. exact (Hnone s x y E). }
  pose proof (top_start n u u' i i w l U Hi Hi Hm tasks Ht) as Hg.
  destruct (top_run n u u' i i w l U U' Hi Hi Hm tasks Ht Hone schedule false (map enter tasks) u Hs Hg) as (calls & v & late & E & Hg' & _ & Hle & _).
  exists calls, v. split; [exact E|]. destruct (top_none n u u' i i w l tasks late calls v Hg' Hnone) as (Er & ->). split.
  { intros x Hx. exact (top_rep n u u' i i w l U U' Hi Hi Hm tasks false calls v x Hg' Hx). }
  split; [exact Er|]. intros t x Et. split.
  - intros r Hr. destruct (top_find n u u' i i w l U U' tasks Ht false calls v t x r Hg' Et Hr) as [H|(H & _)]; [exact H|discriminate H].
  - intros Hturn. apply (top_done n u u' i i w l Hi Hi tasks false calls v t (OFind x) Hg' Et). intros c Ec.
    specialize (Hle t (enter (OFind x)) c ltac:(rewrite nth_error_map, Et; reflexivity) Ec).
    pose proof (top_left n u' i i Hi Hi (OFind x)). unfold turns in Hturn. cbn beta iota in *. lia.
Qed.

(** Finds while one thread merges: every find comes back with the representative before the merge or with the one after it, the merge
    comes back with what it returns when nothing else runs, the representatives are at all times those before or those after, and once
    the merge is back those after, with the ranks it leaves when nothing else runs. *)
Theorem c105_one_merge n ops u tasks k i j u' w schedule :
  Forall (op_in_range n) ops -> uf_run (uf_make n) ops = Ok u ->
  one_merge n tasks k i j -> uf_merge u i j = Ok (u', w) -> Forall (fun t => t < length tasks) schedule ->
  exists calls v, interleave schedule (map enter tasks) u = Ok (calls, v) /\
    ((forall x, x < n -> rep v x = rep u x) \/ (forall x, x < n -> rep v x = rep u' x)) /\
    (forall t x, nth_error tasks t = Some (OFind x) ->
      (forall r, returned calls t r -> rep u x = Some r \/ rep u' x = Some r) /\
      (4 * Nat.log2 n + 2 <= turns schedule t -> exists r, returned calls t r)) /\
    (forall r, returned calls k r -> r = w /\ ranks v = ranks u' /\ forall x, x < n -> rep v x = rep u' x) /\
    (8 * Nat.log2 n + 11 <= turns schedule k -> exists r, returned calls k r).
Proof.
  intros Hops Hrun (Hk & Hi & Hj & Hothers) Em Hs. pose proof (reached n ops u Hops Hrun) as U.
  destruct (merge_shaped n u i j U Hi Hj) as (u1 & w1 & l & E1 & U' & Hm). rewrite E1 in Em. injection Em as -> ->.
  assert (Ht : Forall (task_in n i j) tasks).
  { apply Forall_forall. intros o Hin. destruct (In_nth_error _ _ Hin) as (t & Et). destruct (Nat.eq_dec t k) as [->|Hne].
    - rewrite Hk in Et. injection Et as <-. cbn [task_in]. auto.
    - destruct (Hothers t o Et Hne) as (x & -> & Hx). exact Hx. }
  assert (Hone : forall s t x y x' y', nth_error tasks s = Some (OMerge x y) -> nth_error tasks t = Some (OMerge x' y') -> s = t).
  { assert (G : forall s x y, nth_error tasks s = Some (OMerge x y) -> s = k).
    { intros s x y E. destruct (Nat.eq_dec s k) as [|Hne]; auto. destruct (Hothers s _ E Hne) as (z & Ez & _). discriminate Ez. }
    intros s t x y x' y' Es Et. rewrite (G s x y Es), (G t x' y' Et). reflexivity. }
  pose proof (top_start n u u' i j w l U Hi Hj Hm tasks Ht) as Hg.
  destruct (top_run n u u' i j w l U U' Hi Hj Hm tasks Ht Hone schedule false (map enter tasks) u Hs Hg) as (calls & v & late & E & Hg' & _ & Hle & _).
  assert (Hrep : forall x, x < n -> rep v x = rep (if late then u' else u) x).
  { intros x Hx. exact (top_rep n u u' i j w l U U' Hi Hj Hm tasks late calls v x Hg' Hx). }
  assert (Hturns : forall t o, nth_error tasks t = Some o ->
    match o with OFind _ => 4 * Nat.log2 n + 2 | OMerge _ _ => 8 * Nat.log2 n + 11 end <= turns schedule t -> exists r, returned calls t r).
  { intros t o Et Hturn. apply (top_done n u u' i j w l Hi Hj tasks late calls v t o Hg' Et). intros c Ec.
    specialize (Hle t (enter o) c ltac:(rewrite nth_error_map, Et; reflexivity) Ec). pose proof (top_left n u' i j Hi Hj o). unfold turns in Hturn. lia. }
  exists calls, v. split; [exact E|]. split; [destruct late; auto|]. split; [|split].
  - intros t x Et. split; [|exact (Hturns t _ Et)]. intros r Hr.
    destruct (top_find n u u' i j w l U U' tasks Ht late calls v t x r Hg' Et Hr) as [H|(_ & H)]; auto.
  - intros r Hr. destruct (top_merge n u u' i j w l tasks late calls v k r Hg' Hk Hr) as (-> & Er & ->). auto.
  - exact (Hturns k _ Hk).
Qed.

(** The calls take effect in an order that respects time: a find that is back before the merge has begun answers as before the merge; a
    find that begins when the merge is back, or when some find has given an answer that was not right before the merge, answers as after. *)
Theorem c105_order n ops u tasks k i j u' w earlier later :
  Forall (op_in_range n) ops -> uf_run (uf_make n) ops = Ok u ->
  one_merge n tasks k i j -> uf_merge u i j = Ok (u', w) -> Forall (fun t => t < length tasks) (earlier ++ later) ->
  exists calls v calls' v', interleave earlier (map enter tasks) u = Ok (calls, v) /\ interleave later calls v = Ok (calls', v') /\
    (~ In k earlier -> forall t x r, nth_error tasks t = Some (OFind x) -> returned calls t r -> rep u x = Some r) /\
    ((exists r, returned calls k r) \/
     (exists t x r, nth_error tasks t = Some (OFind x) /\ returned calls t r /\ rep u x <> Some r) ->
     forall t x r, nth_error tasks t = Some (OFind x) -> ~ In t earlier -> returned calls' t r -> rep u' x = Some r).
Proof.
  intros Hops Hrun (Hk & Hi & Hj & Hothers) Em Hs. apply Forall_app in Hs as (Hs1 & Hs2). pose proof (reached n ops u Hops Hrun) as U.
  destruct (merge_shaped n u i j U Hi Hj) as (u1 & w1 & l & E1 & U' & Hm). rewrite E1 in Em. injection Em as -> ->.
  assert (Ht : Forall (task_in n i j) tasks).
  { apply Forall_forall. intros o Hin. destruct (In_nth_error _ _ Hin) as (t & Et). destruct (Nat.eq_dec t k) as [->|Hne].
    - rewrite Hk in Et. injection Et as <-. cbn [task_in]. auto.
    - destruct (Hothers t o Et Hne) as (x & -> & Hx). exact Hx. }
  assert (Hone : forall s t x y x' y', nth_error tasks s = Some (OMerge x y) -> nth_error tasks t = Some (OMerge x' y') -> s = t).
  { assert (G : forall s x y, nth_error tasks s = Some (OMerge x y) -> s = k).
    { intros s x y E. destruct (Nat.eq_dec s k) as [|Hne]; auto. destruct (Hothers s _ E Hne) as (z & Ez & _). discriminate Ez. }
    intros s t x y x' y' Es Et. rewrite (G s x y Es), (G t x' y' Et). reflexivity. }
  pose proof (top_start n u u' i j w l U Hi Hj Hm tasks Ht) as Hg.
  destruct (top_run n u u' i j w l U U' Hi Hj Hm tasks Ht Hone earlier false (map enter tasks) u Hs1 Hg) as (calls & v & late & E & Hg' & _ & _ & Hsame).
  destruct (top_run n u u' i j w l U U' Hi Hj Hm tasks Ht Hone later late calls v Hs2 Hg') as (calls' & v' & late' & E' & Hg2 & _).
  exists calls, v, calls', v'. split; [exact E|]. split; [exact E'|]. split.
  - intros Hin t x r Et Hr. assert (Ek : nth_error calls k = Some (enter (OMerge i j))) by (rewrite Hsame, nth_error_map, Hk; auto).
    destruct (top_early n u u' i j w l tasks late calls v k Hg' Hk Ek) as (-> & _).
    destruct (top_find n u u' i j w l U U' tasks Ht false calls v t x r Hg' Et Hr) as [H|(H & _)]; [exact H|discriminate H].
  - intros Hdone t x r Et Hin Hr. assert (Hlate : late = true).
    { destruct Hdone as [(r0 & Hr0)|(t0 & x0 & r0 & Et0 & Hr0 & Hne)].
      - apply (top_merge n u u' i j w l tasks late calls v k r0 Hg' Hk Hr0).
      - destruct (top_find n u u' i j w l U U' tasks Ht late calls v t0 x0 r0 Hg' Et0 Hr0) as [H|(H & _)]; [contradiction|exact H]. }
    subst late. refine (top_recent n u u' i j w l U U' Hi Hj Hm tasks Ht Hone t x later calls v calls' v' Et Hs2 Hg' _ E' r Hr).
    rewrite Hsame, nth_error_map, Et; auto.
Qed.

(** Four elements in one class, a chain of two links and a single one: 3 below 2, 2 below 0, 1 below 0. *)
Definition chain_ops : list uf_op := [OMerge 0 1; OMerge 2 3; OMerge 0 2; OMerge 4 5].
Definition chain_uf : uf := mk_uf [0; 0; 0; 2; 4; 4] [2; 0; 1; 0; 1; 0].
Lemma chain_run : uf_run (uf_make 6) chain_ops = Ok chain_uf.
Proof. vm_compute. reflexivity. Qed.
Lemma chain_in_range : Forall (op_in_range 6) chain_ops.
Proof. repeat constructor. Qed.
Ltac all_lt := repeat (apply Forall_cons; [cbn; lia|]); apply Forall_nil.

Example c105_alone_case :
  uf_find chain_uf 3 = Ok (mk_uf [0; 0; 0; 0; 4; 4] [2; 0; 1; 0; 1; 0], 0) /\
  interleave (repeat 0 10) [enter (OFind 3)] chain_uf = Ok ([Return 0], mk_uf [0; 0; 0; 0; 4; 4] [2; 0; 1; 0; 1; 0]).
Proof. split; vm_compute; reflexivity. Qed.

(** Two finds of 3 at once: the second reads 3's parent after the first has rewritten it; both answer 0. *)
Example c105_finds_case :
  Forall (op_in_range 6) chain_ops /\ uf_run (uf_make 6) chain_ops = Ok chain_uf /\
  finds_only 6 [OFind 3; OFind 3; OFind 5] /\
  interleave [0; 1; 0; 0; 0; 1; 2; 1; 1; 1; 0; 0; 1; 0; 1; 0; 1; 0; 0; 1; 1; 2; 2]
    (map enter [OFind 3; OFind 3; OFind 5]) chain_uf
  = Ok ([Return 0; Return 0; Finding (FWrite 5 4 4)], mk_uf [0; 0; 0; 0; 4; 4] [2; 0; 1; 0; 1; 0]) /\
  rep chain_uf 3 = Some 0.
Proof.
  split; [exact chain_in_range|]. split; [exact chain_run|]. split.
  { repeat (apply Forall_cons; [eexists; split; [reflexivity|lia]|]). apply Forall_nil. }
  split; vm_compute; reflexivity.
Qed.

(** A find of 5 during merge(3, 5): it reads 4 as a root before the link, so answers 4, the representative before; a find of 5 begun
    afterwards answers 0. *)
Example c105_one_merge_case :
  one_merge 6 [OFind 5; OMerge 3 5; OFind 5] 1 3 5 /\
  uf_merge chain_uf 3 5 = Ok (mk_uf [0; 0; 0; 0; 0; 4] [2; 0; 1; 0; 1; 0], 0) /\
  interleave ([0; 0; 0; 0; 0] ++ repeat 1 21 ++ repeat 2 10 ++ [0])
    (map enter [OFind 5; OMerge 3 5; OFind 5]) chain_uf
  = Ok ([Return 4; Return 0; Return 0], mk_uf [0; 0; 0; 0; 0; 0] [2; 0; 1; 0; 1; 0]) /\
  rep chain_uf 5 = Some 4.
Proof.
  split.
  { split; [reflexivity|]. split; [lia|]. split; [lia|]. intros [|[|[|t]]] o E Hne; cbn in E;
      [injection E as <-; exists 5; split; [reflexivity|lia]|congruence|injection E as <-; exists 5; split; [reflexivity|lia]|destruct t; discriminate E]. }
  split; [vm_compute; reflexivity|]. split; vm_compute; reflexivity.
Qed.

Example c105_order_case :
  interleave ([0; 0; 0; 0; 0] ++ repeat 1 21) (map enter [OFind 5; OMerge 3 5; OFind 5]) chain_uf
  = Ok ([Finding (FReturn 4); Return 0; Finding (FTest 5)], mk_uf [0; 0; 0; 0; 0; 4] [2; 0; 1; 0; 1; 0]) /\
  ~ In 2 ([0; 0; 0; 0; 0] ++ repeat 1 21) /\
  interleave (repeat 2 10) [Finding (FReturn 4); Return 0; Finding (FTest 5)] (mk_uf [0; 0; 0; 0; 0; 4] [2; 0; 1; 0; 1; 0])
  = Ok ([Finding (FReturn 4); Return 0; Return 0], mk_uf [0; 0; 0; 0; 0; 0] [2; 0; 1; 0; 1; 0]).
Proof.
  split; [vm_compute; reflexivity|]. split; [|vm_compute; reflexivity].
  vm_compute. intros H. repeat (destruct H as [H|H]; [discriminate H|]). exact H.
Qed.

(** "find is const, so threads may call it on one object at once": refuted. Two finds of the same element of a chain reach a state in
    which both are about to access one entry of the parents array and one of them to write it. *)
Theorem c105_find_race_refuted :
  exists n ops u tasks schedule calls v,
    Forall (op_in_range n) ops /\ uf_run (uf_make n) ops = Ok u /\ finds_only n tasks /\
    interleave schedule (map enter tasks) u = Ok (calls, v) /\ data_race calls.
Proof.
  exists 6, chain_ops, chain_uf, [OFind 3; OFind 3], [0; 0; 0], [Finding (FWrite 3 2 0); Finding (FTest 3)], chain_uf.
  split; [exact chain_in_range|]. split; [exact chain_run|]. split.
  { repeat (apply Forall_cons; [eexists; split; [reflexivity|lia]|]). apply Forall_nil. }
  split; [vm_compute; reflexivity|].
  exists 0, 1, (Finding (FWrite 3 2 0)), (Finding (FTest 3)), (Parent 3), true, false.
  split; [lia|]. repeat (split; [reflexivity|]). left; reflexivity.
Qed.

(** "two merges at once join what they are given": refuted. merge(0, 1) and merge(2, 1) both hang 1 below their first argument; both
    come back, and 0 and 1 are not joined. *)
Theorem c105_two_merges_refuted :
  exists n ops u schedule r0 r1 v,
    Forall (op_in_range n) ops /\ uf_run (uf_make n) ops = Ok u /\
    interleave schedule (map enter [OMerge 0 1; OMerge 2 1]) u = Ok ([Return r0; Return r1], v) /\
    rep v 0 <> rep v 1.
Proof.
  exists 3, [], (uf_make 3), (repeat 0 7 ++ repeat 1 7 ++ repeat 0 10 ++ repeat 1 10), 0, 2, (mk_uf [0; 2; 2] [1; 0; 1]).
  split; [constructor|]. split; [reflexivity|]. split; [vm_compute; reflexivity|]. vm_compute. discriminate.
Qed.

Print Assumptions c105_alone.
Print Assumptions c105_finds.
Print Assumptions c105_one_merge.
Print Assumptions c105_order.
Print Assumptions c105_find_race_refuted.
Print Assumptions c105_two_merges_refuted.
