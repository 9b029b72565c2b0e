(** Theorems on convergence of k-means (C91). *)
From Coq Require Import List Arith ZArith QArith Qcanon Qcabs Lia Bool.
From Verif Require Import Base BufferSpec KMeansModel KMeansSpec KMeansProofs KMeansCases KMeansProps KMeansInertia KMeansConverge HamerlyConverge.
Import ListNotations.
Local Open Scope Qc_scope.

Lemma made_centroids a samples nf c l : make_lloyd a samples nf c = Ok l -> ll_centroids _ l = c.
Proof. unfold make_lloyd. intros E. do 2 (apply bind_ok in E; destruct E as (? & _ & E)). injection E as <-. reflexivity. Qed.

(** In exact arithmetic Lloyd's algorithm is at rest after at most [k ^ n + 1] steps. *)
Theorem c91_lloyd_converges (d : list Qc -> list Qc -> Qc) (samples centroids : list Qc) nf n k :
  nf <> 0%nat -> euclidean_order nf d -> length samples = (n * nf)%nat -> length centroids = (k * nf)%nat -> (0 < k)%nat ->
  exists run T, make_lloyd (rational d) samples nf centroids = Ok (run 0%nat) /\
    (forall t, lloyd_step (rational d) samples nf (run t) = Ok (run (S t))) /\
    (T <= k ^ n + 1)%nat /\ (forall t, (T <= t)%nat -> run t = run T) /\
    nearest_assignment (rational d) samples nf n k (ll_centroids _ (run T)) (ll_indices _ (run T)) /\
    centroids_after (rational d) samples nf k (ll_indices _ (run T)) (fun _ => repeat 0 nf) (ll_centroids _ (run T)).
Proof.
  intros Hnf Hd Hs Hc Hk. pose proof (rational_ok d) as Ha.
  destruct (make_lloyd_ok (rational d) Ha samples nf n k Hnf Hs centroids Hk Hc) as (l0 & E0 & Hc0 & Hi0).
  set (next := fun l => match lloyd_step (rational d) samples nf l with Ok l' => l' | _ => l end).
  set (run := fun t => Nat.iter t next l0).
  assert (Hinv : forall t, lloyd_inv (rational d) samples nf n k (run t)).
  { induction t; [exact Hi0|]. change (run (S t)) with (next (run t)). unfold next.
    destruct (lloyd_step_ok (rational d) Ha samples nf n k Hnf Hs (run t) Hk IHt) as (l' & -> & H & _). auto. }
  assert (Hstep : forall t, lloyd_step (rational d) samples nf (run t) = Ok (run (S t)) /\
    centroids_after (rational d) samples nf k (ll_indices _ (run t)) (fun _ => repeat 0 nf) (ll_centroids _ (run (S t)))).
  { intros t. destruct (lloyd_step_ok (rational d) Ha samples nf n k Hnf Hs (run t) Hk (Hinv t)) as (l' & E & _ & H).
    assert (Er : run (S t) = l') by (change (run (S t)) with (next (run t)); unfold next; now rewrite E). rewrite Er. auto. }
  set (a := fun t => ll_indices _ (run t)). set (c := fun t => ll_centroids _ (run t)).
  assert (Hal : forall t, length (a t) = n) by (intros t; apply (Hinv t)).
  assert (Hak : forall t x, In x (a t) -> (x < k)%nat).
  { intros t. apply (assignment_in (rational d) samples nf n k Hnf Hs (c t)). apply first_nearest_is_nearest. apply (Hinv t). }
  assert (Hdet : forall s t, a s = a t -> run (S s) = run (S t)).
  { intros s t E. destruct (Hstep s) as (E1 & C1), (Hstep t) as (E2 & C2). unfold a in E. rewrite E in C1. pose proof (after_unique _ _ _ _ _ _ _ _ Hnf C1 C2) as Ec.
    assert (F : forall u, make_lloyd (rational d) samples nf (ll_centroids _ (run (S u))) = Ok (run (S u))).
    { intros u. destruct (Hstep u) as (Eu & _). unfold lloyd_step in Eu. do 3 (apply bind_ok in Eu; destruct Eu as (? & _ & Eu)).
      apply bind_ok in Eu. destruct Eu as (cc & _ & Eu). now rewrite (made_centroids _ _ _ _ _ Eu). }
    pose proof (F s) as Fs. rewrite Ec, F in Fs. injection Fs as Fs. auto. }
  set (I := fun t => inertia samples nf (c t) (a t)).
  assert (Hdown : forall t, I (S t) <= I t /\ (I t <= I (S t) -> (list_sum (a (S t)) <= list_sum (a t))%nat /\ ((list_sum (a t) <= list_sum (a (S t)))%nat -> a t = a (S t)))).
  { intros t. destruct (ties_go_down d samples nf n k Hnf Hd Hs Hk (c t) (c (S t)) (a t) (a (S t)) (fun _ => repeat 0 nf)) as (D1 & D2); [|apply Hal|apply Hak| | |].
    - destruct (Hinv t) as (H & _). exact H.
    - destruct (Hstep t) as (_ & H). exact H.
    - destruct (Hinv (S t)) as (_ & H & _). exact H.
    - split; auto. intros H. apply total_down; [now rewrite !Hal|]. rewrite Hal. auto. }
  destruct (repeats n k a Hal Hak) as (s & t & Hst & E).
  assert (Ht : exists g, t = (s + S g)%nat) by (exists (t - s - 1)%nat; lia). destruct Ht as (g & ->).
  pose proof (Hdet _ _ E) as Er.
  assert (HI : forall u, I (S s + u)%nat <= I (S s)).
  { induction u; [rewrite Nat.add_0_r; apply Qcle_refl|]. apply Qcle_trans with (I (S s + u)%nat); auto. rewrite Nat.add_succ_r. apply Hdown. }
  assert (HI' : forall u v, I (S s + v + u)%nat <= I (S s + v)%nat).
  { induction u; intros v; [rewrite Nat.add_0_r; apply Qcle_refl|]. apply Qcle_trans with (I (S s + v + u)%nat); auto. rewrite Nat.add_succ_r. apply Hdown. }
  assert (Hend : I (S s) = I (S s + S g)%nat) by (unfold I, c, a; replace (S s + S g)%nat with (S (s + S g)) by lia; now rewrite <- Er).
  assert (Hcst : forall u, (u <= g)%nat -> I (S s + u)%nat <= I (S (S s + u))).
  { intros u Hu. apply Qcle_trans with (I (S s)); [apply HI|]. rewrite Hend. replace (S s + S g)%nat with (S s + S u + (g - u))%nat by lia.
    replace (S (S s + u)) with (S s + S u)%nat by lia. apply HI'. }
  assert (Hsum : forall u v, (u + v <= S g)%nat -> (list_sum (a (S s + v + u)) <= list_sum (a (S s + v)))%nat).
  { induction u; intros v Hu; [now rewrite Nat.add_0_r|]. etransitivity; [|apply IHu; lia]. rewrite Nat.add_succ_r. apply Hdown.
    replace (S s + v + u)%nat with (S s + (v + u))%nat by lia. apply Hcst. lia. }
  assert (Hrest : a (S s) = a (S (S s))).
  { apply (proj2 (Hdown (S s))). { pose proof (Hcst 0%nat ltac:(lia)) as H. rewrite Nat.add_0_r in H. auto. }
    replace (list_sum (a (S s))) with (list_sum (a (S s + 1 + g)%nat)).
    - replace (S (S s)) with (S s + 1)%nat by lia. apply Hsum. lia.
    - f_equal. unfold a. replace (S s + 1 + g)%nat with (S (s + S g)) by lia. now rewrite <- Er. }
  exists run, (S (S s)).
  assert (Hfix : run (S (S (S s))) = run (S (S s))) by (symmetry; now apply Hdet).
  split; [exact E0|]. split; [intros u; apply Hstep|]. split; [lia|]. split; [|split].
  - intros u Hu. replace u with (S (S s) + (u - S (S s)))%nat by lia. generalize (u - S (S s))%nat. induction n0 as [|m IH]; [now rewrite Nat.add_0_r|].
    rewrite Nat.add_succ_r. destruct (Hstep (S (S s) + m)%nat) as (E1 & _). rewrite IH in E1. destruct (Hstep (S (S s))) as (E2 & _). rewrite E2 in E1.
    assert (G : forall x y : lloyd (rational d), Ok x = Ok y -> x = y) by (intros x y H; now injection H).
    apply G in E1. now rewrite <- E1.
  - apply first_nearest_is_nearest. apply (Hinv (S (S s))).
  - destruct (Hstep (S (S s))) as (_ & C). rewrite Hfix in C. exact C.
Qed.

(** Four samples, two centroids: at rest after three steps. *)
Example c91_lloyd_case :
  euclidean_order 1 l1 /\
  (l <- make_lloyd line (qs [0; 2; 3; 10]%Z) 1 (qs [0; 1]%Z) ;;
   l1 <- lloyd_step line (qs [0; 2; 3; 10]%Z) 1 l ;;
   l2 <- lloyd_step line (qs [0; 2; 3; 10]%Z) 1 l1 ;;
   l3 <- lloyd_step line (qs [0; 2; 3; 10]%Z) 1 l2 ;;
   l4 <- lloyd_step line (qs [0; 2; 3; 10]%Z) 1 l3 ;;
   Ok (map (fun x => map this (ll_centroids line x)) [l; l1; l2; l3; l4]))
  = Ok [[0; 1]; [0; 5]; [1; 13 # 2]; [5 # 3; 10]; [5 # 3; 10]]%Q.
Proof. split; [exact line_euclidean|]. vm_compute. reflexivity. Qed.

Lemma Forall2_in_r {A B} (R : A -> B -> Prop) l l' y : Forall2 R l l' -> In y l' -> exists x, In x l /\ R x y.
Proof. induction 1; intros []; [subst; eexists; split; [left; reflexivity|auto]|]. destruct IHForall2 as (z & G1 & G2); auto. exists z. split; [right; auto|auto]. Qed.

(** A centroid list from which Lloyd's algorithm does not move. *)
Definition at_rest (a : arith) (samples : list (num a)) (nf : nat) (c : list (num a)) : Prop :=
  exists l, make_lloyd a samples nf c = Ok l /\ ll_centroids a l = c /\ lloyd_step a samples nf l = Ok l.

Lemma candidate_at_rest d samples nf n k o close cand r : nf <> 0%nat -> euclidean_order nf d -> length samples = (n * nf)%nat -> (0 < k)%nat ->
  length cand = (k * nf)%nat -> (forall x y, close x y = true -> x = y) -> (k ^ n + 1 <= max_iter o)%nat ->
  candidate_result (rational d) (lloyd_algorithm (rational d) samples nf) o close cand r -> at_rest (rational d) samples nf (fst r) /\ length (fst r) = (k * nf)%nat.
Proof.
  intros Hnf Hd Hs Hk Hl Hex Hit (st & t & H0 & Hst & (Ht1 & Ht2 & _) & Hc & _). cbn [alg_make alg_step alg_centroids lloyd_algorithm] in *.
  destruct (c91_lloyd_converges d samples cand nf n k Hnf Hd Hs Hl Hk) as (run & T & E0 & Hrun & HT & Hrest & _).
  assert (Hsame : forall i, st i = run i) by (apply (run_unique (lloyd_step (rational d) samples nf)); [congruence|auto|auto]).
  destruct (c44_lloyd_steps (rational d) (rational_ok d) samples cand nf n k Hnf Hs Hl Hk) as (run' & E0' & _ & Hrun').
  assert (Hsame' : forall i, st i = run' i) by (apply (run_unique (lloyd_step (rational d) samples nf)); [congruence|auto|intros; apply Hrun']).
  assert (F : forall u, make_lloyd (rational d) samples nf (ll_centroids _ (st u)) = Ok (st u)).
  { intros [|u]; [rewrite (made_centroids _ _ _ _ _ H0); exact H0|]. pose proof (Hst u) as Eu. unfold lloyd_step in Eu. do 3 (apply bind_ok in Eu; destruct Eu as (? & _ & Eu)).
    apply bind_ok in Eu. destruct Eu as (cc & _ & Eu). now rewrite (made_centroids _ _ _ _ _ Eu). }
  split; [|rewrite Hc, Hsame'; apply Hrun'].
  exists (st t). rewrite Hc. split; [apply F|]. split; [reflexivity|].
  destruct Ht2 as [->|(_ & Hset)].
  - rewrite Hst. f_equal. rewrite !Hsame, (Hrest (S (max_iter o))), (Hrest (max_iter o)) by lia. reflexivity.
  - destruct (Hset 0%nat) as (H2 & H3); [lia|]. apply same_eq in H3; auto. rewrite Nat.sub_0_r in H3.
    assert (Eq : st t = st (t - 1)%nat). { pose proof (F t) as F1. rewrite H3, F in F1. now injection F1. }
    rewrite Eq at 1. rewrite Hst. do 2 f_equal. lia.
Qed.

Lemma rest_stays a samples nf c o close r : at_rest a samples nf c ->
  candidate_result a (lloyd_algorithm a samples nf) o close c r -> fst r = c.
Proof.
  intros (l & E & Ec & Es) (st & t & H0 & Hst & _ & Hc & _). cbn [alg_make alg_step alg_centroids lloyd_algorithm] in *.
  assert (G : forall i, st i = l). { induction i; [congruence|]. pose proof (Hst i) as H. rewrite IHi, Es in H. now injection H. }
  now rewrite Hc, G.
Qed.

(** Given enough iterations, [fit] returns centroids where every sample is nearest to its centroid and every centroid is the mean
    of its samples, and fitting again with any options returns the same ones. *)
Theorem c91_fit_again d samples nf n k o close centroids initializer :
  nf <> 0%nat -> euclidean_order nf d -> length samples = (n * nf)%nat -> (0 < k)%nat ->
  candidates_of (rational d) o centroids initializer <> [] ->
  (forall c, In c (candidates_of (rational d) o centroids initializer) -> length c = (k * nf)%nat) ->
  (forall x y, close x y = true -> x = y) -> (k ^ n + 1 <= max_iter o)%nat ->
  exists c asg, fit (rational d) (lloyd_algorithm (rational d) samples nf) o close centroids initializer = Ok c /\
    nearest_assignment (rational d) samples nf n k c asg /\ centroids_after (rational d) samples nf k asg (fun _ => repeat 0 nf) c /\
    forall o' close' initializer', fit (rational d) (lloyd_algorithm (rational d) samples nf) o' close' c initializer' = Ok c.
Proof.
  intros Hnf Hd Hs Hk Hne Hlen Hex Hit.
  destruct (c61_fit_lloyd (rational d) (rational_ok d) samples nf n k o close centroids initializer Hnf Hs Hk Hne Hlen)
    as (results & i & c & loss & E & F2 & Hi & _).
  assert (R : exists cand, length cand = (k * nf)%nat /\ candidate_result (rational d) (lloyd_algorithm (rational d) samples nf) o close cand (c, loss)).
  { apply nth_error_In in Hi. destruct (Forall2_in_r _ _ _ _ F2 Hi) as (cand & Hin & Hr). exists cand. auto. }
  destruct R as (cand & Hl & Hr).
  destruct (candidate_at_rest d samples nf n k o close cand (c, loss) Hnf Hd Hs Hk Hl Hex Hit Hr) as (Hrest & Hcl). cbn [fst] in *.
  destruct (c44_lloyd_steps (rational d) (rational_ok d) samples c nf n k Hnf Hs Hcl Hk) as (run & E0 & Ec & Hrun).
  exists c, (ll_indices _ (run 0%nat)). split; [exact E|].
  pose proof Hrest as (l & El & Ecl & Esl). rewrite E0 in El. injection El as El.
  destruct (Hrun 0%nat) as (Es & _ & Hn & _ & Hca). rewrite Ec in Hn. rewrite El, Esl in Es. injection Es as Es.
  split; [exact Hn|]. split; [rewrite <- Es in Hca; now rewrite Ecl in Hca|].
  intros o' close' init'.
  assert (Hcn : c <> []) by (intros ->; cbn [length] in Hcl; nia).
  destruct (c61_fit_lloyd (rational d) (rational_ok d) samples nf n k o' close' c init' Hnf Hs Hk) as (res' & j & c' & loss' & E' & F2' & Hj & _).
  - unfold candidates_of. destruct c; [congruence|discriminate].
  - unfold candidates_of. destruct c; [congruence|]. intros x [<-|[]]. exact Hcl.
  - rewrite E'. f_equal. unfold candidates_of in F2'. destruct c as [|x0 c0]; [congruence|].
    inversion F2' as [|? ? ? ? F21 F22]; subst. inversion F22; subst. destruct j; [|destruct j; discriminate]. injection Hj as ->.
    apply (rest_stays _ _ _ _ _ _ _ Hrest) in F21. exact F21.
Qed.

(** Fitting twice with Lloyd's algorithm; seventeen iterations are enough for four samples and two clusters. *)
Example c91_fit_again_case :
  let fit_line c o := fit line (lloyd_algorithm line (qs [0; 2; 3; 10]%Z) 1) o qc_eq c (fun _ => []) in
  (2 ^ 4 + 1 <= max_iter default_options)%nat /\
  (c <- fit_line (qs [0; 1]%Z) default_options ;; c' <- fit_line c (mk_options 1 false 0 1) ;; Ok (map this c, map this c'))
  = Ok ([5 # 3; 10], [5 # 3; 10])%Q.
Proof. split; [cbn; lia|]. vm_compute. reflexivity. Qed.

(** In exact arithmetic Hamerly's algorithm stops moving its centroids and its assignment after at most [k ^ n] steps, with or
    without ties and whatever the state of its bounds; the centroids are then the means of their samples. *)
Theorem c91_hamerly_converges (d : list Qc -> list Qc -> Qc) (samples centroids : list Qc) nf n k :
  nf <> 0%nat -> euclidean_order nf d -> (forall p, d p p = 0) -> length samples = (n * nf)%nat -> length centroids = (k * nf)%nat -> (0 < k)%nat ->
  exists run T, make_hamerly (rational d) samples nf centroids = Ok (run 0%nat) /\
    (forall t, hamerly_step (rational d) samples nf (run t) = Ok (run (S t))) /\
    (T <= k ^ n)%nat /\
    (forall t, (T <= t)%nat -> h_centroids _ (run t) = h_centroids _ (run T) /\ h_indices _ (run t) = h_indices _ (run T)) /\
    exists empty, centroids_after (rational d) samples nf k (h_indices _ (run T)) empty (h_centroids _ (run T)).
Proof.
  intros Hnf Hd Hself Hs Hc Hk. pose proof (rational_ok d) as Ha.
  destruct (make_shape (rational d) Ha samples nf n k Hnf Hs Hk centroids Hc) as (h0 & E0 & S0 & _).
  set (next := fun h => match hamerly_step (rational d) samples nf h with Ok h' => h' | _ => h end).
  set (run := fun t => Nat.iter t next h0).
  assert (Hinv : forall t, shape (rational d) samples nf n k (run t)).
  { induction t; [exact S0|]. change (run (S t)) with (next (run t)). unfold next.
    destruct (hamerly_steps d samples nf n k Hnf Hself Hs Hk (run t) IHt) as (h' & -> & H & _). auto. }
  assert (Hstep : forall t, hamerly_step (rational d) samples nf (run t) = Ok (run (S t)) /\
    (forall i, (i < n)%nat -> closer (rational d) samples nf (run t) (run (S t)) i) /\
    centroids_after (rational d) samples nf k (h_indices _ (run (S t))) (row (h_centroids _ (run t)) nf) (h_centroids _ (run (S t))) /\
    ((forall i, (i < n)%nat -> calm (rational d) samples nf k (run t) i) -> h_indices _ (run (S t)) = h_indices _ (run t)) /\
    (h_centroids _ (run (S t)) = h_centroids _ (run t) -> forall i, (i < n)%nat -> calm (rational d) samples nf k (run (S t)) i)).
  { intros t. destruct (hamerly_steps d samples nf n k Hnf Hself Hs Hk (run t) (Hinv t)) as (h' & E & _ & H).
    assert (Er : run (S t) = h') by (change (run (S t)) with (next (run t)); unfold next; now rewrite E). rewrite Er. auto. }
  set (a := fun t => h_indices _ (run t)). set (c := fun t => h_centroids _ (run t)).
  assert (Hal : forall t, length (a t) = n) by (intros t; apply (shape_indices d samples nf n k Hnf Hs Hk (run t) (Hinv t))).
  assert (Hak : forall t x, In x (a t) -> (x < k)%nat) by (intros t; apply (shape_indices d samples nf n k Hnf Hs Hk (run t) (Hinv t))).
  set (I := fun t => inertia samples nf (c t) (a t)).
  assert (Hdown : forall t, I (S t) <= I t /\ (I t <= I (S t) -> a (S t) = a t)).
  { intros t. destruct (Hstep t) as (_ & H1 & H2 & _). apply (hamerly_down d samples nf n k Hnf Hd Hs Hk (run t) (run (S t))); auto. }
  assert (HI : forall u v, I (v + u)%nat <= I v).
  { induction u; intros v; [rewrite Nat.add_0_r; apply Qcle_refl|]. apply Qcle_trans with (I (v + u)%nat); auto. rewrite Nat.add_succ_r. apply Hdown. }
  assert (Hmean : forall s t, a (S s) = a (S t) -> (forall j, (j < k)%nat -> members (a (S s)) j <> [] -> row (c (S s)) nf j = row (c (S t)) nf j) /\ I (S s) = I (S t)).
  { intros s t E. destruct (Hstep s) as (_ & _ & C1 & _), (Hstep t) as (_ & _ & C2 & _). fold (a (S s)) (c (S s)) in C1. fold (a (S t)) (c (S t)) in C2. rewrite <- E in C2.
    unfold I. rewrite <- E. apply (same_means d samples nf n k Hnf Hs Hk (a (S s)) _ _ (c (S s)) (c (S t)) (Hal (S s)) (Hak (S s)) C1 C2). }
  assert (Hcent : forall u, a (S (S u)) = a (S u) -> c (S (S u)) = c (S u)).
  { intros u E. destruct (Hmean (S u) u E) as (R & _). destruct (Hstep (S u)) as (_ & _ & (L & C) & _).
    apply (rows_ext (c (S (S u))) (c (S u)) nf k Hnf); [exact L|apply (Hinv (S u))|]. intros j Hj.
    destruct (C j Hj) as (_ & C2). destruct (members (a (S (S u))) j) as [|x ms] eqn:Em; [apply C2; exact Em|]. apply R; auto. rewrite Em. discriminate. }
  destruct (repeats n k (fun t => a (S t)) (fun t => Hal (S t)) (fun t => Hak (S t))) as (s & t & Hst & E).
  assert (E1 : a (S (S s)) = a (S s)).
  { apply Hdown. rewrite (proj2 (Hmean s t E)). replace (S t) with (S (S s) + (t - S s))%nat by lia. apply HI. }
  assert (Hall : forall u, a (S (S s + u)) = a (S s + u)%nat /\ c (S (S s + u)) = c (S s + u)%nat /\
    forall i, (i < n)%nat -> calm (rational d) samples nf k (run (S (S s + u))) i).
  { induction u as [|u (I1 & I2 & I3)].
    - rewrite Nat.add_0_r. pose proof (Hcent s E1) as Ec. split; [exact E1|]. split; [exact Ec|].
      destruct (Hstep (S s)) as (_ & _ & _ & _ & H). apply H. exact Ec.
    - rewrite Nat.add_succ_r. destruct (Hstep (S (S s + u))) as (_ & _ & _ & H1 & H2).
      pose proof (H1 I3) as F1. pose proof (Hcent (S s + u)%nat F1) as F2. split; [exact F1|]. split; [exact F2|]. apply H2. exact F2. }
  assert (Hrest : forall u, c (S s + u)%nat = c (S s) /\ a (S s + u)%nat = a (S s)).
  { induction u as [|u (I1 & I2)]; [rewrite Nat.add_0_r; auto|]. rewrite Nat.add_succ_r. destruct (Hall u) as (F1 & F2 & _). split; congruence. }
  exists run, (S s). split; [exact E0|]. split; [intros u; apply Hstep|]. split; [lia|]. split.
  - intros u Hu. replace u with (S s + (u - S s))%nat by lia. apply Hrest.
  - exists (row (h_centroids _ (run s)) nf). apply Hstep.
Qed.

(** The same four samples: the indices and centroids of Hamerly's algorithm rest after the third step. *)
Example c91_hamerly_case :
  euclidean_order 1 l1 /\ (forall p, l1 p p = 0) /\
  (h <- make_hamerly line (qs [0; 2; 3; 10]%Z) 1 (qs [0; 1]%Z) ;;
   h1 <- hamerly_step line (qs [0; 2; 3; 10]%Z) 1 h ;;
   h2 <- hamerly_step line (qs [0; 2; 3; 10]%Z) 1 h1 ;;
   h3 <- hamerly_step line (qs [0; 2; 3; 10]%Z) 1 h2 ;;
   h4 <- hamerly_step line (qs [0; 2; 3; 10]%Z) 1 h3 ;;
   Ok (map (fun x => (h_indices line x, map this (h_centroids line x))) [h; h1; h2; h3; h4]))
  = Ok [([0; 1; 1; 1]%nat, [0; 1]); ([0; 1; 1; 1]%nat, [0; 5]); ([0; 0; 1; 1]%nat, [1; 13 # 2]); ([0; 0; 0; 1]%nat, [5 # 3; 10]);
        ([0; 0; 0; 1]%nat, [5 # 3; 10])]%Q.
Proof.
  split; [exact line_euclidean|]. split; [|vm_compute; reflexivity].
  induction p as [|x p IH]; [reflexivity|]. change (Qcabs (x - x) + l1 p p = 0). rewrite IH. unfold Qcminus.
  rewrite Qcplus_opp_r, Qcplus_0_r. apply Qc_is_canon; reflexivity.
Qed.


Definition centroids_of (r : res (list Qc)) : list Qc := match r with Ok c => c | _ => [] end.

(** With fewer iterations the second fit moves the centroids. *)
Theorem c91_few_iterations_refuted : exists samples centroids c c',
  fit line (lloyd_algorithm line samples 1) (mk_options 2 true 0 1) qc_eq centroids (fun _ => []) = Ok c /\
  fit line (lloyd_algorithm line samples 1) (mk_options 2 true 0 1) qc_eq c (fun _ => []) = Ok c' /\ c <> c'.
Proof.
  pose (again := fun c => fit line (lloyd_algorithm line (qs [0; 2; 3; 10]%Z) 1) (mk_options 2 true 0 1) qc_eq c (fun _ => [])).
  exists (qs [0; 2; 3; 10]%Z), (qs [0; 1]%Z), (centroids_of (again (qs [0; 1]%Z))), (centroids_of (again (centroids_of (again (qs [0; 1]%Z))))).
  split; [vm_compute; reflexivity|]. split; [vm_compute; reflexivity|]. intros E. apply (f_equal (map this)) in E. vm_compute in E. discriminate.
Qed.

(** Hamerly's algorithm, at rest, can move when fitted again: a new object computes its bounds afresh. Here the sample 3 is as
    near to 2 as to 4 at first, and the bound kept for it is too low. *)
Theorem c91_hamerly_again_refuted : exists samples centroids c c',
  fit line (hamerly_algorithm line samples 1) default_options qc_eq centroids (fun _ => []) = Ok c /\
  (2 ^ length samples <= max_iter default_options)%nat /\
  fit line (hamerly_algorithm line samples 1) default_options qc_eq c (fun _ => []) = Ok c' /\ c <> c'.
Proof.
  pose (again := fun c => fit line (hamerly_algorithm line (qs [0; 4; 3]%Z) 1) default_options qc_eq c (fun _ => [])).
  exists (qs [0; 4; 3]%Z), (qs [2; 4]%Z), (centroids_of (again (qs [2; 4]%Z))), (centroids_of (again (centroids_of (again (qs [2; 4]%Z))))).
  split; [vm_compute; reflexivity|]. split; [cbn; lia|]. split; [vm_compute; reflexivity|].
  intros E. apply (f_equal (map this)) in E. vm_compute in E. discriminate.
Qed.

Print Assumptions c91_lloyd_converges.
Print Assumptions c91_fit_again.
Print Assumptions c91_hamerly_converges.
Print Assumptions c91_few_iterations_refuted.
Print Assumptions c91_hamerly_again_refuted.
