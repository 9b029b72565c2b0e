(** C103: Hamerly's algorithm computes what Lloyd's does. *)
From Coq Require Import List Arith ZArith QArith Qcanon Lia Bool.
From Verif Require Import Base SortingModel BufferModel BufferSpec SearchModel MatrixModel KMeansModel KMeansSpec KMeansProofs KMeansCases
  KMeansProps KMeansConverge FollowSpec.
Import ListNotations.
Local Open Scope nat_scope.

Section Follow.
Context (a : arith) (samples : list (num a)) (nf n k : nat).

Lemma one_assignment centroids asg asg' : decisive a samples nf n k centroids ->
  nearest_assignment a samples nf n k centroids asg -> nearest_assignment a samples nf n k centroids asg' -> asg = asg'.
Proof.
  intros (Hd & _) (L & H) (L' & H'). apply (nth_ext _ _ 0 0); [congruence|]. intros i Hi. rewrite L in Hi.
  destruct (Hd i Hi) as (j & Hj & Hmin). destruct (H i Hi) as (H1 & H2), (H' i Hi) as (H1' & H2').
  transitivity j.
  - destruct (Nat.eq_dec (nth i asg 0) j) as [|Hne]; auto. specialize (Hmin _ H1 Hne). rewrite (H2 j Hj) in Hmin. discriminate.
  - destruct (Nat.eq_dec (nth i asg' 0) j) as [|Hne]; auto. specialize (Hmin _ H1' Hne). rewrite (H2' j Hj) in Hmin. discriminate.
Qed.

Lemma all_used centroids asg c : decisive a samples nf n k centroids -> nearest_assignment a samples nf n k centroids asg -> c < k ->
  members asg c <> [].
Proof.
  intros (Hd & Hu) (L & H) Hc E. destruct (Hu c Hc) as (i & Hi & Hn1 & Hn2). destruct (Hd i Hi) as (j & Hj & Hmin).
  assert (Ec : c = j). { destruct (Nat.eq_dec c j) as [|Hne]; auto. specialize (Hmin _ Hc Hne). rewrite (Hn2 j Hj) in Hmin. discriminate. }
  assert (Ea : nth i asg 0 = j).
  { destruct (H i Hi) as (H1 & H2). destruct (Nat.eq_dec (nth i asg 0) j) as [|Hne]; auto. specialize (Hmin _ H1 Hne).
    rewrite (H2 j Hj) in Hmin. discriminate. }
  assert (Hin : In i (members asg c)); [|rewrite E in Hin; contradiction].
  apply filter_In. split; [apply in_seq; lia|]. apply Nat.eqb_eq. congruence.
Qed.

Lemma one_update asg empty empty' new new' : nf <> 0 -> (forall c, c < k -> members asg c <> []) ->
  centroids_after a samples nf k asg empty new -> centroids_after a samples nf k asg empty' new' -> new = new'.
Proof.
  intros Hnf Hm (L & H) (L' & H'). apply (rows_ext _ _ nf k); auto. intros c Hc.
  destruct (proj1 (H c Hc) (Hm c Hc)) as (M1 & M2). destruct (proj1 (H' c Hc) (Hm c Hc)) as (M1' & M2').
  apply nth_error_ext. intros f. destruct (Nat.lt_ge_cases f nf) as [Hf|Hf].
  - now rewrite M2, M2'.
  - rewrite !(proj2 (nth_error_None _ _)); auto; lia.
Qed.

(** As long as the centroids are decisive both algorithms hold the same centroids, and Hamerly's the labels that Lloyd's had before. *)
Theorem c103_steps centroids : arith_ok a -> metric_laws a -> nf <> 0 -> length samples = n * nf -> length centroids = k * nf -> 0 < k ->
  no_tie a samples nf n k centroids ->
  exists lloyd_run hamerly_run,
    make_lloyd a samples nf centroids = Ok (lloyd_run 0) /\ (forall t, lloyd_step a samples nf (lloyd_run t) = Ok (lloyd_run (S t))) /\
    make_hamerly a samples nf centroids = Ok (hamerly_run 0) /\ (forall t, hamerly_step a samples nf (hamerly_run t) = Ok (hamerly_run (S t))) /\
    forall t, (forall t', t' < t -> decisive a samples nf n k (ll_centroids _ (lloyd_run t'))) ->
      h_centroids _ (hamerly_run t) = ll_centroids _ (lloyd_run t) /\
      (forall t', t' < t -> h_indices _ (hamerly_run (S t')) = ll_indices _ (lloyd_run t')).
Proof.
  intros Ha Hm Hnf Hs Hc Hk Htie.
  destruct (c44_lloyd_steps a Ha samples centroids nf n k Hnf Hs Hc Hk) as (lr & El & Ec & Hl).
  destruct (c45_hamerly_steps a Ha Hm samples centroids nf n k Hnf Hs Hc Hk Htie) as (hr & Eh & Ech & _ & Hh).
  exists lr, hr. split; [auto|]. split; [intros t; apply Hl|]. split; [auto|]. split; [intros t; apply Hh|].
  induction t as [|t IH]; intros Hd.
  - split; [congruence|]. intros; lia.
  - destruct IH as (Ecc & Eii); [intros; apply Hd; lia|]. specialize (Hd t ltac:(lia)) as Ht.
    destruct (Hl t) as (_ & _ & Na & _ & Ua). destruct (Hh t) as (_ & _ & Nb & Ub). rewrite Ecc in Nb, Ub.
    pose proof (one_assignment _ _ _ Ht Nb Na) as Ei. rewrite Ei in Ub. split.
    + apply (one_update (ll_indices _ (lr t)) _ _ _ _ Hnf) with (1 := fun c Hc' => all_used _ _ c Ht Na Hc') (2 := Ub) (3 := Ua).
    + intros t' Ht'. destruct (Nat.eq_dec t' t) as [->|]; auto. apply Eii. lia.
Qed.

(** Two algorithms whose states have the same centroids stop at the same number of steps. *)
Lemma fit_loop_same (alg alg' : algorithm a) o close (run : nat -> state a alg) (run' : nat -> state a alg') m :
  (forall t, alg_step a alg (run t) = Ok (run (S t))) -> (forall t, alg_step a alg' (run' t) = Ok (run' (S t))) ->
  (forall t, t <= m -> alg_centroids a alg' (run' t) = alg_centroids a alg (run t)) ->
  forall it t p previous candidate, t + it <= m ->
  exists c u u', fit_loop a alg o close it p previous candidate (run t) = Ok (c, u) /\
    fit_loop a alg' o close it p previous candidate (run' t) = Ok (c, u').
Proof.
  intros H1 H2 H3. induction it as [|it IH]; intros t p previous candidate Hm; cbn [fit_loop]; [eauto 6|].
  rewrite H1, H2. cbn [bind]. rewrite (H3 (S t)) by lia.
  destruct (early_stopping o && are_containers_equal a close (alg_centroids a alg (run (S t))) previous); [|apply IH; lia].
  destruct (p =? patience o); [eauto 6|apply IH; lia].
Qed.

Lemma fit_same centroids o close : arith_ok a -> metric_laws a -> nf <> 0 -> length samples = n * nf ->
  length centroids = k * nf -> 0 < k -> no_tie a samples nf n k centroids ->
  (forall l t, t < max_iter o -> (s <- make_lloyd a samples nf centroids ;; after t (lloyd_step a samples nf) s) = Ok l ->
     decisive a samples nf n k (ll_centroids _ l)) ->
  exists c u u', (s <- make_lloyd a samples nf centroids ;; fit_loop a (lloyd_algorithm a samples nf) o close (max_iter o) 0 [] centroids s) = Ok (c, u) /\
    (s <- make_hamerly a samples nf centroids ;; fit_loop a (hamerly_algorithm a samples nf) o close (max_iter o) 0 [] centroids s) = Ok (c, u').
Proof.
  intros Ha Hm Hnf Hs Hc Hk Htie Hd.
  destruct (c103_steps centroids Ha Hm Hnf Hs Hc Hk Htie) as (lr & hr & El & Hl & Eh & Hh & Hsame).
  assert (Ecs : forall t, t <= max_iter o -> h_centroids _ (hr t) = ll_centroids _ (lr t)).
  { intros t Ht. apply Hsame. intros t' Ht'. apply (Hd (lr t') t'); [lia|]. rewrite El. cbn [bind]. clear -Hl.
    assert (G : forall t s, after t (lloyd_step a samples nf) (lr s) = Ok (lr (s + t))).
    { induction t as [|t IH]; intros s; cbn [after]; [now rewrite Nat.add_0_r|]. rewrite Hl. cbn [bind]. rewrite IH. do 2 f_equal. lia. }
    apply (G t' 0). }
  destruct (fit_loop_same (lloyd_algorithm a samples nf) (hamerly_algorithm a samples nf) o close lr hr (max_iter o) Hl Hh Ecs
    (max_iter o) 0 0 [] centroids ltac:(lia)) as (c & u & u' & F & F').
  exists c, u, u'. rewrite El, Eh. split; [exact F|exact F'].
Qed.

(** [fit] started with one candidate returns the same centroids with either algorithm: the candidate is given, or drawn. *)
Theorem c103_fit centroids given o close initializer : arith_ok a -> metric_laws a -> nf <> 0 -> length samples = n * nf ->
  length centroids = k * nf -> 0 < k -> given = centroids \/ given = [] /\ n_init o = 1 /\ initializer 0 = centroids ->
  no_tie a samples nf n k centroids ->
  (forall l t, t < max_iter o -> (s <- make_lloyd a samples nf centroids ;; after t (lloyd_step a samples nf) s) = Ok l ->
     decisive a samples nf n k (ll_centroids _ l)) ->
  exists c, fit a (lloyd_algorithm a samples nf) o close given initializer = Ok c /\
    fit a (hamerly_algorithm a samples nf) o close given initializer = Ok c.
Proof.
  intros Ha Hm Hnf Hs Hc Hk Hg Htie Hd.
  destruct (fit_same centroids o close Ha Hm Hnf Hs Hc Hk Htie Hd) as (c & u & u' & F & F'). exists c.
  assert (G : forall (alg : algorithm a) w,
    (s <- alg_make a alg centroids ;; fit_loop a alg o close (max_iter o) 0 [] centroids s) = Ok (c, w) ->
    fit a alg o close given initializer = Ok c).
  { intros alg w E. unfold fit.
    replace (match given with [] => map initializer (seq 0 (n_init o)) | _ => [given] end) with [centroids].
    2: { destruct Hg as [->|(-> & -> & <-)]; [|reflexivity]. destruct centroids; [cbn [length] in Hc; nia|reflexivity]. }
    cbn [for_each]. unfold fit_candidate. destruct (alg_make a alg centroids) as [s| | |]; cbn [bind] in *; try discriminate.
    rewrite E. reflexivity. }
  split; [apply (G (lloyd_algorithm a samples nf) u)|apply (G (hamerly_algorithm a samples nf) u')]; auto.
Qed.
End Follow.

(** ** Examples *)
Definition decisiveb (a : arith) (samples : list (num a)) (nf n k : nat) (centroids : list (num a)) : bool :=
  let d i j := n_dist a (row samples nf i) (row centroids nf j) in
  forallb (fun i => existsb (fun j => forallb (fun j' => (j' =? j) || n_lt a (d i j) (d i j')) (seq 0 k)) (seq 0 k)) (seq 0 n) &&
  forallb (fun c => existsb (fun i => forallb (fun j' => negb (n_lt a (d i j') (d i c))) (seq 0 k)) (seq 0 n)) (seq 0 k).
Lemma decisive_check a samples nf n k centroids : decisiveb a samples nf n k centroids = true -> decisive a samples nf n k centroids.
Proof.
  unfold decisiveb. intros H. apply andb_true_iff in H. destruct H as (H1 & H2). rewrite forallb_forall in H1, H2. split.
  - intros i Hi. specialize (H1 i ltac:(apply in_seq; lia)). apply existsb_exists in H1. destruct H1 as (j & Hj & H1). apply in_seq in Hj.
    exists j. split; [lia|]. intros j' Hj' Hne. rewrite forallb_forall in H1. specialize (H1 j' ltac:(apply in_seq; lia)).
    apply orb_true_iff in H1. rewrite Nat.eqb_eq in H1. destruct H1; [contradiction|auto].
  - intros c Hc. specialize (H2 c ltac:(apply in_seq; lia)). apply existsb_exists in H2. destruct H2 as (i & Hi & H2). apply in_seq in Hi.
    exists i. split; [lia|]. split; [auto|]. intros j' Hj'. rewrite forallb_forall in H2. specialize (H2 j' ltac:(apply in_seq; lia)).
    now apply negb_true_iff.
Qed.

Definition six : list Qc := qs [0; 1; 2; 6; 9; 20]%Z.
Definition lloyd_at (samples centroids : list Qc) (t : nat) : res (lloyd line) :=
  l <- make_lloyd line samples 1 centroids ;; after t (lloyd_step line samples 1) l.
Definition hamerly_at (samples centroids : list Qc) (t : nat) : res (hamerly line) :=
  h <- make_hamerly line samples 1 centroids ;; after t (hamerly_step line samples 1) h.
Definition lloyd_values (samples centroids : list Qc) (t : nat) : res (list Q) := l <- lloyd_at samples centroids t ;; Ok (map this (ll_centroids _ l)).
Definition hamerly_values (samples centroids : list Qc) (t : nat) : res (list Q) := h <- hamerly_at samples centroids t ;; Ok (map this (h_centroids _ h)).


(** Three moves before the centroids rest. *)
Example c103_steps_case :
  no_tie line six 1 6 3 (qs [0; 3; 4]%Z) /\
  (forall t l, t < 4 -> lloyd_at six (qs [0; 3; 4]%Z) t = Ok l -> decisive line six 1 6 3 (ll_centroids _ l)) /\
  map (lloyd_values six (qs [0; 3; 4]%Z)) (seq 0 5)
    = [Ok [0; 3; 4]; Ok [1 # 2; 2; 35 # 3]; Ok [1 # 2; 4; 29 # 2]; Ok [1; 15 # 2; 20]; Ok [1; 15 # 2; 20]]%Q /\
  map (hamerly_values six (qs [0; 3; 4]%Z)) (seq 0 5)
    = [Ok [0; 3; 4]; Ok [1 # 2; 2; 35 # 3]; Ok [1 # 2; 4; 29 # 2]; Ok [1; 15 # 2; 20]; Ok [1; 15 # 2; 20]]%Q.
Proof.
  split; [apply no_tie_check; vm_compute; reflexivity|]. split; [|split; vm_compute; reflexivity].
  intros t l Ht El. apply decisive_check.
  assert (H : forallb (fun t => match lloyd_at six (qs [0; 3; 4]%Z) t with Ok l => decisiveb line six 1 6 3 (ll_centroids _ l) | _ => false end)
    (seq 0 4) = true) by (vm_compute; reflexivity).
  rewrite forallb_forall in H. specialize (H t ltac:(apply in_seq; lia)). rewrite El in H. exact H.
Qed.

(** The default options: a hundred steps at most. *)
Example c103_fit_case :
  (forall l t, t < max_iter default_options -> lloyd_at six (qs [0; 3; 4]%Z) t = Ok l -> decisive line six 1 6 3 (ll_centroids _ l)) /\
  exists c, fit line (lloyd_algorithm line six 1) default_options qc_eq [] (fun _ => qs [0; 3; 4]%Z) = Ok c /\
    fit line (hamerly_algorithm line six 1) default_options qc_eq [] (fun _ => qs [0; 3; 4]%Z) = Ok c /\
    map this c = [1; 15 # 2; 20]%Q.
Proof.
  assert (H : forallb (fun t => match lloyd_at six (qs [0; 3; 4]%Z) t with Ok l => decisiveb line six 1 6 3 (ll_centroids _ l) | _ => false end)
    (seq 0 (max_iter default_options)) = true) by (vm_compute; reflexivity).
  rewrite forallb_forall in H.
  assert (Hd : forall l t, t < max_iter default_options -> lloyd_at six (qs [0; 3; 4]%Z) t = Ok l -> decisive line six 1 6 3 (ll_centroids _ l)).
  { intros l t Ht El. apply decisive_check. specialize (H t ltac:(apply in_seq; lia)). rewrite El in H. exact H. }
  split; [exact Hd|].
  assert (Ht : no_tieb line six 1 6 3 (qs [0; 3; 4]%Z) = true) by (vm_compute; reflexivity).
  destruct (c103_fit line six 1 6 3 (qs [0; 3; 4]%Z) [] default_options qc_eq (fun _ => qs [0; 3; 4]%Z) line_ok line_laws ltac:(lia)
    eq_refl eq_refl ltac:(lia) (or_intror (conj eq_refl (conj eq_refl eq_refl)))
    (no_tie_check line six 1 6 3 (qs [0; 3; 4]%Z) Ht) Hd) as (c & F & F').
  exists c. split; [exact F|]. split; [exact F'|].
  assert (E : (c <- fit line (lloyd_algorithm line six 1) default_options qc_eq [] (fun _ => qs [0; 3; 4]%Z) ;; Ok (map this c))
    = Ok [1; 15 # 2; 20]%Q) by (vm_compute; reflexivity).
  rewrite F in E. cbn [bind] in E. now injection E.
Qed.

(** ** Where they part *)
Definition fitted (alg : algorithm line) (o : options) (given : list Qc) (initializer : nat -> list Qc) : res (list Q) :=
  c <- fit line alg o qc_eq given initializer ;; Ok (map this c).

(** A cluster that no sample chooses: Lloyd's algorithm moves its centroid to the origin, Hamerly's leaves it. All distances differ. *)
Theorem c103_empty_cluster_refuted : exists samples centroids c c',
  no_tie line samples 1 3 3 centroids /\
  (forall i, i < 3 -> exists j, j < 3 /\ forall j', j' < 3 -> j' <> j ->
     n_lt line (n_dist line (row samples 1 i) (row centroids 1 j)) (n_dist line (row samples 1 i) (row centroids 1 j')) = true) /\
  fitted (lloyd_algorithm line samples 1) default_options centroids (fun _ => []) = Ok c /\
  fitted (hamerly_algorithm line samples 1) default_options centroids (fun _ => []) = Ok c' /\ nth 2 c 0%Q = 0%Q /\ nth 2 c' 0%Q = 30%Q.
Proof.
  exists (qs [1; 2; 10]%Z), (qs [1; 9; 30]%Z), [3 # 2; 10; 0]%Q, [3 # 2; 10; 30]%Q.
  split; [apply no_tie_check; vm_compute; reflexivity|].
  split; [|split; [vm_compute; reflexivity|split; [vm_compute; reflexivity|split; reflexivity]]].
  intros [|[|[|i]]] Hi; [exists 0|exists 0|exists 1|lia]; (split; [lia|]); intros [|[|[|j']]] Hj' Hne; try lia; vm_compute; reflexivity.
Qed.

(** A tie that arises on the way: the start is decisive, the second step is not. Lloyd's algorithm gives the sample to the first of the
    two centroids, Hamerly's leaves it where it is. *)
Theorem c103_tie_refuted : exists samples centroids c c',
  decisive line samples 1 3 2 centroids /\ no_tie line samples 1 3 2 centroids /\
  fitted (lloyd_algorithm line samples 1) default_options centroids (fun _ => []) = Ok c /\
  fitted (hamerly_algorithm line samples 1) default_options centroids (fun _ => []) = Ok c' /\ c <> c'.
Proof.
  exists (qs [0; 2; 6]%Z), (qs [0; 3]%Z), [1; 6]%Q, [0; 4]%Q.
  split; [apply decisive_check; vm_compute; reflexivity|]. split; [apply no_tie_check; vm_compute; reflexivity|].
  split; [vm_compute; reflexivity|]. split; [vm_compute; reflexivity|discriminate].
Qed.

(** Several candidates, each run of which is decisive throughout: [fit] chooses by the loss each algorithm reports, and Hamerly's
    reports that of the centroids one step earlier. *)
Theorem c103_candidates_refuted : exists samples (init : nat -> list Qc) o c c', n_init o = 2 /\
  (forall i t l, i < 2 -> t < max_iter o -> lloyd_at samples (init i) t = Ok l -> decisive line samples 1 4 2 (ll_centroids _ l)) /\
  (forall i, i < 2 -> no_tie line samples 1 4 2 (init i)) /\
  fitted (lloyd_algorithm line samples 1) o [] init = Ok c /\ fitted (hamerly_algorithm line samples 1) o [] init = Ok c' /\ c <> c'.
Proof.
  exists pts4, init4, two_inits, [3; 23 # 3]%Q, [9 # 2; 17 # 2]%Q. split; [reflexivity|]. split.
  { intros i t l Hi Ht El. apply decisive_check.
    assert (H : forallb (fun i => forallb (fun t => match lloyd_at pts4 (init4 i) t with
        Ok l => decisiveb line pts4 1 4 2 (ll_centroids _ l) | _ => false end) (seq 0 (max_iter two_inits))) (seq 0 2) = true)
      by (vm_compute; reflexivity).
    rewrite forallb_forall in H. specialize (H i ltac:(apply in_seq; lia)). rewrite forallb_forall in H.
    specialize (H t ltac:(apply in_seq; lia)). rewrite El in H. exact H. }
  split; [intros [|[|i]] Hi; [| |lia]; apply no_tie_check; vm_compute; reflexivity|].
  split; [vm_compute; reflexivity|]. split; [vm_compute; reflexivity|discriminate].
Qed.

Print Assumptions c103_steps.
Print Assumptions c103_fit.
Print Assumptions c103_empty_cluster_refuted.
Print Assumptions c103_tie_refuted.
Print Assumptions c103_candidates_refuted.
