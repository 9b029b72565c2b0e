(** Theorems about FasterMSC (C72, C73). *)
From Coq Require Import List Arith Lia ZArith QArith Qabs Lqa Bool.
From Verif Require Import Base SortingModel SortingProofs BufferModel RandomModel AliasProofs KMeansModel KMeansProofs KMedoidsModel KMedoidsSpec KMedoidsProofs
  MscModel MscSpec MscProofs.
Import ListNotations.
Local Open Scope nat_scope.

(** ** Samples on a line, for the examples *)
Definition qdist (l : list Z) (i j : nat) : Q := inject_Z (Z.abs (nth i l 0%Z - nth j l 0%Z)).
Definition qline (l : list Z) : source Q := mk_source (length l) (fun i j => Ok (qdist l i j)).
Definition tiny : Q := 1 # (2 ^ 52).
Definition huge : Q := inject_Z (10 ^ 30).

Lemma qline_provides l : provides (qline l) (length l) (qdist l).
Proof. split; auto. Qed.

Lemma qline_ok l : distances_ok (qdist l) (length l).
Proof.
  split; intros; unfold qdist.
  - rewrite Z.sub_diag. reflexivity.
  - change 0%Q with (inject_Z 0). rewrite <- Zle_Qle. lia.
Qed.

Lemma tiny_pos : (0 <= tiny)%Q.
Proof. unfold tiny. apply Qle_bool_iff. reflexivity. Qed.

(** Decides [nearest_two], and computes the loss. *)
Definition pair_ok (T : nat -> Q) (k : nat) (ij : nat * nat) : bool :=
  let '(i1, i2) := ij in negb (i2 =? i1) && forallb (fun j => Qle_bool (T i1) (T j)) (seq 0 k) &&
  forallb (fun j => (j =? i1) || Qle_bool (T i2) (T j)) (seq 0 k).
Definition pair_of (T : nat -> Q) (k : nat) : option (nat * nat) := find (pair_ok T k) (list_prod (seq 0 k) (seq 0 k)).
Lemma pair_of_ok T k i1 i2 : pair_of T k = Some (i1, i2) -> nearest_two T k i1 i2.
Proof.
  intros H. apply find_some in H. destruct H as (Hin & H). apply in_prod_iff in Hin. rewrite !in_seq in Hin.
  unfold pair_ok in H. rewrite !andb_true_iff, !forallb_forall, negb_true_iff, Nat.eqb_neq in H. destruct H as ((H1 & H2) & H3).
  unfold nearest_two. splits; try lia.
  - intros j Hj. apply Qle_bool_iff, H2, in_seq. lia.
  - intros j Hj Hne. specialize (H3 j ltac:(apply in_seq; lia)). apply orb_true_iff in H3. rewrite Nat.eqb_eq, Qle_bool_iff in H3. tauto.
Qed.
Definition term_of (l : list Z) (M : list nat) (o : nat) : Q :=
  match pair_of (to_medoid (qdist l) M o) (length M) with
  | Some (i1, i2) => ratio tiny (to_medoid (qdist l) M o i1) (to_medoid (qdist l) M o i2)
  | None => 0%Q
  end.
Definition loss_of (l : list Z) (M : list nat) : Q := fold_right Qplus 0%Q (map (term_of l M) (seq 0 (length l))).
Definition loss_check (l : list Z) (M : list nat) : bool :=
  forallb (fun o => match pair_of (to_medoid (qdist l) M o) (length M) with Some _ => true | None => false end) (seq 0 (length l)).
Lemma loss_checked l M : loss_check l M = true -> silhouette_loss tiny (qdist l) (length l) M (loss_of l M).
Proof.
  intros H. exists (term_of l M). split; [|reflexivity]. intros o Ho. unfold loss_check in H. rewrite forallb_forall in H.
  specialize (H o ltac:(apply in_seq; lia)). unfold term_of. destruct (pair_of _ _) as [(i1, i2)|] eqn:E; [|discriminate].
  exists i1, i2. split; [now apply pair_of_ok|reflexivity].
Qed.

Definition separated_check (l : list Z) (M : list nat) : bool :=
  forallb (fun o => forallb (fun i => Qlt_bool (to_medoid (qdist l) M o i) huge &&
    forallb (fun j => (j =? i) || Qlt_bool tiny (Qabs (to_medoid (qdist l) M o i - to_medoid (qdist l) M o j)%Q)) (seq 0 (length M)))
    (seq 0 (length M))) (seq 0 (length l)).
Lemma separated_checked l M : separated_check l M = true -> separated tiny huge (qdist l) (length l) M.
Proof.
  intros H o Ho i Hi. unfold separated_check in H. rewrite forallb_forall in H. specialize (H o ltac:(apply in_seq; lia)).
  rewrite forallb_forall in H. specialize (H i ltac:(apply in_seq; lia)). apply andb_true_iff in H. destruct H as (H1 & H2).
  split; [now apply Qlt_bool_iff|]. intros j Hj Hne. rewrite forallb_forall in H2. specialize (H2 j ltac:(apply in_seq; lia)).
  apply orb_true_iff in H2. rewrite Nat.eqb_eq in H2. destruct H2; [contradiction|]. now apply Qlt_bool_iff.
Qed.

(** The state after the construction and [t] steps. *)
Definition msc_after (l : list Z) (t : nat) (M : list nat) : res msc :=
  p <- make_msc tiny huge (qline l) M ;; steps t (msc_step tiny (qline l)) p.
Definition medoids_after (l : list Z) (t : nat) (M : list nat) : res (list nat * Q) :=
  p <- msc_after l t M ;; Ok (s_medoids p, Qred (total_deviation p)).

Section Props.
Context (eps top : Q) (dist : nat -> nat -> Q) (n : nat) (src : source Q).

(** ** C72: three medoids or more *)
(** Construction.  When no sample has two medoids at the same distance, the state describes the medoids. *)
Theorem c72_construction M : provides src n dist -> (0 <= eps)%Q -> (forall m, In m M -> m < n) -> 3 <= length M ->
  separated eps top dist n M -> exists p, make_msc eps top src M = Ok p /\ s_medoids p = M /\ described eps dist n p.
Proof.
  intros Hsrc Heps HM Hk Hs. assert (Hne : M <> []) by (destruct M; [cbn in Hk; lia|discriminate]).
  destruct (make_msc_ok eps top dist n src Hsrc M HM Hne Heps) as (p & E & EM & _ & _ & H); [lia|]. exists p. splits; auto. apply H; auto.
  intros o Ho. specialize (Hs o Ho). split.
  - intros i Hi. apply Hs. auto.
  - intros i j Hi Hj Hne'. apply Hs; auto.
Qed.

(** Without that condition it still succeeds; its initial loss is the sum of the distances to the nearest medoids. *)
Theorem c72_construction_any M : provides src n dist -> (0 <= eps)%Q -> (forall m, In m M -> m < n) -> 2 <= length M ->
  exists p, make_msc eps top src M = Ok p /\ s_medoids p = M /\ well_formed n p /\
  ((forall o i, o < n -> i < length M -> (to_medoid dist M o i < top)%Q) ->
   exists r, (total_deviation p == fold_right Qplus 0 (map r (seq 0 n)))%Q /\
     forall o, o < n -> (exists j, j < length M /\ r o = to_medoid dist M o j) /\ forall j, j < length M -> (r o <= to_medoid dist M o j)%Q).
Proof.
  intros Hsrc Heps HM Hk. assert (Hne : M <> []) by (destruct M; [cbn in Hk; lia|discriminate]).
  destruct (make_msc_ok eps top dist n src Hsrc M HM Hne Heps) as (p & E & EM & Hw & H & _); [lia|]. exists p. splits; auto.
  intros Hl. destruct H as (r & Hr & H); [intros o Ho i Hi; auto|]. exists r. split; auto. rewrite Hr. symmetry. apply fold_qsum.
Qed.

(** One medoid is not enough. *)
Theorem c72_construction_throws M : provides src n dist -> (forall m, In m M -> m < n) -> length M < 2 -> make_msc eps top src M = Throw.
Proof.
  intros Hsrc HM Hk. destruct M as [|m M]; [reflexivity|]. assert (Hne : m :: M <> []) by discriminate.
  destruct M as [|]; [|cbn in Hk; lia].
  unfold make_msc, msc_indices, msc_distances, nth_nearest, if_more_than_two. cbn [length Nat.ltb Nat.leb Nat.eqb orb].
  destruct (q_nearest_indices top dist n src Hsrc [m] HM Hne) as (v & -> & _).
  destruct (q_nearest_distances top dist n src Hsrc [m] HM Hne) as (w & -> & _). reflexivity.
Qed.

(** The search for the best exchange.  What [find_best_swap] returns for a sample [c]: the position that has the smallest
    silhouette loss after the exchange, the first among equal ones, and by how much that loss is smaller than the one of the medoids. *)
Theorem c72_best_swap p c l : provides src n dist -> described eps dist n p -> c < n -> silhouette_loss eps dist n (s_medoids p) l ->
  exists delta b lb, msc_best_swap eps src p c = Ok (delta, b) /\ b < length (s_medoids p) /\
    silhouette_loss eps dist n (exchange (s_medoids p) b c) lb /\ (delta == l - lb)%Q /\
    (forall i li, i < length (s_medoids p) -> silhouette_loss eps dist n (exchange (s_medoids p) i c) li -> (lb <= li)%Q) /\
    (forall i li, i < b -> silhouette_loss eps dist n (exchange (s_medoids p) i c) li -> (lb < li)%Q).
Proof. intros Hsrc. apply (best_swap_ok eps dist n src Hsrc). Qed.

(** One candidate of [step]. *)
Theorem c72_candidate p c l : provides src n dist -> distances_ok dist n -> described eps dist n p -> c < n ->
  silhouette_loss eps dist n (s_medoids p) l ->
  (nth c (s_nearest p) 0 = c -> msc_try eps src c p = Ok p) /\
  (nth c (s_nearest p) 0 <> c ->
    exists b lb, b < length (s_medoids p) /\ silhouette_loss eps dist n (exchange (s_medoids p) b c) lb /\
      (forall i li, i < length (s_medoids p) -> silhouette_loss eps dist n (exchange (s_medoids p) i c) li -> (lb <= li)%Q) /\
      (forall i li, i < b -> silhouette_loss eps dist n (exchange (s_medoids p) i c) li -> (lb < li)%Q) /\
      ((l <= lb)%Q -> msc_try eps src c p = Ok p) /\
      ((lb < l)%Q -> (forall o, o < n -> o <> c -> nth o (s_third p) 0 = 0 ->
         (dist c o < nth o (s_third_distances p) 0%Q)%Q \/ (length (s_medoids p) = 3 /\ b = 0)) ->
       exists p', msc_try eps src c p = Ok p' /\ s_medoids p' = exchange (s_medoids p) b c /\ described eps dist n p' /\
         (total_deviation p' == lb)%Q)).
Proof. intros Hsrc. apply (msc_try_ok eps dist n src Hsrc). Qed.

(** A state that no exchange improves stays. *)
Theorem c72_optimum_stays p l : provides src n dist -> distances_ok dist n -> described eps dist n p ->
  silhouette_loss eps dist n (s_medoids p) l ->
  (forall c i li, c < n -> i < length (s_medoids p) -> silhouette_loss eps dist n (exchange (s_medoids p) i c) li -> (l <= li)%Q) ->
  msc_step eps src p = Ok p.
Proof.
  intros Hsrc Hok Hp Hl Hopt. unfold msc_step. rewrite (proj1 Hsrc).
  destruct (for_loop_inv (fun _ q => q = p) (msc_try eps src) n 0 p) as (q & E & ->); auto.
  intros c q Hc ->. exists p. split; auto.
  destruct (msc_try_ok eps dist n src Hsrc p c l Hok Hp ltac:(lia) Hl) as (T1 & T2).
  destruct (Nat.eq_dec (nth c (s_nearest p) 0) c) as [E|E]; auto. destruct (T2 E) as (b & lb & Hb & Hlb & _ & _ & H & _). apply H.
  apply (Hopt c b); auto. lia.
Qed.

(** Any number of steps runs without leaving a buffer and keeps the number of medoids. *)
Theorem c72_steps_safe p t : provides src n dist -> well_formed n p ->
  exists q, steps t (msc_step eps src) p = Ok q /\ well_formed n q /\ length (s_medoids q) = length (s_medoids p).
Proof.
  intros Hsrc. revert p. induction t as [|t IH]; intros p Hw; cbn [steps]; eauto.
  destruct (msc_step_safe eps dist n src Hsrc p Hw) as (q & -> & Hq & EL). cbn [bind].
  destruct (IH q Hq) as (r & Er & Hr & ER). exists r. splits; auto. congruence.
Qed.

(** ** C73: two medoids *)
Theorem c73_construction M : provides src n dist -> (0 <= eps)%Q -> (forall m, In m M -> m < n) -> length M = 2 ->
  exists p, make_msc eps top src M = Ok p /\ s_medoids p = M /\ two_medoids top dist n p.
Proof.
  intros Hsrc Heps HM Hk. assert (Hne : M <> []) by (destruct M; [cbn in Hk; lia|discriminate]).
  apply (make_two_ok eps top dist n src Hsrc M HM Hne Heps Hk).
Qed.

(** One candidate: the stored distances decide. *)
Theorem c73_candidate p c : provides src n dist -> two_medoids top dist n p -> distances_ok dist n -> tolerance_exact eps top dist n ->
  c < n ->
  (nth c (s_nearest p) 0 = c -> msc_try eps src c p = Ok p) /\
  (nth c (s_nearest p) 0 <> c ->
    exists b, b < 2 /\ (forall i, i < 2 -> (counted_loss eps dist n p c b <= counted_loss eps dist n p c i)%Q) /\
      (b = 1 -> (counted_loss eps dist n p c 1 < counted_loss eps dist n p c 0)%Q) /\
      ((total_deviation p <= counted_loss eps dist n p c b)%Q -> msc_try eps src c p = Ok p) /\
      ((counted_loss eps dist n p c b < total_deviation p)%Q -> exists q, msc_try eps src c p = Ok q /\
         s_medoids q = exchange (s_medoids p) b c /\ two_medoids top dist n q /\
         (total_deviation q == counted_loss eps dist n p c b)%Q /\
         (forall o, o < n -> stored_at q b o = (if o =? c then 0%Q else dist c o) /\
            stored_other q b o = (if o =? c then 0%Q else stored_other p b o)) /\
         forall o, o < n -> let j := nth o (s_nearest q) 0 in (stored_at q j o <= stored_other q j o)%Q)).
Proof. intros Hsrc. apply (msc_try_k2_ok eps top dist n src Hsrc). Qed.

(** A sample whose stored distance is its distance to the medoid that stays counts what it should. *)
Theorem c73_counted M p c i o : length M = 2 -> i < 2 -> stored_other p i o = to_medoid dist M o (1 - i) ->
  exists i1 i2, nearest_two (to_medoid dist (exchange M i c) o) 2 i1 i2 /\
    (smaller_over_larger eps (dist c o) (stored_other p i o) ==
     ratio eps (to_medoid dist (exchange M i c) o i1) (to_medoid dist (exchange M i c) o i2))%Q.
Proof.
  intros HL Hi ->. destruct (counted_term eps dist M c i o HL Hi) as (i1 & i2 & H & E). rewrite exchange_length in H by lia.
  rewrite HL in H. eauto.
Qed.

(** A step that changes the state lowers the reported loss. *)
Theorem c73_step p : provides src n dist -> two_medoids top dist n p -> distances_ok dist n -> tolerance_exact eps top dist n ->
  exists q, msc_step eps src p = Ok q /\ two_medoids top dist n q /\ (q = p \/ (total_deviation q < total_deviation p)%Q).
Proof. intros Hsrc. apply (msc_step_k2_ok eps top dist n src Hsrc). Qed.

Theorem c73_steps p t : provides src n dist -> two_medoids top dist n p -> distances_ok dist n -> tolerance_exact eps top dist n ->
  exists q, steps t (msc_step eps src) p = Ok q /\ two_medoids top dist n q /\ (q = p \/ (total_deviation q < total_deviation p)%Q).
Proof.
  intros Hsrc Hp Hd He. revert p Hp. induction t as [|t IH]; intros p Hp; cbn [steps]; eauto.
  destruct (msc_step_k2_ok eps top dist n src Hsrc p Hp Hd He) as (q & -> & Hq & Hl). cbn [bind].
  destruct (IH q Hq) as (r & -> & Hr & Hl'). exists r. splits; auto.
  destruct Hl as [->|Hl]; auto. right. destruct Hl' as [->|Hl']; auto. lra.
Qed.
End Props.
(** ** Examples and refutations *)
Definition l7 : list Z := [0; 10; 11; 13; 40; 42; 47]%Z.
Definition m7 : list nat := [0; 1; 2].
Definition get (r : res msc) : msc := match r with Ok p => p | _ => mk_msc [] [] [] [] [] [] [] [] 0%Q end.
Definition p7 : msc := get (msc_after l7 0 m7).

Lemma in_checked (l : list Z) M : forallb (fun m => m <? length l) M = true -> forall m, In m M -> m < length l.
Proof. intros H m Hm. rewrite forallb_forall in H. apply Nat.ltb_lt. auto. Qed.

Lemma line_described l M : forallb (fun m => m <? length l) M = true -> 3 <= length M -> separated_check l M = true ->
  exists p, make_msc tiny huge (qline l) M = Ok p /\ s_medoids p = M /\ described tiny (qdist l) (length l) p.
Proof.
  intros H1 H2 H3. apply (c72_construction tiny huge (qdist l) (length l) (qline l) M); auto.
  - apply qline_provides.
  - apply tiny_pos.
  - now apply in_checked.
  - now apply separated_checked.
Qed.

Lemma line_two l M : forallb (fun m => m <? length l) M = true -> length M = 2 ->
  exists p, make_msc tiny huge (qline l) M = Ok p /\ s_medoids p = M /\ two_medoids huge (qdist l) (length l) p.
Proof.
  intros H1 H2. apply c73_construction; auto.
  - apply qline_provides.
  - apply tiny_pos.
  - now apply in_checked.
Qed.

Lemma line_exact l : tolerance_exact tiny huge (qdist l) (length l).
Proof.
  intros c o x Hc Ho Hx Hd.
  assert (HZ : exists z, (x == inject_Z z)%Q).
  { destruct Hx as [(i & _ & Hx)|[Hx|Hx]]; [eexists; exact Hx|exists 0%Z; exact Hx|exists (10 ^ 30)%Z; exact Hx]. }
  destruct HZ as (z & HZ). rewrite HZ in *. unfold qdist in *. set (y := Z.abs (nth c l 0%Z - nth o l 0%Z)) in *.
  assert (E : (inject_Z z - inject_Z y == inject_Z (z - y))%Q) by (unfold Z.sub; rewrite inject_Z_plus, inject_Z_opp; reflexivity).
  rewrite E in Hd. assert (E2 : Qabs (inject_Z (z - y)) = inject_Z (Z.abs (z - y))) by reflexivity. rewrite E2 in Hd.
  assert (Hz : (Z.abs (z - y) < 1)%Z).
  { apply Z.lt_nge. intros Hge. rewrite Zle_Qle in Hge. change (inject_Z 1) with 1%Q in Hge.
    assert (Ht : (tiny < 1)%Q) by reflexivity. lra. }
  replace z with y by lia. reflexivity.
Qed.

Definition third_check (l : list Z) (p : msc) (c : nat) : bool :=
  forallb (fun o => (o =? c) || negb (nth o (s_third p) 0 =? 0) || Qlt_bool (qdist l c o) (nth o (s_third_distances p) 0%Q)) (seq 0 (length l)).

(** Seven samples and three medoids; the state describes them. *)
Example c72_construction_case : exists p, make_msc tiny huge (qline l7) m7 = Ok p /\ described tiny (qdist l7) 7 p /\
  s_nearest p = [0; 1; 2; 2; 2; 2; 2] /\ s_second p = [1; 2; 1; 1; 1; 1; 1] /\ s_third p = [2; 0; 0; 0; 0; 0; 0] /\
  s_distances p = [0; 0; 0; 2; 29; 31; 36]%Q /\ s_second_distances p = [10; 1; 1; 3; 30; 32; 37]%Q /\
  s_third_distances p = [11; 10; 11; 13; 40; 42; 47]%Q /\ map Qred (s_losses p) = [-10 # 11; 82959757 # 75959520; 265773017 # 278518240]%Q.
Proof.
  destruct (line_described l7 m7) as (p & E & _ & H); [reflexivity|cbn; lia|reflexivity|]. exists p. split; auto. split; auto.
  vm_compute in E. injection E as <-. vm_compute. splits; reflexivity.
Qed.

(** Its reported loss is the sum of distances, not the silhouette loss. *)
Theorem c72_initial_loss_refuted : exists l M p x, make_msc tiny huge (qline l) M = Ok p /\ described tiny (qdist l) (length l) p /\
  silhouette_loss tiny (qdist l) (length l) (s_medoids p) x /\ ~ (total_deviation p == x)%Q /\
  msc_step tiny (qline l) p = Ok p.
Proof.
  set (l := [9; 19; 11; 2]%Z). destruct (line_described l [2; 3; 1]) as (p & E & EM & H); [reflexivity|cbn; lia|reflexivity|].
  exists l, [2; 3; 1], p, (loss_of l [2; 3; 1]). split; auto. split; auto. rewrite EM. split; [apply loss_checked; reflexivity|].
  vm_compute in E. injection E as <-. vm_compute. split; [discriminate|reflexivity].
Qed.

(** Two medoids at the same distance of a sample: the second one is passed over. *)
Theorem c72_tie_refuted : exists l M p o j j', make_msc tiny huge (qline l) M = Ok p /\ NoDup M /\ 3 <= length M /\ o < length l /\
  j < length M /\ j' < length M /\ j' <> j /\ (to_medoid (qdist l) M o j < nth o (s_second_distances p) 0)%Q /\
  (to_medoid (qdist l) M o j' < nth o (s_second_distances p) 0)%Q /\ (nth o (s_third_distances p) 0 == huge)%Q.
Proof.
  exists [0; 2; 1; 7]%Z, [0; 1; 3], (get (msc_after [0; 2; 1; 7]%Z 0 [0; 1; 3])), 2, 0, 1. split; [vm_compute; reflexivity|].
  split; [repeat constructor; cbn; lia|]. cbn [length]. splits; try lia; vm_compute; reflexivity.
Qed.

Example c72_construction_any_case : exists p, make_msc tiny huge (qline l7) [1; 1] = Ok p /\ s_medoids p = [1; 1] /\ well_formed 7 p /\
  (total_deviation p == 113)%Q.
Proof.
  destruct (c72_construction_any tiny huge (qdist l7) 7 (qline l7) [1; 1] (qline_provides l7) tiny_pos) as (p & E & EM & Hw & _).
  - apply (in_checked l7). reflexivity.
  - cbn. lia.
  - exists p. splits; auto. vm_compute in E. injection E as <-. reflexivity.
Qed.

Example c72_construction_throws_case : make_msc tiny huge (qline l7) [3] = Throw /\ make_msc tiny huge (qline l7) [] = Throw.
Proof.
  split; apply (c72_construction_throws tiny huge (qdist l7) 7); try apply qline_provides; try (apply (in_checked l7); reflexivity); cbn; lia.
Qed.

Example c72_best_swap_case : exists delta lb, msc_best_swap tiny (qline l7) p7 3 = Ok (delta, 1) /\ (delta == 20632861 # 47898720)%Q /\
  silhouette_loss tiny (qdist l7) 7 [0; 3; 2] lb /\ (lb == 50881 # 16182)%Q /\ silhouette_loss tiny (qdist l7) 7 m7 (63493 # 17760).
Proof.
  destruct (line_described l7 m7) as (p & E & EM & H); [reflexivity|cbn; lia|reflexivity|].
  assert (Hl : silhouette_loss tiny (qdist l7) 7 m7 (63493 # 17760)).
  { eapply loss_m; [|apply (loss_checked l7 m7); reflexivity]. vm_compute. reflexivity. }
  pose proof Hl as Hl'. rewrite <- EM in Hl'.
  destruct (c72_best_swap tiny (qdist l7) 7 (qline l7) p 3 _ (qline_provides l7) H ltac:(lia) Hl') as (delta & b & lb & Eb & Hb & Hlb & Hdel & _).
  assert (p = p7) as -> by (vm_compute in E |- *; congruence).
  assert (b = 1) as -> by (vm_compute in Eb; congruence).
  exists delta, lb. split; auto. split; [vm_compute in Eb; injection Eb as <-; reflexivity|]. rewrite EM in Hlb. change (exchange m7 1 3) with [0; 3; 2] in Hlb. splits; auto.
  apply (loss_unique tiny (qdist l7) 7 [0; 3; 2]); auto. eapply loss_m; [|apply (loss_checked l7 [0; 3; 2]); reflexivity].
  vm_compute. reflexivity.
Qed.

(** Sample 3 is exchanged for the medoid at position 1. *)
Example c72_candidate_case : exists p', msc_try tiny (qline l7) 3 p7 = Ok p' /\ s_medoids p' = [0; 3; 2] /\
  described tiny (qdist l7) 7 p' /\ (total_deviation p' == 50881 # 16182)%Q.
Proof.
  destruct (line_described l7 m7) as (p & E & EM & H); [reflexivity|cbn; lia|reflexivity|].
  assert (Hl : silhouette_loss tiny (qdist l7) 7 (s_medoids p) (loss_of l7 m7)) by (rewrite EM; apply (loss_checked l7 m7); reflexivity).
  destruct (c72_candidate tiny (qdist l7) 7 (qline l7) p 3 _ (qline_provides l7) (qline_ok l7) H ltac:(lia) Hl) as (_ & HC).
  assert (p = p7) as -> by (vm_compute in E |- *; congruence).
  destruct HC as (b & lb & Hb & Hlb & Hmin & Hfirst & _ & HC); [vm_compute; discriminate|].
  assert (H1 : silhouette_loss tiny (qdist l7) 7 (exchange (s_medoids p7) 1 3) (50881 # 16182)).
  { rewrite EM. eapply loss_m; [|apply (loss_checked l7 [0; 3; 2]); reflexivity]. vm_compute. reflexivity. }
  assert (Hle : (lb <= 50881 # 16182)%Q) by (apply (Hmin 1); [rewrite EM; cbn; lia|exact H1]).
  assert (Hlt : (50881 # 16182 < loss_of l7 m7)%Q) by (vm_compute; reflexivity).
  destruct HC as (p' & Ep & EM' & Hp' & EL); [lra| |].
  - assert (HT : third_check l7 p7 3 = true) by (vm_compute; reflexivity). unfold third_check in HT. rewrite forallb_forall in HT.
    intros o Ho Hne H0. left. specialize (HT o ltac:(apply in_seq; cbn; lia)). rewrite !orb_true_iff, negb_true_iff, Nat.eqb_eq, Nat.eqb_neq in HT.
    destruct HT as [[HT|HT]|HT]; [contradiction|contradiction|now apply Qlt_bool_iff].
  - exists p'. split; auto. assert (EM2 : s_medoids p' = [0; 3; 2]) by (vm_compute in Ep; injection Ep as <-; reflexivity).
    splits; auto. rewrite EL. apply (loss_unique tiny (qdist l7) 7 (exchange (s_medoids p7) b 3)); auto.
    rewrite <- EM', EM2. rewrite EM in H1. exact H1.
Qed.

(** With the third nearest medoid at position 0 and farther candidates the buffers go wrong: the reported loss is not the silhouette
    loss of the medoids, and the latter can even have grown. *)
Theorem c72_loss_refuted : exists l M p q x, make_msc tiny huge (qline l) M = Ok p /\ described tiny (qdist l) (length l) p /\
  msc_step tiny (qline l) p = Ok q /\ NoDup (s_medoids q) /\ silhouette_loss tiny (qdist l) (length l) (s_medoids q) x /\
  ~ (total_deviation q == x)%Q.
Proof.
  set (l := [16; 4; 40; 36]%Z). destruct (line_described l [0; 3; 2]) as (p & E & EM & H); [reflexivity|cbn; lia|reflexivity|].
  exists l, [0; 3; 2], p, (get (msc_after l 1 [0; 3; 2])), (loss_of l [0; 3; 1]). split; auto. split; auto.
  vm_compute in E. injection E as <-. split; [vm_compute; reflexivity|].
  replace (s_medoids (get (msc_after l 1 [0; 3; 2]))) with [0; 3; 1] by (vm_compute; reflexivity).
  split; [repeat constructor; cbn; lia|]. split; [apply loss_checked; reflexivity|]. vm_compute. discriminate.
Qed.

Theorem c72_worse_refuted : exists l M p q x y, make_msc tiny huge (qline l) M = Ok p /\ described tiny (qdist l) (length l) p /\
  msc_step tiny (qline l) p = Ok q /\ NoDup (s_medoids q) /\ silhouette_loss tiny (qdist l) (length l) (s_medoids p) x /\
  silhouette_loss tiny (qdist l) (length l) (s_medoids q) y /\ (x < y)%Q.
Proof.
  set (l := [39; 12; 28; 22]%Z). destruct (line_described l [3; 0; 2]) as (p & E & EM & H); [reflexivity|cbn; lia|reflexivity|].
  exists l, [3; 0; 2], p, (get (msc_after l 1 [3; 0; 2])), (loss_of l [3; 0; 2]), (loss_of l [3; 2; 1]). split; auto. split; auto. rewrite EM.
  vm_compute in E. injection E as <-. split; [vm_compute; reflexivity|].
  replace (s_medoids (get (msc_after l 1 [3; 0; 2]))) with [3; 2; 1] by (vm_compute; reflexivity).
  split; [repeat constructor; cbn; lia|]. split; [apply loss_checked; reflexivity|]. split; [apply loss_checked; reflexivity|].
  vm_compute. reflexivity.
Qed.

(** A sample that is a medoid already can become one twice. *)
Theorem c72_distinct_refuted : exists l M p q, NoDup l /\ make_msc tiny huge (qline l) M = Ok p /\ described tiny (qdist l) (length l) p /\ NoDup M /\
  msc_step tiny (qline l) p = Ok q /\ ~ NoDup (s_medoids q).
Proof.
  set (l := [13; 39; 34; 30]%Z). destruct (line_described l [2; 1; 0]) as (p & E & EM & H); [reflexivity|cbn; lia|reflexivity|].
  exists l, [2; 1; 0], p, (get (msc_after l 1 [2; 1; 0])). split; [repeat constructor; cbn; lia|]. split; auto. split; auto.
  split; [repeat constructor; cbn; lia|]. vm_compute in E. injection E as <-. split; [vm_compute; reflexivity|].
  replace (s_medoids (get (msc_after l 1 [2; 1; 0]))) with [2; 0; 0] by (vm_compute; reflexivity).
  intros HN. inversion HN; subst. inversion H3; subst. apply H4. left. reflexivity.
Qed.

(** A sample whose index is the position of its nearest medoid is never tried. *)
Theorem c72_stuck_refuted : exists l M p c i x y, make_msc tiny huge (qline l) M = Ok p /\ described tiny (qdist l) (length l) p /\
  msc_step tiny (qline l) p = Ok p /\ c < length l /\ ~ In c M /\ i < length M /\
  silhouette_loss tiny (qdist l) (length l) (s_medoids p) x /\
  silhouette_loss tiny (qdist l) (length l) (exchange (s_medoids p) i c) y /\ (y < x)%Q.
Proof.
  set (l := [9; 19; 11; 2]%Z). destruct (line_described l [2; 3; 1]) as (p & E & EM & H); [reflexivity|cbn; lia|reflexivity|].
  exists l, [2; 3; 1], p, 0, 0, (loss_of l [2; 3; 1]), (loss_of l [0; 3; 1]). split; auto. split; auto. rewrite EM.
  vm_compute in E. injection E as <-. split; [vm_compute; reflexivity|]. splits; try (cbn; lia).
  - apply loss_checked. reflexivity.
  - apply (loss_checked l [0; 3; 1]). reflexivity.
  - vm_compute. reflexivity.
Qed.

(** Every sample a medoid: loss 0, nothing changes. *)
Example c72_optimum_stays_case : exists p, make_msc tiny huge (qline [0; 1; 3]%Z) [0; 1; 2] = Ok p /\
  described tiny (qdist [0; 1; 3]%Z) 3 p /\ msc_step tiny (qline [0; 1; 3]%Z) p = Ok p.
Proof.
  set (l := [0; 1; 3]%Z). destruct (line_described l [0; 1; 2]) as (p & E & EM & H); [reflexivity|cbn; lia|reflexivity|].
  exists p. split; auto. split; auto.
  apply (c72_optimum_stays tiny (qdist l) 3 (qline l) p (loss_of l [0; 1; 2]) (qline_provides l) (qline_ok l)); auto.
  - rewrite EM. apply (loss_checked l). reflexivity.
  - intros c i li Hc Hi Hli. assert (El : (loss_of l [0; 1; 2]%nat == 0)%Q) by (vm_compute; reflexivity). rewrite El.
    destruct Hli as (r & Hr & ->). rewrite EM in Hr. rewrite EM in Hi. cbn in Hi.
    assert (Hpos : forall o, o < 3 -> (0 <= r o)%Q).
    { intros o Ho. destruct (Hr o Ho) as (i1 & i2 & (H1 & H2 & _) & ->). unfold ratio. rewrite exchange_length in H1, H2 by (cbn; lia).
      destruct (Qlt_le_dec _ _) as [Hq|]; [|lra].
      assert (Hn : forall j, j < 3 -> nth j (exchange [0; 1; 2] i c) 0 < 3).
      { intros j Hj. rewrite nth_exchange by (cbn; lia). destruct (j =? i); auto. destruct j as [|[|[|]]]; cbn; lia. }
      pose proof (proj2 (qline_ok l) _ o (Hn i1 H1) Ho) as A1. pose proof (proj2 (qline_ok l) _ o (Hn i2 H2) Ho) as A2.
      unfold to_medoid. rewrite Qabs_pos in Hq by auto. apply Qle_shift_div_l; [|lra]. pose proof tiny_pos. unfold to_medoid in Hq. lra. }
    cbn. pose proof (Hpos 0%nat ltac:(lia)). pose proof (Hpos 1%nat ltac:(lia)). pose proof (Hpos 2%nat ltac:(lia)). lra.
Qed.

Example c72_steps_safe_case : exists q, steps 3 (msc_step tiny (qline l7)) p7 = Ok q /\ well_formed 7 q /\ s_medoids q = [0; 4; 2].
Proof.
  destruct (c72_construction_any tiny huge (qdist l7) 7 (qline l7) m7 (qline_provides l7) tiny_pos) as (p & E & EM & Hw & _).
  - apply (in_checked l7). reflexivity.
  - cbn. lia.
  - assert (p = p7) as -> by (vm_compute in E |- *; congruence).
    destruct (c72_steps_safe tiny (qdist l7) 7 (qline l7) p7 3 (qline_provides l7) Hw) as (q & Eq & Hq & _). exists q. splits; auto.
    vm_compute in Eq. injection Eq as <-. reflexivity.
Qed.

(** Two medoids. *)
Definition l4 : list Z := [1; 28; 0; 17]%Z.
Definition p4 : msc := get (msc_after l4 0 [1; 3]).

Lemma p4_ok : two_medoids huge (qdist l4) 4 p4.
Proof.
  destruct (line_two l4 [1; 3]) as (p & E & _ & H); [reflexivity|reflexivity|].
  assert (p = p4) as -> by (vm_compute in E |- *; congruence). exact H.
Qed.

Example c73_construction_case : two_medoids huge (qdist l4) 4 p4 /\ s_medoids p4 = [1; 3] /\ s_nearest p4 = [1; 0; 1; 1] /\
  s_distances p4 = [16; 0; 17; 0]%Q /\ s_second_distances p4 = [27; 11; 28; 11]%Q /\ total_deviation p4 = 33%Q.
Proof. split; [apply p4_ok|]. vm_compute. splits; reflexivity. Qed.

Example c73_candidate_case : tolerance_exact tiny huge (qdist l4) 4 /\ nth 2 (s_nearest p4) 0 <> 2 /\
  (counted_loss tiny (qdist l4) 4 p4 2 1 < counted_loss tiny (qdist l4) 4 p4 2 0)%Q /\
  (counted_loss tiny (qdist l4) 4 p4 2 1 < total_deviation p4)%Q /\
  exists q, msc_try tiny (qline l4) 2 p4 = Ok q /\ s_medoids q = [1; 2] /\
    (total_deviation q == counted_loss tiny (qdist l4) 4 p4 2 1)%Q /\ stored_other q 1 3 = 0%Q /\ stored_at q 1 3 = 17%Q.
Proof.
  assert (HX : tolerance_exact tiny huge (qdist l4) 4) by apply (line_exact l4).
  assert (H1 : (counted_loss tiny (qdist l4) 4 p4 2 1 < counted_loss tiny (qdist l4) 4 p4 2 0)%Q) by (vm_compute; reflexivity).
  assert (H2 : (counted_loss tiny (qdist l4) 4 p4 2 1 < total_deviation p4)%Q) by (vm_compute; reflexivity).
  split; auto. split; [vm_compute; discriminate|]. split; auto. split; auto.
  destruct (c73_candidate tiny huge (qdist l4) 4 (qline l4) p4 2 (qline_provides l4) p4_ok (qline_ok l4) HX ltac:(lia)) as (_ & HC).
  destruct HC as (b & Hb & Hmin & _ & _ & HC); [vm_compute; discriminate|].
  assert (b = 1) as ->. { destruct b as [|[|]]; auto; [|lia]. pose proof (Hmin 1 ltac:(lia)). lra. }
  destruct (HC H2) as (q & Eq & EM & _ & EL & HS & _). exists q. splits; auto.
  - destruct (HS 3 ltac:(lia)) as (_ & ->). reflexivity.
  - destruct (HS 3 ltac:(lia)) as (-> & _). reflexivity.
Qed.

(** Sample 0 stores 16 at position 0 and 27 at position 1; its medoid at position 1 is at distance 16, so its stored distance for the
    exchange of position 0 is wrong.  Sample 1 is nearest to the medoid at position 0, and counts what it should. *)
Example c73_counted_case : stored_other p4 0 1 = to_medoid (qdist l4) [1; 3] 1 1 /\ stored_other p4 0 0 <> to_medoid (qdist l4) [1; 3] 0 1 /\
  exists i1 i2, nearest_two (to_medoid (qdist l4) [2; 3] 1) 2 i1 i2 /\
    (smaller_over_larger tiny (qdist l4 2 1) (stored_other p4 0 1) ==
     ratio tiny (to_medoid (qdist l4) [2; 3]%nat 1 i1) (to_medoid (qdist l4) [2; 3]%nat 1 i2))%Q.
Proof.
  split; [reflexivity|]. split; [vm_compute; discriminate|].
  apply (c73_counted tiny (qdist l4) [1; 3] p4 2 0 1); auto.
Qed.

Example c73_step_case : exists q, msc_step tiny (qline l4) p4 = Ok q /\ (total_deviation q < total_deviation p4)%Q.
Proof.
  destruct (c73_step tiny huge (qdist l4) 4 (qline l4) p4 (qline_provides l4) p4_ok (qline_ok l4) (line_exact l4))
    as (q & Eq & _ & H).
  exists q. split; auto. destruct H as [->|H]; auto. exfalso. vm_compute in Eq. discriminate.
Qed.

Example c73_steps_case : exists q, steps 2 (msc_step tiny (qline l4)) p4 = Ok q /\ two_medoids huge (qdist l4) 4 q /\
  (total_deviation q < total_deviation p4)%Q.
Proof.
  destruct (c73_steps tiny huge (qdist l4) 4 (qline l4) p4 2 (qline_provides l4) p4_ok (qline_ok l4) (line_exact l4))
    as (q & Eq & Hq & H).
  exists q. splits; auto. destruct H as [->|H]; auto. exfalso. vm_compute in Eq. discriminate.
Qed.

(** The stored distances are those of the nearest and of the second nearest medoid at first, and are taken by position afterwards. *)
Theorem c73_loss_refuted : exists l M p q x, make_msc tiny huge (qline l) M = Ok p /\ separated tiny huge (qdist l) (length l) M /\
  two_medoids huge (qdist l) (length l) p /\ tolerance_exact tiny huge (qdist l) (length l) /\
  msc_step tiny (qline l) p = Ok q /\ NoDup (s_medoids q) /\ silhouette_loss tiny (qdist l) (length l) (s_medoids q) x /\
  (total_deviation q == 0)%Q /\ (0 < x)%Q.
Proof.
  exists l4, [1; 3], p4, (get (msc_after l4 1 [1; 3])), (loss_of l4 [1; 2]). split; [vm_compute; reflexivity|].
  split; [apply separated_checked; reflexivity|]. split; [apply p4_ok|]. split; [apply line_exact|].
  split; [vm_compute; reflexivity|].
  replace (s_medoids (get (msc_after l4 1 [1; 3]))) with [1; 2] by (vm_compute; reflexivity).
  split; [repeat constructor; cbn; lia|]. split; [apply loss_checked; reflexivity|]. split; vm_compute; reflexivity.
Qed.

Theorem c73_worse_refuted : exists l M p q x y, make_msc tiny huge (qline l) M = Ok p /\ separated tiny huge (qdist l) (length l) M /\
  msc_step tiny (qline l) p = Ok q /\ NoDup (s_medoids q) /\ silhouette_loss tiny (qdist l) (length l) (s_medoids p) x /\
  silhouette_loss tiny (qdist l) (length l) (s_medoids q) y /\ (x < y)%Q /\ (total_deviation q < total_deviation p)%Q.
Proof.
  set (l := [37; 13; 36; 29]%Z).
  exists l, [1; 2], (get (msc_after l 0 [1; 2])), (get (msc_after l 1 [1; 2])), (loss_of l [1; 2]), (loss_of l [1; 3]).
  split; [vm_compute; reflexivity|]. split; [apply separated_checked; reflexivity|]. split; [vm_compute; reflexivity|].
  replace (s_medoids (get (msc_after l 1 [1; 2]))) with [1; 3] by (vm_compute; reflexivity).
  replace (s_medoids (get (msc_after l 0 [1; 2]))) with [1; 2] by (vm_compute; reflexivity).
  split; [repeat constructor; cbn; lia|]. split; [apply loss_checked; reflexivity|]. split; [apply loss_checked; reflexivity|].
  split; vm_compute; reflexivity.
Qed.

Theorem c73_distinct_refuted : exists l M p q, NoDup l /\ NoDup M /\ make_msc tiny huge (qline l) M = Ok p /\
  separated tiny huge (qdist l) (length l) M /\ msc_step tiny (qline l) p = Ok q /\ exists m, s_medoids q = [m; m].
Proof.
  set (l := [35; 37; 14; 10]%Z). exists l, [3; 0], (get (msc_after l 0 [3; 0])), (get (msc_after l 1 [3; 0])).
  split; [repeat constructor; cbn; lia|]. split; [repeat constructor; cbn; lia|]. split; [vm_compute; reflexivity|].
  split; [apply separated_checked; reflexivity|]. split; [vm_compute; reflexivity|]. exists 3. vm_compute. reflexivity.
Qed.

Print Assumptions c72_construction.
Print Assumptions c72_construction_any.
Print Assumptions c72_construction_throws.
Print Assumptions c72_initial_loss_refuted.
Print Assumptions c72_tie_refuted.
Print Assumptions c72_best_swap.
Print Assumptions c72_candidate.
Print Assumptions c72_optimum_stays.
Print Assumptions c72_steps_safe.
Print Assumptions c72_loss_refuted.
Print Assumptions c72_worse_refuted.
Print Assumptions c72_distinct_refuted.
Print Assumptions c72_stuck_refuted.
Print Assumptions c73_construction.
Print Assumptions c73_candidate.
Print Assumptions c73_counted.
Print Assumptions c73_step.
Print Assumptions c73_steps.
Print Assumptions c73_loss_refuted.
Print Assumptions c73_worse_refuted.
Print Assumptions c73_distinct_refuted.
