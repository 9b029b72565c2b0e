(** Lemmas on random selection and on the alias table. *)
From Coq Require Import List Arith ZArith QArith Qround Lia Bool Permutation Lqa.
From Verif Require Import Base SortingModel BufferModel BufferSpec SearchModel MatrixModel MatrixProofs KMeansModel KMeansProofs
  RandomModel RandomSpec.
Import ListNotations.
Local Open Scope nat_scope.
Set Default Proof Using "Type".

(** ** Partial shuffle *)
Lemma upd_app {A} (l r : list A) i x : i < length l -> upd (l ++ r) i x = upd l i x ++ r.
Proof. revert i. induction l; intros [|i] H; simpl in *; try lia; auto. now rewrite IHl by lia. Qed.

Lemma swap_app {A} (l r : list A) i j : i < length l -> j < length l -> swap (l ++ r) i j = (l' <- swap l i j ;; Ok (l' ++ r)).
Proof.
  intros Hi Hj. destruct (nth_error l i) as [x|] eqn:Ex; [|apply nth_error_None in Ex; lia].
  destruct (nth_error l j) as [y|] eqn:Ey; [|apply nth_error_None in Ey; lia].
  rewrite (swap_lt l i j x y) by auto. rewrite (swap_lt (l ++ r) i j x y) by (rewrite nth_error_app1; auto).
  simpl. rewrite upd_app by auto. rewrite upd_app by now rewrite upd_length. reflexivity.
Qed.

Lemma swap_facts {A} (l : list A) i j : i < length l -> j < length l ->
  exists l', swap l i j = Ok l' /\ length l' = length l /\ Permutation l l'.
Proof.
  intros Hi Hj. destruct (nth_error l i) as [x|] eqn:Ex; [|apply nth_error_None in Ex; lia].
  destruct (nth_error l j) as [y|] eqn:Ey; [|apply nth_error_None in Ey; lia].
  rewrite (swap_lt l i j x y) by auto. eexists; splits; [reflexivity| |].
  - now rewrite !upd_length.
  - now apply swapped_perm.
Qed.

Definition shuffle {A} (tab : nat -> nat) (m i : nat) (l : list A) : res (list A) := for_loop m i (fun c s => swap s c (tab c)) l.

Lemma shuffle_app {A} (tab : nat -> nat) : forall m i (l r : list A), (forall c, i <= c < i + m -> c < length l /\ tab c < length l) ->
  shuffle tab m i (l ++ r) = (l' <- shuffle tab m i l ;; Ok (l' ++ r)).
Proof.
  unfold shuffle. induction m as [|m IH]; intros i l r H; cbn [for_loop]; auto.
  destruct (H i ltac:(lia)) as (H1 & H2). rewrite swap_app by auto. destruct (swap_facts l i (tab i)) as (l' & -> & Hl & _); auto.
  cbn [bind]. apply IH. intros c Hc. rewrite Hl. apply H. lia.
Qed.

Lemma shuffle_perm {A} (tab : nat -> nat) m i (l : list A) : (forall c, i <= c < i + m -> c < length l /\ tab c < length l) ->
  exists l', shuffle tab m i l = Ok l' /\ length l' = length l /\ Permutation l l'.
Proof.
  intros H. destruct (for_loop_inv (fun _ s => length s = length l /\ Permutation l s) (fun c s => swap s c (tab c)) m i l)
    as (l' & E & H1 & H2); eauto.
  intros c s Hc (H1 & H2). destruct (H c Hc). destruct (swap_facts s c (tab c)) as (s' & -> & H4 & H5); try lia.
  exists s'. splits; auto; [lia|]. now transitivity s.
Qed.

Lemma for_loop_ext {S} (b b' : nat -> S -> res S) : forall m i s, (forall c t, i <= c < i + m -> b c t = b' c t) ->
  for_loop m i b s = for_loop m i b' s.
Proof.
  induction m as [|m IH]; intros i s H; cbn [for_loop]; auto. rewrite H by lia. destruct (b' i s); auto. apply IH. intros; apply H; lia.
Qed.

(** The places already filled stay. *)
Lemma shuffle_keeps {A} (tab : nat -> nat) : forall m i (l l' : list A), (forall c, i <= c < i + m -> c <= tab c) ->
  shuffle tab m i l = Ok l' -> forall j, j < i -> nth_error l' j = nth_error l j.
Proof.
  unfold shuffle. induction m as [|m IH]; intros i l l' H E j Hj; cbn [for_loop] in E; [congruence|].
  apply bind_ok in E. destruct E as (s & Es & E). rewrite (IH (S i) s l') by (auto; intros; try apply H; lia).
  apply swap_ok in Es. destruct Es as (x & y & Ex & Ey & ->). rewrite (nth_error_swapped l i (tab i) x y) by auto.
  specialize (H i ltac:(lia)). destruct (Nat.eqb_spec j (tab i)); [lia|]. destruct (Nat.eqb_spec j i); [lia|]. auto.
Qed.

Lemma shuffle_first {A} (tab : nat -> nat) m i (l l' : list A) : (forall c, i <= c < i + S m -> c <= tab c) ->
  shuffle tab (S m) i l = Ok l' -> nth_error l' i = nth_error l (tab i).
Proof.
  intros H E. unfold shuffle in E. cbn [for_loop] in E. apply bind_ok in E. destruct E as (s & Es & E).
  rewrite (shuffle_keeps tab m (S i) s l') by (auto; intros; try apply H; lia).
  apply swap_ok in Es. destruct Es as (x & y & Ex & Ey & ->). rewrite (nth_error_swapped l i (tab i) x y) by auto.
  destruct (Nat.eqb_spec i (tab i)) as [Et|Et]; [|now rewrite Nat.eqb_refl].
  rewrite <- Et in Ey. rewrite <- Et. congruence.
Qed.

(** Different draws give different arrangements. *)
Lemma shuffle_injective {A} (tab tab' : nat -> nat) : forall m i (l l' : list A), NoDup l ->
  (forall c, i <= c < i + m -> c <= tab c) -> (forall c, i <= c < i + m -> c <= tab' c) ->
  shuffle tab m i l = Ok l' -> shuffle tab' m i l = Ok l' -> forall c, i <= c < i + m -> tab c = tab' c.
Proof.
  induction m as [|m IH]; intros i l l' Hn H1 H2 E1 E2 c Hc; [lia|].
  assert (Ht : tab i = tab' i).
  { pose proof (shuffle_first tab m i l l' H1 E1) as F1. pose proof (shuffle_first tab' m i l l' H2 E2) as F2.
    rewrite F1 in F2. unfold shuffle in E1. cbn [for_loop] in E1. apply bind_ok in E1. destruct E1 as (s & Es & _).
    apply swap_ok in Es. destruct Es as (x & y & Ex & Ey & _).
    apply (proj1 (NoDup_nth_error l) Hn (tab i) (tab' i)); auto. apply nth_error_lt with y; auto. }
  destruct (Nat.eq_dec c i) as [->|Hci]; auto. unfold shuffle in E1, E2. cbn [for_loop] in E1, E2. rewrite <- Ht in E2.
  apply bind_ok in E1. destruct E1 as (s & Es & E1). rewrite Es in E2. cbn [bind] in E2.
  apply (IH (S i) s l'); auto; try lia; try (intros; try apply H1; try apply H2; lia).
  apply swap_ok in Es. destruct Es as (x & y & Ex & Ey & ->). now apply (Permutation_NoDup (swapped_perm l i (tab i) x y Ex Ey)).
Qed.

(** Every arrangement is reached. *)
Lemma shuffle_surjective {A} : forall m i (l target : list A), Permutation l target -> i + m = length l ->
  (forall j, j < i -> nth_error l j = nth_error target j) ->
  exists tab, (forall c, i <= c < i + m -> c <= tab c < length l) /\ shuffle tab m i l = Ok target.
Proof.
  induction m as [|m IH]; intros i l target HP Hm Hpre.
  - exists (fun c => c). split; [lia|]. unfold shuffle. cbn [for_loop]. f_equal. apply nth_error_ext. intros j.
    destruct (Nat.lt_ge_cases j i) as [Hj|Hj]; auto.
    pose proof (Permutation_length HP). rewrite !(proj2 (nth_error_None _ _)) by lia. reflexivity.
  - pose proof (Permutation_length HP) as HL.
    destruct (nth_error target i) as [x|] eqn:Ex; [|apply nth_error_None in Ex; lia].
    assert (Hsplit : forall u : list A, i <= length u -> u = firstn i u ++ skipn i u) by (intros; now rewrite firstn_skipn).
    assert (Hf : firstn i l = firstn i target).
    { apply nth_error_ext. intros j. rewrite !nth_error_firstn'. destruct (Nat.ltb_spec j i); auto. }
    assert (Hp : Permutation (skipn i l) (skipn i target)).
    { apply Permutation_app_inv_l with (firstn i l). rewrite firstn_skipn. rewrite Hf. now rewrite firstn_skipn. }
    assert (Hin : In x (skipn i l)).
    { apply (Permutation_in x (Permutation_sym Hp)). apply nth_error_In with 0. rewrite nth_error_skipn'. now rewrite Nat.add_0_r. }
    apply In_nth_error in Hin. destruct Hin as (d & Hd). rewrite nth_error_skipn' in Hd.
    pose proof (nth_error_lt _ _ _ Hd) as Hlt.
    destruct (nth_error l i) as [z|] eqn:Ez; [|apply nth_error_None in Ez; lia].
    set (s := upd (upd l i x) (i + d) z).
    assert (Es : swap l i (i + d) = Ok s) by (apply swap_lt; auto).
    destruct (IH (S i) s target) as (tab & Ht & E).
    + transitivity l; auto. symmetry. now apply swapped_perm.
    + unfold s. rewrite !upd_length. lia.
    + intros j Hj. unfold s. rewrite (nth_error_swapped l i (i + d) z x) by auto.
      destruct (Nat.eqb_spec j (i + d)) as [->|Hjd].
      * assert (d = 0) by lia. subst d. rewrite Nat.add_0_r in *. congruence.
      * destruct (Nat.eqb_spec j i) as [->|Hji]; [congruence|]. apply Hpre. lia.
    + exists (fun c => if c =? i then i + d else tab c). split.
      * intros c Hc. destruct (Nat.eqb_spec c i) as [->|Hci]; [lia|]. unfold s in Ht. rewrite !upd_length in Ht. apply Ht. lia.
      * unfold shuffle. cbn [for_loop]. rewrite Nat.eqb_refl, Es. cbn [bind]. rewrite <- E. apply for_loop_ext.
        intros c t Hc. destruct (Nat.eqb_spec c i); [lia|]. auto.
Qed.

Lemma firstn_app_exact {A} (l r : list A) n : length l = n -> firstn n (l ++ r) = l.
Proof. intros <-. rewrite firstn_app, Nat.sub_diag, firstn_all. simpl. apply app_nil_r. Qed.

Lemma select_is_shuffle {A} (draw : generator) (l : list A) n : in_range draw -> n <= length l ->
  select_n_elements draw l n = shuffle (fun c => draw c c (n - 1)) n 0 (firstn n l) /\
  forall c, c < n -> c <= draw c c (n - 1) < n.
Proof.
  intros Hd Hn.
  assert (Hr : forall c, c < n -> c <= draw c c (n - 1) < n) by (intros c Hc; specialize (Hd c c (n - 1)); lia).
  assert (Hr' : forall c, 0 <= c < 0 + n -> c < length (firstn n l) /\ draw c c (n - 1) < length (firstn n l)).
  { intros c Hc. rewrite firstn_length. specialize (Hr c). lia. }
  split; auto. unfold select_n_elements.
  change (for_loop n 0 _ l) with (shuffle (fun c => draw c c (n - 1)) n 0 l).
  rewrite <- (firstn_skipn n l) at 1. rewrite shuffle_app by auto.
  destruct (shuffle_perm (fun c => draw c c (n - 1)) n 0 (firstn n l) Hr') as (l' & E & Hl & _). rewrite E. cbn [bind].
  rewrite firstn_app_exact; auto. rewrite Hl, firstn_length. lia.
Qed.

(** Too many elements asked for: some access is out of range. *)
Lemma select_too_many {A} (draw : generator) (l : list A) n : in_range draw -> length l < n -> select_n_elements draw l n = UB.
Proof.
  intros Hd Hn. unfold select_n_elements.
  assert (G : forall m i (s : list A), length s = length l -> i <= length l -> length l < i + m ->
    for_loop m i (fun c s => swap s c (draw c c (n - 1))) s = UB).
  { induction m as [|m IH]; intros i s Hs Hi Hm; [lia|]. cbn [for_loop].
    destruct (swap s i (draw i i (n - 1))) as [s'| | |] eqn:Es.
    - cbn [bind]. apply swap_ok in Es. destruct Es as (x & y & Ex & Ey & ->). apply nth_error_lt in Ex. apply IH; rewrite ?upd_length; lia.
    - reflexivity.
    - unfold swap, rd in Es. destruct (nth_error s i) eqn:E1; [|discriminate]. destruct (nth_error s (draw i i (n - 1))) eqn:E2; [|discriminate].
      apply nth_error_lt in E1, E2. cbn [bind] in Es. rewrite wr_lt in Es by auto. cbn [bind] in Es. rewrite wr_lt in Es by (rewrite upd_length; auto). discriminate.
    - unfold swap, rd in Es. destruct (nth_error s i) eqn:E1; [|discriminate]. destruct (nth_error s (draw i i (n - 1))) eqn:E2; [|discriminate].
      apply nth_error_lt in E1, E2. cbn [bind] in Es. rewrite wr_lt in Es by auto. cbn [bind] in Es. rewrite wr_lt in Es by (rewrite upd_length; auto). discriminate. }
  rewrite G by lia. reflexivity.
Qed.

(** ** Gathering rows *)
Lemma copy_row {A} (samples v : list A) nf n k index c : length samples = n * nf -> length v = k * nf -> index < n -> c < k ->
  for_loop nf 0 (fun f v => x <- rd samples (index * nf + f) ;; wr v (c * nf + f) x) v =
  Ok (splice v (c * nf) (c * nf + nf) (row samples nf index)).
Proof.
  intros Hs Hv Hi Hc.
  destruct (for_loop_inv (fun done v' => length v' = k * nf /\ forall j, nth_error v' j =
      if (c * nf <=? j) && (j <? c * nf + done) then nth_error samples (index * nf + (j - c * nf)) else nth_error v j)
    (fun f v => x <- rd samples (index * nf + f) ;; wr v (c * nf + f) x) nf 0 v) as (v' & E & H1 & H2).
  - split; auto. intros j. destruct (Nat.leb_spec (c * nf) j), (Nat.ltb_spec j (c * nf + 0)); simpl; auto. lia.
  - intros f v' Hf (H1 & H2).
    assert (index * nf + f < length samples) by nia. assert (c * nf + f < length v') by nia.
    destruct (rd_lt samples (index * nf + f)) as (x & Ex); auto. rewrite Ex. cbn [bind]. rewrite wr_lt by auto.
    eexists; split; [reflexivity|]. rewrite upd_length. split; auto. intros j.
    destruct (Nat.eq_dec j (c * nf + f)) as [->|Hj].
    + rewrite nth_error_upd_eq by auto. apply rd_ok in Ex.
      destruct (Nat.leb_spec (c * nf) (c * nf + f)); [|lia]. destruct (Nat.ltb_spec (c * nf + f) (c * nf + S f)); [|lia]. simpl.
      replace (c * nf + f - c * nf) with f by lia. auto.
    + rewrite nth_error_upd_neq by auto. rewrite H2.
      destruct (Nat.leb_spec (c * nf) j); simpl; auto.
      destruct (Nat.ltb_spec j (c * nf + f)), (Nat.ltb_spec j (c * nf + S f)); auto; lia.
  - rewrite E. f_equal. apply nth_error_ext. intros j. rewrite H2. cbn [plus].
    rewrite nth_splice; [|lia|nia|rewrite (row_length' samples nf n) by auto; lia].
    destruct (Nat.leb_spec (c * nf) j); simpl; auto. destruct (Nat.ltb_spec j (c * nf + nf)); simpl; auto.
    rewrite nth_row. destruct (Nat.ltb_spec (j - c * nf) nf); auto. lia.
Qed.

Lemma rows_ext {A} (v w : list A) nf k : nf <> 0 -> length v = k * nf -> length w = k * nf ->
  (forall c, c < k -> row v nf c = row w nf c) -> v = w.
Proof.
  intros Hnf Hv Hw H. apply nth_error_ext. intros j. destruct (Nat.lt_ge_cases j (k * nf)) as [Hj|Hj].
  - assert (Hc : j / nf < k) by (apply Nat.div_lt_upper_bound; lia).
    pose proof (Nat.div_mod j nf Hnf) as Hd. pose proof (Nat.mod_upper_bound j nf Hnf) as Hm.
    pose proof (nth_row v nf (j / nf) (j mod nf)) as E1. pose proof (nth_row w nf (j / nf) (j mod nf)) as E2.
    destruct (Nat.ltb_spec (j mod nf) nf); [|lia]. rewrite H in E1 by auto. rewrite E1 in E2.
    replace (j / nf * nf + j mod nf) with j in E2 by lia. auto.
  - rewrite !(proj2 (nth_error_None _ _)) by lia. reflexivity.
Qed.

Lemma flat_rows_length {A} (samples : list A) nf n idx : length samples = n * nf -> (forall i, In i idx -> i < n) ->
  length (flat_map (row samples nf) idx) = length idx * nf.
Proof.
  intros Hs. induction idx as [|i idx IH]; intros H; simpl; auto. rewrite app_length, (row_length' samples nf n), IH by (simpl in *; auto). lia.
Qed.

Lemma row_flat {A} (samples : list A) nf n idx c i : length samples = n * nf -> (forall i, In i idx -> i < n) -> nth_error idx c = Some i ->
  row (flat_map (row samples nf) idx) nf c = row samples nf i.
Proof.
  intros Hs. revert c. induction idx as [|x idx IH]; intros c H E; [destruct c; discriminate|].
  assert (Hl : length (row samples nf x) = nf) by (apply (row_length' samples nf n); simpl in *; auto).
  unfold row at 1. destruct c as [|c]; cbn [nth_error flat_map] in *.
  - injection E as <-. simpl. now rewrite firstn_app_exact.
  - rewrite skipn_app. rewrite Hl. rewrite skipn_all2 by (rewrite Hl; simpl; lia). simpl app.
    replace (nf + c * nf - nf) with (c * nf) by lia. apply (IH c); auto. intros; apply H; simpl; auto.
Qed.

Lemma gather_rows {A} (zero : A) (samples : list A) nf n idx : nf <> 0 -> length samples = n * nf -> (forall i, In i idx -> i < n) ->
  for_loop (length idx) 0 (fun c v => i <- rd idx c ;; s <- sample_at samples nf i ;; Ok (splice v (c * nf) (c * nf + nf) s))
    (repeat zero (length idx * nf)) = Ok (flat_map (row samples nf) idx).
Proof.
  intros Hnf Hs Hin.
  destruct (for_loop_inv (fun done v => length v = length idx * nf /\ forall c i, c < done -> nth_error idx c = Some i -> row v nf c = row samples nf i)
    (fun c v => i <- rd idx c ;; s <- sample_at samples nf i ;; Ok (splice v (c * nf) (c * nf + nf) s)) (length idx) 0
    (repeat zero (length idx * nf))) as (v & E & H1 & H2).
  - split; [apply repeat_length|]. lia.
  - intros c v Hc (H1 & H2). destruct (rd_lt idx c) as (i & Ei); [lia|]. rewrite Ei. cbn [bind]. apply rd_ok in Ei.
    pose proof (Hin i (nth_error_In _ _ Ei)) as Hi. rewrite (sample_row' samples nf n) by auto. cbn [bind].
    destruct (row_splice v nf (length idx) c (row samples nf i)) as (G1 & G2 & G3); auto; [lia|apply (row_length' samples nf n); auto|].
    eexists; split; [reflexivity|]. split; auto. intros c' i' Hc' Ei'. destruct (Nat.eq_dec c' c) as [->|Hn].
    + rewrite G2. congruence.
    + rewrite G3 by auto. apply H2; auto. lia.
  - rewrite E. f_equal. apply (rows_ext v _ nf (length idx)); auto.
    + apply (flat_rows_length samples nf n); auto.
    + intros c Hc. destruct (nth_error idx c) as [i|] eqn:Ei; [|apply nth_error_None in Ei; lia].
      rewrite (row_flat samples nf n idx c i) by auto. apply H2; auto.
Qed.

(** ** Bounding box of the samples *)
Section Spatial.
Context (numeric_max numeric_min : Z) (samples : list Z) (nf n : nat) (Hs : length samples = n * nf).
Definition cell (i f : nat) : Z := nth (i * nf + f) samples 0%Z.
Definition boxed (count f : nat) (buffers : list Z * list Z) : Prop :=
  exists lo hi, nth_error (fst buffers) f = Some lo /\ nth_error (snd buffers) f = Some hi /\
    (forall i, i < count -> (lo <= cell i f <= hi)%Z) /\
    (lo = numeric_max \/ exists i, i < count /\ lo = cell i f) /\ (hi = numeric_min \/ exists i, i < count /\ hi = cell i f).

Lemma boxed_step count f mins maxs lo hi x : length mins = nf -> length maxs = nf -> f < nf -> cell count f = x ->
  nth_error mins f = Some lo -> nth_error maxs f = Some hi -> boxed count f (mins, maxs) ->
  boxed (S count) f (upd mins f (if Z.ltb lo x then lo else x), upd maxs f (if Z.ltb x hi then hi else x)).
Proof using Type Hs.
  intros L1 L2 Hf Ex E1 E2 (lo' & hi' & F1 & F2 & Hb & Hlo & Hhi). simpl in F1, F2. rewrite E1 in F1. rewrite E2 in F2.
  injection F1 as <-. injection F2 as <-. unfold boxed. simpl.
  rewrite nth_error_upd_eq by lia. rewrite nth_error_upd_eq by lia. do 2 eexists. split; [reflexivity|]. split; [reflexivity|].
  destruct (Z.ltb_spec lo x) as [H1|H1], (Z.ltb_spec x hi) as [H2|H2].
  all: splits.
  all: try (intros i Hi; destruct (Nat.eq_dec i count) as [->|Hn]; [lia|specialize (Hb i ltac:(lia)); lia]).
  all: try (right; exists count; split; [lia|auto]; fail).
  all: try (destruct Hlo as [?|(i & Hi & ?)]; [left; auto|right; exists i; split; [lia|auto]]; fail).
  all: try (destruct Hhi as [?|(i & Hi & ?)]; [left; auto|right; exists i; split; [lia|auto]]; fail).
Qed.

Lemma boxed_other count f mins maxs g x y : f <> g -> boxed count f (mins, maxs) -> boxed count f (upd mins g x, upd maxs g y).
Proof using Type. intros H (lo & hi & E1 & E2 & R). exists lo, hi. simpl in *. rewrite !nth_error_upd_neq by auto. auto. Qed.

Lemma min_max_ok : exists mins maxs, min_max_buffers numeric_max numeric_min samples nf n = Ok (mins, maxs) /\
  length mins = nf /\ length maxs = nf /\ forall f, f < nf -> boxed n f (mins, maxs).
Proof using Hs.
  unfold min_max_buffers.
  match goal with |- context [for_loop n 0 ?b ?s] =>
    destruct (for_loop_inv (fun done st => length (fst st) = nf /\ length (snd st) = nf /\ forall f, f < nf -> boxed done f st) b n 0 s)
      as ((mins & maxs) & E & H1 & H2 & H3) end.
  - simpl. rewrite !repeat_length. splits; auto. intros f Hf. exists numeric_max, numeric_min. simpl.
    rewrite !nth_error_repeat by auto. splits; auto. lia.
  - intros i st Hi (H1 & H2 & H3).
    match goal with |- context [for_loop nf 0 ?b st] =>
      destruct (for_loop_inv (fun done st => length (fst st) = nf /\ length (snd st) = nf /\
        forall f, f < nf -> boxed (if f <? done then S i else i) f st) b nf 0 st) as (st' & E & G1 & G2 & G3) end.
    + splits; auto.
    + intros f (mins & maxs) Hf (G1 & G2 & G3). simpl in G1, G2.
      assert (Hx : rd samples (f + i * nf) = Ok (cell i f)).
      { apply rd_ok. unfold cell. rewrite Nat.add_comm. apply nth_error_nth'. nia. }
      rewrite Hx. cbn [bind]. destruct (rd_lt mins f) as (lo & E1); [lia|]. rewrite E1. cbn [bind].
      destruct (rd_lt maxs f) as (hi & E2); [lia|]. rewrite E2. cbn [bind]. rewrite !wr_lt by lia. cbn [bind].
      apply rd_ok in E1, E2. eexists; split; [reflexivity|]. simpl. rewrite !upd_length. splits; auto.
      intros g Hg. specialize (G3 g Hg). destruct (Nat.eq_dec g f) as [->|Hn].
      * destruct (Nat.ltb_spec f f); [lia|]. destruct (Nat.ltb_spec f (S f)); [|lia]. apply boxed_step; auto.
      * apply boxed_other; auto. destruct (Nat.ltb_spec g f), (Nat.ltb_spec g (S f)); auto; lia.
    + exists st'. splits; auto. intros f Hf. specialize (G3 f Hf). destruct (Nat.ltb_spec f (0 + nf)); [auto|lia].
  - exists mins, maxs. splits; auto.
Qed.
End Spatial.

Lemma spatial_ok numeric_max numeric_min samples nf n k real : nf <> 0 -> length samples = n * nf -> 0 < n -> real_in_range real ->
  (forall x, In x samples -> (x <= numeric_max)%Z) ->
  exists v, init_spatial_uniform numeric_max numeric_min real samples nf k = Ok v /\ length v = k * nf /\
    forall c f, c < k -> f < nf -> exists x, nth_error v (c * nf + f) = Some x /\
      (exists i, i < n /\ (cell samples nf i f <= x)%Z) /\
      ((x <= numeric_min)%Z \/ exists i, i < n /\ (x <= cell samples nf i f)%Z).
Proof.
  intros Hnf Hs Hn Hr Hmax. unfold init_spatial_uniform.
  destruct (n_rows samples samples nf n n Hnf Hs Hs) as (-> & _). cbn [bind].
  destruct (min_max_ok numeric_max numeric_min samples nf n Hs) as (mins & maxs & -> & L1 & L2 & HB). cbn [bind].
  set (good := fun f x => (exists i, i < n /\ (cell samples nf i f <= x)%Z) /\
      ((x <= numeric_min)%Z \/ exists i, i < n /\ (x <= cell samples nf i f)%Z)).
  match goal with |- context [for_loop k 0 ?b ?s] =>
    destruct (for_loop_inv (fun done v => length v = k * nf /\
      forall c f, c < done -> f < nf -> exists x, nth_error v (c * nf + f) = Some x /\ good f x) b k 0 s) as (v & E & H1 & H2) end.
  - rewrite repeat_length. split; auto. lia.
  - intros c v Hc (H1 & H2).
    match goal with |- context [for_loop nf 0 ?b v] =>
      destruct (for_loop_inv (fun done v => length v = k * nf /\
        forall c' f, c' < c \/ (c' = c /\ f < done) -> f < nf -> exists x, nth_error v (c' * nf + f) = Some x /\ good f x) b nf 0 v)
        as (v' & E & G1 & G2) end.
    + split; auto. intros c' f [Hlt|(-> & Hlt)] Hf; [auto|lia].
    + intros f v' Hf (G1 & G2). destruct (HB f ltac:(lia)) as (lo & hi & E1 & E2 & Hb & Hlo & Hhi). simpl in E1, E2.
      rewrite (proj2 (rd_ok mins f lo) E1). cbn [bind]. rewrite (proj2 (rd_ok maxs f hi) E2). cbn [bind].
      pose proof (Hb 0 Hn) as Hb0. destruct (Z.ltb_spec hi lo); [lia|]. rewrite wr_lt by nia. eexists; split; [reflexivity|].
      rewrite upd_length. split; auto. intros c' g Hor Hg.
      destruct (Nat.eq_dec (c' * nf + g) (f + c * nf)) as [Eq|Hne].
      * assert (g = f) by nia. subst g. rewrite Eq, nth_error_upd_eq by nia. eexists; split; [reflexivity|].
        destruct (Hr (c * nf + f) lo hi) as (R1 & R2); [auto|]. split.
        -- destruct Hlo as [->|(i & Hi & ->)]; [|eauto]. exists 0. split; auto.
           apply Z.le_trans with numeric_max; auto. apply Hmax. unfold cell. apply nth_In. nia.
        -- destruct Hhi as [->|(i & Hi & ->)]; eauto.
      * rewrite nth_error_upd_neq by auto. apply G2; auto. destruct Hor as [|(-> & Hlt)]; auto. right. split; auto.
        assert (g <> f) by (intros ->; lia). lia.
    + exists v'. split; auto. split; auto. intros c' f Hc' Hf. apply G2; auto. lia.
  - exists v. auto.
Qed.
