(** k-means++ on [float] and [double] samples. *)
From Coq Require Import Reals List Arith ZArith Bool Lia Lra Psatz.
From Flocq Require Import Core BinarySingleNaN.
From Verif Require Import Base BufferSpec DistancesProofs KMeansProofs RandomModel RandomSpec RandomProofs PlusPlusProofs FloatModel FloatSpec FloatProofs FloatProps AccuracySpec AccuracyProofs AccuracyProps
  FloatSilhouetteModel FloatSilhouetteProofs FloatSilhouetteProps FloatKMeansModel FloatKMeansSpec FloatKMeansProofs FloatKMeansProps
  FloatAliasModel FloatAliasSpec FloatAliasProofs FloatAliasProps FloatPlusPlusModel FloatPlusPlusProofs.
Import ListNotations.
Open Scope R_scope.

Section Formats.
Context {prec emax : Z} (Hp : Prec_gt_0 prec) (Hm : Prec_lt_emax prec emax) (Hfmt : format_ok prec emax).
Notation number := (binary_float prec emax).
Notation u := (roundoff prec).
Notation make := (float_centroids prec emax Hp Hm).
Notation make_previous := (float_centroids_previous prec emax Hp Hm).
Notation euclid := (euclidean prec emax Hp Hm).
Notation zero := (B754_zero false : number).

(** Whatever the samples contain, both functions give samples, as many as asked for, and one if none is asked for. *)
Theorem c111_samples : forall order (samples : list number) nf n draw unit k,
  nf <> 0%nat -> (length samples = n * nf)%nat -> (0 < n)%nat -> (Z.of_nat n <= 2 ^ (emax - 1))%Z ->
  in_range draw -> (forall c, canonical (unit c)) ->
  exists idx idx', make order draw unit samples nf k = Ok (flat_map (row samples nf) idx) /\
    make_previous order draw unit samples nf k = Ok (flat_map (row samples nf) idx') /\
    length idx = Nat.max 1 k /\ length idx' = Nat.max 1 k /\ forall i, In i (idx ++ idx') -> (i < n)%nat.
Proof using Hfmt.
  intros order samples nf n draw unit k Hnf Hs Hn Hz Hd Hu. destruct Hfmt as (Hprec & Hemax).
  assert (N : forall c idx, (forall i, In i idx -> (i < n)%nat) -> idx <> [] -> exists i, (i < n)%nat /\
    float_next prec emax Hp Hm order samples nf unit c (flat_map (row samples nf) idx) = Ok (row samples nf i) /\ (fun _ _ => True) idx i).
  { intros c idx Hi Hne. apply (next_any prec emax Hp Hm Hprec Hemax order samples nf n Hnf Hs unit Hu); auto. }
  destruct (all_loop samples nf n Hnf Hs Hn _ _ N draw k Hd) as (idx & E & L & B & _).
  destruct (previous_loop samples nf n Hnf Hs Hn _ _ N draw k Hd) as (idx' & E' & L' & B' & _).
  exists idx, idx'. splits; auto; try lia. intros i Hi. apply in_app_or in Hi. destruct Hi; auto.
Qed.

(** A centroid has a computed distance above 0 from each centroid before it (from the one just before it), unless every
    sample has the computed distance 0 from one of those; also if distances overflow. *)
Theorem c111_away : forall order (samples : list number) nf n draw unit k,
  finite_numbers samples -> nf <> 0%nat -> (length samples = n * nf)%nat -> (0 < n)%nat ->
  4 * INR n * (INR n + 2) * u < 1 -> (3 * prec + 6 <= emax)%Z ->
  let d i j := euclid order (row samples nf i) (row samples nf j) in
  in_range draw -> (forall c, canonical (unit c)) ->
  exists idx idx', make order draw unit samples nf k = Ok (flat_map (row samples nf) idx) /\
    make_previous order draw unit samples nf k = Ok (flat_map (row samples nf) idx') /\
    length idx = Nat.max 1 k /\ length idx' = Nat.max 1 k /\ (forall i, In i (idx ++ idx') -> (i < n)%nat) /\
    (forall c i, (0 < c)%nat -> nth_error idx c = Some i ->
      (forall j, In j (firstn c idx) -> Bltb zero (d i j) = true) \/ forall i, (i < n)%nat -> exists j, In j (firstn c idx) /\ d i j = zero) /\
    (forall c i j, nth_error idx' c = Some j -> nth_error idx' (S c) = Some i -> Bltb zero (d i j) = true \/ forall i, (i < n)%nat -> d i j = zero).
Proof using Hfmt.
  intros order samples nf n draw unit k Fs Hnf Hs Hn Hsize Hrange d Hd Hu. destruct Hfmt as (Hprec & Hemax).
  assert (N : forall c idx, (forall i, In i idx -> (i < n)%nat) -> idx <> [] -> exists i, (i < n)%nat /\
    float_next prec emax Hp Hm order samples nf unit c (flat_map (row samples nf) idx) = Ok (row samples nf i) /\ far prec emax Hp Hm order samples nf n idx i).
  { intros c idx Hi Hne. apply (next_far prec emax Hp Hm Hprec Hemax order samples nf n Hnf Hs unit Hu); auto. }
  destruct (all_loop samples nf n Hnf Hs Hn _ _ N draw k Hd) as (idx & E & L & B & C).
  destruct (previous_loop samples nf n Hnf Hs Hn _ _ N draw k Hd) as (idx' & E' & L' & B' & C').
  exists idx, idx'. splits; auto; try lia.
  - intros i Hi. apply in_app_or in Hi. destruct Hi; auto.
  - intros c i j Ej Ei. destruct (C' (S c) i ltac:(lia) Ei) as [H|H].
    + left. apply H. left. rewrite (firstn_snoc_nth idx' c j Ej). apply last_last.
    + right. intros i' Hi'. destruct (H i' Hi') as (j' & [Hj|[]] & E0). rewrite (firstn_snoc_nth idx' c j Ej), last_last in Hj. subst j'. exact E0.
Qed.

(** If moreover only equal samples have the computed distance 0, and there are at least [k] different samples, the [k]
    centroids are different. *)
Theorem c111_distinct : forall order (samples : list number) nf n draw unit k,
  finite_numbers samples -> nf <> 0%nat -> (length samples = n * nf)%nat -> (0 < n)%nat ->
  4 * INR n * (INR n + 2) * u < 1 -> (3 * prec + 6 <= emax)%Z ->
  let d i j := euclid order (row samples nf i) (row samples nf j) in
  (forall i j, (i < n)%nat -> (j < n)%nat -> d i j = zero -> row samples nf i = row samples nf j) ->
  (exists l, NoDup (map (row samples nf) l) /\ (forall i, In i l -> (i < n)%nat) /\ length l = k) -> (0 < k)%nat ->
  in_range draw -> (forall c, canonical (unit c)) ->
  exists v, make order draw unit samples nf k = Ok v /\ (length v = k * nf)%nat /\ NoDup (map (row v nf) (seq 0 k)).
Proof using Hfmt.
  intros order samples nf n draw unit k Fs Hnf Hs Hn Hsize Hrange d Hsep Hl Hk Hd Hu.
  destruct (c111_away order samples nf n draw unit k Fs Hnf Hs Hn Hsize Hrange Hd Hu) as (idx & idx' & E & _ & L & _ & B & C & _).
  assert (B' : forall i, In i idx -> (i < n)%nat) by (intros i Hi; apply B, in_or_app; now left).
  destruct Hfmt as (Hprec & Hemax). exists (flat_map (row samples nf) idx). split; [exact E|].
  assert (Lk : length idx = k) by lia. split; [rewrite (flat_rows_length samples nf n); auto; now rewrite Lk|].
  replace (map (row (flat_map (row samples nf) idx) nf) (seq 0 k)) with (map (row samples nf) idx).
  - apply (far_distinct prec emax Hp Hm Hprec Hemax order samples nf n Hnf Hs Fs idx k); auto; lia.
  - rewrite <- Lk. apply nth_error_ext. intros j. rewrite !nth_error_map. destruct (Nat.lt_ge_cases j (length idx)) as [Hj|Hj].
    + assert (Es : nth_error (seq 0 (length idx)) j = Some j) by (rewrite nth_error_nth' with (d := 0%nat) by (now rewrite seq_length); now rewrite seq_nth). rewrite Es. cbn [option_map].
      destruct (nth_error idx j) as [i|] eqn:Ei; [|apply nth_error_None in Ei; lia]. cbn [option_map]. f_equal. symmetry. apply (row_flat samples nf n); auto.
    + rewrite (proj2 (nth_error_None idx j)), (proj2 (nth_error_None (seq 0 (length idx)) j)) by (rewrite ?seq_length; auto). reflexivity.
Qed.
End Formats.

(** ** Cases *)
Notation singles := (list (binary_float 24 128)).
Notation single_centroids := (float_centroids 24 128 prec_float emax_float libstdcxx).
Notation single_previous := (float_centroids_previous 24 128 prec_float emax_float libstdcxx).
Notation single_distance := (euclidean 24 128 prec_float emax_float libstdcxx).

Definition five : singles := [single 0 0; single 1 0; single 3 0; single 3 0; single 7 0].
Definition last_one (call lower upper : nat) : nat := upper.
Definition constant (r : binary_float 24 128) (call : nat) : binary_float 24 128 := r.

Lemma last_in_range : in_range last_one.
Proof. intros call lower upper H. unfold last_one. lia. Qed.

Lemma constant_ok r : is_finite r = true -> 0 <= B2R r < 1 -> forall c, canonical (constant r c).
Proof. intros F H c. split; auto. Qed.

Lemma five_finite : finite_numbers five.
Proof. repeat (constructor; [reflexivity|]). constructor. Qed.

Lemma five_size : 4 * INR 5 * (INR 5 + 2) * roundoff 24 < 1.
Proof. unfold roundoff. simpl. lra. Qed.

Definition five_check (i j : nat) : bool :=
  (Bltb (B754_zero false) (single_distance (row five 1 i) (row five 1 j)) || (i =? j) || ((i + j =? 5) && (1 <? i) && (1 <? j)))%nat.

Lemma five_distances i j : (i < 5)%nat -> (j < 5)%nat -> single_distance (row five 1 i) (row five 1 j) = B754_zero false -> row five 1 i = row five 1 j.
Proof.
  intros Hi Hj E. assert (H : forallb (fun i => forallb (five_check i) (seq 0 5)) (seq 0 5) = true) by (vm_compute; reflexivity).
  rewrite forallb_forall in H. specialize (H i ltac:(apply in_seq; lia)). rewrite forallb_forall in H. specialize (H j ltac:(apply in_seq; lia)).
  unfold five_check in H. rewrite E in H. cbn [Bltb orb] in H. change (Bltb (B754_zero false) (B754_zero false : binary_float 24 128)) with false in H. cbn [orb] in H.
  apply orb_prop in H. destruct H as [Z|Z]; [apply Nat.eqb_eq in Z; now subst j|].
  apply andb_prop in Z. destruct Z as (Z & Z3). apply andb_prop in Z. destruct Z as (Z1 & Z2).
  apply Nat.eqb_eq in Z1. apply Nat.ltb_lt in Z2, Z3. assert (C : (i = 2 /\ j = 3 \/ i = 3 /\ j = 2)%nat) by lia. destruct C as [(-> & ->)|(-> & ->)]; reflexivity.
Qed.

Definition values (v : res singles) : list SpecFloat.spec_float := match v with Ok v => map B2SF v | _ => [] end.

Example c111_samples_case :
  values (single_centroids last_one (constant (single 1 (-1))) five 1 3) = map B2SF [single 7 0; single 3 0; single 0 0] /\
  values (single_previous last_one (constant (single 1 (-1))) five 1 3) = map B2SF [single 7 0; single 3 0; single 0 0].
Proof. split; vm_compute; reflexivity. Qed.

Example c111_away_case : exists idx idx', single_centroids last_one (constant (single 1 (-1))) five 1 3 = Ok (flat_map (row five 1) idx) /\
  single_previous last_one (constant (single 1 (-1))) five 1 3 = Ok (flat_map (row five 1) idx') /\ length idx = 3%nat /\ length idx' = 3%nat.
Proof.
  destruct (c111_away prec_float emax_float float_format libstdcxx five 1 5 last_one (constant (single 1 (-1))) 3) as (idx & idx' & E & E' & L & L' & _).
  - exact five_finite.
  - lia.
  - reflexivity.
  - lia.
  - exact five_size.
  - lia.
  - exact last_in_range.
  - apply constant_ok; [reflexivity|values_in; lra].
  - exists idx, idx'. auto.
Qed.

Example c111_away_overflow_case :
  map (fun r => values (single_centroids last_one (constant r) [single 1 0; single 1 100; single 0 0] 1 3)) [single 0 0; single 1 (-1); single 3 (-2)] =
  map (map B2SF) [[single 0 0; single 1 100; single 1 0]; [single 0 0; single 1 100; single 1 0]; [single 0 0; single 1 100; single 1 0]].
Proof. vm_compute. reflexivity. Qed.

Example c111_distinct_case : exists v, single_centroids last_one (constant (single 1 (-1))) five 1 4 = Ok v /\ length v = 4%nat /\ NoDup (map (row v 1) (seq 0 4)).
Proof.
  apply (c111_distinct prec_float emax_float float_format libstdcxx five 1 5 last_one (constant (single 1 (-1))) 4).
  - exact five_finite.
  - lia.
  - reflexivity.
  - lia.
  - exact five_size.
  - lia.
  - intros i j Hi Hj Z. now apply five_distances.
  - exists [0; 1; 2; 4]%nat. split; [|split; [intros i Hi; simpl in Hi; lia|reflexivity]].
    apply (NoDup_map_inv (map (@B2SF 24 128))). vm_compute. repeat constructor; simpl; intuition discriminate.
  - lia.
  - exact last_in_range.
  - apply constant_ok; [reflexivity|values_in; lra].
Qed.

(** Without the bound on the number of samples, or when squares of differences underflow, a sample may be chosen twice
    while others differ from it: among 4500 [float] samples with three values, and among 0 and 2 to the -80. *)
Theorem c111_distinct_refuted :
  (exists samples : singles, finite_numbers samples /\ length samples = 4500%nat /\
     Bltb (B754_zero false) (single_distance (row samples 1 0) (row samples 1 4499)) = true /\ row samples 1 4499 = [single 0 0] /\
     exists draw unit, in_range draw /\ (forall c, canonical (unit c)) /\ single_centroids draw unit samples 1 2 = Ok [single 0 0; single 0 0]) /\
  (exists draw unit, in_range draw /\ (forall c, canonical (unit c)) /\ single_centroids draw unit [single 1 (-80); single 0 0] 1 2 = Ok [single 0 0; single 0 0]).
Proof.
  split.
  - exists many. split.
    { unfold finite_numbers, many. constructor; [reflexivity|]. apply Forall_app. split; [|repeat constructor].
      apply Forall_forall. intros y Hy. apply repeat_spec in Hy. subst y. reflexivity. }
    split; [vm_compute; reflexivity|]. split; [vm_compute; reflexivity|]. split; [vm_compute; reflexivity|].
    exists last_one, (fun c => if Nat.even c then single 16777215 (-24) else single 1 (-1)). split; [exact last_in_range|]. split.
    + intros c. destruct (Nat.even c); apply canonical_single; try reflexivity; values_in; lra.
    + vm_compute. reflexivity.
  - exists last_one, (constant (single 3 (-2))). split; [exact last_in_range|]. split.
    + apply constant_ok; [reflexivity|values_in; lra].
    + vm_compute. reflexivity.
Qed.

Print Assumptions c111_samples.
Print Assumptions c111_away.
Print Assumptions c111_distinct.
Print Assumptions c111_distinct_refuted.
