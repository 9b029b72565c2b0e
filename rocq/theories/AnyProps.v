(** C86: what holds of the tree and its searches for any values, NaN and infinities included. *)
From Coq Require Import List Arith ZArith Lia Bool Permutation SpecFloat.
From Verif Require Import Base SortingModel BufferModel BufferProofs SearchModel KDTreeSpec AnyModel AnySpec AnyProofs.
Import ListNotations.

(** Doubles used in the examples. *)
Definition dz (z : Z) : double := binary_normalize 53 1024 z 0 false.
Definition nan : double := S754_nan.
Definition inf : double := S754_infinity false.
Definition mixed : list double :=
  [nan; dz 1; inf; dz 4; dz 3; nan; dz 7; dz 2; dz 3; dz 3; inf; inf; nan; nan; dz 0; S754_infinity true].
Definition mixed_tree : res (any_kdtree double) :=
  any_make_kdtree double_values mixed 2 1 5 (fun _ _ depth _ => depth mod 2) (seq 0 8).
Definition one_nan : list double := [dz 1; dz 2; dz 3; dz 4; nan].
Definition one_nan_search (k : nat) (bound : any_bound double double) (q : Z) : res (list nat) :=
  tree <- any_make_kdtree double_values one_nan 1 1 10 (fun _ _ _ _ => 0) (seq 0 5) ;;
  '(b, _) <- any_search double_values double_metric double_at_most one_nan 1 tree bound [dz q] accept_all k tt ;;
  Ok (buf_indices b).

(** Sorting and selecting read inside the data, end, and return the indices they were given. *)
Theorem c86_sorting_keeps_the_indices (T : values) (samples : list (vt T)) nf j a k pivot :
  sane T -> j < nf -> (forall i, In i a -> i * nf + nf <= length samples) -> k < length a -> pivot < length a ->
  (exists a', any_quickselect T samples nf j a k = Ok (a', (k, S k)) /\ Permutation a a') /\
  (exists a' p, any_quicksort T samples nf j a pivot = Ok (a', p) /\ Permutation a a').
Proof.
  intros Hs Hj Hin Hk Hp.
  assert (G : inside T samples nf j a) by (intros i Hi; specialize (Hin i Hi); lia).
  split.
  - destruct (any_quickselect_ok T Hs samples nf j a k G Hk) as (L & x & R & E & _ & P). eauto.
  - unfold any_quicksort. apply any_quicksort_ok; auto.
Qed.

Example c86_sorting_keeps_the_indices_case :
  sane double_values /\ 0 < 2 /\ (forall i, In i (seq 0 8) -> i * 2 + 2 <= length mixed) /\
  any_quicksort double_values mixed 2 0 (seq 0 8) 3 = Ok ([7; 4; 6; 2; 3; 1; 0; 5], 4).
Proof.
  split; [exact double_sane|]. split; [lia|]. split.
  - intros i Hi. apply in_seq in Hi. cbn [mixed length]. lia.
  - vm_compute. reflexivity.
Qed.

(** Construction: every sample once, ranges inside the array, limits kept. *)
Theorem c86_tree_keeps_the_samples (T : values) (samples : list (vt T)) nf bucket max_depth policy indices :
  sane T -> (forall path range depth bound, policy path range depth bound < nf) ->
  (forall i, In i indices -> i * nf + nf <= length samples) ->
  exists tree, any_make_kdtree T samples nf bucket max_depth policy indices = Ok tree /\
    Permutation (any_samples (akt_indices tree) (akt_root tree)) indices /\
    any_ranges (akt_indices tree) (akt_root tree) /\ any_limits bucket max_depth 0 (akt_root tree).
Proof.
  intros Hs Hp Hin.
  destruct (any_make_kdtree_ok T Hs samples nf bucket max_depth policy Hp indices Hin) as (tree & E & P & S1 & R & L & _).
  exists tree. splits; auto. rewrite S1. now symmetry.
Qed.

Example c86_tree_keeps_the_samples_case : exists tree, mixed_tree = Ok tree /\
  any_samples (akt_indices tree) (akt_root tree) = [7; 6; 4; 3; 0; 1; 2; 5] /\ any_nodes (akt_root tree) = 9.
Proof. eexists. split; [vm_compute; reflexivity|]. split; vm_compute; reflexivity. Qed.

Section SearchProps.
Context (T : values) (m : any_metric (vt T)) (at_most : am_dist m -> am_dist m -> bool).
Context (samples : list (vt T)) (nf bucket max_depth : nat) (policy : list bool -> list nat -> nat -> any_box (vt T) -> nat).
Context (indices : list nat) (bound : any_bound (vt T) (am_dist m)) (query : list (vt T)) (k : nat).

Lemma c86_search :
  sane T -> (forall path range depth bound, policy path range depth bound < nf) ->
  (forall i, In i indices -> i * nf + nf <= length samples) -> NoDup indices ->
  length query = nf -> any_covers nf bound -> (forall p, length p = nf -> exists d, am_auto m p query = Ok d) ->
  (Z.of_nat k < 2 ^ 64)%Z -> (Z.of_nat (length indices) < 2 ^ 64)%Z ->
  exists tree b, any_make_kdtree T samples nf bucket max_depth policy indices = Ok tree /\
    any_search T m at_most samples nf tree bound query accept_all k tt = Ok (b, tt) /\
    length (buf_indices b) = length (buf_distances b) /\
    any_answer (vt_lt T) m samples nf bound query indices (combine (buf_indices b) (buf_distances b)) /\
    (1 <= k -> length (buf_indices b) = min k (length (any_candidates (vt_lt T) m samples nf bound query indices))).
Proof.
  intros Hs Hp Hin Nd Hq Hc Hauto Fk Fn.
  destruct (any_make_kdtree_ok T Hs samples nf bucket max_depth policy Hp indices Hin) as (tree & E & P & S1 & R & _ & A).
  set (dist := fun p => match am_auto m p query with Ok d => d | _ => am_inf m end).
  assert (Hd : forall p, length p = nf -> am_auto m p query = Ok (dist p)).
  { intros p Lp. unfold dist. destruct (Hauto p Lp) as (d & ->). reflexivity. }
  assert (Hin' : forall i, In i (akt_indices tree) -> i * nf + nf <= length samples).
  { intros i Hi. apply Hin. eapply Permutation_in; [symmetry; exact P|auto]. }
  destruct (any_visit_ok T m samples nf (akt_indices tree) bound query (fun _ => true) accept_all (fun _ => True)
              (fun i s _ _ => ex_intro _ s (conj eq_refl I)) at_most dist Hd Hq Hc Hin' (akt_root tree) (make_buffer (am_inf m) k) tt [])
    as (b & s & off & skip & Ev & _ & Inv & Cap & Pm & Sk); auto.
  { exact (loose_make (am_inf m) k). }
  { intros _. rewrite S1. rewrite <- (Permutation_length P). exact Fn. }
  destruct s. exists tree, b. split; auto. split.
  { unfold any_search. exact (any_search_is_visit T m samples nf _ _ bound query accept_all at_most _ _ Ev). }
  simpl in Inv. rewrite S1 in Pm.
  assert (Ec : forall ys, (forall y, In y ys -> In y indices) ->
     filter (any_elig T m samples nf bound (fun _ => true) dist) ys = any_candidates (vt_lt T) m samples nf bound query ys).
  { intros ys Hy. apply filter_ext_in. intros i Hi. unfold any_elig. rewrite andb_true_r.
    rewrite Hd; auto. apply any_row_length with (arr := indices) (query := query); auto. }
  assert (Pc : Permutation (any_candidates (vt_lt T) m samples nf bound query (akt_indices tree))
                           (any_candidates (vt_lt T) m samples nf bound query indices)).
  { unfold any_candidates. clear - P. induction P; simpl; auto.
    - destruct (match am_auto m (any_row samples nf x) query with Ok _ => _ | _ => _ end); auto.
    - destruct (match am_auto m (any_row samples nf x) query with Ok _ => _ | _ => _ end),
        (match am_auto m (any_row samples nf y) query with Ok _ => _ | _ => _ end); auto. apply perm_swap.
    - etransitivity; eauto. }
  destruct Inv as [Ln (rest & Pr) Sz _].
  assert (Pall : Permutation (combine (buf_indices b) (buf_distances b) ++ rest ++ skip)
     (map (fun i => (i, dist (any_row samples nf i))) (any_candidates (vt_lt T) m samples nf bound query indices))).
  { rewrite app_assoc. unfold entries in Pr. rewrite Pr, Pm. unfold any_cands. apply Permutation_map.
    rewrite Ec; auto. intros y Hy. eapply Permutation_in; [symmetry; exact P|auto]. }
  split; [exact Ln|]. split.
  - split.
    + assert (Nc : NoDup (any_candidates (vt_lt T) m samples nf bound query indices)) by (apply NoDup_filter; auto).
      pose proof (Permutation_map fst Pall) as Pf. rewrite map_map in Pf. cbn [fst] in Pf. rewrite map_id in Pf.
      rewrite map_app in Pf. apply Permutation_sym in Pf.
      pose proof (Permutation_NoDup Pf Nc) as Nn. clear - Nn. 
      induction (map fst (combine (buf_indices b) (buf_distances b))) as [|x l IH]; [constructor|].
      simpl in Nn. inversion Nn; subst. constructor; auto. intros Hx. apply H1. apply in_or_app. auto.
    + intros i d Hi. assert (Hm : In (i, d) (map (fun i => (i, dist (any_row samples nf i)))
                                   (any_candidates (vt_lt T) m samples nf bound query indices))).
      { eapply Permutation_in; [exact Pall|]. apply in_or_app. auto. }
      apply in_map_iff in Hm as (j & Ej & Hj). inversion Ej; subst. split; auto.
      apply Hd. apply any_row_length with (arr := indices) (query := query); auto.
      unfold any_candidates in Hj. apply filter_In in Hj. tauto.
  - intros Hk. change (length (buf_indices b)) with (buf_size b). rewrite Sz, Cap. cbn [make_buffer buf_max_capacity].
    unfold expected_size. destruct (Nat.eqb_spec k 0); [lia|].
    apply Permutation_length in Pm. rewrite app_length in Pm. unfold any_cands in Pm. rewrite map_length in Pm.
    rewrite Ec in Pm by (intros y Hy; eapply Permutation_in; [symmetry; exact P|auto]).
    rewrite (Permutation_length Pc) in Pm.
    destruct Sk as [->|[Sk|Sk]].
    + simpl in Pm. lia.
    + rewrite Cap in Sk. simpl in Sk. lia.
    + rewrite Cap in Sk. simpl in Sk. rewrite Sz, Cap in Sk. simpl in Sk. unfold expected_size in Sk.
      destruct (Nat.eqb_spec k 0); lia.
Qed.
End SearchProps.

(** A search for k samples reports min(k, number of samples in the bound) different samples of the tree with their distances,
    whatever the comparisons answer. *)
Theorem c86_search_any_values (T : values) (m : any_metric (vt T)) at_most (samples : list (vt T)) nf bucket max_depth policy
  indices bound query k :
  sane T -> (forall path range depth bound, policy path range depth bound < nf) ->
  (forall i, In i indices -> i * nf + nf <= length samples) -> NoDup indices ->
  length query = nf -> any_covers nf bound -> (forall p, length p = nf -> exists d, am_auto m p query = Ok d) ->
  1 <= k -> (Z.of_nat k < 2 ^ 64)%Z -> (Z.of_nat (length indices) < 2 ^ 64)%Z ->
  exists tree b, any_make_kdtree T samples nf bucket max_depth policy indices = Ok tree /\
    any_search T m at_most samples nf tree bound query accept_all k tt = Ok (b, tt) /\
    length (buf_indices b) = length (buf_distances b) /\
    any_answer (vt_lt T) m samples nf bound query indices (combine (buf_indices b) (buf_distances b)) /\
    length (buf_indices b) = min k (length (any_candidates (vt_lt T) m samples nf bound query indices)).
Proof.
  intros Hs Hp Hin Nd Hq Hc Hauto H1 Fk Fn.
  destruct (c86_search T m at_most samples nf bucket max_depth policy indices bound query k Hs Hp Hin Nd Hq Hc Hauto Fk Fn)
    as (tree & b & E1 & E2 & E3 & E4 & E5). exists tree, b. splits; auto.
Qed.

(** Without a limit on the number of answers: samples of the bound only, each at most once. *)
Theorem c86_unlimited_search_any_values (T : values) (m : any_metric (vt T)) at_most (samples : list (vt T)) nf bucket max_depth
  policy indices bound query :
  sane T -> (forall path range depth bound, policy path range depth bound < nf) ->
  (forall i, In i indices -> i * nf + nf <= length samples) -> NoDup indices ->
  length query = nf -> any_covers nf bound -> (forall p, length p = nf -> exists d, am_auto m p query = Ok d) ->
  (Z.of_nat (length indices) < 2 ^ 64)%Z ->
  exists tree b, any_make_kdtree T samples nf bucket max_depth policy indices = Ok tree /\
    any_search T m at_most samples nf tree bound query accept_all default_capacity tt = Ok (b, tt) /\
    length (buf_indices b) = length (buf_distances b) /\
    any_answer (vt_lt T) m samples nf bound query indices (combine (buf_indices b) (buf_distances b)).
Proof.
  intros Hs Hp Hin Nd Hq Hc Hauto Fn.
  destruct (c86_search T m at_most samples nf bucket max_depth policy indices bound query default_capacity
              Hs Hp Hin Nd Hq Hc Hauto ltac:(unfold default_capacity; lia) Fn)
    as (tree & b & E1 & E2 & E3 & E4 & _). exists tree, b. splits; auto.
Qed.

(** The two theorems above on doubles: no hypothesis on the values. *)
Theorem c86_search_doubles (samples : list double) nf bucket max_depth policy indices bound query k :
  (forall path range depth bound, policy path range depth bound < nf) ->
  (forall i, In i indices -> i * nf + nf <= length samples) -> NoDup indices ->
  length query = nf -> any_covers nf bound ->
  1 <= k -> (Z.of_nat k < 2 ^ 64)%Z -> (Z.of_nat (length indices) < 2 ^ 64)%Z ->
  exists tree b, any_make_kdtree double_values samples nf bucket max_depth policy indices = Ok tree /\
    any_search double_values double_metric double_at_most samples nf tree bound query accept_all k tt = Ok (b, tt) /\
    length (buf_indices b) = length (buf_distances b) /\
    any_answer double_lt double_metric samples nf bound query indices (combine (buf_indices b) (buf_distances b)) /\
    length (buf_indices b) = min k (length (any_candidates double_lt double_metric samples nf bound query indices)).
Proof.
  intros Hp Hin Nd Hq Hc H1 Fk Fn.
  apply (c86_search_any_values double_values double_metric double_at_most); auto using double_sane.
  intros p Lp. apply double_auto_total. exact (eq_trans Lp (eq_sym Hq)).
Qed.

Example c86_search_any_values_case : exists tree b, mixed_tree = Ok tree /\
  any_search double_values double_metric double_at_most mixed 2 tree AUnbounded [dz 3; nan] accept_all 3 tt = Ok (b, tt) /\
  buf_indices b = [3; 6; 4].
Proof. eexists. eexists. split; [vm_compute; reflexivity|]. split; vm_compute; reflexivity. Qed.

Example c86_unlimited_search_any_values_case : exists tree b, mixed_tree = Ok tree /\
  any_search double_values double_metric double_at_most mixed 2 tree (ARadius (dz 6)) [dz 3; dz 2] accept_all default_capacity tt
    = Ok (b, tt) /\
  buf_indices b = [3; 4] /\ any_candidates double_lt double_metric mixed 2 (ARadius (dz 6)) [dz 3; dz 2] (seq 0 8) = [3; 4].
Proof. eexists. eexists. split; [vm_compute; reflexivity|]. split; [vm_compute; reflexivity|]. split; vm_compute; reflexivity. Qed.

Example c86_search_doubles_case :
  one_nan_search 4 AUnbounded 2 = Ok [4; 0; 3; 1] /\
  any_candidates double_lt double_metric one_nan 1 AUnbounded [dz 2] (seq 0 5) = seq 0 5.
Proof. split; vm_compute; reflexivity. Qed.

(** Not more than that: one NaN among five samples, and the nearest sample of 1, 2, 3 and 4 is always said to be the NaN. *)
Theorem c86_nearest_with_nan_refuted : exists nearest : nat,
  nth_error one_nan nearest = Some nan /\
  (forall q, In q [1; 2; 3; 4]%Z -> one_nan_search 1 AUnbounded q = Ok [nearest] /\ In (dz q) one_nan) /\
  am_auto double_metric [dz 2] [dz 2] = Ok (S754_zero false).
Proof.
  exists 4. split; [vm_compute; reflexivity|]. split; [|vm_compute; reflexivity].
  intros q [<-|[<-|[<-|[<-|[]]]]]; (split; [vm_compute; reflexivity|]); vm_compute; tauto.
Qed.

(** A search in a radius around a sample does not report that sample. *)
Theorem c86_radius_with_nan_refuted : exists q : Z,
  one_nan_search default_capacity (ARadius (dz 1)) q = Ok [] /\
  In 1 (any_candidates double_lt double_metric one_nan 1 (ARadius (dz 1)) [dz q] (seq 0 5)).
Proof. exists 2%Z. split; vm_compute; auto. Qed.

(** Sorting does not order the numbers around a NaN. *)
Theorem c86_sorted_with_nan_refuted : exists (samples : list double) a p,
  any_quicksort double_values samples 1 0 (seq 0 5) 0 = Ok (a, p) /\
  exists i j, i < j /\ j < length a /\
    double_lt (nth (nth j a 0) samples nan) (nth (nth i a 0) samples nan) = true.
Proof.
  exists [nan; dz 1; dz 2; dz 3; dz 4]. eexists. eexists. split; [vm_compute; reflexivity|].
  exists 0, 4. split; [lia|]. split; vm_compute; auto.
Qed.

Print Assumptions c86_sorting_keeps_the_indices.
Print Assumptions c86_tree_keeps_the_samples.
Print Assumptions c86_search_any_values.
Print Assumptions c86_unlimited_search_any_values.
Print Assumptions c86_search_doubles.
Print Assumptions c86_nearest_with_nan_refuted.
Print Assumptions c86_radius_with_nan_refuted.
Print Assumptions c86_sorted_with_nan_refuted.
