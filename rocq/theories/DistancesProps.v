(** Theorems on distances between sequences and vectors: C40, C41, C59, C60. *)
From Coq Require Import List Arith ZArith Lia Bool QArith Lqa.
From Verif Require Import Base BoundsModel BoundsSpec BoundsProofs BufferModel DistancesModel DistancesSpec DistancesProofs.
Import ListNotations.
Open Scope nat_scope.

(** ** C40 *)
Theorem c40_levenshtein_is_the_fewest_edits :
  forall left right, exists d, levenshtein_distance left right = Ok d /\ fewest_edits left right d.
Proof.
  intros left right. destruct (levenshtein_best left right) as (d & E & B). exists d. split; auto. now apply best_fewest.
Qed.

Example c40_case :
  levenshtein_distance [1; 2; 3; 3; 4; 5]%Z [6; 2; 3; 3; 2; 5; 7]%Z = Ok 3 /\
  edits 3 [1; 2; 3; 3; 4; 5]%Z [6; 2; 3; 3; 2; 5; 7]%Z /\
  levenshtein_distance [1; 2; 3]%Z [2; 3]%Z = Ok 1 /\ levenshtein_distance [] [4; 4]%Z = Ok 2.
Proof.
  splits; try (vm_compute; reflexivity).
  apply (edits_more _ _ [6; 2; 3; 3; 4; 5]%Z). { apply (edit_substitute [] [2; 3; 3; 4; 5]%Z 1%Z 6%Z). }
  apply (edits_more _ _ [6; 2; 3; 3; 2; 5]%Z). { apply (edit_substitute [6; 2; 3; 3]%Z [5]%Z 4%Z 2%Z). }
  apply (edits_more _ _ [6; 2; 3; 3; 2; 5; 7]%Z). { apply (edit_insert [6; 2; 3; 3; 2; 5]%Z [] 7%Z). }
  constructor.
Qed.

(** ** C41 *)
Local Open Scope Z_scope.

Lemma l1_zero p q : length p = length q -> (l1_dist p q = 0 <-> p = q).
Proof.
  revert q. induction p as [|x p IH]; intros [|y q] L; simpl in *; try discriminate; [tauto|].
  specialize (IH q ltac:(lia)). pose proof (l1_nonneg p q). split.
  - intros H'. assert (x = y) by lia. subst. f_equal. apply IH. lia.
  - intros E. inversion E; subst. rewrite (proj2 IH) by auto. lia.
Qed.

Lemma l1_axis p q a : length p = length q -> (a < length p)%nat -> Z.abs (nth a p 0 - nth a q 0) <= l1_dist p q.
Proof.
  revert q a. induction p as [|x p IH]; intros [|y q] a L Ha; simpl in *; try discriminate; [lia|].
  pose proof (l1_nonneg p q). destruct a as [|a]; [lia|]. specialize (IH q a ltac:(lia) ltac:(lia)). lia.
Qed.

Theorem c41_manhattan_is_a_metric :
  forall p q r, length p = length q -> length q = length r ->
  exists pq qp qr pr,
    manhattan_distance p q = Ok pq /\ manhattan_distance q p = Ok qp /\
    manhattan_distance q r = Ok qr /\ manhattan_distance p r = Ok pr /\
    0 <= pq /\ pq = qp /\ (pq = 0 <-> p = q) /\ pr <= pq + qr /\
    (forall a, (a < length p)%nat -> Z.abs (nth a p 0 - nth a q 0) <= pq).
Proof.
  intros p q r L1 L2. exists (l1_dist p q), (l1_dist q p), (l1_dist q r), (l1_dist p r).
  rewrite !manhattan_ok by congruence. splits; auto.
  - apply l1_nonneg.
  - apply l1_sym.
  - now apply l1_zero.
  - now apply l1_triangle.
  - intros a Ha. now apply l1_axis.
Qed.

(** On unsigned values the result is the same as long as it fits in 32 bits, and in general its remainder. *)
Theorem c41_unsigned_manhattan :
  forall p q, length p = length q -> (forall x, In x (p ++ q) -> 0 <= x < 2 ^ 32) ->
  exists d, manhattan_distance p q = Ok d /\ unsigned_manhattan_distance p q = Ok (d mod 2 ^ 32) /\
    (d < 2 ^ 32 -> unsigned_manhattan_distance p q = Ok d).
Proof.
  intros p q L _. exists (l1_dist p q). rewrite manhattan_ok by auto.
  assert (E : unsigned_manhattan_distance p q = Ok (l1_dist p q mod 2 ^ 32)).
  { revert q L. induction p as [|x p IH]; intros [|y q] L; try discriminate; [reflexivity|].
    cbn [unsigned_manhattan_distance]. rewrite IH by (simpl in L; lia). cbn [bind l1_dist]. f_equal.
    rewrite Z.add_mod_idemp_r by lia. f_equal. f_equal. destruct (Z.gtb_spec x y); lia. }
  splits; auto. intros H. rewrite E, Z.mod_small; auto. split; auto. apply l1_nonneg.
Qed.

Theorem c41_unsigned_manhattan_separates_refuted :
  exists p q, length p = length q /\ (forall x, In x (p ++ q) -> 0 <= x < 2 ^ 32) /\ p <> q /\
    unsigned_manhattan_distance p q = Ok 0.
Proof.
  exists [2 ^ 31; 2 ^ 31], [0; 0]. splits; auto.
  - intros x Hx. simpl in Hx. lia.
  - discriminate.
Qed.

Example c41_case :
  manhattan_distance [1; -2; 3] [4; 4; 4] = Ok 10 /\ manhattan_distance [4; 4; 4] [0; 0; 1] = Ok 11 /\
  manhattan_distance [1; -2; 3] [0; 0; 1] = Ok 5 /\
  unsigned_manhattan_distance [1; 9] [4; 4] = Ok 8 /\ unsigned_manhattan_distance [2 ^ 31; 2 ^ 31] [0; 5] = Ok (2 ^ 32 - 5).
Proof. vm_compute. auto. Qed.

(** ** C59 *)
Lemma squared_ok p q : length p = length q -> squared_euclidean_distance p q = Ok (sq_dist p q).
Proof.
  revert q. induction p as [|x p IH]; intros [|y q] L; simpl in *; try discriminate; auto. rewrite IH by lia. reflexivity.
Qed.

Lemma sq_nonneg' p q : 0 <= sq_dist p q.
Proof. revert q. induction p as [|x p IH]; intros [|y q]; simpl; try lia. specialize (IH q). pose proof (Z.square_nonneg (x - y)). lia. Qed.

Lemma sq_sym' p q : sq_dist p q = sq_dist q p.
Proof. revert q. induction p as [|x p IH]; intros [|y q]; simpl; auto. rewrite IH. lia. Qed.

Lemma sq_zero p q : length p = length q -> (sq_dist p q = 0 <-> p = q).
Proof.
  revert q. induction p as [|x p IH]; intros [|y q] L; simpl in *; try discriminate; [tauto|].
  specialize (IH q ltac:(lia)). pose proof (sq_nonneg' p q). pose proof (Z.square_nonneg (x - y)). split.
  - intros H'. assert (x = y) by nia. subst. f_equal. apply IH. lia.
  - intros E. inversion E; subst. rewrite (proj2 IH) by auto. lia.
Qed.

Lemma sq_axis p q a : length p = length q -> (a < length p)%nat ->
  (nth a p 0 - nth a q 0) * (nth a p 0 - nth a q 0) <= sq_dist p q.
Proof.
  revert q a. induction p as [|x p IH]; intros [|y q] a L Ha; simpl in *; try discriminate; [lia|].
  pose proof (sq_nonneg' p q). destruct a as [|a]; [lia|]. specialize (IH q a ltac:(lia) ltac:(lia)).
  pose proof (Z.square_nonneg (x - y)). lia.
Qed.

Fixpoint diff (p q : list Z) : list Z :=
  match p, q with x :: p', y :: q' => (x - y) :: diff p' q' | _, _ => [] end.

Lemma sq_diff p q : sq_dist p q = dot (diff p q) (diff p q).
Proof. revert q. induction p as [|x p IH]; intros [|y q]; simpl; auto. now rewrite IH. Qed.

Lemma sq_expand p q r : length p = length q -> length q = length r ->
  sq_dist p r = sq_dist p q + 2 * dot (diff p q) (diff q r) + sq_dist q r.
Proof.
  revert q r. induction p as [|x p IH]; intros [|y q] [|z r] L1 L2; try discriminate; cbn [sq_dist diff dot]; [lia|].
  rewrite (IH q r) by (simpl in *; lia). ring.
Qed.

Lemma sqrt_triangle (a b c e : Z) (s t : Q) : a = b + 2 * e + c -> e * e <= b * c -> 0 <= b -> 0 <= c ->
  above_sqrt s b -> above_sqrt t c -> above_sqrt (s + t) a.
Proof.
  intros Ea He Hb Hc [Hs Hsb] [Ht Htc]. split; [lra|].
  assert (Eq : (inject_Z a == inject_Z b + 2 * inject_Z e + inject_Z c)%Q).
  { subst a. rewrite !inject_Z_plus, inject_Z_mult. reflexivity. }
  rewrite Eq. clear Eq Ea.
  rewrite Zle_Qle, !inject_Z_mult in He. rewrite Zle_Qle in Hb, Hc.
  change (inject_Z 0) with 0%Q in Hb, Hc.
  set (B := inject_Z b) in *. set (C := inject_Z c) in *. set (E := inject_Z e) in *. clearbody B C E.
  assert (H1 : (B * C <= (s * s) * (t * t))%Q) by nra.
  assert (H2 : (E <= s * t)%Q).
  { destruct (Qlt_le_dec (s * t) E) as [Hlt|]; auto. exfalso.
    assert (0 <= s * t)%Q by nra. assert ((s * t) * (s * t) < E * E)%Q by nra.
    assert ((s * s) * (t * t) == (s * t) * (s * t))%Q by ring. lra. }
  nra.
Qed.

Theorem c59_euclidean_is_a_metric :
  forall p q r, length p = length q -> length q = length r ->
  exists pq qp qr pr,
    squared_euclidean_distance p q = Ok pq /\ squared_euclidean_distance q p = Ok qp /\
    squared_euclidean_distance q r = Ok qr /\ squared_euclidean_distance p r = Ok pr /\
    0 <= pq /\ pq = qp /\ (pq = 0 <-> p = q) /\
    (forall s t, above_sqrt s pq -> above_sqrt t qr -> above_sqrt (s + t) pr) /\
    (forall a, (a < length p)%nat -> (nth a p 0 - nth a q 0) * (nth a p 0 - nth a q 0) <= pq).
Proof.
  intros p q r L1 L2. exists (sq_dist p q), (sq_dist q p), (sq_dist q r), (sq_dist p r).
  rewrite !squared_ok by congruence. splits; auto.
  - apply sq_nonneg'.
  - apply sq_sym'.
  - now apply sq_zero.
  - intros s t. apply (sqrt_triangle _ _ _ (dot (diff p q) (diff q r))); try apply sq_nonneg'.
    + now apply sq_expand.
    + rewrite !sq_diff. apply cauchy_schwarz.
  - intros a Ha. now apply sq_axis.
Qed.

(** The distance from the origin of the translated vector is the distance of the two vectors. *)
Theorem c59_distance_after_translation :
  forall p q, length p = length q ->
  exists t, translate_right_range_to_origin p q = Ok t /\ length t = length q /\
    (forall a, (a < length q)%nat -> nth a p 0 + nth a t 0 = nth a q 0) /\
    manhattan_distance p q = Ok (manhattan_distance_from_origin t) /\
    squared_euclidean_distance p q = Ok (squared_euclidean_distance_from_origin t).
Proof.
  intros p q L. rewrite manhattan_ok, squared_ok by auto.
  assert (F1 : forall l acc, fold_left (fun acc x => acc + Z.abs x) l acc = acc + fold_left (fun acc x => acc + Z.abs x) l 0).
  { induction l as [|x l IH]; intros acc; cbn [fold_left]; [lia|]. rewrite IH, (IH (0 + Z.abs x)). lia. }
  assert (F2 : forall l acc, fold_left (fun acc x => acc + x * x) l acc = acc + fold_left (fun acc x => acc + x * x) l 0).
  { induction l as [|x l IH]; intros acc; cbn [fold_left]; [lia|]. rewrite IH, (IH (0 + x * x)). lia. }
  revert q L. induction p as [|x p IH]; intros [|y q] L; try discriminate.
  - exists []. splits; auto. intros a Ha. simpl in Ha. lia.
  - simpl in L. destruct (IH q ltac:(lia)) as (t & E & Lt & Ha & E1 & E2). injection E1 as E1. injection E2 as E2.
    exists ((y - x) :: t). cbn [translate_right_range_to_origin]. rewrite E. splits; auto.
    + simpl. now rewrite Lt.
    + intros [|a] H; cbn [nth]; [lia|]. apply Ha. simpl in H. lia.
    + unfold manhattan_distance_from_origin in *. cbn [fold_left l1_dist]. rewrite F1, E1. f_equal. lia.
    + unfold squared_euclidean_distance_from_origin in *. cbn [fold_left sq_dist]. rewrite F2, E2. f_equal. lia.
Qed.

Example c59_case :
  squared_euclidean_distance [0; 0] [3; 4] = Ok 25 /\ squared_euclidean_distance [3; 4] [3; 16] = Ok 144 /\
  squared_euclidean_distance [0; 0] [3; 16] = Ok 265 /\ above_sqrt 5 25 /\ above_sqrt 12 144 /\ above_sqrt (5 + 12) 265 /\
  translate_right_range_to_origin [1; 2] [4; -2] = Ok [3; -4] /\
  manhattan_distance_from_origin [3; -4] = 7 /\ squared_euclidean_distance_from_origin [3; -4] = 25.
Proof. unfold above_sqrt. splits; try reflexivity; discriminate. Qed.

(** ** C60 *)
Theorem c60_cosine_similarity :
  forall tol p q, 0 <= tol -> length p = length q ->
  exists result,
    cosine_similarity tol p q = Ok result /\ cosine_similarity tol q p = Ok result /\
    (result = None <-> dot p p * dot q q <= tol * tol) /\
    (forall d m, result = Some (d, m) ->
       d = dot p q /\ m = dot p p * dot q q /\ 0 < m /\ d * d <= m /\ (d * d = m <-> parallel p q)).
Proof.
  intros tol p q Ht L. unfold cosine_similarity. rewrite !inner_ok by congruence. cbn [bind].
  rewrite (dot_sym q p), (Z.mul_comm (dot q q)). eexists. split; [reflexivity|]. split; [reflexivity|].
  destruct (Z.leb_spec (dot p p * dot q q) (tol * tol)) as [H|H]; split.
  - split; auto.
  - discriminate.
  - split; [discriminate|]. intros H'. lia.
  - intros d m E. inversion E; subst d m. pose proof (dot_self p). pose proof (dot_self q).
    assert (0 < dot p p * dot q q) by nia. splits; auto.
    + apply cauchy_schwarz.
    + apply schwarz_equality; auto. nia.
Qed.

(** The value depends on the length of the vectors when they are short: the test for zero has an absolute tolerance. *)
Theorem c60_cosine_is_scale_free_refuted :
  exists tol p q, 0 <= tol /\ length p = length q /\
    cosine_similarity tol p q = Ok None /\
    exists r, cosine_similarity tol (map (Z.mul 10) p) (map (Z.mul 10) q) = Ok (Some r).
Proof. exists 20, [3; 4], [3; 0]. splits; try reflexivity; try lia. vm_compute. eauto. Qed.

Example c60_case :
  cosine_similarity 0 [1; 2] [3; -1] = Ok (Some (1, 50)) /\ cosine_similarity 0 [1; 2] [-2; -4] = Ok (Some (-10, 100)) /\
  parallel [1; 2] [-2; -4] /\ cosine_similarity 0 [1; 2] [0; 0] = Ok None.
Proof. splits; try reflexivity. exists 2, (-1). split; [lia|reflexivity]. Qed.

Print Assumptions c40_levenshtein_is_the_fewest_edits.
Print Assumptions c41_manhattan_is_a_metric.
Print Assumptions c41_unsigned_manhattan.
Print Assumptions c41_unsigned_manhattan_separates_refuted.
Print Assumptions c59_euclidean_is_a_metric.
Print Assumptions c59_distance_after_translation.
Print Assumptions c60_cosine_similarity.
Print Assumptions c60_cosine_is_scale_free_refuted.
