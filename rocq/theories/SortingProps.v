(** Theorems C05-C09: sorting and selection on index ranges. *)
From Coq Require Import List Arith ZArith Lia Permutation Sorted.
From Verif Require Import Base SortingModel SortingSpec SortingProofs.
Import ListNotations.

Lemma sep_exact tol samples nf j a : separated tol samples nf j a ->
  forall x y, In x a -> In y a ->
    (val samples nf j x - tol <= val samples nf j y)%Z -> (val samples nf j x - 0 <= val samples nf j y)%Z.
Proof.
  intros Sep x y Hx Hy H.
  destruct (Z.le_gt_cases (val samples nf j x) (val samples nf j y)); [lia|].
  rewrite (Sep x y Hx Hy) by lia. lia.
Qed.

(** C05. *)
Theorem c05_partition_partitions tol samples nf j a piv x :
  (0 <= tol)%Z -> in_dataset samples nf j a -> separated tol samples nf j a ->
  nth_error a piv = Some x ->
  exists L R,
    partition_around_pivot_index tol samples nf j a piv = Ok (L ++ x :: R, length L) /\
    Permutation a (L ++ x :: R) /\
    (forall y, In y L -> (val samples nf j y < val samples nf j x)%Z) /\
    (forall y, In y R -> (val samples nf j x <= val samples nf j y)%Z).
Proof.
  intros Ht G Sep Hx.
  destruct (partition_ok tol samples nf j Ht a piv x G Hx) as (L & R & E & P & HL & HR).
  exists L, R. split; auto. split; auto. split; auto.
  intros y Hy. apply HR in Hy as Hy'.
  assert (Inc : forall z, In z (L ++ x :: R) -> In z a)
    by (intros; eapply Permutation_in; [symmetry|]; eauto).
  assert (val samples nf j x - 0 <= val samples nf j y)%Z; [|lia].
  apply (sep_exact tol samples nf j a Sep); auto; apply Inc; rewrite in_app_iff; simpl; auto.
Qed.

(** The same without separation: everything is as above except that right values may be up to [tol] smaller. *)
Theorem c05_partition_within_tolerance tol samples nf j a piv x :
  (0 <= tol)%Z -> in_dataset samples nf j a -> nth_error a piv = Some x ->
  exists L R,
    partition_around_pivot_index tol samples nf j a piv = Ok (L ++ x :: R, length L) /\
    Permutation a (L ++ x :: R) /\
    (forall y, In y L -> (val samples nf j y < val samples nf j x)%Z) /\
    (forall y, In y R -> (val samples nf j x - tol <= val samples nf j y)%Z).
Proof. intros Ht G Hx. exact (partition_ok tol samples nf j Ht a piv x G Hx). Qed.

Definition c05_samples : list Z := [5; 0; 3; 0; 8; 0; 3; 0; 1; 0; 3; 0]%Z.
Definition c05_range : list nat := [0; 1; 2; 3; 4; 5].
Example c05_case :
  in_dataset c05_samples 2 0 c05_range /\ separated 0 c05_samples 2 0 c05_range /\
  nth_error c05_range 1 = Some 1 /\
  partition_around_pivot_index 0 c05_samples 2 0 c05_range 1 = Ok ([4; 1; 2; 3; 0; 5], 1).
Proof.
  split; [|split; [|split; [|reflexivity]]]; auto.
  - intros i H. simpl in H. change (length c05_samples) with 12. intuition lia.
  - intros x y _ _ H. lia.
Qed.

(** With values closer than the tolerance a smaller value can stay to the right of the pivot. *)
Theorem c05_partition_close_values_refuted :
  exists tol samples a piv p a' i y x,
    (0 <= tol)%Z /\ in_dataset samples 1 0 a /\
    partition_around_pivot_index tol samples 1 0 a piv = Ok (a', p) /\
    nth_error a' p = Some x /\ p < i /\ nth_error a' i = Some y /\
    (val samples 1 0 y < val samples 1 0 x)%Z.
Proof.
  exists 1%Z, [5; 4]%Z, [0; 1], 0, 0, [0; 1], 1, 1, 0.
  split; [lia|]. split; [intros i H; simpl in *; intuition lia|].
  split; [now vm_compute|]. repeat split; auto.
Qed.

(** C06. *)
Theorem c06_quickselect_selects tol samples nf j a k :
  (0 <= tol)%Z -> in_dataset samples nf j a -> separated tol samples nf j a -> k < length a ->
  exists L x R,
    quickselect tol samples nf j a k = Ok (L ++ x :: R, (k, S k)) /\ length L = k /\
    Permutation a (L ++ x :: R) /\
    (forall y, In y L -> (val samples nf j y <= val samples nf j x)%Z) /\
    (forall y, In y R -> (val samples nf j x <= val samples nf j y)%Z).
Proof.
  intros Ht G Sep Hk.
  destruct (quickselect_ok tol samples nf j Ht 0 a ltac:(lia) (sep_exact _ _ _ _ _ Sep) k G Hk)
    as (L & x & R & E & HL & P & HlL & HrR & _).
  exists L, x, R. split; auto. split; auto. split; auto. split; intros y Hy.
  - specialize (HlL y Hy). lia.
  - specialize (HrR y Hy). lia.
Qed.

Example c06_case :
  in_dataset c05_samples 2 0 c05_range /\ separated 0 c05_samples 2 0 c05_range /\ 4 < length c05_range /\
  quickselect 0 c05_samples 2 0 c05_range 4 = Ok ([5; 1; 4; 3; 0; 2], (4, 5)).
Proof. split; [apply c05_case|]. split; [apply c05_case|]. split; [simpl; lia|now vm_compute]. Qed.

(** C07. *)
Theorem c07_quicksort_sorts tol samples nf j a piv :
  (0 <= tol)%Z -> in_dataset samples nf j a -> separated tol samples nf j a ->
  (a = [] \/ piv < length a) ->
  exists a' p, quicksort tol samples nf j a piv = Ok (a', p) /\ Permutation a a' /\
    sorted_by samples nf j a'.
Proof.
  intros Ht G Sep Hp. unfold quicksort, sorted_by.
  destruct (quicksort_fuel_ok tol samples nf j Ht 0 ltac:(lia) (S (length a)) a piv
              (sep_exact _ _ _ _ _ Sep) G) as (a' & p & E & P & S); auto.
  - destruct Hp; subst; simpl; auto.
  - exists a', p. split; auto. split; auto.
    clear - S. induction S; constructor; auto.
    eapply Forall_impl; [|exact H]. simpl. intros. lia.
Qed.

(** Without separation the result is sorted up to the tolerance. *)
Theorem c07_quicksort_within_tolerance tol samples nf j a piv :
  (0 <= tol)%Z -> in_dataset samples nf j a -> (a = [] \/ piv < length a) ->
  exists a' p, quicksort tol samples nf j a piv = Ok (a', p) /\ Permutation a a' /\
    sorted_within tol samples nf j a'.
Proof.
  intros Ht G Hp. unfold quicksort, sorted_within.
  destruct (quicksort_fuel_ok tol samples nf j Ht tol Ht (S (length a)) a piv) as (a' & p & E & P & S); auto.
  - destruct Hp; subst; simpl; auto.
  - exists a', p. auto.
Qed.

Example c07_case :
  in_dataset c05_samples 2 0 c05_range /\ separated 0 c05_samples 2 0 c05_range /\ 3 < length c05_range /\
  match quicksort 0 c05_samples 2 0 c05_range 3 with
  | Ok (a, _) => map (val c05_samples 2 0) a = [1; 3; 3; 3; 5; 8]%Z
  | _ => False
  end.
Proof.
  split; [apply c05_case|]. split; [apply c05_case|]. split; [simpl; lia|now vm_compute].
Qed.

(** C08. *)
Theorem c08_median_index_of_three samples nf j a :
  in_dataset samples nf j a ->
  exists m, median_index_of_three samples nf j a = Ok m /\
    (length a < 3 -> m = 0) /\
    (0 < length a -> m < length a) /\
    (3 <= length a -> exists x y z,
       nth_error a 0 = Some x /\ nth_error a ((length a - 1) / 2) = Some y /\
       nth_error a (length a - 1) = Some z /\
       let v := val samples nf j in
       ((m = 0 /\ ((v y <= v x <= v z)%Z \/ (v z <= v x <= v y)%Z)) \/
        (m = (length a - 1) / 2 /\ ((v x <= v y <= v z)%Z \/ (v z <= v y <= v x)%Z)) \/
        (m = length a - 1 /\ ((v x <= v z <= v y)%Z \/ (v y <= v z <= v x)%Z)))).
Proof.
  intros G. destruct (median3_ok samples nf j a G) as (m & E & H1 & H2 & H3).
  exists m. split; auto. split; auto. split; auto. intros H.
  destruct (H3 H) as (x & y & z & q & Hx & Hy & Hz & Hq & _ & Hc). exists x, y, z. auto.
Qed.

Example c08_case :
  in_dataset [7; 2; 9; 1; 4]%Z 1 0 [0; 1; 2; 3; 4] /\
  median_index_of_three [7; 2; 9; 1; 4]%Z 1 0 [0; 1; 2; 3; 4] = Ok 0 /\
  median_index_of_three [4; 2; 6; 1; 7]%Z 1 0 [0; 1; 2; 3; 4] = Ok 2.
Proof. split; [intros i H; simpl in *; intuition lia|]. now vm_compute. Qed.

(** C09. *)
Theorem c09_median_split_is_strict tol samples nf j a :
  (0 <= tol)%Z -> in_dataset samples nf j a -> separated tol samples nf j a -> a <> [] ->
  exists L x R, let m := length L in
    quickselect_median tol samples nf j a =
      Ok (L ++ x :: R, (m, (0, m), (m, S m), (S m, length a))) /\
    Permutation a (L ++ x :: R) /\
    m <= (length a - 1) / 2 /\
    (forall y, In y L -> (val samples nf j y < val samples nf j x)%Z) /\
    (forall y, In y R -> (val samples nf j x <= val samples nf j y)%Z).
Proof. intros Ht G Sep Hne. exact (quickselect_median_ok tol samples nf j Ht a G Sep Hne). Qed.

(** The median of [1 3 3 3 5 8] is a 3; the cut moves to the leftmost 3. *)
Example c09_case :
  in_dataset c05_samples 2 0 c05_range /\ separated 0 c05_samples 2 0 c05_range /\
  match quickselect_median 0 c05_samples 2 0 c05_range with
  | Ok (a, (m, _, _, _)) => m = 1 /\ map (val c05_samples 2 0) a = [1; 3; 3; 3; 5; 8]%Z
  | _ => False
  end.
Proof. split; [apply c05_case|]. split; [apply c05_case|now vm_compute]. Qed.

Print Assumptions c05_partition_partitions.
Print Assumptions c05_partition_within_tolerance.
Print Assumptions c05_partition_close_values_refuted.
Print Assumptions c06_quickselect_selects.
Print Assumptions c07_quicksort_sorts.
Print Assumptions c07_quicksort_within_tolerance.
Print Assumptions c08_median_index_of_three.
Print Assumptions c09_median_split_is_strict.
