(** Theorems on silhouette values: C48. *)
From Coq Require Import List Arith ZArith QArith Lia Bool Permutation Lqa.
From Verif Require Import Base SortingModel BufferSpec SearchModel MatrixModel MatrixProofs KMeansModel KMeansProofs
  RandomModel RandomSpec RandomProofs AliasProofs SilhouetteModel SilhouetteSpec SilhouetteProofs.
Import ListNotations.
Local Open Scope nat_scope.

Definition real_distance {F} (dist : list F -> list F -> Q) (p q : list F) : el real_element := Fin (dist p q).

(** [a] is the mean distance to the other samples of the own cluster (0 if there is none), [b] the least mean distance to another
    cluster: the value is 1 - a / b, b / a - 1 or 0. Without another cluster it is 1. *)
Theorem c48_value_is_the_formula :
  forall (F : Type) (dist : list F -> list F -> Q) samples nf n labels,
  (forall p q, 0 <= dist p q)%Q -> nf <> 0 -> length samples = n * nf -> length labels = n -> 0 < n ->
  exists v, silhouette real_element (real_distance dist) samples nf labels = Ok v /\ length v = n /\
  forall i, i < n -> exists q, nth_error v i = Some (Fin q) /\
    let d j := dist (row samples nf i) (row samples nf j) in
    let a := mean d (fellows labels i) in
    (exists b, least_mean labels d i b /\ value_ok a (Some b) q) \/
    ((forall c, c <> nth i labels 0 -> cluster labels c = []) /\ value_ok a None q).
Proof.
  intros F dist samples nf n labels Hd Hnf Hs Hl Hn.
  destruct (real_silhouette dist Hd samples nf n labels Hnf Hs Hl Hn) as (v & E & Hv & H). exists v. splits; auto.
  intros i Hi. destruct (H i Hi) as (x & Ex & q & -> & Hq). exists q. split; auto.
Qed.

Theorem c48_values_in_range :
  forall (F : Type) (dist : list F -> list F -> Q) samples nf n labels v i,
  (forall p q, 0 <= dist p q)%Q -> nf <> 0 -> length samples = n * nf -> length labels = n -> i < n ->
  silhouette real_element (real_distance dist) samples nf labels = Ok v -> exists q, nth_error v i = Some (Fin q) /\ (-1 <= q <= 1)%Q.
Proof.
  intros F dist samples nf n labels v i Hd Hnf Hs Hl Hi E.
  destruct (c48_value_is_the_formula F dist samples nf n labels Hd Hnf Hs Hl ltac:(lia)) as (v' & E' & _ & H). rewrite E in E'. injection E' as <-.
  destruct (H i Hi) as (q & Eq & HC). exists q. split; auto. cbv zeta in HC.
  set (d := fun j => dist (row samples nf i) (row samples nf j)) in *. set (a := mean d (fellows labels i)) in *.
  assert (Ha : (0 <= a)%Q) by (apply (mean_nonneg dist Hd samples nf n labels Hnf Hs Hl ltac:(lia))).
  destruct HC as [(b & Hb & H1 & H2 & H3)|(_ & H1)].
  - assert (Hb0 : (0 <= b)%Q) by (destruct Hb as ((c & _ & _ & ->) & _); apply (mean_nonneg dist Hd samples nf n labels Hnf Hs Hl ltac:(lia))).
    destruct (Qlt_le_dec a b) as [Hab|Hab]; [|destruct (Qlt_le_dec b a) as [Hba|Hba]].
    + rewrite H1 by auto. assert (0 <= a / b)%Q by (apply Qle_shift_div_l; lra). assert (a / b <= 1)%Q by (apply Qle_shift_div_r; lra). lra.
    + rewrite H2 by auto. assert (0 <= b / a)%Q by (apply Qle_shift_div_l; lra). assert (b / a <= 1)%Q by (apply Qle_shift_div_r; lra). lra.
    + rewrite H3 by lra. lra.
  - simpl in H1. lra.
Qed.

(** A sample alone in its cluster has value 1, or 0 if another cluster lies wholly at distance zero from it. *)
Theorem c48_alone_in_its_cluster :
  forall (F : Type) (dist : list F -> list F -> Q) samples nf n labels v i,
  (forall p q, 0 <= dist p q)%Q -> nf <> 0 -> length samples = n * nf -> length labels = n -> i < n ->
  silhouette real_element (real_distance dist) samples nf labels = Ok v -> cluster labels (nth i labels 0) = [i] ->
  exists q, nth_error v i = Some (Fin q) /\
    ((forall c, c <> nth i labels 0 -> cluster labels c <> [] ->
       exists j, In j (cluster labels c) /\ (0 < dist (row samples nf i) (row samples nf j))%Q) -> (q == 1)%Q) /\
    ((exists c, c <> nth i labels 0 /\ cluster labels c <> [] /\
       forall j, In j (cluster labels c) -> (dist (row samples nf i) (row samples nf j) == 0)%Q) -> (q == 0)%Q).
Proof.
  intros F dist samples nf n labels v i Hd Hnf Hs Hl Hi E Hone.
  destruct (c48_value_is_the_formula F dist samples nf n labels Hd Hnf Hs Hl ltac:(lia)) as (v' & E' & _ & H). rewrite E in E'. injection E' as <-.
  destruct (H i Hi) as (q & Eq & HC). exists q. split; auto. cbv zeta in HC.
  set (d := fun j => dist (row samples nf i) (row samples nf j)) in *. set (a := mean d (fellows labels i)) in *.
  assert (Ha : (a == 0)%Q) by (unfold a, fellows; rewrite Hone; cbn [filter]; rewrite Nat.eqb_refl; reflexivity).
  assert (Hnn : forall l, (0 <= total (map d l))%Q) by (intros; apply (total_nonneg dist Hd samples nf i)).
  destruct HC as [(b & Hb & H1 & H2 & H3)|(Hno & H1)].
  - split.
    + intros Hpos. destruct Hb as ((c & Hc & Hne & Eb) & _). destruct (Hpos c Hc Hne) as (j & Hj & Hdj).
      assert (Hb : (0 < b)%Q).
      { rewrite Eb. unfold mean. apply Qlt_shift_div_l; [apply QN_pos; destruct (cluster labels c); [congruence|simpl; lia]|]. rewrite Qmult_0_l.
        fold d. apply in_split in Hj. destruct Hj as (l1 & l2 & ->). rewrite map_app. simpl.
        assert (G : forall l y r, (total (l ++ y :: r) == total l + y + total r)%Q).
        { clear. induction l; intros y r; unfold total in *; simpl; [lra|]. rewrite IHl. lra. }
        rewrite G. pose proof (Hnn l1). pose proof (Hnn l2). unfold d at 2. lra. }
      rewrite H1 by lra. rewrite Ha. field. lra.
    + intros (c & Hc & Hne & Hz). apply H3. destruct Hb as ((c' & _ & _ & Eb) & Hle). specialize (Hle c Hc Hne).
      assert (Hm : (mean d (cluster labels c) == 0)%Q).
      { unfold mean. assert (Ht : (total (map d (cluster labels c)) == 0)%Q).
        { clear - Hz. induction (cluster labels c) as [|j l IH]; unfold total in *; simpl; [reflexivity|]. rewrite IH by (intros; apply Hz; simpl; auto).
          unfold d. rewrite Hz by (simpl; auto). reflexivity. }
        rewrite Ht. unfold Qdiv. apply Qmult_0_l. }
      assert (0 <= b)%Q by (rewrite Eb; apply (mean_nonneg dist Hd samples nf n labels Hnf Hs Hl ltac:(lia))). lra.
  - split.
    + intros _. exact H1.
    + intros (c & Hc & Hne & _). exfalso. auto.
Qed.

(** The documentation says 0 there. *)
Theorem c48_alone_is_zero_refuted :
  exists (samples : list Z) labels i v, cluster labels (nth i labels 0) = [i] /\
  silhouette real_element (real_distance (fun p q => inject_Z (Z.abs (hd 0%Z p - hd 0%Z q)))) samples 1 labels = Ok v /\
  exists q, nth_error v i = Some (Fin q) /\ (q == 1)%Q.
Proof.
  exists [0; 10; 12]%Z, [0; 1; 1], 0. eexists. splits; [reflexivity|vm_compute; reflexivity|].
  eexists; split; [reflexivity|]. reflexivity.
Qed.

(** When all samples have the same label every value is 1. *)
Theorem c48_one_cluster_is_perfect :
  forall (F : Type) (dist : list F -> list F -> Q) samples nf n label,
  (forall p q, 0 <= dist p q)%Q -> nf <> 0 -> length samples = n * nf -> 0 < n ->
  exists v, silhouette real_element (real_distance dist) samples nf (repeat label n) = Ok v /\ length v = n /\
  forall i, i < n -> exists q, nth_error v i = Some (Fin q) /\ (q == 1)%Q.
Proof.
  intros F dist samples nf n label Hd Hnf Hs Hn.
  destruct (c48_value_is_the_formula F dist samples nf n (repeat label n) Hd Hnf Hs (repeat_length _ _) Hn) as (v & E & Hv & H). exists v. splits; auto.
  intros i Hi. destruct (H i Hi) as (q & Eq & HC). exists q. split; auto. destruct HC as [(b & ((c & Hc & Hne & _) & _) & _)|(_ & H1)]; auto.
  exfalso. apply Hne. unfold cluster.
  assert (G : forall l, (forall j, In j l -> j < n) -> filter (fun j => nth j (repeat label n) 0 =? c) l = []).
  { intros l Hl. induction l as [|j l IH]; simpl; auto. rewrite nth_repeat with (a := label) || idtac.
    assert (Ej : nth j (repeat label n) 0 = label).
    { apply nth_error_nth. apply nth_error_repeat. apply Hl. simpl. auto. }
    assert (Ei : nth i (repeat label n) 0 = label) by (apply nth_error_nth, nth_error_repeat; auto).
    rewrite Ej. destruct (Nat.eqb_spec label c); [congruence|]. apply IH. intros; apply Hl; simpl; auto. }
  apply G. intros j Hj. apply in_seq in Hj. rewrite repeat_length in Hj. lia.
Qed.

(** On integer data every value is -1 or 0: -1 if the sample has others in its cluster at mean distance at least 1. *)
Theorem c48_integer_values :
  forall (F : Type) (dist : list F -> list F -> Z) samples nf n labels,
  (forall p q, 0 <= dist p q)%Z -> nf <> 0 -> length samples = n * nf -> length labels = n -> 0 < n ->
  exists v, silhouette integer_element dist samples nf labels = Ok v /\ length v = n /\
  forall i, i < n ->
    let sum := fold_right Z.add 0%Z (map (fun j => dist (row samples nf i) (row samples nf j)) (fellows labels i)) in
    nth_error v i = Some (if ((0 <? length (fellows labels i)) && (Z.of_nat (length (fellows labels i)) <=? sum)%Z)%bool then (-1)%Z else 0%Z).
Proof.
  intros F dist samples nf n labels Hd Hnf Hs Hl Hn.
  destruct (integer_silhouette dist Hd samples nf n labels Hnf Hs Hl Hn) as (v & E & Hv & H). exists v. splits; auto.
  intros i Hi. destruct (H i Hi) as (x & -> & ->). destruct (fellows labels i) as [|j l] eqn:Ef; [reflexivity|]. rewrite <- Ef.
  destruct (Nat.ltb_spec 0 (length (fellows labels i))); [reflexivity|rewrite Ef in *; simpl in *; lia].
Qed.

(** The average of values in [-1, 1] lies in [-1, 1]; of no values it is not a number. *)
Theorem c48_average :
  (forall qs, qs <> [] -> exists q, get_average_silhouette real_element (map (fun q => Fin q) qs) = Ok (Fin q) /\
    (q * inject_Z (Z.of_nat (length qs)) == total qs)%Q /\
    ((forall x, In x qs -> -1 <= x <= 1) -> -1 <= q <= 1)%Q) /\
  get_average_silhouette real_element [] = Ok NaN.
Proof.
  split; [|reflexivity]. intros qs Hne. unfold get_average_silhouette. rewrite map_length. cbn [el_div el_add el_zero el_nat real_element].
  assert (G : forall l a, exists s, fold_left ext_add (map (fun q => Fin q) l) (Fin a) = Fin s /\ (s == a + total l)%Q).
  { clear. induction l as [|x l IH]; intros a; simpl.
    - exists a. split; auto. unfold total. simpl. lra.
    - destruct (IH (a + x)%Q) as (s & E & Es). exists s. split; auto. rewrite Es. unfold total. simpl. lra. }
  destruct (G qs 0%Q) as (s & E & Es). change (el real_element) with ext. rewrite E.
  assert (Hp : (0 < QN (length qs))%Q) by (apply QN_pos; destruct qs; [congruence|simpl; lia]).
  cbn [ext_div]. destruct (Qeq_bool (QN (length qs)) 0) eqn:Eq; [apply Qeq_bool_iff in Eq; lra|].
  eexists; split; [reflexivity|]. assert (Et : (s == total qs)%Q) by lra. split; [rewrite Et; field; lra|].
  intros Hr. assert (B : (- QN (length qs) <= total qs <= QN (length qs))%Q).
  { clear - Hr. induction qs as [|x qs IH]; [vm_compute; split; discriminate|]. cbn [length]. rewrite Nat2Z.inj_succ. unfold Z.succ. rewrite inject_Z_plus.
    change (inject_Z 1) with 1%Q. assert (H : (- QN (length qs) <= total qs <= QN (length qs))%Q) by (apply IH; intros; apply Hr; simpl; auto).
    specialize (Hr x ltac:(simpl; auto)). unfold total in *. simpl. lra. }
  rewrite Et. split; [apply Qle_shift_div_l; lra|apply Qle_shift_div_r; lra].
Qed.

(** Without labels the greatest label does not exist. *)
Theorem c48_no_samples_is_undefined :
  forall (F : Type) (e : element) dist nf, nf <> 0 -> silhouette (F := F) e dist [] nf [] = UB.
Proof. intros F e dist nf Hnf. unfold silhouette, cohesion, get_n_samples. destruct (Nat.eqb_spec nf 0); [contradiction|]. reflexivity. Qed.

(** Samples 0, 1 and 4 | 6 | 100, 102 with labels 2, 2, 2, 0, 5, 5 (labels 1, 3 and 4 are unused). *)
Example c48_case :
  (v <- silhouette real_element (real_distance (fun p q => inject_Z (Z.abs (hd 0%Z p - hd 0%Z q)))) [0; 1; 4; 6; 100; 102]%Z 1 [2; 2; 2; 0; 5; 5] ;;
   Ok (map (fun x => match x with Fin q => Some (Qred q) | _ => None end) v)) =
    Ok [Some (7 # 12); Some (3 # 5); Some (- 3 # 7); Some 1; Some (46 # 47); Some (47 # 48)]%Q /\
  silhouette integer_element (fun p q => Z.abs (hd 0%Z p - hd 0%Z q)) [0; 1; 4; 6; 100; 102; 8; 8]%Z 1 [2; 2; 2; 0; 5; 5; 1; 1] =
    Ok [-1; -1; -1; 0; -1; -1; 0; 0]%Z /\
  get_cluster_sizes [2; 2; 1; 0; 0; 1; 0; 2; 0; 5] = Ok [4; 2; 3; 0; 0; 1].
Proof. vm_compute. auto. Qed.

Print Assumptions c48_value_is_the_formula.
Print Assumptions c48_values_in_range.
Print Assumptions c48_alone_in_its_cluster.
Print Assumptions c48_alone_is_zero_refuted.
Print Assumptions c48_one_cluster_is_perfect.
Print Assumptions c48_integer_values.
Print Assumptions c48_average.
Print Assumptions c48_no_samples_is_undefined.
