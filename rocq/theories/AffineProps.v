(** Theorems on k-means and changes of coordinates: C101. *)
From Coq Require Import List Arith ZArith QArith Qcanon Qcabs Lia Bool.
From Verif Require Import Base BufferModel BufferSpec SearchModel MatrixModel KMeansModel KMeansSpec KMeansProofs KMeansCases
  KMeansInertia HamerlyConverge AffineSpec AffineProofs.
Import ListNotations.
Local Open Scope nat_scope.
Set Default Proof Using "Type".

(** [predict] and [forward]: the same labels, the distances times the constant. *)
Theorem c101_predict_image nf nf' d d' c T samples samples' centroids centroids' n k :
  change_of_coordinates nf nf' d d' c T -> nf <> 0 -> nf' <> 0 -> 0 < k ->
  image nf nf' T n samples samples' -> image nf nf' T k centroids centroids' ->
  exists labels distances,
    samples_to_nearest_centroid_indices (e_lt (rational d)) None (e_dist (rational d)) samples nf centroids = Ok labels /\
    samples_to_nearest_centroid_indices (e_lt (rational d')) None (e_dist (rational d')) samples' nf' centroids' = Ok labels /\
    samples_to_nearest_centroid_distances (e_lt (rational d)) None (e_dist (rational d)) samples nf centroids = Ok distances /\
    samples_to_nearest_centroid_distances (e_lt (rational d')) None (e_dist (rational d')) samples' nf' centroids' =
      Ok (map (option_map (Qcmult c)) distances).
Proof.
  intros HT Hnf Hnf' Hk Hs Hc.
  destruct (assign_ok _ (rational_ok d) samples nf n k Hnf (proj1 Hs) centroids Hk (proj1 Hc)) as (l & ds & E1 & E2 & _).
  exists l, ds.
  pose proof (indices_image nf nf' d d' c T HT Hnf Hnf' n k samples samples' Hs centroids centroids' Hc) as I1.
  pose proof (distances_image nf nf' d d' c T HT Hnf Hnf' n k samples samples' Hs centroids centroids' Hc) as I2.
  rewrite E1 in I1. rewrite E2 in I2. splits; auto.
Qed.

(** Lloyd: after any number of steps. *)
Theorem c101_lloyd_image nf nf' d d' c T samples samples' centroids centroids' n k :
  change_of_coordinates nf nf' d d' c T -> nf <> 0 -> nf' <> 0 -> 0 < k ->
  image nf nf' T n samples samples' -> image nf nf' T k centroids centroids' ->
  exists run run',
    make_lloyd (rational d) samples nf centroids = Ok (run 0) /\ make_lloyd (rational d') samples' nf' centroids' = Ok (run' 0) /\
    (forall t, lloyd_step (rational d) samples nf (run t) = Ok (run (S t)) /\
               lloyd_step (rational d') samples' nf' (run' t) = Ok (run' (S t))) /\
    forall t, keeps_origin nf nf' T \/ (forall s j, s < t -> j < k -> In j (ll_indices _ (run s))) ->
      image nf nf' T k (ll_centroids _ (run t)) (ll_centroids _ (run' t)) /\
      ll_indices _ (run' t) = ll_indices _ (run t) /\ ll_loss _ (run' t) = option_map (Qcmult c) (ll_loss _ (run t)).
Proof.
  intros HT Hnf Hnf' Hk Hs Hc.
  destruct (make_lloyd_image nf nf' d d' c T HT Hnf Hnf' n k samples samples' Hs Hk centroids centroids' Hc) as (l0 & l0' & E0 & E0' & R0).
  set (next := fun l => match lloyd_step (rational d) samples nf l with Ok l' => l' | _ => l end).
  set (next' := fun l => match lloyd_step (rational d') samples' nf' l with Ok l' => l' | _ => l end).
  set (run := fun t => Nat.iter t next l0). set (run' := fun t => Nat.iter t next' l0').
  assert (Hrun : forall t, lloyd_inv (rational d) samples nf n k (run t)).
  { induction t; [apply R0|]. change (run (S t)) with (next (run t)). unfold next.
    destruct (lloyd_step_ok _ (rational_ok d) samples nf n k Hnf (proj1 Hs) (run t) Hk IHt) as (l' & -> & H & _). auto. }
  assert (Hrun' : forall t, lloyd_inv (rational d') samples' nf' n k (run' t)).
  { induction t; [apply R0|]. change (run' (S t)) with (next' (run' t)). unfold next'.
    destruct (lloyd_step_ok _ (rational_ok d') samples' nf' n k Hnf' (proj1 (proj2 Hs)) (run' t) Hk IHt) as (l' & -> & H & _). auto. }
  exists run, run'. split; [exact E0|]. split; [exact E0'|]. split.
  - intros t. change (run (S t)) with (next (run t)). change (run' (S t)) with (next' (run' t)). unfold next, next'.
    destruct (lloyd_step_ok _ (rational_ok d) samples nf n k Hnf (proj1 Hs) (run t) Hk (Hrun t)) as (l' & -> & _).
    destruct (lloyd_step_ok _ (rational_ok d') samples' nf' n k Hnf' (proj1 (proj2 Hs)) (run' t) Hk (Hrun' t)) as (m' & -> & _). auto.
  - intros t Ho.
    assert (G : lrel nf nf' d d' c T n k samples samples' (run t) (run' t)).
    { induction t as [|t IH]; [exact R0|].
      assert (IHt : lrel nf nf' d d' c T n k samples samples' (run t) (run' t)).
      { apply IH. destruct Ho as [Ho|Ho]; [auto|right]. intros s j Hlt. apply Ho. lia. }
      destruct (lloyd_step_image nf nf' d d' c T HT Hnf Hnf' n k samples samples' Hs Hk _ _ IHt) as (m & m' & E & E' & G).
      { destruct Ho as [Ho|Ho]; [auto|right]. intros j Hj. apply (Ho t); auto; lia. }
      change (run (S t)) with (next (run t)). change (run' (S t)) with (next' (run' t)). unfold next, next'. rewrite E, E'. exact G. }
    destruct G as (G1 & G2 & _ & G4 & _). splits; auto.
Qed.

(** Hamerly: after any number of steps, empty clusters included. *)
Theorem c101_hamerly_image nf nf' d d' c T samples samples' centroids centroids' n k :
  change_of_coordinates nf nf' d d' c T -> nf <> 0 -> nf' <> 0 -> 0 < k ->
  image nf nf' T n samples samples' -> image nf nf' T k centroids centroids' ->
  exists run run',
    make_hamerly (rational d) samples nf centroids = Ok (run 0) /\ make_hamerly (rational d') samples' nf' centroids' = Ok (run' 0) /\
    forall t, hamerly_step (rational d) samples nf (run t) = Ok (run (S t)) /\
      hamerly_step (rational d') samples' nf' (run' t) = Ok (run' (S t)) /\
      image nf nf' T k (h_centroids _ (run t)) (h_centroids _ (run' t)) /\
      h_indices _ (run' t) = h_indices _ (run t) /\ h_loss _ (run' t) = option_map (Qcmult c) (h_loss _ (run t)).
Proof.
  intros HT Hnf Hnf' Hk Hs Hc.
  destruct (make_shape (rational d) (rational_ok d) samples nf n k Hnf (proj1 Hs) Hk centroids (proj1 Hc)) as (h0 & E0 & Sh & _).
  destruct (make_hamerly_image nf nf' d d' c T HT Hnf Hnf' n k samples samples' Hs Hk centroids centroids' Hc) as (h1 & h0' & E1 & E0' & R0 & _).
  assert (h1 = h0) by congruence. subst h1.
  set (next := fun h => match hamerly_step (rational d) samples nf h with Ok h' => h' | _ => h end).
  set (next' := fun h => match hamerly_step (rational d') samples' nf' h with Ok h' => h' | _ => h end).
  set (run := fun t => Nat.iter t next h0). set (run' := fun t => Nat.iter t next' h0').
  assert (Hst : forall h, shape (rational d) samples nf n k h -> exists h', hamerly_step (rational d) samples nf h = Ok h' /\ shape (rational d) samples nf n k h').
  { intros h Hh. destruct (step_all _ (rational_ok d) samples nf n k Hnf (proj1 Hs) Hk
      (reassign_ok line line_ok samples nf n k Hnf (proj1 Hs) line_laws) h Hh) as (h' & H1 & H2 & _). eauto. }
  assert (Hrun : forall t, shape (rational d) samples nf n k (run t)).
  { induction t; [exact Sh|]. change (run (S t)) with (next (run t)). unfold next. destruct (Hst _ IHt) as (h' & -> & H). auto. }
  assert (Hrel : forall t, hrel nf nf' d d' c T n k samples samples' (run t) (run' t)).
  { induction t as [|t IH]; [exact R0|]. change (run (S t)) with (next (run t)). change (run' (S t)) with (next' (run' t)). unfold next, next'.
    destruct (Hst _ (Hrun t)) as (h' & E & _). rewrite E.
    destruct (hamerly_step_image nf nf' d d' c T HT Hnf Hnf' n k samples samples' Hs Hk _ _ IH _ E) as (g & -> & G). exact G. }
  exists run, run'. split; [exact E0|]. split; [exact E0'|]. intros t.
  destruct (Hst _ (Hrun t)) as (h' & E & _).
  destruct (hamerly_step_image nf nf' d d' c T HT Hnf Hnf' n k samples samples' Hs Hk _ _ (Hrel t) _ E) as (g & E' & G).
  change (run (S t)) with (next (run t)). change (run' (S t)) with (next' (run' t)). unfold next, next'. rewrite E, E'.
  destruct (Hrel t) as (H1 & H2 & _ & _ & _ & _ & _ & H3 & _). splits; auto.
Qed.

(** [fit], for data and initial centroids that are images, and a stopping test that does not tell the two apart. *)
Definition same_stop (nf nf' : nat) (T : list Qc -> list Qc) (k : nat) (o : options) (close close' : Qc -> Qc -> bool) : Prop :=
  early_stopping o = false \/
  forall u u' v v', image nf nf' T k u u' -> image nf nf' T k v v' -> (same close' u' v' <-> same close u v).
Definition images (nf nf' : nat) (T : list Qc -> list Qc) (k n_init : nat) (centroids centroids' : list Qc) (init init' : nat -> list Qc) : Prop :=
  image nf nf' T k centroids centroids' \/
  (centroids = [] /\ centroids' = [] /\ forall i, i < n_init -> image nf nf' T k (init i) (init' i)).

(** The default tolerance is zero: the condition holds for every change of coordinates that is one to one. *)
Theorem c101_default_tolerance nf nf' T k o :
  (forall p r, length p = nf -> length r = nf -> T p = T r -> p = r) -> nf <> 0 -> nf' <> 0 ->
  same_stop nf nf' T k o qc_eq qc_eq.
Proof.
  intros Hinj Hnf Hnf'. right. intros u u' v v' (U1 & U2 & U3) (V1 & V2 & V3).
  assert (S : forall w w' : list Qc, same qc_eq w w' <-> w = w').
  { assert (R : forall z, qc_eq z z = true).
    { intros z. unfold qc_eq. destruct (Qceq_alt z z) as (H & _). now rewrite (H eq_refl). }
    intros w w'. split.
    - intros (L & H). apply nth_error_ext. intros i. destruct (nth_error w i) as [x|] eqn:E.
      + destruct (nth_error w' i) as [y|] eqn:E'.
        * f_equal. apply qc_eq_true. now apply (H i).
        * apply nth_error_None in E'. apply nth_error_lt in E. lia.
      + apply nth_error_None in E. symmetry. apply nth_error_None. lia.
    - intros <-. split; auto. intros i x y E E'. assert (x = y) by congruence. subst. apply R. }
  rewrite !S.
  assert (M : forall w (m m' : list Qc), w <> 0 -> length m = k * w -> length m' = k * w -> (forall i, i < k -> row m w i = row m' w i) -> m = m').
  { intros w m m' Hw L L' H. apply nth_error_ext. intros i. destruct (Nat.lt_ge_cases i (k * w)) as [Hi|Hi].
    - assert (Hd : i / w < k) by (apply Nat.div_lt_upper_bound; auto; lia).
      pose proof (H _ Hd) as E. apply (f_equal (fun l => nth_error l (i mod w))) in E. rewrite !nth_row in E.
      pose proof (Nat.mod_upper_bound i w Hw). destruct (Nat.ltb_spec (i mod w) w); [|lia].
      replace (i / w * w + i mod w) with i in E by (rewrite (Nat.div_mod i w Hw) at 1; lia). exact E.
    - rewrite !(proj2 (nth_error_None _ _)); auto; lia. }
  split; intros E.
  - apply (M nf); auto. intros i Hi. apply Hinj; [apply (row_length' u nf k); auto|apply (row_length' v nf k); auto|].
    rewrite <- U3, <- V3 by auto. now rewrite E.
  - apply (M nf'); auto. intros i Hi. rewrite U3, V3 by auto. now rewrite E.
Qed.

Theorem c101_fit_hamerly_image nf nf' d d' c T samples samples' n k o close close' centroids centroids' init init' best :
  change_of_coordinates nf nf' d d' c T -> nf <> 0 -> nf' <> 0 -> 0 < k ->
  image nf nf' T n samples samples' -> images nf nf' T k (n_init o) centroids centroids' init init' ->
  same_stop nf nf' T k o close close' ->
  fit (rational d) (hamerly_algorithm (rational d) samples nf) o close centroids init = Ok best ->
  exists best', fit (rational d') (hamerly_algorithm (rational d') samples' nf') o close' centroids' init' = Ok best' /\ image nf nf' T k best best'.
Proof.
  intros HT Hnf Hnf' Hk Hs Hc Hst. revert best.
  assert (Hm : forall cs cs', image nf nf' T k cs cs' -> fsim (hrel nf nf' d d' c T n k samples samples')
     (make_hamerly (rational d) samples nf cs) (make_hamerly (rational d') samples' nf' cs')).
  { intros cs cs' Hi r E.
    destruct (make_hamerly_image nf nf' d d' c T HT Hnf Hnf' n k samples samples' Hs Hk cs cs' Hi) as (h & h' & E1 & E2 & R & _).
    exists h'. split; auto. congruence. }
  apply (fit_image nf nf' d d' c T HT Hnf Hnf' k Hk (hamerly_algorithm (rational d) samples nf) (hamerly_algorithm (rational d') samples' nf')
    (hrel nf nf' d d' c T n k samples samples') o close close').
  - intros s s' (H1 & _ & _ & _ & _ & _ & _ & H2 & _). split; auto.
  - intros s s' H. apply (hamerly_step_image nf nf' d d' c T HT Hnf Hnf' n k samples samples' Hs Hk); auto.
  - exact Hst.
  - destruct Hc as [Hc|(H1 & H2 & H3)]; [right|left]; auto.
    + split; auto. apply Hm; auto.
    + splits; auto. intros i Hi. split; [auto|apply Hm; auto].
Qed.

(** With Lloyd's algorithm either the origin is kept or no cluster is ever left without a sample. *)
Definition no_empty_cluster (d : list Qc -> list Qc -> Qc) (samples : list Qc) (nf k : nat) (centroids : list Qc) : Prop :=
  forall t l l', make_lloyd (rational d) samples nf centroids = Ok l -> after t (lloyd_step (rational d) samples nf) l = Ok l' ->
    forall j, j < k -> In j (ll_indices _ l').

Theorem c101_fit_lloyd_image nf nf' d d' c T samples samples' n k o close close' centroids centroids' init init' best :
  change_of_coordinates nf nf' d d' c T -> nf <> 0 -> nf' <> 0 -> 0 < k ->
  image nf nf' T n samples samples' -> images nf nf' T k (n_init o) centroids centroids' init init' ->
  same_stop nf nf' T k o close close' ->
  keeps_origin nf nf' T \/
    (no_empty_cluster d samples nf k centroids /\ forall i, i < n_init o -> no_empty_cluster d samples nf k (init i)) ->
  fit (rational d) (lloyd_algorithm (rational d) samples nf) o close centroids init = Ok best ->
  exists best', fit (rational d') (lloyd_algorithm (rational d') samples' nf') o close' centroids' init' = Ok best' /\ image nf nf' T k best best'.
Proof.
  intros HT Hnf Hnf' Hk Hs Hc Hst Ho. revert best.
  set (reach := fun l : lloyd (rational d) => exists cs l0 t, (keeps_origin nf nf' T \/ no_empty_cluster d samples nf k cs) /\
    make_lloyd (rational d) samples nf cs = Ok l0 /\ after t (lloyd_step (rational d) samples nf) l0 = Ok l).
  set (R := fun l l' => lrel nf nf' d d' c T n k samples samples' l l' /\ reach l).
  assert (Hm : forall cs cs', keeps_origin nf nf' T \/ no_empty_cluster d samples nf k cs -> image nf nf' T k cs cs' ->
     fsim R (make_lloyd (rational d) samples nf cs) (make_lloyd (rational d') samples' nf' cs')).
  { intros cs cs' Hne Hi r E.
    destruct (make_lloyd_image nf nf' d d' c T HT Hnf Hnf' n k samples samples' Hs Hk cs cs' Hi) as (h & h' & E1 & E2 & G).
    exists h'. split; auto. assert (h = r) by congruence. subst h. split; auto. exists cs, r, 0. splits; auto. }
  apply (fit_image nf nf' d d' c T HT Hnf Hnf' k Hk (lloyd_algorithm (rational d) samples nf) (lloyd_algorithm (rational d') samples' nf')
    R o close close').
  - intros s s' ((H1 & _ & _ & H2 & _) & _). split; auto.
  - intros s s' (H & (cs & l0 & t & Hne & E0 & Et)) r E. cbn [alg_step lloyd_algorithm] in *.
    destruct (lloyd_step_image nf nf' d d' c T HT Hnf Hnf' n k samples samples' Hs Hk _ _ H) as (m & m' & E1 & E2 & G).
    { destruct Hne as [Hne|Hne]; [auto|right]. apply (Hne t l0 s); auto. }
    exists m'. split; auto. assert (m = r) by congruence. subst m. split; auto. exists cs, l0, (S t). splits; auto.
    clear - Et E. revert l0 Et. induction t as [|t IH]; intros l0 Et; cbn [after] in *.
    + injection Et as ->. rewrite E. reflexivity.
    + apply bind_ok in Et. destruct Et as (l1 & E1 & Et). rewrite E1. cbn [bind]. apply IH in Et. exact Et.
  - exact Hst.
  - destruct Hc as [Hc|(H1 & H2 & H3)]; [right|left]; auto.
    + split; auto. apply Hm; auto. tauto.
    + splits; auto. intros i Hi. split; [auto|apply Hm; auto]. destruct Ho as [Ho|(_ & Ho)]; auto.
Qed.

(** ** A concrete change of coordinates *)
(** A quarter turn of the plane, the unit halved, and a translation. *)
Definition turn (p : list Qc) : list Qc :=
  match p with [x; y] => [q 1 - q 2 * y; q 3 + q 2 * x]%Qc | _ => p end.

Lemma turn_change : change_of_coordinates 2 2 l1 l1 (q 2) turn.
Proof.
  constructor.
  - intros [|x [|y [|z p]]] H; try discriminate. reflexivity.
  - intros [|x [|y [|z p]]] [|x' [|y' [|z' r]]] [|x'' [|y'' [|z'' s]]] H1 H2 H3; try discriminate.
    cbn [vplus vminus combine map turn]. f_equal; [|f_equal]; ring.
  - reflexivity.
  - intros [|x [|y [|z p]]] [|x' [|y' [|z' r]]] H1 H2; try discriminate.
    cbn [turn]. unfold l1, summed. cbn [combine fold_right].
    replace (q 1 - q 2 * y - (q 1 - q 2 * y'))%Qc with (- (q 2 * (y - y')))%Qc by ring.
    replace (q 3 + q 2 * x - (q 3 + q 2 * x'))%Qc with (q 2 * (x - x'))%Qc by ring.
    rewrite Qcabs_opp, !Qcabs_Qcmult. replace (Qcabs (q 2)) with (q 2) by (apply Qc_is_canon; reflexivity). ring.
Qed.

Lemma turn_injective : forall p r, length p = 2 -> length r = 2 -> turn p = turn r -> p = r.
Proof.
  intros [|x [|y [|z p]]] [|x' [|y' [|z' r]]] H1 H2; try discriminate. cbn [turn]. intros E0.
  pose proof (f_equal (fun l => nth 0 l 0%Qc) E0) as E1. pose proof (f_equal (fun l => nth 1 l 0%Qc) E0) as E2. cbn [nth] in E1, E2. clear E0.
  assert (Hh : (q 2 <> 0)%Qc) by discriminate.
  assert (Hx : x = x').
  { assert (E : (q 2 * x = q 2 * x')%Qc).
    { replace (q 2 * x)%Qc with ((q 3 + q 2 * x) - q 3)%Qc by ring. rewrite E2. ring. }
    apply (f_equal (Qcmult (/ q 2)%Qc)) in E. rewrite !Qcmult_assoc, Qcmult_inv_l, !Qcmult_1_l in E by auto. auto. }
  assert (Hy : y = y').
  { assert (E : (q 2 * y = q 2 * y')%Qc).
    { replace (q 2 * y)%Qc with (q 1 - (q 1 - q 2 * y))%Qc by ring. rewrite E1. ring. }
    apply (f_equal (Qcmult (/ q 2)%Qc)) in E. rewrite !Qcmult_assoc, Qcmult_inv_l, !Qcmult_1_l in E by auto. auto. }
  now subst.
Qed.

Definition plane : list Qc := qs [0; 0; 1; 2; 2; 1; 7; 8; 9; 8; 6; 9]%Z.
Definition plane_start : list Qc := qs [0; 0; 2; 1]%Z.
Definition turned (m : list Qc) (n : nat) : list Qc := flat_map (fun i => turn (row m 2 i)) (seq 0 n).

Example c101_data_case : image 2 2 turn 6 plane (turned plane 6) /\ image 2 2 turn 2 plane_start (turned plane_start 2).
Proof.
  split; (split; [reflexivity|split; [reflexivity|]]); intros i Hi; do 6 (destruct i as [|i]; [vm_compute; reflexivity|]); lia.
Qed.

(** Six points of the plane, two centroids: the start changes in several steps; the default options. *)
Definition fit_labels (a : arith) (alg : list (num a) -> nat -> algorithm a) (view : num a -> Q) (close : num a -> num a -> bool)
  (samples : list (num a)) (nf : nat) (centroids : list (num a)) : res (list Q * list nat) :=
  best <- fit a (alg samples nf) default_options close centroids (fun _ => []) ;;
  labels <- samples_to_nearest_centroid_indices (e_lt a) None (e_dist a) samples nf best ;;
  Ok (map view best, labels).
Example c101_fit_case :
  fit_labels line (hamerly_algorithm line) this qc_eq plane 2 plane_start = Ok ([1; 1; 22 # 3; 25 # 3]%Q, [0; 0; 0; 1; 1; 1]) /\
  fit_labels line (hamerly_algorithm line) this qc_eq (turned plane 6) 2 (turned plane_start 2) =
    Ok ([-1 # 1; 5; -47 # 3; 53 # 3]%Q, [0; 0; 0; 1; 1; 1]).
Proof. split; vm_compute; reflexivity. Qed.
Example c101_lloyd_case :
  fit_labels line (lloyd_algorithm line) this qc_eq plane 2 plane_start = Ok ([1; 1; 22 # 3; 25 # 3]%Q, [0; 0; 0; 1; 1; 1]) /\
  fit_labels line (lloyd_algorithm line) this qc_eq (turned plane 6) 2 (turned plane_start 2) =
    Ok ([-1 # 1; 5; -47 # 3; 53 # 3]%Q, [0; 0; 0; 1; 1; 1]).
Proof. split; vm_compute; reflexivity. Qed.

(** In that run of Lloyd's algorithm both clusters have samples at every step. *)
Example c101_no_empty_case :
  (l <- make_lloyd line plane 2 plane_start ;; l1 <- lloyd_step line plane 2 l ;; l2 <- lloyd_step line plane 2 l1 ;;
   l3 <- lloyd_step line plane 2 l2 ;; Ok (map (ll_indices _) [l; l1; l2; l3])) =
  Ok [[0; 1; 1; 1; 1; 1]; [0; 0; 0; 1; 1; 1]; [0; 0; 0; 1; 1; 1]; [0; 0; 0; 1; 1; 1]].
Proof. vm_compute. reflexivity. Qed.
(** A change of the unit alone keeps the origin. *)
Example c101_origin_case : keeps_origin 2 2 (map (Qcmult (q 3))).
Proof.
  unfold keeps_origin. cbn [repeat map]. assert (E : (q 3 * 0 = 0)%Qc) by ring. now rewrite E.
Qed.

(** ** What does not hold *)
(** Lloyd: a cluster that loses its samples gets the origin as its centroid, so that a translation of the data and of the start
    changes the clusters. *)
Definition shifted (m : list Qc) (t : Qc) : list Qc := map (fun x => x + t)%Qc m.
Theorem c101_translation_refuted : exists samples start t best best',
  fit_labels line (lloyd_algorithm line) this qc_eq samples 1 start = Ok (best, [0; 0]) /\
  fit_labels line (lloyd_algorithm line) this qc_eq (shifted samples t) 1 (shifted start t) = Ok (best', [1; 0]).
Proof.
  exists (qs [5; 6]%Z), (qs [6; 100]%Z), (q (-5)), [11 # 2; 0]%Q, [1; 0]%Q. split; vm_compute; reflexivity.
Qed.

(** Hamerly with [common::equality] as it is, with the epsilon of double: in another unit other clusters. *)
Definition epsilon : Qc := Q2Qc (1 # 2 ^ 52).
Definition line_with_epsilon : arith :=
  mk_arith Qc 0%Qc Qcplus Qcminus qc_div qc_lt (fun x y => negb (qc_lt epsilon (Qcabs (x - y)%Qc))) l1.
Theorem c101_unit_refuted : exists samples start c best best', (0 < c)%Qc /\
  fit_labels line_with_epsilon (hamerly_algorithm line_with_epsilon) this qc_eq samples 1 start = Ok (best, [0; 1; 1; 1]) /\
  fit_labels line_with_epsilon (hamerly_algorithm line_with_epsilon) this qc_eq (map (Qcmult c) samples) 1 (map (Qcmult c) start) = Ok (best', [0; 1; 1; 0]).
Proof.
  exists (qs [0; 40; 29; 24]%Z), (qs [20; 40]%Z), (epsilon * Q2Qc (1 # 10))%Qc, [0; 31]%Q,
    [53 # 135107988821114880; 1 # 1125899906842624]%Q.
  split; [reflexivity|]. split; vm_compute; reflexivity.
Qed.

(** Early stopping with a tolerance above zero: in another unit it stops elsewhere. *)
Theorem c101_tolerance_refuted : exists samples start (tolerance c : Qc) best best', (0 < tolerance)%Qc /\ (0 < c)%Qc /\
  fit_labels line (lloyd_algorithm line) this (fun x y => negb (qc_lt tolerance (Qcabs (x - y)%Qc))) samples 1 start = Ok (best, [0; 0; 0; 0; 1]) /\
  fit_labels line (lloyd_algorithm line) this (fun x y => negb (qc_lt tolerance (Qcabs (x - y)%Qc))) (map (Qcmult c) samples) 1 (map (Qcmult c) start) =
    Ok (best', [0; 0; 0; 1; 1]).
Proof.
  exists (qs [2; 5; 7; 9; 21]%Z), (qs [0; 4]%Z), (q 1), (Q2Qc (1 # 100)), [23 # 4; 21]%Q, [7 # 200; 37 # 300]%Q.
  split; [reflexivity|]. split; [reflexivity|]. split; vm_compute; reflexivity.
Qed.

Print Assumptions c101_predict_image.
Print Assumptions c101_lloyd_image.
Print Assumptions c101_hamerly_image.
Print Assumptions c101_default_tolerance.
Print Assumptions c101_fit_hamerly_image.
Print Assumptions c101_fit_lloyd_image.
Print Assumptions c101_translation_refuted.
Print Assumptions c101_unit_refuted.
Print Assumptions c101_tolerance_refuted.
