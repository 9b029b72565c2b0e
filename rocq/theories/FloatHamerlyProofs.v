(** Hamerly's algorithm with any arithmetic: bookkeeping. *)
From Coq Require Import List Arith Bool Lia Permutation.
From Verif Require Import Base SortingModel MatrixModel SearchModel BufferSpec BufferModel KMeansModel KMeansSpec KMeansProofs FloatKMeansProofs FloatHamerlyModel.
Import ListNotations.

Section Any.
Context (a : arith) (infinity highest lowest : num a).
Notation num := (num a).
Context (samples : list num) (nf n k : nat) (Hnf : nf <> 0) (Hs : length samples = n * nf) (Hk : 0 < k).
(** What is known of the stored sum of feature [f] over some samples. *)
Context (S : nat -> list nat -> num -> Prop).
Notation value i f := (nth (i * nf + f) samples (n_zero a)).
Context (S_perm : forall f l l' x, Permutation l l' -> S f l x -> S f l' x)
  (S_nil : forall f, f < nf -> S f [] (n_zero a))
  (S_add : forall f i l x, f < nf -> NoDup (i :: l) -> (forall j, In j (i :: l) -> j < n) -> S f l x -> S f (i :: l) (n_add a x (value i f)))
  (S_sub : forall f i l x, f < nf -> NoDup (i :: l) -> (forall j, In j (i :: l) -> j < n) -> S f (i :: l) x -> S f l (n_sub a x (value i f))).

Lemma left_sum_held f l : f < nf -> NoDup l -> (forall j, In j l -> j < n) -> S f l (left_sum a samples nf f l).
Proof using S_perm S_nil S_add.
  intros Hf. induction l as [|i l IH] using rev_ind; intros Hd Hin; [now apply S_nil|].
  unfold left_sum. rewrite map_app, fold_left_app. cbn [map fold_left].
  assert (P : Permutation (i :: l) (l ++ [i])) by apply Permutation_cons_append.
  assert (D : NoDup (i :: l)) by (eapply Permutation_NoDup; [apply Permutation_sym; exact P|exact Hd]).
  apply S_perm with (1 := P). apply S_add; auto.
  - intros j Hj. apply Hin. eapply Permutation_in; eauto.
  - apply IH; [now inversion D|]. intros j Hj. apply Hin. apply in_or_app. now left.
Qed.

Definition held (asg sizes : list nat) (sums : list num) : Prop :=
  length asg = n /\ (forall i, i < n -> nth i asg 0 < k) /\
  length sizes = k /\ (forall c, c < k -> nth_error sizes c = Some (length (members asg c))) /\
  length sums = k * nf /\ (forall c f, c < k -> f < nf -> exists x, nth_error (row sums nf c) f = Some x /\ S f (members asg c) x).

Definition inv (h : bounds a) : Prop :=
  length (b_centroids _ h) = k * nf /\ held (b_indices _ h) (b_sizes _ h) (b_sums _ h) /\
  length (b_nearest _ h) = n /\ length (b_second _ h) = n /\ length (b_neighbors _ h) = k /\ length (b_velocities _ h) = k.

Lemma members_below asg c j : length asg = n -> In j (members asg c) -> j < n.
Proof using Type. intros L H. apply in_members in H. rewrite L in H. now destruct H. Qed.

Lemma reassign asg sizes sums i c' : held asg sizes sums -> i < n -> c' < k -> c' <> nth i asg 0 ->
  exists old new_size sums1 sums2,
    rd sizes (nth i asg 0) = Ok old /\ old <> 0 /\
    rd (upd sizes (nth i asg 0) (old - 1)) c' = Ok new_size /\
    accumulate_sample a (n_sub a) samples nf i (nth i asg 0) sums = Ok sums1 /\
    accumulate_sample a (n_add a) samples nf i c' sums1 = Ok sums2 /\
    held (upd asg i c') (upd (upd sizes (nth i asg 0) (old - 1)) c' (new_size + 1)) sums2.
Proof using Hnf Hs Hk S_perm S_add S_sub.
  intros (H1 & H2 & H3 & H4 & H5 & H6) Hi Hc' Hn. set (o := nth i asg 0) in *. assert (Ho : o < k) by (apply H2; auto).
  pose proof (members_leave asg i c' ltac:(lia) (not_eq_sym Hn)) as Pl. fold o in Pl.
  pose proof (members_join asg i c' ltac:(lia) (not_eq_sym Hn)) as Pj.
  destruct (accumulate_ok a samples nf n k Hnf Hs (n_sub a) sums i o H5 Hi Ho) as (sums1 & E1 & L1 & R1 & O1).
  destruct (accumulate_ok a samples nf n k Hnf Hs (n_add a) sums1 i c' L1 Hi Hc') as (sums2 & E2 & L2 & R2 & O2).
  assert (V : forall f, f < nf -> nth_error (row samples nf i) f = Some (value i f)) by (intros f Hf; now apply (nth_sample a samples nf n Hnf Hs)).
  assert (Lu : length (upd asg i c') = n) by now rewrite upd_length.
  exists (length (members asg o)), (length (members asg c')), sums1, sums2. splits; auto.
  - apply rd_ok. auto.
  - rewrite (Permutation_length Pl). simpl. lia.
  - apply rd_ok. rewrite nth_error_upd_neq by auto. auto.
  - split; [exact Lu|]. split.
    { intros j Hj. rewrite nth_upd by lia. destruct (j =? i); auto. }
    split; [now rewrite !upd_length|]. split; [|split; [auto|]].
    + intros c Hc. destruct (Nat.eq_dec c c') as [->|Hcc].
      * rewrite nth_error_upd_eq by (rewrite upd_length; lia). f_equal. rewrite (Permutation_length Pj). simpl. lia.
      * rewrite nth_error_upd_neq by auto. destruct (Nat.eq_dec c o) as [->|Hco].
        -- rewrite nth_error_upd_eq by lia. f_equal. rewrite (Permutation_length Pl). simpl. lia.
        -- rewrite nth_error_upd_neq by auto. rewrite members_other; auto; lia.
    + intros c f Hc Hf. destruct (Nat.eq_dec c c') as [->|Hcc].
      * rewrite R2, O1 by auto. destruct (H6 c' f Hc' Hf) as (x & Ex & Sx). exists (n_add a x (value i f)). split; [now apply nth_transform2; auto|].
        apply S_perm with (1 := Permutation_sym Pj). apply S_add; auto.
        -- apply (Permutation_NoDup Pj). apply members_nodup.
        -- intros j Hj. apply (members_below (upd asg i c') c' j Lu). eapply Permutation_in; [apply Permutation_sym; exact Pj|exact Hj].
      * rewrite O2 by auto. destruct (Nat.eq_dec c o) as [->|Hco].
        -- rewrite R1. destruct (H6 o f Ho Hf) as (x & Ex & Sx). exists (n_sub a x (value i f)). split; [now apply nth_transform2; auto|].
           apply S_sub; auto.
           ++ apply (Permutation_NoDup Pl). apply members_nodup.
           ++ intros j Hj. apply (members_below asg o j H1). eapply Permutation_in; [apply Permutation_sym; exact Pl|exact Hj].
           ++ apply S_perm with (1 := Pl). exact Sx.
        -- rewrite O1 by auto. rewrite members_other by (auto; lia). apply H6; auto.
Qed.

Lemma scan_any centroids i u assigned : length centroids = k * nf -> i < n -> assigned < k ->
  exists l u' assigned', scan_others a infinity samples nf centroids i u assigned = Ok (l, u', assigned') /\ assigned' < k.
Proof using Hnf Hs Hk.
  intros Hc Hi Ha. unfold scan_others. destruct (n_rows centroids centroids nf k k Hnf Hc Hc) as (-> & _). cbn [bind].
  destruct (for_loop_inv (fun done '(l, u, x) => x < k)
    (fun other '(lower_bound, upper_bound, assigned) =>
      if other =? assigned then Ok (lower_bound, upper_bound, assigned)
      else d <- sample_to_centroid (n_dist a) samples nf centroids i other ;;
        Ok (if n_lt a d upper_bound then (upper_bound, d, other)
            else if n_lt a d lower_bound then (d, upper_bound, assigned)
            else (lower_bound, upper_bound, assigned))) k 0 (infinity, u, assigned)) as (((l & u') & x) & E & HP); auto.
  - intros o ((l & u') & x) Ho Hx. destruct (o =? x); [eexists; split; eauto; exact Hx|].
    rewrite (one_distance (n_dist a) samples centroids nf n k Hnf Hs Hc) by lia. cbn [bind].
    destruct (n_lt a _ u'); [|destruct (n_lt a _ l)]; (eexists; split; [reflexivity|]); cbv beta iota; lia.
  - exists l, u', x. auto.
Qed.

Lemma swap_one_any h i : inv h -> i < n ->
  exists h', swap_one a infinity samples nf i h = Ok h' /\ inv h' /\ b_centroids _ h' = b_centroids _ h.
Proof using Hnf Hs Hk S_perm S_add S_sub.
  intros (I1 & I2 & I3 & I4 & I5 & I6) Hi. pose proof I2 as (L & B & _). unfold swap_one.
  rewrite nth_all by lia. cbn [bind]. set (o := nth i (b_indices _ h) 0). assert (Ho : o < k) by now apply B.
  destruct (rd_lt (b_neighbors _ h) o) as (nb & ->); [lia|]. cbn [bind].
  destruct (rd_lt (b_second _ h) i) as (sc & ->); [lia|]. cbn [bind].
  destruct (rd_lt (b_nearest _ h) i) as (pr & ->); [lia|]. cbn [bind].
  set (cmp := larger a (n_div a nb 2) sc). destruct (n_lt a cmp pr); [|exists h; split; [reflexivity|]; split; [unfold inv; splits; auto|reflexivity]].
  rewrite (one_distance (n_dist a) samples (b_centroids _ h) nf n k Hnf Hs I1) by lia. cbn [bind]. set (u := n_dist a _ _).
  rewrite (wr_lt (b_nearest _ h)) by lia. cbn [bind]. destruct (n_lt a cmp u).
  - destruct (scan_any (b_centroids _ h) i u o I1 Hi Ho) as (l & u' & o' & -> & Ho'). cbn [bind]. rewrite (wr_lt (b_second _ h)) by lia. cbn [bind].
    destruct (Nat.eqb_spec o o') as [Eo|Eo].
    + eexists. split; [reflexivity|]. split; [|reflexivity]. unfold inv. cbn. rewrite !upd_length. splits; auto.
    + rewrite wr_lt by (rewrite upd_length; lia). cbn [bind].
      destruct (reassign (b_indices _ h) (b_sizes _ h) (b_sums _ h) i o' I2 Hi Ho') as (old & new_size & s1 & s2 & E1 & E2 & E3 & E4 & E5 & H').
      { intros E. apply Eo. unfold o. now rewrite E. }
      fold o in E1, E2, E3, E4, E5, H'. rewrite E1. cbn [bind]. destruct (Nat.eqb_spec old 0) as [E0|E0]; [now contradiction E2|].
      destruct I2 as (_ & _ & Lz & _). rewrite wr_lt by lia. cbn [bind]. rewrite E3. cbn [bind]. rewrite wr_lt by (rewrite upd_length; lia). cbn [bind].
      rewrite wr_lt by lia. cbn [bind]. rewrite E4. cbn [bind]. rewrite E5. cbn [bind]. eexists. split; [reflexivity|]. split; [|reflexivity].
      unfold inv. cbn. rewrite !upd_length. splits; auto.
  - eexists. split; [reflexivity|]. split; [|reflexivity]. unfold inv. cbn. rewrite !upd_length. splits; auto.
Qed.

Lemma swap_all_any h : inv h -> exists h', swap_all a infinity samples nf h = Ok h' /\ inv h' /\ b_centroids _ h' = b_centroids _ h.
Proof using Hnf Hs Hk S_perm S_add S_sub.
  intros I. unfold swap_all. destruct (n_rows samples samples nf n n Hnf Hs Hs) as (-> & _). cbn [bind].
  destruct (for_loop_inv (fun done g => inv g /\ b_centroids _ g = b_centroids _ h) (swap_one a infinity samples nf) n 0 h) as (h' & E & HP); auto.
  - intros i g Hi (Ig & Eg). destruct (swap_one_any g i Ig ltac:(lia)) as (g' & E & I' & E'). exists g'. split; auto. split; auto. congruence.
  - exists h'. destruct HP. auto.
Qed.

(** Centroids after the update: quotients of the stored sums; an empty cluster keeps its centroid. *)
Definition means (asg : list nat) (previous new : list num) : Prop :=
  length new = k * nf /\ forall c, c < k ->
    (members asg c = [] -> row new nf c = row previous nf c) /\
    (members asg c <> [] -> forall f, f < nf -> exists x, S f (members asg c) x /\ nth_error (row new nf c) f = Some (n_div a x (length (members asg c)))).

Lemma centroids_any asg sizes sums centroids : length centroids = k * nf -> held asg sizes sums ->
  exists new, hamerly_update_centroids a nf sizes sums centroids = Ok new /\ means asg centroids new.
Proof using Hnf Hs Hk.
  intros Hc (H1 & H2 & H3 & Hz & Hl & Hsum). unfold hamerly_update_centroids.
  destruct (n_rows centroids centroids nf k k Hnf Hc Hc) as (-> & _). cbn [bind].
  destruct (for_loop_inv (fun done new => length new = k * nf /\
      (forall c, c < done ->
        (members asg c = [] -> row new nf c = row centroids nf c) /\
        (members asg c <> [] -> forall f, f < nf -> exists x, S f (members asg c) x /\ nth_error (row new nf c) f = Some (n_div a x (length (members asg c))))) /\
      (forall c, done <= c -> row new nf c = row centroids nf c))
    (fun cluster centroids =>
      size <- rd sizes cluster ;;
      if size =? 0 then Ok centroids
      else
        new_position <- mean_of a sums nf cluster size ;;
        Ok (splice centroids (cluster * nf) (cluster * nf + nf) new_position)) k 0 centroids) as (new & E & HP).
  - splits; auto. lia.
  - intros c new Hr (G1 & G2 & G3). rewrite (proj2 (rd_ok sizes c _) (Hz c ltac:(lia))). cbn [bind].
    destruct (Nat.eqb_spec (length (members asg c)) 0) as [E0|E0].
    + eexists; split; eauto. splits; auto.
      * intros c' Hc'. destruct (Nat.eq_dec c' c) as [->|Hn]; [|apply G2; lia]. split.
        -- intros _. apply G3. lia.
        -- intros Hmm. destruct (members asg c); [congruence|simpl in E0; lia].
      * intros c' Hc'. apply G3. lia.
    + unfold mean_of. rewrite (sample_row' sums nf k) by (auto; lia). cbn [bind]. eexists; split; eauto.
      assert (Lv : length (map (fun x => n_div a x (length (members asg c))) (row sums nf c)) = nf).
      { rewrite map_length. apply (row_length' sums nf k); auto; lia. }
      destruct (row_splice new nf k c _ G1 ltac:(lia) Lv) as (L1 & L2 & L3). splits; auto.
      * intros c' Hc'. destruct (Nat.eq_dec c' c) as [->|Hn].
        -- rewrite L2. split; [intros Em; rewrite Em in E0; simpl in E0; lia|]. intros _ f Hf.
           destruct (Hsum c f ltac:(lia) Hf) as (x & Ex & Sx). exists x. split; auto. now rewrite nth_error_map, Ex.
        -- rewrite L3 by auto. apply G2. lia.
      * intros c' Hc'. rewrite L3 by lia. apply G3. lia.
  - exists new. split; auto. destruct HP as (G1 & G2 & _). split; auto.
Qed.

Lemma neighbors_any centroids : length centroids = k * nf ->
  exists v, nearest_neighbor_distances (n_lt a) infinity (n_dist a) centroids nf = Ok v /\ length v = k.
Proof using Hnf Hs Hk.
  intros Hc. unfold nearest_neighbor_distances. destruct (n_rows centroids centroids nf k k Hnf Hc Hc) as (-> & _). cbn [bind].
  match goal with |- context [fill infinity k ?g] => destruct (fill_inv infinity k g (fun _ _ => True)) as (v & E & L & _) end.
  - intros i Hi.
    match goal with |- context [for_loop k 0 ?g infinity] => destruct (for_loop_inv (fun _ (_ : num) => True) g k 0 infinity I) as (m & E & _) end.
    + intros j m Hj _. destruct (i =? j); [eexists; split; eauto|].
      rewrite (one_distance (n_dist a) centroids centroids nf k k Hnf Hc Hc) by lia. cbn [bind]. eexists; split; eauto.
    + rewrite E. eexists; split; eauto.
  - exists v. auto.
Qed.

Lemma distances_any centroids : length centroids = k * nf ->
  (exists v, samples_to_nearest_centroid_distances (n_lt a) infinity (n_dist a) samples nf centroids = Ok v /\ length v = n) /\
  (exists v, samples_to_second_nearest_centroid_distances (n_lt a) (n_eq a) highest (n_dist a) samples nf centroids = Ok v /\ length v = n).
Proof using Hnf Hs Hk.
  intros Hc. unfold samples_to_nearest_centroid_distances, samples_to_second_nearest_centroid_distances.
  destruct (n_rows samples centroids nf n k Hnf Hs Hc) as (-> & ->). cbn [bind]. split.
  - match goal with |- context [fill infinity n ?g] => destruct (fill_inv infinity n g (fun _ _ => True)) as (v & E & L & _) end.
    + intros i Hi.
      match goal with |- context [for_loop k 0 ?g infinity] => destruct (for_loop_inv (fun _ (_ : num) => True) g k 0 infinity I) as (m & E & _) end.
      * intros j m Hj _. rewrite (one_distance (n_dist a) samples centroids nf n k Hnf Hs Hc) by lia. cbn [bind]. eexists; split; eauto.
      * rewrite E. eexists; split; eauto.
    + exists v. auto.
  - match goal with |- context [fill highest n ?g] => destruct (fill_inv highest n g (fun _ _ => True)) as (v & E & L & _) end.
    + intros i Hi.
      match goal with |- context [for_loop k 0 ?g ?s] => destruct (for_loop_inv (fun _ (_ : num * num) => True) g k 0 s I) as ((m & m') & E & _) end.
      * intros j (m & m') Hj _. rewrite (one_distance (n_dist a) samples centroids nf n k Hnf Hs Hc) by lia. cbn [bind]. eexists; split; eauto.
      * rewrite E. cbn [bind]. eexists; split; eauto.
    + exists v. auto.
Qed.

Lemma make_any centroids : length centroids = k * nf -> exists h, make_bounds a infinity highest samples nf centroids = Ok h /\ inv h /\ b_centroids _ h = centroids.
Proof using Hnf Hs Hk S_perm S_nil S_add.
  intros Hc. unfold make_bounds.
  destruct (any_predict (n_lt a) infinity (n_dist a) samples centroids nf n k Hnf Hs Hc Hk) as (asg & -> & L & V). cbn [bind].
  destruct (distances_any centroids Hc) as ((v1 & -> & L1) & (v2 & -> & L2)). cbn [bind].
  destruct (neighbors_any centroids Hc) as (v3 & -> & L3). cbn [bind].
  destruct (n_rows centroids centroids nf k k Hnf Hc Hc) as (-> & _). cbn [bind].
  assert (B : forall i, i < n -> nth i asg 0 < k).
  { intros i Hi. destruct (V i Hi) as (j & Ej & Hj). now rewrite (nth_error_nth _ _ _ Ej). }
  assert (Hin : forall x, In x asg -> x < k).
  { intros x Hx. apply (In_nth _ _ 0) in Hx. destruct Hx as (i & Hi & <-). apply B. lia. }
  destruct (sizes_ok asg k Hin) as (sizes & -> & Lz & Hz). cbn [bind].
  destruct (left_sums_compute a samples nf n k Hnf Hs asg L Hin) as (sums & -> & S1 & S2). cbn [bind].
  eexists. split; [reflexivity|]. split; [|reflexivity]. unfold inv. cbn. rewrite repeat_length. splits; auto. unfold held. splits; auto.
  intros c f Hc' Hf. eexists. split; [now apply S2|]. apply left_sum_held; auto; [apply members_nodup|]. intros j. now apply members_below.
Qed.

Lemma max_from lt : forall (l : list num) bi b i, exists j v, max_element_from lt bi b i l = (j, v) /\ (j = bi \/ i <= j < i + length l).
Proof using Hnf Hs Hk.
  induction l as [|x l IH]; intros bi b i; [exists bi, b; auto|]. cbn [max_element_from length].
  destruct (lt b x); [destruct (IH i x (1 + i)) as (j & v & E & H)|destruct (IH bi b (1 + i)) as (j & v & E & H)]; exists j, v; (split; [exact E|]); lia.
Qed.

Lemma max_any lt (l : list num) : l <> [] -> exists j v, get_max_index_value_pair lt l = Ok (j, v) /\ j < length l.
Proof using Hnf Hs Hk.
  destruct l as [|x l]; intros H; [now contradiction H|]. cbn [get_max_index_value_pair]. destruct (max_from lt l 0 x 1) as (j & v & -> & Hj).
  exists j, v. split; auto. cbn [length]. lia.
Qed.

Lemma second_any (l : list num) : l <> [] -> exists v, second_max a lowest l = Ok v.
Proof using Hnf Hs Hk.
  intros H. unfold second_max. destruct (max_any (n_lt a) l H) as (j & v & -> & Hj). cbn [bind]. destruct (length l <? 2); [eauto|].
  rewrite wr_lt by auto. cbn [bind]. destruct (max_any (n_lt a) (upd l j lowest)) as (j' & v' & -> & _); [|cbn [bind]; eauto].
  destruct l; [now contradiction H|]. destruct j; discriminate.
Qed.

Lemma move_any h : inv h -> exists h', move_bounds a infinity lowest samples nf h = Ok h' /\ inv h' /\
  b_centroids _ h' = b_centroids _ h /\ b_indices _ h' = b_indices _ h.
Proof using Hnf Hs Hk.
  intros (I1 & I2 & I3 & I4 & I5 & I6). unfold move_bounds. assert (Hne : b_velocities _ h <> []) by (intros E; rewrite E in I6; simpl in I6; lia).
  destruct (max_any (n_lt a) _ Hne) as (fi & fv & -> & _). cbn [bind]. destruct (second_any _ Hne) as (sv & ->). cbn [bind].
  destruct (n_rows samples samples nf n n Hnf Hs Hs) as (-> & _). cbn [bind]. pose proof I2 as (L & B & _).
  match goal with |- context [for_loop n 0 ?g ?s] => destruct (for_loop_inv (fun _ '(x, y) => length (x : list num) = n /\ length (y : list num) = n) g n 0 s) as ((x & y) & E & Lx & Ly) end.
  - auto.
  - intros i (x & y) Hi (Lx & Ly). rewrite nth_all by lia. cbn [bind]. destruct (rd_lt (b_velocities _ h) (nth i (b_indices _ h) 0)) as (v & ->); [rewrite I6; apply B; lia|].
    cbn [bind]. destruct (rd_lt x i) as (u & ->); [lia|]. cbn [bind]. rewrite wr_lt by lia. cbn [bind]. destruct (rd_lt y i) as (l & ->); [lia|]. cbn [bind].
    rewrite wr_lt by lia. cbn [bind]. eexists; split; [reflexivity|]. cbv beta iota. rewrite !upd_length. auto.
  - rewrite E. cbn [bind]. destruct (neighbors_any (b_centroids _ h) I1) as (v3 & -> & L3). cbn [bind]. eexists. split; [reflexivity|].
    split; [|split; reflexivity]. unfold inv. cbn. splits; auto.
Qed.

Lemma step_any h : inv h -> exists h', bounds_step a infinity lowest samples nf h = Ok h' /\ inv h' /\
  means (b_indices _ h') (b_centroids _ h) (b_centroids _ h').
Proof using Hnf Hs Hk S_perm S_add S_sub.
  intros I. unfold bounds_step. destruct (swap_all_any h I) as (h1 & -> & I1 & Ec1). cbn [bind].
  pose proof I1 as (J1 & J2 & J3 & J4 & J5 & J6).
  destruct (centroids_any _ _ _ (b_centroids _ h1) J1 J2) as (new & -> & M). cbn [bind].
  destruct (velocities_ok a samples nf n k Hnf Hs (b_centroids _ h1) new (b_velocities _ h1) J1 (proj1 M) J6) as (vel & -> & Lv & _). cbn [bind].
  match goal with |- context [move_bounds a infinity lowest samples nf ?g] => destruct (move_any g) as (h2 & E & I2 & E2 & E3) end.
  - unfold inv. cbn. splits; auto. apply M.
  - exists h2. split; auto. split; auto. rewrite E2, E3. cbn. now rewrite <- Ec1.
Qed.

Lemma steps_any : forall m h, inv h -> exists h', bounds_steps a infinity lowest m samples nf h = Ok h' /\ inv h'.
Proof using Hnf Hs Hk S_perm S_add S_sub.
  induction m as [|m IH]; intros h I; [exists h; auto|]. cbn [bounds_steps]. destruct (step_any h I) as (h' & -> & I' & _). cbn [bind]. now apply IH.
Qed.

(** After one more step every non-empty cluster of some labels has the quotient of a sum of its members as its centroid. *)
Lemma centroids_after_steps m centroids : length centroids = k * nf -> exists new asg,
  hamerly_centroids a infinity highest lowest (1 + m) samples nf centroids = Ok new /\ length new = k * nf /\
  length asg = n /\ (forall i, i < n -> nth i asg 0 < k) /\
  forall c f, c < k -> f < nf -> members asg c <> [] ->
    exists x, S f (members asg c) x /\ nth_error new (c * nf + f) = Some (n_div a x (length (members asg c))).
Proof using Hnf Hs Hk S_perm S_nil S_add S_sub.
  intros Hc. unfold hamerly_centroids. destruct (make_any centroids Hc) as (h & -> & I & _). cbn [bind].
  assert (E : forall m h, bounds_steps a infinity lowest (1 + m) samples nf h = (h' <- bounds_steps a infinity lowest m samples nf h ;; bounds_step a infinity lowest samples nf h')).
  { clear. induction m as [|m IH]; intros h.
    - cbn [plus bounds_steps bind]. destruct (bounds_step a infinity lowest samples nf h); reflexivity.
    - change (bounds_steps a infinity lowest (1 + Datatypes.S m) samples nf h) with
        (h1 <- bounds_step a infinity lowest samples nf h ;; bounds_steps a infinity lowest (1 + m) samples nf h1).
      change (bounds_steps a infinity lowest (Datatypes.S m) samples nf h) with
        (h1 <- bounds_step a infinity lowest samples nf h ;; bounds_steps a infinity lowest m samples nf h1).
      destruct (bounds_step a infinity lowest samples nf h); cbn [bind]; auto. }
  rewrite E. destruct (steps_any m h I) as (h1 & -> & I1). cbn [bind]. destruct (step_any h1 I1) as (h2 & -> & I2 & M). cbn [bind].
  exists (b_centroids _ h2), (b_indices _ h2). destruct I2 as (J1 & (J2 & J3 & _) & _). splits; auto.
  intros c f Hck Hf Hne. destruct M as (_ & M). destruct (M c Hck) as (_ & M2). destruct (M2 Hne f Hf) as (x & Sx & Ex). exists x. split; auto.
  rewrite nth_row in Ex. destruct (Nat.ltb_spec f nf); [exact Ex|lia].
Qed.
End Any.
