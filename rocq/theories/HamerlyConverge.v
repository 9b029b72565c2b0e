(** Lemmas for C91: Hamerly's algorithm comes to rest, with or without ties. *)
From Coq Require Import List Arith ZArith QArith Qcanon Lia Bool.
From Verif Require Import Base BufferModel BufferSpec BufferProofs KMeansModel KMeansSpec KMeansProofs KMeansCases KMeansProps KMeansInertia KMeansConverge.
Import ListNotations.
Local Open Scope nat_scope.

Section Hamerly.
Context (a : arith) (Ha : arith_ok a) (samples : list (num a)) (nf n k : nat) (Hnf : nf <> 0)
  (Hs : length samples = n * nf) (Hk : 0 < k).
(** Moving a sample between clusters keeps the sums exact; no distance is involved. *)
Context (Hre : forall asg sizes sums i c', clusters_ok a samples nf n k asg sizes sums -> i < n -> c' < k -> c' <> nth i asg 0 ->
  exists old new_size sums1 sums2,
    rd sizes (nth i asg 0) = Ok old /\
    rd (upd sizes (nth i asg 0) (old - 1)) c' = Ok new_size /\
    accumulate_sample a (n_sub a) samples nf i (nth i asg 0) sums = Ok sums1 /\
    accumulate_sample a (n_add a) samples nf i c' sums1 = Ok sums2 /\
    clusters_ok a samples nf n k (upd asg i c') (upd (upd sizes (nth i asg 0) (old - 1)) c' (new_size + 1)) sums2).
Notation dc i centroids j := (n_dist a (row samples nf i) (row centroids nf j)).
Notation near centroids i j := (nearest_to (n_lt a) (n_dist a) centroids nf k (row samples nf i) j).

(** The vectors have the right lengths, the sizes and sums are exact; nothing about the bounds. *)
Definition shape (h : hamerly a) : Prop :=
  length (h_centroids _ h) = k * nf /\ length (h_velocities _ h) = k /\
  clusters_ok a samples nf n k (h_indices _ h) (h_sizes _ h) (h_sums _ h) /\
  length (h_nearest _ h) = n /\ length (h_second _ h) = n /\ length (h_neighbors _ h) = k /\
  nearest_neighbor_distances (e_lt a) None (e_dist a) (h_centroids _ h) nf = Ok (h_neighbors _ h).

Lemma other (centroids : list (num a)) i assigned (u : num a) : length centroids = k * nf -> i < n -> assigned < k -> u = dc i centroids assigned ->
  exists lb na, other_centroids a samples nf centroids i (Some u) assigned = Ok (lb, Some (dc i centroids na), na) /\
    near centroids i na /\ (na = assigned \/ n_lt a (dc i centroids na) (dc i centroids assigned) = true).
Proof using Ha Hnf Hs Hk Hre.
  intros Hc Hi Has Hu. unfold other_centroids. destruct (n_rows centroids centroids nf k k Hnf Hc Hc) as (-> & _). cbn [bind].
  set (P := fun done (st : ext a * ext a * nat) => let '(lb, ub, na) := st in
      na < k /\ ub = Some (dc i centroids na) /\ (na = assigned \/ n_lt a (dc i centroids na) (dc i centroids assigned) = true) /\
      forall j, j < done -> j < k -> n_lt a (dc i centroids j) (dc i centroids na) = false).
  match goal with |- context [for_loop k 0 ?b ?s] => destruct (for_loop_inv P b k 0 s) as (((lb, ub), na) & E & HP) end.
  - unfold P. subst u. split; [auto|]. split; [reflexivity|]. split; [auto|]. intros. lia.
  - intros o ((lb, ub), na) Ho (H1 & H2 & H3 & H4). subst ub. destruct (Nat.eqb_spec o na) as [Eo|Eo].
    + eexists; split; [reflexivity|]. unfold P. splits; auto. intros j Hj Hjk. destruct (Nat.eq_dec j o) as [->|].
      * subst o. apply (lt_irrefl _ (ok_order _ Ha)).
      * apply H4; auto; lia.
    + rewrite (one_distance (e_dist a) samples centroids nf n k) by (auto; lia). cbn [bind].
      change (e_dist a (row samples nf i) (row centroids nf o)) with (Some (dc i centroids o)). cbn [e_lt].
      destruct (n_lt a (dc i centroids o) (dc i centroids na)) eqn:El.
      * eexists; split; [reflexivity|]. unfold P. split; [lia|]. split; [auto|]. split.
        -- right. destruct H3 as [->|H3]; auto. exact (lt_trans _ (ok_order _ Ha) _ _ _ El H3).
        -- intros j Hj Hjk. destruct (Nat.eq_dec j o) as [->|]; [apply (lt_irrefl _ (ok_order _ Ha))|].
           apply (le_trans _ (ok_order _ Ha) _ (dc i centroids na)); [now apply (lt_asym _ (ok_order _ Ha))|]. apply H4; lia.
      * destruct (match lb with Some v => _ | None => true end); eexists; (split; [reflexivity|]); unfold P; splits; auto;
          intros j Hj Hjk; (destruct (Nat.eq_dec j o) as [->|]; [auto|apply H4; lia]).
  - destruct HP as (H1 & -> & H3 & H4). exists lb, na. split; [auto|]. split; [|auto]. split; [auto|]. intros j Hj. apply H4; auto.
Qed.

(** A sample that the bounds test leaves alone, or that is with its nearest centroid. *)
Definition calm (h : hamerly a) (i : nat) : Prop :=
  (exists s l u, nth_error (h_neighbors _ h) (nth i (h_indices _ h) 0) = Some s /\ nth_error (h_second _ h) i = Some l /\
     nth_error (h_nearest _ h) i = Some u /\ e_lt a (e_max a (e_half a s) l) u = false) \/
  near (h_centroids _ h) i (nth i (h_indices _ h) 0).

Definition same_at (h h' : hamerly a) (j : nat) : Prop :=
  nth j (h_indices _ h') 0 = nth j (h_indices _ h) 0 /\ nth_error (h_second _ h') j = nth_error (h_second _ h) j /\
  nth_error (h_nearest _ h') j = nth_error (h_nearest _ h) j.

Definition same_rest (h h' : hamerly a) : Prop :=
  h_centroids _ h' = h_centroids _ h /\ h_neighbors _ h' = h_neighbors _ h /\ h_velocities _ h' = h_velocities _ h.

Definition closer (h h' : hamerly a) (i : nat) : Prop :=
  nth i (h_indices _ h') 0 = nth i (h_indices _ h) 0 \/
  n_lt a (dc i (h_centroids _ h) (nth i (h_indices _ h') 0)) (dc i (h_centroids _ h) (nth i (h_indices _ h) 0)) = true.

Lemma swap_one h i : shape h -> i < n ->
  exists h', swap_bound a samples nf i h = Ok h' /\ shape h' /\ same_rest h h' /\ (forall j, j <> i -> same_at h h' j) /\
    closer h h' i /\ calm h' i /\ (calm h i -> nth i (h_indices _ h') 0 = nth i (h_indices _ h) 0).
Proof using Ha Hnf Hs Hk Hre.
  intros (Hc & Hv & Hcl & B1 & B2 & B3 & B4) Hi. pose proof Hcl as (C1 & C2 & C3 & C4 & C5).
  destruct h as [centroids asg nearest second neighbors sizes sums vel loss].
  unfold shape, same_rest, same_at, closer, calm.
  cbn [h_centroids h_indices h_nearest h_second h_neighbors h_sizes h_sums h_velocities h_loss] in *.
  pose proof (C2 i Hi) as Has.
  unfold swap_bound. cbn [h_centroids h_indices h_nearest h_second h_neighbors h_sizes h_sums h_velocities h_loss].
  rewrite nth_all by lia. cbn [bind]. set (as_ := nth i asg 0) in *.
  destruct (nth_error neighbors as_) as [s|] eqn:Es; [|apply nth_error_None in Es; lia].
  destruct (nth_error second i) as [l|] eqn:El; [|apply nth_error_None in El; lia].
  destruct (nth_error nearest i) as [u|] eqn:Eu; [|apply nth_error_None in Eu; lia].
  rewrite (proj2 (rd_ok neighbors as_ _) Es). cbn [bind]. rewrite (proj2 (rd_ok second i _) El). cbn [bind].
  rewrite (proj2 (rd_ok nearest i _) Eu). cbn [bind].
  destruct (e_lt a (e_max a (e_half a s) l) u) eqn:T1.
  2:{ eexists; split; [reflexivity|]. cbn [h_centroids h_indices h_nearest h_second h_neighbors h_sizes h_sums h_velocities h_loss].
      splits; auto. left. exists s, l, u. auto. }
  rewrite (one_distance (e_dist a) samples centroids nf n k) by auto. cbn [bind]. rewrite wr_lt by lia. cbn [bind].
  change (e_dist a (row samples nf i) (row centroids nf as_)) with (Some (dc i centroids as_)).
  destruct (e_lt a (e_max a (e_half a s) l) (Some (dc i centroids as_))) eqn:T2.
  2:{ eexists; split; [reflexivity|]. cbn [h_centroids h_indices h_nearest h_second h_neighbors h_sizes h_sums h_velocities h_loss].
      splits; auto.
      - now rewrite upd_length.
      - intros j Hj. rewrite nth_error_upd_neq by auto. auto.
      - left. exists s, l, (Some (dc i centroids as_)). rewrite nth_error_upd_eq by lia. auto. }
  destruct (other centroids i as_ _ Hc Hi Has eq_refl) as (lb & na & E & Hnear & Hna).
  rewrite E. cbn [bind h_second]. rewrite wr_lt by lia. cbn [bind].
  cbn [h_centroids h_indices h_nearest h_second h_neighbors h_sizes h_sums h_velocities h_loss].
  assert (Hcalm : (exists s' l' u', Some s = Some s' /\ Some l = Some l' /\ Some u = Some u' /\
             e_lt a (e_max a (e_half a s') l') u' = false) \/ near centroids i as_ -> na = as_).
  { intros [(s' & l' & u' & X1 & X2 & X3 & X4)|Hn].
    - injection X1 as <-. injection X2 as <-. injection X3 as <-. congruence.
    - destruct Hna as [|Hna]; auto. destruct Hn as (_ & Hn). rewrite (Hn na (proj1 Hnear)) in Hna. discriminate. }
  destruct (Nat.eqb_spec as_ na) as [En|En].
  - eexists; split; [reflexivity|]. cbn [h_centroids h_indices h_nearest h_second h_neighbors h_sizes h_sums h_velocities h_loss].
    splits; auto; try (now rewrite upd_length).
    + intros j Hj. rewrite !nth_error_upd_neq by auto. auto.
    + right. fold as_. rewrite En. auto.
  - rewrite wr_lt by (rewrite upd_length; lia). cbn [bind]. pose proof (proj1 Hnear) as Hnk.
    destruct (Hre asg sizes sums i na Hcl Hi (proj1 Hnear) (not_eq_sym En)) as (old & ns & s1 & s2 & E1 & E2 & E3 & E4 & Hcl').
    fold as_ in E1, E2, E3, E4, Hcl'. rewrite E1. cbn [bind]. rewrite wr_lt by lia. cbn [bind]. rewrite E2. cbn [bind].
    rewrite wr_lt by (rewrite upd_length; lia). cbn [bind]. rewrite wr_lt by lia. cbn [bind].
    rewrite E3. cbn [bind]. rewrite E4. cbn [bind]. eexists; split; [reflexivity|].
    cbn [h_centroids h_indices h_nearest h_second h_neighbors h_sizes h_sums h_velocities h_loss].
    assert (F1 : nth i (upd asg i na) 0 = na) by (rewrite nth_upd by lia; now rewrite Nat.eqb_refl).
    assert (F2 : forall j, j <> i -> nth j (upd asg i na) 0 = nth j asg 0).
    { intros j Hn. rewrite nth_upd by lia. destruct (Nat.eqb_spec j i); congruence. }
    split; [splits; auto; now rewrite ?upd_length|]. split; [auto|]. split; [|split; [|split]].
    + intros j Hj. rewrite !nth_error_upd_neq by auto. auto.
    + rewrite F1. destruct Hna as [|Hna]; [congruence|auto].
    + right. now rewrite F1.
    + intros Hca. exfalso. apply En. symmetry. apply Hcalm. exact Hca.
Qed.

Lemma calm_same h h' j : same_rest h h' -> same_at h h' j -> (calm h j <-> calm h' j).
Proof. intros (R1 & R2 & _) (S1 & S2 & S3). unfold calm. now rewrite R1, R2, S1, S2, S3. Qed.

Lemma same_at_trans h1 h2 h3 j : same_at h1 h2 j -> same_at h2 h3 j -> same_at h1 h3 j.
Proof. intros (A1 & A2 & A3) (B1 & B2 & B3). unfold same_at. splits; congruence. Qed.

Lemma swap_all h : shape h -> exists h', swap_bounds a samples nf h = Ok h' /\ shape h' /\ same_rest h h' /\
  (forall i, i < n -> closer h h' i /\ calm h' i) /\
  ((forall i, i < n -> calm h i) -> forall i, i < n -> nth i (h_indices _ h') 0 = nth i (h_indices _ h) 0).
Proof using Ha Hnf Hs Hk Hre.
  intros Hh. unfold swap_bounds. destruct (n_rows samples samples nf n n Hnf Hs Hs) as (-> & _). cbn [bind].
  destruct (for_loop_inv (fun done h' => shape h' /\ same_rest h h' /\ (forall i, done <= i -> same_at h h' i) /\
      (forall i, i < done -> closer h h' i /\ calm h' i /\ (calm h i -> nth i (h_indices _ h') 0 = nth i (h_indices _ h) 0)))
    (swap_bound a samples nf) n 0 h) as (h' & E & H1 & H2 & _ & H3).
  - split; [auto|]. split; [unfold same_rest; auto|]. split; [intros; unfold same_at; auto|lia].
  - intros i t Hi (H1 & H2 & H3 & H4). destruct (swap_one t i H1 ltac:(lia)) as (t' & E & G1 & G2 & G3 & G4 & G5 & G6).
    exists t'. split; auto. assert (R : same_rest h t') by (destruct H2 as (? & ? & ?), G2 as (? & ? & ?); unfold same_rest; splits; congruence).
    split; [auto|]. split; [auto|]. split.
    + intros j Hj. apply (same_at_trans h t); [apply H3; lia|apply G3; lia].
    + intros j Hj. destruct (Nat.eq_dec j i) as [->|Hn].
      * destruct (H3 i (le_n i)) as (S1 & S2 & S3). split; [|split; [auto|]].
        -- unfold closer in *. rewrite S1 in G4. destruct H2 as (-> & _) in G4. auto.
        -- intros Hca. rewrite G6, S1; auto. apply (calm_same h t i); auto.
      * destruct (H4 j ltac:(lia)) as (K1 & K2 & K3). pose proof (G3 j Hn) as S. pose proof S as (S1 & _). split; [|split].
        -- unfold closer in *. now rewrite S1.
        -- now apply (calm_same t t' j).
        -- rewrite S1. auto.
  - exists h'. split; [auto|]. split; [auto|]. split; [auto|]. split.
    + intros i Hi. split; apply H3; auto.
    + intros Hca i Hi. apply H3; auto.
Qed.
(** Velocities that change no bound. *)
Definition still (v : num a) : Prop := forall x, n_add a x v = x /\ n_sub a x v = x.

Lemma lowest_order : order_ok (lowest_lt a).
Proof using Ha Hnf Hs Hk.
  split.
  - intros [x|] [y|]; simpl; auto; try discriminate. apply (ok_order _ Ha).
  - intros [x|] [y|] [z|]; simpl; auto; try discriminate. apply (ok_order _ Ha).
Qed.

Lemma max_in vel : length vel = k -> exists fi f i sm,
  get_max_index_value_pair (n_lt a) vel = Ok (fi, f) /\ get_second_max_index_value_pair a vel = Ok (i, Some sm) /\
  In f vel /\ In sm vel.
Proof using Ha Hnf Hs Hk.
  intros Hl. destruct (get_max_spec (n_lt a) (ok_order _ Ha) vel) as (fi & f & E & Hf & Hmax).
  { destruct vel; simpl in *; [lia|congruence]. }
  unfold get_second_max_index_value_pair. rewrite E. cbn [bind].
  destruct (Nat.ltb_spec (length vel) 2) as [H2|H2].
  - exists fi, f, fi, f. splits; auto; eapply nth_error_In; eauto.
  - pose proof (nth_error_lt _ _ _ Hf) as Hfi. rewrite wr_lt by now rewrite map_length. cbn [bind].
    destruct (get_max_spec (lowest_lt a) lowest_order (upd (map Some vel) fi None)) as (si & sm & E2 & Hsm & Hmax2).
    { destruct vel; [simpl in Hl; lia|]. destruct fi; discriminate. }
    destruct sm as [sm|].
    + exists fi, f, si, sm. splits; auto; [eapply nth_error_In; eauto|].
      destruct (Nat.eq_dec si fi) as [->|Hn]; [rewrite nth_error_upd_eq in Hsm by (rewrite map_length; lia); discriminate|].
      rewrite nth_error_upd_neq in Hsm by auto. rewrite nth_error_map in Hsm.
      destruct (nth_error vel si) as [v|] eqn:Ev; [|discriminate]. injection Hsm as <-. eapply nth_error_In; eauto.
    + exfalso. assert (Hc : exists c, c < length vel /\ c <> fi) by (destruct fi; [exists 1|exists 0]; lia).
      destruct Hc as (c & Hc & Hn). destruct (nth_error vel c) as [v|] eqn:Ev; [|apply nth_error_None in Ev; lia].
      assert (Hin : lowest_lt a None (Some v) = false).
      { apply Hmax2. apply (nth_error_In _ c). rewrite nth_error_upd_neq by auto. now rewrite nth_error_map, Ev. }
      discriminate.
Qed.

Lemma bounds_step h : length (h_centroids _ h) = k * nf -> length (h_velocities _ h) = k ->
  clusters_ok a samples nf n k (h_indices _ h) (h_sizes _ h) (h_sums _ h) ->
  length (h_nearest _ h) = n -> length (h_second _ h) = n ->
  exists h', update_bounds a samples nf h = Ok h' /\ shape h' /\ h_centroids _ h' = h_centroids _ h /\
    h_indices _ h' = h_indices _ h /\
    ((forall v, In v (h_velocities _ h) -> still v) ->
      forall i, i < n -> nth_error (h_nearest _ h') i = nth_error (h_nearest _ h) i /\
        nth_error (h_second _ h') i = nth_error (h_second _ h) i).
Proof using Ha Hnf Hs Hk.
  intros Hc Hv Hcl B1 B2.
  destruct h as [centroids asg nearest second neighbors sizes sums vel loss].
  cbn [h_centroids h_indices h_nearest h_second h_neighbors h_sizes h_sums h_velocities h_loss] in *.
  pose proof Hcl as (C1 & C2 & C3 & C4 & C5).
  destruct (max_in vel Hv) as (fi & f & si & sm & E1 & E2 & Hf & Hsm).
  unfold update_bounds. cbn [h_centroids h_indices h_nearest h_second h_neighbors h_sizes h_sums h_velocities h_loss].
  rewrite E1. cbn [bind]. rewrite E2. cbn [bind]. destruct (n_rows samples samples nf n n Hnf Hs Hs) as (-> & _). cbn [bind].
  set (P := fun (done : nat) (st : list (ext a) * list (ext a)) => let '(nr, sc) := st in
      length nr = n /\ length sc = n /\
      ((forall v, In v vel -> still v) ->
        forall i, i < n -> nth_error nr i = nth_error nearest i /\ nth_error sc i = nth_error second i)).
  match goal with |- context [for_loop n 0 ?b ?s] => destruct (for_loop_inv P b n 0 s) as ((nr, sc) & E & HP) end.
  - unfold P. splits; auto.
  - intros i (nr, sc) Hr (H1 & H2 & H3). assert (Hi : i < n) by lia. clear Hr.
    pose proof (C2 i Hi) as Has. rewrite nth_all by lia. cbn [bind]. set (as_ := nth i asg 0) in *.
    destruct (nth_error vel as_) as [v|] eqn:Ev; [|apply nth_error_None in Ev; lia].
    destruct (nth_error nr i) as [u|] eqn:Eu; [|apply nth_error_None in Eu; lia].
    destruct (nth_error sc i) as [l|] eqn:El; [|apply nth_error_None in El; lia].
    rewrite (proj2 (rd_ok vel as_ _) Ev). cbn [bind]. rewrite (proj2 (rd_ok nr i u) Eu). cbn [bind]. rewrite wr_lt by lia. cbn [bind].
    rewrite (proj2 (rd_ok sc i l) El). cbn [bind]. rewrite wr_lt by lia. cbn [bind].
    eexists; split; [reflexivity|]. unfold P. rewrite !upd_length. split; [auto|]. split; [auto|]. intros H i0 Hi0. split.
    + destruct (Nat.eq_dec i0 i) as [->|Hn]; [|rewrite nth_error_upd_neq by auto; apply H3; auto].
      rewrite nth_error_upd_eq by lia. rewrite <- (proj1 (H3 H i Hi)), Eu. f_equal. destruct u as [u|]; [|reflexivity].
      change (Some (n_add a u v) = Some u). f_equal. apply (H v). eapply nth_error_In; eauto.
    + destruct (Nat.eq_dec i0 i) as [->|Hn]; [|rewrite nth_error_upd_neq by auto; apply H3; auto].
      rewrite nth_error_upd_eq by lia. rewrite <- (proj2 (H3 H i Hi)), El. f_equal. destruct l as [l|]; [|destruct (as_ =? fi); reflexivity].
      destruct (as_ =? fi); [change (Some (n_sub a l sm) = Some l)|change (Some (n_sub a l f) = Some l)]; f_equal; apply H; auto.
  - destruct HP as (H1 & H2 & H3). rewrite E. cbn [bind].
    destruct (neighbors_ok (e_lt a) None (e_dist a) (order_ext a Ha) (fun _ _ => eq_refl) centroids nf k Hnf Hc) as (nb & Enb & L & _).
    rewrite Enb. cbn [bind]. eexists; split; [reflexivity|]. unfold shape.
    cbn [h_centroids h_indices h_nearest h_second h_neighbors h_sizes h_sums h_velocities h_loss].
    split; [auto 10|]. split; [auto|]. split; [auto|exact H3].
Qed.

Lemma step_all h : shape h -> exists h', hamerly_step a samples nf h = Ok h' /\ shape h' /\
  (forall i, i < n -> closer h h' i) /\
  centroids_after a samples nf k (h_indices _ h') (row (h_centroids _ h) nf) (h_centroids _ h') /\
  ((forall i, i < n -> calm h i) -> h_indices _ h' = h_indices _ h) /\
  ((forall p, still (n_dist a p p)) -> h_centroids _ h' = h_centroids _ h -> forall i, i < n -> calm h' i).
Proof using Ha Hnf Hs Hk Hre.
  intros Hh. pose proof Hh as (_ & _ & (L1 & _) & _).
  destruct (swap_all h Hh) as (h1 & E1 & Hh1 & (R1 & R2 & R3) & Hcl & Hst).
  pose proof Hh1 as (H1 & H2 & H3 & H4 & H5 & H6 & H7).
  unfold hamerly_step. rewrite E1. cbn [bind].
  destruct (hamerly_centroids_ok a samples nf n k Hnf Hs _ _ _ _ H1 H3) as (new & -> & Hnew). cbn [bind].
  destruct (velocities_ok a samples nf n k Hnf Hs _ new _ H1 (proj1 Hnew) H2) as (v & -> & Hv1 & Hv2). cbn [bind].
  match goal with |- context [update_bounds a samples nf ?x] => destruct (bounds_step x) as (h' & E & G1 & G2 & G3 & G4) end;
    cbn [h_centroids h_indices h_nearest h_second h_neighbors h_sizes h_sums h_velocities h_loss] in *; auto.
  - apply Hnew.
  - exists h'. split; [exact E|]. split; [exact G1|]. split; [|split; [|split]].
    + intros i Hi. unfold closer. rewrite G3. apply Hcl; auto.
    + rewrite G2, G3, <- R1. exact Hnew.
    + intros Hca. rewrite G3. apply (nth_ext _ _ 0 0); [destruct H3 as (-> & _); auto|]. intros i Hi. apply Hst; auto. destruct H3 as (H3 & _). lia.
    + intros Hz Hsame i Hi. destruct (Hcl i Hi) as (_ & Hca). assert (Enew : new = h_centroids a h1) by congruence.
      assert (Hv0 : forall x, In x v -> still x).
      { intros x Hx y. apply In_nth_error in Hx. destruct Hx as (c & Hx). pose proof (nth_error_lt _ _ _ Hx) as Hlt.
        rewrite (Hv2 c) in Hx by lia. injection Hx as <-. rewrite Enew. apply Hz. }
      destruct (G4 Hv0 i Hi) as (K1 & K2). unfold calm. rewrite K1, K2, G2, G3.
      replace (h_neighbors a h') with (h_neighbors a h1); [rewrite Enew; exact Hca|].
      destruct G1 as (_ & _ & _ & _ & _ & _ & G1). rewrite G2, Enew, H7 in G1. now injection G1.
Qed.

Lemma make_shape centroids : length centroids = k * nf ->
  exists h, make_hamerly a samples nf centroids = Ok h /\ shape h /\ h_centroids _ h = centroids /\
    nearest_assignment a samples nf n k centroids (h_indices _ h).
Proof using Ha Hnf Hs Hk.
  intros Hc. destruct (assign_ok a Ha samples nf n k Hnf Hs centroids Hk Hc) as (asg & ds & E1 & E2 & H1 & H2 & H3).
  unfold make_hamerly. rewrite E1. cbn [bind]. rewrite E2. cbn [bind].
  destruct (second_ok (e_lt a) None (e_dist a) (order_ext a Ha) (fun _ _ => eq_refl) samples centroids nf n k Hnf Hs Hc Hk
    (e_eq a) (fun _ _ => eq_refl)) as (sc & -> & L2 & Hsc). cbn [bind].
  destruct (neighbors_ok (e_lt a) None (e_dist a) (order_ext a Ha) (fun _ _ => eq_refl) centroids nf k Hnf Hc) as (nb & Enb & L & Hnb).
  rewrite Enb. cbn [bind]. destruct (n_rows centroids centroids nf k k Hnf Hc Hc) as (-> & _). cbn [bind].
  pose proof (first_nearest_is_nearest _ _ _ _ _ _ _ H1) as Hnear. pose proof (assignment_in a samples nf n k Hnf Hs _ _ Hnear) as Hin.
  destruct (sizes_ok asg k Hin) as (sizes & -> & Lz & Hsz). cbn [bind].
  destruct (sums_compute a Ha samples nf n k Hnf Hs asg (proj1 H1) Hin) as (sums & -> & Hsum). cbn [bind].
  eexists; split; [reflexivity|]. unfold shape.
  cbn [h_centroids h_indices h_nearest h_second h_neighbors h_sizes h_sums h_velocities h_loss].
  split; [|split; [reflexivity|exact Hnear]]. split; [auto|]. split; [apply repeat_length|]. split; [|auto].
  pose proof (proj1 H1) as Hl. unfold clusters_ok. split; [auto|]. split; [intros i Hi; apply Hin, nth_In; lia|]. auto.
Qed.
End Hamerly.

(** ** Exact arithmetic *)
Section Rational.
Local Open Scope Qc_scope.
Context (d : list Qc -> list Qc -> Qc) (samples : list Qc) (nf n k : nat) (Hnf : nf <> 0%nat) (Hd : euclidean_order nf d)
  (Hself : forall p, d p p = 0) (Hs : length samples = (n * nf)%nat) (Hk : (0 < k)%nat).
Notation a := (rational d).
Notation Shape := (shape a samples nf n k).
Notation Calm := (calm a samples nf k).
Notation Closer := (closer a samples nf).

Lemma rational_reassign : forall asg sizes (sums : list (num a)) i c', clusters_ok a samples nf n k asg sizes sums -> (i < n)%nat -> (c' < k)%nat -> c' <> nth i asg 0%nat ->
  exists old new_size sums1 sums2,
    rd sizes (nth i asg 0%nat) = Ok old /\
    rd (upd sizes (nth i asg 0%nat) (old - 1)%nat) c' = Ok new_size /\
    accumulate_sample a (n_sub a) samples nf i (nth i asg 0%nat) sums = Ok sums1 /\
    accumulate_sample a (n_add a) samples nf i c' sums1 = Ok sums2 /\
    clusters_ok a samples nf n k (upd asg i c') (upd (upd sizes (nth i asg 0%nat) (old - 1)%nat) c' (new_size + 1)%nat) sums2.
Proof. exact (reassign_ok line line_ok samples nf n k Hnf Hs line_laws). Qed.

Lemma rational_still : forall p x, n_add a x (n_dist a p p) = x /\ n_sub a x (n_dist a p p) = x.
Proof.
  assert (H : forall y : Qc, y + 0 = y /\ y - 0 = y) by (intros; split; ring).
  intros p x. cbn [n_add n_sub n_dist rational]. rewrite Hself. apply H.
Qed.

Lemma hamerly_steps h : Shape h -> exists h', hamerly_step a samples nf h = Ok h' /\ Shape h' /\
  (forall i, (i < n)%nat -> Closer h h' i) /\
  centroids_after a samples nf k (h_indices _ h') (row (h_centroids _ h) nf) (h_centroids _ h') /\
  ((forall i, (i < n)%nat -> Calm h i) -> h_indices _ h' = h_indices _ h) /\
  (h_centroids _ h' = h_centroids _ h -> forall i, (i < n)%nat -> Calm h' i).
Proof.
  intros Hh. destruct (step_all a (rational_ok d) samples nf n k Hnf Hs Hk rational_reassign h Hh) as (h' & H1 & H2 & H3 & H4 & H5 & H6).
  exists h'. splits; auto. apply H6. exact rational_still.
Qed.

Lemma shape_indices h : Shape h -> length (h_indices _ h) = n /\ forall x, In x (h_indices _ h) -> (x < k)%nat.
Proof.
  intros (_ & _ & (L & H & _) & _). split; auto. intros x Hx. apply In_nth with (d := 0%nat) in Hx. destruct Hx as (i & Hi & <-). apply H. lia.
Qed.

(** A step does not increase the sum of squares, and leaves the assignment alone when it keeps it. *)
Lemma hamerly_down h h' : Shape h -> Shape h' -> (forall i, (i < n)%nat -> Closer h h' i) ->
  centroids_after a samples nf k (h_indices _ h') (row (h_centroids _ h) nf) (h_centroids _ h') ->
  inertia samples nf (h_centroids _ h') (h_indices _ h') <= inertia samples nf (h_centroids _ h) (h_indices _ h) /\
  (inertia samples nf (h_centroids _ h) (h_indices _ h) <= inertia samples nf (h_centroids _ h') (h_indices _ h') ->
   h_indices _ h' = h_indices _ h).
Proof.
  intros Hh Hh' Hcl Hca. destruct (shape_indices h Hh) as (L & Hin). destruct (shape_indices h' Hh') as (L' & Hin').
  pose proof Hh as (Lc & _).
  pose proof (means_better d samples nf n k Hnf Hs Hk (h_centroids _ h) (h_centroids _ h') (h_indices _ h') _ Lc L' Hin' Hca) as M.
  assert (Hr1 : forall i, (i < n)%nat -> length (row samples nf i) = nf) by (intros; apply (row_length' samples nf n); auto).
  assert (Hr2 : forall j, (j < k)%nat -> length (row (h_centroids _ h) nf j) = nf) by (intros; apply (row_length' (h_centroids _ h) nf k); auto).
  assert (B : forall i, In i (seq 0 n) -> sq (row samples nf i) (row (h_centroids _ h) nf (nth i (h_indices _ h') 0%nat)) <=
                sq (row samples nf i) (row (h_centroids _ h) nf (nth i (h_indices _ h) 0%nat))).
  { intros i Hi. apply in_seq in Hi. destruct (Hcl i ltac:(lia)) as [->|Hlt]; [apply Qcle_refl|].
    cbn [n_lt n_dist rational] in Hlt. rewrite Hd in Hlt by first [apply Hr1; lia|apply Hr2, Hin', nth_In; lia|apply Hr2, Hin, nth_In; lia].
    apply qc_lt_true in Hlt. now apply Qclt_le_weak. }
  assert (B' : inertia samples nf (h_centroids _ h) (h_indices _ h') <= inertia samples nf (h_centroids _ h) (h_indices _ h)).
  { rewrite !inertia_sum, L, L'. apply sum_le; auto. }
  split; [now apply Qcle_trans with (inertia samples nf (h_centroids _ h) (h_indices _ h'))|]. intros Hge.
  assert (Heq : inertia samples nf (h_centroids _ h) (h_indices _ h) <= inertia samples nf (h_centroids _ h) (h_indices _ h')).
  { now apply Qcle_trans with (inertia samples nf (h_centroids _ h') (h_indices _ h')). }
  rewrite !inertia_sum, L, L' in Heq. apply (nth_ext _ _ 0%nat 0%nat); [congruence|]. intros i Hi.
  destruct (Hcl i ltac:(lia)) as [|Hlt]; auto. exfalso.
  pose proof (sum_tight _ _ _ B Heq i ltac:(apply in_seq; lia)) as E. cbv beta in E.
  cbn [n_lt n_dist rational] in Hlt. rewrite Hd in Hlt by first [apply Hr1; lia|apply Hr2, Hin', nth_In; lia|apply Hr2, Hin, nth_In; lia].
  apply qc_lt_true in Hlt. exact (Qclt_not_eq _ _ Hlt E).
Qed.

Lemma sum_same {A} (g h : A -> Qc) l : (forall x, In x l -> g x = h x) -> sum g l = sum h l.
Proof. intros H. apply Qcle_antisym; apply sum_le; intros x Hx; rewrite H by auto; apply Qcle_refl. Qed.

Lemma same_means asg e1 e2 c1 c2 : length asg = n -> (forall x, In x asg -> (x < k)%nat) ->
  centroids_after a samples nf k asg e1 c1 -> centroids_after a samples nf k asg e2 c2 ->
  (forall j, (j < k)%nat -> members asg j <> [] -> row c1 nf j = row c2 nf j) /\
  inertia samples nf c1 asg = inertia samples nf c2 asg.
Proof.
  intros L Hin (L1 & H1) (L2 & H2).
  assert (R : forall j, (j < k)%nat -> members asg j <> [] -> row c1 nf j = row c2 nf j).
  { intros j Hj Hm. destruct (proj1 (H1 j Hj) Hm) as (G1 & G2). destruct (proj1 (H2 j Hj) Hm) as (G1' & G2').
    apply nth_error_ext. intros f. destruct (lt_dec f nf) as [Hf|Hf].
    - rewrite G2, G2' by auto. auto.
    - rewrite (proj2 (nth_error_None _ f)), (proj2 (nth_error_None _ f)) by lia. auto. }
  split; auto. rewrite !inertia_sum. apply sum_same. intros i Hi. apply in_seq in Hi. rewrite R; auto.
  - apply Hin, nth_In. lia.
  - intros E. assert (Hm : In i (members asg (nth i asg 0%nat))) by (apply in_members; split; [lia|reflexivity]). rewrite E in Hm. auto.
Qed.
End Rational.
