(** Condensed trees in other arithmetics, and on [float] and [double] (C112). *)
From Coq Require Import Reals List Arith ZArith QArith Qreals Bool Lia Lra Psatz Permutation.
From Flocq Require Import Core BinarySingleNaN.
From Verif Require Import Base SlinkModel SlinkSpec SlinkProofs CondensedModel CondensedSpec CondensedProofs CondensedProps
  FloatModel FloatSpec FloatProofs FloatProps AccuracySpec AccuracyProofs FloatSilhouetteModel FloatSilhouetteProofs FloatKMeansProofs FloatAliasProofs FloatAliasProps
  FloatCondensedModel FloatCondensedSpec FloatCondensedProofs.
Import ListNotations.
Local Open Scope nat_scope.

Notation inside := CondensedProofs.inside.
Notation total := CondensedProofs.total.
Notation mass := CondensedSpec.mass.

Section Root.
Context {D V : Type} (zero : V) (inverse : D -> V) (excess : V -> nat -> V -> V -> V) (plus : V -> V -> V) (greater : V -> V -> bool)
  (iq : D -> Q) (lt : D -> D -> bool) (root : slink D) (n : nat) (Hdend : dendrogram lt root) (Hleaves : Permutation (leaves root) (seq 0 n)).

Lemma picked_root o : return_leaf_nodes o = true \/ allow_single_cluster o = false ->
  In root (map cn_root (fpicked plus greater o (build_condensed iq (min_cluster_size o) root) (fbuild zero inverse excess (min_cluster_size o) root))) ->
  finest (min_cluster_size o) root root.
Proof using Hdend Hleaves.
  intros HO Hin. apply in_map_iff in Hin as (y & Ey & Hy). pose proof (tree_tree_ok iq root (min_cluster_size o)) as HT.
  pose proof (tree_root iq root (min_cluster_size o)) as HR. pose proof (tree_nodup iq root n Hleaves (min_cluster_size o)) as HN.
  pose proof (same_condense zero inverse excess iq (min_cluster_size o) root root 0%Q 0%Q zero zero) as HS.
  fold (build_condensed iq (min_cluster_size o) root) in HS. fold (fbuild zero inverse excess (min_cluster_size o) root) in HS.
  assert (Len : forall a b : slink D, descendant a b -> length (leaves b) <= length (leaves a)) by (induction 1; simpl; rewrite ?app_length; lia).
  unfold fpicked in Hy. destruct (build_condensed iq (min_cluster_size o) root) as [s m q b|s m q b l r] eqn:ET.
  - rewrite <- HR at 2. refine (proj1 (finest_leaf lt iq root n Hdend Hleaves _ (CLeaf s m q b) _) eq_refl). rewrite ET. constructor.
  - exfalso. cbn [cn_root] in HR. subst s. pose proof HT as (Hl & Hr & i & v & k & Hd). apply Len in Hd. simpl in Hd. rewrite app_length in Hd.
    pose proof (leaves_pos (cn_root l)). pose proof (leaves_pos (cn_root r)).
    assert (Below : inside l y \/ inside r y -> False).
    { intros [H1|H1]; apply inside_descendant in H1; auto; apply Len in H1; rewrite Ey in H1; lia. }
    destruct (return_leaf_nodes o).
    + destruct (finals_facts _ HT HN) as [P _]. apply P in Hy as (Iy & Ly). clear - Iy Ly Below. inversion Iy; subst; [discriminate Ly|apply Below; auto..].
    + destruct HO as [HO|HO]; [discriminate|]. rewrite HO in Hy.
      destruct (fbuild zero inverse excess (min_cluster_size o) root) as [s' m' q' b'|s' m' q' b' l' r']; [destruct HS|]. destruct HS as (_ & _ & Sl & Sr).
      destruct (split_nodup _ _ _ _ _ _ HT HN) as (Nl & Nr & _). apply in_app_or in Hy as [Hy|Hy]; apply Below.
      * left. apply (pick_facts plus greater l l' Sl Hl Nl); auto.
      * right. apply (pick_facts plus greater r r' Sr Hr Nr); auto.
Qed.
End Root.

(** Whatever the arithmetic does, the labels show disjoint clusters in which every finest cluster lies; the whole
    dendrogram is among them only if that is allowed or it has no clusters inside. *)
Theorem c112_labels_in_any_arithmetic : forall {D V : Type} (zero : V) (inverse : D -> V) (excess : V -> nat -> V -> V -> V)
    (plus : V -> V -> V) (greater : V -> V -> bool) (lt : D -> D -> bool) o (root : slink D) n,
  dendrogram lt root -> Permutation (leaves root) (seq 0 n) ->
  exists labels clusters, fextract (fmake zero inverse excess plus greater o root) = Ok labels /\ length labels = n /\
    shows labels clusters /\ flat_clustering (min_cluster_size o) root clusters /\ covers_finest (min_cluster_size o) root clusters /\
    (return_leaf_nodes o = true \/ allow_single_cluster o = false -> In root clusters -> finest (min_cluster_size o) root root).
Proof.
  intros D V zero inverse excess plus greater lt o root n Hdend Hleaves.
  pose (iq := fun _ : D => 0%Q).
  destruct (flabels_ok zero inverse excess plus greater iq lt root n Hdend Hleaves o) as (labels & E & L & S & F & C).
  exists labels. eexists. splits; [exact E|exact L|exact S|exact F|exact C|]. apply (picked_root zero inverse excess plus greater iq lt root n Hdend Hleaves).
Qed.

Local Open Scope R_scope.
Section Formats.
Context {prec emax : Z} (Hp : Prec_gt_0 prec) (Hm : Prec_lt_emax prec emax) (Hprec : (2 <= prec)%Z) (Hemax : (2 * prec + 2 <= emax)%Z).
Notation number := (binary_float prec emax).
Notation Build := (float_build prec emax Hp Hm).
Notation labels_of := (float_labels prec emax Hp Hm).

Lemma near_inside c : forall f y, same c f -> near prec emax c f -> inside c y -> exists t, In (cn_root y, t) (stabilities f) /\
  so_far prec emax (cn_root y) (length (cleaves y)) (cn_stability y) t.
Proof.
  induction c as [s m q b|s m q b l IHl r IHr]; intros f y HS HN Hy; (destruct f as [s' m' q' b'|s' m' q' b' l' r']; [|]); try (destruct HS; fail).
  - destruct HS as (-> & _). inversion Hy; subst. exists q'. split; [left; auto|]. exact (proj1 HN).
  - destruct HS as (-> & _ & Sl & Sr). destruct HN as (A & Nl & Nr). inversion Hy; subst.
    + exists q'. split; [left; auto|exact A].
    + destruct (IHl l' y Sl Nl) as (t & Ht & B); auto. exists t. split; auto. right. apply in_or_app. auto.
    + destruct (IHr r' y Sr Nr) as (t & Ht & B); auto. exists t. split; auto. right. apply in_or_app. auto.
Qed.

Lemma listed_inside {V : Type} (c : cnode number) : forall (f : fnode number V) s t, same c f -> In (s, t) (stabilities f) -> exists y, inside c y /\ cn_root y = s.
Proof.
  induction c as [s m q b|s m q b l IHl r IHr]; intros f s0 t HS Hi; (destruct f as [s' m' q' b'|s' m' q' b' l' r']; [|]); try (destruct HS; fail).
  - destruct HS as (-> & _). destruct Hi as [Hi|[]]. inversion Hi; subst. eexists. split; [constructor|reflexivity].
  - destruct HS as (-> & _ & Sl & Sr). destruct Hi as [Hi|Hi].
    + inversion Hi; subst. eexists. split; [constructor|reflexivity].
    + apply in_app_or in Hi as [Hi|Hi].
      * destruct (IHl l' s0 t Sl Hi) as (y & Iy & Ey). exists y. split; auto. now apply inside_left.
      * destruct (IHr r' s0 t Sr Hi) as (y & Iy & Ey). exists y. split; auto. now apply inside_right.
Qed.

Lemma near_tree fused min root n : dendrogram Bltb root -> Permutation (leaves root) (seq 0 n) ->
  (forall v, In v (levels root) -> ordinary_level prec emax v) -> (Z.of_nat n + 6 <= 2 ^ (prec - 1))%Z ->
  same (build_condensed exact_inverse min root) (Build fused min root) /\ near prec emax (build_condensed exact_inverse min root) (Build fused min root).
Proof using Hprec Hemax.
  intros Hd Hl HO Hn. split; [apply same_condense|].
  apply (near_condense prec emax Hp Hm Hprec Hemax fused min n Hn root root 0%Q 0%Q (B754_zero false) (B754_zero false) 0); auto.
  - constructor.
  - left. auto.
  - rewrite (root_length root n Hl). auto.
  - apply so_far_start; auto.
Qed.

(** The stability stored for a cluster is a finite number, not below 0, that differs from its excess of mass by the
    rounding of a few more operations than it has samples. *)
Theorem c112_stability : forall fused min (root : slink number) n L,
  dendrogram Bltb root -> Permutation (leaves root) (seq 0 n) ->
  (forall v, In v (levels root) -> ordinary_level prec emax v /\ / B2R v <= L) -> 0 <= L -> (Z.of_nat n + 6 <= 2 ^ (prec - 1))%Z ->
  (forall s q, cluster_node min root s -> mass exact_inverse min root s q ->
     exists t, In (s, t) (stabilities (Build fused min root)) /\ is_finite t = true /\ 0 <= B2R t /\
       Rabs (B2R t - Q2R q) <= rounding prec (4 + length (leaves s)) (INR (length (leaves s)) * L)) /\
  (forall s t, In (s, t) (stabilities (Build fused min root)) -> cluster_node min root s).
Proof using Hprec Hemax.
  intros fused min root n L Hd Hl HO L0 Hn. destruct (near_tree fused min root n Hd Hl (fun v Hv => proj1 (HO v Hv)) Hn) as (HS & HN).
  pose proof (dendrogram_sized Bltb root Hd) as Hsz. split.
  - intros s q Hs Hq. pose proof Hs as Hs'. apply (clusters_inside exact_inverse) in Hs' as (c & Hc & <-); auto.
    destruct (near_inside _ _ c HS HN Hc) as (t & Ht & G & F & A). exists t. splits; auto.
    + destruct (good_inv prec emax t G) as [->|(_ & _ & P)]; [discriminate|auto].
    + assert (E : (q == cn_stability c)%Q).
      { apply (mass_fun exact_inverse min root (cn_root c)); auto; [apply (root_nodup root n Hl)|eapply cluster_descendant; eauto|].
        apply inside_mass; auto. apply (root_nodup root n Hl). }
      apply Qeq_eqR in E. rewrite E. apply A. split; auto. intros v Hv. apply HO. eapply desc_levels; [|exact Hv].
      eapply cluster_descendant; eauto.
  - intros s t Hi. destruct (listed_inside _ _ s t HS Hi) as (y & Iy & Ey). apply (clusters_inside exact_inverse); eauto.
Qed.

(** The chosen clusters have the greatest total excess of mass, but for rounding: among all disjoint clusters, or among
    those without the whole dendrogram. *)
Theorem c112_selection : forall fused o (root : slink number) n L,
  dendrogram Bltb root -> Permutation (leaves root) (seq 0 n) ->
  (forall v, In v (levels root) -> ordinary_level prec emax v /\ / B2R v <= L) -> 0 <= L -> (Z.of_nat n + 6 <= 2 ^ (prec - 1))%Z ->
  return_leaf_nodes o = false ->
  exists labels clusters q, labels_of fused o root = Ok labels /\ length labels = n /\ shows labels clusters /\
    flat_clustering (min_cluster_size o) root clusters /\ covers_finest (min_cluster_size o) root clusters /\
    (allow_single_cluster o = false -> In root clusters -> finest (min_cluster_size o) root root) /\
    total_mass exact_inverse (min_cluster_size o) root clusters q /\
    forall sel q', flat_clustering (min_cluster_size o) root sel -> allow_single_cluster o = true \/ ~ In root sel ->
      total_mass exact_inverse (min_cluster_size o) root sel q' -> Q2R q' <= Q2R q + 2 * rounding prec (4 + n) (INR n * L).
Proof using Hprec Hemax.
  intros fused o root n L Hd Hl HO L0 Hn Hnl. set (min := min_cluster_size o).
  assert (HO' : forall v, In v (levels root) -> ordinary_level prec emax v) by (intros v Hv; apply HO; auto).
  destruct (near_tree fused min root n Hd Hl HO' Hn) as (HS & HN).
  destruct (flabels_ok (B754_zero false) (float_inverse prec emax Hp Hm) (float_excess prec emax Hp Hm fused) (Bplus mode_NE) (fun a b => Bltb b a)
    exact_inverse Bltb root n Hd Hl o) as (labels & E & Len & S & F & C).
  pose proof (picked_ok (B754_zero false) (float_inverse prec emax Hp Hm) (float_excess prec emax Hp Hm fused) (Bplus mode_NE) (fun a b => Bltb b a)
    exact_inverse Bltb root n Hd Hl o) as (P1 & P2 & _ & _).
  set (cs := fpicked _ _ _ _ _) in *. exists labels, (map cn_root cs), (total cs). splits; auto.
  { intros HA. apply (picked_root (B754_zero false) (float_inverse prec emax Hp Hm) (float_excess prec emax Hp Hm fused) (Bplus mode_NE) (fun a b => Bltb b a)
      exact_inverse Bltb root n Hd Hl). auto. }
  { exists (map cn_stability cs). split; [|reflexivity]. apply (masses Bltb exact_inverse root n Hd Hl). exact P1. }
  intros sel q' (HF & HND) Hsel HM. destruct (back Bltb exact_inverse root n Hd Hl min sel q' HF HM) as (ys & -> & Hin & Eq).
  apply Qeq_eqR in Eq. rewrite Eq. rewrite flat_roots in HND.
  pose proof (tree_tree_ok exact_inverse root min) as HT. pose proof (tree_nodup exact_inverse root n Hl min) as HTN.
  pose proof (tree_root exact_inverse root min) as HR. pose proof (root_length root n Hl) as HL.
  assert (BL : bounds_levels prec emax L root) by (split; auto; intros v Hv; apply HO; auto).
  assert (EC : cs = fpicked (Bplus mode_NE) (fun a b => Bltb b a) o (build_condensed exact_inverse min root) (Build fused min root)) by reflexivity.
  unfold fpicked in EC. rewrite Hnl in EC.
  assert (Whole : forall picks, picks = fpick (Bplus mode_NE) (fun a b => Bltb b a) (build_condensed exact_inverse min root) (Build fused min root) ->
    Q2R (total ys) <= Q2R (total picks) + 2 * rounding prec (4 + n) (INR n * L)).
  { intros picks ->. pose proof (near_select prec emax Hp Hm Hprec Hemax n Hn _ _ HS HN HT HTN) as K. unfold cleaves in K. rewrite HR, HL in K.
    destruct (K HO' ltac:(lia)) as (_ & _ & K2). unfold cleaves in K2. rewrite HR, HL in K2. destruct (K2 L BL) as (K3 & K4). specialize (K4 ys Hin HND). lra. }
  destruct (build_condensed exact_inverse min root) as [s m q b|s m q b l r] eqn:ET,
    (Build fused min root) as [s' m' q1 b'|s' m' q1 b' l' r'] eqn:EF; try (destruct HS; fail).
  - apply Whole. exact EC.
  - cbn [cn_root] in HR. subst s. destruct (allow_single_cluster o) eqn:EA; [apply Whole; exact EC|].
    destruct Hsel as [|Hsel]; [discriminate|]. rewrite EC.
    destruct HS as (_ & _ & Sl & Sr). destruct HN as (_ & Nl & Nr). pose proof HT as (Tl & Tr & _).
    destruct (split_nodup _ _ _ _ _ _ HT HTN) as (NDl & NDr & _).
    destruct (split_below prec emax _ _ _ _ _ _ HT) as (Bl & Br). pose proof (split_weight prec emax _ _ _ _ _ _ HT) as W. rewrite HL in W.
    destruct (sel_split root m q b l r ys HT Hin HND) as [->|(a & a' & HP & Ha & Ha')]; [exfalso; apply Hsel; left; reflexivity|].
    destruct (perm_nodup_parts _ _ _ HND HP) as [Fa Fa']. rewrite (total_parts prec emax _ _ _ HP), (total_join prec emax).
    destruct (near_select prec emax Hp Hm Hprec Hemax n Hn l l' Sl Nl Tl NDl (fun v Hv => HO' v (desc_levels _ _ v Bl Hv)) ltac:(lia)) as (_ & _ & Kl).
    destruct (near_select prec emax Hp Hm Hprec Hemax n Hn r r' Sr Nr Tr NDr (fun v Hv => HO' v (desc_levels _ _ v Br Hv)) ltac:(lia)) as (_ & _ & Kr).
    destruct (Kl L (bounds_below prec emax L _ _ Bl BL)) as (Kl1 & Kl2). destruct (Kr L (bounds_below prec emax L _ _ Br BL)) as (Kr1 & Kr2).
    specialize (Kl2 a Ha Fa). specialize (Kr2 a' Ha' Fa').
    assert (Mono : forall w, (w <= n)%nat -> rounding prec (4 + w) (INR w * L) <= ((1 + roundoff prec) ^ (4 + n) - 1) * (INR w * L)).
    { intros w Hw. apply (rounding_mono prec Hprec (4 + w) (4 + n)); [lia|]. split; [|lra]. apply Rmult_le_pos; auto. apply pos_INR. }
    pose proof (Mono (length (cleaves l)) ltac:(lia)) as Ml. pose proof (Mono (length (cleaves r)) ltac:(lia)) as Mr.
    assert (WL : INR (length (cleaves l)) * L + INR (length (cleaves r)) * L <= INR n * L).
    { rewrite <- Rmult_plus_distr_r, <- plus_INR. apply Rmult_le_compat_r; auto. apply le_INR. exact W. }
    unfold rounding at 1. assert (G : 0 <= (1 + roundoff prec) ^ (4 + n) - 1) by (pose proof (grow_mono' prec Hprec (4 + n) (4 + n) ltac:(lia)) as (G & _); lra).
    apply (Rmult_le_compat_l _ _ _ G) in WL. lra.
Qed.
End Formats.

(** ** Examples and counterexamples *)
(** Two pairs. *)
Definition pairs (v v0 v1 : binary_float 24 128) : slink (binary_float 24 128) :=
  SNode 0 v 4 (SNode 0 v0 2 (SLeaf 0) (SLeaf 1)) (SNode 2 v1 2 (SLeaf 2) (SLeaf 3)).
Definition single_labels := float_labels 24 128 prec_float emax_float.
Definition single_build := float_build 24 128 prec_float emax_float.
Definition at_least_two (allow : bool) : condensed_options := Build_condensed_options 2 allow false.

Lemma pairs_dendrogram v v0 v1 : Bltb v v0 = false -> Bltb v v1 = false -> dendrogram Bltb (pairs v v0 v1).
Proof. intros E0 E1. simpl. splits; auto; try (intros y [<-|[<-|[]]]; auto); try (intros y []); try tauto. Qed.

Lemma pairs_levels v v0 v1 (P : binary_float 24 128 -> Prop) : P v -> P v0 -> P v1 -> forall x, In x (levels (pairs v v0 v1)) -> P x.
Proof. intros H H0 H1 x. simpl. intros [<-|[<-|[<-|[]]]]; auto. Qed.

Lemma single_ordinary (x : binary_float 24 128) : (is_finite x && Bleb (single 1 (-10)) x && Bleb x (single 1 10))%bool = true -> ordinary_level 24 128 x.
Proof.
  intros H. apply andb_prop in H as (H & H2). apply andb_prop in H as (F & H1). split; auto.
  rewrite Bleb_correct in H1, H2 by (auto; vm_compute; reflexivity).
  assert (E1 : B2R (single 1 (-10)) = / 1024) by (values_in; lra). assert (E2 : B2R (single 1 10) = 1024) by (values_in; lra).
  rewrite E1 in H1. rewrite E2 in H2. revert H1 H2. case Rle_bool_spec; [intros H1 _|discriminate]. case Rle_bool_spec; [intros H2 _|discriminate].
  change (1 - 24)%Z with (-23)%Z. change (128 - 2)%Z with 126%Z. split.
  - apply Rlt_le_trans with (bpow radix2 (-10)); [apply bpow_lt; lia|]. simpl. lra.
  - apply Rle_trans with (bpow radix2 10); [simpl; lra|apply bpow_le; lia].
Qed.

(** Pairs at 1 and at 1/2, merged at 4. *)
Definition apart := pairs (single 4 0) (single 1 0) (single 1 (-1)).

Lemma apart_levels : forall v, In v (levels apart) -> ordinary_level 24 128 v /\ / B2R v <= 2.
Proof.
  apply (pairs_levels _ _ _ (fun v => ordinary_level 24 128 v /\ / B2R v <= 2)); (split; [apply single_ordinary; vm_compute; reflexivity|values_in; lra]).
Qed.

Example c112_labels_in_any_arithmetic_case : dendrogram Bltb apart /\ Permutation (leaves apart) (seq 0 4) /\
  single_labels true (at_least_two true) apart = Ok [1; 1; 2; 2]%nat /\ single_labels false (at_least_two false) apart = Ok [1; 1; 2; 2]%nat /\
  fextract (fmake tt (fun _ => tt) (fun _ _ _ _ => tt) (fun _ _ => tt) (fun _ _ => false) (at_least_two true) apart) = Ok [1; 1; 1; 1]%nat.
Proof. splits; [apply pairs_dendrogram; reflexivity|reflexivity|vm_compute; reflexivity..]. Qed.

Example c112_stability_case : dendrogram Bltb apart /\ (forall v, In v (levels apart) -> ordinary_level 24 128 v /\ / B2R v <= 2) /\
  map (fun '(s, t) => (leaves s, B2SF t)) (stabilities (single_build true 2 apart)) =
    map (fun '(s, x) => (s, B2SF x)) [([0; 1; 2; 3], single 1 0); ([0; 1], single 3 (-1)); ([2; 3], single 7 (-1))]%nat.
Proof. splits; [apply pairs_dendrogram; reflexivity|apply apart_levels|vm_compute; reflexivity]. Qed.

Example c112_selection_case : dendrogram Bltb apart /\ (forall v, In v (levels apart) -> ordinary_level 24 128 v /\ / B2R v <= 2) /\
  (Z.of_nat 4 + 6 <= 2 ^ (24 - 1))%Z /\ single_labels true (at_least_two false) (pairs (single 4 0) (single 3 0) (single 3 0)) = Ok [1; 1; 2; 2]%nat /\
  single_labels true (at_least_two true) (pairs (single 4 0) (single 3 0) (single 3 0)) = Ok [1; 1; 1; 1]%nat.
Proof. splits; [apply pairs_dendrogram; reflexivity|apply apart_levels|vm_compute; try reflexivity; discriminate..]. Qed.

(** Without the allowance for rounding it is false: two pairs whose excess of mass is slightly greater than that of all
    four samples together are not chosen. *)
Definition tied := pairs (single 11928182 (-22)) (single 11928181 (-23)) (single 11928181 (-23)).

Theorem c112_exact_selection_refuted : exists (root : slink (binary_float 24 128)) clusters sel q q',
  dendrogram Bltb root /\ Permutation (leaves root) (seq 0 4) /\ (forall v, In v (levels root) -> ordinary_level 24 128 v) /\
  (forall fused, exists labels, single_labels fused (at_least_two true) root = Ok labels /\ shows labels clusters) /\
  flat_clustering 2 root clusters /\ total_mass exact_inverse 2 root clusters q /\
  flat_clustering 2 root sel /\ total_mass exact_inverse 2 root sel q' /\ (q < q')%Q.
Proof.
  pose (T := build_condensed exact_inverse 2 tied). pose (l := SNode 0 (single 11928181 (-23)) 2 (SLeaf 0) (SLeaf 1)).
  pose (r := SNode 2 (single 11928181 (-23)) 2 (SLeaf 2) (SLeaf 3)).
  pose (cl := condense exact_inverse 2 l (exact_inverse (single 11928182 (-22))) 0 l). pose (cr := condense exact_inverse 2 r (exact_inverse (single 11928182 (-22))) 0 r).
  assert (HD : dendrogram Bltb tied) by (apply pairs_dendrogram; reflexivity).
  assert (HP : Permutation (leaves tied) (seq 0 4)) by reflexivity.
  exists tied, (map cn_root [T]), (map cn_root [cl; cr]), (total [T]), (total [cl; cr]).
  assert (IT : forall c, In c [T] -> inside T c) by (intros c [<-|[]]; constructor).
  assert (IC : forall c, In c [cl; cr] -> inside T c) by (intros c [<-|[<-|[]]]; [apply inside_left|apply inside_right]; constructor).
  assert (FT : forall cs, (forall c, In c cs -> inside T c) -> NoDup (flat_map leaves (map cn_root cs)) -> flat_clustering 2 tied (map cn_root cs)).
  { intros cs H ND. split; auto. apply Forall_forall. intros s Hs. apply in_map_iff in Hs as (c & <- & Hc).
    apply (clusters_inside exact_inverse); [exact (dendrogram_sized Bltb tied HD)|]. exists c. split; auto. }
  assert (MT : forall cs, (forall c, In c cs -> inside T c) -> total_mass exact_inverse 2 tied (map cn_root cs) (total cs)).
  { intros cs H. exists (map cn_stability cs). split; [|reflexivity]. exact (masses Bltb exact_inverse tied 4 HD HP 2 cs H). }
  assert (N4 : NoDup [0; 1; 2; 3]%nat) by exact (seq_NoDup 4 0).
  splits; auto.
  - apply (pairs_levels _ _ _ (ordinary_level 24 128)); (apply single_ordinary; vm_compute; reflexivity).
  - intros fused. exists [1; 1; 1; 1]%nat. split; [destruct fused; vm_compute; reflexivity|]. split.
    + intros k s x Hk Hx. destruct k as [|k]; [|destruct k; discriminate]. cbn in Hk. inversion Hk; subst s. simpl in Hx.
      repeat (destruct Hx as [<-|Hx]; [reflexivity|]). destruct Hx.
    + intros x Hx Hno. exfalso. apply (Hno tied); [left; reflexivity|]. simpl in Hx. simpl. lia.
  - vm_compute. reflexivity.
Qed.

Print Assumptions c112_labels_in_any_arithmetic.
Print Assumptions c112_stability.
Print Assumptions c112_selection.
Print Assumptions c112_exact_selection_refuted.
