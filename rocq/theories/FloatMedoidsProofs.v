(** Lemmas on k-medoids with distances of any type and in floating point. *)
From Coq Require Import List Arith ZArith Lia Bool Permutation.
From Verif Require Import Base SortingModel BufferModel SearchModel MatrixModel KMeansModel RandomModel KMedoidsModel KMeansProofs
  KMedoidsSpec KMedoidsProofs MedoidUnitProofs FloatMedoidsModel.
Import ListNotations.
Local Open Scope nat_scope.
Set Default Proof Using "Type".

Lemma max_from_any {D} (lt : D -> D -> bool) : forall l bi best i, exists j v, max_element_from lt bi best i l = (j, v) /\
  ((j = bi /\ v = best) \/ (i <= j /\ nth_error l (j - i) = Some v)).
Proof.
  induction l as [|x l IH]; intros bi best i; cbn [max_element_from]; [eauto 6|]. destruct (lt best x).
  - destruct (IH i x (S i)) as (j & v & -> & H). exists j, v. split; auto. right. destruct H as [(-> & ->)|(H1 & H2)].
    + now rewrite Nat.sub_diag.
    + split; [lia|]. now replace (j - i) with (S (j - S i)) by lia.
  - destruct (IH bi best (S i)) as (j & v & -> & H). exists j, v. split; auto. destruct H as [|(H1 & H2)]; auto. right.
    split; [lia|]. now replace (j - i) with (S (j - S i)) by lia.
Qed.

Lemma max_pair_any {D} (lt : D -> D -> bool) l : l <> [] ->
  exists j v, get_max_index_value_pair lt l = Ok (j, v) /\ nth_error l j = Some v.
Proof.
  destruct l as [|x l]; [congruence|]. intros _. cbn [get_max_index_value_pair].
  destruct (max_from_any lt l 0 x 1) as (j & v & -> & H). exists j, v. split; auto. destruct H as [(-> & ->)|(H1 & H2)]; auto.
  destruct j; [lia|]. now replace (S j - 1) with j in H2 by lia.
Qed.

Lemma Forall_upd {A} (P : A -> Prop) l i x : Forall P l -> P x -> Forall P (upd l i x).
Proof.
  intros H Hx. apply Forall_forall. intros a Ha. apply In_nth_error in Ha. destruct Ha as (j & Hj). rewrite nth_error_upd in Hj.
  destruct ((j =? i) && (i <? length l)); [congruence|]. rewrite Forall_forall in H. eapply H, nth_error_In, Hj.
Qed.

Lemma Forall_rd {A} (P : A -> Prop) l i : Forall P l -> i < length l -> exists a, rd l i = Ok a /\ P a.
Proof.
  intros H Hi. destruct (rd_lt l i Hi) as (a & E). exists a. split; auto. apply rd_ok, nth_error_In in E. rewrite Forall_forall in H. auto.
Qed.

Lemma firstn_upd {A} (l : list A) i v : i < length l -> firstn (S i) (upd l i v) = firstn i l ++ [v].
Proof.
  revert i. induction l as [|x l IH]; intros i H; cbn [length] in H; [lia|]. destruct i; cbn [upd firstn app]; auto.
  f_equal. apply IH. lia.
Qed.

(** ** Valid indices in any arithmetic *)
Section Any.
Context {D : Type} (zero : D) (plus minus : D -> D -> D) (lt eq : D -> D -> bool) (top : D) (src : source D).
Context (n : nat) (dist : nat -> nat -> D) (Hsrc : provides src n dist).

Record shaped (k : nat) (p : @apam D) : Prop := {
  s_k : 2 <= k;
  s_medoids : length (ap_medoids p) = k;
  s_valid : Forall (fun m => m < n) (ap_medoids p);
  s_nearest : length (ap_nearest p) = n /\ Forall (fun i => i < k) (ap_nearest p);
  s_second : length (ap_second p) = n /\ Forall (fun i => i < k) (ap_second p);
  s_distances : length (ap_distances p) = n;
  s_second_distances : length (ap_second_distances p) = n;
  s_losses : length (ap_losses p) = k }.

Lemma losses_any k I1 D1 D2 : length I1 = n -> Forall (fun i => i < k) I1 -> length D1 = n -> length D2 = n ->
  exists L, any_losses zero plus minus I1 D1 D2 k = Ok L /\ length L = k.
Proof.
  intros L1 F1 L2 L3. unfold any_losses. rewrite L1.
  match goal with |- context [for_loop n 0 ?body ?s0] => destruct (for_loop_inv (fun _ L => length L = k) body n 0 s0) as (L & E & HL) end.
  - apply repeat_length.
  - intros o L Ho HL. destruct (Forall_rd _ I1 o F1) as (i & -> & Hi); [lia|]. destruct (rd_lt D2 o) as (d2 & ->); [lia|].
    destruct (rd_lt D1 o) as (d1 & ->); [lia|]. cbn [bind]. unfold any_add_at. destruct (rd_lt L i) as (x & ->); [lia|]. cbn [bind].
    rewrite wr_lt by lia. eexists. split; [reflexivity|]. now rewrite upd_length.
  - exists L. auto.
Qed.

Lemma medoid_any M idx o : Forall (fun m => m < n) M -> idx < length M -> o < n ->
  medoid_distance src M idx o = Ok (dist (nth idx M 0) o).
Proof using Hsrc.
  intros HM Hi Ho. unfold medoid_distance. rewrite (rd_nth M idx 0) by auto. cbn [bind]. apply (proj2 Hsrc); auto.
  rewrite Forall_forall in HM. now apply HM, nth_In.
Qed.

Lemma each_any M o : Forall (fun m => m < n) M -> o < n -> forall m, In m M -> dist_at src m o = Ok (dist m o).
Proof using Hsrc. intros HM Ho m Hm. rewrite Forall_forall in HM. apply (proj2 Hsrc); auto. Qed.

Lemma filled {A} (b : A) f (P : A -> Prop) : (forall o, o < n -> exists x, f o = Ok x /\ P x) ->
  exists v, fill b n f = Ok v /\ length v = n /\ Forall P v.
Proof.
  intros H. destruct (fill_inv b n f (fun _ => P) H) as (v & E & L & Hv). exists v. splits; auto. apply Forall_forall.
  intros x Hx. apply In_nth_error in Hx. destruct Hx as (i & Hi). assert (i < length v) by (apply nth_error_Some; congruence).
  destruct (Hv i ltac:(lia)) as (x' & E' & HP). congruence.
Qed.

Lemma indices_any M c : Forall (fun m => m < n) M -> 2 <= length M -> c = 1 \/ c = 2 ->
  exists v, any_indices lt eq top src M c = Ok v /\ length v = n /\ Forall (fun i => i < length M) v.
Proof using Hsrc.
  intros HM Hk Hc. assert (Hne : M <> []) by (destruct M; [cbn in Hk; lia|congruence]).
  unfold any_indices, nth_nearest. destruct Hc as [-> | ->]; rewrite (proj2 (Nat.ltb_ge _ _)) by lia; cbn [Nat.eqb orb].
  - unfold samples_to_nearest_medoid_indices. destruct M as [|m0 M0] eqn:EM; [congruence|]. rewrite <- EM in *. rewrite (proj1 Hsrc).
    apply filled. intros o Ho.
    match goal with |- context [for_loop ?t 0 ?body ?s0] =>
      destruct (for_loop_inv (fun _ '(_, i) => i < length M) body t 0 s0) as ((d & i) & E & H) end.
    + lia.
    + intros idx (d & i) Hidx H. rewrite (medoid_any M idx o) by (auto; lia). cbn [bind]. eexists. split; [reflexivity|].
      destruct (lt _ _); auto; lia.
    + rewrite E. cbn [bind]. eauto.
  - unfold samples_to_second_nearest_medoid_indices. destruct M as [|m0 M0] eqn:EM; [congruence|]. rewrite <- EM in *. rewrite (proj1 Hsrc).
    apply filled. intros o Ho.
    match goal with |- context [for_loop ?t 0 ?body ?s0] =>
      destruct (for_loop_inv (fun _ '(_, _, i, i2) => i < length M /\ i2 < length M) body t 0 s0) as ((((d & d2) & i) & i2) & E & H) end.
    + lia.
    + intros idx (((d & d2) & i) & i2) Hidx H. rewrite (medoid_any M idx o) by (auto; lia). cbn [bind]. eexists. split; [reflexivity|].
      destruct (lt _ d); [split; lia|]. destruct (lt _ d2 && _); auto; split; lia.
    + rewrite E. cbn [bind]. eexists. split; [reflexivity|]. apply H.
Qed.

Lemma distances_any M c : Forall (fun m => m < n) M -> 2 <= length M -> c = 1 \/ c = 2 ->
  exists v, any_distances lt eq top src M c = Ok v /\ length v = n.
Proof using Hsrc.
  intros HM Hk Hc. assert (Hne : M <> []) by (destruct M; [cbn in Hk; lia|congruence]).
  unfold any_distances, nth_nearest. destruct Hc as [-> | ->]; rewrite (proj2 (Nat.ltb_ge _ _)) by lia; cbn [Nat.eqb orb].
  - unfold samples_to_nearest_medoid_distances. destruct M as [|m0 M0] eqn:EM; [congruence|]. rewrite <- EM in *. rewrite (proj1 Hsrc).
    match goal with |- context [fill ?b n ?f] => destruct (filled b f (fun _ => True)) as (v & E & L & _); eauto end. intros o Ho.
    match goal with |- context [for_each ?l ?body ?s0] => destruct (for_each_inv (fun _ _ => True) body l [] s0) as (d & E & _); auto end.
    + intros m ? d Hm _. rewrite (each_any M o) by auto. cbn [bind]. eauto.
    + rewrite E. eauto.
  - unfold samples_to_second_nearest_medoid_distances. destruct M as [|m0 M0] eqn:EM; [congruence|]. rewrite <- EM in *. rewrite (proj1 Hsrc).
    match goal with |- context [fill ?b n ?f] => destruct (filled b f (fun _ => True)) as (v & E & L & _); eauto end. intros o Ho.
    match goal with |- context [for_each ?l ?body ?s0] => destruct (for_each_inv (fun _ _ => True) body l [] s0) as ((d & d2) & E & _); auto end.
    + intros m ? (d & d2) Hm _. rewrite (each_any M o) by auto. cbn [bind]. eauto.
    + rewrite E. cbn [bind]. eauto.
Qed.

Lemma make_any M : Forall (fun m => m < n) M -> 2 <= length M ->
  exists p, make_apam zero plus minus lt eq top src M = Ok p /\ ap_medoids p = M /\ shaped (length M) p.
Proof using Hsrc.
  intros HM Hk. unfold make_apam. destruct (indices_any M 1 HM Hk) as (I1 & -> & L1 & F1); auto.
  destruct (indices_any M 2 HM Hk) as (I2 & -> & L2 & F2); auto. destruct (distances_any M 1 HM Hk) as (D1 & -> & L3); auto.
  destruct (distances_any M 2 HM Hk) as (D2 & -> & L4); auto. cbn [bind].
  destruct (losses_any (length M) I1 D1 D2) as (L & -> & L5); auto. cbn [bind]. eexists. split; [reflexivity|]. split; auto.
  constructor; cbn; auto.
Qed.

Lemma best_swap_any k p c : shaped k p -> c < n -> exists delta b, any_best_swap zero plus minus lt src p c = Ok (delta, b) /\ b < k.
Proof using Hsrc.
  intros [Hk S1 S2 (S3 & S4) _ S5 S6 S7] Hc. unfold any_best_swap. rewrite (proj1 Hsrc).
  match goal with |- context [for_loop n 0 ?body ?s0] =>
    destruct (for_loop_inv (fun _ '(_, mi) => length mi = k) body n 0 s0) as ((xc & mi) & E & H) end.
  - auto.
  - intros o (xc & mi) Ho H. rewrite (proj2 Hsrc) by lia. cbn [bind]. destruct (Forall_rd _ _ o S4) as (i & -> & Hi); [lia|].
    destruct (rd_lt (ap_distances p) o) as (d1 & ->); [lia|]. destruct (rd_lt (ap_second_distances p) o) as (d2 & ->); [lia|]. cbn [bind].
    unfold any_add_at. destruct (rd_lt mi i) as (x & ->); [lia|]. cbn [bind]. rewrite !wr_lt by lia. cbn [bind].
    destruct (lt _ d1); [|destruct (lt _ d2)]; eexists; (split; [reflexivity|]); cbv beta iota; rewrite ?upd_length; auto.
  - rewrite E. cbn [bind]. destruct (max_pair_any (fun x y => lt y x) mi) as (b & v & -> & Hb); [intros ->; cbn in H; lia|]. cbn [bind].
    exists (plus xc v), b. split; auto. rewrite <- H. apply nth_error_Some. congruence.
Qed.

Lemma update_second_any M b o d i1 : Forall (fun m => m < n) M -> b < length M -> o < n ->
  exists i d', any_update_second lt src M b o d i1 = Ok (i, d') /\ i < length M.
Proof using Hsrc.
  intros HM Hb Ho. unfold any_update_second.
  match goal with |- context [for_loop ?t 0 ?body ?s0] =>
    destruct (for_loop_inv (fun _ '(i, _) => i < length M) body t 0 s0) as ((i & d') & E & H); auto end.
  - intros idx (i & d') Hidx H. destruct (negb _ && negb _); [|eauto]. rewrite (medoid_any M idx o) by (auto; lia). cbn [bind].
    eexists. split; [reflexivity|]. destruct (lt _ _); auto; lia.
  - eauto.
Qed.

Lemma swap_sample_any M c b o i1 i2 d1 d2 : Forall (fun m => m < n) M -> c < n -> b < length M -> o < n -> i1 < length M -> i2 < length M ->
  exists i1' i2' d1' d2', any_swap_sample zero lt src M c b o i1 i2 d1 d2 = Ok (i1', i2', d1', d2') /\ i1' < length M /\ i2' < length M.
Proof using Hsrc.
  intros HM Hc Hb Ho H1 H2. unfold any_swap_sample. destruct (o =? c).
  - destruct (negb _); do 4 eexists; split; eauto.
  - rewrite (proj2 Hsrc) by auto. cbn [bind]. destruct (i1 =? b).
    + destruct (lt _ d2); [do 4 eexists; split; eauto|]. destruct (update_second_any M b o (dist c o) i2) as (i & d' & -> & Hi); auto.
      cbn [bind]. do 4 eexists. split; eauto.
    + destruct (lt _ d1); [do 4 eexists; split; eauto|]. destruct (lt _ d2); [do 4 eexists; split; eauto|].
      destruct (i2 =? b); [|do 4 eexists; split; eauto]. destruct (update_second_any M b o (dist c o) i1) as (i & d' & -> & Hi); auto.
      cbn [bind]. do 4 eexists. split; eauto.
Qed.

Lemma swap_buffers_any k p M c b : shaped k p -> Forall (fun m => m < n) M -> length M = k -> c < n -> b < k ->
  exists I1 I2 D1 D2 loss, any_swap_buffers zero plus lt src M p c b = Ok (I1, I2, D1, D2, loss) /\
    length I1 = n /\ Forall (fun i => i < k) I1 /\ length I2 = n /\ Forall (fun i => i < k) I2 /\ length D1 = n /\ length D2 = n.
Proof using Hsrc.
  intros [Hk S1 S2 (S3 & S4) (S5 & S6) S7 S8 S9] HM HL Hc Hb. unfold any_swap_buffers. rewrite (proj1 Hsrc).
  match goal with |- context [for_loop n 0 ?body ?s0] =>
    destruct (for_loop_inv (fun _ '(I1, I2, D1, D2, _) => length I1 = n /\ Forall (fun i => i < k) I1 /\ length I2 = n /\
      Forall (fun i => i < k) I2 /\ length D1 = n /\ length D2 = n) body n 0 s0) as (((((I1 & I2) & D1) & D2) & loss) & E & H) end.
  - splits; auto.
  - intros o ((((I1 & I2) & D1) & D2) & loss) Ho (K1 & K2 & K3 & K4 & K5 & K6).
    destruct (Forall_rd _ I1 o K2) as (i1 & -> & Hi1); [lia|]. destruct (Forall_rd _ I2 o K4) as (i2 & -> & Hi2); [lia|].
    destruct (rd_lt D1 o) as (d1 & ->); [lia|]. destruct (rd_lt D2 o) as (d2 & ->); [lia|]. cbn [bind].
    destruct (swap_sample_any M c b o i1 i2 d1 d2) as (i1' & i2' & d1' & d2' & -> & A1 & A2); auto; try lia. cbn [bind].
    rewrite !wr_lt by lia. cbn [bind]. eexists. split; [reflexivity|]. cbv beta iota. rewrite !upd_length.
    splits; auto; apply Forall_upd; auto; lia.
  - rewrite E. do 5 eexists. split; [reflexivity|]. exact H.
Qed.

Lemma candidate_any k p c : shaped k p -> c < n ->
  exists p', any_candidate zero plus minus lt src c p = Ok p' /\ shaped k p'.
Proof using Hsrc.
  intros Hs Hc. unfold any_candidate. pose proof Hs as [Hk S1 S2 (S3 & S4) _ _ _ _].
  destruct (Forall_rd _ _ c S4) as (i & -> & _); [lia|]. cbn [bind]. destruct (negb _); [|eauto].
  destruct (best_swap_any k p c Hs Hc) as (delta & b & -> & Hb). cbn [bind]. destruct (lt delta zero); [|eauto].
  rewrite wr_lt by lia. cbn [bind]. assert (HM : Forall (fun m => m < n) (upd (ap_medoids p) b c)) by (apply Forall_upd; auto).
  destruct (swap_buffers_any k p (upd (ap_medoids p) b c) c b) as (I1 & I2 & D1 & D2 & loss & -> & A1 & A2 & A3 & A4 & A5 & A6); auto.
  { now rewrite upd_length. }
  cbn [bind]. rewrite upd_length, S1. destruct (losses_any k I1 D1 D2) as (L & -> & HL); auto. cbn [bind]. eexists. split; [reflexivity|].
  constructor; cbn; auto. now rewrite upd_length.
Qed.

Lemma step_any k p : shaped k p -> exists p', apam_step zero plus minus lt src p = Ok p' /\ shaped k p'.
Proof using Hsrc.
  intros Hs. unfold apam_step. rewrite (proj1 Hsrc).
  destruct (for_loop_inv (fun _ => shaped k) (any_candidate zero plus minus lt src) n 0 p) as (p' & E & H); eauto.
  intros c q Hc Hq. apply candidate_any; auto. lia.
Qed.

(** ** What every step keeps holds of the result *)
Context (I : nat -> @apam D -> Prop) (HI : forall t p, I t p -> exists p', apam_step zero plus minus lt src p = Ok p' /\ I (S t) p').

Lemma loop_keeps o : forall it pi previous candidate t p, I t p -> candidate = ap_medoids p ->
  exists t' p', any_medoids_loop zero plus minus lt src o it pi previous candidate p = Ok (ap_medoids p', p') /\ t' <= t + it /\ I t' p'.
Proof using HI.
  induction it as [|it IH]; intros pi previous candidate t p Hp ->; cbn [any_medoids_loop]; [exists t, p; splits; auto; lia|].
  destruct (HI t p Hp) as (p' & -> & Hp'). cbn [bind]. cbn zeta.
  destruct (mo_early_stopping o && _); [destruct (pi =? mo_patience o)|].
  - exists (S t), p'. splits; auto. lia.
  - destruct (IH (S pi) (ap_medoids p') (ap_medoids p') (S t) p' Hp' eq_refl) as (t' & q & E & Ht & Hq). exists t', q. splits; auto. lia.
  - destruct (IH 0 (ap_medoids p') (ap_medoids p') (S t) p' Hp' eq_refl) as (t' & q & E & Ht & Hq). exists t', q. splits; auto. lia.
Qed.

Lemma fit_keeps o k medoids draw starts : any_starts src o k medoids draw = Ok starts -> starts <> [] ->
  (forall M, In M starts -> exists p, make_apam zero plus minus lt eq top src M = Ok p /\ ap_medoids p = M /\ I 0 p) ->
  exists t p, any_medoids_fit zero plus minus lt eq top src o k medoids draw = Ok (ap_medoids p) /\ t <= mo_max_iter o /\ I t p.
Proof using HI.
  intros E Hne HS. unfold any_medoids_fit. rewrite E. cbn [bind].
  match goal with |- context [for_each starts ?body ?s0] =>
    destruct (for_each_inv (fun done results => length results = length done /\
      Forall (fun r => exists t p, r = (ap_medoids p, ap_loss p) /\ t <= mo_max_iter o /\ I t p) results) body starts [] s0) as (results & -> & HL & HF) end.
  - auto.
  - intros M done results HM (HL & HF). unfold any_medoids_candidate. destruct (HS M HM) as (p & -> & Em & Hp). cbn [bind].
    destruct (loop_keeps o (mo_max_iter o) 0 [] M 0 p Hp ltac:(auto)) as (t & p' & -> & Ht & Hp'). cbn [bind]. eexists. split; [reflexivity|].
    cbv beta. rewrite !app_length, HL. split; auto. apply Forall_app. split; auto. constructor; eauto.
  - cbn [bind app] in *. destruct (max_pair_any (fun x y => lt y x) (map snd results)) as (j & v & -> & Hj).
    { intros E'. apply map_eq_nil in E'. subst results. cbn in HL. destruct starts; [congruence|discriminate]. }
    cbn [bind]. assert (Hlt : j < length results) by (rewrite <- (map_length snd); apply nth_error_Some; congruence).
    destruct (Forall_rd _ results j HF Hlt) as (r & -> & t & p & -> & Ht & Hp). cbn [bind]. eauto.
Qed.
End Any.

Lemma loop_snoc {A} (f : A -> res A) : forall t i i' s, for_loop (S t) i (fun _ => f) s = (x <- for_loop t i' (fun _ => f) s ;; f x).
Proof.
  induction t as [|t IH]; intros i i' s; [cbn; destruct (f s); reflexivity|].
  change (for_loop (S (S t)) i (fun _ => f) s) with (x <- f s ;; for_loop (S t) (S i) (fun _ => f) x).
  change (for_loop (S t) i' (fun _ => f) s) with (x <- f s ;; for_loop t (S i') (fun _ => f) x).
  destruct (f s); cbn [bind]; auto.
Qed.

Lemma starts_given {D} (src : source D) o k medoids draw : medoids <> [] -> any_starts src o k medoids draw = Ok [medoids].
Proof. unfold any_starts. destruct medoids; congruence. Qed.

(** ** Buffers that describe their medoids, when the order of distances is that of integers *)
Section Order.
Context {D : Type} (zero : D) (plus minus : D -> D -> D) (lt eq : D -> D -> bool) (top : D) (src : source D).
Context (n : nat) (dist : nat -> nat -> D) (Hsrc : provides src n dist).
Context (key : D -> Z) (fine nneg : D -> Prop).
Context (Hlt : forall x y, fine x -> fine y -> lt x y = (key x <? key y)%Z) (Hinj : forall x y, fine x -> fine y -> key x = key y -> x = y).
Context (Hfine : forall i j, i < n -> j < n -> fine (dist i j)) (Hfz : fine zero) (Hkz : key zero = 0%Z).
Context (Hself : forall o, o < n -> dist o o = zero) (Hpos : forall i j, i < n -> j < n -> (0 <= key (dist i j))%Z).
Context (Hsum : forall x y, nneg x -> nneg y -> nneg (plus x y)) (Hdiff : forall x y, fine x -> fine y -> (key y <= key x)%Z -> nneg (minus x y)).
Context (Hnn : forall x, fine x -> (0 <= key x)%Z -> nneg x) (Hnlt : forall x, nneg x -> lt x zero = false)
  (Hplus : forall x, nneg x -> plus x zero = x).

Local Notation kd := (fun i j => key (dist i j)).
Definition ksrc : source Z := mk_source n (fun i j => Ok (key (dist i j))).

Lemma kprovides : provides ksrc n kd.
Proof. split; auto. Qed.

Definition keyed (x : D) (z : Z) : Prop := fine x /\ z = key x.

Lemma update_second_sim M b o d i1 : Forall (fun m => m < n) M -> o < n -> fine d ->
  rsim (fun a z => fst z = fst a /\ keyed (snd a) (snd z)) (any_update_second lt src M b o d i1)
    (update_second_nearest ksrc M b o (key d) i1).
Proof using Hsrc Hlt Hinj Hfine Hfz Hkz Hself Hpos Hsum Hdiff Hnn Hnlt Hplus.
  intros HM Ho Hd. unfold any_update_second, update_second_nearest.
  apply (rsim_loop (fun _ a z => fst z = fst a /\ keyed (snd a) (snd z))); [split; [auto|split; auto]|].
  intros j (i & x) (i' & x') Hj (E & Hx). cbn [fst snd] in E, Hx. subst i'. destruct Hx as (Fx & ->).
  destruct (negb _ && negb _); [|cbn; split; [auto|split; auto]].
  rewrite (medoid_any src n dist Hsrc M j o) by (auto; lia). rewrite (medoid_any ksrc n kd kprovides M j o) by (auto; lia). cbn [bind].
  assert (Hm : nth j M 0 < n) by (rewrite Forall_forall in HM; apply HM, nth_In; lia).
  cbn [rsim]. rewrite Hlt by auto. destruct (_ <? _)%Z; cbn; split; auto; split; auto.
Qed.

Definition describes (M I1 I2 : list nat) (D1 D2 : list D) (o : nat) : Prop :=
  fine (nth o D1 zero) /\ fine (nth o D2 zero) /\
  one (fun j => key (dist (nth j M 0%nat) o)) (length M) (nth o I1 0) (nth o I2 0) (key (nth o D1 zero)) (key (nth o D2 zero)).

Lemma swap_sample_order M c b o i1 i2 d1 d2 : Forall (fun m => m < n) M -> c < n -> o < n -> b < length M -> fine d1 -> fine d2 ->
  one (fun j => key (dist (nth j M 0%nat) o)) (length M) i1 i2 (key d1) (key d2) ->
  exists i1' i2' d1' d2', any_swap_sample zero lt src (exchange M b c) c b o i1 i2 d1 d2 = Ok (i1', i2', d1', d2') /\
    fine d1' /\ fine d2' /\ one (fun j => key (dist (nth j (exchange M b c) 0%nat) o)) (length M) i1' i2' (key d1') (key d2').
Proof using Hsrc Hlt Hinj Hfine Hfz Hkz Hself Hpos Hsum Hdiff Hnn Hnlt Hplus.
  intros HM Hc Ho Hb F1 F2 H.
  assert (HM' : Forall (fun m => m < n) (exchange M b c)) by (rewrite <- upd_exchange by auto; apply Forall_upd; auto).
  destruct (swap_sample_ok kd n ksrc kprovides M c b o i1 i2 (key d1) (key d2)) as (i1' & i2' & z1 & z2 & E & H'); auto.
  { now rewrite <- Forall_forall. } { now rewrite Hself. }
  assert (S : rsim (fun a z => let '(i, j, x, y) := a in let '(i', j', x', y') := z in i' = i /\ j' = j /\ keyed x x' /\ keyed y y')
    (any_swap_sample zero lt src (exchange M b c) c b o i1 i2 d1 d2) (swap_sample ksrc (exchange M b c) c b o i1 i2 (key d1) (key d2))).
  { clear E H' i1' i2' z1 z2. unfold any_swap_sample, swap_sample. destruct (o =? c).
    - destruct (negb _); cbn [rsim]; rewrite <- Hkz; splits; auto; split; auto.
    - rewrite (proj2 Hsrc), (proj2 kprovides) by auto. cbn [bind]. rewrite !Hlt by auto. destruct (i1 =? b).
      + destruct (_ <? _)%Z; [cbn [rsim]; splits; auto; split; auto|].
        eapply rsim_bind; [apply update_second_sim; auto|]. intros (i & x) (i' & x') (Ei & Hx). cbn in Ei, Hx. subst i'.
        cbn [rsim]. splits; auto. split; auto.
      + destruct (_ <? key d1)%Z; [cbn [rsim]; splits; auto; split; auto|].
        destruct (_ <? key d2)%Z; [cbn [rsim]; splits; auto; split; auto|].
        destruct (i2 =? b); [|cbn [rsim]; splits; auto; split; auto].
        eapply rsim_bind; [apply update_second_sim; auto|]. intros (i & x) (i' & x') (Ei & Hx). cbn in Ei, Hx. subst i'.
        cbn [rsim]. splits; auto. split; auto. }
  rewrite E in S. destruct (any_swap_sample _ _ _ _ _ _ _ _ _ _ _) as [(((i & j) & x) & y)| | |]; cbn in S; try contradiction.
  destruct S as (-> & -> & (Fx & ->) & (Fy & ->)). exists i, j, x, y. splits; auto.
Qed.

(** A state that describes its medoids. *)
Record described (k : nat) (p : @apam D) : Prop := {
  d_shape : shaped n k p;
  d_distinct : NoDup (ap_medoids p);
  d_one : forall o, o < n -> describes (ap_medoids p) (ap_nearest p) (ap_second p) (ap_distances p) (ap_second_distances p) o;
  d_losses : Forall nneg (ap_losses p);
  d_loss : ap_loss p = fold_left plus (ap_distances p) zero }.

Lemma swap_buffers_order k p c b : described k p -> c < n -> b < k ->
  exists I1 I2 D1 D2 loss, any_swap_buffers zero plus lt src (exchange (ap_medoids p) b c) p c b = Ok (I1, I2, D1, D2, loss) /\
    length I1 = n /\ length I2 = n /\ length D1 = n /\ length D2 = n /\
    loss = fold_left plus D1 zero /\ forall o, o < n -> describes (exchange (ap_medoids p) b c) I1 I2 D1 D2 o.
Proof using Hsrc Hlt Hinj Hfine Hfz Hkz Hself Hpos Hsum Hdiff Hnn Hnlt Hplus.
  intros [[Hk S1 S2 (S3 & S4) (S5 & S6) S7 S8 S9] _ HO _ _] Hc Hb. unfold any_swap_buffers. rewrite (proj1 Hsrc).
  set (M := ap_medoids p) in *. set (M' := exchange M b c).
  assert (HL : length M' = length M) by (apply exchange_length; lia).
  assert (HM' : Forall (fun m => m < n) M') by (unfold M'; rewrite <- upd_exchange by lia; apply Forall_upd; auto).
  assert (Hz : nneg zero) by (apply Hnn; auto; lia).
  match goal with |- context [for_loop n 0 ?body ?s0] =>
    destruct (for_loop_inv (fun t '(I1, I2, D1, D2, loss) => length I1 = n /\ length I2 = n /\ length D1 = n /\ length D2 = n /\
      nneg loss /\ loss = fold_left plus (firstn t D1) zero /\ (forall o, o < t -> describes M' I1 I2 D1 D2 o) /\
      (forall o, t <= o < n -> describes M I1 I2 D1 D2 o)) body n 0 s0) as (((((I1 & I2) & D1) & D2) & loss) & E & H)
  end.
  - splits; auto; try lia. intros o Ho. apply HO. lia.
  - intros o ((((I1 & I2) & D1) & D2) & loss) Ho (K1 & K2 & K3 & K4 & K5 & K6 & K7 & K8).
    rewrite (rd_nth I1 o 0), (rd_nth I2 o 0), (rd_nth D1 o zero), (rd_nth D2 o zero) by lia. cbn [bind].
    destruct (K8 o ltac:(lia)) as (F1 & F2 & H1).
    destruct (swap_sample_order M c b o _ _ _ _ S2 Hc ltac:(lia) ltac:(lia) F1 F2 H1) as (i1 & i2 & d1 & d2 & E & G1 & G2 & Hone).
    fold M' in E, Hone. rewrite E. cbn [bind]. rewrite !wr_lt by lia. cbn [bind].
    assert (Hd1 : nneg d1).
    { apply Hnn; auto. destruct Hone as [O1 O2 O3 O4 O5 O6 O7]. rewrite O4. apply Hpos; [|lia].
      rewrite Forall_forall in HM'. apply HM', nth_In. lia. }
    assert (Hkeep : (if o =? c then loss else plus loss d1) = plus loss d1).
    { destruct (Nat.eqb_spec o c) as [->|]; auto. unfold any_swap_sample in E. rewrite Nat.eqb_refl in E.
      destruct (negb _) in E; injection E as <- <- <- <-; symmetry; auto. }
    eexists. split; [reflexivity|cbv beta iota]. rewrite !upd_length, Hkeep. splits; auto.
    + rewrite firstn_upd by lia. rewrite fold_left_app. cbn [fold_left]. now rewrite <- K6.
    + intros o' Ho'. unfold describes. rewrite !nth_upd by lia. destruct (Nat.eqb_spec o' o) as [->|Hne].
      * rewrite HL. auto.
      * apply K7. lia.
    + intros o' Ho'. unfold describes. rewrite !nth_upd by lia. destruct (Nat.eqb_spec o' o) as [->|Hne]; [lia|].
      apply K8. lia.
  - rewrite E. destruct H as (K1 & K2 & K3 & K4 & _ & K5 & K6 & _). exists I1, I2, D1, D2, loss. splits; auto.
    cbn [Nat.add] in K5. rewrite <- K3, firstn_all in K5. auto.
Qed.

Lemma losses_order M I1 I2 D1 D2 : length I1 = n -> length D1 = n -> length D2 = n -> (forall o, o < n -> describes M I1 I2 D1 D2 o) ->
  exists L, any_losses zero plus minus I1 D1 D2 (length M) = Ok L /\ length L = length M /\ Forall nneg L.
Proof using Hsrc Hlt Hinj Hfine Hfz Hkz Hself Hpos Hsum Hdiff Hnn Hnlt Hplus.
  intros L1 L3 L4 H. unfold any_losses. rewrite L1. assert (Hz : nneg zero) by (apply Hnn; auto; lia).
  match goal with |- context [for_loop n 0 ?body ?s0] =>
    destruct (for_loop_inv (fun _ L => length L = length M /\ Forall nneg L) body n 0 s0) as (L & E & HL) end.
  - split; [apply repeat_length|]. apply Forall_forall. intros x Hx. apply repeat_spec in Hx. now subst.
  - intros o L Ho (HL & HF). destruct (H o ltac:(lia)) as (F1 & F2 & [O1 O2 O3 O4 O5 O6 O7]).
    rewrite (rd_nth I1 o 0), (rd_nth D2 o zero), (rd_nth D1 o zero) by lia. cbn [bind]. unfold any_add_at.
    destruct (Forall_rd _ L (nth o I1 0) HF) as (x & -> & Hx); [lia|]. cbn [bind]. rewrite wr_lt by lia.
    eexists. split; [reflexivity|]. rewrite upd_length. split; auto. apply Forall_upd; auto. apply Hsum; auto. apply Hdiff; auto.
    rewrite O5. auto.
  - exists L. auto.
Qed.

Lemma described_shape M I1 I2 D1 D2 : 2 <= length M -> Forall (fun m => m < n) M -> NoDup M ->
  length I1 = n -> length I2 = n -> length D1 = n -> length D2 = n -> (forall o, o < n -> describes M I1 I2 D1 D2 o) ->
  exists L, any_losses zero plus minus I1 D1 D2 (length M) = Ok L /\
    described (length M) (mk_apam M I1 I2 D1 D2 L (fold_left plus D1 zero)).
Proof using Hsrc Hlt Hinj Hfine Hfz Hkz Hself Hpos Hsum Hdiff Hnn Hnlt Hplus.
  intros Hk HM HN L1 L2 L3 L4 H. destruct (losses_order M I1 I2 D1 D2) as (L & E & HL & HF); auto. exists L. split; auto.
  assert (G : forall I, length I = n -> (forall o, o < n -> nth o I 0 < length M) -> Forall (fun i => i < length M) I).
  { intros I LI HI. apply Forall_forall. intros x Hx. apply (In_nth _ _ 0) in Hx. destruct Hx as (o & Ho & <-). apply HI. lia. }
  constructor; cbn; auto. constructor; cbn; auto; split; auto; apply G; auto; intros o Ho; apply (H o Ho).
Qed.

(** A medoid as a candidate: no loss but its own changes. *)
Lemma best_swap_member k p c delta b : described k p -> c < n -> In c (ap_medoids p) ->
  any_best_swap zero plus minus lt src p c = Ok (delta, b) -> lt delta zero = true -> nth_error (ap_medoids p) b = Some c.
Proof using Hsrc Hlt Hinj Hfine Hfz Hkz Hself Hpos Hsum Hdiff Hnn Hnlt Hplus.
  intros [[Hk S1 S2 (S3 & S4) (S5 & S6) S7 S8 S9] HN HO HF _] Hc Hin. unfold any_best_swap. rewrite (proj1 Hsrc).
  apply In_nth_error in Hin. destruct Hin as (j & Ej). assert (Hj : j < k) by (rewrite <- S1; apply nth_error_Some; congruence).
  assert (Hz : nneg zero) by (apply Hnn; auto; lia). assert (En : nth j (ap_medoids p) 0 = c) by (now apply nth_error_nth).
  match goal with |- context [for_loop n 0 ?body ?s0] =>
    destruct (for_loop_inv (fun _ '(xc, mi) => xc = zero /\ length mi = k /\ forall i x, i <> j -> nth_error mi i = Some x -> nneg x) body n 0 s0)
      as ((xc & mi) & E & -> & HL & Hm) end.
  - splits; auto. intros i x _ Hi. apply nth_error_In in Hi. rewrite Forall_forall in HF. auto.
  - intros o (xc & mi) Ho (-> & HL & Hm). rewrite (proj2 Hsrc) by lia. cbn [bind].
    destruct (HO o ltac:(lia)) as (F1 & F2 & [O1 O2 O3 O4 O5 O6 O7]).
    rewrite (rd_nth _ o 0), (rd_nth _ o zero), (rd_nth (ap_second_distances p) o zero) by lia. cbn [bind].
    assert (A1 : lt (dist c o) (nth o (ap_distances p) zero) = false).
    { rewrite Hlt by (auto; apply Hfine; lia). apply Z.ltb_ge. rewrite <- En. apply O6. lia. }
    rewrite A1. destruct (lt (dist c o) (nth o (ap_second_distances p) zero)) eqn:A2; [|eexists; split; [reflexivity|cbv beta iota; splits; auto]].
    destruct (Nat.eq_dec (nth o (ap_nearest p) 0) j) as [E1|E1].
    + rewrite E1. unfold any_add_at. destruct (rd_lt mi j) as (x & ->); [lia|]. cbn [bind]. rewrite wr_lt by lia. cbn [bind].
      eexists. split; [reflexivity|cbv beta iota]. rewrite upd_length. splits; auto. intros i y Hi. rewrite nth_error_upd_neq by auto. eauto.
    + exfalso. rewrite Hlt in A2 by (auto; apply Hfine; lia). apply Z.ltb_lt in A2. specialize (O7 j ltac:(lia) (not_eq_sym E1)).
      cbn beta in O7. rewrite En in O7. lia.
  - rewrite E. cbn [bind]. destruct (max_pair_any (fun x y => lt y x) mi) as (b' & v & -> & Hb); [intros ->; cbn in HL; lia|]. cbn [bind].
    intros [= <- <-] Hd. destruct (Nat.eq_dec b' j) as [->|Hne]; auto. rewrite Hnlt in Hd; [discriminate|]. apply Hsum; auto. eauto.
Qed.

Lemma candidate_order k p c : described k p -> c < n -> exists p', any_candidate zero plus minus lt src c p = Ok p' /\ described k p'.
Proof using Hsrc Hlt Hinj Hfine Hfz Hkz Hself Hpos Hsum Hdiff Hnn Hnlt Hplus.
  intros Hd Hc. unfold any_candidate. pose proof Hd as [Hs HN HO HF _]. pose proof Hs as [Hk S1 S2 (S3 & S4) _ _ _ _].
  destruct (Forall_rd _ _ c S4) as (i & -> & _); [lia|]. cbn [bind]. destruct (negb _); [|eauto].
  destruct (best_swap_any zero plus minus lt src n dist Hsrc k p c Hs Hc) as (delta & b & E & Hb). rewrite E. cbn [bind].
  destruct (lt delta zero) eqn:El; [|eauto].
  rewrite wr_lt by lia. cbn [bind]. rewrite upd_exchange by lia.
  destruct (swap_buffers_order k p c b Hd Hc Hb) as (I1 & I2 & D1 & D2 & loss & -> & A1 & A2 & A3 & A4 & -> & A6). cbn [bind].
  assert (HL : length (exchange (ap_medoids p) b c) = k) by (rewrite exchange_length; lia).
  destruct (described_shape (exchange (ap_medoids p) b c) I1 I2 D1 D2) as (L & -> & Hd'); auto; [lia| | |].
  - rewrite <- upd_exchange by lia. apply Forall_upd; auto.
  - destruct (in_dec Nat.eq_dec c (ap_medoids p)) as [Hin|Hin].
    + pose proof (best_swap_member k p c delta b Hd Hc Hin E El) as Hbc.
      replace (exchange (ap_medoids p) b c) with (ap_medoids p); auto. apply (nth_ext _ _ 0 0); [lia|]. intros t Ht.
      rewrite nth_exchange by lia. destruct (Nat.eqb_spec t b) as [->|]; auto. now apply nth_error_nth.
    + apply exchange_nodup; auto. lia.
  - cbn [bind]. rewrite HL in Hd'. eauto.
Qed.

Lemma step_order k p : described k p -> exists p', apam_step zero plus minus lt src p = Ok p' /\ described k p'.
Proof using Hsrc Hlt Hinj Hfine Hfz Hkz Hself Hpos Hsum Hdiff Hnn Hnlt Hplus.
  intros Hs. unfold apam_step. rewrite (proj1 Hsrc).
  destruct (for_loop_inv (fun _ => described k) (any_candidate zero plus minus lt src) n 0 p) as (p' & E & H); eauto.
  intros c q Hc Hq. apply candidate_order; auto. lia.
Qed.

(** *** The constructor *)
Context (Hft : fine top) (M : list nat) (HM : Forall (fun m => m < n) M) (HM2 : 2 <= length M).
Context (Htop : forall i j, i < n -> j < n -> (key (dist i j) < key top)%Z).

Local Notation T o := (fun j => key (dist (nth j M 0%nat) o)).
Local Notation d o j := (dist (nth j M 0%nat) o).

(** The second distance is the least of those not taken for the first one. *)
Definition runner_up (o t i1 : nat) (d1 d2 : D) (i2 : nat) : Prop :=
  (d2 = top /\ forall j, j < t -> j <> i1 -> eq (d o j) d1 = true) \/
  (i2 < t /\ i2 <> i1 /\ key d2 = T o i2 /\ forall j, j < t -> j <> i1 -> eq (d o j) d1 = true \/ (key d2 <= T o j)%Z).
Definition scanned (o t : nat) (d1 d2 : D) (i1 i2 : nat) : Prop :=
  fine d1 /\ fine d2 /\ first_of (T o) (key top) t (key d1) i1 /\ runner_up o t i1 d1 d2 i2.

Lemma medoid_fine o t : o < n -> t < length M -> nth t M 0 < n /\ fine (d o t) /\ (T o t < key top)%Z.
Proof using Hsrc Hlt Hinj Hfine Hfz Hkz Hself Hpos Hsum Hdiff Hnn Hnlt Hplus Hft Htop HM HM2.
  intros Ho Ht. assert (nth t M 0 < n) by (rewrite Forall_forall in HM; now apply HM, nth_In). splits; auto.
Qed.

Lemma first_scan o t d1 i1 : o < n -> t < length M -> fine d1 -> first_of (T o) (key top) t (key d1) i1 ->
  let r := if lt (d o t) d1 then (d o t, t) else (d1, i1) in
  fine (fst r) /\ first_of (T o) (key top) (S t) (key (fst r)) (snd r).
Proof using Hsrc Hlt Hinj Hfine Hfz Hkz Hself Hpos Hsum Hdiff Hnn Hnlt Hplus Hft Htop HM HM2.
  intros Ho Ht F H. destruct (medoid_fine o t Ho Ht) as (_ & Fd & Hd). rewrite Hlt by auto.
  pose proof (first_step (T o) (key top) t (key d1) i1 Hd H) as Hs. cbn beta in Hs. cbn zeta.
  destruct (key (d o t) <? key d1)%Z; cbn [fst snd]; auto.
Qed.

Lemma scan_step o t d1 d2 i1 i2 : o < n -> t < length M -> scanned o t d1 d2 i1 i2 ->
  let '(d1', d2', i1', i2') :=
    if lt (d o t) d1 then (d o t, d1, t, i1)
    else if lt (d o t) d2 && negb (eq (d o t) d1) then (d1, d o t, i1, t)
    else (d1, d2, i1, i2) in scanned o (S t) d1' d2' i1' i2'.
Proof using Hsrc Hlt Hinj Hfine Hfz Hkz Hself Hpos Hsum Hdiff Hnn Hnlt Hplus Hft Htop HM HM2.
  intros Ho Ht (F1 & F2 & HF & HR). destruct (medoid_fine o t Ho Ht) as (_ & Fd & Hd).
  pose proof (first_scan o t d1 i1 Ho Ht F1 HF) as Hs. cbn zeta in Hs. rewrite !Hlt in * by auto. unfold scanned.
  destruct (Z.ltb_spec (key (d o t)) (key d1)) as [H1|H1]; cbn [fst snd] in Hs; destruct Hs as (Hs1 & Hs2).
  - splits; auto. destruct HF as (HF0 & HF1). destruct t as [|t].
    + left. destruct (HF0 eq_refl) as (E & _). split; [now apply Hinj|]. intros j Hj Hne. lia.
    + right. destruct (HF1 ltac:(lia)) as (G1 & G2 & G3 & _). splits; auto; try lia. intros j Hj Hne. right. apply G3. lia.
  - assert (Ht1 : 0 < t /\ i1 < t).
    { destruct HF as (HF0 & HF1). destruct t; [destruct (HF0 eq_refl) as (E & _); rewrite E in H1; cbn beta in Hd; lia|].
      destruct (HF1 ltac:(lia)) as (G1 & _). lia. }
    destruct (Z.ltb_spec (key (d o t)) (key d2)) as [H2|H2]; cbn [andb].
    + destruct (eq (d o t) d1) eqn:Eq; cbn [negb]; splits; auto.
      * destruct HR as [(-> & HR)|(R1 & R2 & R3 & R4)]; [left|right]; splits; auto; try lia.
        -- intros j Hj Hne. destruct (Nat.eq_dec j t) as [->|]; auto. apply HR; auto; lia.
        -- intros j Hj Hne. destruct (Nat.eq_dec j t) as [->|]; auto. apply R4; auto; lia.
      * right. splits; auto; try lia. intros j Hj Hne. destruct (Nat.eq_dec j t) as [->|]; [right; lia|].
        destruct HR as [(-> & HR)|(R1 & R2 & R3 & R4)]; [left; apply HR; auto; lia|].
        destruct (R4 j ltac:(lia) Hne); auto. right. lia.
    + splits; auto. destruct HR as [(-> & HR)|(R1 & R2 & R3 & R4)]; [cbn beta in Hd; lia|]. right. splits; auto; try lia.
      intros j Hj Hne. destruct (Nat.eq_dec j t) as [->|]; [right; cbn beta; lia|]. apply R4; auto; lia.
Qed.

Lemma scan_start o : first_of (T o) (key top) 0 (key top) 0 /\ scanned o 0 top top 0 0.
Proof using Hsrc Hlt Hinj Hfine Hfz Hkz Hself Hpos Hsum Hdiff Hnn Hnlt Hplus Hft Htop HM HM2.
  assert (first_of (T o) (key top) 0 (key top) 0) by (split; auto; lia). split; auto. unfold scanned. splits; auto. left. split; auto. lia.
Qed.

Lemma M_cons : exists m0 M0, M = m0 :: M0.
Proof using HM HM2. destruct M; [cbn in HM2; lia|eauto]. Qed.

Lemma nearest_indices_order : exists v, any_indices lt eq top src M 1 = Ok v /\ length v = n /\
  forall o, o < n -> exists d1, fine d1 /\ first_of (T o) (key top) (length M) (key d1) (nth o v 0).
Proof using Hsrc Hlt Hinj Hfine Hfz Hkz Hself Hpos Hsum Hdiff Hnn Hnlt Hplus Hft Htop HM HM2.
  unfold any_indices, nth_nearest. rewrite (proj2 (Nat.ltb_ge _ _)) by lia. cbn [Nat.eqb orb].
  unfold samples_to_nearest_medoid_indices. destruct M_cons as (m0 & M0 & EM). rewrite EM. rewrite <- EM. rewrite (proj1 Hsrc).
  match goal with |- context [fill ?b n ?f] =>
    destruct (fill_inv b n f (fun o i => exists d1, fine d1 /\ first_of (T o) (key top) (length M) (key d1) i)) as (v & E & Hv & H) end.
  - intros o Ho.
    match goal with |- context [for_loop ?k 0 ?body ?s0] =>
      destruct (for_loop_inv (fun t '(d1, i) => fine d1 /\ first_of (T o) (key top) t (key d1) i) body k 0 s0) as ((d1 & i) & E & H) end.
    + split; auto. apply (scan_start o).
    + intros t (d1 & i) Ht (F & Hf). rewrite (medoid_any src n dist Hsrc M t o) by (auto; lia). cbn [bind].
      pose proof (first_scan o t d1 i Ho ltac:(lia) F Hf) as Hs. cbn zeta in Hs. destruct (lt _ _); eauto.
    + rewrite E. cbn [bind]. eexists. split; eauto.
  - exists v. splits; auto. intros o Ho. destruct (H o Ho) as (i & Ei & d1 & Hd). exists d1. rewrite (nth_error_nth _ _ 0 Ei). auto.
Qed.

Lemma second_indices_order : exists v, any_indices lt eq top src M 2 = Ok v /\ length v = n /\
  forall o, o < n -> exists d1 d2 i1, scanned o (length M) d1 d2 i1 (nth o v 0).
Proof using Hsrc Hlt Hinj Hfine Hfz Hkz Hself Hpos Hsum Hdiff Hnn Hnlt Hplus Hft Htop HM HM2.
  unfold any_indices, nth_nearest. rewrite (proj2 (Nat.ltb_ge _ _)) by lia. cbn [Nat.eqb orb].
  unfold samples_to_second_nearest_medoid_indices. destruct M_cons as (m0 & M0 & EM). rewrite EM. rewrite <- EM. rewrite (proj1 Hsrc).
  match goal with |- context [fill ?b n ?f] =>
    destruct (fill_inv b n f (fun o i2 => exists d1 d2 i1, scanned o (length M) d1 d2 i1 i2)) as (v & E & Hv & H) end.
  - intros o Ho.
    match goal with |- context [for_loop ?k 0 ?body ?s0] =>
      destruct (for_loop_inv (fun t '(d1, d2, i1, i2) => scanned o t d1 d2 i1 i2) body k 0 s0) as ((((d1 & d2) & i1) & i2) & E & H) end.
    + apply (scan_start o).
    + intros t (((d1 & d2) & i1) & i2) Ht Hs. rewrite (medoid_any src n dist Hsrc M t o) by (auto; lia). cbn [bind].
      pose proof (scan_step o t d1 d2 i1 i2 Ho ltac:(lia) Hs) as Hs'. eexists. split; [reflexivity|]. exact Hs'.
    + rewrite E. cbn [bind]. eexists. split; [reflexivity|]. eauto.
  - exists v. splits; auto. intros o Ho. destruct (H o Ho) as (i & Ei & d1 & d2 & i1 & Hd). exists d1, d2, i1.
    rewrite (nth_error_nth _ _ 0 Ei). auto.
Qed.

Lemma nearest_distances_order : exists v, any_distances lt eq top src M 1 = Ok v /\ length v = n /\
  forall o, o < n -> exists i, fine (nth o v zero) /\ first_of (T o) (key top) (length M) (key (nth o v zero)) i.
Proof using Hsrc Hlt Hinj Hfine Hfz Hkz Hself Hpos Hsum Hdiff Hnn Hnlt Hplus Hft Htop HM HM2.
  unfold any_distances, nth_nearest. rewrite (proj2 (Nat.ltb_ge _ _)) by lia. cbn [Nat.eqb orb].
  unfold samples_to_nearest_medoid_distances. destruct M_cons as (m0 & M0 & EM). rewrite EM. rewrite <- EM. rewrite (proj1 Hsrc).
  match goal with |- context [fill ?b n ?f] =>
    destruct (fill_inv b n f (fun o d1 => exists i, fine d1 /\ first_of (T o) (key top) (length M) (key d1) i)) as (v & E & Hv & H) end.
  - intros o Ho. rewrite (for_each_index _ M [] top). cbn [app length].
    match goal with |- context [for_loop ?k 0 ?body ?s0] =>
      destruct (for_loop_inv (fun t d1 => exists i, fine d1 /\ first_of (T o) (key top) t (key d1) i) body k 0 s0) as (d1 & E & H) end.
    + exists 0. split; auto. apply (scan_start o).
    + intros t d1 Ht (i & F & Hf). pose proof (medoid_any src n dist Hsrc M t o HM ltac:(lia) Ho) as Hmd. unfold medoid_distance in Hmd.
      rewrite (rd_nth M t 0) in * by lia. cbn [bind] in *. rewrite Hmd. cbn [bind].
      pose proof (first_scan o t d1 i Ho ltac:(lia) F Hf) as Hs. cbn zeta in Hs. destruct (lt _ _); eauto.
    + rewrite E. eexists. split; eauto.
  - exists v. splits; auto. intros o Ho. destruct (H o Ho) as (d1 & Ed & i & Hd). exists i. rewrite (nth_error_nth _ _ zero Ed). auto.
Qed.

Lemma second_distances_order : exists v, any_distances lt eq top src M 2 = Ok v /\ length v = n /\
  forall o, o < n -> exists d1 i1 i2, scanned o (length M) d1 (nth o v zero) i1 i2.
Proof using Hsrc Hlt Hinj Hfine Hfz Hkz Hself Hpos Hsum Hdiff Hnn Hnlt Hplus Hft Htop HM HM2.
  unfold any_distances, nth_nearest. rewrite (proj2 (Nat.ltb_ge _ _)) by lia. cbn [Nat.eqb orb].
  unfold samples_to_second_nearest_medoid_distances. destruct M_cons as (m0 & M0 & EM). rewrite EM. rewrite <- EM. rewrite (proj1 Hsrc).
  match goal with |- context [fill ?b n ?f] =>
    destruct (fill_inv b n f (fun o d2 => exists d1 i1 i2, scanned o (length M) d1 d2 i1 i2)) as (v & E & Hv & H) end.
  - intros o Ho. rewrite (for_each_index _ M [] (top, top)). cbn [app length].
    match goal with |- context [for_loop ?k 0 ?body ?s0] =>
      destruct (for_loop_inv (fun t '(d1, d2) => exists i1 i2, scanned o t d1 d2 i1 i2) body k 0 s0) as ((d1 & d2) & E & i1 & i2 & H) end.
    + exists 0, 0. apply (scan_start o).
    + intros t (d1 & d2) Ht (i1 & i2 & Hs). pose proof (medoid_any src n dist Hsrc M t o HM ltac:(lia) Ho) as Hmd. unfold medoid_distance in Hmd.
      rewrite (rd_nth M t 0) in * by lia. cbn [bind] in *. rewrite Hmd. cbn [bind].
      pose proof (scan_step o t d1 d2 i1 i2 Ho ltac:(lia) Hs) as Hs'. eexists. split; [reflexivity|].
      destruct (lt _ d1); [eauto|]. destruct (lt _ d2 && _); eauto.
    + rewrite E. cbn [bind]. eexists. split; [reflexivity|]. eauto.
  - exists v. splits; auto. intros o Ho. destruct (H o Ho) as (d2 & Ed & d1 & i1 & i2 & Hd). exists d1, i1, i2.
    rewrite (nth_error_nth _ _ zero Ed). auto.
Qed.

(** Each sample has one medoid nearer than the others, and not taken for as near. *)
Context (Hclear : forall o, o < n -> exists j, j < length M /\
  forall j', j' < length M -> j' <> j -> lt (d o j) (d o j') = true /\ eq (d o j') (d o j) = false).

Lemma make_order : exists p, make_apam zero plus minus lt eq top src M = Ok p /\ ap_medoids p = M /\ described (length M) p.
Proof using Hsrc Hlt Hinj Hfine Hfz Hkz Hself Hpos Hsum Hdiff Hnn Hnlt Hplus Hft Htop HM HM2 Hclear.
  unfold make_apam. destruct nearest_indices_order as (I1 & -> & L1 & P1). destruct second_indices_order as (I2 & -> & L2 & P2).
  destruct nearest_distances_order as (D1 & -> & L3 & P3). destruct second_distances_order as (D2 & -> & L4 & P4). cbn [bind].
  assert (HO : forall o, o < n -> describes M I1 I2 D1 D2 o).
  { assert (Hk : 0 < length M) by lia. intros o Ho. destruct (P1 o Ho) as (d1 & G1 & F1). destruct (P3 o Ho) as (i & G3 & F3).
    destruct (P2 o Ho) as (da & d2 & ia & Ga & Gd2 & F2 & S2). destruct (P4 o Ho) as (db & ib & i2 & Gb & Gd2' & F4 & S4).
    destruct (first_unique _ _ _ _ _ _ _ Hk F1 F3) as (E1 & <-).
    destruct (first_unique _ _ _ _ _ _ _ Hk F1 F2) as (Ea & <-).
    destruct (first_unique _ _ _ _ _ _ _ Hk F1 F4) as (Eb & <-).
    apply Hinj in E1, Ea, Eb; auto. subst da db.
    destruct F1 as (_ & F1). destruct F1 as (A1 & A2 & A3 & A4); [lia|]. cbn beta in *.
    destruct (Hclear o Ho) as (j & Hj & Hju).
    assert (Hju' : forall j', j' < length M -> j' <> j -> (key (d o j) < key (d o j'))%Z /\ eq (d o j') (d o j) = false).
    { intros j' Hj' Hne'. destruct (Hju j' Hj' Hne') as (X1 & X2). rewrite Hlt in X1 by (apply medoid_fine; auto).
      apply Z.ltb_lt in X1. auto. }
    assert (nth o I1 0 = j) as Ej.
    { destruct (Nat.eq_dec (nth o I1 0) j) as [|Hn]; auto. destruct (Hju' _ A1 Hn). specialize (A3 j Hj). lia. }
    assert (d1 = d o j) as Ed by (apply Hinj; auto; [now apply medoid_fine|rewrite A2, Ej; auto]).
    assert (exists j', j' < length M /\ j' <> j) as (j' & Hj' & Hne').
    { destruct j; [exists 1|exists 0]; lia. }
    unfold runner_up in S2, S4. rewrite Ej, Ed in *.
    destruct S2 as [(_ & S2)|(B1 & B2 & B3 & B4)]; [destruct (Hju' j' Hj' Hne') as (_ & X); rewrite S2 in X; auto; discriminate|].
    destruct S4 as [(_ & S4)|(C1 & C2 & C3 & C4)]; [destruct (Hju' j' Hj' Hne') as (_ & X); rewrite S4 in X; auto; discriminate|].
    assert (B5 : forall t, t < length M -> t <> j -> (key d2 <= T o t)%Z).
    { intros t Ht Hne. destruct (B4 t Ht Hne) as [X|X]; auto. destruct (Hju' t Ht Hne) as (_ & Y). congruence. }
    assert (C5 : forall t, t < length M -> t <> j -> (key (nth o D2 zero) <= T o t)%Z).
    { intros t Ht Hne. destruct (C4 t Ht Hne) as [X|X]; auto. destruct (Hju' t Ht Hne) as (_ & Y). congruence. }
    specialize (B5 i2 C1 C2) as X1. specialize (C5 (nth o I2 0) B1 B2) as X2. cbn beta in *.
    unfold describes. splits; auto. rewrite Ej, <- E1. constructor; auto; try lia. }
  assert (HN : NoDup M).
  { apply (NoDup_nth M 0). intros i j Hi Hj E. destruct (Nat.eq_dec i j) as [|Hij]; auto. exfalso.
    assert (Hin : nth i M 0 < n) by (rewrite Forall_forall in HM; now apply HM, nth_In).
    destruct (Hclear _ Hin) as (t & Ht & Hx).
    assert (Hz : dist (nth i M 0) (nth i M 0) = zero) by auto.
    assert (Hp : (0 <= key (dist (nth t M 0%nat) (nth i M 0%nat)))%Z) by (apply Hpos; auto; now apply (medoid_fine _ t Hin)).
    assert (Y : forall s, s < length M -> s <> t -> (key (dist (nth t M 0%nat) (nth i M 0%nat)) < key (dist (nth s M 0%nat) (nth i M 0%nat)))%Z).
    { intros s Hs Hne. destruct (Hx s Hs Hne) as (X & _). rewrite Hlt in X by (apply medoid_fine; auto). now apply Z.ltb_lt. }
    destruct (Nat.eq_dec i t) as [->|].
    - specialize (Y j Hj ltac:(auto)). rewrite <- E in Y. lia.
    - specialize (Y i Hi ltac:(auto)). rewrite Hz in Y. lia. }
  destruct (described_shape M I1 I2 D1 D2) as (L & -> & HC); auto. cbn [bind]. eauto.
Qed.
End Order.
