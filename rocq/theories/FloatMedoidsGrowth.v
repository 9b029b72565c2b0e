(** Lemmas on how much one swap of FasterPAM with rounded sums can make the total deviation grow. *)
From Coq Require Import List Arith ZArith Lia Bool.
From Verif Require Import Base SortingModel BufferModel SearchModel MatrixModel KMeansModel RandomModel KMedoidsModel KMeansProofs
  KMedoidsSpec KMedoidsProofs MedoidUnitProofs FloatMedoidsModel FloatMedoidsProofs.
Import ListNotations.
Local Open Scope nat_scope.
Set Default Proof Using "Type".

Section Growth.
Context {D : Type} (zero : D) (plus minus : D -> D -> D) (lt : D -> D -> bool) (src : source D).
Context (n : nat) (dist : nat -> nat -> D) (Hsrc : provides src n dist).
Context (key : D -> Z) (fine nneg : D -> Prop).
Context (Hlt : forall x y, fine x -> fine y -> lt x y = (key x <? key y)%Z) (Hinj : forall x y, fine x -> fine y -> key x = key y -> x = y).
Context (Hfine : forall i j, i < n -> j < n -> fine (dist i j)) (Hkz : key zero = 0%Z).

Local Notation kd := (fun i j => key (dist i j)).
Definition within (x : D) : Prop := exists i j, i < n /\ j < n /\ x = dist i j.

(** [tracks h v z]: [v] is the exact [z] after at most [h] rounded differences of distances were added; [small]: what a sum that
    comes out negative can be at most. *)
Context (tracks : nat -> D -> Z -> Prop) (small : Z -> Prop).
Context (T0 : tracks 0 zero 0%Z) (Tmono : forall h v z, tracks h v z -> tracks (S h) v z).
Context (Tadd : forall h v z x y, h < 2 * n -> tracks h v z -> within x -> within y ->
  tracks (S h) (plus v (minus x y)) (z + (key x - key y))%Z).
Context (Tsign : forall v w z z', tracks n v z -> tracks (2 * n) w z' -> lt (plus v w) zero = true -> small (z + z')%Z) (Hsmall : small 0%Z).

Lemma describes_within M I1 I2 D1 D2 o : Forall (fun m => m < n) M -> o < n -> describes zero dist key fine M I1 I2 D1 D2 o ->
  within (nth o D1 zero) /\ within (nth o D2 zero).
Proof using Hinj Hfine.
  intros HM Ho (F1 & F2 & [O1 O2 O3 O4 O5 O6 O7]). rewrite Forall_forall in HM.
  assert (Hi : forall i, i < length M -> nth i M 0 < n) by (intros; apply HM, nth_In; auto). split.
  - exists (nth (nth o I1 0) M 0), o. splits; auto.
  - exists (nth (nth o I2 0) M 0), o. splits; auto.
Qed.

Lemma add_tracks h L i v z x y : (forall j, j < length L -> tracks h (nth j L zero) (z j)) -> h < 2 * n -> i < length L -> within x -> within y ->
  v = minus x y -> exists L', any_add_at plus L i v = Ok L' /\ length L' = length L /\
  forall j, j < length L -> tracks (S h) (nth j L' zero) (z j + if (j =? i)%nat then key x - key y else 0)%Z.
Proof using Tmono Tadd.
  intros H Hh Hi Hx Hy ->. unfold any_add_at. rewrite (rd_nth L i zero) by auto. cbn [bind]. rewrite wr_lt by auto.
  eexists. splits; eauto using upd_length. intros j Hj. rewrite nth_upd by auto. destruct (Nat.eqb_spec j i) as [->|].
  - apply Tadd; auto.
  - rewrite Z.add_0_r. auto.
Qed.

Lemma losses_track M I1 I2 D1 D2 L : Forall (fun m => m < n) M -> length I1 = n -> length D1 = n -> length D2 = n ->
  (forall o, o < n -> describes zero dist key fine M I1 I2 D1 D2 o) -> any_losses zero plus minus I1 D1 D2 (length M) = Ok L ->
  length L = length M /\ forall i, i < length M ->
    tracks n (nth i L zero) (zsum n (fun o => if i =? nth o I1 0%nat then (key (nth o D2 zero) - key (nth o D1 zero))%Z else 0%Z)).
Proof using Hinj Hfine T0 Tmono Tadd.
  intros HM L1 L2 L3 HO. unfold any_losses. rewrite L1.
  match goal with |- context [for_loop n 0 ?body ?s0] =>
    destruct (for_loop_inv (fun t L => length L = length M /\ forall i, i < length M ->
      tracks t (nth i L zero) (zsum t (fun o => if i =? nth o I1 0%nat then (key (nth o D2 zero) - key (nth o D1 zero))%Z else 0%Z))) body n 0 s0)
      as (L' & E & HL & HT) end.
  - rewrite repeat_length. split; auto. intros i Hi. cbn [zsum]. now rewrite nth_repeat.
  - intros o K Ho (HK & HT). rewrite (rd_nth I1 o 0), (rd_nth D2 o zero), (rd_nth D1 o zero) by lia. cbn [bind].
    pose proof (HO o ltac:(lia)) as Hd. destruct (describes_within M I1 I2 D1 D2 o HM ltac:(lia) Hd) as (W1 & W2).
    assert (Hi : nth o I1 0 < length K) by (rewrite HK; apply Hd).
    rewrite <- HK in HT.
    destruct (add_tracks o K (nth o I1 0) _ _ _ _ HT ltac:(lia) Hi W2 W1 eq_refl) as (K' & -> & HK' & HT').
    exists K'. splits; auto; try lia. rewrite <- HK. exact HT'.
  - rewrite E. intros [= <-]. auto.
Qed.

(** A state whose removal losses are the rounded sums over its buffers. *)
Definition tracked (k : nat) (p : @apam D) : Prop := described zero plus n dist key fine nneg k p /\
  any_losses zero plus minus (ap_nearest p) (ap_distances p) (ap_second_distances p) (length (ap_medoids p)) = Ok (ap_losses p).

Lemma key_nth l o : nth o (map key l) 0%Z = key (nth o l zero).
Proof using Hkz. rewrite <- Hkz. apply map_nth. Qed.

Lemma best_swap_small k p c delta b : tracked k p -> c < n -> any_best_swap zero plus minus lt src p c = Ok (delta, b) -> lt delta zero = true ->
  b < k /\ small (deviations kd n (exchange (ap_medoids p) b c) - deviations kd n (ap_medoids p))%Z.
Proof using Hsrc Hlt Hinj Hfine Hkz T0 Tmono Tadd Tsign.
  intros ([[Hk S1 S2 (S3 & S4) (S5 & S6) S7 S8 S9] HN HO _ _] & HL) Hc. unfold any_best_swap. rewrite (proj1 Hsrc).
  destruct p as [M I1 I2 D1 D2 L loss]. cbn [ap_medoids ap_nearest ap_second ap_distances ap_second_distances ap_losses ap_loss] in *.
  destruct (losses_track M I1 I2 D1 D2 L S2 S3 S7 S8 HO HL) as (LL & TL). clear HL.
  assert (HM : forall m, In m M -> m < n) by (now rewrite <- Forall_forall).
  destruct (make_consistent kd n M I1 I2 (map key D1) (map key D2)) as (LZ & EZ & HZ); auto; try lia.
  { now rewrite map_length. } { now rewrite map_length. }
  { intros o Ho. destruct (HO o Ho) as (_ & _ & H). unfold ones. now rewrite !key_nth. }
  destruct (compute_losses_ok n I1 (map key D1) (map key D2) (length M)) as (LZ' & EZ' & _ & PZ); auto; try (now rewrite map_length).
  { intros o Ho. apply (HO o Ho). }
  rewrite EZ in EZ'. injection EZ' as <-.
  match goal with |- context [for_loop n 0 ?body ?s0] =>
    destruct (for_loop_inv (fun t '(xc, mi) => tracks t xc (zsum t (xc_part kd c (map key D1))) /\ length mi = length M /\
      forall i, i < length M -> tracks (n + t) (nth i mi zero) (nth i LZ 0 + zsum t (mi_part kd c I1 (map key D1) (map key D2) i))%Z) body n 0 s0)
      as ((xc & mi) & E & Hx & Hl & Hm) end.
  - splits; auto. intros i Hi. cbn [zsum]. rewrite Z.add_0_r, Nat.add_0_r, PZ by auto.
    erewrite zsum_ext; [apply TL; auto|]. intros o Ho. cbv beta. now rewrite !key_nth.
  - intros o (xc & mi) Ho (Hx & Hl & Hm). rewrite (proj2 Hsrc) by lia. cbn [bind].
    rewrite (rd_nth I1 o 0), (rd_nth D1 o zero), (rd_nth D2 o zero) by lia. cbn [bind].
    pose proof (HO o ltac:(lia)) as Hd. destruct (describes_within M I1 I2 D1 D2 o S2 ltac:(lia) Hd) as (W1 & W2). destruct Hd as (F1 & F2 & Hone).
    assert (Hi : nth o I1 0 < length mi) by (rewrite Hl; apply Hone).
    assert (Wc : within (dist c o)) by (exists c, o; splits; auto; lia).
    assert (Fc : fine (dist c o)) by (apply Hfine; lia). rewrite <- Hl in Hm.
    assert (Nx : xc_part kd c (map key D1) o = if (key (dist c o) <? key (nth o D1 zero))%Z then (key (dist c o) - key (nth o D1 zero))%Z else 0%Z)
      by (unfold xc_part; now rewrite !key_nth).
    assert (Nm : forall i, mi_part kd c I1 (map key D1) (map key D2) i o = if i =? nth o I1 0 then
      if (key (dist c o) <? key (nth o D1 zero))%Z then (key (nth o D1 zero) - key (nth o D2 zero))%Z
      else if (key (dist c o) <? key (nth o D2 zero))%Z then (key (dist c o) - key (nth o D2 zero))%Z else 0%Z else 0%Z)
      by (intros i; unfold mi_part; now rewrite !key_nth).
    rewrite !Hlt by auto. destruct (key (dist c o) <? key (nth o D1 zero))%Z; [|destruct (key (dist c o) <? key (nth o D2 zero))%Z].
    + destruct (add_tracks (n + o) mi (nth o I1 0) _ _ _ _ Hm ltac:(lia) Hi W1 W2 eq_refl) as (mi' & -> & Hl' & Hm'). cbn [bind].
      eexists. split; [reflexivity|cbv beta iota]. cbn [zsum]. rewrite Nx. splits; [apply Tadd; auto; lia|lia|].
      intros i Hii. rewrite Nm, Z.add_assoc, Nat.add_succ_r. apply Hm'. lia.
    + destruct (add_tracks (n + o) mi (nth o I1 0) _ _ _ _ Hm ltac:(lia) Hi Wc W2 eq_refl) as (mi' & -> & Hl' & Hm'). cbn [bind].
      eexists. split; [reflexivity|cbv beta iota]. cbn [zsum]. rewrite Nx, Z.add_0_r. splits; auto; [lia|].
      intros i Hii. rewrite Nm, Z.add_assoc, Nat.add_succ_r. apply Hm'. lia.
    + eexists. split; [reflexivity|cbv beta iota]. cbn [zsum]. rewrite Nx, Z.add_0_r. splits; auto.
      intros i Hii. rewrite Nm, Nat.add_succ_r. apply Tmono. replace (if i =? nth o I1 0 then 0%Z else 0%Z) with 0%Z by (now destruct (_ =? _)).
      rewrite Z.add_0_r. apply Hm. lia.
  - rewrite E. cbn [bind]. destruct (max_pair_any (fun x y => lt y x) mi) as (b' & v & -> & Hb); [intros ->; cbn in Hl; lia|]. cbn [bind].
    intros [= <- <-] Hs. assert (Hb' : b' < length mi) by (apply nth_error_Some; congruence). split; [lia|].
    pose proof (gain_is_exchange kd n (mk_pam M I1 I2 (map key D1) (map key D2) LZ (deviations kd n M)) c b' HZ Hc ltac:(cbn; lia)) as G.
    cbn [p_medoids p_nearest p_second p_distances p_second_distances p_losses] in G. rewrite <- G, Z.add_comm.
    cbn [Nat.add] in Hx, Hm. specialize (Hm b' ltac:(lia)). rewrite (nth_error_nth _ _ zero Hb) in Hm.
    apply (Tsign xc v); auto. now replace (2 * n) with (n + n) by lia.
Qed.

Context (Hcand : forall k p c, described zero plus n dist key fine nneg k p -> c < n ->
  exists p', any_candidate zero plus minus lt src c p = Ok p' /\ described zero plus n dist key fine nneg k p').

(** One candidate: the exact total deviation grows by something small. *)
Lemma candidate_grows k p c : tracked k p -> c < n -> exists p', any_candidate zero plus minus lt src c p = Ok p' /\ tracked k p' /\
  small (deviations kd n (ap_medoids p') - deviations kd n (ap_medoids p))%Z.
Proof using Hsrc Hlt Hinj Hfine Hkz T0 Tmono Tadd Tsign Hsmall Hcand.
  intros Ht Hc. pose proof Ht as (Hd & HL). destruct (Hcand k p c Hd Hc) as (p' & E & Hd'). exists p'. split; auto.
  assert (Hid : p' = p -> tracked k p' /\ small (deviations kd n (ap_medoids p') - deviations kd n (ap_medoids p))%Z).
  { intros ->. split; auto. now rewrite Z.sub_diag. }
  pose proof Hd as [Hs _ _ _ _]. pose proof Hs as [Hk S1 S2 (S3 & S4) _ _ _ _].
  revert E. unfold any_candidate. destruct (rd (ap_nearest p) c) as [i| | |]; cbn [bind]; try discriminate.
  destruct (negb _); [|intros [= <-]; auto].
  destruct (any_best_swap zero plus minus lt src p c) as [(delta & b)| | |] eqn:Eb; cbn [bind]; try discriminate.
  destruct (lt delta zero) eqn:El; [|intros [= <-]; auto].
  destruct (best_swap_small k p c delta b Ht Hc Eb El) as (Hb & Hg). rewrite wr_lt by lia. cbn [bind]. rewrite upd_exchange by lia.
  destruct (any_swap_buffers _ _ _ _ _ _ _ _) as [((((I1 & I2) & D1) & D2) & loss)| | |]; cbn [bind]; try discriminate.
  destruct (any_losses zero plus minus I1 D1 D2 _) as [L| | |] eqn:Ell; cbn [bind]; try discriminate.
  intros [= <-]. split; [split|]; auto.
Qed.
End Growth.
