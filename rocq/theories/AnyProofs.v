(** The kd-tree over any value type: termination, accesses in range, permutation. *)
From Coq Require Import List Arith ZArith Lia Bool Permutation SpecFloat.
From Verif Require Import Base SortingModel SortingProofs BufferModel BufferProofs SearchModel KDTreeSpec KDTreeProofs AnyModel
  AnySpec.
Import ListNotations.

Section Sorting.
Context (T : values) (Hs : sane T) (samples : list (vt T)) (nf fi : nat).
Notation value_at := (any_value_at T samples nf fi).
Notation lt := (vt_lt T).
Notation equal := (vt_equal T).
Definition inside (a : list nat) : Prop := forall i, In i a -> i * nf + fi < length samples.

Lemma inside_perm a b : Permutation a b -> inside a -> inside b.
Proof. intros P H i Hi. apply H. eapply Permutation_in; [symmetry|]; eauto. Qed.

Lemma inside_incl a b : incl b a -> inside a -> inside b.
Proof. intros P H i Hi. apply H. auto. Qed.

Lemma any_value_lt a p : inside a -> p < length a ->
  exists x v, nth_error a p = Some x /\ any_feature samples nf x fi = Ok v /\ value_at a p = Ok v.
Proof.
  intros G Hp. destruct (nth_error a p) as [x|] eqn:E; [|apply nth_error_None in E; lia].
  destruct (rd_lt samples (x * nf + fi)) as (v & Ev). { apply G. eapply nth_error_In; eauto. }
  exists x, v. splits; auto. unfold any_value_at. rewrite (proj2 (rd_ok _ _ _) E). exact Ev.
Qed.

Lemma any_value_of a p x v : nth_error a p = Some x -> any_feature samples nf x fi = Ok v -> value_at a p = Ok v.
Proof. intros H E. unfold any_value_at. rewrite (proj2 (rd_ok _ _ _) H). exact E. Qed.

Lemma any_median3_ok a : inside a -> exists m, any_median_index_of_three T samples nf fi a = Ok m /\
  (length a = 0 \/ m < length a).
Proof.
  intros G. unfold any_median_index_of_three.
  destruct (Nat.ltb_spec (length a) 3). { exists 0. split; auto. lia. }
  set (mi := (length a - 1) / 2).
  assert (mi < length a) by (apply Nat.div_lt_upper_bound; lia).
  clearbody mi.
  destruct (any_value_lt a mi G ltac:(lia)) as (y & vy & _ & _ & Vy).
  destruct (any_value_lt a 0 G ltac:(lia)) as (x & vx & _ & _ & Vx).
  destruct (any_value_lt a (length a - 1) G ltac:(lia)) as (z & vz & _ & _ & Vz).
  rewrite Vy, Vx. cbn [bind].
  destruct (lt vy vx); rewrite Vz; cbn [bind]; rewrite ?Vy, ?Vx; cbn [bind].
  - destruct (lt vz vy); rewrite ?Vx, ?Vy, ?Vz; cbn [bind].
    + destruct (lt vx vy); eexists; split; eauto; lia.
    + destruct (lt vx vz); eexists; split; eauto; lia.
  - destruct (lt vz vx); rewrite ?Vx, ?Vy, ?Vz; cbn [bind].
    + destruct (lt vy vx); eexists; split; eauto; lia.
    + destruct (lt vy vz); eexists; split; eauto; lia.
Qed.

(** Positions where the two scans stop. *)
Definition stops_left (pv : vt T) (a : list nat) (s : nat) : Prop := exists v, value_at a s = Ok v /\ lt v pv = false.
Definition stops_right (pv : vt T) (a : list nat) (t : nat) : Prop := exists v, value_at a t = Ok v /\ lt pv v = false.

Lemma any_scan_left_ok pv a s : inside a -> s < length a -> stops_left pv a s ->
  forall fuel l, l <= s -> s - l < fuel ->
  exists l', any_scan_left T samples nf fi fuel pv a l = Ok l' /\ l <= l' <= s /\ stops_left pv a l'.
Proof.
  intros G Hsl St. induction fuel; intros l Hl Hf; [lia|]. cbn [any_scan_left].
  destruct (any_value_lt a l G ltac:(lia)) as (x & v & _ & _ & V). rewrite V. cbn [bind].
  destruct (lt v pv) eqn:E.
  - destruct (Nat.eq_dec l s) as [->|Hne].
    + destruct St as (w & Ew & Lw). congruence.
    + destruct (IHfuel (S l)) as (l' & E' & B & St'); try lia. exists l'. splits; auto; lia.
  - exists l. splits; auto; try lia. exists v. auto.
Qed.

Lemma any_scan_right_ok pv a t : inside a -> t < length a -> stops_right pv a t ->
  forall r, t < r -> r <= length a ->
  exists r', any_scan_right T samples nf fi pv a r = Ok r' /\ t <= r' < r /\ stops_right pv a r'.
Proof.
  intros G Htl St. induction r; intros Hr Hl; [lia|]. cbn [any_scan_right].
  destruct (any_value_lt a r G ltac:(lia)) as (x & v & _ & _ & V). rewrite V. cbn [bind].
  destruct (lt pv v) eqn:E.
  - destruct (Nat.eq_dec r t) as [->|Hne].
    + destruct St as (w & Ew & Lw). congruence.
    + destruct IHr as (r' & E' & B & St'); try lia. exists r'. splits; auto; lia.
  - exists r. splits; auto; try lia. exists v. auto.
Qed.

(** The pivot equals itself: it stays where the loop says it is. *)
Lemma any_partition_reflexive pv xp : any_feature samples nf xp fi = Ok pv -> equal pv pv = true -> forall fuel a l1 r piv,
  inside a -> l1 <= piv -> piv < r -> r <= length a -> nth_error a piv = Some xp -> r - l1 < fuel ->
  exists a' p, any_partition_loop T samples nf fi fuel pv a l1 r piv = Ok (a', p) /\ Permutation a a' /\ p < length a'.
Proof.
  intros Hpv Heq. induction fuel; intros a l1 r piv G Hl Hr Hrl Hp Hf; [lia|].
  cbn [any_partition_loop].
  assert (Vp : value_at a piv = Ok pv) by (eapply any_value_of; eauto).
  assert (Irr : lt pv pv = false) by apply (sane_irreflexive T Hs).
  destruct (any_scan_left_ok pv a piv G ltac:(lia) ltac:(exists pv; auto) (S (length a)) l1 Hl ltac:(lia))
    as (l & -> & Bl & _). cbn [bind].
  destruct (any_scan_right_ok pv a piv G ltac:(lia) ltac:(exists pv; auto) r Hr Hrl) as (rr & -> & Br & _). cbn [bind].
  destruct (Nat.leb_spec rr l) as [Hcross|Hcross].
  { exists a, piv. splits; auto. lia. }
  destruct (any_value_lt a rr G ltac:(lia)) as (xr & vr & Nr & Fr & Vr). rewrite Vr. cbn [bind].
  destruct (any_value_lt a l G ltac:(lia)) as (xl & vl & Nl & Fl & Vl).
  destruct (equal pv vr) eqn:Er; cbn [negb].
  - rewrite Vl. cbn [bind].
    assert (Hstep : exists a',
       (if equal vl pv
        then if negb (l =? piv)
             then a' <- swap a l piv;; Ok (a', l) else Ok (a, piv)
        else a' <- swap a l piv;; Ok (a', l)) = Ok (a', l) /\ Permutation a a' /\ nth_error a' l = Some xp).
    { rewrite (swap_lt a l piv xl xp) by auto. cbn [bind].
      assert (HS : exists a', Ok (upd (upd a l xp) piv xl, l) = Ok (a', l) /\ Permutation a a' /\ nth_error a' l = Some xp).
      { exists (upd (upd a l xp) piv xl). splits; auto; [now apply swapped_perm|].
        rewrite (nth_error_swapped a l piv xl xp l) by auto.
        destruct (Nat.eqb_spec l piv); [subst; congruence|]. now rewrite Nat.eqb_refl. }
      destruct (equal vl pv); auto.
      destruct (Nat.eqb_spec l piv) as [->|Hne]; cbn [negb]; auto.
      exists a. splits; auto. }
    destruct Hstep as (a' & -> & P & N'). cbn [bind].
    destruct (IHfuel a' l rr l) as (a'' & p & E & P' & Hp'); auto; try lia.
    + eapply inside_perm; eauto.
    + rewrite <- (Permutation_length P). lia.
    + exists a'', p. splits; auto. etransitivity; eauto.
  - assert (Hrp : rr <> piv) by (intros ->; congruence).
    rewrite (swap_lt a l rr xl xr) by auto. cbn [bind].
    set (a' := upd (upd a l xr) rr xl).
    assert (P : Permutation a a') by now apply swapped_perm.
    assert (N : forall k, nth_error a' k = if k =? rr then Some xl else if k =? l then Some xr else nth_error a k).
    { intros k. unfold a'. now apply nth_error_swapped. }
    assert (G' : inside a') by (eapply inside_perm; eauto).
    assert (Len : length a' = length a) by (symmetry; now apply Permutation_length).
    clearbody a'.
    destruct (Nat.eqb_spec piv l) as [Epl|Npl].
    + destruct (IHfuel a' (S l) (S rr) rr) as (a'' & p & E & P' & Hp'); auto; try lia.
      * rewrite N, Nat.eqb_refl. congruence.
      * exists a'', p. splits; auto. etransitivity; eauto.
    + destruct (IHfuel a' (S l) rr piv) as (a'' & p & E & P' & Hp'); auto; try lia.
      * rewrite N. destruct (Nat.eqb_spec piv rr); [lia|]. destruct (Nat.eqb_spec piv l); [lia|]. auto.
      * exists a'', p. splits; auto. etransitivity; eauto.
Qed.

(** The pivot equals nothing: the samples exchanged last stop the scans. *)
Lemma any_partition_unequal pv : (forall y, equal pv y = false) -> forall fuel a l1 r piv s t,
  inside a -> r <= length a -> piv < length a ->
  l1 <= s -> s < length a -> stops_left pv a s ->
  t < r -> stops_right pv a t -> r - l1 < fuel ->
  exists a' p, any_partition_loop T samples nf fi fuel pv a l1 r piv = Ok (a', p) /\ Permutation a a' /\ p < length a'.
Proof.
  intros Hne. induction fuel; intros a l1 r piv s t G Hrl Hp Hls Hsl Ss Htr St Hf; [lia|].
  cbn [any_partition_loop].
  destruct (any_scan_left_ok pv a s G Hsl Ss (S (length a)) l1 Hls ltac:(lia)) as (l & -> & Bl & (vl & Vl & Ll)). cbn [bind].
  destruct (any_scan_right_ok pv a t G ltac:(lia) St r Htr Hrl) as (rr & -> & Br & (vr & Vr & Lr)). cbn [bind].
  destruct (Nat.leb_spec rr l) as [Hcross|Hcross].
  { exists a, piv. splits; auto. }
  rewrite Vr. cbn [bind]. rewrite Hne. cbn [negb].
  destruct (any_value_lt a rr G ltac:(lia)) as (xr & vr' & Nr & Fr & Vr').
  destruct (any_value_lt a l G ltac:(lia)) as (xl & vl' & Nl & Fl & Vl').
  assert (vl' = vl) by congruence. assert (vr' = vr) by congruence. subst vl' vr'.
  rewrite (swap_lt a l rr xl xr) by auto. cbn [bind].
  set (a' := upd (upd a l xr) rr xl).
  assert (P : Permutation a a') by now apply swapped_perm.
  assert (N : forall k, nth_error a' k = if k =? rr then Some xl else if k =? l then Some xr else nth_error a k).
  { intros k. unfold a'. now apply nth_error_swapped. }
  assert (G' : inside a') by (eapply inside_perm; eauto).
  assert (Len : length a' = length a) by (symmetry; now apply Permutation_length).
  clearbody a'.
  assert (S1 : stops_left pv a' rr).
  { exists vl. split; auto. apply (any_value_of _ _ xl); auto. now rewrite N, Nat.eqb_refl. }
  assert (S2 : stops_right pv a' l).
  { exists vr. split; auto. apply (any_value_of _ _ xr); auto. rewrite N, Nat.eqb_refl.
    destruct (Nat.eqb_spec l rr); [lia|auto]. }
  destruct (Nat.eqb_spec piv l) as [Epl|Npl].
  - destruct (IHfuel a' (S l) (S rr) rr rr l) as (a'' & p & E & P' & Hp'); auto; try lia.
    exists a'', p. splits; auto. etransitivity; eauto.
  - destruct (IHfuel a' (S l) rr piv rr l) as (a'' & p & E & P' & Hp'); auto; try lia.
    exists a'', p. splits; auto. etransitivity; eauto.
Qed.

Lemma any_partition_ok a piv : inside a -> piv < length a ->
  exists L x R, any_partition_around_pivot_index T samples nf fi a piv = Ok (L ++ x :: R, length L) /\
    Permutation a (L ++ x :: R).
Proof.
  intros G Hp.
  assert (H : exists a' p, any_partition_around_pivot_index T samples nf fi a piv = Ok (a', p) /\ Permutation a a' /\
                           p < length a').
  { unfold any_partition_around_pivot_index.
    destruct (Nat.eqb_spec (length a) 1) as [E1|N1].
    - exists a, piv. splits; auto.
    - destruct (any_value_lt a piv G Hp) as (xp & pv & Np & Fp & Vp). rewrite Vp. cbn [bind].
      destruct (sane_equal T Hs pv) as [Eq|Ne].
      + apply (any_partition_reflexive pv xp); auto; lia.
      + assert (Irr : lt pv pv = false) by apply (sane_irreflexive T Hs).
        apply (any_partition_unequal pv) with (s := piv) (t := piv); auto; try lia; exists pv; auto. }
  destruct H as (a' & p & E & P & Hl).
  destruct (nth_error a' p) as [x|] eqn:Ex; [|apply nth_error_None in Ex; lia].
  destruct (nth_error_split _ _ Ex) as (L & R & -> & <-). exists L, x, R. auto.
Qed.

Lemma any_quickselect_loop_ok U k : inside U -> forall fuel A M B,
  Permutation U (A ++ M ++ B) -> length A <= k < length A + length M -> length M < fuel ->
  exists L x R, any_quickselect_loop T samples nf fi fuel (A ++ M ++ B) (length A) (length A + length M - 1) k =
      Ok (L ++ x :: R, (k, S k)) /\ length L = k /\ Permutation U (L ++ x :: R).
Proof.
  intros G. induction fuel; intros A M B P Hk Hf; [lia|].
  cbn [any_quickselect_loop].
  destruct (Nat.eqb_spec (length A) (length A + length M - 1)) as [E1|N1].
  - destruct M as [|x [|]]; simpl in *; try lia.
    assert (k = length A) by lia. subst k.
    exists A, x, B. splits; auto.
    replace (length A + 1 - 1) with (length A) by lia. auto.
  - assert (HM : length M <> 0) by lia.
    replace (S (length A + length M - 1)) with (length A + length M) by lia.
    rewrite (slice_mid A M B) by lia. cbn [bind].
    assert (GM : inside M).
    { eapply inside_incl; [|exact G]. intros x Hx. eapply Permutation_in; [symmetry; exact P|].
      rewrite !in_app_iff; auto. }
    destruct (any_median3_ok M GM) as (m & -> & [Hm|Hm]); [lia|]. cbn [bind].
    destruct (any_partition_ok M m GM Hm) as (L & xp & R & -> & PM). cbn [bind].
    rewrite (splice_mid A M (L ++ xp :: R) B) by lia.
    assert (PU : Permutation U (A ++ (L ++ xp :: R) ++ B)).
    { rewrite P. apply Permutation_app_head. apply Permutation_app_tail. auto. }
    assert (LM : length M = length L + S (length R)).
    { rewrite (Permutation_length PM), app_length. reflexivity. }
    destruct (Nat.eqb_spec k (length A + length L)) as [Ek|Nk].
    + exists (A ++ L), xp, (R ++ B).
      replace (A ++ (L ++ xp :: R) ++ B) with ((A ++ L) ++ xp :: R ++ B) in *
        by (rewrite <- !app_assoc; reflexivity).
      rewrite app_length. subst k. auto.
    + destruct (Nat.ltb_spec k (length A + length L)) as [Hlt|Hge].
      * replace (A ++ (L ++ xp :: R) ++ B) with (A ++ L ++ (xp :: R ++ B)) in *
          by (rewrite <- !app_assoc; reflexivity).
        apply IHfuel; auto; lia.
      * replace (A ++ (L ++ xp :: R) ++ B) with ((A ++ L ++ [xp]) ++ R ++ B) in *
          by (rewrite <- !app_assoc; reflexivity).
        assert (LA : length (A ++ L ++ [xp]) = S (length A + length L))
          by (rewrite !app_length; simpl; lia).
        replace (S (length A + length L)) with (length (A ++ L ++ [xp])) by auto.
        replace (length A + length M - 1) with (length (A ++ L ++ [xp]) + length R - 1) by lia.
        apply IHfuel; auto; lia.
Qed.

Lemma any_quickselect_ok a k : inside a -> k < length a ->
  exists L x R, any_quickselect T samples nf fi a k = Ok (L ++ x :: R, (k, S k)) /\ length L = k /\
    Permutation a (L ++ x :: R).
Proof.
  intros G Hk. unfold any_quickselect.
  destruct (length a) as [|m] eqn:E; [lia|].
  destruct (any_quickselect_loop_ok a k G (S (length a)) [] a []) as (L & x & R & EQ & H); simpl; try lia.
  - now rewrite app_nil_r.
  - exists L, x, R. split; [|auto]. simpl in EQ. rewrite app_nil_r, E in EQ.
    replace (S m - 1) with m in EQ by lia. auto.
Qed.

Lemma any_quicksort_ok : forall fuel a piv,
  inside a -> length a < fuel -> (length a = 0 \/ piv < length a) ->
  exists a' p, any_quicksort_fuel T samples nf fi fuel a piv = Ok (a', p) /\ Permutation a a'.
Proof.
  induction fuel; intros a piv G Hf Hp; [lia|]. cbn [any_quicksort_fuel].
  destruct (Nat.ltb_spec (length a) 2) as [H2|H2].
  - exists a, piv. auto.
  - destruct (any_partition_ok a piv G ltac:(lia)) as (L & xp & R & -> & P). cbn [bind].
    rewrite slice_left. cbn [bind]. rewrite slice_right. cbn [bind].
    assert (Inc : forall x, In x (L ++ xp :: R) -> In x a)
      by (intros x Hx; eapply Permutation_in; [symmetry|]; eauto).
    assert (GL : inside L) by (intros i Hi; apply G; apply Inc; rewrite in_app_iff; auto).
    assert (GR : inside R) by (intros i Hi; apply G; apply Inc; rewrite in_app_iff; simpl; auto).
    assert (Len : length a = length L + S (length R)) by (rewrite (Permutation_length P), app_length; auto).
    destruct (any_median3_ok L GL) as (ml & -> & Hml). cbn [bind].
    destruct (any_median3_ok R GR) as (mr & -> & Hmr). cbn [bind].
    destruct (IHfuel L ml) as (L' & pl & -> & PL); auto; try lia. cbn [bind].
    destruct (IHfuel R mr) as (R' & pr & -> & PR); auto; try lia. cbn [bind].
    assert (Esp : splice (splice (L ++ xp :: R) 0 (length L) L') (S (length L)) (length (L ++ xp :: R)) R'
                  = L' ++ xp :: R').
    { replace (splice (L ++ xp :: R) 0 (length L) L') with (L' ++ xp :: R)
        by (symmetry; apply (splice_mid [] L L' (xp :: R)); auto).
      replace (L' ++ xp :: R) with ((L' ++ [xp]) ++ R ++ []) by (rewrite app_nil_r, <- app_assoc; reflexivity).
      rewrite (splice_mid (L' ++ [xp]) R R' []).
      - rewrite app_nil_r, <- app_assoc. reflexivity.
      - rewrite app_length; simpl. rewrite <- (Permutation_length PL). lia.
      - rewrite !app_length; simpl. rewrite <- (Permutation_length PL). lia. }
    rewrite Esp. exists (L' ++ xp :: R'), (length L). split; auto.
    rewrite P. apply Permutation_app; auto.
Qed.

Lemma any_shift_loop_ok c a : inside a -> forall n, n <= length a ->
  exists m, any_shift_loop T samples nf fi c a n = Ok m /\ m <= n.
Proof.
  intros G. induction n as [|n IH]; intros Hn. { exists 0. auto. }
  cbn [any_shift_loop].
  destruct (any_value_lt a n G ltac:(lia)) as (x & v & _ & _ & V). rewrite V. cbn [bind].
  destruct (equal v c).
  - destruct IH as (m & E & Hm); [lia|]. exists m. auto.
  - exists (S n). auto.
Qed.

Lemma any_quickselect_median_ok a : inside a -> a <> [] ->
  exists L x R, let m := length L in
    any_quickselect_median T samples nf fi a = Ok (L ++ x :: R, (m, (0, m), (m, S m), (S m, length a))) /\
    Permutation a (L ++ x :: R).
Proof.
  intros G Hne. cbn zeta.
  assert (Hlen : 0 < length a) by (destruct a; simpl; [congruence|lia]).
  unfold any_quickselect_median.
  set (k := (length a - 1) / 2).
  assert (Hk : k < length a) by (apply Nat.div_lt_upper_bound; lia).
  clearbody k.
  destruct (any_quickselect_ok a k G Hk) as (L & x & R & E & HL & P).
  rewrite E. cbn [bind]. unfold any_shift_median. cbn [fst snd].
  assert (Ga : inside (L ++ x :: R)) by (eapply inside_perm; eauto).
  destruct (Nat.eqb_spec 0 k) as [E0|N0].
  - destruct L as [|]; simpl in HL; [|lia].
    exists [], x, R. simpl. rewrite <- E0. auto.
  - assert (Ll : length (L ++ x :: R) = length a) by (symmetry; now apply Permutation_length).
    destruct (any_value_lt (L ++ x :: R) k Ga ltac:(lia)) as (z & v & _ & _ & V). rewrite V. cbn [bind].
    destruct (any_shift_loop_ok v (L ++ x :: R) Ga k ltac:(lia)) as (m & -> & Hm). cbn [bind].
    rewrite Nat.sub_0_r.
    destruct (nth_error (L ++ x :: R) m) as [x'|] eqn:Em; [|apply nth_error_None in Em; lia].
    destruct (nth_error_split _ _ Em) as (L1 & R1 & Esp & Hl1).
    exists L1, x', R1. rewrite <- Esp, Hl1. auto.
Qed.
End Sorting.

(** ** Construction *)
Lemma any_size_samples {V} arr : forall t : any_kd V, any_ranges arr t -> length (any_samples arr t) = any_size t.
Proof.
  induction t as [f l b|f l ax b tl IHl tr IHr]; simpl; intros H.
  - unfold sub. rewrite firstn_length, skipn_length. lia.
  - destruct H as (-> & Hf & Hl & Hr). rewrite !app_length, IHl, IHr by auto.
    unfold sub. rewrite firstn_length, skipn_length. lia.
Qed.

Section Building.
Context (T : values) (Hs : sane T) (samples : list (vt T)) (nf bucket max_depth : nat).
Context (policy : list bool -> list nat -> nat -> any_box (vt T) -> nat).
Context (Hpolicy : forall path range depth bound, policy path range depth bound < nf).
Notation build := (any_build T samples nf bucket max_depth policy).

Definition rows_inside (M : list nat) : Prop := forall i, In i M -> i * nf + nf <= length samples.

Lemma rows_inside_at M j : j < nf -> rows_inside M -> inside T samples nf j M.
Proof. intros Hj H i Hi. specialize (H i Hi). lia. Qed.

Definition any_subtree_ok (depth : nat) (arr M' : list nat) (t : any_kd (vt T)) : Prop :=
  any_ranges arr t /\ any_samples arr t = M' /\
  (depth <= max_depth -> any_limits bucket max_depth depth t) /\ any_axes nf t.

Lemma any_update_upper_ok (b : any_box (vt T)) i v : i < length b ->
  exists b', any_update_upper b i v = Ok b' /\ length b' = length b.
Proof.
  intros H. unfold any_update_upper. destruct (rd_lt b i H) as (s & ->). cbn [bind].
  rewrite wr_lt by auto. eexists. split; [reflexivity|]. now rewrite upd_length.
Qed.

Lemma any_update_lower_ok (b : any_box (vt T)) i v : i < length b ->
  exists b', any_update_lower b i v = Ok b' /\ length b' = length b.
Proof.
  intros H. unfold any_update_lower. destruct (rd_lt b i H) as (s & ->). cbn [bind].
  rewrite wr_lt by auto. eexists. split; [reflexivity|]. now rewrite upd_length.
Qed.

Lemma any_build_ok : forall fuel path A M B depth bound,
  length M < fuel -> rows_inside M -> length bound = nf ->
  exists M' t bound',
    build fuel path (A ++ M ++ B) (length A) (length A + length M) depth bound = Ok (A ++ M' ++ B, t, bound') /\
    Permutation M M' /\ length bound' = nf /\
    (forall A' B', length A' = length A -> any_subtree_ok depth (A' ++ M' ++ B') M' t).
Proof.
  induction fuel as [|fuel IH]; intros path A M B depth bound Hf Hok Hb; [lia|].
  cbn [any_build].
  replace (length A + length M - length A) with (length M) by lia.
  destruct ((depth <? max_depth) && (bucket <? length M)) eqn:Ec.
  2:{ exists M, (ALeaf (length A) (length A + length M) bound), bound.
      split; [reflexivity|]. split; [reflexivity|]. split; [auto|].
      intros A' B' HA. unfold any_subtree_ok. simpl. splits; auto.
      - lia.
      - rewrite !app_length. lia.
      - apply sub_mid; lia.
      - replace (length A + length M - length A) with (length M) by lia.
        apply andb_false_iff in Ec as [Ec|Ec].
        + apply Nat.ltb_ge in Ec. intros. split; auto. lia.
        + apply Nat.ltb_ge in Ec. intros. split; auto. }
  apply andb_true_iff in Ec as [Ed Ebk]. apply Nat.ltb_lt in Ed, Ebk.
  assert (Hne : M <> []) by (destruct M; simpl in *; [lia|discriminate]).
  rewrite (slice_mid A M B) by lia. cbn [bind].
  set (axis := policy path M depth bound).
  assert (Hax : axis < nf) by apply Hpolicy. clearbody axis.
  destruct (any_quickselect_median_ok T Hs samples nf axis M (rows_inside_at M axis Hax Hok) Hne) as (L & x & R & Eq & P).
  cbn zeta in Eq. rewrite Eq. cbn [bind fst snd].
  rewrite (splice_mid A M (L ++ x :: R) B) by lia.
  assert (LM : length M = length L + S (length R)).
  { rewrite (Permutation_length P), app_length. simpl. lia. }
  assert (Hokx : rows_inside (L ++ x :: R)).
  { intros i Hi. apply Hok. eapply Permutation_in; [symmetry|]; eauto. }
  assert (Ev : exists v, any_value_at T samples nf axis (A ++ (L ++ x :: R) ++ B) (length A + length L) = Ok v).
  { unfold any_value_at. rewrite (proj2 (rd_ok _ _ x)).
    - cbn [bind]. unfold any_feature. apply rd_lt.
      specialize (Hokx x ltac:(rewrite in_app_iff; simpl; auto)). lia.
    - rewrite <- app_assoc. rewrite app_assoc. rewrite nth_error_app2 by (rewrite app_length; lia).
      rewrite app_length, Nat.sub_diag. reflexivity. }
  destruct Ev as (cv & ->). cbn [bind].
  destruct (any_update_upper_ok bound axis cv ltac:(lia)) as (b1 & -> & L1). cbn [bind].
  rewrite Nat.add_0_r.
  replace (A ++ (L ++ x :: R) ++ B) with (A ++ L ++ (x :: R ++ B)) by (rewrite <- app_assoc; reflexivity).
  destruct (IH (path ++ [false]) A L (x :: R ++ B) (S depth) b1) as (L' & tl & b2 & El & Pl & L2 & Sl).
  { lia. }
  { intros z Hz. apply Hokx. rewrite in_app_iff. auto. }
  { lia. }
  rewrite El. cbn [bind].
  assert (LL : length L' = length L) by (symmetry; apply Permutation_length; auto).
  destruct (rd_lt bound axis ltac:(lia)) as (sg & ->). cbn [bind].
  destruct (any_update_upper_ok b2 axis (snd sg) ltac:(lia)) as (b3 & -> & L3). cbn [bind].
  destruct (any_update_lower_ok b3 axis cv ltac:(lia)) as (b4 & -> & L4). cbn [bind].
  replace (A ++ L' ++ x :: R ++ B) with ((A ++ L' ++ [x]) ++ R ++ B)
    by (rewrite <- !app_assoc; reflexivity).
  assert (LA : length (A ++ L' ++ [x]) = length A + S (length L)).
  { rewrite !app_length. simpl. lia. }
  destruct (IH (path ++ [true]) (A ++ L' ++ [x]) R B (S depth) b4) as (R' & tr & b5 & Er & Pr & L5 & Sr).
  { lia. }
  { intros z Hz. apply Hokx. rewrite in_app_iff. simpl. auto. }
  { lia. }
  rewrite LA in Er.
  replace (length A + S (length L) + length R) with (length A + length M) in Er by lia.
  rewrite Er. cbn [bind].
  assert (LR : length R' = length R) by (symmetry; apply Permutation_length; auto).
  destruct (any_update_lower_ok b5 axis (fst sg) ltac:(lia)) as (b6 & -> & L6). cbn [bind].
  exists (L' ++ x :: R'), (ANode (length A + length L) (length A + S (length L)) axis bound tl tr), b6.
  split; [rewrite <- !app_assoc; reflexivity|].
  assert (PM : Permutation M (L' ++ x :: R')).
  { rewrite P. apply Permutation_app; auto. }
  split; auto. split; [lia|].
  intros A' B' HA.
  assert (Harr1 : A' ++ (L' ++ x :: R') ++ B' = A' ++ L' ++ (x :: R' ++ B')) by (rewrite <- app_assoc; reflexivity).
  assert (Harr2 : A' ++ (L' ++ x :: R') ++ B' = (A' ++ L' ++ [x]) ++ R' ++ B')
    by (rewrite <- !app_assoc; reflexivity).
  assert (Harr3 : A' ++ (L' ++ x :: R') ++ B' = (A' ++ L') ++ [x] ++ (R' ++ B'))
    by (rewrite <- !app_assoc; reflexivity).
  specialize (Sl A' (x :: R' ++ B') HA). rewrite <- Harr1 in Sl.
  specialize (Sr (A' ++ L' ++ [x]) B'). rewrite LA in Sr.
  specialize (Sr ltac:(rewrite !app_length; simpl; lia)). rewrite <- Harr2 in Sr.
  assert (Hsx : sub (A' ++ (L' ++ x :: R') ++ B') (length A + length L) (length A + S (length L)) = [x]).
  { rewrite Harr3. apply sub_mid; rewrite app_length; simpl; lia. }
  set (arr := A' ++ (L' ++ x :: R') ++ B') in *.
  assert (Larr : length A + length M <= length arr).
  { unfold arr. rewrite !app_length. simpl. lia. }
  clearbody arr.
  destruct Sl as (l1 & l2 & l3 & l4). destruct Sr as (r1 & r2 & r3 & r4).
  unfold any_subtree_ok. cbn [any_ranges any_samples any_limits any_axes].
  pose proof (any_size_samples arr tl l1) as Zl. pose proof (any_size_samples arr tr r1) as Zr.
  rewrite l2 in Zl. rewrite r2 in Zr.
  splits; auto; try lia.
  - rewrite l2, r2, Hsx. reflexivity.
  - intros _. splits; [lia|cbn [any_size]; lia|apply l3; lia|apply r3; lia].
Qed.

Lemma any_tight_box_ok indices : rows_inside indices ->
  exists b, any_tight_box T samples nf indices = Ok b /\ length b = nf.
Proof.
  intros Hin. unfold any_tight_box.
  assert (Inner : forall i, i * nf + nf <= length samples -> forall b, length b = nf ->
    exists b', for_loop nf 0 (any_tight_step T samples nf i) b = Ok b' /\ length b' = nf).
  { intros i Hi.
    assert (G : forall n k b, k + n = nf -> length b = nf ->
       exists b', for_loop n k (any_tight_step T samples nf i) b = Ok b' /\ length b' = nf).
    { induction n; intros k b Hk Lb; cbn [for_loop]. { exists b. auto. }
      unfold any_tight_step at 1, any_feature.
      destruct (rd_lt samples (i * nf + k) ltac:(lia)) as (v & ->). cbn [bind].
      destruct (rd_lt b k ltac:(lia)) as (s & ->). cbn [bind].
      rewrite wr_lt by lia. cbn [bind]. apply IHn; [lia|]. now rewrite upd_length. }
    intros b Lb. apply G; auto. }
  assert (G : forall ys b, rows_inside ys -> length b = nf ->
    exists b', for_each ys (fun index => for_loop nf 0 (any_tight_step T samples nf index)) b = Ok b' /\ length b' = nf).
  { induction ys as [|y ys IH]; intros b Hy Lb; cbn [for_each]. { exists b. auto. }
    destruct (Inner y ltac:(apply Hy; simpl; auto) b Lb) as (b1 & -> & L1). cbn [bind].
    apply IH; auto. intros z Hz. apply Hy. simpl; auto. }
  apply G; auto. apply repeat_length.
Qed.

Lemma any_make_kdtree_ok indices : rows_inside indices ->
  exists tree, any_make_kdtree T samples nf bucket max_depth policy indices = Ok tree /\
    Permutation indices (akt_indices tree) /\
    any_samples (akt_indices tree) (akt_root tree) = akt_indices tree /\
    any_ranges (akt_indices tree) (akt_root tree) /\
    any_limits bucket max_depth 0 (akt_root tree) /\ any_axes nf (akt_root tree).
Proof.
  intros Hin. unfold any_make_kdtree.
  destruct (any_tight_box_ok indices Hin) as (b & -> & Lb). cbn [bind].
  destruct (any_build_ok (S (length indices)) [] [] indices [] 0 b) as (M' & t & b' & E & P & Lb' & S); auto.
  cbn [app length] in E. rewrite app_nil_r in E. change (0 + length indices) with (length indices) in E.
  rewrite E. cbn [bind]. rewrite app_nil_r.
  exists (mk_any_kdtree M' t). split; auto. cbn [akt_indices akt_root].
  destruct (S [] [] eq_refl) as (s1 & s2 & s3 & s4). simpl in s1, s2. rewrite app_nil_r in s1, s2.
  splits; auto. apply s3. lia.
Qed.
End Building.

(** ** Search *)
Section Walk.
Context (T : values) (m : any_metric (vt T)) (samples : list (vt T)) (nf : nat) (arr : list nat) (root : any_kd (vt T)).
Context (bound : any_bound (vt T) (am_dist m)) (query : list (vt T)).
Context {S : Type} (accept : nat -> S -> res (bool * S)).
Context (at_most : am_dist m -> am_dist m -> bool).

Notation state := (buffer (am_dist m) * S)%type.
Notation psearch := (any_partial_search T m samples nf arr bound query accept).
Notation descend := (any_search_to_leaf T m samples nf arr bound query accept).
Notation traverse := (any_traversal T m samples nf arr root bound query accept at_most).
Notation climb := (any_climb T m samples nf arr root bound query accept at_most).
Notation closest_child := (any_select_closest_child T samples nf arr query).
Notation sibling := (any_visit_sibling T m samples nf arr query at_most).

(** The recursion. *)
Fixpoint any_visit (t : any_kd (vt T)) (st : state) : res state :=
  match t with
  | ALeaf first last _ => psearch first last st
  | ANode first last axis _ l r =>
      st1 <- psearch first last st ;;
      right_child <- closest_child first axis ;;
      if right_child : bool then
        st2 <- any_visit r st1 ;;
        v <- sibling first axis true (fst st2) ;;
        if v : bool then any_visit l st2 else Ok st2
      else
        st2 <- any_visit l st1 ;;
        v <- sibling first axis false (fst st2) ;;
        if v : bool then any_visit r st2 else Ok st2
  end.

Fixpoint any_height (t : any_kd (vt T)) : nat :=
  match t with ALeaf _ _ _ => 0 | ANode _ _ _ _ l r => Datatypes.S (max (any_height l) (any_height r)) end.

Lemma any_height_nodes t : any_height t < any_nodes t.
Proof. induction t; simpl; lia. Qed.

Definition any_budget (t : any_kd (vt T)) : nat := any_nodes t * any_nodes t.

Lemma any_climb_done f p st : climb (Datatypes.S f) p p st = Ok st.
Proof. cbn [any_climb]. destruct (list_eq_dec bool_dec p p); congruence. Qed.

Lemma any_node_at_child p f l ax b tl tr side :
  any_node_at root p = Ok (ANode f l ax b tl tr) -> any_node_at root (side :: p) = Ok (if side then tr else tl).
Proof. intros H. simpl. rewrite H. reflexivity. Qed.

Lemma any_climb_step f start side p first last ax b tl tr st :
  (exists q, p = q ++ start) ->
  any_node_at root p = Ok (ANode first last ax b tl tr) ->
  climb (Datatypes.S f) start (side :: p) st =
  (v <- sibling first ax side (fst st) ;;
   st' <- (if v : bool then traverse f (negb side :: p) st else Ok st) ;;
   climb f start p st').
Proof.
  intros (q & ->) H. cbn [any_climb].
  destruct (list_eq_dec bool_dec (side :: q ++ start) start) as [E|_].
  - exfalso. apply (f_equal (@length bool)) in E. simpl in E. rewrite app_length in E. lia.
  - rewrite H. reflexivity.
Qed.

Lemma any_walk_is_visit : forall t p st st',
  any_node_at root p = Ok t -> any_visit t st = Ok st' ->
  (exists lp st1 n, descend t p st = Ok (lp, st1) /\ n <= any_height t /\
     forall start fuel, (exists q, p = q ++ start) -> any_budget t <= fuel ->
       climb (n + fuel) start lp st1 = climb fuel start p st') /\
  (forall fuel, any_budget t + any_height t + 2 <= fuel -> traverse fuel p st = Ok st').
Proof.
  assert (Fin : forall t p st st',
    any_node_at root p = Ok t ->
    (exists lp st1 n, descend t p st = Ok (lp, st1) /\ n <= any_height t /\
       forall start fuel, (exists q, p = q ++ start) -> any_budget t <= fuel ->
         climb (n + fuel) start lp st1 = climb fuel start p st') ->
    (forall fuel, any_budget t + any_height t + 2 <= fuel -> traverse fuel p st = Ok st')).
  { intros t p st st' Hn (lp & st1 & n & E & Hh & Hc) fuel Hf.
    destruct fuel as [|fuel]; [lia|]. cbn [any_traversal]. rewrite Hn. cbn [bind].
    rewrite E. cbn [bind]. replace fuel with (n + Datatypes.S (fuel - n - 1)) by lia.
    rewrite Hc; [apply any_climb_done| |lia]. exists []. reflexivity. }
  induction t as [first last b|first last ax b tl IHl tr IHr]; intros p st st' Hn Hv.
  - assert (H : exists lp st1 n, descend (ALeaf first last b) p st = Ok (lp, st1) /\ n <= any_height (ALeaf first last b) /\
       forall start fuel, (exists q, p = q ++ start) -> any_budget (ALeaf first last b) <= fuel ->
         climb (n + fuel) start lp st1 = climb fuel start p st').
    { exists p, st', 0. simpl in Hv |- *. rewrite Hv. splits; auto. }
    split; auto. eapply Fin; eauto.
  - assert (H : exists lp st1 n, descend (ANode first last ax b tl tr) p st = Ok (lp, st1) /\
       n <= any_height (ANode first last ax b tl tr) /\
       forall start fuel, (exists q, p = q ++ start) -> any_budget (ANode first last ax b tl tr) <= fuel ->
         climb (n + fuel) start lp st1 = climb fuel start p st'); [|split; auto; eapply Fin; eauto].
    cbn [any_visit] in Hv.
    apply bind_ok in Hv as (st0 & E0 & Hv). apply bind_ok in Hv as (rc & E1 & Hv).
    cbn [any_search_to_leaf]. rewrite E0. cbn [bind]. rewrite E1. cbn [bind].
    assert (B : any_budget (ANode first last ax b tl tr) >= any_budget tl + any_height tl + 2 /\
                any_budget (ANode first last ax b tl tr) >= any_budget tr + any_height tr + 2).
    { unfold any_budget. cbn [any_nodes]. pose proof (any_height_nodes tl). pose proof (any_height_nodes tr). nia. }
    destruct rc.
    + apply bind_ok in Hv as (st2 & E2 & Hv). apply bind_ok in Hv as (v & E3 & Hv).
      destruct (IHr (true :: p) st0 st2) as ((lp & st1 & n & Ed & Hh & Hc) & _); auto.
      { rewrite (any_node_at_child _ _ _ _ _ _ _ _ Hn). reflexivity. }
      exists lp, st1, (Datatypes.S n). splits; auto.
      * simpl. lia.
      * intros start fuel Hs Hf. replace (Datatypes.S n + fuel) with (n + Datatypes.S fuel) by lia.
        rewrite Hc; [| |lia].
        -- rewrite (any_climb_step _ _ _ _ _ _ _ _ _ _ _ Hs Hn), E3. cbn [bind].
           destruct v.
           ++ destruct (IHl (negb true :: p) st2 st') as (_ & Ht); auto.
              { rewrite (any_node_at_child _ _ _ _ _ _ _ _ Hn). reflexivity. }
              rewrite Ht by lia. reflexivity.
           ++ inversion Hv; subst. reflexivity.
        -- destruct Hs as (q & ->). exists (true :: q). reflexivity.
    + apply bind_ok in Hv as (st2 & E2 & Hv). apply bind_ok in Hv as (v & E3 & Hv).
      destruct (IHl (false :: p) st0 st2) as ((lp & st1 & n & Ed & Hh & Hc) & _); auto.
      { rewrite (any_node_at_child _ _ _ _ _ _ _ _ Hn). reflexivity. }
      exists lp, st1, (Datatypes.S n). splits; auto.
      * simpl. lia.
      * intros start fuel Hs Hf. replace (Datatypes.S n + fuel) with (n + Datatypes.S fuel) by lia.
        rewrite Hc; [| |lia].
        -- rewrite (any_climb_step _ _ _ _ _ _ _ _ _ _ _ Hs Hn), E3. cbn [bind].
           destruct v.
           ++ destruct (IHr (negb false :: p) st2 st') as (_ & Ht); auto.
              { rewrite (any_node_at_child _ _ _ _ _ _ _ _ Hn). reflexivity. }
              rewrite Ht by lia. reflexivity.
           ++ inversion Hv; subst. reflexivity.
        -- destruct Hs as (q & ->). exists (false :: q). reflexivity.
Qed.

Lemma any_search_is_visit st st' : any_visit root st = Ok st' ->
  traverse (any_nodes root * any_nodes root + any_nodes root + 2) [] st = Ok st'.
Proof.
  intros H. destruct (any_walk_is_visit root [] st st' eq_refl H) as (_ & Ht).
  apply Ht. unfold any_budget. pose proof (any_height_nodes root). lia.
Qed.
End Walk.

(** Buffers ordered by any relation at all. *)
Section LooseBuffer.
Context {D : Type} (lt : D -> D -> bool).

Definition expected_size (k n : nat) : nat := if k =? 0 then n else min k n.

Record loose_inv (b : buffer D) (offers : list (nat * D)) : Prop := {
  li_len : length (buf_indices b) = length (buf_distances b);
  li_perm : exists rest, Permutation (entries b ++ rest) offers;
  li_size : buf_size b = expected_size (buf_max_capacity b) (length offers);
  li_pos : buf_furthest_pos b < buf_size b \/ (buf_size b = 0 /\ buf_furthest_pos b = 0) }.

Lemma loose_make inf k : loose_inv (make_buffer inf k) [].
Proof.
  constructor; simpl; auto.
  - exists []. reflexivity.
  - unfold expected_size. simpl. destruct (k =? 0); auto. now rewrite Nat.min_0_r.
Qed.

Lemma max_element_from_pos : forall l bi best i, bi < i -> fst (max_element_from lt bi best i l) < i + length l.
Proof.
  induction l as [|x l IH]; intros bi best i H; cbn [max_element_from length]; [simpl; lia|].
  destruct (lt best x).
  - specialize (IH i x (S i)). lia.
  - specialize (IH bi best (S i)). lia.
Qed.

Lemma loose_update b offers i d : loose_inv b offers -> fits (buf_max_capacity b) ->
  (buf_max_capacity b = 0 -> fits (length offers)) ->
  exists b', update_static_buffers lt b i d = Ok b' /\ loose_inv b' (offers ++ [(i, d)]) /\
    buf_max_capacity b' = buf_max_capacity b.
Proof.
  intros [Ln (rest & P) Sz Ps] F1 F2. unfold update_static_buffers.
  assert (Push : forall ci cd fp fd, (fp < Datatypes.S (buf_size b)) -> (buf_max_capacity b = 0 \/ length offers < buf_max_capacity b) ->
    loose_inv (mk_buffer (buf_indices b ++ [i]) (buf_distances b ++ [d]) ci cd fp fd (buf_max_capacity b)) (offers ++ [(i, d)])).
  { intros ci cd fp fd Hfp Hroom. constructor; unfold buf_size; cbn [buf_indices buf_distances buf_max_capacity buf_furthest_pos].
    - rewrite !app_length. simpl. lia.
    - exists rest. unfold entries in *. cbn [buf_indices buf_distances]. rewrite combine_app' by auto. cbn [combine].
      rewrite <- app_assoc. rewrite <- P. rewrite <- app_assoc. apply Permutation_app_head. simpl. apply Permutation_cons_append.
    - rewrite !app_length. cbn [length]. unfold expected_size, buf_size in *.
      destruct (Nat.eqb_spec (buf_max_capacity b) 0); [lia|]. destruct Hroom; lia.
    - left. rewrite app_length. cbn [length]. unfold buf_size in *. lia. }
  assert (Hsz : buf_size b <= length offers).
  { rewrite Sz. unfold expected_size. destruct (buf_max_capacity b =? 0); lia. }
  destruct (Nat.eqb_spec (buf_size b) 0) as [E0|N0].
  { eexists. split; [reflexivity|]. split; [|reflexivity]. apply Push; [lia|].
    rewrite Sz in E0. unfold expected_size in E0. destruct (Nat.eqb_spec (buf_max_capacity b) 0); [auto|right]. lia. }
  destruct Ps as [Ps|Ps]; [|lia].
  set (cl := if lt d (buf_closest_distance b) then (i, d) else (buf_closest_index b, buf_closest_distance b)).
  destruct cl as (ci & cd).
  assert (Hr : (remaining_capacity b =? 0)%Z = negb (buf_max_capacity b =? 0) && (buf_size b =? buf_max_capacity b)).
  { apply remaining_full; auto.
    - split; auto. intros Hc. specialize (F2 Hc). unfold fits in *. lia.
    - intros Hc. rewrite Sz. unfold expected_size. destruct (Nat.eqb_spec (buf_max_capacity b) 0); lia. }
  rewrite Hr. clear Hr.
  destruct (negb (negb (buf_max_capacity b =? 0) && (buf_size b =? buf_max_capacity b))) eqn:Er.
  - assert (Hroom : buf_max_capacity b = 0 \/ length offers < buf_max_capacity b).
    { apply negb_true_iff, andb_false_iff in Er as [Er|Er].
      - left. apply negb_false_iff, Nat.eqb_eq in Er. auto.
      - apply Nat.eqb_neq in Er. rewrite Sz in Er. unfold expected_size in Er.
        destruct (Nat.eqb_spec (buf_max_capacity b) 0); [auto|right]. lia. }
    destruct (lt (buf_furthest_distance b) d); eexists; (split; [reflexivity|]); (split; [|reflexivity]); apply Push; auto;
      unfold buf_size in *; lia.
  - apply negb_false_iff, andb_true_iff in Er as [E1 E2].
    apply negb_true_iff, Nat.eqb_neq in E1. apply Nat.eqb_eq in E2.
    assert (Hfull : buf_max_capacity b <= length offers) by lia.
    destruct (lt d (buf_furthest_distance b)).
    + unfold buf_size in *. rewrite wr_lt by auto. cbn [bind]. rewrite wr_lt by lia. cbn [bind].
      destruct (upd (buf_distances b) (buf_furthest_pos b) d) as [|y ys] eqn:Eu.
      { apply (f_equal (@length D)) in Eu. rewrite upd_length in Eu. simpl in Eu. lia. }
      cbn [get_max_index_value_pair bind]. destruct (max_element_from lt 0 y 1 ys) as (fp & fd) eqn:Em.
      eexists. split; [reflexivity|]. split; [|reflexivity].
      assert (Hfp : fp < length (buf_distances b)).
      { pose proof (max_element_from_pos ys 0 y 1 ltac:(lia)) as H. rewrite Em in H. simpl in H.
        apply (f_equal (@length D)) in Eu. rewrite upd_length in Eu. simpl in Eu. lia. }
      rewrite <- Eu.
      constructor; unfold buf_size; cbn [buf_indices buf_distances buf_max_capacity buf_furthest_pos].
      * rewrite !upd_length. auto.
      * assert (exists old, nth_error (entries b) (buf_furthest_pos b) = Some old) as (old & Ho).
        { destruct (nth_error (entries b) (buf_furthest_pos b)) as [o|] eqn:E; [eauto|].
          apply nth_error_None in E. unfold entries in E. rewrite combine_length in E. lia. }
        exists (old :: rest). unfold entries in *. cbn [buf_indices buf_distances]. rewrite upd_combine.
        replace (old :: rest) with ([old] ++ rest) by reflexivity. rewrite app_assoc.
        rewrite (perm_swap_in _ _ _ (i, d) Ho). rewrite <- P, <- !app_assoc. apply Permutation_app_head.
        apply Permutation_app_comm.
      * rewrite upd_length, app_length. cbn [length]. unfold expected_size.
        destruct (Nat.eqb_spec (buf_max_capacity b) 0); lia.
      * left. rewrite upd_length. lia.
    + exists b. splits; auto. constructor; auto.
      * exists (rest ++ [(i, d)]). rewrite app_assoc, P. reflexivity.
      * rewrite app_length. cbn [length]. unfold expected_size. destruct (Nat.eqb_spec (buf_max_capacity b) 0); lia.
Qed.
End LooseBuffer.

Section SearchAny.
Context (T : values) (m : any_metric (vt T)) (samples : list (vt T)) (nf : nat) (arr : list nat).
Context (bound : any_bound (vt T) (am_dist m)) (query : list (vt T)) (P : nat -> bool).
Context {S : Type} (accept : nat -> S -> res (bool * S)) (Q : S -> Prop).
Context (Hacc : forall i s, In i arr -> Q s -> exists s', accept i s = Ok (P i, s') /\ Q s').
Context (at_most : am_dist m -> am_dist m -> bool).
Context (dist : list (vt T) -> am_dist m).
Context (Hauto : forall p, length p = nf -> am_auto m p query = Ok (dist p)).
Context (Hq : length query = nf) (Hcov : any_covers nf bound).
Context (Hdata : forall i, In i arr -> i * nf + nf <= length samples).

Notation offer := (any_offer T m samples nf bound query accept).
Notation psearch := (any_partial_search T m samples nf arr bound query accept).
Notation visit := (any_visit T m samples nf arr bound query accept at_most).
Notation row := (any_row samples nf).

Definition any_elig (i : nat) : bool := any_within (vt_lt T) (am_lt m) bound (row i) (dist (row i)) && P i.
Definition any_cands (ys : list nat) : list (nat * am_dist m) := map (fun i => (i, dist (row i))) (filter any_elig ys).

Lemma any_cands_app a b : any_cands (a ++ b) = any_cands a ++ any_cands b.
Proof. unfold any_cands. now rewrite filter_app, map_app. Qed.

Lemma any_row_length i : In i arr -> length (row i) = nf.
Proof. intros H. specialize (Hdata i H). unfold any_row, sub. rewrite firstn_length, skipn_length. lia. Qed.

Lemma any_sample_at i : In i arr -> sample_at samples nf i = Ok (row i).
Proof.
  intros Hi. unfold sample_at, slice. specialize (Hdata i Hi).
  assert ((i * nf <=? i * nf + nf) = true) as -> by (apply Nat.leb_le; lia).
  assert ((i * nf + nf <=? length samples) = true) as -> by (apply Nat.leb_le; lia).
  reflexivity.
Qed.

Lemma any_in_box_ok segs : forall p i pre, length pre = i -> length p <= length segs ->
  any_in_box_from T (pre ++ segs) i p =
  Ok (forallb (fun vs => negb (vt_lt T (fst vs) (fst (snd vs)) || vt_lt T (snd (snd vs)) (fst vs))) (combine p segs)).
Proof.
  induction segs as [|s segs IH]; intros [|v p] i pre Hi Hl; simpl in Hl; try reflexivity; [lia|].
  cbn [any_in_box_from combine forallb fst snd].
  rewrite (proj2 (rd_ok _ _ s)) by (rewrite nth_error_app2 by lia; subst i; now rewrite Nat.sub_diag).
  cbn [bind]. destruct (vt_lt T v (fst s) || vt_lt T (snd s) v); cbn [negb andb]; auto.
  replace (pre ++ s :: segs) with ((pre ++ [s]) ++ segs) by (rewrite <- app_assoc; reflexivity).
  apply IH; [rewrite app_length; simpl; lia|lia].
Qed.

Lemma any_offer_ok i b s : In i arr -> Q s ->
  exists s', Q s' /\
    offer i (b, s) = if any_elig i then b' <- update_static_buffers (am_lt m) b i (dist (row i)) ;; Ok (b', s')
                     else Ok (b, s').
Proof.
  intros Hi Hs. unfold any_offer. rewrite any_sample_at by auto. cbn [bind].
  unfold any_distance_if_within_bounds, any_elig, any_within.
  destruct (Hacc i s Hi Hs) as (s' & Ea & Hs').
  pose proof (any_row_length i Hi) as Lr.
  destruct bound as [|r|segs]; cbn [bind].
  - exists s'. split; auto. rewrite Hauto by auto. cbn [bind]. rewrite Ea. cbn [bind andb]. reflexivity.
  - rewrite Hauto by auto. cbn [bind]. destruct (am_lt m (dist (row i)) r); cbn [bind andb].
    + exists s'. split; auto. rewrite Ea. cbn [bind]. reflexivity.
    + exists s. auto.
  - simpl in Hcov. rewrite (any_in_box_ok segs (row i) 0 [] eq_refl ltac:(lia) : any_in_box_from T segs 0 (row i) = _). cbn [bind].
    destruct (forallb _ (combine (row i) segs)); cbn [bind andb].
    + exists s'. split; auto. rewrite Hauto by auto. cbn [bind]. rewrite Ea. cbn [bind]. reflexivity.
    + exists s. auto.
Qed.

Lemma any_offers_ok : forall ys b s pre,
  (forall y, In y ys -> In y arr) -> Q s -> loose_inv b pre ->
  fits (buf_max_capacity b) -> (buf_max_capacity b = 0 -> fits (length pre + length ys)) ->
  exists b' s', for_each ys offer (b, s) = Ok (b', s') /\ Q s' /\ loose_inv b' (pre ++ any_cands ys) /\
    buf_max_capacity b' = buf_max_capacity b.
Proof.
  induction ys as [|y ys IH]; intros b s pre Hin Hs I F1 F2.
  - exists b, s. simpl. rewrite app_nil_r. splits; auto.
  - cbn [for_each]. destruct (any_offer_ok y b s) as (s1 & Hs1 & E); [apply Hin; simpl; auto|auto|].
    rewrite E. unfold any_cands. cbn [filter].
    destruct (any_elig y) eqn:Ey.
    + destruct (loose_update (am_lt m) b pre y (dist (row y)) I F1) as (b1 & Eu & I1 & C1).
      { intros Hc. specialize (F2 Hc). unfold fits in *. lia. }
      rewrite Eu. cbn [bind].
      destruct (IH b1 s1 (pre ++ [(y, dist (row y))])) as (b2 & s2 & E2 & Hs2 & I2 & C2); auto.
      { intros z Hz. apply Hin. simpl; auto. }
      { now rewrite C1. }
      { rewrite C1. intros Hc. specialize (F2 Hc). rewrite app_length. simpl in *. unfold fits in *. lia. }
      exists b2, s2. splits; auto; [|congruence].
      rewrite <- app_assoc in I2. exact I2.
    + cbn [bind]. apply IH; auto.
      { intros z Hz. apply Hin. simpl; auto. }
      { intros Hc. specialize (F2 Hc). simpl in F2. unfold fits in *. lia. }
Qed.

Lemma any_psearch_ok first last b s pre :
  first <= last <= length arr -> Q s -> loose_inv b pre ->
  fits (buf_max_capacity b) -> (buf_max_capacity b = 0 -> fits (length pre + (last - first))) ->
  exists b' s', psearch first last (b, s) = Ok (b', s') /\ Q s' /\
    loose_inv b' (pre ++ any_cands (sub arr first last)) /\ buf_max_capacity b' = buf_max_capacity b.
Proof.
  intros Hr Hs I F1 F2. unfold any_partial_search, slice.
  assert ((first <=? last) = true) as -> by (apply Nat.leb_le; lia).
  assert ((last <=? length arr) = true) as -> by (apply Nat.leb_le; lia).
  cbn [andb bind]. fold (sub arr first last). apply any_offers_ok; auto.
  - intros y Hy. unfold sub in Hy.
    assert (H : In y (skipn first arr)).
    { rewrite <- (firstn_skipn (last - first) (skipn first arr)). apply in_or_app; auto. }
    rewrite <- (firstn_skipn first arr). apply in_or_app; auto.
  - intros Hc. specialize (F2 Hc). unfold sub. rewrite firstn_length, skipn_length. unfold fits in *. lia.
Qed.

Lemma any_split_ok f ax : f < length arr -> ax < nf -> exists v, any_split_value T samples nf arr f ax = Ok v.
Proof.
  intros Hf Ha. unfold any_split_value. destruct (nth_error arr f) as [x|] eqn:E; [|apply nth_error_None in E; lia].
  rewrite (proj2 (rd_ok _ _ _) E). cbn [bind]. unfold any_feature. apply rd_lt.
  specialize (Hdata x ltac:(eapply nth_error_In; eauto)). lia.
Qed.

Lemma any_cands_length ys : length (any_cands ys) <= length ys.
Proof.
  unfold any_cands. rewrite map_length. induction ys as [|y ys IH]; simpl; auto. destruct (any_elig y); simpl; lia.
Qed.

(** Samples are skipped only when the buffer is full, or has no limit. *)
Definition skip_ok (b : buffer (am_dist m)) (skip : list (nat * am_dist m)) : Prop :=
  skip = [] \/ buf_max_capacity b = 0 \/ buf_size b = buf_max_capacity b.

Lemma any_visit_ok : forall t b s pre,
  any_ranges arr t -> any_axes nf t -> Q s -> loose_inv b pre ->
  fits (buf_max_capacity b) -> (buf_max_capacity b = 0 -> fits (length pre + length (any_samples arr t))) ->
  exists b' s' off skip, visit t (b, s) = Ok (b', s') /\ Q s' /\ loose_inv b' (pre ++ off) /\
    buf_max_capacity b' = buf_max_capacity b /\ Permutation (off ++ skip) (any_cands (any_samples arr t)) /\ skip_ok b' skip.
Proof.
  induction t as [f l bx|f l ax bx tl IHl tr IHr]; intros b s pre Hr Ha Hs I F1 F2.
  - simpl in Hr. cbn [any_visit].
    destruct (any_psearch_ok f l b s pre) as (b' & s' & E & Hs' & I' & C); auto.
    { intros Hc. specialize (F2 Hc). simpl in F2. unfold sub in F2. rewrite firstn_length, skipn_length in F2. unfold fits in *. lia. }
    exists b', s', (any_cands (sub arr f l)), []. splits; auto; [now rewrite app_nil_r|left; auto].
  - simpl in Hr, Ha. destruct Hr as (-> & Hf & Rl & Rr). destruct Ha as (Ha & Al & Ar).
    cbn [any_visit]. cbn [any_samples] in F2. rewrite !app_length in F2.
    assert (L1 : length (sub arr f (Datatypes.S f)) = 1).
    { unfold sub. rewrite firstn_length, skipn_length. lia. }
    destruct (any_psearch_ok f (Datatypes.S f) b s pre) as (b1 & s1 & E1 & Hs1 & I1 & C1); auto; try lia.
    { intros Hc. specialize (F2 Hc). unfold fits in *. lia. }
    rewrite E1. cbn [bind].
    destruct (any_split_ok f ax Hf Ha) as (pv & Ep). destruct (rd_lt query ax ltac:(lia)) as (qv & Eqv).
    unfold any_select_closest_child. rewrite Ep. cbn [bind]. rewrite Eqv. cbn [bind].
    set (cs := any_cands (sub arr f (Datatypes.S f))) in *.
    assert (Lc : length cs <= 1) by (rewrite <- L1; apply any_cands_length).
    assert (Full : forall (b2 : buffer (am_dist m)) pre2, loose_inv b2 pre2 -> buf_max_capacity b2 = buf_max_capacity b ->
       (remaining_capacity b2 =? 0)%Z = true -> buf_max_capacity b2 = 0 \/ buf_size b2 = buf_max_capacity b2).
    { intros b2 pre2 I2 C2 Z2. destruct (Nat.eq_dec (buf_max_capacity b2) 0) as [|Hn]; auto. right.
      pose proof (li_size _ _ I2) as Hz. unfold expected_size in Hz.
      destruct (Nat.eqb_spec (buf_max_capacity b2) 0); [lia|].
      rewrite remaining_zero in Z2; [now apply Nat.eqb_eq|now rewrite C2|lia]. }
    destruct (negb (vt_lt T qv pv)) eqn:Eside.
    + destruct (IHr b1 s1 (pre ++ cs)) as (b2 & s2 & off2 & skip2 & E2 & Hs2 & I2 & C2 & P2 & K2); auto.
      { now rewrite C1. }
      { rewrite C1, app_length. intros Hc. specialize (F2 Hc). unfold fits in *. lia. }
      rewrite E2. cbn [bind fst]. unfold any_visit_sibling. rewrite Ep. cbn [bind]. rewrite Eqv. cbn [bind].
      assert (L2 : length off2 <= length (any_samples arr tr)).
      { apply Permutation_length in P2. rewrite app_length in P2. pose proof (any_cands_length (any_samples arr tr)). lia. }
      destruct (negb (remaining_capacity b2 =? 0)%Z || am_lt m (am_gap m pv qv) (buf_furthest_distance b2)) eqn:Ev.
      * destruct (IHl b2 s2 ((pre ++ cs) ++ off2)) as (b3 & s3 & off3 & skip3 & E3 & Hs3 & I3 & C3 & P3 & K3); auto.
        { now rewrite C2, C1. }
        { rewrite C2, C1, !app_length. intros Hc. specialize (F2 Hc). unfold fits in *. lia. }
        rewrite E3. exists b3, s3, (cs ++ off2 ++ off3), (skip2 ++ skip3). splits; auto.
        -- rewrite <- !app_assoc in I3. exact I3.
        -- congruence.
        -- cbn [any_samples]. rewrite !any_cands_app. fold cs. rewrite <- P2, <- P3.
           rewrite <- !app_assoc. rewrite (app_assoc off3 skip3). 
           rewrite (Permutation_app_comm (off3 ++ skip3)). rewrite <- !app_assoc. apply Permutation_app_head.
           apply Permutation_app_head. rewrite !app_assoc. apply Permutation_app_tail. apply Permutation_app_comm.
        -- unfold skip_ok in *. destruct K3 as [->|K3]; [|auto]. rewrite app_nil_r.
           destruct K2 as [->|[K2|K2]]; [auto|right; left; congruence|].
           right. pose proof (li_size _ _ I3) as Z3. pose proof (li_size _ _ I2) as Z2.
           unfold expected_size in *. rewrite C3 in *. rewrite app_length in Z3.
           destruct (Nat.eqb_spec (buf_max_capacity b2) 0); [auto|right]. lia.
      * apply orb_false_iff in Ev as [Ev _]. apply negb_false_iff in Ev.
        exists b2, s2, (cs ++ off2), (skip2 ++ any_cands (any_samples arr tl)). splits; auto.
        -- rewrite <- !app_assoc in I2. exact I2.
        -- congruence.
        -- cbn [any_samples]. rewrite !any_cands_app. fold cs. rewrite <- P2.
           rewrite <- !app_assoc. rewrite (Permutation_app_comm (any_cands (any_samples arr tl))). rewrite <- !app_assoc. reflexivity.
        -- right. eapply Full; eauto. congruence.
    + destruct (IHl b1 s1 (pre ++ cs)) as (b2 & s2 & off2 & skip2 & E2 & Hs2 & I2 & C2 & P2 & K2); auto.
      { now rewrite C1. }
      { rewrite C1, app_length. intros Hc. specialize (F2 Hc). unfold fits in *. lia. }
      rewrite E2. cbn [bind fst]. unfold any_visit_sibling. rewrite Ep. cbn [bind]. rewrite Eqv. cbn [bind].
      assert (L2 : length off2 <= length (any_samples arr tl)).
      { apply Permutation_length in P2. rewrite app_length in P2. pose proof (any_cands_length (any_samples arr tl)). lia. }
      destruct (negb (remaining_capacity b2 =? 0)%Z || at_most (am_gap m pv qv) (buf_furthest_distance b2)) eqn:Ev.
      * destruct (IHr b2 s2 ((pre ++ cs) ++ off2)) as (b3 & s3 & off3 & skip3 & E3 & Hs3 & I3 & C3 & P3 & K3); auto.
        { now rewrite C2, C1. }
        { rewrite C2, C1, !app_length. intros Hc. specialize (F2 Hc). unfold fits in *. lia. }
        rewrite E3. exists b3, s3, (cs ++ off2 ++ off3), (skip2 ++ skip3). splits; auto.
        -- rewrite <- !app_assoc in I3. exact I3.
        -- congruence.
        -- cbn [any_samples]. rewrite !any_cands_app. fold cs. rewrite <- P2, <- P3.
           rewrite <- !app_assoc. rewrite (Permutation_app_comm cs). rewrite <- !app_assoc. 
           transitivity ((off2 ++ off3 ++ skip2 ++ skip3) ++ cs); [rewrite <- !app_assoc; reflexivity|].
           transitivity ((off2 ++ skip2 ++ off3 ++ skip3) ++ cs).
           { apply Permutation_app_tail. apply Permutation_app_head. rewrite !app_assoc. apply Permutation_app_tail. apply Permutation_app_comm. }
           rewrite <- !app_assoc. apply Permutation_app_head. apply Permutation_app_head.
           rewrite (app_assoc off3 skip3). apply Permutation_app_comm.
        -- unfold skip_ok in *. destruct K3 as [->|K3]; [|auto]. rewrite app_nil_r.
           destruct K2 as [->|[K2|K2]]; [auto|right; left; congruence|].
           right. pose proof (li_size _ _ I3) as Z3. pose proof (li_size _ _ I2) as Z2.
           unfold expected_size in *. rewrite C3 in *. rewrite app_length in Z3.
           destruct (Nat.eqb_spec (buf_max_capacity b2) 0); [auto|right]. lia.
      * apply orb_false_iff in Ev as [Ev _]. apply negb_false_iff in Ev.
        exists b2, s2, (cs ++ off2), (skip2 ++ any_cands (any_samples arr tr)). splits; auto.
        -- rewrite <- !app_assoc in I2. exact I2.
        -- congruence.
        -- cbn [any_samples]. rewrite !any_cands_app. fold cs. rewrite <- P2.
           rewrite <- !app_assoc. rewrite (Permutation_app_comm cs). rewrite <- !app_assoc. apply Permutation_app_head.
           apply Permutation_app_head. apply Permutation_app_comm.
        -- right. eapply Full; eauto. congruence.
Qed.
End SearchAny.

(** ** The values are sane *)
Lemma double_lt_irreflexive x : double_lt x x = false.
Proof.
  destruct x as [s|s| |s m e]; unfold double_lt, SFltb; simpl; auto; destruct s; auto; rewrite Z.compare_refl, Pos.compare_cont_refl; reflexivity.
Qed.

Lemma double_sub_self s m e : double_sub (S754_finite s m e) (S754_finite s m e) = S754_zero false.
Proof.
  unfold double_sub, SFsub. rewrite Z.sub_diag. reflexivity.
Qed.

Lemma double_sane : sane double_values.
Proof.
  constructor; [exact double_lt_irreflexive|].
  intros x. change (vt_equal double_values) with double_equal. unfold double_equal.
  destruct x as [s|s| |s m e].
  - left. now destruct s.
  - right. intros y. destruct y as [t|t| |t n f]; destruct s; try reflexivity; destruct t; reflexivity.
  - right. intros y. destruct y; reflexivity.
  - left. rewrite double_sub_self. reflexivity.
Qed.

(** Integers, and reals compared with a tolerance, as in SortingModel.v. *)
Definition int_values (tol lowest max : Z) : values := mk_values Z Z.ltb (equality tol) lowest max.

Lemma int_sane tol lowest max : (0 <= tol)%Z -> sane (int_values tol lowest max).
Proof.
  intros H. constructor; simpl; intros x; [apply Z.ltb_irrefl|].
  left. unfold equality. rewrite Z.sub_diag. apply Z.leb_le. exact H.
Qed.

(** On integers the functions are those of SortingModel.v. *)
Lemma int_quickselect tol lowest max samples nf fi a k :
  any_quickselect (int_values tol lowest max) samples nf fi a k = quickselect tol samples nf fi a k.
Proof. reflexivity. Qed.
Lemma int_quicksort tol lowest max samples nf fi a k :
  any_quicksort (int_values tol lowest max) samples nf fi a k = quicksort tol samples nf fi a k.
Proof. reflexivity. Qed.
Lemma int_quickselect_median tol lowest max samples nf fi a :
  any_quickselect_median (int_values tol lowest max) samples nf fi a = quickselect_median tol samples nf fi a.
Proof. reflexivity. Qed.

Lemma double_distance_total : forall l r acc, length l = length r -> exists d, double_squared_distance acc l r = Ok d.
Proof.
  induction l as [|x l IH]; intros [|y r] acc H; simpl in *; try discriminate; eauto.
Qed.

Lemma double_auto_total p q : length p = length q -> exists d, am_auto double_metric p q = Ok d.
Proof.
  intros H. cbn [am_auto double_metric]. destruct (double_distance_total p q (S754_zero false) H) as (d & ->). simpl. eauto.
Qed.
