From Coq Require Import List Arith ZArith Lia Permutation Sorted Bool.
From Verif Require Import Base SortingModel SortingSpec.
Import ListNotations.

Section Proofs.
Context (tol : Z) (samples : list Z) (nf fi : nat).
Hypothesis Htol : (0 <= tol)%Z.

Notation val := (val samples nf fi).
Notation good := (in_dataset samples nf fi).
Notation value_at := (value_at samples nf fi).
Notation partition_loop := (partition_loop tol samples nf fi).
Notation partition := (partition_around_pivot_index tol samples nf fi).
Notation median3 := (median_index_of_three samples nf fi).

Lemma feature_val i : i * nf + fi < length samples -> feature samples nf i fi = Ok (val i).
Proof.
  intros H. unfold feature, SortingSpec.val. apply rd_ok. now apply nth_error_nth'.
Qed.

Lemma value_at_ok a p x : good a -> nth_error a p = Some x -> value_at a p = Ok (val x).
Proof.
  intros G H. unfold SortingModel.value_at.
  rewrite (proj2 (rd_ok a p x) H). simpl. apply feature_val. apply G. eapply nth_error_In; eauto.
Qed.

Lemma value_at_lt a p : good a -> p < length a -> exists x, nth_error a p = Some x /\ value_at a p = Ok (val x).
Proof.
  intros G H. destruct (nth_error a p) as [x|] eqn:E.
  - exists x. split; auto. now apply value_at_ok.
  - apply nth_error_None in E. lia.
Qed.

Lemma good_perm a b : Permutation a b -> good a -> good b.
Proof. intros P G i Hi. apply G. eapply Permutation_in; [symmetry|]; eauto. Qed.

Lemma good_incl a b : incl b a -> good a -> good b.
Proof. intros P G i Hi. auto. Qed.

(** ** median of three *)
Lemma median3_ok a : good a ->
  exists m, median3 a = Ok m /\ (0 < length a -> m < length a) /\ (length a < 3 -> m = 0) /\
    (3 <= length a -> exists x y z q,
       nth_error a 0 = Some x /\ nth_error a ((length a - 1) / 2) = Some y /\
       nth_error a (length a - 1) = Some z /\ nth_error a m = Some q /\
       (m = 0 \/ m = (length a - 1) / 2 \/ m = length a - 1) /\
       ((m = 0 /\ ((val y <= val x <= val z)%Z \/ (val z <= val x <= val y)%Z)) \/
        (m = (length a - 1) / 2 /\ ((val x <= val y <= val z)%Z \/ (val z <= val y <= val x)%Z)) \/
        (m = length a - 1 /\ ((val x <= val z <= val y)%Z \/ (val y <= val z <= val x)%Z)))).
Proof.
  intros G. unfold median_index_of_three.
  destruct (Nat.ltb_spec (length a) 3) as [H|H].
  { exists 0. split; auto. split; auto. split; auto. lia. }
  assert (Hm : (length a - 1) / 2 < length a) by (apply Nat.div_lt_upper_bound; lia).
  destruct (value_at_lt a 0 G ltac:(lia)) as (x & Nx & Vx).
  destruct (value_at_lt a ((length a - 1) / 2) G Hm) as (y & Ny & Vy).
  destruct (value_at_lt a (length a - 1) G ltac:(lia)) as (z & Nz & Vz).
  set (mi := (length a - 1) / 2) in *. set (ri := length a - 1) in *.
  rewrite Vy, Vx. cbn [bind].
  destruct (Z.ltb_spec (val y) (val x)); rewrite ?Vy, ?Vx, Vz; cbn [bind].
  - destruct (Z.ltb_spec (val z) (val y)); rewrite ?Vy, ?Vx, ?Vz; cbn [bind].
    + destruct (Z.ltb_spec (val x) (val y)).
      * exists 0. split; auto. split; [lia|]. split; [lia|]. intros _. exists x, y, z, x. intuition lia.
      * exists mi. split; auto. split; [lia|]. split; [lia|]. intros _. exists x, y, z, y. intuition lia.
    + destruct (Z.ltb_spec (val x) (val z)).
      * exists 0. split; auto. split; [lia|]. split; [lia|]. intros _. exists x, y, z, x. intuition lia.
      * exists ri. split; auto. split; [lia|]. split; [lia|]. intros _. exists x, y, z, z. intuition lia.
  - destruct (Z.ltb_spec (val z) (val x)); rewrite ?Vy, ?Vx, ?Vz; cbn [bind].
    + destruct (Z.ltb_spec (val y) (val x)).
      * exists mi. split; auto. split; [lia|]. split; [lia|]. intros _. exists x, y, z, y. intuition lia.
      * exists 0. split; auto. split; [lia|]. split; [lia|]. intros _. exists x, y, z, x. intuition lia.
    + destruct (Z.ltb_spec (val y) (val z)).
      * exists mi. split; auto. split; [lia|]. split; [lia|]. intros _. exists x, y, z, y. intuition lia.
      * exists ri. split; auto. split; [lia|]. split; [lia|]. intros _. exists x, y, z, z. intuition lia.
Qed.

Lemma median3_lt a : good a -> 0 < length a -> exists m, median3 a = Ok m /\ m < length a.
Proof. intros G H. destruct (median3_ok a G) as (m & E & Hm & _). eauto. Qed.

(** ** partition *)
Lemma scan_left_ok pv a piv xp : good a -> nth_error a piv = Some xp -> val xp = pv ->
  forall fuel l, l <= piv -> piv - l < fuel ->
  exists l' x, scan_left samples nf fi fuel pv a l = Ok l' /\ l <= l' <= piv /\
    nth_error a l' = Some x /\ (pv <= val x)%Z /\
    (forall i y, l <= i < l' -> nth_error a i = Some y -> (val y < pv)%Z).
Proof.
  intros G Hp Hv. induction fuel; intros l Hl Hf; [lia|]. simpl.
  assert (Hpl : piv < length a) by (eapply nth_error_lt; eauto).
  destruct (value_at_lt a l G ltac:(lia)) as (x & Nx & Vx). rewrite Vx; simpl.
  destruct (Z.ltb_spec (val x) pv).
  - assert (l <> piv) by (intros ->; assert (x = xp) by congruence; subst; lia).
    destruct (IHfuel (S l)) as (l' & x' & E & B & N & V & A); try lia.
    exists l', x'. repeat split; auto; try lia.
    intros i y Hi Hy. destruct (Nat.eq_dec i l) as [->|]; [congruence|]. apply (A i); auto. lia.
  - exists l, x. repeat split; auto; lia.
Qed.

Lemma scan_right_ok pv a piv xp : good a -> nth_error a piv = Some xp -> val xp = pv ->
  forall r, piv < r -> r <= length a ->
  exists r' x, scan_right samples nf fi pv a r = Ok r' /\ piv <= r' < r /\
    nth_error a r' = Some x /\ (val x <= pv)%Z /\
    (forall i y, r' < i < r -> nth_error a i = Some y -> (pv < val y)%Z).
Proof.
  intros G Hp Hv. induction r; intros Hr Hl; [lia|]. simpl.
  destruct (value_at_lt a r G ltac:(lia)) as (x & Nx & Vx). rewrite Vx; simpl.
  destruct (Z.ltb_spec pv (val x)).
  - assert (r <> piv) by (intros ->; assert (x = xp) by congruence; subst; lia).
    destruct IHr as (r' & x' & E & B & N & V & A); try lia.
    exists r', x'. repeat split; auto; try lia.
    intros i y Hi Hy. destruct (Nat.eq_dec i r) as [->|]; [congruence|]. apply (A i); auto. lia.
  - exists r, x. repeat split; auto; lia.
Qed.

Lemma partition_loop_ok pv xp : val xp = pv -> forall fuel a l1 r piv,
  good a -> l1 <= piv -> piv < r -> r <= length a -> nth_error a piv = Some xp ->
  (forall i y, i < l1 -> nth_error a i = Some y -> (val y < pv)%Z) ->
  (forall i y, r <= i -> nth_error a i = Some y -> (pv - tol <= val y)%Z) ->
  r - l1 < fuel ->
  exists a' p, partition_loop fuel pv a l1 r piv = Ok (a', p) /\ Permutation a a' /\
    nth_error a' p = Some xp /\
    (forall i y, i < p -> nth_error a' i = Some y -> (val y < pv)%Z) /\
    (forall i y, p < i -> nth_error a' i = Some y -> (pv - tol <= val y)%Z).
Proof.
  intros Hpv. induction fuel; intros a l1 r piv G Hl Hr Hrl Hp HL HR Hf; [lia|].
  cbn [SortingModel.partition_loop].
  assert (Hpl : piv < length a) by (eapply nth_error_lt; eauto).
  destruct (scan_left_ok pv a piv xp G Hp Hpv (S (length a)) l1 Hl ltac:(lia))
    as (l & xl & -> & Bl & Nl & Vl & Al). cbn [bind].
  destruct (scan_right_ok pv a piv xp G Hp Hpv r Hr Hrl) as (rr & xr & -> & Br & Nr & Vr & Ar).
  cbn [bind].
  destruct (Nat.leb_spec rr l) as [Hcross|Hcross].
  { assert (l = piv /\ rr = piv) as [-> ->] by lia.
    exists a, piv. split; auto. split; auto. split; auto. split.
    - intros i y Hi Hy. destruct (Nat.lt_ge_cases i l1); [eapply HL; eauto|]. apply (Al i); auto.
    - intros i y Hi Hy. destruct (Nat.lt_ge_cases i r); [|eapply HR; eauto].
      assert (pv < val y)%Z by (apply (Ar i); auto). lia. }
  rewrite (value_at_ok a rr xr G Nr). cbn [bind].
  unfold inequality, equality.
  destruct (Z.leb_spec (Z.abs (val xr - pv)) tol) as [Heq|Hneq]; cbn [negb].
  - (* right value within tolerance of the pivot *)
    rewrite (value_at_ok a l xl G Nl). cbn [bind].
    assert (Hsw : swap a l piv = Ok (upd (upd a l xp) piv xl)) by now apply swap_lt.
    assert (Hstep : exists a' p',
       (if (Z.abs (pv - val xl) <=? tol)%Z
        then if negb (l =? piv)
             then a' <- swap a l piv;; Ok (a', l) else Ok (a, piv)
        else a' <- swap a l piv;; Ok (a', l)) = Ok (a', p') /\ p' = l /\
       Permutation a a' /\ nth_error a' l = Some xp /\
       (forall i, i < l -> nth_error a' i = nth_error a i) /\
       (forall i, l < i -> i <> piv -> nth_error a' i = nth_error a i) /\
       (l <> piv -> nth_error a' piv = Some xl)).
    { rewrite Hsw. cbn [bind].
      assert (HS : exists a' p', Ok (upd (upd a l xp) piv xl, l) = Ok (a', p') /\ p' = l /\
         Permutation a a' /\ nth_error a' l = Some xp /\
       (forall i, i < l -> nth_error a' i = nth_error a i) /\
       (forall i, l < i -> i <> piv -> nth_error a' i = nth_error a i) /\
       (l <> piv -> nth_error a' piv = Some xl)).
      { exists (upd (upd a l xp) piv xl), l. split; auto. split; auto.
        split; [now apply swapped_perm|].
        split; [|split; [|split]].
        - rewrite (nth_error_swapped a l piv xl xp l) by auto.
          destruct (Nat.eqb_spec l piv); [subst; congruence|]. now rewrite Nat.eqb_refl.
        - intros i Hi. rewrite (nth_error_swapped a l piv xl xp) by auto.
          destruct (Nat.eqb_spec i piv); [lia|]. destruct (Nat.eqb_spec i l); [lia|]. auto.
        - intros i Hi Hip. rewrite (nth_error_swapped a l piv xl xp) by auto.
          destruct (Nat.eqb_spec i piv); [lia|]. destruct (Nat.eqb_spec i l); [lia|]. auto.
        - intros _. rewrite (nth_error_swapped a l piv xl xp) by auto. now rewrite Nat.eqb_refl. }
      destruct (Z.abs (pv - val xl) <=? tol)%Z; auto.
      destruct (Nat.eqb_spec l piv) as [->|Hne]; cbn [negb]; auto.
      exists a, piv. repeat split; auto. }
    destruct Hstep as (a' & p' & -> & -> & P & Nl' & Blo & Bhi & Bp). cbn [bind].
    destruct (IHfuel a' l rr l) as (a'' & p & E & P' & Np & L' & R'); auto; try lia.
    + eapply good_perm; eauto.
    + rewrite <- (Permutation_length P). lia.
    + intros i y Hi Hy. rewrite Blo in Hy by auto.
      destruct (Nat.lt_ge_cases i l1); [eapply HL; eauto|]. apply (Al i); auto.
    + intros i y Hi Hy. destruct (Nat.eq_dec i piv) as [->|Hip].
      * destruct (Nat.eq_dec l piv); [lia|]. rewrite Bp in Hy by auto. inversion Hy; subst. lia.
      * rewrite Bhi in Hy by lia. destruct (Nat.eq_dec i rr) as [->|].
        -- assert (y = xr) by congruence. subst. lia.
        -- destruct (Nat.lt_ge_cases i r); [|eapply HR; eauto].
           assert (pv < val y)%Z by (apply (Ar i); auto; lia). lia.
    + exists a'', p. split; auto. split; auto. etransitivity; eauto.
  - (* right value smaller than the pivot *)
    assert (Hlt : (val xr < pv)%Z) by lia.
    assert (Hrp : rr <> piv) by (intros ->; assert (xr = xp) by congruence; subst; lia).
    rewrite (swap_lt a l rr xl xr) by auto. cbn [bind].
    set (a' := upd (upd a l xr) rr xl).
    assert (P : Permutation a a') by now apply swapped_perm.
    assert (N : forall k, nth_error a' k = if k =? rr then Some xl else if k =? l then Some xr else nth_error a k).
    { intros k. unfold a'. now apply nth_error_swapped. }
    assert (G' : good a') by (eapply good_perm; eauto).
    assert (Len : length a' = length a) by (symmetry; now apply Permutation_length).
    assert (HL' : forall i y, i < S l -> nth_error a' i = Some y -> (val y < pv)%Z).
    { intros i y Hi Hy. rewrite N in Hy. destruct (Nat.eqb_spec i rr); [lia|].
      destruct (Nat.eqb_spec i l); [inversion Hy; subst; auto|].
      destruct (Nat.lt_ge_cases i l1); [eapply HL; eauto|]. apply (Al i); auto. lia. }
    assert (HR' : forall i y, rr <= i -> nth_error a' i = Some y -> (pv - tol <= val y)%Z).
    { intros i y Hi Hy. rewrite N in Hy. destruct (Nat.eqb_spec i rr); [inversion Hy; subst; lia|].
      destruct (Nat.eqb_spec i l); [lia|].
      destruct (Nat.lt_ge_cases i r); [|eapply HR; eauto].
      assert (pv < val y)%Z by (apply (Ar i); auto; lia). lia. }
    destruct (Nat.eqb_spec piv l) as [Epl|Npl].
    + destruct (IHfuel a' (S l) (S rr) rr) as (a'' & p & E & P' & Np & L' & R'); auto; try lia.
      * rewrite N, Nat.eqb_refl. congruence.
      * intros i y Hi Hy. apply (HR' i); auto. lia.
      * exists a'', p. split; auto. split; auto. etransitivity; eauto.
    + destruct (IHfuel a' (S l) rr piv) as (a'' & p & E & P' & Np & L' & R'); auto; try lia.
      * rewrite N. destruct (Nat.eqb_spec piv rr); [lia|]. destruct (Nat.eqb_spec piv l); [lia|]. auto.
      * exists a'', p. split; auto. split; auto. etransitivity; eauto.
Qed.

Lemma partition_ok a piv xp : good a -> nth_error a piv = Some xp ->
  exists L R, partition a piv = Ok (L ++ xp :: R, length L) /\ Permutation a (L ++ xp :: R) /\
    (forall y, In y L -> (val y < val xp)%Z) /\ (forall y, In y R -> (val xp - tol <= val y)%Z).
Proof.
  intros G Hp. unfold partition_around_pivot_index.
  assert (Hpl : piv < length a) by (eapply nth_error_lt; eauto).
  destruct (Nat.eqb_spec (length a) 1) as [E1|N1].
  - destruct a as [|a0 [|]]; simpl in *; try lia. assert (piv = 0) by lia. subst. simpl in Hp.
    inversion Hp; subst. exists [], []. simpl. repeat split; auto; tauto.
  - rewrite (value_at_ok a piv xp G Hp). cbn [bind].
    destruct (partition_loop_ok (val xp) xp eq_refl (S (length a)) a 0 (length a) piv)
      as (a' & p & E & P & Np & L & R); auto; try lia.
    + intros i y Hi Hy. apply nth_error_lt in Hy. lia.
    + destruct (nth_error_split _ _ Np) as (l1 & l2 & -> & <-).
      exists l1, l2. split; auto. split; auto. split.
      * intros y Hy. apply In_nth_error in Hy as [i Hi].
        assert (i < length l1) by (eapply nth_error_lt; eauto).
        apply (L i); auto. rewrite nth_error_app1; auto.
      * intros y Hy. apply In_nth_error in Hy as [i Hi].
        apply (R (length l1 + S i)); [lia|].
        rewrite nth_error_app2 by lia. replace (length l1 + S i - length l1) with (S i) by lia. auto.
Qed.

(** ** slices *)
Lemma slice_mid {A} (a b c : list A) l r :
  l = length a -> r = length a + length b -> slice (a ++ b ++ c) l r = Ok b.
Proof.
  intros -> ->. unfold slice. rewrite !app_length.
  destruct (Nat.leb_spec (length a) (length a + length b)); [|lia].
  destruct (Nat.leb_spec (length a + length b) (length a + (length b + length c))); [|lia].
  cbn [andb]. rewrite skipn_app, skipn_all, Nat.sub_diag. cbn [app skipn].
  replace (length a + length b - length a) with (length b + 0) by lia.
  rewrite firstn_app_2. cbn [firstn]. now rewrite app_nil_r.
Qed.

Lemma splice_mid {A} (a b b' c : list A) l r :
  l = length a -> r = length a + length b -> splice (a ++ b ++ c) l r b' = a ++ b' ++ c.
Proof.
  intros -> ->. unfold splice. f_equal.
  - replace (length a) with (length a + 0) by lia. rewrite firstn_app_2. cbn [firstn]. now rewrite app_nil_r.
  - f_equal. rewrite app_assoc. rewrite skipn_app.
    rewrite skipn_all2 by (rewrite app_length; lia).
    rewrite app_length, Nat.sub_diag. reflexivity.
Qed.

(** ** quickselect *)
Section Delta.
Context (d : Z) (U : list nat).
(** The tolerance effectively observed on the universe [U]. *)
Hypothesis Hd0 : (0 <= d)%Z.
Hypothesis Hd : forall x y, In x U -> In y U -> (val x - tol <= val y)%Z -> (val x - d <= val y)%Z.

Definition suffix_equal (A M : list nat) : Prop :=
  forall A1 x A2 m, A = A1 ++ x :: A2 -> In m M -> (val m <= val x)%Z ->
    forall y, In y A2 -> (val m <= val y)%Z.

Lemma quickselect_loop_ok k : forall fuel A M B,
  Permutation U (A ++ M ++ B) -> good U ->
  length A <= k < length A + length M ->
  (forall x y, In x A -> In y M -> (val x <= val y + d)%Z) ->
  (forall x y, In x M -> In y B -> (val x <= val y + d)%Z) ->
  (d = 0%Z -> suffix_equal A M) ->
  length M < fuel ->
  exists L x R, quickselect_loop tol samples nf fi fuel (A ++ M ++ B) (length A) (length A + length M - 1) k =
      Ok (L ++ x :: R, (k, S k)) /\ length L = k /\ Permutation U (L ++ x :: R) /\
    (forall y, In y L -> (val y <= val x + d)%Z) /\ (forall y, In y R -> (val x <= val y + d)%Z) /\
    (d = 0%Z -> suffix_equal L [x]).
Proof.
  induction fuel; intros A M B P G Hk HA HB HS Hf; [lia|].
  cbn [quickselect_loop].
  destruct (Nat.eqb_spec (length A) (length A + length M - 1)) as [E1|N1].
  - destruct M as [|x [|]]; simpl in *; try lia.
    assert (k = length A) by lia. subst k.
    exists A, x, B. split; [|split; [|split; [|split; [|split]]]]; auto.
    replace (length A + 1 - 1) with (length A) by lia. auto.
  - assert (HM : length M <> 0) by lia.
    replace (S (length A + length M - 1)) with (length A + length M) by lia.
    rewrite (slice_mid A M B) by lia. cbn [bind].
    assert (GM : good M).
    { eapply good_incl; [|exact G]. intros x Hx. eapply Permutation_in; [symmetry; exact P|].
      rewrite !in_app_iff; auto. }
    destruct (median3_lt M GM ltac:(lia)) as (m & -> & Hm). cbn [bind].
    destruct (nth_error M m) as [xp|] eqn:Exp; [|apply nth_error_None in Exp; lia].
    destruct (partition_ok M m xp GM Exp) as (L & R & -> & PM & HL & HR). cbn [bind].
    rewrite (splice_mid A M (L ++ xp :: R) B) by lia.
    assert (PU : Permutation U (A ++ (L ++ xp :: R) ++ B)).
    { rewrite P. apply Permutation_app_head. apply Permutation_app_tail. auto. }
    assert (LM : length M = length L + S (length R)).
    { rewrite (Permutation_length PM), app_length. reflexivity. }
    assert (InU : forall x, In x (L ++ xp :: R) -> In x U).
    { intros x Hx. eapply Permutation_in; [symmetry; exact PU|]. apply in_app_iff; right; apply in_app_iff; auto. }
    assert (HRd : forall y, In y R -> (val xp - d <= val y)%Z).
    { intros y Hy. apply Hd.
      - apply InU; rewrite in_app_iff; simpl; auto.
      - apply InU; rewrite in_app_iff; simpl; auto.
      - auto. }
    assert (InM : forall x, In x (L ++ xp :: R) <-> In x M).
    { intros x; split; apply Permutation_in; auto. now symmetry. }
    assert (ML : forall y, In y L -> In y M) by (intros; apply InM; rewrite in_app_iff; auto).
    assert (MR : forall y, In y R -> In y M) by (intros; apply InM; rewrite in_app_iff; simpl; auto).
    assert (Mx : In xp M) by (apply InM; rewrite in_app_iff; simpl; auto).
    destruct (Nat.eqb_spec k (length A + length L)) as [Ek|Nk].
    + exists (A ++ L), xp, (R ++ B).
      replace (A ++ (L ++ xp :: R) ++ B) with ((A ++ L) ++ xp :: R ++ B) in *
        by (rewrite <- !app_assoc; reflexivity).
      rewrite app_length. subst k.
      split; [reflexivity|]. split; [reflexivity|]. split; auto. split; [|split].
      * intros y Hy. apply in_app_iff in Hy as [Hy|Hy]; [auto|].
        specialize (HL y Hy). lia.
      * intros y Hy. apply in_app_iff in Hy as [Hy|Hy]; [|auto].
        specialize (HRd y Hy). lia.
      * intros Ed A1 x A2 q EA Hq Hle y Hy. specialize (HS Ed).
        destruct Hq as [<-|[]].
        apply app_eq_app in EA as (l & [[-> El]|[EA' EL]]).
        -- destruct l as [|x0 l]; simpl in El.
           ++ subst L. specialize (HL x (or_introl eq_refl)). lia.
           ++ injection El as Ex E2. subst x0 A2.
              apply in_app_iff in Hy as [Hy|Hy].
              ** apply (HS A1 x l xp eq_refl Mx Hle y Hy).
              ** exfalso. specialize (HL y Hy).
                 assert (val x <= val y + d)%Z by (apply HA; auto; rewrite in_app_iff; simpl; auto). lia.
        -- assert (In x L) by (rewrite EL, in_app_iff; simpl; auto). specialize (HL x H). lia.
    + destruct (Nat.ltb_spec k (length A + length L)) as [Hlt|Hge].
      * replace (A ++ (L ++ xp :: R) ++ B) with (A ++ L ++ (xp :: R ++ B)) in *
          by (rewrite <- !app_assoc; reflexivity).
        destruct (IHfuel A L (xp :: R ++ B)) as (L' & x' & R' & E & HH); auto; try lia.
        -- intros x y Hx Hy. simpl in Hy. destruct Hy as [<-|Hy].
           ++ specialize (HL x Hx). lia.
           ++ apply in_app_iff in Hy as [Hy|Hy]; [|auto].
              specialize (HRd y Hy). specialize (HL x Hx). lia.
        -- intros Ed A1 x A2 q EA Hq. apply HS with (A1 := A1); auto.
        -- exists L', x', R'. split; auto.
      * replace (A ++ (L ++ xp :: R) ++ B) with ((A ++ L ++ [xp]) ++ R ++ B) in *
          by (rewrite <- !app_assoc; reflexivity).
        assert (LA : length (A ++ L ++ [xp]) = S (length A + length L))
          by (rewrite !app_length; simpl; lia).
        replace (S (length A + length L)) with (length (A ++ L ++ [xp])) by auto.
        replace (length A + length M - 1) with (length (A ++ L ++ [xp]) + length R - 1) by lia.
        destruct (IHfuel (A ++ L ++ [xp]) R B) as (L' & x' & R' & E & HH); auto; try lia.
        -- intros x y Hx Hy. rewrite !in_app_iff in Hx. simpl in Hx.
           destruct Hx as [Hx|[Hx|[<-|[]]]].
           ++ auto.
           ++ specialize (HL x Hx). specialize (HRd y Hy). lia.
           ++ specialize (HRd y Hy). lia.
        -- intros Ed A1 x A2 q EA Hq Hle y Hy. specialize (HS Ed).
           specialize (HRd q Hq) as Hqx.
           rewrite app_assoc in EA.
           destruct (exists_last (l := x :: A2) ltac:(discriminate)) as (A3 & z & Ez).
           rewrite Ez, app_assoc in EA. apply app_inj_tail in EA as [EA <-].
           destruct A3 as [|x0 A3].
           { simpl in Ez. inversion Ez; subst. destruct Hy. }
           simpl in Ez. inversion Ez; subst x0 A2. clear Ez.
           (* x is followed by xp: x is in A or in L *)
           assert (HxAL : In x (A ++ L)) by (rewrite EA, in_app_iff; simpl; auto).
           assert (Hxx : (val x <= val xp)%Z).
           { apply in_app_iff in HxAL as [Hx|Hx].
             - specialize (HA x xp Hx Mx). lia.
             - specialize (HL x Hx). lia. }
           assert (Heq : val q = val xp) by lia.
           apply in_app_iff in Hy as [Hy|[<-|[]]]; [|lia].
           apply app_eq_app in EA as (l & [[EA' El]|[EA' EL]]).
           ++ destruct l as [|x0 l]; simpl in El.
              ** subst L. specialize (HL x (or_introl eq_refl)). lia.
              ** injection El as Ex E2. subst x0 A3 A.
                 apply in_app_iff in Hy as [Hy|Hy].
                 --- assert (val xp <= val y)%Z; [|lia].
                     apply (HS A1 x l xp eq_refl Mx); auto. lia.
                 --- exfalso. specialize (HL y Hy).
                     assert (val x <= val y + d)%Z by (apply HA; auto; rewrite in_app_iff; simpl; auto). lia.
           ++ assert (In x L) by (rewrite EL, in_app_iff; simpl; auto). specialize (HL x H). lia.
        -- exists L', x', R'. split; auto.
Qed.

Lemma quickselect_ok k : good U -> k < length U ->
  exists L x R, quickselect tol samples nf fi U k = Ok (L ++ x :: R, (k, S k)) /\ length L = k /\
    Permutation U (L ++ x :: R) /\
    (forall y, In y L -> (val y <= val x + d)%Z) /\ (forall y, In y R -> (val x <= val y + d)%Z) /\
    (d = 0%Z -> suffix_equal L [x]).
Proof.
  intros G Hk. unfold quickselect.
  destruct (length U) as [|m] eqn:E; [lia|].
  destruct (quickselect_loop_ok k (S (length U)) [] U []) as (L & x & R & EQ & H); simpl; try tauto; try lia.
  - now rewrite app_nil_r.
  - intros _ A1 x A2 q Eq. destruct A1; discriminate.
  - exists L, x, R. split; [|auto]. simpl in EQ. rewrite app_nil_r, E in EQ.
    replace (S m - 1) with m in EQ by lia. auto.
Qed.

End Delta.

(** ** quicksort *)
Lemma slice_left {A} (L : list A) x R : slice (L ++ x :: R) 0 (length L) = Ok L.
Proof. apply (slice_mid [] L (x :: R)); auto. Qed.
Lemma slice_right {A} (L : list A) x R : slice (L ++ x :: R) (S (length L)) (length (L ++ x :: R)) = Ok R.
Proof.
  replace (L ++ x :: R) with ((L ++ [x]) ++ R ++ []) by (rewrite app_nil_r, <- app_assoc; reflexivity).
  apply slice_mid; rewrite !app_length; simpl; lia.
Qed.

Lemma SS_app {A} (Rl : A -> A -> Prop) l1 l2 :
  StronglySorted Rl l1 -> StronglySorted Rl l2 -> (forall x y, In x l1 -> In y l2 -> Rl x y) ->
  StronglySorted Rl (l1 ++ l2).
Proof.
  induction 1; simpl; intros; auto. constructor.
  - apply IHStronglySorted; auto.
  - apply Forall_app; split; auto. apply Forall_forall. auto.
Qed.

Lemma quicksort_fuel_ok d : (0 <= d)%Z -> forall fuel a piv,
  (forall x y, In x a -> In y a -> (val x - tol <= val y)%Z -> (val x - d <= val y)%Z) ->
  good a -> length a < fuel -> (length a = 0 \/ piv < length a) ->
  exists a' p, quicksort_fuel tol samples nf fi fuel a piv = Ok (a', p) /\ Permutation a a' /\
    StronglySorted (fun x y => (val x <= val y + d)%Z) a'.
Proof.
  intros Hd0. induction fuel; intros a piv Hd G Hf Hp; [lia|]. cbn [quicksort_fuel].
  destruct (Nat.ltb_spec (length a) 2) as [Hs|Hs].
  - exists a, piv. split; auto. split; auto.
    destruct a as [|x [|]]; simpl in *; try lia; repeat constructor.
  - destruct (nth_error a piv) as [xp|] eqn:Exp; [|apply nth_error_None in Exp; lia].
    destruct (partition_ok a piv xp G Exp) as (L & R & -> & P & HL & HR). cbn [bind].
    rewrite slice_left. cbn [bind]. rewrite slice_right. cbn [bind].
    assert (Inc : forall x, In x (L ++ xp :: R) -> In x a)
      by (intros x Hx; eapply Permutation_in; [symmetry|]; eauto).
    assert (IL : forall x, In x L -> In x a) by (intros; apply Inc; rewrite in_app_iff; auto).
    assert (IR : forall x, In x R -> In x a) by (intros; apply Inc; rewrite in_app_iff; simpl; auto).
    assert (Ix : In xp a) by (apply Inc; rewrite in_app_iff; simpl; auto).
    assert (GL : good L) by (intros i Hi; auto). assert (GR : good R) by (intros i Hi; auto).
    assert (Len : length a = length L + S (length R)) by (rewrite (Permutation_length P), app_length; auto).
    destruct (median3_ok L GL) as (ml & -> & Hml & _). cbn [bind].
    destruct (median3_ok R GR) as (mr & -> & Hmr & _). cbn [bind].
    destruct (IHfuel L ml) as (L' & pl & -> & PL & SL); auto; try lia. cbn [bind].
    destruct (IHfuel R mr) as (R' & pr & -> & PR & SR); auto; try lia. cbn [bind].
    assert (Esp : splice (splice (L ++ xp :: R) 0 (length L) L') (S (length L)) (length (L ++ xp :: R)) R'
                  = L' ++ xp :: R').
    { replace (splice (L ++ xp :: R) 0 (length L) L') with (L' ++ xp :: R)
        by (symmetry; apply (splice_mid [] L L' (xp :: R)); auto).
      replace (L' ++ xp :: R) with ((L' ++ [xp]) ++ R ++ []) by (rewrite app_nil_r, <- app_assoc; reflexivity).
      rewrite (splice_mid (L' ++ [xp]) R R' []).
      - rewrite app_nil_r, <- app_assoc. reflexivity.
      - rewrite app_length; simpl. rewrite <- (Permutation_length PL). lia.
      - rewrite !app_length; simpl. rewrite <- (Permutation_length PL). lia. }
    rewrite Esp. exists (L' ++ xp :: R'), (length L). split; auto. split.
    + rewrite P. apply Permutation_app; auto.
    + assert (HL' : forall y, In y L' -> (val y < val xp)%Z)
        by (intros; apply HL; eapply Permutation_in; [symmetry|]; eauto).
      assert (HR' : forall y, In y R' -> (val xp - d <= val y)%Z).
      { intros y Hy. assert (In y R) by (eapply Permutation_in; [symmetry|]; eauto). apply Hd; auto. }
      apply SS_app; auto.
      * constructor; auto. apply Forall_forall. intros y Hy. specialize (HR' y Hy). lia.
      * intros x y Hx [<-|Hy].
        -- specialize (HL' x Hx). lia.
        -- specialize (HL' x Hx). specialize (HR' y Hy). lia.
Qed.

(** ** median split *)
Lemma shift_loop_ok c : forall L rest,
  good (L ++ rest) ->
  exists m, shift_loop tol samples nf fi c (L ++ rest) (length L) = Ok m /\ m <= length L /\
    (forall i y, m <= i < length L -> nth_error L i = Some y -> (Z.abs (c - val y) <= tol)%Z) /\
    (forall i y, S i = m -> nth_error L i = Some y -> (tol < Z.abs (c - val y))%Z).
Proof.
  induction L as [|x L IH] using rev_ind; intros rest G.
  - exists 0. simpl. repeat split; auto; intros; lia.
  - rewrite app_length. simpl. rewrite Nat.add_1_r. cbn [shift_loop].
    rewrite <- app_assoc. simpl.
    rewrite (value_at_ok (L ++ x :: rest) (length L) x).
    + cbn [bind]. unfold equality. destruct (Z.leb_spec (Z.abs (c - val x)) tol).
      * destruct (IH (x :: rest)) as (m & E & Hm & Heq & Hst).
        { now rewrite <- app_assoc in G. }
        exists m. split; auto. split; [lia|]. split.
        -- intros i y Hi Hy. destruct (Nat.eq_dec i (length L)) as [->|].
           ++ rewrite nth_error_app2, Nat.sub_diag in Hy by lia. simpl in Hy. congruence.
           ++ rewrite nth_error_app1 in Hy by lia. apply (Heq i); auto. lia.
        -- intros i y Hi Hy. rewrite nth_error_app1 in Hy by lia. eapply Hst; eauto.
      * exists (S (length L)). split; auto. split; [lia|]. split.
        -- intros; lia.
        -- intros i y Hi Hy. assert (i = length L) by lia. subst i.
           rewrite nth_error_app2, Nat.sub_diag in Hy by lia. simpl in Hy. congruence.
    + now rewrite <- app_assoc in G.
    + rewrite nth_error_app2, Nat.sub_diag by lia. auto.
Qed.

Lemma quickselect_median_ok a :
  good a -> separated tol samples nf fi a -> a <> [] ->
  exists L x R, let m := length L in
    quickselect_median tol samples nf fi a =
      Ok (L ++ x :: R, (m, (0, m), (m, S m), (S m, length a))) /\
    Permutation a (L ++ x :: R) /\
    m <= (length a - 1) / 2 /\
    (forall y, In y L -> (val y < val x)%Z) /\ (forall y, In y R -> (val x <= val y)%Z).
Proof.
  intros G Sep Hne. cbn zeta.
  assert (Hlen : 0 < length a) by (destruct a; simpl; [congruence|lia]).
  unfold quickselect_median.
  set (k := (length a - 1) / 2).
  assert (Hk : k < length a) by (apply Nat.div_lt_upper_bound; lia).
  clearbody k.
  destruct (quickselect_ok 0 a ltac:(lia)) with (k := k) as (L & x & R & E & HL & P & HlL & HrR & Suf); auto.
  { intros u v Hu Hv Hle. destruct (Z.le_gt_cases (val u) (val v)); [lia|].
    rewrite (Sep u v Hu Hv) by lia. lia. }
  rewrite E. cbn [bind]. unfold shift_median_to_leftmost_equal_value. cbn [fst snd].
  assert (Ga : good (L ++ x :: R)) by (eapply good_perm; eauto).
  assert (Ha : forall y, In y (L ++ x :: R) -> In y a)
    by (intros; eapply Permutation_in; [symmetry|]; eauto).
  assert (Hx : In x a) by (apply Ha; rewrite in_app_iff; simpl; auto).
  destruct (Nat.eqb_spec 0 k) as [E0|N0].
  - destruct L as [|]; simpl in HL; [|lia].
    exists [], x, R. simpl. rewrite <- E0. repeat split; auto; try lia; try tauto.
    intros y Hy. specialize (HrR y Hy). lia.
  - rewrite (value_at_ok (L ++ x :: R) k x); [|auto|rewrite nth_error_app2 by lia; now rewrite HL, Nat.sub_diag].
    cbn [bind]. rewrite <- HL.
    destruct (shift_loop_ok (val x) L (x :: R) Ga) as (m & -> & Hm & Heq & Hst). cbn [bind].
    rewrite Nat.sub_0_r.
    (* the new cut sample *)
    destruct (nth_error (L ++ x :: R) m) as [x'|] eqn:Em; [|apply nth_error_None in Em; rewrite app_length in Em; simpl in Em; lia].
    destruct (nth_error_split _ _ Em) as (L1 & R1 & Esp & Hl1).
    assert (Vx : val x' = val x).
    { destruct (Nat.eq_dec m (length L)) as [->|].
      - rewrite nth_error_app2, Nat.sub_diag in Em by lia. simpl in Em. congruence.
      - rewrite nth_error_app1 in Em by lia. apply Sep.
        + apply Ha. rewrite in_app_iff. left. eapply nth_error_In; eauto.
        + auto.
        + assert (Z.abs (val x - val x') <= tol)%Z by (apply (Heq m); auto; lia). lia. }
    exists L1, x', R1. rewrite <- Esp, Hl1. split; [reflexivity|]. split; auto. split; [lia|].
    (* L = L1 ++ equal block *)
    assert (EL1 : L1 = firstn m L).
    { assert (firstn m (L1 ++ x' :: R1) = firstn m (L ++ x :: R)) by now rewrite Esp.
      rewrite <- Hl1 in H at 1. replace (length L1) with (length L1 + 0) in H by lia.
      rewrite firstn_app_2 in H. simpl in H. rewrite app_nil_r in H. rewrite H.
      rewrite firstn_app. replace (m - length L) with 0 by lia. simpl. now rewrite app_nil_r. }
    assert (ER1 : forall y, In y R1 -> (exists i, m <= i /\ nth_error L i = Some y) \/ y = x \/ In y R).
    { intros y Hy. apply In_nth_error in Hy as [i Hi].
      assert (nth_error (L1 ++ x' :: R1) (length L1 + S i) = Some y).
      { rewrite nth_error_app2 by lia. replace (length L1 + S i - length L1) with (S i) by lia. auto. }
      rewrite <- Esp in H. destruct (Nat.lt_ge_cases (length L1 + S i) (length L)).
      - rewrite nth_error_app1 in H by lia. left. exists (length L1 + S i). split; auto. lia.
      - rewrite nth_error_app2 in H by lia. apply nth_error_In in H. simpl in H. intuition. }
    split.
    + intros y Hy. rewrite Vx. rewrite EL1 in Hy.
      assert (HyL : In y L) by (rewrite <- (firstn_skipn m L), in_app_iff; auto).
      pose proof (HlL y HyL).
      destruct (Z.lt_ge_cases (val y) (val x)) as [|Hge]; auto. exfalso.
      (* y equal to the cut value: then every later element of L is too, in particular the one at m-1 *)
      assert (m <> 0) by (intros ->; destruct Hy).
      destruct (exists_last (l := firstn m L)) as (F & z & EF); [intros Z; rewrite Z in Hy; destruct Hy|].
      assert (Hz : nth_error L (m - 1) = Some z).
      { assert (Hfl : length (firstn m L) = m) by (rewrite firstn_length; lia).
        rewrite EF, app_length in Hfl. simpl in Hfl.
        rewrite <- (firstn_skipn m L), EF. rewrite nth_error_app1 by (rewrite app_length; simpl; lia).
        rewrite nth_error_app2 by lia. replace (m - 1 - length F) with 0 by lia. auto. }
      assert (Hz' : (tol < Z.abs (val x - val z))%Z) by (apply (Hst (m - 1)); auto; lia).
      assert (HzL : In z L) by (eapply nth_error_In; eauto).
      pose proof (HlL z HzL).
      assert (val x <= val z)%Z; [|lia].
      rewrite EF in Hy. apply in_app_iff in Hy as [Hy|[->|[]]]; [|lia].
      destruct (in_split _ _ Hy) as (F1 & F2 & ->).
      assert (ELs : L = F1 ++ y :: (F2 ++ [z]) ++ skipn m L).
      { rewrite <- (firstn_skipn m L) at 1. rewrite EF. rewrite <- !app_assoc. reflexivity. }
      apply (Suf eq_refl F1 y ((F2 ++ [z]) ++ skipn m L) x ELs); simpl; auto.
      rewrite !in_app_iff; simpl; auto.
    + intros y Hy. rewrite Vx. destruct (ER1 y Hy) as [(i & Hi & Ni)|[->|Hr]].
      * assert (Z.abs (val x - val y) <= tol)%Z by (apply (Heq i); auto; split; auto; eapply nth_error_lt; eauto).
        rewrite (Sep y x); try lia; auto. apply Ha. rewrite in_app_iff; left; eapply nth_error_In; eauto.
      * lia.
      * specialize (HrR y Hr). lia.
Qed.

(** Without assuming separation: structure, and order within twice the tolerance. *)
Lemma quickselect_median_within a :
  good a -> a <> [] ->
  exists L x R, let m := length L in
    quickselect_median tol samples nf fi a =
      Ok (L ++ x :: R, (m, (0, m), (m, S m), (S m, length a))) /\
    Permutation a (L ++ x :: R) /\
    m <= (length a - 1) / 2 /\
    (forall y, In y L -> (val y <= val x + 2 * tol)%Z) /\ (forall y, In y R -> (val x <= val y + 2 * tol)%Z).
Proof.
  intros G Hne. cbn zeta.
  assert (Hlen : 0 < length a) by (destruct a; simpl; [congruence|lia]).
  unfold quickselect_median.
  set (k := (length a - 1) / 2).
  assert (Hk : k < length a) by (apply Nat.div_lt_upper_bound; lia).
  clearbody k.
  destruct (quickselect_ok tol a Htol) with (k := k) as (L & x & R & E & HL & P & HlL & HrR & _); auto.
  rewrite E. cbn [bind]. unfold shift_median_to_leftmost_equal_value. cbn [fst snd].
  assert (Ga : good (L ++ x :: R)) by (eapply good_perm; eauto).
  destruct (Nat.eqb_spec 0 k) as [E0|N0].
  - destruct L as [|]; simpl in HL; [|lia].
    exists [], x, R. rewrite <- E0. splits; auto; try (cbn; lia); try (now intros ? []).
    intros y Hy. specialize (HrR y Hy). lia.
  - rewrite (value_at_ok (L ++ x :: R) k x); [|auto|rewrite nth_error_app2 by lia; now rewrite HL, Nat.sub_diag].
    cbn [bind]. rewrite <- HL.
    destruct (shift_loop_ok (val x) L (x :: R) Ga) as (m & -> & Hm & Heq & _). cbn [bind].
    rewrite Nat.sub_0_r.
    destruct (nth_error (L ++ x :: R) m) as [x'|] eqn:Em;
      [|apply nth_error_None in Em; rewrite app_length in Em; simpl in Em; lia].
    destruct (nth_error_split _ _ Em) as (L1 & R1 & Esp & Hl1).
    assert (Vx : (Z.abs (val x - val x') <= tol)%Z).
    { destruct (Nat.eq_dec m (length L)) as [->|].
      - rewrite nth_error_app2, Nat.sub_diag in Em by lia. simpl in Em.
        injection Em as <-. rewrite Z.sub_diag. simpl. lia.
      - rewrite nth_error_app1 in Em by lia. apply (Heq m); auto. lia. }
    exists L1, x', R1. rewrite <- Esp, Hl1. split; [reflexivity|]. split; auto. split; [lia|].
    split.
    + intros y Hy. apply In_nth_error in Hy as [i Hi].
      pose proof (nth_error_lt _ _ _ Hi).
      assert (nth_error (L ++ x :: R) i = Some y) by (rewrite Esp, nth_error_app1; auto).
      rewrite nth_error_app1 in H0 by lia. apply nth_error_In in H0. specialize (HlL y H0). lia.
    + intros y Hy. apply In_nth_error in Hy as [i Hi].
      assert (H : nth_error (L1 ++ x' :: R1) (length L1 + S i) = Some y).
      { rewrite nth_error_app2 by lia. replace (length L1 + S i - length L1) with (S i) by lia. auto. }
      rewrite <- Esp in H. destruct (Nat.lt_ge_cases (length L1 + S i) (length L)).
      * rewrite nth_error_app1 in H by lia.
        assert (Z.abs (val x - val y) <= tol)%Z by (apply (Heq (length L1 + S i)); auto; lia). lia.
      * rewrite nth_error_app2 in H by lia. apply nth_error_In in H as [<-|H]; [lia|].
        specialize (HrR y H). lia.
Qed.

(** The samples that the median moved past are within the tolerance of it. *)
Lemma filter_positions (f : nat -> bool) : forall l i k, i <= k -> k <= length l ->
  (forall p y, i <= p < k -> nth_error l p = Some y -> f y = true) -> k - i <= length (filter f l).
Proof using.
  induction l as [|x l IH]; intros i k Hik Hk H; simpl in Hk; [lia|].
  destruct k as [|k]; [lia|]. destruct i as [|i].
  - cbn [filter]. rewrite (H 0 x) by (auto; lia). cbn [length].
    assert (k - 0 <= length (filter f l)); [|lia]. apply IH; try lia. intros p y Hp Hy. apply (H (S p)); auto. lia.
  - assert (k - i <= length (filter f l)).
    { apply IH; try lia. intros p y Hp Hy. apply (H (S p)); auto. lia. }
    cbn [filter]. destruct (f x); cbn [length]; lia.
Qed.

Lemma quickselect_median_crowd a : good a -> a <> [] -> forall a' m r1 r2 r3,
  quickselect_median tol samples nf fi a = Ok (a', (m, r1, r2, r3)) ->
  exists x, In x a /\
    (length a - 1) / 2 < m + length (filter (fun y => Z.leb (Z.abs (val x - val y)) tol) a).
Proof.
  intros G Hne a' m r1 r2 r3 H. unfold quickselect_median in H.
  assert (Hlen : 0 < length a) by (destruct a; simpl; [congruence|lia]).
  set (k := (length a - 1) / 2) in *.
  assert (Hk : k < length a) by (apply Nat.div_lt_upper_bound; lia). clearbody k.
  destruct (quickselect_ok tol a Htol) with (k := k) as (L & x & R & E & HL & P & HlL & HrR & _); auto.
  rewrite E in H. cbn [bind] in H. unfold shift_median_to_leftmost_equal_value in H. cbn [fst snd] in H.
  assert (Ga : good (L ++ x :: R)) by (eapply good_perm; eauto).
  assert (Hx : In x a) by (eapply Permutation_in; [symmetry; exact P|]; apply in_or_app; right; now left).
  assert (Hlf : length (filter (fun y => Z.leb (Z.abs (val x - val y)) tol) a) =
    length (filter (fun y => Z.leb (Z.abs (val x - val y)) tol) (L ++ x :: R))).
  { clear - P. induction P; cbn [filter]; auto; try congruence;
      repeat match goal with |- context[if ?b then _ else _] => destruct b end; cbn [length]; congruence. }
  exists x. split; auto. rewrite Hlf. rewrite filter_app, app_length. cbn [filter].
  rewrite Z.sub_diag. cbn [Z.abs]. rewrite (proj2 (Z.leb_le 0 tol) Htol). cbn [length].
  destruct (Nat.eqb_spec 0 k) as [E0|N0]; [lia|].
  rewrite (value_at_ok (L ++ x :: R) k x) in H; [|auto|rewrite nth_error_app2 by lia; now rewrite HL, Nat.sub_diag].
  cbn [bind] in H. rewrite <- HL in H.
  destruct (shift_loop_ok (val x) L (x :: R) Ga) as (m0 & Em & Hm & Heq & _). rewrite Em in H. cbn [bind] in H.
  rewrite Nat.sub_0_r in H. inversion H; subst.
  pose proof (filter_positions (fun y => Z.leb (Z.abs (val x - val y)) tol) L m (length L) Hm (le_n _)) as F.
  assert (length L - m <= length (filter (fun y => Z.leb (Z.abs (val x - val y)) tol) L)); [|lia].
  apply F. intros p y Hp Hy. apply Z.leb_le. now apply (Heq p).
Qed.

End Proofs.
