(** Lemmas on k-medoids with distances in another unit. *)
From Coq Require Import List Arith ZArith Lia Bool.
From Verif Require Import Base SortingModel BufferModel SearchModel MatrixModel KMeansModel RandomModel KMedoidsModel AffineProofs
  MedoidUnitSpec.
Import ListNotations.
Local Open Scope nat_scope.
Set Default Proof Using "Type".

(** Two runs that end in the same way, with results related by [R]. *)
Definition rsim {A B} (R : A -> B -> Prop) (x : res A) (y : res B) : Prop :=
  match x, y with
  | Ok a, Ok b => R a b
  | UB, UB | Throw, Throw | Fuel, Fuel => True
  | _, _ => False
  end.

Lemma rsim_bind {A B C D} (R : A -> B -> Prop) (Q : C -> D -> Prop) x y f g :
  rsim R x y -> (forall r r', R r r' -> rsim Q (f r) (g r')) -> rsim Q (bind x f) (bind y g).
Proof. intros H1 H2. destruct x, y; cbn in *; auto; contradiction. Qed.

Lemma rsim_mono {A B} (R R' : A -> B -> Prop) x y : rsim R x y -> (forall a b, R a b -> R' a b) -> rsim R' x y.
Proof. intros H1 H2. destruct x, y; cbn in *; auto. Qed.

Lemma rsim_eq {A} (x y : res A) : rsim (fun a b => b = a) x y -> y = x.
Proof. destruct x, y; cbn; intros H; congruence || contradiction. Qed.

Lemma rsim_refl {A} (x : res A) : rsim (fun a b => b = a) x x.
Proof. destruct x; cbn; auto. Qed.

Lemma rsim_loop {S S'} (R : nat -> S -> S' -> Prop) body body' : forall count first s s',
  R first s s' -> (forall i t t', first <= i < first + count -> R i t t' -> rsim (R (Datatypes.S i)) (body i t) (body' i t')) ->
  rsim (R (first + count)) (for_loop count first body s) (for_loop count first body' s').
Proof.
  induction count; intros first s s' H0 H; cbn [for_loop]; [now rewrite Nat.add_0_r|].
  apply (rsim_bind (R (Datatypes.S first))); [apply H; auto; lia|]. intros r r' Hr. rewrite Nat.add_succ_r. apply (IHcount (Datatypes.S first)); auto.
  intros i t t' Hi. apply H. lia.
Qed.

Lemma rsim_each {A S S'} (R : S -> S' -> Prop) body body' : forall (l : list A) s s',
  R s s' -> (forall x t t', R t t' -> rsim R (body x t) (body' x t')) -> rsim R (for_each l body s) (for_each l body' s').
Proof. induction l; intros s s' H0 H; cbn [for_each]; auto. apply (rsim_bind R); auto. Qed.

(** ** Lists *)
Definition listed {A B} (R : A -> B -> Prop) (l : list A) (l' : list B) : Prop :=
  length l' = length l /\ forall i x x', nth_error l i = Some x -> nth_error l' i = Some x' -> R x x'.

Lemma rd_listed {A B} (R : A -> B -> Prop) l l' i : listed R l l' -> rsim R (rd l i) (rd l' i).
Proof.
  intros (HL & H). unfold rd. destruct (nth_error l i) eqn:E, (nth_error l' i) eqn:E'; cbn; eauto.
  - assert (i < length l) by (apply nth_error_Some; congruence). apply nth_error_None in E'. lia.
  - assert (i < length l') by (apply nth_error_Some; congruence). apply nth_error_None in E. lia.
Qed.

Lemma upd_at {A} : forall (l : list A) i j x, nth_error (upd l i x) j = if (j =? i) && (i <? length l) then Some x else nth_error l j.
Proof.
  induction l as [|a l IH]; intros i j x.
  - destruct i; cbn; rewrite andb_false_r; destruct j; reflexivity.
  - destruct i, j; cbn [upd nth_error Nat.eqb andb length]; auto. rewrite IH. reflexivity.
Qed.

Lemma wr_listed {A B} (R : A -> B -> Prop) l l' i x x' : listed R l l' -> R x x' -> rsim (listed R) (wr l i x) (wr l' i x').
Proof.
  intros (HL & H) Hx. unfold wr. rewrite HL. destruct (i <? length l) eqn:E; cbn; auto. split.
  - rewrite !upd_length. auto.
  - intros j y y'. rewrite !upd_at, HL, E, andb_true_r. destruct (j =? i); [|apply H]. intros E1 E2. congruence.
Qed.

Lemma fill_sim {A B} (R : A -> B -> Prop) b b' count f f' : (forall i, i < count -> rsim R (f i) (f' i)) ->
  rsim (listed R) (fill b count f) (fill b' count f').
Proof.
  intros H. unfold fill.
  apply (rsim_mono (fun v v' => length v = count /\ length v' = count /\
    forall i x x', i < 0 + count -> nth_error v i = Some x -> nth_error v' i = Some x' -> R x x')).
  2:{ intros v v' (H1 & H2 & H3). split; [lia|]. intros i x x' E E'. apply (H3 i); auto.
      assert (i < length v) by (apply nth_error_Some; congruence). lia. }
  apply (rsim_loop (fun t v v' => length v = count /\ length v' = count /\
    forall i x x', i < t -> nth_error v i = Some x -> nth_error v' i = Some x' -> R x x')).
  - rewrite !repeat_length. split; [auto|split; [auto|]]. intros; lia.
  - intros i v v' Hi (H1 & H2 & H3). apply (rsim_bind R); [apply H; lia|]. intros x x' Hx. unfold wr. rewrite H1, H2.
    destruct (i <? count) eqn:E; cbn; auto. rewrite !upd_length. split; [auto|split; [auto|]].
    intros j y y' Hj. rewrite !upd_at, H1, H2, E, andb_true_r. destruct (Nat.eqb_spec j i) as [->|Hne]; [|apply H3; lia].
    intros E1 E2. congruence.
Qed.

Lemma listed_eq {A} (l l' : list A) : listed (fun a b => b = a) l l' -> l' = l.
Proof.
  intros (HL & H). revert l' HL H. induction l as [|a l IH]; intros [|a' l'] HL H; cbn in HL; try lia; auto.
  rewrite (H 0 a a' eq_refl eq_refl). f_equal. apply IH; [lia|]. intros i. apply (H (S i)).
Qed.

Section Unit_.
Context (c top : Z) (src src' : source Z) (U : other_unit c top src src').

(** A distance and the same one in the other unit; or both are the largest number. *)
Definition finite (x y : Z) : Prop := (x < top /\ y = c * x /\ y < top)%Z.
Definition either (x y : Z) : Prop := (x = top /\ y = top) \/ finite x y.

Lemma finite_either x y : finite x y -> either x y.
Proof. now right. Qed.

Lemma factor : (0 < c)%Z.
Proof using U. apply U. Qed.

Lemma lt_either x y f f' : finite x y -> either f f' -> (y <? f')%Z = (x <? f)%Z.
Proof using U.
  pose proof factor as Hc. intros (H1 & -> & H2) [(-> & ->)|(H3 & -> & H4)].
  - rewrite (proj2 (Z.ltb_lt _ _) H1). now apply Z.ltb_lt.
  - destruct (Z.ltb_spec x f) as [H|H]; [apply Z.ltb_lt|apply Z.ltb_ge]; nia.
Qed.

Lemma eq_either x y f f' : finite x y -> either f f' -> (y =? f')%Z = (x =? f)%Z.
Proof using U.
  pose proof factor as Hc. intros (H1 & -> & H2) [(-> & ->)|(H3 & -> & H4)].
  - rewrite (proj2 (Z.eqb_neq x top)) by lia. apply Z.eqb_neq. lia.
  - destruct (Z.eqb_spec x f) as [->|H]; [apply Z.eqb_refl|apply Z.eqb_neq]. nia.
Qed.

Lemma dist_sim i j : rsim finite (dist_at src i j) (dist_at src' i j).
Proof using U.
  destruct (dist_at src i j) as [d| | |] eqn:E.
  - destruct (u_distance _ _ _ _ U _ _ _ E) as (-> & H1 & H2). now split.
  - now rewrite (u_undefined _ _ _ _ U _ _ E).
  - now rewrite (u_throws _ _ _ _ U _ _ E).
  - now apply (u_ends _ _ _ _ U) in E.
Qed.

Lemma medoid_sim medoids idx i : rsim finite (medoid_distance src medoids idx i) (medoid_distance src' medoids idx i).
Proof using U. unfold medoid_distance. apply (rsim_bind (fun a b => b = a)); [apply rsim_refl|]. intros r ? ->. apply dist_sim. Qed.

(** ** PAMUtils.hpp *)
Lemma nearest_indices_unit medoids :
  samples_to_nearest_medoid_indices Z.ltb top src' medoids = samples_to_nearest_medoid_indices Z.ltb top src medoids.
Proof using U.
  unfold samples_to_nearest_medoid_indices. destruct medoids as [|m ms]; auto. set (medoids := m :: ms). rewrite (u_rows _ _ _ _ U).
  apply fill_ext. intros o _. apply rsim_eq.
  apply (rsim_bind (fun s t => either (fst s) (fst t) /\ snd t = snd s)).
  - apply (rsim_loop (fun _ s t => either (fst s) (fst t) /\ snd t = snd s)); [split; [now left|auto]|].
    intros i (f & a) (f' & a') _ (Hf & Ha). cbn [fst snd] in Hf, Ha. subst a'. apply (rsim_bind finite); [apply medoid_sim|]. intros x y Hx. cbn [rsim].
    rewrite (lt_either x y f f' Hx Hf). destruct (x <? f)%Z; cbn; auto using finite_either.
  - intros (f & a) (f' & a') (_ & Ha). cbn in Ha. now subst.
Qed.

Lemma second_indices_unit medoids :
  samples_to_second_nearest_medoid_indices Z.ltb Z.eqb top src' medoids = samples_to_second_nearest_medoid_indices Z.ltb Z.eqb top src medoids.
Proof using U.
  unfold samples_to_second_nearest_medoid_indices. destruct medoids as [|m ms]; auto. set (medoids := m :: ms). rewrite (u_rows _ _ _ _ U).
  apply fill_ext. intros o _. apply rsim_eq.
  set (P := fun (s t : Z * Z * nat * nat) => let '(f, g, a, b) := s in let '(f', g', a', b') := t in
    either f f' /\ either g g' /\ a' = a /\ b' = b).
  apply (rsim_bind P).
  - apply (rsim_loop (fun _ => P)); [cbn; split; [now left|split; [now left|auto]]|].
    intros i (((f & g) & a) & b) (((f' & g') & a') & b') _ (Hf & Hg & -> & ->). apply (rsim_bind finite); [apply medoid_sim|]. intros x y Hx. cbn [rsim].
    rewrite (lt_either x y f f' Hx Hf), (lt_either x y g g' Hx Hg), (eq_either x y f f' Hx Hf).
    destruct (x <? f)%Z; [cbn; auto using finite_either|]. destruct ((x <? g)%Z && negb (x =? f)%Z); cbn; auto using finite_either.
  - intros (((f & g) & a) & b) (((f' & g') & a') & b') (Hf & Hg & -> & ->). reflexivity.
Qed.

Lemma nearest_distances_unit medoids :
  rsim (listed finite) (samples_to_nearest_medoid_distances Z.ltb top src medoids) (samples_to_nearest_medoid_distances Z.ltb top src' medoids).
Proof using U.
  unfold samples_to_nearest_medoid_distances. destruct medoids as [|m ms]; [exact I|]. rewrite (u_rows _ _ _ _ U).
  apply fill_sim. intros o _. cbn [for_each].
  apply (rsim_bind finite).
  - apply (rsim_bind finite); [apply dist_sim|]. intros x y Hx. cbn [rsim]. pose proof Hx as (H1 & _ & H2).
    now rewrite (proj2 (Z.ltb_lt _ _) H1), (proj2 (Z.ltb_lt _ _) H2).
  - intros f f' Hf. apply (rsim_each finite); auto. intros m' g g' Hg. apply (rsim_bind finite); [apply dist_sim|]. intros x y Hx. cbn [rsim].
    rewrite (lt_either x y g g' Hx (finite_either _ _ Hg)). destruct (x <? g)%Z; auto.
Qed.

Lemma second_distances_unit medoids :
  rsim (listed either) (samples_to_second_nearest_medoid_distances Z.ltb Z.eqb top src medoids)
    (samples_to_second_nearest_medoid_distances Z.ltb Z.eqb top src' medoids).
Proof using U.
  unfold samples_to_second_nearest_medoid_distances. destruct medoids as [|m ms]; [exact I|]. rewrite (u_rows _ _ _ _ U).
  apply fill_sim. intros o _.
  set (P := fun (s t : Z * Z) => either (fst s) (fst t) /\ either (snd s) (snd t)).
  apply (rsim_bind P).
  - apply (rsim_each P); [split; now left|]. intros m' (f & g) (f' & g') (Hf & Hg). cbn [fst snd] in Hf, Hg.
    apply (rsim_bind finite); [apply dist_sim|]. intros x y Hx. cbn [rsim].
    rewrite (lt_either x y f f' Hx Hf), (lt_either x y g g' Hx Hg), (eq_either x y f f' Hx Hf).
    destruct (x <? f)%Z; [split; cbn; auto using finite_either|]. destruct ((x <? g)%Z && negb (x =? f)%Z); split; cbn; auto using finite_either.
  - intros (f & g) (f' & g') (_ & Hg). exact Hg.
Qed.

Lemma nth_indices_unit medoids nth_closest : nth_indices top src' medoids nth_closest = nth_indices top src medoids nth_closest.
Proof using U. unfold nth_indices, nth_nearest. now rewrite nearest_indices_unit, second_indices_unit. Qed.

(** ** FasterPAM.hpp *)
(** How many of the samples [t], [t + 1], ... have the medoid at position [j] and no distance stored for the second nearest. *)
Definition open_at (nearest : list nat) (seconds : list Z) (j t : nat) : Z :=
  fold_right Z.add 0%Z (map (fun i => if (nth i nearest 0 =? j) && (nth i seconds 0 =? top)%Z then 1%Z else 0%Z)
    (seq t (length nearest - t))).

Lemma open_step nearest seconds j t : t < length nearest -> open_at nearest seconds j t =
  ((if ((nth t nearest 0 =? j)%nat && (nth t seconds 0 =? top)) then 1 else 0) + open_at nearest seconds j (S t))%Z.
Proof.
  intros Ht. unfold open_at. replace (length nearest - t) with (S (length nearest - S t)) by lia. reflexivity.
Qed.
Lemma open_end nearest seconds j : open_at nearest seconds j (length nearest) = 0%Z.
Proof. unfold open_at. now rewrite Nat.sub_diag. Qed.

(** The losses of the two runs: a multiple of the unit, and the largest number as often as [count] says. *)
Definition losses (count : nat -> Z) (l l' : list Z) : Prop :=
  length l' = length l /\ forall j x x', nth_error l j = Some x -> nth_error l' j = Some x' ->
    exists v, x = (v + count j * top)%Z /\ x' = (c * v + count j * top)%Z.

(** Adding [v + w * top] to the element at [i]. *)
Lemma add_losses count count' l l' i x x' v w : losses count l l' -> x = (v + w * top)%Z -> x' = (c * v + w * top)%Z ->
  (forall j, count' j = (count j + if Nat.eqb j i then w else 0)%Z) ->
  rsim (losses count') (add_at signed_wrap l i x) (add_at signed_wrap l' i x').
Proof.
  intros (HL & H) -> -> Hc. unfold add_at, rd, wr, signed_wrap. rewrite HL.
  destruct (nth_error l i) as [y|] eqn:E.
  - assert (Hi : i < length l) by (apply nth_error_Some; congruence).
    destruct (nth_error l' i) as [y'|] eqn:E'; [|apply nth_error_None in E'; lia]. cbn [bind].
    rewrite (proj2 (Nat.ltb_lt _ _) Hi). cbn [rsim]. split; [now rewrite !upd_length|]. intros j z z'.
    rewrite !upd_at, HL, (proj2 (Nat.ltb_lt _ _) Hi), andb_true_r. rewrite (Hc j). destruct (Nat.eqb_spec j i) as [->|Hne].
    + intros E1 E2. injection E1 as <-. injection E2 as <-. destruct (H i y y' E E') as (u & -> & ->). exists (u + v)%Z. split; lia.
    + intros E1 E2. rewrite Z.add_0_r. now apply (H j).
  - destruct (nth_error l' i) as [y'|] eqn:E'; [|exact I].
    assert (i < length l') by (apply nth_error_Some; congruence). apply nth_error_None in E. lia.
Qed.

Lemma losses_ext count count' l l' : losses count l l' -> (forall j, count' j = count j) -> losses count' l l'.
Proof. intros (HL & H) Hc. split; auto. intros j x x' E E'. rewrite Hc. auto. Qed.

(** What the two states have in common. *)
Record alike (p p' : pam) : Prop := {
  k_medoids : p_medoids p' = p_medoids p;
  k_nearest : p_nearest p' = p_nearest p;
  k_second : p_second p' = p_second p;
  k_distances : listed finite (p_distances p) (p_distances p');
  k_seconds : listed either (p_second_distances p) (p_second_distances p');
  k_rows : length (p_nearest p) = rows src;
  k_losses : losses (fun j => open_at (p_nearest p) (p_second_distances p) j 0) (p_losses p) (p_losses p');
  k_loss : (p_loss p' = c * p_loss p)%Z }.

Lemma nth_of {A} (l : list A) i x d : nth_error l i = Some x -> nth i l d = x.
Proof. intros E. now apply List.nth_error_nth. Qed.

Lemma top_either x y : either x y -> (x = top /\ y = top /\ (x =? top)%Z = true) \/ (finite x y /\ (x =? top)%Z = false).
Proof. intros [(-> & ->)|H]; [left|right]; split; auto; [split; auto; apply Z.eqb_refl|]. destruct H as (H & _). apply Z.eqb_neq. lia. Qed.

Lemma compute_losses_unit nearest distances distances' seconds seconds' k :
  listed finite distances distances' -> listed either seconds seconds' ->
  rsim (losses (fun j => open_at nearest seconds j 0)) (compute_losses signed_wrap nearest distances seconds k)
    (compute_losses signed_wrap nearest distances' seconds' k).
Proof.
  intros Hd Hs. unfold compute_losses.
  apply (rsim_mono (losses (fun j => open_at nearest seconds j 0 - open_at nearest seconds j (0 + length nearest))%Z)).
  2:{ intros l l' H. apply (losses_ext _ _ _ _ H). intros j. cbn [Nat.add]. rewrite open_end. lia. }
  apply (rsim_loop (fun t => losses (fun j => open_at nearest seconds j 0 - open_at nearest seconds j t)%Z)).
  - split; [auto|]. intros j x x' E E'. rewrite E in E'. injection E' as ->. exists 0%Z.
    apply nth_error_In, repeat_spec in E. lia.
  - intros i l l' Hi Hl. unfold rd at 1 4. destruct (nth_error nearest i) as [a|] eqn:Ea; [|exact I]. cbn [bind].
    pose proof (rd_listed _ _ _ i Hs) as Hr. unfold rd in Hr |- *.
    destruct (nth_error seconds i) as [x|] eqn:Ex, (nth_error seconds' i) as [x'|]; cbn in Hr; try contradiction; [|exact I]. cbn [bind].
    pose proof (rd_listed _ _ _ i Hd) as Hq. unfold rd in Hq.
    destruct (nth_error distances i) as [y|] eqn:Ey, (nth_error distances' i) as [y'|]; cbn in Hq; try contradiction; [|exact I]. cbn [bind].
    destruct Hq as (Hy1 & -> & Hy2).
    assert (Hc : forall j w, w = (if (x =? top)%Z then 1 else 0)%Z ->
      (open_at nearest seconds j 0 - open_at nearest seconds j (S i) =
       open_at nearest seconds j 0 - open_at nearest seconds j i + if Nat.eqb j a then w else 0)%Z).
    { intros j w ->. rewrite (open_step nearest seconds j i) by lia. rewrite (nth_of _ _ _ 0 Ea), (nth_of _ _ _ 0%Z Ex).
      rewrite (Nat.eqb_sym j a). destruct (a =? j), (x =? top)%Z; cbn [andb]; lia. }
    destruct (top_either x x' Hr) as [(-> & -> & E)|((_ & -> & _) & E)]; rewrite E in Hc.
    + apply (add_losses _ _ _ _ _ _ _ (- y)%Z 1%Z Hl); try lia. intros j. now apply Hc.
    + apply (add_losses _ _ _ _ _ _ _ (x - y)%Z 0%Z Hl); try lia. intros j. now apply Hc.
Qed.

Lemma fold_sum_scaled : forall l l' a, listed finite l l' ->
  fold_left (fun acc d => signed_wrap (acc + d)%Z) l' (c * a)%Z = (c * fold_left (fun acc d => signed_wrap (acc + d)%Z) l a)%Z.
Proof.
  unfold signed_wrap. induction l as [|x l IH]; intros [|x' l'] a (HL & H); cbn in HL; try lia; auto. cbn [fold_left].
  destruct (H 0 x x' eq_refl eq_refl) as (_ & -> & _). rewrite <- Z.mul_add_distr_l. apply IH. split; [lia|]. intros i. apply (H (S i)).
Qed.

Lemma nearest_length medoids v : samples_to_nearest_medoid_indices Z.ltb top src medoids = Ok v -> length v = rows src.
Proof.
  unfold samples_to_nearest_medoid_indices, fill. destruct medoids as [|m ms]; [discriminate|].
  assert (G : forall f count first w r, for_loop count first (fun i v => x <- f i ;; wr v i x) w = Ok r -> length r = @length nat w).
  { intros f. induction count; intros first w r; cbn [for_loop].
    - intros E. now injection E as <-.
    - intros E. apply bind_ok in E. destruct E as (w' & E' & E). apply bind_ok in E'. destruct E' as (x & _ & E').
      apply IHcount in E. rewrite E. unfold wr in E'. destruct (first <? length w); [|discriminate]. injection E' as <-. apply upd_length. }
  intros E. apply G in E. now rewrite repeat_length in E.
Qed.

Lemma make_unit medoids : rsim alike (make_pam signed_wrap top src medoids) (make_pam signed_wrap top src' medoids).
Proof using U.
  unfold make_pam. rewrite !nth_indices_unit.
  destruct (nth_indices top src medoids 1) as [nearest| | |] eqn:En; try exact I. cbn [bind].
  destruct (nth_indices top src medoids 2) as [second| | |] eqn:Es; try exact I. cbn [bind].
  assert (HL : length nearest = rows src).
  { unfold nth_indices, nth_nearest in En. destruct ((1 =? 0) || (length medoids <? 1)); [discriminate|]. cbn [Nat.eqb] in En. now apply nearest_length in En. }
  apply (rsim_bind (listed finite)).
  { unfold nth_distances, nth_nearest. destruct ((1 =? 0) || (length medoids <? 1)); [exact I|]. cbn [Nat.eqb]. apply nearest_distances_unit. }
  intros ds ds' Hd. apply (rsim_bind (listed either)).
  { unfold nth_distances, nth_nearest. destruct ((2 =? 0) || (length medoids <? 2)); [exact I|]. cbn [Nat.eqb]. apply second_distances_unit. }
  intros ss ss' Hs. apply (rsim_bind _ _ _ _ _ _ (compute_losses_unit nearest ds ds' ss ss' (length medoids) Hd Hs)).
  intros l l' Hl. cbn [rsim]. split; cbn; auto.
  rewrite <- (fold_sum_scaled ds ds' 0 Hd). now rewrite Z.mul_0_r.
Qed.

(** The first of the smallest elements. *)
Lemma max_listed : forall l l', listed (fun x y => y = c * x)%Z l l' ->
  rsim (fun r r' => fst r' = fst r /\ snd r' = (c * snd r)%Z)
    (get_max_index_value_pair (fun x y => (y <? x)%Z) l) (get_max_index_value_pair (fun x y => (y <? x)%Z) l').
Proof using U.
  intros l l' (HL & H). assert (E : l' = map (Z.mul c) l).
  { revert l' HL H. induction l as [|x l IH]; intros [|x' l'] HL H; cbn in HL; try lia; auto.
    cbn [map]. f_equal; [apply (H 0); auto|apply IH; [lia|intros i; apply (H (S i))]]. }
  rewrite E, (max_map (Z.mul c) (fun x y => (y <? x)%Z)).
  - destruct (get_max_index_value_pair _ l) as [(a & b)| | |]; cbn; auto.
  - intros x y. pose proof factor. destruct (Z.ltb_spec y x); [apply Z.ltb_lt|apply Z.ltb_ge]; nia.
Qed.

Lemma best_unit p p' o : alike p p' ->
  rsim (fun r r' => fst r' = (c * fst r)%Z /\ snd r' = snd r) (find_best_swap signed_wrap src p o) (find_best_swap signed_wrap src' p' o).
Proof using U.
  intros K. unfold find_best_swap. rewrite (u_rows _ _ _ _ U).
  set (P := fun t (s s' : Z * list Z) => (fst s' = c * fst s)%Z /\
    losses (fun j => open_at (p_nearest p) (p_second_distances p) j t) (snd s) (snd s')).
  apply (rsim_bind (P (0 + rows src))).
  - apply (rsim_loop P).
    + split; [cbn; lia|]. apply K.
    + intros i (d & l) (d' & l') Hi (Ed & Hl). cbn [fst snd] in Ed, Hl. subst d'.
      apply (rsim_bind finite); [apply dist_sim|]. intros x x' Hx.
      rewrite (k_nearest _ _ K). unfold rd at 1 4. destruct (nth_error (p_nearest p) i) as [a|] eqn:Ea; [|exact I]. cbn [bind].
      apply (rsim_bind finite); [apply rd_listed, K|]. intros y y' Hy.
      pose proof (rd_listed _ _ _ i (k_seconds _ _ K)) as Hr. unfold rd in Hr |- *.
      destruct (nth_error (p_second_distances p) i) as [z|] eqn:Ez, (nth_error (p_second_distances p') i) as [z'|];
        cbn in Hr; try contradiction; [|exact I]. cbn [bind].
      rewrite (lt_either x x' y y' Hx (finite_either _ _ Hy)), (lt_either x x' z z' Hx Hr).
      assert (Hc : forall j w, w = (if (z =? top)%Z then - 1 else 0)%Z ->
        open_at (p_nearest p) (p_second_distances p) j (S i) =
        (open_at (p_nearest p) (p_second_distances p) j i + if Nat.eqb j a then w else 0)%Z).
      { intros j w ->. rewrite (open_step _ _ j i) by (rewrite (k_rows _ _ K); lia). rewrite (nth_of _ _ _ 0 Ea), (nth_of _ _ _ 0%Z Ez).
        rewrite (Nat.eqb_sym j a). destruct (a =? j), (z =? top)%Z; cbn [andb]; lia. }
      destruct Hx as (Hx1 & -> & Hx2). destruct Hy as (Hy1 & -> & Hy2).
      destruct (top_either z z' Hr) as [(-> & -> & E)|((_ & -> & _) & E)]; rewrite E in Hc.
      * rewrite (proj2 (Z.ltb_lt _ _) Hx1). destruct (x <? y)%Z.
        -- apply (rsim_bind (losses (fun j => open_at (p_nearest p) (p_second_distances p) j (S i)))).
           ++ apply (add_losses _ _ _ _ _ _ _ y (- 1)%Z Hl); try lia. intros j. now apply Hc.
           ++ intros m m' Hm. split; cbn [fst snd]; auto. unfold signed_wrap. lia.
        -- apply (rsim_bind (losses (fun j => open_at (p_nearest p) (p_second_distances p) j (S i)))).
           ++ apply (add_losses _ _ _ _ _ _ _ x (- 1)%Z Hl); try lia. intros j. now apply Hc.
           ++ intros m m' Hm. now split.
      * destruct (x <? y)%Z; [|destruct (x <? z)%Z].
        -- apply (rsim_bind (losses (fun j => open_at (p_nearest p) (p_second_distances p) j (S i)))).
           ++ apply (add_losses _ _ _ _ _ _ _ (y - z)%Z 0%Z Hl); try lia. intros j. now apply Hc.
           ++ intros m m' Hm. split; cbn [fst snd]; auto. unfold signed_wrap. lia.
        -- apply (rsim_bind (losses (fun j => open_at (p_nearest p) (p_second_distances p) j (S i)))).
           ++ apply (add_losses _ _ _ _ _ _ _ (x - z)%Z 0%Z Hl); try lia. intros j. now apply Hc.
           ++ intros m m' Hm. now split.
        -- split; cbn [fst snd]; auto. apply (losses_ext _ _ _ _ Hl). intros j. rewrite (Hc j 0%Z eq_refl). destruct (j =? a); lia.
  - intros (d & l) (d' & l') (Ed & Hl). cbn [fst snd] in Ed, Hl. subst d'. cbn [Nat.add] in Hl. rewrite <- (k_rows _ _ K) in Hl.
    assert (Hs : listed (fun x y => y = c * x)%Z l l').
    { destruct Hl as (HL & H). split; auto. intros i x x' E E'. destruct (H i x x' E E') as (v & -> & ->). rewrite open_end. lia. }
    apply (rsim_bind _ _ _ _ _ _ (max_listed l l' Hs)). intros (a & b) (a' & b') (H1 & H2). cbn [fst snd] in H1, H2. subst.
    cbn. unfold signed_wrap. split; auto. lia.
Qed.

Lemma update_second_unit medoids b o x x' a : finite x x' ->
  rsim (fun r r' => fst r' = fst r /\ finite (snd r) (snd r'))
    (update_second_nearest src medoids b o x a) (update_second_nearest src' medoids b o x' a).
Proof using U.
  intros Hx. unfold update_second_nearest.
  apply (rsim_loop (fun _ (r r' : nat * Z) => fst r' = fst r /\ finite (snd r) (snd r'))); [split; auto|].
  intros i (j & y) (j' & y') _ (Ej & Hy). cbn [fst snd] in Ej, Hy. subst j'.
  destruct (negb (i =? a) && negb (i =? b)); [|split; auto]. apply (rsim_bind finite); [apply medoid_sim|]. intros z z' Hz. cbn [rsim].
  rewrite (lt_either z z' y y' Hz (finite_either _ _ Hy)). destruct (z <? y)%Z; split; auto.
Qed.

Lemma swap_sample_unit medoids m b o i1 i2 x x' y y' : (0 < top)%Z -> finite x x' -> either y y' ->
  rsim (fun r r' => let '(i1, i2, x, y) := r in let '(i1', i2', x', y') := r' in i1' = i1 /\ i2' = i2 /\ finite x x' /\ either y y')
    (swap_sample src medoids m b o i1 i2 x y) (swap_sample src' medoids m b o i1 i2 x' y').
Proof using U.
  intros Ht Hx Hy. unfold swap_sample. assert (H0 : finite 0 0) by (unfold finite; lia).
  destruct (o =? m).
  { destruct (negb (i1 =? b)); cbn; auto using finite_either. }
  apply (rsim_bind finite); [apply dist_sim|]. intros z z' Hz.
  rewrite (lt_either z z' x x' Hz (finite_either _ _ Hx)), (lt_either z z' y y' Hz Hy).
  destruct (i1 =? b).
  - destruct (z <? y)%Z eqn:E; [cbn; auto|]. apply (rsim_bind _ _ _ _ _ _ (update_second_unit medoids b o z z' i2 Hz)).
    intros (j & w) (j' & w') (Ej & Hw). cbn [fst snd] in Ej, Hw. subst j'. cbn. split; auto. split; auto. split; auto using finite_either.
    destruct Hy as [(-> & _)|Hy]; auto. destruct Hz as (Hz & _). apply Z.ltb_ge in E. lia.
  - destruct (z <? x)%Z; [cbn; auto using finite_either|]. destruct (z <? y)%Z; [cbn; auto using finite_either|].
    destruct (i2 =? b); [|cbn; auto]. apply (rsim_bind _ _ _ _ _ _ (update_second_unit medoids b o z z' i1 Hz)).
    intros (j & w) (j' & w') (Ej & Hw). cbn [fst snd] in Ej, Hw. subst j'. cbn. auto using finite_either.
Qed.

Lemma swap_unit medoids p p' m b : (0 < top)%Z -> alike p p' ->
  rsim (fun r r' => let '(n1, n2, d1, d2, l) := r in let '(n1', n2', d1', d2', l') := r' in
      n1' = n1 /\ n2' = n2 /\ listed finite d1 d1' /\ listed either d2 d2' /\ l' = (c * l)%Z /\ length n1 = rows src)
    (swap_buffers signed_wrap src medoids p m b) (swap_buffers signed_wrap src' medoids p' m b).
Proof using U.
  intros Ht K. unfold swap_buffers. rewrite (u_rows _ _ _ _ U), (k_nearest _ _ K), (k_second _ _ K).
  set (P := fun (r r' : list nat * list nat * list Z * list Z * Z) => let '(n1, n2, d1, d2, l) := r in let '(n1', n2', d1', d2', l') := r' in
      n1' = n1 /\ n2' = n2 /\ listed finite d1 d1' /\ listed either d2 d2' /\ l' = (c * l)%Z /\ length n1 = rows src).
  apply (rsim_loop (fun _ => P)).
  - cbn. rewrite Z.mul_0_r. pose proof (k_distances _ _ K). pose proof (k_seconds _ _ K). pose proof (k_rows _ _ K). auto 10.
  - intros o ((((n1 & n2) & d1) & d2) & l) ((((n1' & n2') & d1') & d2') & l') _ (-> & -> & Hd1 & Hd2 & -> & HL).
    unfold rd at 1 2 5 6. destruct (nth_error n1 o) as [i1|]; [|exact I]. cbn [bind]. destruct (nth_error n2 o) as [i2|]; [|exact I]. cbn [bind].
    apply (rsim_bind finite); [now apply rd_listed|]. intros x x' Hx. apply (rsim_bind either); [now apply rd_listed|]. intros y y' Hy.
    apply (rsim_bind _ _ _ _ _ _ (swap_sample_unit medoids m b o i1 i2 x x' y y' Ht Hx Hy)).
    intros (((j1 & j2) & u) & v) (((j1' & j2') & u') & v') (-> & -> & Hu & Hv).
    unfold wr at 1 2 5 6. destruct (o <? length n1) eqn:E1; [|exact I]. cbn [bind]. destruct (o <? length n2); [|exact I]. cbn [bind].
    apply (rsim_bind (listed finite)); [now apply wr_listed|]. intros e1 e1' He1. apply (rsim_bind (listed either)); [now apply wr_listed|].
    intros e2 e2' He2. cbn. rewrite upd_length. split; auto. split; auto. split; auto. split; auto. split; auto.
    destruct Hu as (_ & -> & _). unfold signed_wrap. destruct (o =? m); lia.
Qed.

Lemma try_unit o p p' : (0 < top)%Z -> alike p p' ->
  rsim alike (try_candidate signed_wrap src o p) (try_candidate signed_wrap src' o p').
Proof using U.
  intros Ht K. unfold try_candidate. rewrite (k_nearest _ _ K). destruct (rd (p_nearest p) o) as [a| | |]; try exact I. cbn [bind].
  destruct (negb (o =? a)); [|exact K]. apply (rsim_bind _ _ _ _ _ _ (best_unit p p' o K)).
  intros (x & b) (x' & b') (Ex & Eb). cbn [fst snd] in Ex, Eb. subst. pose proof factor as Hc.
  replace (c * x <? 0)%Z with (x <? 0)%Z by (destruct (Z.ltb_spec x 0); symmetry; [apply Z.ltb_lt|apply Z.ltb_ge]; nia).
  destruct (x <? 0)%Z; [|exact K]. rewrite (k_medoids _ _ K). destruct (wr (p_medoids p) b o) as [medoids| | |]; try exact I. cbn [bind].
  apply (rsim_bind _ _ _ _ _ _ (swap_unit medoids p p' o b Ht K)).
  intros ((((n1 & n2) & d1) & d2) & l) ((((n1' & n2') & d1') & d2') & l') (-> & -> & Hd1 & Hd2 & -> & HL).
  apply (rsim_bind _ _ _ _ _ _ (compute_losses_unit n1 d1 d1' d2 d2' (length medoids) Hd1 Hd2)). intros ls ls' Hls.
  cbn [rsim]. split; cbn; auto.
Qed.

Lemma step_unit p p' : (0 < top)%Z -> alike p p' -> rsim alike (pam_step signed_wrap src p) (pam_step signed_wrap src' p').
Proof using U.
  intros Ht K. unfold pam_step. rewrite (u_rows _ _ _ _ U). apply (rsim_loop (fun _ => alike)); auto. intros i q q' _. now apply try_unit.
Qed.

(** ** KMedoids.hpp *)
Definition same_result (r r' : list nat * Z) : Prop := fst r' = fst r /\ snd r' = (c * snd r)%Z.

Lemma loop_unit o : (0 < top)%Z -> forall t patience previous candidate p p', alike p p' ->
  rsim (fun r r' => fst r' = fst r /\ alike (snd r) (snd r'))
    (medoids_loop signed_wrap src o t patience previous candidate p) (medoids_loop signed_wrap src' o t patience previous candidate p').
Proof using U.
  intros Ht. induction t as [|t IH]; intros patience previous candidate p p' K; cbn [medoids_loop]; [now split|].
  apply (rsim_bind _ _ _ _ _ _ (step_unit p p' Ht K)). intros q q' Kq. cbn zeta. rewrite (k_medoids _ _ Kq).
  destruct (mo_early_stopping o && same_indices (p_medoids q) previous); [|now apply IH].
  destruct (patience =? mo_patience o); [now split|now apply IH].
Qed.

Lemma candidate_unit o candidate : (0 < top)%Z ->
  rsim same_result (medoids_candidate signed_wrap top src o candidate) (medoids_candidate signed_wrap top src' o candidate).
Proof using U.
  intros Ht. unfold medoids_candidate. apply (rsim_bind _ _ _ _ _ _ (make_unit candidate)). intros p p' K.
  apply (rsim_bind _ _ _ _ _ _ (loop_unit o Ht (mo_max_iter o) 0 [] candidate p p' K)). intros (m & q) (m' & q') (Em & Kq).
  cbn [fst snd] in Em, Kq. subst. split; cbn; auto. apply Kq.
Qed.

Lemma fit_unit o k medoids draw : (0 < top)%Z ->
  medoids_fit signed_wrap top src' o k medoids draw = medoids_fit signed_wrap top src o k medoids draw.
Proof using U.
  intros Ht. apply rsim_eq. unfold medoids_fit.
  assert (E : medoids_candidates src' o k medoids draw = medoids_candidates src o k medoids draw).
  { unfold medoids_candidates. now rewrite (u_rows _ _ _ _ U). }
  rewrite E. clear E. destruct (medoids_candidates src o k medoids draw) as [cs| | |]; try exact I. cbn [bind].
  set (P := listed same_result). apply (rsim_bind P).
  - apply (rsim_each P); [split; auto; intros i x x' F; destruct i; discriminate|]. intros candidate rs rs' (HL & H).
    apply (rsim_bind _ _ _ _ _ _ (candidate_unit o candidate Ht)). intros r r' Hr. cbn [rsim]. split; [rewrite !app_length, HL; reflexivity|].
    intros i x x'. destruct (Nat.lt_ge_cases i (length rs)) as [Hi|Hi].
    + rewrite !nth_error_app1 by lia. apply H.
    + rewrite !nth_error_app2 by lia. rewrite HL. destruct (i - length rs) as [|[|]]; cbn; congruence.
  - intros rs rs' HP. assert (HS : listed (fun x y => y = c * x)%Z (map snd rs) (map snd rs')).
    { destruct HP as (HL & H). split; [now rewrite !map_length|]. intros i x x'. rewrite !nth_error_map.
      destruct (nth_error rs i) as [r|] eqn:E1, (nth_error rs' i) as [r'|] eqn:E2; cbn; try discriminate. intros F F'.
      injection F as <-. injection F' as <-. now apply (H i r r'). }
    apply (rsim_bind _ _ _ _ _ _ (max_listed _ _ HS)). intros (a & b) (a' & b') (Ea & _). cbn [fst] in Ea. subst a'.
    apply (rsim_bind same_result); [now apply rd_listed|]. intros (m & l) (m' & l') (Em & _). cbn in Em. now subst.
Qed.
End Unit_.
