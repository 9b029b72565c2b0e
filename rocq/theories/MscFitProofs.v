(** Lemmas on [KMedoids::fit<FasterMSC>]. *)
From Coq Require Import List Arith ZArith QArith Qabs Lqa Lia Bool Permutation.
From Verif Require Import Base SortingModel SortingProofs BufferModel BufferSpec BufferProofs RandomModel RandomSpec RandomProps AliasProofs KMeansModel KMeansSpec KMeansProofs
  KMedoidsModel KMedoidsSpec KMedoidsProofs MscModel MscSpec MscProofs MscProps MscFitModel MscFitSpec.
Import ListNotations.
Local Open Scope nat_scope.

Definition msc_algorithm (eps top : Q) (src : source Q) : algorithm index_arith :=
  mk_algorithm index_arith msc (make_msc eps top src) (msc_step eps src) s_medoids (fun _ => None).

Lemma msc_loop_eq eps top src o : forall it pi previous candidate p,
  msc_loop eps src o it pi previous candidate p =
  fit_loop index_arith (msc_algorithm eps top src) (as_options o) Nat.eqb it pi previous candidate p.
Proof.
  induction it as [|it IH]; intros pi previous candidate p; cbn [msc_loop fit_loop]; auto.
  change (alg_step index_arith (msc_algorithm eps top src) p) with (msc_step eps src p).
  destruct (msc_step eps src p); cbn [bind]; auto.
  change (are_containers_equal index_arith Nat.eqb (alg_centroids index_arith (msc_algorithm eps top src) a) previous)
    with (same_indices (s_medoids a) previous).
  change (early_stopping (as_options o)) with (mo_early_stopping o). change (patience (as_options o)) with (mo_patience o).
  destruct (_ && _); [destruct (_ =? _); auto|]; apply IH.
Qed.

Lemma lower_order : order_ok (fun x y : Q => Qlt_bool y x).
Proof.
  split.
  - intros a b H. apply Qlt_bool_iff in H. apply Qlt_bool_false. lra.
  - intros a b c H1 H2. apply Qlt_bool_false in H1, H2. apply Qlt_bool_false. lra.
Qed.

Section Fit.
Context (eps top : Q) (dist : nat -> nat -> Q) (n : nat) (src : source Q) (Hsrc : provides src n dist) (Heps : (0 <= eps)%Q).
Context (o : medoids_options).

Definition msc_start (M : list nat) : Prop := (forall m, In m M -> m < n) /\ 2 <= length M.

Lemma msc_states p : well_formed n p ->
  exists st, st 0 = p /\ forall t,
    msc_step eps src (st t) = Ok (st (S t)) /\ well_formed n (st t) /\ length (s_medoids (st t)) = length (s_medoids p).
Proof using Hsrc.
  intros Hp.
  set (st := fix st t := match t with 0 => p | S t => match msc_step eps src (st t) with Ok q => q | _ => st t end end).
  assert (HS : forall t, st (S t) = match msc_step eps src (st t) with Ok q => q | _ => st t end) by reflexivity.
  assert (H : forall t, well_formed n (st t) /\ length (s_medoids (st t)) = length (s_medoids p)).
  { induction t as [|t (IH & IL)]; [split; auto|].
    destruct (msc_step_safe eps dist n src Hsrc (st t) IH) as (q & E & Hq & L). rewrite HS, E. split; auto. congruence. }
  exists st. split; auto. intros t. destruct (H t) as (Hc & Hl).
  destruct (msc_step_safe eps dist n src Hsrc (st t) Hc) as (q & E & _). rewrite HS, E. splits; auto.
Qed.

Lemma msc_candidate_ok M : msc_start M ->
  exists r, msc_candidate eps top src o M = Ok r /\ msc_reached eps top src o M r /\
    (forall m, In m (fst r) -> m < n) /\ length (fst r) = length M.
Proof using Hsrc Heps.
  intros (HM & Hk).
  destruct (c72_construction_any eps top dist n src M Hsrc Heps HM Hk) as (p & Ep & EM & Hw & _).
  destruct (msc_states p Hw) as (st & H0 & H).
  unfold msc_candidate. rewrite Ep. cbn [bind].
  destruct (fit_loop_ok index_arith (msc_algorithm eps top src) (as_options o) Nat.eqb st (fun i => proj1 (H i))
    ltac:(intros i E; destruct (H i) as (_ & Hc & _); pose proof (w_two _ _ Hc) as H2;
          change (s_medoids (st i) = []) in E; rewrite E in H2; simpl in H2; lia) M (mo_max_iter o) 0 0) as (t & E & Ht);
    cbn [as_options max_iter patience early_stopping]; try lia.
  - intros _. split; [lia|left; lia].
  - intros t' Ht' (_ & Hs). destruct (Hs 0); lia.
  - cbn [Nat.eqb] in E. rewrite H0 in E.
    assert (E' : msc_loop eps src o (mo_max_iter o) 0 [] M p =
      Ok (if t =? 0 then M else s_medoids (st t), st t)) by (rewrite (msc_loop_eq eps top); exact E).
    rewrite E'. cbn [bind].
    assert (ER : (if t =? 0 then M else s_medoids (st t)) = s_medoids (st t)).
    { destruct t; simpl; auto. rewrite H0. auto. }
    destruct (H t) as (_ & Hc & Hl). exists (s_medoids (st t), total_deviation (st t)). rewrite ER. splits; auto.
    + exists st, t. rewrite H0. splits; auto. intros i. apply H.
    + apply Hc.
    + cbn [fst]. congruence.
Qed.

Lemma msc_best_ok n_medoids medoids draw starts : msc_candidates src o n_medoids medoids draw = Ok starts ->
  starts <> [] -> (forall M, In M starts -> msc_start M) ->
  exists results best loss, msc_fit eps top src o n_medoids medoids draw = Ok best /\
    Forall2 (fun M r => msc_reached eps top src o M r /\ (forall m, In m (fst r) -> m < n) /\ length (fst r) = length M) starts results /\
    In (best, loss) results /\ forall R l, In (R, l) results -> (loss <= l)%Q.
Proof using Hsrc Heps.
  intros Es Hne Hall. unfold msc_fit. rewrite Es. cbn [bind].
  destruct (for_each_inv (fun done results => Forall2 (fun M (r : list nat * Q) =>
      msc_reached eps top src o M r /\ (forall m, In m (fst r) -> m < n) /\ length (fst r) = length M) done results)
    (fun candidate results => r <- msc_candidate eps top src o candidate ;; Ok (results ++ [r])) starts [] [])
    as (results & E & HP).
  - constructor.
  - intros x d t Hx HP. destruct (msc_candidate_ok x (Hall x Hx)) as (r & -> & HR). cbn [bind].
    eexists. split; [reflexivity|]. apply Forall2_app; auto.
  - simpl in HP. rewrite E. cbn [bind].
    assert (Hr : map snd results <> []). { destruct HP; [congruence|discriminate]. }
    destruct (get_max_spec _ lower_order (map snd results) Hr) as (i & loss & Em & Hi & H2). rewrite Em. cbn [bind].
    rewrite nth_error_map in Hi. destruct (nth_error results i) as [(best & l)|] eqn:Er; [|discriminate]. cbn in Hi. injection Hi as ->.
    rewrite (proj2 (rd_ok _ _ _) Er). cbn [bind].
    exists results, best, loss. splits; auto.
    + eapply nth_error_In; eauto.
    + intros R l HR. apply (in_map snd) in HR. apply Qlt_bool_false. apply (H2 _ HR).
Qed.

Lemma msc_random_starts k draw : (forall i, in_range (draw i)) -> k <= n ->
  exists starts, msc_candidates src o k [] draw = Ok starts /\ length starts = mo_n_init o /\
    forall M, In M starts -> Permutation M (seq 0 k).
Proof using Hsrc.
  intros Hd Hkn. unfold msc_candidates, medoids_candidates.
  match goal with |- context [for_each ?l ?body []] =>
    destruct (for_each_inv (fun d s => length s = length d /\ forall M, In M s -> Permutation M (seq 0 k)) body l [] [])
      as (starts & E & HL & HA) end.
  - split; auto. intros M [].
  - intros x d t Hx (HL & HA). cbn [rows]. rewrite (proj1 Hsrc).
    destruct (interval_ok (draw x) k n (Hd x) Hkn) as (idx & -> & HP & _). cbn [bind].
    eexists. split; [reflexivity|]. rewrite !app_length, HL. split; auto. intros M HM. apply in_app_or in HM.
    destruct HM as [HM|[<-|[]]]; auto.
  - exists starts. rewrite app_nil_l, seq_length in HL. auto.
Qed.
End Fit.

(** ** Two medoids settle *)
(** All sums of one element of each list. *)
Fixpoint sums (ls : list (list Q)) : list Q :=
  match ls with
  | [] => [0%Q]
  | l :: ls => flat_map (fun x => map (Qplus x) (sums ls)) l
  end.
Definition among (ls : list Q) (x : Q) : Prop := exists y, In y ls /\ (x == y)%Q.

Lemma sums_ok {A} (f : A -> Q) (g : A -> list Q) : forall s, (forall a, In a s -> among (g a) (f a)) ->
  among (sums (map g s)) (fold_right Qplus 0%Q (map f s)).
Proof.
  induction s as [|a s IH]; intros H; cbn [map sums fold_right].
  - exists 0%Q. split; [now left|reflexivity].
  - destruct (H a (or_introl eq_refl)) as (x & Hx & Ex). destruct IH as (y & Hy & Ey); [intros b Hb; apply H; now right|].
    exists (x + y)%Q. split; [|now rewrite Ex, Ey]. apply in_flat_map. exists x. split; auto. now apply in_map.
Qed.

(** Numbers of a finite set cannot fall for ever. *)
Lemma among_fall (ls : list Q) (T : nat) (x : nat -> Q) : length ls < T -> (forall i, i < T -> among ls (x i)) ->
  (forall i, S i < T -> (x (S i) < x i)%Q) -> False.
Proof.
  intros HT Ha Hf.
  assert (Hlt : forall i j, i < j -> j < T -> (x j < x i)%Q).
  { intros i j Hij. induction Hij as [|j Hij IH]; intros Hj; [auto|]. pose proof (Hf j Hj). specialize (IH ltac:(lia)). lra. }
  assert (HN : NoDup (map (fun i => Qred (x i)) (seq 0 T))).
  { apply (NoDup_nth _ 0%Q). rewrite map_length, seq_length. intros i j Hi Hj E.
    rewrite !(nth_indep _ 0%Q (Qred (x 0))) in E by (rewrite map_length, seq_length; auto).
    rewrite !(map_nth (fun i => Qred (x i)) (seq 0 T) 0), !seq_nth in E by auto. cbn [Nat.add] in E.
    assert (EQ : (x i == x j)%Q) by (rewrite <- (Qred_correct (x i)), <- (Qred_correct (x j)), E; reflexivity).
    destruct (Nat.lt_trichotomy i j) as [H|[H|H]]; auto.
    - pose proof (Hlt i j H Hj). lra.
    - pose proof (Hlt j i H Hi). lra. }
  assert (HI : incl (map (fun i => Qred (x i)) (seq 0 T)) (map Qred ls)).
  { intros y Hy. apply in_map_iff in Hy. destruct Hy as (i & <- & Hi). apply in_seq in Hi.
    destruct (Ha i ltac:(lia)) as (z & Hz & E). rewrite (Qred_complete _ _ E). now apply in_map. }
  pose proof (NoDup_incl_length HN HI) as H. rewrite !map_length, seq_length in H. lia.
Qed.

(** Steps that lower a loss of a finite set, or change nothing, come to rest. *)
Lemma steps_rest {S} (step : S -> res S) (inv : S -> Prop) (loss : S -> Q) (ls : list Q) :
  (forall p, inv p -> exists q, step p = Ok q /\ inv q /\ (q = p \/ ((loss q < loss p)%Q /\ among ls (loss q)))) ->
  forall p, inv p -> exists q, steps (Datatypes.S (length ls)) step p = Ok q /\ inv q /\ step q = Ok q.
Proof.
  intros H p Hp.
  set (st := fix st t := match t with 0 => p | Datatypes.S t => match step (st t) with Ok q => q | _ => st t end end).
  assert (HS : forall t, st (Datatypes.S t) = match step (st t) with Ok q => q | _ => st t end) by reflexivity.
  assert (HI : forall t, inv (st t)).
  { induction t; [exact Hp|]. destruct (H _ IHt) as (q & E & Hq & _). now rewrite HS, E. }
  assert (Hst : forall t, step (st t) = Ok (st (Datatypes.S t)) /\
    (st (Datatypes.S t) = st t \/ ((loss (st (Datatypes.S t)) < loss (st t))%Q /\ among ls (loss (st (Datatypes.S t)))))).
  { intros t. destruct (H _ (HI t)) as (q & E & _ & Hl). rewrite HS, E. auto. }
  assert (HE : forall t u, steps t step (st u) = Ok (st (t + u))).
  { induction t as [|t IH]; intros u; cbn [steps]; auto. rewrite (proj1 (Hst u)). cbn [bind]. rewrite IH. do 2 f_equal. lia. }
  set (T := Datatypes.S (length ls)).
  assert (HR : (exists i, i < T /\ st (Datatypes.S i) = st i) \/ forall i, i < T -> (loss (st (Datatypes.S i)) < loss (st i))%Q /\ among ls (loss (st (Datatypes.S i)))).
  { generalize T. induction T0 as [|T0 IH]; [right; lia|]. destruct IH as [(i & Hi & E)|IH]; [left; exists i; auto|].
    destruct (proj2 (Hst T0)) as [E|Hl]; [left; exists T0; auto|]. right. intros i Hi. destruct (Nat.eq_dec i T0) as [->|]; auto. apply IH. lia. }
  exists (st T). split; [change p with (st 0); rewrite (HE T 0); do 2 f_equal; lia|]. split; auto.
  destruct HR as [(i & Hi & E)|HR].
  - assert (HC : forall t, i <= t -> st t = st i).
    { intros t Ht. induction Ht as [|t Ht IH]; auto. pose proof (proj1 (Hst t)) as E1. pose proof (proj1 (Hst i)) as E2. rewrite IH in E1. congruence. }
    rewrite (HC T) by lia. rewrite (proj1 (Hst i)). now rewrite E.
  - exfalso. apply (among_fall ls T (fun i => loss (st (Datatypes.S i)))).
    + unfold T. lia.
    + intros i Hi. apply HR. auto.
    + intros i Hi. apply HR. auto.
Qed.

Section Two.
Context (eps top : Q) (dist : nat -> nat -> Q) (n : nat) (src : source Q) (Hsrc : provides src n dist).

Definition two_losses : list Q :=
  flat_map (fun c => sums (map (fun o => map (fun x => smaller_over_larger eps (dist c o) x) (0%Q :: top :: map (fun i => dist i o) (seq 0 n)))
    (seq 0 n))) (seq 0 n).

Lemma smaller_m x y y' : (y == y')%Q -> (smaller_over_larger eps x y == smaller_over_larger eps x y')%Q.
Proof using Type.
  intros E. unfold smaller_over_larger. destruct (Qlt_le_dec x y), (Qlt_le_dec x y'); try lra; rewrite E; reflexivity.
Qed.

Lemma counted_among p c b : two_medoids top dist n p -> c < n -> among two_losses (counted_loss eps dist n p c b).
Proof using Type.
  intros (_ & _ & Hst) Hc. unfold counted_loss, two_losses.
  destruct (sums_ok (fun o => smaller_over_larger eps (dist c o) (stored_other p b o))
    (fun o => map (fun x => smaller_over_larger eps (dist c o) x) (0%Q :: top :: map (fun i => dist i o) (seq 0 n))) (seq 0 n)) as (y & Hy & E).
  - intros o Ho. apply in_seq in Ho. destruct (Hst o ltac:(lia)) as (S1 & S2).
    assert (Hs : storable top dist n o (stored_other p b o)) by (unfold stored_other; destruct (b =? 0); auto).
    destruct Hs as [(i & Hi & E)|[E|E]].
    + exists (smaller_over_larger eps (dist c o) (dist i o)). split; [|now apply smaller_m].
      apply (in_map (fun x => smaller_over_larger eps (dist c o) x)). right. right. apply in_map_iff. exists i. split; auto. apply in_seq. lia.
    + exists (smaller_over_larger eps (dist c o) 0). split; [|now apply smaller_m]. now left.
    + exists (smaller_over_larger eps (dist c o) top). split; [|now apply smaller_m]. right. now left.
  - exists y. split; auto. apply in_flat_map. exists c. split; auto. apply in_seq. lia.
Qed.

Lemma two_step p : distances_ok dist n -> tolerance_exact eps top dist n -> two_medoids top dist n p ->
  exists q, msc_step eps src p = Ok q /\ two_medoids top dist n q /\
    (q = p \/ ((total_deviation q < total_deviation p)%Q /\ among two_losses (total_deviation q))).
Proof using Hsrc.
  intros Hd Hex Hp. unfold msc_step. rewrite (proj1 Hsrc).
  destruct (for_loop_inv (fun _ q => two_medoids top dist n q /\
    (q = p \/ ((total_deviation q < total_deviation p)%Q /\ among two_losses (total_deviation q)))) (msc_try eps src) n 0 p)
    as (q & E & Hq & Hl); auto.
  - intros c q Hc (Hq & Hl). destruct (msc_try_k2_ok eps top dist n src Hsrc q c Hq Hd Hex ltac:(lia)) as (T1 & T2).
    destruct (Nat.eq_dec (nth c (s_nearest q) 0) c) as [Ec|Ec]; [rewrite (T1 Ec); eauto|].
    destruct (T2 Ec) as (b & _ & _ & _ & T3 & T4).
    destruct (Qlt_le_dec (counted_loss eps dist n q c b) (total_deviation q)) as [Hlt|Hle]; [|rewrite (T3 Hle); eauto].
    destruct (T4 Hlt) as (q' & -> & _ & Hq' & EL & _). exists q'. split; auto. split; auto. right. split.
    + destruct Hl as [->|(Hl & _)]; lra.
    + destruct (counted_among q c b Hq ltac:(lia)) as (y & Hy & Ey). exists y. split; auto. now rewrite EL.
  - exists q. auto.
Qed.
End Two.

(** ** Three medoids settle *)
Lemma ratio_plus eps a b c : (ratio eps (a + b) c == ratio eps a c + ratio eps b c)%Q.
Proof. unfold ratio. destruct (Qlt_le_dec eps (Qabs c)); [unfold Qdiv; ring|ring]. Qed.

Lemma ratio_larger eps a b b' : (0 <= eps)%Q -> (0 <= a)%Q -> (eps < b)%Q -> (b <= b')%Q -> (ratio eps a b' <= ratio eps a b)%Q.
Proof.
  intros He Ha Hb Hb'. unfold ratio. pose proof (Qabs_pos b ltac:(lra)). pose proof (Qabs_pos b' ltac:(lra)).
  destruct (Qlt_le_dec eps (Qabs b')), (Qlt_le_dec eps (Qabs b)); try lra.
  apply Qle_shift_div_l; [lra|]. setoid_replace (a / b' * b)%Q with (a * b / b')%Q by (field; lra).
  apply Qle_shift_div_r; [lra|]. nra.
Qed.

Lemma ratio_pos eps a b : (0 <= a)%Q -> (0 <= b)%Q -> (0 <= eps)%Q -> (0 <= ratio eps a b)%Q.
Proof.
  intros Ha Hb He. unfold ratio. pose proof (Qabs_pos b Hb). destruct (Qlt_le_dec eps (Qabs b)); [|lra].
  apply Qle_shift_div_l; lra.
Qed.

(** What is stored for a sample when there are three medoids: the last two can be in the wrong order when the third is at position 0. *)
Record loose (eps : Q) (T : nat -> Q) (s : nearest_three) : Prop := {
  l_1 : t_1 s < 3; l_2 : t_2 s < 3; l_3 : t_3 s < 3;
  l_21 : t_2 s <> t_1 s; l_31 : t_3 s <> t_1 s; l_32 : t_3 s <> t_2 s;
  l_e1 : (e_1 s == T (t_1 s))%Q; l_e2 : (e_2 s == T (t_2 s))%Q; l_e3 : (e_3 s == T (t_3 s))%Q;
  l_12 : (e_1 s <= e_2 s)%Q;
  l_23 : (e_2 s <= e_3 s)%Q \/ (t_3 s = 0 /\ (eps < e_3 s)%Q) }.

Definition gain (eps doc : Q) (s : nearest_three) (i : nat) : Q :=
  (removal_part eps s i + medoid_part eps doc s i + candidate_part eps doc s)%Q.

Section Three.
Context (eps : Q) (dist : nat -> nat -> Q) (n : nat) (src : source Q) (Hsrc : provides src n dist) (Heps : (0 <= eps)%Q).
Context (Hself : forall o, o < n -> (dist o o == 0)%Q) (Hfar : forall i j, i < n -> j < n -> i <> j -> (eps < dist i j)%Q).

Lemma dist_pos i j : i < n -> j < n -> (0 <= dist i j)%Q.
Proof. intros Hi Hj. destruct (Nat.eq_dec i j) as [->|Hn]; [rewrite Hself by auto; lra|]. specialize (Hfar i j Hi Hj Hn). lra. Qed.

Definition not_one (M : list nat) : Prop := exists i j, i < 3 /\ j < 3 /\ nth i M 0 <> nth j M 0.

Lemma update_third_three M b o x i1 i2 : length M = 3 -> b < 3 -> i1 < 3 -> i2 < 3 -> i1 <> b -> i2 <> b -> i1 <> i2 ->
  update_third_nearest src M b o x i1 i2 = Ok (b, x).
Proof.
  intros HL Hb H1 H2 N1 N2 N3. unfold update_third_nearest. rewrite HL.
  match goal with |- for_loop 3 0 ?body ?s0 = _ =>
    destruct (for_loop_inv (fun _ s => s = (b, x)) body 3 0 s0) as (s & E & ->); auto end.
  intros j s Hj ->. cbv beta iota.
  assert (j = i1 \/ j = b \/ j = i2) by lia.
  destruct (Nat.eqb_spec j i1); [eexists; split; reflexivity|]. destruct (Nat.eqb_spec j b); [eexists; split; reflexivity|].
  destruct (Nat.eqb_spec j i2); [eexists; split; reflexivity|]. lia.
Qed.

Lemma third_far M o s : (forall m, In m M -> m < n) -> length M = 3 -> o < n -> not_one M ->
  loose eps (to_medoid dist M o) s -> (eps < e_3 s)%Q.
Proof.
  intros HM HL Ho (i & j & Hi & Hj & Hne) [A1 A2 A3 A21 A31 A32 B1 B2 B3 C12 C23]. destruct C23 as [C23|(_ & C23)]; auto.
  destruct (Qlt_le_dec eps (e_3 s)) as [|Hle]; auto. exfalso.
  assert (HT : forall k, k < 3 -> nth k M 0 = o).
  { intros k Hk. destruct (Nat.eq_dec (nth k M 0) o) as [|Hn]; auto. exfalso.
    assert (Hin : In (nth k M 0) M) by (apply nth_In; lia).
    pose proof (Hfar (nth k M 0) o (HM _ Hin) Ho Hn) as Hd.
    change (dist (nth k M 0) o) with (to_medoid dist M o k) in Hd.
    assert (k = t_1 s \/ k = t_2 s \/ k = t_3 s) as [-> | [-> | ->]] by lia; lra. }
  apply Hne. rewrite !HT; auto.
Qed.

Ltac eqbs := repeat match goal with |- context [?a =? ?b] => destruct (Nat.eqb_spec a b); try lia end.

Lemma swap_loose M c b o s : (forall m, In m M -> m < n) -> length M = 3 -> c < n -> o < n -> b < 3 -> not_one M ->
  loose eps (to_medoid dist M o) s ->
  exists s', msc_swap_sample src (exchange M b c) c b o s = Ok s' /\ loose eps (to_medoid dist (exchange M b c) o) s' /\
    (o = c -> (e_1 s' == 0)%Q) /\ (ratio eps (e_1 s') (e_2 s') <= ratio eps (e_1 s) (e_2 s) - gain eps (dist c o) s b)%Q.
Proof.
  intros HM HL Hc Ho Hb Hone Hs. pose proof (third_far M o s HM HL Ho Hone Hs) as F3. set (M' := exchange M b c).
  assert (HL' : length M' = 3) by (unfold M'; rewrite exchange_length; lia).
  assert (HT := fun j => to_medoid_exchange dist M o b c j ltac:(lia)). fold M' in HT.
  set (T := to_medoid dist M o) in *. set (T' := to_medoid dist M' o) in *.
  assert (Hb' : T' b = dist c o) by (now rewrite HT, Nat.eqb_refl).
  assert (Hj' : forall j, j <> b -> T' j = T j) by (intros j Hj; rewrite HT; destruct (Nat.eqb_spec j b); congruence).
  assert (HposT : forall j, j < 3 -> (0 <= T j)%Q) by (intros j Hj; apply dist_pos; auto; apply HM, nth_In; lia).
  destruct s as [i1 i2 i3 d1 d2 d3]. destruct Hs as [A1 A2 A3 A21 A31 A32 B1 B2 B3 C12 C23].
  cbn [t_1 t_2 t_3 e_1 e_2 e_3] in *.
  pose proof (HposT i1 A1) as P1. pose proof (HposT i2 A2) as P2. pose proof (HposT i3 A3) as P3.
  unfold msc_swap_sample, gain, removal_part, medoid_part, candidate_part. cbn [t_1 t_2 t_3 e_1 e_2 e_3].
  pose proof (dist_pos c o Hc Ho) as Pd. pose proof (ratio_plus eps d1 (dist c o) d2) as RP.
  destruct (Nat.eqb_spec o c) as [Hoc|Hoc].
  - assert (Hz : (dist c o == 0)%Q) by (subst c; auto).
    assert (HG : forall s', loose eps T' s' -> (e_1 s' == 0)%Q -> exists s'', Ok s' = Ok s'' /\ loose eps T' s'' /\
      (o = c -> (e_1 s'' == 0)%Q) /\ (ratio eps (e_1 s'') (e_2 s'') <= ratio eps d1 d2 - gain eps (dist c o) (mk_three i1 i2 i3 d1 d2 d3) b)%Q).
    { intros s' Hs' E1. exists s'. split; [reflexivity|]. split; [exact Hs'|]. split; [auto|]. rewrite E1, ratio_0.
      unfold gain, removal_part, medoid_part, candidate_part. cbn [t_1 t_2 t_3 e_1 e_2 e_3].
      pose proof (ratio_pos eps d1 d3) as R13. pose proof (ratio_pos eps d2 d3) as R23. pose proof (ratio_pos eps d1 d2) as R12.
      pose proof (ratio_pos eps (dist c o) d1) as Rd1. pose proof (ratio_pos eps (dist c o) d2) as Rd2.
      pose proof (ratio_pos eps d1 (dist c o)) as R1d. pose proof (ratio_pos eps d2 (dist c o)) as R2d.
      specialize (R13 ltac:(lra) ltac:(lra) Heps). specialize (R23 ltac:(lra) ltac:(lra) Heps). specialize (R12 ltac:(lra) ltac:(lra) Heps).
      specialize (Rd1 ltac:(lra) ltac:(lra) Heps). specialize (Rd2 ltac:(lra) ltac:(lra) Heps). specialize (R1d ltac:(lra) ltac:(lra) Heps).
      specialize (R2d ltac:(lra) ltac:(lra) Heps).
      destruct (Qlt_bool_spec (dist c o) d1), (Qlt_bool_spec (dist c o) d2), (Qlt_bool_spec (dist c o) d3);
        destruct (Nat.eqb_spec b i1), (Nat.eqb_spec b i2); try lia; lra. }
    unfold gain, removal_part, medoid_part, candidate_part in HG. cbn [t_1 t_2 t_3 e_1 e_2 e_3] in HG.
    destruct (Nat.eqb_spec i1 b) as [E|E]; cbn [negb]; [|destruct (Nat.eqb_spec i2 b) as [E2|E2]; cbn [negb]].
    + subst i1. apply HG; [|reflexivity]. constructor; cbn [t_1 t_2 t_3 e_1 e_2 e_3]; auto; rewrite ?Hj', ?Hb' by auto; auto; try lra.
    + subst i2. apply HG; [|reflexivity]. constructor; cbn [t_1 t_2 t_3 e_1 e_2 e_3]; auto; rewrite ?Hj', ?Hb' by auto; auto; try lra.
      destruct C23 as [C23|C23]; auto. left. lra.
    + apply HG; [|reflexivity]. constructor; cbn [t_1 t_2 t_3 e_1 e_2 e_3]; auto; rewrite ?Hj', ?Hb' by auto; auto; try lra.
  - destruct Hsrc as (_ & Hd). rewrite Hd by auto. cbn [bind]. set (doc := dist c o) in *.
    destruct (Nat.eqb_spec i1 b) as [E|E]; [|destruct (Nat.eqb_spec i2 b) as [E2|E2]].
    + subst i1. rewrite Nat.eqb_refl. destruct (Nat.eqb_spec b i2); [lia|].
      destruct (Qlt_bool_spec doc d2) as [H1|H1].
      { eexists. split; [reflexivity|]. split; [|split; [contradiction|]].
        - constructor; cbn [t_1 t_2 t_3 e_1 e_2 e_3]; auto; rewrite ?Hj', ?Hb' by auto; auto; try lra; try reflexivity.
        - cbn [e_1 e_2]. destruct (Qlt_bool_spec doc d1); lra. }
      destruct (Qlt_bool_spec doc d1) as [?|_]; [lra|]. destruct (Qlt_bool_spec doc d3) as [H2|H2]; cbn [orb].
      { eexists. split; [reflexivity|]. split; [|split; [contradiction|]].
        - constructor; cbn [t_1 t_2 t_3 e_1 e_2 e_3]; auto; rewrite ?Hj', ?Hb' by auto; auto; try lra; try reflexivity.
        - cbn [e_1 e_2]. lra. }
      destruct (Nat.eqb_spec i3 0) as [E3|E3].
      { eexists. split; [reflexivity|]. split; [|split; [contradiction|]].
        - constructor; cbn [t_1 t_2 t_3 e_1 e_2 e_3]; auto; rewrite ?Hj', ?Hb' by auto; auto; try lra; try reflexivity.
        - cbn [e_1 e_2]. pose proof (ratio_larger eps d2 d3 doc Heps ltac:(lra) F3 ltac:(lra)). lra. }
      rewrite update_third_three by auto. cbn [bind]. eexists. split; [reflexivity|].
      assert (d2 <= d3)%Q by (destruct C23 as [|(? & _)]; [auto|lia]). split; [|split; [contradiction|]].
      * constructor; cbn [t_1 t_2 t_3 e_1 e_2 e_3]; auto; rewrite ?Hj', ?Hb' by auto; auto; try lra; try reflexivity; try (left; lra).
      * cbn [e_1 e_2]. lra.
    + subst i2. destruct (Nat.eqb_spec b i1); [lia|]. rewrite Nat.eqb_refl.
      destruct (Qlt_bool_spec doc d1) as [H1|H1].
      { eexists. split; [reflexivity|]. split; [|split; [contradiction|]].
        - constructor; cbn [t_1 t_2 t_3 e_1 e_2 e_3]; auto; rewrite ?Hj', ?Hb' by auto; auto; try lra; try reflexivity.
          destruct C23 as [C23|C23]; auto. left. lra.
        - cbn [e_1 e_2]. lra. }
      destruct (Qlt_bool_spec doc d3) as [H2|H2]; cbn [orb].
      { eexists. split; [reflexivity|]. split; [|split; [contradiction|]].
        - constructor; cbn [t_1 t_2 t_3 e_1 e_2 e_3]; auto; rewrite ?Hj', ?Hb' by auto; auto; try lra; try reflexivity; try (left; lra).
        - cbn [e_1 e_2]. destruct (Qlt_bool_spec doc d2); lra. }
      destruct (Nat.eqb_spec i3 0) as [E3|E3].
      { eexists. split; [reflexivity|]. split; [|split; [contradiction|]].
        - constructor; cbn [t_1 t_2 t_3 e_1 e_2 e_3]; auto; rewrite ?Hj', ?Hb' by auto; auto; try lra; try reflexivity.
        - cbn [e_1 e_2]. pose proof (ratio_larger eps d1 d3 doc Heps ltac:(lra) F3 ltac:(lra)). destruct (Qlt_bool_spec doc d2); lra. }
      rewrite update_third_three by auto. cbn [bind]. eexists. split; [reflexivity|].
      assert (d2 <= d3)%Q by (destruct C23 as [|(? & _)]; [auto|lia]). split; [|split; [contradiction|]].
      * constructor; cbn [t_1 t_2 t_3 e_1 e_2 e_3]; auto; rewrite ?Hj', ?Hb' by auto; auto; try lra; try reflexivity; try (left; lra).
      * cbn [e_1 e_2]. destruct (Qlt_bool_spec doc d2); lra.
    + destruct (Nat.eqb_spec b i1); [lia|]. destruct (Nat.eqb_spec b i2); [lia|]. assert (i3 = b) by lia. subst i3.
      destruct (Qlt_bool_spec doc d1) as [H1|H1].
      { eexists. split; [reflexivity|]. split; [|split; [contradiction|]].
        - constructor; cbn [t_1 t_2 t_3 e_1 e_2 e_3]; auto; rewrite ?Hj', ?Hb' by auto; auto; try lra; try reflexivity.
        - cbn [e_1 e_2]. lra. }
      destruct (Qlt_bool_spec doc d2) as [H2|H2].
      { eexists. split; [reflexivity|]. split; [|split; [contradiction|]].
        - constructor; cbn [t_1 t_2 t_3 e_1 e_2 e_3]; auto; rewrite ?Hj', ?Hb' by auto; auto; try lra; try reflexivity; try (left; lra).
        - cbn [e_1 e_2]. lra. }
      assert (HX : loose eps T' (mk_three i1 i2 b d1 d2 doc)).
      { constructor; cbn [t_1 t_2 t_3 e_1 e_2 e_3]; auto; rewrite ?Hj', ?Hb' by auto; auto; try lra; try reflexivity. }
      destruct (Qlt_bool doc d3 || (b =? 0)).
      { eexists. split; [reflexivity|]. split; [exact HX|]. split; [contradiction|]. cbn [e_1 e_2]. lra. }
      rewrite Nat.eqb_refl, update_third_three by auto. cbn [bind]. eexists. split; [reflexivity|]. split; [exact HX|]. split; [contradiction|]. cbn [e_1 e_2]. lra.
Qed.

(** An exchange that makes all medoids the same gains nothing. *)
Lemma same_no_gain M c b o s : (forall m, In m M -> m < n) -> length M = 3 -> c < n -> o < n -> b < 3 ->
  (forall i, i < 3 -> i <> b -> nth i M 0 = c) -> loose eps (to_medoid dist M o) s -> (gain eps (dist c o) s b <= 0)%Q.
Proof.
  intros HM HL Hc Ho Hb Hsame [A1 A2 A3 A21 A31 A32 B1 B2 B3 C12 C23]. destruct s as [i1 i2 i3 d1 d2 d3]. cbn [t_1 t_2 t_3 e_1 e_2 e_3] in *.
  pose proof (dist_pos c o Hc Ho) as Pd.
  assert (HT : forall i, i < 3 -> i <> b -> to_medoid dist M o i = dist c o) by (intros i Hi Hn; unfold to_medoid; now rewrite Hsame).
  assert (P1 : (0 <= d1)%Q).
  { rewrite B1. apply dist_pos; auto. apply HM, nth_In. lia. }
  assert (HD : (dist c o == 0)%Q \/ (eps < dist c o)%Q).
  { destruct (Nat.eq_dec c o) as [->|Hn]; auto. }
  unfold gain, removal_part, medoid_part, candidate_part. cbn [t_1 t_2 t_3 e_1 e_2 e_3]. set (doc := dist c o) in *.
  destruct (Nat.eqb_spec b i1) as [E|E]; [|destruct (Nat.eqb_spec b i2) as [E2|E2]].
  - subst i1. rewrite HT in B2, B3 by auto. destruct (Nat.eqb_spec b i2); [lia|].
    destruct (Qlt_bool_spec doc d1), (Qlt_bool_spec doc d2), (Qlt_bool_spec doc d3); try lra.
    assert (ratio eps d1 d2 <= ratio eps d2 d3)%Q; [|lra].
    rewrite B2, B3. destruct HD as [HD|HD].
    + assert (E1 : (d1 == 0)%Q) by lra. rewrite E1, ratio_0. apply ratio_pos; lra.
    + unfold ratio. pose proof (Qabs_pos doc Pd). destruct (Qlt_le_dec eps (Qabs doc)); [|lra].
      apply Qle_shift_div_l; [lra|]. setoid_replace (d1 / doc * doc)%Q with d1 by (field; lra). lra.
  - subst i2. rewrite HT in B1, B3 by auto.
    destruct (Qlt_bool_spec doc d1); [lra|]. destruct (Qlt_bool_spec doc d2).
    + assert (ratio eps d1 d2 <= ratio eps d1 doc)%Q; [|lra]. destruct HD as [HD|HD].
      * assert (E1 : (d1 == 0)%Q) by lra. rewrite E1, !ratio_0. lra.
      * apply ratio_larger; lra.
    + destruct (Qlt_bool_spec doc d3); [lra|]. assert (E2 : (d2 == d3)%Q) by lra.
      assert (ratio eps d1 d2 == ratio eps d1 d3)%Q by (rewrite E2; reflexivity). lra.
  - rewrite HT in B1, B2 by auto. destruct (Qlt_bool_spec doc d1), (Qlt_bool_spec doc d2); lra.
Qed.

Lemma qsum_le k f g : (forall o, o < k -> (f o <= g o)%Q) -> (qsum k f <= qsum k g)%Q.
Proof. induction k; intros H; cbn [qsum]; [lra|]. pose proof (IHk ltac:(auto)). pose proof (H k ltac:(lia)). lra. Qed.

Definition phi (p : msc) : Q := qsum n (fun o => ratio eps (e_1 (stored p o)) (e_2 (stored p o))).

Record three_state (p : msc) : Prop := {
  h_medoids : forall m, In m (s_medoids p) -> m < n;
  h_length : length (s_medoids p) = 3;
  h_lengths : length (s_nearest p) = n /\ length (s_second p) = n /\ length (s_third p) = n /\ length (s_distances p) = n /\
    length (s_second_distances p) = n /\ length (s_third_distances p) = n /\ length (s_losses p) = 3;
  h_loose : forall o, o < n -> loose eps (to_medoid dist (s_medoids p) o) (stored p o);
  h_losses : forall i, i < 3 -> (nth i (s_losses p) 0 == qsum n (fun o => removal_part eps (stored p o) i))%Q;
  h_one : not_one (s_medoids p) }.

Lemma swap_buffers_loose p c b : three_state p -> c < n -> b < 3 ->
  exists q, msc_swap_buffers eps src (exchange (s_medoids p) b c) p c b = Ok q /\
    s_medoids q = exchange (s_medoids p) b c /\
    length (s_nearest q) = n /\ length (s_second q) = n /\ length (s_third q) = n /\ length (s_distances q) = n /\
    length (s_second_distances q) = n /\ length (s_third_distances q) = n /\
    forall o, o < n -> loose eps (to_medoid dist (s_medoids q) o) (stored q o) /\
      (ratio eps (e_1 (stored q o)) (e_2 (stored q o)) <=
       ratio eps (e_1 (stored p o)) (e_2 (stored p o)) - gain eps (dist c o) (stored p o) b)%Q.
Proof.
  intros Hp Hc Hb. destruct (h_lengths _ Hp) as (L1 & L2 & L3 & L4 & L5 & L6 & _). pose proof (h_length _ Hp) as H3. set (M := s_medoids p) in *.
  set (M' := exchange M b c). assert (HL : length M' = length M) by (apply exchange_length; lia).
  unfold msc_swap_buffers. rewrite (proj1 Hsrc).
  match goal with |- context [for_loop n 0 ?body ?s0] =>
    destruct (for_loop_inv (fun t q => s_medoids q = M' /\
      length (s_nearest q) = n /\ length (s_second q) = n /\ length (s_third q) = n /\ length (s_distances q) = n /\
      length (s_second_distances q) = n /\ length (s_third_distances q) = n /\
      (forall o, o < t -> loose eps (to_medoid dist M' o) (stored q o) /\
        (ratio eps (e_1 (stored q o)) (e_2 (stored q o)) <=
         ratio eps (e_1 (stored p o)) (e_2 (stored p o)) - gain eps (dist c o) (stored p o) b)%Q) /\
      (forall o, t <= o < n -> stored q o = stored p o)) body n 0 s0) as (q & E & H)
  end.
  - cbn [s_medoids s_nearest s_second s_third s_distances s_second_distances s_third_distances]. splits; auto. lia.
  - intros o q Ho (KM & K1 & K2 & K3 & K4 & K5 & K6 & KD & KR).
    rewrite (rd_nth (s_nearest q) o 0), (rd_nth (s_second q) o 0), (rd_nth (s_third q) o 0), (rd_nth (s_distances q) o 0%Q),
      (rd_nth (s_second_distances q) o 0%Q), (rd_nth (s_third_distances q) o 0%Q) by lia. cbn [bind].
    change (mk_three (nth o (s_nearest q) 0) (nth o (s_second q) 0) (nth o (s_third q) 0) (nth o (s_distances q) 0%Q)
      (nth o (s_second_distances q) 0%Q) (nth o (s_third_distances q) 0%Q)) with (stored q o).
    rewrite KR by lia.
    destruct (swap_loose M c b o (stored p o)) as (s' & Es & Hs & _ & Hg); auto.
    { apply (h_medoids _ Hp). }
    { lia. }
    { apply (h_one _ Hp). }
    { apply (h_loose _ Hp). lia. }
    fold M' in Es, Hs. rewrite Es. cbn [bind]. rewrite !wr_lt by lia. cbn [bind].
    eexists. split; [reflexivity|].
    unfold stored at 1 2 3 6. cbn [s_medoids s_nearest s_second s_third s_distances s_second_distances s_third_distances].
    rewrite !upd_length.
    assert (HS : forall o', pack (upd (s_nearest q) o (t_1 s')) (upd (s_second q) o (t_2 s')) (upd (s_third q) o (t_3 s'))
      (upd (s_distances q) o (e_1 s')) (upd (s_second_distances q) o (e_2 s')) (upd (s_third_distances q) o (e_3 s')) o' =
      if o' =? o then s' else stored q o').
    { intros o'. unfold pack, stored. rewrite !nth_upd by lia. destruct (o' =? o); auto. destruct s'; auto. }
    splits; auto.
    + intros o' Ho'. rewrite !HS. destruct (Nat.eqb_spec o' o) as [->|]; [auto|]. apply KD. lia.
    + intros o' Ho'. unfold stored at 1. cbn [s_nearest s_second s_third s_distances s_second_distances s_third_distances].
      rewrite HS. destruct (Nat.eqb_spec o' o) as [->|]; [lia|]. apply KR. lia.
  - rewrite E. destruct H as (KM & K1 & K2 & K3 & K4 & K5 & K6 & KD & _). cbn [Nat.add] in *. exists q. rewrite KM. splits; auto.
Qed.

Lemma three_try p c : three_state p -> c < n -> exists q, msc_try eps src c p = Ok q /\ three_state q /\ (q = p \/ (phi q < phi p)%Q).
Proof.
  intros Hp Hc. destruct (h_lengths _ Hp) as (L1 & L2 & L3 & L4 & L5 & L6 & L7). pose proof (h_length _ Hp) as H3.
  unfold msc_try. rewrite (rd_nth _ c 0) by lia. cbn [bind]. destruct (negb _); [|eauto]. rewrite H3. cbn [Nat.eqb].
  destruct (best_swap_value eps dist n src Hsrc p 3 c) as (delta & b & -> & Hb & H1 & _); auto.
  { intros o Ho. destruct (h_loose _ Hp o Ho) as [A1 A2 _ _ _ _ _ _ _ _ _]. auto. }
  cbn [bind]. cbn zeta in H1. destruct (Qlt_bool_spec 0 delta) as [Hq|Hq]; [|eauto].
  rewrite wr_lt by lia. cbn [bind]. rewrite upd_exchange by lia.
  destruct (swap_buffers_loose p c b Hp Hc Hb) as (q & -> & KM & K1 & K2 & K3 & K4 & K5 & K6 & KR). cbn [bind].
  assert (HLM : length (s_medoids q) = 3) by (rewrite KM, exchange_length; lia).
  assert (Hgain : (delta == qsum n (fun o => gain eps (dist c o) (stored p o) b))%Q).
  { rewrite H1, (h_losses _ Hp b Hb). unfold gain. rewrite !qsum_add. reflexivity. }
  destruct (silhouette_losses_ok eps n (s_nearest q) (s_second q) (s_third q) (s_distances q) (s_second_distances q) (s_third_distances q) 3)
    as (L & EL & HL & HP); auto.
  { intros o Ho. destruct (proj1 (KR o Ho)) as [A1 A2 _ _ _ _ _ _ _ _ _]. auto. }
  rewrite <- KM, HLM, EL. cbn [bind]. eexists. split; [reflexivity|]. split.
  - constructor; cbn [s_medoids s_nearest s_second s_third s_distances s_second_distances s_third_distances s_losses]; auto.
    + rewrite KM. intros m Hm. apply in_exchange in Hm; [|lia]. destruct Hm as [->|(j & Hj & _ & <-)]; auto. apply (h_medoids _ Hp), nth_In. lia.
    + splits; auto.
    + intros o Ho. apply (KR o Ho).
    + destruct (Nat.eq_dec (nth 0 (s_medoids q) 0) (nth 1 (s_medoids q) 0)) as [E01|]; [|exists 0, 1; auto].
      destruct (Nat.eq_dec (nth 0 (s_medoids q) 0) (nth 2 (s_medoids q) 0)) as [E02|]; [|exists 0, 2; auto].
      exfalso. assert (HA : forall i, i < 3 -> nth i (s_medoids q) 0 = c).
      { assert (Eb : nth b (s_medoids q) 0 = c) by (rewrite KM, nth_exchange, Nat.eqb_refl by lia; auto).
        intros i Hi. assert (H0 : forall j, j < 3 -> nth j (s_medoids q) 0 = nth 0 (s_medoids q) 0).
        { intros j Hj. assert (j = 0 \/ j = 1 \/ j = 2) as [-> | [-> | ->]] by lia; auto. }
        rewrite (H0 i Hi), <- (H0 b Hb). auto. }
      assert (Hle : (qsum n (fun o => gain eps (dist c o) (stored p o) b) <= qsum n (fun _ => 0))%Q).
      { apply qsum_le. intros o Ho. apply (same_no_gain (s_medoids p)); auto; try apply Hp; auto.
        intros i Hi Hn. specialize (HA i Hi). rewrite KM, nth_exchange in HA by lia. destruct (Nat.eqb_spec i b); congruence. }
      assert (Hz : forall k, (qsum k (fun _ => 0) == 0)%Q) by (induction k; cbn [qsum]; [reflexivity|rewrite IHk; reflexivity]).
      rewrite Hz in Hle. lra.
  - right. unfold phi.
    match goal with |- (qsum n ?f < qsum n ?g)%Q =>
      assert (Hle : (qsum n f <= qsum n (fun o => g o - gain eps (dist c o) (stored p o) b))%Q) by (apply qsum_le; intros o Ho; apply (KR o Ho)) end.
    rewrite qsum_sub in Hle. lra.
Qed.

Definition three_losses : list Q :=
  sums (map (fun o => flat_map (fun i => map (fun j => ratio eps (dist i o) (dist j o)) (seq 0 n)) (seq 0 n)) (seq 0 n)).

Lemma phi_among p : three_state p -> among three_losses (phi p).
Proof.
  intros Hp. pose proof (h_length _ Hp) as H3.
  assert (Hm : forall i, i < 3 -> In (nth i (s_medoids p) 0) (seq 0 n)).
  { intros i Hi. apply in_seq. split; [lia|]. apply (h_medoids _ Hp), nth_In. lia. }
  destruct (sums_ok (fun o => ratio eps (e_1 (stored p o)) (e_2 (stored p o)))
    (fun o => flat_map (fun i => map (fun j => ratio eps (dist i o) (dist j o)) (seq 0 n)) (seq 0 n)) (seq 0 n)) as (y & Hy & E).
  - intros o Ho. apply in_seq in Ho. destruct (h_loose _ Hp o ltac:(lia)) as [A1 A2 _ _ _ _ B1 B2 _ _ _].
    exists (ratio eps (to_medoid dist (s_medoids p) o (t_1 (stored p o))) (to_medoid dist (s_medoids p) o (t_2 (stored p o)))).
    split; [|now rewrite B1, B2]. apply in_flat_map. eexists. split; [apply (Hm _ A1)|].
    apply in_map_iff. eexists. split; [|apply (Hm _ A2)]. reflexivity.
  - exists y. split; auto. unfold phi. rewrite <- fold_qsum. exact E.
Qed.

Lemma three_step p : three_state p ->
  exists q, msc_step eps src p = Ok q /\ three_state q /\ (q = p \/ ((phi q < phi p)%Q /\ among three_losses (phi q))).
Proof.
  intros Hp. unfold msc_step. rewrite (proj1 Hsrc).
  destruct (for_loop_inv (fun _ q => three_state q /\ (q = p \/ (phi q < phi p)%Q)) (msc_try eps src) n 0 p) as (q & E & Hq & Hl); auto.
  - intros c q Hc (Hq & Hl). destruct (three_try q c Hq ltac:(lia)) as (r & -> & Hr & Hl'). exists r. split; auto. split; auto.
    destruct Hl' as [->|Hl']; auto. right. destruct Hl as [->|Hl]; lra.
  - exists q. split; auto. split; auto. destruct Hl as [->|Hl]; auto. right. split; auto. now apply phi_among.
Qed.

Lemma described_three top M p : described eps dist n p -> s_medoids p = M -> length M = 3 -> separated eps top dist n M -> 0 < n -> three_state p.
Proof.
  intros Hp EM H3 Hsep Hn. subst M. destruct (d_lengths _ _ _ _ Hp) as (L1 & L2 & L3 & L4 & L5 & L6 & L7). constructor; auto.
  - apply (d_medoids _ _ _ _ Hp).
  - rewrite H3 in L7. splits; auto.
  - intros o Ho. pose proof (described_ranked eps dist n p o Hp Ho) as R. rewrite H3 in R. destruct R. constructor; auto.
  - intros i Hi. rewrite <- H3 in Hi. destruct (d_losses _ _ _ _ Hp i Hi) as (la & lb & Ha & Hb & E). rewrite E.
    pose proof (loss_qsum eps dist n (s_medoids p) (fun o => ratio eps (e_1 (stored p o)) (e_2 (stored p o)))
      (fun o Ho => ranked_term eps dist _ o (stored p o) (described_ranked eps dist n p o Hp Ho))) as H1.
    pose proof (loss_qsum eps dist n _ _ (fun o Ho => removal_term eps dist _ o (stored p o) (described_ranked eps dist n p o Hp Ho) i Hi)) as H2.
    pose proof (loss_unique _ _ _ _ _ _ Ha H1) as E1. pose proof (loss_unique _ _ _ _ _ _ Hb H2) as E2. rewrite E1, E2. cbn beta. rewrite qsum_sub. ring.
  - exists 0, 1. splits; auto. intros E. destruct (Hsep 0 Hn 0 ltac:(lia)) as (_ & H). specialize (H 1 ltac:(lia) ltac:(lia)). unfold to_medoid in H.
    rewrite E in H. set (x := dist (nth 1 (s_medoids p) 0) 0) in *. assert (Z : (x - x == 0)%Q) by ring.
    rewrite Z in H. change (Qabs 0) with 0%Q in H. lra.
Qed.
End Three.
