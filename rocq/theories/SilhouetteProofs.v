(** Lemmas on silhouette values. *)
From Coq Require Import List Arith ZArith QArith Lia Bool Permutation Lqa.
From Verif Require Import Base SortingModel BufferSpec SearchModel MatrixModel MatrixProofs KMeansModel KMeansProofs
  RandomModel RandomSpec RandomProofs AliasProofs SilhouetteModel SilhouetteSpec.
Import ListNotations.
Local Open Scope nat_scope.
Set Default Proof Using "Type".

Lemma max_bound l : forall a, a <= fold_left Nat.max l a /\ forall x, In x l -> x <= fold_left Nat.max l a.
Proof.
  induction l as [|y l IH]; intros a; simpl; [split; [lia|tauto]|]. destruct (IH (Nat.max a y)) as (H1 & H2). split; [lia|].
  intros x [<-|Hx]; [lia|auto].
Qed.
Lemma max_reached l : l <> [] -> In (fold_left Nat.max l 0) l.
Proof.
  assert (G : forall l a, fold_left Nat.max l a = a \/ In (fold_left Nat.max l a) l).
  { clear. induction l as [|y l IH]; intros a; simpl; auto. destruct (IH (Nat.max a y)) as [E|E]; auto.
    rewrite E. destruct (Nat.max_spec a y) as [(_ & ->)|(_ & ->)]; auto. }
  destruct l as [|x l]; [congruence|]. intros _. simpl. destruct (G l x) as [->|H]; auto.
Qed.

Lemma sizes_ok labels : labels <> [] -> exists sizes, get_cluster_sizes labels = Ok sizes /\
  length sizes = 1 + fold_left Nat.max labels 0 /\
  forall c, c < length sizes -> nth_error sizes c = Some (count_occ Nat.eq_dec labels c).
Proof.
  intros Hne. unfold get_cluster_sizes. set (m := 1 + fold_left Nat.max labels 0).
  assert (Hb : forall x, In x labels -> x < m) by (intros x Hx; pose proof (proj2 (max_bound labels 0) x Hx); lia).
  replace (match labels with [] => _ | _ :: _ => _ end) with
    (for_each labels (fun label histogram => c <- rd histogram label ;; wr histogram label (S c)) (repeat 0 m))
    by (destruct labels; [congruence|reflexivity]). clear Hne.
  assert (G : forall l h f, (forall x, In x l -> x < m) -> rep m h f ->
    exists h', for_each l (fun label histogram => c <- rd histogram label ;; wr histogram label (S c)) h = Ok h' /\
      rep m h' (fun c => f c + count_occ Nat.eq_dec l c)).
  { induction l as [|x l IH]; intros h f Hl Hh; cbn [for_each].
    - exists h. split; auto. apply (rep_ext _ _ _ _ Hh). intros; simpl; lia.
    - rewrite (rep_rd m h f x Hh) by (apply Hl; simpl; auto). cbn [bind].
      destruct (rep_wr m h f x (S (f x)) Hh) as (h1 & -> & Hh1); [apply Hl; simpl; auto|]. cbn [bind].
      destruct (IH h1 _ ltac:(intros; apply Hl; simpl; auto) Hh1) as (h' & E & H). exists h'. split; auto.
      apply (rep_ext _ _ _ _ H). intros c _. unfold set_at. simpl. destruct (Nat.eqb_spec c x), (Nat.eq_dec x c); subst; try congruence; lia. }
  destruct (G labels (repeat 0 m) (fun _ => 0) Hb (rep_repeat m 0)) as (h & E & Hl & Hh). exists h. splits; auto.
  intros c Hc. apply Hh. lia.
Qed.

Lemma count_cluster labels c : count_occ Nat.eq_dec labels c = length (cluster labels c).
Proof.
  unfold cluster. induction labels as [|x l IH] using rev_ind; [reflexivity|].
  rewrite count_occ_app, IH, app_length. simpl (length [x]). rewrite Nat.add_1_r, seq_S, filter_app, app_length. f_equal.
  - apply f_equal. apply filter_ext_in. intros j Hj. apply in_seq in Hj. rewrite app_nth1 by lia. reflexivity.
  - cbn [filter]. rewrite Nat.add_0_l, app_nth2, Nat.sub_diag by lia. simpl. destruct (Nat.eq_dec x c), (Nat.eqb_spec x c); simpl; congruence.
Qed.

Lemma normalize_ok (e : element) (g : nat -> el e) (h : nat -> el e) (count : nat -> nat) : forall k a sums sizes,
  (length sums = k /\ forall j, j < k -> nth_error sums j = Some (g (a + j))) ->
  (length sizes = k /\ forall j, j < k -> nth_error sizes j = Some (count (a + j))) ->
  (forall c, a <= c < a + k -> (if count c =? 0 then Ok (el_inf e) else el_div e (g c) (el_nat e (count c))) = Ok (h c)) ->
  exists v, normalize_sums e sums sizes = Ok v /\ length v = k /\ forall j, j < k -> nth_error v j = Some (h (a + j)).
Proof.
  induction k as [|k IH]; intros a sums sizes (H1 & H2) (H3 & H4) Hh.
  - destruct sums; [|discriminate]. exists []. splits; auto. lia.
  - destruct sums as [|s sums]; [discriminate|]. destruct sizes as [|z sizes]; [discriminate|]. cbn [normalize_sums].
    pose proof (H2 0 ltac:(lia)) as E1. pose proof (H4 0 ltac:(lia)) as E2. simpl in E1, E2. rewrite Nat.add_0_r in *. injection E1 as ->. injection E2 as ->.
    rewrite Hh by lia. cbn [bind]. destruct (IH (S a) sums sizes) as (v & -> & Hl & Hv).
    + split; [simpl in H1; lia|]. intros j Hj. specialize (H2 (S j) ltac:(lia)). simpl in H2. rewrite H2. do 2 f_equal. lia.
    + split; [simpl in H3; lia|]. intros j Hj. specialize (H4 (S j) ltac:(lia)). simpl in H4. rewrite H4. do 2 f_equal. lia.
    + intros c Hc. apply Hh. lia.
    + cbn [bind]. eexists; splits; [reflexivity|simpl; lia|]. intros [|j] Hj; simpl; [do 2 f_equal; lia|].
      rewrite Hv by lia. do 2 f_equal. lia.
Qed.

Section Generic.
Context {F : Type} (e : element) (dist : list F -> list F -> el e).
Context (samples : list F) (nf n : nat) (labels : list nat) (Hnf : nf <> 0) (Hs : length samples = n * nf) (Hlab : length labels = n).
Notation d i j := (dist (row samples nf i) (row samples nf j)).
Notation lab i := (nth i labels 0).

(** Sum of the distances from sample [i] to the listed ones. *)
Definition summed (i : nat) (l : list nat) : el e := fold_left (el_add e) (map (fun j => d i j) l) (el_zero e).

Lemma rd_label i : i < n -> rd labels i = Ok (lab i).
Proof using Hlab. intros Hi. apply rd_ok. apply nth_error_nth'. rewrite Hlab. exact Hi. Qed.
Lemma distance_ok i j : i < n -> j < n -> sample_distance e dist samples nf i j = Ok (d i j).
Proof using Hnf Hs. intros Hi Hj. unfold sample_distance. rewrite !(sample_row' samples nf n) by auto. reflexivity. Qed.
Lemma get_n : get_n_samples samples nf = Ok n.
Proof using Hnf Hs. unfold get_n_samples. destruct (Nat.eqb_spec nf 0); [contradiction|]. now rewrite Hs, Nat.div_mul. Qed.
Lemma summed_snoc i l j : summed i (l ++ [j]) = el_add e (summed i l) (d i j).
Proof. unfold summed. now rewrite map_app, fold_left_app. Qed.

Definition fellows_up (i m : nat) : list nat := filter (fun j => (lab i =? lab j) && negb (i =? j)) (seq 0 m).

Lemma fellows_eq i : fellows_up i n = fellows labels i.
Proof using Hlab.
  unfold fellows_up, fellows, cluster. rewrite Hlab. induction (seq 0 n) as [|j l IH]; simpl; auto.
  rewrite (Nat.eqb_sym (lab i)), (Nat.eqb_sym i). destruct (lab j =? lab i); simpl; [|auto]. destruct (j =? i); simpl; congruence.
Qed.

Lemma cohesion_ok : 0 < n -> exists sizes, get_cluster_sizes labels = Ok sizes /\
  forall (P : nat -> el e -> Prop),
  (forall i, i < n -> exists x, (if 1 <? length (cluster labels (lab i)) then
      el_div e (summed i (fellows labels i)) (el_nat e (length (cluster labels (lab i)) - 1)) else Ok (summed i (fellows labels i))) = Ok x /\ P i x) ->
  exists v, cohesion e dist samples nf labels = Ok v /\ length v = n /\ forall i, i < n -> exists x, nth_error v i = Some x /\ P i x.
Proof using Hnf Hs Hlab.
  intros Hn. destruct (sizes_ok labels) as (sizes & E & Hl & Hc); [intros ->; simpl in Hlab; lia|]. exists sizes. split; auto.
  intros P HP. unfold cohesion. rewrite get_n, E. cbn [bind]. apply fill_inv. intros i Hi. rewrite rd_label by auto. cbn [bind].
  match goal with |- context [for_loop n 0 ?b ?s] =>
    destruct (for_loop_inv (fun m score => score = summed i (fellows_up i m)) b n 0 s) as (score & Es & Hsc) end.
  - reflexivity.
  - intros j score Hj ->. rewrite rd_label by lia. cbn [bind]. unfold fellows_up. rewrite seq_S, filter_app. cbn [filter]. rewrite Nat.add_0_l.
    destruct ((lab i =? lab j) && negb (i =? j)); [|rewrite app_nil_r; eauto].
    rewrite distance_ok by (auto; lia). cbn [bind]. eexists; split; [reflexivity|]. now rewrite summed_snoc.
  - rewrite Es. cbn [bind]. rewrite Nat.add_0_l, fellows_eq in Hsc. subst score.
    assert (Hm : lab i <= fold_left Nat.max labels 0) by (apply (proj2 (max_bound labels 0)), nth_In; lia).
    rewrite (proj2 (rd_ok sizes (lab i) _) (Hc (lab i) ltac:(lia))). cbn [bind]. rewrite count_cluster. apply HP. auto.
Qed.

Definition sum_to (i c : nat) : el e := if lab i =? c then el_zero e else summed i (cluster labels c).
Definition mean_to (i c : nat) : res (el e) :=
  if length (cluster labels c) =? 0 then Ok (el_inf e) else el_div e (sum_to i c) (el_nat e (length (cluster labels c))).
Notation m := (1 + fold_left Nat.max labels 0).

Lemma separation_ok (h : nat -> nat -> el e) (P : nat -> el e -> Prop) : 0 < n ->
  (forall i c, i < n -> c < m -> mean_to i c = Ok (h i c)) ->
  (forall i l, i < n -> rep m l (fun c => if c =? lab i then el_inf e else h i c) -> exists x, min_element e l = Ok x /\ P i x) ->
  exists v, separation e dist samples nf labels = Ok v /\ length v = n /\ forall i, i < n -> exists x, nth_error v i = Some x /\ P i x.
Proof using Hnf Hs Hlab.
  intros Hn Hmean HP. destruct (sizes_ok labels) as (sizes & E & Hl & Hc); [intros ->; simpl in Hlab; lia|].
  unfold separation. rewrite get_n, E. cbn [bind]. apply fill_inv. intros i Hi. rewrite rd_label by auto. cbn [bind].
  assert (Hb : forall j, j < n -> lab j < m) by (intros j Hj; assert (lab j <= fold_left Nat.max labels 0) by (apply (proj2 (max_bound labels 0)), nth_In; lia); lia).
  rewrite Hl.
  match goal with |- context [for_loop n 0 ?b ?s] =>
    destruct (for_loop_inv (fun k sums => rep m sums (fun c => if lab i =? c then el_zero e else summed i (filter (fun j => lab j =? c) (seq 0 k)))) b n 0 s)
      as (sums & Es & Hsum) end.
  - split; [apply repeat_length|]. intros c Hcm. rewrite nth_error_repeat by auto. simpl. unfold summed. simpl. now destruct (lab i =? c).
  - intros j sums Hj Hsum. rewrite rd_label by lia. cbn [bind].
    destruct (Nat.eqb_spec (lab i) (lab j)) as [Eij|Eij]; cbn [negb].
    + eexists; split; [reflexivity|]. apply (rep_ext _ _ _ _ Hsum). intros c _. destruct (Nat.eqb_spec (lab i) c) as [|Hic]; auto.
      rewrite seq_S, filter_app. cbn [filter]. rewrite Nat.add_0_l. destruct (Nat.eqb_spec (lab j) c); [congruence|]. now rewrite app_nil_r.
    + rewrite distance_ok by (auto; lia). cbn [bind]. rewrite (rep_rd m sums _ (lab j) Hsum) by (apply Hb; lia). cbn [bind].
      destruct (Nat.eqb_spec (lab i) (lab j)); [congruence|].
      match goal with |- context [wr sums (lab j) ?y] => destruct (rep_wr m sums _ (lab j) y Hsum) as (sums' & -> & Hs'); [apply Hb; lia|] end.
      eexists; split; [reflexivity|]. apply (rep_ext _ _ _ _ Hs'). intros c _. unfold set_at. rewrite seq_S, filter_app. cbn [filter]. rewrite Nat.add_0_l.
      destruct (Nat.eqb_spec c (lab j)) as [->|Hcj].
      * destruct (Nat.eqb_spec (lab i) (lab j)); [congruence|]. rewrite Nat.eqb_refl. now rewrite summed_snoc.
      * destruct (lab i =? c); auto. destruct (Nat.eqb_spec (lab j) c); [congruence|]. now rewrite app_nil_r.
  - rewrite Es. cbn [bind]. rewrite Nat.add_0_l in Hsum.
    destruct (normalize_ok e (fun c => if lab i =? c then el_zero e else summed i (filter (fun j => lab j =? c) (seq 0 n))) (h i)
      (fun c => length (cluster labels c)) m 0 sums sizes) as (v & -> & Hv1 & Hv2); auto.
    + split; auto. intros j Hj. rewrite Hc by lia. now rewrite count_cluster.
    + intros c Hcm. rewrite <- (Hmean i c) by lia. unfold mean_to, sum_to, cluster. now rewrite Hlab.
    + cbn [bind]. destruct (rep_wr m v (h i) (lab i) (el_inf e)) as (v' & -> & Hv'); [split; auto|auto|]. cbn [bind].
      apply HP; auto.
Qed.
End Generic.

(** ** The least element *)
Lemma min_fold {V} (lt : V -> V -> bool) (ok : V -> Prop) :
  (forall a b, ok a -> ok b -> lt a b = true -> lt b a = false) ->
  (forall a b c, ok a -> ok b -> ok c -> lt b a = false -> lt c b = false -> lt c a = false) ->
  forall l x, ok x -> (forall y, In y l -> ok y) ->
  let m := fold_left (fun m y => if lt y m then y else m) l x in In m (x :: l) /\ forall y, In y (x :: l) -> lt y m = false.
Proof.
  intros H1 H2. assert (Hirr : forall a, ok a -> lt a a = false).
  { intros a Ha. destruct (lt a a) eqn:E; auto. rewrite (H1 a a) in E by auto. discriminate. }
  induction l as [|z l IH]; intros x Hx Hl; cbn [fold_left]; cbv zeta.
  - split; [simpl; auto|]. intros y [<-|[]]. auto.
  - assert (Hz : ok z) by (apply Hl; simpl; auto). assert (Hl' : forall y, In y l -> ok y) by (intros; apply Hl; simpl; auto).
    destruct (lt z x) eqn:E.
    + destruct (IH z Hz Hl') as (I1 & I2). split; [simpl in *; tauto|]. intros y [<-|Hy]; [|auto].
      set (m := fold_left _ _ _) in *. assert (Hm : ok m) by (destruct I1 as [<-|I1]; auto).
      apply (H2 m z x); auto. apply I2. simpl. auto.
    + destruct (IH x Hx Hl') as (I1 & I2). split; [simpl in *; tauto|]. intros y [<-|[<-|Hy]]; [apply I2; simpl; auto| |apply I2; simpl; auto].
      set (m := fold_left _ _ _) in *. assert (Hm : ok m) by (destruct I1 as [<-|I1]; auto).
      apply (H2 m x z); auto. apply I2. simpl. auto.
Qed.

Definition number (x : ext) : Prop := x <> NaN.
Lemma ext_order1 a b : number a -> number b -> ext_lt a b = true -> ext_lt b a = false.
Proof. destruct a, b; simpl; intros _ _ H; auto; try discriminate. apply Qlt_bool_iff in H. apply Qlt_bool_false. lra. Qed.
Lemma ext_order2 a b c : number a -> number b -> number c -> ext_lt b a = false -> ext_lt c b = false -> ext_lt c a = false.
Proof. unfold number. destruct a, b, c; simpl; intros Ha Hb Hc H1 H2; auto; try discriminate; try congruence. rewrite Qlt_bool_false in *. lra. Qed.

Section Real.
Context {F : Type} (dist : list F -> list F -> Q) (Hd0 : forall p q, (0 <= dist p q)%Q).
Context (samples : list F) (nf n : nat) (labels : list nat) (Hnf : nf <> 0) (Hs : length samples = n * nf) (Hlab : length labels = n) (Hn : 0 < n).
Notation d i := (fun j => dist (row samples nf i) (row samples nf j)).
Notation lab i := (nth i labels 0).
Notation fdist := (fun p q => Fin (dist p q) : el real_element).

Lemma summed_real i l : exists s, summed real_element fdist samples nf i l = Fin s /\ (s == total (map (d i) l))%Q.
Proof.
  unfold summed. assert (G : forall l (a : Q), exists s, fold_left (el_add real_element) (map (fun j => fdist (row samples nf i) (row samples nf j)) l) (Fin a) = Fin s /\
    (s == a + total (map (d i) l))%Q).
  { clear. induction l as [|j l IH]; intros a.
    - exists a. split; [reflexivity|]. unfold total. simpl. lra.
    - cbn [map fold_left]. cbn [el_add real_element ext_add]. destruct (IH (a + dist (row samples nf i) (row samples nf j))%Q) as (s & E & Es).
      exists s. split; [exact E|]. rewrite Es. unfold total. simpl. lra. }
  destruct (G l 0%Q) as (s & E & Es). exists s. split; [exact E|]. rewrite Es. lra.
Qed.

Lemma total_nonneg i l : (0 <= total (map (d i) l))%Q.
Proof using Hd0. induction l as [|j l IH]; unfold total in *; simpl; [lra|]. specialize (Hd0 (row samples nf i) (row samples nf j)). lra. Qed.
Lemma mean_nonneg i l : (0 <= mean (d i) l)%Q.
Proof using Hd0 Hs Hnf Hn Hlab.
  unfold mean. destruct l as [|j l]; [vm_compute; discriminate|].
  apply Qle_shift_div_l; [apply QN_pos; simpl; lia|]. rewrite Qmult_0_l. apply total_nonneg.
Qed.

Lemma in_cluster c j : In j (cluster labels c) <-> j < n /\ lab j = c.
Proof using Hlab. unfold cluster. rewrite filter_In, in_seq, Nat.eqb_eq, Hlab. split; intros (H1 & H2); split; auto; try apply H1; split; auto; apply Nat.le_0_l. Qed.

Lemma fellows_length i : i < n -> length (cluster labels (lab i)) = S (length (fellows labels i)).
Proof using Hlab.
  intros Hi. assert (H : In i (cluster labels (lab i))) by (apply in_cluster; auto).
  assert (Hnd : NoDup (cluster labels (lab i))) by (apply NoDup_filter, seq_NoDup). unfold fellows.
  generalize dependent (cluster labels (lab i)). clear. induction l as [|j l IH]; intros H Hnd; [destruct H|].
  apply NoDup_cons_iff in Hnd. destruct Hnd as (H1 & H2). destruct H as [->|H].
  - simpl. rewrite Nat.eqb_refl. simpl. f_equal. clear - H1. induction l as [|j l IH]; simpl; auto.
    destruct (Nat.eqb_spec j i) as [->|]; simpl; [exfalso; apply H1; simpl; auto|]. f_equal. apply IH. intros H. apply H1. simpl. auto.
  - simpl. destruct (Nat.eqb_spec j i) as [->|]; [contradiction|]. simpl. f_equal. auto.
Qed.

Lemma real_cohesion : exists v, cohesion real_element fdist samples nf labels = Ok v /\ length v = n /\
  forall i, i < n -> exists x, nth_error v i = Some x /\ exists a, x = Fin a /\ (a == mean (d i) (fellows labels i))%Q.
Proof using Hnf Hs Hlab Hn.
  destruct (cohesion_ok real_element fdist samples nf n labels Hnf Hs Hlab Hn) as (_ & _ & H). apply H. clear H. intros i Hi.
  destruct (summed_real i (fellows labels i)) as (s & -> & Es). rewrite fellows_length by auto. replace (S (length (fellows labels i)) - 1) with (length (fellows labels i)) by lia.
  unfold mean. destruct (fellows labels i) as [|j l] eqn:E.
  - simpl. exists (Fin s). split; auto. exists s. split; [reflexivity|]. rewrite Es. reflexivity.
  - rewrite <- E in *. destruct (Nat.ltb_spec 1 (S (length (fellows labels i)))) as [_|H]; [|rewrite E in H; simpl in H; lia].
    assert (Hp : (0 < QN (length (fellows labels i)))%Q) by (apply QN_pos; rewrite E; simpl; lia).
    cbn [el_div real_element ext_div el_nat]. destruct (Qeq_bool (QN (length (fellows labels i))) 0) eqn:Eq; [apply Qeq_bool_iff in Eq; lra|].
    eexists; split; [reflexivity|]. eexists; split; [reflexivity|]. rewrite Es. reflexivity.
Qed.

Lemma real_separation : exists v, separation real_element fdist samples nf labels = Ok v /\ length v = n /\
  forall i, i < n -> exists x, nth_error v i = Some x /\
    ((exists b, x = Fin b /\ least_mean labels (d i) i b) \/ (x = Inf /\ forall c, c <> lab i -> cluster labels c = [])).
Proof using Hnf Hs Hlab Hn.
  set (h := fun i c => match mean_to real_element fdist samples nf labels i c with Ok x => x | _ => Inf end).
  assert (Hh : forall i c, c <> lab i -> (cluster labels c = [] /\ h i c = Inf) \/
    (cluster labels c <> [] /\ exists b, h i c = Fin b /\ (b == mean (d i) (cluster labels c))%Q)).
  { intros i c Hc. unfold h, mean_to, sum_to. destruct (cluster labels c) as [|j l] eqn:E; [left; auto|right].
    rewrite <- E. split; [congruence|]. destruct (Nat.eqb_spec (length (cluster labels c)) 0) as [H|H]; [rewrite E in H; discriminate|].
    destruct (Nat.eqb_spec (lab i) c); [congruence|]. destruct (summed_real i (cluster labels c)) as (s & -> & Es).
    assert (Hp : (0 < QN (length (cluster labels c)))%Q) by (apply QN_pos; lia).
    cbn [el_div real_element ext_div el_nat]. destruct (Qeq_bool (QN (length (cluster labels c))) 0) eqn:Eq; [apply Qeq_bool_iff in Eq; lra|].
    eexists; split; [reflexivity|]. rewrite Es. reflexivity. }
  apply (separation_ok real_element fdist samples nf n labels Hnf Hs Hlab h); auto.
  - intros i c Hi Hc. unfold h, mean_to. destruct (_ =? 0); reflexivity.
  - intros i l Hi (Hl & Hr). set (m := 1 + fold_left Nat.max labels 0) in *.
    assert (Hent : forall y, In y l -> (y = Inf \/ exists c b, c <> lab i /\ cluster labels c <> [] /\ y = Fin b /\ (b == mean (d i) (cluster labels c))%Q)).
    { intros y Hy. apply In_nth_error in Hy. destruct Hy as (c & Ec). pose proof (nth_error_lt _ _ _ Ec) as Hc. rewrite Hr in Ec by lia. injection Ec as <-.
      destruct (Nat.eqb_spec c (lab i)) as [|Hne]; [left; reflexivity|]. destruct (Hh i c Hne) as [(H1 & ->)|(H1 & b & -> & Eb)]; [left; auto|right; eauto 8]. }
    destruct l as [|x l]; [simpl in Hl; lia|].
    assert (Hnum : forall y, In y (x :: l) -> number y).
    { intros y Hy. destruct (Hent y Hy) as [->|(c & b & _ & _ & -> & _)]; discriminate. }
    destruct (min_fold ext_lt number ext_order1 ext_order2 l x) as (I1 & I2); [apply Hnum; simpl; auto|intros; apply Hnum; simpl; auto|].
    cbn [min_element]. eexists; split; [reflexivity|]. cbn [el_lt real_element]. cbv zeta in I1, I2.
    change (el real_element) with ext in *. set (mn := fold_left _ l x) in *.
    assert (Hall : forall c, c <> lab i -> cluster labels c <> [] -> exists b, In (Fin b) (x :: l) /\ (b == mean (d i) (cluster labels c))%Q).
    { intros c Hc Hne. destruct (Hh i c Hc) as [(H1 & _)|(_ & b & E & Eb)]; [contradiction|]. exists b. split; auto.
      assert (Hcm : c < m).
      { destruct (cluster labels c) as [|j l'] eqn:Ecl; [congruence|].
        assert (Hj : In j (cluster labels c)) by (rewrite Ecl; simpl; auto). apply in_cluster in Hj. destruct Hj as (Hj & <-). unfold m.
        assert (lab j <= fold_left Nat.max labels 0) by (apply (proj2 (max_bound labels 0)), nth_In; lia). lia. }
      apply (nth_error_In _ c). rewrite Hr by auto. destruct (Nat.eqb_spec c (lab i)); [congruence|]. now rewrite E. }
    clearbody mn. destruct (Hent mn I1) as [->|(c & b & Hc & Hne & -> & Eb)].
    + right. split; auto. intros c Hc. destruct (cluster labels c) as [|j l'] eqn:Ecl; auto. exfalso.
      destruct (Hall c Hc ltac:(congruence)) as (b & Hb & _). specialize (I2 _ Hb). discriminate.
    + left. exists b. split; auto. split; [exists c; auto|]. intros c' Hc' Hne'. destruct (Hall c' Hc' Hne') as (b' & Hb' & Eb').
      specialize (I2 _ Hb'). simpl in I2. apply Qlt_bool_false in I2. rewrite <- Eb'. auto.
Qed.

Lemma real_silhouette : exists v, silhouette real_element fdist samples nf labels = Ok v /\ length v = n /\
  forall i, i < n -> exists x, nth_error v i = Some x /\ exists q, x = Fin q /\
    ((exists b, least_mean labels (d i) i b /\ value_ok (mean (d i) (fellows labels i)) (Some b) q) \/
     ((forall c, c <> lab i -> cluster labels c = []) /\ value_ok (mean (d i) (fellows labels i)) None q)).
Proof using Hd0 Hnf Hs Hlab Hn.
  unfold silhouette. rewrite (get_n samples nf n Hnf Hs).
  destruct real_cohesion as (cs & -> & Hc1 & Hc2). destruct real_separation as (ss & -> & Hs1 & Hs2). cbn [bind].
  apply fill_inv. intros i Hi. destruct (Hc2 i Hi) as (x & Ex & a & -> & Ea). destruct (Hs2 i Hi) as (y & Ey & Hy).
  rewrite (proj2 (rd_ok cs i _) Ex), (proj2 (rd_ok ss i _) Ey). cbn [bind].
  destruct Hy as [(b & -> & Hb)|(-> & Hb)]; cbn [el_lt real_element ext_lt el_div el_sub el_one el_zero].
  - assert (Hb0 : (0 <= b)%Q) by (destruct Hb as ((c & _ & _ & ->) & _); apply mean_nonneg).
    assert (Ha0 : (0 <= a)%Q) by (rewrite Ea; apply mean_nonneg).
    destruct (Qlt_bool a b) eqn:E1.
    + apply Qlt_bool_iff in E1. cbn [bind ext_div]. destruct (Qeq_bool b 0) eqn:Eb; [apply Qeq_bool_iff in Eb; lra|]. cbn [ext_sub].
      eexists; split; [reflexivity|]. eexists; split; [reflexivity|]. left. exists b. split; auto. unfold value_ok. splits; intros; try lra. rewrite <- Ea. reflexivity.
    + apply Qlt_bool_false in E1. destruct (Qlt_bool b a) eqn:E2.
      * apply Qlt_bool_iff in E2. cbn [bind ext_div]. destruct (Qeq_bool a 0) eqn:Ez; [apply Qeq_bool_iff in Ez; lra|]. cbn [ext_sub].
        eexists; split; [reflexivity|]. eexists; split; [reflexivity|]. left. exists b. split; auto. unfold value_ok. splits; intros; try lra. rewrite <- Ea. reflexivity.
      * apply Qlt_bool_false in E2. eexists; split; [reflexivity|]. eexists; split; [reflexivity|]. left. exists b. split; auto. unfold value_ok. splits; intros; lra.
  - eexists; split; [reflexivity|]. eexists; split; [reflexivity|]. right. split; auto. simpl. reflexivity.
Qed.
End Real.

Section Integer.
Context {F : Type} (dist : list F -> list F -> Z) (Hd0 : forall p q, (0 <= dist p q)%Z).
Context (samples : list F) (nf n : nat) (labels : list nat) (Hnf : nf <> 0) (Hs : length samples = n * nf) (Hlab : length labels = n) (Hn : 0 < n).
Notation d i := (fun j => dist (row samples nf i) (row samples nf j)).
Notation lab i := (nth i labels 0).

Lemma summed_integer i l : summed integer_element dist samples nf i l = fold_right Z.add 0%Z (map (d i) l) /\ (0 <= fold_right Z.add 0%Z (map (d i) l))%Z.
Proof using Hd0 Hs Hnf Hn Hlab.
  split.
  - unfold summed. cbn [el_add el_zero integer_element]. rewrite fold_symmetric; auto; intros; lia.
  - clear - Hd0. induction l as [|j l IH]; cbn [map fold_right]; [lia|]. specialize (Hd0 (row samples nf i) (row samples nf j)). lia.
Qed.

Lemma integer_cohesion : exists v, cohesion integer_element dist samples nf labels = Ok v /\ length v = n /\
  forall i, i < n -> exists x, nth_error v i = Some x /\
    x = Z.quot (fold_right Z.add 0%Z (map (d i) (fellows labels i))) (Z.max 1 (Z.of_nat (length (fellows labels i)))).
Proof using Hd0 Hnf Hs Hlab Hn.
  destruct (cohesion_ok integer_element dist samples nf n labels Hnf Hs Hlab Hn) as (_ & _ & H). apply H. clear H. intros i Hi.
  destruct (summed_integer i (fellows labels i)) as (-> & _). rewrite (fellows_length n labels Hlab) by auto.
  replace (S (length (fellows labels i)) - 1) with (length (fellows labels i)) by lia.
  destruct (Nat.ltb_spec 1 (S (length (fellows labels i)))) as [H|H].
  - cbn [el_div integer_element el_nat]. destruct (Z.eqb_spec (Z.of_nat (length (fellows labels i))) 0); [lia|]. eexists; split; [reflexivity|].
    f_equal. lia.
  - eexists; split; [reflexivity|]. replace (Z.max 1 _) with 1%Z by lia. now rewrite Z.quot_1_r.
Qed.

Lemma integer_separation : exists v, separation integer_element dist samples nf labels = Ok v /\ length v = n /\
  forall i, i < n -> exists x, nth_error v i = Some x /\ x = 0%Z.
Proof using Hd0 Hnf Hs Hlab Hn.
  set (h := fun i c => match mean_to integer_element dist samples nf labels i c with Ok x => x | _ => 0%Z end).
  assert (Hh : forall i c, mean_to integer_element dist samples nf labels i c = Ok (h i c) /\ (0 <= h i c)%Z).
  { intros i c. unfold h, mean_to, sum_to. destruct (Nat.eqb_spec (length (cluster labels c)) 0) as [H|H]; [split; [reflexivity|simpl; lia]|].
    cbn [el_div integer_element el_nat el_zero]. destruct (Z.eqb_spec (Z.of_nat (length (cluster labels c))) 0); [lia|]. split; [reflexivity|].
    apply Z.quot_pos; [|lia]. destruct (lab i =? c); [simpl; lia|]. destruct (summed_integer i (cluster labels c)) as (-> & H1). exact H1. }
  apply (separation_ok integer_element dist samples nf n labels Hnf Hs Hlab h); auto.
  - intros i c _ _. apply Hh.
  - intros i l Hi (Hl & Hr). set (m := 1 + fold_left Nat.max labels 0) in *.
    assert (Hm : lab i < m) by (unfold m; assert (lab i <= fold_left Nat.max labels 0) by (apply (proj2 (max_bound labels 0)), nth_In; lia); lia).
    assert (H0 : In 0%Z l) by (apply (nth_error_In _ (lab i)); rewrite Hr by auto; now rewrite Nat.eqb_refl).
    assert (Hge : forall y, In y l -> (0 <= y)%Z).
    { intros y Hy. apply In_nth_error in Hy. destruct Hy as (c & Ec). pose proof (nth_error_lt _ _ _ Ec) as Hc. rewrite Hr in Ec by lia. injection Ec as <-.
      destruct (c =? lab i); [simpl; lia|apply Hh]. }
    destruct l as [|x l]; [destruct H0|].
    destruct (min_fold Z.ltb (fun _ => True) ltac:(intros; lia) ltac:(intros; lia) l x) as (I1 & I2); auto.
    cbn [min_element]. eexists; split; [reflexivity|]. cbn [el_lt integer_element]. cbv zeta in I1, I2.
    specialize (I2 0%Z H0). specialize (Hge _ I1). apply Z.ltb_ge in I2. change (el integer_element) with Z in *. lia.
Qed.

Lemma integer_silhouette : exists v, silhouette integer_element dist samples nf labels = Ok v /\ length v = n /\
  forall i, i < n -> exists x, nth_error v i = Some x /\
    x = if fellows labels i then 0%Z else
      if (Z.of_nat (length (fellows labels i)) <=? fold_right Z.add 0 (map (d i) (fellows labels i)))%Z then (-1)%Z else 0%Z.
Proof using Hd0 Hnf Hs Hlab Hn.
  unfold silhouette. rewrite (get_n samples nf n Hnf Hs).
  destruct integer_cohesion as (cs & -> & Hc1 & Hc2). destruct integer_separation as (ss & -> & Hs1 & Hs2). cbn [bind].
  apply fill_inv. intros i Hi. destruct (Hc2 i Hi) as (x & Ex & Hx). destruct (Hs2 i Hi) as (y & Ey & Hy). subst y.
  rewrite (proj2 (rd_ok cs i _) Ex), (proj2 (rd_ok ss i _) Ey). cbn [bind el_lt integer_element el_div el_sub el_one el_zero].
  destruct (summed_integer i (fellows labels i)) as (_ & H0). set (s := fold_right _ _ _) in *.
  assert (Hx0 : (0 <= x)%Z) by (subst x; apply Z.quot_pos; lia).
  destruct (Z.ltb_spec x 0); [lia|].
  assert (Hf : fellows labels i = [] -> x = 0%Z) by (intros E; subst x s; rewrite E; reflexivity).
  assert (Hx1 : fellows labels i <> [] -> (0 < x <-> Z.of_nat (length (fellows labels i)) <= s)%Z).
  { intros Hne. assert (Hl : 0 < length (fellows labels i)) by (destruct (fellows labels i); [congruence|simpl; lia]).
    subst x. replace (Z.max 1 _) with (Z.of_nat (length (fellows labels i))) by lia. rewrite Z.quot_div_nonneg by lia. split; intros HH; [|apply Z.div_str_pos; lia]. destruct (Z.lt_ge_cases s (Z.of_nat (length (fellows labels i)))); [rewrite Z.div_small in HH by lia; lia|lia]. }
  destruct (fellows labels i) as [|j l] eqn:E.
  - rewrite Hf by auto. exists 0%Z. auto.
  - specialize (Hx1 ltac:(congruence)). clear Hf. destruct (Z.ltb_spec 0 x) as [Hp|Hp].
    + destruct (Z.eqb_spec x 0); [lia|]. cbn [bind]. eexists; split; [reflexivity|]. destruct (Z.leb_spec (Z.of_nat (length (j :: l))) s); [|lia].
      rewrite Z.quot_0_l by auto. reflexivity.
    + eexists; split; [reflexivity|]. destruct (Z.leb_spec (Z.of_nat (length (j :: l))) s); [lia|reflexivity].
Qed.
End Integer.
