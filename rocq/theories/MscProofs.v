(** Lemmas on the medoid silhouette. *)
From Coq Require Import List Arith QArith Qabs Lqa Lia Bool Setoid Morphisms.
From Verif Require Import Base SortingModel BufferModel KMeansModel KMeansSpec KMeansProofs RandomModel AliasProofs
  KMedoidsModel KMedoidsSpec KMedoidsProofs MscModel MscSpec.
Import ListNotations.
Local Open Scope nat_scope.
Set Default Proof Using "Type".

(** ** Quotients *)
#[global] Instance ratio_m eps : Proper (Qeq ==> Qeq ==> Qeq) (ratio eps).
Proof.
  intros a a' Ha b b' Hb. unfold ratio.
  destruct (Qlt_le_dec eps (Qabs b)) as [H|H], (Qlt_le_dec eps (Qabs b')) as [H'|H']; rewrite ?Hb in H; try lra.
  rewrite Ha, Hb. reflexivity.
Qed.

Lemma ratio_add eps a b c : (ratio eps (a + b) c == ratio eps a c + ratio eps b c)%Q.
Proof. unfold ratio. destruct (Qlt_le_dec eps (Qabs c)); [unfold Qdiv; ring|ring]. Qed.

Lemma ratio_0 eps b : (ratio eps 0 b == 0)%Q.
Proof. unfold ratio. destruct (Qlt_le_dec eps (Qabs b)); [unfold Qdiv; ring|reflexivity]. Qed.

Lemma division_ratio eps a b : (division eps a b == ratio eps a b)%Q.
Proof.
  unfold division, equality, ratio.
  assert (E : (Qabs (0 - b) == Qabs b)%Q).
  { rewrite <- Qabs_opp. apply Qabs_wd. ring. }
  destruct (Qle_bool (Qabs (0 - b)) eps) eqn:Hb.
  - apply Qle_bool_iff in Hb. rewrite E in Hb. destruct (Qlt_le_dec eps (Qabs b)); [lra|reflexivity].
  - assert (H : ~ (Qabs (0 - b) <= eps)%Q) by (intros H; apply Qle_bool_iff in H; congruence). rewrite E in H.
    destruct (Qlt_le_dec eps (Qabs b)); [reflexivity|lra].
Qed.

(** Comparisons as cases. *)
Lemma Qlt_bool_spec x y : reflect (x < y)%Q (Qlt_bool x y).
Proof. destruct (Qlt_bool x y) eqn:E; constructor; [now apply Qlt_bool_iff|]. apply Qlt_bool_false in E. lra. Qed.

(** ** Sums *)
Fixpoint qsum (n : nat) (f : nat -> Q) : Q := match n with 0 => 0%Q | S n => (qsum n f + f n)%Q end.

Lemma qsum_ext n f g : (forall o, o < n -> (f o == g o)%Q) -> (qsum n f == qsum n g)%Q.
Proof. induction n; intros H; cbn [qsum]; [reflexivity|]. rewrite IHn by auto. rewrite H by lia. reflexivity. Qed.
Lemma qsum_add n f g : (qsum n (fun o => f o + g o) == qsum n f + qsum n g)%Q.
Proof. induction n; cbn [qsum]; [reflexivity|]. rewrite IHn. ring. Qed.
Lemma qsum_sub n f g : (qsum n (fun o => f o - g o) == qsum n f - qsum n g)%Q.
Proof. induction n; cbn [qsum]; [reflexivity|]. rewrite IHn. ring. Qed.
Lemma fold_qplus l r : (fold_right Qplus r l == fold_right Qplus 0 l + r)%Q.
Proof. induction l; simpl; [ring|]. rewrite IHl. ring. Qed.
Lemma fold_qsum n f : (fold_right Qplus 0 (map f (seq 0 n)) == qsum n f)%Q.
Proof.
  induction n; [reflexivity|]. rewrite seq_S, map_app, fold_right_app. cbn [map fold_right qsum].
  rewrite fold_qplus, IHn. cbn [Nat.add]. ring.
Qed.
Lemma fold_left_qplus l : forall r, (fold_left Qplus l r == r + fold_right Qplus 0 l)%Q.
Proof. induction l; intros r; cbn [fold_left fold_right]; [ring|]. rewrite IHl. ring. Qed.

(** ** One sample *)
Lemma two_values T k a b a' b' : nearest_two T k a b -> nearest_two T k a' b' -> (T a == T a')%Q /\ (T b == T b')%Q.
Proof.
  intros (A1 & A2 & A3 & A4 & A5) (B1 & B2 & B3 & B4 & B5).
  pose proof (A4 a' B1). pose proof (B4 a A1). assert (E : (T a == T a')%Q) by lra. split; auto.
  assert ((T b <= T b')%Q).
  { destruct (Nat.eq_dec b' a) as [->|]; [|auto]. pose proof (A5 a' B1 ltac:(auto)). lra. }
  assert ((T b' <= T b)%Q).
  { destruct (Nat.eq_dec b a') as [->|]; [|auto]. pose proof (B5 a A1 ltac:(auto)). lra. }
  lra.
Qed.

Definition term (eps : Q) (dist : nat -> nat -> Q) (M : list nat) (o : nat) (r : Q) : Prop :=
  exists i1 i2, nearest_two (to_medoid dist M o) (length M) i1 i2 /\
    (r == ratio eps (to_medoid dist M o i1) (to_medoid dist M o i2))%Q.

Lemma term_unique eps dist M o r r' : term eps dist M o r -> term eps dist M o r' -> (r == r')%Q.
Proof.
  intros (a & b & H & ->) (a' & b' & H' & ->). destruct (two_values _ _ _ _ _ _ H H') as (-> & ->). reflexivity.
Qed.

Lemma loss_qsum eps dist n M r : (forall o, o < n -> term eps dist M o (r o)) -> silhouette_loss eps dist n M (qsum n r).
Proof. intros H. exists r. split; auto. now rewrite fold_qsum. Qed.

Lemma loss_unique eps dist n M l l' : silhouette_loss eps dist n M l -> silhouette_loss eps dist n M l' -> (l == l')%Q.
Proof.
  intros (r & H & ->) (r' & H' & ->). rewrite !fold_qsum. apply qsum_ext. intros o Ho.
  apply (term_unique eps dist M o); [apply H|apply H']; auto.
Qed.

#[global] Instance loss_m eps dist n M : Proper (Qeq ==> iff) (silhouette_loss eps dist n M).
Proof. intros l l' E. unfold silhouette_loss. setoid_rewrite E. reflexivity. Qed.

(** Two positions with the nearest medoids other than [i]. *)
Definition two_but (T : nat -> Q) (k i a b : nat) : Prop :=
  a < k /\ b < k /\ a <> i /\ b <> i /\ b <> a /\ (forall j, j < k -> j <> i -> (T a <= T j)%Q) /\
  (forall j, j < k -> j <> i -> j <> a -> (T b <= T j)%Q).

Lemma nth_removed (l : list nat) i j : i < length l ->
  nth j (firstn i l ++ skipn (S i) l) 0 = nth (if j <? i then j else S j) l 0.
Proof.
  intros Hi. destruct (Nat.ltb_spec j i) as [H|H].
  - rewrite app_nth1 by (rewrite firstn_length; lia).
    replace (nth j l 0) with (nth j (firstn i l ++ skipn i l) 0) by now rewrite firstn_skipn.
    rewrite app_nth1 by (rewrite firstn_length; lia).
    reflexivity.
  - rewrite app_nth2 by (rewrite firstn_length; lia). rewrite firstn_length.
    replace (nth (S j) l 0) with (nth (S j) (firstn (S i) l ++ skipn (S i) l) 0) by now rewrite firstn_skipn.
    rewrite app_nth2 by (rewrite firstn_length; lia). rewrite firstn_length. f_equal. lia.
Qed.
Lemma removed_length (l : list nat) i : i < length l -> length (firstn i l ++ skipn (S i) l) = length l - 1.
Proof. intros. rewrite app_length, firstn_length, skipn_length. lia. Qed.

Lemma term_removed eps dist M o i a b : i < length M -> two_but (to_medoid dist M o) (length M) i a b ->
  term eps dist (firstn i M ++ skipn (S i) M) o (ratio eps (to_medoid dist M o a) (to_medoid dist M o b)).
Proof.
  intros Hi (A1 & A2 & A3 & A4 & A5 & A6 & A7).
  set (un j := if j <? i then j else j - 1). 
  assert (Hun : forall j, j <> i -> j < length M ->
    nth (un j) (firstn i M ++ skipn (S i) M) 0 = nth j M 0).
  { intros j Hj Hjk. rewrite nth_removed by auto. unfold un. destruct (Nat.ltb_spec j i) as [H|H].
    - rewrite (proj2 (Nat.ltb_lt j i) H). auto.
    - destruct (Nat.ltb_spec (j - 1) i); [lia|]. f_equal. lia. }
  exists (un a), (un b). unfold to_medoid at 2 3 4 5. rewrite !Hun by auto. split; [|reflexivity].
  rewrite removed_length by auto. unfold nearest_two, to_medoid in *. rewrite !Hun by auto.
  splits.
  - unfold un. destruct (Nat.ltb_spec a i); lia.
  - unfold un. destruct (Nat.ltb_spec b i); lia.
  - unfold un. destruct (Nat.ltb_spec a i), (Nat.ltb_spec b i); lia.
  - intros j Hj. rewrite nth_removed by auto. apply A6; destruct (Nat.ltb_spec j i); lia.
  - intros j Hj Hne. rewrite nth_removed by auto.
    apply A7; destruct (Nat.ltb_spec j i); try lia; intros <-; apply Hne; unfold un.
    + destruct (Nat.ltb_spec j i); lia.
    + destruct (Nat.ltb_spec (S j) i); lia.
Qed.

Definition with_candidate (eps doc x y : Q) : Q :=
  if Qlt_bool doc x then ratio eps doc x else if Qlt_bool doc y then ratio eps x doc else ratio eps x y.

Lemma to_medoid_exchange dist M o i c j : i < length M ->
  to_medoid dist (exchange M i c) o j = if j =? i then dist c o else to_medoid dist M o j.
Proof. intros Hi. unfold to_medoid. rewrite nth_exchange by auto. destruct (j =? i); auto. Qed.

Lemma term_exchange eps dist M o i c a b : i < length M -> two_but (to_medoid dist M o) (length M) i a b ->
  term eps dist (exchange M i c) o (with_candidate eps (dist c o) (to_medoid dist M o a) (to_medoid dist M o b)).
Proof.
  intros Hi (A1 & A2 & A3 & A4 & A5 & A6 & A7).
  assert (HT := fun j => to_medoid_exchange dist M o i c j Hi).
  set (T := to_medoid dist M o) in *. set (T' := to_medoid dist (exchange M i c) o) in *.
  assert (Hi' : T' i = dist c o) by (rewrite HT, Nat.eqb_refl; auto).
  assert (Ho : forall j, j <> i -> T' j = T j) by (intros j Hj; rewrite HT; destruct (Nat.eqb_spec j i); congruence).
  unfold with_candidate. unfold term, nearest_two. fold T'. rewrite exchange_length by auto.
  destruct (Qlt_bool_spec (dist c o) (T a)) as [H|H]; [|destruct (Qlt_bool_spec (dist c o) (T b)) as [H2|H2]].
  - exists i, a. rewrite Hi', (Ho a) by auto. split; [|reflexivity]. splits; auto.
    + intros j Hj. destruct (Nat.eq_dec j i) as [->|Hne]; [rewrite Hi'; lra|]. rewrite Ho by auto. pose proof (A6 j Hj Hne). lra.
    + intros j Hj Hne. rewrite Ho by auto. auto.
  - exists a, i. rewrite Hi', (Ho a) by auto. split; [|reflexivity]. splits; auto.
    + intros j Hj. destruct (Nat.eq_dec j i) as [->|Hne]; [rewrite Hi'; lra|]. rewrite Ho by auto. auto.
    + intros j Hj Hne. destruct (Nat.eq_dec j i) as [->|Hni]; [rewrite Hi'; lra|]. rewrite Ho by auto. pose proof (A7 j Hj Hni Hne). lra.
  - exists a, b. rewrite (Ho a), (Ho b) by auto. split; [|reflexivity]. splits; auto.
    + intros j Hj. destruct (Nat.eq_dec j i) as [->|Hne]; [rewrite Hi'; lra|]. rewrite Ho by auto. auto.
    + intros j Hj Hne. destruct (Nat.eq_dec j i) as [->|Hni]; [rewrite Hi'; lra|]. rewrite Ho by auto. auto.
Qed.

(** What is stored for a sample describes its medoids. *)
Record ranked (T : nat -> Q) (k : nat) (s : nearest_three) : Prop := {
  r_1 : t_1 s < k; r_2 : t_2 s < k; r_3 : t_3 s < k;
  r_21 : t_2 s <> t_1 s; r_31 : t_3 s <> t_1 s; r_32 : t_3 s <> t_2 s;
  r_e1 : (e_1 s == T (t_1 s))%Q; r_e2 : (e_2 s == T (t_2 s))%Q; r_e3 : (e_3 s == T (t_3 s))%Q;
  r_12 : (e_1 s <= e_2 s)%Q; r_23 : (e_2 s <= e_3 s)%Q;
  r_rest : forall j, j < k -> j <> t_1 s -> j <> t_2 s -> (e_3 s <= T j)%Q }.

Lemma ranked_two T k s : ranked T k s -> nearest_two T k (t_1 s) (t_2 s).
Proof.
  intros []. unfold nearest_two. splits; auto.
  - intros j Hj. destruct (Nat.eq_dec j (t_1 s)) as [->|]; [lra|]. destruct (Nat.eq_dec j (t_2 s)) as [->|]; [lra|].
    pose proof (r_rest0 j Hj n n0). lra.
  - intros j Hj Hne. destruct (Nat.eq_dec j (t_2 s)) as [->|]; [lra|]. pose proof (r_rest0 j Hj Hne n). lra.
Qed.

Lemma ranked_but T k s i : i < k -> ranked T k s -> two_but T k i
  (if i =? t_1 s then t_2 s else t_1 s) (if (i =? t_1 s) || (i =? t_2 s) then t_3 s else t_2 s).
Proof.
  intros Hi []. unfold two_but.
  destruct (Nat.eqb_spec i (t_1 s)) as [->|]; [|destruct (Nat.eqb_spec i (t_2 s)) as [->|]]; cbn [orb]; splits; auto.
  - intros j Hj Hne. destruct (Nat.eq_dec j (t_2 s)) as [->|]; [lra|]. pose proof (r_rest0 j Hj Hne n). lra.
  - intros j Hj Hne Hne2. pose proof (r_rest0 j Hj Hne Hne2). lra.
  - intros j Hj Hne. destruct (Nat.eq_dec j (t_1 s)) as [->|]; [lra|]. pose proof (r_rest0 j Hj n0 Hne). lra.
  - intros j Hj Hne Hne2. pose proof (r_rest0 j Hj Hne2 Hne). lra.
  - intros j Hj Hne. destruct (Nat.eq_dec j (t_1 s)) as [->|]; [lra|]. destruct (Nat.eq_dec j (t_2 s)) as [->|]; [lra|].
    pose proof (r_rest0 j Hj n1 n2). lra.
  - intros j Hj Hne Hne2. destruct (Nat.eq_dec j (t_2 s)) as [->|]; [lra|]. pose proof (r_rest0 j Hj Hne2 n1). lra.
Qed.

(** What a sample adds in [compute_silhouette_losses] and [msc_best_swap]. *)
Definition removal_part (eps : Q) (s : nearest_three) (i : nat) : Q :=
  ((if i =? t_1 s then ratio eps (e_1 s) (e_2 s) - ratio eps (e_2 s) (e_3 s) else 0) +
   (if i =? t_2 s then ratio eps (e_1 s) (e_2 s) - ratio eps (e_1 s) (e_3 s) else 0))%Q.
Definition candidate_part (eps doc : Q) (s : nearest_three) : Q :=
  (if Qlt_bool doc (e_1 s) then ratio eps (e_1 s) (e_2 s) - ratio eps doc (e_1 s)
   else if Qlt_bool doc (e_2 s) then ratio eps (e_1 s) (e_2 s) - ratio eps (e_1 s) doc else 0)%Q.
Definition medoid_part (eps doc : Q) (s : nearest_three) (i : nat) : Q :=
  ((if i =? t_1 s then
      if Qlt_bool doc (e_1 s) then ratio eps doc (e_1 s) + ratio eps (e_2 s) (e_3 s) - ratio eps (e_1 s + doc) (e_2 s)
      else if Qlt_bool doc (e_2 s) then ratio eps (e_1 s) doc + ratio eps (e_2 s) (e_3 s) - ratio eps (e_1 s + doc) (e_2 s)
      else if Qlt_bool doc (e_3 s) then ratio eps (e_2 s) (e_3 s) - ratio eps (e_2 s) doc else 0
    else 0) +
   (if i =? t_2 s then
      if Qlt_bool doc (e_1 s) then ratio eps (e_1 s) (e_3 s) - ratio eps (e_1 s) (e_2 s)
      else if Qlt_bool doc (e_2 s) then ratio eps (e_1 s) (e_3 s) - ratio eps (e_1 s) (e_2 s)
      else if Qlt_bool doc (e_3 s) then ratio eps (e_1 s) (e_3 s) - ratio eps (e_1 s) doc else 0
    else 0))%Q.

Section OneSample.
Context (eps : Q) (dist : nat -> nat -> Q) (M : list nat) (o : nat) (s : nearest_three).
Context (H : ranked (to_medoid dist M o) (length M) s).

Lemma ranked_term : term eps dist M o (ratio eps (e_1 s) (e_2 s)).
Proof using H. exists (t_1 s), (t_2 s). split; [now apply ranked_two|]. destruct H. rewrite r_e4, r_e5. reflexivity. Qed.

Lemma removal_term i : i < length M ->
  term eps dist (firstn i M ++ skipn (S i) M) o (ratio eps (e_1 s) (e_2 s) - removal_part eps s i).
Proof using H.
  intros Hi. pose proof (term_removed eps dist M o i _ _ Hi (ranked_but _ _ _ i Hi H)) as (a & b & H1 & H2).
  exists a, b. split; auto. rewrite <- H2. destruct H. unfold removal_part.
  destruct (Nat.eqb_spec i (t_1 s)) as [->|]; [|destruct (Nat.eqb_spec i (t_2 s)) as [->|]]; cbn [orb].
  - destruct (Nat.eqb_spec (t_1 s) (t_2 s)); [congruence|]. rewrite <- r_e5, <- r_e6. ring.
  - rewrite <- r_e4, <- r_e6. ring.
  - rewrite <- r_e4, <- r_e5. ring.
Qed.

Lemma exchange_term i c : i < length M ->
  term eps dist (exchange M i c) o
    (ratio eps (e_1 s) (e_2 s) - (candidate_part eps (dist c o) s + medoid_part eps (dist c o) s i + removal_part eps s i)).
Proof using H.
  intros Hi. pose proof (term_exchange eps dist M o i c _ _ Hi (ranked_but _ _ _ i Hi H)) as (a & b & H1 & H2).
  exists a, b. split; auto. rewrite <- H2. destruct H. unfold removal_part, medoid_part, candidate_part, with_candidate.
  set (doc := dist c o) in *.
  assert (W : forall x y, (x == y)%Q -> Qlt_bool doc x = Qlt_bool doc y).
  { intros x y E. destruct (Qlt_bool_spec doc x), (Qlt_bool_spec doc y); auto; lra. }
  destruct (Nat.eqb_spec i (t_1 s)) as [->|]; [|destruct (Nat.eqb_spec i (t_2 s)) as [->|]]; cbn [orb].
  - destruct (Nat.eqb_spec (t_1 s) (t_2 s)); [congruence|].
    rewrite (W _ _ (Qeq_sym _ _ r_e5)), (W _ _ (Qeq_sym _ _ r_e6)).
    destruct (Qlt_bool_spec doc (e_1 s)), (Qlt_bool_spec doc (e_2 s)), (Qlt_bool_spec doc (e_3 s)); try lra;
      rewrite ?ratio_add, <- ?r_e5, <- ?r_e6; ring.
  - rewrite (W _ _ (Qeq_sym _ _ r_e4)), (W _ _ (Qeq_sym _ _ r_e6)).
    destruct (Qlt_bool_spec doc (e_1 s)), (Qlt_bool_spec doc (e_2 s)), (Qlt_bool_spec doc (e_3 s)); try lra;
      rewrite ?ratio_add, <- ?r_e4, <- ?r_e6; ring.
  - rewrite (W _ _ (Qeq_sym _ _ r_e4)), (W _ _ (Qeq_sym _ _ r_e5)).
    destruct (Qlt_bool_spec doc (e_1 s)), (Qlt_bool_spec doc (e_2 s)); try lra;
      rewrite ?ratio_add, <- ?r_e4, <- ?r_e5; ring.
Qed.
End OneSample.

(** ** Lists *)
Lemma qadd_at_ok x i v : i < length x -> exists x', qadd_at x i v = Ok x' /\ length x' = length x /\
  forall j, (nth j x' 0 == nth j x 0 + if (j =? i)%nat then v else 0)%Q.
Proof.
  intros Hi. unfold qadd_at. rewrite (rd_nth x i 0%Q) by auto. cbn [bind]. rewrite wr_lt by auto.
  eexists. splits; eauto using upd_length. intros j. rewrite nth_upd by auto.
  destruct (Nat.eqb_spec j i) as [->|]; lra.
Qed.

Lemma qmax_ok (l : list Q) : l <> [] -> exists j v, get_max_index_value_pair Qlt_bool l = Ok (j, v) /\
  j < length l /\ v = nth j l 0%Q /\ (forall i, i < length l -> (nth i l 0 <= v)%Q) /\ (forall i, i < j -> (nth i l 0 < v)%Q).
Proof.
  destruct l as [|x l]; [congruence|]. intros _. cbn [get_max_index_value_pair].
  assert (G : forall l bi best i, let '(j, v) := max_element_from Qlt_bool bi best i l in
    (best <= v)%Q /\ (forall t, t < length l -> (nth t l 0 <= v)%Q) /\
    ((j = bi /\ v = best) \/ (i <= j /\ j - i < length l /\ v = nth (j - i) l 0%Q /\ (best < v)%Q /\
       (forall t, t < j - i -> (nth t l 0 < v)%Q)))).
  { clear. induction l as [|x l IH]; intros bi best i; cbn [max_element_from length].
    - splits; auto; try lia. lra.
    - destruct (Qlt_bool_spec best x) as [Hx|Hx].
      + specialize (IH i x (S i)). destruct (max_element_from _ i x (S i) l) as (j, v). destruct IH as (H1 & H2 & H3).
        splits; [lra| |].
        * intros [|t] Ht; cbn [nth]; [lra|]. apply H2. lia.
        * right. destruct H3 as [(-> & ->)|(H3 & H4 & H5 & H6 & H7)].
          -- rewrite Nat.sub_diag. splits; try lia; auto.
          -- replace (j - i) with (S (j - S i)) by lia. splits; try lia; auto; try lra.
             intros [|t] Ht; cbn [nth]; [lra|]. apply H7. lia.
      + specialize (IH bi best (S i)). destruct (max_element_from _ bi best (S i) l) as (j, v). destruct IH as (H1 & H2 & H3).
        splits; [lra| |].
        * intros [|t] Ht; cbn [nth]; [lra|]. apply H2. lia.
        * destruct H3 as [(-> & ->)|(H3 & H4 & H5 & H6 & H7)]; auto. right.
          replace (j - i) with (S (j - S i)) by lia. splits; try lia; auto. intros [|t] Ht; cbn [nth]; [lra|]. apply H7. lia. }
  specialize (G l 0 x 1). destruct (max_element_from _ 0 x 1 l) as (j, v). destruct G as (H1 & H2 & H3).
  exists j, v. split; auto. cbn [length]. destruct H3 as [(-> & ->)|(H3 & H4 & H5 & H6 & H7)].
  - splits; auto; try lia. intros [|i] Hi; cbn [nth]; [lra|]. apply H2. lia.
  - destruct j as [|j]; [lia|]. replace (S j - 1) with j in * by lia. splits; auto; try lia.
    + intros [|i] Hi; cbn [nth]; [lra|]. apply H2. lia.
    + intros [|i] Hi; cbn [nth]; [lra|]. apply H7. lia.
Qed.

(** The buffers of one sample. *)
Definition pack (I1 I2 I3 : list nat) (D1 D2 D3 : list Q) (o : nat) : nearest_three :=
  mk_three (nth o I1 0) (nth o I2 0) (nth o I3 0) (nth o D1 0%Q) (nth o D2 0%Q) (nth o D3 0%Q).
Definition stored (p : msc) (o : nat) : nearest_three :=
  pack (s_nearest p) (s_second p) (s_third p) (s_distances p) (s_second_distances p) (s_third_distances p) o.

Ltac two_adds HX :=
  cbn zeta;
  let Pa := fresh "Pa" in let Pb := fresh "Pb" in let Ha := fresh "Ha" in let Hb := fresh "Hb" in
  match goal with |- context [qadd_at ?x ?i ?v] => destruct (qadd_at_ok x i v) as (? & -> & Ha & Pa); [lia|] end; cbn [bind];
  match goal with |- context [qadd_at ?x ?i ?v] => destruct (qadd_at_ok x i v) as (? & -> & Hb & Pb); [lia|] end; cbn [bind];
  eexists; (split; [reflexivity|]); apply HX; try lia;
  [rewrite ?division_ratio; ring
  |let i := fresh "i" in let Hi := fresh "Hi" in intros i Hi; rewrite Pb, Pa;
   repeat match goal with |- context [if (?a =? ?b) then _ else _] => destruct (a =? b) end; rewrite ?division_ratio; ring].

Section State.
Context (eps top : Q) (dist : nat -> nat -> Q) (n : nat) (src : source Q) (Hsrc : provides src n dist).

Lemma silhouette_losses_ok I1 I2 I3 D1 D2 D3 k : length I1 = n -> length I2 = n -> length D1 = n -> length D2 = n ->
  length D3 = n -> (forall o, o < n -> nth o I1 0 < k /\ nth o I2 0 < k) ->
  exists L, compute_silhouette_losses eps I1 I2 D1 D2 D3 k = Ok L /\ length L = k /\
    forall i, i < k -> (nth i L 0 == qsum n (fun o => removal_part eps (pack I1 I2 I3 D1 D2 D3 o) i))%Q.
Proof.
  intros L1 L2 L3 L4 L5 HI. unfold compute_silhouette_losses. rewrite L1.
  match goal with |- context [for_loop n 0 ?body ?s0] =>
    destruct (for_loop_inv (fun t L => length L = k /\ forall i, i < k ->
      (nth i L 0 == qsum t (fun o => removal_part eps (pack I1 I2 I3 D1 D2 D3 o) i))%Q) body n 0 s0) as (L & E & HL & HP) end.
  - rewrite repeat_length. split; auto. intros i Hi. rewrite nth_repeat. reflexivity.
  - intros o L Ho (HL & HP). destruct (HI o ltac:(lia)) as (Ha & Hb).
    rewrite (rd_nth I1 o 0), (rd_nth I2 o 0), (rd_nth D1 o 0%Q), (rd_nth D2 o 0%Q), (rd_nth D3 o 0%Q) by lia. cbn [bind].
    match goal with |- context [qadd_at L ?i ?v] => destruct (qadd_at_ok L i v) as (La & -> & HLa & Pa); [lia|] end. cbn [bind].
    match goal with |- context [qadd_at La ?i ?v] => destruct (qadd_at_ok La i v) as (Lb & -> & HLb & Pb); [lia|] end.
    exists Lb. splits; auto; try lia. intros i Hi. cbn [qsum]. rewrite Pb, Pa, HP by auto.
    unfold removal_part, pack; cbn [t_1 t_2 e_1 e_2 e_3]. 
    destruct (i =? nth o I1 0), (i =? nth o I2 0); rewrite ?division_ratio; ring.
  - exists L. auto.
Qed.

Lemma best_swap_value p k c : c < n -> length (s_nearest p) = n -> length (s_second p) = n -> length (s_distances p) = n ->
  length (s_second_distances p) = n -> length (s_third_distances p) = n -> length (s_losses p) = k -> 1 <= k ->
  (forall o, o < n -> nth o (s_nearest p) 0 < k /\ nth o (s_second p) 0 < k) ->
  exists delta b, msc_best_swap eps src p c = Ok (delta, b) /\ b < k /\
    let gain i := (nth i (s_losses p) 0 + qsum n (fun o => medoid_part eps (dist c o) (stored p o) i) +
      qsum n (fun o => candidate_part eps (dist c o) (stored p o)))%Q in
    (delta == gain b)%Q /\ (forall i, i < k -> (gain i <= delta)%Q) /\ (forall i, i < b -> (gain i < delta)%Q).
Proof using Hsrc.
  intros Hc L1 L2 L3 L4 L5 LL Hk HI. unfold msc_best_swap. destruct Hsrc as (Hr & Hd). rewrite Hr.
  destruct p as [med I1 I2 I3 D1 D2 D3 L loss].
  cbn [s_nearest s_second s_distances s_second_distances s_third_distances s_losses] in *.
  unfold stored; cbn [s_nearest s_second s_third s_distances s_second_distances s_third_distances].
  match goal with |- context [for_loop n 0 ?body ?s0] =>
    destruct (for_loop_inv (fun t '(xc, mi) => (xc == qsum t (fun o => candidate_part eps (dist c o) (pack I1 I2 I3 D1 D2 D3 o)))%Q /\
      length mi = k /\ forall i, i < k ->
        (nth i mi 0 == nth i L 0 + qsum t (fun o => medoid_part eps (dist c o) (pack I1 I2 I3 D1 D2 D3 o) i))%Q) body n 0 s0)
      as ((xc & mi) & E & Hx & Hl & Hm)
  end.
  - splits; auto; [reflexivity|]. intros i Hi. cbn [qsum]. ring.
  - intros o (xc & mi) Ho (Hx & Hl & Hm). rewrite Hd by lia. cbn [bind].
    rewrite (rd_nth I1 o 0), (rd_nth I2 o 0), (rd_nth D1 o 0%Q), (rd_nth D2 o 0%Q), (rd_nth D3 o 0%Q) by lia. cbn [bind].
    destruct (HI o ltac:(lia)) as (Ha & Hb).
    assert (HX : forall xc' mi', (xc' == xc + candidate_part eps (dist c o) (pack I1 I2 I3 D1 D2 D3 o))%Q -> length mi' = k ->
      (forall i, i < k -> (nth i mi' 0 == nth i mi 0 + medoid_part eps (dist c o) (pack I1 I2 I3 D1 D2 D3 o) i)%Q) ->
      (xc' == qsum (S o) (fun o => candidate_part eps (dist c o) (pack I1 I2 I3 D1 D2 D3 o)))%Q /\ length mi' = k /\
      forall i, i < k ->
        (nth i mi' 0 == nth i L 0 + qsum (S o) (fun o => medoid_part eps (dist c o) (pack I1 I2 I3 D1 D2 D3 o) i))%Q).
    { intros xc' mi' Hx' Hl' Hm'. cbn [qsum]. splits; auto; [rewrite Hx', Hx; reflexivity|].
      intros i Hii. rewrite Hm', Hm by auto. ring. }
    unfold candidate_part, medoid_part, pack in HX.
    cbn [t_1 t_2 t_3 e_1 e_2 e_3] in HX.
    destruct (Qlt_bool_spec (dist c o) (nth o D1 0%Q)) as [H1|H1];
      [|destruct (Qlt_bool_spec (dist c o) (nth o D2 0%Q)) as [H2|H2];
        [|destruct (Qlt_bool_spec (dist c o) (nth o D3 0%Q)) as [H3|H3]]].
    1: two_adds HX. 1: two_adds HX. 1: two_adds HX.
    eexists. split; [reflexivity|]. apply HX; auto; [ring|]. intros i Hii. destruct (i =? nth o I1 0), (i =? nth o I2 0); ring.
  - rewrite E. cbn [bind]. destruct (qmax_ok mi) as (b & v & -> & Hb & Hv & Hmax & Hfirst).
    { intros ->. simpl in Hl. lia. }
    cbn [bind]. exists (xc + v)%Q, b. split; auto. split; [lia|]. cbn zeta. cbn [Nat.add] in *. splits.
    + rewrite Hv, Hm, Hx by lia. ring.
    + intros i Hi. specialize (Hmax i ltac:(lia)). rewrite (Hm i Hi) in Hmax. rewrite Hx. lra.
    + intros i Hi. specialize (Hfirst i Hi). rewrite (Hm i ltac:(lia)) in Hfirst. rewrite Hx. lra.
Qed.

(** ** Described states *)
Lemma described_ranked p o : described eps dist n p -> o < n ->
  ranked (to_medoid dist (s_medoids p) o) (length (s_medoids p)) (stored p o).
Proof.
  intros [_ H3 _ H _] Ho. destruct (H o Ho) as ((A1 & A2 & A3 & A4 & A5) & B1 & B2 & B3 & B4 & B5 & B6 & B7).
  unfold stored, pack. constructor; cbn [t_1 t_2 t_3 e_1 e_2 e_3]; auto.
  - rewrite B5, B6. auto.
  - rewrite B6, B7. auto.
  - intros j Hj E1 E2. rewrite B7. auto.
Qed.

Lemma gain_is_exchange p c i l : described eps dist n p -> c < n -> i < length (s_medoids p) ->
  silhouette_loss eps dist n (s_medoids p) l ->
  silhouette_loss eps dist n (exchange (s_medoids p) i c)
    (l - (nth i (s_losses p) 0 + qsum n (fun o => medoid_part eps (dist c o) (stored p o) i) +
      qsum n (fun o => candidate_part eps (dist c o) (stored p o))))%Q.
Proof.
  intros Hp Hc Hi Hl. set (M := s_medoids p) in *.
  pose proof (loss_qsum eps dist n M (fun o => ratio eps (e_1 (stored p o)) (e_2 (stored p o)))) as H1.
  specialize (H1 (fun o Ho => ranked_term eps dist M o (stored p o) (described_ranked p o Hp Ho))).
  pose proof (loss_qsum eps dist n _ _ (fun o Ho => removal_term eps dist M o (stored p o) (described_ranked p o Hp Ho) i Hi)) as H2.
  pose proof (loss_qsum eps dist n _ _ (fun o Ho => exchange_term eps dist M o (stored p o) (described_ranked p o Hp Ho) i c Hi)) as H3.
  destruct (d_losses _ _ _ _ Hp i Hi) as (la & lb & Ha & Hb & E).
  pose proof (loss_unique _ _ _ _ _ _ Hl Ha) as E1. pose proof (loss_unique _ _ _ _ _ _ Hl H1) as E2.
  pose proof (loss_unique _ _ _ _ _ _ Hb H2) as E3.
  rewrite E. eapply loss_m; [|exact H3]. cbn beta.
  rewrite qsum_sub, qsum_add, qsum_add. rewrite qsum_sub in E3. rewrite E3, <- E2, E1. ring.
Qed.

Lemma best_swap_ok p c l : described eps dist n p -> c < n -> silhouette_loss eps dist n (s_medoids p) l ->
  exists delta b lb, msc_best_swap eps src p c = Ok (delta, b) /\ b < length (s_medoids p) /\
    silhouette_loss eps dist n (exchange (s_medoids p) b c) lb /\ (delta == l - lb)%Q /\
    (forall i li, i < length (s_medoids p) -> silhouette_loss eps dist n (exchange (s_medoids p) i c) li -> (lb <= li)%Q) /\
    (forall i li, i < b -> silhouette_loss eps dist n (exchange (s_medoids p) i c) li -> (lb < li)%Q).
Proof using Hsrc.
  intros Hp Hc Hl. destruct (d_lengths _ _ _ _ Hp) as (L1 & L2 & L3 & L4 & L5 & L6 & L7). pose proof (d_three _ _ _ _ Hp).
  destruct (best_swap_value p (length (s_medoids p)) c) as (delta & b & E & Hb & H1 & H2 & H3); auto; try lia.
  { intros o Ho. destruct (d_nearest _ _ _ _ Hp o Ho) as ((? & ? & _) & _). auto. }
  cbn zeta in *. pose proof (gain_is_exchange p c b l Hp Hc Hb Hl) as Hg.
  exists delta, b, (l - delta)%Q. splits; auto.
  - rewrite H1. auto.
  - ring.
  - intros i li Hi Hli. pose proof (loss_unique _ _ _ _ _ _ Hli (gain_is_exchange p c i l Hp Hc Hi Hl)) as Eli.
    specialize (H2 i Hi). lra.
  - intros i li Hi Hli. pose proof (loss_unique _ _ _ _ _ _ Hli (gain_is_exchange p c i l Hp Hc ltac:(lia) Hl)) as Eli.
    specialize (H3 i Hi). lra.
Qed.
(** ** An exchange *)
Lemma update_third_ok M b o i1 i2 : (forall m, In m M -> m < n) -> o < n -> b < length M ->
  i1 <> b -> i2 <> b ->
  exists i3 d3, update_third_nearest src M b o (to_medoid dist M o b) i1 i2 = Ok (i3, d3) /\
    i3 < length M /\ i3 <> i1 /\ i3 <> i2 /\ d3 = to_medoid dist M o i3 /\
    forall j, j < length M -> j <> i1 -> j <> i2 -> (d3 <= to_medoid dist M o j)%Q.
Proof using Hsrc.
  intros HM Ho Hb Hn1 Hn2. unfold update_third_nearest. destruct Hsrc as (_ & Hd).
  match goal with |- context [for_loop ?k 0 ?body ?s0] =>
    destruct (for_loop_inv (fun t '(i3, d3) => i3 < length M /\ i3 <> i1 /\ i3 <> i2 /\ d3 = to_medoid dist M o i3 /\
      (d3 <= to_medoid dist M o b)%Q /\ forall j, j < t -> j <> i1 -> j <> i2 -> (d3 <= to_medoid dist M o j)%Q) body k 0 s0)
      as ((i3 & d3) & E & H1 & H2 & H3 & H4 & H5 & H6)
  end.
  - splits; auto; try lia. lra.
  - intros j (i3 & d3) Hj (H1 & H2 & H3 & H4 & H5 & H6).
    assert (HK : (j = i1 \/ j = b \/ j = i2) -> exists s', Ok (i3, d3) = Ok s' /\
      (let '(i3, d3) := s' in i3 < length M /\ i3 <> i1 /\ i3 <> i2 /\ d3 = to_medoid dist M o i3 /\
      (d3 <= to_medoid dist M o b)%Q /\ forall j', j' < S j -> j' <> i1 -> j' <> i2 -> (d3 <= to_medoid dist M o j')%Q)).
    { intros Hc. eexists. split; [reflexivity|cbv beta iota]. splits; auto. intros j' Hj' E1 E2.
      destruct (Nat.eq_dec j' j) as [->|]; [|apply H6; auto; lia]. destruct Hc as [?|[->|?]]; try contradiction. auto. }
    destruct (Nat.eqb_spec j i1) as [E1|E1]; [cbn [negb andb]; auto|].
    destruct (Nat.eqb_spec j b) as [E2|E2]; [cbn [negb andb]; auto|].
    destruct (Nat.eqb_spec j i2) as [E3|E3]; [cbn [negb andb]; auto|]. cbn [negb andb].
    unfold medoid_distance. rewrite (rd_nth M j 0) by lia. cbn [bind].
    rewrite Hd; auto; [|apply HM, nth_In; lia]. cbn [bind]. change (dist (nth j M 0) o) with (to_medoid dist M o j).
    destruct (Qlt_bool_spec (to_medoid dist M o j) d3).
    + eexists. split; [reflexivity|cbv beta iota]. splits; auto; try lia; [lra|]. intros j' Hj' E1' E2'.
      destruct (Nat.eq_dec j' j) as [->|]; [lra|]. specialize (H6 j' ltac:(lia) E1' E2'). lra.
    + eexists. split; [reflexivity|cbv beta iota]. splits; auto; try lia. intros j' Hj' E1' E2'.
      destruct (Nat.eq_dec j' j) as [->|]; [lra|]. apply H6; auto; lia.
  - exists i3, d3. splits; auto.
Qed.

Lemma msc_swap_sample_ok M c b o s : (forall m, In m M -> m < n) -> c < n -> o < n -> b < length M -> 3 <= length M ->
  (dist o o == 0)%Q -> (forall i, i < n -> (0 <= dist i o)%Q) ->
  ranked (to_medoid dist M o) (length M) s ->
  (o <> c -> t_3 s = 0 -> (dist c o < e_3 s)%Q \/ (length M = 3 /\ b = 0)) ->
  exists s', msc_swap_sample src (exchange M b c) c b o s = Ok s' /\
    ranked (to_medoid dist (exchange M b c) o) (length M) s' /\ (o = c -> (e_1 s' == 0)%Q).
Proof using Hsrc.
  intros HM Hc Ho Hb H3 Hself Hpos Hr Hbug. set (M' := exchange M b c).
  assert (HL : length M' = length M) by (now apply exchange_length).
  assert (HT := fun j => to_medoid_exchange dist M o b c j Hb). fold M' in HT.
  set (T := to_medoid dist M o) in *. set (T' := to_medoid dist M' o) in *.
  assert (Hb' : T' b = dist c o) by (now rewrite HT, Nat.eqb_refl).
  assert (Hj' : forall j, j <> b -> T' j = T j) by (intros j Hj; rewrite HT; destruct (Nat.eqb_spec j b); congruence).
  assert (HM' : forall m, In m M' -> m < n).
  { intros m Hm. apply in_exchange in Hm; auto. destruct Hm as [->|(j & Hj & _ & <-)]; auto. apply HM, nth_In; auto. }
  assert (HposT : forall j, j < length M -> (0 <= T j)%Q) by (intros j Hj; apply Hpos, HM, nth_In; auto).
  destruct s as [i1 i2 i3 d1 d2 d3]. destruct Hr as [A1 A2 A3 A21 A31 A32 B1 B2 B3 C12 C23 CR].
  cbn [t_1 t_2 t_3 e_1 e_2 e_3] in *. unfold msc_swap_sample. cbn [t_1 t_2 t_3 e_1 e_2 e_3].
  pose proof (HposT i1 A1) as P1.
  assert (CR2 : forall j, j < length M -> j <> i1 -> (d2 <= T j)%Q).
  { intros j Hj Hne. destruct (Nat.eq_dec j i2) as [->|]; [lra|]. pose proof (CR j Hj Hne n0). lra. }
  assert (CR1 : forall j, j < length M -> (d1 <= T j)%Q).
  { intros j Hj. destruct (Nat.eq_dec j i1) as [->|]; [lra|]. pose proof (CR2 j Hj n0). lra. }
  destruct (Nat.eqb_spec o c) as [Hoc|Hoc].
  - assert (Hz : (T' b == 0)%Q) by (rewrite Hb', <- Hoc; auto).
    assert (HR : forall s', (e_1 s' == 0)%Q -> ranked T' (length M) s' -> exists s'', Ok s' = Ok s'' /\ ranked T' (length M) s'' /\ (o = c -> (e_1 s'' == 0)%Q)) by eauto.
    destruct (Nat.eqb_spec i1 b) as [E|E]; cbn [negb]; [|destruct (Nat.eqb_spec i2 b) as [E2|E2]; cbn [negb]]; apply HR; try reflexivity.
    + subst i1. constructor; cbn [t_1 t_2 t_3 e_1 e_2 e_3]; auto; rewrite ?Hj' by auto; auto; try lra.
      intros j Hj N1 N2. rewrite Hj' by auto. auto.
    + subst i2. constructor; cbn [t_1 t_2 t_3 e_1 e_2 e_3]; auto; rewrite ?Hj' by auto; auto; try lra.
      intros j Hj N1 N2. rewrite Hj' by auto. auto.
    + constructor; cbn [t_1 t_2 t_3 e_1 e_2 e_3]; auto; rewrite ?Hj' by auto; auto; try lra.
      intros j Hj N1 N2. rewrite Hj' by auto. auto.
  - destruct Hsrc as (_ & Hd). rewrite Hd by auto. cbn [bind]. set (doc := dist c o) in *.
    assert (HR : forall s', ranked T' (length M) s' -> exists s'', Ok s' = Ok s'' /\ ranked T' (length M) s'' /\ (o = c -> (e_1 s'' == 0)%Q))
      by (intros s' Hs'; exists s'; splits; auto; contradiction).
    specialize (Hbug Hoc).
    destruct (Nat.eqb_spec i1 b) as [E|E]; [|destruct (Nat.eqb_spec i2 b) as [E2|E2]].
    + subst i1. destruct (Qlt_bool_spec doc d2) as [H1|H1].
      { apply HR. constructor; cbn [t_1 t_2 t_3 e_1 e_2 e_3]; auto; rewrite ?Hj', ?Hb' by auto; auto; try lra; try reflexivity.
        intros j Hj N1 N2. rewrite Hj' by auto. auto. }
      destruct (Qlt_bool_spec doc d3) as [H2|H2]; cbn [orb].
      { apply HR. constructor; cbn [t_1 t_2 t_3 e_1 e_2 e_3]; auto; rewrite ?Hj', ?Hb' by auto; auto; try lra; try reflexivity.
        intros j Hj N1 N2. rewrite Hj' by auto. auto. }
      destruct (Nat.eqb_spec i3 0) as [E3|E3].
      { destruct (Hbug E3) as [?|(? & ?)]; [lra|]. congruence. }
      rewrite <- Hb'. destruct (update_third_ok M' b o i2 i3) as (i' & d' & EU & U1 & U2 & U3 & U4 & U5); auto; try lia.
      fold T' in EU. rewrite EU. cbn [bind]. apply HR. rewrite HL in *. fold T' in U4, U5.
      constructor; cbn [t_1 t_2 t_3 e_1 e_2 e_3]; auto; rewrite ?Hj', ?Hb' by auto; auto; try lra.
      * rewrite U4. reflexivity.
      * rewrite U4. destruct (Nat.eq_dec i' b) as [->|Hn]; [rewrite Hb'; lra|]. rewrite Hj' by auto. auto.
    + subst i2. destruct (Qlt_bool_spec doc d1) as [H1|H1].
      { apply HR. constructor; cbn [t_1 t_2 t_3 e_1 e_2 e_3]; auto; rewrite ?Hj', ?Hb' by auto; auto; try lra; try reflexivity.
        intros j Hj N1 N2. rewrite Hj' by auto. auto. }
      destruct (Qlt_bool_spec doc d3) as [H2|H2]; cbn [orb].
      { apply HR. constructor; cbn [t_1 t_2 t_3 e_1 e_2 e_3]; auto; rewrite ?Hj', ?Hb' by auto; auto; try lra; try reflexivity.
        intros j Hj N1 N2. rewrite Hj' by auto. auto. }
      destruct (Nat.eqb_spec i3 0) as [E3|E3].
      { destruct (Hbug E3) as [?|(? & ?)]; [lra|]. congruence. }
      rewrite <- Hb'. destruct (update_third_ok M' b o i1 i3) as (i' & d' & EU & U1 & U2 & U3 & U4 & U5); auto; try lia.
      fold T' in EU. rewrite EU. cbn [bind]. apply HR. rewrite HL in *. fold T' in U4, U5.
      constructor; cbn [t_1 t_2 t_3 e_1 e_2 e_3]; auto; rewrite ?Hj', ?Hb' by auto; auto; try lra.
      * rewrite U4. reflexivity.
      * rewrite U4. destruct (Nat.eq_dec i' b) as [->|Hn]; [rewrite Hb'; lra|]. rewrite Hj' by auto. auto.
    + destruct (Qlt_bool_spec doc d1) as [H1|H1].
      { apply HR. constructor; cbn [t_1 t_2 t_3 e_1 e_2 e_3]; auto; rewrite ?Hj', ?Hb' by auto; auto; try lra; try reflexivity.
        intros j Hj N1 N2. rewrite Hj' by auto. auto. }
      destruct (Qlt_bool_spec doc d2) as [H2|H2].
      { apply HR. constructor; cbn [t_1 t_2 t_3 e_1 e_2 e_3]; auto; rewrite ?Hj', ?Hb' by auto; auto; try lra; try reflexivity.
        intros j Hj N1 N2. rewrite Hj' by auto. auto. }
      destruct (Qlt_bool_spec doc d3) as [H4|H4]; cbn [orb].
      { apply HR. constructor; cbn [t_1 t_2 t_3 e_1 e_2 e_3]; auto; rewrite ?Hj', ?Hb' by auto; auto; try lra; try reflexivity.
        intros j Hj N1 N2. destruct (Nat.eq_dec j b) as [->|Hn]; [rewrite Hb'; lra|]. rewrite Hj' by auto. pose proof (CR j Hj N1 N2). lra. }
      destruct (Nat.eqb_spec i3 0) as [E3|E3].
      { destruct (Hbug E3) as [?|(Hk & ->)]; [lra|]. apply HR.
        constructor; cbn [t_1 t_2 t_3 e_1 e_2 e_3]; auto; rewrite ?Hj', ?Hb' by auto; auto; try lra; try reflexivity.
        intros j Hj N1 N2. replace j with 0 by lia. rewrite Hb'. lra. }
      destruct (Nat.eqb_spec i3 b) as [E4|E4].
      { rewrite <- Hb'. destruct (update_third_ok M' b o i1 i2) as (i' & d' & EU & U1 & U2 & U3 & U4 & U5); auto; try lia.
        fold T' in EU. rewrite EU. cbn [bind]. apply HR. rewrite HL in *. fold T' in U4, U5.
        constructor; cbn [t_1 t_2 t_3 e_1 e_2 e_3]; auto; rewrite ?Hj', ?Hb' by auto; auto; try lra.
        - rewrite U4. reflexivity.
        - rewrite U4. destruct (Nat.eq_dec i' b) as [->|Hn]; [rewrite Hb'; lra|]. rewrite Hj' by auto. auto. }
      apply HR. constructor; cbn [t_1 t_2 t_3 e_1 e_2 e_3]; auto; rewrite ?Hj', ?Hb' by auto; auto; try lra.
      intros j Hj N1 N2. destruct (Nat.eq_dec j b) as [->|Hn]; [rewrite Hb'; lra|]. rewrite Hj' by auto. auto.
Qed.

Lemma make_described M I1 I2 I3 D1 D2 D3 loss : (forall m, In m M -> m < n) -> 3 <= length M ->
  length I1 = n -> length I2 = n -> length I3 = n -> length D1 = n -> length D2 = n -> length D3 = n ->
  (forall o, o < n -> ranked (to_medoid dist M o) (length M) (pack I1 I2 I3 D1 D2 D3 o)) ->
  exists L, compute_silhouette_losses eps I1 I2 D1 D2 D3 (length M) = Ok L /\
    described eps dist n (mk_msc M I1 I2 I3 D1 D2 D3 L loss).
Proof using Type.
  intros HM H3 L1 L2 L3 L4 L5 L6 H.
  destruct (silhouette_losses_ok I1 I2 I3 D1 D2 D3 (length M)) as (L & E & HL & HP); auto.
  { intros o Ho. split; apply (H o Ho). }
  exists L. split; auto.
  constructor; cbn [s_medoids s_nearest s_second s_third s_distances s_second_distances s_third_distances s_losses]; auto.
  - splits; auto.
  - intros o Ho. cbn zeta. pose proof (ranked_two _ _ _ (H o Ho)) as H2. destruct (H o Ho). unfold pack in *. cbn [t_1 t_2 t_3 e_1 e_2 e_3] in *.
    splits; auto. intros j Hj N1 N2. rewrite <- r_e6. auto.
  - intros i Hi.
    pose proof (loss_qsum eps dist n M _ (fun o Ho => ranked_term eps dist M o _ (H o Ho))) as Ha.
    pose proof (loss_qsum eps dist n _ _ (fun o Ho => removal_term eps dist M o _ (H o Ho) i Hi)) as Hb. cbn beta in *.
    eexists. eexists. split; [exact Ha|]. split; [exact Hb|]. rewrite HP by auto. rewrite qsum_sub. ring.
Qed.

Lemma msc_swap_buffers_ok p c b : distances_ok dist n -> described eps dist n p -> c < n -> b < length (s_medoids p) ->
  (forall o, o < n -> o <> c -> nth o (s_third p) 0 = 0 ->
     (dist c o < nth o (s_third_distances p) 0%Q)%Q \/ (length (s_medoids p) = 3 /\ b = 0)) ->
  exists q, msc_swap_buffers eps src (exchange (s_medoids p) b c) p c b = Ok q /\
    s_medoids q = exchange (s_medoids p) b c /\
    length (s_nearest q) = n /\ length (s_second q) = n /\ length (s_third q) = n /\ length (s_distances q) = n /\
    length (s_second_distances q) = n /\ length (s_third_distances q) = n /\
    silhouette_loss eps dist n (s_medoids q) (s_loss q) /\
    forall o, o < n -> ranked (to_medoid dist (s_medoids q) o) (length (s_medoids q)) (stored q o).
Proof using Hsrc.
  intros (Hself & Hpos) Hp Hc Hb Hbug. destruct (d_lengths _ _ _ _ Hp) as (L1 & L2 & L3 & L4 & L5 & L6 & _). set (M := s_medoids p) in *.
  set (M' := exchange M b c). assert (HL : length M' = length M) by (now apply exchange_length).
  unfold msc_swap_buffers. destruct Hsrc as (Hr & Hd). rewrite Hr.
  match goal with |- context [for_loop n 0 ?body ?s0] =>
    destruct (for_loop_inv (fun t q => s_medoids q = M' /\
      length (s_nearest q) = n /\ length (s_second q) = n /\ length (s_third q) = n /\ length (s_distances q) = n /\
      length (s_second_distances q) = n /\ length (s_third_distances q) = n /\
      (s_loss q == qsum t (fun o => ratio eps (e_1 (stored q o)) (e_2 (stored q o))))%Q /\
      (forall o, o < t -> ranked (to_medoid dist M' o) (length M') (stored q o)) /\
      (forall o, t <= o < n -> stored q o = stored p o)) body n 0 s0) as (q & E & H)
  end.
  - cbn. splits; auto; try lia. reflexivity.
  - intros o q Ho (KM & K1 & K2 & K3 & K4 & K5 & K6 & KL & KD & KR).
    rewrite (rd_nth (s_nearest q) o 0), (rd_nth (s_second q) o 0), (rd_nth (s_third q) o 0), (rd_nth (s_distances q) o 0%Q),
      (rd_nth (s_second_distances q) o 0%Q), (rd_nth (s_third_distances q) o 0%Q) by lia. cbn [bind].
    change (mk_three (nth o (s_nearest q) 0) (nth o (s_second q) 0) (nth o (s_third q) 0) (nth o (s_distances q) 0%Q)
      (nth o (s_second_distances q) 0%Q) (nth o (s_third_distances q) 0%Q)) with (stored q o).
    rewrite KR by lia.
    destruct (msc_swap_sample_ok M c b o (stored p o)) as (s' & Es & Hs & Hz); auto.
    { apply (d_medoids _ _ _ _ Hp). }
    { lia. }
    { apply (d_three _ _ _ _ Hp). }
    { apply Hself. lia. }
    { intros i Hi. apply Hpos; lia. }
    { apply described_ranked; auto. lia. }
    { intros Hne. apply Hbug; auto. lia. }
    fold M' in Es, Hs. rewrite Es. cbn [bind]. rewrite !wr_lt by lia. cbn [bind].
    eexists. split; [reflexivity|].
    unfold stored at 1 2 3 4. cbn [s_medoids s_nearest s_second s_third s_distances s_second_distances s_third_distances s_loss].
    rewrite !upd_length.
    assert (HS : forall o', pack (upd (s_nearest q) o (t_1 s')) (upd (s_second q) o (t_2 s')) (upd (s_third q) o (t_3 s'))
      (upd (s_distances q) o (e_1 s')) (upd (s_second_distances q) o (e_2 s')) (upd (s_third_distances q) o (e_3 s')) o' =
      if o' =? o then s' else stored q o').
    { intros o'. unfold pack, stored. rewrite !nth_upd by lia. destruct (o' =? o); auto. destruct s'; auto. }
    splits; auto.
    + cbn [qsum]. rewrite HS, Nat.eqb_refl.
      rewrite (qsum_ext o _ (fun o' => ratio eps (e_1 (stored q o')) (e_2 (stored q o')))).
      2: { intros o' Ho'. rewrite HS. destruct (Nat.eqb_spec o' o); [lia|]. reflexivity. }
      destruct (Nat.eqb_spec o c) as [E|E].
      * rewrite KL, Hz, ratio_0 by auto. ring.
      * rewrite KL, division_ratio. reflexivity.
    + intros o' Ho'. rewrite HS. destruct (Nat.eqb_spec o' o) as [->|]; [rewrite HL; auto|]. apply KD. lia.
    + intros o' Ho'. unfold stored at 1. cbn [s_nearest s_second s_third s_distances s_second_distances s_third_distances].
      rewrite HS. destruct (Nat.eqb_spec o' o) as [->|]; [lia|]. apply KR. lia.
  - rewrite E. destruct H as (KM & K1 & K2 & K3 & K4 & K5 & K6 & KL & KD & _). cbn [Nat.add] in *. exists q. rewrite KM. splits; auto.
    eapply loss_m; [exact KL|]. apply loss_qsum. intros o Ho. apply ranked_term. auto.
Qed.

(** One candidate: skipped, rejected, or exchanged for a medoid. *)
Lemma msc_try_ok p c l : distances_ok dist n -> described eps dist n p -> c < n -> silhouette_loss eps dist n (s_medoids p) l ->
  (nth c (s_nearest p) 0 = c -> msc_try eps src c p = Ok p) /\
  (nth c (s_nearest p) 0 <> c ->
    exists b lb, b < length (s_medoids p) /\ silhouette_loss eps dist n (exchange (s_medoids p) b c) lb /\
      (forall i li, i < length (s_medoids p) -> silhouette_loss eps dist n (exchange (s_medoids p) i c) li -> (lb <= li)%Q) /\
      (forall i li, i < b -> silhouette_loss eps dist n (exchange (s_medoids p) i c) li -> (lb < li)%Q) /\
      ((l <= lb)%Q -> msc_try eps src c p = Ok p) /\
      ((lb < l)%Q -> (forall o, o < n -> o <> c -> nth o (s_third p) 0 = 0 ->
         (dist c o < nth o (s_third_distances p) 0%Q)%Q \/ (length (s_medoids p) = 3 /\ b = 0)) ->
       exists p', msc_try eps src c p = Ok p' /\ s_medoids p' = exchange (s_medoids p) b c /\ described eps dist n p' /\
         (total_deviation p' == lb)%Q)).
Proof using Hsrc.
  intros Hok Hp Hc Hl. destruct (d_lengths _ _ _ _ Hp) as (L1 & L2 & L3 & L4 & L5 & L6 & _). pose proof (d_three _ _ _ _ Hp) as H3.
  unfold msc_try. rewrite (rd_nth _ c 0) by lia. cbn [bind]. split; intros E.
  { rewrite E, Nat.eqb_refl. reflexivity. }
  destruct (Nat.eqb_spec c (nth c (s_nearest p) 0)) as [E'|_]; [congruence|]. cbn [negb].
  destruct (Nat.eqb_spec (length (s_medoids p)) 2) as [|_]; [lia|].
  destruct (best_swap_ok p c l Hp Hc Hl) as (delta & b & lb & -> & Hb & Hlb & Hdel & Hmin & Hfirst). cbn [bind].
  exists b, lb. splits; auto.
  - intros Hle. destruct (Qlt_bool_spec 0 delta); [lra|reflexivity].
  - intros Hlt Hbug. destruct (Qlt_bool_spec 0 delta) as [Hq|Hq]; [|lra]. clear Hq.
    rewrite wr_lt by auto. cbn [bind]. rewrite upd_exchange by auto.
    destruct (msc_swap_buffers_ok p c b Hok Hp Hc Hb Hbug) as (q & -> & KM & K1 & K2 & K3 & K4 & K5 & K6 & KL & KR). cbn [bind].
    destruct (make_described (s_medoids q) (s_nearest q) (s_second q) (s_third q) (s_distances q) (s_second_distances q)
      (s_third_distances q) (s_loss q)) as (L & EL & HD); auto.
    { rewrite KM. intros m Hm. apply in_exchange in Hm; auto. destruct Hm as [->|(j & Hj & _ & <-)]; auto.
      apply (d_medoids _ _ _ _ Hp), nth_In; auto. }
    { rewrite KM, exchange_length; auto. }
    rewrite <- KM, EL. cbn [bind]. eexists. split; [reflexivity|]. split; [reflexivity|]. split; [exact HD|].
    unfold total_deviation. cbn [s_loss]. rewrite KM in KL. apply (loss_unique eps dist n (exchange (s_medoids p) b c)); auto.
Qed.
End State.

(** ** Well-formed states *)
Definition below (k : nat) (s : nearest_three) : Prop := t_1 s < k /\ t_2 s < k /\ t_3 s < k.

Lemma forall_nth (k : nat) (v : list nat) : Forall (fun i => i < k) v <-> forall o, o < length v -> nth o v 0 < k.
Proof.
  split.
  - intros H o Ho. rewrite Forall_forall in H. apply H, nth_In. auto.
  - intros H. apply Forall_forall. intros i Hi. apply (In_nth _ _ 0) in Hi. destruct Hi as (o & Ho & <-). auto.
Qed.

Section Safety.
Context (eps top : Q) (dist : nat -> nat -> Q) (n : nat) (src : source Q) (Hsrc : provides src n dist).

Lemma update_third_below M b o x i1 i2 : (forall m, In m M -> m < n) -> o < n -> b < length M ->
  exists i3 d3, update_third_nearest src M b o x i1 i2 = Ok (i3, d3) /\ i3 < length M.
Proof using Hsrc.
  intros HM Ho Hb. unfold update_third_nearest. destruct Hsrc as (_ & Hd).
  match goal with |- context [for_loop ?k 0 ?body ?s0] =>
    destruct (for_loop_inv (fun t '(i3, d3) => i3 < length M) body k 0 s0) as ((i3 & d3) & E & H) end; auto.
  - intros j (i3 & d3) Hj H. destruct (_ && _); [|eauto]. unfold medoid_distance. rewrite (rd_nth M j 0) by lia. cbn [bind].
    rewrite Hd by (auto; apply HM, nth_In; lia). cbn [bind]. destruct (Qlt_bool _ _); eexists; (split; [reflexivity|cbv beta iota]); lia.
  - eauto.
Qed.

Lemma swap_sample_below M c b o s : (forall m, In m M -> m < n) -> c < n -> o < n -> b < length M -> below (length M) s ->
  exists s', msc_swap_sample src M c b o s = Ok s' /\ below (length M) s'.
Proof using Hsrc.
  intros HM Hc Ho Hb (H1 & H2 & H3). unfold msc_swap_sample, below.
  destruct (o =? c). { destruct (negb _); [destruct (negb _)|]; (eexists; split; [reflexivity|]); cbn; auto. }
  rewrite (proj2 Hsrc) by auto. cbn [bind].
  assert (HU : forall x i1 i2 (f : nat -> Q -> nearest_three), (forall i d, i < length M -> below (length M) (f i d)) ->
    exists s', ('(i, d) <- update_third_nearest src M b o x i1 i2 ;; Ok (f i d)) = Ok s' /\ below (length M) s').
  { intros x i1 i2 f Hf. destruct (update_third_below M b o x i1 i2) as (i & d & -> & Hi); auto. cbn [bind]. eauto. }
  unfold below in HU.
  repeat match goal with
  | |- context [if ?x then _ else _] => destruct x
  | |- exists s', Ok _ = Ok s' /\ _ => eexists; split; [reflexivity|]; cbn; auto
  | |- exists s', bind (update_third_nearest _ _ _ _ _ _ _) _ = Ok s' /\ _ => apply HU; intros; cbn; auto
  end.
Qed.

Lemma swap_buffers_below M p c b : (forall m, In m M -> m < n) -> c < n -> b < length M -> length M = length (s_medoids p) ->
  3 <= length M -> well_formed n p ->
  exists q, msc_swap_buffers eps src M p c b = Ok q /\ s_medoids q = M /\ well_formed n q.
Proof using Hsrc.
  intros HM Hc Hb HL H3 Hw. unfold msc_swap_buffers. rewrite (proj1 Hsrc).
  destruct Hw as [_ _ (W1 & W1') (W2 & W3) W4]. destruct W4 as ((W4 & W4') & (W5 & W5') & W6 & W7); [lia|].
  rewrite forall_nth in W1', W4', W5'.
  match goal with |- context [for_loop n 0 ?body ?s0] =>
    destruct (for_loop_inv (fun t q => s_medoids q = M /\
      length (s_nearest q) = n /\ length (s_second q) = n /\ length (s_third q) = n /\ length (s_distances q) = n /\
      length (s_second_distances q) = n /\ length (s_third_distances q) = n /\ length (s_losses q) = length M /\
      (forall o, o < n -> below (length M) (stored q o))) body n 0 s0) as (q & E & H)
  end.
  - cbn. splits; auto; try lia. intros o Ho. unfold below. cbn. rewrite HL. splits; [apply W1'|apply W4'|apply W5']; lia.
  - intros o q Ho (KM & K1 & K2 & K3 & K4 & K5 & K6 & K7 & KB).
    rewrite (rd_nth (s_nearest q) o 0), (rd_nth (s_second q) o 0), (rd_nth (s_third q) o 0), (rd_nth (s_distances q) o 0%Q),
      (rd_nth (s_second_distances q) o 0%Q), (rd_nth (s_third_distances q) o 0%Q) by lia. cbn [bind].
    destruct (swap_sample_below M c b o (stored q o)) as (s' & Es & Hs); auto; try lia; try (apply KB; lia).
    unfold stored, pack in Es. rewrite Es. cbn [bind]. rewrite !wr_lt by lia. cbn [bind].
    eexists. split; [reflexivity|]. cbn [s_medoids s_nearest s_second s_third s_distances s_second_distances s_third_distances s_losses].
    rewrite !upd_length. splits; auto. intros o' Ho'. unfold below, stored, pack in *.
    cbn [s_nearest s_second s_third s_distances s_second_distances s_third_distances t_1 t_2 t_3] in *.
    rewrite !nth_upd by lia. destruct (o' =? o); auto.
  - rewrite E. destruct H as (KM & K1 & K2 & K3 & K4 & K5 & K6 & K7 & KB). exists q. split; auto. split; auto.
    constructor; rewrite ?KM; auto; try lia.
    + split; auto. apply forall_nth. intros o Ho. apply KB. lia.
    + intros _. splits; auto; apply forall_nth; intros o Ho; apply KB; lia.
Qed.

Lemma best_swap_k2_ok p c : c < n -> length (s_distances p) = n -> length (s_second_distances p) = n ->
  exists delta b, msc_best_swap_k2 eps src p c = Ok (delta, b) /\ b < 2 /\
    let loss i := qsum n (fun o => let d := nth o (if i =? 0 then s_second_distances p else s_distances p) 0%Q in
      if Qlt_bool (dist c o) d then ratio eps (dist c o) d else ratio eps d (dist c o)) in
    (delta == loss b)%Q /\ (delta <= loss 0%nat)%Q /\ (delta <= loss 1%nat)%Q /\ (b = 1 -> (delta < loss 0%nat)%Q).
Proof using Hsrc.
  intros Hc L1 L2. unfold msc_best_swap_k2. destruct Hsrc as (Hr & Hd). rewrite Hr.
  set (f0 := fun o => if Qlt_bool (dist c o) (nth o (s_second_distances p) 0%Q) then ratio eps (dist c o) (nth o (s_second_distances p) 0%Q)
      else ratio eps (nth o (s_second_distances p) 0%Q) (dist c o)).
  set (f1 := fun o => if Qlt_bool (dist c o) (nth o (s_distances p) 0%Q) then ratio eps (dist c o) (nth o (s_distances p) 0%Q)
      else ratio eps (nth o (s_distances p) 0%Q) (dist c o)).
  match goal with |- context [for_loop n 0 ?body ?s0] =>
    destruct (for_loop_inv (fun t mi => length mi = 2 /\ (nth 0 mi 0 == qsum t f0)%Q /\ (nth 1 mi 0 == qsum t f1)%Q) body n 0 s0)
      as (mi & E & Hl & H0 & H1)
  end.
  - cbn. splits; reflexivity.
  - intros o mi Ho (Hl & H0 & H1). rewrite Hd by lia. cbn [bind].
    rewrite (rd_nth (s_distances p) o 0%Q), (rd_nth (s_second_distances p) o 0%Q) by lia. cbn [bind].
    match goal with |- context [qadd_at mi ?i ?v] => destruct (qadd_at_ok mi i v) as (La & -> & HLa & Pa); [lia|] end. cbn [bind].
    match goal with |- context [qadd_at La ?i ?v] => destruct (qadd_at_ok La i v) as (Lb & -> & HLb & Pb); [lia|] end.
    exists Lb. splits; auto; try lia.
    + rewrite Pb, Pa, H0. cbn [Nat.eqb qsum]. unfold f0 at 3. destruct (Qlt_bool _ (nth o (s_second_distances p) 0%Q)); rewrite division_ratio; ring.
    + rewrite Pb, Pa, H1. cbn [Nat.eqb qsum]. unfold f1 at 3. destruct (Qlt_bool _ (nth o (s_distances p) 0%Q)); rewrite division_ratio; ring.
  - rewrite E. cbn [bind]. cbn [Nat.add] in *. destruct mi as [|x [|y [|z mi]]]; try discriminate. cbn [nth] in *.
    cbn [get_max_index_value_pair max_element_from bind].
    destruct (Qlt_bool_spec y x) as [Hx|Hx].
    + exists (0 + y)%Q, 1. split; auto. split; auto. cbn zeta. cbn [Nat.eqb]. change (qsum n _) with (qsum n f1) at 1. splits.
      * rewrite H1. ring.
      * change (0 + y <= qsum n f0)%Q. lra.
      * change (0 + y <= qsum n f1)%Q. lra.
      * intros _. change (0 + y < qsum n f0)%Q. lra.
    + exists (0 + x)%Q, 0. split; auto. split; auto. cbn zeta. cbn [Nat.eqb]. splits.
      * change (0 + x == qsum n f0)%Q. lra.
      * change (0 + x <= qsum n f0)%Q. lra.
      * change (0 + x <= qsum n f1)%Q. lra.
      * discriminate.
Qed.

Lemma swap_sample_k2_ok c b o i1 d1 d2 : c < n -> o < n -> b < 2 ->
  exists j e1 e2 t, msc_swap_sample_k2 eps src c b o i1 d1 d2 = Ok (j, e1, e2, t) /\ j < 2 /\
    (o = c -> j = b /\ e1 = 0%Q /\ e2 = 0%Q) /\
    (o <> c -> e1 = (if b =? 0 then dist c o else d1) /\ e2 = (if b =? 0 then d2 else dist c o) /\
     let d := if b =? 0 then d2 else d1 in
     ((Qabs (d - dist c o) <= eps)%Q -> (dist c o == d)%Q) ->
     ((if j =? 0 then e1 else e2) <= (if j =? 0 then e2 else e1))%Q /\
     (t == if Qlt_bool (dist c o) d then ratio eps (dist c o) d else ratio eps d (dist c o))%Q).
Proof using Hsrc.
  intros Hc Ho Hb. unfold msc_swap_sample_k2. destruct (Nat.eqb_spec o c) as [E|E].
  { do 4 eexists. split; [reflexivity|]. splits; auto. congruence. }
  rewrite (proj2 Hsrc) by auto. cbn [bind].
  assert (HE : forall d, ((Qabs (d - dist c o) <= eps)%Q -> (dist c o == d)%Q) -> equality eps (dist c o) d = true -> (dist c o == d)%Q).
  { intros d H Hd. unfold equality in Hd. apply Qle_bool_iff in Hd. auto. }
  destruct (Nat.eqb_spec b 0) as [Eb|Eb].
  - destruct (Qlt_bool_spec (dist c o) d2) as [H|H]; cbn [orb].
    + do 4 eexists. split; [reflexivity|]. splits; auto; try congruence. intros _. splits; auto. cbn [Nat.eqb]. cbn zeta. intros _.
      split; [lra|apply division_ratio].
    + destruct (equality eps (dist c o) d2 && (i1 =? 0)) eqn:Ee; (do 4 eexists; split; [reflexivity|]; splits; auto; try congruence);
        intros _; splits; auto; cbn [Nat.eqb]; cbn zeta; intros Heq.
      * apply andb_true_iff in Ee. pose proof (HE _ Heq (proj1 Ee)) as E1. split; [lra|]. rewrite division_ratio, E1. reflexivity.
      * split; [lra|apply division_ratio].
  - destruct (Qlt_bool_spec (dist c o) d1) as [H|H]; cbn [orb].
    + do 4 eexists. split; [reflexivity|]. splits; auto; try congruence. intros _. splits; auto. cbn [Nat.eqb]. cbn zeta. intros _.
      split; [lra|apply division_ratio].
    + destruct (equality eps (dist c o) d1 && (i1 =? 1)) eqn:Ee; (do 4 eexists; split; [reflexivity|]; splits; auto; try congruence);
        intros _; splits; auto; cbn [Nat.eqb]; cbn zeta; intros Heq.
      * apply andb_true_iff in Ee. pose proof (HE _ Heq (proj1 Ee)) as E1. split; [lra|]. rewrite division_ratio, E1. reflexivity.
      * split; [lra|apply division_ratio].
Qed.

Lemma larger_bool x y : (if Qlt_bool x y then ratio eps x y else ratio eps y x) = smaller_over_larger eps x y.
Proof using Type.
  unfold smaller_over_larger. destruct (Qlt_bool_spec x y), (Qlt_le_dec x y); auto; lra.
Qed.

Lemma counted_qsum p c i : (counted_loss eps dist n p c i == qsum n (fun o => smaller_over_larger eps (dist c o) (stored_other p i o)))%Q.
Proof using Type. unfold counted_loss. apply fold_qsum. Qed.

Definition exact_at (p : msc) (c : nat) : Prop := forall o x, o < n ->
  x = nth o (s_distances p) 0%Q \/ x = nth o (s_second_distances p) 0%Q -> (Qabs (x - dist c o) <= eps)%Q -> (dist c o == x)%Q.

Lemma swap_buffers_k2_ok p c b : c < n -> b < 2 -> length (s_medoids p) = 2 -> well_formed n p ->
  exists q, msc_swap_buffers_k2 eps src p c b = Ok q /\ s_medoids q = exchange (s_medoids p) b c /\ well_formed n q /\
    (forall o, o < n -> stored_at q b o = (if o =? c then 0%Q else dist c o) /\
       stored_other q b o = (if o =? c then 0%Q else stored_other p b o)) /\
    ((dist c c == 0)%Q -> exact_at p c ->
     (s_loss q == counted_loss eps dist n p c b)%Q /\
     forall o, o < n -> let j := nth o (s_nearest q) 0 in (stored_at q j o <= stored_other q j o)%Q).
Proof using Hsrc.
  intros Hc Hb H2 Hw. unfold msc_swap_buffers_k2. rewrite wr_lt by lia. cbn [bind]. rewrite upd_exchange by lia. rewrite (proj1 Hsrc).
  destruct Hw as [W0 _ (W1 & W1') (W2 & W3) _]. rewrite forall_nth in W1'. set (M := exchange (s_medoids p) b c).
  assert (HL : length M = 2) by (unfold M; rewrite exchange_length; lia).
  set (f := fun o => smaller_over_larger eps (dist c o) (stored_other p b o)).
  match goal with |- context [for_loop n 0 ?body ?s0] =>
    destruct (for_loop_inv (fun t q => s_medoids q = M /\
      length (s_nearest q) = n /\ length (s_distances q) = n /\ length (s_second_distances q) = n /\
      (forall o, o < n -> nth o (s_nearest q) 0 < 2) /\
      (forall o, t <= o < n -> nth o (s_distances q) 0%Q = nth o (s_distances p) 0%Q /\
         nth o (s_second_distances q) 0%Q = nth o (s_second_distances p) 0%Q) /\
      (forall o, o < t -> stored_at q b o = (if o =? c then 0%Q else dist c o) /\
         stored_other q b o = (if o =? c then 0%Q else stored_other p b o)) /\
      ((dist c c == 0)%Q -> exact_at p c ->
        (s_loss q == qsum t f)%Q /\ forall o, o < t -> let j := nth o (s_nearest q) 0 in (stored_at q j o <= stored_other q j o)%Q))
      body n 0 s0) as (q & E & H)
  end.
  - cbn. splits; auto; try lia.
    + intros o Ho. rewrite <- H2. apply W1'. lia.
    + intros _ _. split; [reflexivity|lia].
  - intros o q Ho (KM & K1 & K2 & K3 & KI & KD & KS & KL).
    rewrite (rd_nth (s_nearest q) o 0), (rd_nth (s_distances q) o 0%Q), (rd_nth (s_second_distances q) o 0%Q) by lia. cbn [bind].
    destruct (swap_sample_k2_ok c b o (nth o (s_nearest q) 0) (nth o (s_distances q) 0%Q) (nth o (s_second_distances q) 0%Q))
      as (j & e1 & e2 & t & Es & Hj & Hsame & Ht); auto; [lia|].
    rewrite Es. cbn [bind]. rewrite !wr_lt by lia. cbn [bind].
    eexists. split; [reflexivity|]. unfold stored_at, stored_other.
    cbn [s_medoids s_nearest s_distances s_second_distances s_loss]. rewrite !upd_length.
    destruct (KD o ltac:(lia)) as (E1 & E2). rewrite E1, E2 in Ht. splits; auto.
    + intros o' Ho'. rewrite nth_upd by lia. destruct (o' =? o); auto.
    + intros o' Ho'. rewrite !nth_upd by lia. destruct (Nat.eqb_spec o' o); [lia|]. apply KD. lia.
    + intros o' Ho'. destruct (Nat.eq_dec o' o) as [->|Hne].
      * destruct (Nat.eqb_spec o c) as [Eo|Eo].
        -- destruct (Hsame Eo) as (_ & -> & ->). destruct (b =? 0); rewrite !nth_upd, Nat.eqb_refl by lia; auto.
        -- destruct (Ht Eo) as (-> & -> & _). destruct (b =? 0); rewrite !nth_upd, Nat.eqb_refl by lia; auto.
      * destruct (KS o' ltac:(lia)) as (G1 & G2). unfold stored_at, stored_other in G1, G2.
        destruct (b =? 0); rewrite !nth_upd by lia; destruct (Nat.eqb_spec o' o); try contradiction; auto.
    + intros Hz Heq. destruct (KL Hz Heq) as (KL1 & KL2). cbn [qsum]. split.
      * destruct (Nat.eqb_spec o c) as [Eo|Hne].
        -- rewrite KL1. subst o. assert (Hf : (f c == 0)%Q); [|rewrite Hf; ring].
           unfold f, smaller_over_larger. destruct (Qlt_le_dec (dist c c) (stored_other p b c)) as [Hlt|Hge]; rewrite Hz.
           ++ apply ratio_0.
           ++ unfold ratio. destruct (Qlt_le_dec eps (Qabs 0)); [unfold Qdiv; change (/ 0)%Q with 0%Q; ring|reflexivity].
        -- destruct (Ht Hne) as (_ & _ & Ht'). cbn zeta in Ht'. rewrite larger_bool in Ht'. rewrite KL1.
           destruct Ht' as (_ & ->). { apply Heq; [lia|]. destruct (b =? 0); auto. }
           unfold f, stored_other. destruct (b =? 0); reflexivity.
      * intros o' Ho'. cbn zeta. rewrite nth_upd by lia. destruct (Nat.eq_dec o' o) as [->|Hne].
        -- rewrite Nat.eqb_refl. destruct (Nat.eq_dec o c) as [Eo|Eo].
           ++ destruct (Hsame Eo) as (_ & -> & ->). destruct (j =? 0); rewrite !nth_upd, Nat.eqb_refl by lia; lra.
           ++ destruct (Ht Eo) as (_ & _ & Ht'). destruct Ht' as (Ht' & _). { apply Heq; [lia|]. destruct (b =? 0); auto. }
              destruct (j =? 0); rewrite !nth_upd, Nat.eqb_refl by lia; auto.
        -- rewrite (proj2 (Nat.eqb_neq o' o) Hne). specialize (KL2 o' ltac:(lia)). unfold stored_at, stored_other in KL2. cbn zeta in KL2.
           destruct (nth o' (s_nearest q) 0 =? 0); rewrite !nth_upd, (proj2 (Nat.eqb_neq o' o) Hne) by lia; auto.
  - rewrite E. destruct H as (KM & K1 & K2 & K3 & KI & KD & KS & KL). cbn [Nat.add] in *. exists q. splits; auto.
    + constructor; rewrite ?KM, ?HL; auto; try lia.
      * intros m Hm. apply in_exchange in Hm; [|lia]. destruct Hm as [->|(j & Hj & _ & <-)]; auto. apply W0, nth_In; auto.
      * split; auto. apply forall_nth. intros o Ho. apply KI. lia.
    + intros Hz Heq. rewrite counted_qsum. apply KL; auto.
Qed.

(** One candidate with two medoids. *)
Lemma msc_try_k2_ok p c : two_medoids top dist n p -> distances_ok dist n -> tolerance_exact eps top dist n -> c < n ->
  (nth c (s_nearest p) 0 = c -> msc_try eps src c p = Ok p) /\
  (nth c (s_nearest p) 0 <> c ->
    exists b, b < 2 /\ (forall i, i < 2 -> (counted_loss eps dist n p c b <= counted_loss eps dist n p c i)%Q) /\
      (b = 1 -> (counted_loss eps dist n p c 1 < counted_loss eps dist n p c 0)%Q) /\
      ((total_deviation p <= counted_loss eps dist n p c b)%Q -> msc_try eps src c p = Ok p) /\
      ((counted_loss eps dist n p c b < total_deviation p)%Q -> exists q, msc_try eps src c p = Ok q /\
         s_medoids q = exchange (s_medoids p) b c /\ two_medoids top dist n q /\
         (total_deviation q == counted_loss eps dist n p c b)%Q /\
         (forall o, o < n -> stored_at q b o = (if o =? c then 0%Q else dist c o) /\
            stored_other q b o = (if o =? c then 0%Q else stored_other p b o)) /\
         forall o, o < n -> let j := nth o (s_nearest q) 0 in (stored_at q j o <= stored_other q j o)%Q)).
Proof using Hsrc.
  intros (Hw & H2 & Hst) (Hself & _) Hex Hc. pose proof Hw as [W0 _ (W1 & W1') (W3 & W4) _].
  unfold msc_try. rewrite (rd_nth _ c 0) by lia. cbn [bind]. split; intros E.
  { rewrite E, Nat.eqb_refl. reflexivity. }
  destruct (Nat.eqb_spec c (nth c (s_nearest p) 0)) as [E'|_]; [congruence|]. cbn [negb]. rewrite H2. cbn [Nat.eqb].
  destruct (best_swap_k2_ok p c) as (delta & b & -> & Hb & B1 & B2 & B3 & B4); auto. cbn zeta in *. cbn [bind].
  assert (HC : forall i, (counted_loss eps dist n p c i == qsum n (fun o =>
      let d := nth o (if i =? 0 then s_second_distances p else s_distances p) 0 in
      if Qlt_bool (dist c o) d then ratio eps (dist c o) d else ratio eps d (dist c o)))%Q).
  { intros i. rewrite counted_qsum. apply qsum_ext. intros o Ho. cbn zeta. rewrite larger_bool. reflexivity. }
  cbn zeta in HC. rewrite <- HC in B1, B2, B3. 
  assert (B4' : b = 1 -> (delta < counted_loss eps dist n p c 0)%Q) by (intros Eb; rewrite HC; auto).
  exists b. splits; auto.
  - intros i Hi. destruct i as [|[|i]]; [lra|lra|lia].
  - intros Eb. specialize (B4' Eb). subst b. lra.
  - intros Hle. destruct (Qlt_bool_spec delta (s_loss p)); auto. unfold total_deviation in Hle. lra.
  - intros Hlt. destruct (Qlt_bool_spec delta (s_loss p)); [|unfold total_deviation in Hlt; lra].
    destruct (swap_buffers_k2_ok p c b) as (q' & -> & HM & Hq & HS & HL); auto.
    destruct HL as (HL1 & HL2); [auto| |].
    { intros o x Ho Hx. apply Hex; auto. destruct Hx as [-> | ->]; apply Hst; auto. }
    exists q'. splits; auto. repeat split; try apply Hq; auto.
    + rewrite HM, exchange_length; lia.
    + destruct (HS o H) as (G1 & G2). unfold stored_at, stored_other in G1, G2.
      destruct (b =? 0).
      * rewrite G1. destruct (o =? c); [right; left; reflexivity|left; exists c; split; auto; reflexivity].
      * rewrite G2. destruct (o =? c); [right; left; reflexivity|]. apply Hst; auto.
    + destruct (HS o H) as (G1 & G2). unfold stored_at, stored_other in G1, G2.
      destruct (b =? 0).
      * rewrite G2. destruct (o =? c); [right; left; reflexivity|]. apply Hst; auto.
      * rewrite G1. destruct (o =? c); [right; left; reflexivity|left; exists c; split; auto; reflexivity].
Qed.

Lemma msc_step_k2_ok p : two_medoids top dist n p -> distances_ok dist n -> tolerance_exact eps top dist n ->
  exists q, msc_step eps src p = Ok q /\ two_medoids top dist n q /\ (q = p \/ (total_deviation q < total_deviation p)%Q).
Proof using Hsrc.
  intros Hp Hd Hex. unfold msc_step. rewrite (proj1 Hsrc).
  destruct (for_loop_inv (fun _ q => two_medoids top dist n q /\ (q = p \/ (total_deviation q < total_deviation p)%Q)) (msc_try eps src) n 0 p)
    as (q & E & Hq & Hl); auto.
  - intros c q Hc (Hq & Hl). destruct (msc_try_k2_ok q c Hq Hd Hex ltac:(lia)) as (T1 & T2).
    destruct (Nat.eq_dec (nth c (s_nearest q) 0) c) as [Ec|Ec]; [rewrite (T1 Ec); eauto|].
    destruct (T2 Ec) as (b & _ & _ & _ & T3 & T4).
    destruct (Qlt_le_dec (counted_loss eps dist n q c b) (total_deviation q)) as [Hlt|Hle]; [|rewrite (T3 Hle); eauto].
    destruct (T4 Hlt) as (q' & -> & _ & Hq' & EL & _). exists q'. splits; auto. right. destruct Hl as [->|Hl]; lra.
  - exists q. auto.
Qed.

(** A stored distance that is right counts right. *)
Lemma counted_term M c i o : length M = 2 -> i < 2 ->
  term eps dist (exchange M i c) o (smaller_over_larger eps (dist c o) (to_medoid dist M o (1 - i))).
Proof using Type.
  intros HL Hi. assert (HT := fun j => to_medoid_exchange dist M o i c j ltac:(lia)).
  unfold term, nearest_two. rewrite exchange_length by lia. rewrite HL. unfold smaller_over_larger.
  assert (Hi' : to_medoid dist (exchange M i c) o i = dist c o) by (rewrite HT, Nat.eqb_refl; auto).
  assert (Ho : to_medoid dist (exchange M i c) o (1 - i) = to_medoid dist M o (1 - i)).
  { rewrite HT. destruct (Nat.eqb_spec (1 - i) i); [lia|auto]. }
  assert (Hall : forall j, j < 2 -> j = i \/ j = 1 - i) by lia.
  destruct (Qlt_le_dec (dist c o) (to_medoid dist M o (1 - i))) as [H|H].
  - exists i, (1 - i). rewrite Hi', Ho. split; [|reflexivity]. splits; try lia.
    + intros j Hj. destruct (Hall j Hj) as [-> | ->]; rewrite ?Hi', ?Ho; lra.
    + intros j Hj Hne. destruct (Hall j Hj) as [-> | ->]; [contradiction|]. rewrite Ho. lra.
  - exists (1 - i), i. rewrite Hi', Ho. split; [|reflexivity]. splits; try lia.
    + intros j Hj. destruct (Hall j Hj) as [-> | ->]; rewrite ?Hi', ?Ho; lra.
    + intros j Hj Hne. destruct (Hall j Hj) as [-> | ->]; [|contradiction]. rewrite Hi'. lra.
Qed.

Lemma msc_try_safe p c : c < n -> well_formed n p -> exists q, msc_try eps src c p = Ok q /\ well_formed n q /\
  (q = p \/ exists b, b < length (s_medoids p) /\ s_medoids q = exchange (s_medoids p) b c).
Proof using Hsrc.
  intros Hc Hw. pose proof Hw as [W0 W2 (W1 & W1') (W3 & W4) W5]. unfold msc_try. rewrite (rd_nth _ c 0) by lia. cbn [bind].
  destruct (negb _); [|exists p; auto]. destruct (Nat.eqb_spec (length (s_medoids p)) 2) as [E|E].
  - destruct (best_swap_k2_ok p c) as (delta & b & -> & Hb & _); auto. cbn [bind]. destruct (Qlt_bool _ _); [|exists p; auto].
    destruct (swap_buffers_k2_ok p c b) as (q & -> & HM & Hq & _ & _); auto. exists q. splits; auto. right. exists b. split; auto. lia.
  - destruct W5 as ((W5 & W5') & (W6 & W6') & W7 & W8); [lia|]. rewrite forall_nth in W1', W5'.
    destruct (best_swap_value eps dist n src Hsrc p (length (s_medoids p)) c) as (delta & b & -> & Hb & _); auto; try lia.
    { intros o Ho. split; [apply W1'|apply W5']; lia. }
    cbn [bind]. destruct (Qlt_bool _ _); [|exists p; auto]. rewrite wr_lt by auto. cbn [bind]. rewrite upd_exchange by auto.
    set (M := exchange (s_medoids p) b c). assert (HL : length M = length (s_medoids p)) by (now apply exchange_length).
    destruct (swap_buffers_below M p c b) as (q & -> & HM & Hq); auto; try lia.
    { intros m Hm. apply in_exchange in Hm; auto. destruct Hm as [->|(j & Hj & _ & <-)]; auto. apply W0, nth_In; auto. }
    cbn [bind]. destruct Hq as [Q0 Q2 (Q1 & Q1') (Q3 & Q4) Q5]. destruct Q5 as ((Q5 & Q5') & (Q6 & Q6') & Q7 & Q8); [rewrite HM; lia|].
    destruct (silhouette_losses_ok eps n (s_nearest q) (s_second q) (s_third q) (s_distances q) (s_second_distances q)
      (s_third_distances q) (length M)) as (L & -> & LL & _); auto.
    { rewrite forall_nth in Q1', Q5'. rewrite <- HM. intros o Ho. split; [apply Q1'|apply Q5']; lia. }
    cbn [bind]. eexists. split; [reflexivity|].
    split; [|right; exists b; split; auto].
    constructor; cbn [s_medoids s_nearest s_second s_third s_distances s_second_distances s_third_distances s_losses]; auto.
    intros _. splits; auto. congruence.
Qed.

Lemma msc_step_safe p : well_formed n p -> exists q, msc_step eps src p = Ok q /\ well_formed n q /\
  length (s_medoids q) = length (s_medoids p).
Proof using Hsrc.
  intros Hw. unfold msc_step. rewrite (proj1 Hsrc).
  destruct (for_loop_inv (fun _ q => well_formed n q /\ length (s_medoids q) = length (s_medoids p)) (msc_try eps src) n 0 p)
    as (q & E & Hq & Hl); auto.
  - intros c q Hc (Hq & Hl). destruct (msc_try_safe q c) as (q' & -> & Hq' & H); auto; [lia|]. exists q'. splits; auto.
    destruct H as [->|(b & Hb & ->)]; auto. rewrite exchange_length; auto.
  - exists q. auto.
Qed.
End Safety.

(** ** The three nearest medoids *)
Definition first_q (T : nat -> Q) (top : Q) (t : nat) (d1 : Q) (i1 : nat) : Prop :=
  (t = 0 -> d1 = top) /\ (0 < t -> i1 < t /\ d1 = T i1 /\ forall j, j < t -> (d1 <= T j)%Q).
Definition second_q (T : nat -> Q) (top : Q) (t i1 : nat) (d2 : Q) (i2 : nat) : Prop :=
  (t < 2 -> d2 = top) /\ (1 < t -> i2 < t /\ i2 <> i1 /\ d2 = T i2 /\ forall j, j < t -> j <> i1 -> (d2 <= T j)%Q).
Definition third_q (T : nat -> Q) (top : Q) (t i1 i2 : nat) (d3 : Q) (i3 : nat) : Prop :=
  (t < 3 -> d3 = top) /\ (2 < t -> i3 < t /\ i3 <> i1 /\ i3 <> i2 /\ d3 = T i3 /\
     forall j, j < t -> j <> i1 -> j <> i2 -> (d3 <= T j)%Q).

Section Steps.
Context (eps top : Q) (T : nat -> Q) (t : nat).
Context (Ht : (T t < top)%Q).

Lemma first_q_step d1 i1 : first_q T top t d1 i1 ->
  first_q T top (S t) (if Qlt_bool (T t) d1 then T t else d1) (if Qlt_bool (T t) d1 then t else i1).
Proof using Ht.
  intros (H0 & H1). split; [lia|]. intros _. destruct (Nat.eq_dec t 0) as [E|E].
  - rewrite (H0 E). destruct (Qlt_bool_spec (T t) top); [|lra]. splits; auto. intros j Hj. replace j with t by lia. lra.
  - destruct H1 as (A1 & A2 & A3); [lia|]. destruct (Qlt_bool_spec (T t) d1); splits; auto; try lia; intros j Hj.
    + destruct (Nat.eq_dec j t) as [->|]; [lra|]. pose proof (A3 j ltac:(lia)). lra.
    + destruct (Nat.eq_dec j t) as [->|]; [lra|]. apply A3. lia.
Qed.

Context (Hsep : forall j, j < t -> (eps < Qabs (T t - T j))%Q) (Heps : (0 <= eps)%Q).

Lemma sep_unequal j : j < t -> equality eps (T t) (T j) = false.
Proof using Hsep.
  intros Hj. unfold equality. destruct (Qle_bool _ _) eqn:E; auto. apply Qle_bool_iff in E. pose proof (Hsep j Hj) as H.
  rewrite Qabs_Qminus in H. lra.
Qed.

Lemma second_q_step d1 i1 d2 i2 : first_q T top t d1 i1 -> second_q T top t i1 d2 i2 ->
  let lt1 := Qlt_bool (T t) d1 in let lt2 := Qlt_bool (T t) d2 && negb (equality eps (T t) d1) in
  second_q T top (S t) (if lt1 then t else i1) (if lt1 then d1 else if lt2 then T t else d2) (if lt1 then i1 else if lt2 then t else i2).
Proof using Ht Hsep.
  intros (H0 & H1) (G0 & G1). cbn zeta. destruct (Nat.eq_dec t 0) as [E|E].
  { rewrite (H0 E). destruct (Qlt_bool_spec (T t) top); [|lra]. split; auto. lia. }
  destruct H1 as (A1 & A2 & A3); [lia|]. split; [lia|]. intros _.
  rewrite A2, (sep_unequal i1) by auto. cbn [negb]. rewrite andb_true_r. rewrite <- A2.
  destruct (Qlt_bool_spec (T t) d1) as [L1|L1].
  { splits; auto; try lia. intros j Hj Hne. apply A3. lia. }
  destruct (Nat.eq_dec t 1) as [E1|E1].
  { rewrite (G0 ltac:(lia)). destruct (Qlt_bool_spec (T t) top); [|lra]. splits; auto; try lia.
    intros j Hj Hne. replace j with t by lia. lra. }
  destruct G1 as (B1 & B2 & B3 & B4); [lia|].
  destruct (Qlt_bool_spec (T t) d2) as [L2|L2]; splits; auto; try lia; intros j Hj Hne.
  - destruct (Nat.eq_dec j t) as [->|]; [lra|]. pose proof (B4 j ltac:(lia) Hne). lra.
  - destruct (Nat.eq_dec j t) as [->|]; [lra|]. apply B4; auto. lia.
Qed.

Lemma third_q_step d1 i1 d2 i2 d3 i3 : first_q T top t d1 i1 -> second_q T top t i1 d2 i2 -> third_q T top t i1 i2 d3 i3 ->
  let lt1 := Qlt_bool (T t) d1 in let lt2 := Qlt_bool (T t) d2 && negb (equality eps (T t) d1) in
  let lt3 := Qlt_bool (T t) d3 && negb (equality eps (T t) d1) && negb (equality eps (T t) d2) in
  third_q T top (S t) (if lt1 then t else i1) (if lt1 then i1 else if lt2 then t else i2)
    (if lt1 then d2 else if lt2 then d2 else if lt3 then T t else d3)
    (if lt1 then i2 else if lt2 then i2 else if lt3 then t else i3).
Proof using Ht Hsep.
  intros (H0 & H1) (G0 & G1) (K0 & K1). cbn zeta. destruct (Nat.eq_dec t 0) as [E|E].
  { rewrite (H0 E). destruct (Qlt_bool_spec (T t) top); [|lra]. split; [|lia]. intros _. apply G0. lia. }
  destruct H1 as (A1 & A2 & A3); [lia|].
  rewrite A2, (sep_unequal i1) by auto. cbn [negb]. rewrite !andb_true_r. rewrite <- A2.
  destruct (Nat.eq_dec t 1) as [E1|E1].
  { rewrite (G0 ltac:(lia)). destruct (Qlt_bool_spec (T t) top) as [Htop|]; [|lra]. split; [|lia].
    intros _. destruct (Qlt_bool (T t) d1); reflexivity. }
  destruct G1 as (B1 & B2 & B3 & B4); [lia|]. rewrite B3, (sep_unequal i2) by auto. cbn [negb]. rewrite !andb_true_r. rewrite <- B3.
  split; [lia|]. intros _. destruct (Qlt_bool_spec (T t) d1) as [L1|L1].
  { splits; auto; try lia. intros j Hj N1 N2. apply B4; auto. lia. }
  destruct (Qlt_bool_spec (T t) d2) as [L2|L2].
  { splits; auto; try lia. intros j Hj N1 N2. apply B4; auto. lia. }
  destruct (Nat.eq_dec t 2) as [E2|E2].
  { rewrite (K0 ltac:(lia)). destruct (Qlt_bool_spec (T t) top); [|lra]. splits; auto; try lia.
    intros j Hj N1 N2. replace j with t by lia. lra. }
  destruct K1 as (C1 & C2 & C3 & C4 & C5); [lia|].
  destruct (Qlt_bool_spec (T t) d3) as [L3|L3]; splits; auto; try lia; intros j Hj N1 N2.
  - destruct (Nat.eq_dec j t) as [->|]; [lra|]. pose proof (C5 j ltac:(lia) N1 N2). lra.
  - destruct (Nat.eq_dec j t) as [->|]; [lra|]. apply C5; auto. lia.
Qed.
End Steps.

Section Construct.
Context (eps top : Q) (dist : nat -> nat -> Q) (n : nat) (src : source Q) (Hsrc : provides src n dist).
Context (M : list nat) (HM : forall m, In m M -> m < n) (Hne : M <> []).

Local Notation T o := (to_medoid dist M o).
Local Notation k := (length M).

(** Facts of one sample that the buffers need. *)
Definition low (o : nat) : Prop := forall i, i < k -> (T o i < top)%Q.
Definition apart (o : nat) : Prop := low o /\ forall i j, i < k -> j < k -> j <> i -> (eps < Qabs (T o i - T o j))%Q.

Lemma medoid_q idx o : idx < k -> o < n -> medoid_distance src M idx o = Ok (T o idx).
Proof using Hsrc HM.
  intros Hi Ho. unfold medoid_distance. rewrite (rd_nth M idx 0) by auto.
  cbn [bind]. apply (proj2 Hsrc); auto. apply HM, nth_In. auto.
Qed.

Lemma k_pos : 0 < k.
Proof using Hne. destruct (Nat.eq_0_gt_0_cases k) as [E|]; auto. apply length_zero_iff_nil in E. contradiction. Qed.

Lemma q_nearest_indices : exists v, samples_to_nearest_medoid_indices Qlt_bool top src M = Ok v /\ length v = n /\
  forall o, o < n -> nth o v 0 < k /\ (low o -> exists d, first_q (T o) top k d (nth o v 0)).
Proof using Hsrc HM Hne.
  pose proof k_pos as Hk.
  unfold samples_to_nearest_medoid_indices. destruct M as [|m0 M0] eqn:EM; [congruence|]. rewrite <- EM in *. rewrite (proj1 Hsrc).
  match goal with |- context [fill ?b n ?f] =>
    destruct (fill_inv b n f (fun o i => i < k /\ (low o -> exists d, first_q (T o) top k d i))) as (v & E & Hv & H) end.
  - intros o Ho.
    match goal with |- context [for_loop ?k 0 ?body ?s0] =>
      destruct (for_loop_inv (fun t '(d, i) => i < length M /\ (low o -> first_q (T o) top t d i)) body k 0 s0) as ((d & i) & E & Hi & H) end.
    + split; auto. split; auto. lia.
    + intros idx (d & i) Hidx (Hi & Hf). rewrite medoid_q by (auto; lia). cbn [bind].
      eexists. split; [reflexivity|].
      pose proof (fun Hlow : low o => first_q_step top (T o) idx (Hlow idx ltac:(lia)) d i (Hf Hlow)) as Hs.
      destruct (Qlt_bool _ _); (split; [lia|auto]).
    + rewrite E. cbn [bind]. eexists. splits; eauto.
  - exists v. splits; auto. intros o Ho. destruct (H o Ho) as (i & Ei & Hi & Hd). rewrite (nth_error_nth _ _ 0 Ei). auto.
Qed.

Lemma q_nearest_distances : exists v, samples_to_nearest_medoid_distances Qlt_bool top src M = Ok v /\ length v = n /\
  forall o, o < n -> low o -> exists i, first_q (T o) top k (nth o v 0%Q) i.
Proof using Hsrc HM Hne.
  unfold samples_to_nearest_medoid_distances. destruct M as [|m0 M0] eqn:EM; [congruence|]. rewrite <- EM in *. rewrite (proj1 Hsrc).
  match goal with |- context [fill ?b n ?f] =>
    destruct (fill_inv b n f (fun o d => low o -> exists i, first_q (T o) top k d i)) as (v & E & Hv & H) end.
  - intros o Ho. rewrite (for_each_index _ M [] top). cbn [app length].
    match goal with |- context [for_loop ?k 0 ?body ?s0] =>
      destruct (for_loop_inv (fun t d => low o -> exists i, first_q (T o) top t d i) body k 0 s0) as (d & E & H) end.
    + intros _. exists 0. split; auto. lia.
    + intros idx d Hidx Hf. pose proof (medoid_q idx o ltac:(lia) Ho) as Hmd.
      unfold medoid_distance in Hmd. rewrite (rd_nth M idx 0) in * by lia. cbn [bind] in *. rewrite Hmd. cbn [bind].
      eexists. split; [reflexivity|]. intros Hlow. destruct (Hf Hlow) as (i & Hf').
      pose proof (first_q_step top (T o) idx (Hlow idx ltac:(lia)) d i Hf') as Hs. eauto.
    + rewrite E. eexists. splits; eauto.
  - exists v. splits; auto. intros o Ho. destruct (H o Ho) as (d & Ed & Hd). rewrite (nth_error_nth _ _ 0%Q Ed). auto.
Qed.

Definition second_is (t o i2 : nat) (d1 d2 : Q) (i1 : nat) : Prop := first_q (T o) top t d1 i1 /\ second_q (T o) top t i1 d2 i2.

Lemma q_second_indices : exists v, samples_to_second_nearest_medoid_indices Qlt_bool (equality eps) top src M = Ok v /\ length v = n /\
  forall o, o < n -> nth o v 0 < k /\ (apart o -> exists d1 d2 i1, second_is k o (nth o v 0) d1 d2 i1).
Proof using Hsrc HM Hne.
  pose proof k_pos as Hk.
  unfold samples_to_second_nearest_medoid_indices. destruct M as [|m0 M0] eqn:EM; [congruence|]. rewrite <- EM in *. rewrite (proj1 Hsrc).
  match goal with |- context [fill ?b n ?f] =>
    destruct (fill_inv b n f (fun o i2 => i2 < k /\ (apart o -> exists d1 d2 i1, second_is k o i2 d1 d2 i1))) as (v & E & Hv & H) end.
  - intros o Ho.
    match goal with |- context [for_loop ?k 0 ?body ?s0] =>
      destruct (for_loop_inv (fun t '(d1, d2, i1, i2) => (i1 < length M /\ i2 < length M) /\
        (apart o -> second_is t o i2 d1 d2 i1)) body k 0 s0) as ((((d1 & d2) & i1) & i2) & E & (Hi1 & Hi2) & H) end.
    + split; auto. intros _. split; (split; auto; lia).
    + intros idx (((d1 & d2) & i1) & i2) Hidx ((Hi1 & Hi2) & Hf). rewrite medoid_q by (auto; lia). cbn [bind].
      eexists. split; [reflexivity|].
      pose proof (fun Ha : apart o => conj (first_q_step top (T o) idx (proj1 Ha idx ltac:(lia)) d1 i1 (proj1 (Hf Ha)))
        (second_q_step eps top (T o) idx (proj1 Ha idx ltac:(lia)) (fun j Hj => proj2 Ha idx j ltac:(lia) ltac:(lia) ltac:(lia))
           d1 i1 d2 i2 (proj1 (Hf Ha)) (proj2 (Hf Ha)))) as HS. cbn zeta in HS. unfold second_is.
      destruct (Qlt_bool _ d1); [split; auto; lia|]. destruct (_ && _); (split; [lia|auto]).
    + rewrite E. cbn [bind]. eexists. splits; eauto.
  - exists v. splits; auto. intros o Ho. destruct (H o Ho) as (i & Ei & Hi & Hd). rewrite (nth_error_nth _ _ 0 Ei). auto.
Qed.

Lemma q_second_distances : exists v, samples_to_second_nearest_medoid_distances Qlt_bool (equality eps) top src M = Ok v /\ length v = n /\
  forall o, o < n -> apart o -> exists d1 i1 i2, second_is k o i2 d1 (nth o v 0%Q) i1.
Proof using Hsrc HM Hne.
  unfold samples_to_second_nearest_medoid_distances. destruct M as [|m0 M0] eqn:EM; [congruence|]. rewrite <- EM in *. rewrite (proj1 Hsrc).
  match goal with |- context [fill ?b n ?f] =>
    destruct (fill_inv b n f (fun o d2 => apart o -> exists d1 i1 i2, second_is k o i2 d1 d2 i1)) as (v & E & Hv & H) end.
  - intros o Ho. rewrite (for_each_index _ M [] (top, top)). cbn [app length].
    match goal with |- context [for_loop ?k 0 ?body ?s0] =>
      destruct (for_loop_inv (fun t '(d1, d2) => apart o -> exists i1 i2, second_is t o i2 d1 d2 i1) body k 0 s0)
        as ((d1 & d2) & E & H) end.
    + intros _. exists 0, 0. split; (split; auto; lia).
    + intros idx (d1 & d2) Hidx Hf. pose proof (medoid_q idx o ltac:(lia) Ho) as Hmd.
      unfold medoid_distance in Hmd. rewrite (rd_nth M idx 0) in * by lia. cbn [bind] in *. rewrite Hmd. cbn [bind].
      eexists. split; [reflexivity|].
      assert (HS : apart o -> let lt1 := Qlt_bool (T o idx) d1 in let lt2 := Qlt_bool (T o idx) d2 && negb (equality eps (T o idx) d1) in
        exists i1 i2, second_is (S idx) o i2 (if lt1 then T o idx else d1) (if lt1 then d1 else if lt2 then T o idx else d2) i1).
      { intros Ha. destruct (Hf Ha) as (i1 & i2 & F1 & F2). cbn zeta. do 2 eexists. split.
        - apply (first_q_step top (T o) idx (proj1 Ha idx ltac:(lia)) d1 i1 F1).
        - apply (second_q_step eps top (T o) idx (proj1 Ha idx ltac:(lia)) (fun j Hj => proj2 Ha idx j ltac:(lia) ltac:(lia) ltac:(lia))
            d1 i1 d2 i2 F1 F2). }
      cbn zeta in HS. destruct (Qlt_bool _ d1); auto. destruct (_ && _); auto.
    + rewrite E. cbn [bind]. eexists. split; [reflexivity|]. intros Ha. destruct (H Ha) as (i1 & i2 & H'). eauto.
  - exists v. splits; auto. intros o Ho. destruct (H o Ho) as (d & Ed & Hd). rewrite (nth_error_nth _ _ 0%Q Ed). auto.
Qed.

Definition third_is (t o i3 : nat) (d1 d2 d3 : Q) (i1 i2 : nat) : Prop := second_is t o i2 d1 d2 i1 /\ third_q (T o) top t i1 i2 d3 i3.

Lemma third_is_step o idx i3 d1 d2 d3 i1 i2 : apart o -> idx < k -> third_is idx o i3 d1 d2 d3 i1 i2 ->
  let lt1 := Qlt_bool (T o idx) d1 in let lt2 := Qlt_bool (T o idx) d2 && negb (equality eps (T o idx) d1) in
  let lt3 := Qlt_bool (T o idx) d3 && negb (equality eps (T o idx) d1) && negb (equality eps (T o idx) d2) in
  third_is (S idx) o (if lt1 then i2 else if lt2 then i2 else if lt3 then idx else i3)
    (if lt1 then T o idx else d1) (if lt1 then d1 else if lt2 then T o idx else d2)
    (if lt1 then d2 else if lt2 then d2 else if lt3 then T o idx else d3)
    (if lt1 then idx else i1) (if lt1 then i1 else if lt2 then idx else i2).
Proof using Type.
  intros Ha Hi ((F1 & F2) & F3). pose proof (proj1 Ha idx Hi) as Hl.
  assert (Hs : forall j, j < idx -> (eps < Qabs (T o idx - T o j))%Q) by (intros j Hj; apply (proj2 Ha); lia).
  split; [split|].
  - apply first_q_step; auto.
  - apply second_q_step; auto.
  - apply third_q_step; auto.
Qed.

Lemma q_third_indices : exists v, samples_to_third_nearest_medoid_indices eps top src M = Ok v /\ length v = n /\
  forall o, o < n -> nth o v 0 < k /\ (apart o -> exists d1 d2 d3 i1 i2, third_is k o (nth o v 0) d1 d2 d3 i1 i2).
Proof using Hsrc HM Hne.
  pose proof k_pos as Hk.
  unfold samples_to_third_nearest_medoid_indices. destruct M as [|m0 M0] eqn:EM; [congruence|]. rewrite <- EM in *. rewrite (proj1 Hsrc).
  match goal with |- context [fill ?b n ?f] =>
    destruct (fill_inv b n f (fun o i3 => i3 < k /\ (apart o -> exists d1 d2 d3 i1 i2, third_is k o i3 d1 d2 d3 i1 i2))) as (v & E & Hv & H) end.
  - intros o Ho.
    match goal with |- context [for_loop ?k 0 ?body ?s0] =>
      destruct (for_loop_inv (fun t '(d1, d2, d3, i1, i2, i3) => (i1 < length M /\ i2 < length M /\ i3 < length M) /\
        (apart o -> third_is t o i3 d1 d2 d3 i1 i2)) body k 0 s0) as ((((((d1 & d2) & d3) & i1) & i2) & i3) & E & (Hi1 & Hi2 & Hi3) & H) end.
    + split; auto. intros _. split; [split|]; (split; auto; lia).
    + intros idx (((((d1 & d2) & d3) & i1) & i2) & i3) Hidx ((Hi1 & Hi2 & Hi3) & Hf). rewrite medoid_q by (auto; lia). cbn [bind].
      eexists. split; [reflexivity|].
      pose proof (fun Ha : apart o => third_is_step o idx i3 d1 d2 d3 i1 i2 Ha ltac:(lia) (Hf Ha)) as HS. cbn zeta in HS.
      destruct (Qlt_bool _ d1); [split; auto; lia|].
      destruct (Qlt_bool _ d2 && _); [split; auto; lia|]. destruct (_ && _); (split; [lia|auto]).
    + rewrite E. cbn [bind]. eexists. split; [reflexivity|]. split; auto. intros Ha. do 5 eexists. apply (H Ha).
  - exists v. splits; auto. intros o Ho. destruct (H o Ho) as (i & Ei & Hi & Hd). rewrite (nth_error_nth _ _ 0 Ei). auto.
Qed.

Lemma q_third_distances : exists v, samples_to_third_nearest_medoid_distances eps top src M = Ok v /\ length v = n /\
  forall o, o < n -> apart o -> exists d1 d2 i1 i2 i3, third_is k o i3 d1 d2 (nth o v 0%Q) i1 i2.
Proof using Hsrc HM Hne.
  unfold samples_to_third_nearest_medoid_distances. destruct M as [|m0 M0] eqn:EM; [congruence|]. rewrite <- EM in *. rewrite (proj1 Hsrc).
  match goal with |- context [fill ?b n ?f] =>
    destruct (fill_inv b n f (fun o d3 => apart o -> exists d1 d2 i1 i2 i3, third_is k o i3 d1 d2 d3 i1 i2)) as (v & E & Hv & H) end.
  - intros o Ho. rewrite (for_each_index _ M [] (top, top, top)). cbn [app length].
    match goal with |- context [for_loop ?k 0 ?body ?s0] =>
      destruct (for_loop_inv (fun t '(d1, d2, d3) => apart o -> exists i1 i2 i3, third_is t o i3 d1 d2 d3 i1 i2) body k 0 s0)
        as (((d1 & d2) & d3) & E & H) end.
    + intros _. exists 0, 0, 0. split; [split|]; (split; auto; lia).
    + intros idx ((d1 & d2) & d3) Hidx Hf. pose proof (medoid_q idx o ltac:(lia) Ho) as Hmd.
      unfold medoid_distance in Hmd. rewrite (rd_nth M idx 0) in * by lia. cbn [bind] in *. rewrite Hmd. cbn [bind].
      eexists. split; [reflexivity|].
      assert (HS : apart o -> let lt1 := Qlt_bool (T o idx) d1 in let lt2 := Qlt_bool (T o idx) d2 && negb (equality eps (T o idx) d1) in
        let lt3 := Qlt_bool (T o idx) d3 && negb (equality eps (T o idx) d1) && negb (equality eps (T o idx) d2) in
        exists i1 i2 i3, third_is (S idx) o i3 (if lt1 then T o idx else d1) (if lt1 then d1 else if lt2 then T o idx else d2)
          (if lt1 then d2 else if lt2 then d2 else if lt3 then T o idx else d3) i1 i2).
      { intros Ha. destruct (Hf Ha) as (i1 & i2 & i3 & F). cbn zeta. do 3 eexists.
        apply (third_is_step o idx i3 d1 d2 d3 i1 i2 Ha ltac:(lia) F). }
      cbn zeta in HS. destruct (Qlt_bool _ d1); auto. destruct (Qlt_bool _ d2 && _); auto. destruct (_ && _); auto.
    + rewrite E. cbn [bind]. eexists. split; [reflexivity|]. intros Ha. destruct (H Ha) as (i1 & i2 & i3 & H'). eauto 6.
  - exists v. splits; auto. intros o Ho. destruct (H o Ho) as (d & Ed & Hd). rewrite (nth_error_nth _ _ 0%Q Ed). auto.
Qed.

(** What is found does not depend on the function that finds it. *)
Context (Heps : (0 <= eps)%Q).

Lemma apart_eq o i j : apart o -> i < k -> j < k -> (T o i == T o j)%Q -> i = j.
Proof using Heps.
  intros (_ & Ha) Hi Hj E. destruct (Nat.eq_dec i j) as [|Hij]; auto. exfalso.
  specialize (Ha i j Hi Hj ltac:(auto)). assert (Hz : (T o i - T o j == 0)%Q) by lra. rewrite Hz in Ha. change (Qabs 0) with 0%Q in Ha. lra.
Qed.

Lemma first_q_unique o d i d' i' : apart o -> first_q (T o) top k d i -> first_q (T o) top k d' i' -> i = i'.
Proof using Heps Hne.
  intros Ha (_ & H) (_ & H'). pose proof k_pos. destruct H as (A1 & A2 & A3); auto. destruct H' as (B1 & B2 & B3); auto.
  apply (apart_eq o); auto. pose proof (A3 i' B1). pose proof (B3 i A1). subst. lra.
Qed.

Lemma second_q_unique o i1 d i d' i' : 2 <= k -> apart o -> second_q (T o) top k i1 d i -> second_q (T o) top k i1 d' i' -> i = i'.
Proof using Heps.
  intros Hk Ha (_ & H) (_ & H'). destruct H as (A1 & A2 & A3 & A4); auto. destruct H' as (B1 & B2 & B3 & B4); auto.
  apply (apart_eq o); auto. pose proof (A4 i' B1 B2). pose proof (B4 i A1 A2). subst. lra.
Qed.

Lemma third_q_unique o i1 i2 d i d' i' : 3 <= k -> apart o -> third_q (T o) top k i1 i2 d i -> third_q (T o) top k i1 i2 d' i' -> i = i'.
Proof using Heps.
  intros Hk Ha (_ & H) (_ & H'). destruct H as (A1 & A2 & A3 & A4 & A5); auto. destruct H' as (B1 & B2 & B3 & B4 & B5); auto.
  apply (apart_eq o); auto. pose proof (A5 i' B1 B2 B3). pose proof (B5 i A1 A2 A3). subst. lra.
Qed.
Lemma sum_nth (D : list Q) : length D = n -> (fold_left Qplus D 0 == qsum n (fun o => nth o D 0))%Q.
Proof using Type.
  intros HL. rewrite fold_left_qplus, <- fold_qsum, Qplus_0_l. replace (map (fun o => nth o D 0%Q) (seq 0 n)) with D; [reflexivity|].
  apply nth_error_ext. intros i. destruct (lt_dec i n) as [Hi|Hi].
  - rewrite nth_error_map, (nth_error_nth' (seq 0 n) i 0), seq_nth by (rewrite ?seq_length; lia).
    rewrite (nth_error_nth' D i 0%Q) by lia. reflexivity.
  - rewrite (proj2 (nth_error_None D i)) by lia. symmetry. apply nth_error_None. rewrite map_length, seq_length. lia.
Qed.

Lemma make_msc_ok : 2 <= k -> exists p, make_msc eps top src M = Ok p /\ s_medoids p = M /\ well_formed n p /\
  ((forall o, o < n -> low o) -> exists r, (total_deviation p == qsum n r)%Q /\
     forall o, o < n -> (exists j, j < k /\ r o = T o j) /\ forall j, j < k -> (r o <= T o j)%Q) /\
  (3 <= k -> (forall o, o < n -> apart o) -> described eps dist n p).
Proof using Hsrc HM Hne Heps.
  intros Hk. unfold make_msc, msc_indices, msc_distances, nth_nearest, if_more_than_two.
  rewrite (proj2 (Nat.ltb_ge k 1)), (proj2 (Nat.ltb_ge k 2)) by lia. cbn [Nat.eqb orb].
  destruct q_nearest_indices as (I1 & -> & L1 & P1). destruct q_nearest_distances as (D1 & -> & L4 & P4).
  destruct q_second_distances as (D2 & -> & L5 & P5). cbn [bind].
  assert (HN : (forall o, o < n -> low o) -> exists r, (fold_left Qplus D1 0 == qsum n r)%Q /\
     forall o, o < n -> (exists j, j < k /\ r o = T o j) /\ forall j, j < k -> (r o <= T o j)%Q).
  { intros Hlow. exists (fun o => nth o D1 0%Q). split; [now apply sum_nth|]. intros o Ho.
    destruct (P4 o Ho (Hlow o Ho)) as (i & _ & H). destruct H as (A1 & A2 & A3); [lia|]. split; eauto. }
  assert (HI1 : Forall (fun i => i < k) I1) by (apply forall_nth; intros o Ho; apply P1; lia).
  destruct (Nat.ltb_spec 2 k) as [H3|H3]; cbn [bind].
  - rewrite (proj2 (Nat.ltb_ge k 3)) by lia. cbn [Nat.eqb orb].
    destruct q_second_indices as (I2 & -> & L2 & P2). destruct q_third_indices as (I3 & -> & L3 & P3). 
    destruct q_third_distances as (D3 & -> & L6 & P6). cbn [bind].
    destruct (silhouette_losses_ok eps n I1 I2 I3 D1 D2 D3 k) as (L & EL & LL & _); auto.
    { intros o Ho. split; [apply P1|apply P2]; auto. }
    rewrite EL. cbn [bind]. eexists. split; [reflexivity|]. cbn [s_medoids]. split; auto. split; [|split; auto].
    + constructor; cbn [s_medoids s_nearest s_second s_third s_distances s_second_distances s_third_distances s_losses]; auto.
      intros _. splits; auto; apply forall_nth; intros o Ho; [apply P2|apply P3]; lia.
    + intros _ Hap. destruct (make_described eps dist n M I1 I2 I3 D1 D2 D3 (fold_left Qplus D1 0%Q)) as (L' & EL' & HD); auto.
      2: { assert (L' = L) by congruence. subst. auto. }
      intros o Ho. pose proof (Hap o Ho) as Ha. pose proof (proj1 Ha) as Hlow.
      destruct (proj2 (P1 o Ho) Hlow) as (da & F1). destruct (P4 o Ho Hlow) as (ia & F4).
      destruct (proj2 (P2 o Ho) Ha) as (db1 & db2 & ib1 & F2a & F2b).
      destruct (P5 o Ho Ha) as (dc1 & ic1 & ic2 & F5a & F5b).
      destruct (proj2 (P3 o Ho) Ha) as (dd1 & dd2 & dd3 & id1 & id2 & (F3a & F3b) & F3c).
      destruct (P6 o Ho Ha) as (de1 & de2 & ie1 & ie2 & ie3 & (F6a & F6b) & F6c).
      set (i1 := nth o I1 0) in *.
      assert (ia = i1) as -> by (apply (first_q_unique o _ _ _ _ Ha F4 F1)).
      assert (ib1 = i1) as -> by (apply (first_q_unique o _ _ _ _ Ha F2a F1)).
      assert (ic1 = i1) as -> by (apply (first_q_unique o _ _ _ _ Ha F5a F1)).
      assert (id1 = i1) as -> by (apply (first_q_unique o _ _ _ _ Ha F3a F1)).
      assert (ie1 = i1) as -> by (apply (first_q_unique o _ _ _ _ Ha F6a F1)).
      set (i2 := nth o I2 0) in *.
      assert (ic2 = i2) as -> by (apply (second_q_unique o _ _ _ _ _ ltac:(lia) Ha F5b F2b)).
      assert (id2 = i2) as -> by (apply (second_q_unique o _ _ _ _ _ ltac:(lia) Ha F3b F2b)).
      assert (ie2 = i2) as -> by (apply (second_q_unique o _ _ _ _ _ ltac:(lia) Ha F6b F2b)).
      set (i3 := nth o I3 0) in *.
      assert (ie3 = i3) as -> by (apply (third_q_unique o _ _ _ _ _ _ ltac:(lia) Ha F6c F3c)).
      destruct F4 as (_ & F4). destruct F4 as (A1 & A2 & A3); [lia|].
      destruct F5b as (_ & F5). destruct F5 as (B1 & B2 & B3 & B4); [lia|].
      destruct F6c as (_ & F6). destruct F6 as (C1 & C2 & C3 & C4 & C5); [lia|].
      unfold pack. constructor; cbn [t_1 t_2 t_3 e_1 e_2 e_3]; fold i1 i2 i3; auto.
      * rewrite A2. reflexivity.
      * rewrite B3. reflexivity.
      * rewrite C4. reflexivity.
      * rewrite B3. auto.
      * rewrite C4. auto.
  - eexists. split; [reflexivity|]. cbn [s_medoids]. split; auto. split; [|split; [auto|lia]].
    constructor; cbn [s_medoids s_nearest s_second s_third s_distances s_second_distances s_third_distances s_losses]; auto. lia.
Qed.

Lemma near_storable : exists v, samples_to_nearest_medoid_distances Qlt_bool top src M = Ok v /\
  forall o, o < n -> storable top dist n o (nth o v 0%Q).
Proof using Hsrc HM Hne.
  unfold samples_to_nearest_medoid_distances. destruct M as [|m0 M0] eqn:EM; [congruence|]. rewrite <- EM in *. rewrite (proj1 Hsrc).
  match goal with |- context [fill ?b n ?f] =>
    destruct (fill_inv b n f (fun o d => storable top dist n o d)) as (v & E & Hv & H) end.
  - intros o Ho.
    match goal with |- context [for_each M ?body ?s0] =>
      destruct (for_each_inv (fun _ d => storable top dist n o d) body M [] s0) as (d & E & H); [| |rewrite E; eauto] end.
    + right. right. reflexivity.
    + intros m done d Hm Hd. rewrite (proj2 Hsrc) by auto. cbn [bind]. eexists. split; [reflexivity|].
      destruct (Qlt_bool _ _); auto. left. exists m. split; auto. reflexivity.
  - exists v. splits; auto. intros o Ho. destruct (H o Ho) as (d & Ed & Hd). rewrite (nth_error_nth _ _ 0%Q Ed). auto.
Qed.

Lemma second_storable : exists v, samples_to_second_nearest_medoid_distances Qlt_bool (equality eps) top src M = Ok v /\
  forall o, o < n -> storable top dist n o (nth o v 0%Q).
Proof using Hsrc HM Hne.
  unfold samples_to_second_nearest_medoid_distances. destruct M as [|m0 M0] eqn:EM; [congruence|]. rewrite <- EM in *. rewrite (proj1 Hsrc).
  match goal with |- context [fill ?b n ?f] =>
    destruct (fill_inv b n f (fun o d => storable top dist n o d)) as (v & E & Hv & H) end.
  - intros o Ho.
    match goal with |- context [for_each M ?body ?s0] =>
      destruct (for_each_inv (fun _ '(d1, d2) => storable top dist n o d1 /\ storable top dist n o d2) body M [] s0)
        as ((d1 & d2) & E & H); [| |rewrite E; cbn [bind]; exists d2; intuition] end.
    + split; right; right; reflexivity.
    + intros m done (d1 & d2) Hin (Hd1 & Hd2). assert (Hm : m < n) by auto.
      rewrite (proj2 Hsrc) by auto. cbn [bind]. eexists. split; [reflexivity|].
      assert (Hs : storable top dist n o (dist m o)) by (left; exists m; split; auto; reflexivity).
      destruct (Qlt_bool _ _); auto. destruct (_ && _); auto.
  - exists v. splits; auto. intros o Ho. destruct (H o Ho) as (d & Ed & Hd). rewrite (nth_error_nth _ _ 0%Q Ed). auto.
Qed.

Lemma make_two_ok : k = 2 -> exists p, make_msc eps top src M = Ok p /\ s_medoids p = M /\ two_medoids top dist n p.
Proof using Hsrc HM Hne Heps.
  intros Hk. destruct (make_msc_ok ltac:(lia)) as (p & E & EM & Hw & _). exists p. splits; auto.
  split; auto. split; [rewrite EM; auto|]. destruct near_storable as (D1 & E1 & S1). destruct second_storable as (D2 & E2 & S2).
  unfold make_msc, msc_indices, msc_distances, nth_nearest, if_more_than_two in E.
  rewrite Hk in E. cbn [Nat.ltb Nat.leb Nat.eqb orb] in E. rewrite E1, E2 in E. destruct q_nearest_indices as (I1 & E3 & _). rewrite E3 in E.
  cbn [bind] in E. injection E as <-. intros o Ho. split; [apply S1|apply S2]; auto.
Qed.
End Construct.
