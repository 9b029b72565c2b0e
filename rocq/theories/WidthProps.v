(** Theorems on integers of bounded width (C89). *)
From Coq Require Import List Arith ZArith Lia Bool Permutation.
From Verif Require Import Base SortingModel SortingSpec BoundsModel BoundsSpec BoundsProofs BufferModel BufferSpec KDTreeModel KDTreeProps
  SearchModel SearchSpec SearchProps StatsModel WidthModel.
Import ListNotations.
Local Open Scope nat_scope.

(** Each term is added exactly once. *)
Definition adds_once (order : nat -> sum_order) : Prop := forall n, Permutation (summands (order n)) (seq 0 n).
(** Every number of [l] is in the range. *)
Definition between (lo hi : Z) (l : list Z) : Prop := Forall (fun x => lo <= x <= hi)%Z l.

Lemma checked_ok w z : (- 2 ^ (w - 1) <= z < 2 ^ (w - 1))%Z -> checked w z = Ok z.
Proof.
  intros H. unfold checked, in_signed. replace ((- 2 ^ (w - 1) <=? z)%Z && (z <? 2 ^ (w - 1))%Z) with true; auto.
  symmetry. apply andb_true_iff. rewrite Z.leb_le, Z.ltb_lt. lia.
Qed.

Lemma checked_inv w z v : checked w z = Ok v -> v = z /\ (- 2 ^ (w - 1) <= z < 2 ^ (w - 1))%Z.
Proof.
  unfold checked, in_signed. destruct ((- 2 ^ (w - 1) <=? z)%Z && (z <? 2 ^ (w - 1))%Z) eqn:E; intros H; [|discriminate].
  injection H as <-. apply andb_true_iff in E. rewrite Z.leb_le, Z.ltb_lt in E. auto.
Qed.

Lemma checked_or w z : checked w z = Ok z \/ checked w z = UB.
Proof. unfold checked. destruct (in_signed w z); auto. Qed.

Fixpoint total (l : list Z) : Z := match l with [] => 0%Z | x :: l' => (x + total l')%Z end.
Lemma total_app a b : total (a ++ b) = (total a + total b)%Z.
Proof. induction a; cbn [total app]; lia. Qed.
Lemma total_perm a b : Permutation a b -> total a = total b.
Proof. induction 1; cbn [total] in *; lia. Qed.

Definition pick (ts : list Z) (l : list nat) : list Z := map (fun i => nth i ts 0%Z) l.
Lemma pick_all ts : pick ts (seq 0 (length ts)) = ts.
Proof.
  unfold pick. apply nth_error_ext. intros i. rewrite nth_error_map.
  destruct (lt_dec i (length ts)) as [H|H].
  - rewrite (@nth_error_nth' nat (seq 0 (length ts)) i 0) by (rewrite seq_length; auto). rewrite seq_nth by auto. cbn [option_map Nat.add].
    symmetry. apply nth_error_nth'. auto.
  - rewrite (proj2 (nth_error_None ts i)) by lia.
    rewrite (proj2 (nth_error_None (seq 0 (length ts)) i)) by (rewrite seq_length; lia). auto.
Qed.

Section Width.
Context (w : Z) (lo hi : Z) (nf : nat) (order : nat -> sum_order).
Context (Ho : adds_once order).

(** ** The terms and their sum *)
Lemma gap_ok x y : (hi - lo < 2 ^ (w - 1))%Z -> (lo <= x <= hi)%Z -> (lo <= y <= hi)%Z -> w_gap w x y = Ok (Z.abs (x - y)).
Proof using Type.
  intros H Hx Hy. unfold w_gap. rewrite checked_ok by lia. cbn [bind].
  destruct (Z.ltb_spec (x - y) 0); [rewrite checked_ok by lia|]; f_equal; lia.
Qed.

Lemma gap_inv x y v : w_gap w x y = Ok v -> v = Z.abs (x - y) /\ (v < 2 ^ (w - 1))%Z.
Proof using Type.
  unfold w_gap. destruct (checked w (x - y)) as [d| | |] eqn:E; cbn [bind]; try discriminate. apply checked_inv in E as (-> & E).
  destruct (Z.ltb_spec (x - y) 0); intros H1.
  - apply checked_inv in H1 as (-> & H1). lia.
  - injection H1 as <-. lia.
Qed.

Lemma gap_or x y : w_gap w x y = Ok (Z.abs (x - y)) \/ w_gap w x y = UB.
Proof using Type.
  unfold w_gap. destruct (checked_or w (x - y)) as [->| ->]; cbn [bind]; auto.
  destruct (Z.ltb_spec (x - y) 0); [|left; f_equal; lia].
  destruct (checked_or w (- (x - y))) as [->| ->]; auto. left. f_equal. lia.
Qed.

Fixpoint gaps (l r : list Z) : list Z :=
  match l, r with x :: l', y :: r' => Z.abs (x - y) :: gaps l' r' | _, _ => [] end.
Lemma gaps_total l r : total (gaps l r) = l1_dist l r.
Proof using Type. revert r. induction l as [|x l IH]; intros [|y r]; cbn; auto. rewrite IH. auto. Qed.

Lemma terms_ok l r : (hi - lo < 2 ^ (w - 1))%Z -> between lo hi l -> between lo hi r -> length l <= length r ->
  w_terms w l r = Ok (gaps l r) /\ length (gaps l r) = length l /\ Forall (fun t => 0 <= t <= hi - lo)%Z (gaps l r).
Proof using Type.
  intros H. revert r. induction l as [|x l IH]; intros r Hl Hr L; [destruct r; cbn; auto|].
  destruct r as [|y r]; cbn [length] in L; [lia|]. inversion_clear Hl. inversion_clear Hr. cbn [w_terms gaps].
  rewrite gap_ok by auto. cbn [bind]. destruct (IH r) as (-> & Lg & Fg); auto; [lia|]. cbn [bind length]. splits; auto.
  constructor; auto. lia.
Qed.

Lemma terms_short l r : length r < length l -> w_terms w l r = UB.
Proof using Type.
  revert r. induction l as [|x l IH]; intros [|y r] L; cbn [length] in L; try lia; auto. cbn [w_terms].
  destruct (gap_or x y) as [->| ->]; cbn [bind]; auto. rewrite IH by lia. auto.
Qed.

Lemma terms_inv l r : length l = length r -> w_terms w l r = Ok (gaps l r) \/ w_terms w l r = UB.
Proof using Type.
  revert r. induction l as [|x l IH]; intros [|y r] L; cbn [length] in L; try lia; auto. cbn [w_terms gaps].
  destruct (gap_or x y) as [->| ->]; cbn [bind]; auto. destruct (IH r) as [->| ->]; auto; lia.
Qed.

Lemma total_nonneg l : Forall (fun t => 0 <= t)%Z l -> (0 <= total l)%Z.
Proof using Type. induction 1; cbn [total]; lia. Qed.

Lemma sum_ok ts : Forall (fun t => 0 <= t)%Z ts -> forall g, (forall i, In i (summands g) -> i < length ts) ->
  (total (pick ts (summands g)) < 2 ^ (w - 1))%Z -> w_sum w g ts = Ok (total (pick ts (summands g))).
Proof using Type.
  intros F. assert (F' : forall l, Forall (fun t => 0 <= t)%Z (pick ts l)).
  { intros l. unfold pick. apply Forall_map. apply Forall_forall. intros i _.
    destruct (lt_dec i (length ts)); [|rewrite nth_overflow; lia].
    rewrite Forall_forall in F. apply F, nth_In. auto. }
  induction g as [|i|a IHa b IHb]; intros Hi Ht; cbn [w_sum summands] in *; auto.
  - assert (i < length ts) by (apply Hi; left; auto). cbn [pick map total]. rewrite Z.add_0_r. apply rd_ok, nth_error_nth'. auto.
  - unfold pick in *. rewrite map_app, total_app in *.
    pose proof (total_nonneg _ (F' (summands a))). pose proof (total_nonneg _ (F' (summands b))). unfold pick in *.
    rewrite IHa, IHb; try lia; try (intros i Hin; apply Hi, in_app_iff; auto). cbn [bind].
    apply checked_ok. lia.
Qed.

Lemma sum_inv ts : Forall (fun t => t < 2 ^ (w - 1))%Z ts -> (0 < 2 ^ (w - 1))%Z -> forall g, (forall i, In i (summands g) -> i < length ts) ->
  w_sum w g ts = UB \/ (w_sum w g ts = Ok (total (pick ts (summands g))) /\ (total (pick ts (summands g)) < 2 ^ (w - 1))%Z).
Proof using Type.
  intros F W. induction g as [|i|a IHa b IHb]; intros Hi; cbn [w_sum summands] in *; auto.
  - assert (i < length ts) by (apply Hi; left; auto). right. cbn [pick map total]. rewrite Z.add_0_r. split; [apply rd_ok, nth_error_nth'; auto|].
    rewrite Forall_forall in F. apply F, nth_In. auto.
  - unfold pick in *. rewrite map_app, total_app.
    destruct IHa as [->|(-> & A)]; [intros i Hin; apply Hi, in_app_iff; auto|auto|].
    destruct IHb as [->|(-> & B)]; [intros i Hin; apply Hi, in_app_iff; auto|auto|]. cbn [bind].
    destruct (checked_or w (total (map (fun i => nth i ts 0%Z) (summands a)) + total (map (fun i => nth i ts 0%Z) (summands b)))) as [E|E]; auto.
    right. split; auto. apply checked_inv in E. lia.
Qed.

Lemma order_total ts : total (pick ts (summands (order (length ts)))) = total ts.
Proof using Ho. rewrite <- (pick_all ts) at 3. apply total_perm, Permutation_map, Ho. Qed.
Lemma order_in (ts : list Z) i : In i (summands (order (length ts))) -> i < length ts.
Proof using Ho. intros H. apply (Permutation_in _ (Ho _)) in H. apply in_seq in H. lia. Qed.

Lemma total_le l b : Forall (fun t => 0 <= t <= b)%Z l -> (total l <= b * Z.of_nat (length l))%Z.
Proof using Type. induction 1; cbn [total length]; lia. Qed.

Lemma range_one : 1 <= nf -> (lo <= hi)%Z -> ((hi - lo) * Z.of_nat nf < 2 ^ (w - 1))%Z -> (hi - lo < 2 ^ (w - 1))%Z.
Proof using Type. intros. nia. Qed.
End Width.

(** ** Distances *)
Theorem c89_distance : forall w lo hi nf order p q,
  adds_once order -> between lo hi p -> between lo hi q -> length p = nf -> length q = nf ->
  ((hi - lo) * Z.of_nat nf < 2 ^ (w - 1))%Z ->
  w_manhattan w order p q = manhattan_distance p q.
Proof.
  intros w lo hi nf order p q Ho Hp Hq Lp Lq R. rewrite manhattan_ok by lia.
  destruct nf as [|nf'].
  { destruct p, q; try discriminate. unfold w_manhattan. cbn. pose proof (Ho 0) as P. apply Permutation_sym, Permutation_nil in P.
    assert (G : forall g, summands g = [] -> (0 < 2 ^ (w - 1))%Z -> w_sum w g [] = Ok 0%Z).
    { induction g; cbn [summands w_sum]; intros E W; auto; [discriminate|]. apply app_eq_nil in E as (E1 & E2).
      rewrite IHg1, IHg2 by auto. cbn [bind]. apply checked_ok. lia. }
    apply G; auto. lia. }
  assert (lo <= hi)%Z by (inversion Hp; subst; [discriminate|lia]).
  pose proof (range_one w lo hi (S nf') ltac:(lia) H R) as R1.
  unfold w_manhattan. destruct (terms_ok w lo hi p q R1 Hp Hq ltac:(lia)) as (-> & Lg & Fg). cbn [bind].
  assert (F0 : Forall (fun t => 0 <= t)%Z (gaps p q)) by (eapply Forall_impl; [|exact Fg]; intros; cbv beta in *; lia).
  rewrite (sum_ok w _ F0).
  - rewrite order_total by auto. now rewrite gaps_total.
  - intros i Hi. eapply order_in; eauto.
  - rewrite order_total by auto. pose proof (total_le _ _ Fg). rewrite Lg, Lp in H0. lia.
Qed.

(** An answer that is given is right, in every order of the additions; else the computation is undefined. *)
Theorem c89_distance_right_or_undefined : forall w order p q,
  (1 <= w)%Z -> adds_once order -> length p = length q ->
  w_manhattan w order p q = UB \/ (w_manhattan w order p q = Ok (l1_dist p q) /\ (l1_dist p q < 2 ^ (w - 1))%Z).
Proof.
  intros w order p q Hw Ho L. assert (W : (0 < 2 ^ (w - 1))%Z) by (apply Z.pow_pos_nonneg; lia).
  unfold w_manhattan. destruct (terms_inv w p q L) as [E|E]; rewrite E; cbn [bind]; auto.
  assert (F : Forall (fun t => t < 2 ^ (w - 1))%Z (gaps p q)).
  { revert q L E. induction p as [|x p IH]; intros [|y q] L E; cbn [length] in L; try lia; cbn [gaps]; constructor; cbn [w_terms gaps] in E.
    - destruct (w_gap w x y) as [v| | |] eqn:G; cbn [bind] in E; try discriminate. apply gap_inv in G. destruct G as (-> & G). auto.
    - destruct (w_gap w x y) as [v| | |] eqn:G; cbn [bind] in E; try discriminate.
      destruct (w_terms w p q) as [ts| | |] eqn:G'; cbn [bind] in E; try discriminate.
      injection E as _ E. apply IH; [lia|]. congruence. }
  destruct (sum_inv w _ F W (order (length (gaps p q)))) as [->|(-> & B)]; auto.
  - intros i Hi. eapply order_in; eauto.
  - rewrite order_total in * by auto. rewrite gaps_total in *. auto.
Qed.

Lemma left_once : adds_once from_the_left.
Proof.
  intros n. induction n as [|n IH]; cbn [from_the_left summands]; auto. rewrite seq_S. cbn [Nat.add].
  apply Permutation_app; auto.
Qed.

Lemma four_summands : forall fuel n first acc, n <= fuel ->
  summands (four_by_four fuel n first acc) = summands acc ++ seq first n.
Proof.
  induction fuel as [|fuel IH]; intros n first acc H.
  - assert (n = 0) as -> by lia. cbn. now rewrite app_nil_r.
  - cbn [four_by_four]. destruct (Nat.leb_spec 4 n).
    + rewrite IH by lia. replace n with (4 + (n - 4)) at 2 by lia. rewrite seq_app. cbn [summands]. rewrite <- app_assoc.
      f_equal. cbn [seq app]. rewrite (Nat.add_comm first 4). reflexivity.
    + destruct (Nat.leb_spec 1 n).
      * rewrite IH by lia. replace n with (1 + (n - 1)) at 2 by lia. rewrite seq_app. cbn [summands]. rewrite <- app_assoc.
        f_equal. cbn [seq app]. rewrite (Nat.add_comm first 1). reflexivity.
      * assert (n = 0) as -> by lia. cbn. now rewrite app_nil_r.
Qed.
Definition four_order (n : nat) : sum_order := four_by_four n n 0 Start.
Lemma four_once : adds_once four_order.
Proof. intros n. unfold four_order. rewrite four_summands by lia. apply Permutation_refl. Qed.

Example c89_distance_case :
  adds_once from_the_left /\ adds_once four_order /\
  w_manhattan 32 four_order [1; 2; 3; 4; 5; -1000000]%Z [5; 4; 3; 2; 1; 1000000]%Z = Ok 2000012%Z /\
  w_manhattan 32 four_order [2 ^ 30; 2 ^ 30]%Z [0; 0]%Z = UB /\
  w_manhattan 32 from_the_left [- 2 ^ 31]%Z [0]%Z = UB /\ w_manhattan 64 from_the_left [- 2 ^ 31]%Z [0]%Z = Ok (2 ^ 31)%Z.
Proof.
  split; [apply left_once|]. split; [apply four_once|]. split; [vm_compute; reflexivity|]. split; [vm_compute; reflexivity|].
  split; vm_compute; reflexivity.
Qed.

Example c89_distance_right_or_undefined_case :
  l1_dist [2 ^ 30; -5]%Z [- 2 ^ 30 + 1; 7]%Z = (2 ^ 31 + 11)%Z /\
  w_manhattan 32 four_order [2 ^ 30; -5]%Z [- 2 ^ 30 + 1; 7]%Z = UB /\
  w_manhattan 64 four_order [2 ^ 30; -5]%Z [- 2 ^ 30 + 1; 7]%Z = Ok (2 ^ 31 + 11)%Z.
Proof. split; [vm_compute; reflexivity|]. split; vm_compute; reflexivity. Qed.

(** ** Searches *)
Section Agree.
Context (lo hi : Z) (nf : nat).
Context (samples : list Z) (Hs : between lo hi samples) (query : list Z).
Context (auto_distance : list Z -> list Z -> res Z)
  (Ha : forall f, between lo hi f -> length f = nf -> auto_distance f query = manhattan_distance f query).
Notation other := (mk_metric Z Z.ltb 0%Z (fun a b => Z.abs (a - b)) auto_distance).

Lemma slice_inv {A} (l : list A) a b s : slice l a b = Ok s -> s = firstn (b - a) (skipn a l) /\ a <= b /\ b <= length l.
Proof using Type.
  unfold slice. destruct ((a <=? b) && (b <=? length l)) eqn:E; intros H; [|discriminate]. injection H as <-.
  apply andb_true_iff in E as (E1 & E2). apply Nat.leb_le in E1, E2. auto.
Qed.

Lemma sample_between i f : sample_at samples nf i = Ok f -> between lo hi f /\ length f = nf.
Proof using All.
  unfold sample_at. intros H. apply slice_inv in H as (-> & H1 & H2). split.
  - apply Forall_forall. intros x Hx. apply (proj1 (Forall_forall _ _) Hs).
    rewrite <- (firstn_skipn (i * nf) samples). apply in_app_iff. right.
    rewrite <- (firstn_skipn (i * nf + nf - i * nf) (skipn (i * nf) samples)). apply in_app_iff. auto.
  - rewrite firstn_length, skipn_length. lia.
Qed.

Lemma within_eq bound i f : sample_at samples nf i = Ok f ->
  distance_if_within_bounds other bound query f = distance_if_within_bounds int_metric bound query f.
Proof using All.
  intros H. destruct (sample_between i f H) as (Bf & Lf).
  assert (E : m_auto other f query = m_auto int_metric f query).
  { exact (Ha f Bf Lf). }
  unfold distance_if_within_bounds. cbn [m_auto int_metric] in *. rewrite E. reflexivity.
Qed.

Context (indices : list nat) (bound : search_bound Z) {S : Type} (accept : nat -> S -> res (bool * S)).

Lemma offer_eq i st : offer other samples nf bound query accept i st = offer int_metric samples nf bound query accept i st.
Proof using All.
  unfold offer. destruct st as (b & s). destruct (sample_at samples nf i) as [f| | |] eqn:E; cbn [bind]; auto.
  pose proof (within_eq bound i f E) as W. change (m_dist other) with Z in *. change (m_dist int_metric) with Z in *.
  rewrite W. reflexivity.
Qed.

Lemma for_each_ext {A T} (f g : A -> T -> res T) : (forall x s, f x s = g x s) -> forall l s, for_each l f s = for_each l g s.
Proof using Type.
  intros H. induction l as [|x l IH]; intros s; cbn [for_each]; auto. rewrite H. destruct (g x s); cbn [bind]; auto.
Qed.

Lemma partial_eq first last st :
  partial_search other samples nf indices bound query accept first last st =
  partial_search int_metric samples nf indices bound query accept first last st.
Proof using All.
  unfold partial_search. destruct (slice indices first last); cbn [bind]; auto. apply for_each_ext. apply offer_eq.
Qed.

Lemma to_leaf_eq t : forall p st,
  recursive_search_to_leaf_node other samples nf indices bound query accept t p st =
  recursive_search_to_leaf_node int_metric samples nf indices bound query accept t p st.
Proof using All.
  induction t as [f l b|f l a b L IHL Rt IHR]; intros p st; cbn [recursive_search_to_leaf_node].
  - now rewrite partial_eq.
  - rewrite partial_eq. destruct (partial_search int_metric samples nf indices bound query accept f l st); cbn [bind]; auto.
    unfold select_closest_child. destruct (split_value samples nf indices f a); cbn [bind]; auto.
    destruct (rd query a); cbn [bind]; auto. destruct (negb _); auto.
Qed.

End Agree.

Lemma rd_between lo hi l i v : between lo hi l -> rd l i = Ok v -> (lo <= v <= hi)%Z.
Proof.
  intros H E. unfold rd in E. destruct (nth_error l i) as [x|] eqn:N; [|discriminate]. injection E as ->.
  apply nth_error_In in N. apply (proj1 (Forall_forall _ _) H _ N).
Qed.

Lemma bind_same {A B} (a b : res A) (f g : A -> res B) : a = b -> (forall x, f x = g x) -> bind a f = bind b g.
Proof. intros -> H. destruct b; cbn [bind]; auto. Qed.

Section Search.
Context (w lo hi : Z) (nf : nat) (order : nat -> sum_order) (Ho : adds_once order) (Hnf : 1 <= nf).
Context (R : ((hi - lo) * Z.of_nat nf < 2 ^ (w - 1))%Z).
Context (samples : list Z) (Hs : between lo hi samples) (query : list Z) (Hq : between lo hi query) (Lq : length query = nf).
Context (indices : list nat) (bound : search_bound Z) {S : Type} (accept : nat -> S -> res (bool * S)).

Lemma visit_eq first axis side b : w_visit_sibling w samples nf indices query first axis side b =
  visit_sibling int_metric samples nf indices query first axis side b.
Proof using All.
  unfold w_visit_sibling, visit_sibling. change (m_dist int_metric) with Z. destruct (split_value samples nf indices first axis) as [pv| | |] eqn:E; cbn [bind]; auto.
  destruct (rd query axis) as [qv| | |] eqn:Eq; cbn [bind]; auto.
  destruct (remaining_capacity b =? 0)%Z; cbn [negb orb]; auto.
  assert (Hp : (lo <= pv <= hi)%Z).
  { unfold split_value in E. destruct (rd indices first) as [pi| | |]; cbn [bind] in E; try discriminate.
    unfold feature in E. exact (rd_between _ _ _ _ _ Hs E). }
  assert (Hv : (lo <= qv <= hi)%Z) by exact (rd_between _ _ _ _ _ Hq Eq).
  rewrite (gap_ok w lo hi) by (auto; eapply range_one; eauto; lia). reflexivity.
Qed.

Lemma w_agrees f : between lo hi f -> length f = nf -> w_manhattan w order f query = manhattan_distance f query.
Proof using All. intros. eapply c89_distance; eauto. Qed.

Lemma traversal_eq root : forall fuel,
  (forall node st, w_traversal w order samples nf indices root bound query accept fuel node st =
     single_tree_traversal int_metric samples nf indices root bound query accept fuel node st) /\
  (forall node cur st, w_climb w order samples nf indices root bound query accept fuel node cur st =
     climb int_metric samples nf indices root bound query accept fuel node cur st).
Proof using All.
  induction fuel as [|fuel (IH1 & IH2)]; split; intros; try reflexivity.
  - cbn [w_traversal single_tree_traversal]. apply bind_same; auto. intros t.
    refine (bind_same _ _ _ _ (to_leaf_eq lo hi nf samples Hs query (w_manhattan w order) w_agrees indices bound accept t node st) _).
    intros (c & s'). apply IH2.
  - cbn [w_climb climb]. destruct (list_eq_dec bool_dec cur node); auto. destruct cur as [|side parent]; auto.
    apply bind_same; auto. intros [|f l a b L Rt]; auto.
    refine (bind_same _ _ _ _ (visit_eq f a side (fst st)) _). intros visit.
    refine (bind_same _ _ _ _ _ _); [|intros st'; apply IH2]. destruct visit; [apply IH1|reflexivity].
Qed.

Lemma n_agrees f : (1 <= w)%Z -> between lo hi f -> length f = nf ->
  (d <- manhattan_distance f query ;; Ok (narrow w d)) = manhattan_distance f query.
Proof using All.
  intros Hw Bf Lf. rewrite manhattan_ok by lia. cbn [bind]. f_equal.
  assert (B : (0 <= l1_dist f query <= (hi - lo) * Z.of_nat nf)%Z).
  { clear -Bf Lf Hq Lq. revert f nf Bf Lf Lq. induction Hq as [|y q Hy Fq IH]; intros f nf Bf Lf Lq; cbn [length] in Lq.
    - destruct f; cbn in *; lia.
    - destruct f as [|x f]; cbn [length] in Lf; [lia|]. inversion_clear Bf. cbn [l1_dist].
      destruct nf as [|n]; [lia|]. specialize (IH Fq f n H0 ltac:(lia) ltac:(lia)). rewrite Nat2Z.inj_succ, Z.mul_succ_r. lia. }
  unfold narrow. assert (E : (2 ^ w = 2 * 2 ^ (w - 1))%Z).
  { replace w with (1 + (w - 1))%Z at 1 by lia. rewrite Z.pow_add_r by lia. reflexivity. }
  rewrite Z.mod_small; lia.
Qed.

Lemma n_traversal_eq root : (1 <= w)%Z -> forall fuel,
  (forall node st, single_tree_traversal (n_metric w) samples nf indices root bound query accept fuel node st =
     single_tree_traversal int_metric samples nf indices root bound query accept fuel node st) /\
  (forall node cur st, climb (n_metric w) samples nf indices root bound query accept fuel node cur st =
     climb int_metric samples nf indices root bound query accept fuel node cur st).
Proof using All.
  intros Hw. induction fuel as [|fuel (IH1 & IH2)]; split; intros; try reflexivity.
  - cbn [single_tree_traversal]. apply bind_same; auto. intros t.
    refine (bind_same _ _ _ _ (to_leaf_eq lo hi nf samples Hs query (fun l r => d <- manhattan_distance l r ;; Ok (narrow w d))
      (fun f => n_agrees f Hw) indices bound accept t node st) _).
    intros (c & s'). apply IH2.
  - cbn [climb]. destruct (list_eq_dec bool_dec cur node); auto. destruct cur as [|side parent]; auto.
    apply bind_same; auto. intros [|f l a b L Rt]; auto.
    refine (bind_same _ _ _ _ eq_refl _). intros visit.
    refine (bind_same _ _ _ _ _ _); [|intros st'; apply IH2]. destruct visit; [apply IH1|reflexivity].
Qed.
End Search.

(** Every search, on any tree and with any buffer, behaves as on integers without bounds. *)
Theorem c89_search : forall w lo hi order samples nf tree bound query (S : Type) (accept : nat -> S -> res (bool * S)) k s,
  adds_once order -> 1 <= nf -> ((hi - lo) * Z.of_nat nf < 2 ^ (w - 1))%Z ->
  between lo hi samples -> between lo hi query -> length query = nf ->
  w_search w order samples nf tree bound query accept k s = search int_metric samples nf tree bound query accept k s.
Proof.
  intros w lo hi order samples nf tree bound query S accept k s Ho Hnf R Hs Hq Lq. unfold w_search, search.
  apply (proj1 (traversal_eq w lo hi nf order Ho Hnf R samples Hs query Hq Lq (kt_indices tree) bound accept (kt_root tree) _)).
Qed.

Example c89_search_case :
  adds_once four_order /\ between (-128) 127 pts /\ between (-128) 127 [100; -100]%Z /\ ((127 - -128) * Z.of_nat 2 < 2 ^ (16 - 1))%Z /\
  (forall tree, make_kdtree 0 pts 2 2 9 cycle (-100) 100 half (seq 0 7) = Ok tree ->
     w_search 16 four_order pts 2 tree Unbounded [100; -100]%Z accept_all 3 tt =
     search int_metric pts 2 tree Unbounded [100; -100]%Z accept_all 3 tt).
Proof.
  split; [apply four_once|]. split; [repeat constructor; vm_compute; discriminate|]. split; [repeat constructor; vm_compute; discriminate|].
  split; [vm_compute; reflexivity|].
  intros tree _. apply (c89_search 16 (-128) 127).
  - apply four_once.
  - lia.
  - vm_compute. reflexivity.
  - repeat constructor; vm_compute; discriminate.
  - repeat constructor; vm_compute; discriminate.
  - reflexivity.
Qed.

Lemma between_val lo hi samples nf j i : between lo hi samples -> i * nf + j < length samples -> (lo <= val samples nf j i <= hi)%Z.
Proof. intros H L. apply (proj1 (Forall_forall _ _) H). unfold val. now apply nth_In. Qed.

(** No larger range will do: one sample at an end and the query at the other. *)
Theorem c89_search_tight : forall w lo hi order nf bucket max_depth policy k,
  (1 <= w)%Z -> adds_once order -> 1 <= nf -> (lo <= hi)%Z -> (2 ^ (w - 1) <= (hi - lo) * Z.of_nat nf)%Z ->
  1 <= bucket ->
  exists samples query tree,
    between lo hi samples /\ length samples = nf /\ between lo hi query /\ length query = nf /\
    make_kdtree 0 samples nf bucket max_depth policy lo hi seg_centroid_int [0] = Ok tree /\
    w_search w order samples nf tree Unbounded query accept_all k tt = UB.
Proof.
  intros w lo hi order nf bucket max_depth policy k Hw Ho Hnf Hlh R Hb.
  assert (Bh : between lo hi (repeat hi nf)) by (apply Forall_forall; intros x Hx; apply repeat_spec in Hx; lia).
  assert (Bl : between lo hi (repeat lo nf)) by (apply Forall_forall; intros x Hx; apply repeat_spec in Hx; lia).
  assert (E1 : forall j, j < nf -> in_dataset (repeat hi nf) nf j [0]).
  { intros j Hj i [<-|[]]. rewrite repeat_length. lia. }
  assert (E2 : in_limits lo hi (repeat hi nf) nf [0]).
  { intros i j Hi Hj. eapply between_val; eauto. exact (E1 j Hj i Hi). }
  destruct (make_tight_segments_ok lo hi (repeat hi nf) nf [0] E1 E2) as (segs & Es & _).
  exists (repeat hi nf), (repeat lo nf),
    (mk_kdtree [0] (KLeaf 0 1 (make_aabb seg_centroid_int segs)) (make_aabb seg_centroid_int segs)).
  split; [auto|]. split; [apply repeat_length|]. split; [auto|]. split; [apply repeat_length|]. split.
  - unfold make_kdtree. rewrite Es. cbn [bind length build]. replace (bucket <? 1 - 0) with false by (symmetry; apply Nat.ltb_ge; lia).
    rewrite andb_false_r. reflexivity.
  - unfold w_search. cbn [kt_root kt_indices kd_nodes Nat.mul Nat.add w_traversal node_at rev bind recursive_search_to_leaf_node].
    unfold partial_search. change (slice [0] 0 1) with (Ok [0]). cbn [bind for_each]. unfold offer.
    assert (Ef : sample_at (repeat hi nf) nf 0 = Ok (repeat hi nf)).
    { unfold sample_at, slice. rewrite repeat_length. cbn [Nat.mul Nat.add].
      rewrite Nat.leb_refl. replace (0 <=? nf) with true by reflexivity. cbn [andb skipn].
      rewrite Nat.sub_0_r, firstn_all2 by (rewrite repeat_length; lia). reflexivity. }
    rewrite Ef. cbn [bind]. unfold distance_if_within_bounds. cbn [m_auto w_metric].
    destruct (c89_distance_right_or_undefined w order (repeat hi nf) (repeat lo nf) Hw Ho ltac:(now rewrite !repeat_length)) as [->|(_ & B)];
      [reflexivity|].
    exfalso. assert (D : l1_dist (repeat hi nf) (repeat lo nf) = ((hi - lo) * Z.of_nat nf)%Z).
    { clear -Hlh. induction nf; [cbn; lia|]. cbn [repeat l1_dist]. lia. }
    lia.
Qed.

Example c89_search_tight_case :
  adds_once four_order /\ (2 ^ (32 - 1) <= (2 ^ 30 - - 2 ^ 30) * Z.of_nat 1)%Z /\
  (exists tree, make_kdtree 0 [2 ^ 30; 5]%Z 1 40 9 (fun _ _ _ _ => 0) (- 2 ^ 31) (2 ^ 31 - 1) seg_centroid_int [0; 1] = Ok tree /\
     w_search 32 four_order [2 ^ 30; 5]%Z 1 tree Unbounded [- 2 ^ 30]%Z accept_all 1 tt = UB).
Proof.
  split; [apply four_once|]. split; [vm_compute; discriminate|].
  destruct (make_kdtree 0 [2 ^ 30; 5]%Z 1 40 9 (fun _ _ _ _ => 0) (- 2 ^ 31) (2 ^ 31 - 1) seg_centroid_int [0; 1]) as [tree| | |] eqn:E;
    try (vm_compute in E; discriminate).
  exists tree. split; auto. vm_compute in E. injection E as <-. vm_compute. reflexivity.
Qed.

(** ** Construction *)
Lemma centers_ok w segs : Forall (fun s => - 2 ^ (w - 1) <= seg_lower s + seg_upper s < 2 ^ (w - 1))%Z segs ->
  w_centers w segs = Ok (map seg_centroid_int segs).
Proof.
  induction 1 as [|s segs H F IH]; cbn [w_centers map]; auto. unfold w_center. rewrite checked_ok by auto. cbn [bind]. rewrite IH. reflexivity.
Qed.

Lemma centers_ub w segs j : j < length segs -> (2 ^ (w - 1) <= seg_lower (nth j segs (mk_segment 0 0)) + seg_upper (nth j segs (mk_segment 0 0)))%Z ->
  w_centers w segs = UB.
Proof.
  revert j. induction segs as [|s segs IH]; intros [|j] L H; cbn [length nth] in *; try lia; cbn [w_centers]; unfold w_center.
  - destruct (checked_or w (seg_lower s + seg_upper s)) as [E|E]; rewrite E; auto. apply checked_inv in E. lia.
  - destruct (checked_or w (seg_lower s + seg_upper s)) as [E|E]; rewrite E; auto. cbn [bind]. rewrite (IH j); auto. lia.
Qed.

(** When twice each value still fits, the tree is the one built on integers without bounds. *)
Theorem c89_build : forall w lo hi tol samples nf bucket max_depth policy lowest max indices,
  dataset_ok samples nf lowest max indices -> indices <> [] ->
  between lo hi samples -> (- 2 ^ (w - 1) <= 2 * lo)%Z -> (2 * hi < 2 ^ (w - 1))%Z ->
  w_make_kdtree w tol samples nf bucket max_depth policy lowest max indices =
  make_kdtree tol samples nf bucket max_depth policy lowest max seg_centroid_int indices.
Proof.
  intros w lo hi tol samples nf bucket max_depth policy lowest max indices (Hd & Hl) Hne Hs H1 H2.
  unfold w_make_kdtree, make_kdtree.
  destruct (make_tight_segments_ok lowest max samples nf indices Hd Hl) as (segs & E & L & H). rewrite E. cbn [bind].
  rewrite centers_ok; [reflexivity|]. apply Forall_forall. intros s Hin.
  destruct (In_nth _ _ (mk_segment 0 0) Hin) as (j & Hj & Ej). rewrite L in Hj.
  destruct (H j Hj) as (_ & _ & T). rewrite Ej in T. destruct (T Hne) as ((i1 & I1 & <-) & (i2 & I2 & <-)).
  pose proof (between_val lo hi samples nf j i1 Hs (Hd j Hj i1 I1)). pose proof (between_val lo hi samples nf j i2 Hs (Hd j Hj i2 I2)). lia.
Qed.

Example c89_build_case :
  dataset_ok pts 2 (-100) 100 (seq 0 7) /\ between (-50) 50 pts /\
  (exists tree, w_make_kdtree 8 0 pts 2 2 9 cycle (-100) 100 (seq 0 7) = Ok tree /\ 3 <= kd_nodes (kt_root tree)).
Proof.
  split; [exact pts_ok|]. split; [repeat constructor; vm_compute; discriminate|].
  destruct (w_make_kdtree 8 0 pts 2 2 9 cycle (-100) 100 (seq 0 7)) as [tree| | |] eqn:E; try (vm_compute in E; discriminate).
  exists tree. split; auto. vm_compute in E. injection E as <-. vm_compute. lia.
Qed.

(** Construction and search together: the k nearest samples, with their exact distances, without any overflow. *)
Theorem c89_k_nearest : forall w lo hi order tol samples nf bucket max_depth policy lowest max indices query k,
  adds_once order -> 1 <= nf -> ((hi - lo) * Z.of_nat nf < 2 ^ (w - 1))%Z -> (- 2 ^ (w - 1) <= 2 * lo)%Z -> (2 * hi < 2 ^ (w - 1))%Z ->
  between lo hi samples -> between lo hi query -> length query = nf -> indices <> [] ->
  tree_input tol samples nf policy lowest max indices -> 1 <= k -> (Z.of_nat k < 2 ^ 64)%Z ->
  exists tree b,
    w_make_kdtree w tol samples nf bucket max_depth policy lowest max indices = Ok tree /\
    w_search w order samples nf tree Unbounded query accept_all k tt = Ok (b, tt) /\
    answers Z.ltb k (with_distances l1_dist samples nf query indices) b.
Proof.
  intros w lo hi order tol samples nf bucket max_depth policy lowest max indices query k Ho Hnf R H1 H2 Hs Hq Lq Hne Hi Hk1 Hk.
  destruct (c15_tree_search_finds_the_k_nearest int_metric l1_dist tol samples nf bucket max_depth policy lowest max seg_centroid_int indices query k
              int_metric_ok Hi Lq Hk1 Hk) as (tree & b & E1 & E2 & A).
  exists tree, b. split; [|split; [|exact A]].
  - rewrite (c89_build w lo hi); auto. exact (proj1 (proj2 (proj2 Hi))).
  - refine (eq_trans _ E2). apply (c89_search w lo hi); auto.
Qed.

Example c89_k_nearest_case :
  adds_once four_order /\ ((100 - -100) * Z.of_nat 2 < 2 ^ (32 - 1))%Z /\ between (-100) 100 pts /\
  tree_input 0 pts 2 cycle (-100) 100 (seq 0 7) /\
  (forall tree, w_make_kdtree 32 0 pts 2 2 9 cycle (-100) 100 (seq 0 7) = Ok tree ->
     match w_search 32 four_order pts 2 tree Unbounded [100; -100]%Z accept_all 3 tt with
     | Ok (b, _) => length (buf_indices b) = 3
     | _ => False
     end).
Proof.
  split; [apply four_once|]. split; [vm_compute; reflexivity|]. split; [repeat constructor; vm_compute; discriminate|].
  split; [exact pts_input|]. intros tree E. vm_compute in E. injection E as <-. vm_compute. reflexivity.
Qed.

(** With larger values the construction itself is undefined, though all distances may be small. *)
Theorem c89_build_undefined : forall w tol samples nf bucket max_depth policy lowest max indices j,
  (2 <= w)%Z -> dataset_ok samples nf lowest max indices -> indices <> [] -> j < nf ->
  (forall i, In i indices -> (2 ^ (w - 2) <= val samples nf j i)%Z) ->
  w_make_kdtree w tol samples nf bucket max_depth policy lowest max indices = UB.
Proof.
  intros w tol samples nf bucket max_depth policy lowest max indices j Hw (Hd & Hl) Hne Hj Hv.
  unfold w_make_kdtree.
  destruct (make_tight_segments_ok lowest max samples nf indices Hd Hl) as (segs & E & L & H). rewrite E. cbn [bind].
  rewrite (centers_ub w segs j); [reflexivity|lia|].
  destruct (H j Hj) as (_ & _ & T). destruct (T Hne) as ((i1 & I1 & <-) & (i2 & I2 & <-)).
  pose proof (Hv i1 I1). pose proof (Hv i2 I2). replace (w - 1)%Z with (1 + (w - 2))%Z by lia. rewrite Z.pow_add_r by lia. lia.
Qed.

(** One sample of value [2^30] in 32 bits: the distance is 0, the tree cannot be built. *)
Theorem c89_build_refuted : exists samples indices,
  dataset_ok samples 1 (- 2 ^ 31) (2 ^ 31 - 1) indices /\ between 0 (2 ^ 31 - 1) samples /\
  w_manhattan 32 from_the_left samples samples = Ok 0%Z /\
  w_make_kdtree 32 0 samples 1 40 0 (fun _ _ _ _ => 0) (- 2 ^ 31) (2 ^ 31 - 1) indices = UB.
Proof.
  exists [2 ^ 30]%Z, [0]. split; [|split; [|split; vm_compute; reflexivity]].
  - split.
    + intros j Hj i [<-|[]]. cbn. lia.
    + intros i j [<-|[]] Hj. assert (j = 0) as -> by lia. vm_compute. split; discriminate.
  - repeat constructor; vm_compute; discriminate.
Qed.

Example c89_build_undefined_case :
  (forall i, In i [0; 1] -> (2 ^ 30 <= val [3; 2000000000; -7; 1900000000] 2 1 i)%Z) /\
  w_make_kdtree 32 0 [3; 2000000000; -7; 1900000000]%Z 2 40 0 cycle (- 2 ^ 31) (2 ^ 31 - 1) [0; 1] = UB /\
  l1_dist [3; 2000000000]%Z [-7; 1900000000]%Z = 100000010%Z.
Proof.
  split; [|split; vm_compute; reflexivity]. intros i [<-|[<-|[]]]; vm_compute; discriminate.
Qed.

(** ** Types narrower than [int] *)
(** In the same range, narrowing changes nothing. *)
Theorem c89_search_narrow : forall w lo hi samples nf tree bound query (S : Type) (accept : nat -> S -> res (bool * S)) k s,
  (1 <= w)%Z -> 1 <= nf -> ((hi - lo) * Z.of_nat nf < 2 ^ (w - 1))%Z ->
  between lo hi samples -> between lo hi query -> length query = nf ->
  search (n_metric w) samples nf tree bound query accept k s = search int_metric samples nf tree bound query accept k s.
Proof.
  intros w lo hi samples nf tree bound query S accept k s Hw Hnf R Hs Hq Lq. unfold search.
  apply (proj1 (n_traversal_eq w lo hi nf from_the_left left_once Hnf R samples Hs query Hq Lq (kt_indices tree) bound accept (kt_root tree) Hw _)).
Qed.

Example c89_search_narrow_case :
  between (-15) 15 pts /\ ((15 - -15) * Z.of_nat 2 < 2 ^ (8 - 1))%Z /\
  (forall tree, make_kdtree 0 pts 2 2 9 cycle (-100) 100 half (seq 0 7) = Ok tree ->
     search (n_metric 8) pts 2 tree Unbounded [15; -15]%Z accept_all 3 tt = search int_metric pts 2 tree Unbounded [15; -15]%Z accept_all 3 tt).
Proof.
  split; [repeat constructor; vm_compute; discriminate|]. split; [vm_compute; reflexivity|].
  intros tree _. apply (c89_search_narrow 8 (-15) 15); try lia; try reflexivity; repeat constructor; vm_compute; discriminate.
Qed.

(** Beyond it, a search on [signed char] returns the furthest sample as the nearest, at a negative distance. *)
Theorem c89_search_narrow_refuted : exists samples query tree b,
  between (-128) 127 samples /\ between (-128) 127 query /\
  make_kdtree 0 samples 1 40 0 (fun _ _ _ _ => 0) (-128) 127 seg_centroid_int [0; 1] = Ok tree /\
  search (n_metric 8) samples 1 tree Unbounded query accept_all 1 tt = Ok (b, tt) /\
  buf_indices b = [0] /\ buf_distances b = [-56]%Z /\
  l1_dist query (nth 0 [[-100]; [90]]%Z []) = 200%Z /\ l1_dist query (nth 1 [[-100]; [90]]%Z []) = 10%Z /\
  samples = concat [[-100]; [90]]%Z.
Proof.
  destruct (make_kdtree 0 [-100; 90]%Z 1 40 0 (fun _ _ _ _ => 0) (-128) 127 seg_centroid_int [0; 1]) as [tree| | |] eqn:E;
    try (vm_compute in E; discriminate).
  destruct (search (n_metric 8) [-100; 90]%Z 1 tree Unbounded [100]%Z accept_all 1 tt) as [(b & [])| | |] eqn:F;
    try (vm_compute in E; injection E as <-; vm_compute in F; discriminate).
  exists [-100; 90]%Z, [100]%Z, tree, b.
  split; [repeat constructor; vm_compute; discriminate|]. split; [repeat constructor; vm_compute; discriminate|].
  split; [exact E|]. split; [exact F|].
  assert (G : buf_indices b = [0] /\ buf_distances b = [-56]%Z).
  { vm_compute in E. injection E as <-. vm_compute in F. injection F as <-. split; vm_compute; reflexivity. }
  destruct G as (G1 & G2). split; [exact G1|]. split; [exact G2|]. split; [vm_compute; reflexivity|]. split; vm_compute; reflexivity.
Qed.

Print Assumptions c89_distance.
Print Assumptions c89_distance_right_or_undefined.
Print Assumptions c89_search.
Print Assumptions c89_search_tight.
Print Assumptions c89_build.
Print Assumptions c89_k_nearest.
Print Assumptions c89_build_undefined.
Print Assumptions c89_build_refuted.
Print Assumptions c89_search_narrow.
Print Assumptions c89_search_narrow_refuted.
