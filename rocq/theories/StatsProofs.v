(** Lemmas on statistics. *)
From Coq Require Import List Arith ZArith QArith Lqa Lia Bool Permutation.
From Verif Require Import Base BufferModel MatrixModel KMeansModel KMeansProofs RandomModel AliasProofs StatsModel StatsSpec.
Import ListNotations.
Local Open Scope nat_scope.

(** ** Accumulating loops *)
Section Accumulate.
Context {V I : Type} (a : arith V) (cell : I -> nat -> res V) (R : nat -> list I -> V -> Prop).

Lemma add_row_ok width done i acc :
  length acc = width ->
  (forall j, j < width -> exists v, nth_error acc j = Some v /\ R j done v) ->
  (forall j m, j < width -> R j done m -> exists x s, cell i j = Ok x /\ a_plus a m x = Ok s /\ R j (done ++ [i]) s) ->
  exists acc', for_loop width 0 (fun j acc => x <- cell i j ;; add_to a acc j x) acc = Ok acc' /\ length acc' = width /\
    forall j, j < width -> exists v, nth_error acc' j = Some v /\ R j (done ++ [i]) v.
Proof.
  intros L HR Hstep.
  destruct (for_loop_inv (fun k acc => length acc = width /\ forall j, j < width -> exists v, nth_error acc j = Some v /\
      (j < k -> R j (done ++ [i]) v) /\ (k <= j -> R j done v))
    (fun j acc => x <- cell i j ;; add_to a acc j x) width 0 acc) as (acc' & E & L' & H).
  - split; auto. intros j Hj. destruct (HR j Hj) as (v & Ev & Hv). exists v. splits; auto. lia.
  - intros k acc0 Hk (L0 & H0). cbn [Nat.add] in Hk. destruct (H0 k) as (m & Em & _ & Hm); [lia|].
    destruct (Hstep k m) as (x & s & Ex & Es & Hs); [lia|apply Hm; lia|].
    rewrite Ex. cbn [bind]. unfold add_to. rewrite (proj2 (rd_ok _ _ _) Em). cbn [bind]. rewrite Es. cbn [bind].
    rewrite wr_lt by lia. eexists. split; [reflexivity|]. rewrite upd_length. split; auto.
    intros j Hj. destruct (Nat.eq_dec j k) as [-> |Hne].
    + exists s. rewrite nth_error_upd_eq by lia. splits; auto. lia.
    + destruct (H0 j Hj) as (v & Ev & H1 & H2). exists v. rewrite nth_error_upd_neq by auto. splits; auto; intros; [apply H1|apply H2]; lia.
  - exists acc'. splits; auto. intros j Hj. destruct (H j Hj) as (v & Ev & H1 & _). exists v. split; auto.
Qed.

Lemma accumulate_ok width items z :
  (forall j, j < width -> R j [] z) ->
  (forall d i r j m, items = d ++ i :: r -> j < width -> R j d m -> exists x s, cell i j = Ok x /\ a_plus a m x = Ok s /\ R j (d ++ [i]) s) ->
  exists acc, for_each items (fun i acc => for_loop width 0 (fun j acc => x <- cell i j ;; add_to a acc j x) acc) (repeat z width) = Ok acc /\
    length acc = width /\ forall j, j < width -> exists v, nth_error acc j = Some v /\ R j items v.
Proof.
  intros Hz Hstep.
  assert (G : forall rest d acc, items = d ++ rest -> length acc = width ->
    (forall j, j < width -> exists v, nth_error acc j = Some v /\ R j d v) ->
    exists acc', for_each rest (fun i acc => for_loop width 0 (fun j acc => x <- cell i j ;; add_to a acc j x) acc) acc = Ok acc' /\
      length acc' = width /\ forall j, j < width -> exists v, nth_error acc' j = Some v /\ R j items v).
  { induction rest as [|i rest IH]; intros d acc Hd L H.
    - rewrite app_nil_r in Hd. subst d. exists acc. auto.
    - cbn [for_each]. destruct (add_row_ok width d i acc L H) as (acc' & E & L' & H').
      { intros j m Hj Hm. apply (Hstep d i rest j m Hd Hj Hm). }
      rewrite E. cbn [bind]. apply (IH (d ++ [i])); auto. rewrite <- app_assoc. exact Hd. }
  apply (G items []); auto using repeat_length. intros j Hj. exists z. split; auto. now apply nth_error_repeat.
Qed.
End Accumulate.

Lemma for_loop_seq {S} (body : nat -> S -> res S) : forall n first s, for_loop n first body s = for_each (seq first n) body s.
Proof.
  induction n as [|n IH]; intros first s; cbn [for_loop seq for_each]; auto.
  destruct (body first s); cbn [bind]; auto.
Qed.

Lemma for_each_ext {A S} (f g : A -> S -> res S) : forall l s, (forall x s, In x l -> f x s = g x s) -> for_each l f s = for_each l g s.
Proof.
  induction l as [|x l IH]; intros s H; cbn [for_each]; auto. rewrite H by (simpl; auto).
  destruct (g x s); cbn [bind]; auto. apply IH. intros; apply H; simpl; auto.
Qed.

Lemma div_all_ok {V} (a : arith V) l n (P : nat -> V -> Prop) :
  (forall j x, nth_error l j = Some x -> exists y, a_over a x n = Ok y /\ P j y) ->
  exists l', div_all a l n = Ok l' /\ length l' = length l /\ forall j, j < length l -> exists y, nth_error l' j = Some y /\ P j y.
Proof.
  intros H. unfold div_all. apply fill_inv. intros j Hj.
  destruct (nth_error l j) as [x|] eqn:E; [|apply nth_error_None in E; lia].
  rewrite (proj2 (rd_ok _ _ _) E). cbn [bind]. eauto.
Qed.

(** ** Sums *)
Lemma sum_q_app l r : (sum_q (l ++ r) == sum_q l + sum_q r)%Q.
Proof. induction l; simpl; [ring|]. rewrite IHl. ring. Qed.
Lemma sum_q_ext {A} (f g : A -> Q) l : (forall x, In x l -> f x == g x)%Q -> (sum_q (map f l) == sum_q (map g l))%Q.
Proof. induction l; intros H; simpl; [reflexivity|]. rewrite H by (simpl; auto). rewrite IHl; [reflexivity|]. intros; apply H; simpl; auto. Qed.
Lemma count_nonzero l : l <> [] -> ~ (count_q l == 0)%Q.
Proof. intros H E. destruct l as [|x l]; [congruence|]. unfold count_q in E. cbn [length] in E. rewrite Nat2Z.inj_succ in E. unfold Qeq in E. simpl in E. lia. Qed.
Lemma sum_const {A} (c : Q) (l : list A) : (sum_q (map (fun _ => c) l) == inject_Z (Z.of_nat (length l)) * c)%Q.
Proof.
  induction l as [|x l IH]; [simpl; ring|]. cbn [map sum_q fold_right length]. fold (sum_q (map (fun _ : A => c) l)). rewrite IH.
  rewrite Nat2Z.inj_succ. unfold Z.succ. rewrite inject_Z_plus. ring.
Qed.
Lemma size_pred_pos n : 2 <= n -> (Z.of_nat n <= 2 ^ 64)%Z -> size_pred n = (Z.of_nat n - 1)%Z /\ (0 < Z.of_nat n - 1)%Z.
Proof. intros H1 H2. unfold size_pred. rewrite Z.mod_small by lia. lia. Qed.
Lemma size_pred_one : size_pred 1 = 0%Z.
Proof. reflexivity. Qed.

(** ** Floating point *)
Notation fa := float_arith.

Section Float.
Context (qs : list Q).
Notation samples := (map Some qs).
Notation at_ k := (nth k qs 0%Q).

Lemma rd_float k : k < length qs -> rd samples k = Ok (Some (at_ k)).
Proof. intros H. apply rd_ok. rewrite nth_error_map, (nth_error_nth' qs k 0%Q) by auto. reflexivity. Qed.

(** Sums of cells. *)
Lemma sums_ok width items (cell : nat -> nat -> res (option Q)) (g : nat -> nat -> Q) :
  (forall i j, In i items -> j < width -> exists q, cell i j = Ok (Some q) /\ (q == g i j)%Q) ->
  exists acc, for_each items (fun i acc => for_loop width 0 (fun j acc => x <- cell i j ;; add_to fa acc j x) acc) (repeat (Some 0%Q) width) = Ok acc /\
    values_are width (fun j => sum_q (map (fun i => g i j) items)) acc.
Proof.
  intros Hc.
  destruct (accumulate_ok fa cell (fun j d v => exists q, v = Some q /\ (q == sum_q (map (fun i => g i j) d))%Q) width items (Some 0%Q))
    as (acc & E & L & H).
  - intros j Hj. exists 0%Q. split; auto. reflexivity.
  - intros d i r j m Hd Hj (q & -> & Hq). destruct (Hc i j) as (x & Ex & Hx); auto.
    { rewrite Hd, in_app_iff. simpl. auto. }
    exists (Some x), (Some (q + x)%Q). splits; auto. exists (q + x)%Q. split; auto.
    rewrite map_app, sum_q_app. simpl. rewrite Hq, Hx. ring.
  - exists acc. split; auto. split; auto. intros j Hj. destruct (H j Hj) as (v & Ev & q & -> & Hq). eauto.
Qed.

Lemma div_all_float width f l n :
  values_are width f l -> n <> 0%Z -> exists l', div_all fa l n = Ok l' /\ values_are width (fun j => f j / inject_Z n)%Q l'.
Proof.
  intros (L & H) Hn.
  destruct (div_all_ok fa l n (fun j y => exists q, y = Some q /\ (q == f j / inject_Z n)%Q)) as (l' & E & L' & H').
  - intros j x Ex. assert (Hj : j < width) by (rewrite <- L; apply nth_error_Some; congruence).
    destruct (H j Hj) as (q & Eq & Hq). rewrite Ex in Eq. injection Eq as ->. simpl.
    destruct (Z.eqb_spec n 0); [contradiction|]. eexists. split; [reflexivity|]. exists (q / inject_Z n)%Q. split; auto. now rewrite Hq.
  - exists l'. split; auto. split; [lia|]. intros j Hj. destruct (H' j) as (y & Ey & q & -> & Hq); [lia|]. eauto.
Qed.

Lemma values_ext width f g l : (forall j, j < width -> (f j == g j)%Q) -> values_are width f l -> values_are width g l.
Proof. intros H (L & Hv). split; auto. intros j Hj. destruct (Hv j Hj) as (q & E & Hq). exists q. split; auto. now rewrite Hq, H. Qed.

Context (nf : nat).

Lemma mean_ok indices : rows_exist qs nf indices -> indices <> [] ->
  exists l, compute_mean fa samples nf indices = Ok l /\ values_are nf (fun j => mean_q (column qs nf j indices)) l.
Proof.
  intros Hr Hne. unfold compute_mean.
  destruct (sums_ok nf indices (fun index j => rd samples (index * nf + j)) (fun i j => at_ (i * nf + j))) as (acc & E & H).
  { intros i j Hi Hj. exists (at_ (i * nf + j)). split; [|reflexivity]. apply rd_float. specialize (Hr i Hi). lia. }
  cbn [a_zero float_arith] in *. rewrite E. cbn [bind].
  destruct (div_all_float nf _ acc (Z.of_nat (length indices)) H) as (l & El & Hl).
  { destruct indices; [congruence|]. simpl. lia. }
  exists l. split; auto. eapply values_ext; [|exact Hl]. intros j Hj. unfold mean_q, column, count_q. rewrite map_length. reflexivity.
Qed.

Lemma mean_masked_ok mask indices : rows_exist qs nf indices -> indices <> [] -> Forall (fun f => f < nf) mask ->
  exists l, compute_mean_masked fa samples nf mask indices = Ok l /\
    values_are (length mask) (fun j => mean_q (column qs nf (nth j mask 0) indices)) l.
Proof.
  intros Hr Hne Hm. unfold compute_mean_masked. rewrite Forall_forall in Hm.
  destruct (sums_ok (length mask) indices (fun index j => f <- rd mask j ;; rd samples (index * nf + f)) (fun i j => at_ (i * nf + nth j mask 0))) as (acc & E & H).
  { intros i j Hi Hj. exists (at_ (i * nf + nth j mask 0)). split; [|reflexivity]. rewrite (proj2 (rd_ok _ _ _) (nth_error_nth' mask j 0 Hj)). cbn [bind].
    apply rd_float. specialize (Hr i Hi). specialize (Hm (nth j mask 0) (nth_In mask 0 Hj)). lia. }
  assert (Eq : for_each indices (fun index mean => for_loop (length mask) 0 (fun j mean => f <- rd mask j ;; x <- rd samples (index * nf + f) ;; add_to fa mean j x) mean)
     (repeat (a_zero fa) (length mask)) = Ok acc).
  { rewrite <- E. apply for_each_ext. intros i s Hi. rewrite !for_loop_seq. apply for_each_ext. intros j t Hj.
    apply in_seq in Hj. destruct (rd mask j); reflexivity. }
  rewrite Eq. cbn [bind].
  destruct (div_all_float (length mask) _ acc (Z.of_nat (length indices)) H) as (l & El & Hl).
  { destruct indices; [congruence|]. simpl. lia. }
  exists l. split; auto. eapply values_ext; [|exact Hl]. intros j Hj. unfold mean_q, column, count_q. rewrite map_length. reflexivity.
Qed.

Lemma squares_ok indices : rows_exist qs nf indices -> indices <> [] ->
  exists l, squares fa samples nf indices = Ok l /\ values_are nf (fun j => scatter (column qs nf j indices)) l.
Proof.
  intros Hr Hne. unfold squares. destruct (mean_ok indices Hr Hne) as (mean & Em & Lm & Hm). rewrite Em. cbn [bind].
  destruct (sums_ok nf indices (fun index j => x <- rd samples (index * nf + j) ;; m <- rd mean j ;; squared_deviation fa x m)
    (fun i j => (at_ (i * nf + j) - mean_q (column qs nf j indices)) * (at_ (i * nf + j) - mean_q (column qs nf j indices)))%Q) as (acc & E & H).
  { intros i j Hi Hj. rewrite rd_float by (specialize (Hr i Hi); lia). cbn [bind]. destruct (Hm j Hj) as (q & Eq & Hq).
    rewrite (proj2 (rd_ok _ _ _) Eq). cbn [bind]. eexists. split; [reflexivity|]. rewrite Hq. reflexivity. }
  exists acc. split.
  - rewrite <- E. apply for_each_ext. intros i s Hi. rewrite !for_loop_seq. apply for_each_ext. intros j t Hj.
    destruct (rd samples (i * nf + j)); cbn [bind]; auto. destruct (rd mean j); cbn [bind]; auto.
  - eapply values_ext; [|exact H]. intros j Hj. unfold scatter. set (c := mean_q (column qs nf j indices)). unfold column. rewrite map_map. reflexivity.
Qed.

Lemma squares_masked_ok mask first rest : let indices := first :: rest in
  rows_exist qs nf indices -> Forall (fun f => f < nf) mask ->
  exists l, squares_masked fa samples nf mask indices = Ok l /\
    values_are (length mask) (fun k => first_scatter (column qs nf (nth k mask 0) indices)) l.
Proof.
  intros indices Hr Hmask. unfold squares_masked. destruct (mean_masked_ok mask indices Hr ltac:(discriminate) Hmask) as (mean & Em & Lm & Hm).
  rewrite Em. cbn [bind]. rewrite Forall_forall in Hmask.
  destruct (sums_ok (length mask) indices (fun (_ : nat) j => f <- rd mask j ;; first <- rd indices 0 ;; x <- rd samples (first * nf + f) ;;
      m <- rd mean j ;; squared_deviation fa x m)
    (fun _ k => let l := column qs nf (nth k mask 0%nat) indices in (hd 0 l - mean_q l) * (hd 0 l - mean_q l))%Q) as (acc & E & H).
  { intros i j Hi Hj. rewrite (proj2 (rd_ok _ _ _) (nth_error_nth' mask j 0 Hj)). cbn [bind].
    rewrite (proj2 (rd_ok indices 0 first) eq_refl). cbn [bind].
    rewrite rd_float by (specialize (Hr first (or_introl eq_refl)); specialize (Hmask (nth j mask 0) (nth_In mask 0 Hj)); lia). cbn [bind].
    destruct (Hm j Hj) as (q & Eq & Hq).
    rewrite (proj2 (rd_ok _ _ _) Eq). cbn [bind]. eexists. split; [reflexivity|]. cbv zeta. rewrite Hq. reflexivity. }
  exists acc. split.
  - rewrite <- E. apply for_each_ext. intros i s Hi. rewrite !for_loop_seq. apply for_each_ext. intros j t Hj.
    destruct (rd mask j); cbn [bind]; auto. destruct (rd indices 0); cbn [bind]; auto.
    match goal with |- context [rd samples ?k] => destruct (rd samples k) end; cbn [bind]; auto. destruct (rd mean j); cbn [bind]; auto.
  - eapply values_ext; [|exact H]. intros j Hj. cbv zeta. rewrite sum_const. unfold first_scatter, count_q, column. rewrite map_length. reflexivity.
Qed.
End Float.

(** ** Extremal positions *)
Section Extremal.
Context {V : Type} (lt : V -> V -> bool) (key : V -> Q) (d : V) (full : list V).
Hypothesis Hlt : forall x y, In x full -> In y full -> lt x y = Qlt_bool (key x) (key y).
Notation f k := (key (nth k full d)).

Lemma max_from_first : forall l pre bi best, full = pre ++ l -> bi < length pre -> best = nth bi full d ->
  (forall k, k < length pre -> (f k <= f bi)%Q) -> (forall k, k < bi -> (f k < f bi)%Q) ->
  first_greatest (length full) (fun k => f k) (fst (max_element_from lt bi best (length pre) l)).
Proof using Hlt.
  induction l as [|x l IH]; intros pre bi best Hf Hbi Hb H1 H2; cbn [max_element_from].
  - rewrite app_nil_r in Hf. cbn [fst]. rewrite <- Hf in Hbi, H1. split; auto.
  - assert (Hx : x = nth (length pre) full d). { rewrite Hf, app_nth2, Nat.sub_diag by lia. reflexivity. }
    assert (Hlen : length pre < length full) by (rewrite Hf, app_length; simpl; lia).
    assert (Hf' : full = (pre ++ [x]) ++ l) by (rewrite <- app_assoc; exact Hf).
    rewrite Hlt. 2,3: rewrite ?Hb, ?Hx; apply nth_In; lia.
    replace (S (length pre)) with (length (pre ++ [x])) by (rewrite app_length; simpl; lia).
    destruct (Qlt_bool (key best) (key x)) eqn:El.
    + apply Qlt_bool_iff in El. rewrite Hb, Hx in El. apply IH; auto.
      * rewrite app_length. simpl. lia.
      * intros k Hk. rewrite app_length in Hk. simpl in Hk. destruct (Nat.eq_dec k (length pre)) as [-> |]; [lra|].
        specialize (H1 k ltac:(lia)). lra.
      * intros k Hk. specialize (H1 k Hk). lra.
    + apply Qlt_bool_false in El. rewrite Hb, Hx in El. apply IH; auto.
      * rewrite app_length. lia.
      * intros k Hk. rewrite app_length in Hk. simpl in Hk. destruct (Nat.eq_dec k (length pre)) as [-> |]; [lra|].
        apply H1. lia.
Qed.

Lemma max_first : full <> [] ->
  first_greatest (length full) (fun k => f k) (match full with [] => 0 | x :: l => fst (max_element_from lt 0 x 1 l) end).
Proof using Hlt.
  intros Hne. destruct full as [|x l] eqn:E; [congruence|]. rewrite <- E in *.
  apply (max_from_first l [x] 0 x); auto.
  - rewrite E. reflexivity.
  - intros k Hk. simpl in Hk. replace k with 0 by lia. lra.
  - lia.
Qed.
End Extremal.

Lemma first_greatest_ext n f g i : (forall j, j < n -> (f j == g j)%Q) -> first_greatest n f i -> first_greatest n g i.
Proof.
  intros H (Hi & H1 & H2). split; auto. split; intros j Hj.
  - rewrite <- !H by auto. auto.
  - rewrite <- !H by lia. auto.
Qed.

Lemma argmax_float width f l : values_are width f l -> 0 < width -> first_greatest width f (argmax float_arith l).
Proof.
  intros (L & H) Hw. unfold argmax. cbn [a_index a_lt float_arith].
  assert (In_some : forall x, In x l -> exists q, x = Some q).
  { intros x Hx. destruct (In_nth_error l x Hx) as (j & Ej). assert (Hj : j < width) by (rewrite <- L; apply nth_error_Some; congruence).
    destruct (H j Hj) as (q & Eq & _). exists q. congruence. }
  pose proof (max_first f_lt (fun x => match x with Some q => q | None => 0%Q end) None l) as M.
  rewrite L in M. eapply first_greatest_ext; [|apply M].
  - intros j Hj. destruct (H j Hj) as (q & Eq & Hq). rewrite (nth_error_nth l j None Eq). exact Hq.
  - intros x y Hx Hy. destruct (In_some x Hx) as (p & ->), (In_some y Hy) as (q & ->). reflexivity.
  - intros ->. simpl in L. lia.
Qed.

Lemma argmin_float width f l : values_are width f l -> 0 < width -> first_least width f (argmin float_arith l).
Proof.
  intros (L & H) Hw. unfold argmin. cbn [a_index a_lt float_arith].
  assert (In_some : forall x, In x l -> exists q, x = Some q).
  { intros x Hx. destruct (In_nth_error l x Hx) as (j & Ej). assert (Hj : j < width) by (rewrite <- L; apply nth_error_Some; congruence).
    destruct (H j Hj) as (q & Eq & _). exists q. congruence. }
  pose proof (max_first (fun x y => f_lt y x) (fun x => match x with Some q => - q | None => 0%Q end)%Q None l) as M.
  rewrite L in M. assert (G : first_greatest width (fun k => - f k)%Q (match l with [] => 0 | x :: l => fst (max_element_from (fun x y => f_lt y x) 0 x 1 l) end)).
  { eapply first_greatest_ext; [|apply M].
    - intros j Hj. destruct (H j Hj) as (q & Eq & Hq). rewrite (nth_error_nth l j None Eq). rewrite Hq. reflexivity.
    - intros x y Hx Hy. destruct (In_some x Hx) as (p & ->), (In_some y Hy) as (q & ->). simpl.
      destruct (Qlt_bool q p) eqn:E1, (Qlt_bool (- p) (- q)) eqn:E2; auto.
      + apply Qlt_bool_iff in E1. apply Qlt_bool_false in E2. lra.
      + apply Qlt_bool_iff in E2. apply Qlt_bool_false in E1. lra.
    - intros ->. simpl in L. lia. }
  destruct G as (G1 & G2 & G3). split; auto. split; intros j Hj; [specialize (G2 j Hj)|specialize (G3 j Hj)]; lra.
Qed.
