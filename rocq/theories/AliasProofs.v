(** Lemmas on the alias table of VosesAliasMethod.hpp. *)
From Coq Require Import List Arith ZArith QArith Qround Lia Bool Permutation Lqa.
From Verif Require Import Base MatrixProofs RandomModel RandomSpec RandomProofs.
Import ListNotations.
Local Open Scope nat_scope.
Set Default Proof Using "Type".

(** ** Sums *)
Fixpoint qsum (f : nat -> Q) (l : list nat) : Q := match l with [] => 0 | x :: l => f x + qsum f l end.

Lemma qsum_ext f g l : (forall x, In x l -> f x == g x)%Q -> (qsum f l == qsum g l)%Q.
Proof. induction l; simpl; intros H; [reflexivity|]. rewrite H, IHl by auto. reflexivity. Qed.
Lemma qsum_perm f l l' : Permutation l l' -> (qsum f l == qsum f l')%Q.
Proof. induction 1; simpl; try lra. Qed.
Lemma qsum_app f l l' : (qsum f (l ++ l') == qsum f l + qsum f l')%Q.
Proof. induction l; simpl; lra. Qed.
Lemma qsum_le f g l : (forall x, In x l -> f x <= g x)%Q -> (qsum f l <= qsum g l)%Q.
Proof. induction l; simpl; intros H; [lra|]. specialize (H a) as Ha. assert (qsum f l <= qsum g l)%Q by auto. specialize (Ha (or_introl eq_refl)). lra. Qed.
Lemma qsum_lt f g l : l <> [] -> (forall x, In x l -> f x < g x)%Q -> (qsum f l < qsum g l)%Q.
Proof.
  destruct l as [|a l]; [congruence|]. intros _ H. simpl. specialize (H a (or_introl eq_refl)) as Ha.
  assert (qsum f l <= qsum g l)%Q by (apply qsum_le; intros x Hx; apply Qlt_le_weak; apply H; simpl; auto). lra.
Qed.
Lemma qsum_const x l : (qsum (fun _ => x) l == inject_Z (Z.of_nat (length l)) * x)%Q.
Proof.
  induction l; cbn [qsum length]; [change (inject_Z (Z.of_nat 0)) with 0%Q; lra|]. rewrite IHl, Nat2Z.inj_succ. unfold Z.succ. rewrite inject_Z_plus. change (inject_Z 1) with 1%Q. ring.
Qed.
Lemma qsum_scale x f l : (qsum (fun i => f i * x) l == qsum f l * x)%Q.
Proof. induction l; simpl; [ring|]. rewrite IHl. ring. Qed.
Lemma qsum_single f g i l : NoDup l -> In i l -> (forall j, In j l -> j <> i -> f j == g j)%Q ->
  (qsum f l - f i == qsum g l - g i)%Q.
Proof.
  intros Hn Hi H. apply in_split in Hi. destruct Hi as (a & b & ->). apply NoDup_remove_2 in Hn.
  rewrite !qsum_app. simpl. rewrite (qsum_ext f g a), (qsum_ext f g b); [lra| |]; intros x Hx; apply H;
    try (apply in_or_app; simpl; auto); intros ->; apply Hn; apply in_or_app; auto.
Qed.
Lemma qsum_two f g s l L : NoDup L -> In s L -> In l L -> s <> l ->
  (forall j, In j L -> j <> s -> j <> l -> f j == g j)%Q -> (qsum f L - f s - f l == qsum g L - g s - g l)%Q.
Proof.
  intros Hn Hs Hl Hne H. set (h := fun j => if j =? s then g j else f j).
  assert (E1 : (qsum f L - f s == qsum h L - h s)%Q).
  { apply qsum_single; auto. intros j _ Hj. unfold h. destruct (Nat.eqb_spec j s); [congruence|reflexivity]. }
  assert (E2 : (qsum h L - h l == qsum g L - g l)%Q).
  { apply qsum_single; auto. intros j Hj Hj'. unfold h. destruct (Nat.eqb_spec j s) as [->|]; [reflexivity|]. auto. }
  unfold h in E1 at 2. unfold h in E2 at 2. rewrite Nat.eqb_refl in E1. destruct (Nat.eqb_spec l s); [congruence|]. lra.
Qed.

Lemma fold_qsum (w : list Q) : (fold_left Qplus w 0 == qsum (fun i => nth i w 0) (seq 0 (length w)))%Q.
Proof.
  assert (G : forall w acc, (fold_left Qplus w acc == acc + qsum (fun i => nth i w 0) (seq 0 (length w)))%Q).
  { clear w. induction w as [|x w IH] using rev_ind; intros acc; simpl; [lra|].
    rewrite fold_left_app, app_length. simpl. rewrite seq_app, qsum_app. simpl. rewrite IH.
    rewrite (qsum_ext (fun i => nth i (w ++ [x]) 0)%Q (fun i => nth i w 0)%Q).
    - rewrite app_nth2, Nat.sub_diag by lia. simpl. lra.
    - intros i Hi. apply in_seq in Hi. rewrite app_nth1 by lia. reflexivity. }
  rewrite G. lra.
Qed.

Lemma Qlt_bool_iff x y : Qlt_bool x y = true <-> (x < y)%Q.
Proof.
  unfold Qlt_bool. rewrite negb_true_iff. split.
  - intros H. apply Qnot_le_lt. intros Hle. apply Qle_bool_iff in Hle. congruence.
  - intros H. destruct (Qle_bool y x) eqn:E; auto. apply Qle_bool_iff in E. lra.
Qed.
Lemma Qlt_bool_false x y : Qlt_bool x y = false <-> (y <= x)%Q.
Proof.
  split.
  - intros H. apply Qnot_lt_le. intros Hlt. apply Qlt_bool_iff in Hlt. congruence.
  - intros H. destruct (Qlt_bool x y) eqn:E; auto. apply Qlt_bool_iff in E. lra.
Qed.

(** ** Arrays as functions *)
Definition rep {A} (n : nat) (l : list A) (f : nat -> A) : Prop := length l = n /\ forall i, i < n -> nth_error l i = Some (f i).
Definition set_at {A} (f : nat -> A) (i : nat) (x : A) (j : nat) : A := if j =? i then x else f j.

Lemma rep_rd {A} n (l : list A) f i : rep n l f -> i < n -> rd l i = Ok (f i).
Proof. intros (_ & H) Hi. apply rd_ok. auto. Qed.
Lemma rep_wr {A} n (l : list A) f i x : rep n l f -> i < n -> exists l', wr l i x = Ok l' /\ rep n l' (set_at f i x).
Proof.
  intros (H1 & H2) Hi. rewrite wr_lt by lia. eexists; split; [reflexivity|]. split; [now rewrite upd_length|].
  intros j Hj. unfold set_at. destruct (Nat.eqb_spec j i) as [->|Hn].
  - rewrite nth_error_upd_eq by lia. auto.
  - rewrite nth_error_upd_neq by auto. auto.
Qed.
Lemma rep_repeat {A} n (x : A) : rep n (repeat x n) (fun _ => x).
Proof. split; [apply repeat_length|]. intros i Hi. now apply nth_error_repeat. Qed.
Lemma rep_ext {A} n (l : list A) f g : rep n l f -> (forall i, i < n -> f i = g i) -> rep n l g.
Proof. intros (H1 & H2) H. split; auto. intros i Hi. rewrite H2, H; auto. Qed.

Section Alias.
Context (n : nat).

(** ** Distribution into the two stacks *)
Lemma distribute_ok fake g i small large : rep n fake (fun j => Some (g j)) -> i < n -> length small + length large < n ->
  exists small' large', distribute n fake i (small, large) = Ok (small', large') /\
    ((g i < 1)%Q /\ small' = i :: small /\ large' = large \/ (1 <= g i)%Q /\ small' = small /\ large' = i :: large).
Proof.
  intros Hf Hi Hl. unfold distribute. rewrite (rep_rd (A:=value) n _ _ i Hf Hi). cbn [bind v_lt]. unfold push.
  destruct (Qlt_bool (g i) 1) eqn:E.
  - apply Qlt_bool_iff in E. destruct (Nat.ltb_spec (length small) n); [|lia]. cbn [bind]. eexists _, _; split; [reflexivity|]; left; auto.
  - apply Qlt_bool_false in E. destruct (Nat.ltb_spec (length large) n); [|lia]. cbn [bind]. eexists _, _; split; [reflexivity|]; right; auto.
Qed.

Lemma distribute_all fake g : rep n fake (fun j => Some (g j)) ->
  exists small large, for_each (rev (seq 0 n)) (distribute n fake) ([], []) = Ok (small, large) /\
    Permutation (small ++ large) (seq 0 n) /\ (forall i, In i small -> g i < 1)%Q /\ (forall i, In i large -> 1 <= g i)%Q.
Proof.
  intros Hf.
  assert (G : forall m l s0 l0, m + length l = n -> (forall i, In i l -> i < n) -> length s0 + length l0 = m ->
    (forall i, In i s0 -> g i < 1)%Q -> (forall i, In i l0 -> 1 <= g i)%Q ->
    exists small large, for_each l (distribute n fake) (s0, l0) = Ok (small, large) /\
      Permutation (small ++ large) (l ++ s0 ++ l0) /\ (forall i, In i small -> g i < 1)%Q /\ (forall i, In i large -> 1 <= g i)%Q).
  { intros m l. revert m. induction l as [|x l IH]; intros m s0 l0 Hm Hin Hl Hs0 Hl0; cbn [for_each].
    - exists s0, l0. splits; auto.
    - simpl in Hm. destruct (distribute_ok fake g x s0 l0 Hf) as (s1 & l1 & E & HC); [apply Hin; simpl; auto|lia|].
      rewrite E. cbn [bind]. destruct HC as [(Hx & -> & ->)|(Hx & -> & ->)].
      + destruct (IH (S m) (x :: s0) l0) as (small & large & E' & HP & R); auto; try (simpl; lia).
        * intros; apply Hin; simpl; auto.
        * intros i [<-|Hi]; auto.
        * exists small, large. splits; auto; try apply R. rewrite HP. simpl. symmetry. apply Permutation_middle.
      + destruct (IH (S m) s0 (x :: l0)) as (small & large & E' & HP & R); auto; try (simpl; lia).
        * intros; apply Hin; simpl; auto.
        * intros i [<-|Hi]; auto.
        * exists small, large. splits; auto; try apply R. rewrite HP. simpl. rewrite !app_assoc. symmetry. apply Permutation_middle. }
  destruct (G 0 (rev (seq 0 n)) [] []) as (small & large & E & HP & R); simpl; auto; try (intros i []).
  - rewrite rev_length, seq_length. auto.
  - intros i Hi. apply in_rev, in_seq in Hi. lia.
  - exists small, large. splits; auto; try apply R. rewrite HP, app_nil_r. symmetry. apply Permutation_rev.
Qed.

(** ** The invariant *)
(** What column [j] gives to index [i], when its entries are [p j] and [al j]. *)
Definition column (p : nat -> Q) (al : nat -> nat) (i j : nat) : Q :=
  ((if j =? i then p j else 0) + (if al j =? i then 1 - p j else 0))%Q.
Definition mem (j : nat) (l : list nat) : bool := existsb (Nat.eqb j) l.
Definition contribution (g p : nat -> Q) (al : nat -> nat) (active : list nat) (i j : nat) : Q :=
  if mem j active then (if j =? i then g j else 0)%Q else column p al i j.

Lemma mem_true j l : mem j l = true <-> In j l.
Proof. unfold mem. rewrite existsb_exists. split; [intros (x & Hx & E); apply Nat.eqb_eq in E; now subst|intros H; exists j; split; auto; apply Nat.eqb_refl]. Qed.
Lemma mem_false j l : mem j l = false <-> ~ In j l.
Proof. rewrite <- mem_true. destruct (mem j l); split; intros; congruence. Qed.
Lemma mem_same j l l' : (In j l <-> In j l') -> mem j l = mem j l'.
Proof. intros H. destruct (mem j l) eqn:E, (mem j l') eqn:E'; auto; rewrite ?mem_true, ?mem_false in *; tauto. Qed.

Record vose (target : nat -> Q) (g p : nat -> Q) (al : nat -> nat) (small large : list nat) : Prop := mk_vose {
  v_mass : forall i, i < n -> (qsum (contribution g p al (small ++ large) i) (seq 0 n) == target i)%Q;
  v_total : (qsum g (small ++ large) == inject_Z (Z.of_nat (length (small ++ large))))%Q;
  v_small : forall i, In i small -> (0 <= g i < 1)%Q;
  v_large : forall i, In i large -> (1 <= g i)%Q;
  v_nodup : NoDup (small ++ large);
  v_in : forall i, In i (small ++ large) -> i < n;
  v_p : forall i, i < n -> (0 <= p i <= 1)%Q;
  v_al : forall i, i < n -> al i < n }.

Lemma vose_step target g p al s l small large small' large' g' :
  vose target g p al (s :: small) (l :: large) -> (forall j, g' j = set_at g l (g l + (g s - 1))%Q j) ->
  ((g' l < 1)%Q /\ small' = l :: small /\ large' = large \/ (1 <= g' l)%Q /\ small' = small /\ large' = l :: large) ->
  vose target g' (set_at p s (g s)) (set_at al s l) small' large'.
Proof.
  intros [Hmass Htot Hsm Hla Hnd Hin Hp Hal] Hg HC.
  assert (HP : Permutation ((s :: small) ++ l :: large) (s :: small' ++ large')).
  { simpl. apply perm_skip. destruct HC as [(_ & -> & ->)|(_ & -> & ->)]; auto.
    simpl. symmetry. apply Permutation_middle. }
  pose proof (Permutation_NoDup HP Hnd) as Hnd'. apply NoDup_cons_iff in Hnd'. destruct Hnd' as (Hs & Hnd').
  assert (Hl : In l (small' ++ large')).
  { destruct HC as [(_ & -> & ->)|(_ & -> & ->)]; simpl; auto. apply in_or_app. simpl. auto. }
  assert (Hne : s <> l) by (intros ->; auto).
  assert (Hgl : g' l = (g l + (g s - 1))%Q) by (rewrite Hg; unfold set_at; now rewrite Nat.eqb_refl).
  assert (Hgo : forall j, j <> l -> g' j = g j) by (intros j Hj; rewrite Hg; unfold set_at; destruct (Nat.eqb_spec j l); congruence).
  destruct (Hsm s ltac:(simpl; auto)) as (Hs0 & Hs1). pose proof (Hla l ltac:(simpl; auto)) as Hl1.
  assert (Hsn : s < n) by (apply Hin; simpl; auto). assert (Hln : l < n) by (apply Hin; apply in_or_app; simpl; auto).
  constructor.
  - intros i Hi. rewrite <- (Hmass i Hi).
    set (f' := contribution g' (set_at p s (g s)) (set_at al s l) (small' ++ large') i).
    set (f := contribution g p al ((s :: small) ++ l :: large) i).
    assert (E : (qsum f' (seq 0 n) - f' s - f' l == qsum f (seq 0 n) - f s - f l)%Q).
    { apply qsum_two; auto; try (apply in_seq; lia); [apply seq_NoDup|]. intros j _ Hjs Hjl. unfold f', f, contribution.
      rewrite (mem_same j (small' ++ large') ((s :: small) ++ l :: large)).
      2:{ split; intros H.
          - apply (Permutation_in j (Permutation_sym HP)). simpl. auto.
          - apply (Permutation_in j HP) in H. destruct H as [->|H]; [congruence|auto]. }
      destruct (mem j _); [rewrite Hgo by auto; reflexivity|]. unfold column, set_at. destruct (Nat.eqb_spec j s); [congruence|]. reflexivity. }
    assert (Ef's : (f' s == (if s =? i then g s else 0) + (if l =? i then 1 - g s else 0))%Q).
    { unfold f', contribution. rewrite (proj2 (mem_false s _) Hs). unfold column, set_at. rewrite Nat.eqb_refl. reflexivity. }
    assert (Ef'l : (f' l == if l =? i then g l + (g s - 1) else 0)%Q).
    { unfold f', contribution. rewrite (proj2 (mem_true l _) Hl). rewrite Hgl. reflexivity. }
    assert (Efs : (f s == if s =? i then g s else 0)%Q).
    { unfold f, contribution. rewrite (proj2 (mem_true s _)) by (simpl; auto). reflexivity. }
    assert (Efl : (f l == if l =? i then g l else 0)%Q).
    { unfold f, contribution. rewrite (proj2 (mem_true l _)) by (apply in_or_app; simpl; auto). reflexivity. }
    destruct (s =? i), (l =? i); lra.
  - rewrite (qsum_perm g _ _ HP), (Permutation_length HP) in Htot. cbn [qsum length] in Htot.
    rewrite Nat2Z.inj_succ in Htot. unfold Z.succ in Htot. rewrite inject_Z_plus in Htot. change (inject_Z 1) with 1%Q in Htot.
    assert (E : (qsum g' (small' ++ large') - g' l == qsum g (small' ++ large') - g l)%Q).
    { apply qsum_single; auto. intros j _ Hj. rewrite Hgo by auto. reflexivity. }
    rewrite Hgl in E. lra.
  - intros i Hi. destruct (Nat.eq_dec i l) as [->|Hil].
    + destruct HC as [(Hlt & -> & ->)|(Hge & -> & ->)]; [split; auto; rewrite Hgl; lra|].
      exfalso. apply NoDup_remove_2 in Hnd'. apply Hnd'. apply in_or_app. auto.
    + rewrite Hgo by auto. apply Hsm. destruct HC as [(_ & -> & _)|(_ & -> & _)]; simpl in *; [destruct Hi; [congruence|auto]|auto].
  - intros i Hi. destruct (Nat.eq_dec i l) as [->|Hil].
    + destruct HC as [(Hlt & -> & ->)|(Hge & -> & ->)]; auto. exfalso. simpl in Hnd'. apply NoDup_cons_iff in Hnd'. apply Hnd'. apply in_or_app. auto.
    + rewrite Hgo by auto. apply Hla. destruct HC as [(_ & _ & ->)|(_ & _ & ->)]; simpl in *; [auto|destruct Hi; [congruence|auto]].
  - auto.
  - intros i Hi. apply Hin. apply (Permutation_in i (Permutation_sym HP)). simpl. auto.
  - intros i Hi. unfold set_at. destruct (i =? s); [lra|]. auto.
  - intros i Hi. unfold set_at. destruct (i =? s); auto.
Qed.

Lemma pair_up_ok target : forall fuel fake g small large alias al probs p,
  length small + length large <= fuel -> length small + length large <= n ->
  rep n fake (fun j => Some (g j)) -> rep n alias al -> rep n probs (fun j => Some (p j)) ->
  vose target g p al small large ->
  exists small' large' alias' al' probs' p' g',
    pair_up fuel n fake small large alias probs = Ok (small', large', alias', probs') /\ (small' = [] \/ large' = []) /\
    rep n alias' al' /\ rep n probs' (fun j => Some (p' j)) /\ vose target g' p' al' small' large'.
Proof.
  induction fuel as [|fuel IH]; intros fake g small large alias al probs p Hfuel Hn Hf Ha Hp HV.
  - destruct small as [|s small]; [|simpl in Hfuel; lia]. exists [], large, alias, al, probs, p, g. splits; auto.
  - destruct small as [|s small]; [exists [], large, alias, al, probs, p, g; splits; auto|].
    destruct large as [|l large]; [exists (s :: small), [], alias, al, probs, p, g; splits; auto|].
    pose proof (v_in _ _ _ _ _ _ HV) as Hin.
    assert (Hs : s < n) by (apply Hin; simpl; auto). assert (Hl : l < n) by (apply Hin; apply in_or_app; simpl; auto).
    cbn [pair_up]. rewrite (rep_rd (A:=value) n fake _ s Hf Hs). cbn [bind].
    destruct (rep_wr (A:=value) n probs _ s (Some (g s)) Hp Hs) as (probs1 & -> & Hp1). cbn [bind].
    destruct (rep_wr n alias _ s l Ha Hs) as (alias1 & -> & Ha1). cbn [bind].
    rewrite (rep_rd (A:=value) n fake _ l Hf Hl). cbn [bind v_transfer].
    destruct (rep_wr (A:=value) n fake _ l (Some (g l + (g s - 1))%Q) Hf Hl) as (fake1 & -> & Hf1). cbn [bind].
    set (g1 := set_at g l (g l + (g s - 1))%Q).
    assert (Hf1' : rep n fake1 (fun j => Some (g1 j))).
    { apply (rep_ext _ _ _ _ Hf1). intros i _. unfold g1, set_at. now destruct (i =? l). }
    assert (Hp1' : rep n probs1 (fun j => Some (set_at p s (g s) j))).
    { apply (rep_ext _ _ _ _ Hp1). intros i _. unfold set_at. now destruct (i =? s). }
    destruct (distribute_ok fake1 g1 l small large Hf1' Hl) as (small1 & large1 & -> & HC); [simpl in *; lia|]. cbn [bind].
    apply (IH fake1 g1 small1 large1 alias1 (set_at al s l) probs1 (set_at p s (g s))); auto.
    + destruct HC as [(_ & -> & ->)|(_ & -> & ->)]; simpl in *; lia.
    + destruct HC as [(_ & -> & ->)|(_ & -> & ->)]; simpl in *; lia.
    + apply (vose_step target g p al s l small large); auto.
Qed.

(** The last two loops. *)
Lemma ones_ok : forall l (probs : list (option Q)) p, (forall i, In i l -> i < n) -> rep n probs (fun j => Some (p j)) ->
  exists probs', for_each l (fun i (p : list (option Q)) => wr p i (Some 1%Q)) probs = Ok probs' /\ rep n probs' (fun j => Some (if mem j l then 1%Q else p j)).
Proof.
  induction l as [|x l IH]; intros probs p Hin Hp; cbn [for_each].
  - exists probs. split; auto.
  - destruct (rep_wr (A:=option Q) n probs _ x (Some 1%Q) Hp (Hin x ltac:(simpl; auto))) as (probs1 & -> & Hp1). cbn [bind].
    destruct (IH probs1 (set_at p x 1%Q)) as (probs' & E & H).
    + intros; apply Hin; simpl; auto.
    + apply (rep_ext _ _ _ _ Hp1). intros i _. unfold set_at. now destruct (i =? x).
    + exists probs'. split; auto. apply (rep_ext _ _ _ _ H). intros i _. unfold set_at, mem. cbn [existsb].
      destruct (i =? x), (existsb (Nat.eqb i) l); auto.
Qed.

(** What a finished table satisfies. *)
Record table_ok (target : nat -> Q) (t : alias_table) (p : nat -> Q) (al : nat -> nat) : Prop := mk_table_ok {
  t_n : n_weights t = n;
  t_p : rep n (probabilities t) (fun j => Some (p j));
  t_al : rep n (alias t) al;
  t_p1 : forall i, i < n -> (0 <= p i <= 1)%Q;
  t_al1 : forall i, i < n -> al i < n;
  t_mass : forall i, i < n -> (qsum (column p al i) (seq 0 n) == target i)%Q }.

Lemma vose_end target g p al small large : vose target g p al small large -> small = [] \/ large = [] ->
  small = [] /\ forall i, In i large -> (g i == 1)%Q.
Proof.
  intros HV Hor.
  assert (Hsm : small = []).
  { destruct small as [|s small]; auto. destruct Hor as [Hor|Hor]; [discriminate|subst large]. exfalso.
    pose proof (v_total _ _ _ _ _ _ HV) as Ht. rewrite app_nil_r in Ht.
    pose proof (qsum_lt g (fun _ => 1%Q) (s :: small) ltac:(congruence) (fun i Hi => proj2 (v_small _ _ _ _ _ _ HV i Hi))) as Hlt.
    rewrite qsum_const in Hlt. lra. }
  subst small. split; auto. intros i Hi. pose proof (v_total _ _ _ _ _ _ HV) as Ht. simpl in Ht.
  pose proof (v_large _ _ _ _ _ _ HV) as Hl.
  destruct (Qlt_le_dec 1 (g i)) as [Hgt|Hle]; [|specialize (Hl i Hi); lra].
  exfalso. apply in_split in Hi. destruct Hi as (a & b & ->). rewrite qsum_app, app_length in Ht. cbn [qsum length] in Ht.
  assert (Ha : (qsum (fun _ => 1) a <= qsum g a)%Q) by (apply qsum_le; intros; apply Hl; apply in_or_app; auto).
  assert (Hb : (qsum (fun _ => 1) b <= qsum g b)%Q) by (apply qsum_le; intros; apply Hl; apply in_or_app; simpl; auto).
  rewrite qsum_const in Ha, Hb. rewrite Nat2Z.inj_add, Nat2Z.inj_succ in Ht. unfold Z.succ in Ht. rewrite !inject_Z_plus in Ht.
  change (inject_Z 1) with 1%Q in Ht. lra.
Qed.
End Alias.

Lemma make_table_ok (w : list Q) : w <> [] -> (forall x, In x w -> 0 <= x)%Q -> ~ (fold_left Qplus w 0 == 0)%Q ->
  exists t p al, make_alias_table w = Ok t /\
    table_ok (length w) (fun i => nth i w 0 * (inject_Z (Z.of_nat (length w)) / fold_left Qplus w 0))%Q t p al.
Proof.
  intros Hne Hw Hsum. unfold make_alias_table. set (n := length w). set (s := fold_left Qplus w 0%Q) in *.
  set (target := fun i => (nth i w 0 * (inject_Z (Z.of_nat n) / s))%Q).
  assert (Hn : 0 < n) by (unfold n; destruct w; [congruence|simpl; lia]).
  assert (Hs : (0 < s)%Q).
  { assert (H0 : (0 <= s)%Q).
    { unfold s. rewrite fold_qsum. rewrite <- (qsum_const 0 (seq 0 (length w))) at 1 || idtac.
      assert (E : (qsum (fun _ => 0) (seq 0 (length w)) <= qsum (fun i => nth i w 0) (seq 0 (length w)))%Q).
      { apply qsum_le. intros i Hi. apply in_seq in Hi. apply Hw. apply nth_In. lia. }
      rewrite qsum_const in E. lra. }
    lra. }
  destruct (Nat.eqb_spec n 0); [lia|].
  assert (Hpos : (0 < inject_Z (Z.of_nat n) / s)%Q).
  { apply Qlt_shift_div_l; auto. rewrite Qmult_0_l. change 0%Q with (inject_Z 0). rewrite <- Zlt_Qlt. lia. }
  assert (Hf : rep n (normalize w) (fun j => Some (target j))).
  { unfold normalize. fold s n. split; [now rewrite map_length|]. intros i Hi. rewrite nth_error_map, (nth_error_nth' w i 0%Q) by auto. simpl.
    destruct (Qeq_bool s 0) eqn:E; [apply Qeq_bool_iff in E; lra|]. reflexivity. }
  destruct (distribute_all n _ _ Hf) as (small & large & -> & HP & Hsm & Hla). cbn [bind].
  assert (HL : length small + length large = n) by (rewrite <- app_length, (Permutation_length HP); apply seq_length).
  assert (Ht0 : forall i, i < n -> (0 <= target i)%Q).
  { intros i Hi. unfold target. apply Qmult_le_0_compat; [apply Hw; apply nth_In; auto|lra]. }
  assert (HV : vose n target target (fun _ => 0%Q) (fun _ => 0) small large).
  { constructor.
    - intros i Hi. assert (E : (qsum (contribution target (fun _ => 0%Q) (fun _ => 0%nat) (small ++ large) i) (seq 0 n) ==
        qsum (fun j => if j =? i then target j else 0) (seq 0 n))%Q).
      { apply qsum_ext. intros j Hj. unfold contribution. rewrite (proj2 (mem_true j _)); [reflexivity|].
        apply (Permutation_in j (Permutation_sym HP)); auto. }
      rewrite E. pose proof (qsum_single (fun j => if j =? i then target j else 0)%Q (fun _ => 0)%Q i (seq 0 n) (seq_NoDup _ _)) as F.
      rewrite qsum_const, Nat.eqb_refl in F. rewrite <- (Qplus_0_r (target i)).
      assert (F' : (qsum (fun j => if j =? i then target j else 0) (seq 0 n) - target i == inject_Z (Z.of_nat (length (seq 0 n))) * 0 - 0)%Q).
      { apply F; [apply in_seq; lia|]. intros j _ Hj. destruct (Nat.eqb_spec j i); [congruence|reflexivity]. }
      lra.
    - rewrite (qsum_perm _ _ _ HP), (Permutation_length HP), seq_length. unfold target.
      rewrite (qsum_scale (inject_Z (Z.of_nat n) / s)%Q (fun i => nth i w 0)%Q). unfold n at 1. rewrite <- fold_qsum. fold s. field. lra.
    - intros i Hi. split; auto. apply Ht0. assert (Hin : In i (seq 0 n)) by (apply (Permutation_in i HP); apply in_or_app; auto).
      apply in_seq in Hin. lia.
    - auto.
    - apply (Permutation_NoDup (Permutation_sym HP)). apply seq_NoDup.
    - intros i Hi. apply (Permutation_in i HP) in Hi. apply in_seq in Hi. lia.
    - intros. lra.
    - auto. }
  destruct (pair_up_ok n target n (normalize w) target small large (repeat 0 n) (fun _ => 0) (repeat (Some 0%Q) n) (fun _ => 0%Q))
    as (small' & large' & alias' & al & probs & p & g & -> & Hor & Ha & Hp & HV'); auto; try lia; try apply rep_repeat.
  cbn [bind]. destruct (vose_end n _ _ _ _ _ _ HV' Hor) as (-> & H1).
  assert (Hin : forall i, In i large' -> i < n) by (intros i Hi; apply (v_in _ _ _ _ _ _ _ HV'); auto).
  destruct (ones_ok n large' probs p Hin Hp) as (probs' & -> & Hp'). cbn [bind for_each].
  eexists. exists (fun j => if mem j large' then 1%Q else p j), al. split; [reflexivity|]. constructor; auto.
  - intros i Hi. destruct (mem i large'); [lra|]. apply (v_p _ _ _ _ _ _ _ HV' i Hi).
  - apply (v_al _ _ _ _ _ _ _ HV').
  - intros i Hi. fold n. rewrite <- (v_mass _ _ _ _ _ _ _ HV' i Hi). simpl app. apply qsum_ext. intros j Hj. unfold contribution, column.
    destruct (mem j large') eqn:E; [|reflexivity]. apply mem_true in E. specialize (H1 j E). destruct (j =? i), (al j =? i); lra.
Qed.

(** All weights zero. *)
Lemma make_table_zero (w : list Q) : w <> [] -> (fold_left Qplus w 0 == 0)%Q ->
  exists t, make_alias_table w = Ok t /\ n_weights t = length w /\ rep (length w) (probabilities t) (fun _ => Some 1%Q).
Proof.
  intros Hne Hs. unfold make_alias_table. set (n := length w).
  assert (Hn : 0 < n) by (unfold n; destruct w; [congruence|simpl; lia]). destruct (Nat.eqb_spec n 0); [lia|].
  assert (Hf : rep n (normalize w) (fun _ => None)).
  { unfold normalize. split; [now rewrite map_length|]. intros i Hi. rewrite nth_error_map, (nth_error_nth' w i 0%Q) by auto. simpl.
    now rewrite (proj2 (Qeq_bool_iff _ _) Hs). }
  assert (G : forall l l0, length l + length l0 = n -> (forall i, In i l -> i < n) ->
    for_each l (distribute n (normalize w)) ([], l0) = Ok ([], rev l ++ l0)).
  { induction l as [|x l IH]; intros l0 Hl Hin; cbn [for_each]; auto. unfold distribute at 1.
    rewrite (rep_rd (A:=value) n _ _ x Hf) by (apply Hin; simpl; auto). cbn [bind v_lt]. unfold push. simpl in Hl.
    destruct (Nat.ltb_spec (length l0) n); [|lia]. cbn [bind]. rewrite IH by (simpl; auto; try lia; intros; apply Hin; simpl; auto).
    simpl. now rewrite <- app_assoc. }
  rewrite G by (simpl; rewrite ?rev_length, ?seq_length; auto; intros i Hi; apply in_rev, in_seq in Hi; lia).
  cbn [bind]. rewrite rev_involutive, app_nil_r.
  assert (E : pair_up n n (normalize w) [] (seq 0 n) (repeat 0 n) (repeat (Some 0%Q) n) = Ok ([], seq 0 n, repeat 0 n, repeat (Some 0%Q) n))
    by (destruct n; reflexivity).
  rewrite E. cbn [bind].
  destruct (ones_ok n (seq 0 n) (repeat (Some 0%Q) n) (fun _ => 0%Q)) as (probs & -> & Hp); [intros i Hi; apply in_seq in Hi; lia|apply rep_repeat|].
  cbn [bind for_each]. eexists; splits; [reflexivity|auto|]. simpl. apply (rep_ext _ _ _ _ Hp). intros i Hi.
  rewrite (proj2 (mem_true i _)); auto. apply in_seq. lia.
Qed.

(** ** Sampling *)
Notation QN x := (inject_Z (Z.of_nat x)).

Lemma QN_pos x : 0 < x -> (0 < QN x)%Q.
Proof. intros H. change 0%Q with (inject_Z 0). rewrite <- Zlt_Qlt. lia. Qed.
Lemma QN_add x y : (QN (x + y) == QN x + QN y)%Q.
Proof. rewrite Nat2Z.inj_add, inject_Z_plus. reflexivity. Qed.
Lemma QN_mul x y : (QN (x * y) == QN x * QN y)%Q.
Proof. rewrite Nat2Z.inj_mul, inject_Z_mult. reflexivity. Qed.
Lemma QN_lt x y : (QN x < QN y)%Q <-> x < y.
Proof. rewrite <- Zlt_Qlt. lia. Qed.
Lemma QN_le x y : (QN x <= QN y)%Q <-> x <= y.
Proof. rewrite <- Zle_Qle. lia. Qed.

Lemma in_part_floor m j x : 0 < m -> in_part m j x -> Z.to_nat (Qfloor (QN m * x)) = j.
Proof.
  intros Hm (H1 & H2). pose proof (QN_pos m Hm) as Hp.
  assert (E1 : (QN j <= QN m * x)%Q).
  { apply Qle_trans with (QN m * (QN j / QN m))%Q; [apply Qle_lteq; right; field; lra|].
    rewrite !(Qmult_comm (QN m)). apply Qmult_le_compat_r; [auto|lra]. }
  assert (E2 : (QN m * x < QN (S j))%Q).
  { apply Qlt_le_trans with (QN m * (QN (S j) / QN m))%Q; [|apply Qle_lteq; right; field; lra].
    rewrite !(Qmult_comm (QN m)). apply Qmult_lt_compat_r; auto. }
  apply Qfloor_resp_le in E1. rewrite Qfloor_Z in E1.
  assert (E3 : (Qfloor (QN m * x) < Z.of_nat (S j))%Z).
  { rewrite Zlt_Qlt. apply Qle_lt_trans with (QN m * x)%Q; [apply Qfloor_le|exact E2]. }
  lia.
Qed.

(** A common denominator. *)
Lemma common_denominator (p : nat -> Q) n : (forall i, i < n -> (0 <= p i <= 1)%Q) ->
  exists m a, 0 < m /\ forall i, i < n -> a i <= m /\ (p i * QN m == QN (a i))%Q.
Proof.
  induction n as [|n IH]; intros H.
  - exists 1, (fun _ => 0). split; [lia|]. intros; lia.
  - destruct IH as (m & a & Hm & Ha); [intros; apply H; lia|].
    destruct (H n ltac:(lia)) as (H0 & H1). set (q := p n) in *.
    assert (Hz : (0 <= Qnum q <= Z.pos (Qden q))%Z).
    { destruct q as (x, y). unfold Qle in *. simpl in *. lia. }
    exists (m * Pos.to_nat (Qden q)), (fun i => if i =? n then m * Z.to_nat (Qnum q) else a i * Pos.to_nat (Qden q)).
    split; [pose proof (Pos2Nat.is_pos (Qden q)); nia|]. intros i Hi. destruct (Nat.eqb_spec i n) as [->|Hne].
    + split; [apply Nat.mul_le_mono_l; lia|]. fold q. rewrite !QN_mul, Z2Nat.id, positive_nat_Z by lia.
      destruct q as (x, y). simpl. rewrite (Qmake_Qdiv x y). field. change (inject_Z (Z.pos y)) with (Z.pos y # 1)%Q.
      intros E. discriminate E.
    + destruct (Ha i ltac:(lia)) as (Ha1 & Ha2). split; [apply Nat.mul_le_mono_r; auto|]. rewrite !QN_mul.
      rewrite Qmult_assoc, Ha2. reflexivity.
Qed.

Lemma count_prod f (l1 l2 : list nat) :
  (QN (length (filter f (list_prod l1 l2))) == qsum (fun c => QN (length (filter (fun b => f (c, b)) l2))) l1)%Q.
Proof.
  induction l1 as [|c l1 IH]; simpl; [reflexivity|]. rewrite filter_app, app_length, QN_add, IH.
  assert (E : length (filter f (map (fun y => (c, y)) l2)) = length (filter (fun b => f (c, b)) l2)).
  { clear. induction l2; simpl; auto. destruct (f (c, a)); simpl; auto. }
  rewrite E. reflexivity.
Qed.

Lemma count_below a m : a <= m -> length (filter (fun b => b <? a) (seq 0 m)) = a /\
  length (filter (fun b => negb (b <? a)) (seq 0 m)) = m - a.
Proof.
  intros H. induction m as [|m IH].
  - replace a with 0 by lia. auto.
  - rewrite seq_S, !filter_app, !app_length, Nat.add_0_l. cbn [filter]. destruct (Nat.ltb_spec m a); cbn [negb length].
    + assert (E : forall f, (forall b, b < m -> f b = true) -> filter f (seq 0 m) = seq 0 m).
      { clear. intros f Hf. assert (G : forall l, (forall b, In b l -> b < m) -> filter f l = l).
        { induction l; simpl; intros Hl; auto. rewrite Hf by auto. f_equal. auto. }
        apply G. intros b Hb. apply in_seq in Hb. lia. }
      assert (E' : forall f, (forall b, b < m -> f b = false) -> filter f (seq 0 m) = []).
      { clear. intros f Hf. assert (G : forall l, (forall b, In b l -> b < m) -> filter f l = []).
        { induction l; simpl; intros Hl; auto. rewrite Hf by auto. auto. }
        apply G. intros b Hb. apply in_seq in Hb. lia. }
      rewrite E, E', seq_length. 1: cbn [length app]; lia.
      * intros b Hb. apply negb_false_iff. apply Nat.ltb_lt. lia.
      * intros b Hb. apply Nat.ltb_lt. lia.
    + destruct IH as (-> & ->); lia.
Qed.

Lemma filter_ext_length {A} (f g : A -> bool) l : (forall x, f x = g x) -> length (filter f l) = length (filter g l).
Proof. intros H. now rewrite (filter_ext f g). Qed.

Section Sampling.
Context (w : list Q) (t : alias_table) (target : nat -> Q) (p : nat -> Q) (al : nat -> nat).
Notation n := (length w).
Context (Ht : table_ok n target t p al).

Lemma sample_ok u v c : c < n -> in_part n c u -> alias_sample t u v = Ok (if Qlt_bool v (p c) then c else al c).
Proof using Ht.
  intros Hc Hu. unfold alias_sample. rewrite (t_n _ _ _ _ _ Ht), in_part_floor with (j := c) by (auto; lia).
  rewrite (rep_rd (A:=value) n _ _ c (t_p _ _ _ _ _ Ht) Hc). cbn [bind]. destruct (Qlt_bool v (p c)); auto.
  apply (rep_rd n _ _ c (t_al _ _ _ _ _ Ht) Hc).
Qed.

Lemma sample_cells : exists m f, 0 < m /\
  (forall c b u v, c < n -> b < m -> in_part n c u -> in_part m b v -> alias_sample t u v = Ok (f c b)) /\
  (forall c b, c < n -> b < m -> f c b < n) /\
  forall i, i < n -> (QN (hits f n m i) == QN m * target i)%Q.
Proof using Ht.
  destruct (common_denominator p n (t_p1 _ _ _ _ _ Ht)) as (m & a & Hm & Ha). pose proof (QN_pos m Hm) as Hmq.
  exists m, (fun c b => if b <? a c then c else al c). split; auto. splits.
  - intros c b u v Hc Hb Hu (Hv1 & Hv2). rewrite (sample_ok u v c Hc Hu). destruct (Ha c Hc) as (Ha1 & Ha2).
    assert (Hp : (p c == QN (a c) / QN m)%Q) by (rewrite <- Ha2; field; lra).
    destruct (Nat.ltb_spec b (a c)) as [Hba|Hba].
    + rewrite (proj2 (Qlt_bool_iff _ _)); auto. rewrite Hp. apply Qlt_le_trans with (QN (S b) / QN m)%Q; auto.
      apply Qle_shift_div_l; auto. apply Qle_trans with (QN (S b)); [apply Qle_lteq; right; field; lra|]. apply QN_le. lia.
    + rewrite (proj2 (Qlt_bool_false _ _)); auto. rewrite Hp. apply Qle_trans with (QN b / QN m)%Q; auto.
      apply Qle_shift_div_l; auto. apply Qle_trans with (QN (a c)); [apply Qle_lteq; right; field; lra|]. apply QN_le. lia.
  - intros c b Hc Hb. destruct (b <? a c); auto. apply (t_al1 _ _ _ _ _ Ht c Hc).
  - intros i Hi. unfold hits. rewrite count_prod. rewrite <- (t_mass _ _ _ _ _ Ht i Hi), Qmult_comm, <- qsum_scale.
    apply qsum_ext. intros c Hc. apply in_seq in Hc. cbn [fst snd]. destruct (Ha c ltac:(lia)) as (Ha1 & Ha2).
    destruct (count_below (a c) m Ha1) as (C1 & C2). unfold column.
    destruct (Nat.eqb_spec c i) as [Eci|Eci], (Nat.eqb_spec (al c) i) as [Eai|Eai].
    + rewrite (filter_ext_length _ (fun _ => true)).
      * assert (E : filter (fun _ : nat => true) (seq 0 m) = seq 0 m) by (clear; induction (seq 0 m); simpl; congruence).
        rewrite E, seq_length. ring.
      * intros b. destruct (b <? a c); apply Nat.eqb_eq; auto.
    + rewrite (filter_ext_length _ (fun b => b <? a c)), C1, <- Ha2 by
        (intros b; destruct (b <? a c); [apply Nat.eqb_eq|apply Nat.eqb_neq]; auto). ring.
    + rewrite (filter_ext_length _ (fun b => negb (b <? a c))), C2 by
        (intros b; destruct (b <? a c); simpl; [apply Nat.eqb_neq|apply Nat.eqb_eq]; auto).
      rewrite Nat2Z.inj_sub by auto. unfold Zminus. rewrite inject_Z_plus, inject_Z_opp, <- Ha2. ring.
    + rewrite (filter_ext_length _ (fun _ => false)) by (intros b; destruct (b <? a c); apply Nat.eqb_neq; auto).
      assert (E : filter (fun _ : nat => false) (seq 0 m) = []) by (clear; induction (seq 0 m); simpl; auto).
      rewrite E. simpl. ring.
Qed.
End Sampling.

Lemma unit_part m x : 0 < m -> (0 <= x < 1)%Q -> exists j, j < m /\ in_part m j x.
Proof.
  intros Hm (H0 & H1). pose proof (QN_pos m Hm) as Hp. exists (Z.to_nat (Qfloor (QN m * x))).
  assert (F0 : (0 <= Qfloor (QN m * x))%Z).
  { change 0%Z with (Qfloor 0). apply Qfloor_resp_le. apply Qmult_le_0_compat; lra. }
  assert (F1 : (Qfloor (QN m * x) < Z.of_nat m)%Z).
  { rewrite Zlt_Qlt. apply Qle_lt_trans with (QN m * x)%Q; [apply Qfloor_le|]. rewrite <- (Qmult_1_r (QN m)) at 2.
    rewrite !(Qmult_comm (QN m)). apply Qmult_lt_compat_r; auto. }
  split; [lia|]. unfold in_part. rewrite Nat2Z.inj_succ, Z2Nat.id by auto. split.
  - apply Qle_shift_div_r; auto. rewrite Qmult_comm. apply Qfloor_le.
  - apply Qlt_shift_div_l; auto. rewrite Qmult_comm. unfold Z.succ. apply Qlt_floor.
Qed.

(** A sampled index has a positive weight. *)
Lemma sample_positive (w : list Q) t u v : w <> [] -> (forall x, In x w -> 0 <= x)%Q -> ~ (fold_left Qplus w 0 == 0)%Q ->
  make_alias_table w = Ok t -> (0 <= u < 1)%Q -> (0 <= v < 1)%Q ->
  exists i, alias_sample t u v = Ok i /\ i < length w /\ (0 < nth i w 0)%Q.
Proof.
  intros Hne Hw Hs E Hu Hv. destruct (make_table_ok w Hne Hw Hs) as (t' & p & al & E' & Ht). rewrite E in E'. injection E' as <-.
  set (target := fun i => (nth i w 0 * (inject_Z (Z.of_nat (length w)) / fold_left Qplus w 0))%Q) in *.
  destruct (sample_cells w t target p al Ht) as (m & f & Hm & Hf & Hr & Hh).
  assert (Hn : 0 < length w) by (destruct w; [congruence|simpl; lia]).
  destruct (unit_part (length w) u Hn Hu) as (c & Hc & Hcu). destruct (unit_part m v Hm Hv) as (b & Hb & Hbv).
  exists (f c b). rewrite (Hf c b u v) by auto. splits; auto.
  assert (Hpos : (0 < QN (hits f (length w) m (f c b)))%Q).
  { apply QN_pos. unfold hits.
    assert (Hin : In (c, b) (filter (fun cell => f (fst cell) (snd cell) =? f c b) (list_prod (seq 0 (length w)) (seq 0 m)))).
    { apply filter_In. split; [|apply Nat.eqb_refl]. apply in_prod; apply in_seq; lia. }
    destruct (filter _ _); [destruct Hin|simpl; lia]. }
  rewrite Hh in Hpos by auto. unfold target in Hpos.
  assert (H0 : (0 <= nth (f c b) w 0)%Q) by (apply Hw, nth_In; auto).
  destruct (Qlt_le_dec 0%Q (nth (f c b) w 0%Q)) as [|Hle]; auto. exfalso.
  assert (Ez : (nth (f c b) w 0 == 0)%Q) by lra. rewrite Ez, Qmult_0_l, Qmult_0_r in Hpos. lra.
Qed.

Lemma sample_zero (w : list Q) t u v c : w <> [] -> (fold_left Qplus w 0 == 0)%Q -> make_alias_table w = Ok t ->
  c < length w -> in_part (length w) c u -> (0 <= v < 1)%Q -> alias_sample t u v = Ok c.
Proof.
  intros Hne Hs E Hc Hu Hv. destruct (make_table_zero w Hne Hs) as (t' & E' & Hn & Hp). rewrite E in E'. injection E' as <-.
  unfold alias_sample. rewrite Hn, in_part_floor with (j := c) by (auto; lia).
  rewrite (rep_rd (A:=value) (length w) _ _ c Hp Hc). cbn [bind]. rewrite (proj2 (Qlt_bool_iff _ _)) by lra. reflexivity.
Qed.
