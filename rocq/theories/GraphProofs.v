(** Lemmas on linked vertices: exchange, independence, lightest cuts. *)
From Coq Require Import List Arith Lia Bool Permutation Relations.
From Verif Require Import Base UnionFindModel UnionFindSpec UnionFindProofs BufferSpec BufferProofs GraphSpec.
Import ListNotations.

Lemma linked_sym X i j : linked X i j -> linked X j i.
Proof. intros. now apply rst_sym. Qed.
Lemma linked_trans X i j k : linked X i j -> linked X j k -> linked X i k.
Proof. intros. eapply rst_trans; eauto. Qed.
Lemma linked_in X i j : In (i, j) X -> linked X i j.
Proof. intros. now apply rst_step. Qed.

Lemma linked_cons X a b i j : linked ((a, b) :: X) i j ->
  linked X i j \/ (linked X i a /\ linked X b j) \/ (linked X i b /\ linked X a j).
Proof.
  induction 1 as [x y H|x|x y H IH|x y z H IH H' IH'].
  - destruct H as [E|H].
    + inversion E; subst. right; left. split; apply rst_refl.
    + left. now apply rst_step.
  - left. apply rst_refl.
  - destruct IH as [IH|[[I1 I2]|[I1 I2]]]; [left; now apply linked_sym|right; right|right; left];
      split; now apply linked_sym.
  - destruct IH as [IH|[[I1 I2]|[I1 I2]]], IH' as [J|[[J1 J2]|[J1 J2]]];
      eauto 6 using linked_trans, linked_sym.
Qed.

Lemma linked_app_in X Y i j : linked (X ++ Y) i j ->
  (forall a b, In (a, b) Y -> linked X a b) -> linked X i j.
Proof.
  intros H HY. induction H.
  - apply in_app_or in H as [H|H]; auto using linked_in.
  - apply rst_refl.
  - now apply linked_sym.
  - eapply linked_trans; eauto.
Qed.

Lemma linked_sub X Y i j : linked X i j -> (forall a b, In (a, b) X -> linked Y a b) -> linked Y i j.
Proof. intros H HY. induction H; eauto using linked_sym, linked_trans, rst_refl. apply rst_refl. Qed.

(** Exchange: if adding [f] links the ends of [e], adding [e] links the ends of [f]. *)
Lemma linked_exchange X a b c d :
  linked ((c, d) :: X) a b -> ~ linked X a b -> linked ((a, b) :: X) c d.
Proof.
  intros H Hn. assert (M : forall x y, linked X x y -> linked ((a, b) :: X) x y).
  { intros x y. apply linked_mono. intros; right; auto. }
  assert (Hab : linked ((a, b) :: X) a b) by (apply linked_in; left; auto).
  apply linked_cons in H as [H|[[H1 H2]|[H1 H2]]]; [contradiction| |].
  - eapply linked_trans; [apply linked_sym, M, H1|]. eapply linked_trans; [exact Hab|]. apply linked_sym. auto.
  - apply linked_sym. eapply linked_trans; [apply linked_sym, M, H1|]. eapply linked_trans; [exact Hab|]. apply linked_sym. auto.
Qed.

(** Each edge joins vertices not yet linked by [R] and the edges before it. *)
Fixpoint indep (R : list (nat * nat)) (E : list (nat * nat)) : Prop :=
  match E with
  | [] => True
  | (a, b) :: E' => ~ linked R a b /\ indep ((a, b) :: R) E'
  end.

Lemma indep_span : forall E R R', (forall a b, In (a, b) R' -> linked R a b) -> indep R E -> indep R' E.
Proof.
  induction E as [|[a b] E IH]; intros R R' H HI; simpl in *; auto.
  destruct HI as [H1 H2]. split.
  - intros HL. apply H1. eapply linked_sub; eauto.
  - apply (IH ((a, b) :: R)); auto. intros x y [Exy|Hxy].
    + inversion Exy; subst. apply linked_in. left; auto.
    + apply linked_mono with R; auto. intros; right; auto.
Qed.

(** Every pair is linked by a given list or not. *)
Lemma linked_dec : forall X i j, linked X i j \/ ~ linked X i j.
Proof.
  induction X as [|[a b] X IH]; intros i j.
  - destruct (Nat.eq_dec i j) as [->|Hn]; [left; apply rst_refl|right; intros H; now apply linked_nil in H].
  - assert (M : forall x y, linked X x y -> linked ((a, b) :: X) x y).
    { intros x y. apply linked_mono. intros; right; auto. }
    assert (Hab : linked ((a, b) :: X) a b) by (apply linked_in; left; auto).
    destruct (IH i j); [left; auto|].
    assert (D1 : (linked X i a /\ linked X b j) \/ ~ (linked X i a /\ linked X b j)) by (destruct (IH i a), (IH b j); tauto).
    assert (D2 : (linked X i b /\ linked X a j) \/ ~ (linked X i b /\ linked X a j)) by (destruct (IH i b), (IH a j); tauto).
    destruct D1 as [[H1 H2]|D1].
    { left. eapply linked_trans; [apply M, H1|]. eapply linked_trans; [exact Hab|]. auto. }
    destruct D2 as [[H1 H2]|D2].
    { left. eapply linked_trans; [apply M, H1|]. eapply linked_trans; [apply linked_sym, Hab|]. auto. }
    right. intros HL. apply linked_cons in HL as [HL|[HL|HL]]; auto.
Qed.

(** Adding an edge to the base costs at most one edge of an independent list. *)
Lemma indep_add : forall E R c d, indep R E ->
  indep ((c, d) :: R) E \/
  exists E1 a b E2, E = E1 ++ (a, b) :: E2 /\ indep ((c, d) :: R) (E1 ++ E2).
Proof.
  induction E as [|[a b] E IH]; intros R c d HI; simpl in *; auto.
  destruct HI as [H1 H2].
  destruct (linked_dec ((c, d) :: R) a b) as [HL|HL].
  - right. exists [], a, b, E. split; auto. simpl.
    apply (indep_span E ((a, b) :: R)); auto.
    intros x y [Exy|Hxy].
    + inversion Exy; subst. now apply linked_exchange.
    + apply linked_in. right; auto.
  - destruct (IH ((a, b) :: R) c d H2) as [HI|(E1 & a' & b' & E2 & -> & HI)].
    + left. split; auto. apply (indep_span E ((c, d) :: (a, b) :: R)); auto.
      intros x y Hxy. apply linked_in. simpl in *; tauto.
    + right. exists ((a, b) :: E1), a', b', E2. split; auto. simpl. split; auto.
      apply (indep_span _ ((c, d) :: (a, b) :: R)); auto. intros x y Hxy. apply linked_in. simpl in *; tauto.
Qed.

Lemma indep_linked_nil E R : indep R E -> (forall a b, In (a, b) E -> linked R a b) -> E = [].
Proof. destruct E as [|[a b] E]; auto. intros [H _] H'. exfalso. apply H, H'. left; auto. Qed.

Lemma steinitz : forall F E R, indep R E -> (forall a b, In (a, b) E -> linked (R ++ F) a b) ->
  length E <= length F.
Proof.
  induction F as [|[c d] F IH]; intros E R HI HE.
  - rewrite app_nil_r in HE. rewrite (indep_linked_nil E R HI HE). simpl; lia.
  - assert (HE' : forall E', (forall x, In x E' -> In x E) ->
                  forall a b, In (a, b) E' -> linked (((c, d) :: R) ++ F) a b).
    { intros E' Hs a b Hab. apply Hs in Hab. apply HE in Hab. revert Hab. apply linked_mono.
      intros x y Hxy. apply in_app_or in Hxy as [Hxy|[Hxy|Hxy]]; simpl; auto using in_or_app. }
    destruct (indep_add E R c d HI) as [HI'|(E1 & a & b & E2 & -> & HI')].
    + pose proof (IH E ((c, d) :: R) HI' (HE' E (fun x H => H))). simpl. lia.
    + assert (length (E1 ++ E2) <= length F).
      { apply (IH _ _ HI'). apply HE'. intros x Hx. apply in_or_app. apply in_app_or in Hx as [Hx|Hx]; simpl; auto. }
      rewrite !app_length in *. simpl in *. lia.
Qed.

(** A star is independent. *)
Lemma star_indep : forall k r R, (forall a b, In (a, b) R -> a < k /\ b < k) -> r < k ->
  forall m, indep R (map (fun i => (r, i)) (seq k m)).
Proof.
  intros k r R HR Hr m. revert k R HR Hr. induction m as [|m IH]; intros k R HR Hr; simpl; auto. split.
  - intros HL. apply (linked_invariant (fun i => i <? k)) in HL.
    + apply Nat.ltb_lt in Hr. rewrite Hr, Nat.ltb_irrefl in HL. discriminate.
    + intros a b Hab. apply HR in Hab as [Ha Hb]. apply Nat.ltb_lt in Ha, Hb. congruence.
  - apply IH; [|lia]. intros a b [E|Hab]; [inversion E; lia|]. apply HR in Hab. lia.
Qed.

Lemma spanning_length n X : (forall i j, i < n -> j < n -> linked X i j) -> n - 1 <= length X.
Proof.
  intros H. destruct n as [|n]; [lia|].
  pose proof (star_indep 1 0 [] ltac:(simpl; tauto) ltac:(lia) n) as HI.
  apply steinitz with (F := X) in HI.
  - rewrite map_length, seq_length in HI. lia.
  - intros a b Hab. apply in_map_iff in Hab as (i & E & Hi). apply in_seq in Hi. inversion E; subst.
    simpl. apply H; lia.
Qed.

(** [n - 1] edges that link [n] vertices are independent. *)
Lemma indep_or_redundant : forall E R, indep R E \/
  exists E1 a b E2, E = E1 ++ (a, b) :: E2 /\ linked (E1 ++ R) a b.
Proof.
  induction E as [|[a b] E IH]; intros R; simpl; auto.
  destruct (linked_dec R a b) as [HL|HL].
  - right. exists [], a, b, E. auto.
  - destruct (IH ((a, b) :: R)) as [HI|(E1 & a' & b' & E2 & -> & HL')]; auto.
    right. exists ((a, b) :: E1), a', b', E2. split; auto.
    revert HL'. apply linked_mono. intros x y Hxy. apply in_app_or in Hxy as [Hxy|[Hxy|Hxy]]; simpl; auto using in_or_app.
Qed.

Lemma spanning_indep n X : length X = n - 1 -> (forall i j, i < n -> j < n -> linked X i j) -> indep [] X.
Proof.
  intros HL H. destruct (indep_or_redundant X []) as [HI|(E1 & a & b & E2 & -> & HR)]; auto.
  exfalso. rewrite app_nil_r in HR.
  assert (HS : forall i j, i < n -> j < n -> linked (E1 ++ E2) i j).
  { intros i j Hi Hj. eapply linked_sub; [apply H; eauto|].
    intros x y Hxy. apply in_app_or in Hxy as [Hxy|[Hxy|Hxy]].
    - apply linked_in, in_or_app; auto.
    - inversion Hxy; subst. revert HR. apply linked_mono. intros; apply in_or_app; auto.
    - apply linked_in, in_or_app; auto. }
  apply spanning_length in HS. rewrite !app_length in *. simpl in *. lia.
Qed.

Lemma indep_filter (f : nat * nat -> bool) : forall E R R', (forall x, In x R' -> In x R) ->
  indep R E -> indep R' (filter f E).
Proof.
  induction E as [|[a b] E IH]; intros R R' Hs HI; simpl in *; auto.
  destruct HI as [H1 H2]. destruct (f (a, b)); simpl.
  - split.
    + intros HL. apply H1. apply linked_mono with R'; auto.
    + apply (IH ((a, b) :: R)); auto. simpl. intros x [?|?]; auto.
  - apply (IH ((a, b) :: R)); auto. intros; right; auto.
Qed.

Lemma indep_filter_edges {D} (f : nat * nat * D -> bool) : forall E R R', (forall x, In x R' -> In x R) ->
  indep R (ends E) -> indep R' (ends (filter f E)).
Proof.
  induction E as [|[[a b] w] E IH]; intros R R' Hs HI; simpl in *; auto.
  destruct HI as [H1 H2]. destruct (f (a, b, w)); simpl.
  - split.
    + intros HL. apply H1. apply linked_mono with R'; auto.
    + apply (IH ((a, b) :: R)); auto. simpl. intros x [?|?]; auto.
  - apply (IH ((a, b) :: R)); auto. intros; right; auto.
Qed.

Section Cuts.
Context {D : Type} (lt : D -> D -> bool) (Hlt : order_ok lt).
Context (n : nat) (weight : nat -> nat -> D).
Notation edge := (nat * nat * D)%type.

(** Each edge is a lightest one across a cut that the edges before it do not cross. *)
Definition lightest_cuts (E : list edge) : Prop :=
  forall E1 a b w E2, E = E1 ++ (a, b, w) :: E2 ->
  exists S : nat -> bool, S a <> S b /\
    (forall x y w', In (x, y, w') E1 -> S x = S y) /\
    (forall x y, x < n -> y < n -> S x <> S y -> lt (weight x y) w = false).

Lemma lightest_cuts_snoc E a b w : lightest_cuts E ->
  (exists S : nat -> bool, S a <> S b /\
    (forall x y w', In (x, y, w') E -> S x = S y) /\
    (forall x y, x < n -> y < n -> S x <> S y -> lt (weight x y) w = false)) ->
  lightest_cuts (E ++ [(a, b, w)]).
Proof.
  intros H HS E1 a' b' w' E2 Heq.
  destruct E2 as [|e E2] using rev_ind.
  - apply app_inj_tail in Heq as [-> Heq]. inversion Heq; subst. exact HS.
  - rewrite app_comm_cons, app_assoc in Heq. apply app_inj_tail in Heq as [Heq _]. subst E. eapply H; eauto.
Qed.

Context (E : list edge).
Hypothesis Hcut : lightest_cuts E.
Hypothesis Hin : forall a b w, In (a, b, w) E -> a < n /\ b < n /\ w = weight a b.
Hypothesis Hspan : forall i j, i < n -> j < n -> linked (ends E) i j.

Lemma bottleneck_from : forall E1 E2 t i j, E = E1 ++ E2 -> i < n -> j < n -> lt t (weight i j) = false ->
  linked (ends (E1 ++ up_to lt t E2)) i j -> linked (ends (up_to lt t E)) i j.
Proof.
  intros E1. induction E1 as [|[[a b] w] E1 IH] using rev_ind; intros E2 t i j HE Hi Hj Ht HL.
  - subst E. simpl in HL. auto.
  - rewrite <- app_assoc in HE. simpl in HE.
    apply (IH ((a, b, w) :: E2) t i j HE Hi Hj Ht).
    unfold up_to. cbn [filter snd]. destruct (lt t w) eqn:Hw; cbn [negb].
    + (* too heavy: not needed *)
      fold (up_to lt t E2).
      destruct (Hcut E1 a b w E2 HE) as (S & Sab & S1 & S2).
      assert (HX : linked ((a, b) :: ends (E1 ++ up_to lt t E2)) i j).
      { revert HL. apply linked_mono. unfold ends. rewrite !map_app. simpl. intros x y Hxy.
        rewrite !in_app_iff in Hxy. simpl in Hxy. rewrite in_app_iff. tauto. }
      assert (Hclosed : forall x y, linked (ends (E1 ++ up_to lt t E2)) x y -> S x = S y).
      { intros x y Hxy. apply (linked_invariant S) in Hxy; auto.
        intros c d Hcd. unfold ends in Hcd. apply in_map_iff in Hcd as ([[c' d'] w'] & Ec & Hcd).
        simpl in Ec. inversion Ec; subst c' d'. apply in_app_or in Hcd as [Hcd|Hcd]; [eapply S1; eauto|].
        apply filter_In in Hcd as [Hcd Hw']. apply negb_true_iff in Hw'. simpl in Hw'.
        destruct (Hin c d w') as (Hc & Hd & ->).
        { rewrite HE. apply in_or_app. right; right; auto. }
        destruct (Bool.bool_dec (S c) (S d)) as [|Hne]; auto. exfalso.
        specialize (S2 c d Hc Hd Hne).
        (* w <= weight c d <= t < w *)
        rewrite (le_trans _ Hlt w (weight c d) t S2 Hw') in Hw. discriminate. }
      assert (Heq : S i = S j).
      { destruct (Bool.bool_dec (S i) (S j)) as [|Hne]; auto. exfalso.
        specialize (S2 i j Hi Hj Hne). rewrite (le_trans _ Hlt w (weight i j) t S2 Ht) in Hw. discriminate. }
      apply linked_cons in HX as [HX|[[H1 H2]|[H1 H2]]]; auto; exfalso; apply Sab;
        apply Hclosed in H1; apply Hclosed in H2; congruence.
    + fold (up_to lt t E2). revert HL. unfold ends. rewrite <- app_assoc. simpl. auto.
Qed.

Lemma bottleneck t i j : i < n -> j < n -> lt t (weight i j) = false -> linked (ends (up_to lt t E)) i j.
Proof.
  intros Hi Hj Ht. apply (bottleneck_from E [] t i j); auto using app_nil_r. simpl.
  rewrite app_nil_r. apply Hspan; auto.
Qed.

Lemma linked_up_to_reach t i j : i < n -> linked (ends (up_to lt t E)) i j ->
  (forall a b, a < n -> b < n -> weight a b = weight b a) -> reach lt n weight t i j.
Proof.
  intros Hi HL Hsym.
  assert (T : forall i j k, reach lt n weight t i j -> reach lt n weight t j k -> reach lt n weight t i k).
  { intros x y z H. induction H; auto. intros H'. eapply reach_step; eauto. }
  assert (G : (i < n <-> j < n) /\ (i < n -> reach lt n weight t i j /\ reach lt n weight t j i)).
  { clear Hi. induction HL as [x y H|x|x y H IH|x y z H IH H' IH'].
    - apply in_map_iff in H as ([[a b] w] & Ea & H). simpl in Ea. inversion Ea; subst a b.
      apply filter_In in H as [H Hw]. apply negb_true_iff in Hw. simpl in Hw.
      destruct (Hin x y w H) as (Hx & Hy & ->). split; [tauto|]. intros _.
      split; [apply reach_step with y|apply reach_step with x]; auto using reach_here. rewrite (Hsym y x); auto.
    - split; [tauto|]. split; now constructor.
    - destruct IH as [I1 I2]. split; [tauto|]. intros Hy. apply and_comm. tauto.
    - destruct IH as [I1 I2], IH' as [J1 J2]. split; [tauto|]. intros Hx.
      destruct (I2 Hx), (J2 (proj1 I1 Hx)). split; eapply T; eauto. }
  apply G, Hi.
Qed.

Lemma reach_linked_up_to t i j : reach lt n weight t i j -> linked (ends (up_to lt t E)) i j.
Proof.
  induction 1 as [i Hi|i j k Hi Hj Ht H IH].
  - apply rst_refl.
  - eapply linked_trans; [|exact IH]. now apply bottleneck.
Qed.
End Cuts.

(** ** Comparison of spanning trees *)
Section Lighter.
Context {D : Type} (lt : D -> D -> bool) (Hlt : order_ok lt).
Notation edge := (nat * nat * D)%type.
Notation le a b := (lt b a = false).

Fixpoint insert (e : edge) (l : list edge) : list edge :=
  match l with
  | [] => [e]
  | x :: l' => if lt (snd x) (snd e) then x :: insert e l' else e :: l
  end.
Definition isort (l : list edge) : list edge := fold_right insert [] l.

Lemma insert_perm e l : Permutation (insert e l) (e :: l).
Proof. induction l as [|x l IH]; simpl; auto. destruct (lt (snd x) (snd e)); auto. rewrite IH. apply perm_swap. Qed.
Lemma isort_perm l : Permutation (isort l) l.
Proof. induction l as [|x l IH]; simpl; auto. rewrite insert_perm. auto. Qed.

Inductive asc : list edge -> Prop :=
| asc_nil : asc []
| asc_cons e l : (forall x, In x l -> le (snd e) (snd x)) -> asc l -> asc (e :: l).

Lemma insert_asc e l : asc l -> asc (insert e l).
Proof.
  induction 1 as [|x l Hx Hl IH]; simpl.
  - constructor; [intros y []|constructor].
  - destruct (lt (snd x) (snd e)) eqn:E.
    + constructor; auto. intros y Hy. apply (Permutation_in y (insert_perm e l)) in Hy. destruct Hy as [<-|Hy]; auto.
      now apply lt_asym.
    + constructor; [|constructor; auto]. intros y [<-|Hy]; auto.
      apply (le_trans _ Hlt _ (snd x)); auto.
Qed.
Lemma isort_asc l : asc (isort l).
Proof. induction l; simpl; [constructor|now apply insert_asc]. Qed.

Lemma count_le_asc t : forall l, asc l -> forall k e, nth_error l k = Some e -> le (snd e) t -> k < length (up_to lt t l).
Proof.
  induction 1 as [|x l Hx Hl IH]; intros k e Hk Ht; [destruct k; discriminate|].
  destruct k as [|k]; simpl in Hk.
  - inversion Hk; subst. unfold up_to. simpl. rewrite Ht. simpl. lia.
  - unfold up_to. simpl. rewrite (le_trans _ Hlt (snd x) (snd e) t); auto.
    + simpl. specialize (IH k e Hk Ht). unfold up_to in IH. lia.
    + apply Hx. eapply nth_error_In; eauto.
Qed.

Lemma count_gt_asc t : forall l, asc l -> forall k e, nth_error l k = Some e -> lt t (snd e) = true -> length (up_to lt t l) <= k.
Proof.
  induction 1 as [|x l Hx Hl IH]; intros k e Hk Ht; [destruct k; discriminate|].
  assert (N : forall l', (forall y, In y l' -> lt t (snd y) = true) -> up_to lt t l' = []).
  { induction l' as [|y l' IH']; intros H; auto. unfold up_to. simpl. rewrite H by (left; auto). simpl.
    apply IH'. intros; apply H; right; auto. }
  destruct k as [|k]; simpl in Hk.
  - inversion Hk; subst. rewrite N; auto. intros y [<-|Hy]; auto.
    apply (lt_le_trans _ Hlt _ (snd e)); auto.
  - specialize (IH k e Hk Ht). unfold up_to in *. simpl. destruct (negb (lt t (snd x))); simpl; lia.
Qed.

Lemma up_to_perm t l l' : Permutation l l' -> length (up_to lt t l) = length (up_to lt t l').
Proof.
  unfold up_to. induction 1; simpl; auto.
  - destruct (negb (lt t (snd x))); simpl; auto.
  - destruct (negb (lt t (snd x))), (negb (lt t (snd y))); simpl; auto.
  - congruence.
Qed.

Lemma lighter_of_counts E E' : length E = length E' ->
  (forall t, length (up_to lt t E') <= length (up_to lt t E)) -> lighter lt E E'.
Proof.
  intros HL HC. exists (isort E), (isort E'). splits; auto using isort_perm.
  assert (HL' : length (isort E) = length (isort E')).
  { rewrite (Permutation_length (isort_perm E)), (Permutation_length (isort_perm E')). auto. }
  assert (G : forall k e e', nth_error (isort E) k = Some e -> nth_error (isort E') k = Some e' -> le (snd e) (snd e')).
  { intros k e e' He He'. destruct (lt (snd e') (snd e)) eqn:Hw; auto. exfalso.
    pose proof (count_le_asc (snd e') _ (isort_asc E') k e' He' (lt_irrefl _ Hlt _)) as H1.
    pose proof (count_gt_asc (snd e') _ (isort_asc E) k e He Hw) as H2.
    rewrite (up_to_perm _ _ _ (isort_perm E')) in H1. rewrite (up_to_perm _ _ _ (isort_perm E)) in H2.
    specialize (HC (snd e')). lia. }
  clear HC HL. revert HL' G. generalize (isort E) (isort E').
  induction l as [|x l IH]; intros [|y l'] HL G; simpl in HL; try lia; constructor.
  - apply (G 0); auto.
  - apply IH; [lia|]. intros k e e' H H'. apply (G (S k)); auto.
Qed.

(** A spanning tree that links whatever the light edges of the competitor link has at least as many light edges. *)
Lemma more_light_edges n E E' t : spanning_tree n E' ->
  (forall a b w, In (a, b, w) (up_to lt t E') -> linked (ends (up_to lt t E)) a b) ->
  length (up_to lt t E') <= length (up_to lt t E).
Proof.
  intros (HL & _ & HS) H.
  assert (HI : indep [] (ends E')).
  { apply (spanning_indep n); auto. unfold ends. now rewrite map_length. }
  apply (indep_filter_edges (fun e => negb (lt t (snd e)))) with (R' := []) in HI; auto.
  apply steinitz with (F := ends (up_to lt t E)) in HI.
  - unfold ends in HI. rewrite !map_length in HI. exact HI.
  - intros a b Hab. apply in_map_iff in Hab as ([[a' b'] w] & Ea & Hab). simpl in Ea. inversion Ea; subst.
    simpl. eapply H; eauto.
Qed.
End Lighter.
