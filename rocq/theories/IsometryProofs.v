(** Lemmas for C90: dendrograms with the same merges are mirror images of each other, and mirror images give the same clusters. *)
From Coq Require Import List Arith ZArith QArith Lia Bool Permutation FinFun.
From Verif Require Import Base BufferSpec UnionFindModel UnionFindSpec UnionFindProofs GraphSpec GraphProofs SlinkModel SlinkSpec SlinkProofs
  CondensedModel CondensedSpec CondensedProofs CondensedProps IsometrySpec.
Import ListNotations.
Local Open Scope nat_scope.

Section Mirror.
Context {D : Type} (lt : D -> D -> bool) (Hlt : order_ok lt) (f : nat -> nat).
Notation slink := (slink D).
Notation mirror := (@mirror D f).

Lemma mirror_leaves s s' : mirror s s' -> Permutation (map f (leaves s)) (leaves s').
Proof.
  induction 1; cbn [leaves map]; auto; rewrite map_app.
  - now apply Permutation_app.
  - etransitivity; [apply Permutation_app_comm|]. now apply Permutation_app.
Qed.

Lemma mirror_length s s' : mirror s s' -> length (leaves s) = length (leaves s').
Proof. intros H. apply mirror_leaves, Permutation_length in H. now rewrite map_length in H. Qed.

Lemma mirror_size s s' : mirror s s' -> sized s -> sized s' -> sl_size s = sl_size s'.
Proof. intros H S1 S2. rewrite !sized_size by auto. now apply mirror_length. Qed.

(** ** Levels that grow strictly determine the dendrogram *)
Fixpoint strict (s : slink) : Prop :=
  match s with
  | SLeaf _ => True
  | SNode _ v _ l r => (forall x, In x (levels l ++ levels r) -> lt x v = true) /\ strict l /\ strict r
  end.

Lemma lt_irrefl x : lt x x = false.
Proof. destruct (lt x x) eqn:E; auto. pose proof (proj1 Hlt _ _ E). congruence. Qed.

Lemma across i v n l r t a b : NoDup (leaves l ++ leaves r) -> In a (leaves l) -> In b (leaves r) ->
  (joined_at lt (SNode i v n l r) t a b <-> lt t v = false).
Proof.
  intros N Ha Hb. destruct (NoDup_app' _ _ N) as (_ & _ & Dis). rewrite joined_node. split.
  - intros [(H & _)|[H|H]]; auto; apply joined_in in H; destruct H as (H1 & H2); exfalso; eapply Dis; eauto.
  - intros H. left. splits; auto; apply in_or_app; auto.
Qed.

Lemma within_child l a b t v : strict l -> (forall x, In x (levels l) -> lt x v = true) -> In a (leaves l) -> In b (leaves l) -> a <> b ->
  (lt t v = false -> joined_at lt l t a b) /\ exists u, lt u v = true /\ joined_at lt l u a b.
Proof.
  intros Hs Hv Ha Hb Hne. destruct l as [i|i u n l1 l2].
  - cbn in Ha, Hb. destruct Ha as [<-|[]], Hb as [<-|[]]. congruence.
  - assert (Hu : lt u v = true) by (apply Hv; left; auto). split.
    + intros Ht. rewrite joined_node. left. splits; auto. apply (proj2 Hlt u v t); auto. now apply (proj1 Hlt).
    + exists u. split; auto. rewrite joined_node. left. splits; auto. apply lt_irrefl.
Qed.

Lemma joined_sym s t a b : joined_at lt s t a b -> joined_at lt s t b a.
Proof. intros (k & v & n & l & r & H1 & H2 & H3 & H4). exists k, v, n, l, r. auto. Qed.

Lemma leaf_of (s : slink) : exists x, In x (leaves s).
Proof. apply leaves_some. Qed.

Lemma joined_left i v n l r t a b : strict (SNode i v n l r) -> NoDup (leaves l ++ leaves r) -> In a (leaves l) -> In b (leaves l) -> a <> b ->
  (joined_at lt (SNode i v n l r) t a b <-> joined_at lt l t a b).
Proof.
  intros (Hv & Sl & Sr) N Ha Hb Hne. destruct (NoDup_app' _ _ N) as (_ & _ & Dis). rewrite joined_node. split; auto.
  intros [(H & _)|[H|H]]; auto.
  - apply (within_child l a b t v); auto. intros x Hx. apply Hv, in_or_app. auto.
  - apply joined_in in H. exfalso. eapply Dis; [exact Ha|tauto].
Qed.

Lemma joined_flip i v n l r i' n' t a b : joined_at lt (SNode i v n l r) t a b <-> joined_at lt (SNode i' v n' r l) t a b.
Proof. rewrite !joined_node, !in_app_iff. tauto. Qed.

Lemma same_side i v n l r a b : strict (SNode i v n l r) -> NoDup (leaves l ++ leaves r) -> In a (leaves l ++ leaves r) -> In b (leaves l ++ leaves r) ->
  a <> b -> ((In a (leaves l) <-> In b (leaves l)) <-> exists t, lt t v = true /\ joined_at lt (SNode i v n l r) t a b).
Proof.
  intros St N Ha Hb Hne. destruct (NoDup_app' _ _ N) as (_ & _ & Dis). apply in_app_iff in Ha, Hb. pose proof St as (Hv & Sl & Sr).
  assert (X : forall t, lt t v = true -> In a (leaves l) -> In b (leaves r) -> ~ joined_at lt (SNode i v n l r) t a b).
  { intros t Ht Ia Ib J. apply (across i v n l r t a b N Ia Ib) in J. congruence. }
  assert (Y : forall t, lt t v = true -> In b (leaves l) -> In a (leaves r) -> ~ joined_at lt (SNode i v n l r) t a b).
  { intros t Ht Ia Ib J. assert (J' : joined_at lt (SNode i v n l r) t b a) by (now apply joined_sym).
    apply (across i v n l r t b a N Ia Ib) in J'. congruence. }
  split.
  - intros Hs. destruct Ha as [Ha|Ha].
    + destruct (within_child l a b v v Sl) as (_ & u & Hu & J); auto; [intros x Hx; apply Hv, in_or_app; auto|tauto|].
      exists u. split; auto. rewrite joined_node. auto.
    + destruct Hb as [Hb|Hb]; [exfalso; eapply Dis; [|exact Ha]; tauto|].
      destruct (within_child r a b v v Sr) as (_ & u & Hu & J); auto; [intros x Hx; apply Hv, in_or_app; auto|].
      exists u. split; auto. rewrite joined_node. auto.
  - intros (t & Ht & J). destruct Ha as [Ha|Ha], Hb as [Hb|Hb]; try tauto.
    + exfalso. eapply X; eauto.
    + exfalso. eapply Y; eauto.
    + split; intros; exfalso; eapply Dis; eauto.
Qed.

(** The samples and merges of [s'] are those of [s], renamed. *)
Definition same_merges (s s' : slink) : Prop :=
  (forall x, In x (leaves s) -> In (f x) (leaves s')) /\
  (forall y, In y (leaves s') -> exists x, In x (leaves s) /\ y = f x) /\
  (forall t a b, In a (leaves s) -> In b (leaves s) -> a <> b -> (joined_at lt s t a b <-> joined_at lt s' t (f a) (f b))).

Definition inj_on (l : list nat) : Prop := forall a b, In a l -> In b l -> f a = f b -> a = b.

Lemma restrict_left i v n l r i' n' l' r' a : strict (SNode i v n l r) -> strict (SNode i' v n' l' r') ->
  NoDup (leaves l ++ leaves r) -> NoDup (leaves l' ++ leaves r') -> inj_on (leaves l ++ leaves r) ->
  same_merges (SNode i v n l r) (SNode i' v n' l' r') -> In a (leaves l) -> In (f a) (leaves l') ->
  (forall p, In p (leaves l ++ leaves r) -> (In p (leaves l) <-> In (f p) (leaves l'))).
Proof.
  intros St St' N N' Inj (M1 & M2 & M3) Ha Hfa p Hp. destruct (Nat.eq_dec a p) as [->|Hne]; [tauto|].
  assert (Ha' : In a (leaves l ++ leaves r)) by (apply in_or_app; auto).
  assert (Hf : f a <> f p) by (intros E; apply Hne; apply Inj; auto).
  pose proof (same_side i v n l r a p St N Ha' Hp Hne) as A.
  pose proof (same_side i' v n' l' r' (f a) (f p) St' N' (M1 a Ha') (M1 p Hp) Hf) as B.
  assert (C : (exists t, lt t v = true /\ joined_at lt (SNode i v n l r) t a p) <->
              (exists t, lt t v = true /\ joined_at lt (SNode i' v n' l' r') t (f a) (f p))).
  { split; intros (t & Ht & J); exists t; split; auto; apply (M3 t a p Ha' Hp Hne); auto. }
  tauto.
Qed.

Lemma merges_left i v n l r i' n' l' r' a : strict (SNode i v n l r) -> strict (SNode i' v n' l' r') ->
  NoDup (leaves l ++ leaves r) -> NoDup (leaves l' ++ leaves r') -> inj_on (leaves l ++ leaves r) ->
  same_merges (SNode i v n l r) (SNode i' v n' l' r') -> In a (leaves l) -> In (f a) (leaves l') ->
  same_merges l l' /\ same_merges r r'.
Proof.
  intros St St' N N' Inj M Ha Hfa.
  pose proof (restrict_left i v n l r i' n' l' r' a St St' N N' Inj M Ha Hfa) as Rl. destruct M as (M1 & M2 & M3).
  destruct (NoDup_app' _ _ N) as (_ & _ & Dis). destruct (NoDup_app' _ _ N') as (_ & _ & Dis').
  assert (Rr : forall p, In p (leaves l ++ leaves r) -> (In p (leaves r) <-> In (f p) (leaves r'))).
  { intros p Hp. pose proof (Rl p Hp). pose proof (M1 p Hp) as Hq. apply in_app_iff in Hp. cbn [leaves] in Hq. apply in_app_iff in Hq.
    pose proof (Dis p). pose proof (Dis' (f p)). tauto. }
  split; (split; [|split]).
  - intros x Hx. apply Rl; auto. apply in_or_app; auto.
  - intros y Hy. destruct (M2 y) as (x & Hx & ->). { apply in_or_app; auto. } exists x. split; auto. apply Rl; auto.
  - intros t p q Hp Hq Hne.
    rewrite <- (joined_left i v n l r) by auto. rewrite <- (joined_left i' v n' l' r'); auto.
    + apply M3; auto; apply in_or_app; auto.
    + apply Rl; auto; apply in_or_app; auto.
    + apply Rl; auto; apply in_or_app; auto.
    + intros E. apply Hne, Inj; auto; apply in_or_app; auto.
  - intros x Hx. apply Rr; auto. apply in_or_app; auto.
  - intros y Hy. destruct (M2 y) as (x & Hx & ->). { apply in_or_app; auto. } exists x. split; auto. apply Rr; auto.
  - intros t p q Hp Hq Hne.
    assert (Sf : forall i v n l r, strict (SNode i v n l r) -> strict (SNode i v n r l)).
    { intros ? ? ? ? ? (S1 & S2 & S3). split; [|split]; auto. intros x Hx. apply S1. rewrite in_app_iff in *. tauto. }
    assert (Nf : NoDup (leaves r ++ leaves l)) by (apply (Permutation_NoDup (Permutation_app_comm _ _) N)).
    rewrite <- (joined_left i v n r l) by auto.
    rewrite <- (joined_left i' v n' r' l'); auto.
    + rewrite <- (joined_flip i v n l r), <- (joined_flip i' v n' l' r'). apply M3; auto; apply in_or_app; auto.
    + apply (Permutation_NoDup (Permutation_app_comm _ _) N').
    + apply Rr; auto; apply in_or_app; auto.
    + apply Rr; auto; apply in_or_app; auto.
    + intros E. apply Hne, Inj; auto; apply in_or_app; auto.
Qed.

Lemma strict_flip i v n l r : strict (SNode i v n l r) -> strict (SNode i v n r l).
Proof. intros (S1 & S2 & S3). split; [|split]; auto. intros x Hx. apply S1. rewrite in_app_iff in *. tauto. Qed.

Lemma merges_flip s i v n l r : same_merges s (SNode i v n l r) -> same_merges s (SNode i v n r l).
Proof.
  intros (M1 & M2 & M3). split; [|split].
  - intros x Hx. specialize (M1 x Hx). cbn [leaves] in *. rewrite in_app_iff in *. tauto.
  - intros y Hy. apply M2. cbn [leaves] in *. rewrite in_app_iff in *. tauto.
  - intros t a b Ha Hb Hne. rewrite (M3 t a b Ha Hb Hne). apply joined_flip.
Qed.

Lemma same_merges_mirror : forall s s', strict s -> strict s' -> NoDup (leaves s) -> NoDup (leaves s') -> inj_on (leaves s) ->
  (forall v v', In v (levels s) -> In v' (levels s') -> lt v v' = false -> lt v' v = false -> v = v') ->
  same_merges s s' -> mirror s s'.
Proof.
  induction s as [i|i v n l IHl r IHr]; intros s' St St' N N' Inj Heq M; pose proof M as (M1 & M2 & M3).
  - assert (One : forall y, In y (leaves s') -> y = f i). { intros y Hy. destruct (M2 y Hy) as (x & [<-|[]] & ->). auto. }
    destruct s' as [j|j v' n' l' r'].
    + rewrite (One j) by (left; auto). constructor.
    + exfalso. destruct (leaf_of l') as (a & Ha). destruct (leaf_of r') as (b & Hb). cbn [leaves] in *.
      destruct (NoDup_app' _ _ N') as (_ & _ & Dis). apply (Dis a Ha). rewrite (One a), <- (One b); auto; apply in_or_app; auto.
  - destruct (leaf_of l) as (a & Ha). destruct (leaf_of r) as (b & Hb). cbn [leaves] in N, Inj.
    destruct (NoDup_app' _ _ N) as (Nl & Nr & Dis).
    assert (Ha' : In a (leaves l ++ leaves r)) by (apply in_or_app; auto).
    assert (Hb' : In b (leaves l ++ leaves r)) by (apply in_or_app; auto).
    assert (Hab : a <> b) by (intros ->; exact (Dis b Ha Hb)).
    destruct s' as [j|j v' n' l' r'].
    + exfalso. apply Hab, Inj; auto. destruct (M1 a Ha') as [<-|[]]. destruct (M1 b Hb') as [E|[]]. auto.
    + cbn [leaves] in N'. destruct (NoDup_app' _ _ N') as (Nl' & Nr' & Dis').
      assert (V : v = v').
      { apply Heq; try (left; auto).
        - destruct (leaf_of l') as (c & Hc). destruct (leaf_of r') as (d & Hd).
          destruct (M2 c) as (p & Hp & ->). { apply in_or_app; auto. } destruct (M2 d) as (q & Hq & ->). { apply in_or_app; auto. }
          assert (Hpq : p <> q) by (intros ->; eapply Dis'; eauto).
          apply (across j v' n' l' r' v (f p) (f q) N' Hc Hd). apply M3; auto. rewrite joined_node. left. splits; auto. apply lt_irrefl.
        - apply (across i v n l r v' a b N Ha Hb). apply M3; auto. rewrite joined_node. left.
          split; [apply lt_irrefl|]. split; [exact (M1 a Ha')|exact (M1 b Hb')]. }
      subst v'.
      assert (G : forall l' r', strict (SNode j v n' l' r') -> NoDup (leaves l' ++ leaves r') ->
        (forall u u', In u (v :: levels l ++ levels r) -> In u' (v :: levels l' ++ levels r') -> lt u u' = false -> lt u' u = false -> u = u') ->
        same_merges (SNode i v n l r) (SNode j v n' l' r') -> In (f a) (leaves l') -> mirror l l' /\ mirror r r').
      { clear l' r' St' N' Heq M M1 M2 M3 Nl' Nr' Dis'. intros l' r' St' N' Heq M Hfa.
        destruct (NoDup_app' _ _ N') as (Nl' & Nr' & _).
        destruct (merges_left i v n l r j n' l' r' a St St' N N' Inj M Ha Hfa) as (Ml & Mr).
        destruct St as (_ & S1 & S2). destruct St' as (_ & S1' & S2'). split.
        - apply IHl; auto.
          + intros x y Hx Hy. apply Inj; apply in_or_app; auto.
          + intros u u' Hu Hu'. apply Heq; right; apply in_or_app; auto.
        - apply IHr; auto.
          + intros x y Hx Hy. apply Inj; apply in_or_app; auto.
          + intros u u' Hu Hu'. apply Heq; right; apply in_or_app; auto. }
      pose proof (M1 a Ha') as Hfa. cbn [leaves] in Hfa. apply in_app_iff in Hfa as [Hfa|Hfa].
      * destruct (G l' r') as (G1 & G2); auto. now apply mirror_same.
      * destruct (G r' l') as (G1 & G2); auto.
        -- now apply strict_flip.
        -- apply (Permutation_NoDup (Permutation_app_comm _ _) N').
        -- intros u u' Hu Hu'. apply Heq; auto. cbn [levels]. cbn [In] in *. rewrite in_app_iff in *. tauto.
        -- now apply merges_flip.
        -- now apply mirror_swap.
Qed.

(** ** Mirror images give the same clusters *)
Context (inverse : D -> Q).
Notation cnode := (cnode D).

Inductive cmirror : cnode -> cnode -> Prop :=
| cm_leaf s s' m m' q q' b : mirror s s' -> (m == m')%Q -> (q == q')%Q -> cmirror (CLeaf s m q b) (CLeaf s' m' q' b)
| cm_same s s' m m' q q' b l r l' r' : mirror s s' -> (m == m')%Q -> (q == q')%Q -> cmirror l l' -> cmirror r r' ->
    cmirror (CSplit s m q b l r) (CSplit s' m' q' b l' r')
| cm_swap s s' m m' q q' b l r l' r' : mirror s s' -> (m == m')%Q -> (q == q')%Q -> cmirror l r' -> cmirror r l' ->
    cmirror (CSplit s m q b l r) (CSplit s' m' q' b l' r').

Lemma excess_comp st st' k k' v m m' : (st == st')%Q -> k = k' -> (m == m')%Q ->
  (add_excess_of_mass st k v m == add_excess_of_mass st' k' v m')%Q.
Proof. intros H -> H'. unfold add_excess_of_mass. rewrite H, H'. reflexivity. Qed.

Lemma condense_mirror min : forall s s', mirror s s' -> sized s -> sized s' ->
  forall root root' lm lm' st st', mirror root root' -> (lm == lm')%Q -> (st == st')%Q ->
  cmirror (condense inverse min root lm st s) (condense inverse min root' lm' st' s').
Proof.
  induction 1 as [i|i i' v n n' l r l' r' Ml IHl Mr IHr|i i' v n n' l r l' r' Ml IHl Mr IHr]; intros Sz Sz' root root' lm lm' st st' Mroot Hlm Hst.
  - cbn [condense]. now constructor.
  - assert (Hn : sl_size (SNode i v n l r) = sl_size (SNode i' v n' l' r')) by (apply mirror_size; auto; now apply mirror_same).
    destruct Sz as (_ & Szl & Szr). destruct Sz' as (_ & Szl' & Szr'). cbn [sl_size] in Hn. subst n'.
    cbn [condense]. rewrite (mirror_size l l'), (mirror_size r r') by auto.
    destruct (min <=? sl_size l'), (min <=? sl_size r'); cbn [andb].
    + apply cm_same; auto; [now apply excess_comp|apply IHl|apply IHr]; auto; reflexivity.
    + apply IHl; auto. now apply excess_comp.
    + apply IHr; auto. now apply excess_comp.
    + apply cm_leaf; auto. now apply excess_comp.
  - assert (Hn : sl_size (SNode i v n l r) = sl_size (SNode i' v n' l' r')) by (apply mirror_size; auto; now apply mirror_swap).
    destruct Sz as (_ & Szl & Szr). destruct Sz' as (_ & Szl' & Szr'). cbn [sl_size] in Hn. subst n'.
    cbn [condense]. rewrite (mirror_size l r'), (mirror_size r l') by auto.
    destruct (min <=? sl_size l'), (min <=? sl_size r'); cbn [andb].
    + apply cm_swap; auto; [now apply excess_comp|apply IHl|apply IHr]; auto; reflexivity.
    + apply IHr; auto. now apply excess_comp.
    + apply IHl; auto. now apply excess_comp.
    + apply cm_leaf; auto. now apply excess_comp.
Qed.

Definition matched {A B} (R : A -> B -> Prop) (L : list A) (L' : list B) : Prop := exists L'', Permutation L' L'' /\ Forall2 R L L''.

Lemma matched_one {A B} (R : A -> B -> Prop) a b : R a b -> matched R [a] [b].
Proof. intros H. exists [b]. auto. Qed.

Lemma matched_app {A B} (R : A -> B -> Prop) L1 L1' L2 L2' : matched R L1 L1' -> matched R L2 L2' -> matched R (L1 ++ L2) (L1' ++ L2').
Proof.
  intros (A1 & P1 & F1) (A2 & P2 & F2). exists (A1 ++ A2). split; [now apply Permutation_app|now apply Forall2_app].
Qed.

Lemma matched_perm {A B} (R : A -> B -> Prop) L L1 L2 : Permutation L1 L2 -> matched R L L1 -> matched R L L2.
Proof. intros H (A1 & P1 & F1). exists A1. split; auto. now rewrite <- H. Qed.

Lemma matched_map {A B A' B'} (R : A -> B -> Prop) (R' : A' -> B' -> Prop) g g' L L' : (forall a b, R a b -> R' (g a) (g' b)) ->
  matched R L L' -> matched R' (map g L) (map g' L').
Proof.
  intros H (A1 & P1 & F1). exists (map g' A1). split; [now apply Permutation_map|]. clear P1. induction F1; cbn [map]; constructor; auto.
Qed.

Lemma finals_mirror c c' : cmirror c c' -> matched cmirror (finals c) (finals c').
Proof.
  induction 1; cbn [finals].
  - apply matched_one. now constructor.
  - now apply matched_app.
  - apply (matched_perm _ _ (finals r' ++ finals l')); [apply Permutation_app_comm|]. now apply matched_app.
Qed.

Lemma best_mirror c c' : cmirror c c' -> (fst (best c) == fst (best c'))%Q /\ matched cmirror (snd (best c)) (snd (best c')).
Proof.
  induction 1 as [s s' m m' q q' b Ms Hm Hq|s s' m m' q q' b l r l' r' Ms Hm Hq Ml (Il & Jl) Mr (Ir & Jr)|s s' m m' q q' b l r l' r' Ms Hm Hq Ml (Il & Jl) Mr (Ir & Jr)];
    cbn [best].
  - split; [auto|]. apply matched_one. now constructor.
  - assert (E : Qle_bool (fst (best l) + fst (best r)) q = Qle_bool (fst (best l') + fst (best r')) q').
    { rewrite Il, Ir, Hq. reflexivity. }
    rewrite E. destruct (negb _); cbn [fst snd]; split; auto.
    + now rewrite Il, Ir.
    + now apply matched_app.
    + apply matched_one. now apply cm_same.
  - assert (E : Qle_bool (fst (best l) + fst (best r)) q = Qle_bool (fst (best l') + fst (best r')) q').
    { rewrite Il, Ir, Hq. rewrite (Qplus_comm (fst (best r'))). reflexivity. }
    rewrite E. destruct (negb _); cbn [fst snd]; split; auto.
    + rewrite Il, Ir. apply Qplus_comm.
    + apply (matched_perm _ _ (snd (best r') ++ snd (best l'))); [apply Permutation_app_comm|]. now apply matched_app.
    + apply matched_one. now apply cm_swap.
Qed.

Lemma picked_mirror root root' o : mirror root root' -> sized root -> sized root' ->
  matched mirror (map cn_root (picked inverse root o)) (map cn_root (picked inverse root' o)).
Proof.
  intros M S1 S2. apply (matched_map cmirror mirror). { intros a b H. destruct H; auto. }
  assert (C : cmirror (build_condensed inverse (min_cluster_size o) root) (build_condensed inverse (min_cluster_size o) root')).
  { unfold build_condensed. apply condense_mirror; auto; reflexivity. }
  unfold picked. destruct (return_leaf_nodes o); [now apply finals_mirror|].
  destruct (build_condensed inverse (min_cluster_size o) root) as [|s m q b l r]; destruct (build_condensed inverse (min_cluster_size o) root') as [|s' m' q' b' l' r'];
    try (exfalso; inversion C; fail).
  - now apply matched_one.
  - destruct (allow_single_cluster o); [now apply best_mirror|]. inversion C; subst.
    + apply matched_app; now apply best_mirror.
    + apply (matched_perm _ _ (snd (best r') ++ snd (best l'))); [apply Permutation_app_comm|]. apply matched_app; now apply best_mirror.
Qed.
End Mirror.

(** ** Labels *)
Section Labels.
Context {D : Type}.
Notation slink := (slink D).

Lemma shows_zero labels (clusters : list slink) i : shows labels clusters -> i < length labels ->
  (nth_error labels i = Some 0 <-> forall s, In s clusters -> ~ In i (leaves s)).
Proof.
  intros (S1 & S2) Hi. split; [|apply S2; auto]. intros E s Hs Hin. apply In_nth_error in Hs as (k & Hk).
  rewrite (S1 k s i Hk Hin) in E. discriminate.
Qed.

Lemma shows_in labels (clusters : list slink) i k : shows labels clusters -> nth_error labels i = Some (S k) ->
  exists s, nth_error clusters k = Some s /\ In i (leaves s).
Proof.
  intros (S1 & S2) E. destruct (in_dec Nat.eq_dec i (flat_map leaves clusters)) as [Hi|Hi].
  - apply in_flat_map in Hi as (s & Hs & Hxs). apply In_nth_error in Hs as [j Hj].
    pose proof (S1 j s i Hj Hxs) as E'. assert (j = k) by congruence. subst j. eauto.
  - rewrite S2 in E; [discriminate|apply nth_error_lt in E; lia|]. intros s Hs Hxs. apply Hi. apply in_flat_map. eauto.
Qed.

Lemma shows_same labels (clusters : list slink) i j : shows labels clusters -> i < length labels -> j < length labels ->
  (nth_error labels i = nth_error labels j <->
   (exists s, In s clusters /\ In i (leaves s) /\ In j (leaves s)) \/
   ((forall s, In s clusters -> ~ In i (leaves s)) /\ (forall s, In s clusters -> ~ In j (leaves s)))).
Proof.
  intros Sh Hi Hj. split.
  - intros E. destruct (nth_error labels i) as [[|k]|] eqn:Ei.
    + right. split; apply (shows_zero labels); auto.
    + left. destruct (shows_in _ _ _ _ Sh Ei) as (s & Hs & His). destruct (shows_in _ _ j k Sh (eq_sym E)) as (s' & Hs' & Hjs).
      assert (s' = s) by congruence. subst s'. exists s. splits; auto. eapply nth_error_In; eauto.
    + apply nth_error_None in Ei. lia.
  - intros [(s & Hs & His & Hjs)|(H1 & H2)].
    + apply In_nth_error in Hs as (k & Hk). rewrite (proj1 Sh k s i Hk His), (proj1 Sh k s j Hk Hjs). auto.
    + apply (shows_zero labels) in H1, H2; auto. congruence.
Qed.

Lemma Forall2_left {A B} (R : A -> B -> Prop) L L' a : Forall2 R L L' -> In a L -> exists b, In b L' /\ R a b.
Proof. induction 1; intros Hin; [destruct Hin|]. destruct Hin as [<-|Hin]; [eexists; split; [left|]; eauto|]. destruct (IHForall2 Hin) as (b & Hb & Hr). exists b. split; auto. right. auto. Qed.
Lemma Forall2_right {A B} (R : A -> B -> Prop) L L' b : Forall2 R L L' -> In b L' -> exists a, In a L /\ R a b.
Proof. induction 1; intros Hin; [destruct Hin|]. destruct Hin as [<-|Hin]; [eexists; split; [left|]; eauto|]. destruct (IHForall2 Hin) as (a & Ha & Hr). exists a. split; auto. right. auto. Qed.

Lemma matched_labels n f labels labels' (clusters clusters' : list slink) :
  (forall i, i < n -> f i < n) -> (forall i j, i < n -> j < n -> f i = f j -> i = j) ->
  length labels = n -> length labels' = n -> shows labels clusters -> shows labels' clusters' ->
  (forall s x, In s clusters -> In x (leaves s) -> x < n) ->
  matched (mirror f) clusters clusters' -> same_partition n f labels labels'.
Proof.
  intros Hf Inj L L' Sh Sh' Hr (L'' & P & F).
  assert (In1 : forall s s' i, In s clusters -> mirror f s s' -> i < n -> (In i (leaves s) <-> In (f i) (leaves s'))).
  { intros s s' i Hs M Hi. pose proof (mirror_leaves f s s' M) as Q. split; intros H.
    - eapply Permutation_in; [exact Q|]. now apply in_map.
    - apply (Permutation_in _ (Permutation_sym Q)) in H. apply in_map_iff in H as (x & E & Hx). rewrite <- (Inj x i); auto. eapply Hr; eauto. }
  assert (To : forall s, In s clusters -> exists s', In s' clusters' /\ mirror f s s').
  { intros s Hs. destruct (Forall2_left _ _ _ _ F Hs) as (s' & Hs' & M). exists s'. split; auto. eapply Permutation_in; [symmetry; exact P|auto]. }
  assert (Fro : forall s', In s' clusters' -> exists s, In s clusters /\ mirror f s s').
  { intros s' Hs'. apply (Permutation_in _ P) in Hs'. destruct (Forall2_right _ _ _ _ F Hs') as (s & Hs & M). eauto. }
  assert (Z : forall i, i < n -> ((forall s, In s clusters -> ~ In i (leaves s)) <-> (forall s, In s clusters' -> ~ In (f i) (leaves s)))).
  { intros i Hi. split; intros H s Hs Hin.
    - destruct (Fro s Hs) as (s0 & Hs0 & M). apply (H s0 Hs0). apply (In1 s0 s); auto.
    - destruct (To s Hs) as (s0 & Hs0 & M). apply (H s0 Hs0). apply (In1 s s0); auto. }
  split.
  - intros i Hi. rewrite (shows_zero labels clusters), (shows_zero labels' clusters') by (auto; rewrite ?L, ?L'; auto). auto.
  - intros i j Hi Hj. rewrite (shows_same labels clusters), (shows_same labels' clusters') by (auto; rewrite ?L, ?L'; auto).
    rewrite <- (Z i Hi), <- (Z j Hj).
    assert (C : (exists s, In s clusters /\ In i (leaves s) /\ In j (leaves s)) <-> (exists s, In s clusters' /\ In (f i) (leaves s) /\ In (f j) (leaves s))).
    { split; intros (s & Hs & A & B).
      - destruct (To s Hs) as (s0 & Hs0 & M). exists s0. splits; auto; apply (In1 s s0); auto.
      - destruct (Fro s Hs) as (s0 & Hs0 & M). exists s0. splits; auto; apply (In1 s0 s); auto. }
    tauto.
Qed.
End Labels.

(** ** Weights without ties *)
Section Untied.
Context {D : Type} (lt : D -> D -> bool).

Fixpoint untied (l : list D) : Prop :=
  match l with [] => True | x :: l' => (forall y, In y l' -> lt x y = true \/ lt y x = true) /\ untied l' end.

Lemma untied_perm l l' : Permutation l l' -> untied l -> untied l'.
Proof.
  induction 1 as [|x l l' P IH|x y l|l1 l2 l3 P1 IH1 P2 IH2]; cbn [untied]; auto.
  - intros (H & U). split; auto. intros y Hy. apply H. eapply Permutation_in; [symmetry; exact P|auto].
  - intros (H1 & H2 & U). splits; auto.
    + intros z [<-|Hz]; auto. destruct (H1 x); auto. left. auto.
    + intros z Hz. apply H1. right. auto.
Qed.

Lemma untied_app l l' : untied (l ++ l') -> untied l /\ untied l'.
Proof.
  induction l as [|x l IH]; cbn [untied app]; auto. intros (H & U). destruct (IH U). splits; auto. intros y Hy. apply H, in_or_app. auto.
Qed.

Lemma untied_strict (s : slink D) : dendrogram lt s -> untied (levels s) -> strict lt s.
Proof.
  induction s as [i|i v n l IHl r IHr]; cbn [dendrogram levels untied strict]; auto.
  intros (_ & _ & Hv & Dl & Dr) (H & U). apply untied_app in U as (Ul & Ur). splits; auto.
  intros x Hx. destruct (H x Hx) as [E|E]; auto. rewrite (Hv x Hx) in E. discriminate.
Qed.

Lemma edges_untied n d (E : list (nat * nat * D)) : no_ties lt n d -> (forall a b w, In (a, b, w) E -> a < n /\ b < n /\ w = d a b) ->
  forall R, indep R (ends E) -> untied (map snd E).
Proof.
  intros NT. induction E as [|[[a b] w] E IH]; intros HE R Hind; cbn [map untied snd]; auto.
  change (ends ((a, b, w) :: E)) with ((a, b) :: ends E) in Hind. cbn [indep] in Hind. destruct Hind as (Hab & Hind). split.
  - intros y Hy. apply in_map_iff in Hy as ([[c e] w'] & <- & Hin). cbn [snd].
    destruct (HE a b w) as (A1 & A2 & ->); [left; auto|]. destruct (HE c e w') as (B1 & B2 & ->); [right; auto|].
    assert (Nl : ~ linked ((a, b) :: R) c e).
    { apply in_split in Hin as (E1 & E2 & ->). rewrite ends_app in Hind. change (ends ((c, e, d c e) :: E2)) with ((c, e) :: ends E2) in Hind. apply indep_snoc in Hind.
      intros HL. apply Hind. revert HL. apply linked_mono. intros x y H. apply in_or_app. auto. }
    destruct (lt (d a b) (d c e)) eqn:L1; auto. destruct (lt (d c e) (d a b)) eqn:L2; auto. exfalso.
    assert (Hne1 : a <> b) by (intros ->; apply Hab; constructor).
    assert (Hne2 : c <> e) by (intros ->; apply Nl; constructor).
    destruct (NT a b c e) as [(<- & <-)|(<- & <-)]; auto.
    + apply Nl. apply linked_in. left. auto.
    + apply Nl. apply linked_sym. apply linked_in. left. auto.
  - apply (IH (fun a b w H => HE a b w (or_intror H)) _ Hind).
Qed.
End Untied.
