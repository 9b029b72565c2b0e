(** Lemmas on condensed trees with stabilities of any type and in floating point. *)
From Coq Require Import Reals List Arith ZArith QArith Qreals Bool Lia Lra Psatz Permutation.
From Flocq Require Import Core BinarySingleNaN Relative.
From Verif Require Import Base SlinkModel SlinkSpec SlinkProofs CondensedModel CondensedSpec CondensedProofs CondensedProps
  FloatModel FloatProofs AccuracySpec AccuracyProofs FloatSilhouetteModel FloatSilhouetteProofs FloatKMeansProofs FloatAliasProofs
  FloatCondensedModel FloatCondensedSpec.
Import ListNotations.
Local Open Scope nat_scope.

Set Default Proof Using "Type".

(** ** Any arithmetic *)
Section Tree.
Context {D V : Type} (zero : V) (inverse : D -> V) (excess : V -> nat -> V -> V -> V) (plus : V -> V -> V) (greater : V -> V -> bool).
Context (iq : D -> Q).
Notation slink := (slink D).
Notation cnode := (cnode D).
Notation fnode := (fnode D V).
Notation fselect := (fselect plus greater).

(** The two trees have the same nodes; marks as [fcondense] leaves them. *)
Fixpoint same (c : cnode) (f : fnode) : Prop :=
  match c, f with
  | CLeaf s _ _ _, FLeaf s' _ _ b => s = s' /\ b = true
  | CSplit s _ _ _ l r, FSplit s' _ _ b l' r' => s = s' /\ b = false /\ same l l' /\ same r r'
  | _, _ => False
  end.

Lemma same_condense min : forall s root lm st lm' st',
  same (condense iq min root lm st s) (fcondense zero inverse excess min root lm' st' s).
Proof.
  induction s as [i|i v n l IHl r IHr]; intros root lm st lm' st'; cbn [condense fcondense]; [split; reflexivity|].
  destruct (min <=? sl_size l), (min <=? sl_size r); cbn [andb]; auto.
  - cbn [same]. splits; auto.
  - split; reflexivity.
Qed.

Lemma same_root c f : same c f -> fn_root f = cn_root c.
Proof. destruct c, f; simpl; intros H; try contradiction; destruct H as [-> _]; reflexivity. Qed.

(** The nodes that [fselect] leaves to be found. *)
Fixpoint fpick (c : cnode) (f : fnode) : list cnode :=
  match c, f with
  | CSplit _ _ _ _ cl cr, FSplit _ _ q _ fl fr =>
      if greater (plus (fst (fselect fl)) (fst (fselect fr))) q then fpick cl fl ++ fpick cr fr else [c]
  | _, _ => [c]
  end.

Lemma select_pick c : forall f, same c f -> exists fs, fshallowest (snd (fselect f)) = Ok fs /\
  map fn_root fs = map cn_root (fpick c f) /\ fn_root (snd (fselect f)) = cn_root c /\ fn_is_leaf (snd (fselect f)) = cn_is_leaf c.
Proof.
  induction c as [s m q b|s m q b l IHl r IHr]; intros [s' m' q' b'|s' m' q' b' l' r'] H; cbn [same] in H; try contradiction.
  - destruct H as [-> ->]. eexists. splits; reflexivity.
  - destruct H as (-> & -> & Hl & Hr). destruct (IHl l' Hl) as (al & El & Kl & _). destruct (IHr r' Hr) as (ar & Er & Kr & _).
    cbn [FloatCondensedModel.fselect fpick]. destruct (fselect l') as [ql l1], (fselect r') as [qr r1]. cbn [fst snd] in *.
    destruct (greater (plus ql qr) q').
    + exists (al ++ ar). cbn [fst snd fshallowest fn_selected fn_root cn_root fn_is_leaf cn_is_leaf]. rewrite El. cbn [bind]. rewrite Er. cbn [bind]. splits; auto.
      rewrite !map_app. congruence.
    + eexists. splits; reflexivity.
Qed.

Lemma pick_facts c : forall f, same c f -> tree_ok c -> NoDup (cleaves c) ->
  (forall y, In y (fpick c f) -> inside c y) /\ NoDup (flat_map cleaves (fpick c f)) /\ covering c (fpick c f) /\ fpick c f <> [].
Proof.
  assert (One : forall T : cnode, NoDup (cleaves T) -> (forall y, In y [T] -> inside T y) /\ NoDup (flat_map cleaves [T]) /\ covering T [T] /\ [T] <> []).
  { intros T Hn. splits.
    - intros y [<-|[]]. constructor.
    - simpl. rewrite app_nil_r. exact Hn.
    - intros y Hf _. eexists. split; [left; reflexivity|exact Hf].
    - discriminate. }
  induction c as [s m q b|s m q b l IHl r IHr]; intros [s' m' q' b'|s' m' q' b' l' r'] HS H Hn; cbn [same] in HS; try contradiction.
  - cbn [fpick]. auto.
  - destruct HS as (-> & -> & Sl & Sr). cbn [fpick]. destruct (greater _ _); auto.
    pose proof H as (Hl & Hr & _). destruct (split_nodup _ _ _ _ _ _ H Hn) as (Nl & Nr & Dis).
    destruct (IHl l' Sl Hl Nl) as (Il & Fl & Cl & Wl). destruct (IHr r' Sr Hr Nr) as (Ir & Fr & Cr & Wr). splits.
    + intros y Hy. apply in_app_or in Hy as [Hy|Hy]; [apply inside_left|apply inside_right]; auto.
    + eapply join_disjoint; eauto.
    + apply cover_join; auto.
    + intros E. apply Wl. now apply app_eq_nil in E as [-> _].
Qed.

Lemma finals_same c : forall f, same c f -> exists fs, fshallowest f = Ok fs /\ map fn_root fs = map cn_root (finals c).
Proof.
  induction c as [s m q b|s m q b l IHl r IHr]; intros [s' m' q' b'|s' m' q' b' l' r'] H; cbn [same] in H; try contradiction.
  - destruct H as [-> ->]. eexists. splits; reflexivity.
  - destruct H as (-> & -> & Hl & Hr). destruct (IHl l' Hl) as (al & El & Kl). destruct (IHr r' Hr) as (ar & Er & Kr).
    exists (al ++ ar). cbn [fshallowest fn_selected finals]. rewrite El. cbn [bind]. rewrite Er. cbn [bind]. splits; auto. rewrite !map_app. congruence.
Qed.

(** The chosen nodes, by option. *)
Definition fpicked (o : condensed_options) (c : cnode) (f : fnode) : list cnode :=
  if return_leaf_nodes o then finals c
  else match c, f with
       | CSplit _ _ _ _ l r, FSplit _ _ _ _ l' r' => if allow_single_cluster o then fpick c f else fpick l l' ++ fpick r r'
       | _, _ => [c]
       end.

Section Labels.
Context (lt : D -> D -> bool) (root : slink) (n : nat) (Hdend : dendrogram lt root) (Hleaves : Permutation (leaves root) (seq 0 n)).
Notation ctree min := (build_condensed iq min root).
Notation ftree min := (fbuild zero inverse excess min root).
Notation made o := (fmake zero inverse excess plus greater o root).
Notation picks o := (fpicked o (ctree (min_cluster_size o)) (ftree (min_cluster_size o))).

Lemma made_picked o : exists fs, fshallowest (made o) = Ok fs /\ map fn_root fs = map cn_root (picks o) /\ fn_root (made o) = root.
Proof.
  pose proof (same_condense (min_cluster_size o) root root 0%Q 0%Q zero zero) as S.
  pose proof (condense_root iq (min_cluster_size o) root 0%Q 0%Q root) as R.
  unfold fmake, fpicked, build_condensed, fbuild in *. set (c := condense _ _ _ _ _ _) in *. set (f := fcondense _ _ _ _ _ _ _ _) in *.
  destruct (return_leaf_nodes o).
  - destruct (finals_same c f S) as (fs & E & K). exists fs. splits; auto. rewrite (same_root _ _ S). exact R.
  - destruct (select_pick c f S) as (fs & E & K & Hr & Hl).
    destruct c as [s m q b|s m q b l r] eqn:Ec, f as [s' m' q' b'|s' m' q' b' l' r'] eqn:Ef; cbn [same] in S; try contradiction.
    + destruct S as [-> ->]. cbn [FloatCondensedModel.fselect fn_is_leaf negb]. rewrite andb_false_r. eexists. splits; try reflexivity. exact R.
    + destruct (allow_single_cluster o).
      * destruct (fselect (FSplit s' m' q' b' l' r')) as [x c'] eqn:ES. cbn [negb andb fst snd] in *. exists fs. splits; auto. congruence.
      * destruct S as (-> & -> & Sl & Sr). destruct (select_pick l l' Sl) as (al & El & Kl & _). destruct (select_pick r r' Sr) as (ar & Er & Kr & _).
        cbn [FloatCondensedModel.fselect] in Hl |- *. destruct (fselect l') as [ql l1], (fselect r') as [qr r1]. cbn [fst snd] in *.
        exists (al ++ ar). destruct (greater (plus ql qr) q'); cbn [negb andb fn_is_leaf fn_set_selected fshallowest fn_selected fn_root snd];
          rewrite El; cbn [bind]; rewrite Er; cbn [bind]; (splits; [reflexivity|rewrite !map_app; congruence|exact R]).
Qed.

Lemma picked_ok o : (forall c, In c (picks o) -> inside (ctree (min_cluster_size o)) c) /\
  NoDup (flat_map cleaves (picks o)) /\ covering (ctree (min_cluster_size o)) (picks o) /\ picks o <> [].
Proof using Hdend Hleaves.
  pose proof (same_condense (min_cluster_size o) root root 0%Q 0%Q zero zero) as S.
  pose proof (tree_tree_ok iq root (min_cluster_size o)) as H.
  pose proof (tree_nodup iq root n Hleaves (min_cluster_size o)) as Hn.
  unfold build_condensed, fbuild in *. set (c := condense _ _ _ _ _ _) in *. set (f := fcondense _ _ _ _ _ _ _ _) in *.
  assert (Fin : forall T : cnode, finals T <> []).
  { induction T as [|? ? ? ? l IHl r _]; [discriminate|]. cbn [finals]. intros E. apply IHl. now apply app_eq_nil in E as [-> _]. }
  unfold fpicked. destruct (return_leaf_nodes o).
  - destruct (finals_facts _ H Hn) as [P Q]. splits; auto.
    + intros y Hy. now apply P.
    + intros y Hy Hl. exists y. split; [now apply P|constructor].
  - destruct c as [s m q b|s m q b l r] eqn:Ec, f as [s' m' q' b'|s' m' q' b' l' r'] eqn:Ef; cbn [same] in S; try contradiction.
    + apply (pick_facts (CLeaf s m q b) (FLeaf s' m' q' b')); auto.
    + destruct (allow_single_cluster o); [apply (pick_facts (CSplit s m q b l r) (FSplit s' m' q' b' l' r')); auto|].
      destruct S as (-> & -> & Sl & Sr). pose proof H as (Hl & Hr & _). destruct (split_nodup _ _ _ _ _ _ H Hn) as (Nl & Nr & Dis).
      destruct (pick_facts l l' Sl Hl Nl) as (Il & Fl & Cl & Wl). destruct (pick_facts r r' Sr Hr Nr) as (Ir & Fr & Cr & Wr). splits.
      * intros y Hy. apply in_app_or in Hy as [Hy|Hy]; [apply inside_left|apply inside_right]; auto.
      * eapply join_disjoint; eauto.
      * apply cover_join; auto.
      * intros E. apply Wl. now apply app_eq_nil in E as [-> _].
Qed.

Lemma same_loop : forall (fs : list fnode) (cs : list cnode), map fn_root fs = map cn_root cs -> forall st : nat * list nat,
  for_each fs (fun c (st : nat * list nat) =>
      let '(cluster_label, flat_cluster) := st in
      flat_cluster <- fill_label cluster_label (fn_root c) flat_cluster ;;
      Ok (S cluster_label, flat_cluster)) st =
  for_each cs (fun c (st : nat * list nat) =>
      let '(cluster_label, flat_cluster) := st in
      flat_cluster <- fill_label cluster_label (cn_root c) flat_cluster ;;
      Ok (S cluster_label, flat_cluster)) st.
Proof.
  induction fs as [|f fs IH]; intros [|c cs] E [k fc]; try discriminate; [reflexivity|].
  cbn [map] in E. injection E as E1 E2. cbn [for_each]. rewrite E1. destruct (fill_label k (cn_root c) fc); cbn [bind]; auto.
Qed.

Lemma flabels_ok o : exists labels, fextract (made o) = Ok labels /\ length labels = n /\
  shows labels (map cn_root (picks o)) /\ flat_clustering (min_cluster_size o) root (map cn_root (picks o)) /\
  covers_finest (min_cluster_size o) root (map cn_root (picks o)).
Proof using Hdend Hleaves.
  destruct (made_picked o) as (fs & E & K & R). destruct (picked_ok o) as (P1 & P2 & P3 & P4).
  unfold fextract. rewrite E. cbn [bind]. rewrite R, (same_loop _ _ K). set (cs := picks o) in *.
  assert (Hlt : forall x, In x (flat_map cleaves cs) -> x < n).
  { intros x Hx. apply (in_root root n Hleaves). rewrite <- (tree_root iq root (min_cluster_size o)).
    apply (flat_inside (ctree (min_cluster_size o)) cs); auto. apply tree_tree_ok. }
  assert (Hsz : sl_size root = n) by (rewrite (sized_size root (dendrogram_sized lt root Hdend)); apply (root_length root n Hleaves)).
  destruct (fill_all cs 1 (repeat 0 (sl_size root))) as (fc & E1 & L1 & O1 & V1); auto.
  { intros x Hx. rewrite repeat_length, Hsz. auto. }
  rewrite E1. cbn [bind]. exists fc. splits; auto.
  - rewrite L1, repeat_length. auto.
  - split.
    + intros k s x Hk Hx. rewrite nth_error_map in Hk. destruct (nth_error cs k) as [c|] eqn:Ec; [|discriminate].
      simpl in Hk. inversion Hk; subst s. exact (V1 x k c Ec Hx).
    + intros x Hx Hno. rewrite O1.
      * rewrite L1, repeat_length in Hx. rewrite nth_error_repeat; auto.
      * intros Hin. apply in_flat_map in Hin as (c & Hc & Hxc). apply (Hno (cn_root c)); auto. now apply in_map.
  - split.
    + apply Forall_forall. intros s Hs. apply in_map_iff in Hs as (c & <- & Hc). apply (clusters_inside iq); [exact (dendrogram_sized lt root Hdend)|]. eauto.
    + rewrite flat_roots. auto.
  - intros s Hs. pose proof (proj1 Hs) as Hs'. apply (clusters_inside iq) in Hs' as (f & Hf & <-); [|exact (dendrogram_sized lt root Hdend)].
    destruct (P3 f Hf) as (y & Hy & Hyf). { now apply (finest_leaf lt iq root n Hdend Hleaves (min_cluster_size o)). }
    exists (cn_root y). split; [now apply in_map|]. apply inside_descendant; auto. eapply inside_ok; [apply tree_tree_ok|auto].
Qed.
End Labels.
End Tree.

(** ** Rounded arithmetic *)
Local Open Scope R_scope.
Section Binary.
Context (prec emax : Z) (Hp : Prec_gt_0 prec) (Hm : Prec_lt_emax prec emax).
Context (Hprec : (2 <= prec)%Z) (Hemax : (2 * prec + 2 <= emax)%Z).
Notation number := (binary_float prec emax).
Notation emin := (3 - emax - prec)%Z.
Notation fexp := (FLT_exp emin prec).
Notation fmt := (generic_format radix2 fexp).
Notation rnd := (round radix2 fexp ZnearestE).
Notation top := (bpow radix2 emax).
Notation level := (level prec emax).
Notation good := (good prec emax).
Notation u := (roundoff prec).
Notation count := (count prec emax Hp Hm).
Notation one := (Bone (prec_gt_0_ := Hp) (prec_lt_emax_ := Hm)).
Notation inv := (float_inverse prec emax Hp Hm).
Notation excess := (float_excess prec emax Hp Hm).
Notation ordinary := (ordinary_level prec emax).
Implicit Types x y z : number.

Lemma Hwide : (prec + 3 <= emax)%Z.
Proof using Hprec Hemax. lia. Qed.

Lemma exact_value x : is_finite x = true -> Q2R (exact x) = B2R x.
Proof.
  destruct x as [s|s| |s m e H]; intros F; try discriminate; unfold exact, Q2R; cbn [B2R Qnum Qden]; [lra|].
  unfold F2R. cbn [Fnum Fexp]. rewrite mult_IZR.
  rewrite Z2Pos.id by (apply Z.pow_pos_nonneg; lia). rewrite !(pow_Z). 2, 3: lia.
  rewrite Rmult_assoc. f_equal. rewrite <- bpow_opp, <- bpow_plus. f_equal. lia.
Qed.

(** Multiples of the smallest positive number are rounded with a relative error. *)
Lemma rnd_units r (k : Z) : r = IZR k * bpow radix2 emin -> Rabs (rnd r - r) <= u * Rabs r.
Proof using Hp Hprec.
  intros E. pose proof (u_range prec Hprec) as U. destruct (Rle_lt_dec (bpow radix2 (emin + prec - 1)) (Rabs r)) as [H|H].
  - pose proof (relative_error_N_FLT radix2 emin prec Hp (fun n => negb (Z.even n)) r H) as K.
    replace u with (/ 2 * bpow radix2 (- prec + 1)); [exact K|]. unfold roundoff. rewrite bpow_plus. simpl (bpow radix2 1). lra.
  - replace (rnd r) with r; [rewrite Rminus_eq_0, Rabs_R0; pose proof (Rabs_pos r); nra|]. symmetry.
    apply round_generic; [auto with typeclass_instances|].
    apply generic_format_FLT. exists (Float radix2 k emin); auto.
    + cbn [Fnum]. assert (Hk : Rabs (IZR k) < bpow radix2 (prec - 1)).
      { rewrite E, Rabs_mult, (Rabs_pos_eq (bpow radix2 emin)) in H by apply bpow_ge_0.
        apply Rmult_lt_reg_r with (bpow radix2 emin); [apply bpow_gt_0|]. rewrite <- bpow_plus. replace (prec - 1 + emin)%Z with (emin + prec - 1)%Z by lia. exact H. }
      rewrite <- abs_IZR in Hk. apply lt_IZR. rewrite (IZR_Zpower radix2) by lia. apply Rlt_le_trans with (1 := Hk). apply bpow_le. lia.
    + cbn [Fexp]. lia.
Qed.

Lemma epsilon_ok : is_finite (epsilon prec emax Hp Hm) = true /\ B2R (epsilon prec emax Hp Hm) = bpow radix2 (1 - prec).
Proof using Hprec Hemax.
  pose proof (binary_normalize_correct prec emax Hp Hm mode_NE 1 (1 - prec) false) as H. cbv zeta in H. cbn [round_mode] in H.
  change (SpecFloat.fexp prec emax) with fexp in H.
  assert (E : F2R (Float radix2 1 (1 - prec)) = bpow radix2 (1 - prec)) by (unfold F2R; cbn [Fnum Fexp]; lra).
  rewrite E in H. rewrite (rnd_id prec emin) in H by (apply fmt_bpow; auto; lia).
  rewrite Rlt_bool_true in H; [tauto|]. rewrite Rabs_pos_eq by apply bpow_ge_0. apply bpow_lt. lia.
Qed.

Lemma ordinary_good v : ordinary v -> good v /\ is_finite v = true /\ Bsign v = false /\ 0 < B2R v.
Proof.
  intros (F & H1 & _). pose proof (bpow_gt_0 radix2 (1 - prec)) as P.
  assert (S : Bsign v = false).
  { destruct v as [s|s| |[|] m e Hb]; try discriminate; cbn [B2R] in H1; auto; [lra|].
    exfalso. assert (F2R (Float radix2 (cond_Zopp true (Zpos m)) e) < 0) by (apply F2R_lt_0; simpl; lia). lra. }
  splits; auto; [now apply good_finite|lra].
Qed.

Lemma inv_bounds v : ordinary v -> bpow radix2 (2 - emax) <= / B2R v <= bpow radix2 (prec - 1).
Proof.
  intros (F & H1 & H2). pose proof (bpow_gt_0 radix2 (1 - prec)) as P. split.
  - replace (2 - emax)%Z with (- (emax - 2))%Z by lia. rewrite bpow_opp. apply Rinv_le; lra.
  - replace (prec - 1)%Z with (- (1 - prec))%Z by lia. rewrite bpow_opp. apply Rinv_le; lra.
Qed.

Lemma inv_ok v : ordinary v -> good (inv v) /\ is_finite (inv v) = true /\ B2R (inv v) = rnd (/ B2R v) /\
  Rabs (B2R (inv v) - / B2R v) <= u * / B2R v.
Proof using Hprec Hemax.
  intros O. destruct (ordinary_good v O) as (G & F & S & P). pose proof (inv_bounds v O) as (B1 & B2).
  destruct epsilon_ok as (Fe & Ee). pose proof O as (_ & H1 & _).
  pose proof (bpow_gt_0 radix2 (2 - emax)) as P2.
  pose proof (generic_format_B2R prec emax v) as Mv. change (SpecFloat.fexp prec emax) with fexp in Mv.
  assert (Q : Bleb (Babs (Bminus mode_NE (B754_zero false) v)) (epsilon prec emax Hp Hm) = false).
  { destruct (minus_ok prec emax Hp Hm Hprec (B754_zero false) v eq_refl F) as (N & L).
    destruct (level_abs prec emax _ N) as (Ga & _). cbn [B2R] in L.
    replace (Rabs (0 - B2R v)) with (B2R v) in L by (rewrite Rabs_left; lra).
    rewrite (rnd_id prec emin) in L by auto. pose proof (finite_below prec emax v F) as T. rewrite Rabs_pos_eq in T by lra.
    unfold cap in L. rewrite Rmin_left in L by lra.
    set (a := Babs _) in *. assert (Fa : is_finite a = true) by (apply (finite_level prec emax); auto; rewrite L; lra).
    unfold FloatProofs.level in L. rewrite Fa in L. rewrite Bleb_correct by auto. rewrite L, Ee. apply Rle_bool_false. exact H1. }
  unfold float_inverse. rewrite Q. destruct (one_ok prec emax Hp Hm) as (F1 & E1 & S1).
  destruct (div_ok prec emax Hp Hm Hprec Hwide one v (good_finite prec emax _ F1 S1) F S P) as (Gq & Lq & _). specialize (Lq F1).
  rewrite E1 in Lq. replace (1 / B2R v) with (/ B2R v) in Lq by (unfold Rdiv; lra).
  assert (K : Rabs (rnd (/ B2R v) - / B2R v) <= u * / B2R v).
  { pose proof (relative_error_N_FLT radix2 emin prec Hp (fun n => negb (Z.even n)) (/ B2R v)) as K.
    rewrite (Rabs_pos_eq (/ B2R v)) in K by lra. replace (emin + prec - 1)%Z with (2 - emax)%Z in K by lia. specialize (K B1).
    replace u with (/ 2 * bpow radix2 (- prec + 1)); [exact K|]. unfold roundoff. rewrite bpow_plus. simpl (bpow radix2 1). lra. }
  assert (Lt : rnd (/ B2R v) < top).
  { apply Rle_lt_trans with (bpow radix2 (prec - 1)); [|apply bpow_lt; lia].
    rewrite <- (rnd_id prec emin (bpow radix2 (prec - 1))) by (apply fmt_bpow; auto; lia). apply rnd_le; auto. }
  unfold cap in Lq. rewrite Rmin_left in Lq by lra.
  assert (Fq : is_finite (Bdiv mode_NE one v) = true) by (apply (finite_level prec emax); auto; rewrite Lq; exact Lt).
  unfold FloatProofs.level in Lq. rewrite Fq in Lq. splits; auto. rewrite Lq. exact K.
Qed.

Lemma inv_mono v w : ordinary v -> ordinary w -> B2R v <= B2R w -> B2R (inv w) <= B2R (inv v) /\ / B2R w <= / B2R v.
Proof using Hprec Hemax.
  intros Ov Ow H. destruct (ordinary_good v Ov) as (_ & _ & _ & Pv).
  assert (I : / B2R w <= / B2R v) by (apply Rinv_le; lra). split; auto.
  destruct (inv_ok v Ov) as (_ & _ & -> & _). destruct (inv_ok w Ow) as (_ & _ & -> & _). now apply rnd_le.
Qed.

(** One addition to a stability. *)
Lemma excess_ok fused st k l m : good st -> is_finite st = true -> good l -> is_finite l = true -> good m -> is_finite m = true ->
  B2R m <= B2R l -> (1 <= k)%nat -> (Z.of_nat k <= 2 ^ prec)%Z ->
  B2R st <= bpow radix2 (2 * prec - 1) -> INR k * (B2R l - B2R m) <= bpow radix2 (2 * prec - 1) ->
  let st' := excess fused st k l m in
  good st' /\ is_finite st' = true /\
  Rabs (B2R st' - (B2R st + INR k * (B2R l - B2R m))) <= u * B2R st + ((1 + u) ^ 3 - 1) * (INR k * (B2R l - B2R m)).
Proof using Hprec Hemax.
  intros Gs Fs Gl Fl Gm Fm Hml Hk Hk2 Bs Bk. cbv zeta.
  pose proof (u_range prec Hprec) as U. destruct U as (U0 & U1).
  destruct (good_inv prec emax st Gs) as [->|(_ & Ss & Ps)]; [discriminate|].
  destruct (good_inv prec emax l Gl) as [->|(_ & Sl & Pl)]; [discriminate|].
  destruct (good_inv prec emax m Gm) as [->|(_ & Sm & Pm)]; [discriminate|].
  pose proof (generic_format_B2R prec emax l) as Ml. change (SpecFloat.fexp prec emax) with fexp in Ml.
  pose proof (generic_format_B2R prec emax m) as Mm. change (SpecFloat.fexp prec emax) with fexp in Mm.
  pose proof (generic_format_B2R prec emax st) as Ms. change (SpecFloat.fexp prec emax) with fexp in Ms.
  pose proof (finite_below prec emax l Fl) as Tl. rewrite Rabs_pos_eq in Tl by lra.
  set (B := bpow radix2 (2 * prec - 1)) in *.
  assert (HB : 0 < B) by apply bpow_gt_0.
  assert (HT : 8 * B <= top).
  { replace 8 with (bpow radix2 3) by reflexivity. unfold B. rewrite <- bpow_plus. apply bpow_le. lia. }
  assert (K1 : 1 <= INR k) by (replace 1 with (INR 1) by reflexivity; apply le_INR; lia).
  set (t := Bminus mode_NE l m).
  assert (Ht : good t /\ is_finite t = true /\ B2R t = rnd (B2R l - B2R m)).
  { pose proof (Bminus_correct prec emax Hp Hm mode_NE l m Fl Fm) as C. cbn [round_mode] in C. change (SpecFloat.fexp prec emax) with fexp in C.
    assert (R0 : 0 <= rnd (B2R l - B2R m) <= B2R l).
    { split; [apply (rnd_nonneg prec emax Hprec); lra|]. rewrite <- (rnd_id prec emin (B2R l)) at 2 by auto. apply rnd_le; auto. lra. }
    assert (L : Rabs (rnd (B2R l - B2R m)) < top) by (rewrite Rabs_pos_eq; lra).
    rewrite Rlt_bool_true in C by exact L. destruct C as (E & F & S). fold t in E, F, S. splits; auto.
    apply good_finite; auto. rewrite S. destruct (Rcompare_spec (B2R l - B2R m) 0); auto; [lra|]. rewrite Sl, Sm. reflexivity. }
  destruct Ht as (Gt & Ft & Et).
  assert (D1 : Rabs (B2R t - (B2R l - B2R m)) <= u * (B2R l - B2R m)).
  { rewrite Et. rewrite <- (Rabs_pos_eq (B2R l - B2R m)) at 3 by lra.
    apply (rnd_plus prec emax Hp Hprec (B2R l) (- B2R m)); auto. now apply generic_format_opp. }
  apply Rabs_le_inv in D1. destruct (good_inv prec emax t Gt) as [->|(_ & St & Pt)]; [discriminate|].
  pose proof (count_exact prec emax Hp Hm Hprec Hwide k Hk Hk2) as Ck.
  assert (Hk3 : (Z.of_nat k <= 2 ^ (emax - 1))%Z).
  { apply Z.le_trans with (1 := Hk2). apply Z.pow_le_mono_r; lia. }
  destruct (count_ok prec emax Hp Hm Hprec Hwide k Hk Hk3) as (Fc & Sc & _ & _).
  set (d := B2R l - B2R m) in *. set (K := INR k) in *. assert (Hd : 0 <= d) by (unfold d; lra).
  assert (Hkd : 0 <= K * d) by nra.
  assert (D2 : K * d - u * (K * d) <= K * B2R t <= K * d + u * (K * d)) by (split; nra).
  pose proof (generic_format_B2R prec emax t) as Mt. change (SpecFloat.fexp prec emax) with fexp in Mt.
  destruct (multiple_emin prec emin _ Mt) as (zt & Zt). destruct (multiple_emin prec emin _ Ms) as (zs & Zs).
  unfold float_excess. fold t. cbv zeta. destruct fused.
  - assert (N : Rabs (rnd (K * B2R t + B2R st) - (K * B2R t + B2R st)) <= u * (K * B2R t + B2R st)).
    { rewrite <- (Rabs_pos_eq (K * B2R t + B2R st)) at 3 by nra. apply (rnd_units _ (Z.of_nat k * zt + zs)).
      rewrite Zt, Zs, plus_IZR, mult_IZR. unfold K. rewrite INR_IZR_INZ. ring. }
    pose proof N as N'. apply Rabs_le_inv in N.
    destruct (settle prec emax Hprec (Bfma mode_NE (count k) t st) (K * B2R t + B2R st)) as (G & L); [nra| |].
    { pose proof (Bfma_correct prec emax Hp Hm mode_NE (count k) t st Fc Ft Fs) as C. cbn [round_mode] in C. cbv zeta in C.
      change (SpecFloat.fexp prec emax) with fexp in C. rewrite Ck in C. fold K in C.
      assert (L : Rabs (rnd (K * B2R t + B2R st)) < top).
      { rewrite Rabs_pos_eq by (apply (rnd_nonneg prec emax Hprec); nra). nra. }
      rewrite Rlt_bool_true in C by exact L. rewrite Rlt_bool_true by exact L. destruct C as (E & F & S). splits; auto.
      rewrite S. unfold Bfma_szero. rewrite Sc, St, Ss. destruct (Rcompare_spec (K * B2R t + B2R st) 0); auto. exfalso. nra. }
    assert (Lt : rnd (K * B2R t + B2R st) < top) by nra.
    unfold cap in L. rewrite Rmin_left in L by lra.
    assert (F : is_finite (Bfma mode_NE (count k) t st) = true) by (apply (finite_level prec emax); auto; rewrite L; exact Lt).
    unfold FloatProofs.level in L. rewrite F in L. splits; auto. rewrite L. apply Rabs_le.
    assert (0 <= u * u * (K * d)) by (apply Rmult_le_pos; [nra|auto]).
    assert (0 <= u * u * u * (K * d)) by (apply Rmult_le_pos; [repeat apply Rmult_le_pos; lra|auto]).
    assert (u * (K * B2R t) <= u * (K * d) + u * u * (K * d)) by nra. split; nra.
  - assert (N1 : Rabs (rnd (K * B2R t) - (K * B2R t)) <= u * (K * B2R t)).
    { rewrite <- (Rabs_pos_eq (K * B2R t)) at 3 by nra. apply (rnd_units _ (Z.of_nat k * zt)).
      rewrite Zt, mult_IZR. unfold K. rewrite INR_IZR_INZ. ring. }
    apply Rabs_le_inv in N1.
    destruct (mult_ok prec emax Hp Hm Hprec Hwide (count k) t (good_finite prec emax _ Fc Sc) Fc Gt Ft) as (G1 & L1). rewrite Ck in L1. fold K in L1.
    assert (T1 : rnd (K * B2R t) < top) by nra.
    unfold cap in L1. rewrite Rmin_left in L1 by lra. set (p := Bmult mode_NE (count k) t) in *.
    assert (F1 : is_finite p = true) by (apply (finite_level prec emax); auto; rewrite L1; exact T1).
    destruct (plus_ok prec emax Hp Hm Hprec Hwide st p Gs G1) as (G2 & L2).
    unfold FloatProofs.level in L1. rewrite F1 in L1.
    unfold FloatProofs.level in L2 at 2 3. rewrite Fs, F1, L1 in L2.
    assert (N2 : Rabs (rnd (B2R st + rnd (K * B2R t)) - (B2R st + rnd (K * B2R t))) <= u * (B2R st + rnd (K * B2R t))).
    { assert (0 <= rnd (K * B2R t)) by (apply (rnd_nonneg prec emax Hprec); nra).
      rewrite <- (Rabs_pos_eq (B2R st + rnd (K * B2R t))) at 3 by lra. apply (rnd_plus prec emax); auto. apply fmt_rnd; auto. }
    apply Rabs_le_inv in N2. set (T := rnd (K * B2R t)) in *.
    assert (T2 : rnd (B2R st + T) < top) by nra.
    unfold cap in L2. rewrite Rmin_left in L2 by lra.
    assert (F2 : is_finite (Bplus mode_NE st p) = true) by (apply (finite_level prec emax); auto; rewrite L2; exact T2).
    unfold FloatProofs.level in L2. rewrite F2 in L2. splits; auto. rewrite L2. apply Rabs_le.
    assert (W2 : 0 <= u * u * (K * d)) by (apply Rmult_le_pos; [nra|auto]).
    assert (W3 : 0 <= u * u * u * (K * d)) by (apply Rmult_le_pos; [repeat apply Rmult_le_pos; lra|auto]).
    assert (X1 : u * (K * B2R t) <= u * (K * d) + u * u * (K * d)) by nra.
    assert (X2 : T <= K * d + 2 * u * (K * d) + u * u * (K * d)) by lra.
    assert (X3 : K * d - 2 * u * (K * d) - u * u * (K * d) <= T) by lra.
    assert (X4 : u * T <= u * (K * d) + 2 * u * u * (K * d) + u * u * u * (K * d)) by nra.
    split; nra.
Qed.

(** ** Stabilities *)
Lemma grow_mono' h h' : (h <= h')%nat -> 1 <= (1 + u) ^ h <= (1 + u) ^ h'.
Proof using Hprec.
  intros H. pose proof (u_range prec Hprec) as U. split; [apply pow_R1_Rle; lra|]. apply Rle_pow; auto. lra.
Qed.

Lemma step_close h C K L s st l b lam m st' : (4 <= h)%nat -> 0 <= C -> 0 <= K -> Rabs (st - s) <= rounding prec h (C * L) -> 0 <= s <= C * L ->
  0 <= b <= l -> l <= L -> Rabs (lam - l) <= u * l -> Rabs (m - b) <= u * b -> m <= lam ->
  Rabs (st' - (st + K * (lam - m))) <= u * st + ((1 + u) ^ 3 - 1) * (K * (lam - m)) ->
  Rabs (st' - (s + K * (l - b))) <= rounding prec (S h) ((C + K) * L).
Proof using Hprec.
  intros Hh HC HK H1 Hs Hb Hl H2 H3 Hm' H4. unfold rounding in *. pose proof (u_range prec Hprec) as U.
  set (g := (1 + u) ^ h) in *.
  assert (G5 : (1 + u) ^ 5 <= (1 + u) * g) by (change ((1 + u) * g) with ((1 + u) ^ S h); apply grow_mono'; lia).
  cbn [pow] in *. fold g. apply Rabs_le_inv in H1, H2, H3, H4.
  assert (E1 : lam - m <= (1 + u) * L) by nra.
  assert (E2 : Rabs (lam - m - (l - b)) <= 2 * u * L) by (apply Rabs_le; nra).
  apply Rabs_le_inv in E2.
  assert (KL : 0 <= K * L) by (apply Rmult_le_pos; lra).
  assert (E3 : - (2 * u * (K * L)) <= K * (lam - m) - K * (l - b) <= 2 * u * (K * L)) by (split; nra).
  assert (E4 : K * (lam - m) <= (1 + u) * (K * L)) by nra.
  set (c3 := (1 + u) * ((1 + u) * ((1 + u) * 1)) - 1) in *.
  assert (P3 : 0 <= c3) by (unfold c3; nra).
  assert (E5 : c3 * (K * (lam - m)) <= c3 * ((1 + u) * (K * L))) by (apply Rmult_le_compat_l; auto).
  assert (E6 : u * st <= u * (g * (C * L))) by (apply Rmult_le_compat_l; lra).
  assert (E7 : 2 * u + c3 * (1 + u) <= (1 + u) * g - 1).
  { eapply Rle_trans; [|apply Rplus_le_compat_r; exact G5]. unfold c3. assert (0 <= u ^ 2) by nra. assert (0 <= u ^ 3) by nra. assert (0 <= u ^ 4) by nra. assert (0 <= u ^ 5) by nra. nra. }
  assert (E8 : (2 * u + c3 * (1 + u)) * (K * L) <= ((1 + u) * g - 1) * (K * L)) by (apply Rmult_le_compat_r; auto).
  apply Rabs_le. split; nra.
Qed.

Lemma inverse_value v : ordinary v -> Q2R (exact_inverse v) = / B2R v.
Proof.
  intros O. destruct (ordinary_good v O) as (_ & F & _ & P). unfold exact_inverse. pose proof (exact_value v F) as E.
  rewrite Q2R_div.
  - rewrite E. unfold Rdiv. replace (Q2R 1) with 1 by (unfold Q2R; simpl; lra). lra.
  - intros Z. apply Qeq_eqR in Z. rewrite E in Z. unfold Q2R in Z. simpl in Z. lra.
Qed.

Lemma Q2R_nat k : Q2R (inject_Z (Z.of_nat k)) = INR k.
Proof. unfold Q2R, inject_Z. cbn [Qnum Qden]. rewrite INR_IZR_INZ. lra. Qed.

Section Near.
Context (fused : bool) (min n : nat) (Hn : (Z.of_nat n + 6 <= 2 ^ (prec - 1))%Z).
Notation slink := (slink number).
Notation cnode := (cnode number).
Notation fnode := (fnode number number).
Notation zero := (B754_zero false : number).
Notation weight c := (INR (length (cleaves c))).

Lemma grow_two h : (h <= n + 6)%nat -> (1 + u) ^ h <= 2.
Proof using Hprec Hn.
  intros H. destruct (grow_linear prec Hprec h) as (G & _). pose proof (grow_mono' h h ltac:(lia)) as (G1 & _).
  pose proof (u_range prec Hprec) as U.
  assert (INR h * u <= / 2).
  { assert (P : INR h <= bpow radix2 (prec - 1)).
    { rewrite INR_IZR_INZ, <- (pow_Z (prec - 1)) by lia. apply IZR_le. lia. }
    unfold roundoff in *. apply Rle_trans with (bpow radix2 (prec - 1) * bpow radix2 (- prec)); [apply Rmult_le_compat_r; [apply bpow_ge_0|auto]|].
    rewrite <- bpow_plus. replace (prec - 1 + - prec)%Z with (-1)%Z by lia. simpl. lra. }
  assert ((1 + u) ^ h * / 2 <= (1 + u) ^ h * (1 - INR h * u)) by (apply Rmult_le_compat_l; lra). lra.
Qed.

Lemma half_range : INR n + 6 <= bpow radix2 (prec - 1).
Proof using Hprec Hn. rewrite INR_IZR_INZ, <- (pow_Z (prec - 1)) by lia. rewrite <- plus_IZR. apply IZR_le. exact Hn. Qed.

Definition bounds_levels (L : R) (s : slink) : Prop := 0 <= L /\ forall v, In v (levels s) -> / B2R v <= L.

(** A stability so far, of [C] samples of the cluster [root]. *)
Definition so_far (root : slink) (C : nat) (st : Q) (stf : number) : Prop :=
  good stf /\ is_finite stf = true /\ forall L, bounds_levels L root ->
    0 <= Q2R st <= INR C * L /\ Rabs (B2R stf - Q2R st) <= rounding prec (4 + C) (INR C * L).

Fixpoint near (c : cnode) (f : fnode) : Prop :=
  so_far (cn_root c) (length (cleaves c)) (cn_stability c) (fn_stability f) /\
  match c, f with
  | CLeaf _ _ _ _, FLeaf _ _ _ _ => True
  | CSplit _ _ _ _ l r, FSplit _ _ _ _ l' r' => near l l' /\ near r r'
  | _, _ => False
  end.

(** When a cluster appears. *)
Definition born (root : slink) (b : Q) (m : number) : Prop :=
  (b = 0%Q /\ m = zero) \/ exists w, ordinary w /\ b = exact_inverse w /\ m = inv w /\ forall v, In v (levels root) -> B2R v <= B2R w.

Lemma rounding_mono k k' a b : (k <= k')%nat -> 0 <= a <= b -> rounding prec k a <= rounding prec k' b.
Proof using Hprec.
  intros Hk Ha. unfold rounding. pose proof (grow_mono' k k' Hk) as (G1 & G2). apply Rmult_le_compat; lra.
Qed.

Lemma all_levels root : (forall v, In v (levels root) -> ordinary v) -> bounds_levels (bpow radix2 (prec - 1)) root.
Proof.
  intros H. split; [apply bpow_ge_0|]. intros v Hv. apply inv_bounds. auto.
Qed.

Lemma so_far_start root : so_far root 0 0%Q zero.
Proof.
  unfold so_far. splits; [reflexivity|reflexivity|]. intros L (HL & _). cbn [INR]. rewrite Rmult_0_l. unfold rounding. rewrite Rmult_0_r.
  assert (E : Q2R 0 = 0) by (unfold Q2R; simpl; lra). rewrite E. cbn [B2R]. split; [lra|]. rewrite Rminus_0_r, Rabs_R0. lra.
Qed.

Lemma so_far_more root C C' st stf : (C <= C')%nat -> so_far root C st stf -> so_far root C' st stf.
Proof using Hprec.
  clear Hn. clear n. intros H (G & F & K). unfold so_far. splits; auto. intros L HL. destruct (K L HL) as (K1 & K2).
  assert (HC : 0 <= INR C <= INR C') by (split; [apply pos_INR|now apply le_INR]). destruct HL as (L0 & _).
  assert (INR C * L <= INR C' * L) by nra. split; [lra|]. eapply Rle_trans; [exact K2|]. apply rounding_mono; [lia|]. split; [nra|auto].
Qed.

Lemma so_far_step root C k st stf b m v : (forall v, In v (levels root) -> ordinary v) -> born root b m -> In v (levels root) ->
  (1 <= k)%nat -> (C + k <= n)%nat -> so_far root C st stf ->
  so_far root (C + k) (add_excess_of_mass st k (exact_inverse v) b) (excess fused stf k (inv v) m).
Proof using Hprec Hemax Hn.
  intros HO HB Hv Hk HC (G & F & A). pose proof (HO v Hv) as Ov. destruct (inv_ok v Ov) as (Gi & Fi & Vi & Ei).
  pose proof (u_range prec Hprec) as U. destruct (ordinary_good v Ov) as (_ & _ & _ & Pv). pose proof (Rinv_0_lt_compat _ Pv) as Pi.
  assert (Bm : good m /\ is_finite m = true /\ B2R m <= B2R (inv v) /\ 0 <= Q2R b <= / B2R v /\ Rabs (B2R m - Q2R b) <= u * Q2R b /\ 0 <= B2R m).
  { destruct HB as [(-> & ->)|(w & Ow & -> & -> & Hw)].
    - assert (E : Q2R 0 = 0) by (unfold Q2R; simpl; lra). rewrite E. cbn [B2R]. splits; try reflexivity; try lra.
      + destruct (good_inv prec emax _ Gi) as [X|(_ & _ & X)]; [rewrite X in Fi; discriminate|exact X].
      + rewrite Rminus_0_r, Rabs_R0. lra.
    - destruct (inv_ok w Ow) as (Gw & Fw & Vw & Ew). destruct (inv_mono v w Ov Ow (Hw v Hv)) as (M1 & M2).
      destruct (ordinary_good w Ow) as (_ & _ & _ & Pw). pose proof (Rinv_0_lt_compat _ Pw). rewrite (inverse_value w Ow). splits; auto; try lra.
      destruct (good_inv prec emax _ Gw) as [X|(_ & _ & X)]; [rewrite X in Fw; discriminate|exact X]. }
  destruct Bm as (Gm & Fm & Hml & Hb & Em & Pm).
  pose proof half_range as HR. pose proof (all_levels root HO) as AL. destruct (A _ AL) as (A1 & A2).
  set (T := bpow radix2 (prec - 1)) in *.
  assert (T1 : 1 <= T) by (unfold T; change 1 with (bpow radix2 0); apply bpow_le; lia).
  assert (TT : 2 * (T * T) = bpow radix2 (2 * prec - 1)).
  { unfold T. rewrite <- bpow_plus. replace 2 with (bpow radix2 1) by reflexivity. rewrite <- bpow_plus. f_equal. lia. }
  assert (NC : INR C <= INR n) by (apply le_INR; lia). assert (NK : INR k <= INR n) by (apply le_INR; lia).
  pose proof (pos_INR C) as C0. assert (K0 : 1 <= INR k) by (replace 1 with (INR 1) by reflexivity; apply le_INR; lia).
  assert (Sb : B2R stf <= bpow radix2 (2 * prec - 1)).
  { apply Rabs_le_inv in A2. unfold rounding in A2. pose proof (grow_two (4 + C) ltac:(lia)) as G2. pose proof (grow_mono' (4 + C) (4 + C) ltac:(lia)) as (G1 & _).
    assert (X : INR C * T <= T * T) by (apply Rmult_le_compat_r; lra). assert (0 <= INR C * T) by nra.
    assert (((1 + u) ^ (4 + C) - 1) * (INR C * T) <= 1 * (INR C * T)) by (apply Rmult_le_compat_r; lra). lra. }
  pose proof (inv_bounds v Ov) as (_ & IB). fold T in IB. apply Rabs_le_inv in Ei.
  assert (Kb : INR k * (B2R (inv v) - B2R m) <= bpow radix2 (2 * prec - 1)).
  { rewrite <- TT. assert (B2R (inv v) <= 2 * T) by nra. apply Rle_trans with (T * (2 * T)); [|lra].
    apply Rmult_le_compat; lra. }
  assert (Hk2 : (Z.of_nat k <= 2 ^ prec)%Z).
  { assert (2 ^ (prec - 1) <= 2 ^ prec)%Z by (apply Z.pow_le_mono_r; lia). lia. }
  destruct (excess_ok fused stf k (inv v) m G F Gi Fi Gm Fm Hml Hk Hk2 Sb Kb) as (G' & F' & E').
  unfold so_far. splits; auto. intros L HL. destruct (A L HL) as (L1 & L2). pose proof HL as (L0 & HL').
  specialize (HL' v Hv). unfold add_excess_of_mass. rewrite Q2R_plus, Q2R_mult, Q2R_minus, Q2R_nat, (inverse_value v Ov).
  assert (KL : INR k * (/ B2R v - Q2R b) <= INR k * L) by (apply Rmult_le_compat_l; lra).
  assert (K2 : 0 <= INR k * (/ B2R v - Q2R b)) by (apply Rmult_le_pos; lra).
  rewrite plus_INR. split; [split; lra|].
  eapply Rle_trans; [apply (step_close (4 + C) (INR C) (INR k) L (Q2R st) (B2R stf) (/ B2R v) (Q2R b) (B2R (inv v)) (B2R m)); auto; try lia; try lra; apply Rabs_le; lra|].
  apply rounding_mono; [lia|]. split; [apply Rmult_le_pos; lra|lra].
Qed.

Lemma near_condense : forall s root b st m stf C, descendant root s -> dendrogram Bltb root -> (forall v, In v (levels root) -> ordinary v) ->
  born root b m -> (C + length (leaves s) = length (leaves root))%nat -> (length (leaves root) <= n)%nat -> so_far root C st stf ->
  near (condense exact_inverse min root b st s) (fcondense zero inv (excess fused) min root m stf s).
Proof using Hprec Hemax Hn.
  induction s as [i|i v k l IHl r IHr]; intros root b st m stf C Hd Hdend HO HB HC Hlen A.
  - cbn [condense fcondense near cn_root cleaves cn_stability fn_stability]. split; auto. unfold cleaves. cbn [cn_root].
    apply (so_far_more root C); auto. lia.
  - pose proof (dendrogram_descendant Bltb _ _ Hd Hdend) as Hds. pose proof Hds as (Hsz & _ & Hmono & Hdl & Hdr).
    assert (Hv : In v (levels root)) by (eapply desc_levels; [exact Hd|left; auto]).
    assert (El : sl_size l = length (leaves l)) by (apply sized_size, (dendrogram_sized Bltb); auto).
    assert (Er : sl_size r = length (leaves r)) by (apply sized_size, (dendrogram_sized Bltb); auto).
    pose proof (leaves_pos l) as Pl. pose proof (leaves_pos r) as Pr. cbn [leaves] in HC. rewrite app_length in Hsz, HC.
    assert (Dl : descendant root l) by (eapply descendant_trans; [exact Hd|]; apply desc_left; constructor).
    assert (Dr : descendant root r) by (eapply descendant_trans; [exact Hd|]; apply desc_right; constructor).
    assert (Child : forall t, t = l \/ t = r -> forall b' m', b' = exact_inverse v -> m' = inv v -> born t b' m' /\ (forall w, In w (levels t) -> ordinary w) /\ (length (leaves t) <= n)%nat).
    { intros t Ht b' m' -> ->. assert (Sub : forall w, In w (levels t) -> In w (levels root)).
      { intros w Hw. eapply desc_levels; [|exact Hw]. destruct Ht; subst; auto. }
      splits.
      - right. exists v. splits; auto. intros w Hw. destruct (HO v Hv) as (Fv & _). destruct (HO w (Sub w Hw)) as (Fw & _).
        assert (X : Bltb v w = false) by (apply Hmono, in_or_app; destruct Ht; subst; auto).
        rewrite Bltb_correct in X by auto. destruct (Rlt_bool_spec (B2R v) (B2R w)); [discriminate|auto].
      - auto.
      - destruct Ht; subst; lia. }
    cbn [condense fcondense]. destruct (min <=? sl_size l)%nat, (min <=? sl_size r)%nat; cbn [andb].
    + cbn [near cn_root cn_stability fn_stability]. unfold cleaves at 1. cbn [cn_root]. splits.
      * replace (length (leaves root)) with (C + k)%nat by lia. apply so_far_step; auto; lia.
      * destruct (Child l (or_introl eq_refl) _ _ eq_refl eq_refl) as (B' & O' & N'). apply (IHl l) with (C := 0%nat); auto; [constructor|apply so_far_start].
      * destruct (Child r (or_intror eq_refl) _ _ eq_refl eq_refl) as (B' & O' & N'). apply (IHr r) with (C := 0%nat); auto; [constructor|apply so_far_start].
    + apply IHl with (C := (C + sl_size r)%nat); auto; [lia|]. apply so_far_step; auto; lia.
    + apply IHr with (C := (C + sl_size l)%nat); auto; [lia|]. apply so_far_step; auto; lia.
    + cbn [near cn_root cn_stability fn_stability]. unfold cleaves at 1. cbn [cn_root]. splits; auto.
      replace (length (leaves root)) with (C + k)%nat by lia. apply so_far_step; auto; lia.
Qed.

(** ** Selection *)
Notation total := CondensedProofs.total.
Notation inside := CondensedProofs.inside.
Notation fselect := (fselect (Bplus (prec_gt_0_ := Hp) (prec_lt_emax_ := Hm) mode_NE) (fun a b : number => Bltb b a)).
Notation fpick := (fpick (Bplus (prec_gt_0_ := Hp) (prec_lt_emax_ := Hm) mode_NE) (fun a b : number => Bltb b a)).

Lemma bounds_below L (s s' : slink) : descendant s s' -> bounds_levels L s -> bounds_levels L s'.
Proof. intros H (H0 & H1). split; auto. intros v Hv. apply H1. eapply desc_levels; eauto. Qed.

Lemma split_weight s m q b l r : tree_ok (CSplit s m q b l r : cnode) -> (length (cleaves l) + length (cleaves r) <= length (leaves s))%nat.
Proof.
  intros (_ & _ & i & v & k & Hd). assert (Len : forall a b : slink, descendant a b -> (length (leaves b) <= length (leaves a))%nat).
  { clear. induction 1; simpl; rewrite ?app_length; lia. }
  apply Len in Hd. simpl in Hd. rewrite app_length in Hd. exact Hd.
Qed.

Lemma split_below s m q b l r : tree_ok (CSplit s m q b l r : cnode) -> descendant s (cn_root l) /\ descendant s (cn_root r).
Proof.
  intros (_ & _ & i & v & k & Hd). split; eapply descendant_trans; try exact Hd; [apply desc_left|apply desc_right]; constructor.
Qed.

Lemma Q2R_0 : Q2R 0 = 0.
Proof. unfold Q2R. simpl. lra. Qed.

Lemma total_one (c : cnode) : Q2R (total [c]) = Q2R (cn_stability c).
Proof. apply Qeq_eqR. unfold total. simpl. ring. Qed.

Lemma total_join (a b : list cnode) : Q2R (total (a ++ b)) = Q2R (total a) + Q2R (total b).
Proof. rewrite <- Q2R_plus. apply Qeq_eqR, CondensedProofs.total_app. Qed.

Lemma total_parts (sel a b : list cnode) : Permutation sel (a ++ b) -> Q2R (total sel) = Q2R (total a) + Q2R (total b).
Proof. intros H. rewrite <- total_join. apply Qeq_eqR. now apply CondensedProofs.total_perm. Qed.

Lemma leaf_sel s m q b (sel : list cnode) : (forall y : cnode, In y sel -> inside (CLeaf s m q b) y) -> NoDup (flat_map cleaves sel) ->
  sel = [] \/ sel = [CLeaf s m q b].
Proof.
  intros Hin Hf. assert (All : forall z : cnode, In z sel -> z = CLeaf s m q b) by (intros z Hz; specialize (Hin z Hz); inversion Hin; auto).
  destruct sel as [|z sel]; [auto|]. right. rewrite (All z (or_introl eq_refl)) in *. f_equal. apply (alone (CLeaf s m q b)); auto. exact I.
Qed.

Lemma sel_bound c : forall f L, near c f -> tree_ok c -> bounds_levels L (cn_root c) -> forall sel,
  (forall y : cnode, In y sel -> inside c y) -> NoDup (flat_map cleaves sel) -> 0 <= Q2R (total sel) <= weight c * L.
Proof.
  induction c as [s m q b|s m q b l IHl r IHr]; intros f L Hnear Hok HL sel Hin Hf.
  - destruct Hnear as ((_ & _ & A) & _). destruct (A L HL) as (A1 & _). destruct (leaf_sel s m q b sel Hin Hf) as [->| ->].
    + change (total []) with 0%Q. rewrite Q2R_0. lra.
    + rewrite total_one. exact A1.
  - destruct f as [s' m' q' b'|s' m' q' b' l' r']; [destruct Hnear as (_ & []) |]. destruct Hnear as ((_ & _ & A) & Nl & Nr).
    destruct (A L HL) as (A1 & _). pose proof (split_weight _ _ _ _ _ _ Hok) as W. destruct (split_below _ _ _ _ _ _ Hok) as (Bl & Br).
    pose proof Hok as (Hl & Hr & _). destruct (sel_split s m q b l r sel Hok Hin Hf) as [->|(a & a' & HP & Ha & Ha')].
    + rewrite total_one. exact A1.
    + destruct (perm_nodup_parts _ _ _ Hf HP) as [Fa Fa']. rewrite (total_parts _ _ _ HP).
      pose proof (IHl l' L Nl Hl (bounds_below L _ _ Bl HL) a Ha Fa). pose proof (IHr r' L Nr Hr (bounds_below L _ _ Br HL) a' Ha' Fa').
      apply le_INR in W. rewrite plus_INR in W. destruct HL as (L0 & _). unfold cleaves at 2 in W. change (leaves s) with (cleaves (CSplit s m q b l r)) in W.
      assert ((weight l + weight r) * L <= weight (CSplit s m q b l r) * L) by (apply Rmult_le_compat_r; auto). lra.
Qed.

Definition chosen_well (c : cnode) (f : fnode) : Prop :=
  good (fst (fselect f)) /\ is_finite (fst (fselect f)) = true /\
  forall L : R, bounds_levels L (cn_root c) ->
    B2R (fst (fselect f)) <= Q2R (total (fpick c f)) + rounding prec (4 + length (cleaves c)) (weight c * L) /\
    forall sel, (forall y : cnode, In y sel -> inside c y) -> NoDup (flat_map cleaves sel) ->
      Q2R (total sel) <= B2R (fst (fselect f)) + rounding prec (4 + length (cleaves c)) (weight c * L).

Lemma near_select c : forall f, same c f -> near c f -> tree_ok c -> NoDup (cleaves c) ->
  (forall v, In v (levels (cn_root c)) -> ordinary v) -> (length (cleaves c) <= n)%nat -> chosen_well c f.
Proof using Hprec Hemax Hn.
  induction c as [s m q b|s m q b l IHl r IHr]; intros f Hsame Hnear Hok Hnd HO Hlen.
  - destruct f as [s' m' q' b'|s' m' q' b' l' r']; [|destruct Hsame]. destruct Hnear as ((G & F & A) & _).
    unfold chosen_well. cbn [FloatCondensedModel.fselect fst FloatCondensedProofs.fpick]. cbn [fn_stability cn_stability] in *. splits; auto. intros L HL.
    destruct (A L HL) as (A1 & A2). apply Rabs_le_inv in A2. rewrite total_one. cbn [cn_stability]. split; [lra|]. intros sel Hin Hf.
    destruct (leaf_sel s m q b sel Hin Hf) as [->| ->]; [change (total []) with 0%Q; rewrite Q2R_0; lra|rewrite total_one; cbn [cn_stability]; lra].
  - destruct f as [s' m' q' b'|s' m' q' b' l' r']; [destruct Hsame|]. pose proof Hnear as NN. destruct Hnear as ((G & F & A) & Nl & Nr).
    destruct Hsame as (_ & _ & Sl & Sr). pose proof (split_weight _ _ _ _ _ _ Hok) as W. destruct (split_below _ _ _ _ _ _ Hok) as (Bl & Br).
    pose proof Hok as (Hl & Hr & _). destruct (split_nodup _ _ _ _ _ _ Hok Hnd) as (NDl & NDr & _).
    assert (Hc : cleaves (CSplit s m q b l r) = leaves s) by reflexivity. rewrite Hc in Hlen.
    assert (Pl : (1 <= length (cleaves l))%nat) by apply leaves_pos. assert (Pr : (1 <= length (cleaves r))%nat) by apply leaves_pos.
    destruct (IHl l' Sl Nl Hl NDl (fun v Hv => HO v (desc_levels _ _ v Bl Hv)) ltac:(lia)) as (Gl & Fl & Al).
    destruct (IHr r' Sr Nr Hr NDr (fun v Hv => HO v (desc_levels _ _ v Br Hv)) ltac:(lia)) as (Gr & Fr & Ar).
    destruct (pick_facts (Bplus (prec_gt_0_ := Hp) (prec_lt_emax_ := Hm) mode_NE) (fun a b : number => Bltb b a) l l' Sl Hl NDl) as (Pl1 & Pl2 & _ & _).
    destruct (pick_facts (Bplus (prec_gt_0_ := Hp) (prec_lt_emax_ := Hm) mode_NE) (fun a b : number => Bltb b a) r r' Sr Hr NDr) as (Pr1 & Pr2 & _ & _).
    cbn [fn_stability cn_stability cn_root] in *. unfold chosen_well. cbn [FloatCondensedModel.fselect FloatCondensedProofs.fpick].
    destruct (fselect l') as [tl l1], (fselect r') as [tr r1]. cbn [fst snd] in *. pose proof (u_range prec Hprec) as U.
    destruct (plus_ok prec emax Hp Hm Hprec Hwide tl tr Gl Gr) as (Gp & Lp). set (p := Bplus mode_NE tl tr) in *.
    unfold FloatProofs.level in Lp at 2 3. rewrite Fl, Fr in Lp.
    destruct (good_inv prec emax tl Gl) as [->|(_ & _ & Ptl)]; [discriminate|]. destruct (good_inv prec emax tr Gr) as [->|(_ & _ & Ptr)]; [discriminate|].
    pose proof (generic_format_B2R prec emax tl) as Ml. change (SpecFloat.fexp prec emax) with fexp in Ml.
    pose proof (generic_format_B2R prec emax tr) as Mr. change (SpecFloat.fexp prec emax) with fexp in Mr.
    pose proof (rnd_sum prec emax Hp Hprec _ _ Ml Mr ltac:(lra)) as RS. set (x := B2R tl + B2R tr) in *.
    set (h := (3 + length (leaves s))%nat). set (g := (1 + u) ^ h).
    assert (Hg : 1 <= g) by (apply (grow_mono' h h); lia).
    assert (EW : forall (k : nat) (a L : R), (4 + k <= h)%nat -> 0 <= a * L -> rounding prec (4 + k) (a * L) <= (g - 1) * (a * L)).
    { intros k a L Hk Ha. apply rounding_mono; auto. lra. }
    set (wl := weight l) in *. set (wr := weight r) in *. set (w := INR (length (leaves s))).
    assert (Hw : wl + wr <= w) by (unfold wl, wr, w; rewrite <- plus_INR; apply le_INR; lia).
    assert (W0 : 0 <= wl /\ 0 <= wr) by (split; apply pos_INR).
    assert (X : forall L : R, bounds_levels L s -> x <= g * (w * L) /\ x <= Q2R (total (fpick l l')) + Q2R (total (fpick r r')) + (g - 1) * ((wl + wr) * L) /\
       0 <= Q2R (total (fpick l l')) + Q2R (total (fpick r r')) <= (wl + wr) * L /\ (wl + wr) * L <= w * L /\
       forall a a' : list cnode, (forall y : cnode, In y a -> inside l y) -> (forall y : cnode, In y a' -> inside r y) -> NoDup (flat_map cleaves a) -> NoDup (flat_map cleaves a') ->
         Q2R (total a) + Q2R (total a') <= x + (g - 1) * ((wl + wr) * L)).
    { intros L HL. pose proof HL as (L0 & _). destruct (Al L (bounds_below L _ _ Bl HL)) as (Al1 & Al2). destruct (Ar L (bounds_below L _ _ Br HL)) as (Ar1 & Ar2).
      assert (Kl := EW (length (cleaves l)) wl L ltac:(unfold h; lia) ltac:(nra)). assert (Kr := EW (length (cleaves r)) wr L ltac:(unfold h; lia) ltac:(nra)).
      pose proof (sel_bound l l' L Nl Hl (bounds_below L _ _ Bl HL) _ Pl1 Pl2) as Sbl. pose proof (sel_bound r r' L Nr Hr (bounds_below L _ _ Br HL) _ Pr1 Pr2) as Sbr.
      fold wl in Sbl, Al1, Al2. fold wr in Sbr, Ar1, Ar2.
      assert (WL : (wl + wr) * L <= w * L) by (apply Rmult_le_compat_r; auto).
      assert (GW : g * ((wl + wr) * L) <= g * (w * L)) by (apply Rmult_le_compat_l; lra).
      unfold x. splits; auto; try lra.
      - intros a a' Ha Ha' Na Na'. specialize (Al2 a Ha Na). specialize (Ar2 a' Ha' Na'). lra. }
    assert (Fp : is_finite p = true /\ B2R p = rnd x).
    { pose proof (all_levels s HO) as AL. destruct (X _ AL) as (X1 & _). pose proof half_range as HR.
      assert (Hg2 : g <= 2) by (apply grow_two; unfold h; lia). assert (Wn : w <= INR n) by (apply le_INR; lia).
      set (T := bpow radix2 (prec - 1)) in *. assert (T0 : 0 < T) by apply bpow_gt_0. assert (0 <= w) by apply pos_INR.
      assert (T2 : 4 * (T * T) <= top).
      { unfold T. rewrite <- bpow_plus. replace 4 with (bpow radix2 2) by reflexivity. rewrite <- bpow_plus. apply bpow_le. lia. }
      assert (w * T <= (T - 6) * T) by (apply Rmult_le_compat_r; lra).
      assert (g * (w * T) <= 2 * ((T - 6) * T)) by (apply Rmult_le_compat; nra).
      assert (rnd x < top) by nra. unfold cap in Lp. rewrite Rmin_left in Lp by lra.
      assert (Fp : is_finite p = true) by (apply (finite_level prec emax); auto; rewrite Lp; auto). split; auto.
      unfold FloatProofs.level in Lp. now rewrite Fp in Lp. }
    destruct Fp as (Fp & Ep).
    assert (Lt : Bltb q' p = Rlt_bool (B2R q') (B2R p)) by (apply Bltb_correct; auto).
    assert (Gp1 : (1 + u) ^ (4 + length (leaves s)) = (1 + u) * g) by reflexivity.
    change (length (cleaves (CSplit s m q b l r))) with (length (leaves s)). fold w. unfold rounding. rewrite Gp1.
    assert (Best : forall L : R, bounds_levels L s -> forall sel, (forall y : cnode, In y sel -> inside (CSplit s m q b l r) y) -> NoDup (flat_map cleaves sel) ->
      Q2R (total sel) <= Q2R q \/ Q2R (total sel) <= B2R p + ((1 + u) * g - 1) * (w * L)).
    { intros L HL sel Hin Hf. destruct (X L HL) as (X1 & _ & _ & X4 & X5). destruct (sel_split s m q b l r sel Hok Hin Hf) as [->|(a & a' & HP & Ha & Ha')].
      - left. rewrite total_one. cbn [cn_stability]. lra.
      - right. destruct (perm_nodup_parts _ _ _ Hf HP) as [Fa Fa']. rewrite (total_parts _ _ _ HP), Ep. specialize (X5 a a' Ha Ha' Fa Fa').
        assert (u * x <= u * (g * (w * L))) by (apply Rmult_le_compat_l; lra).
        assert ((g - 1) * ((wl + wr) * L) <= (g - 1) * (w * L)) by (apply Rmult_le_compat_l; lra). lra. }
    assert (Own : forall L : R, bounds_levels L s -> 0 <= ((1 + u) * g - 1) * (w * L) /\ Rabs (B2R q' - Q2R q) <= ((1 + u) * g - 1) * (w * L)).
    { intros L HL. destruct (A L HL) as (A1 & A2). pose proof HL as (L0 & _). split.
      - apply Rmult_le_pos; [nra|]. apply Rmult_le_pos; auto. apply pos_INR.
      - exact A2. }
    rewrite Lt. destruct (Rlt_bool_spec (B2R q') (B2R p)) as [C|C]; cbn [fst].
    + splits; auto. intros L HL. destruct (X L HL) as (X1 & X2 & X3 & X4 & X5). destruct (Own L HL) as (O0 & O1). apply Rabs_le_inv in O1. split.
      * rewrite total_join, Ep. set (M := Q2R (total (fpick l l')) + Q2R (total (fpick r r'))) in *.
        set (V := (wl + wr) * L) in *. assert ((1 + u) * x <= (1 + u) * (M + (g - 1) * V)) by (apply Rmult_le_compat_l; lra).
        assert (u * M <= u * V) by (apply Rmult_le_compat_l; lra).
        assert (((1 + u) * g - 1) * V <= ((1 + u) * g - 1) * (w * L)) by (apply Rmult_le_compat_l; nra). nra.
      * intros sel Hin Hf. destruct (Best L HL sel Hin Hf); lra.
    + splits; auto. intros L HL. destruct (Own L HL) as (O0 & O1). apply Rabs_le_inv in O1. split.
      * rewrite total_one. cbn [cn_stability]. lra.
      * intros sel Hin Hf. destruct (Best L HL sel Hin Hf); lra.
Qed.
End Near.
End Binary.
