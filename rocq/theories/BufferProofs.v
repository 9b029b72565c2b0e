(** Lemmas on buffers. *)
From Coq Require Import List Arith ZArith Lia Bool Permutation.
From Verif Require Import Base BufferModel BufferSpec.
Import ListNotations.

Definition entries {D} (b : buffer D) : list (nat * D) := combine (buf_indices b) (buf_distances b).

Section Buffer.
Context {D : Type} (lt : D -> D -> bool) (inf : D) (Hord : order_ok lt).

Lemma lt_asym a b : lt a b = true -> lt b a = false.
Proof. apply Hord. Qed.
Lemma lt_irrefl a : lt a a = false.
Proof. destruct (lt a a) eqn:E; auto. pose proof (lt_asym _ _ E). congruence. Qed.
Lemma le_trans a b c : lt b a = false -> lt c b = false -> lt c a = false.
Proof. apply Hord. Qed.
Lemma lt_trans a b c : lt a b = true -> lt b c = true -> lt a c = true.
Proof.
  intros H1 H2. destruct (lt a c) eqn:E; auto.
  assert (lt b c = false); [|congruence].
  apply (le_trans c a b E). now apply lt_asym.
Qed.
Lemma lt_le_trans a b c : lt a b = true -> lt c b = false -> lt a c = true.
Proof.
  intros H1 H2. destruct (lt a c) eqn:E; auto.
  assert (lt a b = false); [|congruence]. eapply le_trans; eauto.
Qed.

Lemma max_from_spec : forall l bi best i,
  let '(j, v) := max_element_from lt bi best i l in
  lt v best = false /\ (forall x, In x l -> lt v x = false) /\
  ((j = bi /\ v = best) \/ (i <= j /\ nth_error l (j - i) = Some v)).
Proof.
  induction l as [|x l IH]; intros bi best i; simpl.
  - splits; auto using lt_irrefl. intros x [].
  - destruct (lt best x) eqn:E.
    + specialize (IH i x (S i)). destruct (max_element_from lt i x (S i) l) as (j, v).
      destruct IH as (H1 & H2 & H3). splits.
      * apply (le_trans _ x); auto. now apply lt_asym.
      * intros y [<-|Hy]; auto.
      * right. destruct H3 as [(-> & ->)|(H3 & H4)].
        -- split; auto. now rewrite Nat.sub_diag.
        -- split; [lia|]. destruct (j - i) as [|n] eqn:En; [lia|]. simpl.
           replace n with (j - S i) by lia. auto.
    + specialize (IH bi best (S i)). destruct (max_element_from lt bi best (S i) l) as (j, v).
      destruct IH as (H1 & H2 & H3). splits; auto.
      * intros y [<-|Hy]; auto. apply (le_trans _ best); auto.
      * destruct H3 as [(-> & ->)|(H3 & H4)]; auto.
        right. split; [lia|]. destruct (j - i) as [|n] eqn:En; [lia|]. simpl.
        replace n with (j - S i) by lia. auto.
Qed.

Lemma get_max_spec l : l <> [] ->
  exists j v, get_max_index_value_pair lt l = Ok (j, v) /\ nth_error l j = Some v /\
    forall x, In x l -> lt v x = false.
Proof.
  destruct l as [|x l]; [congruence|]. intros _. simpl.
  pose proof (max_from_spec l 0 x 1) as H. destruct (max_element_from lt 0 x 1 l) as (j, v).
  destruct H as (H1 & H2 & H3). exists j, v. splits; auto.
  - destruct H3 as [(-> & ->)|(H3 & H4)]; auto. destruct j; [lia|]. simpl in *. now rewrite Nat.sub_0_r in H4.
  - intros y [<-|Hy]; auto.
Qed.

Lemma combine_app' {A B} (a a' : list A) (b b' : list B) : length a = length b ->
  combine (a ++ a') (b ++ b') = combine a b ++ combine a' b'.
Proof.
  revert b. induction a; intros [|y b] H; simpl in *; try lia; auto. f_equal. apply IHa. lia.
Qed.

Lemma nth_error_combine {A B} : forall (a : list A) (b : list B) i x y,
  nth_error a i = Some x -> nth_error b i = Some y -> nth_error (combine a b) i = Some (x, y).
Proof.
  induction a; intros [|y0 b] [|i] x y H1 H2; simpl in *; try discriminate.
  - congruence.
  - eauto.
Qed.

Lemma upd_combine {A B} : forall (a : list A) (b : list B) i x y,
  combine (upd a i x) (upd b i y) = upd (combine a b) i (x, y).
Proof. induction a; intros [|y0 b] [|i] x y; simpl; auto. now rewrite IHa. Qed.

(** Remaining capacity. *)
Definition fits (k : nat) : Prop := (Z.of_nat k < 2 ^ 64)%Z.

Lemma remaining_zero (b : buffer D) : fits (buf_max_capacity b) -> buf_size b <= buf_max_capacity b ->
  (remaining_capacity b =? 0)%Z = (buf_size b =? buf_max_capacity b).
Proof.
  unfold fits, remaining_capacity. intros H1 H2. rewrite Z.mod_small by lia.
  destruct (Nat.eqb_spec (buf_size b) (buf_max_capacity b)), (Z.eqb_spec (Z.of_nat (buf_max_capacity b) - Z.of_nat (buf_size b)) 0); auto; lia.
Qed.

Lemma remaining_unlimited (b : buffer D) : buf_max_capacity b = 0 -> fits (buf_size b) ->
  (remaining_capacity b =? 0)%Z = (buf_size b =? 0).
Proof.
  unfold fits, remaining_capacity. intros -> H.
  destruct (Nat.eqb_spec (buf_size b) 0) as [->|Hn]; [reflexivity|].
  rewrite Z.eqb_neq. replace (Z.of_nat 0 - Z.of_nat (buf_size b))%Z with ((2 ^ 64 - Z.of_nat (buf_size b)) + (-1) * 2 ^ 64)%Z by lia.
  rewrite Z.mod_add by lia. rewrite Z.mod_small by lia. lia.
Qed.

(** Invariant of a buffer after [offers]. *)
Record buf_inv (b : buffer D) (offers rest : list (nat * D)) : Prop := {
  bi_len : length (buf_indices b) = length (buf_distances b);
  bi_perm : Permutation (entries b ++ rest) offers;
  bi_cap : 1 <= buf_max_capacity b -> buf_size b <= buf_max_capacity b;
  bi_room : rest <> [] -> 1 <= buf_max_capacity b /\ buf_size b = buf_max_capacity b;
  bi_rest : forall s r, In s (entries b) -> In r rest -> lt (snd r) (snd s) = false;
  bi_empty : buf_indices b = [] -> rest = [] /\ buf_furthest_pos b = 0 /\ buf_furthest_distance b = inf /\
             buf_closest_distance b = inf;
  bi_furthest : buf_indices b <> [] ->
    (exists i, nth_error (entries b) (buf_furthest_pos b) = Some (i, buf_furthest_distance b)) /\
    forall s, In s (entries b) -> lt (buf_furthest_distance b) (snd s) = false;
  bi_closest : buf_indices b <> [] ->
    is_closest lt offers (buf_closest_index b, buf_closest_distance b) }.

Lemma entries_length b : length (buf_indices b) = length (buf_distances b) -> length (@entries D b) = buf_size b.
Proof. intros H. unfold entries, buf_size. rewrite combine_length. lia. Qed.

Lemma buf_inv_make k : buf_inv (make_buffer inf k) [] [].
Proof. constructor; unfold buf_size; simpl; auto; try congruence; try lia; intros; contradiction. Qed.

Lemma perm_swap_in (l : list (nat * D)) pos old new :
  nth_error l pos = Some old -> Permutation (upd l pos new ++ [old]) (l ++ [new]).
Proof.
  intros H. destruct (upd_split _ _ new _ H) as (a & c & -> & _ & ->).
  rewrite <- !app_assoc. apply Permutation_app_head. simpl.
  transitivity (new :: old :: c).
  - apply perm_skip. symmetry. apply Permutation_cons_append.
  - transitivity (old :: new :: c); [apply perm_swap|]. apply perm_skip. apply Permutation_cons_append.
Qed.

Lemma closest_step offers i d ci cd : is_closest lt offers (ci, cd) ->
  forall c', c' = (if lt d cd then (i, d) else (ci, cd)) -> is_closest lt (offers ++ [(i, d)]) c'.
Proof.
  intros [H1 H2] c' ->. destruct (lt d cd) eqn:E; split; simpl.
  - apply in_or_app; right; simpl; auto.
  - intros x Hx. apply in_app_or in Hx as [Hx|[<-|[]]]; simpl; [|apply lt_irrefl].
    apply (le_trans _ cd); [now apply lt_asym|]. apply (H2 x Hx).
  - apply in_or_app; auto.
  - intros x Hx. apply in_app_or in Hx as [Hx|[<-|[]]]; simpl; auto.
Qed.

(** Size limits under which the unsigned subtraction tells the remaining room. *)
Definition cap_ok (b : buffer D) : Prop :=
  fits (buf_max_capacity b) /\ (buf_max_capacity b = 0 -> fits (buf_size b)).

Lemma remaining_full b : cap_ok b -> (1 <= buf_max_capacity b -> buf_size b <= buf_max_capacity b) ->
  buf_size b <> 0 ->
  (remaining_capacity b =? 0)%Z = negb (buf_max_capacity b =? 0) && (buf_size b =? buf_max_capacity b).
Proof.
  intros [H1 H2] H3 H4. destruct (Nat.eqb_spec (buf_max_capacity b) 0) as [E|E]; simpl.
  - rewrite remaining_unlimited by auto. now apply Nat.eqb_neq.
  - apply remaining_zero; auto. apply H3. lia.
Qed.

(** One update, by cases on whether room is left. *)
Lemma update_inv b offers rest i d :
  cap_ok b -> buf_inv b offers rest ->
  exists b' rest',
    update_static_buffers lt b i d = Ok b' /\ buf_inv b' (offers ++ [(i, d)]) rest' /\
    buf_max_capacity b' = buf_max_capacity b /\
    (if (buf_max_capacity b =? 0) || (buf_size b <? buf_max_capacity b)
     then rest' = rest /\ buf_size b' = S (buf_size b) /\ entries b' = entries b ++ [(i, d)]
     else buf_size b' = buf_size b /\ lt (buf_furthest_distance b) (buf_furthest_distance b') = false).
Proof.
  intros HK I. unfold update_static_buffers.
  assert (L : length (entries b) = buf_size b) by (apply entries_length; apply I).
  destruct (Nat.eqb_spec (buf_size b) 0) as [E0|E0].
  { assert (E : buf_indices b = []) by (unfold buf_size in E0; now apply length_zero_iff_nil).
    destruct (bi_empty _ _ _ I E) as (-> & P0 & _).
    assert (Ed : buf_distances b = []).
    { apply length_zero_iff_nil. rewrite <- (bi_len _ _ _ I), E. reflexivity. }
    pose proof (bi_perm _ _ _ I) as P. unfold entries in P. rewrite E, Ed in P. simpl in P.
    apply Permutation_nil in P. subst offers.
    eexists; exists []. split; [reflexivity|]. rewrite E, Ed, P0. simpl.
    split.
    { constructor; unfold buf_size; simpl; auto.
      - congruence.
      - intros s r _ [].
      - discriminate.
      - intros _. split; [exists i; reflexivity|]. intros s [<-|[]]. simpl. apply lt_irrefl.
      - intros _. split; simpl; auto. intros x [<-|[]]. apply lt_irrefl. }
    split; [reflexivity|].
    destruct (Nat.eqb_spec (buf_max_capacity b) 0) as [|Hc]; simpl.
    - unfold buf_size, entries. simpl. rewrite E. auto.
    - rewrite E0. destruct (Nat.ltb_spec 0 (buf_max_capacity b)); [|lia].
      unfold buf_size, entries. simpl. rewrite E. auto. }
  assert (Ne : buf_indices b <> []) by (intros E; apply E0; unfold buf_size; now rewrite E).
  pose proof (bi_closest _ _ _ I Ne) as HC.
  destruct (bi_furthest _ _ _ I Ne) as ((fi & Hf) & Hfm).
  remember (if lt d (buf_closest_distance b) then (i, d) else (buf_closest_index b, buf_closest_distance b))
    as cc eqn:Ecc.
  pose proof (closest_step offers i d _ _ HC cc Ecc) as HC'.
  destruct cc as (ci, cd).
  pose proof (bi_len _ _ _ I) as Hlen.
  pose proof (bi_cap _ _ _ I) as Hcap.
  rewrite (remaining_full b HK Hcap E0).
  assert (Hroom : (buf_max_capacity b =? 0) || (buf_size b <? buf_max_capacity b) =
                  negb (negb (buf_max_capacity b =? 0) && (buf_size b =? buf_max_capacity b))).
  { destruct (Nat.eqb_spec (buf_max_capacity b) 0) as [|Hc]; simpl; auto.
    assert (buf_size b <= buf_max_capacity b) by (apply Hcap; lia).
    destruct (Nat.ltb_spec (buf_size b) (buf_max_capacity b)), (Nat.eqb_spec (buf_size b) (buf_max_capacity b));
      simpl; auto; lia. }
  rewrite Hroom.
  destruct (negb (negb (buf_max_capacity b =? 0) && (buf_size b =? buf_max_capacity b))) eqn:Er.
  - assert (Hno : rest = []).
    { destruct rest as [|r0 rest]; auto. exfalso. destruct (bi_room _ _ _ I) as [H1 H2]; [discriminate|].
      apply Nat.eqb_eq in H2. rewrite H2 in Er. destruct (Nat.eqb_spec (buf_max_capacity b) 0); [lia|discriminate]. }
    remember (if lt (buf_furthest_distance b) d then (length (buf_indices b), d)
              else (buf_furthest_pos b, buf_furthest_distance b)) as ff eqn:Eff.
    destruct ff as (fp, fd).
    assert (Een : combine (buf_indices b ++ [i]) (buf_distances b ++ [d]) = entries b ++ [(i, d)])
      by (unfold entries; rewrite combine_app' by auto; reflexivity).
    assert (Hsz : length (buf_indices b ++ [i]) = S (buf_size b))
      by (rewrite app_length; unfold buf_size; simpl; lia).
    eexists; exists rest. split; [reflexivity|].
    split; [|splits; auto].
    subst rest.
    constructor; unfold entries, buf_size; simpl; rewrite ?Een.
    + rewrite !app_length. simpl. lia.
    + rewrite app_nil_r. apply Permutation_app_tail. pose proof (bi_perm _ _ _ I) as P. now rewrite app_nil_r in P.
    + rewrite Hsz. intros Hc. specialize (Hcap Hc).
      destruct (Nat.eqb_spec (buf_max_capacity b) 0); [lia|].
      destruct (Nat.eqb_spec (buf_size b) (buf_max_capacity b)); [discriminate|lia].
    + congruence.
    + intros s r _ [].
    + intros E. apply app_eq_nil in E as [_ E]. discriminate.
    + intros _. destruct (lt (buf_furthest_distance b) d) eqn:Efd; inversion Eff; subst fp fd.
      * split.
        -- exists i. fold (buf_size b). rewrite nth_error_app2 by lia. rewrite L, Nat.sub_diag. reflexivity.
        -- intros s Hs. apply in_app_or in Hs as [Hs|[<-|[]]]; [|apply lt_irrefl].
           apply (le_trans _ (buf_furthest_distance b)); auto using lt_asym.
      * split.
        -- exists fi. rewrite nth_error_app1; auto. eapply nth_error_lt; eauto.
        -- intros s Hs. apply in_app_or in Hs as [Hs|[<-|[]]]; auto.
    + intros _. auto.
  - apply negb_false_iff, andb_true_iff in Er as [Ec Es].
    apply negb_true_iff, Nat.eqb_neq in Ec. apply Nat.eqb_eq in Es.
    destruct (lt d (buf_furthest_distance b)) eqn:Ed.
    + assert (Hp : buf_furthest_pos b < length (buf_indices b)).
      { fold (buf_size b). rewrite <- L. eapply nth_error_lt; eauto. }
      rewrite wr_lt by auto. cbn [bind]. rewrite wr_lt by lia. cbn [bind].
      destruct (get_max_spec (upd (buf_distances b) (buf_furthest_pos b) d)) as (j & v & Ej & Hj & Hm).
      { intros E. apply (f_equal (@length D)) in E. rewrite upd_length in E. simpl in E. lia. }
      rewrite Ej. cbn [bind].
      eexists; exists (rest ++ [(fi, buf_furthest_distance b)]). split; [reflexivity|].
      assert (Een : combine (upd (buf_indices b) (buf_furthest_pos b) i) (upd (buf_distances b) (buf_furthest_pos b) d)
                    = upd (entries b) (buf_furthest_pos b) (i, d)) by apply upd_combine.
      assert (Hsub : forall s, In s (upd (entries b) (buf_furthest_pos b) (i, d)) -> In s (entries b) \/ s = (i, d)).
      { intros s Hs. apply In_nth_error in Hs as (q & Hq). rewrite nth_error_upd in Hq.
        destruct ((q =? buf_furthest_pos b) && _); [inversion Hq; auto|]. left. eapply nth_error_In; eauto. }
      split.
      * constructor; unfold entries, buf_size; simpl; rewrite ?Een, ?upd_length; auto.
        -- rewrite app_assoc. transitivity ((upd (entries b) (buf_furthest_pos b) (i, d) ++ [(fi, buf_furthest_distance b)]) ++ rest).
           { rewrite <- !app_assoc. apply Permutation_app_head. apply Permutation_app_comm. }
           transitivity ((entries b ++ [(i, d)]) ++ rest).
           { apply Permutation_app_tail. now apply perm_swap_in. }
           rewrite <- app_assoc. transitivity (entries b ++ rest ++ [(i, d)]).
           { apply Permutation_app_head. apply Permutation_app_comm. }
           rewrite app_assoc. apply Permutation_app_tail. apply I.
        -- intros _. split; auto. lia.
        -- intros s r Hs Hr. apply Hsub in Hs. apply in_app_or in Hr as [Hr|[<-|[]]].
           ++ destruct Hs as [Hs| ->]; [apply I; auto|]. simpl.
              apply (le_trans _ (buf_furthest_distance b)); [now apply lt_asym|].
              apply (bi_rest _ _ _ I (fi, buf_furthest_distance b)); auto. eapply nth_error_In; eauto.
           ++ destruct Hs as [Hs| ->]; simpl; auto. now apply lt_asym.
        -- intros E. apply (f_equal (@length nat)) in E. rewrite upd_length in E. simpl in E. lia.
        -- intros _. split.
           ++ assert (Hjl : j < length (upd (buf_indices b) (buf_furthest_pos b) i)).
              { apply nth_error_lt in Hj. rewrite upd_length in Hj. rewrite upd_length. lia. }
              exists (nth j (upd (buf_indices b) (buf_furthest_pos b) i) 0).
              rewrite <- Een. apply nth_error_combine; auto. now apply nth_error_nth'.
           ++ intros s Hs. rewrite <- Een in Hs. destruct s as (si, sd). apply in_combine_r in Hs. simpl. auto.
      * splits; auto; unfold buf_size; simpl; rewrite ?upd_length; auto.
        apply nth_error_In in Hj. apply In_nth_error in Hj as (q & Hq). rewrite nth_error_upd in Hq.
        destruct ((q =? buf_furthest_pos b) && _); [inversion Hq; subst; now apply lt_asym|].
        apply (Hfm (nth q (buf_indices b) 0, v)). eapply nth_error_In. apply nth_error_combine; eauto.
        apply nth_error_nth'. apply nth_error_lt in Hq. lia.
    + exists b, (rest ++ [(i, d)]). split; [reflexivity|]. split; [|splits; auto using lt_irrefl].
      constructor; try apply I.
      * rewrite app_assoc. apply Permutation_app_tail. apply I.
      * intros _. split; auto. lia.
      * intros s r Hs Hr. apply in_app_or in Hr as [Hr|[<-|[]]]; [apply I; auto|]. simpl.
        apply (le_trans _ (buf_furthest_distance b)); auto.
      * congruence.
      * intros _. destruct HC as [HC1 HC2]. split; [apply in_or_app; auto|].
        intros x Hx. apply in_app_or in Hx as [Hx|[<-|[]]]; auto. simpl.
        apply (le_trans _ (buf_furthest_distance b)); auto.
        apply (HC2 (fi, buf_furthest_distance b)).
        eapply Permutation_in; [apply I|]. apply in_or_app; left. eapply nth_error_In; eauto.
Qed.

(** Capacity of the model after any updates. *)
Lemma update_all_inv : forall offers b pre rest,
  fits (buf_max_capacity b) -> (buf_max_capacity b = 0 -> fits (length pre + length offers)) ->
  buf_inv b pre rest ->
  exists b' rest', update_all lt b offers = Ok b' /\ buf_inv b' (pre ++ offers) rest' /\
    buf_max_capacity b' = buf_max_capacity b /\
    (buf_max_capacity b = 0 -> rest = [] -> rest' = [] /\ entries b' = entries b ++ offers).
Proof.
  induction offers as [|(i, d) offers IH]; intros b pre rest F1 F2 I; simpl.
  - exists b, rest. rewrite app_nil_r. splits; auto. intros _ ->. split; auto. now rewrite app_nil_r.
  - assert (Hs : buf_size b <= length pre).
    { rewrite <- entries_length by apply I. rewrite <- (Permutation_length (bi_perm _ _ _ I)), app_length. lia. }
    destruct (update_inv b pre rest i d) as (b1 & rest1 & E & I1 & C1 & H1); auto.
    { split; auto. intros Hc. specialize (F2 Hc). unfold fits in *. lia. }
    rewrite E. cbn [bind].
    destruct (IH b1 (pre ++ [(i, d)]) rest1) as (b2 & rest2 & E2 & I2 & C2 & H2).
    + now rewrite C1.
    + rewrite C1. intros Hc. specialize (F2 Hc). rewrite app_length. simpl in *. unfold fits in *. lia.
    + auto.
    + exists b2, rest2. rewrite <- app_assoc in I2. splits; auto; try congruence.
      intros Hc Hr. rewrite Hc in H1. simpl in H1. destruct H1 as (-> & _ & H1).
      destruct H2 as (-> & H2); [congruence|auto|]. split; auto. rewrite H2, H1, <- app_assoc. reflexivity.
Qed.

(** What the invariant says about the answer. *)
Lemma inv_k_nearest b offers rest k :
  buf_inv b offers rest -> buf_max_capacity b = k -> 1 <= k -> k_nearest lt k offers (entries b).
Proof.
  intros I Hk H1. exists rest. splits; try apply I.
  pose proof (Permutation_length (bi_perm _ _ _ I)) as HL. rewrite app_length in HL.
  rewrite entries_length in * by apply I.
  destruct rest as [|r rest].
  - simpl in HL. pose proof (bi_cap _ _ _ I). lia.
  - destruct (bi_room _ _ _ I) as [_ H2]; [discriminate|]. lia.
Qed.
End Buffer.
