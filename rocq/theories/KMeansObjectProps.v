(** Theorems on a KMeans object used for several calls (C92). *)
From Coq Require Import List Arith ZArith QArith Qcanon Lia Bool.
From Verif Require Import Base MatrixModel BufferModel BufferSpec BufferProofs KMeansModel KMeansSpec KMeansProofs KMeansCases KMeansProps KMeansInertia
  KMeansConverge HamerlyConverge KMeansConvergeProps KMeansObjectModel.
Import ListNotations.
Local Open Scope nat_scope.

(** ** Once there are centroids *)
(** Options that differ in [n_init] only; the tolerance is the same. *)
Definition same_settings (a : arith) (s s' : settings a) : Prop :=
  max_iter (s_options a s) = max_iter (s_options a s') /\ early_stopping (s_options a s) = early_stopping (s_options a s') /\
  patience (s_options a s) = patience (s_options a s') /\ s_close a s = s_close a s'.

(** Objects with the same centroids, not empty, that may have been built for different numbers of centroids. *)
Definition same_object (a : arith) (x y : kmeans a) : Prop :=
  km_centroids a x = km_centroids a y /\ km_centroids a x <> [] /\ same_settings a (km_settings a x) (km_settings a y).

(** Calls that differ in [n_init] and in the initializers only. *)
Inductive same_call (a : arith) : call a -> call a -> Prop :=
| same_set_options s s' : same_settings a s s' -> same_call a (call_set_options a s) (call_set_options a s')
| same_fit alg samples nf initializer initializer' :
    same_call a (call_fit a alg samples nf initializer) (call_fit a alg samples nf initializer')
| same_predict samples nf : same_call a (call_predict a samples nf) (call_predict a samples nf)
| same_forward samples nf : same_call a (call_forward a samples nf) (call_forward a samples nf).

Lemma fit_loop_same a alg o o' close : early_stopping o = early_stopping o' -> patience o = patience o' ->
  forall iterations p previous candidate s,
  fit_loop a alg o close iterations p previous candidate s = fit_loop a alg o' close iterations p previous candidate s.
Proof.
  intros E1 E2. induction iterations; intros p previous candidate s; [reflexivity|]. cbn [fit_loop]. rewrite E1, E2.
  destruct (alg_step a alg s) as [s'| | |]; cbn [bind]; auto. rewrite !IHiterations. reflexivity.
Qed.

Lemma fit_same a alg o o' close c init init' : c <> [] -> max_iter o = max_iter o' -> early_stopping o = early_stopping o' ->
  patience o = patience o' -> fit a alg o close c init = fit a alg o' close c init'.
Proof.
  intros Hc E1 E2 E3. unfold fit. destruct c as [|v c]; [congruence|]. cbn [for_each]. unfold fit_candidate. rewrite E1.
  destruct (alg_make a alg (v :: c)) as [s| | |]; cbn [bind]; auto. rewrite (fit_loop_same a alg o o' close E2 E3). reflexivity.
Qed.

(** Once an object has centroids, the number of centroids it was built for, [n_init] and the initializers have no effect on
    anything it returns. *)
Theorem c92_start_ignored (a : arith) (cs cs' : list (call a)) : Forall2 (same_call a) cs cs' -> forall x y answers x',
  same_object a x y -> do_calls a cs x = Ok (answers, x') -> (forall m, In (answer_centroids a m) answers -> m <> []) ->
  exists y', do_calls a cs' y = Ok (answers, y') /\ same_object a x' y'.
Proof.
  induction 1 as [|c c' cs cs' Hc HF IH]; intros x y answers x' Hxy E Hne.
  { injection E as <- <-. exists y. auto. }
  cbn [do_calls] in E |- *. apply bind_ok in E. destruct E as ((r & x1) & E1 & E). apply bind_ok in E. destruct E as ((rs & x2) & E2 & E).
  injection E as <- <-. assert (Hne' : forall m, In (answer_centroids a m) rs -> m <> []) by (intros; apply Hne; right; auto).
  assert (H1 : exists y1, do_call a c' y = Ok (r, y1) /\ same_object a x1 y1).
  { destruct Hxy as (Hc1 & Hc2 & Hs). destruct Hc as [s s' Hs'|alg samples nf i i'|samples nf|samples nf]; cbn [do_call] in *.
    - injection E1 as <- <-. eexists; split; [reflexivity|]. split; [exact Hc1|]. split; [exact Hc2|exact Hs'].
    - apply bind_ok in E1. destruct E1 as (m & E1 & E3). injection E3 as <- <-.
      destruct Hs as (S1 & S2 & S3 & S4). rewrite <- Hc1, <- S4.
      rewrite <- (fit_same a (alg samples nf) (s_options a (km_settings a x)) (s_options a (km_settings a y)) _ _ (i (km_count a x))) by auto.
      rewrite E1. cbn [bind]. eexists; split; [reflexivity|]. split; [reflexivity|]. split; [|unfold same_settings; cbn; auto].
      cbn. apply Hne. left. reflexivity.
    - rewrite <- Hc1. apply bind_ok in E1. destruct E1 as (m & -> & E3). injection E3 as <- <-. cbn [bind].
      eexists; split; [reflexivity|]. unfold same_object. auto.
    - rewrite <- Hc1. apply bind_ok in E1. destruct E1 as (m & -> & E3). injection E3 as <- <-. cbn [bind].
      eexists; split; [reflexivity|]. unfold same_object. auto. }
  destruct H1 as (y1 & -> & Hxy1). cbn [bind]. destruct (IH x1 y1 rs x2 Hxy1 E2 Hne') as (y' & -> & Hxy'). cbn [bind]. eauto.
Qed.

(** Two objects built for 2 and for 7 centroids, with one and with no initialisation. *)
Definition on_line (m : nat) (inits : nat) : settings line := mk_settings line (mk_options m true 0 inits) qc_eq.
Definition shown (r : res (list (answer line) * kmeans line)) : res (list (list Q + list nat)) :=
  ' (l, _) <- r ;;
  Ok (map (fun v : answer line => match v with
                    | answer_self _ => inr []
                    | answer_centroids _ m => inl (map this m)
                    | answer_labels _ l => inr l
                    | answer_distances _ l => inl (map (fun e => match e with Some v => this v | None => (-1)%Q end) l)
                    end) l).
Example c92_start_case :
  let x := new_kmeans_with line 2 (qs [0; 1]%Z) (on_line 1 1) in
  let y := new_kmeans_with line 7 (qs [0; 1]%Z) (on_line 1 0) in
  let calls inits init := [call_fit line (lloyd_algorithm line) (qs [0; 2; 3; 10]%Z) 1 init; call_set_options line (on_line 9 inits);
                           call_fit line (hamerly_algorithm line) (qs [0; 2; 3; 10]%Z) 1 init; call_predict line (qs [4; 9]%Z) 1] in
  Forall2 (same_call line) (calls 1 (fun _ _ => [])) (calls 5 (fun n _ => repeat (Q2Qc 3) n)) /\ same_object line x y /\
  shown (do_calls line (calls 1 (fun _ _ => [])) x) = Ok [inl [0; 5]%Q; inr []; inl [5 # 3; 10]%Q; inr [0; 1]] /\
  shown (do_calls line (calls 5 (fun n _ => repeat (Q2Qc 3) n)) y) = Ok [inl [0; 5]%Q; inr []; inl [5 # 3; 10]%Q; inr [0; 1]].
Proof.
  split; [repeat constructor|]. split; [split; [reflexivity|split; [discriminate|repeat constructor]]|]. split; vm_compute; reflexivity.
Qed.

(** An object that has been fitted is not an object that starts afresh on other data. *)
Definition last_centroids (r : res (list (answer line) * kmeans line)) : list Qc :=
  match r with Ok (_, x) => km_centroids line x | _ => [] end.
Theorem c92_new_data_refuted : exists first second init x x',
  do_calls line [call_fit line (hamerly_algorithm line) first 1 init; call_fit line (hamerly_algorithm line) second 1 init]
    (new_kmeans line 3 (on_line 100 1)) = Ok x /\
  do_calls line [call_fit line (hamerly_algorithm line) second 1 init] (new_kmeans line 3 (on_line 100 1)) = Ok x' /\
  km_centroids line (snd x) <> km_centroids line (snd x').
Proof.
  pose (first := qs [0; 7; 20]%Z). pose (second := qs [0; 1; 10; 11; 20; 21]%Z). pose (init := fun _ _ : nat => qs [0; 1; 15]%Z).
  exists first, second, init.
  assert (G : forall r r' : res (list (answer line) * kmeans line), map this (last_centroids r) = [1 # 2; 21 # 2; 41 # 2]%Q ->
    map this (last_centroids r') = [0; 1; 31 # 2]%Q -> exists x x', r = Ok x /\ r' = Ok x' /\ km_centroids line (snd x) <> km_centroids line (snd x')).
  { intros [(l, x)| | |] [(l', x')| | |] H H'; try discriminate. exists (l, x), (l', x'). splits; auto. cbn [last_centroids snd] in *.
    intros E. rewrite E, H' in H. discriminate. }
  apply G; vm_compute; reflexivity.
Qed.

(** ** Before there are centroids *)
(** [predict] says 0 for every sample and [forward] infinity; neither complains. *)
Theorem c92_predict_before_fit (a : arith) (x : kmeans a) samples nf n : nf <> 0 -> length samples = n * nf -> km_centroids a x = [] ->
  do_call a (call_predict a samples nf) x = Ok (answer_labels a (repeat 0 n), x) /\
  do_call a (call_forward a samples nf) x = Ok (answer_distances a (repeat None n), x).
Proof.
  intros Hnf Hs Hx. cbn [do_call]. rewrite Hx. unfold samples_to_nearest_centroid_indices, samples_to_nearest_centroid_distances.
  destruct (n_rows samples samples nf n n Hnf Hs Hs) as (-> & _). cbn [bind].
  assert (E0 : get_n_samples ([] : list (num a)) nf = Ok 0).
  { unfold get_n_samples. destruct (Nat.eqb_spec nf 0); [contradiction|]. cbn [length]. now rewrite Nat.div_0_l. }
  rewrite E0. cbn [bind].
  assert (G : forall {A} (v : A) f, (forall i, f i = Ok v) -> fill v n f = Ok (repeat v n)).
  { intros A v f Hf. destruct (fill_inv v n f (fun _ w => w = v)) as (l & El & Ll & Hl).
    - intros i Hi. exists v. auto.
    - rewrite El. f_equal. apply nth_error_ext. intros i. destruct (lt_dec i n) as [Hi|Hi].
      + destruct (Hl i Hi) as (w & -> & ->). symmetry. apply nth_error_repeat. auto.
      + rewrite (proj2 (nth_error_None l i)), (proj2 (nth_error_None _ i)); auto; rewrite ?repeat_length; lia. }
  unfold nearest_centroid_index. cbn [for_loop bind]. rewrite !G by auto. auto.
Qed.

Example c92_predict_before_case :
  shown (do_calls line [call_predict line (qs [4; 9; 7]%Z) 1; call_forward line (qs [4; 9; 7]%Z) 1] (new_kmeans line 2 (on_line 1 1)))
  = Ok [inr [0; 0; 0]; inl [-1; -1; -1]%Q].
Proof. vm_compute. reflexivity. Qed.

(** ** Lengths *)
(** A call on data of [nf] features where [nf] divides the [len] stored numbers. *)
Definition call_fits (a : arith) (len : nat) (c : call a) : Prop :=
  match c with
  | call_set_options _ _ => True
  | call_fit _ alg samples nf _ => nf <> 0 /\ (exists k, len = k * nf) /\ (exists n, length samples = n * nf) /\
      (alg = lloyd_algorithm a \/ alg = hamerly_algorithm a)
  | call_predict _ samples nf | call_forward _ samples nf => nf <> 0 /\ (exists k, len = k * nf) /\ exists n, length samples = n * nf
  end.

Definition answer_fits (a : arith) (len : nat) (c : call a) (r : answer a) : Prop :=
  match c, r with
  | call_set_options _ _, answer_self _ => True
  | call_fit _ _ _ _ _, answer_centroids _ m => length m = len
  | call_predict _ samples nf, answer_labels _ l => length l * nf = length samples /\ forall j, In j l -> j * nf < len
  | call_forward _ samples nf, answer_distances _ l => length l * nf = length samples /\ forall v, In v l -> v <> None
  | _, _ => False
  end.

(** Hamerly's algorithm never fails, with or without ties. *)
Lemma hamerly_fit (a : arith) : arith_ok a -> metric_laws a -> forall samples nf n k o close c init,
  nf <> 0 -> length samples = n * nf -> 0 < k -> length c = k * nf ->
  exists c', fit a (hamerly_algorithm a samples nf) o close c init = Ok c' /\ length c' = k * nf.
Proof.
  intros Ha Hm samples nf n k o close c init Hnf Hs Hk Hc.
  destruct (make_shape a Ha samples nf n k Hnf Hs Hk c Hc) as (h0 & E0 & S0 & Ec0 & _).
  pose proof (reassign_ok a Ha samples nf n k Hnf Hs Hm) as Hre.
  set (next := fun h => match hamerly_step a samples nf h with Ok h' => h' | _ => h end).
  set (run := fun t => Nat.iter t next h0).
  assert (Hinv : forall t, shape a samples nf n k (run t)).
  { induction t; [exact S0|]. change (run (S t)) with (next (run t)). unfold next.
    destruct (step_all a Ha samples nf n k Hnf Hs Hk Hre (run t) IHt) as (h' & -> & H & _). auto. }
  assert (Hstep : forall t, hamerly_step a samples nf (run t) = Ok (run (S t))).
  { intros t. destruct (step_all a Ha samples nf n k Hnf Hs Hk Hre (run t) (Hinv t)) as (h' & E & _).
    change (run (S t)) with (next (run t)). unfold next. now rewrite E. }
  change h0 with (run 0) in E0, Ec0.
  assert (Hlen : forall t, length (h_centroids a (run t)) = k * nf) by (intros t; apply (Hinv t)).
  assert (Hcn : c <> []) by (intros ->; cbn [length] in Hc; nia).
  destruct (fit_ok a (hamerly_algorithm a samples nf) o close c init [c]) as (rs & i & c' & loss & E & F2 & Hi & _).
  - destruct c; [congruence|reflexivity].
  - discriminate.
  - apply (ok_order _ Ha).
  - intros cand [<-|[]]. apply (fit_candidate_ok a (hamerly_algorithm a samples nf) o close c run); auto.
    intros t Hnil. pose proof (Hlen t) as H. cbn [alg_centroids hamerly_algorithm] in Hnil. rewrite Hnil in H. cbn [length] in H. nia.
  - exists c'. split; auto. apply nth_error_In in Hi. destruct (Forall2_in_r _ _ _ _ F2 Hi) as (cand & [<-|[]] & st & t & H0 & H1 & _ & H2 & _).
    cbn [alg_make alg_step alg_centroids hamerly_algorithm fst] in *.
    rewrite H2, (run_unique (hamerly_step a samples nf) st run) by (auto; congruence). apply Hlen.
Qed.

Lemma lloyd_fit (a : arith) : arith_ok a -> forall samples nf n k o close c init run,
  nf <> 0 -> length samples = n * nf -> 0 < k -> length c = k * nf ->
  make_lloyd a samples nf c = Ok (run 0) -> (forall t, lloyd_step a samples nf (run t) = Ok (run (S t))) ->
  exists t, fit a (lloyd_algorithm a samples nf) o close c init = Ok (ll_centroids a (run t)) /\ length (ll_centroids a (run t)) = k * nf /\
    (early_stopping o = false -> t = max_iter o) /\ (0 < max_iter o -> 0 < t).
Proof.
  intros Ha samples nf n k o close c init run Hnf Hs Hk Hc E0 Hstep.
  assert (Hcn : c <> []) by (intros ->; cbn [length] in Hc; nia).
  destruct (c61_fit_lloyd a Ha samples nf n k o close c init Hnf Hs Hk) as (rs & i & c' & loss & E & F2 & Hi & _).
  - unfold candidates_of. destruct c; [congruence|discriminate].
  - unfold candidates_of. destruct c; [congruence|]. intros x [<-|[]]. exact Hc.
  - apply nth_error_In in Hi. destruct (Forall2_in_r _ _ _ _ F2 Hi) as (cand & Hin & st & t & H0 & H1 & (Ht1 & Ht2 & _) & H2 & _).
    cbn [alg_make alg_step alg_centroids lloyd_algorithm fst] in *.
    assert (Hcand : cand = c) by (unfold candidates_of in Hin; destruct c; [congruence|destruct Hin as [<-|[]]; auto]). subst cand.
    exists t. rewrite <- (run_unique (lloyd_step a samples nf) st run) by (auto; congruence). rewrite <- H2. split; [auto|].
    destruct (c44_lloyd_steps a Ha samples c nf n k Hnf Hs Hc Hk) as (run' & E0' & _ & Hrun').
    split; [rewrite H2, (run_unique (lloyd_step a samples nf) st run'); [apply Hrun'|congruence|auto|apply Hrun']|]. split.
    + intros He. destruct Ht2 as [|(Ht2 & _)]; auto. congruence.
    + intros Hm. destruct Ht2 as [|(_ & Ht2)]; [lia|]. destruct (Ht2 0); lia.
Qed.

(** Every call succeeds; all matrices of centroids have the length of the first one, whatever the number of features. *)
Theorem c92_lengths (a : arith) : arith_ok a -> metric_laws a -> forall len cs x, 0 < len -> length (km_centroids a x) = len ->
  Forall (call_fits a len) cs ->
  exists answers x', do_calls a cs x = Ok (answers, x') /\ length (km_centroids a x') = len /\ Forall2 (answer_fits a len) cs answers.
Proof.
  intros Ha Hm len cs x Hlen Hx HF. revert x Hx. induction HF as [|c cs Hc HF IH]; intros x Hx.
  { exists [], x. splits; auto. }
  assert (H1 : exists r x1, do_call a c x = Ok (r, x1) /\ length (km_centroids a x1) = len /\ answer_fits a len c r).
  { destruct c as [s|alg samples nf init|samples nf|samples nf]; cbn [do_call call_fits answer_fits] in *.
    - eexists _, _. splits; [reflexivity|exact Hx|exact I].
    - destruct Hc as (Hnf & (k & Hk) & (n & Hn) & [->| ->]); (assert (Hk0 : 0 < k) by (destruct k; cbn in Hk; lia)).
      + destruct (c44_lloyd_steps a Ha samples (km_centroids a x) nf n k Hnf Hn ltac:(lia) Hk0) as (run & E0 & _ & Hrun).
        destruct (lloyd_fit a Ha samples nf n k (s_options a (km_settings a x)) (s_close a (km_settings a x)) (km_centroids a x)
          (init (km_count a x)) run Hnf Hn Hk0 ltac:(lia) E0 (fun t => proj1 (Hrun t))) as (t & E & L & _).
        rewrite E. cbn [bind]. eexists _, _. split; [reflexivity|]. cbn. split; lia.
      + destruct (hamerly_fit a Ha Hm samples nf n k (s_options a (km_settings a x)) (s_close a (km_settings a x)) (km_centroids a x)
          (init (km_count a x)) Hnf Hn Hk0 ltac:(lia)) as (c' & E & L).
        rewrite E. cbn [bind]. eexists _, _. split; [reflexivity|]. cbn. split; lia.
    - destruct Hc as (Hnf & (k & Hk) & (n & Hn)). assert (Hk0 : 0 < k) by (destruct k; cbn in Hk; lia).
      destruct (predict_ok (e_lt a) None (e_dist a) (order_ext a Ha) (fun _ _ => eq_refl) samples (km_centroids a x) nf n k Hnf Hn ltac:(lia) Hk0)
        as (l & E & L & Hl). rewrite E. cbn [bind]. eexists _, _. split; [reflexivity|]. split; [exact Hx|]. split; [lia|].
      intros j Hj. apply In_nth_error in Hj. destruct Hj as (i & Hi). pose proof (nth_error_lt _ _ _ Hi).
      destruct (Hl i ltac:(lia)) as (j' & E' & (G & _) & _). rewrite Hi in E'. injection E' as <-. nia.
    - destruct Hc as (Hnf & (k & Hk) & (n & Hn)). assert (Hk0 : 0 < k) by (destruct k; cbn in Hk; lia).
      destruct (forward_ok (e_lt a) None (e_dist a) (order_ext a Ha) (fun _ _ => eq_refl) samples (km_centroids a x) nf n k Hnf Hn ltac:(lia) Hk0)
        as (l & E & L & Hl). rewrite E. cbn [bind]. eexists _, _. split; [reflexivity|]. split; [exact Hx|]. split; [lia|].
      intros v Hv ->. apply In_nth_error in Hv. destruct Hv as (i & Hi). pose proof (nth_error_lt _ _ _ Hi).
      destruct (Hl i ltac:(lia)) as (v & E' & j & _ & Hv). rewrite Hi in E'. injection E' as <-. discriminate. }
  destruct H1 as (r & x1 & E1 & Hx1 & Hr). destruct (IH x1 Hx1) as (rs & x' & E2 & Hx' & HF2).
  exists (r :: rs), x'. cbn [do_calls]. rewrite E1. cbn [bind]. rewrite E2. cbn [bind]. splits; auto.
Qed.

(** Fitted with one feature and two centroids, then with two features: the two numbers are one centroid of the plane. *)
Example c92_lengths_case :
  let calls := [call_fit line (lloyd_algorithm line) (qs [0; 2; 3; 10]%Z) 1 (fun _ _ => []);
                call_fit line (hamerly_algorithm line) (qs [0; 2; 3; 10]%Z) 2 (fun _ _ => []); call_predict line (qs [0; 2; 3; 10]%Z) 2] in
  Forall (call_fits line 2) calls /\
  shown (do_calls line calls (new_kmeans_with line 2 (qs [0; 1]%Z) (on_line 9 1))) = Ok [inl [5 # 3; 10]%Q; inl [3 # 2; 6]%Q; inr [0; 0]].
Proof.
  split; [|vm_compute; reflexivity].
  repeat apply Forall_cons; [| | |apply Forall_nil]; cbn [call_fits].
  - split; [discriminate|]. split; [exists 2; reflexivity|]. split; [exists 4; reflexivity|auto].
  - split; [discriminate|]. split; [exists 1; reflexivity|]. split; [exists 2; reflexivity|auto].
  - split; [discriminate|]. split; [exists 1; reflexivity|]. exists 2. reflexivity.
Qed.

(** ** Repeated fits *)
Lemma lloyd_restart a samples nf run : make_lloyd a samples nf (ll_centroids a (run 0)) = Ok (run 0) ->
  (forall t, lloyd_step a samples nf (run t) = Ok (run (S t))) -> forall t, make_lloyd a samples nf (ll_centroids a (run t)) = Ok (run t).
Proof.
  intros H0 Hst [|u]; [exact H0|]. pose proof (Hst u) as Eu. unfold lloyd_step in Eu. do 3 (apply bind_ok in Eu; destruct Eu as (? & _ & Eu)).
  apply bind_ok in Eu. destruct Eu as (cc & _ & Eu). now rewrite (made_centroids _ _ _ _ _ Eu).
Qed.

(** Without early stopping, fitting for [m] iterations and again for [m'] is fitting once for [m + m'], with Lloyd's algorithm and
    any arithmetic. *)
Theorem c92_iterations_add_up (a : arith) : arith_ok a -> forall samples nf n k c m m' p p' p'' i i' i'' close close' close'' init init' init'',
  nf <> 0 -> length samples = n * nf -> 0 < k -> length c = k * nf ->
  exists c1 c2,
    fit a (lloyd_algorithm a samples nf) (mk_options m false p i) close c init = Ok c1 /\
    fit a (lloyd_algorithm a samples nf) (mk_options m' false p' i') close' c1 init' = Ok c2 /\
    fit a (lloyd_algorithm a samples nf) (mk_options (m + m') false p'' i'') close'' c init'' = Ok c2.
Proof.
  intros Ha samples nf n k c m m' p p' p'' i i' i'' close close' close'' init init' init'' Hnf Hs Hk Hc.
  destruct (c44_lloyd_steps a Ha samples c nf n k Hnf Hs Hc Hk) as (run & E0 & Ec & Hrun).
  pose proof (fun t => proj1 (Hrun t)) as Hst.
  destruct (lloyd_fit a Ha samples nf n k (mk_options m false p i) close c init run Hnf Hs Hk Hc E0 Hst) as (t1 & E1 & L1 & T1 & _).
  rewrite (T1 eq_refl) in E1, L1. cbn [max_iter] in E1, L1.
  destruct (lloyd_fit a Ha samples nf n k (mk_options m' false p' i') close' (ll_centroids a (run m)) init' (fun t => run (m + t)) Hnf Hs Hk L1)
    as (t2 & E2 & L2 & T2 & _).
  - rewrite Nat.add_0_r. apply lloyd_restart; auto. now rewrite Ec.
  - intros t. rewrite Nat.add_succ_r. apply Hst.
  - rewrite (T2 eq_refl) in E2. cbn [max_iter] in E2.
    destruct (lloyd_fit a Ha samples nf n k (mk_options (m + m') false p'' i'') close'' c init'' run Hnf Hs Hk Hc E0 Hst) as (t3 & E3 & L3 & T3 & _).
    rewrite (T3 eq_refl) in E3. cbn [max_iter] in E3. eauto.
Qed.

Example c92_iterations_case :
  (c1 <- fit line (lloyd_algorithm line (qs [0; 2; 3; 10]%Z) 1) (mk_options 1 false 0 1) qc_eq (qs [0; 1]%Z) (fun _ => []) ;;
   c2 <- fit line (lloyd_algorithm line (qs [0; 2; 3; 10]%Z) 1) (mk_options 1 false 0 1) qc_eq c1 (fun _ => []) ;;
   c <- fit line (lloyd_algorithm line (qs [0; 2; 3; 10]%Z) 1) (mk_options 2 false 0 1) qc_eq (qs [0; 1]%Z) (fun _ => []) ;;
   Ok (map this c1, map this c2, map this c)) = Ok ([0; 5], [1; 13 # 2], [1; 13 # 2])%Q.
Proof. vm_compute. reflexivity. Qed.

(** With Hamerly's algorithm one and one iteration need not be two. *)
Theorem c92_hamerly_iterations_refuted : exists samples c c1 c2 c3,
  fit line (hamerly_algorithm line samples 1) (mk_options 1 false 0 1) qc_eq c (fun _ => []) = Ok c1 /\
  fit line (hamerly_algorithm line samples 1) (mk_options 1 false 0 1) qc_eq c1 (fun _ => []) = Ok c2 /\
  fit line (hamerly_algorithm line samples 1) (mk_options 2 false 0 1) qc_eq c (fun _ => []) = Ok c3 /\ c2 <> c3.
Proof.
  pose (fitted := fun m c => centroids_of (fit line (hamerly_algorithm line (qs [0; 4; 3]%Z) 1) (mk_options m false 0 1) qc_eq c (fun _ => []))).
  exists (qs [0; 4; 3]%Z), (qs [2; 4]%Z), (fitted 1 (qs [2; 4]%Z)), (fitted 1 (fitted 1 (qs [2; 4]%Z))), (fitted 2 (qs [2; 4]%Z)).
  split; [vm_compute; reflexivity|]. split; [vm_compute; reflexivity|]. split; [vm_compute; reflexivity|].
  intros E. apply (f_equal (map this)) in E. vm_compute in E. discriminate.
Qed.

(** Calls that set options and fit, with their own initializers. *)
Definition lloyd_fits a samples nf (l : list (settings a * (nat -> nat -> list (num a)))) : list (call a) :=
  flat_map (fun '(s, init) => [call_set_options a s; call_fit a (lloyd_algorithm a) samples nf init]) l.

Lemma lloyd_fits_ok (a : arith) : arith_ok a -> forall samples nf n k run, nf <> 0 -> length samples = n * nf -> 0 < k ->
  length (ll_centroids a (run 0)) = k * nf -> make_lloyd a samples nf (ll_centroids a (run 0)) = Ok (run 0) ->
  (forall t, lloyd_step a samples nf (run t) = Ok (run (S t))) ->
  forall l, (forall s init, In (s, init) l -> 0 < max_iter (s_options a s)) -> forall x t0, km_centroids a x = ll_centroids a (run t0) ->
  exists answers x' t, do_calls a (lloyd_fits a samples nf l) x = Ok (answers, x') /\ km_centroids a x' = ll_centroids a (run t) /\
    t0 + length l <= t.
Proof.
  intros Ha samples nf n k run Hnf Hs Hk HL H0 Hst.
  assert (Hlen : forall t, length (ll_centroids a (run t)) = k * nf).
  { destruct (c44_lloyd_steps a Ha samples _ nf n k Hnf Hs HL Hk) as (run' & E0' & _ & Hrun').
    intros t. rewrite (run_unique (lloyd_step a samples nf) run run'); [apply Hrun'|congruence|auto|apply Hrun']. }
  induction l as [|(s, init) l IH]; intros Hl x t0 Hx.
  { exists [], x, t0. cbn. splits; auto. lia. }
  destruct (lloyd_fit a Ha samples nf n k (s_options a s) (s_close a s) (ll_centroids a (run t0)) (init (km_count a x)) (fun t => run (t0 + t)) Hnf Hs Hk (Hlen t0))
    as (t1 & E1 & _ & _ & T1).
  - rewrite Nat.add_0_r. apply lloyd_restart; auto.
  - intros t. rewrite Nat.add_succ_r. apply Hst.
  - specialize (T1 (Hl s init (or_introl eq_refl))).
    destruct (IH (fun s i H => Hl s i (or_intror H)) (mk_kmeans a (km_count a x) (ll_centroids a (run (t0 + t1))) s) (t0 + t1) eq_refl)
      as (rs & x' & t & E2 & Hx' & Ht).
    exists (answer_self a :: answer_centroids a (ll_centroids a (run (t0 + t1))) :: rs), x', t.
    cbn [lloyd_fits flat_map app do_calls do_call bind km_settings km_centroids km_count s_options s_close]. rewrite Hx, E1. cbn [bind].
    fold (lloyd_fits a samples nf l). rewrite E2. cbn [bind]. splits; auto. cbn [length]. lia.
Qed.

(** Fitting again and again with Lloyd's algorithm, each time for at least one iteration: after [k ^ n + 1] fits the object is at
    rest. Further fits return its centroids, and they are the means of the clusters that [predict] gives. *)
Theorem c92_fits_come_to_rest (d : list Qc -> list Qc -> Qc) (samples : list Qc) nf n k x l :
  nf <> 0 -> euclidean_order nf d -> length samples = n * nf -> 0 < k -> length (km_centroids (rational d) x) = k * nf ->
  (forall s init, In (s, init) l -> 0 < max_iter (s_options (rational d) s)) -> k ^ n + 1 <= length l ->
  exists answers x' labels, do_calls (rational d) (lloyd_fits (rational d) samples nf l) x = Ok (answers, x') /\
    do_call (rational d) (call_predict (rational d) samples nf) x' = Ok (answer_labels (rational d) labels, x') /\
    nearest_assignment (rational d) samples nf n k (km_centroids (rational d) x') labels /\
    centroids_after (rational d) samples nf k labels (fun _ => repeat (Q2Qc 0) nf) (km_centroids (rational d) x') /\
    forall init, do_call (rational d) (call_fit (rational d) (lloyd_algorithm (rational d)) samples nf init) x' =
      Ok (answer_centroids (rational d) (km_centroids (rational d) x'), x').
Proof.
  intros Hnf Hd Hs Hk Hx Hl Hlen.
  destruct (c91_lloyd_converges d samples (km_centroids _ x) nf n k Hnf Hd Hs Hx Hk) as (run & T & E0 & Hst & HT & Hrest & Hn & Hca).
  pose proof (made_centroids _ _ _ _ _ E0) as Ec.
  destruct (lloyd_fits_ok (rational d) (rational_ok d) samples nf n k run Hnf Hs Hk) with (l := l) (x := x) (t0 := 0)
    as (answers & x' & t & E & Hx' & Ht); auto; try (rewrite Ec; auto).
  exists answers, x', (ll_indices _ (run T)). rewrite (Hrest t) in Hx' by lia. rewrite Hx'. split; [exact E|].
  assert (EM : make_lloyd (rational d) samples nf (ll_centroids _ (run T)) = Ok (run T)).
  { apply lloyd_restart; auto. now rewrite Ec. }
  split; [|split; [exact Hn|split; [exact Hca|]]].
  - cbn [do_call]. rewrite Hx'. unfold make_lloyd in EM. apply bind_ok in EM. destruct EM as (idx & Ei & EM).
    apply bind_ok in EM. destruct EM as (ds & _ & EM). assert (G : idx = ll_indices _ (run T)) by (injection EM as <-; reflexivity).
    rewrite Ei, <- G. reflexivity.
  - intros init. cbn [do_call]. rewrite Hx'.
    destruct (lloyd_fit (rational d) (rational_ok d) samples nf n k (s_options _ (km_settings _ x')) (s_close _ (km_settings _ x'))
      (ll_centroids _ (run T)) (init (km_count _ x')) (fun _ => run T) Hnf Hs Hk) as (t1 & E1 & _); auto.
    + apply Hca.
    + intros _. rewrite Hst. f_equal. apply Hrest. lia.
    + rewrite E1. cbn [bind]. rewrite <- Hx'. destruct x'; reflexivity.
Qed.

(** Three samples and two centroids: nine fits of one iteration, and one more. *)
Example c92_rest_case :
  let fits := lloyd_fits line (qs [0; 1; 6]%Z) 1 (repeat (on_line 1 0, fun _ _ => []) 9) in
  2 ^ 3 + 1 <= 9 /\
  (' (l, x) <- do_calls line fits (new_kmeans_with line 2 (qs [0; 1]%Z) (on_line 1 1)) ;;
   ' (r, _) <- do_call line (call_predict line (qs [0; 1; 6]%Z) 1) x ;;
   ' (r', _) <- do_call line (call_fit line (lloyd_algorithm line) (qs [0; 1; 6]%Z) 1 (fun _ _ => [])) x ;;
   shown (Ok ([nth 1 l (answer_self line); nth 3 l (answer_self line); r; r'], x)))
  = Ok [inl [0; 7 # 2]%Q; inl [1 # 2; 6]%Q; inr [0; 0; 1]; inl [1 # 2; 6]%Q].
Proof. split; [cbn; lia|]. vm_compute. reflexivity. Qed.

Print Assumptions c92_start_ignored.
Print Assumptions c92_new_data_refuted.
Print Assumptions c92_predict_before_fit.
Print Assumptions c92_lengths.
Print Assumptions c92_iterations_add_up.
Print Assumptions c92_hamerly_iterations_refuted.
Print Assumptions c92_fits_come_to_rest.
