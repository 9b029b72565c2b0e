(** C104: candidates worked on by several threads. *)
From Coq Require Import List Arith ZArith QArith Qcanon Bool Lia.
From Verif Require Import Base SortingModel BufferModel SearchModel MatrixModel MatrixProofs RandomModel KMeansModel KMeansSpec KMeansCases KMeansProps
  KMedoidsModel KMedoidsSpec KMedoidsProofs KMedoidsProps ThreadsModel ThreadsSpec ThreadsProofs.
Import ListNotations.
Local Open Scope nat_scope.

(** ** No two iterations touch the same element *)
Section Private.
Context {St C L : Type} (make : C -> res St) (step : St -> res St) (current : St -> C) (deviation_of : St -> L) (same : C -> C -> bool)
  (iterations_max : nat) (early : bool) (patience_max : nat).
Notation advance := (advance make step current deviation_of same iterations_max early patience_max).

Lemma rd_agree {A} (l l' : list A) i : nth_error l i = nth_error l' i -> rd l i = rd l' i.
Proof. unfold rd. now intros ->. Qed.
Lemma wr_agree {A} (l l' : list A) i v r : nth_error l i = nth_error l' i -> wr l i v = Ok r ->
  exists r', wr l' i v = Ok r' /\ nth_error r i = nth_error r' i.
Proof.
  intros E H. apply wr_ok in H. destruct H as (Hi & ->).
  assert (Hi' : i < length l'). { apply nth_error_Some. rewrite <- E. now apply nth_error_Some. }
  exists (upd l' i v). split; [now apply wr_lt|]. now rewrite !nth_error_upd_eq.
Qed.

(** The action of iteration [i] leaves the elements of the others alone, and depends on its own only. *)
Theorem c104_private i p m p' m' : advance i p m = Ok (p', m') ->
  (forall j, j <> i -> agree j m' m) /\
  (forall m2, agree i m2 m -> exists m2', advance i p m2 = Ok (p', m2') /\ agree i m2' m').
Proof.
  intros E. split.
  - intros j Hj. destruct p as [|[|it] pt s|it pt s|it pt s|s|]; cbn [ThreadsModel.advance] in E.
    + destruct (rd (candidates m) i) as [c| | |]; try discriminate E. cbn [bind] in E. destruct (make c); try discriminate E. injection E as _ <-. repeat split.
    + injection E as _ <-. repeat split.
    + destruct (step s) as [s'| | |]; try discriminate E. cbn [bind] in E. destruct (wr (candidates m) i (current s')) as [cs| | |] eqn:W; try discriminate E.
      injection E as _ <-. apply wr_ok in W. destruct W as (_ & ->). unfold agree. cbn [candidates previous losses].
      now rewrite nth_error_upd_neq by auto.
    + destruct early; [|injection E as _ <-; repeat split].
      destruct (rd (candidates m) i) as [c| | |]; try discriminate E. cbn [bind] in E. destruct (rd (previous m) i) as [q| | |]; try discriminate E. cbn [bind] in E.
      destruct (same c q); [destruct (pt =? patience_max)|]; injection E as _ <-; repeat split.
    + destruct (rd (candidates m) i) as [c| | |]; try discriminate E. cbn [bind] in E.
      destruct (wr (previous m) i c) as [ps| | |] eqn:W; try discriminate E. injection E as _ <-. apply wr_ok in W. destruct W as (_ & ->).
      unfold agree. cbn [candidates previous losses]. now rewrite nth_error_upd_neq by auto.
    + destruct (wr (losses m) i (deviation_of s)) as [ls| | |] eqn:W; try discriminate E. injection E as _ <-. apply wr_ok in W. destruct W as (_ & ->).
      unfold agree. cbn [candidates previous losses]. now rewrite nth_error_upd_neq by auto.
    + injection E as _ <-. repeat split.
  - intros m2 Ha. pose proof Ha as (A1 & A2 & A3). pose proof (rd_agree _ _ _ A1) as R1. pose proof (rd_agree _ _ _ A2) as R2.
    destruct p as [|[|it] pt s|it pt s|it pt s|s|]; cbn [ThreadsModel.advance] in *.
    + rewrite R1. destruct (rd (candidates m) i) as [c| | |]; try discriminate E. cbn [bind] in *. destruct (make c); try discriminate E.
      injection E as <- <-. exists m2. split; [reflexivity|exact Ha].
    + injection E as <- <-. exists m2. split; [reflexivity|exact Ha].
    + destruct (step s) as [s'| | |]; try discriminate E. cbn [bind] in *. destruct (wr (candidates m) i (current s')) as [cs| | |] eqn:W; try discriminate E.
      injection E as <- <-. destruct (wr_agree _ _ _ _ _ (eq_sym A1) W) as (cs' & -> & Hn). cbn [bind]. eexists. split; [reflexivity|].
      unfold agree. cbn [candidates previous losses]. auto.
    + destruct early; [|injection E as <- <-; exists m2; (split; [reflexivity|exact Ha])].
      rewrite R1, R2. destruct (rd (candidates m) i) as [c| | |]; try discriminate E. cbn [bind] in *.
      destruct (rd (previous m) i) as [q| | |]; try discriminate E. cbn [bind] in *.
      destruct (same c q); [destruct (pt =? patience_max)|]; injection E as <- <-; exists m2; (split; [reflexivity|exact Ha]).
    + rewrite R1. destruct (rd (candidates m) i) as [c| | |]; try discriminate E. cbn [bind] in *.
      destruct (wr (previous m) i c) as [ps| | |] eqn:W; try discriminate E. injection E as <- <-.
      destruct (wr_agree _ _ _ _ _ (eq_sym A2) W) as (ps' & -> & Hn). cbn [bind]. eexists. split; [reflexivity|].
      unfold agree. cbn [candidates previous losses]. auto.
    + destruct (wr (losses m) i (deviation_of s)) as [ls| | |] eqn:W; try discriminate E. injection E as <- <-.
      destruct (wr_agree _ _ _ _ _ (eq_sym A3) W) as (ls' & -> & Hn). cbn [bind]. eexists. split; [reflexivity|].
      unfold agree. cbn [candidates previous losses]. auto.
    + injection E as <- <-. exists m2. split; [reflexivity|exact Ha].
Qed.
End Private.

(** ** KMeans *)
Lemma fit_loop_alone a alg o close : forall iterations pt q c s,
  alone (alg_step a alg) (alg_centroids a alg) (are_containers_equal a close) (early_stopping o) (patience o) iterations pt q c s
  = fit_loop a alg o close iterations pt q c s.
Proof.
  induction iterations as [|it IH]; intros pt q c s; cbn [alone fit_loop]; [reflexivity|].
  destruct (alg_step a alg s) as [s'| | |]; cbn [bind]; auto.
  destruct (early_stopping o && _); auto. destruct (pt =? patience o); auto.
Qed.

Lemma fit_one_by_one a alg o close centroids initializer :
  one_by_one (alg_make a alg) (alg_step a alg) (alg_centroids a alg) (alg_loss a alg) (are_containers_equal a close) (max_iter o)
    (early_stopping o) (patience o) (e_lt a) [] (match centroids with [] => map initializer (seq 0 (n_init o)) | _ => [centroids] end)
  = fit a alg o close centroids initializer.
Proof.
  unfold one_by_one, fit. f_equal. apply for_each_ext. intros c rs _. unfold from_start, fit_candidate, ended.
  destruct (alg_make a alg c) as [s| | |]; cbn [bind]; auto. now rewrite fit_loop_alone.
Qed.

(** [n] candidates: given centroids are one, otherwise there are [n_init]. *)
Theorem c104_kmeans a (alg : algorithm a) o close zero schedule centroids initializer :
  let n := match centroids with [] => n_init o | _ => 1 end in
  runs n schedule ->
  (forall c, parallel_fit a alg o close zero schedule centroids initializer = Ok c -> fit a alg o close centroids initializer = Ok c) /\
  (enough n (3 * max_iter o + 3) schedule -> forall c,
     fit a alg o close centroids initializer = Ok c -> parallel_fit a alg o close zero schedule centroids initializer = Ok c).
Proof.
  intros n Hs. unfold parallel_fit. rewrite <- fit_one_by_one.
  assert (En : length (match centroids with [] => map initializer (seq 0 (n_init o)) | _ => [centroids] end) = n).
  { unfold n. destruct centroids; [now rewrite map_length, seq_length|reflexivity]. }
  unfold runs, enough in *. rewrite <- En in Hs |- *.
  destruct (best_same (alg_make a alg) (alg_step a alg) (alg_centroids a alg) (alg_loss a alg) (are_containers_equal a close) (max_iter o)
    (early_stopping o) (patience o) (e_lt a) [] zero schedule _ Hs) as (H1 & H2 & _). split; [exact H1|exact H2].
Qed.

(** ** KMedoids *)
Lemma medoids_loop_alone wrap src o : forall iterations pt q c s,
  alone (pam_step wrap src) p_medoids same_indices (mo_early_stopping o) (mo_patience o) iterations pt q c s
  = medoids_loop wrap src o iterations pt q c s.
Proof.
  induction iterations as [|it IH]; intros pt q c s; cbn [alone medoids_loop]; [reflexivity|].
  destruct (pam_step wrap src s) as [s'| | |]; cbn [bind]; auto.
  destruct (mo_early_stopping o && _); auto. destruct (pt =? mo_patience o); auto.
Qed.

Lemma medoids_one_by_one wrap top src o k medoids draw :
  (candidates <- medoids_candidates src o k medoids draw ;;
   one_by_one (make_pam wrap top src) (pam_step wrap src) p_medoids p_loss same_indices (mo_max_iter o)
     (mo_early_stopping o) (mo_patience o) Z.ltb [] candidates)
  = medoids_fit wrap top src o k medoids draw.
Proof.
  unfold medoids_fit. destruct (medoids_candidates src o k medoids draw) as [cs| | |]; cbn [bind]; auto.
  unfold one_by_one. f_equal. apply for_each_ext. intros c rs _. unfold from_start, medoids_candidate, ended.
  destruct (make_pam wrap top src c) as [s| | |]; cbn [bind]; auto. now rewrite medoids_loop_alone.
Qed.

Lemma same_length {A B} (R : A -> B -> Prop) l l' : Forall2 R l l' -> length l' = length l.
Proof. induction 1; cbn [length]; auto. Qed.

Theorem c104_medoids wrap top src o k schedule medoids draw :
  let n := match medoids with [] => mo_n_init o | _ => 1 end in
  runs n schedule ->
  (forall c, parallel_medoids_fit wrap top src o schedule k medoids draw = Ok c -> medoids_fit wrap top src o k medoids draw = Ok c) /\
  (enough n (3 * mo_max_iter o + 3) schedule -> forall c,
     medoids_fit wrap top src o k medoids draw = Ok c -> parallel_medoids_fit wrap top src o schedule k medoids draw = Ok c).
Proof.
  intros n Hs. unfold parallel_medoids_fit. rewrite <- medoids_one_by_one.
  destruct (medoids_candidates src o k medoids draw) as [cs| | |] eqn:Ec; cbn [bind]; try (split; [|intros _]; discriminate).
  assert (En : length cs = n).
  { unfold n, medoids_candidates in *. destruct medoids; [|injection Ec as <-; reflexivity].
    apply collect_ok in Ec. destruct Ec as (ys & -> & F). apply same_length in F. now rewrite seq_length in F. }
  unfold runs, enough in *. rewrite <- En in Hs |- *.
  destruct (best_same (make_pam wrap top src) (pam_step wrap src) p_medoids p_loss same_indices (mo_max_iter o)
    (mo_early_stopping o) (mo_patience o) Z.ltb [] 0%Z schedule cs Hs) as (H1 & H2 & _). split; [exact H1|exact H2].
Qed.

(** With OpenMP no exception leaves [fit]: the caller of [fit] can catch the one thrown for a single medoid only without OpenMP. *)
Theorem c104_exception_refuted : exists src medoids, forall o draw rest, runs 1 rest ->
  medoids_fit signed_wrap int_max src o 1 medoids draw = Throw /\
  parallel_medoids_fit signed_wrap int_max src o (0 :: rest) 1 medoids draw = UB.
Proof.
  exists (line_source [3; 5; 9]%Z), [0]. intros o draw rest _.
  assert (E : make_pam signed_wrap int_max (line_source [3; 5; 9]%Z) [0] = Throw) by (vm_compute; reflexivity). split.
  - unfold medoids_fit. cbn [medoids_candidates bind for_each]. unfold medoids_candidate. rewrite E. reflexivity.
  - unfold parallel_medoids_fit. cbn [medoids_candidates bind]. unfold parallel_best, parallel_loop. cbn [for_each length repeat].
    cbn [rd nth_error bind advance candidates]. rewrite E. reflexivity.
Qed.

Theorem c104_no_exceptions wrap top src o k schedule medoids draw : medoids <> [] -> runs 1 schedule ->
  parallel_medoids_fit wrap top src o schedule k medoids draw <> Throw.
Proof.
  intros Hm Hs. unfold parallel_medoids_fit. destruct medoids as [|x medoids]; [congruence|]. cbn [medoids_candidates bind].
  exact (proj2 (proj2 (best_same (make_pam wrap top src) (pam_step wrap src) p_medoids p_loss same_indices (mo_max_iter o)
    (mo_early_stopping o) (mo_patience o) Z.ltb [] 0%Z schedule [x :: medoids] Hs))).
Qed.

(** ** Examples *)
(** The second candidate first, then in turns; the other way round, one after the other. *)
Definition in_turns (n : nat) : list nat := 1 :: 1 :: flat_map (fun _ => [0; 1]) (seq 0 n).
Definition backwards (n : nat) : list nat := repeat 1 n ++ repeat 0 n.
Definition enoughb (n turns : nat) (schedule : list nat) : bool := forallb (fun i => turns <=? count_occ Nat.eq_dec schedule i) (seq 0 n).
Lemma enough_check n turns schedule : enoughb n turns schedule = true -> enough n turns schedule.
Proof. intros H i Hi. unfold enoughb in H. rewrite forallb_forall in H. apply Nat.leb_le, H, in_seq. lia. Qed.
Definition runsb (n : nat) (schedule : list nat) : bool := forallb (fun i => i <? n) schedule.
Lemma runs_check n schedule : runsb n schedule = true -> runs n schedule.
Proof. intros H. apply Forall_forall. intros i Hi. unfold runsb in H. rewrite forallb_forall in H. now apply Nat.ltb_lt, H. Qed.

Example c104_kmeans_case :
  let fit_with schedule := c <- parallel_fit line (lloyd_algorithm line pts6 1) two_inits qc_eq None schedule [] init6 ;; Ok (map this c) in
  let turns := 3 * max_iter two_inits + 3 in
  runs 2 (in_turns turns) /\ enough 2 turns (in_turns turns) /\ runs 2 (backwards turns) /\ enough 2 turns (backwards turns) /\
  fit_with (in_turns turns) = Ok [1 # 2; 21 # 2; 41 # 2]%Q /\ fit_with (backwards turns) = Ok [1 # 2; 21 # 2; 41 # 2]%Q /\
  fit_with (in_turns 15) = Ok [1 # 2; 21 # 2; 41 # 2]%Q /\ fit_with (in_turns 3) = Fuel /\
  (c <- fit line (lloyd_algorithm line pts6 1) two_inits qc_eq [] init6 ;; Ok (map this c)) = Ok [1 # 2; 21 # 2; 41 # 2]%Q.
Proof.
  intros fit_with turns. split; [apply runs_check; vm_compute; reflexivity|]. split; [apply enough_check; vm_compute; reflexivity|].
  split; [apply runs_check; vm_compute; reflexivity|]. split; [apply enough_check; vm_compute; reflexivity|].
  splits; vm_compute; reflexivity.
Qed.

Example c104_medoids_case :
  let o := mk_medoids_options 100 true 0 2 in
  let fit_with schedule := parallel_medoids_fit signed_wrap int_max (line_source eleven) o schedule 3 [] two_draws in
  let turns := 3 * mo_max_iter o + 3 in
  fit_with (in_turns turns) = Ok [2; 7; 1] /\ fit_with (backwards turns) = Ok [2; 7; 1] /\
  medoids_fit signed_wrap int_max (line_source eleven) o 3 [] two_draws = Ok [2; 7; 1].
Proof. intros o fit_with turns. splits; vm_compute; reflexivity. Qed.

(** The first candidate stores its step while the second is at work; the second finds its own elements. *)
Example c104_private_case :
  let go := advance (fun c : nat => Ok c) (fun s => Ok (S s)) (fun s => s) (fun s => s) Nat.eqb 5 true 0 in
  let m := mk_shared [7; 20] [0; 0] [0; 0] in
  let m' := mk_shared [8; 20] [0; 0] [0; 0] in
  go 0 (Head 5 0 7) m = Ok (Test 4 0 8, m') /\ agree 1 m' m /\ go 1 Begin m = Ok (Head 5 0 20, m) /\ go 1 Begin m' = Ok (Head 5 0 20, m').
Proof. vm_compute. auto 10. Qed.

Print Assumptions c104_private.
Print Assumptions c104_kmeans.
Print Assumptions c104_medoids.
Print Assumptions c104_exception_refuted.
Print Assumptions c104_no_exceptions.
