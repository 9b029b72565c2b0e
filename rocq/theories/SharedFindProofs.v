(** Invariants of concurrent calls on one UnionFind: the parents array always describes the classes before the merge or after it. *)
From Coq Require Import List Arith Bool Lia.
From Verif Require Import Base UnionFindModel UnionFindSpec UnionFindProofs SharedFindModel.
Import ListNotations.

(** [R0], [R1]: representatives before and after a merge; [rk1]: the ranks after it, which grow along every chain of parents. *)
Section Find.
Context (n M : nat) (rk1 : list nat) (R0 R1 : nat -> nat).
Notation ord x := (nth x rk1 0).
Context (Hord : forall x, x < n -> ord x <= M).

Definition R (late : bool) : nat -> nat := if late then R1 else R0.

Definition sane (late : bool) (p : list nat) : Prop := length p = n /\
  forall x y, nth_error p x = Some y -> y < n /\ R late y = R late x /\ (y = x -> R late x = x) /\ (y <> x -> R late x <> x /\ ord x < ord y).

Definition result_ok (late : bool) (start r : nat) : Prop := r = R0 start \/ (late = true /\ r = R1 start).
Definition fok (late : bool) (start : nat) (f : finding) : Prop :=
  match f with
  | FTest x => x < n /\ R late x = R late start
  | FTemp x => x < n /\ R late x = R late start /\ R late x <> x
  | FGrand x t => x < n /\ R late x = R late start /\ R late x <> x /\ t < n /\ R late t = R late start /\ ord x < ord t
  | FWrite x t g => x < n /\ R late x = R late start /\ R late x <> x /\ t < n /\ R late t = R late start /\ ord x < ord t /\
      g < n /\ R late g = R late start /\ ord x < ord g
  | FReturn x => result_ok late start x
  end.
Definition fleft (f : finding) : nat :=
  match f with
  | FTest x => 4 * (M - ord x) + 1
  | FTemp x => 4 * (M - ord x)
  | FGrand x t => 4 * (M - ord x) - 1
  | FWrite x t g => 4 * (M - ord x) - 2
  | FReturn x => 0
  end.

Lemma at_index (p : list nat) x : x < length p -> exists y, nth_error p x = Some y.
Proof. intros H. destruct (nth_error p x) eqn:E; eauto. apply nth_error_None in E. lia. Qed.

Lemma find_step_ok late start f p : sane late p -> fok late start f ->
  exists f' p', find_step f p = Ok (f', p') /\ sane late p' /\ fok late start f' /\ (fleft f' < fleft f \/ exists r, f = FReturn r).
Proof.
  intros (Lp & Hp) Hf. destruct f as [x|x|x t|x t g|x]; cbn [fok find_step] in *.
  - destruct Hf as (Hx & Ex). destruct (at_index p x ltac:(lia)) as (y & Ey). rewrite (proj2 (rd_ok _ _ _) Ey). cbn [bind].
    destruct (Hp x y Ey) as (Hy & Eyr & Hr & Hn). destruct (Nat.eqb_spec x y) as [<-|Hne].
    + exists (FReturn x), p. split; [reflexivity|]. split; [split; auto|]. split; [|left; cbn [fleft]; lia]. cbn [fok]. unfold result_ok.
      specialize (Hr eq_refl). destruct late; cbn [R] in *; [right|left]; [split|]; congruence.
    + exists (FTemp x), p. split; [reflexivity|]. split; [split; auto|]. split; [|left; cbn [fleft]; lia]. cbn [fok].
      split; auto. split; auto. now apply Hn, not_eq_sym.
  - destruct Hf as (Hx & Ex & Hnr). destruct (at_index p x ltac:(lia)) as (y & Ey). rewrite (proj2 (rd_ok _ _ _) Ey). cbn [bind].
    destruct (Hp x y Ey) as (Hy & Eyr & Hr & Hn). assert (Hne : y <> x) by auto. destruct (Hn Hne) as (_ & Ho). pose proof (Hord y Hy).
    exists (FGrand x y), p. split; [reflexivity|]. split; [split; auto|]. split; [|left; cbn [fleft]; lia]. cbn [fok].
    do 4 (split; [auto|]). split; [congruence|auto].
  - destruct Hf as (Hx & Ex & Hnr & Ht & Et & Ho). destruct (at_index p t ltac:(lia)) as (g & Eg). rewrite (proj2 (rd_ok _ _ _) Eg). cbn [bind].
    destruct (Hp t g Eg) as (Hg & Egr & Hr & Hn). pose proof (Hord t Ht).
    exists (FWrite x t g), p. split; [reflexivity|]. split; [split; auto|]. split; [|left; cbn [fleft]; lia]. cbn [fok].
    do 7 (split; [auto|]). split; [congruence|]. destruct (Nat.eq_dec g t) as [->|Hne]; auto. destruct (Hn Hne). lia.
  - destruct Hf as (Hx & Ex & Hnr & Ht & Et & Ho & Hg & Eg & Hog). rewrite wr_lt by lia. cbn [bind]. pose proof (Hord t Ht).
    exists (FTest t), (upd p x g). split; [reflexivity|]. split.
    + split; [now rewrite upd_length|]. intros y z E. destruct (Nat.eq_dec y x) as [->|Hne].
      * rewrite nth_error_upd_eq in E by lia. injection E as <-. split; auto. split; [congruence|]. split; [|auto].
        intros ->. lia.
      * rewrite nth_error_upd_neq in E by auto. auto.
    + split; [cbn [fok]; auto|left; cbn [fleft]; lia].
  - exists (FReturn x), p. split; [reflexivity|]. split; [split; auto|]. split; [exact Hf|right; eauto].
Qed.

End Find.

Section Shared.
(** [R0], [R1]: representatives before and after the merge of [i] and [j]; [rk0], [rk1]: the ranks; [w] is the representative of the
    merged class, [l] the one that is hung below it. *)
Context (n M : nat) (rk0 rk1 : list nat) (R0 R1 : nat -> nat) (i j w l : nat).
Notation rank x := (nth x rk0 0).
Notation ord x := (nth x rk1 0).
Notation a := (R0 i).
Notation b := (R0 j).
Context (Hrk0 : length rk0 = n) (Hord : forall x, x < n -> ord x <= M).
Context (H0n : forall x, x < n -> R0 x < n) (H0i : forall x, x < n -> R0 (R0 x) = R0 x).
Context (H01 : forall x, x < n -> R1 (R0 x) = R1 x) (H10 : forall x, x < n -> R1 x = x -> R0 x = x).
Context (Hi : i < n) (Hj : j < n).
Context (Hmerge :
  (a = b /\ (forall x, x < n -> R1 x = R0 x) /\ rk1 = rk0 /\ w = a) \/
  (a <> b /\ (forall x, x < n -> R1 x = if R0 x =? l then w else R0 x) /\
   ((rank a = rank b /\ rk1 = upd rk0 a (S (rank a)) /\ w = a /\ l = b) \/
    (rank b < rank a /\ rk1 = rk0 /\ w = a /\ l = b) \/
    (rank a < rank b /\ rk1 = rk0 /\ w = b /\ l = a)))).

Notation R := (R R0 R1).
Notation sane := (sane n rk1 R0 R1).
Notation result_ok := (result_ok R0 R1).
Notation fok := (fok n rk1 R0 R1).
Notation fleft := (fleft M rk1).

Lemma R_late x y : x < n -> y < n -> R0 x = R0 y -> R1 x = R1 y.
Proof. intros Hx Hy E. now rewrite <- (H01 x Hx), <- (H01 y Hy), E. Qed.
Lemma not_root x : x < n -> R0 x <> x -> R1 x <> x.
Proof. intros Hx H E. apply H, H10; auto. Qed.

Lemma fok_late start f : start < n -> fok false start f -> fok true start f.
Proof.
  intros Hs. destruct f; cbn [fok R]; unfold result_ok.
  - intros (? & ?). split; auto. now apply R_late.
  - intros (? & ? & ?). split; auto. split; [now apply R_late|now apply not_root].
  - intros (? & ? & ? & ? & ? & ?). split; auto. split; [now apply R_late|]. split; [now apply not_root|]. split; auto. split; auto. now apply R_late.
  - intros (? & ? & ? & ? & ? & ? & ? & ? & ?). split; auto. split; [now apply R_late|]. split; [now apply not_root|]. split; auto.
    split; [now apply R_late|]. split; auto. split; auto. split; auto. now apply R_late.
  - intros [->|(E & _)]; [auto|discriminate].
Qed.

(** A call and the ranks in memory. *)
Definition mok (late : bool) (rks : list nat) (c : calling) : Prop :=
  match c with
  | Finding _ => False
  | First f index_2 => late = false /\ rks = rk0 /\ index_2 = j /\ fok false i f
  | Second r1 f => late = false /\ rks = rk0 /\ r1 = a /\ fok false j f
  | Rank1 r1 r2 => late = false /\ rks = rk0 /\ r1 = a /\ r2 = b /\ a <> b
  | Rank2 r1 r2 k1 => late = false /\ rks = rk0 /\ r1 = a /\ r2 = b /\ a <> b /\ k1 = rank a
  | Rank3 r1 r2 => late = false /\ rks = rk0 /\ r1 = a /\ r2 = b /\ a <> b /\ rank a <> rank b
  | Rank4 r1 r2 k1 => late = false /\ rks = rk0 /\ r1 = a /\ r2 = b /\ a <> b /\ rank a <> rank b /\ k1 = rank a
  | LinkRead r1 r2 => late = false /\ rks = rk0 /\ r1 = a /\ r2 = b /\ a <> b /\ rank a = rank b
  | LinkWrite r1 r2 q => late = false /\ rks = rk0 /\ r1 = a /\ r2 = b /\ a <> b /\ rank a = rank b /\ q = a
  | BumpRead r1 => late = true /\ rks = rk0 /\ r1 = a /\ a <> b /\ rank a = rank b
  | BumpWrite r1 k1 => late = true /\ rks = rk0 /\ r1 = a /\ a <> b /\ rank a = rank b /\ k1 = rank a
  | ReadResult r1 => late = true /\ rks = rk1 /\ r1 = a /\ w = a /\ a <> b
  | Hang c p => late = false /\ rks = rk0 /\ a <> b /\ rank a <> rank b /\ c = l /\ p = w
  | Return r => late = true /\ rks = rk1 /\ r = w
  end.
Definition cok (late : bool) (rks : list nat) (o : uf_op) (c : calling) : Prop :=
  match o with
  | OFind x => match c with Finding f => fok late x f | Return r => result_ok late x r | _ => False end
  | OMerge _ _ => mok late rks c
  end.
Definition cleft (c : calling) : nat :=
  match c with
  | Finding f => fleft f + 1
  | First f _ => fleft f + (4 * M + 1) + 9
  | Second _ f => fleft f + 8
  | Rank1 _ _ => 7
  | Rank2 _ _ _ => 6
  | Rank3 _ _ => 3
  | Rank4 _ _ _ => 2
  | LinkRead _ _ => 5
  | LinkWrite _ _ _ => 4
  | BumpRead _ => 3
  | BumpWrite _ _ => 2
  | ReadResult _ => 1
  | Hang _ _ => 1
  | Return _ => 0
  end.

Lemma a_lt : a < n. Proof. auto. Qed.
Lemma b_lt : b < n. Proof. auto. Qed.
Lemma winner : a <> b -> w <> l /\ w < n /\ l < n /\ R0 w = w /\ R0 l = l /\ ord l < ord w.
Proof.
  intros Hne. pose proof a_lt. pose proof b_lt. destruct Hmerge as [(E & _)|(_ & _ & [(E1 & -> & -> & ->)|[(E1 & -> & -> & ->)|(E1 & -> & -> & ->)]])]; [contradiction| | |].
  - split; auto. split; auto. split; auto. split; [now apply H0i|]. split; [now apply H0i|].
    assert (La : a < length rk0) by lia. rewrite (nth_upd rk0 a b _ La), (nth_upd rk0 a a _ La), Nat.eqb_refl.
    destruct (Nat.eqb_spec b a); [congruence|]. lia.
  - splits; auto; lia.
  - splits; auto; lia.
Qed.

(** Hanging [l] below [w] turns the classes before into those after. *)
Lemma link_sane p : a <> b -> sane false p -> sane true (upd p l w).
Proof.
  intros Hne (Lp & Hp). destruct (winner Hne) as (Hwl & Hw & Hl & Ew & El & Ho).
  assert (HR : forall x, x < n -> R1 x = if R0 x =? l then w else R0 x) by (destruct Hmerge as [(E & _)|(_ & H & _)]; [contradiction|auto]).
  split; [now rewrite upd_length|]. intros x y E. cbn [R]. destruct (Nat.eq_dec x l) as [->|Hx].
  - rewrite nth_error_upd_eq in E by lia. injection E as <-. split; auto.
    rewrite (HR w Hw), (HR l Hl), Ew, El, Nat.eqb_refl. destruct (Nat.eqb_spec w l); [contradiction|]. split; [reflexivity|]. split; [congruence|auto].
  - rewrite nth_error_upd_neq in E by auto. destruct (Hp x y E) as (Hy & Er & Hr & Hn). cbn [R] in *.
    assert (Hxn : x < n) by (rewrite <- Lp; apply nth_error_Some; congruence). split; auto. split; [now apply R_late|]. split.
    + intros Exy. rewrite (HR x Hxn), (Hr Exy). destruct (Nat.eqb_spec x l); [contradiction|reflexivity].
    + intros Hyx. destruct (Hn Hyx) as (H1 & H2). split; [now apply not_root|auto].
Qed.

Lemma same_sane p : a = b -> sane false p -> sane true p.
Proof.
  intros Heq (Lp & Hp). assert (HR : forall x, x < n -> R1 x = R0 x) by (destruct Hmerge as [(_ & H & _)|(H & _)]; [auto|contradiction]).
  split; auto. intros x y E. destruct (Hp x y E) as (Hy & Er & Hr & Hn). assert (Hxn : x < n) by (rewrite <- Lp; apply nth_error_Some; congruence).
  cbn [R] in *. rewrite !HR by auto. auto.
Qed.

Lemma root_at p late x : sane late p -> x < n -> R late x = x -> nth_error p x = Some x.
Proof.
  intros (Lp & Hp) Hx E. destruct (at_index p x ltac:(lia)) as (y & Ey). destruct (Hp x y Ey) as (_ & _ & _ & Hn).
  destruct (Nat.eq_dec y x) as [->|Hne]; auto. destruct (Hn Hne). contradiction.
Qed.

Definition task_in (o : uf_op) : Prop := match o with OFind x => x < n | OMerge x y => x = i /\ y = j end.

(** An action keeps the invariant; [late] may change, once. *)
Lemma call_step_ok late o c u : task_in o -> sane late (parents u) -> cok late (ranks u) o c ->
  exists c' u' late', call_step c u = Ok (c', u') /\ sane late' (parents u') /\ cok late' (ranks u') o c' /\ cleft c' <= cleft c - 1 /\
    (late = true -> late' = true) /\ (match o with OFind _ => late' = late /\ ranks u' = ranks u | _ => True end).
Proof.
  intros Ho Hs Hc. destruct o as [x|x y].
  - cbn [task_in cok] in *. destruct c as [f| | | | | | | | | | | | |r]; try contradiction.
    + assert (G : (exists r, f = FReturn r) \/ call_step (Finding f) u = (' (f, p) <- find_step f (parents u) ;; Ok (Finding f, mk_uf p (ranks u)))).
      { destruct f; try (right; reflexivity). left. eauto. }
      destruct G as [(r & ->)|G].
      * exists (Return r), u, late. split; [reflexivity|]. split; [auto|]. split; [exact Hc|]. split; [cbn [cleft fleft]; lia|auto].
      * destruct (find_step_ok n M rk1 R0 R1 Hord late x f (parents u) Hs Hc) as (f' & p' & E & Hs' & Hf' & Hm). rewrite G, E. cbn [bind].
        exists (Finding f'), (mk_uf p' (ranks u)), late. split; [reflexivity|]. split; [exact Hs'|]. split; [exact Hf'|].
        split; [|auto]. cbn [cleft]. destruct Hm as [Hm|(r & ->)]; [lia|]. cbn in G. discriminate G.
    + exists (Return r), u, late. split; [reflexivity|]. split; [auto|]. split; [exact Hc|]. split; [cbn [cleft]; lia|auto].
  - cbn [task_in cok] in *. destruct Ho as (-> & ->). pose proof a_lt as Ha. pose proof b_lt as Hb.
    assert (Rk : forall z, z < n -> rd rk0 z = Ok (rank z)).
    { intros z Hz. apply rd_ok. apply nth_error_nth'. lia. }
    destruct c as [f|f y|r1 f|r1 r2|r1 r2 k1|r1 r2|r1 r2 k1|r1 r2|r1 r2 q|r1|r1 k1|r1|ch pa|r]; cbn [mok] in Hc.
    + contradiction.
    + destruct Hc as (-> & Er & -> & Hf).
      assert (G : (exists r, f = FReturn r) \/ call_step (First f j) u = (' (f, p) <- find_step f (parents u) ;; Ok (First f j, mk_uf p (ranks u)))).
      { destruct f; try (right; reflexivity). left. eauto. }
      destruct G as [(r & ->)|G].
      * exists (Second r (FTest j)), u, false. split; [reflexivity|]. split; [auto|]. split.
        { cbn [mok fok R]. destruct Hf as [->|(E & _)]; [auto|discriminate]. }
        split; [|auto]. cbn [cleft fleft]. lia.
      * destruct (find_step_ok n M rk1 R0 R1 Hord false i f (parents u) Hs Hf) as (f' & p' & E & Hs' & Hf' & Hm). rewrite G, E. cbn [bind].
        exists (First f' j), (mk_uf p' (ranks u)), false. split; [reflexivity|]. split; [exact Hs'|]. split; [cbn [mok ranks]; auto|].
        split; [|auto]. cbn [cleft]. destruct Hm as [Hm|(r & ->)]; [lia|]. cbn in G. discriminate G.
    + destruct Hc as (-> & Er & -> & Hf).
      assert (G : (exists r, f = FReturn r) \/ call_step (Second a f) u = (' (f, p) <- find_step f (parents u) ;; Ok (Second a f, mk_uf p (ranks u)))).
      { destruct f; try (right; reflexivity). left. eauto. }
      destruct G as [(r & ->)|G].
      * destruct Hf as [->|(E & _)]; [|discriminate E]. cbn [call_step]. destruct (Nat.eqb_spec a b) as [Heq|Hne].
        -- exists (Return a), u, true. split; [reflexivity|]. split; [now apply same_sane|]. split; [|split; [cbn [cleft]; lia|auto]].
           cbn [mok]. destruct Hmerge as [(_ & _ & E1 & E2)|(H & _)]; [|contradiction]. split; auto. split; congruence.
        -- exists (Rank1 a b), u, false. split; [reflexivity|]. split; [auto|]. split; [cbn [mok]; auto|]. split; [cbn [cleft fleft]; lia|auto].
      * destruct (find_step_ok n M rk1 R0 R1 Hord false j f (parents u) Hs Hf) as (f' & p' & E & Hs' & Hf' & Hm). rewrite G, E. cbn [bind].
        exists (Second a f'), (mk_uf p' (ranks u)), false. split; [reflexivity|]. split; [exact Hs'|]. split; [cbn [mok ranks]; auto|].
        split; [|auto]. cbn [cleft]. destruct Hm as [Hm|(r & ->)]; [lia|]. cbn in G. destruct (a =? r); discriminate G.
    + destruct Hc as (-> & Er & -> & -> & Hne). cbn [call_step]. rewrite Er, Rk by auto. cbn [bind].
      exists (Rank2 a b (rank a)), u, false. split; [reflexivity|]. split; [auto|]. split; [cbn [mok]; auto 10|]. split; [cbn [cleft]; lia|auto].
    + destruct Hc as (-> & Er & -> & -> & Hne & ->). cbn [call_step]. rewrite Er, Rk by auto. cbn [bind].
      destruct (Nat.eqb_spec (rank a) (rank b)) as [He|He]; eexists _, u, false; (split; [reflexivity|]); (split; [auto|]);
        (split; [cbn [mok]; auto 10|]); (split; [cbn [cleft]; lia|auto]).
    + destruct Hc as (-> & Er & -> & -> & Hne & He). cbn [call_step]. rewrite Er, Rk by auto. cbn [bind].
      exists (Rank4 a b (rank a)), u, false. split; [reflexivity|]. split; [auto|]. split; [cbn [mok]; auto 10|]. split; [cbn [cleft]; lia|auto].
    + destruct Hc as (-> & Er & -> & -> & Hne & He & ->). cbn [call_step]. rewrite Er, Rk by auto. cbn [bind].
      destruct Hmerge as [(E & _)|(_ & _ & Hcase)]; [contradiction|].
      exists (Hang l w), u, false. split.
      { destruct Hcase as [(E1 & _)|[(E1 & _ & -> & ->)|(E1 & _ & -> & ->)]]; [contradiction| |].
        - destruct (Nat.ltb_spec (rank b) (rank a)); [reflexivity|lia].
        - destruct (Nat.ltb_spec (rank b) (rank a)); [lia|reflexivity]. }
      split; [auto|]. split; [cbn [mok]; auto 10|]. split; [cbn [cleft]; lia|auto].
    + destruct Hc as (-> & Er & -> & -> & Hne & He). cbn [call_step].
      rewrite (proj2 (rd_ok _ _ _) (root_at (parents u) false a Hs Ha (H0i i Hi))). cbn [bind].
      exists (LinkWrite a b a), u, false. split; [reflexivity|]. split; [auto|]. split; [cbn [mok]; auto 10|]. split; [cbn [cleft]; lia|auto].
    + destruct Hc as (-> & Er & -> & -> & Hne & He & ->). cbn [call_step]. pose proof Hs as (Lp & _). rewrite wr_lt by lia. cbn [bind].
      assert (Ewl : w = a /\ l = b).
      { destruct Hmerge as [(E & _)|(_ & _ & [(E1 & _ & -> & ->)|[(E1 & _)|(E1 & _)]])]; [contradiction|auto|lia|lia]. }
      exists (BumpRead a), (mk_uf (upd (parents u) b a) (ranks u)), true. split; [reflexivity|]. split.
      { cbn [parents]. destruct Ewl as (Ew & El). rewrite <- El, <- Ew at 1. now apply link_sane. }
      split; [cbn [mok ranks]; auto 10|]. split; [cbn [cleft]; lia|auto].
    + destruct Hc as (-> & Er & -> & Hne & He). cbn [call_step]. rewrite Er, Rk by auto. cbn [bind].
      exists (BumpWrite a (rank a)), u, true. split; [reflexivity|]. split; [auto|]. split; [cbn [mok]; auto 10|]. split; [cbn [cleft]; lia|auto].
    + destruct Hc as (-> & Er & -> & Hne & He & ->). cbn [call_step]. rewrite Er, wr_lt by lia. cbn [bind].
      exists (ReadResult a), (mk_uf (parents u) (upd rk0 a (S (rank a)))), true. split; [reflexivity|]. split; [auto|]. split.
      { cbn [mok ranks]. destruct Hmerge as [(E & _)|(_ & _ & [(E1 & -> & -> & ->)|[(E1 & _)|(E1 & _)]])]; [contradiction|auto 10|lia|lia]. }
      split; [cbn [cleft]; lia|auto].
    + destruct Hc as (-> & Er & -> & Ew & Hne). cbn [call_step].
      assert (Ew1 : R true a = a).
      { cbn [R]. destruct (winner Hne) as (Hwl & Hw & Hl & Ew0 & El0 & _).
        destruct Hmerge as [(E & _)|(_ & HR & _)]; [contradiction|]. rewrite <- Ew at 1. rewrite (HR w Hw), Ew0.
        destruct (Nat.eqb_spec w l); [contradiction|exact Ew]. }
      rewrite (proj2 (rd_ok _ _ _) (root_at (parents u) true a Hs Ha Ew1)). cbn [bind].
      exists (Return a), u, true. split; [reflexivity|]. split; [auto|]. split; [cbn [mok]; auto|]. split; [cbn [cleft]; lia|auto].
    + destruct Hc as (-> & Er & Hne & He & -> & ->). cbn [call_step]. pose proof Hs as (Lp & _). destruct (winner Hne) as (Hwl & Hw & Hl & _).
      rewrite wr_lt by lia. cbn [bind].
      exists (Return w), (mk_uf (upd (parents u) l w) (ranks u)), true. split; [reflexivity|]. split; [now apply link_sane|]. split.
      { cbn [mok ranks]. destruct Hmerge as [(E & _)|(_ & _ & [(E1 & _)|[(_ & -> & _)|(_ & -> & _)]])]; [contradiction|contradiction|auto|auto]. }
      split; [cbn [cleft]; lia|auto].
    + exists (Return r), u, late. split; [reflexivity|]. split; [auto|]. split; [exact Hc|]. split; [cbn [cleft]; lia|auto].
Qed.

(** All threads. *)
Context (tasks : list uf_op) (Htasks : Forall task_in tasks)
  (Hone : forall s t x y x' y', nth_error tasks s = Some (OMerge x y) -> nth_error tasks t = Some (OMerge x' y') -> s = t).

Definition going (late : bool) (calls : list calling) (u : uf) : Prop :=
  sane late (parents u) /\ length calls = length tasks /\
  (forall t o c, nth_error tasks t = Some o -> nth_error calls t = Some c -> cok late (ranks u) o c) /\
  ((forall t x y, nth_error tasks t <> Some (OMerge x y)) -> ranks u = rk0 /\ late = false).

Lemma step_ok late calls u t : t < length tasks -> going late calls u ->
  exists c c' u' late', nth_error calls t = Some c /\ call_step c u = Ok (c', u') /\ going late' (upd calls t c') u' /\
    cleft c' <= cleft c - 1 /\ (late = true -> late' = true).
Proof.
  intros Ht (Hs & Lc & Hc & Hno).
  destruct (nth_error tasks t) as [o|] eqn:Eo; [|apply nth_error_None in Eo; lia].
  destruct (nth_error calls t) as [c|] eqn:Ec; [|apply nth_error_None in Ec; lia].
  assert (Hoi : task_in o) by (rewrite Forall_forall in Htasks; apply Htasks; eapply nth_error_In; eauto).
  destruct (call_step_ok late o c u Hoi Hs (Hc t o c Eo Ec)) as (c' & u' & late' & E & Hs' & Hc' & Hm & Hl & Hfind).
  exists c, c', u', late'. split; [reflexivity|]. split; [exact E|]. split; [|auto].
  split; [auto|]. split; [now rewrite upd_length|]. split.
  - intros s o1 c1 E1 E2. destruct (Nat.eq_dec s t) as [->|Hne].
    + rewrite nth_error_upd_eq in E2 by lia. injection E2 as <-. replace o1 with o by congruence. exact Hc'.
    + rewrite nth_error_upd_neq in E2 by auto. specialize (Hc s o1 c1 E1 E2). destruct o1 as [x|x y]; cbn [cok] in *.
      * assert (Hx : x < n). { rewrite Forall_forall in Htasks. apply (Htasks (OFind x)). eapply nth_error_In; eauto. }
        destruct late, late'; auto; [specialize (Hl eq_refl); discriminate|]. destruct c1; auto; [now apply fok_late|].
        destruct Hc as [->|(Hd & _)]; [left; reflexivity|discriminate].
      * destruct o as [x'|x' y']; [|exfalso; apply Hne; eapply Hone; eauto]. destruct Hfind as (-> & ->). exact Hc.
  - intros Hnone. destruct (Hno Hnone) as (E1 & E2). destruct o as [x'|x' y']; [|exfalso; exact (Hnone t _ _ Eo)].
    destruct Hfind as (-> & ->). auto.
Qed.

Lemma interleave_cons t schedule calls u c c' u' : nth_error calls t = Some c -> call_step c u = Ok (c', u') ->
  interleave (t :: schedule) calls u = interleave schedule (upd calls t c') u'.
Proof.
  clear. intros Ec E. unfold interleave. cbn [for_each]. rewrite (proj2 (rd_ok _ _ _) Ec). cbn [bind]. rewrite E. cbn [bind].
  rewrite wr_lt by (apply nth_error_Some; congruence). reflexivity.
Qed.

Lemma interleave_ok : forall schedule calls u late, Forall (fun t => t < length tasks) schedule -> going late calls u ->
  exists calls' u' late', interleave schedule calls u = Ok (calls', u') /\ going late' calls' u' /\ (late = true -> late' = true) /\
    (forall t c c', nth_error calls t = Some c -> nth_error calls' t = Some c' -> cleft c' <= cleft c - count_occ Nat.eq_dec schedule t) /\
    (forall t, ~ In t schedule -> nth_error calls' t = nth_error calls t).
Proof.
  induction schedule as [|t schedule IH]; intros calls u late Hsch Hg.
  - exists calls, u, late. split; [reflexivity|]. split; [auto|]. split; [auto|]. split; [|auto].
    intros t c c' E E'. cbn [count_occ]. replace c' with c by congruence. lia.
  - inversion Hsch as [|? ? Ht Hsch']; subst. destruct (step_ok late calls u t Ht Hg) as (c & c' & u' & late' & Ec & E & Hg' & Hm & Hl).
    destruct (IH (upd calls t c') u' late' Hsch' Hg') as (calls2 & u2 & late2 & E2 & Hg2 & Hl2 & Hm2 & Hu2).
    assert (Lt : t < length calls) by (apply nth_error_Some; congruence).
    exists calls2, u2, late2. rewrite (interleave_cons t schedule calls u c c' u' Ec E). split; [exact E2|]. split; [auto|]. split; [auto|]. split.
    + intros s c1 c2 E3 E4. cbn [count_occ]. destruct (Nat.eq_dec t s) as [<-|Hne].
      * replace c1 with c by congruence. specialize (Hm2 t c' c2 ltac:(rewrite nth_error_upd_eq by lia; reflexivity) E4). lia.
      * exact (Hm2 s c1 c2 ltac:(rewrite nth_error_upd_neq by auto; exact E3) E4).
    + intros s Hin. cbn [In] in Hin. rewrite Hu2 by tauto. rewrite nth_error_upd_neq; auto.
Qed.

(** A [find] that was at its start when the merge had taken effect. *)
Definition recent (start : nat) (c : calling) : Prop :=
  match c with
  | Finding (FReturn r) | Return r => r = R1 start
  | Finding f => fok true start f
  | _ => False
  end.
Lemma recent_step start c u c' u' : sane true (parents u) -> recent start c -> call_step c u = Ok (c', u') -> recent start c'.
Proof.
  intros Hs Hc E. destruct c as [f| | | | | | | | | | | | |r]; try contradiction.
  - assert (G : (exists r, f = FReturn r) \/ (call_step (Finding f) u = (' (f, p) <- find_step f (parents u) ;; Ok (Finding f, mk_uf p (ranks u))) /\ fok true start f)).
    { destruct f; try (right; split; [reflexivity|exact Hc]). left. eauto. }
    destruct G as [(r & ->)|(G & Hf)].
    + cbn in E. injection E as <- <-. exact Hc.
    + assert (Hf1 : f = FReturn 0 \/ SharedFindProofs.fok n rk1 R1 R1 true start f).
      { right. destruct f; try exact Hf. right. split; [reflexivity|exact Hc]. }
      destruct Hf1 as [->|Hf1]; [cbn in E; injection E as <- <-; exact Hc|].
      destruct (find_step_ok n M rk1 R1 R1 Hord true start f (parents u) Hs Hf1) as (f' & p' & E' & _ & Hf' & _).
      rewrite G, E' in E. cbn [bind] in E. injection E as <- <-. cbn [recent]. destruct f'; try exact Hf'.
      destruct Hf' as [->|(_ & ->)]; reflexivity.
  - cbn in E. injection E as <- <-. exact Hc.
Qed.

Lemma recent_ok t x : nth_error tasks t = Some (OFind x) ->
  forall schedule calls u, Forall (fun t => t < length tasks) schedule -> going true calls u ->
  (exists c, nth_error calls t = Some c /\ recent x c) ->
  forall calls' u', interleave schedule calls u = Ok (calls', u') -> exists c, nth_error calls' t = Some c /\ recent x c.
Proof.
  intros Et. induction schedule as [|s schedule IH]; intros calls u Hsch Hg (c & Ec & Hc) calls' u' E.
  - cbn in E. injection E as <- <-. eauto.
  - inversion Hsch as [|? ? Hs Hsch']; subst. destruct (step_ok true calls u s Hs Hg) as (c0 & c1 & u1 & late1 & E0 & E1 & Hg1 & _ & Hl).
    rewrite (Hl eq_refl) in Hg1. rewrite (interleave_cons s schedule calls u c0 c1 u1 E0 E1) in E.
    refine (IH (upd calls s c1) u1 Hsch' Hg1 _ calls' u' E). destruct (Nat.eq_dec s t) as [->|Hne].
    + exists c1. split; [apply nth_error_upd_eq, nth_error_Some; congruence|].
      replace c0 with c in E1 by congruence. apply (recent_step x c u c1 u1); auto. apply Hg.
    + exists c. rewrite nth_error_upd_neq by auto. auto.
Qed.

(** What the object answers. *)
Lemma sane_root late p x : sane late p -> x < n -> root p x (R late x).
Proof.
  intros Hs. remember (M - ord x) as k eqn:Ek. assert (Hk : M - ord x <= k) by lia. clear Ek. revert x Hk.
  induction k as [|k IH]; intros x Hk Hx; pose proof Hs as (Lp & Hp); destruct (at_index p x ltac:(lia)) as (y & Ey);
    destruct (Hp x y Ey) as (Hy & Er & Hr & Hn); destruct (Nat.eq_dec y x) as [->|Hne].
  - rewrite (Hr eq_refl). now constructor.
  - destruct (Hn Hne) as (_ & Ho). pose proof (Hord y Hy). lia.
  - rewrite (Hr eq_refl). now constructor.
  - destruct (Hn Hne) as (_ & Ho). pose proof (Hord y Hy). rewrite <- Er. apply root_up with (j := y); auto. apply IH; [lia|auto].
Qed.

Lemma sane_rep late u x : length rk1 = n -> M < n -> sane late (parents u) -> x < n -> rep u x = Some (R late x).
Proof.
  intros Hlr HM Hs Hx. assert (Hp : pinv n M (parents u) rk1).
  { destruct Hs as (Lp & Hp). constructor; auto. intros y z E. destruct (Hp y z E) as (Hz & _ & _ & Hn). split; auto.
    intros Hne. apply Hn. auto. }
  destruct (find_loop_correct n M rk1 (2 * length (parents u)) (parents u) x Hp Hx) as (p' & r & E & Hr & _).
  { pose proof (pi_lp _ _ _ _ Hp). lia. }
  unfold rep, uf_find. rewrite E. cbn [bind]. f_equal. apply (root_fun (parents u) x); auto. now apply sane_root.
Qed.
End Shared.

(** The merge that is made while the finds run. *)
Definition merge_shape (rk0 rk1 : list nat) (R0 R1 : nat -> nat) (n i j w l : nat) : Prop :=
  (R0 i = R0 j /\ (forall x, x < n -> R1 x = R0 x) /\ rk1 = rk0 /\ w = R0 i) \/
  (R0 i <> R0 j /\ (forall x, x < n -> R1 x = if R0 x =? l then w else R0 x) /\
   ((nth (R0 i) rk0 0 = nth (R0 j) rk0 0 /\ rk1 = upd rk0 (R0 i) (S (nth (R0 i) rk0 0)) /\ w = R0 i /\ l = R0 j) \/
    (nth (R0 j) rk0 0 < nth (R0 i) rk0 0 /\ rk1 = rk0 /\ w = R0 i /\ l = R0 j) \/
    (nth (R0 i) rk0 0 < nth (R0 j) rk0 0 /\ rk1 = rk0 /\ w = R0 j /\ l = R0 i))).

Lemma rootf_eq n u x r : uinv n u -> x < n -> root (parents u) x r -> rootf u x = r.
Proof. intros U Hx Hr. apply (root_fun (parents u) x); auto. now apply (rootf_root n). Qed.

Lemma merge_shaped n u i j : uinv n u -> i < n -> j < n ->
  exists u' w l, uf_merge u i j = Ok (u', w) /\ uinv n u' /\ merge_shape (ranks u) (ranks u') (rootf u) (rootf u') n i j w l.
Proof.
  intros U Hi Hj. unfold uf_merge.
  destruct (uf_find_correct n u i U Hi) as (u1 & ri & E1 & Hri & U1 & S1 & K1). rewrite E1; cbn [bind].
  destruct (uf_find_correct n u1 j U1 Hj) as (u2 & rj & E2 & Hrj & U2 & S2 & K2). rewrite E2; cbn [bind].
  assert (Hrj0 : root (parents u) j rj) by now apply S1.
  assert (S12 : same_roots (parents u) (parents u2)) by (eapply same_roots_trans; eauto).
  assert (Hii : root (parents u2) ri ri) by (apply S12; eapply root_idem; eauto).
  assert (Hjj : root (parents u2) rj rj) by (apply S12; eapply root_idem; eauto).
  destruct (root_lt _ _ _ _ _ _ (ui_p _ _ U) Hri) as [Hrin _].
  destruct (root_lt _ _ _ _ _ _ (ui_p _ _ U) Hrj0) as [Hrjn _].
  pose proof (pi_lp _ _ _ _ (ui_p _ _ U2)) as Lp. pose proof (pi_lr _ _ _ _ (ui_p _ _ U2)) as Lr.
  assert (Ei : rootf u i = ri) by now apply (rootf_eq n). assert (Ej : rootf u j = rj) by now apply (rootf_eq n).
  assert (K : ranks u2 = ranks u) by congruence. unfold merge_shape. rewrite Ei, Ej.
  destruct (Nat.eqb_spec ri rj) as [->|Hne].
  { exists u2, rj, rj. split; [reflexivity|]. split; [auto|]. left. split; [reflexivity|]. split; [|auto].
    intros x Hx. apply (rootf_eq n); auto. apply S12. now apply (rootf_root n). }
  destruct u2 as [p2 rk2]; cbn [parents ranks] in *.
  assert (R1 : rd rk2 ri = Ok (nth ri rk2 0)) by (apply rd_ok, nth_error_nth'; lia).
  assert (R2 : rd rk2 rj = Ok (nth rj rk2 0)) by (apply rd_ok, nth_error_nth'; lia).
  rewrite R1, R2; cbn [bind].
  assert (Hlink : forall a b rk', root p2 a a -> root p2 b b -> a <> b -> uinv n (mk_uf (upd p2 b a) rk') ->
    forall x, x < n -> rootf (mk_uf (upd p2 b a) rk') x = if rootf u x =? b then a else rootf u x).
  { intros a b rk' Ha Hb Hab U' x Hx. apply (rootf_eq n); auto. cbn [parents]. apply link_root; auto. apply S12. now apply (rootf_root n). }
  destruct (Nat.eqb_spec (nth ri rk2 0) (nth rj rk2 0)) as [Eq|Nk].
  - apply root_self in Hii as Pii. rewrite (proj2 (rd_ok p2 ri ri) Pii); cbn [bind].
    rewrite wr_lt by lia. cbn [bind]. rewrite wr_lt by lia. cbn [bind].
    assert (P' : nth_error (upd p2 rj ri) ri = Some ri) by (rewrite nth_error_upd_neq; auto).
    rewrite (proj2 (rd_ok _ ri ri) P'); cbn [bind].
    pose proof (link_uinv n p2 rk2 _ ri rj U2 Hii Hjj Hne Hrin Hrjn (or_introl (conj Eq eq_refl))) as U3.
    exists (mk_uf (upd p2 rj ri) (upd rk2 ri (S (nth ri rk2 0)))), ri, rj. split; [reflexivity|]. split; [exact U3|]. right.
    split; [auto|]. split; [now apply Hlink|]. left. cbn [ranks]. rewrite <- K. auto.
  - destruct (Nat.ltb_spec (nth rj rk2 0) (nth ri rk2 0)) as [Lt|Ge].
    + rewrite wr_lt by lia. cbn [bind].
      pose proof (link_uinv n p2 rk2 rk2 ri rj U2 Hii Hjj Hne Hrin Hrjn (or_intror (conj Lt eq_refl))) as U3.
      exists (mk_uf (upd p2 rj ri) rk2), ri, rj. split; [reflexivity|]. split; [exact U3|]. right.
      split; [auto|]. split; [now apply Hlink|]. right. left. cbn [ranks]. rewrite <- K. auto.
    + rewrite wr_lt by lia. cbn [bind].
      assert (Lt : nth ri rk2 0 < nth rj rk2 0) by lia.
      pose proof (link_uinv n p2 rk2 rk2 rj ri U2 Hjj Hii (not_eq_sym Hne) Hrjn Hrin (or_intror (conj Lt eq_refl))) as U3.
      exists (mk_uf (upd p2 ri rj) rk2), rj, ri. split; [reflexivity|]. split; [exact U3|]. right.
      split; [auto|]. split; [apply Hlink; auto|]. right. right. cbn [ranks]. rewrite <- K. auto.
Qed.

Lemma rootf_lt n u x : uinv n u -> x < n -> rootf u x < n.
Proof. intros U Hx. apply (root_lt _ _ _ _ _ _ (ui_p _ _ U) (rootf_root n u x U Hx)). Qed.
Lemma rootf_idem n u x : uinv n u -> x < n -> rootf u (rootf u x) = rootf u x.
Proof. intros U Hx. apply (rootf_eq n); auto. { now apply rootf_lt. } eapply root_idem. now apply (rootf_root n). Qed.
Lemma rep_rootf n u x : uinv n u -> x < n -> rep u x = Some (rootf u x).
Proof. intros U Hx. apply (rep_root n); auto. now apply (rootf_root n). Qed.

Section Top.
Context (n : nat) (u u' : uf) (i j w l : nat) (U : uinv n u) (U' : uinv n u') (Hi : i < n) (Hj : j < n)
  (Hm : merge_shape (ranks u) (ranks u') (rootf u) (rootf u') n i j w l).
Context (tasks : list uf_op) (Htasks : Forall (task_in n i j) tasks)
  (Hone : forall s t x y x' y', nth_error tasks s = Some (OMerge x y) -> nth_error tasks t = Some (OMerge x' y') -> s = t).
Notation R0 := (rootf u).
Notation R1 := (rootf u').
Notation M := (Nat.log2 n).
Notation going := (going n (ranks u) (ranks u') R0 R1 i j w l tasks).
Notation cleft := (cleft M (ranks u')).

Lemma top_ord x : x < n -> nth x (ranks u') 0 <= M. Proof. apply (pi_max _ _ _ _ (ui_p _ _ U')). Qed.
Lemma top_0n x : x < n -> R0 x < n. Proof. exact (rootf_lt n u x U). Qed.
Lemma top_0i x : x < n -> R0 (R0 x) = R0 x. Proof. exact (rootf_idem n u x U). Qed.
Lemma top_01 x : x < n -> R1 (R0 x) = R1 x.
Proof.
  intros Hx. pose proof (top_0n x Hx). pose proof (top_0i x Hx) as E. destruct Hm as [(_ & HR & _)|(_ & HR & _)]; rewrite !HR by auto; now rewrite E.
Qed.
Lemma top_10 x : x < n -> R1 x = x -> R0 x = x.
Proof.
  intros Hx. destruct Hm as [(_ & HR & _)|(_ & HR & Hcase)]; rewrite HR by auto; auto.
  destruct (Nat.eqb_spec (R0 x) l) as [_|_]; auto. intros <-.
  destruct Hcase as [(_ & _ & -> & _)|[(_ & _ & -> & _)|(_ & _ & -> & _)]]; now apply top_0i.
Qed.
Lemma top_rk0 : length (ranks u) = n. Proof. exact (pi_lr _ _ _ _ (ui_p _ _ U)). Qed.

Lemma top_sane : sane n (ranks u') R0 R1 false (parents u).
Proof.
  pose proof (ui_p _ _ U) as I. split; [exact (pi_lp _ _ _ _ I)|]. intros x y E. destruct (pi_up _ _ _ _ I x y E) as (Hy & Hlt).
  assert (Hx : x < n) by (rewrite <- (pi_lp _ _ _ _ I); apply nth_error_Some; congruence). cbn [R]. split; auto.
  destruct (Nat.eq_dec y x) as [->|Hne].
  - split; [reflexivity|]. split; [|congruence]. intros _. apply (rootf_eq n); auto. now constructor.
  - pose proof (rootf_root n u y U Hy) as Hr. assert (Er : R0 x = R0 y) by (apply (rootf_eq n); auto; apply root_up with (j := y); auto).
    assert (Hnr : R0 x <> x). { intros Ex. pose proof (root_self _ _ _ (rootf_root n u x U Hx)) as Es. rewrite Ex in Es. congruence. }
    split; [auto|]. split; [contradiction|]. intros _. split; [exact Hnr|]. specialize (Hlt (not_eq_sym Hne)).
    destruct Hm as [(_ & _ & -> & _)|(_ & _ & [(_ & -> & _)|[(_ & -> & _)|(_ & -> & _)]])]; auto.
    assert (La : R0 i < length (ranks u)) by (rewrite top_rk0; now apply top_0n).
    rewrite (nth_upd (ranks u) (R0 i) x _ La), (nth_upd (ranks u) (R0 i) y _ La).
    destruct (Nat.eqb_spec x (R0 i)) as [->|_]; [exfalso; apply Hnr; now apply top_0i|].
    destruct (Nat.eqb_spec y (R0 i)) as [->|_]; lia.
Qed.

Lemma top_start : going false (map enter tasks) u.
Proof.
  split; [exact top_sane|]. split; [apply map_length|]. split; [|auto].
  intros t o c Eo Ec. rewrite nth_error_map, Eo in Ec. cbn [option_map] in Ec. injection Ec as <-.
  assert (Ho : task_in n i j o) by (rewrite Forall_forall in Htasks; apply Htasks; eapply nth_error_In; eauto).
  destruct o as [x|x y]; cbn [task_in enter cok mok fok R] in *; [auto|]. destruct Ho as (-> & ->). auto.
Qed.

Lemma top_run schedule late calls v : Forall (fun t => t < length tasks) schedule -> going late calls v ->
  exists calls' v' late', interleave schedule calls v = Ok (calls', v') /\ going late' calls' v' /\ (late = true -> late' = true) /\
    (forall t c c', nth_error calls t = Some c -> nth_error calls' t = Some c' -> cleft c' <= cleft c - count_occ Nat.eq_dec schedule t) /\
    (forall t, ~ In t schedule -> nth_error calls' t = nth_error calls t).
Proof.
  intros Hs Hg. exact (interleave_ok n M (ranks u) (ranks u') R0 R1 i j w l top_rk0 top_ord top_0n top_0i top_01 top_10 Hi Hj Hm tasks Htasks Hone
    schedule calls v late Hs Hg).
Qed.

Lemma top_rep late calls v x : going late calls v -> x < n -> rep v x = rep (if late then u' else u) x.
Proof.
  intros (Hs & _) Hx. assert (HM : M < n) by (apply log2_lt; lia).
  rewrite (sane_rep n M (ranks u) (ranks u') R0 R1 i j w l top_rk0 top_ord Hi Hj Hm late v x (pi_lr _ _ _ _ (ui_p _ _ U')) HM Hs Hx).
  destruct late; cbn [R]; symmetry; now apply (rep_rootf n).
Qed.

Lemma top_find late calls v t x r : going late calls v -> nth_error tasks t = Some (OFind x) -> nth_error calls t = Some (Return r) ->
  rep u x = Some r \/ (late = true /\ rep u' x = Some r).
Proof.
  intros (_ & _ & Hc & _) Et Ec. specialize (Hc t _ _ Et Ec). cbn [cok] in Hc.
  assert (Hx : x < n). { rewrite Forall_forall in Htasks. apply (Htasks (OFind x)). eapply nth_error_In; eauto. }
  rewrite (rep_rootf n u x U Hx), (rep_rootf n u' x U' Hx). destruct Hc as [->|(E & ->)]; auto.
Qed.

Lemma top_merge late calls v t r : going late calls v -> nth_error tasks t = Some (OMerge i j) -> nth_error calls t = Some (Return r) ->
  late = true /\ ranks v = ranks u' /\ r = w.
Proof. intros (_ & _ & Hc & _) Et Ec. exact (Hc t _ _ Et Ec). Qed.

Lemma top_early late calls v t : going late calls v -> nth_error tasks t = Some (OMerge i j) -> nth_error calls t = Some (enter (OMerge i j)) ->
  late = false /\ ranks v = ranks u.
Proof. intros (_ & _ & Hc & _) Et Ec. specialize (Hc t _ _ Et Ec). cbn [cok enter mok] in Hc. tauto. Qed.

Lemma top_none late calls v : going late calls v -> (forall t x y, nth_error tasks t <> Some (OMerge x y)) -> ranks v = ranks u /\ late = false.
Proof. intros (_ & _ & _ & H). exact H. Qed.

Lemma top_done late calls v t o : going late calls v -> nth_error tasks t = Some o ->
  (forall c, nth_error calls t = Some c -> cleft c <= 0) -> exists r, nth_error calls t = Some (Return r).
Proof.
  intros (_ & Lc & Hc & _) Et Hz. destruct (nth_error calls t) as [c|] eqn:Ec.
  - specialize (Hz c eq_refl). destruct c; cbn [SharedFindProofs.cleft] in Hz; try lia. eauto.
  - apply nth_error_None in Ec. assert (t < length tasks) by (apply nth_error_Some; congruence). lia.
Qed.

Lemma top_left o : cleft (enter o) <= match o with OFind _ => 4 * M + 2 | OMerge _ _ => 8 * M + 11 end.
Proof. destruct o as [x|x y]; cbn [enter SharedFindProofs.cleft fleft]; lia. Qed.

Lemma top_recent t x schedule calls v calls' v' : nth_error tasks t = Some (OFind x) -> Forall (fun t => t < length tasks) schedule ->
  going true calls v -> nth_error calls t = Some (enter (OFind x)) -> interleave schedule calls v = Ok (calls', v') ->
  forall r, nth_error calls' t = Some (Return r) -> rep u' x = Some r.
Proof.
  intros Et Hs Hg Ec E r Er. assert (Hx : x < n). { rewrite Forall_forall in Htasks. apply (Htasks (OFind x)). eapply nth_error_In; eauto. }
  destruct (recent_ok n M (ranks u) (ranks u') R0 R1 i j w l top_rk0 top_ord top_0n top_0i top_01 top_10 Hi Hj Hm tasks Htasks Hone t x Et
    schedule calls v Hs Hg) with (calls' := calls') (u' := v') as (c & Ec' & Hc); auto.
  { exists (enter (OFind x)). split; [exact Ec|]. cbn [enter recent fok]. auto. }
  rewrite Er in Ec'. injection Ec' as <-. cbn [recent] in Hc. rewrite Hc. now apply (rep_rootf n).
Qed.
End Top.

(** One thread alone does what the sequential call does, arrays included. *)
Lemma alone_app k1 k2 c u c1 u1 : interleave (repeat 0 k1) [c] u = Ok ([c1], u1) ->
  interleave (repeat 0 (k1 + k2)) [c] u = interleave (repeat 0 k2) [c1] u1.
Proof.
  revert c u. induction k1 as [|k1 IH]; intros c u E.
  - cbn in E. injection E as -> ->. reflexivity.
  - cbn [repeat Nat.add] in *. unfold interleave in *. cbn [for_each] in *. unfold rd in *. cbn [nth_error bind] in *.
    destruct (call_step c u) as [[c' u']| | |] eqn:Ec; cbn [bind] in *; try discriminate E.
    rewrite wr_lt in * by (cbn; lia). cbn [bind upd] in *. exact (IH c' u' E).
Qed.
Lemma alone_step c u c' u' k : call_step c u = Ok (c', u') -> interleave (repeat 0 (S k)) [c] u = interleave (repeat 0 k) [c'] u'.
Proof.
  intros E. cbn [repeat]. unfold interleave. cbn [for_each]. unfold rd. cbn [nth_error bind]. rewrite E. cbn [bind].
  rewrite wr_lt by (cbn; lia). reflexivity.
Qed.
Lemma alone_find (wrap : finding -> calling) rk : (forall f p q g, find_step f p = Ok (g, q) -> (forall r, f <> FReturn r) ->
    call_step (wrap f) (mk_uf p rk) = Ok (wrap g, mk_uf q rk)) ->
  forall fuel p x q r, find_loop fuel p x = Ok (q, r) ->
  exists k, interleave (repeat 0 k) [wrap (FTest x)] (mk_uf p rk) = Ok ([wrap (FReturn r)], mk_uf q rk).
Proof.
  intros Hw. induction fuel as [|fuel IH]; intros p x q r E; [discriminate E|]. cbn [find_loop] in E.
  destruct (rd p x) as [parent| | |] eqn:Ep; cbn [bind] in E; try discriminate E. destruct (x =? parent) eqn:Ex.
  - injection E as <- <-. exists 1.
    rewrite (alone_step (wrap (FTest x)) (mk_uf p rk) (wrap (FReturn x)) (mk_uf p rk)); [reflexivity|].
    apply Hw; [|discriminate]. cbn [find_step]. rewrite Ep. cbn [bind]. now rewrite Ex.
  - destruct (rd p parent) as [grand| | |] eqn:Eg; cbn [bind] in E; try discriminate E.
    destruct (wr p x grand) as [p1| | |] eqn:Ew; cbn [bind] in E; try discriminate E.
    destruct (IH p1 parent q r E) as (k & Ek). exists (S (S (S (S k)))).
    rewrite (alone_step _ _ (wrap (FTemp x)) (mk_uf p rk)). 2:{ apply Hw; [|discriminate]. cbn [find_step]. rewrite Ep. cbn [bind]. now rewrite Ex. }
    rewrite (alone_step _ _ (wrap (FGrand x parent)) (mk_uf p rk)). 2:{ apply Hw; [|discriminate]. cbn [find_step]. now rewrite Ep. }
    rewrite (alone_step _ _ (wrap (FWrite x parent grand)) (mk_uf p rk)). 2:{ apply Hw; [|discriminate]. cbn [find_step]. now rewrite Eg. }
    rewrite (alone_step _ _ (wrap (FTest parent)) (mk_uf p1 rk)). 2:{ apply Hw; [|discriminate]. cbn [find_step]. now rewrite Ew. }
    exact Ek.
Qed.
Lemma uf_eta u : u = mk_uf (parents u) (ranks u). Proof. now destruct u. Qed.
Lemma find_split u x u1 r : uf_find u x = Ok (u1, r) ->
  exists p1, find_loop (2 * length (parents u)) (parents u) x = Ok (p1, r) /\ u1 = mk_uf p1 (ranks u).
Proof.
  unfold uf_find. destruct (find_loop _ _ _) as [[p1 r1]| | |]; cbn [bind]; intros E; try discriminate E. injection E as <- <-. eauto.
Qed.
