(** Model of include/ffcl/datastruct/UnionFind.hpp used by several threads: every read and every write of an array element is an
    action of its own, and the actions of the threads interleave. *)
From Coq Require Import List Arith Bool.
From Verif Require Import Base UnionFindModel.
Import ListNotations.

(** A call of [find] between two accesses: before the loop condition reads [parents_[index]], before [temp] is read, before
    [parents_[temp]] is read, before [parents_[index]] is written, and at the end.
    /repo/include/ffcl/datastruct/UnionFind.hpp:47-56. *)
Inductive finding :=
| FTest (index : nat)
| FTemp (index : nat)
| FGrand (index temp : nat)
| FWrite (index temp grand : nat)
| FReturn (index : nat).

(** The next access of [find]. UnionFind.hpp:49-55. *)
Definition find_step (f : finding) (p : list nat) : res (finding * list nat) :=
  match f with
  | FTest index => parent <- rd p index ;; Ok (if index =? parent then FReturn index else FTemp index, p)
  | FTemp index => temp <- rd p index ;; Ok (FGrand index temp, p)
  | FGrand index temp => grand <- rd p temp ;; Ok (FWrite index temp grand, p)
  | FWrite index temp grand => p <- wr p index grand ;; Ok (FTest temp, p)
  | FReturn index => Ok (FReturn index, p)
  end.

(** A call between two accesses: [find]; [merge] in its first and in its second call of [find]; before it reads the rank of
    [representative_1] and of [representative_2] for [==] and again for [>]; with equal ranks before it reads
    [parents_[representative_1]], writes [parents_[representative_2]], reads and writes [ranks_[representative_1]] and reads what it
    returns; with different ranks before it writes the parent of the lower one; at the end. UnionFind.hpp:47-79. *)
Inductive calling :=
| Finding (f : finding)
| First (f : finding) (index_2 : nat)
| Second (representative_1 : nat) (f : finding)
| Rank1 (representative_1 representative_2 : nat)
| Rank2 (representative_1 representative_2 rank_1 : nat)
| Rank3 (representative_1 representative_2 : nat)
| Rank4 (representative_1 representative_2 rank_1 : nat)
| LinkRead (representative_1 representative_2 : nat)
| LinkWrite (representative_1 representative_2 parent : nat)
| BumpRead (representative_1 : nat)
| BumpWrite (representative_1 rank : nat)
| ReadResult (representative_1 : nat)
| Hang (child parent : nat)
| Return (result : nat).

(** The start of a call. UnionFind.hpp:48 and 59-60. *)
Definition enter (o : uf_op) : calling :=
  match o with
  | OFind index => Finding (FTest index)
  | OMerge index_1 index_2 => First (FTest index_1) index_2
  end.

(** The next access of a call. UnionFind.hpp:47-79. *)
Definition call_step (c : calling) (u : uf) : res (calling * uf) :=
  match c with
  | Finding (FReturn index) => Ok (Return index, u)
  | Finding f => ' (f, p) <- find_step f (parents u) ;; Ok (Finding f, mk_uf p (ranks u))
  | First (FReturn representative_1) index_2 => Ok (Second representative_1 (FTest index_2), u)
  | First f index_2 => ' (f, p) <- find_step f (parents u) ;; Ok (First f index_2, mk_uf p (ranks u))
  | Second representative_1 (FReturn representative_2) =>
    Ok (if representative_1 =? representative_2 then Return representative_1 else Rank1 representative_1 representative_2, u)
  | Second representative_1 f => ' (f, p) <- find_step f (parents u) ;; Ok (Second representative_1 f, mk_uf p (ranks u))
  | Rank1 representative_1 representative_2 =>
    rank_1 <- rd (ranks u) representative_1 ;; Ok (Rank2 representative_1 representative_2 rank_1, u)
  | Rank2 representative_1 representative_2 rank_1 =>
    rank_2 <- rd (ranks u) representative_2 ;;
    Ok (if rank_1 =? rank_2 then LinkRead representative_1 representative_2 else Rank3 representative_1 representative_2, u)
  | Rank3 representative_1 representative_2 =>
    rank_1 <- rd (ranks u) representative_1 ;; Ok (Rank4 representative_1 representative_2 rank_1, u)
  | Rank4 representative_1 representative_2 rank_1 =>
    rank_2 <- rd (ranks u) representative_2 ;;
    Ok (if rank_2 <? rank_1 then Hang representative_2 representative_1 else Hang representative_1 representative_2, u)
  | LinkRead representative_1 representative_2 =>
    parent <- rd (parents u) representative_1 ;; Ok (LinkWrite representative_1 representative_2 parent, u)
  | LinkWrite representative_1 representative_2 parent =>
    p <- wr (parents u) representative_2 parent ;; Ok (BumpRead representative_1, mk_uf p (ranks u))
  | BumpRead representative_1 => rank <- rd (ranks u) representative_1 ;; Ok (BumpWrite representative_1 rank, u)
  | BumpWrite representative_1 rank =>
    r <- wr (ranks u) representative_1 (S rank) ;; Ok (ReadResult representative_1, mk_uf (parents u) r)
  | ReadResult representative_1 => result <- rd (parents u) representative_1 ;; Ok (Return result, u)
  | Hang child parent => p <- wr (parents u) child parent ;; Ok (Return parent, mk_uf p (ranks u))
  | Return result => Ok (Return result, u)
  end.

(** The calls of several threads, one each, on one object; [schedule] is the order in which they act. UnionFind.hpp:47-79. *)
Definition interleave (schedule : list nat) (calls : list calling) (u : uf) : res (list calling * uf) :=
  for_each schedule (fun t '(calls, u) =>
    c <- rd calls t ;;
    ' (c, u) <- call_step c u ;;
    calls <- wr calls t c ;;
    Ok (calls, u)) (calls, u).

(** The element a call accesses next and whether it writes it: an element of [parents_] or of [ranks_].
    UnionFind.hpp:47-79. *)
Inductive element := Parent (i : nat) | Rank (i : nat).
Definition find_access (f : finding) : option (element * bool) :=
  match f with
  | FTest index | FTemp index => Some (Parent index, false)
  | FGrand _ temp => Some (Parent temp, false)
  | FWrite index _ _ => Some (Parent index, true)
  | FReturn _ => None
  end.
Definition next_access (c : calling) : option (element * bool) :=
  match c with
  | Finding f | First f _ | Second _ f => find_access f
  | Rank1 r _ | Rank3 r _ | BumpRead r => Some (Rank r, false)
  | Rank2 _ r _ | Rank4 _ r _ => Some (Rank r, false)
  | LinkRead r _ | ReadResult r => Some (Parent r, false)
  | LinkWrite _ r _ | Hang r _ => Some (Parent r, true)
  | BumpWrite r _ => Some (Rank r, true)
  | Return _ => None
  end.
