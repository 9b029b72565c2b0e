(** Model of the object layout of [WithMemory] (include/ffcl/search/buffer/WithMemory.hpp): where the visited set it reads
    lives, and what becomes of it when the buffer is handed to a searcher. *)
From Coq Require Import List Arith ZArith Bool.
From Verif Require Import Base SortingModel BoundsModel UnionFindModel BufferModel KDTreeModel SearchModel BatchModel.
Import ListNotations.

(** The sets of indices of the program by address; [None] is a set whose lifetime has ended.
    The members [VisitedIndices visited_indices_] of the buffers and the sets of the caller.
    /repo/include/ffcl/search/buffer/WithMemory.hpp:123. *)
Definition heap := list (option (list nat)).

(** Access through a reference; no defined behaviour after the end of the lifetime of the set. WithMemory.hpp:92-93. *)
Definition deref (h : heap) (a : nat) : res (list nat) :=
  o <- rd h a ;; match o with Some set => Ok set | None => UB end.

(** A [WithMemory] object: the base class, the address of [visited_indices_] and the address
    [visited_indices_const_reference_] refers to. WithMemory.hpp:123-124. *)
Record with_memory (D : Type) := mk_with_memory { wm_base : buffer D; wm_own : nat; wm_reference : nat }.
Arguments mk_with_memory {D}.
Arguments wm_base {D}.
Arguments wm_own {D}.
Arguments wm_reference {D}.

(** [WithMemory(bound, max_capacity)]. WithMemory.hpp:34-37 and 59-62. *)
Definition remember_nothing {D} (inf : D) (capacity : nat) (h : heap) : with_memory D * heap :=
  (mk_with_memory (make_buffer inf capacity) (length h) (length h), h ++ [Some []]).

(** [WithMemory(bound, const VisitedIndices&, max_capacity)]; [a] is the address of the caller's set.
    WithMemory.hpp:39-44 and 64-70. *)
Definition remember_reference {D} (inf : D) (a : nat) (capacity : nat) (h : heap) : with_memory D * heap :=
  (mk_with_memory (make_buffer inf capacity) (length h) a, h ++ [Some []]).

(** [WithMemory(bound, VisitedIndices&&, max_capacity)] and the constructors from two iterators of a set, which delegate to
    it. WithMemory.hpp:46-57 and 72-88. *)
Definition remember_own {D} (inf : D) (visited : list nat) (capacity : nat) (h : heap) : with_memory D * heap :=
  (mk_with_memory (make_buffer inf capacity) (length h) (length h), h ++ [Some visited]).

(** The implicit move constructor: member by member, so the reference of the new object is the one of the old object.
    [leftover] is what a set holds after it was moved from: the standard leaves it unspecified.
    WithMemory.hpp:14-125 declares no constructor of its own for this. *)
Definition move_with_memory {D} (leftover : list nat -> list nat) (w : with_memory D) (h : heap)
  : res (with_memory D * heap) :=
  set <- deref h (wm_own w) ;;
  h <- wr h (wm_own w) (Some (leftover set)) ;;
  Ok (mk_with_memory (wm_base w) (length h) (wm_reference w), h ++ [Some set]).

(** The end of the lifetime of a buffer. WithMemory.hpp:123. *)
Definition destroy_with_memory {D} (w : with_memory D) (h : heap) : res heap := wr h (wm_own w) None.

(** [update_impl]. WithMemory.hpp:90-98. *)
Definition update_with_memory {D} (lt : D -> D -> bool) (w : with_memory D) (h : heap) (index : nat) (distance : D)
  : res (with_memory D) :=
  visited <- deref h (wm_reference w) ;;
  if existsb (Nat.eqb index) visited then Ok w
  else b <- update_static_buffers lt (wm_base w) index distance ;; Ok (mk_with_memory b (wm_own w) (wm_reference w)).

(** The test of [update_impl] as the search uses it. WithMemory.hpp:90-98. *)
Definition accept_remembered (h : heap) (a : nat) (index : nat) (s : unit) : res (bool * unit) :=
  visited <- deref h a ;; Ok (negb (existsb (Nat.eqb index) visited), s).

(** [Searcher::operator()] on a buffer handed over as an rvalue: the buffer is moved into a local variable, which is
    searched for and returned. The move out of the local variable may be left out ([elided]); otherwise the local variable
    is destroyed after it was moved from. [Searcher] passes the argument on as a reference.
    /repo/include/ffcl/search/TreeTraverser.hpp:192-203, Search.hpp:145-151. *)
Definition search_with_memory (m : metric) (samples : list Z) (n_features : nat) (tree : kdtree)
  (bound : search_bound (m_dist m)) (query : list Z) (leftover : list nat -> list nat) (elided : bool)
  (argument : with_memory (m_dist m)) (h : heap) : res (with_memory (m_dist m) * heap) :=
  '(local, h) <- move_with_memory leftover argument h ;;
  '(b, _) <- search_into m samples n_features tree bound query (accept_remembered h (wm_reference local))
               (wm_base local, tt) ;;
  let local := mk_with_memory b (wm_own local) (wm_reference local) in
  if elided then Ok (local, h)
  else
    '(result, h) <- move_with_memory leftover local h ;;
    h <- destroy_with_memory local h ;;
    Ok (result, h).

(** [searcher(WithMemory(...))]: the argument is a temporary object, destroyed at the end of the statement.
    Search.hpp:145-151. *)
Definition search_temporary (m : metric) (samples : list Z) (n_features : nat) (tree : kdtree)
  (bound : search_bound (m_dist m)) (query : list Z) (leftover : list nat -> list nat) (elided : bool)
  (argument : with_memory (m_dist m)) (h : heap) : res (with_memory (m_dist m) * heap) :=
  '(result, h) <- search_with_memory m samples n_features tree bound query leftover elided argument h ;;
  h <- destroy_with_memory argument h ;;
  Ok (result, h).
