(** Model of include/ffcl/datastruct/UnionFind.hpp. *)
From Coq Require Import List Arith.
From Verif Require Import Base.
Import ListNotations.

(** The two arrays of the class; [n_samples_] is their length.
    /repo/include/ffcl/datastruct/UnionFind.hpp:27-29. *)
Record uf := mk_uf { parents : list nat; ranks : list nat }.

(** [UnionFind(n_samples)]: every element its own parent, rank 0 ([std::make_unique] zero-initialises).
    /repo/include/ffcl/datastruct/UnionFind.hpp:32-39. *)
Definition uf_make (n : nat) : uf := mk_uf (seq 0 n) (repeat 0 n).

(** [UnionFind(n_samples, labels)]: the caller's labels become the parents.
    /repo/include/ffcl/datastruct/UnionFind.hpp:41-45.
    Simplified: [labels] has exactly [n_samples] entries. *)
Definition uf_of_labels (labels : list nat) : uf := mk_uf labels (repeat 0 (length labels)).

(** The loop of [find]: [while (index != parents_[index])], rewriting [parents_[index]] to the grand-parent.
    /repo/include/ffcl/datastruct/UnionFind.hpp:49-55.
    One unit of fuel per evaluation of the loop condition. *)
Fixpoint find_loop (fuel : nat) (p : list nat) (index : nat) : res (list nat * nat) :=
  match fuel with
  | 0 => Fuel
  | S fuel' =>
      parent <- rd p index ;;
      if index =? parent then Ok (p, index)
      else
        let temp := parent in
        grand <- rd p temp ;;
        p' <- wr p index grand ;;
        find_loop fuel' p' temp
  end.

(** [find]: although declared [const] it rewrites the parents array.
    /repo/include/ffcl/datastruct/UnionFind.hpp:47-56.
    The fuel [2 * n] is enough for every array of in-range parents, cyclic ones included (theorem C04). *)
Definition uf_find (u : uf) (index : nat) : res (uf * nat) :=
  '(p, r) <- find_loop (2 * length (parents u)) (parents u) index ;;
  Ok (mk_uf p (ranks u), r).

(** [merge]. /repo/include/ffcl/datastruct/UnionFind.hpp:58-79. *)
Definition uf_merge (u : uf) (index_1 index_2 : nat) : res (uf * nat) :=
  '(u1, representative_1) <- uf_find u index_1 ;;
  '(u2, representative_2) <- uf_find u1 index_2 ;;
  if representative_1 =? representative_2 then Ok (u2, representative_1)
  else
    k1 <- rd (ranks u2) representative_1 ;;
    k2 <- rd (ranks u2) representative_2 ;;
    if k1 =? k2 then
      q1 <- rd (parents u2) representative_1 ;;
      p' <- wr (parents u2) representative_2 q1 ;;
      r' <- wr (ranks u2) representative_1 (S k1) ;;
      ret <- rd p' representative_1 ;;
      Ok (mk_uf p' r', ret)
    else if k2 <? k1 then
      p' <- wr (parents u2) representative_2 representative_1 ;;
      Ok (mk_uf p' (ranks u2), representative_1)
    else
      p' <- wr (parents u2) representative_1 representative_2 ;;
      Ok (mk_uf p' (ranks u2), representative_2).

(** A client's call sequence: the two public member functions. *)
Inductive uf_op := OFind (i : nat) | OMerge (i j : nat).

(** Executing a call sequence on an object. *)
Definition uf_exec (u : uf) (o : uf_op) : res uf :=
  match o with
  | OFind i => '(u', _) <- uf_find u i ;; Ok u'
  | OMerge i j => '(u', _) <- uf_merge u i j ;; Ok u'
  end.

Fixpoint uf_run (u : uf) (ops : list uf_op) : res uf :=
  match ops with
  | [] => Ok u
  | o :: ops' => u' <- uf_exec u o ;; uf_run u' ops'
  end.
