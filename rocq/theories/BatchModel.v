(** Searches that start from a given buffer, batches of buffers and one buffer through several trees:
    include/ffcl/search/Search.hpp and TreeTraverser.hpp. *)
From Coq Require Import List Arith ZArith Bool.
From Verif Require Import Base BoundsModel BufferModel KDTreeModel SearchModel.
Import ListNotations.

(** [Searcher::operator()] on the buffer it is handed, which may already hold candidates.
    /repo/include/ffcl/search/Search.hpp:145-151, TreeTraverser.hpp:192-203. *)
Definition search_into (m : metric) (samples : list Z) (n_features : nat) (tree : kdtree)
  (bound : search_bound (m_dist m)) (query : list Z) {S} (accept : nat -> S -> res (bool * S))
  (state : buffer (m_dist m) * S) : res (buffer (m_dist m) * S) :=
  single_tree_traversal m samples n_features (kt_indices tree) (kt_root tree) bound query accept
    (kd_nodes (kt_root tree) * kd_nodes (kt_root tree) + kd_nodes (kt_root tree) + 2) [] state.

(** What a buffer of a batch carries besides its candidates: its bound, the centroid of the bound and its test of
    candidates. /repo/include/ffcl/search/buffer/Unsorted.hpp:64-65, WithUnionFind.hpp:79-86. *)
Record request (D S : Type) := mk_request {
  rq_bound : search_bound D; rq_query : list Z; rq_accept : nat -> S -> res (bool * S) }.
Arguments mk_request {D S}.
Arguments rq_bound {D S}.
Arguments rq_query {D S}.
Arguments rq_accept {D S}.

(** [Searcher::operator()] on a batch: every buffer in turn; what their tests share ([s], a union-find that [find]
    rewrites) goes from one search to the next. /repo/include/ffcl/search/Search.hpp:153-168, TreeTraverser.hpp:205-215. *)
Fixpoint search_batch (m : metric) (samples : list Z) (n_features : nat) (tree : kdtree) {S}
  (batch : list (request (m_dist m) S * buffer (m_dist m))) (s : S) : res (list (buffer (m_dist m)) * S) :=
  match batch with
  | [] => Ok ([], s)
  | (r, b) :: batch' =>
      '(b', s') <- search_into m samples n_features tree (rq_bound r) (rq_query r) (rq_accept r) (b, s) ;;
      '(bs, s'') <- search_batch m samples n_features tree batch' s' ;;
      Ok (b' :: bs, s'')
  end.

(** A client that hands one buffer to the searchers of several trees, one after the other.
    /repo/include/ffcl/search/Search.hpp:145-151. *)
Definition search_trees (m : metric) (samples : list Z) (n_features : nat) (trees : list kdtree)
  (bound : search_bound (m_dist m)) (query : list Z) {S} (accept : nat -> S -> res (bool * S))
  (state : buffer (m_dist m) * S) : res (buffer (m_dist m) * S) :=
  for_each trees (fun tree => search_into m samples n_features tree bound query accept) state.
