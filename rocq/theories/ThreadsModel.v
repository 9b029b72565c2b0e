(** Model of the loops over the candidates in include/ffcl/kmeans/KMeans.hpp and include/ffcl/kmedoids/KMedoids.hpp when they are
    compiled with OpenMP: the iterations run concurrently, in any order. *)
From Coq Require Import List Arith ZArith Bool.
From Verif Require Import Base SortingModel BufferModel SearchModel MatrixModel RandomModel KMeansModel KMedoidsModel.
Import ListNotations.

Section Threads.
(** The class that does the work: its constructor, [step], the candidate [step] returns and [total_deviation]; the comparison of two
    candidates; the options. /repo/include/ffcl/kmeans/KMeans.hpp:189-221, /repo/include/ffcl/kmedoids/KMedoids.hpp:197-232. *)
Context {St C L : Type} (make : C -> res St) (step : St -> res St) (current : St -> C) (deviation_of : St -> L) (same : C -> C -> bool)
  (iterations_max : nat) (early : bool) (patience_max : nat).

(** The vectors all threads see. KMeans.hpp:161, 174 and 180, KMedoids.hpp:162, 178 and 184, 257, 275 and 281. *)
Record shared := mk_shared { candidates : list C; previous : list C; losses : list L }.

(** How far an iteration of the parallel loop has come, with its local variables: the iterations left, [patience_iteration] and the
    object. KMeans.hpp:189-221, KMedoids.hpp:197-232 and 287-319. *)
Inductive position :=
| Begin
| Head (iterations patience_iteration : nat) (s : St)
| Test (iterations patience_iteration : nat) (s : St)
| Store (iterations patience_iteration : nat) (s : St)
| Finish (s : St)
| Done.

(** What iteration [i] does next, up to the next access to a shared vector. Simplified: an access to one element of a shared vector
    is one action. KMeans.hpp:189-221, KMedoids.hpp:197-232 and 287-319. *)
Definition advance (i : nat) (p : position) (m : shared) : res (position * shared) :=
  match p with
  | Begin => c <- rd (candidates m) i ;; s <- make c ;; Ok (Head iterations_max 0 s, m)
  | Head 0 _ s => Ok (Finish s, m)
  | Head (S iterations) patience_iteration s =>
    s <- step s ;;
    cs <- wr (candidates m) i (current s) ;;
    Ok (Test iterations patience_iteration s, mk_shared cs (previous m) (losses m))
  | Test iterations patience_iteration s =>
    if early then
      c <- rd (candidates m) i ;;
      q <- rd (previous m) i ;;
      if same c q then
        if patience_iteration =? patience_max then Ok (Finish s, m) else Ok (Store iterations (S patience_iteration) s, m)
      else Ok (Store iterations 0 s, m)
    else Ok (Store iterations 0 s, m)
  | Store iterations patience_iteration s =>
    c <- rd (candidates m) i ;;
    ps <- wr (previous m) i c ;;
    Ok (Head iterations patience_iteration s, mk_shared (candidates m) ps (losses m))
  | Finish s => ls <- wr (losses m) i (deviation_of s) ;; Ok (Done, mk_shared (candidates m) (previous m) ls)
  | Done => Ok (Done, m)
  end.

(** An exception that leaves the body of a parallel loop is not allowed by OpenMP; the program usually ends.
    KMeans.hpp:182-184, KMedoids.hpp:193-195 and 283-285. *)
Definition no_exceptions {A} (r : res A) : res A := match r with Throw => UB | r => r end.

(** The parallel loop: [schedule] is the order in which the iterations act. KMeans.hpp:182-222, KMedoids.hpp:193-233 and 283-320. *)
Definition parallel_loop (schedule : list nat) (positions : list position) (m : shared) : res (list position * shared) :=
  for_each schedule (fun i '(positions, m) =>
    p <- rd positions i ;;
    ' (p, m) <- no_exceptions (advance i p m) ;;
    positions <- wr positions i p ;;
    Ok (positions, m)) (positions, m).

(** The end of the parallel loop. A schedule that ends too early gives [Fuel]. KMeans.hpp:182-222. *)
Definition all_done (positions : list position) : bool := forallb (fun p => match p with Done => true | _ => false end) positions.

(** The vectors made before the loop ([none] is an empty vector, [zero] the loss a new element has), the loop and the choice of the
    candidate. KMeans.hpp:173-230, KMedoids.hpp:177-241 and 274-328. *)
Definition parallel_best (lt : L -> L -> bool) (none : C) (zero : L) (schedule : list nat) (cs : list C) : res C :=
  ' (positions, m) <- parallel_loop schedule (repeat Begin (length cs))
                        (mk_shared cs (repeat none (length cs)) (repeat zero (length cs))) ;;
  if all_done positions then
    ' (min_loss_index, _) <- get_max_index_value_pair (fun x y => lt y x) (losses m) ;;
    rd (candidates m) min_loss_index
  else Fuel.
End Threads.

(** [KMeans::fit] compiled with OpenMP. KMeans.hpp:153-230. *)
Definition parallel_fit (a : arith) (alg : algorithm a) (o : options) (close : num a -> num a -> bool) (zero : ext a)
  (schedule : list nat) (centroids : list (num a)) (initializer : nat -> list (num a)) : res (list (num a)) :=
  parallel_best (alg_make a alg) (alg_step a alg) (alg_centroids a alg) (alg_loss a alg) (are_containers_equal a close)
    (max_iter o) (early_stopping o) (patience o) (e_lt a) [] zero schedule
    (match centroids with [] => map initializer (seq 0 (n_init o)) | _ => [centroids] end).

(** [KMedoids::fit] compiled with OpenMP, with FasterPAM. KMedoids.hpp:151-241 and 253-328. *)
Definition parallel_medoids_fit (wrap : Z -> Z) (numeric_max : Z) (src : source Z) (o : medoids_options)
  (schedule : list nat) (n_medoids : nat) (medoids : list nat) (draw : nat -> generator)
  : res (list nat) :=
  candidates <- medoids_candidates src o n_medoids medoids draw ;;
  parallel_best (make_pam wrap numeric_max src) (pam_step wrap src) p_medoids p_loss same_indices
    (mo_max_iter o) (mo_early_stopping o) (mo_patience o) Z.ltb [] 0%Z schedule candidates.
