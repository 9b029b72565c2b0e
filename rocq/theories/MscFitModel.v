(** Model of [KMedoids::fit] of include/ffcl/kmedoids/KMedoids.hpp with [FasterMSC] as its template argument. *)
From Coq Require Import List Arith QArith Bool.
From Verif Require Import Base SortingModel BufferModel KMeansModel RandomModel KMedoidsModel MscModel ThreadsModel.
Import ListNotations.
Local Open Scope nat_scope.

Section Fit.
Context (epsilon numeric_max : Q) (src : source Q).

(** The loop over the iterations. /repo/include/ffcl/kmedoids/KMedoids.hpp:204-225 and 291-312. *)
Fixpoint msc_loop (o : medoids_options) (iterations patience_iteration : nat) (previous candidate : list nat) (p : msc)
  : res (list nat * msc) :=
  match iterations with
  | 0 => Ok (candidate, p)
  | S iterations =>
    p <- msc_step epsilon src p ;;
    let candidate := s_medoids p in
    if mo_early_stopping o && same_indices candidate previous then
      if patience_iteration =? mo_patience o then Ok (candidate, p)
      else msc_loop o iterations (S patience_iteration) candidate candidate p
    else msc_loop o iterations 0 candidate candidate p
  end.

(** The body of the loop over the candidates. KMedoids.hpp:196-233 and 286-320. *)
Definition msc_candidate (o : medoids_options) (candidate : list nat) : res (list nat * Q) :=
  p <- make_msc epsilon numeric_max src candidate ;;
  ' (medoids, p) <- msc_loop o (mo_max_iter o) 0 [] candidate p ;;
  Ok (medoids, total_deviation p).

(** The medoids to start from; only the number of samples matters. KMedoids.hpp:162-176 and 259-273. *)
Definition msc_candidates (o : medoids_options) (n_medoids : nat) (medoids : list nat) (draw : nat -> generator)
  : res (list (list nat)) :=
  medoids_candidates (mk_source (rows src) (fun _ _ => UB)) o n_medoids medoids draw.

(** [fit<FasterMSC>]. Simplified as [medoids_fit]: the loop over the candidates is sequential
    (concurrent below).
    KMedoids.hpp:151-241 and 253-328, /repo/include/ffcl/common/math/statistics/Statistics.hpp:52-56. *)
Definition msc_fit (o : medoids_options) (n_medoids : nat) (medoids : list nat) (draw : nat -> generator) : res (list nat) :=
  candidates <- msc_candidates o n_medoids medoids draw ;;
  results <- for_each candidates (fun candidate results =>
    r <- msc_candidate o candidate ;; Ok (results ++ [r])) [] ;;
  ' (min_loss_index, _) <- get_max_index_value_pair (fun x y => Qlt_bool y x) (map snd results) ;;
  ' (best, _) <- rd results min_loss_index ;;
  Ok best.

(** [fit<FasterMSC>] compiled with OpenMP. KMedoids.hpp:151-241 and 253-328. *)
Definition parallel_msc_fit (o : medoids_options) (schedule : list nat) (n_medoids : nat) (medoids : list nat) (draw : nat -> generator)
  : res (list nat) :=
  candidates <- msc_candidates o n_medoids medoids draw ;;
  parallel_best (make_msc epsilon numeric_max src) (msc_step epsilon src) s_medoids total_deviation same_indices
    (mo_max_iter o) (mo_early_stopping o) (mo_patience o) Qlt_bool [] 0%Q schedule candidates.
End Fit.
