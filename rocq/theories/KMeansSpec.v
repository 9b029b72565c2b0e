(** Specification vocabulary for k-means. *)
From Coq Require Import List Arith Bool.
From Verif Require Import Base BufferSpec KMeansModel.
Import ListNotations.

(** Centroid [j] is a nearest one to [x]: no other is strictly closer. *)
Definition nearest_to {F D} (lt : D -> D -> bool) (dist : list F -> list F -> D) (centroids : list F) (nf k : nat) (x : list F)
  (j : nat) : Prop :=
  j < k /\ forall j', j' < k -> lt (dist x (row centroids nf j')) (dist x (row centroids nf j)) = false.

(** The samples an assignment gives to cluster [c]. *)
Definition members (assignment : list nat) (c : nat) : list nat :=
  filter (fun i => nth i assignment 0 =? c) (seq 0 (length assignment)).

(** The laws of exact addition and of the order. *)
Record arith_ok (a : arith) : Prop := {
  ok_order : order_ok (n_lt a);
  ok_add_comm : forall x y, n_add a x y = n_add a y x;
  ok_add_assoc : forall x y z, n_add a x (n_add a y z) = n_add a (n_add a x y) z;
  ok_add_0 : forall x, n_add a (n_zero a) x = x }.

(** Exact subtraction and halving, compatible with the order, and a distance that is symmetric and satisfies the triangle
    inequality. *)
Record metric_laws (a : arith) : Prop := {
  ok_sub_add : forall x y, n_sub a (n_add a x y) y = x;
  ok_add_sub : forall x y, n_add a (n_sub a x y) y = x;
  ok_add_le : forall x y z, n_lt a y x = false -> n_lt a (n_add a y z) (n_add a x z) = false;
  ok_half : forall u s, n_lt a (n_div a s 2) u = false -> n_lt a s (n_add a u u) = false;
  ok_dist_sym : forall p q, length p = length q -> n_dist a p q = n_dist a q p;
  ok_triangle : forall p q r, length p = length q -> length q = length r ->
    n_lt a (n_add a (n_dist a p q) (n_dist a q r)) (n_dist a p r) = false }.

(** Sum of feature [f] over some samples. *)
Definition feature_sum (a : arith) (samples : list (num a)) (nf f : nat) (ms : list nat) : num a :=
  fold_right (fun i acc => n_add a (nth (i * nf + f) samples (n_zero a)) acc) (n_zero a) ms.

(** [new] is the mean of the members of cluster [c]. *)
Definition is_mean (a : arith) (samples : list (num a)) (nf : nat) (ms : list nat) (new : list (num a)) : Prop :=
  length new = nf /\
  forall f, f < nf -> nth_error new f = Some (n_div a (feature_sum a samples nf f ms) (length ms)).

(** Every sample goes to one of the [k] centroids nearest to it. *)
Definition nearest_assignment (a : arith) (samples : list (num a)) (nf n k : nat) (centroids : list (num a)) (assignment : list nat)
  : Prop :=
  length assignment = n /\
  forall i, i < n -> nearest_to (n_lt a) (n_dist a) centroids nf k (row samples nf i) (nth i assignment 0).

(** The centroids after a step: means of the non-empty clusters, [empty c] for the others. *)
Definition centroids_after (a : arith) (samples : list (num a)) (nf k : nat) (assignment : list nat) (empty : nat -> list (num a))
  (new : list (num a)) : Prop :=
  length new = k * nf /\
  forall c, c < k ->
    (members assignment c <> [] -> is_mean a samples nf (members assignment c) (row new nf c)) /\
    (members assignment c = [] -> row new nf c = empty c).

(** The sum of the distances of all samples to their centroids. *)
Definition total_distance (a : arith) (samples : list (num a)) (nf : nat) (centroids : list (num a)) (assignment : list nat) : num a :=
  fold_right (fun i acc => n_add a (n_dist a (row samples nf i) (row centroids nf (nth i assignment 0))) acc) (n_zero a)
    (seq 0 (length assignment)).

(** No sample has a second centroid that [common::equality] finds as near as its nearest one. *)
Definition no_tie (a : arith) (samples : list (num a)) (nf n k : nat) (centroids : list (num a)) : Prop :=
  forall i j j', i < n -> j' < k -> j <> j' -> nearest_to (n_lt a) (n_dist a) centroids nf k (row samples nf i) j ->
    n_eq a (n_dist a (row samples nf i) (row centroids nf j')) (n_dist a (row samples nf i) (row centroids nf j)) = false.

(** [t] calls of [step]. *)
Fixpoint after {S} (t : nat) (step : S -> res S) (s : S) : res S :=
  match t with 0 => Ok s | Datatypes.S t' => s' <- step s ;; after t' step s' end.

(** Two vectors equal up to a tolerance. *)
Definition same {A} (close : A -> A -> bool) (l r : list A) : Prop :=
  length l = length r /\ forall i x y, nth_error l i = Some x -> nth_error r i = Some y -> close x y = true.

(** The centroids did not change in the last [patience + 1] steps up to step [t]. The first step is not compared with the
    initial centroids. *)
Definition settled {A} (close : A -> A -> bool) (patience : nat) (centroids : nat -> list A) (t : nat) : Prop :=
  forall r, r <= patience -> r + 2 <= t /\ same close (centroids (t - r)) (centroids (t - r - 1)).

(** The number of steps done: the maximum, or with early stopping the first number where the centroids have settled. *)
Definition stops_at {A} (max_iter : nat) (early : bool) (close : A -> A -> bool) (patience : nat) (centroids : nat -> list A) (t : nat)
  : Prop :=
  t <= max_iter /\ (t = max_iter \/ (early = true /\ settled close patience centroids t)) /\
  forall t', t' < t -> ~ (early = true /\ settled close patience centroids t').

(** [r]: the centroids and loss of the state the candidate has reached when it stops. *)
Definition candidate_result (a : arith) (alg : algorithm a) (o : options) (close : num a -> num a -> bool) (cand : list (num a))
  (r : list (num a) * ext a) : Prop :=
  exists st t, alg_make a alg cand = Ok (st 0) /\ (forall i, alg_step a alg (st i) = Ok (st (S i))) /\
    stops_at (max_iter o) (early_stopping o) close (patience o) (fun i => alg_centroids a alg (st i)) t /\
    fst r = alg_centroids a alg (st t) /\ snd r = alg_loss a alg (st t).

(** The loss of a Hamerly state after its samples are reassigned to [asg']: each reassigned sample gives up its upper bound
    and brings its distance to the new centroid. *)
Definition loss_after (a : arith) (samples : list (num a)) (nf n : nat) (h : hamerly a) (asg' : list nat) : option (num a) :=
  fold_left (fun loss i =>
    if nth i asg' 0 =? nth i (h_indices a h) 0 then loss
    else match loss, nth i (h_nearest a h) None with
         | Some x, Some u => Some (n_add a (n_sub a x u) (n_dist a (row samples nf i) (row (h_centroids a h) nf (nth i asg' 0))))
         | _, _ => None
         end) (seq 0 n) (h_loss a h).
