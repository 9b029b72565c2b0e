(** Specification vocabulary for k-medoids. *)
From Coq Require Import List Arith ZArith.
From Verif Require Import Base KMeansSpec KMedoidsModel.
Import ListNotations.

(** [src] gives the distances [dist] of [n] samples. *)
Definition provides {D} (src : source D) (n : nat) (dist : nat -> nat -> D) : Prop :=
  rows src = n /\ forall i j, i < n -> j < n -> dist_at src i j = Ok (dist i j).

(** The distance of sample [o] to the nearest of the medoids. *)
Definition deviation (dist : nat -> nat -> Z) (medoids : list nat) (o : nat) : Z :=
  match medoids with
  | [] => 0%Z
  | m :: ms => fold_right Z.min (dist m o) (map (fun m' => dist m' o) ms)
  end.

(** The sum of the distances of the samples to their nearest medoids. *)
Definition deviations (dist : nat -> nat -> Z) (n : nat) (medoids : list nat) : Z :=
  fold_right Z.add 0%Z (map (deviation dist medoids) (seq 0 n)).

(** Medoids after the one at position [i] is replaced by the sample [c]. *)
Definition exchange (medoids : list nat) (i c : nat) : list nat := firstn i medoids ++ c :: skipn (S i) medoids.

(** Each sample has one medoid that is nearer than all the others. *)
Definition unique_nearest (dist : nat -> nat -> Z) (n : nat) (medoids : list nat) : Prop :=
  forall o, o < n -> exists j, j < length medoids /\
    forall j', j' < length medoids -> j' <> j -> (dist (nth j medoids 0%nat) o < dist (nth j' medoids 0%nat) o)%Z.

(** Position [j] holds a nearest medoid of sample [o]. *)
Definition nearest_medoid (dist : nat -> nat -> Z) (medoids : list nat) (o j : nat) : Prop :=
  j < length medoids /\ forall j', j' < length medoids -> (dist (nth j medoids 0%nat) o <= dist (nth j' medoids 0%nat) o)%Z.

(** A state whose buffers describe its medoids: [k] samples; for each sample the position and distance of a nearest medoid and
    those of a nearest medoid among the others; for each medoid what its removal costs; the loss is the total deviation. *)
Record consistent (dist : nat -> nat -> Z) (n : nat) (p : pam) : Prop := {
  c_medoids : forall m, In m (p_medoids p) -> m < n;
  c_distinct : NoDup (p_medoids p);
  c_two : 2 <= length (p_medoids p);
  c_lengths : length (p_nearest p) = n /\ length (p_second p) = n /\ length (p_distances p) = n /\
    length (p_second_distances p) = n /\ length (p_losses p) = length (p_medoids p);
  c_nearest : forall o, o < n ->
    let j := nth o (p_nearest p) 0%nat in
    nearest_medoid dist (p_medoids p) o j /\ nth o (p_distances p) 0%Z = dist (nth j (p_medoids p) 0%nat) o;
  c_second : forall o, o < n ->
    let j := nth o (p_nearest p) 0%nat in let j2 := nth o (p_second p) 0%nat in
    j2 < length (p_medoids p) /\ j2 <> j /\ nth o (p_second_distances p) 0%Z = dist (nth j2 (p_medoids p) 0%nat) o /\
    forall j', j' < length (p_medoids p) -> j' <> j ->
      (nth o (p_second_distances p) 0 <= dist (nth j' (p_medoids p) 0%nat) o)%Z;
  c_losses : forall i, i < length (p_medoids p) ->
    nth i (p_losses p) 0%Z = (deviations dist n (firstn i (p_medoids p) ++ skipn (S i) (p_medoids p)) - deviations dist n (p_medoids p))%Z;
  c_loss : p_loss p = deviations dist n (p_medoids p) }.

(** [t] calls of [step]. *)
Fixpoint steps {S} (t : nat) (step : S -> res S) (s : S) : res S :=
  match t with 0 => Ok s | Datatypes.S t' => s' <- step s ;; steps t' step s' end.

(** Position [j] is the first that holds a nearest medoid of sample [o]. *)
Definition first_nearest_medoid (dist : nat -> nat -> Z) (medoids : list nat) (o j : nat) : Prop :=
  nearest_medoid dist medoids o j /\
  forall j', j' < j -> (dist (nth j medoids 0%nat) o < dist (nth j' medoids 0%nat) o)%Z.

(** [result]: the medoids of the state that the steps from [start] have reached when they stop. *)
Definition reached (top : Z) (src : source Z) (o : medoids_options) (start result : list nat) : Prop :=
  exists st t, make_pam signed_wrap top src start = Ok (st 0) /\ (forall i, pam_step signed_wrap src (st i) = Ok (st (S i))) /\
    stops_at (mo_max_iter o) (mo_early_stopping o) Nat.eqb (mo_patience o) (fun i => p_medoids (st i)) t /\
    result = p_medoids (st t).
