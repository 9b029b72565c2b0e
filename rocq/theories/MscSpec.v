(** Specification vocabulary for the medoid silhouette. *)
From Coq Require Import List Arith QArith Qabs.
From Verif Require Import Base KMedoidsModel KMedoidsSpec MscModel.
Import ListNotations.
Local Open Scope nat_scope.

(** The quotient of two distances; 0 when the denominator is not larger than the tolerance. *)
Definition ratio (eps a b : Q) : Q := if Qlt_le_dec eps (Qabs b) then (a / b)%Q else 0%Q.

(** The distances of sample [o] to the medoids, by position. *)
Definition to_medoid (dist : nat -> nat -> Q) (medoids : list nat) (o j : nat) : Q := dist (nth j medoids 0) o.

(** Positions [i1] and [i2] hold a nearest medoid, and a nearest one among the others. *)
Definition nearest_two (T : nat -> Q) (k i1 i2 : nat) : Prop :=
  i1 < k /\ i2 < k /\ i2 <> i1 /\ (forall j, j < k -> (T i1 <= T j)%Q) /\ (forall j, j < k -> j <> i1 -> (T i2 <= T j)%Q).

(** [r o] is the distance of sample [o] to its nearest medoid divided by the one to its second nearest medoid. *)
Definition loss_terms (eps : Q) (dist : nat -> nat -> Q) (n : nat) (medoids : list nat) (r : nat -> Q) : Prop :=
  forall o, o < n -> exists i1 i2, nearest_two (to_medoid dist medoids o) (length medoids) i1 i2 /\
    (r o == ratio eps (to_medoid dist medoids o i1) (to_medoid dist medoids o i2))%Q.

(** [l] is the sum of these quotients: [n] times one minus the average medoid silhouette. *)
Definition silhouette_loss (eps : Q) (dist : nat -> nat -> Q) (n : nat) (medoids : list nat) (l : Q) : Prop :=
  exists r, loss_terms eps dist n medoids r /\ (l == fold_right Qplus 0 (map r (seq 0 n)))%Q.

(** A state whose buffers describe its medoids: at least three samples; for each sample the positions and distances of its three
    nearest medoids; for each medoid what its removal gains. *)
Record described (eps : Q) (dist : nat -> nat -> Q) (n : nat) (p : msc) : Prop := {
  d_medoids : forall m, In m (s_medoids p) -> m < n;
  d_three : 3 <= length (s_medoids p);
  d_lengths : length (s_nearest p) = n /\ length (s_second p) = n /\ length (s_third p) = n /\ length (s_distances p) = n /\
    length (s_second_distances p) = n /\ length (s_third_distances p) = n /\ length (s_losses p) = length (s_medoids p);
  d_nearest : forall o, o < n ->
    let T := to_medoid dist (s_medoids p) o in let k := length (s_medoids p) in
    let i1 := nth o (s_nearest p) 0 in let i2 := nth o (s_second p) 0 in let i3 := nth o (s_third p) 0 in
    nearest_two T k i1 i2 /\ i3 < k /\ i3 <> i1 /\ i3 <> i2 /\ (forall j, j < k -> j <> i1 -> j <> i2 -> (T i3 <= T j)%Q) /\
    (nth o (s_distances p) 0 == T i1)%Q /\ (nth o (s_second_distances p) 0 == T i2)%Q /\ (nth o (s_third_distances p) 0 == T i3)%Q;
  d_losses : forall i, i < length (s_medoids p) -> exists l l', silhouette_loss eps dist n (s_medoids p) l /\
    silhouette_loss eps dist n (firstn i (s_medoids p) ++ skipn (S i) (s_medoids p)) l' /\ (nth i (s_losses p) 0 == l - l')%Q }.

(** A state that no access of its buffers leaves: [k] medoids that are samples, and buffers of the right sizes that hold
    positions of medoids. *)
Record well_formed (n : nat) (p : msc) : Prop := {
  w_medoids : forall m, In m (s_medoids p) -> m < n;
  w_two : 2 <= length (s_medoids p);
  w_nearest : length (s_nearest p) = n /\ Forall (fun i => i < length (s_medoids p)) (s_nearest p);
  w_distances : length (s_distances p) = n /\ length (s_second_distances p) = n;
  w_more : 3 <= length (s_medoids p) ->
    (length (s_second p) = n /\ Forall (fun i => i < length (s_medoids p)) (s_second p)) /\
    (length (s_third p) = n /\ Forall (fun i => i < length (s_medoids p)) (s_third p)) /\
    length (s_third_distances p) = n /\ length (s_losses p) = length (s_medoids p) }.

(** The distances of a sample to two medoids differ by more than the tolerance, and are below [top]. *)
Definition separated (eps top : Q) (dist : nat -> nat -> Q) (n : nat) (medoids : list nat) : Prop :=
  forall o, o < n -> forall i, i < length medoids -> (to_medoid dist medoids o i < top)%Q /\
    forall j, j < length medoids -> j <> i -> (eps < Qabs (to_medoid dist medoids o i - to_medoid dist medoids o j))%Q.

(** Distances of a sample to itself are 0, and none is negative. *)
Definition distances_ok (dist : nat -> nat -> Q) (n : nat) : Prop :=
  (forall o, o < n -> (dist o o == 0)%Q) /\ forall i j, i < n -> j < n -> (0 <= dist i j)%Q.

(** The smaller of two distances divided by the larger one. *)
Definition smaller_over_larger (eps x y : Q) : Q := if Qlt_le_dec x y then ratio eps x y else ratio eps y x.

(** With two medoids: the distance stored for the medoid at position [i]; for the other one. *)
Definition stored_at (p : msc) (i o : nat) : Q := nth o (if i =? 0 then s_distances p else s_second_distances p) 0%Q.
Definition stored_other (p : msc) (i o : nat) : Q := nth o (if i =? 0 then s_second_distances p else s_distances p) 0%Q.

(** The loss that the stored distances give when the medoid at position [i] is replaced by the sample [c]. *)
Definition counted_loss (eps : Q) (dist : nat -> nat -> Q) (n : nat) (p : msc) (c i : nat) : Q :=
  fold_right Qplus 0%Q (map (fun o => smaller_over_larger eps (dist c o) (stored_other p i o)) (seq 0 n)).

(** What can be stored for sample [o]. *)
Definition storable (top : Q) (dist : nat -> nat -> Q) (n o : nat) (x : Q) : Prop :=
  (exists i, i < n /\ (x == dist i o)%Q) \/ (x == 0)%Q \/ (x == top)%Q.

(** What is stored and differs from a distance at most by the tolerance is equal to it. *)
Definition tolerance_exact (eps top : Q) (dist : nat -> nat -> Q) (n : nat) : Prop :=
  forall c o x, c < n -> o < n -> storable top dist n o x -> (Qabs (x - dist c o) <= eps)%Q -> (dist c o == x)%Q.

(** A well-formed state with two medoids and with distances of the samples in its buffers. *)
Definition two_medoids (top : Q) (dist : nat -> nat -> Q) (n : nat) (p : msc) : Prop :=
  well_formed n p /\ length (s_medoids p) = 2 /\
  forall o, o < n -> storable top dist n o (nth o (s_distances p) 0%Q) /\ storable top dist n o (nth o (s_second_distances p) 0%Q).
