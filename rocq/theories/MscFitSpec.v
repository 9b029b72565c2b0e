(** What is said about [KMedoids::fit<FasterMSC>]. *)
From Coq Require Import List Arith QArith.
From Verif Require Import Base BufferModel KMeansSpec KMedoidsModel KMedoidsSpec MscModel.
Import ListNotations.
Local Open Scope nat_scope.

(** [result]: the medoids of the state that the steps from [start] have reached when they stop; [loss]: what it reports. *)
Definition msc_reached (eps top : Q) (src : source Q) (o : medoids_options) (start : list nat) (result : list nat * Q) : Prop :=
  exists st t, make_msc eps top src start = Ok (st 0) /\ (forall i, msc_step eps src (st i) = Ok (st (S i))) /\
    stops_at (mo_max_iter o) (mo_early_stopping o) Nat.eqb (mo_patience o) (fun i => s_medoids (st i)) t /\
    result = (s_medoids (st t), total_deviation (st t)).
