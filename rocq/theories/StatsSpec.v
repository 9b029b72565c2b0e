(** Specification vocabulary for statistics. *)
From Coq Require Import List Arith ZArith QArith.
Import ListNotations.
Local Open Scope nat_scope.

(** Values of feature [j] of the samples [indices] of a dataset of rational numbers (of integers). *)
Definition column (samples : list Q) (nf j : nat) (indices : list nat) : list Q :=
  map (fun i => nth (i * nf + j) samples 0%Q) indices.
Definition zcolumn (samples : list Z) (nf j : nat) (indices : list nat) : list Z :=
  map (fun i => nth (i * nf + j) samples 0%Z) indices.

(** Sum, mean and variance (with Bessel's correction) of a list. *)
Definition sum_q (l : list Q) : Q := fold_right Qplus 0%Q l.
Definition count_q (l : list Q) : Q := inject_Z (Z.of_nat (length l)).
Definition mean_q (l : list Q) : Q := (sum_q l / count_q l)%Q.
Definition scatter (l : list Q) : Q := sum_q (map (fun x => (x - mean_q l) * (x - mean_q l))%Q l).
Definition variance_q (l : list Q) : Q := (scatter l / (count_q l - 1))%Q.
(** The squared deviation of the first element, taken once for each element. *)
Definition first_scatter (l : list Q) : Q := (count_q l * ((hd 0 l - mean_q l) * (hd 0 l - mean_q l)))%Q.
Definition sum_z (l : list Z) : Z := fold_right Z.add 0%Z l.

(** The samples [indices] exist. *)
Definition rows_exist {A} (samples : list A) (nf : nat) (indices : list nat) : Prop :=
  forall i, In i indices -> i * nf + nf <= length samples.

(** The results [l], one for each of [width] features, are the numbers [f 0], [f 1], ... *)
Definition values_are (width : nat) (f : nat -> Q) (l : list (option Q)) : Prop :=
  length l = width /\ forall j, j < width -> exists q, nth_error l j = Some (Some q) /\ (q == f j)%Q.

(** [i] is the first position below [n] where [f] is greatest. *)
Definition first_greatest (n : nat) (f : nat -> Q) (i : nat) : Prop :=
  i < n /\ (forall j, j < n -> (f j <= f i)%Q) /\ forall j, j < i -> (f j < f i)%Q.
Definition first_least (n : nat) (f : nat -> Q) (i : nat) : Prop :=
  i < n /\ (forall j, j < n -> (f i <= f j)%Q) /\ forall j, j < i -> (f i < f j)%Q.

(** Number of elements of [l] below [x], number of elements not above [x]. *)
Definition below (l : list Z) (x : Z) : nat := length (filter (fun y => Z.ltb y x) l).
Definition not_above (l : list Z) (x : Z) : nat := length (filter (fun y => Z.leb y x) l).
