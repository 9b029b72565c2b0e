(** Specification vocabulary for searches in floating point. *)
From Coq Require Import List Arith ZArith Permutation.
From Flocq Require Import Core BinarySingleNaN.
From Verif Require Import Base BoundsModel SortingSpec BufferSpec KDTreeProps FloatModel.
Import ListNotations.

(** At least two bits of precision and a range of exponents that is not smaller than the precision: [float], [double],
    [long double] and also 16-bit formats. *)
Definition format_ok (prec emax : Z) : Prop := (2 <= prec /\ prec + 3 <= emax)%Z.

(** Each squared difference is added exactly once, in whatever order. *)
Definition adds_each_once (order : nat -> grouping) : Prop := forall n, Permutation (terms (order n)) (seq 0 n).

Section Numbers.
Context {prec emax : Z} {Hp : Prec_gt_0 prec} {Hm : Prec_lt_emax prec emax}.

Definition finite_numbers (l : list (binary_float prec emax)) : Prop := Forall (fun x => is_finite x = true) l.

(** What a linear scan computes: each listed sample with its distance to the query. *)
Definition scan (order : nat -> grouping) (samples : list (binary_float prec emax)) (nf : nat)
  (query : list (binary_float prec emax)) (indices : list nat) : list (nat * binary_float prec emax) :=
  map (fun i => (i, euclidean prec emax Hp Hm order (row samples nf i) query)) indices.

(** A dataset of finite numbers, distinct values of a feature further apart than [tol] units, and the samples to be
    indexed. *)
Definition float_input (tol : Z) (samples : list (binary_float prec emax)) (nf : nat)
  (policy : list bool -> list nat -> nat -> aabb -> nat) (indices : list nat) : Prop :=
  (0 <= tol)%Z /\ policy_ok nf policy /\ finite_numbers samples /\
  (forall i, In i indices -> i * nf + nf <= length samples) /\
  (forall j, j < nf -> separated tol (map (encode prec emax) samples) nf j indices).

(** The exact square of the distance, in units of the square of the smallest positive number. *)
Fixpoint exact_square (l r : list (binary_float prec emax)) : Z :=
  match l, r with
  | x :: l', y :: r' => ((encode prec emax x - encode prec emax y) ^ 2 + exact_square l' r')%Z
  | _, _ => 0%Z
  end.
End Numbers.
