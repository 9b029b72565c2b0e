(** Specification vocabulary for the rounded cosine similarity: the cosine over the reals and its error bound. *)
From Coq Require Import Reals List Arith ZArith.
From Flocq Require Import Core BinarySingleNaN.
From Verif Require Import AccuracySpec.
Import ListNotations.
Open Scope R_scope.

(** The inner product of two vectors, the length of a vector and the cosine of two vectors, in exact arithmetic. *)
Fixpoint true_dot {prec emax : Z} (l r : list (binary_float prec emax)) : R :=
  match l, r with
  | x :: l', y :: r' => B2R x * B2R y + true_dot l' r'
  | _, _ => 0
  end.
Definition true_length {prec emax : Z} (l : list (binary_float prec emax)) : R := sqrt (true_dot l l).
Definition true_cosine {prec emax : Z} (l r : list (binary_float prec emax)) : R := true_dot l r / (true_length l * true_length r).

(** No product of two coordinates underflows: each is zero or at least the smallest normal number. *)
Fixpoint no_underflow {prec emax : Z} (l r : list (binary_float prec emax)) : Prop :=
  match l, r with
  | x :: l', y :: r' => (B2R x * B2R y = 0 \/ bpow radix2 (2 - emax) <= Rabs (B2R x * B2R y)) /\ no_underflow l' r'
  | _, _ => True
  end.

(** What sums of [n] rounded products grow and a product of two rounded lengths shrinks by, relative to the exact one. *)
Definition growth (prec : Z) (n : nat) : R := (1 + roundoff prec) ^ (n + 1).
Definition shrinkage (prec : Z) (n : nat) : R := (1 - roundoff prec) ^ 3 * (2 - growth prec n).
Definition cosine_error (prec : Z) (n : nat) : R := (1 + roundoff prec) * growth prec n / shrinkage prec n - 1.
