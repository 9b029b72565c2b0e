(** Specification vocabulary for condensed trees in floating point. *)
From Coq Require Import Reals List Arith ZArith QArith Qreals.
From Flocq Require Import Core BinarySingleNaN.
From Verif Require Import Base SlinkModel SlinkSpec AccuracySpec FloatCondensedModel.
Import ListNotations.
Open Scope R_scope.

(** The rational number that a finite number stands for. *)
Definition exact {prec emax : Z} (x : binary_float prec emax) : Q :=
  match x with
  | B754_finite s m e _ => (cond_Zopp s (Zpos m) * 2 ^ Z.max 0 e # Z.to_pos (2 ^ Z.max 0 (- e)))%Q
  | _ => 0%Q
  end.

(** The inverse of a level without rounding. *)
Definition exact_inverse {prec emax : Z} (v : binary_float prec emax) : Q := (1 / exact v)%Q.

(** Levels above the epsilon of the type and not among the very largest numbers. *)
Definition ordinary_level (prec emax : Z) (v : binary_float prec emax) : Prop :=
  is_finite v = true /\ bpow radix2 (1 - prec) < B2R v <= bpow radix2 (emax - 2).

(** [k] roundings of values of total size [total]. *)
Definition rounding (prec : Z) (k : nat) (total : R) : R := ((1 + roundoff prec) ^ k - 1) * total.

(** All clusters of a tree with their stabilities. *)
Fixpoint stabilities {D V : Type} (f : fnode D V) : list (slink D * V) :=
  match f with
  | FLeaf s _ q _ => [(s, q)]
  | FSplit s _ q _ l r => (s, q) :: stabilities l ++ stabilities r
  end.
