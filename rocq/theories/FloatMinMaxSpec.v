(** Specification vocabulary for the rounded min-max scores. *)
From Coq Require Import Reals List ZArith.
From Flocq Require Import Core BinarySingleNaN.
Open Scope R_scope.

(** Finite values none of whose differences overflow. *)
Definition no_overflow {prec emax : Z} (Hp : Prec_gt_0 prec) (Hm : Prec_lt_emax prec emax) (values : list (binary_float prec emax)) : Prop :=
  (forall x, In x values -> is_finite x = true) /\
  (forall x y, In x values -> In y values -> is_finite (Bminus (prec_gt_0_ := Hp) (prec_lt_emax_ := Hm) mode_NE x y) = true).

(** One of the smallest and one of the largest values. *)
Definition smallest {prec emax : Z} (values : list (binary_float prec emax)) (x : binary_float prec emax) : Prop :=
  In x values /\ forall y, In y values -> B2R x <= B2R y.

Definition largest {prec emax : Z} (values : list (binary_float prec emax)) (x : binary_float prec emax) : Prop :=
  In x values /\ forall y, In y values -> B2R y <= B2R x.
