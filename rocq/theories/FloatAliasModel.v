(** The alias method on [float] and [double] weights with their rounding. *)
From Coq Require Import List Arith ZArith Bool.
From Flocq Require Import Core BinarySingleNaN.
From Verif Require Import Base RandomModel FloatModel FloatSilhouetteModel.
Import ListNotations.

Section Binary.
Context (prec emax : Z) (Hp : Prec_gt_0 prec) (Hm : Prec_lt_emax prec emax).
Notation number := (binary_float prec emax).
Notation one := (Bone (prec_gt_0_ := Hp) (prec_lt_emax_ := Hm)).

(** The table. /repo/include/ffcl/common/math/random/VosesAliasMethod.hpp:34-36. *)
Record float_table := mk_float_table { f_weights : nat; f_alias : list nat; f_probabilities : list number }.

(** The weights times n / sum; the sum is taken from the left. VosesAliasMethod.hpp:65-71. *)
Definition f_normalize (weights : list number) : list number :=
  let sum := fold_left (Bplus mode_NE) weights (B754_zero false) in
  let norm_fact := Bdiv mode_NE (count prec emax Hp Hm (length weights)) sum in
  map (fun w => Bmult mode_NE w norm_fact) weights.

(** An index goes to the small ones or to the others; one that is not a number is not small.
    VosesAliasMethod.hpp:75-80 and 90-95. *)
Definition f_distribute (n : nat) (fake : list number) (index : nat) (stacks : list nat * list nat) : res (list nat * list nat) :=
  let '(small, large) := stacks in
  x <- rd fake index ;;
  if Bltb x one then small <- push n small index ;; Ok (small, large)
  else large <- push n large index ;; Ok (small, large).

(** [fake_probabilities[large_index] += fake_probabilities[small_index] - 1]. VosesAliasMethod.hpp:88. *)
Definition f_transfer (y x : number) : number := Bplus mode_NE y (Bminus mode_NE x one).

(** The loop [while (n_small && n_large)]. VosesAliasMethod.hpp:82-96. *)
Fixpoint f_pair_up (fuel n : nat) (fake : list number) (small large : list nat) (alias : list nat) (probabilities : list number)
  : res (list nat * list nat * list nat * list number) :=
  match small, large with
  | small_index :: small, large_index :: large =>
    match fuel with
    | 0 => Fuel
    | S fuel =>
      x <- rd fake small_index ;;
      probabilities <- wr probabilities small_index x ;;
      alias <- wr alias small_index large_index ;;
      y <- rd fake large_index ;;
      fake <- wr fake large_index (f_transfer y x) ;;
      ' (small, large) <- f_distribute n fake large_index (small, large) ;;
      f_pair_up fuel n fake small large alias probabilities
    end
  | _, _ => Ok (small, large, alias, probabilities)
  end.

(** The three loops after the distribution of the indices. VosesAliasMethod.hpp:82-102. *)
Definition f_fill (fuel n : nat) (fake : list number) (small large : list nat) (alias : list nat) (probabilities : list number)
  : res (list nat * list number) :=
  ' (small, large, alias, probabilities) <- f_pair_up fuel n fake small large alias probabilities ;;
  probabilities <- for_each large (fun i p => wr p i one) probabilities ;;
  probabilities <- for_each small (fun i p => wr p i one) probabilities ;;
  Ok (alias, probabilities).

(** Constructor and [init]; both arrays start with zeros. VosesAliasMethod.hpp:41-53 and 55-103. *)
Definition f_make_table (weights : list number) : res float_table :=
  let n := length weights in
  if n =? 0 then Throw
  else
    let fake := f_normalize weights in
    ' (small, large) <- for_each (rev (seq 0 n)) (f_distribute n fake) ([], []) ;;
    ' (alias, probabilities) <- f_fill n n fake small large (repeat 0 n) (repeat (B754_zero false) n) ;;
    Ok (mk_float_table n alias probabilities).

(** [static_cast<std::size_t>] of a number: what is behind the point is cut off; undefined for infinities, NaN and numbers
    of -1 or less.  Simplified: [std::size_t] has no upper bound. VosesAliasMethod.hpp:107. *)
Definition f_truncate (x : number) : res nat := if is_finite x && (-1 <? Btrunc x)%Z then Ok (Z.to_nat (Btrunc x)) else UB.

(** [sample]; [first] and [second] are the results of the two calls of [rand_]. VosesAliasMethod.hpp:105-109. *)
Definition f_sample (t : float_table) (first second : number) : res nat :=
  random_index <- f_truncate (Bmult mode_NE (count prec emax Hp Hm (f_weights t)) first) ;;
  p <- rd (f_probabilities t) random_index ;;
  if Bltb second p then Ok random_index else rd (f_alias t) random_index.
End Binary.
